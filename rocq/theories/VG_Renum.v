(** C23: renumber keeps every value of a tape without dynamic vectors. *)
From Coq Require Import List Bool Arith Lia.
From Verif Require Import VG_Model VG_Proof VG_Dead.
Import ListNotations.

Section VG.
  Context {A : Type} (B : vbase A) (LW : vlaws B).
  Notation nan := (v_nan B).

  (** *** all the values of an evaluation *)
  (** operator [o] with first result [r], when [vs] are the values of the tape *)
  Definition sat (vs : list A) (r : nat) (o : vop A) : Prop :=
    match o with
    | VComp _ _ _ | VPri _ _ _ _ | VVec _ _ | VLoad _ _ | VStore _ _ _ => True
    | _ => exists xs ys, rds (op_vals o) vs = Some xs /\ sem B o xs = Some ys /\ forall k, k < n_res o -> nth_error vs (r + k) = nth_error ys k
    end.
  Lemma sat_val vs r o : is_vecop o = false -> n_res o <> 0 -> sat vs r o ->
    exists xs ys, rds (op_vals o) vs = Some xs /\ sem B o xs = Some ys /\ forall k, k < n_res o -> nth_error vs (r + k) = nth_error ys k.
  Proof. destruct o; cbn [is_vecop n_res sat]; try discriminate; auto; intros; lia. Qed.
  Lemma ev_ext n (l : list (vop A)) : novec l -> forall s s', ev_ops B n s l = Some s' -> exists r, s_val s' = s_val s ++ r.
  Proof.
    intros V. induction V as [|o l V1 V IH]; cbn; intros s s' H; [injection H as <-; exists []; now rewrite app_nil_r|].
    destruct (ev_op B n s o) as [s1|] eqn:E; [|discriminate]. apply IH in H as (r & H). rewrite H.
    assert (exists r1, s_val s1 = s_val s ++ r1) as (r1 & ->); [|exists (r1 ++ r); now rewrite app_assoc].
    destruct o; try discriminate V1; cbn [ev_op] in E; try (destruct (rds _ _); [|discriminate]; destruct (sem _ _ _) as [zz|]; [|discriminate]; injection E as <-; exists zz; reflexivity).
    - destruct (rds _ _) as [us|]; [|discriminate]. destruct us as [|u1 [|u2 [|]]]; try discriminate E. injection E as <-. exists []. rewrite app_nil_r. destruct (match c with CNo => true | _ => _ end); reflexivity.
    - destruct (flag =? n); [injection E as <-; exists []; now rewrite app_nil_r|]. destruct (rds _ _) as [us|]; [|discriminate]. destruct us as [|u1 [|u2 [|]]]; try discriminate E.
      injection E as <-. exists []. rewrite app_nil_r. destruct (v_cmp _ _ _ _); reflexivity.
  Qed.
  Lemma ev_sat n (l : list (vop A)) : forall i s s', wf_ops B (length (s_val s)) l -> novec l -> ev_ops B n s l = Some s' ->
    forall e, In e (pos i (length (s_val s)) l) -> sat (s_val s') (snd (fst e)) (snd e).
  Proof.
    induction l as [|o l IH]; intros i s s' W V E e He; [easy|]. cbn [ev_ops] in E. destruct W as [W1 W2]. inversion V as [|? ? V1 V2]; subst.
    destruct (ev_op B n s o) as [s1|] eqn:E1; [|discriminate]. destruct (ev_ok B LW n s o (or_introl W1) V1) as (s2 & E2 & L2 & _). rewrite E1 in E2. injection E2 as <-.
    destruct He as [<-|He]; cbn [fst snd].
    - destruct (ev_ext n l V2 s1 s' E) as (w & Hw).
      destruct o; try discriminate V1; cbn [sat]; auto; cbn [ev_op] in E1;
      (match type of E1 with context [rds ?a ?b] => destruct (rds a b) as [xs0|] eqn:EX; [|discriminate] end;
       match type of E1 with context [sem ?a ?b ?c] => destruct (sem a b c) as [ys0|] eqn:EY; [|discriminate] end;
       injection E1 as <-; cbn [put_val s_val] in *; exists xs0, ys0; split; [rewrite Hw; apply rds_app; apply rds_app; exact EX|]; split; [exact EY|];
       intros k Hk; rewrite Hw, <- app_assoc, nth_error_app2 by lia; replace (length (s_val s) + k - length (s_val s)) with k by lia; apply nth_error_app1;
       pose proof (sem_length B True _ _ _ Logic.I (fun _ => LW) EY) as LY; rewrite LY; auto).
    - rewrite <- L2 in *. eapply IH; eauto.
  Qed.

  Lemma leqb_eq l : forall l', leqb l l' = true -> l = l'.
  Proof. induction l as [|x l IH]; intros [|y l']; cbn; try discriminate; auto. intros H. apply andb_prop in H as [H1 H2]. apply Nat.eqb_eq in H1. subst. f_equal. auto. Qed.
  Lemma rds_nvi (nvi : list nat) (vs : list A) r l : Forall (fun v => v < r) l -> (forall v, v < r -> nth_error vs (nth v nvi 0) = nth_error vs v) ->
    rds (map (fun v => nth v nvi 0) l) vs = rds l vs.
  Proof. intros H K. apply rds_map. intros v Hv. rewrite Forall_forall in H. auto. Qed.
  Lemma rds_app2 l l' (vs : list A) : rds (l ++ l') vs = match rds l vs, rds l' vs with Some a, Some b => Some (a ++ b) | _, _ => None end.
  Proof. induction l as [|v l IH]; cbn; [now destruct (rds l' vs)|]. destruct (nth_error vs v); auto. rewrite IH. destruct (rds l vs), (rds l' vs); auto. Qed.
  Lemma rds_rev l (vs : list A) xs : rds l vs = Some xs -> rds (rev l) vs = Some (rev xs).
  Proof.
    revert xs. induction l as [|v l IH]; cbn; intros xs H; [injection H as <-; auto|]. destruct (nth_error vs v) as [a|] eqn:E; [|discriminate]. destruct (rds l vs) as [ys|]; [|discriminate].
    injection H as <-. rewrite rds_app2, (IH _ eq_refl). cbn. now rewrite E.
  Qed.

  (** operators that match have the same results *)
  Lemma same_sem (nvi : list nat) (vs : list A) r o oj xs xj : same_op B nvi o oj = true -> is_vecop o = false ->
    Forall (fun v => v < r) (op_vals o) -> Forall (fun v => v < r) (op_vals oj) -> (forall v, v < r -> nth_error vs (nth v nvi 0) = nth_error vs v) ->
    rds (op_vals o) vs = Some xs -> rds (op_vals oj) vs = Some xj -> sem B o xs = sem B oj xj /\ n_res o = n_res oj.
  Proof.
    intros H V W Wj K X Xj. unfold same_op in H. apply andb_prop in H as [H0 H]. apply andb_prop in H0 as [H0 H1].
    apply Nat.eqb_eq in H0. apply eqb_prop in H1.
    assert (leqb (map (fun v => nth v nvi 0) (op_vals o)) (map (fun v => nth v nvi 0) (op_vals oj)) = true -> xs = xj) as Same.
    { intros L. apply leqb_eq in L. rewrite <- (rds_nvi nvi vs r _ W K), L, (rds_nvi nvi vs r _ Wj K), Xj in X. congruence. }
    assert (leqb (map (fun v => nth v nvi 0) (op_vals o)) (rev (map (fun v => nth v nvi 0) (op_vals oj))) = true -> xs = rev xj) as Swap.
    { intros L. apply leqb_eq in L. rewrite <- (rds_nvi nvi vs r _ W K), L, <- map_rev in X. rewrite (rds_nvi nvi vs r) in X; auto; [|now apply Forall_rev]. rewrite (rds_rev _ _ _ Xj) in X. congruence. }
    destruct o, oj; try discriminate V; try discriminate H1; try discriminate H0; cbn [op_num] in H0; try (destruct u; discriminate H0); try (destruct b; discriminate H0); try (destruct u, b; discriminate H0).
    - apply (l_ideq B LW) in H. subst. auto.
    - rewrite orb_false_r in H. apply andb_prop in H as [_ H]. rewrite (Same H). split; auto. destruct u, u0; try discriminate H0; [auto|]. assert (k = k0) by lia. now subst.
    - destruct (rds_spec B _ _ _ Xj) as [LX _]. destruct xj as [|u [|v [|]]]; try discriminate LX. split; auto.
      destruct b, b0; try discriminate H0; rewrite ?orb_false_r in H; try (apply andb_prop in H as [_ H]; rewrite (Same H); reflexivity);
      (apply orb_prop in H as [H|H]; [apply andb_prop in H as [_ H]; rewrite (Same H); reflexivity|rewrite (Swap H); cbn; f_equal; f_equal]); [apply (l_add B LW)|apply (l_mul B LW)].
    - rewrite orb_false_r in H. apply andb_prop in H as [H2 H]. rewrite (Same H). apply leqb_eq in H2. injection H2 as ->. auto.
    - rewrite orb_false_r in H. apply andb_prop in H as [H2 H]. rewrite (Same H). apply leqb_eq in H2. cbn [op_other] in H2. injection H2 as _ -> -> ->. auto.
    - rewrite orb_false_r in H. apply andb_prop in H as [H2 H]. rewrite (Same H). apply leqb_eq in H2. cbn [op_other] in H2. injection H2 as H3 _ _. cbn. now rewrite H3.
    - rewrite orb_false_r in H. apply andb_prop in H as [H2 H]. rewrite (Same H). apply leqb_eq in H2. cbn [op_other] in H2. destruct c, c0; try discriminate H2; auto.
    - auto.
    - auto.
  Qed.

  (** *** the relation between the old and the new operators *)
  Definition cmp_false (vs : list A) (o : vop A) : bool :=
    match o with VComp c l r => match c with CNo => false | _ => negb (v_cmp B c (nth l vs nan) (nth r vs nan)) end | _ => false end.
  Definition prints (n : nat) (vs : list A) (o : vop A) : list (nat * nat * A) :=
    match o with VPri b a f v => if f =? n then [] else if v_cmp B CLe (nth f vs nan) (v_zero B) then [(b, a, nth v vs nan)] else [] | _ => [] end.
  Inductive rel (n : nat) (vs : list A) : list (vop A) -> list (vop A) -> list (vop A) -> Prop :=
  | rel_nil K : rel n vs K [] []
  | rel_same K o l l' : rel n vs (o :: K) l l' -> rel n vs K (o :: l) (o :: l')
  | rel_comp K c x y l l' oj : In oj K -> cmp_false vs oj = cmp_false vs (VComp c x y) -> rel n vs K l l' -> rel n vs K (VComp c x y :: l) (VComp CNo x y :: l')
  | rel_pri K b a f v l l' oj : In oj K -> prints n vs oj = prints n vs (VPri b a f v) -> rel n vs K l l' -> rel n vs K (VPri b a f v :: l) (VPri b a n v :: l').

  Definition entry_ok (vs : list A) (n r : nat) (K : list (vop A)) (e : nat * nat * vop A) : Prop :=
    let '(j, rj, oj) := e in sat vs rj oj /\ n < rj /\ rj + n_res oj <= r /\ Forall (fun v => v < rj) (op_vals oj) /\ (n_res oj = 0 -> In oj K).
  Record nvi_ok (n nv r : nat) (vs : list A) (nvi : list nat) : Prop := {
    k_len : length nvi = nv;
    k_low : forall v, v <= n -> v < nv -> nth v nvi 0 = v;
    k_le : forall v, v < nv -> nth v nvi 0 <= v;
    k_high : forall v, n < v -> v < nv -> n < nth v nvi 0;
    k_id : forall v, r <= v -> v < nv -> nth v nvi 0 = v;
    k_val : forall v, v < nv -> nth_error vs (nth v nvi 0) = nth_error vs v }.

  Lemma rn_rel n nv nh first vs : length vs = nv -> forall l i r nvi T K, wf_ops B r l -> novec l -> n < r -> r + list_sum (map n_res l) <= nv ->
    (forall e, In e (pos i r l) -> sat vs (snd (fst e)) (snd e)) -> nvi_ok n nv r vs nvi -> (forall c e, In e (nth c T []) -> entry_ok vs n r K e) ->
    exists G os, rn_ops B n nh first nvi T (pos i r l) = Some (G, os) /\ nvi_ok n nv nv vs G /\ rel n vs K l os.
  Proof.
    intros LV. induction l as [|o l IH]; intros i r nvi T K W V Hr HL SA N HT; cbn [pos rn_ops].
    - exists nvi, []. split; auto. split; [|constructor]. destruct N. constructor; auto. intros; lia.
    - destruct W as [W1 W2]. inversion V as [|? ? V1 V2]; subst x l0. cbn [map list_sum fold_right] in HL. fold (list_sum (map n_res l)) in HL.
      assert (forall K', (forall x, In x K -> In x K') -> forall c e, In e (nth c T []) -> entry_ok vs n (r + n_res o) K' e) as HT'.
      { intros K' HK c [[j rj] oj] He. destruct (HT c _ He) as (Q1 & Q2 & Q3 & Q4 & Q5). repeat split; auto. lia. }
      assert (forall e, In e (pos (S i) (r + n_res o) l) -> sat vs (snd (fst e)) (snd e)) as S' by (intros e He; apply SA; now right).
      assert (nvi_ok n nv (r + n_res o) vs nvi) as N' by (destruct N; constructor; auto; intros; apply k_id0; auto; lia).
      unfold match_op. cbn [snd].
      assert (match o with VCon c => v_isnan B c | _ => false end = false) as NS by (destruct o; auto; apply W1). rewrite NS.
      set (code := hash_code B nh nvi o).
      assert (forall T', (forall c e, In e (nth c T' []) -> entry_ok vs n (r + n_res o) (o :: K) e) ->
        exists G os, match rn_ops B n nh first nvi T' (pos (S i) (r + n_res o) l) with Some (v, os0) => Some (v, o :: os0) | None => None end = Some (G, os) /\ nvi_ok n nv nv vs G /\ rel n vs K (o :: l) os) as Keep.
      { intros T' H'. destruct (IH (S i) (r + n_res o) nvi T' (o :: K) W2 V2 ltac:(lia) ltac:(lia) S' N' H') as (G & os & -> & R1 & R2).
        exists G, (o :: os). split; auto. split; auto. now constructor. }
      destruct (find (fun ej => same_op B nvi o (snd ej)) (nth code T [])) as [[[j rj] oj]|] eqn:EF.
      + apply find_some in EF as [HF SO]. cbn [snd] in SO. destruct (HT code _ HF) as (Q1 & Q2 & Q3 & Q4 & Q5).
        destruct (j =? i). { apply Keep. apply HT'. intros; now right. }
        assert (Forall (fun v => v < r) (op_vals oj)) as Q4' by (eapply Forall_impl; [|exact Q4]; cbn; intros; lia).
        assert (forall v, v < r -> nth_error vs (nth v nvi 0) = nth_error vs v) as KV by (intros; apply (k_val _ _ _ _ _ N); lia).
        assert (exists xs xj, rds (op_vals o) vs = Some xs /\ rds (op_vals oj) vs = Some xj) as (xs & xj & X & Xj).
        { destruct (rds_ok (op_vals o) vs) as (xs & X); [eapply Forall_impl; [|exact (proj1 W1)]; cbn; intros; lia|].
          destruct (rds_ok (op_vals oj) vs) as (xj & Xj); [eapply Forall_impl; [|exact Q4']; cbn; intros; lia|]. eauto. }
        destruct (same_sem nvi vs r o oj xs xj SO V1 (proj1 W1) Q4' KV X Xj) as [SS NR].
        assert (n_res o <> 0 \/ (exists a id k zs, o = VCall a id k zs) -> (forall k, k < n_res o -> nth_error vs (rj + k) = nth_error vs (r + k))) as VR.
        { intros NZ k Hk. pose proof (SA (i, r, o) (or_introl eq_refl)) as S0. cbn [fst snd] in S0.
          assert (is_vecop oj = false) as Vj. { unfold same_op in SO. apply andb_prop in SO as [SO _]. apply andb_prop in SO as [_ SO]. apply eqb_prop in SO. congruence. }
          destruct (sat_val vs rj oj Vj ltac:(lia) Q1) as (a1 & b1 & A1 & A2 & A3). destruct (sat_val vs r o V1 ltac:(lia) S0) as (a2 & b2 & B1 & B2 & B3).
          rewrite Xj in A1; injection A1 as <-; rewrite X in B1; injection B1 as <-; rewrite SS, A2 in B2; injection B2 as <-. rewrite (A3 k), B3 by lia. auto. }
        assert (nvi_ok n nv (r + n_res o) vs (set_range r rj (n_res o) nvi) \/ n_res o = 0) as NN.
        { destruct (Nat.eq_dec (n_res o) 0) as [Z|Z]; [now right|left]. pose proof (VR (or_introl Z)) as VR0.
          assert (r + n_res o <= length nvi) as LN by (rewrite (k_len _ _ _ _ _ N); lia).
          destruct N. constructor; auto.
          - now rewrite set_range_length.
          - intros v H1 H2. rewrite set_range_nth by auto. destruct (Nat.leb_spec r v); [lia|]. cbn [andb]. auto.
          - intros v H1. rewrite set_range_nth by auto. destruct (Nat.leb_spec r v), (Nat.ltb_spec v (r + n_res o)); cbn [andb]; auto. lia.
          - intros v H1 H2. rewrite set_range_nth by auto. destruct (Nat.leb_spec r v), (Nat.ltb_spec v (r + n_res o)); cbn [andb]; auto. lia.
          - intros v H1 H2. rewrite set_range_nth by auto. destruct (Nat.leb_spec r v), (Nat.ltb_spec v (r + n_res o)); cbn [andb]; auto; try lia.
          - intros v H1. rewrite set_range_nth by auto. destruct (Nat.leb_spec r v), (Nat.ltb_spec v (r + n_res o)); cbn [andb]; auto.
            replace (nth_error vs v) with (nth_error vs (r + (v - r))) by (f_equal; lia). apply VR0. lia. }
        assert (forall os0 G0, nvi_ok n nv (r + n_res o) vs G0 ->
          (forall os, rel n vs (o :: K) l os -> rel n vs K (o :: l) (os0 os)) ->
          exists G os, match rn_ops B n nh first G0 T (pos (S i) (r + n_res o) l) with Some (v, os1) => Some (v, os0 os1) | None => None end = Some (G, os) /\ nvi_ok n nv nv vs G /\ rel n vs K (o :: l) os) as Go.
        { intros os0 G0 NG RR. destruct (IH (S i) (r + n_res o) G0 T (o :: K) W2 V2 ltac:(lia) ltac:(lia) S' NG (HT' (o :: K) ltac:(intros; now right))) as (G & os & -> & R1 & R2).
          exists G, (os0 os). auto. }
        destruct o; try discriminate V1; try (destruct NN as [NN|NN]; [|discriminate NN]; apply (Go (cons _)); [exact NN|intros os HR; now constructor]).
        * (* call *) destruct (Nat.eq_dec nres 0) as [Z|Z]; [replace (set_range r rj (n_res (VCall atom id nres xs0)) nvi) with nvi by (cbn [n_res]; now rewrite Z); apply (Go (cons _)); [exact N'|intros os HR; now constructor]|].
          destruct NN as [NN|NN]; [|cbn in NN; lia]. apply (Go (cons _)); [exact NN|intros os HR; now constructor].
        * (* comparison *)
          destruct (IH (S i) (r + n_res (VComp c l0 r0)) nvi T K W2 V2 ltac:(lia) ltac:(lia) S' N' (HT' K ltac:(auto))) as (G & os & -> & R1 & R2).
          exists G, (VComp CNo l0 r0 :: os). split; auto. split; auto. apply rel_comp with (oj := oj); auto.
          unfold same_op in SO. apply andb_prop in SO as [SO1 SO]. apply andb_prop in SO1 as [SO1 SO2]. apply Nat.eqb_eq in SO1. apply eqb_prop in SO2.
          destruct oj; try discriminate SO1; try discriminate SO2; try (destruct u; discriminate SO1); try (destruct b; discriminate SO1).
          rewrite orb_false_r in SO. apply andb_prop in SO as [SO3 SO4]. apply leqb_eq in SO3, SO4. cbn [op_other] in SO3.
          assert (c = c0) by (destruct c, c0; try discriminate SO3; auto). subst c0. unfold cmp_false. cbn [op_vals map] in *. injection SO4 as E1 E2.
          inversion Q4' as [|? ? P1 P2]; subst. inversion P2 as [|? ? P3 _]; subst. destruct W1 as [W1 _]. cbn [op_vals] in W1. inversion W1 as [|? ? P4 P5]; subst. inversion P5 as [|? ? P6 _]; subst.
          assert (forall u w, u < r -> w < r -> nth u nvi 0 = nth w nvi 0 -> nth u vs nan = nth w vs nan) as EQ.
          { intros u w H1 H2 H3. pose proof (KV u H1) as A1. pose proof (KV w H2) as A2. rewrite H3 in A1. rewrite A1 in A2.
            rewrite (nth_error_nth' vs nan) in A2 by lia. rewrite (nth_error_nth' vs nan) in A2 by lia. congruence. }
          rewrite (EQ l1 l0), (EQ r1 r0); auto.
        * (* print *)
          destruct (IH (S i) (r + n_res (VPri before after flag value)) nvi T K W2 V2 ltac:(lia) ltac:(lia) S' N' (HT' K ltac:(auto))) as (G & os & -> & R1 & R2).
          exists G, (VPri before after n value :: os). split; auto. split; auto. apply rel_pri with (oj := oj); auto.
          unfold same_op in SO. apply andb_prop in SO as [SO1 SO]. apply andb_prop in SO1 as [SO1 SO2]. apply Nat.eqb_eq in SO1. apply eqb_prop in SO2.
          destruct oj; try discriminate SO1; try discriminate SO2; try (destruct u; discriminate SO1); try (destruct b; discriminate SO1).
          rewrite orb_false_r in SO. apply andb_prop in SO as [SO3 SO4]. apply leqb_eq in SO3, SO4. cbn [op_other op_vals map] in *. injection SO3 as -> ->. injection SO4 as E1 E2.
          inversion Q4' as [|? ? P1 P2]; subst. inversion P2 as [|? ? P3 _]; subst. destruct W1 as [W1 _]. cbn [op_vals] in W1. inversion W1 as [|? ? P4 P5]; subst. inversion P5 as [|? ? P6 _]; subst.
          assert (forall u w, u < r -> w < r -> nth u nvi 0 = nth w nvi 0 -> nth u vs nan = nth w vs nan) as EQ.
          { intros u w H1 H2 H3. pose proof (KV u H1) as A1. pose proof (KV w H2) as A2. rewrite H3 in A1. rewrite A1 in A2.
            rewrite (nth_error_nth' vs nan) in A2 by lia. rewrite (nth_error_nth' vs nan) in A2 by lia. congruence. }
          unfold prints. rewrite (EQ flag0 flag), (EQ value0 value) by auto.
          assert ((flag0 =? n) = (flag =? n)) as ->; auto.
          assert (forall u, u < r -> (nth u nvi 0 =? n) = (u =? n)) as FN.
          { intros u Hu. destruct (Nat.lt_trichotomy u n) as [H|[H|H]].
            - rewrite (k_low _ _ _ _ _ N) by lia. auto. - rewrite (k_low _ _ _ _ _ N) by lia. auto.
            - pose proof (k_high _ _ _ _ _ N u H ltac:(lia)). destruct (Nat.eqb_spec (nth u nvi 0) n), (Nat.eqb_spec u n); auto; lia. }
          rewrite <- (FN flag0), <- (FN flag) by auto. now rewrite E1.
      + apply Keep. intros c e He. rewrite upd_nth in He. destruct ((c =? code) && (code <? length T)) eqn:EC; [|apply (HT' (o :: K)) with c; auto; intros; now right].
        apply in_app_or in He as [He|[<-|[]]]; [apply (HT' (o :: K)) with code; auto; intros; now right|].
        split; [apply (SA (i, r, o)); now left|]. split; [auto|]. split; [lia|]. split; [apply W1|]. intros _. now left.
  Qed.

  (** *** evaluation of the new operators *)
  Lemma rds_prefix (vs ws : list A) G l : Forall (fun v => v < length vs) l -> (forall v, v < length vs -> G v <= v) -> (forall v, v < length (vs ++ ws) -> nth_error (vs ++ ws) (G v) = nth_error (vs ++ ws) v) ->
    rds (map G l) vs = rds l vs.
  Proof.
    intros H L K. apply rds_map. intros v Hv. rewrite Forall_forall in H. specialize (H v Hv). specialize (K v ltac:(rewrite app_length; lia)).
    rewrite nth_error_app1 in K by (specialize (L v H); lia). rewrite nth_error_app1 in K by auto. auto.
  Qed.
  Lemma rel_sim n vs G K l l' : rel n vs K l l' -> (forall v, v < length vs -> G v <= v) -> (forall v, v <= n -> v < length vs -> G v = v) -> (forall v, n < v -> v < length vs -> n < G v) -> (forall v, v < length vs -> nth_error vs (G v) = nth_error vs v) ->
    forall s s' ns, n < length (s_val s) -> wf_ops B (length (s_val s)) l -> novec l -> ev_ops B n s l = Some s' -> s_val s' = vs -> s_val ns = s_val s ->
    (s_cf ns = 0 <-> s_cf s = 0) -> (s_cf s = 0 -> forall o, In o K -> cmp_false vs o = false) ->
    incl (s_out ns) (s_out s) -> incl (s_out s) (s_out ns) -> (forall o, In o K -> incl (prints n vs o) (s_out ns)) ->
    exists ns', ev_ops B n ns (map (map_vals G) l') = Some ns' /\ s_val ns' = vs /\ (s_cf ns' = 0 <-> s_cf s' = 0) /\ incl (s_out ns') (s_out s') /\ incl (s_out s') (s_out ns') /\
      wf_ops B (length (s_val s)) (map (map_vals G) l') /\ novec (map (map_vals G) l') /\ map n_res (map (map_vals G) l') = map n_res l.
  Proof.
    intros R GL GN GH GV. induction R as [K|K o l l' R IH|K c x y l l' oj HI HC R IH|K b a f v l l' oj HI HC R IH]; intros s s' ns Hn W V E EV NV CF CK O1 O2 OK; cbn [map ev_ops] in *.
    - injection E as <-. exists ns. rewrite NV. repeat split; auto; try tauto; try (constructor).
    - destruct W as [W1 W2]. inversion V as [|? ? V1 V2]; subst x l0. destruct (ev_op B n s o) as [s1|] eqn:E1; [|discriminate].
      destruct (ev_ok B LW n s o (or_introl W1) V1) as (s2 & E2 & L2 & (r1 & R1) & _). rewrite E1 in E2. injection E2 as <-.
      destruct (ev_ext n l V2 s1 s' E) as (w & Hw). rewrite EV in Hw. rewrite <- L2 in W2.
      assert (vs = s_val s ++ (r1 ++ w)) as Hvs by (rewrite Hw, R1, app_assoc; auto).
      assert (forall v, v < length (s_val s) -> G v < length (s_val s)) as GB by (intros v Hv; specialize (GL v ltac:(rewrite Hvs, app_length; lia)); lia).
      assert (rds (map G (op_vals o)) (s_val s) = rds (op_vals o) (s_val s)) as RR.
      { apply (rds_prefix _ (r1 ++ w)); [apply W1|intros v Hv; apply GL; rewrite Hvs, app_length; lia|rewrite <- Hvs; auto]. }
      assert (wf_op B (length (s_val s)) (map_vals G o)) as WO.
      { destruct W1 as [W1 W1']. split; [|destruct o; auto; discriminate V1]. rewrite op_vals_map. rewrite Forall_forall in W1 |- *. intros u Hu. apply in_map_iff in Hu as (v & <- & Hv). auto. }
      assert (forall v, v < length (s_val s) -> nth v vs nan = nth v (s_val s) nan) as NTH by (intros v Hv; rewrite Hvs; apply app_nth1; auto).
      assert (exists ns1, ev_op B n ns (map_vals G o) = Some ns1 /\ s_val ns1 = s_val s1 /\ (s_cf ns1 = 0 <-> s_cf s1 = 0) /\ (s_cf s1 = 0 -> forall o', In o' (o :: K) -> cmp_false vs o' = false) /\
        incl (s_out ns1) (s_out s1) /\ incl (s_out s1) (s_out ns1) /\ (forall o', In o' (o :: K) -> incl (prints n vs o') (s_out ns1))) as (ns1 & D1 & D2 & D3 & D4 & D5 & D6 & D7).
      { assert ((exists c l r, o = VComp c l r) \/ (exists b a f v, o = VPri b a f v) \/
         ((forall s0 G0, ev_op B n s0 (map_vals G0 o) = match rds (map G0 (op_vals o)) (s_val s0) with Some xs => match sem B o xs with Some r => Some (put_val s0 r) | None => None end | None => None end) /\
          cmp_false vs o = false /\ prints n vs o = [])) as [(c & lf & rt & ->)|[(b & a & f & v & ->)|(D & Dc & Dp)]].
        { destruct o; try discriminate V1; try (right; right; split; [intros s0 G0; cbn [ev_op map_vals]; rewrite <- op_vals_map; cbn [op_vals map_vals]; try reflexivity|split; reflexivity]); [|left; repeat eexists|right; left; repeat eexists].
          match goal with |- context [rds ?a ?b] => destruct (rds a b); [|reflexivity] end. cbn [sem]. now rewrite map_length. }
        - cbn [ev_op op_vals map_vals] in *. cbn [map] in RR. rewrite NV, RR. destruct (rds [lf; rt] (s_val s)) as [us|] eqn:EX; [|discriminate].
          pose proof (rds_spec B _ _ _ EX) as [LU KU]. destruct us as [|u1 [|u2 [|]]]; try discriminate LU. eexists; split; [reflexivity|].
          pose proof (KU 0 ltac:(cbn; lia)) as K0. pose proof (KU 1 ltac:(cbn; lia)) as K1. cbn in K0, K1.
          assert (lf < length (s_val s) /\ rt < length (s_val s)) as [P1 P2]. { destruct W1 as [W1 _]. cbn in W1. inversion W1 as [|? ? Q1 Q2]; subst. inversion Q2; subst. auto. }
          assert (cmp_false vs (VComp c lf rt) = negb match c with CNo => true | _ => v_cmp B c u1 u2 end) as CFE.
          { unfold cmp_false. rewrite !NTH by auto. rewrite (nth_error_nth _ _ nan K0), (nth_error_nth _ _ nan K1). destruct c; reflexivity. }
          injection E1 as <-. destruct (match c with CNo => true | _ => v_cmp B c u1 u2 end) eqn:EC; cbn [s_val s_cf s_out negb] in *.
          + split; [auto|]. split; [auto|]. split; [intros Z o' [<-|Ho]; auto|]. split; [auto|]. split; [auto|]. intros o' [<-|Ho]; [cbn; easy|auto].
          + split; [auto|]. split; [lia|]. split; [lia|]. split; [auto|]. split; [auto|]. intros o' [<-|Ho]; [cbn; easy|auto].
        - cbn [ev_op op_vals map_vals] in *. cbn [map] in RR.
          assert (f < length (s_val s) /\ v < length (s_val s)) as [P1 P2]. { destruct W1 as [W1 _]. cbn in W1. inversion W1 as [|? ? Q1 Q2]; subst. inversion Q2; subst. auto. }
          assert (length (s_val s) <= length vs) as LE by (rewrite Hvs, app_length; lia).
          assert ((G f =? n) = (f =? n)) as FN. { destruct (Nat.le_gt_cases f n) as [H|H]; [rewrite (GN f H) by lia; auto|]. pose proof (GH f H ltac:(lia)). destruct (Nat.eqb_spec (G f) n), (Nat.eqb_spec f n); auto; lia. }
          rewrite FN. destruct (f =? n) eqn:EFN.
          { injection E1 as <-. exists ns. split; [auto|]. split; [auto|]. split; [auto|]. split; [intros Z o' [<-|Ho]; auto|]. split; [auto|]. split; [auto|]. intros o' [<-|Ho]; [unfold prints; rewrite EFN; easy|auto]. }
          rewrite NV, RR. destruct (rds [f; v] (s_val s)) as [us|] eqn:EX; [|discriminate].
          pose proof (rds_spec B _ _ _ EX) as [LU KU]. destruct us as [|u1 [|u2 [|]]]; try discriminate LU. eexists; split; [reflexivity|].
          pose proof (KU 0 ltac:(cbn; lia)) as K0. pose proof (KU 1 ltac:(cbn; lia)) as K1. cbn in K0, K1.
          assert (prints n vs (VPri b a f v) = if v_cmp B CLe u1 (v_zero B) then [(b, a, u2)] else []) as PFE.
          { unfold prints. rewrite EFN, !NTH by auto. now rewrite (nth_error_nth _ _ nan K0), (nth_error_nth _ _ nan K1). }
          injection E1 as <-. destruct (v_cmp B CLe u1 (v_zero B)) eqn:EC; cbn [s_val s_cf s_out] in *.
          + split; [auto|]. split; [auto|]. split; [intros Z o' [<-|Ho]; auto|]. split; [apply incl_app_app; auto using incl_refl|]. split; [apply incl_app_app; auto using incl_refl|].
            intros o' [<-|Ho]; [rewrite PFE; apply incl_appr, incl_refl|apply incl_appl; auto].
          + split; [auto|]. split; [auto|]. split; [intros Z o' [<-|Ho]; auto|]. split; [auto|]. split; [auto|]. intros o' [<-|Ho]; [rewrite PFE; easy|auto].
        - rewrite D, NV, RR. assert (ev_op B n s o = match rds (op_vals o) (s_val s) with Some xs => match sem B o xs with Some r => Some (put_val s r) | None => None end | None => None end) as DO.
          { specialize (D s (fun v => v)). rewrite map_id in D. rewrite <- D. f_equal. clear. destruct o; cbn; auto; now rewrite ?map_id. }
          rewrite DO in E1. destruct (rds (op_vals o) (s_val s)) as [xs|]; [|discriminate]. destruct (sem B o xs) as [ys|]; [|discriminate]. injection E1 as <-.
          exists (put_val ns ys). cbn [put_val s_val s_cf s_out] in *. split; [auto|]. split; [now rewrite NV|]. split; [auto|]. split; [intros Z o' [<-|Ho]; auto|]. split; [auto|]. split; [auto|]. intros o' [<-|Ho]; [rewrite Dp; easy|auto]. }
      rewrite D1. destruct (IH s1 s' ns1 ltac:(lia) W2 V2 E EV D2 D3 D4 D5 D6 D7) as (ns' & N1 & N2 & N3 & N4 & N5 & N6 & N7 & N8).
      exists ns'. split; [auto|]. split; [auto|]. split; [auto|]. split; [auto|]. split; [auto|]. split; [split; [auto|rewrite n_res_map, <- L2; auto]|]. split; [|now rewrite n_res_map, N8].
      constructor; [now rewrite is_vecop_map|auto].
    - destruct W as [W1 W2]. inversion V as [|? ? V1 V2]; subst x0 l0. destruct (ev_op B n s (VComp c x y)) as [s1|] eqn:E1; [|discriminate].
      destruct (ev_ok B LW n s (VComp c x y) (or_introl W1) V1) as (s2 & E2 & L2 & (r1 & R1) & _). rewrite E1 in E2. injection E2 as <-.
      destruct (ev_ext n l V2 s1 s' E) as (w & Hw). rewrite EV in Hw. cbn [n_res] in *. rewrite <- L2 in W2.
      assert (vs = s_val s ++ (r1 ++ w)) as Hvs by (rewrite Hw, R1, app_assoc; auto).
      assert (forall v, v < length (s_val s) -> G v < length (s_val s)) as GB by (intros v Hv; specialize (GL v ltac:(rewrite Hvs, app_length; lia)); lia).
      assert (rds (map G [x; y]) (s_val s) = rds [x; y] (s_val s)) as RR.
      { apply (rds_prefix _ (r1 ++ w)); [apply W1|intros v Hv; apply GL; rewrite Hvs, app_length; lia|rewrite <- Hvs; auto]. }
      assert (forall v, v < length (s_val s) -> nth v vs nan = nth v (s_val s) nan) as NTH by (intros v Hv; rewrite Hvs; apply app_nth1; auto).
      assert (x < length (s_val s) /\ y < length (s_val s)) as [P1 P2]. { destruct W1 as [W1 _]. cbn in W1. inversion W1 as [|? ? Q1 Q2]; subst. inversion Q2; subst. auto. }
      cbn [ev_op op_vals map_vals] in *. cbn [map] in RR. rewrite NV, RR. destruct (rds [x; y] (s_val s)) as [us|] eqn:EX; [|discriminate].
      pose proof (rds_spec B _ _ _ EX) as [LU KU]. destruct us as [|u1 [|u2 [|]]]; try discriminate LU.
      pose proof (KU 0 ltac:(cbn; lia)) as K0. pose proof (KU 1 ltac:(cbn; lia)) as K1. cbn in K0, K1.
      assert (cmp_false vs (VComp c x y) = negb match c with CNo => true | _ => v_cmp B c u1 u2 end) as CFE.
      { unfold cmp_false. rewrite !NTH by auto. rewrite (nth_error_nth _ _ nan K0), (nth_error_nth _ _ nan K1). destruct c; reflexivity. }
      assert (s_cf ns = 0 <-> s_cf s1 = 0) as CF1.
      { injection E1 as <-. destruct (match c with CNo => true | _ => v_cmp B c u1 u2 end) eqn:EC; cbn [s_cf negb] in *; auto.
        split; [|lia]. intros Z. apply CF in Z. specialize (CK Z oj HI). rewrite HC, CFE in CK. discriminate. }
      assert (s_out s1 = s_out s /\ s_val s1 = s_val s /\ (s_cf s1 = 0 -> s_cf s = 0)) as (O & VV & CZ) by (injection E1 as <-; destruct (match c with CNo => true | _ => v_cmp B c u1 u2 end); cbn; auto; repeat split; auto; lia).
      destruct (IH s1 s' ns) as (ns' & N1 & N2 & N3 & N4 & N5 & N6 & N7 & N8); auto; rewrite ?O, ?VV; auto.
      exists ns'. split; [auto|]. split; [auto|]. split; [auto|]. split; [auto|]. split; [auto|]. rewrite VV in N6. split; [split; [|rewrite Nat.add_0_r; auto]|split; [|now rewrite N8]].
      + split; auto. cbn. constructor; auto.
      + constructor; auto.
    - destruct W as [W1 W2]. inversion V as [|? ? V1 V2]; subst x l0. destruct (ev_op B n s (VPri b a f v)) as [s1|] eqn:E1; [|discriminate].
      destruct (ev_ok B LW n s (VPri b a f v) (or_introl W1) V1) as (s2 & E2 & L2 & (r1 & R1) & _). rewrite E1 in E2. injection E2 as <-.
      destruct (ev_ext n l V2 s1 s' E) as (w & Hw). rewrite EV in Hw. cbn [n_res] in *. rewrite <- L2 in W2.
      assert (vs = s_val s ++ (r1 ++ w)) as Hvs by (rewrite Hw, R1, app_assoc; auto).
      assert (forall v, v < length (s_val s) -> G v < length (s_val s)) as GB by (intros u Hu; specialize (GL u ltac:(rewrite Hvs, app_length; lia)); lia).
      assert (forall v, v < length (s_val s) -> nth v vs nan = nth v (s_val s) nan) as NTH by (intros u Hu; rewrite Hvs; apply app_nth1; auto).
      assert (f < length (s_val s) /\ v < length (s_val s)) as [P1 P2]. { destruct W1 as [W1 _]. cbn in W1. inversion W1 as [|? ? Q1 Q2]; subst. inversion Q2; subst. auto. }
      assert (G n = n) as Gn by (apply GN; auto; rewrite Hvs, app_length; lia).
      cbn [ev_op op_vals map_vals]. rewrite Gn, Nat.eqb_refl.
      assert (s_out s1 = s_out s ++ prints n vs (VPri b a f v) /\ s_val s1 = s_val s /\ s_cf s1 = s_cf s) as (O & VV & CZ).
      { cbn [ev_op op_vals] in E1. unfold prints. destruct (f =? n); [injection E1 as <-; rewrite app_nil_r; auto|]. destruct (rds [f; v] (s_val s)) as [us|] eqn:EX; [|discriminate].
        pose proof (rds_spec B _ _ _ EX) as [LU KU]. destruct us as [|u1 [|u2 [|]]]; try discriminate LU.
        pose proof (KU 0 ltac:(cbn; lia)) as K0. pose proof (KU 1 ltac:(cbn; lia)) as K1. cbn in K0, K1. rewrite !NTH by auto. rewrite (nth_error_nth _ _ nan K0), (nth_error_nth _ _ nan K1).
        injection E1 as <-. destruct (v_cmp _ _ _ _); cbn; rewrite ?app_nil_r; auto. }
      destruct (IH s1 s' ns) as (ns' & N1 & N2 & N3 & N4 & N5 & N6 & N7 & N8); auto; rewrite ?O, ?VV, ?CZ; auto.
      + apply incl_appl; auto.
      + apply incl_app; auto. rewrite <- HC. auto.
      + exists ns'. split; [auto|]. split; [auto|]. split; [auto|]. split; [auto|]. split; [auto|]. rewrite VV in N6. split; [split; [|rewrite Nat.add_0_r; auto]|split; [|now rewrite N8]].
        * split; auto. cbn. constructor; [rewrite ?Gn; auto|constructor; auto].
        * constructor; auto.
  Qed.

  Lemma rel_in n vs K l l' o : rel n vs K l l' -> In o l' -> is_sum o = true -> In o l.
  Proof. induction 1; cbn; auto; intros [<-|Q1] Q2; auto; discriminate. Qed.
  Lemma is_sum_map g (o : vop A) : is_sum (map_vals g o) = is_sum o. Proof. destruct o; reflexivity. Qed.

  Theorem renumber_correct t : wf_tape B t -> novec (t_ops t) ->
    exists t', renumber B t = Some t' /\ t_nind t' = t_nind t /\ wf_tape B t' /\ novec (t_ops t') /\ n_val t' = n_val t /\ n_op t' = n_op t /\
      forall x, length x = t_nind t -> exists s s' y, eval B t x = Some s /\ eval B t' x = Some s' /\ s_val s' = s_val s /\
        (s_cf s' = 0 <-> s_cf s = 0) /\ incl (s_out s') (s_out s) /\ incl (s_out s) (s_out s') /\ rds (t_dep t) (s_val s) = Some y /\ rds (t_dep t') (s_val s') = Some y /\
        forall o1, In o1 (t_ops t') -> is_sum o1 = true -> exists o, In o (t_ops t) /\ is_sum o = true /\ forall v1, In v1 (op_vals o1) -> exists v, In v (op_vals o) /\ nth_error (s_val s) v1 = nth_error (s_val s) v.
  Proof.
    intros WT V. pose proof WT as (l & E & W & D). set (n := t_nind t) in *.
    assert (n_val t = n + 1 + list_sum (map n_res l)) as NV by (unfold n_val; rewrite E; cbn; unfold list_sum; fold n; lia).
    assert (novec l) as VL by (rewrite E in V; now inversion V).
    unfold renumber. fold n. rewrite E. cbn [pos n_res]. set (nh := 1 + n_val t / 2).
    set (N0 := seq 0 (n_val t)). set (T0 := repeat (@nil (nat * nat * vop A)) nh).
    assert (forall c e, In e (nth c T0 []) -> False) as T0E.
    { intros c e He. unfold T0 in He. destruct (Nat.lt_ge_cases c nh) as [H|H]; [|rewrite nth_overflow in He by (rewrite repeat_length; lia); easy]. rewrite nth_repeat in He. easy. }
    assert (forall x, length x = n -> exists s G os, eval B t x = Some s /\ length (s_val s) = n_val t /\ ev_ops B n (mkVS (x ++ [nan]) [] 0 []) l = Some s /\
      rn_ops B n nh (0, n, VCon nan) N0 T0 (pos 1 (n + 1) l) = Some (G, os) /\ nvi_ok n (n_val t) (n_val t) (s_val s) G /\ rel n (s_val s) [] l os) as Q.
    { intros x Hx. destruct (eval_ok B LW t x WT V Hx) as (s & EV & LS & _). assert (ev_ops B n (mkVS (x ++ [nan]) [] 0 []) l = Some s) as ES by (unfold eval in EV; rewrite E in EV; exact EV).
      exists s. destruct (rn_rel n (n_val t) nh (0, n, VCon nan) (s_val s) LS l 1 (n + 1) N0 T0 []) as (G & os & R1 & R2 & R3); auto; try lia.
      - assert (n + 1 = length (s_val (mkVS (x ++ [nan]) [] 0 []))) as LL by (cbn; rewrite app_length; cbn; lia). rewrite LL in *. eapply ev_sat; eauto.
      - unfold N0. constructor; rewrite ?seq_length; auto; intros v Hv; try intros Hv'; rewrite ?seq_nth; auto; lia.
      - intros c e He. destruct (T0E c e He).
      - exists G, os. auto 8. }
    destruct (Q (repeat nan n) (repeat_length _ _)) as (s1 & G & os & E1 & L1 & F1 & R1 & K1 & RL1).
    assert (rn_ops B n nh (0, n, VCon nan) N0 T0 ((0, n, VCon nan) :: pos 1 (n + 1) l) = Some (G, VCon nan :: os)) as RN.
    { cbn [rn_ops]. unfold match_op. cbn [snd]. rewrite (l_nan B LW). cbn [Nat.eqb]. rewrite R1. reflexivity. }
    rewrite RN. set (g := fun v => nth v G 0).
    exists (mkVT n (map (map_vals g) (VCon nan :: os)) (map g (t_dep t))). split; [reflexivity|]. split; [reflexivity|].
    assert (forall x, length x = n -> exists s s', eval B t x = Some s /\ length (s_val s) = n_val t /\ ev_ops B n (mkVS (x ++ [nan]) [] 0 []) (map (map_vals g) os) = Some s' /\ s_val s' = s_val s /\
      (s_cf s' = 0 <-> s_cf s = 0) /\ incl (s_out s') (s_out s) /\ incl (s_out s) (s_out s') /\ nvi_ok n (n_val t) (n_val t) (s_val s) G /\
      wf_ops B (n + 1) (map (map_vals g) os) /\ novec (map (map_vals g) os) /\ map n_res (map (map_vals g) os) = map n_res l) as Z.
    { intros x Hx. destruct (Q x Hx) as (s & G' & os' & E2 & L2 & F2 & R2 & K2 & RL2). rewrite R1 in R2. injection R2 as <- <-. exists s.
      destruct (rel_sim n (s_val s) g [] l os RL2) with (s := mkVS (x ++ [nan]) [] 0 []) (s' := s) (ns := mkVS (x ++ [nan]) [] 0 []) as (s' & M1 & M2 & M3 & M4 & M5 & M6 & M7 & M8);
        cbn [s_val s_cf s_out]; auto using incl_refl; rewrite ?L2; unfold g; try apply K2; try easy.
      - rewrite app_length; cbn; lia.
      - rewrite app_length, Hx; auto.
      - exists s'. cbn [s_val] in M6. rewrite app_length, Hx in M6. cbn [length] in M6. auto 15. }
    rewrite Forall_forall in D. destruct (Z (repeat nan n) (repeat_length _ _)) as (s2 & s2' & _ & _ & _ & _ & _ & _ & _ & _ & Z1 & Z2 & Z3).
    assert (n_val (mkVT n (map (map_vals g) (VCon nan :: os)) (map g (t_dep t))) = n_val t) as NVE.
    { rewrite NV. unfold n_val. cbn [t_nind t_ops map map_vals n_res]. rewrite Z3. cbn. unfold list_sum. lia. }
    split; [|split; [|split; [|split]]]; auto.
    - exists (map (map_vals g) os). cbn [t_ops t_nind t_dep]. split; auto. split; auto. rewrite NVE. apply Forall_forall. intros w Hw. apply in_map_iff in Hw as (d & <- & Hd).
      pose proof (k_le _ _ _ _ _ K1 d (D d Hd)). pose proof (D d Hd). unfold g. lia.
    - cbn [t_ops map]. constructor; auto.
    - unfold n_op. cbn [t_ops]. rewrite E, map_length. cbn. f_equal. rewrite <- (map_length n_res l), <- Z3, !map_length. auto.
    - intros x Hx. destruct (Z x Hx) as (s & s' & Y1 & Y2 & Y3 & Y4 & Y5 & Y6 & Y7 & Y8 & _).
      destruct (rds_ok (t_dep t) (s_val s)) as (y & EY). { apply Forall_forall. intros d Hd. rewrite Y2. auto. }
      exists s, s', y. split; auto. split; [exact Y3|]. split; auto. split; auto. split; auto. split; auto. split; auto. split.
      { cbn [t_dep]. rewrite Y4, <- EY. apply rds_map. intros v Hv. apply (k_val _ _ _ _ _ Y8). auto. }
      cbn [t_ops]. intros o1 Ho HS. apply in_map_iff in Ho as (o & <- & Ho). rewrite is_sum_map in HS. destruct Ho as [<-|Ho]; [discriminate HS|]. exists o.
      assert (In o l) as Hol by (eapply rel_in; eauto). split; [now right|]. split; auto. intros v1 Hv1. rewrite op_vals_map in Hv1. apply in_map_iff in Hv1 as (v & <- & Hv). exists v. split; auto. apply (k_val _ _ _ _ _ Y8).
      rewrite NV. clear - W Hol Hv. revert W. generalize (n + 1). induction l as [|o0 l0 IH]; [easy|]. intros c [[W1 _] W2]. cbn [map list_sum fold_right]. fold (list_sum (map n_res l0)). destruct Hol as [->|Hol]; [rewrite Forall_forall in W1; specialize (W1 v Hv); lia|]. specialize (IH Hol _ W2). lia.
  Qed.
End VG.
