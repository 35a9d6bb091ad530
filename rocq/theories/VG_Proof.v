(** C23: evaluation of well formed tapes, and what rev_depend computes. *)
From Coq Require Import List Bool Arith Lia.
From Verif Require Import VG_Model.
Import ListNotations.

Section VG.
  Context {A : Type} (B : vbase A).
  Notation nan := (v_nan B).

  Record vlaws : Prop := {
    l_nan : v_isnan B nan = true;
    l_isnan : forall a, v_isnan B a = true -> a = nan;
    l_ideq : forall a b, v_ideq B a b = true -> a = b;
    l_add : forall a b, v_bin B BAdd a b = v_bin B BAdd b a;
    l_mul : forall a b, v_bin B BMul a b = v_bin B BMul b a;
    l_call : forall a i n xs, length (v_call B a i n xs) = n;
    (** rev_depend callback: a result that is needed does not change with the arguments that it does not ask for *)
    l_rdep : forall a i n con ty dy xs xs', length con = length xs -> length ty = length xs -> length dy = n -> length xs' = length xs ->
      (forall k, nth k (v_rdep B a i con ty dy) false = true -> nth k xs nan = nth k xs' nan) ->
      forall y, nth y dy false = true -> nth y (v_call B a i n xs) nan = nth y (v_call B a i n xs') nan;
    (** for_type callback: a result that is constant does not change with the arguments that are not constant *)
    l_ftype : forall a i n con ty xs, length xs = length con -> length ty = length con -> (forall k, nth k ty false = true -> nth k xs nan = nth k con nan) ->
      forall y, nth y (v_ftype B a i con ty n) false = true -> nth y (v_call B a i n xs) nan = nth y (v_call B a i n con) nan;
    l_ftlen : forall a i n con ty, length (v_ftype B a i con ty n) = n }.

  Definition wf_op (cur : nat) (o : vop A) : Prop :=
    Forall (fun v => v < cur) (op_vals o) /\ match o with VCon c => v_isnan B c = false | VVec _ l => Forall (fun v => v < cur) l | _ => True end.
  Fixpoint wf_ops (cur : nat) (l : list (vop A)) : Prop := match l with [] => True | o :: l' => wf_op cur o /\ wf_ops (cur + n_res o) l' end.
  (** a tape made by set_ind, the record functions (record.hpp) and set_dep *)
  Definition wf_tape (t : vtape A) : Prop :=
    exists l, t_ops t = VCon nan :: l /\ wf_ops (t_nind t + 1) l /\ Forall (fun d => d < n_val t) (t_dep t).
  Definition novec (l : list (vop A)) : Prop := Forall (fun o => is_vecop o = false) l.

  (** *** lists *)
  Lemma upd_length {X} i (x : X) l : length (upd i x l) = length l.
  Proof. revert i; induction l as [|y l IH]; intros [|i]; cbn; auto. Qed.
  Lemma upd_nth {X} i j (x d : X) l : nth j (upd i x l) d = if (j =? i) && (i <? length l) then x else nth j l d.
  Proof.
    revert i j; induction l as [|y l IH]; intros [|i] [|j]; cbn [upd nth length]; auto.
    - now rewrite andb_false_r.
    - rewrite IH. change (S j =? S i) with (j =? i). change (S i <? S (length l)) with (i <? length l). auto.
  Qed.
  Lemma nth_error_upd {X} i j (x : X) l : nth_error (upd i x l) j = if (j =? i) && (i <? length l) then Some x else nth_error l j.
  Proof.
    revert i j; induction l as [|y l IH]; intros [|i] [|j]; cbn [upd nth_error length]; auto.
    - now rewrite andb_false_r.
    - rewrite IH. change (S j =? S i) with (j =? i). change (S i <? S (length l)) with (i <? length l). auto.
  Qed.
  Lemma rds_spec l (vs : list A) : forall xs, rds l vs = Some xs -> length xs = length l /\ forall k, k < length l -> nth_error vs (nth k l 0) = Some (nth k xs nan).
  Proof.
    induction l as [|v l IH]; cbn; intros xs H; [injection H as <-; split; auto; intros; lia|].
    destruct (nth_error vs v) as [a|] eqn:E; [|discriminate]. destruct (rds l vs) as [r|]; [|discriminate]. injection H as <-.
    destruct (IH r eq_refl) as [L K]. split; [cbn; auto|]. intros [|k] Hk; cbn; auto. apply K. lia.
  Qed.
  Lemma rds_ok l (vs : list A) : Forall (fun v => v < length vs) l -> exists xs, rds l vs = Some xs.
  Proof.
    induction l as [|v l IH]; cbn; intros H; [eauto|]. inversion H; subst. destruct (IH H3) as (r & ->).
    destruct (nth_error vs v) eqn:E; [eauto|]. apply nth_error_None in E. lia.
  Qed.
  Lemma rds_map f l (vs vs' : list A) : (forall v, In v l -> nth_error vs' (f v) = nth_error vs v) -> rds (map f l) vs' = rds l vs.
  Proof. induction l as [|v l IH]; cbn; intros H; auto. rewrite (H v) by auto. rewrite IH; auto. Qed.
  Lemma rds_app l (vs ws xs : list A) : rds l vs = Some xs -> rds l (vs ++ ws) = Some xs.
  Proof.
    revert xs. induction l as [|v l IH]; cbn; intros xs H; auto. destruct (nth_error vs v) eqn:E; [|discriminate]. rewrite nth_error_app1 by (apply nth_error_Some; congruence). rewrite E.
    destruct (rds l vs); [|discriminate]. now rewrite (IH _ eq_refl).
  Qed.

  (** *** evaluation *)
  Lemma sem_length L o xs r : L -> (L -> vlaws) -> sem B o xs = Some r -> length r = n_res o.
  Proof.
    intros HL LW H. specialize (LW HL).
    destruct o; cbn in H; try discriminate; try (injection H as <-; cbn; auto; apply (l_call LW); fail);
    (destruct xs as [|x1 xs]; [discriminate|]); (destruct xs as [|x2 xs]; try discriminate); try (injection H as <-; reflexivity);
    (destruct xs as [|x3 xs]; try discriminate); try (injection H as <-; reflexivity); (destruct xs as [|x4 xs]; try discriminate);
    (destruct xs as [|x5 xs]; try discriminate); injection H as <-; reflexivity.
  Qed.
  Lemma sem_ok o xs : is_vecop o = false -> n_res o <> 0 \/ (exists a i k l, o = VCall a i k l) -> length xs = length (op_vals o) -> exists r, sem B o xs = Some r.
  Proof.
    intros V N L. destruct o; cbn in *; try discriminate; try (destruct N as [N|(? & ? & ? & ? & N)]; [lia|discriminate]); eauto;
    (destruct xs as [|x1 xs]; [discriminate|]); (destruct xs as [|x2 xs]; try discriminate); eauto;
    (destruct xs as [|x3 xs]; try discriminate); eauto; (destruct xs as [|x4 xs]; try discriminate);
    (destruct xs as [|x5 xs]; try discriminate); eauto.
  Qed.
  (** without dynamic vectors *)
  Lemma ev_ok (LW : vlaws) n s o : wf_op (length (s_val s)) o \/ o = VCon nan -> is_vecop o = false -> exists s', ev_op B n s o = Some s' /\
    length (s_val s') = length (s_val s) + n_res o /\ (exists r, s_val s' = s_val s ++ r) /\ s_vec s' = s_vec s.
  Proof.
    intros W V. assert (Forall (fun v => v < length (s_val s)) (op_vals o)) as W1 by (destruct W as [[W _]| ->]; [auto|constructor]).
    destruct (rds_ok _ _ W1) as (xs & E). pose proof (rds_spec _ _ _ E) as [EL _].
    assert ((exists c l r, o = VComp c l r) \/ (exists b a f v, o = VPri b a f v) \/
      (ev_op B n s o = match sem B o xs with Some r => Some (put_val s r) | None => None end /\ (n_res o <> 0 \/ (exists a i k l, o = VCall a i k l))))
      as [(c & l & r & ->)|[(b & a & f & v & ->)|[D N]]].
    { destruct o; try discriminate V; try (right; right; unfold ev_op; rewrite E; split; [reflexivity|cbn; eauto 8; fail]); [left; eauto|right; left; eauto 8]. }
    - cbn [ev_op]. rewrite E. destruct xs as [|x [|y [|]]]; cbn in EL; try lia. eexists. split; [reflexivity|]. destruct (match c with CNo => true | _ => _ end); cbn; (split; [lia|split; [exists []; now rewrite app_nil_r|auto]]).
    - cbn [ev_op]. destruct (f =? n). { eexists. split; [reflexivity|]. cbn. split; [lia|split; [exists []; now rewrite app_nil_r|auto]]. }
      rewrite E. destruct xs as [|x [|y [|]]]; cbn in EL; try lia. eexists. split; [reflexivity|]. destruct (v_cmp _ _ _ _); cbn; (split; [lia|split; [exists []; now rewrite app_nil_r|auto]]).
    - destruct (sem_ok o xs V) as (r & R); auto.
      rewrite D, R. eexists. split; [reflexivity|]. cbn. rewrite app_length. rewrite (sem_length True o xs r) by auto. split; auto. split; eauto.
  Qed.
  Lemma ev_ops_app n l l' : forall s, ev_ops B n s (l ++ l') = match ev_ops B n s l with Some s' => ev_ops B n s' l' | None => None end.
  Proof. induction l as [|o l IH]; intros s; cbn; auto. destruct (ev_op B n s o); auto. Qed.
  Lemma ev_ops_ok (LW : vlaws) n l : forall s, wf_ops (length (s_val s)) l -> novec l -> exists s', ev_ops B n s l = Some s' /\
    length (s_val s') = length (s_val s) + list_sum (map n_res l) /\ (exists r, s_val s' = s_val s ++ r) /\ s_vec s' = s_vec s.
  Proof.
    induction l as [|o l IH]; intros s W V; cbn [ev_ops map list_sum fold_right].
    - exists s. split; auto. split; [cbn; lia|]. split; auto. exists []. now rewrite app_nil_r.
    - destruct W as [W1 W2]. inversion V as [|? ? V1 V2]; subst. destruct (ev_ok LW n s o (or_introl W1) V1) as (s1 & -> & L1 & (r1 & R1) & E1).
      rewrite <- L1 in W2. destruct (IH s1 W2 V2) as (s2 & -> & L2 & (r2 & R2) & E2). exists s2. split; auto. split; [cbn; unfold list_sum in *; lia|]. split; [|congruence].
      exists (r1 ++ r2). now rewrite R2, R1, app_assoc.
  Qed.
  Definition init (x : list A) : vst A := mkVS x [] 0 [].
  Lemma eval_ok (LW : vlaws) t x : wf_tape t -> novec (t_ops t) -> length x = t_nind t -> exists s, eval B t x = Some s /\
    length (s_val s) = n_val t /\ (exists r, s_val s = x ++ nan :: r) /\ s_vec s = [].
  Proof.
    intros (l & E & W & D) V Hx. unfold eval, n_val. rewrite E in *. inversion V as [|? ? V1 V2]; subst.
    change (ev_ops B (t_nind t) (mkVS x [] 0 []) (VCon nan :: l)) with (ev_ops B (t_nind t) (mkVS (x ++ [nan]) [] 0 []) l).
    destruct (ev_ops_ok LW (t_nind t) l (mkVS (x ++ [nan]) [] 0 [])) as (s' & E1 & L1 & (r & R1) & V3); cbn [s_val s_vec] in *; auto.
    { rewrite app_length. cbn. now rewrite Hx. }
    exists s'. split; auto. rewrite app_length in L1. cbn [length] in L1. split; [cbn; unfold list_sum in *; lia|]. split; auto. exists r. rewrite R1, <- app_assoc. reflexivity.
  Qed.

  (** *** rev_depend *)
  Lemma inc_length nop use v i : length (inc nop use v i) = length use.
  Proof. apply upd_length. Qed.
  Lemma inc_nth nop use v i w : nth w (inc nop use v i) 0 = if (w =? v) && (v <? length use) then (if nth v use 0 =? 0 then i else nop) else nth w use 0.
  Proof. apply upd_nth. Qed.
  Lemma inc_used nop use v i w : i <> 0 -> nop <> 0 -> used (inc nop use v i) w = used use w || ((w =? v) && (v <? length use)).
  Proof.
    intros Hi Hn. unfold used. rewrite inc_nth. destruct ((w =? v) && (v <? length use)) eqn:E; [|now rewrite orb_false_r]. rewrite orb_true_r.
    apply andb_prop in E as [E _]. apply Nat.eqb_eq in E. subst. destruct (nth v use 0 =? 0); [destruct (Nat.eqb_spec i 0)|destruct (Nat.eqb_spec nop 0)]; auto; lia.
  Qed.

  (** the values that operator (i, r, o) counts *)
  Definition kds (con : list A) (use : list nat) (r : nat) (o : vop A) : list (nat * bool) :=
    match o with
    | VComp _ _ _ | VPri _ _ _ _ | VVec _ _ | VStore _ _ _ => []
    | VCall a id n xs => combine xs (v_rdep B a id (map (fun v => nth v con nan) xs) (ty_con B con xs) (map (used use) (seq r n)))
    | VBin _ x y => if used use r then (if x =? y then [(x, true)] else [(x, true); (y, true)]) else []
    | _ => if used use r then map (fun v => (v, true)) (op_vals o) else []
    end.
  Lemma rd_kds nop con i r o s : fst (rd_op B nop con (i, r, o) s) = fold_left (inc_if nop i) (kds con (fst s) r o) (fst s).
  Proof.
    destruct s as [use lastl].
    assert (forall l u, fold_left (fun u v => inc nop u v i) l u = fold_left (inc_if nop i) (map (fun v => (v, true)) l) u) as K by (induction l; intros; cbn; auto).
    destruct o; cbn [rd_op kds fst]; auto; try (destruct (used use r); cbn [fst]; auto; rewrite ?K; reflexivity).
    destruct (used use r); auto. destruct (x =? y); reflexivity.
  Qed.
  Lemma kds_in con use r o k : In k (kds con use r o) -> In (fst k) (op_vals o).
  Proof.
    destruct o; cbn [kds op_vals]; try easy; try (destruct (used use r); [|easy]; rewrite in_map_iff; intros (v & <- & H); auto; fail).
    - destruct (used use r); [|easy]. destruct (x =? y); cbn; intros [<-|H]; auto; destruct H as [<-|[]]; cbn; auto.
    - destruct k. apply in_combine_l.
  Qed.
  Lemma fold_inc_length nop i l : forall use, length (fold_left (inc_if nop i) l use) = length use.
  Proof. induction l as [|[v b] l IH]; intros use; cbn [fold_left]; auto. rewrite IH. unfold inc_if. cbn [fst snd]. destruct b; auto. apply inc_length. Qed.
  Lemma fold_inc_used nop i l : i <> 0 -> nop <> 0 -> forall use w, used (fold_left (inc_if nop i) l use) w = used use w || ((w <? length use) && existsb (fun k => (fst k =? w) && snd k) l).
  Proof.
    intros Hi Hn. induction l as [|[v b] l IH]; intros use w; cbn [fold_left existsb].
    - now rewrite andb_false_r, orb_false_r.
    - rewrite IH. unfold inc_if. cbn [fst snd]. destruct b.
      + rewrite inc_used, inc_length by auto. rewrite andb_true_r. rewrite (Nat.eqb_sym w v). destruct (Nat.eqb_spec v w) as [E|E].
        * subst v. destruct (used use w), (w <? length use), (existsb _ l); reflexivity.
        * cbn. now rewrite orb_false_r.
      + rewrite andb_false_r. cbn. reflexivity.
  Qed.
  (** the number stored: the operator itself or n_op *)
  Lemma fold_inc_val nop i l : forall use w, let z := nth w (fold_left (inc_if nop i) l use) 0 in z = nth w use 0 \/ z = nop \/ (z = i /\ In w (map fst l)).
  Proof.
    induction l as [|[v b] l IH]; intros use w; cbn [fold_left map fst]; cbv zeta; auto. destruct (IH (inc_if nop i use (v, b)) w) as [H|[H|[H1 H2]]]; cbv zeta in *; auto; [|right; right; split; auto; now right].
    rewrite H. unfold inc_if. cbn [fst snd]. destruct b; auto. rewrite inc_nth. destruct ((w =? v) && (v <? length use)) eqn:E; auto. apply andb_prop in E as [E _]. apply Nat.eqb_eq in E. subst w.
    destruct (nth v use 0 =? 0); auto. right; right. split; auto. now left.
  Qed.

  Notation F nop con s l := (fold_right (rd_op B nop con) s l).
  Lemma F_length nop con s l : length (fst (F nop con s l)) = length (fst s).
  Proof. induction l as [|[[i r] o] l IH]; cbn [fold_right]; auto. now rewrite rd_kds, fold_inc_length. Qed.
  Lemma F_high nop con s l : forall i r, wf_ops r l -> forall v, r + list_sum (map n_res l) <= v -> nth v (fst (F nop con s (pos i r l))) 0 = nth v (fst s) 0.
  Proof.
    induction l as [|o l IH]; intros i r W v Hv; cbn [pos fold_right]; auto. destruct W as [W1 W2]. rewrite rd_kds. cbn [map list_sum fold_right] in Hv. fold (list_sum (map n_res l)) in Hv.
    destruct (fold_inc_val nop i (kds con (fst (F nop con s (pos (S i) (r + n_res o) l))) r o) (fst (F nop con s (pos (S i) (r + n_res o) l))) v) as [H|[H|[H1 H2]]]; cbv zeta in *.
    - rewrite H. apply IH; auto. lia.
    - assert (forall l' u, ~ In v (map fst l') -> nth v (fold_left (inc_if nop i) l' u) 0 = nth v u 0) as K.
      { clear. induction l' as [|[w b] l' IH]; intros u N; cbn [fold_left]; auto. rewrite IH by (intros H; apply N; now right). unfold inc_if; cbn [fst snd]. destruct b; auto. rewrite inc_nth.
        destruct (Nat.eqb_spec v w); auto. subst. destruct N. now left. }
      rewrite K; [apply IH; auto; lia|]. intros Hin. apply in_map_iff in Hin as (k & Ek & Hk). apply kds_in in Hk. destruct W1 as [W1 _]. rewrite Forall_forall in W1. apply W1 in Hk. lia.
    - exfalso. apply in_map_iff in H2 as (k & Ek & Hk). apply kds_in in Hk. destruct W1 as [W1 _]. rewrite Forall_forall in W1. apply W1 in Hk. lia.
  Qed.
  (** an operator counts values before its result only *)
  Lemma F_ge nop con s l i r o : wf_op r o -> forall v, r <= v -> nth v (fst (rd_op B nop con (i, r, o) (F nop con s l))) 0 = nth v (fst (F nop con s l)) 0.
  Proof.
    intros W v Hv. rewrite rd_kds. set (use := fst (F nop con s l)).
    assert (forall l' u, ~ In v (map fst l') -> nth v (fold_left (inc_if nop i) l' u) 0 = nth v u 0) as K.
    { clear. induction l' as [|[w b] l' IH]; intros u N; cbn [fold_left]; auto. rewrite IH by (intros H; apply N; now right). unfold inc_if; cbn [fst snd]. destruct b; auto. rewrite inc_nth.
      destruct (Nat.eqb_spec v w); auto. subst. destruct N. now left. }
    apply K. intros Hin. apply in_map_iff in Hin as (k & Ek & Hk). apply kds_in in Hk. destruct W as [W1 _]. rewrite Forall_forall in W1. apply W1 in Hk. lia.
  Qed.

  (** what the passes use: [closed] for one operator *)
  Definition closed (use : list nat) (r : nat) (o : vop A) : Prop :=
    match o with
    | VComp _ _ _ | VPri _ _ _ _ | VVec _ _ | VStore _ _ _ => True
    | VCall a id n xs => exists con ty, length con = length xs /\ length ty = length xs /\ forall k v, nth_error xs k = Some v ->
        nth k (v_rdep B a id con ty (map (used use) (seq r n))) false = true -> used use v = true
    | _ => used use r = true -> forall v, In v (op_vals o) -> used use v = true
    end.
  Lemma pos_ge i' r' o' (l : list (vop A)) : forall i0 r0, In (i', r', o') (pos i0 r0 l) -> r0 <= r' /\ i0 <= i'.
  Proof. induction l as [|o0 l IH]; cbn; intros i0 r0 H; [easy|]. destruct H as [H|H]; [inversion H; lia|]. apply IH in H. lia. Qed.
  Lemma F_closed nop con s : nop <> 0 -> forall l i r, i <> 0 -> wf_ops r l -> r + list_sum (map n_res l) <= length (fst s) ->
    (forall v, used (fst s) v = true -> used (fst (F nop con s (pos i r l))) v = true) /\
    (forall e, In e (pos i r l) -> closed (fst (F nop con s (pos i r l))) (snd (fst e)) (snd e)).
  Proof.
    intros Hn. induction l as [|o l IH]; intros i r Hi W HL; cbn [pos fold_right]; [split; [auto|easy]|].
    destruct W as [W1 W2]. cbn [map list_sum fold_right] in HL. fold (list_sum (map n_res l)) in HL.
    destruct (IH (S i) (r + n_res o) ltac:(lia) W2 ltac:(lia)) as [I1 I2]. set (S' := F nop con s (pos (S i) (r + n_res o) l)) in *.
    assert (forall v, used (fst S') v = true -> used (fst (rd_op B nop con (i, r, o) S')) v = true) as M.
    { intros v Hv. rewrite rd_kds, fold_inc_used by auto. now rewrite Hv. }
    assert (forall v, r <= v -> used (fst (rd_op B nop con (i, r, o) S')) v = used (fst S') v) as G.
    { intros v Hv. unfold used. unfold S'. now rewrite (F_ge nop con s (pos (S i) (r + n_res o) l) i r o W1 v Hv). }
    split; [auto|]. intros e [<-|He]; cbn [fst snd].
    - destruct W1 as [W1 _]. rewrite Forall_forall in W1. assert (length (fst S') = length (fst s)) as LS by apply F_length.
      assert (used (fst (rd_op B nop con (i, r, o) S')) r = used (fst S') r) as Gr by (apply G; lia).
      assert (forall v, In v (op_vals o) -> existsb (fun k => (fst k =? v) && snd k) (kds con (fst S') r o) = true -> used (fst (rd_op B nop con (i, r, o) S')) v = true) as U.
      { intros v Hv HE. rewrite rd_kds, fold_inc_used by auto. rewrite HE, andb_true_r. specialize (W1 v Hv). destruct (Nat.ltb_spec v (length (fst S'))); [now rewrite orb_true_r|]. lia. }
      destruct o; cbn [closed]; auto; try (rewrite Gr; intros HU v Hv; apply U; auto; cbn [kds]; rewrite HU; apply existsb_exists;
        try (exists (v, true); split; [now apply (in_map (fun v => (v, true)))|cbn; now rewrite Nat.eqb_refl]); fail).
      + rewrite Gr. intros HU v Hv. apply U; auto. cbn [kds]. rewrite HU. destruct (Nat.eqb_spec x y) as [<-|]; cbn; destruct Hv as [<-|[<-|[]]]; rewrite ?Nat.eqb_refl; cbn; auto. now rewrite orb_true_r.
      + exists (map (fun v => nth v con nan) xs), (ty_con B con xs). split; [apply map_length|]. split; [apply map_length|]. intros k v Hk Hd.
        replace (map (used (fst (rd_op B nop con (i, r, VCall atom id nres xs) S'))) (seq r nres)) with (map (used (fst S')) (seq r nres)) in Hd.
        2:{ apply map_ext_in. intros w Hw. apply in_seq in Hw. rewrite G; auto; lia. }
        apply U; [eapply nth_error_In; eauto|]. cbn [kds]. apply existsb_exists. exists (v, true). split; [|cbn; now rewrite Nat.eqb_refl].
        match goal with |- context [v_rdep ?a ?b ?c ?d ?e ?f] => generalize dependent (v_rdep a b c d e f) end. intros dx Hd. clear - Hk Hd. revert dx k Hk Hd. induction xs as [|x xs IH]; intros dx [|k] Hk Hd; cbn in *; try discriminate.
        * injection Hk as ->. destruct dx as [|[] dx]; cbn in Hd; try discriminate. now left.
        * destruct dx as [|d dx]; cbn in *; [discriminate|]. right. eauto.
    - specialize (I2 e He). destruct e as [[i' r'] o']. cbn [fst snd] in *.
      assert (r <= r') as Hr. { apply pos_ge in He. lia. }
      destruct o'; cbn [closed] in *; auto; try (rewrite G by lia; intros HU v Hv; apply M; auto; fail).
      destruct I2 as (con0 & ty & Lc & Lt & I2). exists con0, ty. split; [auto|]. split; [auto|]. intros k v Hk Hd. apply M. eapply I2; eauto.
      rewrite <- Hd. f_equal. f_equal. apply map_ext_in. intros w Hw. apply in_seq in Hw. rewrite G; auto; lia.
  Qed.
End VG.
