(** Forward mode drivers (one direction): what is stored is determined by the
    input coefficients (any Base). *)
From Coq Require Import ZArith List Bool Arith Lia FunctionalExtensionality.
From Verif Require Import Base_Spec Op_Model Tape_Spec Tape_Model Tape_Proof Tape_Proof2
  Sweep_Model Sweep_Eqs Sweep_Eqs2 Sweep_Tape Sweep_Uniq Drv_Model Drv_Proof.
Import ListNotations.

Section Drv.
  Context {b : base} (TL : taylor_laws b).
  Notation T := (bt b).
  Variable bnat : nat -> T.
  Variable junk : nat -> T.
  Notation ins_sat P := (ins_sat bnat P).

  (** a well formed operation sequence with [n] independent variables *)
  Record twf (r : rec b) (n : nat) (dep : list nat) (l : list ins) : Prop := {
    w_dec : decode (r_op r) (r_arg r) 0 = Some l;
    w_wfl : wfl (length (r_par r)) 0 0 l;
    w_nf : Forall (fun i => i_op i <> FunrvOp) l;
    w_nv : r_nvar r = tres l;
    w_inv : forall j, j < n -> exists i, In i l /\ i_op i = InvOp /\ i_var i = S j;
    w_inv2 : forall i, In i l -> i_op i = InvOp -> 0 < i_var i <= n;
    w_dep : Forall (fun a => 0 < a < r_nvar r) dep;
    w_n : 0 < n }.

  (** [f] stores the coefficients determined by the inputs [X k] (order k) *)
  Record stored (l : list ins) (f : adq b) (X : nat -> list T) : Prop := {
    s_sweep : exists V0 l0 t,
      sweep0 (d_par f) (d_cc f) l 0 (init0 (d_rec f) V0 l0) = Some t /\
      (forall j, j < d_n f -> V0 (S j) = nth j (X 0) b0) /\
      (forall v, 0 < v < r_nvar (d_rec f) -> view1 f v 0 = f_V t v) /\
      (forall m, m < nload l -> d_l2v f m = f_l2v t m);
    s_ld : Forall (ld_ok (d_l2v f)) l;
    s_sat : forall k, 1 <= k < d_ord f -> Forall (ins_sat (d_par f) (view1 f) (d_l2v f) k) l;
    s_in : forall j k, j < d_n f -> k < d_ord f -> view1 f (S j) k = nth j (X k) b0 }.
  Record valid (l : list ins) (f : adq b) (X : nat -> list T) : Prop := {
    v_twf : twf (d_rec f) (d_n f) (d_dep f) l;
    v_cap : d_ord f <= d_cap f;
    v_dir : 0 < d_ord f -> d_dir f = 1;
    v_skip : forall j, d_skip f j = false;
    v_st : 0 < d_ord f -> stored l f X }.

  Lemma set_row_spec (x : list T) : forall V q j v k,
    set_row V q j x v k = if (k =? q) && (S j <=? v) && (v <? S j + length x) then nth (v - S j) x b0 else V v k.
  Proof.
    induction x as [|c x IH]; intros V q j v k; cbn [set_row length].
    - destruct (Nat.leb_spec (S j) v), (Nat.ltb_spec v (S j + 0)), (k =? q); cbn; auto; lia.
    - rewrite IH. unfold pset. destruct (Nat.eqb_spec k q); cbn [andb]; [|now rewrite andb_false_r].
      destruct (Nat.leb_spec (S (S j)) v), (Nat.ltb_spec v (S (S j) + length x)),
        (Nat.leb_spec (S j) v), (Nat.ltb_spec v (S j + S (length x))); cbn [andb]; try lia;
        destruct (Nat.eqb_spec v (S j)); cbn [andb]; try lia; auto.
      + replace (v - S j) with (S (v - S (S j))) by lia. auto.
      + subst. now rewrite Nat.sub_diag.
  Qed.

  (** loads only refer to earlier variables, after a zero order sweep *)
  Lemma sweep0_ld (P : nat -> T) np cc l : forall nv nl k (s t : fst0 b), wfl np nv nl l ->
    (forall j, f_skip s j = false) -> vec_ok nv (f_isv s) (f_idx s) -> sweep0 P cc l k s = Some t ->
    Forall (ld_ok (f_l2v t)) l /\ (forall m, m < nl -> f_l2v t m = f_l2v s m).
  Proof.
    induction l as [|i l IH]; intros nv nl k s t W HS VO H; cbn [sweep0] in H.
    - injection H as <-. auto.
    - rewrite HS in H. destruct (step0 P cc i k s) as [s1|] eqn:S1; [|discriminate].
      pose proof W as (Hiv & W1 & HC & HL & HB & W2).
      destruct (step0_vec P np nv nl l cc i k s s1 W S1 VO) as (V1 & V2 & V3).
      destruct (IH (nv + num_res (i_op i)) (if is_load (i_op i) then S nl else nl) (S k) s1 t) as [L1 L2]; auto.
      { intros j. rewrite V2. auto. }
      assert (forall m, m <> nl -> f_l2v s1 m = f_l2v s m) as K.
      { intros m Hm. destruct (is_load (i_op i)) eqn:L.
        - apply V3; auto. rewrite HL; auto.
        - destruct (subs (i_op i) (i_arg i) (i_var i)) eqn:E.
          + destruct i as [o a iv]. cbn [i_op i_arg i_var] in *. unfold step0 in S1.
            destruct (sem0 o a P (f_V s)) eqn:S0; [injection S1 as <-; auto|].
            destruct o; discriminate.
          + destruct (step0_none_V P cc i k s s1) as [_ ->]; auto. }
      split.
      + constructor; auto. intros L. rewrite L in *. destruct (V3 eq_refl) as [V4 _].
        rewrite HL in * by auto. rewrite L2 by lia.
        assert (num_res (i_op i) = 1) as NR by (destruct (i_op i); try discriminate; auto). lia.
      + intros m Hm. rewrite L2; [|destruct (is_load (i_op i)); lia]. apply K. lia.
  Qed.

  Lemma sweep_any_skip (P : nat -> T) np cc lo up l : forall nv nl k s s', wfl np nv nl l ->
    (forall j, q_skip s j = false) -> sweep_any bnat P cc lo up l k s = Some s' -> forall j, q_skip s' j = false.
  Proof.
    induction l as [|i l IH]; intros nv nl k s s' W HS H; cbn [Sweep_Model.sweep_any] in H.
    - injection H as <-. auto.
    - rewrite HS in H. destruct (step_any bnat P cc lo up i k s) as [s1|] eqn:E; [|discriminate].
      pose proof W as (Hiv & W1 & HC & HL & HB & W2).
      refine (IH _ _ _ s1 s' W2 _ H). intros j.
      assert (q_skip s1 = q_skip s) as ->; [|auto].
      pose proof W1 as (_ & _ & _ & NC). destruct i as [o a iv]. cbn [i_op i_arg i_var] in *.
      unfold step_any in E. destruct (subs o a iv); [injection E as <-; auto|].
      assert (forall t, step0 P cc (mkIns o a iv) k (to0 s) = Some t -> f_skip t = q_skip s) as K.
      { intros t Ht. apply step0_skip in Ht; auto. }
      destruct (step0 P cc (mkIns o a iv) k (to0 s)) as [t|] eqn:E0.
      + specialize (K t eq_refl). destruct o; cbn [option_map] in E; try discriminate;
          try (destruct (lo =? 0)); injection E as <-; cbn; auto.
      + destruct o; cbn [option_map] in E; try discriminate;
          try (destruct (lo =? 0)); try discriminate; injection E as <-; cbn; auto.
  Qed.

  Lemma ins_sat_ext_all (P : nat -> T) np l : forall nv nl V V' (l2v l2v' : nat -> nat) j, wfl np nv nl l ->
    Forall (ld_ok l2v) l ->
    (forall v k, v < nv + tres l -> k <= j -> V v k = V' v k) -> (forall m, nl <= m -> l2v m = l2v' m) ->
    Forall (ins_sat P V l2v j) l -> Forall (ins_sat P V' l2v' j) l.
  Proof.
    induction l as [|i l IH]; intros nv nl V V' l2v l2v' j W LO H HL S; constructor.
    - inversion LO; inversion S; subst. cbn [tres] in H.
      apply (ins_sat_ext bnat P np nv nl l i V V' l2v l2v' j W); auto. intros; apply H; lia.
    - inversion LO; inversion S; subst. cbn [tres] in H. pose proof W as (Hiv & W1 & HC & HN & HB & W2).
      apply (IH _ _ V V' l2v l2v' j W2); auto.
      + intros; apply H; lia.
      + intros m Hm. apply HL. destruct (is_load (i_op i)); lia.
  Qed.

  Lemma tres_bound np l : forall nv nl, wfl np nv nl l -> forall i, In i l -> 0 < num_res (i_op i) -> i_var i < nv + tres l.
  Proof.
    induction l as [|h l IH]; intros nv nl W i []; pose proof W as (Hiv & _ & _ & _ & _ & W2); cbn [tres].
    - subst. lia.
    - intros Hr. specialize (IH _ _ W2 i H Hr). lia.
  Qed.

  (** the inputs after a call Forward(q, xq) *)
  Definition upd (n q : nat) (xq : list T) (X : nat -> list T) : nat -> list T :=
    fun k => if length xq =? n then (if k =? q then xq else X k)
             else map (fun j => nth ((q + 1) * j + k) xq b0) (seq 0 n).
  (** lowest order computed *)
  Definition low (n q : nat) (xq : list T) : nat := if length xq =? n then q else 0.

  Lemma low_p n q (xq : list T) : 0 < n ->
    (length xq =? n) || (length xq =? n * (q + 1)) = true -> q + 1 - length xq / n = low n q xq.
  Proof.
    intros Hn H. unfold low. destruct (Nat.eqb_spec (length xq) n) as [->|Hne].
    - rewrite Nat.div_same by lia. lia.
    - cbn in H. apply Nat.eqb_eq in H. rewrite H, Nat.mul_comm, Nat.div_mul by lia. lia.
  Qed.

  (** the result of a successful Forward(q, xq) *)
  Definition yout (f' : adq b) (n q : nat) (xq : list T) : list T :=
    if low n q xq =? q then map (fun a => view1 f' a q) (d_dep f')
    else flat_map (fun a => map (fun k => view1 f' a k) (seq 0 (q + 1))) (d_dep f').

  Lemma row0_of0V (V : nat -> nat -> T) i : row0 V i = V i 0.
  Proof. reflexivity. Qed.

  Lemma forward_valid l f X q xq ys f' : valid l f X -> forward bnat junk f q xq = Some (ys, f') ->
    valid l f' (upd (d_n f) q xq X) /\ d_ord f' = q + 1 /\
    ys = yout f' (d_n f) q xq /\
    d_rec f' = d_rec f /\ d_n f' = d_n f /\ d_dep f' = d_dep f /\ d_par f' = d_par f /\ d_cc f' = d_cc f /\
    (forall v k, v < r_nvar (d_rec f) -> k < low (d_n f) q xq -> view1 f' v k = view1 f v k) /\
    low (d_n f) q xq <= d_ord f.
  Proof.
    intros [W VC VD VS ST] H. unfold forward in H. pose proof (w_n _ _ _ _ W) as Hn.
    destruct ((length xq =? d_n f) || (length xq =? d_n f * (q + 1))) eqn:EL; [|discriminate].
    cbn [negb] in H. rewrite (low_p _ _ _ Hn EL) in H. set (n := d_n f) in *.
    set (p := low n q xq) in *.
    assert (p = q \/ p = 0 /\ length xq = n * (q + 1) /\ length xq <> n) as Hp.
    { unfold p, low. destruct (Nat.eqb_spec (length xq) n); auto. right. split; auto. cbn in EL. apply Nat.eqb_eq in EL. auto. }
    assert (p = q -> length xq = n) as Hxn.
    { unfold p, low. destruct (Nat.eqb_spec (length xq) n); auto. intros <-. cbn in EL. apply Nat.eqb_eq in EL. lia. }
    destruct ((q <=? d_ord f) || (p =? 0)) eqn:EO; [|discriminate]. cbn [negb] in H.
    destruct ((p <=? 1) || (d_dir f =? 1)) eqn:ED; [|discriminate]. cbn [negb] in H.
    assert (p <= d_ord f) as Hpo.
    { apply orb_true_iff in EO as [EO|EO]; [apply Nat.leb_le in EO|apply Nat.eqb_eq in EO]; lia. }
    (* capacity *)
    destruct (if (d_cap f <=? q) || negb (d_dir f =? 1) then _ else _) as [f1|] eqn:EC; [|discriminate].
    assert (q < d_cap f1 /\ d_dir f1 = 1 /\ (forall v k, v < r_nvar (d_rec f) -> k < p -> view1 f1 v k = view1 f v k))
      as (C1 & C2 & C3).
    { destruct ((d_cap f <=? q) || negb (d_dir f =? 1)) eqn:EB.
      - apply capacity2_spec in EC; [|unfold set_ord; cbn; destruct (Nat.eqb_spec p 0); lia|
                                      unfold set_ord; cbn; destruct (Nat.eqb_spec p 0); lia].
        cbn [set_ord set_tay d_ord d_cap d_dir d_rec d_tay] in EC.
        destruct EC as (A1 & A2 & A3 & A4 & _). split; [rewrite A1; lia|]. split; auto.
        intros v k Hv Hk. assert (p = q) as Epq by lia. assert (d_dir f = 1) as D1 by (apply VD; lia).
        destruct (Nat.eqb_spec p 0); [lia|].
        unfold view1. rewrite <- (tidx1 (d_cap f1)), <- (tidx1 (d_cap f)) by lia.
        rewrite A1. specialize (A4 v k 0 Hv ltac:(lia) ltac:(auto) ltac:(lia)).
        rewrite D1 in A4. exact A4.
      - injection EC as <-. apply orb_false_iff in EB as [E1 E2].
        apply Nat.leb_gt in E1. apply negb_false_iff, Nat.eqb_eq in E2. auto. }
    rewrite (w_dec _ _ _ _ W) in H.
    set (C := d_cap f1) in *.
    set (V1 := fun i k => if (i <? r_nvar (d_rec f)) && (p <=? k) && (k <=? q) then bnan else view1 f1 i k) in *.
    set (V2 := in_rows V1 n p q xq) in *.
    set (X' := upd n q xq X).
    (* the inputs *)
    assert (forall j k, j < n -> k <= q -> V2 (S j) k = if k <? p then V1 (S j) k else nth j (X' k) b0) as IN.
    { intros j k Hj Hk. unfold V2, in_rows, X', upd. destruct (Nat.eqb_spec p q) as [Epq|Npq].
      - specialize (Hxn Epq). rewrite Hxn, Nat.eqb_refl. rewrite set_row_spec, Hxn.
        destruct (Nat.eqb_spec k q) as [->|]; cbn [andb].
        + destruct (Nat.leb_spec 1 (S j)), (Nat.ltb_spec (S j) (1 + n)), (Nat.ltb_spec q p); try lia.
          cbn [andb]. f_equal. lia.
        + destruct (Nat.ltb_spec k p); auto. lia.
      - destruct Hp as [|(Hp0 & Hl & Hne)]; [contradiction|]. rewrite Hp0.
        destruct (Nat.eqb_spec (length xq) n); [contradiction|].
        destruct (Nat.leb_spec 1 (S j)), (Nat.leb_spec (S j) n), (Nat.leb_spec k q); try lia. cbn [andb Nat.ltb Nat.leb].
        destruct (Nat.ltb_spec k 0); [lia|].
        rewrite (nth_indep (map (fun j => nth ((q + 1) * j + k) xq b0) (seq 0 n)) b0 (nth ((q + 1) * 0 + k) xq b0)) by (rewrite map_length, seq_length; lia).
        rewrite (map_nth (fun j => nth ((q + 1) * j + k) xq b0)), seq_nth by auto. f_equal. lia. }
    assert (forall v k, k < p -> V2 v k = view1 f1 v k) as LOW.
    { intros v k Hk. unfold V2, in_rows. destruct (Nat.eqb_spec p q).
      - rewrite set_row_spec. destruct (Nat.eqb_spec k q); [lia|]. cbn [andb]. unfold V1.
        destruct (Nat.leb_spec p k); [lia|]. now rewrite andb_false_r.
      - lia. }
    pose proof (w_wfl _ _ _ _ W) as WL.
    (* initial state of the sweep *)
    set (s0 := if q =? 0 then mkQ V2 (fun _ => false) (fun i => nth i (r_vec (d_rec f)) 0) (d_l2v f) 0 0 (fun _ => false)
               else init_any (d_rec f) p (mkQ V2 (fun _ => false) (fun i => nth i (r_vec (d_rec f)) 0) (d_l2v f)
                       (d_num f) (d_opi f) (d_skip f))) in *.
    destruct (if q =? 0 then _ else _) as [s|] eqn:ES; [|discriminate].
    injection H as Hy Hf'.
    assert (
      (forall v j, j < p \/ q < j \/ v < 0 -> q_V s v j = V2 v j) /\
      (forall j, Nat.max p 1 <= j <= q -> Forall (ins_sat (d_par f) (q_V s) (q_l2v s) j) l) /\
      (0 < p -> forall m, q_l2v s m = d_l2v f m) /\
      Forall (ld_ok (q_l2v s)) l /\
      (forall i j, In i l -> i_op i = InvOp -> q_V s (i_var i) j = V2 (i_var i) j) /\
      (forall j, q_skip s j = false) /\
      (p = 0 -> sweep0 (d_par f) (d_cc f) l 0 (init0 (d_rec f) (row0 V2) (d_l2v f)) = Some (to0 s))) as
      (Q1 & Q2 & Q3 & Q4 & Q5 & Q6 & Q7).
    { destruct (Nat.eqb_spec q 0) as [Hq0|Hq0].
      - assert (p = 0) as Hp0 by (unfold p, low; destruct (length xq =? n); auto).
        destruct (sweep0 (d_par f) (d_cc f) l 0 (init0 (d_rec f) (row0 V2) (d_l2v f))) as [t|] eqn:E0; [|discriminate].
        injection ES as <-.
        assert (vec_ok 0 (f_isv (init0 (d_rec f) (row0 V2) (d_l2v f))) (f_idx (init0 (d_rec f) (row0 V2) (d_l2v f)))) as VO0
          by (intros m Hm; discriminate).
        destruct (sweep0_eq (d_par f) (length (r_par (d_rec f))) (d_cc f) l 0 0 0 0
                    (init0 (d_rec f) (row0 V2) (d_l2v f)) (init0 (d_rec f) (row0 V2) (d_l2v f)) t) as (t' & T1 & T2 & T3 & T4 & T5); auto.
        { constructor; auto. }
        destruct (sweep0_ld (d_par f) (length (r_par (d_rec f))) (d_cc f) l 0 0 0 (init0 (d_rec f) (row0 V2) (d_l2v f)) t) as [L1 _]; auto.
        cbn [of0 q_V q_l2v q_skip]. unfold set0.
        split; [|split; [|split; [|split; [|split; [|split]]]]]; auto.
        + intros v j Hj. destruct (Nat.eqb_spec j 0); auto. lia.
        + intros; lia.
        + intros; lia.
        + intros i j Hi Ho. destruct (Nat.eqb_spec j 0) as [->|]; auto. rewrite T5; [reflexivity|]. right. eauto.
        + intros _. f_equal. destruct t; reflexivity.
      - assert (s0 = init_any (d_rec f) p (mkQ V2 (fun _ => false) (fun i => nth i (r_vec (d_rec f)) 0) (d_l2v f)
                       (d_num f) (d_opi f) (d_skip f))) as Es0 by (unfold s0; destruct (Nat.eqb_spec q 0); [lia|auto]).
        rewrite <- Es0 in ES.
        assert (q_V s0 = V2 /\ q_l2v s0 = d_l2v f /\ forall j, q_skip s0 j = false) as (Z1 & Z2 & Z3).
        { rewrite Es0. unfold init_any. destruct (p =? 0); cbn; auto. }
        destruct (sweep_any_spec TL bnat (d_par f) (length (r_par (d_rec f))) (d_cc f) p q l 0 0 0 s0 s) as (A1 & A2 & A3 & A4 & A5 & A6); auto.
        { intros Hz m. rewrite Es0. unfold init_any. rewrite Hz. cbn. discriminate. }
        { intros Hz. rewrite Z2. apply ST. lia. }
        split; [|split; [|split; [|split; [|split; [|split]]]]].
        + intros v j Hj. rewrite A1 by lia. now rewrite Z1.
        + exact A2.
        + intros Hz m. rewrite A3 by auto. now rewrite Z2.
        + exact A4.
        + intros i j Hi Ho. rewrite (A5 i) by auto. now rewrite Z1.
        + eapply sweep_any_skip; [apply W|exact Z3|exact ES].
        + intros Hz. rewrite <- A6 by auto. f_equal. rewrite Es0. unfold init_any, init0, to0. rewrite Hz. reflexivity. }
    pose proof (w_inv _ _ _ _ W) as WI.
    assert (forall v k, k < C -> view1 f' v k = q_V s v k) as VV.
    { intros v k Hk. rewrite <- Hf'. unfold view1. cbn [d_tay d_cap]. apply flat1_view; auto. }
    assert (d_rec f' = d_rec f /\ d_n f' = d_n f /\ d_dep f' = d_dep f /\ d_par f' = d_par f /\ d_cc f' = d_cc f /\
            d_ord f' = q + 1 /\ d_l2v f' = q_l2v s /\ d_dir f' = 1 /\ d_skip f' = q_skip s /\ d_cap f' = C) as
      (F1 & F2 & F3 & F4 & F5 & F6 & F7 & F8 & F9 & F10) by (rewrite <- Hf'; repeat split; auto).
    assert (forall v k, v < r_nvar (d_rec f) -> k < p -> view1 f' v k = view1 f v k) as KEEP.
    { intros v k Hv Hk. rewrite VV by lia. rewrite Q1, LOW, C3 by lia. auto. }
    assert (forall j k, j < n -> k <= q -> q_V s (S j) k = nth j (X' k) b0) as INV.
    { intros j k Hj Hk. destruct (WI j Hj) as (i & Hi & Ho & Hv). rewrite <- Hv, Q5 by auto.
      rewrite Hv, IN by auto. destruct (Nat.ltb_spec k p) as [Hkp|]; auto.
      assert (p = q) as Epq by lia.
      assert (X' k = X k) as ->.
      { unfold X', upd. rewrite (Hxn Epq), Nat.eqb_refl. destruct (Nat.eqb_spec k q); [lia|auto]. }
      transitivity (V2 (S j) k).
      { rewrite LOW by auto. unfold V1. destruct (Nat.leb_spec p k); [lia|]. now rewrite andb_false_r. }
      rewrite LOW by auto.
      rewrite C3 by (auto; rewrite (w_nv _ _ _ _ W); rewrite <- Hv; pose proof (tres_bound _ _ _ _ WL i Hi) as TB; rewrite Ho in TB; cbn in TB; lia).
      apply ST; auto; lia. }
    split; [|split; [|split; [|split; [|split; [|split; [|split; [|split; [|split]]]]]]]]; auto.
    - constructor.
      + rewrite F1, F2, F3. exact W.
      + rewrite F6, F10. lia.
      + auto.
      + rewrite F9. auto.
      + intros _. constructor.
        * rewrite F1, F2, F4, F5, F7. destruct (Nat.eq_dec p 0) as [Hp0|Hp0].
          -- exists (row0 V2), (d_l2v f), (to0 s). split; [auto|split; [|split]]; auto.
             ++ intros j Hj. unfold row0. rewrite <- (INV j 0) by (auto; lia).
                destruct (WI j Hj) as (i & Hi & Ho & Hv). now rewrite <- Hv, Q5.
             ++ intros v Hv. rewrite VV by lia. reflexivity.
          -- destruct (ST ltac:(lia)) as [(V0 & l0 & t & S1 & S2 & S3 & S4) _ _ _].
             exists V0, l0, t. split; [auto|split; [|split]]; auto.
             ++ intros j Hj. rewrite S2 by auto. unfold X', upd. rewrite Hxn, Nat.eqb_refl by lia.
                destruct (Nat.eqb_spec 0 q); [lia|auto].
             ++ intros v Hv. rewrite KEEP by lia. apply S3. auto.
             ++ intros m Hm. rewrite Q3 by lia. auto.
        * rewrite F7. auto.
        * rewrite F4, F6, F7. intros k Hk.
          assert (Forall (ins_sat (d_par f) (q_V s) (q_l2v s) k) l) as SK.
          { destruct (le_lt_dec p k) as [Hpk|Hkp]; [apply Q2; lia|].
            destruct (ST ltac:(lia)) as [_ S1 S2 _]. specialize (S2 k ltac:(lia)).
            apply (ins_sat_ext_all (d_par f) (length (r_par (d_rec f))) l 0 0 (view1 f) (q_V s) (d_l2v f) (q_l2v s) k); auto.
            - intros v k' Hv Hk'. rewrite <- KEEP; [apply VV; lia| |lia]. rewrite (w_nv _ _ _ _ W). exact Hv.
            - intros m _. rewrite Q3; auto. lia. }
          apply (ins_sat_ext_all (d_par f) (length (r_par (d_rec f))) l 0 0 (q_V s) (view1 f') (q_l2v s) (q_l2v s) k); auto.
          intros v k' Hv Hk'. symmetry. apply VV. lia.
        * rewrite F2, F6. intros j k Hj Hk. rewrite VV by lia. apply INV; auto; lia.
    - rewrite <- Hy. unfold yout. rewrite F3. fold p. destruct (p =? q).
      + apply map_ext. intros a. symmetry. apply VV. lia.
      + rewrite !flat_map_concat_map. f_equal. apply map_ext. intros a. apply map_ext_in. intros k Hk.
        apply in_seq in Hk. symmetry. apply VV. lia.
  Qed.
End Drv.
