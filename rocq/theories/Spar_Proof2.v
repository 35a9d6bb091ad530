(** The sets computed by the sparsity sweeps are closed under dependencies. *)
From Coq Require Import ZArith List Bool Arith Lia.
From Verif Require Import Base_Spec Op_Model Tape_Spec Tape_Model Tape_Proof Tape_Proof2 Tape_Proof7
  Sweep_Model Sweep_Eqs Sweep_Eqs2 Sweep_Tape Sweep_Uniq Tape_Swf Tape_Vec Rev_Prim Spar_Model Spar_Proof.
Import ListNotations.

Section Fwd.
  Variables (dep : bool) (vi : nat -> nat) (c : nat).

  Lemma for_jac_op_frame i U W : okop (i_op i) = true ->
    forall v, (v <> i_var i \/ num_res (i_op i) = 0) -> fst (for_jac_op dep vi i (U, W)) v = U v.
  Proof.
    intros OK v Hv. destruct i as [o a z]. cbn [i_op i_var] in *.
    destruct o; try discriminate; cbn [for_jac_op fst num_res] in *; auto;
      (destruct Hv as [Hv|Hv]; [|discriminate]);
      unfold sv_assign, sv_clear, sv_union;
      repeat match goal with |- context [if ?x then _ else _] => destruct x end; rewrite ?fset_ne by auto; auto.
  Qed.
  Lemma for_jac_op_clear i U W (G : nat -> Prop) : okop (i_op i) = true ->
    Forall (fun x => x <> i_var i) (var_args (i_op i) (i_arg i)) \/ num_res (i_op i) = 0 ->
    let '(U1, W1) := for_jac_op dep vi i (U, W) in
    (forall x, In x (var_args (i_op i) (i_arg i)) -> U x c = false -> G x) -> (0 < num_res (i_op i) -> G (i_var i) -> U1 (i_var i) c = false) ->
    cl_ins dep G (fun h => W (vi h) c = false) (fun h => W1 (vi h) c = false) i.
  Proof.
    intros OK NE. destruct i as [o a z]. cbn [i_op i_arg i_var] in *.
    assert (forall (W : vset) v s h, sv_union W v s h c = false -> W h c = false) as MON.
    { intros W' v s h. unfold sv_union, fset. destruct (Nat.eqb_spec h v) as [->|]; auto. now intros []%orb_false_iff. }
    assert (forall (W : vset) v s, sv_union W v s v c = false -> s c = false) as UN.
    { intros W' v s. unfold sv_union. rewrite fset_eq. now intros []%orb_false_iff. }
    destruct o; try discriminate; cbn [for_jac_op num_res] in *; unfold cl_ins; cbn [i_op i_arg i_var var_args rel_args];
      intros GA GZ; (split; [try tauto|]);
      try (intros N; exfalso; cbn in N; lia);
      try (intros _ Gz; specialize (GZ ltac:(lia) Gz); unfold sv_assign, sv_clear in GZ; rewrite ?fset_eq in GZ).
    (* unary, binary *)
    all: try (repeat constructor; apply GA; cbn; auto; fail).
    all: try (apply orb_false_iff in GZ as [Z1 Z2]; repeat constructor; apply GA; cbn; auto; fail).
    all: cbn [num_res]; try exact I.
    - (* CExp *)
      destruct NE as [NE|NE]; [|discriminate].
      assert (forall bit j, In (bit, j) ((if dep then [(0, 2); (1, 3)] else []) ++ [(2, 4); (3, 5)]) ->
        Nat.testbit (nth 1 a 0) bit = true -> G (nth j a 0)) as K.
      { intros bit j Hin TB.
        assert (In (nth j a 0) (var_args CExpOp a)) as HA.
        { cbn [var_args]. rewrite !in_app_iff. destruct dep; cbn in Hin;
            repeat match goal with H : _ \/ _ |- _ => destruct H as [H|H] end; try contradiction; injection Hin as <- <-; rewrite TB; cbn [In]; tauto. }
        apply GA; auto. rewrite Forall_forall in NE.
        assert (forall j', Nat.testbit (nth 1 a 0) (j' - 2) = true -> 2 <= j' < 6 -> nth j' a 0 <> z) as NZ.
        { intros j' T' Hj'. apply NE. cbn [var_args]. rewrite !in_app_iff.
          assert (j' = 2 \/ j' = 3 \/ j' = 4 \/ j' = 5) as [->|[->|[->| ->]]] by lia; cbn [Nat.sub] in T'; rewrite T'; cbn [In]; tauto. }
        clear NE GA HA MON UN.
        pose proof (NZ 2) as N2. pose proof (NZ 3) as N3. pose proof (NZ 4) as N4. pose proof (NZ 5) as N5. cbn [Nat.sub] in N2, N3, N4, N5. clear NZ.
        unfold sv_union, sv_clear in GZ.
        destruct dep; cbn in Hin; repeat match goal with H : _ \/ _ |- _ => destruct H as [H|H] end; try contradiction; injection Hin as <- <-;
          rewrite TB in *;
          repeat match type of GZ with context [if Nat.testbit ?x ?y then _ else _] => destruct (Nat.testbit x y) eqn:? end;
          rewrite ?fset_eq in GZ;
          repeat match type of GZ with context [fset _ z _ (nth ?j a 0)] => rewrite (fset_ne _ z _ (nth j a 0)) in GZ by (auto with arith) end;
          rewrite ?orb_false_iff in GZ; tauto. }
      rewrite Forall_forall. intros x Hx. rewrite !in_app_iff in Hx.
      assert (exists bit j, In (bit, j) ((if dep then [(0, 2); (1, 3)] else []) ++ [(2, 4); (3, 5)]) /\ Nat.testbit (nth 1 a 0) bit = true /\ x = nth j a 0) as (bit & j & A1 & A2 & ->).
      { destruct Hx as [Hx|[Hx|Hx]].
        - destruct dep; [|destruct Hx]. rewrite in_app_iff in Hx. destruct Hx as [Hx|Hx].
          + destruct (Nat.testbit (nth 1 a 0) 0) eqn:TB; [|destruct Hx]. destruct Hx as [<-|[]]. exists 0, 2. rewrite in_app_iff. cbn [In]. auto.
          + destruct (Nat.testbit (nth 1 a 0) 1) eqn:TB; [|destruct Hx]. destruct Hx as [<-|[]]. exists 1, 3. rewrite in_app_iff. cbn [In]. auto.
        - destruct (Nat.testbit (nth 1 a 0) 2) eqn:TB; [|destruct Hx]. destruct Hx as [<-|[]]. exists 2, 4. rewrite in_app_iff. cbn [In]. auto.
        - destruct (Nat.testbit (nth 1 a 0) 3) eqn:TB; [|destruct Hx]. destruct Hx as [<-|[]]. exists 3, 5. rewrite in_app_iff. cbn [In]. auto. }
      eapply K; eauto.
    - (* Dis *) destruct dep; repeat constructor. apply GA; cbn; auto. now rewrite fset_eq in GZ.
    - (* Ldp *) intros Gz. specialize (GZ ltac:(lia) Gz). unfold sv_assign in GZ. now rewrite fset_eq in GZ.
    - (* Ldv *) intros Gz. specialize (GZ ltac:(lia) Gz). unfold sv_assign, sv_union in GZ.
      destruct NE as [NE|NE]; [|discriminate]. apply Forall_inv in NE.
      destruct dep; rewrite ?fset_eq in GZ.
      + rewrite fset_ne in GZ by auto. apply orb_false_iff in GZ as [Z1 Z2]. split; auto. intros _. apply GA; cbn; auto.
      + split; auto. discriminate.
    - (* Sign *) destruct dep; repeat constructor. apply GA; cbn; auto. now rewrite fset_eq in GZ.
    - (* Stpv *) intros h. apply MON.
    - intros Q. apply UN in Q. apply GA; cbn; auto.
    - (* Stvp *) intros h. destruct dep; auto. apply MON.
    - intros Q ->. apply UN in Q. apply GA; cbn; auto.
    - (* Stvv *) intros h Q. apply MON in Q. destruct dep; auto. now apply MON in Q.
    - intros Q. pose proof (UN _ _ _ Q) as Q1. apply MON in Q. split; [apply GA; cbn; auto|]. intros ->. apply UN in Q. apply GA; cbn; auto.
  Qed.

  Lemma for_jac_closed np l : forall nv nl seen U W, wfl np nv nl l -> sok seen nl l ->
    let '(Uf, _) := for_jac_sweep dep vi l (U, W) in
    (forall v, v < nv -> Uf v = U v) /\
    closed dep (fun v => Uf v c = false) (fun h => W (vi h) c = false) l.
  Proof.
    induction l as [|i l IH]; intros nv nl seen U W Wf SO; cbn [for_jac_sweep fold_left]; [cbn; auto|].
    destruct SO as (OK & SA & _ & SO). pose proof Wf as (Hiv & W1 & HC & HL & HB & W2).
    pose proof (for_jac_op_frame i U W OK) as FR. pose proof (fun G => for_jac_op_clear i U W G OK) as CL.
    destruct (for_jac_op dep vi i (U, W)) as [U1 Wa]. cbn [fst] in FR.
    specialize (IH _ _ _ U1 Wa W2 SO). unfold for_jac_sweep in IH. destruct (fold_left (fun s j => for_jac_op dep vi j s) l (U1, Wa)) as [Uf Wz].
    destruct IH as [F C].
    assert (forall v, v < nv -> Uf v = U v) as F'.
    { intros v Hv. rewrite F by lia. apply FR. destruct (Nat.eq_dec (num_res (i_op i)) 0); [auto|left; lia]. }
    assert (forall x, In x (var_args (i_op i) (i_arg i)) -> x < nv) as AR.
    { intros x Hx. destruct i as [o a z]. apply (wf_arg_range np o a z) in Hx; auto. cbn in *. lia. }
    split; [auto|]. exists (fun h => Wa (vi h) c = false). split; auto.
    apply CL.
    - destruct (Nat.eq_dec (num_res (i_op i)) 0); [auto|left]. rewrite Forall_forall. intros x Hx. apply AR in Hx. lia.
    - intros x Hx Q. rewrite F'; auto.
    - intros N Q. rewrite <- F by lia. auto.
  Qed.

  (** reverse *)
  Lemma rev_jac_op_mono i U W : okop (i_op i) = true ->
    let '(U1, W1) := rev_jac_op dep vi i (U, W) in
    (forall v, U v c = true -> U1 v c = true) /\ (forall v, W v c = true -> W1 v c = true) /\
    (forall v, ~ In v (var_args (i_op i) (i_arg i)) -> U1 v = U v).
  Proof.
    intros OK. destruct i as [o a z]. cbn [i_op i_arg] in *.
    assert (forall (W : vset) v s h, W h c = true -> sv_union W v s h c = true) as MON.
    { intros W' v s h H. unfold sv_union, fset. destruct (Nat.eqb_spec h v) as [->|]; auto. now rewrite H. }
    assert (forall (W : vset) v s h, h <> v -> sv_union W v s h = W h) as FR.
    { intros W' v s h H. unfold sv_union. now rewrite fset_ne. }
    destruct o; try discriminate; cbn [rev_jac_op]; (split; [|split]); auto; intros v Hv; cbn [var_args] in Hv;
      try (repeat match goal with |- context [if ?x then _ else _] => destruct x eqn:? end; auto 10; fail);
      try (repeat match goal with |- context [if ?x then _ else _] => destruct x eqn:? end; rewrite ?FR by (cbn in *; rewrite ?in_app_iff in *; cbn in *; intuition congruence); auto; fail).
  Qed.
  Lemma rev_jac_op_closed i U W (G : nat -> Prop) : okop (i_op i) = true ->
    Forall (fun x => x <> i_var i) (var_args (i_op i) (i_arg i)) \/ num_res (i_op i) = 0 ->
    let '(U1, W1) := rev_jac_op dep vi i (U, W) in
    (forall x, In x (var_args (i_op i) (i_arg i)) -> U1 x c = true -> G x) -> (0 < num_res (i_op i) -> G (i_var i) -> U (i_var i) c = true) ->
    cl_ins dep G (fun h => W1 (vi h) c = true) (fun h => W (vi h) c = true) i.
  Proof.
    intros OK NE. destruct i as [o a z]. cbn [i_op i_arg i_var] in *.
    assert (forall (W : vset) v s h, W h c = true -> sv_union W v s h c = true) as MON.
    { intros W' v s h H. unfold sv_union, fset. destruct (Nat.eqb_spec h v) as [->|]; auto. now rewrite H. }
    assert (forall (W : vset) v (s : nat -> bool), s c = true -> sv_union W v s v c = true) as UN.
    { intros W' v s H. unfold sv_union. rewrite fset_eq, H. apply orb_true_r. }
    assert (forall (W : vset) v s h, h <> v -> sv_union W v s h = W h) as FR.
    { intros W' v s h H. unfold sv_union. now rewrite fset_ne. }
    destruct o; try discriminate; cbn [rev_jac_op num_res] in *; unfold cl_ins; cbn [i_op i_arg i_var var_args rel_args] in *;
      intros GA GZ; (split; [now auto|]);
      try (intros N; exfalso; cbn in N; lia);
      try exact I;
      try (intros _ Gz; specialize (GZ ltac:(lia) Gz));
      try (destruct NE as [NE|NE]; [|discriminate]).
    (* unary, binary *)
    all: try (repeat constructor; apply GA; [cbn; now auto|apply UN; exact GZ]; fail).
    all: try (apply Forall_cons_iff in NE as [NE1 NE2]; apply Forall_inv in NE2;
      repeat constructor; (apply GA; [cbn; now auto|]); [apply MON, UN; exact GZ|]; apply UN; rewrite FR by auto; exact GZ).
    - (* CExp *)
      rewrite Forall_forall in NE |- *.
      assert (forall j', Nat.testbit (nth 1 a 0) (j' - 2) = true -> 2 <= j' < 6 -> z <> nth j' a 0) as NZ.
      { intros j' T' Hj' Q. apply (NE (nth j' a 0)); auto. rewrite !in_app_iff.
        assert (j' = 2 \/ j' = 3 \/ j' = 4 \/ j' = 5) as [->|[->|[->| ->]]] by lia; cbn [Nat.sub] in T'; rewrite T'; cbn [In]; tauto. }
      pose proof (NZ 2) as N2. pose proof (NZ 3) as N3. pose proof (NZ 4) as N4. pose proof (NZ 5) as N5. cbn [Nat.sub] in N2, N3, N4, N5. clear NZ NE.
      intros x Hx. apply GA.
      { rewrite !in_app_iff in *. destruct dep; [rewrite in_app_iff in Hx|cbn in Hx]; tauto. }
      clear GA. rewrite !in_app_iff in Hx.
      repeat match goal with |- context [if Nat.testbit ?x ?y then _ else _] => destruct (Nat.testbit x y) eqn:? end;
      destruct dep; cbn [In app] in Hx;
      repeat match goal with H : _ \/ _ |- _ => destruct H as [H|H] end; try contradiction; subst x;
        repeat (first [apply UN; rewrite ?FR by auto with arith; exact GZ | apply MON]).
    - (* Dis *) destruct dep; repeat constructor. apply GA; [cbn; now auto|apply UN; exact GZ].
    - (* Ldp *) intros Gz. apply UN. apply GZ; auto.
    - (* Ldv *) intros Gz. specialize (GZ ltac:(lia) Gz). split; [apply UN; auto|]. intros ->. apply GA; [cbn; now auto|apply UN; exact GZ].
    - (* Par *) constructor.
    - (* Sign *) destruct dep; repeat constructor. apply GA; [cbn; now auto|apply UN; exact GZ].
    - (* Stpv *) intros Q. apply GA; [cbn; now auto|]. now apply UN.
    - (* Stvp *) intros Q ->. apply GA; [cbn; now auto|]. now apply UN.
    - (* Stvv *) intros Q. split; [apply GA; [cbn; now auto|now apply UN]|]. intros ->. apply GA; [cbn; now auto|]. now apply MON, UN.
  Qed.

  Lemma rev_jac_mono l U W : Forall (fun i => okop (i_op i) = true) l ->
    let '(U1, W1) := rev_jac_sweep dep vi l (U, W) in
    (forall v, U v c = true -> U1 v c = true).
  Proof.
    induction 1 as [|i l OK F IH]; cbn [rev_jac_sweep fold_right]; auto.
    unfold rev_jac_sweep in IH. destruct (fold_right (rev_jac_op dep vi) (U, W) l) as [U1 W1].
    pose proof (rev_jac_op_mono i U1 W1 OK) as M. destruct (rev_jac_op dep vi i (U1, W1)) as [U2 W2]. intros v Hv. apply M. auto.
  Qed.
  Lemma rev_jac_closed np U W Uf l : forall nv nl seen, wfl np nv nl l -> sok seen nl l ->
    let '(U1, W1) := rev_jac_sweep dep vi l (U, W) in
    (forall v, U1 v c = true -> Uf v c = true) -> (forall v, nv <= v -> Uf v c = U1 v c) ->
    closed dep (fun v => Uf v c = true) (fun h => W1 (vi h) c = true) l.
  Proof.
    induction l as [|i l IH]; intros nv nl seen Wf SO; cbn [rev_jac_sweep fold_right]; [cbn; auto|].
    destruct SO as (OK & SA & _ & SO). pose proof Wf as (Hiv & W1 & HC & HL & HB & W2).
    specialize (IH _ _ _ W2 SO). unfold rev_jac_sweep in IH. destruct (fold_right (rev_jac_op dep vi) (U, W) l) as [U1 Wa].
    pose proof (rev_jac_op_mono i U1 Wa OK) as MO. pose proof (fun G => rev_jac_op_closed i U1 Wa G OK) as CL.
    destruct (rev_jac_op dep vi i (U1, Wa)) as [U2 Wb]. destruct MO as (M1 & M2 & M3).
    intros A B.
    assert (forall x, In x (var_args (i_op i) (i_arg i)) -> x < nv) as AR.
    { intros x Hx. destruct i as [o a z]. apply (wf_arg_range np o a z) in Hx; auto. cbn in *. lia. }
    assert (forall v, nv <= v -> U2 v = U1 v) as EQ.
    { intros v Hv. apply M3. intros Hx. apply AR in Hx. lia. }
    exists (fun h => Wa (vi h) c = true). split.
    - apply CL.
      + destruct (Nat.eq_dec (num_res (i_op i)) 0); [auto|left]. rewrite Forall_forall. intros x Hx. apply AR in Hx. lia.
      + auto.
      + intros N Q. rewrite B, EQ in Q by lia. auto.
    - apply IH; auto. intros v Hv. rewrite B, EQ by lia. auto.
  Qed.
End Fwd.
