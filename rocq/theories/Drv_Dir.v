(** Several directions: every direction is a one direction calculation (exact
    arithmetic). *)
From Coq Require Import ZArith List Bool Arith Lia FunctionalExtensionality.
From Verif Require Import Base_Spec Op_Model Tape_Spec Tape_Model Tape_Proof Tape_Proof2
  Sweep_Model Sweep_Eqs Sweep_Eqs2 Sweep_Tape Sweep_Uniq Field_Spec Sweep_Dir Drv_Model Drv_Proof Drv_Proof2 Drv_Proof3 Drv_Proof4.
Import ListNotations.

Section Dir.
  Context {b : base} (TL : taylor_laws b) (bnat : nat -> bt b) (FL : field_laws b bnat).
  Notation T := (bt b).
  Variable junk : nat -> T.

  Definition dirv (D : nat -> nat -> nat -> T) (ell : nat) : nat -> nat -> T := fun i k => D i k ell.

  Lemma put_row_loop P q V rs : 0 < q -> put_row V (fst rs) q (coef_dir bnat P (snd rs) (fst rs) V q) = run_sub bnat P q q V rs.
  Proof.
    intros Hq. unfold run_sub, loop. replace (S q - q) with 1 by lia. cbn [seq fold_left].
    now rewrite (coef_dir_eq bnat FL P) by auto.
  Qed.
  Lemma run_subs_dir P q R ell l : 0 < q -> ell < R -> forall D,
    dirv (fold_left (run_sub_dir bnat P q R) l D) ell = fold_left (run_sub bnat P q q) l (dirv D ell).
  Proof.
    intros Hq Hl. induction l as [|rs l IH]; intros D; cbn [fold_left]; auto.
    rewrite IH. f_equal. rewrite <- put_row_loop by auto.
    do 2 (apply functional_extensionality; intros ?). unfold dirv, run_sub_dir.
    destruct (Nat.ltb_spec ell R); [|lia]. reflexivity.
  Qed.

  Lemma step_dir_any P cc q R l2v i D D' k isv idx num opi sk ell :
    0 < q -> ell < R -> step_dir bnat P q R l2v i D = Some D' ->
    exists num' opi', step_any bnat P cc q q i k (mkQ (dirv D ell) isv idx l2v num opi sk) =
       Some (mkQ (dirv D' ell) isv idx l2v num' opi' sk).
  Proof.
    intros Hq Hl H. destruct i as [o a iv]. unfold step_dir in H. unfold step_any.
    destruct (subs o a iv) as [l|] eqn:E.
    - injection H as <-. exists num, opi. unfold setV. cbn [q_V q_isv q_idx q_l2v q_num q_opi q_skip].
      now rewrite run_subs_dir.
    - destruct (Nat.eqb_spec q 0); [lia|]. unfold to0, of0. cbn [q_V q_isv q_idx q_l2v q_num q_opi q_skip].
      assert (forall V : nat -> nat -> T, set0 V (row0 V) = V) as S0.
      { intros V. do 2 (apply functional_extensionality; intros ?). unfold set0, row0. destruct (Nat.eqb_spec x0 0); subst; auto. }
      destruct o; try discriminate E; try discriminate H.
      all: injection H as <-.
      all: try (exists num, opi; reflexivity).
      all: try (unfold step0; cbn [sem0 cmp_change];
                try match goal with |- context [if ?c then _ else _] => destruct c end;
                cbn [option_map f_V f_isv f_idx f_l2v f_num f_opi f_skip]; rewrite S0; eexists; eexists; reflexivity).
      all: exists num, opi; unfold setV; cbn [q_V q_isv q_idx q_l2v q_num q_opi q_skip];
           do 2 f_equal; unfold load_rows, loop; replace (Nat.max q 1) with q by lia; replace (S q - q) with 1 by lia;
           cbn [seq fold_left]; do 2 (apply functional_extensionality; intros ?); unfold pset, dirv;
           destruct (Nat.ltb_spec ell R); [|lia]; rewrite andb_true_r; reflexivity.
  Qed.

  Lemma sweep_dir_any P cc q R l2v sk ell l : 0 < q -> ell < R -> forall D D' k isv idx num opi,
    sweep_dir bnat P q R l2v sk l k D = Some D' ->
    exists num' opi', sweep_any bnat P cc q q l k (mkQ (dirv D ell) isv idx l2v num opi sk) =
       Some (mkQ (dirv D' ell) isv idx l2v num' opi' sk).
  Proof.
    intros Hq Hl. induction l as [|i l IH]; intros D D' k isv idx num opi H; cbn [sweep_dir sweep_any] in *.
    - injection H as <-. eauto.
    - cbn [q_skip]. destruct (sk k); [eapply IH; eauto|].
      destruct (step_dir bnat P q R l2v i D) as [D1|] eqn:E; [|discriminate].
      destruct (step_dir_any P cc q R l2v i D D1 k isv idx num opi sk ell Hq Hl E) as (n1 & o1 & ->).
      eapply IH; eauto.
  Qed.
  (** orders below [q] are not touched *)
  Lemma sweep_dir_any0 P q R l2v sk ell l : forall D D' k, sweep_dir bnat P q R l2v sk l k D = Some D' ->
    R <= ell -> forall i k, D' i k ell = D i k ell.
  Proof.
    induction l as [|i l IH]; intros D D' k H Hl; cbn [sweep_dir] in *.
    - injection H as <-. auto.
    - destruct (sk k); [eapply IH; eauto|].
      destruct (step_dir bnat P q R l2v i D) as [D1|] eqn:E; [|discriminate].
      intros v j. rewrite (IH _ _ _ H Hl). clear H IH. destruct i as [o a iv]. unfold step_dir in E.
      destruct (subs o a iv) as [ls|].
      + injection E as <-. revert D. induction ls as [|rs ls IH]; intros D; cbn [fold_left]; auto. rewrite IH.
        unfold run_sub_dir. destruct (Nat.ltb_spec ell R); [lia|auto].
      + destruct o; try discriminate; injection E as <-; auto;
          destruct (Nat.ltb_spec ell R); try lia; rewrite andb_false_r; auto.
  Qed.
End Dir.
