(** C16 (and the discrete form of C13, C14): the patterns returned by for_jac_sparsity and
    rev_jac_sparsity of a recorded function contain every dependence of the values that
    Forward(0, x) returns.

    Reading guide.  [entry transpose pat i j]: the pair (i, j), or (j, i) when transpose, is
    in the pattern.  [recorded ... f] and [run f h] (a history of new_dynamic, Forward and
    compare_change_count calls) are as in Tape_Prop. *)
From Coq Require Import ZArith List Bool Arith Lia.
From Verif Require Import Base_Spec Op_Model Tape_Spec Tape_Model Tape_Proof Tape_Proof2 Tape_Proof7 Tape_Proof10
  Tape_Hist Tape_Prop Sweep_Model Sweep_Eqs Sweep_Eqs2 Sweep_Tape Sweep_Uniq Tape_Swf Tape_Vec
  Drv_Proof2 Drv_Proof3 Rev_Prim Spar_Model Spar_Proof Spar_Proof2 Spar_Proof3.
Import ListNotations.

Section C16.
  Context {b : base} (L : base_laws b).
  Notation T := (bt b).
  Context (tid : nat) (cmp : bool) (n np : nat) (e : nat -> AD b) (ev : nat -> VecAD b) (p : prog T)
    (V0 : nat -> T) (l0 : nat -> nat) (f : adfun b).
  Hypothesis REC : recorded tid cmp n np e ev p V0 l0 f.

  Lemma run_fields h : forall f' g : adfun b, run f' h = Some g -> g_rec g = g_rec f' /\ g_n g = g_n f' /\ g_dep g = g_dep f'.
  Proof.
    induction h as [|[d|x|c] h IH]; intros f' g H; cbn [run] in H.
    - now injection H as <-.
    - now apply IH in H.
    - destruct (forward0 f' x) as [[ys f1]|] eqn:E; [|discriminate]. unfold forward0 in E.
      destruct (decode _ _ _); [|discriminate]. destruct (sweep0 _ _ _ _ _); [|discriminate]. injection E as <- <-. now apply IH in H.
    - now apply IH in H.
  Qed.
  Lemma forward0_sweep (g g' : adfun b) x y : g_rec g = g_rec f -> g_dep g = g_dep f -> length x = n -> forward0 g x = Some (y, g') ->
    exists V t, sweep0 (g_par g) (g_cc g) (head_ins n ++ body n (g_rec f)) 0 (init0 (g_rec f) V (g_l2v g)) = Some t /\
      (forall j, j < n -> V (S j) = nth j x b0) /\ y = map (f_V t) (g_dep f) /\ f_l2v t = g_l2v g' /\ f_V t = g_V g'.
  Proof.
    intros E1 E2 Hx F. destruct (recorded_rtape L _ _ _ _ _ _ _ _ _ _ REC) as [RT _].
    unfold forward0 in F. rewrite E1, E2, (t_dec _ _ _ _ RT) in F.
    match type of F with context [init0 _ ?W _] => set (V := W) in F end.
    destruct (sweep0 _ _ _ _ _) as [t|] eqn:S; [|discriminate]. injection F as <- <-.
    exists V, t. repeat split; auto. intros j Hj. apply (set_ind_at tid (proj1 REC) x _ 0 j). lia.
  Qed.

  (** the two sparsity functions accept every pattern of the right size *)
  Theorem sparsity_accepted : forall h g pat transpose dep, run f h = Some g ->
    (fst (swp transpose (p_nr pat, p_nc pat)) = n -> exists out, for_jac_sparsity g pat transpose dep = Some out /\
      swp transpose (p_nr out, p_nc out) = (length (g_dep f), snd (swp transpose (p_nr pat, p_nc pat)))) /\
    (snd (swp transpose (p_nr pat, p_nc pat)) = length (g_dep f) -> exists out, rev_jac_sparsity g pat transpose dep = Some out /\
      swp transpose (p_nr out, p_nc out) = (fst (swp transpose (p_nr pat, p_nc pat)), n)).
  Proof.
    intros h g pat tr dp RUN. destruct (run_fields h f g RUN) as (E1 & E2 & E3).
    destruct (recorded_rtape L _ _ _ _ _ _ _ _ _ _ REC) as [RT EN].
    unfold for_jac_sparsity, rev_jac_sparsity. rewrite E1, E2, E3, EN, (t_dec _ _ _ _ RT).
    destruct (swp tr (p_nr pat, p_nc pat)) as [u v]. cbn [fst snd].
    split; intros ->; rewrite Nat.eqb_refl; cbn [negb].
    - destruct (for_jac_sweep _ _ _ _) as [Uf Wf]. eexists. split; [reflexivity|]. unfold get_internal. now destruct tr.
    - destruct (rev_jac_sweep _ _ _ _) as [Uf Wf]. eexists. split; [reflexivity|]. unfold get_internal. rewrite seq_length. now destruct tr.
  Qed.

  (** the evaluations of f at the two arguments make the same choices *)
  Definition same_choices (g : adfun b) (g1 g2 : adfun b) : Prop :=
    Forall (same_choice (g_par g) (g_V g1) (g_V g2) (g_l2v g1) (g_l2v g2)) (body n (g_rec f)).

  Lemma for_jac_two dep : forall h g pat transpose out, run f h = Some g ->
    for_jac_sparsity g pat transpose dep = Some out ->
    forall i c x x' y y' g1 g1', i < length (g_dep f) -> c < snd (swp transpose (p_nr pat, p_nc pat)) ->
    length x = n -> length x' = n -> forward0 g x = Some (y, g1) -> forward0 g x' = Some (y', g1') ->
    (dep = false -> same_choices g g1 g1') ->
    (forall j, j < n -> ~ entry transpose pat j c -> nth j x b0 = nth j x' b0) ->
    ~ entry transpose out i c -> nth i y b0 = nth i y' b0.
  Proof.
    intros h g pat tr out RUN SP i c x x' y y' g1 g1' Hi Hc Hx Hx' F F' SC AG NO.
    destruct (run_fields h f g RUN) as (E1 & E2 & E3). destruct (recorded_rtape L _ _ _ _ _ _ _ _ _ _ REC) as [RT EN].
    unfold for_jac_sparsity in SP. rewrite E1, E2, E3, EN, (t_dec _ _ _ _ RT) in SP.
    destruct (swp tr (p_nr pat, p_nc pat)) as [u ell]. cbn [snd] in Hc.
    destruct (negb (u =? n)); [discriminate|].
    destruct (for_jac_sweep _ _ _ _) as [Uf Wf] eqn:FJ. injection SP as <-.
    destruct (forward0_sweep g g1 x y E1 E3 Hx F) as (V & t & S1 & S2 & S3 & S4 & S5).
    destruct (forward0_sweep g g1' x' y' E1 E3 Hx' F') as (V' & t' & S1' & S2' & S3' & S4' & S5').
    rewrite get_internal_spec in NO by auto. apply not_true_is_false in NO.
    assert (f_V t (nth i (g_dep f) 0) = f_V t' (nth i (g_dep f) 0)) as K.
    { refine (spar_for _ _ _ _ RT (g_par g) (g_cc g) _ dep _ c V V' _ _ t t' _ _ FJ S1 S1' _ _ _ _ NO).
      - intros D. specialize (SC D). unfold same_choices in SC. now rewrite S4, S5, S4', S5'.
      - intros j Hj UJ. rewrite S2, S2' by auto. apply AG; auto. intros En.
        apply not_true_iff_false in UJ. apply UJ, set_internal_spec. split; [lia|]. exists j. split; auto. rewrite seq_nth; lia.
      - apply nth_In; auto. }
    rewrite S3, S3'. rewrite (nth_indep _ b0 (f_V t 0)) by (rewrite map_length; auto). rewrite (map_nth (f_V t)).
    rewrite (nth_indep _ b0 (f_V t' 0)) by (rewrite map_length; auto). rewrite (map_nth (f_V t')). exact K.
  Qed.

  Lemma rev_jac_two dep : forall h g pat transpose out, run f h = Some g ->
    rev_jac_sparsity g pat transpose dep = Some out ->
    forall i c x x' y y' g1 g1', i < length (g_dep f) -> c < fst (swp transpose (p_nr pat, p_nc pat)) ->
    length x = n -> length x' = n -> forward0 g x = Some (y, g1) -> forward0 g x' = Some (y', g1') ->
    (dep = false -> same_choices g g1 g1') ->
    entry transpose pat c i ->
    (forall j, j < n -> entry transpose out c j -> nth j x b0 = nth j x' b0) ->
    nth i y b0 = nth i y' b0.
  Proof.
    intros h g pat tr out RUN SP i c x x' y y' g1 g1' Hi Hc Hx Hx' F F' SC EN0 AG.
    destruct (run_fields h f g RUN) as (E1 & E2 & E3). destruct (recorded_rtape L _ _ _ _ _ _ _ _ _ _ REC) as [RT EN].
    unfold rev_jac_sparsity in SP. rewrite E1, E2, E3, EN, (t_dec _ _ _ _ RT) in SP.
    destruct (swp tr (p_nr pat, p_nc pat)) as [ell m]. cbn [fst] in Hc.
    destruct (negb (m =? _)); [discriminate|].
    destruct (rev_jac_sweep _ _ _ _) as [Uf Wf] eqn:FJ. injection SP as <-.
    destruct (forward0_sweep g g1 x y E1 E3 Hx F) as (V & t & S1 & S2 & S3 & S4 & S5).
    destruct (forward0_sweep g g1' x' y' E1 E3 Hx' F') as (V' & t' & S1' & S2' & S3' & S4' & S5').
    assert (forall pat i j, entry tr pat i j <-> entry (negb tr) pat j i) as FL by (intros; unfold entry; now destruct tr).
    assert (f_V t (nth i (g_dep f) 0) = f_V t' (nth i (g_dep f) 0)) as K.
    { refine (spar_rev _ _ _ _ RT (g_par g) (g_cc g) _ dep _ c V V' _ _ t t' _ _ FJ S1 S1' _ _ _ _ _).
      - intros D. specialize (SC D). unfold same_choices in SC. now rewrite S4, S5, S4', S5'.
      - intros j Hj UJ. rewrite S2, S2' by auto. apply AG; auto. apply FL. apply get_internal_spec; try (rewrite seq_length); auto.
        now rewrite seq_nth by auto.
      - apply nth_In; auto.
      - apply set_internal_spec. pose proof (t_dep0 _ _ _ _ RT) as DP. rewrite Forall_forall in DP.
        specialize (DP (nth i (g_dep f) 0) ltac:(now apply nth_In)). split; [lia|]. exists i. split; auto. now apply FL. }
    rewrite S3, S3'. rewrite (nth_indep _ b0 (f_V t 0)) by (rewrite map_length; auto). rewrite (map_nth (f_V t)).
    rewrite (nth_indep _ b0 (f_V t' 0)) by (rewrite map_length; auto). rewrite (map_nth (f_V t')). exact K.
  Qed.

  (** ** C16.  With dependency = true: if (i, c) is not in the pattern returned by
      for_jac_sparsity then y_i does not change when only components x_j with (j, c) in the
      input pattern change.  With the identity as input pattern: if (i, j) is absent, y_i does
      not depend on x_j. *)
  Theorem for_jac_dependency : forall h g pat transpose out, run f h = Some g ->
    for_jac_sparsity g pat transpose true = Some out ->
    forall i c x x' y y' g1 g1', i < length (g_dep f) -> c < snd (swp transpose (p_nr pat, p_nc pat)) ->
    length x = n -> length x' = n -> forward0 g x = Some (y, g1) -> forward0 g x' = Some (y', g1') ->
    (forall j, j < n -> ~ entry transpose pat j c -> nth j x b0 = nth j x' b0) ->
    ~ entry transpose out i c -> nth i y b0 = nth i y' b0.
  Proof.
    intros h g pat tr out RUN SP i c x x' y y' g1 g1' Hi Hc Hx Hx' F F' AG NO.
    apply (for_jac_two true h g pat tr out RUN SP i c x x' y y' g1 g1'); auto. discriminate.
  Qed.

  (** For rev_jac_sparsity: the components y_i with (c, i) in the input pattern are functions
      of the components x_j with (c, j) in the returned pattern. *)
  Theorem rev_jac_dependency : forall h g pat transpose out, run f h = Some g ->
    rev_jac_sparsity g pat transpose true = Some out ->
    forall i c x x' y y' g1 g1', i < length (g_dep f) -> c < fst (swp transpose (p_nr pat, p_nc pat)) ->
    length x = n -> length x' = n -> forward0 g x = Some (y, g1) -> forward0 g x' = Some (y', g1') ->
    entry transpose pat c i ->
    (forall j, j < n -> entry transpose out c j -> nth j x b0 = nth j x' b0) ->
    nth i y b0 = nth i y' b0.
  Proof.
    intros h g pat tr out RUN SP i c x x' y y' g1 g1' Hi Hc Hx Hx' F F' EN AG.
    apply (rev_jac_two true h g pat tr out RUN SP i c x x' y y' g1 g1'); auto. discriminate.
  Qed.

  (** With dependency = false the same holds for two arguments at which the evaluation makes
      the same choices (branches of conditional expressions, values of sign and of discrete
      functions, VecAD elements). *)
  Theorem for_jac_same_choices : forall h g pat transpose out, run f h = Some g ->
    for_jac_sparsity g pat transpose false = Some out ->
    forall i c x x' y y' g1 g1', i < length (g_dep f) -> c < snd (swp transpose (p_nr pat, p_nc pat)) ->
    length x = n -> length x' = n -> forward0 g x = Some (y, g1) -> forward0 g x' = Some (y', g1') ->
    same_choices g g1 g1' ->
    (forall j, j < n -> ~ entry transpose pat j c -> nth j x b0 = nth j x' b0) ->
    ~ entry transpose out i c -> nth i y b0 = nth i y' b0.
  Proof.
    intros h g pat tr out RUN SP i c x x' y y' g1 g1' Hi Hc Hx Hx' F F' SC AG NO.
    apply (for_jac_two false h g pat tr out RUN SP i c x x' y y' g1 g1'); auto.
  Qed.
  Theorem rev_jac_same_choices : forall h g pat transpose out, run f h = Some g ->
    rev_jac_sparsity g pat transpose false = Some out ->
    forall i c x x' y y' g1 g1', i < length (g_dep f) -> c < fst (swp transpose (p_nr pat, p_nc pat)) ->
    length x = n -> length x' = n -> forward0 g x = Some (y, g1) -> forward0 g x' = Some (y', g1') ->
    same_choices g g1 g1' ->
    entry transpose pat c i ->
    (forall j, j < n -> entry transpose out c j -> nth j x b0 = nth j x' b0) ->
    nth i y b0 = nth i y' b0.
  Proof.
    intros h g pat tr out RUN SP i c x x' y y' g1 g1' Hi Hc Hx Hx' F F' SC EN AG.
    apply (rev_jac_two false h g pat tr out RUN SP i c x x' y y' g1 g1'); auto.
  Qed.

  (** the same for the user's algorithm, for arguments at which its comparisons have the
      recorded outcomes *)
  Theorem for_jac_dependency_of_algorithm : forall h g pat transpose out, Forall (sized n np) h -> run f h = Some g ->
    for_jac_sparsity g pat transpose true = Some out ->
    let s x := start (base_values e ev) x (cur_dyn (dyn_values n np e) h) in
    forall i c x x' y y', i < length (g_dep f) -> c < snd (swp transpose (p_nr pat, p_nc pat)) ->
    length x = n -> length x' = n ->
    decisions p (s x) = decisions p (base_values e ev) -> decisions p (s x') = decisions p (base_values e ev) ->
    eval p (s x) = Some y -> eval p (s x') = Some y' ->
    (forall j, j < n -> ~ entry transpose pat j c -> nth j x b0 = nth j x' b0) ->
    ~ entry transpose out i c -> nth i y b0 = nth i y' b0.
  Proof.
    intros h g pat tr out SZ RUN SP s i c x x' y y' Hi Hc Hx Hx' D D' E E' AG NO.
    pose proof (forward_zero_is_algorithm L _ _ _ _ _ _ _ _ _ _ REC h g x SZ RUN Hx) as A. cbv zeta in A. fold (s x) in A.
    pose proof (forward_zero_is_algorithm L _ _ _ _ _ _ _ _ _ _ REC h g x' SZ RUN Hx') as A'. cbv zeta in A'. fold (s x') in A'.
    specialize (A D). specialize (A' D'). rewrite E in A. rewrite E' in A'. destruct A as (g1 & A). destruct A' as (g1' & A').
    apply (for_jac_dependency h g pat tr out RUN SP i c x x' y y' g1 g1'); auto.
  Qed.
End C16.
