(** C15: the Hessian sparsity patterns returned by rev_hes_sparsity and for_hes_sparsity are
    conservative, over the real numbers.

    Reading guide.  [recorded ... f], [run f h] (history of new_dynamic, Forward(0), and
    compare_change_count calls), [forward0 g x]: as in Tape_Prop; [entry transpose pat i j]: the
    pair (i, j), or (j, i) when transpose, is in the pattern; [same_choices], [same_sides]:
    two evaluations take the same branches of conditional expressions, the same values of sign
    and discrete functions, the same elements of VecAD vectors, and are on the same side of zero
    at the argument of abs.

    The derivative form: X s t is the argument x + s u + t e_j; the mixed second partial
    derivative of y_i with respect to s and t, which is (e_j)' F_i''(x) u, is zero. *)
From Coq Require Import Reals ZArith Lra Lia List Bool Arith.
From Coquelicot Require Import Coquelicot.
From Verif Require Import Base_Spec Op_Model Tape_Spec Tape_Model Tape_Proof Tape_Proof2 Tape_Proof7 Tape_Proof10
  Tape_Hist Tape_Prop Sweep_Model Sweep_Eqs Sweep_Eqs2 Sweep_Tape Sweep_Uniq Tape_Swf Tape_Vec
  Drv_Proof2 Drv_Proof3 Rev_Prim Real_Base Spar_Model Spar_Proof Spar_Proof2 Spar_Proof3 Spar_Prop
  Hes_Model Hes_Proof Hes_Proof2 Hes_Proof3 Hes_Proof4 Hes_Proof5.
Import ListNotations.
Open Scope nat_scope.

(** F(s, t) = g(s) + h(t) near (0, 0): the mixed derivative is zero *)
Lemma mixed_derive (F : R -> R -> R) eps : (0 < eps)%R ->
  (forall s t, (Rabs s < eps)%R -> (Rabs t < eps)%R -> (F s t + F 0 0 = F s 0 + F 0 t)%R) ->
  is_derive (fun t => Derive (fun s => F s t) 0)%R 0%R 0%R.
Proof.
  intros He H. apply is_derive_ext_loc with (fun _ => Derive (fun s => F s 0)%R 0%R); [|apply (is_derive_const (Derive (fun s => F s 0)%R 0%R) 0%R)].
  exists (mkposreal eps He). intros t Ht. unfold ball in Ht. cbn in Ht. unfold AbsRing_ball, abs, minus, plus, opp in Ht. cbn in Ht.
  assert (Rabs t < eps)%R as Ht2 by (clear - Ht; revert Ht; unfold Rabs; repeat (destruct (Rcase_abs _)); lra).
  unfold Derive. apply (f_equal real). apply Lim_ext_loc. exists (mkposreal eps He). intros s Hs _. unfold ball in Hs. cbn in Hs. unfold AbsRing_ball, abs, minus, plus, opp in Hs. cbn in Hs.
  assert (Rabs s < eps)%R as Hs2 by (clear - Hs; revert Hs; unfold Rabs; repeat (destruct (Rcase_abs _)); lra). rewrite Rplus_0_l. pose proof (H s t Hs2 Ht2). f_equal. lra.
Qed.

Section C15.
  Variable dis : nat -> R -> R.
  Variable nan : R.
  Notation b := (Rbase dis nan).
  Context (tid : nat) (cmp : bool) (n np : nat) (e : nat -> AD b) (ev : nat -> VecAD b) (p : prog R)
    (V0 : nat -> R) (l0 : nat -> nat) (f : adfun b).
  Hypothesis REC : recorded tid cmp n np e ev p V0 l0 f.

  Definition same_sides (g1 g2 : adfun b) : Prop := List.Forall (same_abs (g_V g1) (g_V g2)) (body n (g_rec f)).

  (** the evaluations at the four corners x(s, t), s, t = 0, 1, of a parallelogram: they exist
      and make the same choices *)
  Definition corners (g : adfun b) (x y : bool -> bool -> list R) : Prop :=
    exists z : bool -> bool -> adfun b, forall s t,
    length (x s t) = n /\ forward0 (b:=b) g (x s t) = Some (y s t, z s t) /\
    same_choices n f g (z s t) (z false false) /\ same_sides (z s t) (z false false).
  Definition add4 (v : bool -> bool -> R) : Prop := (v true true + v false false = v true false + v false true)%R.

  Lemma corner_sweeps g x y : g_rec g = g_rec f -> g_dep g = g_dep f -> corners g x y ->
    exists V T, (forall s t, sweep0 (b:=b) (g_par g) (g_cc g) (head_ins n ++ body n (g_rec f)) 0 (init0 (b:=b) (g_rec f) (V s t) (g_l2v g)) = Some (T s t)) /\
      (forall s t, List.Forall (same_choice (b:=b) (g_par g) (f_V (T s t)) (f_V (T false false)) (f_l2v (T s t)) (f_l2v (T false false))) (body n (g_rec f))) /\
      (forall s t, List.Forall (same_abs (f_V (T s t)) (f_V (T false false))) (body n (g_rec f))) /\
      (forall s t j, j < n -> V s t (S j) = nth j (x s t) 0%R) /\
      (forall s t, y s t = map (f_V (T s t)) (g_dep f)).
  Proof.
    intros E1 E3 (z & C).
    destruct (C true true) as (L1 & F1 & S1 & A1), (C true false) as (L2 & F2 & S2 & A2), (C false true) as (L3 & F3 & S3 & A3), (C false false) as (L4 & F4 & S4 & A4).
    destruct (forward0_sweep (Rbase_laws dis nan) _ _ _ _ _ _ _ _ _ _ REC g _ _ _ E1 E3 L1 F1) as (V1 & t1 & B1 & B2 & B3 & B4 & B5).
    destruct (forward0_sweep (Rbase_laws dis nan) _ _ _ _ _ _ _ _ _ _ REC g _ _ _ E1 E3 L2 F2) as (V2 & t2 & C1 & C2 & C3 & C4 & C5).
    destruct (forward0_sweep (Rbase_laws dis nan) _ _ _ _ _ _ _ _ _ _ REC g _ _ _ E1 E3 L3 F3) as (V3 & t3 & D1 & D2 & D3 & D4 & D5).
    destruct (forward0_sweep (Rbase_laws dis nan) _ _ _ _ _ _ _ _ _ _ REC g _ _ _ E1 E3 L4 F4) as (V4 & t4 & G1 & G2 & G3 & G4 & G5).
    unfold same_choices, same_sides in *. rewrite <- B4, <- B5, <- G4, <- G5 in *. rewrite <- C4, <- C5, <- D4, <- D5 in *.
    exists (fun s t : bool => if s then if t then V1 else V2 else if t then V3 else V4), (fun s t : bool => if s then if t then t1 else t2 else if t then t3 else t4).
    split; [|split; [|split; [|split]]]; intros [|] [|]; auto.
  Qed.

  Lemma dep_corners T i : i < length (g_dep f) -> mixed0 (fun s t => f_V (b:=b) (T s t)) (nth i (g_dep f) 0) ->
    add4 (fun s t => nth i (map (f_V (b:=b) (T s t)) (g_dep f)) 0%R).
  Proof.
    intros Hi H. unfold add4, mixed0 in *.
    assert (forall g : nat -> R, nth i (map g (g_dep f)) 0%R = g (nth i (g_dep f) 0)) as N.
    { intros g. rewrite (nth_indep _ 0%R (g 0)) by (rewrite map_length; auto). apply (map_nth g). }
    etransitivity; [|etransitivity; [exact H|]]; [f_equal; apply N|]. f_equal; symmetry; apply N.
  Qed.

  Lemma select_dep_spec dep sel : forall R0 i, i < length dep -> length sel = length dep ->
    (forall k, k < length dep -> nth k dep 0 = nth i dep 0 -> nth k sel false = true) -> select_dep R0 dep sel (nth i dep 0) = true.
  Proof.
    assert (forall dep sel R0 v, R0 v = true -> length sel = length dep -> (forall k, k < length dep -> nth k dep 0 = v -> nth k sel false = true) -> select_dep R0 dep sel v = true) as K.
    { induction dep0 as [|d dep0 IH]; intros [|s sel0] R0 v H L A; cbn [select_dep]; auto. apply IH; auto.
      - unfold fset. destruct (Nat.eqb_spec v d) as [->|]; auto. apply (A 0); cbn; auto. lia.
      - intros k Hk. apply (A (S k)). cbn. lia. }
    revert sel. induction dep as [|d dep IH]; intros sel R0 i Hi L A; [cbn in Hi; lia|].
    destruct sel as [|s sel]; [discriminate|]. cbn [select_dep]. destruct i as [|i]; cbn [nth] in *.
    - apply K; auto.
      + pose proof (A 0 ltac:(cbn; lia) eq_refl) as Q. cbn in Q. rewrite Q. apply fset_eq.
      + intros k Hk. apply (A (S k)). cbn. lia.
    - apply IH; auto.
      + cbn in Hi. lia.
      + intros k Hk. apply (A (S k)). cbn. lia.
  Qed.

  (** ** C15, rev_hes_sparsity.  [stored]: what the previous for_jac_sparsity call with input
      pattern [pat] left in the function object.  Component i of F is selected (and so is
      every component that is the same variable, see [rev_hes_repeated_dependent] in Hes_Ex).
      If (j, c) is not in the returned pattern, then moving x along column c of the input
      pattern and moving x_j have independent effects on y_i. *)
  Theorem rev_hes_mixed : forall h g pat tr1 dependency stored select_range transpose out,
    run f h = Some g -> for_jac_stored g pat tr1 dependency = Some stored ->
    rev_hes_sparsity g stored select_range transpose = Some out ->
    forall i j c x y, i < length (g_dep f) -> j < n -> c < snd (swp tr1 (p_nr pat, p_nc pat)) ->
    (forall k, k < length (g_dep f) -> nth k (g_dep f) 0 = nth i (g_dep f) 0 -> nth k select_range false = true) ->
    corners g x y ->
    (forall k t, k < n -> ~ entry tr1 pat k c -> nth k (x true t) 0%R = nth k (x false t) 0%R) ->
    (forall k s, k < n -> k <> j -> nth k (x s true) 0%R = nth k (x s false) 0%R) ->
    add4 (fun s t => nth j (x s t) 0%R) ->
    ~ entry transpose out j c ->
    add4 (fun s t => nth i (y s t) 0%R).
  Proof.
    intros h g pat tr1 dp stored sel tr out RUN ST RH i j c x y Hi Hj Hc SEL CO MS MT MX NO.
    destruct (run_fields h f g RUN) as (E1 & E2 & E3). destruct (recorded_rtape (Rbase_laws dis nan) _ _ _ _ _ _ _ _ _ _ REC) as [RT EN].
    destruct (corner_sweeps g x y E1 E3 CO) as (V & T & C1 & C2 & C3 & C4 & C5).
    unfold for_jac_stored in ST. rewrite E1, E2, EN, (t_dec _ _ _ _ RT) in ST.
    destruct (swp tr1 (p_nr pat, p_nc pat)) as [u ell]. cbn [snd] in Hc. destruct (negb (u =? n)); [discriminate|]. injection ST as <-.
    unfold rev_hes_sparsity in RH. rewrite E1, E2, E3, EN, (t_dec _ _ _ _ RT) in RH.
    destruct (Nat.eqb_spec (length sel) (length (g_dep f))) as [LS|]; [|discriminate]. cbn [negb] in RH.
    destruct (for_jac_sweep _ _ _ _) as [J Wj] eqn:FJ. cbn [fst] in RH. injection RH as <-.
    rewrite get_internal_spec in NO by (rewrite ?seq_length; auto). rewrite seq_nth in NO by auto. apply not_true_is_false in NO.
    pose proof (rev_hes_core dis nan _ _ _ _ RT (g_par g) (g_cc g) V (fun _ _ => g_l2v g) T C1 C2 C3 dp _ _ J Wj c j (mkHst (select_dep (fun _ => false) (g_dep f) sel) (fun _ _ => false) (fun _ => false) (fun _ _ => false)) (nth i (g_dep f) 0) FJ) as K. cbv zeta in K.
    assert (add4 (fun s t => nth i (map (f_V (b:=b) (T s t)) (g_dep f)) 0%R)) as R.
    { apply dep_corners; auto. refine (K _ _ _ NO _ _).
      - intros k t Hk UK. rewrite !C4 by auto. apply MS; auto. intros En.
        apply not_true_iff_false in UK. apply UK, set_internal_spec. split; [lia|]. exists k. split; auto. rewrite seq_nth; lia.
      - intros k s Hk Nk. rewrite !C4 by auto. now apply MT.
      - intros k Hk. rewrite !C4 by auto. destruct (Nat.eq_dec k j) as [->|Nk]; [exact MX|].
        rewrite !MT by auto. lra.
      - apply nth_In; auto.
      - cbn [h_R]. now apply select_dep_spec. }
    unfold add4 in *. rewrite !C5. exact R.
  Qed.

  (** The derivative form.  [u] is a vector with the sparsity of column c of the input pattern. *)
  Definition move (x u : list R) (j : nat) (s t : R) : list R :=
    map (fun k => nth k x 0 + s * nth k u 0 + t * (if k =? j then 1 else 0))%R (seq 0 n).
  (** near x, F can be evaluated and no choice changes *)
  Definition steady2 (g : adfun b) (X F : R -> R -> list R) (eps : R) : Prop :=
    exists Z : R -> R -> adfun b, forall s t, (Rabs s < eps)%R -> (Rabs t < eps)%R ->
    forward0 (b:=b) g (X s t) = Some (F s t, Z s t) /\
    same_choices n f g (Z s t) (Z 0%R 0%R) /\ same_sides (Z s t) (Z 0%R 0%R).

  Lemma nth_move x u j s t k : k < n -> nth k (move x u j s t) 0%R = (nth k x 0 + s * nth k u 0 + t * (if k =? j then 1 else 0))%R.
  Proof.
    intros Hk. unfold move. set (h := fun k => (nth k x 0 + s * nth k u 0 + t * (if k =? j then 1 else 0))%R).
    rewrite (nth_indep _ 0%R (h 0)) by (rewrite map_length, seq_length; auto). rewrite (map_nth h), seq_nth by auto. reflexivity.
  Qed.
  Lemma steady2_corners g x u j F eps s t : (0 < eps)%R -> steady2 g (move x u j) F eps -> (Rabs s < eps)%R -> (Rabs t < eps)%R ->
    corners g (fun p q : bool => move x u j (if p then s else 0%R) (if q then t else 0%R)) (fun p q : bool => F (if p then s else 0%R) (if q then t else 0%R)).
  Proof.
    intros He (Z & H) Hs Ht. exists (fun p q : bool => Z (if p then s else 0%R) (if q then t else 0%R)). intros a q.
    split; [unfold move; now rewrite map_length, seq_length|].
    apply H; [destruct a|destruct q]; auto; now rewrite Rabs_R0.
  Qed.

  Theorem rev_hes_derivative : forall h g pat tr1 dependency stored select_range transpose out,
    run f h = Some g -> for_jac_stored g pat tr1 dependency = Some stored ->
    rev_hes_sparsity g stored select_range transpose = Some out ->
    forall i j c x u F eps, i < length (g_dep f) -> j < n -> c < snd (swp tr1 (p_nr pat, p_nc pat)) ->
    (forall k, k < length (g_dep f) -> nth k (g_dep f) 0 = nth i (g_dep f) 0 -> nth k select_range false = true) ->
    (0 < eps)%R -> steady2 g (move x u j) F eps ->
    (forall k, k < n -> ~ entry tr1 pat k c -> nth k u 0%R = 0%R) ->
    ~ entry transpose out j c ->
    is_derive (fun t => Derive (fun s => nth i (F s t) 0%R) 0%R) 0%R 0%R.
  Proof.
    intros h g pat tr1 dp stored sel tr out RUN ST RH i j c x u F eps Hi Hj Hc SEL He SY UZ NO.
    apply (mixed_derive (fun s t => nth i (F s t) 0%R) eps He). intros s t Hs Ht.
    refine (rev_hes_mixed h g pat tr1 dp stored sel tr out RUN ST RH i j c _ _ Hi Hj Hc SEL (steady2_corners g x u j F eps s t He SY Hs Ht) _ _ _ NO).
    - intros k q Hk Ne. rewrite !nth_move by auto. rewrite (UZ k Hk Ne). ring.
    - intros k q Hk Ne. rewrite !nth_move by auto. destruct (Nat.eqb_spec k j); [contradiction|]. ring.
    - unfold add4. rewrite !nth_move by auto. ring.
  Qed.

  (** ** C15, for_hes_sparsity: tapes without conditional expressions and without azmul of a
      parameter and a variable; see the counterexamples in Hes_Ex. *)
  Definition for_hes_handles : Prop := List.Forall (fun i => for_hes_op_ok (i_op i) = true) (body n (g_rec f)).

  Theorem for_hes_mixed_partial : forall h g select_domain select_range out,
    run f h = Some g -> for_hes_handles -> for_hes_sparsity g select_domain select_range = Some out ->
    forall i j1 j2 x y, i < length (g_dep f) -> nth i select_range false = true ->
    j1 < n -> j2 < n -> nth j1 select_domain false = true -> nth j2 select_domain false = true ->
    corners g x y ->
    (forall k t, k < n -> k <> j1 -> nth k (x true t) 0%R = nth k (x false t) 0%R) ->
    (forall k s, k < n -> k <> j2 -> nth k (x s true) 0%R = nth k (x s false) 0%R) ->
    add4 (fun s t => nth j1 (x s t) 0%R) ->
    ~ entry false out j1 j2 ->
    add4 (fun s t => nth i (y s t) 0%R).
  Proof.
    intros h g sd sr out RUN OKT RH i j1 j2 x y Hi Si Hj1 Hj2 S1 S2 CO MS MT MX NO.
    destruct (run_fields h f g RUN) as (E1 & E2 & E3). destruct (recorded_rtape (Rbase_laws dis nan) _ _ _ _ _ _ _ _ _ _ REC) as [RT EN].
    destruct (corner_sweeps g x y E1 E3 CO) as (V & T & C1 & C2 & C3 & C4 & C5).
    unfold for_hes_sparsity in RH. rewrite E1, E2, E3, EN, (t_dec _ _ _ _ RT) in RH.
    destruct (Nat.eqb_spec (length sr) (length (g_dep f))) as [LS|]; [|rewrite orb_true_r in RH; discriminate].
    destruct (negb _ || negb _); [discriminate|].
    set (U0 := fold_left _ (combine (g_dep f) sr) _) in RH.
    destruct (rev_jac_sweep _ _ _ _) as [Rf Wr] eqn:FJ. cbn [fst] in RH. injection RH as <-.
    pose proof (for_hes_core dis nan _ _ _ _ RT (g_par g) (g_cc g) V (fun _ _ => g_l2v g) T C1 C2 C3 _ _ Rf Wr (fun j => nth j sd false) j1 j2 (nth i (g_dep f) 0) FJ) as K. cbv zeta in K.
    assert (add4 (fun s t => nth i (map (f_V (b:=b) (T s t)) (g_dep f)) 0%R)) as R.
    { apply dep_corners; auto. refine (K OKT Hj1 Hj2 S1 S2 _ _ _ _ _ _).
      - intros k t Hk Nk. rewrite !C4 by auto. now apply MS.
      - intros k s Hk Nk. rewrite !C4 by auto. now apply MT.
      - intros k Hk. rewrite !C4 by auto. destruct (Nat.eq_dec k j1) as [->|Nk]; [exact MX|].
        rewrite !MS by auto. lra.
      - apply not_true_is_false. intros Q. apply NO. unfold entry. cbn [swp p_rc]. apply in_map_iff.
        exists (j1, S j2). split; [cbn; now rewrite Nat.sub_0_r|].
        apply (get_internal_spec false (seq 1 n) (n + 1)); rewrite ?seq_length; try lia. now rewrite seq_nth by auto.
      - apply nth_In; auto.
      - clear - Hi Si LS. unfold U0. generalize (g_dep f) sr i Hi Si LS. clear.
        assert (forall l (U : vset) v, U v 0 = true -> fold_left (fun (U : vset) (ds : nat * bool) => if snd ds then sv_union U (fst ds) (Nat.eqb 0) else U) l U v 0 = true) as K.
        { induction l as [|[d s] l IH]; intros U v H; cbn [fold_left fst snd]; auto. apply IH. destruct s; auto. now apply sv_union_mono. }
        intros dep sr. assert (forall (U : vset) i, i < length dep -> nth i sr false = true -> length sr = length dep ->
          fold_left (fun (U : vset) (ds : nat * bool) => if snd ds then sv_union U (fst ds) (Nat.eqb 0) else U) (combine dep sr) U (nth i dep 0) 0 = true) as K2.
        { revert sr. induction dep as [|d dep IH]; intros sr U i Hi Si LS; [cbn in Hi; lia|]. destruct sr as [|s sr]; [discriminate|].
          cbn [combine fold_left fst snd]. destruct i as [|i]; cbn [nth] in *.
          - subst s. apply K. now apply sv_union_in.
          - apply IH; auto. cbn in Hi. lia. }
        intros. now apply K2. }
    unfold add4 in *. rewrite !C5. exact R.
  Qed.
  Theorem for_hes_derivative_partial : forall h g select_domain select_range out,
    run f h = Some g -> for_hes_handles -> for_hes_sparsity g select_domain select_range = Some out ->
    forall i j1 j2 x F eps, i < length (g_dep f) -> nth i select_range false = true ->
    j1 < n -> j2 < n -> nth j1 select_domain false = true -> nth j2 select_domain false = true ->
    let u := map (fun k => if k =? j1 then 1%R else 0%R) (seq 0 n) in
    (0 < eps)%R -> steady2 g (move x u j2) F eps ->
    ~ entry false out j1 j2 ->
    is_derive (fun t => Derive (fun s => nth i (F s t) 0%R) 0%R) 0%R 0%R.
  Proof.
    intros h g sd sr out RUN OKT RH i j1 j2 x F eps Hi Si Hj1 Hj2 S1 S2 u He SY NO.
    assert (forall k, k < n -> nth k u 0%R = if k =? j1 then 1%R else 0%R) as NU.
    { intros k Hk. unfold u. set (h1 := fun k => if k =? j1 then 1%R else 0%R).
      rewrite (nth_indep _ 0%R (h1 0)) by (rewrite map_length, seq_length; auto). rewrite (map_nth h1), seq_nth by auto. reflexivity. }
    apply (mixed_derive (fun s t => nth i (F s t) 0%R) eps He). intros s t Hs Ht.
    refine (for_hes_mixed_partial h g sd sr out RUN OKT RH i j1 j2 _ _ Hi Si Hj1 Hj2 S1 S2 (steady2_corners g x u j2 F eps s t He SY Hs Ht) _ _ _ NO).
    - intros k q Hk Ne. rewrite !nth_move, NU by auto. destruct (Nat.eqb_spec k j1); [contradiction|]. ring.
    - intros k q Hk Ne. rewrite !nth_move by auto. destruct (Nat.eqb_spec k j2); [contradiction|]. ring.
    - unfold add4. rewrite !nth_move by auto. ring.
  Qed.

  (** both functions accept their arguments when the sizes are right, and return an n by ell
      (transposed: ell by n) or n by n pattern *)
  Theorem hes_accepted : forall h g, run f h = Some g ->
    (forall pat tr1 dependency select_range transpose, fst (swp tr1 (p_nr pat, p_nc pat)) = n -> length select_range = length (g_dep f) ->
      exists stored out, for_jac_stored g pat tr1 dependency = Some stored /\ rev_hes_sparsity g stored select_range transpose = Some out /\
        swp transpose (p_nr out, p_nc out) = (n, snd (swp tr1 (p_nr pat, p_nc pat)))) /\
    (forall select_domain select_range, length select_domain = n -> length select_range = length (g_dep f) ->
      exists out, for_hes_sparsity g select_domain select_range = Some out /\ (p_nr out, p_nc out) = (n, n)).
  Proof.
    intros h g RUN. destruct (run_fields h f g RUN) as (E1 & E2 & E3). destruct (recorded_rtape (Rbase_laws dis nan) _ _ _ _ _ _ _ _ _ _ REC) as [RT EN].
    split.
    - intros pat tr1 dp sel tr HN HS. unfold for_jac_stored, rev_hes_sparsity. rewrite E1, E2, E3, EN, (t_dec _ _ _ _ RT).
      destruct (swp tr1 (p_nr pat, p_nc pat)) as [u ell]. cbn [fst snd] in *. subst u. rewrite Nat.eqb_refl. cbn [negb].
      eexists _, _. split; [reflexivity|]. rewrite HS, Nat.eqb_refl. cbn [negb]. split; [reflexivity|].
      unfold get_internal. rewrite seq_length. now destruct tr.
    - intros sd sr HD HR. unfold for_hes_sparsity. rewrite E1, E2, E3, EN, HD, HR, !Nat.eqb_refl, (t_dec _ _ _ _ RT). cbn [negb orb].
      eexists. split; reflexivity.
  Qed.
End C15.
