(** C15 on concrete recordings, and where the returned patterns are wrong. *)
From Coq Require Import Reals ZArith Lra Lia List Bool Arith.
From Coquelicot Require Import Coquelicot.
From Verif Require Import Base_Spec Op_Model Tape_Spec Tape_Model Tape_Proof Tape_Proof6 Tape_Proof8 Tape_Hist Tape_Prop Tape_Swf Sweep_Model
  Real_Base Tay_Ex Spar_Model Spar_Proof Spar_Proof3 Spar_Prop Spar_Ex Hes_Model Hes_Proof2 Hes_Proof4 Hes_Prop.
Import ListNotations.
Open Scope nat_scope.

(** a tape without abs and without operators that make choices *)
Definition no_choice (o : opvar) : bool := match o with AbsOp | SignOp | DisOp | CExpOp | LdpOp | LdvOp => false | _ => true end.
Lemma steady2_nochoice (dis : nat -> R -> R) nan n (f g : adfun (Rbase dis nan)) X F eps :
  List.Forall (fun i => no_choice (i_op i) = true) (body n (g_rec f)) ->
  (forall s t, exists z, forward0 (b:=Rbase dis nan) g (X s t) = Some (F s t, z)) -> steady2 dis nan n f g X F eps.
Proof.
  intros NC H. exists (fun s t => match forward0 (b:=Rbase dis nan) g (X s t) with Some (_, z) => z | None => g end).
  intros s t _ _. split; [|split].
  - destruct (H s t) as (z & ->). reflexivity.
  - unfold same_choices. eapply Forall_impl; [|exact NC]. intros i Q. cbv beta in Q. unfold same_choice. destruct (i_op i); auto; discriminate Q.
  - unfold same_sides. eapply Forall_impl; [|exact NC]. intros i Q E. cbv beta in Q. rewrite E in Q. discriminate Q.
Qed.
(** Forward(0, x) of a recording without comparisons and dynamic parameters *)
Lemma rf_eval n np q (f : adfun Rb) : recorded (b:=Rb) 7 true n np re rev q (fun _ => 0%R) (fun _ => 0) f ->
  forall x y, length x = n -> decisions (b:=Rb) q (start (base_values re rev) x (dyn_values n np re)) = decisions (b:=Rb) q (base_values re rev) ->
  eval (b:=Rb) q (start (base_values re rev) x (dyn_values n np re)) = Some y ->
  exists g, forward0 (b:=Rb) f x = Some (y, g).
Proof.
  intros REC x y Hx D E.
  pose proof (forward_zero_is_algorithm (Rbase_laws (fun _ x => x) 0%R) _ _ _ _ _ _ _ _ _ _ REC [] f x ltac:(constructor) eq_refl Hx) as A. cbv zeta in A.
  specialize (A D). cbn [cur_dyn fold_left] in A. match type of A with match ?v with _ => _ end => assert (v = Some y) as E' by exact E; rewrite E' in A end. exact A.
Qed.

(** ** y0 = log(x0) * x1: the Hessian patterns, and (1, 1) is absent *)
Definition hes_out (f : adfun Rb) (n : nat) (sel : list bool) : option pattern :=
  match for_jac_stored f (identity n) false false with
  | Some st => rev_hes_sparsity f st sel false
  | None => None
  end.
Example rf_patterns :
  hes_out rf 2 [true] = Some (mkPat 2 2 [(0, 0); (0, 1); (1, 0)]) /\
  for_hes_sparsity rf [true; true] [true] = Some (mkPat 2 2 [(0, 0); (0, 1); (1, 0)]) /\
  for_hes_sparsity rf [true; false] [true] = Some (mkPat 2 2 [(0, 0)]).
Proof. repeat split; lazy; reflexivity. Qed.
(** the hypotheses of C15 hold at every point with x0 > 0 (the second partial of y0 with
    respect to x1 is zero) *)
Definition rF (x0 x1 : R) (u : list R) (j : nat) (s t : R) : list R :=
  [ln (nth 0 (move 2 [x0; x1] u j s t) 0) * nth 1 (move 2 [x0; x1] u j s t) 0]%R.
Lemma rf_steady (x0 x1 : R) u j eps : steady2 (fun _ x => x) 0%R 2 rf rf (move 2 [x0; x1] u j)
  (rF x0 x1 u j) eps.
Proof.
  apply steady2_nochoice; [repeat constructor|]. intros s t.
  refine (rf_eval _ _ _ _ rf_recorded [_; _] [_] eq_refl eq_refl eq_refl).
Qed.
Theorem ex_rev_hes : forall x0 x1 : R,
  is_derive (fun t => Derive (fun s => ln x0 * (x1 + s + t)) 0)%R 0%R 0%R.
Proof.
  intros x0 x1.
  destruct (for_jac_stored rf (identity 2) false false) as [st|] eqn:ST; [|discriminate].
  pose proof (rev_hes_derivative (fun _ x => x) 0%R 7 true 2 0 re rev rp (fun _ => 0%R) (fun _ => 0) rf rf_recorded [] rf (identity 2) false false st [true] false
    (mkPat 2 2 [(0, 0); (0, 1); (1, 0)]) eq_refl ST) as K.
  assert (rev_hes_sparsity rf st [true] false = Some (mkPat 2 2 [(0, 0); (0, 1); (1, 0)])) as E.
  { pose proof (proj1 rf_patterns) as E. unfold hes_out in E. now rewrite ST in E. }
  specialize (K E 0 1 1 [x0; x1] [0%R; 1%R] (rF x0 x1 [0%R; 1%R] 1) 1%R ltac:(cbn; lia) ltac:(lia) ltac:(cbn; lia)).
  eapply is_derive_ext; [|apply K].
  - intros t. cbv beta. apply Derive_ext. intros s. unfold rF, move. cbn [map seq nth Nat.eqb]. f_equal; [f_equal; ring|ring].
  - intros k Hk _. cbn in Hk. destruct k; [reflexivity|lia].
  - lra.
  - apply rf_steady.
  - intros [|[|k]] Hk Ne; try lia; [reflexivity|]. destruct Ne. cbn. auto.
  - intros [Q|[Q|[Q|[]]]]; discriminate.
Qed.
Theorem ex_for_hes : forall x0 x1 : R,
  is_derive (fun t => Derive (fun s => ln x0 * (x1 + s + t)) 0)%R 0%R 0%R.
Proof.
  intros x0 x1.
  pose proof (for_hes_derivative_partial (fun _ x => x) 0%R 7 true 2 0 re rev rp (fun _ => 0%R) (fun _ => 0) rf rf_recorded [] rf [true; true] [true]
    (mkPat 2 2 [(0, 0); (0, 1); (1, 0)]) eq_refl ltac:(repeat constructor) (proj1 (proj2 rf_patterns)) 0 1 1 [x0; x1]) as K. cbv zeta in K.
  specialize (K _ 1%R ltac:(cbn; lia) eq_refl ltac:(lia) ltac:(lia) eq_refl eq_refl ltac:(lra) (rf_steady x0 x1 _ _ 1%R)).
  eapply is_derive_ext; [|apply K].
  - intros t. cbv beta. apply Derive_ext. intros s. unfold rF, move. cbn [map seq nth Nat.eqb]. f_equal; [f_equal; ring|ring].
  - intros [Q|[Q|[Q|[]]]]; discriminate.
Qed.

(** ** Finding 1: two components of F that are the same variable.  y = (v, v), v = x0 * x0:
    with select_range = (true, false) rev_hes_sparsity returns the empty pattern although the
    second derivative of y0 is 2, because the loop over the components assigns (instead of
    or-ing) the selection of the variable. *)
Definition hrec (n np : nat) (q : prog R) : option (adfun Rb) := @record_fun Rb 7 true n np re rev q (fun _ => 0%R) (fun _ => 0).
Definition dp : prog R := Pstep (Ibin Bmul 1 0 0) (Pret [1; 1]).
Definition df : adfun Rb.
Proof.
  let x := eval cbv -[Rplus Rmult Rminus Rdiv Rinv Ropp Rlt_dec Req_EM_T Rle_dec ln IZR erf_c Rb bt Rsgn] in (hrec 1 0 dp) in
  match x with Some ?f => exact f end.
Defined.
Lemma df_recorded : recorded (b:=Rb) 7 true 1 0 re rev dp (fun _ => 0%R) (fun _ => 0) df.
Proof.
  split; [discriminate|split; [split; intros i; cbv; discriminate|split; [reflexivity|]]].
  apply simple_ok. reflexivity.
Qed.
Theorem rev_hes_repeated_dependent :
  hes_out df 1 [true; false] = Some (mkPat 1 1 []) /\ hes_out df 1 [true; true] = Some (mkPat 1 1 [(0, 0)]) /\
  (forall x, exists g, forward0 (b:=Rb) df [x] = Some ([x * x; x * x]%R, g)) /\
  for_hes_sparsity df [true] [true; false] = Some (mkPat 1 1 [(0, 0)]).
Proof.
  split; [lazy; reflexivity|split; [lazy; reflexivity|split; [|lazy; reflexivity]]]. intros x.
  exact (rf_eval _ _ _ _ df_recorded [x] [_; _] eq_refl eq_refl eq_refl).
Qed.

(** ** Finding 2: for_hes_sparsity ignores conditional expressions.  y0 = c * c with
    c = CondExpLt(x1, x0, x0, x1) (x0 for x1 < x0): the returned pattern is empty. *)
Definition cp : prog R := Pstep (Icond XLt 2 1 0 0 1) (Pstep (Ibin Bmul 3 2 2) (Pret [3])).
Definition cf : adfun Rb.
Proof.
  let x := eval cbv -[Rplus Rmult Rminus Rdiv Rinv Ropp Rlt_dec Req_EM_T Rle_dec ln IZR erf_c Rb bt Rsgn] in (hrec 2 0 cp) in
  match x with Some ?f => exact f end.
Defined.
Lemma cf_recorded : recorded (b:=Rb) 7 true 2 0 re rev cp (fun _ => 0%R) (fun _ => 0) cf.
Proof.
  split; [discriminate|split; [split; intros i; cbv; discriminate|split; [reflexivity|]]].
  unfold hazard_free, cp. generalize (eq_refl (is_constant (b:=Rb) 7 (st_r (independent (b:=Rb) 7 true 2 0 re rev) 1))).
  generalize (is_constant (b:=Rb) 7 (st_r (independent (b:=Rb) 7 true 2 0 re rev) 1)) at 2. intros c E.
  assert (c = false) as -> by (rewrite <- E; lazy; reflexivity).
  cbn [prog_ok]. split; [unfold instr_ok, cond_ok; intros H; rewrite E in H; discriminate|].
  destruct (step_rec _ _ _) as [s1|]; [|exact I]. split; [exact I|]. destruct (step_rec _ _ _); exact I.
Qed.
Theorem for_hes_conditional_expression :
  for_hes_sparsity cf [true; true] [true] = Some (mkPat 2 2 []) /\
  hes_out cf 2 [true] = Some (mkPat 2 2 [(0, 0); (0, 1); (1, 0); (1, 1)]) /\
  (forall x0 x1, (x1 < x0)%R -> exists g, forward0 (b:=Rb) cf [x0; x1] = Some ([x0 * x0]%R, g)).
Proof.
  split; [lazy; reflexivity|split; [lazy; reflexivity|]]. intros x0 x1 H.
  refine (rf_eval _ _ _ _ cf_recorded [x0; x1] [_] eq_refl eq_refl _).
  cbn -[Rlt_dec]. unfold Rltb. destruct (Rlt_dec x1 x0); [reflexivity|contradiction].
Qed.

(** ** Finding 3: for_hes_sparsity has no case for azmul(parameter, variable).
    y0 = azmul(p, x0)^2, p a dynamic parameter with value 1: the returned pattern is empty (the debug version stops). *)
Definition zp : prog R := Pstep (Ibin Bazmul 2 1 0) (Pstep (Ibin Bmul 3 2 2) (Pret [3])).
Definition zf : adfun Rb.
Proof.
  let x := eval cbv -[Rplus Rmult Rminus Rdiv Rinv Ropp Rlt_dec Req_EM_T Rle_dec ln IZR erf_c Rb bt Rsgn] in (hrec 1 1 zp) in
  match x with Some ?f => exact f end.
Defined.
Lemma zf_recorded : recorded (b:=Rb) 7 true 1 1 re rev zp (fun _ => 0%R) (fun _ => 0) zf.
Proof.
  split; [discriminate|split; [split; intros i; cbv; discriminate|split; [reflexivity|]]].
  apply simple_ok. reflexivity.
Qed.
Theorem for_hes_azmul :
  for_hes_sparsity zf [true] [true] = Some (mkPat 1 1 []) /\
  hes_out zf 1 [true] = Some (mkPat 1 1 [(0, 0)]) /\
  (forall x0, exists g, forward0 (b:=Rb) zf [x0] = Some ([(1 * x0) * (1 * x0)]%R, g)).
Proof.
  split; [lazy; reflexivity|split; [lazy; reflexivity|]]. intros x0.
  exact (rf_eval _ _ _ _ zf_recorded [x0] [_] eq_refl eq_refl eq_refl).
Qed.
