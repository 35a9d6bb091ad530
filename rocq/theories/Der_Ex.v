(** C34 on a concrete case: y = log(x0) * x1. *)
From Coq Require Import Reals ZArith Lra Lia List Bool Arith.
From Coquelicot Require Import Coquelicot.
From Verif Require Import Base_Spec Op_Model Tape_Spec Tape_Model Tape_Proof Tape_Hist Tape_Prop Sweep_Model
  Drv_Spec Drv_Model Drv_Prop Real_Base Tay_Calc Tay_Sub Tay_Tape Tay_Prop Tay_Ex Rev_Spec Rev_Prop Der_Model Der_Spec Der_Proof Der_Proof2 Der_Prop.
Import ListNotations.
Open Scope nat_scope.

Definition lF (y : list R) : list R := [ln (nth 0 y 0) * nth 1 y 0]%R.
Lemma rf_regular x0 x1 : (0 < x0)%R -> regular (fun _ x => x) 0%R rj 2 rf [] lF [x0; x1].
Proof.
  intros H0. apply (regular_of_algorithm (fun _ x => x) 0%R rj 7 true 2 0 re rev rp (fun _ => 0%R) (fun _ => 0) rf rf_recorded ltac:(lia) [] lF [x0; x1] x0); auto.
  intros y Ly Ny. destruct y as [|y0 [|y1 [|]]]; try discriminate Ly. cbn zeta. split; [reflexivity|]. split; [reflexivity|].
  intros u Lu. unfold smooth_at. change (tape (fun _ x => x) 0%R rf) with
      [mkIns BeginOp [0] 0; mkIns InvOp [] 1; mkIns InvOp [] 2; mkIns LogOp [1] 3; mkIns MulvvOp [3; 2] 4; mkIns EndOp [] 4].
  repeat constructor. unfold ins_reg. cbn [i_op i_arg nth]. unfold value_at. rewrite shift_0.
  cbv -[Rplus Rmult Rminus Rdiv Rinv Ropp ln IZR Rlt Rabs]. specialize (Ny 0 ltac:(lia)). cbn in Ny. apply Rabs_def2 in Ny. lra.
Qed.
Theorem ex_jacobian : forall x0 x1 : R, (0 < x0)%R -> exists g',
  jacobian (b:=Rb) INR rj (drv_of (b:=Rb) rj rf) [x0; x1] = Some ([x1 / x0; ln x0]%R, g').
Proof.
  intros x0 x1 H0.
  destruct (jacobian_is_partials (fun _ x => x) 0%R rj 7 true 2 0 re rev rp (fun _ => 0%R) (fun _ => 0) rf rf_recorded ltac:(lia) lF [] (drv_of (b:=Rb) rj rf)
    ltac:(constructor) eq_refl [x0; x1] eq_refl (rf_regular x0 x1 H0)) as (jac & g' & E & L & K).
  exists g'. transitivity (Some (jac, g')); [exact E|]. f_equal. f_equal.
  pose proof (K 0 0 ltac:(cbn; lia) ltac:(cbn; lia)) as K0. pose proof (K 0 1 ltac:(cbn; lia) ltac:(cbn; lia)) as K1. cbn in L.
  destruct jac as [|a [|c [|]]]; try discriminate L. unfold is_partial, lF, shift, unit_vec in K0, K1. cbn in K0, K1.
  assert (is_derive (fun t => ln (x0 + t * 1) * (x1 + t * 0))%R 0%R (x1 / x0)%R) as D0 by (auto_derive; [lra|field; lra]).
  assert (is_derive (fun t => ln (x0 + t * 0) * (x1 + t * 1))%R 0%R (ln x0)) as D1.
  { auto_derive; [lra|]. replace (x0 + 0 * 0)%R with x0 by ring. ring. }
  pose proof (is_derive_unique _ _ _ K0) as A0. pose proof (is_derive_unique _ _ _ K1) as A1.
  pose proof (is_derive_unique _ _ _ D0) as B0. pose proof (is_derive_unique _ _ _ D1) as B1.
  f_equal; [|f_equal]; [exact (eq_trans (eq_sym A0) B0)|exact (eq_trans (eq_sym A1) B1)].
Qed.
(** the mixed second derivative 1 / x0 *)
Theorem ex_hessian : forall x0 x1 : R, (0 < x0)%R -> exists H g',
  hessian (b:=Rb) INR rj (drv_of (b:=Rb) rj rf) [x0; x1] [1%R] = Some (H, g') /\ nth 1 H 0%R = (/ x0)%R.
Proof.
  intros x0 x1 H0.
  destruct (hessian_is_second_partials (fun _ x => x) 0%R rj 7 true 2 0 re rev rp (fun _ => 0%R) (fun _ => 0) rf rf_recorded ltac:(lia) lF [] (drv_of (b:=Rb) rj rf)
    ltac:(constructor) eq_refl [x0; x1] eq_refl (rf_regular x0 x1 H0) [1%R] eq_refl) as (H & g' & E & L & K).
  exists H, g'. split; [exact E|]. destruct (K 0 1 ltac:(cbn; lia) ltac:(cbn; lia)) as (G & G1 & G2).
  assert (is_derive G 0%R (/ x0)%R) as D.
  { assert (locally 0%R (fun s => 0 < x0 + s)%R) as LP.
    { exists (mkposreal x0 H0). intros s Hs. unfold ball in Hs; cbn in Hs. unfold AbsRing_ball, abs, minus, plus, opp in Hs; cbn in Hs.
      apply Rabs_def2 in Hs. lra. }
    apply is_derive_ext_loc with (fun s => ln (x0 + s)); [|auto_derive; [lra|field; lra]].
    generalize (filter_and _ _ LP G1). apply filter_imp. intros s [Ps Ks].
    unfold is_partial, lF, shift, unit_vec, total in Ks. cbn in Ks.
    assert (is_derive (fun t => 1 * (ln (x0 + s * 1 + t * 0) * (x1 + s * 0 + t * 1)) + 0)%R 0%R (ln (x0 + s))) as D1.
    { auto_derive; [lra|]. replace (x0 + s * 1 + 0 * 0)%R with (x0 + s)%R by ring. ring. }
    exact (eq_trans (eq_sym (is_derive_unique _ _ _ D1)) (is_derive_unique _ _ _ Ks)). }
  exact (eq_trans (eq_sym (is_derive_unique _ _ _ G2)) (is_derive_unique _ _ _ D)).
Qed.
Print Assumptions jacobian_is_partials.
Print Assumptions for_two_is_second_partials.
