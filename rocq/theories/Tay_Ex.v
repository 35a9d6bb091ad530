(** C08 on a concrete case: y = log(x0) * x1, three orders in one call. *)
From Coq Require Import Reals ZArith Lra Lia List Bool Arith.
From Coquelicot Require Import Coquelicot.
From Verif Require Import Base_Spec Op_Model Tape_Spec Tape_Model Tape_Proof Tape_Hist Tape_Prop Sweep_Model
  Drv_Spec Drv_Model Drv_Prop Real_Base Tay_Calc Tay_Sub Tay_Tape Tay_Prop.
Import ListNotations.
Open Scope nat_scope.

Definition Rb : base := Rbase (fun _ x => x) 0%R.
Definition re : nat -> AD Rb := fun i => @mkAD Rb (if i =? 0 then 2%R else 1%R) 0 0 T_con.
Definition rev : nat -> VecAD Rb := fun _ => @mkVec Rb [] 0 0 T_con.
Definition rp : prog R := Pstep (Iun Ulog 2 0) (Pstep (Ibin Bmul 3 2 1) (Pret [3])).
Definition rf : adfun Rb.
Proof.
  let x := eval cbv -[Rplus Rmult Rminus Rdiv Rinv Ropp Rlt_dec Req_EM_T Rle_dec ln IZR erf_c Rb bt] in (@record_fun Rb 7 true 2 0 re rev rp (fun _ => 0%R) (fun _ => 0)) in
  match x with Some ?f => exact f end.
Defined.
Definition rj : nat -> R := fun _ => 0%R.
Lemma rf_recorded : recorded (b:=Rb) 7 true 2 0 re rev rp (fun _ => 0%R) (fun _ => 0) rf.
Proof.
  split; [discriminate|split; [split; intros i; cbv; discriminate|split; [reflexivity|]]].
  apply simple_ok. reflexivity.
Qed.
Definition X2 (x0 x1 x2 : R) (t : R) : R := (x0 + x1 * t + x2 * t ^ 2)%R.
Theorem ex_log_times : forall x0 x1 x2 u0 u1 u2 : R, (0 < x0)%R ->
  exists y0 y1 y2 g', forward (b:=Rb) INR rj (drv_of (b:=Rb) rj rf) 2 [x0; x1; x2; u0; u1; u2] = Some ([y0; y1; y2], g') /\
    is_derive_n (fun t => ln (X2 x0 x1 x2 t) * X2 u0 u1 u2 t)%R 2 0%R (2 * y2)%R.
Proof.
  intros x0 x1 x2 u0 u1 u2 H0.
  assert (exists y0 y1 y2 g', forward (b:=Rb) INR rj (drv_of (b:=Rb) rj rf) 2 [x0; x1; x2; u0; u1; u2] = Some ([y0; y1; y2], g')) as (y0 & y1 & y2 & g' & FW).
  { do 4 eexists. cbv -[Rplus Rmult Rminus Rdiv Rinv Ropp ln IZR]. reflexivity. }
  exists y0, y1, y2, g'. split; [exact FW|].
  assert (forall y z t, poly 2 (fun k => nth k [y; z; t] 0%R) = (fun r => y * 1 + z * (r * 1) + t * (r * (r * 1)))%R) as PE by (intros; reflexivity).
  pose proof (forward_is_taylor_of_algorithm (fun _ x => x) 0%R rj 7 true 2 0 re rev rp (fun _ => 0%R) (fun _ => 0) rf rf_recorded
    ltac:(lia) [] (drv_of (b:=Rb) rj rf) 2 [x0; x1; x2; u0; u1; u2] [y0; y1; y2] g' ltac:(constructor) ltac:(constructor) eq_refl FW) as K.
  cbv zeta in K.
  set (x := given 0%R (g_n rf) ([] ++ [CFor 2 [x0; x1; x2; u0; u1; u2]])) in K.
  specialize (K (fun t => [ln (X2 x0 x1 x2 t) * X2 u0 u1 u2 t]%R)).
  replace (2 * y2)%R with (INR (fact 2) * nth 0 (returned (b:=Rb) rf 2 2 [x0; x1; x2; u0; u1; u2] [y0; y1; y2]) 0)%R
    by (cbn; ring).
  refine (K _ _ 0 2 _ _ _); clear K; [| |cbn; lia|lia|cbn; lia].
  - apply filter_forall. intros t. split; [reflexivity|].
    cbn. do 2 f_equal. unfold X2, poly, x. cbn. f_equal; [f_equal|]; ring.
  - unfold smooth_at. change (tape (fun _ x => x) 0%R rf) with
      [mkIns BeginOp [0] 0; mkIns InvOp [] 1; mkIns InvOp [] 2; mkIns LogOp [1] 3; mkIns MulvvOp [3; 2] 4; mkIns EndOp [] 4].
    repeat constructor. unfold ins_reg. cbn [i_op i_arg nth]. unfold value_at.
    cbv -[Rplus Rmult Rminus Rdiv Rinv Ropp ln IZR Rlt]. ring_simplify. auto.
Qed.
Print Assumptions forward_is_taylor_of_algorithm.
