(** C13, C14, C16 on concrete recordings. *)
From Coq Require Import Reals ZArith Lra Lia List Bool Arith.
From Coquelicot Require Import Coquelicot.
From Verif Require Import Base_Spec Op_Model Tape_Spec Tape_Model Tape_Proof Tape_Hist Tape_Prop Sweep_Model
  Drv_Spec Drv_Model Drv_Prop Real_Base Tay_Calc Tay_Sub Tay_Tape Tay_Prop Tay_Ex
  Spar_Model Spar_Proof Spar_Proof3 Spar_Prop Spar_DerProp.
Import ListNotations.
Open Scope nat_scope.

Definition identity (n : nat) : pattern := mkPat n n (map (fun i => (i, i)) (seq 0 n)).

(** y0 = log(x0), y1 = log(x0) * x1, y2 = sign(x1) * log(x0) *)
Definition sp : prog R :=
  Pstep (Iun Ulog 2 0) (Pstep (Ibin Bmul 3 2 1) (Pstep (Iun Usign 4 1) (Pstep (Ibin Bmul 5 4 2) (Pret [2; 3; 5])))).
Definition sf : adfun Rb.
Proof.
  let x := eval cbv -[Rplus Rmult Rminus Rdiv Rinv Ropp Rlt_dec Req_EM_T Rle_dec ln IZR erf_c Rb bt Rsgn] in (@record_fun Rb 7 true 2 0 re rev sp (fun _ => 0%R) (fun _ => 0)) in
  match x with Some ?f => exact f end.
Defined.
Lemma sf_recorded : recorded (b:=Rb) 7 true 2 0 re rev sp (fun _ => 0%R) (fun _ => 0) sf.
Proof.
  split; [discriminate|split; [split; intros i; cbv; discriminate|split; [reflexivity|]]].
  apply simple_ok. reflexivity.
Qed.
(** without dependency the pattern of y2 does not contain x1, with dependency it does *)
Example sf_patterns :
  for_jac_sparsity sf (identity 2) false false = Some (mkPat 3 2 [(0, 0); (1, 0); (1, 1); (2, 0)]) /\
  for_jac_sparsity sf (identity 2) false true = Some (mkPat 3 2 [(0, 0); (1, 0); (1, 1); (2, 0); (2, 1)]) /\
  rev_jac_sparsity sf (identity 3) true false = Some (mkPat 2 3 [(0, 0); (0, 1); (0, 2); (1, 1)]) /\
  for_jac_sparsity sf (mkPat 1 2 [(0, 1)]) true false = Some (mkPat 1 3 [(0, 1)]).
Proof. repeat split; lazy; reflexivity. Qed.
Lemma first_of {A B} (o : option (A * B)) y : option_map fst o = Some y -> exists z, o = Some (y, z).
Proof. destruct o as [[a z]|]; cbn; [intros [= <-]; eauto|discriminate]. Qed.
(** the hypotheses of C13 hold at every point with x0 > 0 and x1 <> 0 *)
Theorem ex_for_jac : forall x0 x1 : R, (0 < x0)%R -> (x1 <> 0)%R ->
  is_derive (fun t => Rsgn (x1 + t) * ln x0)%R 0%R 0%R.
Proof.
  intros x0 x1 H0 H1.
  destruct (for_jac_derivative (fun _ x => x) 0%R rj 7 true 2 0 re rev sp (fun _ => 0%R) (fun _ => 0) sf sf_recorded ltac:(lia)
    (identity 2) false false _ [] (proj1 sf_patterns) (fun t => [x0; x1 + t]%R) (fun t => [ln x0; ln x0 * (x1 + t); Rsgn (x1 + t) * ln x0]%R) 2 1) as [_ K].
  - reflexivity.
  - apply filter_forall. intros t. apply first_of. lazy -[Rplus Rmult Rminus Rdiv Rinv Ropp ln IZR Rsgn]. reflexivity.
  - unfold steady_at. change (tape (fun _ x => x) 0%R sf) with
      [mkIns BeginOp [0] 0; mkIns InvOp [] 1; mkIns InvOp [] 2; mkIns LogOp [1] 3; mkIns MulvvOp [3; 2] 4; mkIns SignOp [2] 5; mkIns MulvvOp [5; 3] 6; mkIns EndOp [] 6].
    repeat constructor. unfold steady. cbn [i_op i_arg nth]. unfold frozen, value_at.
    assert (locally 0%R (fun t => Rsgn (x1 + t) = Rsgn x1)) as K.
    { exists (mkposreal _ (Rabs_pos_lt x1 H1)). intros t Ht. unfold ball in Ht. cbn in Ht. unfold AbsRing_ball, abs, minus, plus, opp in Ht. cbn in Ht.
      unfold Rsgn. destruct (Rlt_dec x1 0), (Rlt_dec (x1 + t) 0), (Rlt_dec 0 x1), (Rlt_dec 0 (x1 + t)); auto; try lra;
      exfalso; revert Ht; unfold Rabs; repeat (destruct (Rcase_abs _)); lra. }
    revert K. apply filter_imp. intros t Ht.
    lazy -[Rplus Rmult Rminus Rdiv Rinv Ropp ln IZR Rsgn]. rewrite Ht. f_equal. ring.
  - cbn. lia.
  - cbn. lia.
  - intros [|[|j]] Hj N; try lia.
    + unfold frozen. apply filter_forall. reflexivity.
    + destruct N. cbn. auto.
  - intros [E|[E|[E|[E|[]]]]]; discriminate.
  - exact K.
Qed.

(** C16: the recording of Tape_Prop (a VecAD element stored at x1 and loaded at x0, a
    conditional expression, pow, azmul) *)
Definition ex_pat (g : adfun Zbase -> option pattern) : option pattern :=
  match @record_fun Zbase 7 true 2 1 ex_e ex_ev ex_p (fun _ => (-5)%Z) (fun _ => 0) with
  | Some f => g f | None => None end.
Example ex_dependency :
  ex_pat (fun f => for_jac_sparsity f (identity 2) false true) =
    Some (mkPat 5 2 [(0, 0); (0, 1); (1, 0); (1, 1); (2, 0); (2, 1); (3, 0)]) /\
  ex_pat (fun f => for_jac_sparsity f (identity 2) false false) =
    Some (mkPat 5 2 [(0, 0); (1, 0); (1, 1); (2, 0); (3, 0)]) /\
  ex_pat (fun f => rev_jac_sparsity f (identity 5) false true) =
    Some (mkPat 5 2 [(0, 0); (1, 0); (2, 0); (3, 0); (0, 1); (1, 1); (2, 1)]).
Proof. vm_compute. repeat split; reflexivity. Qed.
