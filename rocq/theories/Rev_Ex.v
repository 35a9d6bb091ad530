(** C11 on a concrete case: y = log(x0) * x1, Forward(1, .) followed by Reverse(2, w). *)
From Coq Require Import Reals ZArith Lra Lia List Bool Arith.
From Coquelicot Require Import Coquelicot.
From Verif Require Import Base_Spec Op_Model Tape_Spec Tape_Model Tape_Proof Tape_Hist Tape_Prop Sweep_Model
  Drv_Spec Drv_Model Drv_Prop Real_Base Tay_Calc Tay_Sub Tay_Tape Tay_Prop Tay_Ex Rev_Spec Rev_Prop.
Import ListNotations.
Open Scope nat_scope.

(** y(s, t) = log(x0 + s + x1 t) * (u0 + u1 t); w0 * y^(0) + w1 * y^(1) as a function of s *)
Theorem ex_reverse_log_times : forall x0 x1 u0 u1 w0 w1 : R, (0 < x0)%R ->
  exists ys z g1 g2,
    forward (b:=Rb) INR rj (drv_of (b:=Rb) rj rf) 1 [x0; x1; u0; u1] = Some (ys, g1) /\
    reverse (b:=Rb) INR rj g1 2 [w0; w1] = Some (z, g2) /\
    is_derive (fun s => w0 * (ln (x0 + s) * u0) +
                        w1 * Derive (fun t => ln (x0 + s + x1 * t) * (u0 + u1 * t)) 0)%R 0%R (nth 0 z 0%R).
Proof.
  intros x0 x1 u0 u1 w0 w1 H0.
  assert (exists ys z g1 g2,
    forward (b:=Rb) INR rj (drv_of (b:=Rb) rj rf) 1 [x0; x1; u0; u1] = Some (ys, g1) /\
    reverse (b:=Rb) INR rj g1 2 [w0; w1] = Some (z, g2)) as (ys & z & g1 & g2 & FW & RV).
  { assert (match forward (b:=Rb) INR rj (drv_of (b:=Rb) rj rf) 1 [x0; x1; u0; u1] with
            | Some (_, g1) => match reverse (b:=Rb) INR rj g1 2 [w0; w1] with Some _ => true | None => false end | None => false end = true) as C
      by (lazy; reflexivity).
    destruct (forward (b:=Rb) INR rj (drv_of (b:=Rb) rj rf) 1 [x0; x1; u0; u1]) as [[ys g1]|]; [|discriminate].
    destruct (reverse (b:=Rb) INR rj g1 2 [w0; w1]) as [[z g2]|] eqn:E; [|discriminate]. eauto 6. }
  exists ys, z, g1, g2. split; [exact FW|]. split; [exact RV|].
  assert (drun (b:=Rb) INR rj (drv_of (b:=Rb) rj rf) [CFor 1 [x0; x1; u0; u1]] = Some g1) as RUN by (cbn [drun dstep]; now rewrite FW).
  pose proof (reverse_is_derivative_of_algorithm (fun _ x => x) 0%R rj 7 true 2 0 re rev rp (fun _ => 0%R) (fun _ => 0) rf rf_recorded
    ltac:(lia) [CFor 1 [x0; x1; u0; u1]] g1 2 [w0; w1] z g2 0 0 ltac:(repeat constructor) ltac:(constructor) RUN RV ltac:(cbn; lia) ltac:(lia)) as K.
  cbv zeta in K.
  specialize (K (fun s t => [ln (x0 + s + x1 * t) * (u0 + u1 * t)]%R)).
  set (XX := fun s t => map (fun i => poly (2 - 1) (moved (given 0%R (g_n rf) [CFor 1 [x0; x1; u0; u1]]) 0 0 s i) t) (seq 0 (g_n rf))) in K.
  assert (forall s t, XX s t = [x0 + s + x1 * t; u0 + u1 * t]%R) as XE.
  { intros s t. unfold XX, poly. cbn.
    match goal with |- [?a; ?c] = [?a'; ?c'] => assert (a = a') as -> by ring; assert (c = c') as -> by ring end. reflexivity. }
  assert (forall Xs : R -> list R, (exists a, Xs 0%R = [a; u0] /\ 0 < a)%R -> smooth_at (fun _ x => x) 0%R rj rf (with_dynamics (drv_of (b:=Rb) rj rf) (dynamics [CFor 1 [x0; x1; u0; u1]])) Xs) as SM.
  { intros Xs (a & Ea & Ha). unfold smooth_at. change (tape (fun _ x => x) 0%R rf) with
      [mkIns BeginOp [0] 0; mkIns InvOp [] 1; mkIns InvOp [] 2; mkIns LogOp [1] 3; mkIns MulvvOp [3; 2] 4; mkIns EndOp [] 4].
    repeat constructor. unfold ins_reg. cbn [i_op i_arg nth]. unfold value_at. rewrite Ea.
    cbv -[Rplus Rmult Rminus Rdiv Rinv Ropp ln IZR Rlt]. exact Ha. }
  assert (locally 0%R (fun s => 0 < x0 + s)%R) as LP.
  { exists (mkposreal x0 H0). intros s Hs. unfold ball in Hs; cbn in Hs. unfold AbsRing_ball, abs, minus, plus, opp in Hs; cbn in Hs.
    apply Rabs_def2 in Hs. lra. }
  eapply is_derive_ext; [|refine (K _ _)]; clear K.
  - intros s. cbn -[Derive_n Derive]. cbn [Derive_n]. unfold weight. cbn -[Derive].
    replace (x0 + s + x1 * 0)%R with (x0 + s)%R by ring. field.
  - generalize LP. apply filter_imp. intros s Hs. split.
    + apply SM. exists (x0 + s)%R. split; [|exact Hs]. change (XX s 0%R = [x0 + s; u0]%R). rewrite XE. rewrite !Rmult_0_r, !Rplus_0_r. reflexivity.
    + apply filter_forall. intros t. split; [reflexivity|]. change (eval (b:=Rb) rp (start (base_values re rev) (XX s t) (last (dynamics [CFor 1 [x0; x1; u0; u1]]) (dyn_values 2 0 re))) = Some [(ln (x0 + s + x1 * t) * (u0 + u1 * t))%R]).
      rewrite XE. reflexivity.
  - apply SM. exists x0. split; [|exact H0]. change (XX 0%R 0%R = [x0; u0]%R). rewrite XE. rewrite !Rmult_0_r, !Rplus_0_r. reflexivity.
Qed.

(** ** Why C11 excludes pow(x, p) at x = 0: there Reverse overwrites the adjoint of x
    (pow_op.hpp:682-732), and with it what other operators contributed.  E.g. for y0 = x0,
    y1 = pow(x0, 2) with weights (1, 1), the derivative of y0 + y1 at x0 = 0 is 1, but the
    adjoint of x0 after the operator is 0 (whatever it was before). *)
Theorem pow_reverse_discards : forall (P : nat -> R) V x q r (pre : nat -> nat -> R) d,
  V x 0 = 0%R -> rev_sub (b:=Rb) INR P (SPowvp x q) r V d pre x 0 = 0%R.
Proof.
  intros P V x q r pre d H. unfold rev_sub.
  destruct (fold_left _ _ _) as [p1 w1]. unfold loop.
  assert (forall (w : nat -> bt Rb) l (p : nat -> nat -> R), p x 0 = 0%R \/ In 0 l -> fold_left (fun (a : nat -> nat -> bt Rb) j => pset (b:=Rb) a x j (ceq0 (b:=Rb) (V x 0) (w j))) l p x 0 = 0%R) as K.
  { intros w.
    induction l as [|j l IH]; intros p Hp; cbn [fold_left]; [destruct Hp as [Hp|[]]; auto|].
    apply IH. destruct (Nat.eq_dec j 0) as [->|Nj].
    - left. unfold pset. rewrite !Nat.eqb_refl. cbn [andb]. unfold ceq0. cbn. rewrite H. unfold Reqb. destruct (Req_EM_T 0 0); [reflexivity|lra].
    - destruct Hp as [Hp|[Hp|Hp]]; [left|lia|right; auto]. unfold pset. destruct (Nat.eqb_spec 0 j); [lia|]. rewrite andb_false_r. auto. }
  apply K. right. apply in_seq. lia.
Qed.
