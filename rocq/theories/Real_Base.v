(** The real numbers as Base: the mathematical functions that AD<Base> stands for,
    with the derivatives of the elementary functions. *)
From Coq Require Import Reals ZArith Lra Lia List Bool Ring Field.
From Coquelicot Require Import Coquelicot.
From Verif Require Import Base_Spec Op_Model Tape_Spec Tape_Model Tape_Proof Sweep_Model Sweep_Eqs Sweep_Eqs2 Sweep_Tape Field_Spec.
Open Scope R_scope.

Definition Rsgn (x : R) : R := if Rlt_dec x 0 then -1 else if Rlt_dec 0 x then 1 else 0.
(** acosh, atanh, erf *)
Definition arccosh (x : R) : R := ln (x + sqrt (x * x - 1)).
Definition arctanh (x : R) : R := ln ((1 + x) / (1 - x)) / 2.
Definition erf_c : R := 1 / sqrt (atan 1).
Definition Rerf (x : R) : R := RInt (fun t => erf_c * exp (0 - t * t)) 0 x.
Definition R_un (u : unop) (x : R) : R :=
  match u with
  | Uneg => - x | Uabs | Ufabs => Rsgn x * x | Usign => Rsgn x
  | Uacos => acos x | Uacosh => arccosh x | Uasin => asin x | Uasinh => arcsinh x
  | Uatan => atan x | Uatanh => arctanh x | Ucos => cos x | Ucosh => cosh x
  | Uexp => exp x | Uexpm1 => exp x - 1 | Ulog => ln x | Ulog1p => ln (1 + x)
  | Usin => sin x | Usinh => sinh x | Usqrt => sqrt x | Utan => tan x | Utanh => tanh x
  | Uerf => Rerf x | Uerfc => 1 - Rerf x
  end.
(** x^y: exp( y log(x) ) for x > 0, the integer power for integer y *)
Definition Rpow (x y : R) : R :=
  if Rlt_dec 0 x then Rpower x y
  else if Req_EM_T y (IZR (Int_part y)) then powerRZ x (Int_part y) else 0.
Definition R_bin (o : binop) (x y : R) : R :=
  match o with
  | Badd => x + y | Bsub => x - y | Bmul | Bazmul => x * y | Bdiv => x / y | Bpow => Rpow x y
  end.
Definition Rltb (x y : R) : bool := if Rlt_dec x y then true else false.
Definition Rleb (x y : R) : bool := if Rle_dec x y then true else false.
Definition Reqb (x y : R) : bool := if Req_EM_T x y then true else false.
Definition R_cmp (c : cmpop) (x y : R) : bool :=
  match c with
  | Clt => Rltb x y | Cle => Rleb x y | Ceq => Reqb x y
  | Cge => Rleb y x | Cgt => Rltb y x | Cne => negb (Reqb x y)
  end.
(** Integer(x): truncation *)
Definition Rtrunc (x : R) : Z := if Rlt_dec x 0 then (- Int_part (- x))%Z else Int_part x.
(** [dis]: the user's discrete functions *)
Definition Rbase (dis : nat -> R -> R) (nan : R) : base :=
  mkBase R 0 1 nan erf_c R_un R_bin R_cmp dis Rtrunc
    (fun x => Reqb x 0) (fun x => Reqb x 1) Reqb (fun x => Rltb 0 x) (fun x => Rleb 0 x)
    (fun _ => 0%nat).

Section Laws.
  Variable dis : nat -> R -> R.
  Variable nan : R.
  Notation b := (Rbase dis nan).

  Lemma Reqb_eq x y : Reqb x y = true <-> x = y.
  Proof. unfold Reqb. destruct (Req_EM_T x y); split; auto; discriminate. Qed.
  Lemma Int_part_0 : Int_part 0 = 0%Z.
  Proof.
    unfold Int_part. rewrite <- (tech_up 0 1); try (simpl; lra). reflexivity.
  Qed.
  Lemma Rpow_0 x : Rpow x 0 = 1.
  Proof.
    unfold Rpow. destruct (Rlt_dec 0 x) as [H|H]; [now apply Rpower_O|]. rewrite Int_part_0.
    destruct (Req_EM_T 0 (IZR 0)) as [H0|H0]; [reflexivity|]. exfalso. apply H0. reflexivity.
  Qed.
  Lemma Rbase_laws : base_laws b.
  Proof.
    constructor; cbn; intros; try (now apply Reqb_eq); try ring; auto; try (unfold Rdiv; ring).
    - unfold Rdiv. rewrite Rinv_1. ring.
    - unfold Reqb. destruct (Req_EM_T x 0) as [->|]; ring.
    - now rewrite !Rpow_0.
    - unfold Reqb. destruct (Req_EM_T x y), (Req_EM_T y x); auto; congruence.
    - unfold Rleb, Rltb. destruct (Rle_dec x y), (Rlt_dec y x); auto; lra.
    - unfold Rltb. destruct (Rlt_dec 0 (x - y)), (Rlt_dec y x); auto; lra.
    - unfold Rleb. destruct (Rle_dec 0 (x - y)), (Rle_dec y x); auto; lra.
  Qed.
  Lemma Rtaylor_laws : taylor_laws b.
  Proof. constructor; cbn; intros; auto. ring. Qed.
  Lemma Rfield_laws : field_laws b INR.
  Proof.
    constructor; cbn -[INR]; auto.
    - constructor; intros; cbn; ring.
    - intros; unfold Rdiv; ring.
    - intros x H. now field.
    - intros x y. unfold Rdiv. rewrite Rinv_mult. ring.
    - intros k. rewrite S_INR. ring.
    - intros k. apply not_0_INR. lia.
  Qed.
End Laws.

(** ** derivatives *)
Lemma der_exp x : is_derive exp x (exp x).
Proof. apply is_derive_Reals, derivable_pt_lim_exp. Qed.
Lemma der_ln x : 0 < x -> is_derive ln x (/ x).
Proof. intros. now apply is_derive_Reals, derivable_pt_lim_ln. Qed.
Lemma der_sqrt x : 0 < x -> is_derive sqrt x (/ (2 * sqrt x)).
Proof. intros. now apply is_derive_Reals, derivable_pt_lim_sqrt. Qed.
Lemma der_sin x : is_derive sin x (cos x).
Proof. apply is_derive_Reals, derivable_pt_lim_sin. Qed.
Lemma der_cos x : is_derive cos x (- sin x).
Proof. apply is_derive_Reals, derivable_pt_lim_cos. Qed.
Lemma der_sinh x : is_derive sinh x (cosh x).
Proof. apply is_derive_Reals, derivable_pt_lim_sinh. Qed.
Lemma der_cosh x : is_derive cosh x (sinh x).
Proof. apply is_derive_Reals, derivable_pt_lim_cosh. Qed.
Lemma der_tan x : cos x <> 0 -> is_derive tan x (1 + tan x * tan x).
Proof.
  intros H. unfold tan. replace (1 + sin x / cos x * (sin x / cos x)) with ((cos x * cos x - sin x * (- sin x)) / (cos x) ^ 2) by (field; auto).
  apply is_derive_div; [apply der_sin|apply der_cos|auto].
Qed.
Lemma cosh_pos x : 0 < cosh x.
Proof. unfold cosh. pose proof (exp_pos x). pose proof (exp_pos (- x)). lra. Qed.
Lemma der_tanh x : is_derive tanh x (1 - tanh x * tanh x).
Proof.
  pose proof (cosh_pos x). unfold tanh.
  replace (1 - sinh x / cosh x * (sinh x / cosh x)) with ((cosh x * cosh x - sinh x * sinh x) / (cosh x) ^ 2) by (field; lra).
  apply is_derive_div; [apply der_sinh|apply der_cosh|lra].
Qed.
Lemma der_atan x : is_derive atan x (/ (1 + x * x)).
Proof. replace (/ (1 + x * x)) with (/ (1 + x ^ 2)) by (f_equal; ring). apply is_derive_Reals, derivable_pt_lim_atan. Qed.
Lemma der_asin x : -1 < x < 1 -> is_derive asin x (/ sqrt (1 - x * x)).
Proof.
  intros H. apply is_derive_Reals. pose proof (derive_pt_asin x H) as E.
  unfold derive_pt in E. destruct (derivable_pt_asin x H) as [l Hl]. cbn in E. unfold Rsqr in E.
  replace (/ sqrt (1 - x * x)) with (1 / sqrt (1 - x * x)) by (unfold Rdiv; ring). now rewrite <- E.
Qed.
Lemma der_acos x : -1 < x < 1 -> is_derive acos x (- / sqrt (1 - x * x)).
Proof.
  intros H. apply is_derive_Reals. pose proof (derive_pt_acos x H) as E.
  unfold derive_pt in E. destruct (derivable_pt_acos x H) as [l Hl]. cbn in E. unfold Rsqr in E.
  replace (- / sqrt (1 - x * x)) with (-1 / sqrt (1 - x * x)) by (unfold Rdiv; ring). now rewrite <- E.
Qed.
Lemma der_asinh x : is_derive arcsinh x (/ sqrt (1 + x * x)).
Proof.
  replace (/ sqrt (1 + x * x)) with (/ sqrt (x ^ 2 + 1)) by (f_equal; f_equal; ring).
  apply is_derive_Reals, derivable_pt_lim_arcsinh.
Qed.
Lemma der_acosh x : 1 < x -> is_derive arccosh x (/ sqrt (x * x - 1)).
Proof.
  intros H. unfold arccosh. assert (0 < x * x - 1) as Hp by nra.
  pose proof (sqrt_lt_R0 _ Hp) as Hs.
  evar_last.
  - apply (is_derive_comp ln (fun x => x + sqrt (x * x - 1))).
    + apply der_ln. lra.
    + apply (is_derive_plus (fun x => x) (fun x => sqrt (x * x - 1))).
      * apply is_derive_id.
      * apply (is_derive_comp sqrt (fun x => x * x - 1)).
        -- apply der_sqrt. auto.
        -- auto_derive; [exact I|reflexivity].
  - unfold scal, plus, one; simpl. unfold mult; simpl. field. split; lra.
Qed.
Lemma der_atanh x : -1 < x < 1 -> is_derive arctanh x (/ (1 - x * x)).
Proof.
  intros H. unfold arctanh.
  assert (0 < (1 + x) / (1 - x)) as Hp by (apply Rdiv_lt_0_compat; lra).
  auto_derive.
  - repeat split; try lra; auto.
  - field. repeat split; nra.
Qed.
Lemma der_erf x : is_derive Rerf x (erf_c * exp (0 - x * x)).
Proof.
  unfold Rerf. apply (is_derive_RInt (fun t => erf_c * exp (0 - t * t)) (RInt (fun t => erf_c * exp (0 - t * t)) 0) 0 x).
  - apply filter_forall. intros y. apply (RInt_correct (fun t => erf_c * exp (0 - t * t))).
    apply (ex_RInt_continuous (fun t => erf_c * exp (0 - t * t))). intros z _.
    apply (ex_derive_continuous (fun t => erf_c * exp (0 - t * t))). auto_derive. exact I.
  - apply (ex_derive_continuous (fun t => erf_c * exp (0 - t * t))). auto_derive. exact I.
Qed.
Lemma erf_c_value : erf_c = 2 / sqrt PI.
Proof.
  unfold erf_c. rewrite atan_1. pose proof PI_RGT_0 as HP. rewrite sqrt_div_alt by lra.
  replace 4 with (2 * 2) by ring. rewrite sqrt_square by lra. field. apply Rgt_not_eq, sqrt_lt_R0, HP.
Qed.
(** erf is the usual function *)
Lemma Rerf_is_erf x : is_RInt (fun t => 2 / sqrt PI * exp (- t ^ 2)) 0 x (Rerf x).
Proof.
  unfold Rerf. apply is_RInt_ext with (fun t => erf_c * exp (0 - t * t)).
  - intros t _. rewrite erf_c_value. f_equal. f_equal. ring.
  - apply (RInt_correct (fun t => erf_c * exp (0 - t * t))).
    apply (ex_RInt_continuous (fun t => erf_c * exp (0 - t * t))). intros z _.
    apply (ex_derive_continuous (fun t => erf_c * exp (0 - t * t))). auto_derive. exact I.
Qed.

(** the integer power and x^y *)
Lemma der_powerRZ x z : x <> 0 -> is_derive (fun x => powerRZ x z) x (IZR z * powerRZ x z / x).
Proof.
  intros H. destruct z as [|n|n]; unfold powerRZ.
  - evar_last; [apply is_derive_const|]. unfold zero; simpl. field. auto.
  - evar_last; [apply (is_derive_pow (fun x => x)); apply is_derive_id|]. unfold one; simpl.
    rewrite <- INR_IPR, <- INR_IZR_INZ || idtac.
    pose proof (Pos2Nat.is_pos n) as Hn. destruct (Pos.to_nat n) as [|m] eqn:E; [lia|]. rewrite <- pred_Sn.
    replace (IZR (Z.pos n)) with (INR (S m)) by (rewrite <- E, INR_IZR_INZ, positive_nat_Z; reflexivity).
    change (x ^ S m) with (x * x ^ m). field. auto.
  - evar_last; [apply is_derive_inv; [apply (is_derive_pow (fun x => x)); apply is_derive_id|]|]. { now apply pow_nonzero. }
    unfold one; simpl.
    pose proof (Pos2Nat.is_pos n) as Hn. destruct (Pos.to_nat n) as [|m] eqn:E; [lia|]. rewrite <- pred_Sn.
    replace (IZR (Z.neg n)) with (- INR (S m)) by (rewrite <- E, INR_IZR_INZ, positive_nat_Z, <- opp_IZR; reflexivity).
    change (x ^ S m) with (x * x ^ m). assert (x ^ m <> 0) by now apply pow_nonzero. field. auto.
Qed.
Definition pow_reg (x y : R) : Prop := 0 < x \/ x < 0 /\ y = IZR (Int_part y).
Lemma der_Rpow x y : pow_reg x y -> is_derive (fun x => Rpow x y) x (y * Rpow x y / x).
Proof.
  intros [H|[H Hy]].
  - apply (is_derive_ext_loc (fun x => Rpower x y)).
    + apply (filter_imp (fun x => 0 < x)); [|apply locally_open with (1 := open_gt 0); auto].
      intros t Ht. unfold Rpow. destruct (Rlt_dec 0 t); [auto|contradiction].
    + unfold Rpow. destruct (Rlt_dec 0 x); [|contradiction]. unfold Rpower. auto_derive; auto. field. lra.
  - apply (is_derive_ext_loc (fun x => powerRZ x (Int_part y))).
    + apply (filter_imp (fun x => x < 0)); [|apply locally_open with (1 := open_lt 0); auto].
      intros t Ht. unfold Rpow. destruct (Rlt_dec 0 t); [lra|]. destruct (Req_EM_T y (IZR (Int_part y))); [auto|contradiction].
    + unfold Rpow. destruct (Rlt_dec 0 x); [lra|]. destruct (Req_EM_T y (IZR (Int_part y))); [|contradiction].
      rewrite e at 1. apply der_powerRZ. lra.
Qed.
