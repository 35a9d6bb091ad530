(** The mixed difference of every variable of a closed set vanishes when the nonlinear
    operators have arguments that do not change in one of the two directions. *)
From Coq Require Import Reals ZArith Lra Lia List Bool Arith.
From Verif Require Import Base_Spec Op_Model Tape_Spec Tape_Model Tape_Proof Tape_Proof2 Tape_Proof7
  Sweep_Model Sweep_Eqs Sweep_Eqs2 Sweep_Tape Sweep_Uniq Sweep_Val0 Tape_Swf Tape_Vec Rev_Prim Real_Base Spar_Proof Hes_Proof.
Import ListNotations.
Open Scope nat_scope.

(** two evaluations are on the same side of zero at the argument of abs *)
Definition same_abs (V V' : nat -> R) (i : ins) : Prop :=
  i_op i = AbsOp -> Rsgn (V (nth 0 (i_arg i) 0)) = Rsgn (V' (nth 0 (i_arg i) 0)).

Section Mix.
  Variable dis : nat -> R -> R.
  Variable nan : R.
  Notation b := (Rbase dis nan).
  Variable P : nat -> R.
  (** the four evaluations and the variables they load *)
  Variable W : bool -> bool -> nat -> R.
  Variable Ld : bool -> bool -> nat -> nat.
  Variable G : nat -> Prop.

  Definition indS v := forall t, W true t v = W false t v.
  Definition indT v := forall s, W s true v = W s false v.
  Definition mixed0 v := (W true true v + W false false v = W true false v + W false true v)%R.

  Definition nl_ok (i : ins) : Prop :=
    let x := nth 0 (i_arg i) 0 in let y := nth 1 (i_arg i) 0 in
    G (i_var i) ->
    match i_op i with
    | AcosOp | AcoshOp | AsinOp | AsinhOp | AtanOp | AtanhOp | CosOp | CoshOp | ErfOp | ErfcOp
    | ExpOp | Expm1Op | LogOp | Log1pOp | PowvpOp | SinOp | SinhOp | SqrtOp | TanOp | TanhOp => indS x \/ indT x
    | PowpvOp | DivpvOp => indS y \/ indT y
    | MulvvOp | ZmulvvOp => (indS x /\ indS y) \/ (indT x /\ indT y) \/ (indS x /\ indT x) \/ (indS y /\ indT y)
    | DivvvOp => (indS x /\ indS y) \/ (indT x /\ indT y) \/ (indS y /\ indT y)
    | PowvvOp => (indS x /\ indS y) \/ (indT x /\ indT y)
    | _ => True
    end.

  Lemma ind_mixed v : indS v \/ indT v -> mixed0 v.
  Proof. unfold indS, indT, mixed0. intros [H|H]; rewrite !H; lra. Qed.

  Definition last0 (o : opvar) (a : list nat) (V : nat -> R) : R :=
    match sem0 (b:=b) o a P V with Some res => nth (num_res o - 1) res 0%R | None => 0%R end.
  Lemma op_mixed o a iv : okop o = true -> is_vec o = false -> 0 < num_res o ->
    nl_ok (mkIns o a iv) -> G iv ->
    Forall mixed0 (rel_args false o a) ->
    (forall s t, same_choice (b:=b) P (W s t) (W false false) (Ld s t) (Ld false false) (mkIns o a iv)) ->
    (forall s t, same_abs (W s t) (W false false) (mkIns o a iv)) ->
    (forall s t, W s t iv = last0 o a (W s t)) -> mixed0 iv.
  Proof.
    intros OK NV NR NL Gz DA SC SA EV. specialize (NL Gz). cbn [i_op i_arg i_var] in NL.
    assert (forall x y, Forall mixed0 [x; y] -> mixed0 x /\ mixed0 y) as F2.
    { intros x y H. inversion H as [|? ? A B]; subst. inversion B; auto. }
    assert (forall x, Forall mixed0 [x] -> mixed0 x) as F1 by (intros x H; now inversion H).
    assert (o = SignOp \/ o = DisOp -> mixed0 iv) as SD.
    { unfold same_choice in SC. cbn [i_op i_var] in SC. intros [-> | ->]; unfold mixed0; rewrite (SC true true), (SC true false), (SC false true); lra. }
    assert (forall x y, (indS x /\ indS y) \/ (indT x /\ indT y) \/ (indS x /\ indT x) \/ (indS y /\ indT y) ->
      mixed0 x -> mixed0 y ->
      (W true true x * W true true y + W false false x * W false false y = W true false x * W true false y + W false true x * W false true y)%R) as MU.
    { intros x y [[A B]|[[A B]|[[A B]|[A B]]]]; unfold indS, indT, mixed0 in *; intros D1 D2.
      - rewrite !A, !B. lra.
      - rewrite !A, !B. lra.
      - rewrite !A, !B. rewrite <- !Rmult_plus_distr_l. f_equal. auto.
      - rewrite !A, !B. rewrite <- !Rmult_plus_distr_r. f_equal. auto. }
    destruct o; try discriminate; try (cbn in NR; lia); try (apply SD; auto; fail); clear SD; unfold last0 in EV; cbn in EV; cbn [rel_args var_args] in DA;
      try apply F1 in DA; try apply F2 in DA as [DA DB];
      unfold mixed0 in *; rewrite !EV; clear EV.
    all: try (destruct NL as [NL|NL]; unfold indS, indT in NL; rewrite !NL; lra).
    all: try (destruct NL as [[NL NL2]|[NL NL2]]; unfold indS, indT in *; rewrite !NL, !NL2; lra).
    all: try (now apply MU).
    all: try (unfold Rdiv; first [lra|nra]).
    - (* abs *) unfold same_abs in SA. cbn [i_op i_arg] in SA.
      rewrite (SA true true eq_refl), (SA true false eq_refl), (SA false true eq_refl).
      rewrite <- !Rmult_plus_distr_l. now rewrite DA.
    - (* cexp *) unfold same_choice, cexp_sel_at in SC. cbn [i_op i_arg i_var] in SC.
      rewrite !(cexp_sel_code (b:=b)).
      rewrite (SC true true), (SC true false), (SC false true). cbn [app] in DA. rewrite Forall_app in DA. destruct DA as [D1 D2].
      destruct (cexp_sel _ _ _); unfold vp.
      + destruct (Nat.testbit (nth 1 a 0) 2); [now apply F1 in D1|lra].
      + destruct (Nat.testbit (nth 1 a 0) 3); [now apply F1 in D2|lra].
    - (* div *) destruct NL as [[A B]|[[A B]|[A B]]]; unfold indS, indT in *; rewrite !A, !B; unfold Rdiv; [lra|lra|].
      rewrite <- !Rmult_plus_distr_r. f_equal. auto.
  Qed.

  Lemma mixed_list np l : forall nv nl seen H,
    wfl np nv nl l -> sok seen nl l -> (forall v, In v seen -> v < nv) -> closed false G H l ->
    srcs G (Ld false false) seen l ->
    (forall s t, Forall (is_val (b:=b) P (W s t) (Ld s t)) l) ->
    (forall s t, Forall (same_choice (b:=b) P (W s t) (W false false) (Ld s t) (Ld false false)) l) ->
    (forall s t, Forall (same_abs (W s t) (W false false)) l) ->
    Forall nl_ok l -> (forall v, In v seen -> G v -> mixed0 v) ->
    forall v, In v (seenof seen l) -> G v -> mixed0 v.
  Proof.
    induction l as [|i l IH]; intros nv nl seen H Wf SO SL CL SR IV SC SA NL DS v Hv Gv; [now apply DS|].
    pose proof SO as (OK & SAr & _ & SO2). pose proof Wf as (Hiv & W1 & HC & HL & HB & W2).
    destruct CL as (H' & [CH CI] & CL2). destruct SR as [SR1 SR2].
    assert (forall v, In v (seen1 seen i) -> v < nv + num_res (i_op i)) as SL1.
    { intros w Hw. unfold seen1 in Hw. destruct (Nat.ltb_spec 0 (num_res (i_op i))); [destruct Hw as [<-|Hw]|]; try apply SL in Hw; lia. }
    apply Forall_cons_iff in NL as [NL1 NL2].
    assert (forall s t, is_val (b:=b) P (W s t) (Ld s t) i) as IV1 by (intros s t; specialize (IV s t); now inversion IV).
    assert (forall s t, same_choice (b:=b) P (W s t) (W false false) (Ld s t) (Ld false false) i) as SC1 by (intros s t; specialize (SC s t); now inversion SC).
    assert (forall s t, same_abs (W s t) (W false false) i) as SA1 by (intros s t; specialize (SA s t); now inversion SA).
    apply (IH _ _ (seen1 seen i) H' W2 SO2 SL1 CL2 SR2); auto;
      try (intros s t; specialize (IV s t); specialize (SC s t); specialize (SA s t); inversion IV; inversion SC; inversion SA; auto; fail).
    clear IH CL2 SR2 IV SC SA NL2 v Hv Gv.
    intros v Hv Gv. unfold seen1 in Hv. destruct (Nat.ltb_spec 0 (num_res (i_op i))) as [NR|NR]; [|now apply DS].
    destruct Hv as [<-|Hv]; [|now apply DS].
    rewrite Forall_forall in SAr. destruct i as [o a iv]. cbn [i_op i_arg i_var] in *.
    destruct (is_vec o) eqn:IVo.
    - assert (is_load o = true) as LD by (destruct o; try discriminate; try (cbn in NR; lia); auto).
      specialize (SR1 LD Gv). cbv zeta in SR1.
      assert (forall s t, Ld s t (nth 2 a 0) = Ld false false (nth 2 a 0) /\ (Ld s t (nth 2 a 0) = 0 -> W s t iv = W false false iv)) as SC2.
      { intros s t. specialize (SC1 s t). unfold same_choice in SC1. cbn [i_op i_arg i_var] in SC1. destruct o; try discriminate; exact SC1. }
      destruct (Nat.eq_dec (Ld false false (nth 2 a 0)) 0) as [Z|Z].
      + unfold mixed0. assert (forall s t, W s t iv = W false false iv) as E by (intros s t; destruct (SC2 s t) as [A B]; apply B; congruence).
        rewrite (E true true), (E true false), (E false true). lra.
      + destruct SR1 as [SI SG]; [lia|]. specialize (DS _ SI SG).
        assert (forall s t, W s t iv = W s t (Ld false false (nth 2 a 0))) as E.
        { intros s t. destruct (IV1 s t) as [A _]. cbn [i_op i_arg i_var] in A. specialize (A LD). cbv zeta in A.
          rewrite (proj1 (SC2 s t)) in A. apply A. lia. }
        unfold mixed0 in *. now rewrite !E.
    - apply (op_mixed o a iv OK IVo NR NL1 Gv); auto.
      + assert (Forall G (rel_args false o a)) as K by (destruct o; try discriminate; auto).
        rewrite Forall_forall in *. intros x Hx. apply DS; auto. apply SAr.
        destruct o; cbn [rel_args] in Hx; auto; try (now destruct Hx). cbn [app] in Hx. cbn [var_args]. rewrite !in_app_iff in *. tauto.
      + intros s t. destruct (IV1 s t) as [_ B]. cbn [i_op i_arg i_var] in B.
        destruct B as (res & B1 & B2); [destruct o; auto; discriminate|auto|]. unfold last0. now rewrite B1.
  Qed.
End Mix.
