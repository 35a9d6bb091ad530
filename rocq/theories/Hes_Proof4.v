(** for_hes_sweep. *)
From Coq Require Import ZArith List Bool Arith Lia.
From Verif Require Import Base_Spec Op_Model Tape_Spec Tape_Model Tape_Proof Tape_Proof2 Tape_Proof7
  Sweep_Model Sweep_Eqs Sweep_Eqs2 Sweep_Tape Sweep_Uniq Tape_Swf Tape_Vec Rev_Prim Spar_Model Spar_Proof Spar_Proof2 Hes_Model Hes_Proof3.
Import ListNotations.

(** the operators that sweep/for_hes.hpp handles *)
Definition for_hes_op_ok (o : opvar) : bool := match o with CExpOp | ZmulpvOp => false | _ => true end.

Section For.
  Variables (R : nat -> bool) (sel : nat -> bool) (vi : nat -> nat).
  Notation op := (for_hes_op R sel vi).

  Lemma add_rows_mono x s H u k : H u k = true -> add_rows x s H u k = true.
  Proof. unfold add_rows. now intros ->. Qed.
  Lemma add_rows_in x s H u k : x u = true -> s k = true -> add_rows x s H u k = true.
  Proof. unfold add_rows. intros -> ->. apply orb_true_r. Qed.

  Lemma for_hes_frame i s v : okop (i_op i) = true -> (v <> i_var i \/ num_res (i_op i) = 0) -> fh_J (op i s) v = fh_J s v.
  Proof.
    intros OK Hv. destruct i as [o a z]. cbn [i_op i_var] in *. unfold for_hes_op.
    match goal with |- context [if negb ?x then _ else _] => destruct x; cbn [negb]; auto end.
    destruct o; try discriminate; cbn [num_res] in *; auto; (destruct Hv as [Hv|Hv]; [|discriminate]);
      unfold one_for, two_for, sv_assign; cbn [fh_J]; rewrite ?fset_ne by auto; auto.
  Qed.
  Lemma for_hes_mono i s u k : okop (i_op i) = true -> fh_H s u k = true -> fh_H (op i s) u k = true.
  Proof.
    intros OK Hv. destruct i as [o a z]. cbn [i_op i_var] in *. unfold for_hes_op.
    match goal with |- context [if negb ?x then _ else _] => destruct x; cbn [negb]; auto end.
    destruct o; try discriminate; auto; unfold one_for, two_for; cbn [fh_H negb andb]; repeat apply add_rows_mono; auto.
  Qed.
  Lemma for_hes_monoW i s u k : okop (i_op i) = true -> fh_W s u k = true -> fh_W (op i s) u k = true.
  Proof.
    intros OK Hv. destruct i as [o a z]. cbn [i_op i_var] in *. unfold for_hes_op.
    match goal with |- context [if negb ?x then _ else _] => destruct x; cbn [negb]; auto end.
    destruct o; try discriminate; auto; unfold one_for, two_for; cbn [fh_W negb andb]; auto; now apply sv_union_mono.
  Qed.

  (** one operator: [HR], [HR'] the VecAD part of the closedness of R *)
  Lemma for_hes_op_closed u i s (G HR HR' : nat -> Prop) : okop (i_op i) = true -> for_hes_op_ok (i_op i) = true ->
    Forall (fun x => x <> i_var i) (var_args (i_op i) (i_arg i)) \/ num_res (i_op i) = 0 ->
    let s1 := op i s in
    cl_ins false (fun v => R v = true) HR HR' i ->
    (forall x, In x (var_args (i_op i) (i_arg i)) -> R x = true -> fh_J s x u = false -> G x) ->
    (0 < num_res (i_op i) -> G (i_var i) -> R (i_var i) = true /\ fh_J s1 (i_var i) u = false) ->
    cl_ins false G (fun h => HR h /\ fh_W s (vi h) u = false) (fun h => HR' h /\ fh_W s1 (vi h) u = false) i.
  Proof.
    intros OK OK2 NE s1 [CH CI] GX GZ. split.
    { intros h [A B]. split; auto. destruct (fh_W s (vi h) u) eqn:E; auto. apply (for_hes_monoW i s _ _ OK) in E. subst s1. congruence. }
    subst s1. destruct i as [o a z]. cbn [i_op i_arg i_var] in *.
    assert (forall lin x, R x = true -> x <> z -> fh_J (one_for lin z x s) z u = false -> (forall y, In y [x] -> R y = true -> fh_J s y u = false -> G y) -> Forall G [x]) as O1.
    { intros lin x Rx Nx. unfold one_for. cbn [fh_J]. unfold sv_assign. rewrite fset_eq. intros F A. constructor; auto. apply A; cbn [In]; auto. }
    assert (forall lx ly lxy x y, R x = true -> R y = true -> fh_J (two_for lx ly lxy z x y s) z u = false ->
      (forall w, In w [x; y] -> R w = true -> fh_J s w u = false -> G w) -> Forall G [x; y]) as O2.
    { intros lx ly lxy x y Rx Ry. unfold two_for. cbn [fh_J]. unfold sv_assign. rewrite fset_eq. intros F A. apply orb_false_iff in F as [F1 F2].
      constructor; [|constructor; auto]; apply A; cbn [In]; auto. }
    destruct o; try discriminate; cbn [num_res rel_args var_args] in *; auto; try (intros; lia).
    all: try (intros N Gz; destruct (GZ N Gz) as [Rz F]; specialize (CI N Rz); unfold for_hes_op in F; cbn [num_res Nat.ltb Nat.leb andb] in F; rewrite Rz in F; cbn [negb] in F).
    all: try (destruct NE as [NE|NE]; [|discriminate]; inversion NE as [|? ? NE1 NE2]; subst; inversion CI as [|? ? CI1 CI2]; subst; eapply O1; eauto; fail).
    all: try (inversion CI as [|? ? CI1 CI2]; subst; inversion CI2 as [|? ? CI3 CI4]; subst; eapply O2; eauto; fail).
    - (* ldp *) intros Gz. destruct (GZ ltac:(lia) Gz) as [Rz F]. specialize (CI Rz). unfold for_hes_op in F. cbn [num_res Nat.ltb Nat.leb andb] in F. rewrite Rz in F. cbn [negb fh_J] in F.
      unfold sv_assign in F. rewrite fset_eq in F. auto.
    - intros Gz. destruct (GZ ltac:(lia) Gz) as [Rz F]. destruct (CI Rz) as [CI1 _]. unfold for_hes_op in F. cbn [num_res Nat.ltb Nat.leb andb] in F. rewrite Rz in F. cbn [negb fh_J] in F.
      unfold sv_assign in F. rewrite fset_eq in F. split; [auto|discriminate].
    - intros [A B]. specialize (CI A). unfold for_hes_op in B. cbn [negb fh_W] in B. unfold sv_union in B. rewrite fset_eq in B. apply orb_false_iff in B as [_ B].
      apply GX; cbn [In]; auto.
    - intros [A B]. destruct (CI A) as [CI1 _]. unfold for_hes_op in B. cbn [negb fh_W] in B. unfold sv_union in B. rewrite fset_eq in B. apply orb_false_iff in B as [_ B].
      split; [apply GX; cbn [In]; auto|discriminate].
  Qed.

  Definition nlf (J H : vset) (u k : nat) (i : ins) : Prop :=
    let x := nth 0 (i_arg i) 0 in let y := nth 1 (i_arg i) 0 in
    R (i_var i) = true ->
    match i_op i with
    | AcosOp | AcoshOp | AsinOp | AsinhOp | AtanOp | AtanhOp | CosOp | CoshOp | ErfOp | ErfcOp
    | ExpOp | Expm1Op | LogOp | Log1pOp | PowvpOp | SinOp | SinhOp | SqrtOp | TanOp | TanhOp =>
        J x u = true -> J x k = true -> H u k = true
    | PowpvOp | DivpvOp => J y u = true -> J y k = true -> H u k = true
    | MulvvOp | ZmulvvOp => (J x u = true -> J y k = true -> H u k = true) /\ (J y u = true -> J x k = true -> H u k = true)
    | DivvvOp => (J y u = true -> J x k = true \/ J y k = true -> H u k = true) /\ (J x u = true -> J y k = true -> H u k = true)
    | PowvvOp => J x u = true \/ J y u = true -> J x k = true \/ J y k = true -> H u k = true
    | _ => True
    end.
  Lemma for_hes_op_nl u k i s : okop (i_op i) = true ->
    Forall (fun x => x <> i_var i) (var_args (i_op i) (i_arg i)) \/ num_res (i_op i) = 0 ->
    nlf (fh_J s) (fh_H (op i s)) u k i.
  Proof.
    intros OK NE Rz. destruct i as [o a z]. cbn [i_op i_arg i_var] in *.
    assert (forall x, x <> z -> fh_J s x u = true -> fh_J s x k = true -> fh_H (one_for false z x s) u k = true) as O1.
    { intros x N A B. unfold one_for. cbn [fh_H negb]. unfold sv_assign. rewrite fset_ne by auto. now apply add_rows_in. }
    destruct o; try discriminate; try exact I; cbn [num_res var_args] in *; (destruct NE as [NE|NE]; [|discriminate]); inversion NE as [|? ? N1 N2]; subst;
      unfold for_hes_op; cbn [num_res Nat.ltb Nat.leb andb]; rewrite Rz; cbn [negb]; try (now apply O1).
    all: inversion N2 as [|? ? N3 _]; subst; unfold two_for, sv_assign; cbn [fh_H negb andb]; rewrite ?fset_eq; rewrite ?fset_ne by auto.
    - split; intros A B.
      + do 1 apply add_rows_mono. apply add_rows_in; auto. destruct B as [-> | ->]; auto using orb_true_r.
      + now apply add_rows_in.
    - split; intros A B; [apply add_rows_mono|]; now apply add_rows_in.
    - intros [A|A] B; [apply add_rows_mono|]; (apply add_rows_in; auto; destruct B as [-> | ->]; auto using orb_true_r).
    - split; intros A B; [apply add_rows_mono|]; now apply add_rows_in.
  Qed.

  Lemma for_hes_sweep_mono l : forall s u k, Forall (fun i => okop (i_op i) = true) l -> fh_H s u k = true -> fh_H (for_hes_sweep R sel vi l s) u k = true.
  Proof. induction l as [|i l IH]; intros s u k F H; cbn; auto. inversion F; subst. apply IH; auto. now apply for_hes_mono. Qed.

  Lemma for_hes_closed np l : forall nv nl seen s HR, wfl np nv nl l -> sok seen nl l -> Forall (fun i => for_hes_op_ok (i_op i) = true) l ->
    closed false (fun v => R v = true) HR l ->
    let sf := for_hes_sweep R sel vi l s in
    (forall v, v < nv -> fh_J sf v = fh_J s v) /\
    (forall u, closed false (fun v => R v = true /\ fh_J sf v u = false) (fun h => HR h /\ fh_W s (vi h) u = false) l) /\
    (forall u k, Forall (nlf (fh_J sf) (fh_H sf) u k) l).
  Proof.
    induction l as [|i l IH]; intros nv nl seen s HR Wf SO OK2 CL sf; [cbn; auto|].
    destruct SO as (OK & SA & _ & SO). pose proof Wf as (Hiv & W1 & HC & HL & HB & W2). inversion OK2 as [|? ? OK21 OK22]; subst.
    destruct CL as (HR' & CL1 & CL2).
    subst sf. cbn [for_hes_sweep fold_left] in *. fold (for_hes_sweep R sel vi l (op i s)) in *.
    specialize (IH _ _ _ (op i s) HR' W2 SO OK22 CL2). cbv zeta in IH. set (sf := for_hes_sweep R sel vi l (op i s)) in *.
    destruct IH as (I1 & I2 & I3).
    assert (forall x, In x (var_args (i_op i) (i_arg i)) -> x < nv) as AR.
    { intros x Hx. destruct i as [o a z]. apply (wf_arg_range np o a z) in Hx; auto. cbn in *. lia. }
    assert (Forall (fun x => x <> i_var i) (var_args (i_op i) (i_arg i)) \/ num_res (i_op i) = 0) as NE.
    { destruct (Nat.eq_dec (num_res (i_op i)) 0); [auto|left]. rewrite Forall_forall. intros x Hx. apply AR in Hx. lia. }
    assert (forall v, v < nv -> fh_J sf v = fh_J s v) as FR.
    { intros v Hv. rewrite I1 by lia. apply for_hes_frame; auto. destruct (Nat.eq_dec (num_res (i_op i)) 0); [auto|left; lia]. }
    split; [exact FR|split].
    - intros u. exists (fun h => HR' h /\ fh_W (op i s) (vi h) u = false). split; [|apply I2].
      apply (for_hes_op_closed u i s _ HR HR' OK OK21 NE CL1).
      + intros x Hx Rx Jx. split; auto. rewrite FR; auto.
      + intros N [A B]. split; auto. rewrite <- I1 by lia. auto.
    - intros u k. constructor; auto. intros Rz.
      pose proof (for_hes_op_nl u k i s OK NE Rz) as N.
      assert (Forall (fun i => okop (i_op i) = true) l) as OKS.
      { clear - SO. revert SO. generalize (seen1 seen i) (if is_load (i_op i) then S nl else nl). induction l as [|j l IH]; intros a m S; constructor; destruct S as (A & _ & _ & B); eauto. }
      assert (forall u k, fh_H (op i s) u k = true -> fh_H sf u k = true) as M by (intros; now apply for_hes_sweep_mono).
      clear - N M AR FR. destruct i as [o a z]. cbn [i_op i_arg i_var] in *.
      destruct o; auto; cbn [var_args In] in AR; rewrite ?(FR (nth 0 a 0)) by auto; rewrite ?(FR (nth 1 a 0)) by auto; auto; try (destruct N; split; auto).
  Qed.
End For.
