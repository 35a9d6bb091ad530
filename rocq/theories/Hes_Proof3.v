(** rev_hes_sweep and for_hes_sweep compute closed sets; the nonlinear operators. *)
From Coq Require Import ZArith List Bool Arith Lia.
From Verif Require Import Base_Spec Op_Model Tape_Spec Tape_Model Tape_Proof Tape_Proof2 Tape_Proof7
  Sweep_Model Sweep_Eqs Sweep_Eqs2 Sweep_Tape Sweep_Uniq Tape_Swf Tape_Vec Rev_Prim Spar_Model Spar_Proof Spar_Proof2 Hes_Model.
Import ListNotations.

Lemma sv_union_mono (U : vset) v s h c : U h c = true -> sv_union U v s h c = true.
Proof. intros H. unfold sv_union, fset. destruct (Nat.eqb_spec h v) as [->|]; auto. now rewrite H. Qed.
Lemma sv_union_in (U : vset) v (s : nat -> bool) c : s c = true -> sv_union U v s v c = true.
Proof. intros H. unfold sv_union. rewrite fset_eq, H. apply orb_true_r. Qed.
Lemma fset_mono (R : nat -> bool) v x y : R x = true -> (x = v -> y = true) -> fset R v y x = true.
Proof. intros H K. unfold fset. destruct (Nat.eqb_spec x v); auto. Qed.

Section Rev.
  Variables (J : vset) (vi : nat -> nat) (c : nat).

  (** [q]: also the Hessian set contains [c] *)
  Definition gq (q : bool) (s : hst) (v : nat) : Prop := h_R s v = true /\ (q = true -> h_H s v c = true).
  Definition wq (q : bool) (s : hst) (h : nat) : Prop := h_wR s (vi h) = true /\ (q = true -> h_wH s (vi h) c = true).
  (** the sets of the arguments of a nonlinear operator *)
  Definition nlr (R : nat -> bool) (H : vset) (i : ins) : Prop :=
    let x := nth 0 (i_arg i) 0 in let y := nth 1 (i_arg i) 0 in
    R (i_var i) = true ->
    match i_op i with
    | AcosOp | AcoshOp | AsinOp | AsinhOp | AtanOp | AtanhOp | CosOp | CoshOp | ErfOp | ErfcOp
    | ExpOp | Expm1Op | LogOp | Log1pOp | PowvpOp | SinOp | SinhOp | SqrtOp | TanOp | TanhOp => J x c = true -> H x c = true
    | PowpvOp | DivpvOp => J y c = true -> H y c = true
    | MulvvOp | ZmulvvOp => (J y c = true -> H x c = true) /\ (J x c = true -> H y c = true)
    | DivvvOp => (J y c = true -> H x c = true /\ H y c = true) /\ (J x c = true -> H y c = true)
    | PowvvOp => (J y c = true \/ J x c = true -> H x c = true /\ H y c = true)
    | _ => True
    end.

  Definition hle (s s1 : hst) : Prop :=
    (forall v, h_R s v = true -> h_R s1 v = true) /\ (forall v, h_H s v c = true -> h_H s1 v c = true) /\
    (forall v, h_wR s v = true -> h_wR s1 v = true) /\ (forall v, h_wH s v c = true -> h_wH s1 v c = true).
  Lemma hle_refl s : hle s s. Proof. unfold hle; auto. Qed.
  Lemma hle_trans s s1 s2 : hle s s1 -> hle s1 s2 -> hle s s2.
  Proof. unfold hle. intros (A1 & A2 & A3 & A4) (B1 & B2 & B3 & B4). repeat split; auto. Qed.
  Ltac mono := repeat (first [apply fset_mono; [|auto] | apply sv_union_mono]); auto.
  Lemma one_rev_le lin z v s : hle s (one_rev J lin z v s).
  Proof. unfold one_rev. destruct (h_R s z); [|apply hle_refl]. destruct lin; cbn [negb]; repeat split; cbn; intros; mono. Qed.
  Lemma two_rev_le lx ly lxy z x y s : hle s (two_rev J lx ly lxy z x y s).
  Proof. unfold two_rev. destruct (h_R s z); [|apply hle_refl]. destruct lx, ly, lxy; cbn [negb]; repeat split; cbn; intros; mono. Qed.
  Lemma arg_rev_le z v s : hle s (arg_rev z v s).
  Proof. unfold arg_rev. repeat split; cbn; intros; mono. intros ->. now rewrite H. Qed.
  Lemma rev_hes_le i s : hle s (rev_hes_op J vi i s).
  Proof.
    destruct i as [o a z]. destruct o; cbn [rev_hes_op]; auto using hle_refl, one_rev_le, two_rev_le.
    - destruct (Nat.testbit _ 2); destruct (Nat.testbit _ 3); eauto using hle_trans, arg_rev_le, hle_refl.
    - generalize (arg_range a 5 (nth 2 a 0)). intros l. revert s. induction l as [|j l IH]; intros s; cbn [fold_left]; [apply hle_refl|].
      eapply hle_trans; [apply arg_rev_le|apply IH].
    - repeat split; cbn; intros; mono. intros ->. now rewrite H.
    - repeat split; cbn; intros; mono. intros ->. now rewrite H.
    - repeat split; cbn; intros; mono. intros ->. now rewrite H.
    - repeat split; cbn; intros; mono. intros ->. now rewrite H.
  Qed.
  Lemma rev_hes_frame i s v : okop (i_op i) = true -> ~ In v (var_args (i_op i) (i_arg i)) ->
    h_R (rev_hes_op J vi i s) v = h_R s v /\ h_H (rev_hes_op J vi i s) v = h_H s v.
  Proof.
    destruct i as [o a z]. cbn [i_op i_arg]. intros OK.
    assert (forall lin z x, ~ v = x -> h_R (one_rev J lin z x s) v = h_R s v /\ h_H (one_rev J lin z x s) v = h_H s v) as O1.
    { intros lin z' x Hx. unfold one_rev, sv_union. destruct (h_R s z'), lin; cbn [negb h_R h_H]; rewrite ?fset_ne by auto; auto. }
    assert (forall lx ly lxy z x y, ~ v = x -> ~ v = y -> h_R (two_rev J lx ly lxy z x y s) v = h_R s v /\ h_H (two_rev J lx ly lxy z x y s) v = h_H s v) as O2.
    { intros lx ly lxy z' x y Hx Hy. unfold two_rev, sv_union. destruct (h_R s z'), lx, ly, lxy; cbn [negb h_R h_H]; rewrite ?fset_ne by auto; auto. }
    assert (forall s z x, ~ v = x -> h_R (arg_rev z x s) v = h_R s v /\ h_H (arg_rev z x s) v = h_H s v) as O3.
    { intros s' z' x Hx. unfold arg_rev, sv_union. cbn [h_R h_H]. rewrite !fset_ne by auto. auto. }
    destruct o; try discriminate; cbn [rev_hes_op var_args In]; intros NI; try (apply O1; intros ->; tauto); try (apply O2; intros ->; tauto); auto.
    - rewrite !in_app_iff in NI. destruct (Nat.testbit (nth 1 a 0) 2), (Nat.testbit (nth 1 a 0) 3); cbn [In] in NI; auto.
      + destruct (O3 (arg_rev z (nth 4 a 0) s) z (nth 5 a 0)) as [-> ->]; [intros ->; tauto|]. apply O3. intros ->; tauto.
      + apply O3. intros ->; tauto.
      + apply O3. intros ->; tauto.
    - cbn [h_R h_H]. unfold sv_union. rewrite !fset_ne by (intros ->; tauto). auto.
    - cbn [h_R h_H]. unfold sv_union. rewrite !fset_ne by (intros ->; tauto). auto.
  Qed.
  Lemma one_rev_in q lin z x s : gq q s z -> gq q (one_rev J lin z x s) x.
  Proof.
    unfold gq, one_rev. intros [A B]. rewrite A. cbn [negb h_R h_H]. rewrite fset_eq. split; auto. intros Q. specialize (B Q).
    destruct lin; cbn [negb]; [|apply sv_union_mono]; now apply sv_union_in.
  Qed.
  Lemma two_rev_in q lx ly lxy z x y s : gq q s z -> gq q (two_rev J lx ly lxy z x y s) x /\ gq q (two_rev J lx ly lxy z x y s) y.
  Proof.
    unfold gq, two_rev. intros [A B]. rewrite A. cbn [negb h_R h_H].
    split; (split; [first [apply fset_eq | apply fset_mono; [apply fset_eq|auto]]|intros Q; specialize (B Q)]).
    - destruct lx, ly, lxy; cbn [negb]; repeat first [apply sv_union_in; exact B | apply sv_union_mono].
    - destruct lx, ly, lxy; cbn [negb]; repeat first [apply sv_union_in; now apply sv_union_mono | apply sv_union_mono].
  Qed.
  Lemma arg_rev_in q z x s : gq q s z -> gq q (arg_rev z x s) x.
  Proof.
    unfold gq, arg_rev. intros [A B]. cbn [h_R h_H]. rewrite fset_eq, A. split; [apply orb_true_r|]. intros Q. apply sv_union_in. auto.
  Qed.
  Lemma gq_le q s s1 v : hle s s1 -> gq q s v -> gq q s1 v.
  Proof. unfold gq, hle. intros (A1 & A2 & _) [B1 B2]. auto. Qed.
  Lemma wq_le q s s1 v : hle s s1 -> wq q s v -> wq q s1 v.
  Proof. unfold wq, hle. intros (_ & _ & A1 & A2) [B1 B2]. auto. Qed.

  Lemma rev_hes_op_closed q i s (G : nat -> Prop) : okop (i_op i) = true ->
    let s1 := rev_hes_op J vi i s in
    (forall x, In x (var_args (i_op i) (i_arg i)) -> gq q s1 x -> G x) ->
    (0 < num_res (i_op i) -> G (i_var i) -> gq q s (i_var i)) ->
    cl_ins false G (wq q s1) (wq q s) i.
  Proof.
    intros OK s1 GX GZ. split.
    { intros h. apply wq_le. apply rev_hes_le. }
    subst s1. destruct i as [o a z]. cbn [i_op i_arg i_var] in *.
    assert (forall lin x, (forall y, In y [x] -> gq q (one_rev J lin z x s) y -> G y) -> gq q s z -> Forall G [x]) as O1.
    { intros lin x A B. constructor; auto. apply A; [cbn; auto|]. now apply one_rev_in. }
    assert (forall lx ly lxy x y, (forall w, In w [x; y] -> gq q (two_rev J lx ly lxy z x y s) w -> G w) -> gq q s z -> Forall G [x; y]) as O2.
    { intros lx ly lxy x y A B. destruct (two_rev_in q lx ly lxy z x y s B). constructor; [|constructor; auto]; apply A; cbn [In]; auto. }
    destruct o; try discriminate; cbn [num_res rel_args var_args rev_hes_op] in *; auto; try (intros; lia); try (intros _ QQ; discriminate); try (intros N Gz; specialize (GZ N Gz); eauto; fail).
    - (* cexp *) intros N Gz. specialize (GZ N Gz). cbn [app]. apply Forall_app. split.
      + destruct (Nat.testbit (nth 1 a 0) 2) eqn:T2; constructor; auto. apply GX; [rewrite !in_app_iff; cbn [In]; tauto|].
        destruct (Nat.testbit (nth 1 a 0) 3); [eapply gq_le; [apply arg_rev_le|]|]; now apply arg_rev_in.
      + destruct (Nat.testbit (nth 1 a 0) 3) eqn:T3; constructor; auto. apply GX; [rewrite !in_app_iff; cbn [In]; tauto|].
        apply arg_rev_in. destruct (Nat.testbit (nth 1 a 0) 2); auto. eapply gq_le; [apply arg_rev_le|auto].
    - (* ldp *) intros Gz. specialize (GZ ltac:(cbn; lia) Gz). destruct GZ as [A B]. unfold wq. cbn [h_wR h_wH]. rewrite fset_eq, A. split; [apply orb_true_r|].
      intros Q. apply sv_union_in. auto.
    - intros Gz. specialize (GZ ltac:(cbn; lia) Gz). destruct GZ as [A B]. unfold wq. cbn [h_wR h_wH]. split; [|discriminate]. rewrite fset_eq, A. split; [apply orb_true_r|].
      intros Q. apply sv_union_in. auto.
    - intros [A B]. apply GX; [cbn [In]; auto|]. unfold gq. cbn [h_R h_H]. rewrite fset_eq, A. split; [apply orb_true_r|]. intros Q. apply sv_union_in. auto.
    - intros [A B]. split; [|discriminate]. apply GX; [cbn [In]; auto|]. unfold gq. cbn [h_R h_H]. rewrite fset_eq, A. split; [apply orb_true_r|]. intros Q. apply sv_union_in. auto.
  Qed.
  Lemma rev_hes_op_nl i s : okop (i_op i) = true -> let s1 := rev_hes_op J vi i s in h_R s (i_var i) = true ->
    nlr (h_R s) (h_H s1) i.
  Proof.
    intros OK s1 Rz _. subst s1. destruct i as [o a z]. cbn [i_op i_arg i_var] in *.
    assert (forall x, J x c = true -> h_H (one_rev J false z x s) x c = true) as O1.
    { intros x Jx. unfold one_rev. rewrite Rz. cbn [negb h_H]. now apply sv_union_in. }
    assert (forall x y, J x c = true -> h_H (two_rev J true true false z x y s) y c = true) as M1.
    { intros x y Jx. unfold two_rev. rewrite Rz. cbn [negb h_H]. now apply sv_union_in. }
    assert (forall x y, J y c = true -> h_H (two_rev J true true false z x y s) x c = true) as M2.
    { intros x y Jx. unfold two_rev. rewrite Rz. cbn [negb h_H]. apply sv_union_mono. now apply sv_union_in. }
    assert (forall x y, J x c = true -> h_H (two_rev J true false false z x y s) y c = true) as D1.
    { intros x y Jx. unfold two_rev. rewrite Rz. cbn [negb h_H]. now apply sv_union_in. }
    assert (forall x y, J y c = true -> h_H (two_rev J true false false z x y s) x c = true /\ h_H (two_rev J true false false z x y s) y c = true) as D2.
    { intros x y Jx. unfold two_rev. rewrite Rz. cbn [negb h_H]. split.
      - apply sv_union_mono. now apply sv_union_in.
      - apply sv_union_mono. apply sv_union_mono. now apply sv_union_in. }
    assert (forall x y, J y c = true \/ J x c = true -> h_H (two_rev J false false false z x y s) x c = true /\ h_H (two_rev J false false false z x y s) y c = true) as P1.
    { intros x y Jx. unfold two_rev. rewrite Rz. cbn [negb h_H]. destruct Jx as [Jx|Jx]; split.
      - apply sv_union_mono. now apply sv_union_in.
      - apply sv_union_mono. apply sv_union_mono. now apply sv_union_in.
      - do 5 apply sv_union_mono. now apply sv_union_in.
      - now apply sv_union_in. }
    destruct o; try discriminate; cbn [rev_hes_op]; auto.
  Qed.

  Lemma rev_hes_closed np s Rf Hf l : forall nv nl seen, wfl np nv nl l -> sok seen nl l ->
    let s1 := rev_hes_sweep J vi l s in
    (forall v, h_R s1 v = true -> Rf v = true) -> (forall v, h_H s1 v c = true -> Hf v c = true) ->
    (forall v, nv <= v -> Rf v = h_R s1 v /\ Hf v c = h_H s1 v c) ->
    (forall q : bool, closed false (fun v => Rf v = true /\ (q = true -> Hf v c = true)) (wq q s1) l) /\
    Forall (nlr Rf Hf) l.
  Proof.
    induction l as [|i l IH]; intros nv nl seen Wf SO s1 A1 A2 B; [cbn; auto|].
    destruct SO as (OK & SA & _ & SO). pose proof Wf as (Hiv & W1 & HC & HL & HB & W2).
    specialize (IH _ _ _ W2 SO). cbv zeta in IH. subst s1. cbn [rev_hes_sweep fold_right] in *. fold (rev_hes_sweep J vi l s) in *.
    set (s2 := rev_hes_sweep J vi l s) in *.
    assert (forall x, In x (var_args (i_op i) (i_arg i)) -> x < nv) as AR.
    { intros x Hx. destruct i as [o a z]. apply (wf_arg_range np o a z) in Hx; auto. cbn in *. lia. }
    assert (forall v, nv <= v -> h_R (rev_hes_op J vi i s2) v = h_R s2 v /\ h_H (rev_hes_op J vi i s2) v = h_H s2 v) as EQ.
    { intros v Hv. apply rev_hes_frame; auto. intros Hx. apply AR in Hx. lia. }
    destruct (rev_hes_le i s2) as (L1 & L2 & _).
    destruct IH as [IH1 IH2]; auto.
    { intros v Hv. destruct (B v ltac:(lia)) as [-> ->]. destruct (EQ v ltac:(lia)) as [-> ->]. auto. }
    split.
    - intros q. exists (wq q s2). split; [|apply IH1]. apply rev_hes_op_closed; auto.
      + intros x Hx [Q1 Q2]. auto.
      + intros N. destruct (B (i_var i) ltac:(lia)) as [-> ->]. destruct (EQ (i_var i) ltac:(lia)) as [-> ->]. auto.
    - constructor; auto. destruct (Nat.eq_dec (num_res (i_op i)) 0) as [Z|Z].
      { destruct i as [o a z]. intros _. cbn [i_op] in *. destruct o; try discriminate; exact I. }
      intros Rz. destruct (B (i_var i) ltac:(lia)) as [B1 _]. rewrite B1 in Rz. rewrite (proj1 (EQ (i_var i) ltac:(lia))) in Rz.
      pose proof (rev_hes_op_nl i s2 OK Rz Rz) as N. cbv zeta in N. clear - N A2.
      destruct i as [o a z]. cbn [i_op i_arg i_var] in *. destruct o; auto; intuition auto.
  Qed.
End Rev.
