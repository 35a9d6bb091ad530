(** Order bookkeeping of the ADFun drivers and independence of the Taylor
    coefficients from the sequence of calls that computed them (any Base). *)
From Coq Require Import ZArith List Bool Arith Lia FunctionalExtensionality.
From Verif Require Import Base_Spec Op_Model Tape_Spec Tape_Model Tape_Proof Tape_Proof2
  Sweep_Model Sweep_Eqs Sweep_Eqs2 Sweep_Tape Sweep_Uniq Drv_Model.
Import ListNotations.

Lemma fold_reach {A B} (f : A -> B -> A) (Q : A -> Prop) (l : list B) : forall z,
  (forall z x, In x l -> Q z -> Q (f z x)) -> (Q z \/ exists x, In x l /\ forall z, Q (f z x)) ->
  Q (fold_left f l z).
Proof.
  induction l as [|y l IH]; intros z HP H; cbn.
  - destruct H as [H|(x & [] & _)]; auto.
  - apply IH; [intros; apply HP; auto; now right|].
    destruct H as [H|(x & [<-|Hin] & Hx)]; [left; apply HP; auto; now left|left; auto|right; eauto].
Qed.

Lemma tidx_split C R k ell : k < C -> (k = 0 -> ell = 0) -> (0 < k -> ell < R) ->
  let m := if k =? 0 then 0 else (k - 1) * R + ell + 1 in
  m < (C - 1) * R + 1.
Proof.
  intros Hk H0 H1 m. unfold m. destruct (Nat.eqb_spec k 0); [generalize ((C - 1) * R); intros; lia|].
  specialize (H1 ltac:(lia)). assert ((k - 1) * R + R <= (C - 1) * R); [|lia].
  replace ((k - 1) * R + R) with (k * R) by (destruct k; [lia|]; cbn; rewrite Nat.sub_0_r; lia).
  apply Nat.mul_le_mono_r. lia.
Qed.

Lemma tidx_inj C R i k ell i' k' ell' :
  k < C -> (k = 0 -> ell = 0) -> (0 < k -> ell < R) ->
  k' < C -> (k' = 0 -> ell' = 0) -> (0 < k' -> ell' < R) ->
  tidx C R i k ell = tidx C R i' k' ell' -> i = i' /\ k = k' /\ ell = ell'.
Proof.
  intros A1 A2 A3 B1 B2 B3 E. unfold tidx in E.
  pose proof (tidx_split C R k ell A1 A2 A3) as Hm.
  pose proof (tidx_split C R k' ell' B1 B2 B3) as Hm'. cbn zeta in *.
  set (w := (C - 1) * R + 1) in *.
  set (m := if k =? 0 then 0 else (k - 1) * R + ell + 1) in *.
  set (m' := if k' =? 0 then 0 else (k' - 1) * R + ell' + 1) in *.
  assert (i = i' /\ m = m') as [-> Em].
  { assert (i = i').
    { apply (Nat.mul_cancel_l i i' w); [lia|].
      destruct (Nat.lt_trichotomy i i') as [L|[L|L]]; [|now subst|].
      - assert (w * S i <= w * i') by (apply Nat.mul_le_mono_l; lia).
        rewrite Nat.mul_succ_r in *. lia.
      - assert (w * S i' <= w * i) by (apply Nat.mul_le_mono_l; lia).
        rewrite Nat.mul_succ_r in *. lia. }
    subst. split; auto. lia. }
  split; auto. unfold m, m' in Em.
  destruct (Nat.eqb_spec k 0), (Nat.eqb_spec k' 0);
    [lia|rewrite Nat.add_1_r in Em; discriminate|rewrite Nat.add_1_r in Em; discriminate|].
  - specialize (A3 ltac:(lia)). specialize (B3 ltac:(lia)).
    assert (k - 1 = k' - 1 /\ ell = ell') as [? ?]; [|split; lia].
    set (a := k - 1) in *. set (c := k' - 1) in *. assert (a * R + ell = c * R + ell') as E2 by lia.
    destruct (Nat.lt_trichotomy a c) as [L|[L|L]].
    + assert (S a * R <= c * R) by (apply Nat.mul_le_mono_r; lia). cbn in *. lia.
    + split; auto. rewrite L in E2. lia.
    + assert (S c * R <= a * R) by (apply Nat.mul_le_mono_r; lia). cbn in *. lia.
Qed.

Section Drv.
  Context {b : base}.
  Notation T := (bt b).
  Variable bnat : nat -> T.
  Variable junk : nat -> T.

  Lemma copy_tay_spec old nv C R c r p i k ell :
    i < nv -> k < p -> p <= c -> (k = 0 -> ell = 0) -> (0 < k -> ell < R) -> (p <= 1 \/ r = R) ->
    copy_tay junk old nv C R c r p (tidx c r i k ell) = old (tidx C R i k ell).
  Proof.
    intros Hi Hk Hp H0 H1 HR. set (a0 := tidx c r i k ell). set (v0 := old (tidx C R i k ell)).
    unfold copy_tay.
    assert (forall (t : nat -> T) i' k' ell', k' < p -> (k' = 0 -> ell' = 0) -> (0 < k' -> ell' < R) ->
      t a0 = v0 -> fset t (tidx c r i' k' ell') (old (tidx C R i' k' ell')) a0 = v0) as K.
    { intros t i' k' ell' Hk' A B E. unfold fset. destruct (Nat.eqb_spec a0 (tidx c r i' k' ell')) as [Q|]; auto.
      apply tidx_inj in Q; try lia. destruct Q as (-> & -> & ->). reflexivity. }
    apply (fold_reach _ (fun t => t a0 = v0)).
    - intros t i' Hin E. apply in_seq in Hin.
      apply (fold_reach _ (fun t => t a0 = v0)); [|left; apply K; auto; lia].
      intros t1 k' Hk' E1. apply in_seq in Hk'.
      apply (fold_reach _ (fun t => t a0 = v0)); [|left; auto].
      intros t2 ell' Hl' E2. apply in_seq in Hl'. apply K; auto; lia.
    - right. exists i. split; [apply in_seq; lia|]. intros t.
      apply (fold_reach _ (fun t => t a0 = v0)).
      + intros t1 k' Hk' E1. apply in_seq in Hk'.
        apply (fold_reach _ (fun t => t a0 = v0)); [|left; auto].
        intros t2 ell' Hl' E2. apply in_seq in Hl'. apply K; auto; lia.
      + destruct (Nat.eq_dec k 0) as [->|].
        * left. rewrite (H0 eq_refl) in *. unfold a0. unfold fset. now rewrite Nat.eqb_refl.
        * right. exists k. split; [apply in_seq; lia|]. intros t1.
          apply (fold_reach _ (fun t => t a0 = v0)).
          -- intros t2 ell' Hl' E2. apply in_seq in Hl'. apply K; auto; lia.
          -- right. exists ell. split; [apply in_seq; lia|]. intros t2. unfold a0, fset. now rewrite Nat.eqb_refl.
  Qed.

  (** coefficients of the orders that are kept by a change of capacity *)
  Lemma capacity2_spec (f f' : adq b) c r : capacity2 junk f c r = Some f' ->
    d_ord f <= d_cap f -> (d_cap f = 0 -> d_ord f = 0) ->
    d_cap f' = c /\ d_dir f' = r /\ d_ord f' = Nat.min (d_ord f) c /\
    (forall i k ell, i < r_nvar (d_rec f) -> k < d_ord f' -> (k = 0 -> ell = 0) -> (0 < k -> ell < d_dir f) ->
       d_tay f' (tidx c r i k ell) = d_tay f (tidx (d_cap f) (d_dir f) i k ell)) /\
    d_rec f' = d_rec f /\ d_n f' = d_n f /\ d_dep f' = d_dep f /\ d_par f' = d_par f /\
    d_l2v f' = d_l2v f /\ d_cc f' = d_cc f /\ d_num f' = d_num f /\ d_opi f' = d_opi f /\ d_skip f' = d_skip f.
  Proof.
    unfold capacity2. intros H Hc H0.
    destruct (Nat.eqb_spec c (d_cap f)) as [->|Hne]; cbn [andb] in H.
    - destruct (Nat.eqb_spec r (d_dir f)) as [Er|Hnr].
      + injection H as <-; rewrite Er. repeat split; auto. lia.
      + destruct (Nat.eqb_spec (d_cap f) 0).
        * destruct (Nat.eqb_spec r 0); [|discriminate]. injection H as <-. cbn [set_tay d_cap d_dir d_ord d_tay d_rec d_n d_dep d_par d_l2v d_cc d_num d_opi d_skip]. repeat split; auto; try lia.
        * cbn [orb] in H. destruct (Nat.leb_spec (d_ord f) 1) as [Q|]; [|discriminate]. cbn [negb] in H.
          injection H as <-. cbn [set_tay d_cap d_dir d_ord d_tay d_rec d_n d_dep d_par d_l2v d_cc d_num d_opi d_skip]. repeat split; auto; try lia.
          intros i k ell Hi Hk A B. destruct (Nat.ltb_spec 0 (Nat.min (d_ord f) (d_cap f))); [|lia].
          apply copy_tay_spec; auto; lia.
    - destruct (Nat.eqb_spec c 0) as [->|].
      + destruct (Nat.eqb_spec r 0); [|discriminate]. injection H as <-. cbn [set_tay d_cap d_dir d_ord d_tay d_rec d_n d_dep d_par d_l2v d_cc d_num d_opi d_skip]. repeat split; auto; lia.
      + destruct ((r =? d_dir f) || (d_ord f <=? 1)) eqn:Q; [|discriminate]. cbn [negb] in H.
        injection H as <-. cbn [set_tay d_cap d_dir d_ord d_tay d_rec d_n d_dep d_par d_l2v d_cc d_num d_opi d_skip]. repeat split; auto.
        intros i k ell Hi Hk A B. destruct (Nat.ltb_spec 0 (Nat.min (d_ord f) c)); [|lia].
        apply copy_tay_spec; auto; try lia. apply orb_true_iff in Q as [Q|Q].
        -- apply Nat.eqb_eq in Q. auto. -- apply Nat.leb_le in Q. lia.
  Qed.

  Lemma tidx1 C i k : 0 < C -> tidx C 1 i k 0 = C * i + k.
  Proof.
    intros H. unfold tidx. replace ((C - 1) * 1 + 1) with C by lia.
    destruct (Nat.eqb_spec k 0); lia.
  Qed.
  Lemma flat1_view C (V : nat -> nat -> T) i k : k < C -> flat1 C V (C * i + k) = V i k.
  Proof.
    intros H. unfold flat1. rewrite (Nat.mul_comm C i).
    rewrite Nat.div_add_l, Nat.div_small, Nat.add_0_r by lia.
    rewrite Nat.add_comm, Nat.mod_add, Nat.mod_small by lia. reflexivity.
  Qed.
End Drv.
