(** Reverse mode of one elementary loop: linearised recurrences and their transposes. *)
From Coq Require Import Reals ZArith Lra Lia List Bool Arith.
From Coquelicot Require Import Coquelicot.
From Verif Require Import Base_Spec Op_Model Tape_Spec Tape_Model Tape_Proof Tape_Proof2 Sweep_Model Sweep_Eqs Sweep_Eqs2 Real_Base Tay_Calc Tay_Sub Rev_Calc.
Import ListNotations.
Open Scope R_scope.

Section RevSub.
  Variable dis : nat -> R -> R.
  Variable nan : R.
  Notation b := (Rbase dis nan).
  Variable P : nat -> R.
  (** the Taylor coefficients as a function of one parameter h *)
  Variable Vh : R -> nat -> nat -> R.
  Notation V := (Vh 0).
  Variable d : nat.
  Notation pset := (pset (b:=b)).
  Notation padd := (padd (b:=b)).
  Notation psub := (psub (b:=b)).
  Notation down1 := (down1 (b:=b)).
  Notation down0 := (down0 (b:=b)).

  Definition ok (i k : nat) : Prop := ex_derive (fun h => Vh h i k) 0.
  Definition dV (i k : nat) : R := Derive (fun h => Vh h i k) 0.
  Lemma okd i k : ok i k -> isd (fun h => Vh h i k) (dV i k).
  Proof. intros H. apply Derive_correct. exact H. Qed.
  Lemma isd_ok i k l : isd (fun h => Vh h i k) l -> ok i k /\ dV i k = l.
  Proof. intros H. split; [now exists l|]. now apply is_derive_unique. Qed.

  Lemma solve1 r (E : nat -> R) :
    (forall j, (j <= d)%nat -> (forall k, (k < j)%nat -> ok r k) -> isd (fun h => Vh h r j) (E j)) ->
    (forall j, (j <= d)%nat -> ok r j) /\ (forall j, (j <= d)%nat -> dV r j = E j).
  Proof.
    intros H.
    assert (forall n j, (j < n)%nat -> (j <= d)%nat -> ok r j) as K.
    { induction n as [|n IH]; intros j H1 H2; [lia|].
      refine (proj1 (isd_ok _ _ _ (H j H2 _))). intros k Hk. apply IH; lia. }
    assert (forall j, (j <= d)%nat -> ok r j) as K' by (intros; apply (K (S j)); lia).
    split; auto. intros j Hj. apply (isd_ok _ _ _ (H j Hj (fun k Hk => K' k ltac:(lia)))).
  Qed.
  Lemma solve2 r z (E E2 : nat -> R) :
    (forall j, (j <= d)%nat -> (forall k, (k < j)%nat -> ok r k) -> (forall k, (k < j)%nat -> ok z k) -> isd (fun h => Vh h r j) (E j)) ->
    (forall j, (j <= d)%nat -> (forall k, (k < j)%nat -> ok r k) -> (forall k, (k < j)%nat -> ok z k) -> isd (fun h => Vh h z j) (E2 j)) ->
    (forall j, (j <= d)%nat -> ok r j /\ ok z j) /\ (forall j, (j <= d)%nat -> dV r j = E j /\ dV z j = E2 j).
  Proof.
    intros H H2.
    assert (forall n j, (j < n)%nat -> (j <= d)%nat -> ok r j /\ ok z j) as K.
    { induction n as [|n IH]; intros j L1 L2; [lia|]. split.
      - refine (proj1 (isd_ok _ _ _ (H j L2 _ _))); intros k Hk; apply IH; lia.
      - refine (proj1 (isd_ok _ _ _ (H2 j L2 _ _))); intros k Hk; apply IH; lia. }
    assert (forall j, (j <= d)%nat -> ok r j /\ ok z j) as K' by (intros; apply (K (S j)); lia).
    split; auto. intros j Hj. split.
    - apply (isd_ok _ _ _ (H j Hj (fun k Hk => proj1 (K' k ltac:(lia))) (fun k Hk => proj2 (K' k ltac:(lia))))).
    - apply (isd_ok _ _ _ (H2 j Hj (fun k Hk => proj1 (K' k ltac:(lia))) (fun k Hk => proj2 (K' k ltac:(lia))))).
  Qed.

  (** ** eliminating the orders of the results *)
  Definition Wm (r c1 c2 : nat) (i k : nat) : R :=
    if (i <? r)%nat then dV i k else if (i =? r)%nat then (if (k <? c1)%nat then dV i k else 0)
    else (if (k <? c2)%nat then dV i k else 0).
  Lemma Wm_arg r c1 c2 i k : (i < r)%nat -> Wm r c1 c2 i k = dV i k.
  Proof. intros. unfold Wm. destruct (Nat.ltb_spec i r); [auto|lia]. Qed.
  Lemma Wm_r r c1 c2 k : (k < c1)%nat -> Wm r c1 c2 r k = dV r k.
  Proof. intros. unfold Wm. rewrite Nat.ltb_irrefl, Nat.eqb_refl. destruct (Nat.ltb_spec k c1); [auto|lia]. Qed.
  Lemma Wm_z r c1 c2 k : (k < c2)%nat -> Wm r c1 c2 (S r) k = dV (S r) k.
  Proof.
    intros. unfold Wm. destruct (Nat.ltb_spec (S r) r); [lia|]. destruct (Nat.eqb_spec (S r) r); [lia|].
    destruct (Nat.ltb_spec k c2); [auto|lia].
  Qed.
  Lemma Wm_r0 r c1 c2 k : (c1 <= k)%nat -> Wm r c1 c2 r k = 0.
  Proof. intros. unfold Wm. rewrite Nat.ltb_irrefl, Nat.eqb_refl. destruct (Nat.ltb_spec k c1); [lia|auto]. Qed.
  Lemma Wm_z0 r c1 c2 k : (c2 <= k)%nat -> Wm r c1 c2 (S r) k = 0.
  Proof.
    intros. unfold Wm. destruct (Nat.ltb_spec (S r) r); [lia|]. destruct (Nat.eqb_spec (S r) r); [lia|].
    destruct (Nat.ltb_spec k c2); [lia|auto].
  Qed.

  Definition F1 r j p := pair d (S r) (Wm r j 0) p.
  Definition F2 r c1 c2 p := pair d (S (S r)) (Wm r c1 c2) p.
  Lemma F1_S r j p : (0 < r)%nat -> (j <= d)%nat -> F1 r (S j) p = F1 r j p + p r j * dV r j.
  Proof.
    intros Hr Hj. unfold F1. rewrite (pair_drop dis nan d (S r) (Wm r (S j) 0) (Wm r j 0) p r j); try lia.
    - now rewrite Wm_r by lia.
    - intros i q Hi Hq N. destruct (Nat.eq_dec i r) as [->|Ni]; [|now rewrite !Wm_arg by lia].
      assert (q <> j) by congruence. destruct (Nat.lt_ge_cases q j).
      + now rewrite !Wm_r by lia.
      + now rewrite !Wm_r0 by lia.
    - now rewrite Wm_r0 by lia.
  Qed.
  Lemma F1_top r p : (0 < r)%nat -> F1 r (S d) p = pair d (S r) dV p.
  Proof.
    intros. apply pair_W. intros i k Hi Hk. f_equal.
    destruct (Nat.eq_dec i r) as [->|Ni]; [now rewrite Wm_r by lia|now rewrite Wm_arg by lia].
  Qed.
  Lemma F1_bot r p : (0 < r)%nat -> F1 r 0 p = pair d r dV p.
  Proof.
    intros. unfold F1, pair. rewrite sumR_lst by lia. rewrite (sumR_zero 0 (S d)).
    - rewrite Rplus_0_r. apply sumR_ext. intros i Hi. apply sumR_ext. intros k Hk. f_equal. apply Wm_arg. lia.
    - intros k Hk. rewrite Wm_r0 by lia. ring.
  Qed.
  Lemma F2_r r c1 c2 p : (0 < r)%nat -> (c1 <= d)%nat -> F2 r (S c1) c2 p = F2 r c1 c2 p + p r c1 * dV r c1.
  Proof.
    intros Hr Hj. unfold F2. rewrite (pair_drop dis nan d (S (S r)) (Wm r (S c1) c2) (Wm r c1 c2) p r c1); try lia.
    - now rewrite Wm_r by lia.
    - intros i q Hi Hq N. destruct (Nat.eq_dec i r) as [->|Ni].
      + assert (q <> c1) by congruence. destruct (Nat.lt_ge_cases q c1).
        * now rewrite !Wm_r by lia.
        * now rewrite !Wm_r0 by lia.
      + destruct (Nat.eq_dec i (S r)) as [->|Nz]; [|now rewrite !Wm_arg by lia].
        destruct (Nat.lt_ge_cases q c2); [now rewrite !Wm_z by lia|now rewrite !Wm_z0 by lia].
    - now rewrite Wm_r0 by lia.
  Qed.
  Lemma F2_z r c1 c2 p : (0 < r)%nat -> (c2 <= d)%nat -> F2 r c1 (S c2) p = F2 r c1 c2 p + p (S r) c2 * dV (S r) c2.
  Proof.
    intros Hr Hj. unfold F2. rewrite (pair_drop dis nan d (S (S r)) (Wm r c1 (S c2)) (Wm r c1 c2) p (S r) c2); try lia.
    - now rewrite Wm_z by lia.
    - intros i q Hi Hq N. destruct (Nat.eq_dec i r) as [->|Ni].
      + destruct (Nat.lt_ge_cases q c1); [now rewrite !Wm_r by lia|now rewrite !Wm_r0 by lia].
      + destruct (Nat.eq_dec i (S r)) as [->|Nz]; [|now rewrite !Wm_arg by lia].
        assert (q <> c2) by congruence.
        destruct (Nat.lt_ge_cases q c2); [now rewrite !Wm_z by lia|now rewrite !Wm_z0 by lia].
    - now rewrite Wm_z0 by lia.
  Qed.
  Lemma F2_top r p : (0 < r)%nat -> F2 r (S d) (S d) p = pair d (S (S r)) dV p.
  Proof.
    intros. apply pair_W. intros i k Hi Hk. f_equal.
    destruct (Nat.eq_dec i r) as [->|Ni]; [now rewrite Wm_r by lia|].
    destruct (Nat.eq_dec i (S r)) as [->|Nz]; [now rewrite Wm_z by lia|now rewrite Wm_arg by lia].
  Qed.
  Lemma F2_bot r p : (0 < r)%nat -> F2 r 0 0 p = pair d r dV p.
  Proof.
    intros. unfold F2, pair. rewrite (sumR_lst 1 (S r)), (sumR_lst 1 r) by lia.
    rewrite (sumR_zero 0 (S d) (fun k => p r k * Wm r 0 0 r k)), (sumR_zero 0 (S d) (fun k => p (S r) k * Wm r 0 0 (S r) k)).
    - rewrite !Rplus_0_r. apply sumR_ext. intros i Hi. apply sumR_ext. intros k Hk. f_equal. apply Wm_arg. lia.
    - intros k Hk. rewrite Wm_z0 by lia. ring.
    - intros k Hk. rewrite Wm_r0 by lia. ring.
  Qed.

  Lemma down0_1 r f p : (0 < r)%nat -> (forall j p, (j <= d)%nat -> F1 r j (f j p) = F1 r j p + p r j * dV r j) ->
    pair d r dV (down0 d f p) = pair d (S r) dV p.
  Proof.
    intros Hr H. rewrite <- F1_bot, <- F1_top by auto. unfold Sweep_Model.down0.
    apply (fold_down (F1 r) (fun _ _ => True) f 0 (S d) p); auto.
    intros j q Hj _. split; auto. rewrite H by lia. symmetry. apply F1_S; lia.
  Qed.
  Lemma down1_1 r f fin p : (0 < r)%nat -> (forall j p, (1 <= j <= d)%nat -> F1 r j (f j p) = F1 r j p + p r j * dV r j) ->
    (forall p, F1 r 0 (fin p) = F1 r 0 p + p r 0%nat * dV r 0) ->
    pair d r dV (fin (down1 d f p)) = pair d (S r) dV p.
  Proof.
    intros Hr H K. rewrite <- F1_bot, <- F1_top by auto. rewrite K, <- F1_S by lia. unfold Sweep_Model.down1.
    apply (fold_down (F1 r) (fun _ _ => True) f 1 d p); auto.
    intros j q Hj _. split; auto. rewrite H by lia. symmetry. apply F1_S; lia.
  Qed.
  Lemma down1_2 r f fin p : (0 < r)%nat ->
    (forall j p, (1 <= j <= d)%nat -> F2 r j j (f j p) = F2 r j j p + p r j * dV r j + p (S r) j * dV (S r) j) ->
    (forall p, F2 r 0 0 (fin p) = F2 r 0 0 p + p r 0%nat * dV r 0 + p (S r) 0%nat * dV (S r) 0) ->
    pair d r dV (fin (down1 d f p)) = pair d (S (S r)) dV p.
  Proof.
    intros Hr H K. rewrite <- F2_bot, <- F2_top by auto. rewrite K, <- F2_r, <- F2_z by lia. unfold Sweep_Model.down1.
    apply (fold_down (fun j => F2 r j j) (fun _ _ => True) f 1 d p); auto.
    intros j q Hj _. split; auto. rewrite H by lia. rewrite F2_z, F2_r by lia. ring.
  Qed.

  Lemma F1_add r j p v k x : (0 < v < S r)%nat -> (k <= d)%nat -> F1 r j (padd v k x p) = F1 r j p + x * Wm r j 0 v k.
  Proof. apply pair_add. Qed.
  Lemma F1_sub r j p v k x : (0 < v < S r)%nat -> (k <= d)%nat -> F1 r j (psub v k x p) = F1 r j p - x * Wm r j 0 v k.
  Proof. apply pair_sub. Qed.
  Lemma F1_set r j p k x : (0 < r)%nat -> (j <= k <= d)%nat -> F1 r j (pset p r k x) = F1 r j p.
  Proof. intros. apply pair_off; try lia. apply Wm_r0. lia. Qed.
  Lemma F2_add r j c p v k x : (0 < v < S (S r))%nat -> (k <= d)%nat -> F2 r j c (padd v k x p) = F2 r j c p + x * Wm r j c v k.
  Proof. apply pair_add. Qed.
  Lemma F2_sub r j c p v k x : (0 < v < S (S r))%nat -> (k <= d)%nat -> F2 r j c (psub v k x p) = F2 r j c p - x * Wm r j c v k.
  Proof. apply pair_sub. Qed.
  Lemma F2_setr r j c p k x : (0 < r)%nat -> (j <= k <= d)%nat -> F2 r j c (pset p r k x) = F2 r j c p.
  Proof. intros. apply pair_off; try lia. apply Wm_r0. lia. Qed.
  Lemma F2_setz r j c p k x : (0 < r)%nat -> (c <= k <= d)%nat -> F2 r j c (pset p (S r) k x) = F2 r j c p.
  Proof. intros. apply pair_off; try lia. apply Wm_z0. lia. Qed.
  Lemma pset_ne p v k x v' k' : v' <> v \/ k' <> k -> pset p v k x v' k' = p v' k'.
  Proof.
    intros H. unfold Sweep_Model.pset. destruct (Nat.eqb_spec v' v), (Nat.eqb_spec k' k); cbn [andb]; auto. lia.
  Qed.
  Lemma pset_eq p v k x : pset p v k x v k = x.
  Proof. unfold Sweep_Model.pset. now rewrite !Nat.eqb_refl. Qed.
  Lemma padd_ne p v k x v' k' : v' <> v \/ k' <> k -> padd v k x p v' k' = p v' k'.
  Proof. apply pset_ne. Qed.
  Lemma psub_ne p v k x v' k' : v' <> v \/ k' <> k -> psub v k x p v' k' = p v' k'.
  Proof. apply pset_ne. Qed.
  Lemma psub_padd v k x p : psub v k x p = padd v k (- x) p.
  Proof. reflexivity. Qed.
End RevSub.
