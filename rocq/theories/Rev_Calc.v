(** Reverse mode: derivatives in one parameter h, and the pairing of partials with
    derivatives. *)
From Coq Require Import Reals ZArith Lra Lia List Bool Arith.
From Coquelicot Require Import Coquelicot.
From Verif Require Import Base_Spec Op_Model Tape_Spec Tape_Model Tape_Proof Tape_Proof2 Sweep_Model Sweep_Eqs Sweep_Eqs2 Real_Base Tay_Calc Tay_Sub.
Import ListNotations.
Open Scope R_scope.

(** ** derivative at h = 0 *)
Definition isd (f : R -> R) (l : R) : Prop := is_derive f 0 l.
Lemma isd_eq f l l' : isd f l -> l = l' -> isd f l'.
Proof. intros H <-. exact H. Qed.
Lemma isd_uniq f l l' : isd f l -> isd f l' -> l = l'.
Proof. intros H K. rewrite <- (is_derive_unique _ _ _ H). now apply is_derive_unique. Qed.
Lemma isd_loc f g l : locally 0 (fun h => f h = g h) -> isd g l -> isd f l.
Proof. intros H K. apply is_derive_ext_loc with g; auto. generalize H. apply filter_imp. auto. Qed.
Lemma isd_const c : isd (fun _ => c) 0.
Proof. apply (is_derive_const c). Qed.
Lemma isd_plus f g f' g' : isd f f' -> isd g g' -> isd (fun h => f h + g h) (f' + g').
Proof. apply (is_derive_plus f g). Qed.
Lemma isd_minus f g f' g' : isd f f' -> isd g g' -> isd (fun h => f h - g h) (f' - g').
Proof. apply (is_derive_minus f g). Qed.
Lemma isd_opp f f' : isd f f' -> isd (fun h => - f h) (- f').
Proof. apply (is_derive_opp f). Qed.
Lemma isd_mult f g f' g' : isd f f' -> isd g g' -> isd (fun h => f h * g h) (f' * g 0 + f 0 * g').
Proof. intros H K. apply (is_derive_mult f g 0 f' g'); auto. intros; apply Rmult_comm. Qed.
Lemma isd_scal c f f' : isd f f' -> isd (fun h => c * f h) (c * f').
Proof. intros H. eapply isd_eq; [apply isd_mult; [apply (isd_const c)|exact H]|]. cbn. ring. Qed.
Lemma isd_div f g f' g' : isd f f' -> isd g g' -> g 0 <> 0 ->
  isd (fun h => f h / g h) ((f' - f 0 / g 0 * g') / g 0).
Proof.
  intros H K N. eapply isd_eq; [apply (is_derive_div f g 0 f' g'); auto|]. cbn. field. auto.
Qed.
Lemma isd_divc f c f' : isd f f' -> isd (fun h => f h / c) (f' / c).
Proof. intros H. unfold Rdiv. eapply isd_eq; [apply isd_mult; [exact H|apply (isd_const (/ c))]|]. cbn. ring. Qed.
Lemma isd_comp g f f' g' : is_derive g (f 0) g' -> isd f f' -> isd (fun h => g (f h)) (g' * f').
Proof.
  intros H K. eapply isd_eq; [apply (is_derive_comp g f 0 g' f'); auto|]. unfold scal; cbn. unfold mult; cbn. ring.
Qed.
Lemma isd_sumR lo hi (f : nat -> R -> R) (f' : nat -> R) : (forall k, (lo <= k < hi)%nat -> isd (f k) (f' k)) ->
  isd (fun h => sumR lo hi (fun k => f k h)) (sumR lo hi f').
Proof.
  destruct (Nat.le_gt_cases lo hi) as [H|H]; intros K.
  2:{ apply isd_loc with (fun _ => 0); [apply all_loc; intros; apply sumR_nil; lia|]. rewrite sumR_nil by lia. apply isd_const. }
  induction H.
  - apply isd_loc with (fun _ => 0); [apply all_loc; intros; apply sumR_nil; lia|]. rewrite sumR_nil by lia. apply isd_const.
  - apply isd_loc with (fun h => sumR lo m (fun k => f k h) + f m h); [apply all_loc; intros; now rewrite sumR_lst|].
    rewrite sumR_lst by auto. apply isd_plus; [apply IHle; intros; apply K; lia|apply K; lia].
Qed.
Lemma frozen_isd (f : R -> R) : frozen f -> isd f 0.
Proof. intros H. apply isd_loc with (fun _ => f 0); auto. apply isd_const. Qed.

(** ** sums *)
Lemma sumR_plus lo hi f g : sumR lo hi (fun k => f k + g k) = sumR lo hi f + sumR lo hi g.
Proof.
  destruct (Nat.le_gt_cases lo hi) as [H|H]; [|rewrite !sumR_nil by lia; ring].
  induction H; [rewrite !sumR_nil by lia; ring|]. rewrite !sumR_lst by auto. rewrite IHle. ring.
Qed.
Lemma sumR_zero lo hi f : (forall k, (lo <= k < hi)%nat -> f k = 0) -> sumR lo hi f = 0.
Proof.
  intros H. rewrite (sumR_ext lo hi f (fun _ => 0 * 0)) by (intros; rewrite H by auto; ring). rewrite sumR_mul. ring.
Qed.
Lemma sumR_split lo mid hi f : (lo <= mid <= hi)%nat -> sumR lo hi f = sumR lo mid f + sumR mid hi f.
Proof.
  intros [H1 H2]. induction H2; [rewrite (sumR_nil mid mid) by lia; ring|].
  rewrite !(sumR_lst) by lia. rewrite IHle. ring.
Qed.
(** k -> j - k *)
Lemma sumR_rev j f : sumR 1 j (fun k => f (Nat.sub j k)) = sumR 1 j f.
Proof.
  assert (forall m a, (m <= a)%nat -> sumR (S a - m) (S a) (fun k => f (Nat.sub (S a) k)) = sumR 1 (S m) f) as K.
  { induction m as [|m IH]; intros a Ha; [rewrite !sumR_nil by lia; auto|].
    rewrite sumR_fst by lia. replace (S (S a - S m)) with (S a - m)%nat by lia. rewrite IH by lia.
    rewrite (sumR_lst 1 (S m)) by lia. replace (S a - (S a - S m))%nat with (S m) by lia. ring. }
  destruct j as [|j]; [now rewrite !sumR_nil by lia|].
  rewrite <- (K j j) by lia. now replace (S j - j)%nat with 1%nat by lia.
Qed.

(** ** the pairing *)
Section Pair.
  Variable dis : nat -> R -> R.
  Variable nan : R.
  Notation b := (Rbase dis nan).
  Notation pset := (pset (b:=b)).
  Notation padd := (padd (b:=b)).
  Notation psub := (psub (b:=b)).
  Variable d : nat.

  Definition pair (N : nat) (W p : nat -> nat -> R) : R :=
    sumR 1 N (fun i => sumR 0 (S d) (fun k => p i k * W i k)).

  Lemma sumR_one lo hi f k0 : (lo <= k0 < hi)%nat -> (forall k, (lo <= k < hi)%nat -> k <> k0 -> f k = 0) ->
    sumR lo hi f = f k0.
  Proof.
    intros H K. rewrite (sumR_split lo k0 hi) by lia. rewrite (sumR_fst k0 hi) by lia.
    rewrite (sumR_zero lo k0), (sumR_zero (S k0) hi) by (intros; apply K; lia). ring.
  Qed.
  Lemma pair_set N W p v k x : (0 < v < N)%nat -> (k <= d)%nat ->
    pair N W (pset p v k x) = pair N W p + (x - p v k) * W v k.
  Proof.
    intros Hv Hk. unfold pair.
    transitivity (sumR 1 N (fun i => sumR 0 (S d) (fun q => p i q * W i q) +
       (if (i =? v)%nat then (x - p v k) * W v k else 0))).
    - apply sumR_ext. intros i Hi. destruct (Nat.eqb_spec i v) as [->|Ne].
      + transitivity (sumR 0 (S d) (fun q => p v q * W v q + (if (q =? k)%nat then (x - p v k) * W v k else 0))).
        * apply sumR_ext. intros q Hq. unfold Sweep_Model.pset. rewrite Nat.eqb_refl. cbn [andb].
          destruct (Nat.eqb_spec q k) as [->|]; ring.
        * rewrite sumR_plus. f_equal. rewrite (sumR_one 0 (S d) _ k); [now rewrite Nat.eqb_refl|lia|].
          intros q _ Nq. destruct (Nat.eqb_spec q k); [contradiction|auto].
      + rewrite Rplus_0_r. apply sumR_ext. intros q Hq. unfold Sweep_Model.pset.
        destruct (Nat.eqb_spec i v); [contradiction|]. auto.
    - rewrite sumR_plus. f_equal. rewrite (sumR_one 1 N _ v); [now rewrite Nat.eqb_refl|lia|].
      intros i _ Ni. destruct (Nat.eqb_spec i v); [contradiction|auto].
  Qed.
  Lemma pair_add N W p v k x : (0 < v < N)%nat -> (k <= d)%nat -> pair N W (padd v k x p) = pair N W p + x * W v k.
  Proof. intros. unfold Sweep_Model.padd. rewrite pair_set by auto. cbn. ring. Qed.
  Lemma pair_sub N W p v k x : (0 < v < N)%nat -> (k <= d)%nat -> pair N W (psub v k x p) = pair N W p - x * W v k.
  Proof. intros. unfold Sweep_Model.psub. rewrite pair_set by auto. cbn. ring. Qed.
  Lemma pair_off N W p v k x : (0 < v < N)%nat -> (k <= d)%nat -> W v k = 0 -> pair N W (pset p v k x) = pair N W p.
  Proof. intros. rewrite pair_set by auto. rewrite H1. ring. Qed.
  Lemma pair_W N W W' p : (forall i k, (0 < i < N)%nat -> (k <= d)%nat -> p i k * W i k = p i k * W' i k) -> pair N W p = pair N W' p.
  Proof. intros H. apply sumR_ext. intros i Hi. apply sumR_ext. intros k Hk. apply H; lia. Qed.
  Lemma pair_p N W p p' : (forall i k, (0 < i < N)%nat -> (k <= d)%nat -> p i k = p' i k) -> pair N W p = pair N W p'.
  Proof. intros H. apply sumR_ext. intros i Hi. apply sumR_ext. intros k Hk. rewrite H; auto; lia. Qed.
  (** removing one element *)
  Lemma pair_drop N W W' p v k : (0 < v < N)%nat -> (k <= d)%nat ->
    (forall i q, (0 < i < N)%nat -> (q <= d)%nat -> (i, q) <> (v, k) -> W i q = W' i q) ->
    W' v k = 0 -> pair N W p = pair N W' p + p v k * W v k.
  Proof.
    intros Hv Hk HW H0.
    transitivity (pair N W (pset p v k 0) + p v k * W v k); [rewrite pair_set by auto; ring|]. f_equal.
    transitivity (pair N W' (pset p v k 0)); [|now apply pair_off].
    apply pair_W. intros i q Hi Hq. unfold Sweep_Model.pset.
    destruct (Nat.eqb_spec i v) as [->|]; [destruct (Nat.eqb_spec q k) as [->|]|]; cbn [andb]; try ring; f_equal; apply HW; auto; congruence.
  Qed.

  Lemma loop_pair {A} (F : A -> R) lo hi (f : nat -> A -> A) (I : A -> Prop) (g : nat -> R) p : I p ->
    (forall k p, (lo <= k < hi)%nat -> I p -> I (f k p) /\ F (f k p) = F p + g k) ->
    I (loop lo hi f p) /\ F (loop lo hi f p) = F p + sumR lo hi g.
  Proof.
    intros H0 H. destruct (Nat.le_gt_cases lo hi) as [L|L]; [|rewrite lp_nil, sumR_nil by lia; split; [auto|ring]].
    induction L; [rewrite lp_nil, sumR_nil by lia; split; [auto|ring]|].
    destruct IHL as [I1 E1]; [intros; apply H; auto; lia|].
    rewrite lp_lst, sumR_lst by auto. destruct (H m _ ltac:(lia) I1) as [I2 E2]. split; auto. rewrite E2, E1. ring.
  Qed.
  Lemma fold_down {A} (F : nat -> A -> R) (I : nat -> A -> Prop) (f : nat -> A -> A) lo n p :
    I (lo + n)%nat p ->
    (forall j p, (lo <= j < lo + n)%nat -> I (S j) p -> I j (f j p) /\ F j (f j p) = F (S j) p) ->
    I lo (fold_left (fun p j => f j p) (rev (seq lo n)) p) /\
    F lo (fold_left (fun p j => f j p) (rev (seq lo n)) p) = F (lo + n)%nat p.
  Proof.
    revert lo p. induction n as [|n IH]; intros lo p H0 H; cbn [seq rev fold_left]; [rewrite Nat.add_0_r in *; auto|].
    rewrite fold_left_app. cbn [fold_left].
    destruct (IH (S lo) p) as [I1 E1]; [now replace (S lo + n)%nat with (lo + S n)%nat by lia|intros; apply H; auto; lia|].
    destruct (H lo _ ltac:(lia) I1) as [I2 E2]. split; auto. rewrite E2, E1. f_equal; lia.
  Qed.
End Pair.
