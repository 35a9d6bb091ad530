From Coq Require Import Reals Lra Lia List Arith Bool FunctionalExtensionality.
From Coquelicot Require Import Coquelicot.
From Verif Require Import Quad_Model Quad_Spec Quad_Proof.
Import ListNotations.
Open Scope R_scope.

Lemma INR_neq n : (0 < n)%nat -> INR n <> 0.
Proof. intros. apply not_0_INR. lia. Qed.
Section Romb.
  Variable F : R -> R.
  Variables a b : R.
  Definition gg (t : R) := F (a + (b - a) * t).
  Definition tr (N : nat) := (b - a) * tz gg N.
  Lemma tr_trapezoid N : (0 < N)%nat -> tr N = trapezoid F a b N.
  Proof.
    intros H. pose proof (INR_neq N H). unfold tr, trapezoid, tz. rewrite <- Rmult_assoc, <- sumn_scal. apply sumn_ext. intros k Hk. unfold gg.
    replace (a + (b - a) * (INR k / INR N)) with (a + (b - a) * INR k / INR N) by (field; auto).
    replace (a + (b - a) * (INR (S k) / INR N)) with (a + (b - a) * INR (S k) / INR N) by (field; auto). rewrite S_INR. field. auto.
  Qed.
  Lemma tr_1 : tr 1 = (F a + F b) * (b - a) / 2.
  Proof.
    unfold tr, tz, gg. cbn [sumn]. change (INR 0) with 0. change (INR 1) with 1. replace (a + (b - a) * (0 / 1)) with a by field. replace (a + (b - a) * (1 / 1)) with b by field. field.
  Qed.
  Lemma tr_double N : (0 < N)%nat ->
    tr (N * 2) = tr N / 2 + fold_left (fun sum k => sum + F (((INR (N * 2) - INR k) * a + INR k * b) / INR (N * 2))) (odd_below (N * 2)) 0 * (b - a) / INR (N * 2).
  Proof.
    intros H. unfold odd_below. rewrite Nat.div_mul by lia.
    set (f k := F (((INR (N * 2) - INR k) * a + INR k * b) / INR (N * 2))).
    assert (forall l z, fold_left (fun sum k => sum + f k) (map (fun j => (1 + 2 * j)%nat) l) z = fold_left (fun sum j => sum + f (1 + 2 * j)%nat) l z) as FM
      by (induction l; intros; cbn [fold_left map]; auto).
    rewrite FM, (fold_sumn (fun j => f (1 + 2 * j)%nat)). rewrite (sumn_ext N (fun k => f (1 + 2 * (0 + k))%nat) (fun k => f (S (2 * k)))) by reflexivity. set (SO := sumn N (fun k => f (S (2 * k)))).
    pose proof (INR_neq N H). assert (INR (N * 2) = 2 * INR N) as E2 by (rewrite mult_INR; cbn; ring).
    assert (G2 : forall k, gg (INR k / INR (N * 2)) = f k). { intros k. unfold gg, f. f_equal. rewrite E2. field. auto. }
    assert (G1 : forall k, gg (INR k / INR N) = f (2 * k)%nat). { intros k. rewrite <- G2. f_equal. rewrite E2, mult_INR. change (INR 2) with 2. field. auto. }
    unfold tr, tz. replace (N * 2)%nat with (2 * N)%nat at 2 by lia. rewrite sumn_even.
    rewrite (sumn_ext N (fun k => (gg (INR (2 * k) / INR (N * 2)) + gg (INR (S (2 * k)) / INR (N * 2))) / 2 + _)
       (fun k => (gg (INR k / INR N) + gg (INR (S k) / INR N)) / 2 + f (S (2 * k)))).
    2:{ intros k Hk. rewrite !G2, !G1. replace (S (2 * k + 1)) with (2 * S k)%nat by lia. replace (2 * k + 1)%nat with (S (2 * k)) by lia. field. }
    rewrite sumn_plus, E2. fold SO. field. auto.
  Qed.
  Lemma refine_loop m : forall r, r O = tr 1 ->
    exists r', fold_left (refine F a b) (seq 1 m) (1%nat, r) = ((2 ^ m)%nat, r') /\ forall j, (j <= m)%nat -> r' j = tr (2 ^ j).
  Proof.
    induction m as [|m IH]; intros r H.
    - exists r. split; [reflexivity|]. intros j Hj. replace j with O by lia. exact H.
    - destruct (IH r H) as (r1 & E & K). rewrite seq_S, fold_left_app, E. cbn [fold_left refine]. eexists. split; [f_equal; cbn; lia|].
      intros j Hj. unfold upd. destruct (Nat.eqb_spec j (1 + m)) as [->|Ne]; [|apply K; lia].
      replace (1 + m - 1)%nat with m by lia. rewrite K by lia. change (2 ^ (1 + m))%nat with (2 * 2 ^ m)%nat. rewrite (Nat.mul_comm 2 (2 ^ m)).
      symmetry. apply tr_double. assert (2 ^ m <> 0)%nat by (apply Nat.pow_nonzero; lia). lia.
  Qed.
End Romb.

(** Richardson extrapolation *)
Fixpoint ext (r : nat -> R) (i k : nat) : R :=
  match i with O => r k | S i' => (4 ^ i * ext r i' k - ext r i' (k - 1)%nat) / (4 ^ i - 1) end.
Lemma down_loop (f : R -> R -> R) m : forall i r j,
  fold_left (fun r k => upd r k (f (r k) (r (k - 1)%nat))) (rev (seq (S i) m)) r j
  = if ((i <? j) && (j <=? i + m))%nat then f (r j) (r (j - 1)%nat) else r j.
Proof.
  induction m as [|m IH]; intros i r j.
  - cbn [seq rev fold_left]. destruct (Nat.ltb_spec i j), (Nat.leb_spec j (i + 0)); cbn [andb]; auto; lia.
  - rewrite seq_S, rev_app_distr. cbn [rev app fold_left]. rewrite IH. unfold upd.
    destruct (Nat.ltb_spec i j); cbn [andb].
    + destruct (Nat.leb_spec j (i + m)).
      * destruct (Nat.leb_spec j (i + S m)); [|lia]. destruct (Nat.eqb_spec j (S i + m)), (Nat.eqb_spec (j - 1) (S i + m)); try lia. auto.
      * destruct (Nat.leb_spec j (i + S m)), (Nat.eqb_spec j (S i + m)); try lia; subst; auto.
    + destruct (Nat.eqb_spec j (S i + m)); [lia|auto].
Qed.
Lemma INR_pow4 i : INR (4 ^ i) = 4 ^ i.
Proof. rewrite pow_INR. f_equal. cbn. ring. Qed.
Lemma extrapolate_loop n p : forall r, exists r', fold_left (extrapolate n) (seq 0 p) (1%nat, r) = ((4 ^ p)%nat, r') /\
  forall k, (k < n)%nat -> r' k = ext r (Nat.min p k) k.
Proof.
  induction p as [|p IH]; intros r.
  - exists r. split; [reflexivity|]. intros. reflexivity.
  - destruct (IH r) as (r1 & E & K). rewrite seq_S, fold_left_app, E. cbn [fold_left extrapolate Nat.add]. eexists. split; [f_equal; cbn; lia|].
    intros k Hk. rewrite (down_loop (fun x y => (INR (4 ^ p * 4) * x - y) / INR (4 ^ p * 4 - 1)) (n - 1 - p)).
    destruct (Nat.ltb_spec p k), (Nat.leb_spec k (p + (n - 1 - p))); cbn [andb]; try lia.
    + rewrite !K by lia. rewrite (Nat.min_l p k), (Nat.min_l p (k - 1)), (Nat.min_l (S p) k) by lia.
      assert (4 ^ p <> 0)%nat by (apply Nat.pow_nonzero; lia). rewrite minus_INR by lia. change (INR 1) with 1.
      replace (4 ^ p * 4)%nat with (4 ^ S p)%nat by (cbn; lia). rewrite INR_pow4. reflexivity.
    + rewrite K by lia. rewrite !Nat.min_r by lia. reflexivity.
Qed.
Lemma pow4_gt1 i : 4 ^ S i - 1 > 0.
Proof. assert (1 <= 4 ^ i) by (apply pow_R1_Rle; lra). cbn [pow]. lra. Qed.
Fixpoint rho (i j : nat) : R := match i with O => 1 | S i' => rho i' j * (4 ^ i - 4 ^ j) / (4 ^ i - 1) end.
Lemma rho_0 i : rho i 0 = 1.
Proof. induction i; [reflexivity|]. cbn [rho]. rewrite IHi. pose proof (pow4_gt1 i). change (4 ^ 0) with 1. field. lra. Qed.
Lemma rho_z i j : (1 <= j <= i)%nat -> rho i j = 0.
Proof.
  induction i; intros H; [lia|]. cbn [rho]. destruct (Nat.eq_dec j (S i)) as [->|].
  - pose proof (pow4_gt1 i). field. lra.
  - rewrite IHi by lia. pose proof (pow4_gt1 i). field. lra.
Qed.
Lemma ext_poly c J r : (forall k, r k = sumn (S J) (fun j => c j * (/ 4 ^ k) ^ j)) ->
  forall i k, (i <= k)%nat -> ext r i k = sumn (S J) (fun j => rho i j * (c j * (/ 4 ^ k) ^ j)).
Proof.
  intros H. induction i; intros k Hk.
  - cbn [ext rho]. rewrite H. apply sumn_ext. intros. ring.
  - cbn [ext]. rewrite !IHi by lia. pose proof (pow4_gt1 i).
    transitivity (/ (4 ^ S i - 1) * (4 ^ S i * sumn (S J) (fun j => rho i j * (c j * (/ 4 ^ k) ^ j)) + - 1 * sumn (S J) (fun j => rho i j * (c j * (/ 4 ^ (k - 1)) ^ j)))).
    { field. lra. }
    rewrite <- !sumn_scal, <- sumn_plus, <- sumn_scal. apply sumn_ext. intros j Hj. cbn [rho].
    assert ((/ 4 ^ (k - 1)) ^ j = 4 ^ j * (/ 4 ^ k) ^ j) as ->.
    { rewrite <- Rpow_mult_distr. f_equal. destruct k as [|k]; [lia|]. replace (S k - 1)%nat with k by lia. cbn [pow].
      assert (4 ^ k <> 0) by (apply pow_nonzero; lra). field. auto. }
    field. lra.
Qed.
Lemma ext_exact c J r i k : (forall k, r k = sumn (S J) (fun j => c j * (/ 4 ^ k) ^ j)) -> (J <= i <= k)%nat -> ext r i k = c O.
Proof.
  intros H Hi. rewrite (ext_poly c J r H) by lia. rewrite sumn_first, rho_0. rewrite sumn_zero; [cbn; ring|].
  intros j Hj. rewrite rho_z by lia. ring.
Qed.
Lemma ext_ext r r' i : forall k, (forall j, (j <= k)%nat -> r j = r' j) -> ext r i k = ext r' i k.
Proof.
  induction i; intros k H; cbn [ext]; [apply H; lia|]. rewrite (IHi k H), (IHi (k - 1)%nat); [auto|]. intros; apply H; lia.
Qed.

(** all of RombergOne *)
Lemma romberg_value F a b n p : (2 <= n)%nat -> exists v e, romberg_one F a b n p = Some (v, e) /\
  v = ext (fun k => tr F a b (2 ^ k)) (Nat.min p (n - 1)) (n - 1) /\
  e = Rabs (v - ext (fun k => tr F a b (2 ^ k)) (Nat.min p (n - 2)) (n - 2)).
Proof.
  intros Hn. unfold romberg_one. destruct (Nat.ltb_spec n 2); [lia|].
  set (r0 := upd _ _ _). destruct (refine_loop F a b (n - 1) r0) as (r1 & E1 & K1).
  { unfold r0, upd. cbn. symmetry. apply tr_1. }
  rewrite E1. cbn [snd]. destruct (extrapolate_loop n p r1) as (r2 & E2 & K2). rewrite E2. cbn [snd].
  eexists _, _. split; [reflexivity|]. rewrite !K2 by lia. split.
  - apply ext_ext. intros; apply K1; lia.
  - rewrite (ext_ext r1 (fun k => tr F a b (2 ^ k)) _ (n - 2)) by (intros; apply K1; lia).
    destruct (Rlt_dec _ 0).
    + rewrite Rabs_left; auto.
    + rewrite Rabs_right; auto. lra.
Qed.
Lemma tr_poly F a b d : polynomial d F -> exists c, c O = RInt F a b /\ forall k, tr F a b (2 ^ k) = sumn (S (d / 2)) (fun j => c j * (/ 4 ^ k) ^ j).
Proof.
  intros (c & C). destruct (poly_affine c d a (b - a)) as (e & E).
  destruct (expands_poly e d) as (g & G0 & G). exists (fun j => (b - a) * g j). split.
  - rewrite G0. symmetry. apply is_RInt_unique.
    assert (is_RInt (fun y => scal (b - a) (F ((b - a) * y + a))) 0 1 (scal (b - a) (pint e d))) as K.
    { apply (is_RInt_scal (V:=R_NormedModule)). eapply is_RInt_ext; [|apply is_RInt_pval]. intros x _. cbn beta. rewrite <- E, C. f_equal. ring. }
    destruct (Req_dec a b) as [->|Ne].
    + replace ((b - b) * pint e d) with (zero : R) by (unfold zero; cbn; ring). apply (is_RInt_point (V:=R_NormedModule)).
    + assert (b - a <> 0) by lra.
      pose proof (is_RInt_comp_lin (V:=R_NormedModule) (fun y => scal (b - a) (F ((b - a) * y + a))) (/ (b - a)) (- a / (b - a)) a b (scal (b - a) (pint e d))) as L.
      replace (/ (b - a) * a + - a / (b - a)) with 0 in L by (field; auto).
      replace (/ (b - a) * b + - a / (b - a)) with 1 in L by (field; auto). specialize (L K).
      eapply is_RInt_ext; [|exact L]. intros x _. unfold scal. cbn. unfold mult. cbn.
      replace ((b - a) * (/ (b - a) * x + - a / (b - a)) + a) with x by (field; auto). field. auto.
  - intros k. unfold tr. assert (0 < 2 ^ k)%nat by (assert (2 ^ k <> 0)%nat by (apply Nat.pow_nonzero; lia); lia).
    assert (tz (gg F a b) (2 ^ k) = tz (pval e d) (2 ^ k)) as ->.
    { unfold tz. f_equal. apply sumn_ext. intros j _. unfold gg. now rewrite !C, !E. }
    rewrite (G _ H), <- sumn_scal. apply sumn_ext. intros j _. rewrite pow_INR, <- pow_mult, (Nat.mul_comm k 2), pow_mult.
    replace (INR 2 ^ 2) with 4 by (cbn; ring). ring.
Qed.
