From Coq Require Import Reals Lra Lia List Arith Bool FunctionalExtensionality.
From Coquelicot Require Import Coquelicot.
From Verif Require Import Quad_Model Quad_Spec.
Import ListNotations.
Open Scope R_scope.

(** ** sums *)
Lemma sumn_ext n f g : (forall k, (k < n)%nat -> f k = g k) -> sumn n f = sumn n g.
Proof. induction n; intros H; cbn; [auto|]. rewrite IHn by (intros; apply H; lia). now rewrite H by lia. Qed.
Lemma sumn_plus n f g : sumn n (fun k => f k + g k) = sumn n f + sumn n g.
Proof. induction n; cbn; [ring|]. rewrite IHn. ring. Qed.
Lemma sumn_scal n c f : sumn n (fun k => c * f k) = c * sumn n f.
Proof. induction n; cbn; [ring|]. rewrite IHn. ring. Qed.
Lemma sumn_zero n f : (forall k, (k < n)%nat -> f k = 0) -> sumn n f = 0.
Proof. induction n; intros H; cbn; [auto|]. rewrite IHn by (intros; apply H; lia). rewrite H by lia. ring. Qed.
Lemma sumn_swap n m f : sumn n (fun i => sumn m (fun j => f i j)) = sumn m (fun j => sumn n (fun i => f i j)).
Proof. induction n; cbn; [symmetry; apply sumn_zero; auto|]. rewrite IHn, <- sumn_plus. reflexivity. Qed.
Lemma sumn_tele n f : sumn n (fun k => f (S k) - f k) = f n - f O.
Proof. induction n; cbn; [ring|]. rewrite IHn. ring. Qed.
Lemma sumn_first n f : sumn (S n) f = f O + sumn n (fun k => f (S k)).
Proof. induction n; [cbn; ring|]. cbn [sumn] in *. rewrite IHn. ring. Qed.
Lemma sumn_pad n m f : (n <= m)%nat -> (forall k, (n <= k)%nat -> f k = 0) -> sumn m f = sumn n f.
Proof. intros H Z. induction H; [auto|]. cbn. rewrite IHle, Z by auto. ring. Qed.
Lemma sumn_even n f : sumn (2 * n) f = sumn n (fun k => f (2 * k)%nat + f (2 * k + 1)%nat).
Proof.
  induction n; [reflexivity|]. replace (2 * S n)%nat with (S (S (2 * n))) by lia. cbn [sumn]. rewrite IHn.
  replace (S (2 * n)) with (2 * n + 1)%nat by lia. ring.
Qed.
Lemma fold_sumn (f : nat -> R) n : forall s z, fold_left (fun z k => z + f k) (seq s n) z = z + sumn n (fun k => f (s + k)%nat).
Proof.
  induction n; intros s z; cbn [seq fold_left]; [cbn; ring|]. rewrite IHn, sumn_first, Nat.add_0_r.
  rewrite (sumn_ext n (fun k => f (S s + k)%nat) (fun k => f (s + S k)%nat)) by (intros; f_equal; lia). ring.
Qed.
Lemma is_derive_sumn n (f : nat -> R -> R) (g : nat -> R) x : (forall i, (i < n)%nat -> is_derive (f i) x (g i)) ->
  is_derive (fun x => sumn n (fun i => f i x)) x (sumn n g).
Proof.
  induction n; intros H; cbn [sumn]; [apply (is_derive_const (V:=R_NormedModule) 0 x)|].
  apply (is_derive_plus (V:=R_NormedModule)); [apply IHn; intros; apply H; lia|apply H; lia].
Qed.

(** ** the Euler Maclaurin expansion of monomials *)
Lemma pow_neg_even x e : Nat.even e = true -> (- x) ^ e = x ^ e.
Proof. intros H. apply Nat.even_spec in H as [k ->]. rewrite !pow_mult. f_equal. ring. Qed.
Lemma zero_derive (G : R -> R) : (forall x, is_derive G x 0) -> forall x y, G x = G y.
Proof.
  intros H x y. destruct (Rtotal_order x y) as [L|[L|L]]; [|now subst|symmetry]; apply (eq_is_derive (V:=R_NormedModule)); auto; intros; apply H.
Qed.
Definition em (d : nat) (c : nat -> R) := c O = / INR (S d) /\
  forall x, (x ^ d + (x - 1) ^ d) / 2 = sumn (S (d / 2)) (fun j => c j * (x ^ (d + 1 - 2 * j) - (x - 1) ^ (d + 1 - 2 * j))).
Lemma em_exists d : exists c, em d c.
Proof.
  induction d as [|d [c [C0 IH]]].
  - exists (fun _ => 1). split; [cbn; field|]. intros x. cbn. field.
  - set (e j := (S d + 1 - 2 * j)%nat).
    assert (HE : forall j, (j < S (d / 2))%nat -> e j = S (d + 1 - 2 * j)).
    { intros j H. unfold e. assert (2 * (d / 2) <= d)%nat by (apply Nat.mul_div_le; lia). lia. }
    set (c1 j := INR (S d) * c j / INR (e j)).
    set (G x := (x ^ S d + (x - 1) ^ S d) / 2 - sumn (S (d / 2)) (fun j => c1 j * (x ^ (e j) - (x - 1) ^ (e j)))).
    assert (DG : forall x, is_derive G x 0).
    { intros x. unfold G.
      assert (is_derive (fun x => sumn (S (d / 2)) (fun j => c1 j * (x ^ (e j) - (x - 1) ^ (e j)))) x
                (INR (S d) * ((x ^ d + (x - 1) ^ d) / 2))) as K.
      { rewrite IH, <- sumn_scal. apply is_derive_sumn. intros j Hj. unfold c1. rewrite (HE j Hj).
        set (k := (d + 1 - 2 * j)%nat). auto_derive; [auto|]. cbn [Init.Nat.pred]. change (match k with | 0%nat => 1 | S _ => INR k + 1 end) with (INR (S k)). assert (INR (S k) <> 0) by (apply not_0_INR; lia). replace (x + - (1)) with (x - 1) by ring. change (match d with | 0%nat => 1 | S _ => INR d + 1 end) with (INR (S d)). field. auto. }
      evar_last; [apply (is_derive_minus (V:=R_NormedModule)); [|exact K]|].
      - auto_derive; [auto|]. reflexivity.
      - cbn [Init.Nat.pred]. unfold minus, plus, opp. cbn -[INR]. replace (x + - (1)) with (x - 1) by ring. change (match d with | 0%nat => 1 | S _ => INR d + 1 end) with (INR (S d)). field. }
    pose proof (zero_derive G DG) as CG.
    assert (E0 : c1 O = / INR (S (S d))).
    { unfold c1, e. rewrite C0. replace (S d + 1 - 2 * 0)%nat with (S (S d)) by lia. field. split; apply not_0_INR; lia. }
    destruct (Nat.even d) eqn:Ev.
    + (* S d odd *)
      apply Nat.even_spec in Ev as [q ->].
      assert (S (2 * q) / 2 = 2 * q / 2)%nat as DD.
      { rewrite (Nat.mul_comm 2 q), Nat.div_mul by lia. symmetry. apply (Nat.div_unique _ 2 _ 1); lia. }
      exists c1. split; [exact E0|]. intros x. rewrite DD. specialize (CG x (1/2)). unfold G in CG.
      assert ((1 / 2) ^ S (2 * q) + (1 / 2 - 1) ^ S (2 * q) = 0) as Z1.
      { replace (1 / 2 - 1) with (- (1/2)) by field. cbn [pow]. rewrite pow_neg_even; [ring|]. apply Nat.even_spec. now exists q. }
      rewrite Z1, (sumn_zero (S (2 * q / 2)) (fun j => c1 j * ((1 / 2) ^ e j - (1 / 2 - 1) ^ e j))) in CG.
      * unfold e in CG. lra.
      * intros j Hj. replace (1 / 2 - 1) with (- (1/2)) by field. rewrite pow_neg_even; [ring|]. apply Nat.even_spec. exists (q + 1 - j)%nat. unfold e. lia.
    + assert (Nat.odd d = true) as Od by (unfold Nat.odd; now rewrite Ev). apply Nat.odd_spec in Od as [q ->].
      assert (S (2 * q + 1) / 2 = S ((2 * q + 1) / 2))%nat as DD.
      { replace (S (2 * q + 1)) with ((q + 1) * 2)%nat by lia. rewrite Nat.div_mul by lia. f_equal. rewrite <- (Nat.div_unique (2 * q + 1) 2 q 1); lia. }
      assert ((2 * q + 1) / 2 = q)%nat as D1 by (symmetry; apply (Nat.div_unique _ 2 _ 1); lia).
      exists (fun j => if (j =? S q)%nat then G 0 else c1 j). split; [exact E0|]. intros x. rewrite DD, D1. cbn [sumn].
      rewrite (proj2 (Nat.eqb_eq (S q) (S q)) eq_refl).
      destruct (Nat.eqb_spec q (S q)); [lia|].
      rewrite (sumn_ext q _ (fun j => c1 j * (x ^ (e j) - (x - 1) ^ (e j)))).
      2:{ intros k Hk. destruct (Nat.eqb_spec k (S q)); [lia|]. reflexivity. }
      replace (S (2 * q + 1) + 1 - 2 * S q)%nat with 1%nat by lia. specialize (CG x 0). unfold G at 1 in CG. rewrite D1 in CG. cbn [sumn] in CG. fold (e q). lra.
Qed.

(** the trapezoidal rule on [0,1] *)
Definition tz (g : R -> R) (N : nat) : R := / INR N * sumn N (fun k => (g (INR k / INR N) + g (INR (S k) / INR N)) / 2).
Definition expands (J : nat) (I : R) (g : R -> R) := exists c, c O = I /\
  forall N, (0 < N)%nat -> tz g N = sumn (S J) (fun j => c j * (/ INR N ^ 2) ^ j).
Lemma expands_mono J J' I g : (J <= J')%nat -> expands J I g -> expands J' I g.
Proof.
  intros H (c & C0 & E). exists (fun j => if (j <=? J)%nat then c j else 0). split; [exact C0|]. intros N HN. rewrite (E N HN).
  symmetry. rewrite (sumn_pad (S J) (S J')) by first [lia|intros k Hk; destruct (Nat.leb_spec k J); [lia|ring]].
  apply sumn_ext. intros k Hk. destruct (Nat.leb_spec k J); [auto|lia].
Qed.
Lemma expands_lin J I1 I2 g1 g2 u : expands J I1 g1 -> expands J I2 g2 -> expands J (I1 + u * I2) (fun t => g1 t + u * g2 t).
Proof.
  intros (c1 & C1 & E1) (c2 & C2 & E2). exists (fun j => c1 j + u * c2 j). split; [now rewrite C1, C2|]. intros N HN.
  rewrite (sumn_ext (S J) _ (fun j => c1 j * (/ INR N ^ 2) ^ j + u * (c2 j * (/ INR N ^ 2) ^ j))) by (intros; ring).
  rewrite sumn_plus, sumn_scal, <- E1, <- E2 by auto. unfold tz.
  rewrite (sumn_ext N _ (fun k => (g1 (INR k / INR N) + g1 (INR (S k) / INR N)) / 2 + u * ((g2 (INR k / INR N) + g2 (INR (S k) / INR N)) / 2))) by (intros; field).
  rewrite sumn_plus, sumn_scal. ring.
Qed.
Lemma expands_ext J I g g' : (forall x, g x = g' x) -> expands J I g -> expands J I g'.
Proof.
  intros H (c & C & E). exists c. split; [auto|]. intros N HN. rewrite <- E by auto. unfold tz. f_equal. apply sumn_ext. intros. now rewrite !H.
Qed.
Lemma expands_mono_d d : expands (d / 2) (/ INR (S d)) (fun t => t ^ d).
Proof.
  destruct (em_exists d) as (c & C0 & E). exists c. split; [exact C0|]. intros N HN. unfold tz.
  assert (INR N <> 0) as N0 by (apply not_0_INR; lia).
  rewrite (sumn_ext N _ (fun k => / INR N ^ d * sumn (S (d / 2)) (fun j => c j * (INR (S k) ^ (d + 1 - 2 * j) - INR k ^ (d + 1 - 2 * j))))).
  2:{ intros k Hk. specialize (E (INR (S k))). replace (INR (S k) - 1) with (INR k) in E by (rewrite S_INR; ring). rewrite <- E.
      unfold Rdiv. rewrite !Rpow_mult_distr, pow_inv. ring. }
  rewrite sumn_scal, sumn_swap.
  rewrite (sumn_ext _ _ (fun j => c j * INR N ^ (d + 1 - 2 * j))).
  2:{ intros j Hj. rewrite sumn_scal. f_equal. rewrite (sumn_tele N (fun k => INR k ^ (d + 1 - 2 * j))).
      change (INR 0) with 0; rewrite (pow_i (d + 1 - 2 * j)); [ring|]. assert (2 * (d / 2) <= d)%nat by (apply Nat.mul_div_le; lia). lia. }
  rewrite <- !sumn_scal. apply sumn_ext. intros j Hj.
  assert (2 * (d / 2) <= d)%nat by (apply Nat.mul_div_le; lia).
  rewrite pow_inv, <- pow_mult.
  assert (INR N ^ (d + 1 - 2 * j) * INR N ^ (2 * j) = INR N * INR N ^ d) as EP.
  { rewrite <- pow_add. replace (d + 1 - 2 * j + 2 * j)%nat with (S d) by lia. reflexivity. }
  assert (INR N ^ (2 * j) <> 0) by (apply pow_nonzero; auto). assert (INR N ^ d <> 0) by (apply pow_nonzero; auto).
  replace (INR N ^ (d + 1 - 2 * j)) with (INR N * INR N ^ d / INR N ^ (2 * j)) by (rewrite <- EP; field; auto). field. auto.
Qed.
Definition pint (c : nat -> R) (d : nat) : R := sumn (S d) (fun i => c i / INR (S i)).
Lemma expands_poly c d : expands (d / 2) (pint c d) (pval c d).
Proof.
  induction d as [|d IH].
  - destruct (expands_mono_d 0) as (e & E0 & E). exists (fun j => c O * e j). split; [rewrite E0; unfold pint; cbn; field|].
    intros N HN. specialize (E N HN). cbn in *. unfold tz in *.
    rewrite (sumn_ext N _ (fun k => c O * ((1 + 1) / 2))) by (intros; unfold pval; cbn; field). rewrite sumn_scal.
    rewrite Rmult_comm, Rmult_assoc, (Rmult_comm _ (/ INR N)), E. ring.
  - unfold pint. cbn [sumn]. fold (sumn (S d)). 
    eapply expands_ext; [|apply (expands_lin _ (pint c d) (/ INR (S (S d))) (pval c d) (fun t => t ^ S d) (c (S d)))].
    + intros x. unfold pval. cbn [sumn]. ring.
    + eapply expands_mono; [|exact IH]. apply Nat.div_le_mono; lia.
    + apply expands_mono_d.
Qed.
Lemma is_RInt_pow d : is_RInt (fun t => t ^ d) 0 1 (/ INR (S d)).
Proof.
  assert (INR (S d) <> 0) by (apply not_0_INR; lia).
  replace (/ INR (S d)) with (minus (1 ^ S d / INR (S d)) (0 ^ S d / INR (S d))).
  - apply (is_RInt_derive (V:=R_CompleteNormedModule) (fun t => t ^ S d / INR (S d))).
    + intros x _. auto_derive; [auto|]. change (match d with | 0%nat => 1 | S _ => INR d + 1 end) with (INR (S d)). cbn [Init.Nat.pred]. field. auto.
    + intros x _. apply (ex_derive_continuous (fun t => t ^ d)). auto_derive. auto.
  - unfold minus, plus, opp. cbn -[INR pow]. rewrite pow1, pow_i by lia. field. auto.
Qed.
Lemma is_RInt_pval c d : is_RInt (pval c d) 0 1 (pint c d).
Proof.
  unfold pval, pint. induction (S d) as [|m IH].
  - cbn. evar_last; [apply is_RInt_const|]. unfold scal. cbn. unfold mult. cbn. ring.
  - cbn [sumn]. apply (is_RInt_plus (V:=R_NormedModule)); [exact IH|].
    apply (is_RInt_scal (V:=R_NormedModule)). apply is_RInt_pow.
Qed.

(** polynomials under affine change of argument *)
Lemma poly_affine c d u w : polynomial d (fun t => pval c d (u + w * t)).
Proof.
  assert (PP : forall d g, polynomial d g -> polynomial (S d) g).
  { intros k g (e & E). exists (fun i => if (i <=? k)%nat then e i else 0). intros x. rewrite E. unfold pval. symmetry.
    rewrite (sumn_pad (S k) (S (S k))) by first [lia|intros i Hi; destruct (Nat.leb_spec i k); [lia|ring]].
    apply sumn_ext. intros i Hi. destruct (Nat.leb_spec i k); [auto|lia]. }
  assert (PA : forall d g h s, polynomial d g -> polynomial d h -> polynomial d (fun x => g x + s * h x)).
  { intros k g h s (e1 & E1) (e2 & E2). exists (fun i => e1 i + s * e2 i). intros x. rewrite E1, E2. unfold pval.
    rewrite <- sumn_scal, <- sumn_plus. apply sumn_ext. intros. ring. }
  assert (PX : forall d g, polynomial d g -> polynomial (S d) (fun x => x * g x)).
  { intros k g (e & E). exists (fun i => match i with O => 0 | S i' => e i' end). intros x. rewrite E. unfold pval.
    rewrite (sumn_first (S k)), <- sumn_scal. rewrite Rmult_0_l, Rplus_0_l. apply sumn_ext. intros. cbn [pow]. ring. }
  assert (PW : forall k, polynomial k (fun t => (u + w * t) ^ k)).
  { induction k as [|k IH].
    - exists (fun _ => 1). intros x. unfold pval. cbn. ring.
    - assert (polynomial (S k) (fun t => u * (u + w * t) ^ k + w * (t * (u + w * t) ^ k))) as (e & E).
      { apply (PA _ (fun t => u * (u + w * t) ^ k) (fun t => t * (u + w * t) ^ k)); [|apply PX, IH].
        destruct (PP _ _ IH) as (e & E). exists (fun i => u * e i). intros x. rewrite E. unfold pval. rewrite <- sumn_scal. apply sumn_ext. intros. ring. }
      exists e. intros x. rewrite <- E. cbn [pow]. ring. }
  induction d as [|d IH].
  - exists c. intros x. unfold pval. cbn. ring.
  - destruct (PA _ _ (fun t => (u + w * t) ^ S d) (c (S d)) (PP _ _ IH) (PW (S d))) as (e & E). exists e. intros x. rewrite <- E. unfold pval. cbn [sumn]. ring.
Qed.
