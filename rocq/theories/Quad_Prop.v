(** C42: RombergOne, RombergMul and Runge45 are exact on the polynomials they are meant to
    integrate exactly, for every number of levels, extrapolations, steps and components. *)
From Coq Require Import Reals Lra Lia List Arith Bool FunctionalExtensionality.
From Coquelicot Require Import Coquelicot.
From Verif Require Import Quad_Model Quad_Spec Quad_Proof Quad_Proof2 Quad_Proof3.
Import ListNotations.
Open Scope R_scope.

(** p = 0: the composite trapezoidal rule, for any function *)
Theorem romberg_one_trapezoid : forall F a b n, (2 <= n)%nat -> exists e, romberg_one F a b n 0 = Some (trapezoid F a b (2 ^ (n - 1)), e) /\ 0 <= e.
Proof.
  intros F a b n H. destruct (romberg_value F a b n 0 H) as (v & e & E & Ev & Ee). exists e. rewrite E, Ev. split.
  - cbn [Nat.min ext]. rewrite tr_trapezoid; [reflexivity|]. assert (2 ^ (n - 1) <> 0)%nat by (apply Nat.pow_nonzero; lia). lia.
  - rewrite Ee. apply Rabs_pos.
Qed.
(** exact on polynomials of degree at most 2 min(p, n-1) + 1; the error estimate is then zero
    already for one level less *)
Theorem romberg_one_exact : forall F a b n p d, (2 <= n)%nat -> polynomial d F -> (d <= 2 * Nat.min p (n - 1) + 1)%nat ->
  exists e, romberg_one F a b n p = Some (RInt F a b, e) /\ 0 <= e /\ ((d <= 2 * Nat.min p (n - 2) + 1)%nat -> e = 0).
Proof.
  intros F a b n p d Hn HP Hd. destruct (romberg_value F a b n p Hn) as (v & e & E & Ev & Ee).
  destruct (tr_poly F a b d HP) as (c & C0 & C).
  assert (J1 : (d / 2 <= Nat.min p (n - 1))%nat) by (assert (d < 2 * S (Nat.min p (n - 1)))%nat as H2 by lia; apply Nat.div_lt_upper_bound in H2; lia).
  rewrite (ext_exact c (d / 2) _ (Nat.min p (n - 1)) (n - 1) C), C0 in Ev by lia. subst v.
  exists e. split; [exact E|]. split; [rewrite Ee; apply Rabs_pos|]. intros Hd2.
  assert (J2 : (d / 2 <= Nat.min p (n - 2))%nat) by (assert (d < 2 * S (Nat.min p (n - 2)))%nat as H2 by lia; apply Nat.div_lt_upper_bound in H2; lia).
  rewrite Ee, (ext_exact c (d / 2) _ (Nat.min p (n - 2)) (n - 2) C), C0 by lia. rewrite Rminus_eq_0. apply Rabs_R0.
Qed.
Theorem romberg_one_rejects : forall F a b n p, romberg_one F a b n p = None <-> (n < 2)%nat.
Proof. intros. unfold romberg_one. destruct (Nat.ltb_spec n 2); split; auto; try discriminate; lia. Qed.

(** ** several variables *)
Lemma polynomial_lin d L (w : nat -> R) (f : nat -> R -> R) : (forall l, (l < L)%nat -> polynomial d (f l)) -> polynomial d (fun x => sumn L (fun l => w l * f l x)).
Proof.
  induction L as [|L IH]; intros H.
  - exists (fun _ => 0). intros x. unfold pval. symmetry. apply sumn_zero. intros. ring.
  - destruct IH as (e1 & E1); [intros; apply H; lia|]. destruct (H L) as (e2 & E2); [lia|]. exists (fun i => e1 i + w L * e2 i). intros x. cbn [sumn].
    rewrite E1, E2. unfold pval. rewrite <- (sumn_scal _ (w L)), <- sumn_plus. apply sumn_ext. intros. ring.
Qed.
Lemma polynomial_RInt d f a b : polynomial d f -> is_RInt f a b (RInt f a b).
Proof.
  intros (c & C). apply (RInt_correct (V:=R_CompleteNormedModule)). exists (minus (anti c d b) (anti c d a)).
  eapply is_RInt_ext; [intros x _; symmetry; apply C|]. apply (is_RInt_derive (V:=R_CompleteNormedModule) (anti c d)).
  - intros x _. apply anti_derive.
  - intros x _. apply (ex_derive_continuous (pval c d)). unfold pval. eexists. apply is_derive_sumn. intros i Hi. auto_derive; [auto|reflexivity].
Qed.
Lemma RInt_lin d L (w : nat -> R) (f : nat -> R -> R) a b : (forall l, (l < L)%nat -> polynomial d (f l)) ->
  RInt (fun x => sumn L (fun l => w l * f l x)) a b = sumn L (fun l => w l * RInt (f l) a b).
Proof.
  intros H. apply is_RInt_unique. induction L as [|L IH].
  - cbn. evar_last; [apply is_RInt_const|]. unfold scal. cbn. unfold mult. cbn. ring.
  - cbn [sumn]. apply (is_RInt_plus (V:=R_NormedModule)); [apply IH; intros; apply H; lia|].
    apply (is_RInt_scal (V:=R_NormedModule)). eapply polynomial_RInt. apply H. lia.
Qed.
(** RombergMul is exact on sums of products of polynomials: any polynomial in m variables whose
    degree in variable i is at most 2 min(p_i, n_i - 1) + 1 *)
Theorem romberg_mul_exact : forall m F a b n p L (w : nat -> R) (f : nat -> nat -> R -> R) (d : nat -> nat), (1 <= m)%nat ->
  (forall i, (i < m)%nat -> (2 <= n i)%nat /\ (d i <= 2 * Nat.min (p i) (n i - 1) + 1)%nat) ->
  (forall l i, (l < L)%nat -> (i < m)%nat -> polynomial (d i) (f l i)) ->
  (forall x, F x = sumn L (fun l => w l * product m (fun i => f l i (x i)))) ->
  romberg_mul m F a b n p = Some (sumn L (fun l => w l * product m (fun i => RInt (f l i) (a i) (b i)))).
Proof.
  assert (PE : forall m u v, (forall i, (i < m)%nat -> u i = v i) -> product m u = product m v).
  { induction m; intros u v H; cbn; [auto|]. rewrite (IHm u v) by (intros; apply H; lia). now rewrite H by lia. }
  intros m F a b n p L w f d Hm. revert F w. induction m as [|m IH]; [lia|]. intros F w Hn HP HF.
  assert (LAST : forall x, integrate_last F m a b n p x = Some (sumn L (fun l => w l * RInt (f l m) (a m) (b m) * product m (fun i => f l i (x i))))).
  { intros x. unfold integrate_last.
    assert (slice_last F m x = fun y => sumn L (fun l => w l * product m (fun i => f l i (x i)) * f l m y)) as ->.
    { apply functional_extensionality. intros y. unfold slice_last. rewrite HF. apply sumn_ext. intros l _. cbn [product].
      rewrite Nat.ltb_irrefl, Nat.eqb_refl. rewrite (PE m _ (fun i => f l i (x i))); [ring|]. intros i Hi. now rewrite (proj2 (Nat.ltb_lt i m) Hi). }
    destruct (Hn m) as [N2 Nd]; [lia|].
    assert (forall l, (l < L)%nat -> polynomial (d m) (f l m)) as PM by (intros; apply HP; lia).
    destruct (romberg_one_exact (fun y => sumn L (fun l => w l * product m (fun i => f l i (x i)) * f l m y)) (a m) (b m) (n m) (p m) (d m) N2) as (e & E & _); [|exact Nd|].
    - apply (polynomial_lin (d m) L (fun l => w l * product m (fun i => f l i (x i))) (fun l => f l m) PM).
    - rewrite E. cbn [option_map fst]. f_equal. rewrite (RInt_lin (d m) L (fun l => w l * product m (fun i => f l i (x i))) (fun l => f l m) _ _ PM).
      apply sumn_ext. intros. ring. }
  destruct m as [|m].
  - cbn [romberg_mul]. rewrite LAST. f_equal. apply sumn_ext. intros. cbn [product]. ring.
  - assert (forallb (fun i => 2 <=? n i)%nat (seq 0 (S (S m))) = true) as FA.
    { apply forallb_forall. intros i Hi. apply in_seq in Hi. apply Nat.leb_le. apply Hn. lia. }
    change (romberg_mul (S (S m)) F a b n p) with
      (if forallb (fun i => 2 <=? n i)%nat (seq 0 (S (S m))) then romberg_mul (S m) (fun x => match integrate_last F (S m) a b n p x with Some v => v | None => 0 end) a b n p else None).
    rewrite FA. rewrite (IH ltac:(lia) _ (fun l => w l * RInt (f l (S m)) (a (S m)) (b (S m)))).
    + f_equal. apply sumn_ext. intros l _. change (product (S (S m)) ?v) with (product (S m) v * v (S m)). cbn beta. ring.
    + intros; apply Hn; lia.
    + intros; apply HP; lia.
    + intros x. now rewrite LAST.
Qed.

(** ** Runge45: a solution X of x_i' = F_i(t, x), i < n, is reproduced exactly *)
Definition solves (F : R -> (nat -> R) -> nat -> R) (n : nat) (X : R -> nat -> R) : Prop :=
  forall t i, (i < n)%nat -> is_derive (fun t => X t i) t (F t (X t) i).
(** right hand sides that are polynomials of degree at most four in t; the error estimate is
    zero up to degree three *)
Theorem runge45_quadrature : forall F n X M ti tf xi (c : nat -> nat -> R), (1 <= M)%nat ->
  solves F n X -> (forall t x i, (i < n)%nat -> F t x i = pval (c i) 4 t) -> (forall i, (i < n)%nat -> xi i = X ti i) ->
  exists xf e, runge45 F n M ti tf xi = Some (xf, e) /\ (forall i, (i < n)%nat -> xf i = X tf i) /\
    ((forall i, (i < n)%nat -> c i 4%nat = 0) -> forall i, (i < n)%nat -> e i = 0).
Proof.
  intros F n X M ti tf xi c HM HS HF Hx.
  assert (XA : forall i t s, (i < n)%nat -> X t i - X s i = anti (c i) 4 t - anti (c i) 4 s).
  { intros i t s Hi. apply (same_derive (fun t => X t i) (anti (c i) 4) (pval (c i) 4)); [|intros; apply anti_derive].
    intros u. rewrite <- (HF u (X u) i Hi). apply HS. auto. }
  apply (runge_steps F n X); auto.
  - intros t h x Ex i Hi. destruct (six_quad (fun i => pval (c i) 4) F n t h x i HF Hi) as [E5 _].
    rewrite E5, quad5, Ex, <- (XA i (t + h) t Hi) by auto. ring.
  - intros C4 t h x Ex i Hi. destruct (six_quad (fun i => pval (c i) 4) F n t h x i HF Hi) as [_ E4]. rewrite E4.
    assert (P3 : forall u, pval (c i) 4 u = pval (c i) 3 u). { intros u. unfold pval. cbn [sumn]. rewrite (C4 i Hi). ring. }
    rewrite (sumn_ext 6 _ (fun j => nth j rc4 0 * (pval (c i) 3 (t + nth j ra 0 * h) * h))) by (intros; now rewrite P3).
    rewrite quad4, Ex by auto. pose proof (XA i (t + h) t Hi) as XX. unfold anti in XX |- *.
    cbn [sumn] in XX |- *. rewrite (C4 i Hi) in XX. unfold Rdiv in XX |- *. rewrite !Rmult_0_l in XX. lra.
Qed.
(** linear systems x' = A x with A^6 = 0 (every solution is a polynomial of degree at most five
    in t, and all its components are coupled): the fifth order formula makes no error *)
Theorem runge45_linear : forall n A X M ti tf xi, (1 <= M)%nat ->
  (forall x i, (i < n)%nat -> mat_pow n A 6 x i = 0) -> solves (fun _ => mat_vec n A) n X -> (forall i, (i < n)%nat -> xi i = X ti i) ->
  exists xf e, runge45 (fun _ => mat_vec n A) n M ti tf xi = Some (xf, e) /\ (forall i, (i < n)%nat -> xf i = X tf i).
Proof.
  intros n A X M ti tf xi HM N6 HS Hx.
  destruct (runge_steps (fun _ => mat_vec n A) n X False M ti tf xi HM Hx) as (xf & e & E & K & _).
  - intros t h x Ex i Hi. rewrite linear_step by auto. rewrite <- (solution_taylor n A X N6 HS t h i Hi). apply sumn_ext. intros k _. f_equal.
    apply mat_pow_ext; auto.
  - contradiction.
  - exists xf, e. auto.
Qed.
(** one step on x' = u x for any real u: the exponential series up to order five, the local
    error is of order h^6 *)
Theorem runge45_exponential : forall u ti tf xi, exists xf e, runge45 (fun _ x i => u * x i) 1 1 ti tf xi = Some (xf, e) /\
  let z := u * (tf - ti) in xf O = xi O * (1 + z + z ^ 2 / 2 + z ^ 3 / 6 + z ^ 4 / 24 + z ^ 5 / 120 + z ^ 6 / 800).
Proof.
  intros u ti tf xi. unfold runge45. cbn [Nat.ltb Nat.leb seq fold_left runge_step]. eexists _, _. split; [reflexivity|].
  unfold six. cbn [seq fold_left]. unfold stage. cbn. field.
Qed.
Theorem runge45_rejects : forall F n M ti tf xi, runge45 F n M ti tf xi = None <-> M = O.
Proof. intros. unfold runge45. destruct (Nat.ltb_spec M 1); split; auto; try discriminate; lia. Qed.

(** concrete cases *)
(** x^3 - 2x integrated from -1 to 3 with n = 3 levels and p = 1 extrapolation *)
Theorem ex_romberg : polynomial 3 (fun x => x ^ 3 - 2 * x) /\ (3 <= 2 * Nat.min 1 (3 - 1) + 1)%nat /\
  exists e, romberg_one (fun x => x ^ 3 - 2 * x) (-1) 3 3 1 = Some (12, e) /\ e = 0.
Proof.
  assert (P3 : polynomial 3 (fun x => x ^ 3 - 2 * x)).
  { exists (fun i => nth i [0; -2; 0; 1] 0). intros x. unfold pval. cbn. ring. }
  split; [exact P3|]. split; [cbn; lia|]. destruct (romberg_one_exact (fun x => x ^ 3 - 2 * x) (-1) 3 3 1 3) as (e & E & _ & Z); [lia|exact P3|cbn; lia|].
  exists e. split; [|apply Z; cbn; lia]. rewrite E. do 2 f_equal. apply is_RInt_unique.
  replace 12 with (minus (3 ^ 4 / 4 - 3 ^ 2) ((-1) ^ 4 / 4 - (-1) ^ 2)) by (unfold minus, plus, opp; cbn; field).
  apply (is_RInt_derive (V:=R_CompleteNormedModule) (fun x => x ^ 4 / 4 - x ^ 2)).
  - intros x _. auto_derive; [auto|]. cbn. field.
  - intros x _. apply (ex_derive_continuous (fun x => x ^ 3 - 2 * x)). auto_derive. auto.
Qed.
(** x_0' = 1 (a constant state x_1 = 1 carries the right hand side), x = (t, 1) *)
Theorem ex_runge : forall ti tf, exists xf e,
  runge45 (fun _ => mat_vec 2 (fun i j => if ((i =? 0) && (j =? 1))%nat then 1 else 0)) 2 7 ti tf (fun i => match i with O => ti | _ => 1 end) = Some (xf, e) /\ xf O = tf.
Proof.
  intros ti tf. set (A := fun i j => if ((i =? 0) && (j =? 1))%nat then 1 else 0).
  destruct (runge45_linear 2 A (fun t i => match i with O => t | _ => 1 end) 7 ti tf (fun i => match i with O => ti | _ => 1 end)) as (xf & e & E & K); [lia| | |auto|].
  - intros x i Hi. cbn [mat_pow]. unfold mat_vec, A. destruct i as [|[|i]]; [| |lia]; cbn; ring.
  - intros t i Hi. unfold mat_vec, A. destruct i as [|[|i]]; [| |lia]; cbn.
    + evar_last; [apply (is_derive_id (K:=R_AbsRing))|]. unfold one. cbn. ring.
    + evar_last; [apply (is_derive_const (K:=R_AbsRing) (V:=R_NormedModule))|]. unfold zero. cbn. ring.
  - exists xf, e. split; [exact E|]. apply (K O). lia.
Qed.
