(** Properties C39 (NearEqual, set_union) and C40 (pow with int exponent). *)
From Coq Require Import List Arith ZArith QArith Qabs Bool Lia Sorted.
From Verif Require Import Util_Model.
Import ListNotations.

(** ** C40 *)
(** x * ... * x, n factors *)
Fixpoint npow {T} (one : T) (mul : T -> T -> T) (x : T) (n : nat) : T :=
  match n with 0%nat => one | S n' => mul x (npow one mul x n') end.

Section Pow.
  Context {T : Type} (one : T) (mul div : T -> T -> T).
  Hypothesis mul_1_l : forall x, mul one x = x.
  Hypothesis mul_1_r : forall x, mul x one = x.
  Hypothesis mul_assoc : forall x y z, mul x (mul y z) = mul (mul x y) z.
  Notation npow := (npow one mul).

  Lemma npow_comm x n : mul (npow x n) x = mul x (npow x n).
  Proof. induction n as [|n IH]; cbn; [now rewrite mul_1_l, mul_1_r|]. now rewrite <- mul_assoc, IH. Qed.
  Lemma npow_sq x n : npow (mul x x) n = npow x (2 * n).
  Proof.
    induction n as [|n IH]; auto. cbn [Util_Prop.npow]. rewrite IH.
    replace (2 * S n)%nat with (S (S (2 * n)))%nat by lia. cbn [Util_Prop.npow]. now rewrite mul_assoc.
  Qed.
  Lemma pow_pos fuel : forall x n, (0 <= n < 2 ^ Z.of_nat fuel)%Z ->
    pow_fuel one mul div (S fuel) x n = Some (npow x (Z.to_nat n)).
  Proof.
    induction fuel as [|fuel IH]; intros x n H.
    - assert (n = 0)%Z by (cbn in H; lia). subst. reflexivity.
    - remember (S fuel) as f. cbn [pow_fuel]. subst f.
      destruct (Z.eqb_spec n 0); [subst; reflexivity|].
      destruct (Z.ltb_spec n 0); [lia|]. destruct (Z.eqb_spec n 1); [subst; change (Z.to_nat 1) with 1%nat; cbn [Util_Prop.npow]; now rewrite mul_1_r|].
      rewrite Z.quot_div_nonneg, Z.rem_mod_nonneg by lia.
      rewrite Nat2Z.inj_succ, Z.pow_succ_r in H by lia.
      rewrite IH by (split; [apply Z.div_pos|apply Z.div_lt_upper_bound]; lia).
      rewrite npow_sq. pose proof (Z.div_mod n 2 ltac:(lia)) as D.
      pose proof (Z.mod_pos_bound n 2 ltac:(lia)) as M.
      assert (Q : (0 <= n / 2)%Z) by (apply Z.div_pos; lia).
      destruct (Z.eqb_spec (n mod 2) 0).
      + do 2 f_equal. lia.
      + f_equal. rewrite npow_comm. change (mul x (npow x ?m)) with (npow x (S m)). f_equal. lia.
  Qed.
  Lemma pow_all fuel x n : (INT_MIN < n)%Z -> (- n < 2 ^ Z.of_nat fuel)%Z -> (n < 2 ^ Z.of_nat (S fuel))%Z ->
    pow_fuel one mul div (S (S fuel)) x n =
    Some (if (0 <=? n)%Z then npow x (Z.to_nat n) else div one (npow x (Z.to_nat (- n)))).
  Proof.
    intros H1 H2 H3. destruct (Z.leb_spec 0 n).
    - apply pow_pos; auto.
    - remember (S fuel) as f. cbn [pow_fuel].
      destruct (Z.eqb_spec n 0); [lia|]. destruct (Z.ltb_spec n 0); [|lia].
      destruct (Z.eqb_spec n INT_MIN); [lia|]. subst f.
      rewrite pow_pos; auto. lia.
  Qed.
End Pow.

Theorem pow_int_is_power :
  forall (T : Type) (one : T) (mul div : T -> T -> T),
  (forall x, mul one x = x) -> (forall x, mul x one = x) ->
  (forall x y z, mul x (mul y z) = mul (mul x y) z) ->
  forall x n, (INT_MIN < n <= INT_MAX)%Z ->
  pow_int one mul div x n =
    Some (if (0 <=? n)%Z then npow one mul x (Z.to_nat n) else div one (npow one mul x (Z.to_nat (- n)))).
Proof.
  intros T one mul div L R A x n [H1 H2]. apply (pow_all one mul div L R A 32 x n H1).
  - change (2 ^ Z.of_nat 32)%Z with 4294967296%Z. unfold INT_MIN in H1. change (2 ^ 31)%Z with 2147483648%Z in H1. lia.
  - change (2 ^ Z.of_nat 33)%Z with 8589934592%Z. unfold INT_MAX in H2. change (2 ^ 31)%Z with 2147483648%Z in H2. lia.
Qed.
(** the excluded exponent overflows *)
Theorem pow_int_min_refuted :
  forall (T : Type) (one : T) (mul div : T -> T -> T) x, pow_int one mul div x INT_MIN = None.
Proof. reflexivity. Qed.
Example pow_int_run : pow_int 1%Z Z.mul Z.div (-3)%Z 7 = Some (-2187)%Z.
Proof. reflexivity. Qed.

(** ** C39: NearEqual *)
Lemma q_abs (q : Q) : exists p, (if ext_le (Fin q) zero then ext_neg (Fin q) else Fin q) = Fin p /\ (p == Qabs q)%Q.
Proof.
  cbn. destruct (Qle_bool q 0) eqn:E.
  - apply Qle_bool_iff in E. eexists. split; [reflexivity|]. now rewrite Qabs_neg.
  - eexists. split; [reflexivity|]. rewrite Qabs_pos; [reflexivity|].
    destruct (Qlt_le_dec 0 q) as [H|H]; [now apply Qlt_le_weak|]. apply Qle_bool_iff in H. congruence.
Qed.
(** finite arguments: exactly the absolute or relative error condition *)
Theorem near_equal_finite :
  forall x y r a : Q, (0 <= r)%Q -> (0 <= a)%Q ->
  exists b, NearEqual (Fin x) (Fin y) (Fin r) (Fin a) = Some b /\
    (b = true <-> (Qabs (x - y) <= a \/ Qabs (x - y) <= r * (Qabs x + Qabs y))%Q).
Proof.
  intros x y r a Hr Ha. unfold NearEqual.
  assert (E1 : ext_le zero (Fin r) = true) by now apply Qle_bool_iff.
  assert (E2 : ext_le zero (Fin a) = true) by now apply Qle_bool_iff.
  rewrite E1, E2. cbn [negb].
  assert (E3 : near_equal_isfinite (Fin x) (Fin y) = true).
  { unfold near_equal_isfinite, inf. cbn [ext_eq ext_neg].
    rewrite (proj2 (Qeq_bool_iff x x) (Qeq_refl x)), (proj2 (Qeq_bool_iff y y) (Qeq_refl y)). reflexivity. }
  rewrite E3. cbn [negb]. change (ext_sub (Fin x) (Fin y)) with (Fin (x - y)%Q).
  destruct (q_abs x) as (px & -> & Hx). destruct (q_abs y) as (py & -> & Hy).
  destruct (q_abs (x - y)%Q) as (pd & -> & Hd). cbn [ext_add ext_mul ext_le].
  destruct (Qle_bool pd a) eqn:F1.
  - exists true. split; auto. apply Qle_bool_iff in F1. rewrite Hd in F1. tauto.
  - assert (N1 : ~ (Qabs (x - y) <= a)%Q).
    { rewrite <- Hd. intros K. apply Qle_bool_iff in K. congruence. }
    destruct (Qle_bool pd (r * (px + py))) eqn:F2.
    + exists true. split; auto. apply Qle_bool_iff in F2. rewrite Hd, Hx, Hy in F2. tauto.
    + exists false. split; auto. split; [discriminate|]. intros [K|K]; [tauto|].
      rewrite <- Hd, <- Hx, <- Hy in K. apply Qle_bool_iff in K. congruence.
Qed.
(** nan in either value, or an infinite x: false *)
Theorem near_equal_nan_partial :
  forall x y r a, ext_le zero r = true -> ext_le zero a = true ->
  x = Nan \/ y = Nan \/ (exists s, x = Inf s) -> NearEqual x y r a = Some false.
Proof.
  intros x y r a Hr Ha H. unfold NearEqual. rewrite Hr, Ha. cbn [negb].
  assert (near_equal_isfinite x y = false) as ->; [|reflexivity].
  unfold near_equal_isfinite. destruct H as [->|[->|[s ->]]]; cbn [ext_eq].
  - reflexivity.
  - now rewrite !orb_true_r.
  - destruct s; cbn; now rewrite !orb_true_r.
Qed.
(** "If either x or y is infinite or not a number, the return value is false":
    false of the code when only y is infinite. *)
Theorem near_equal_infinite_y_refuted : NearEqual (Fin 1) (Inf false) (Fin (1 # 10)) (Fin 0) = Some true.
Proof. reflexivity. Qed.
Example near_equal_run : NearEqual (Fin 100) (Fin 101) (Fin (1 # 100)) (Fin 0) = Some true /\
                         NearEqual (Fin 100) (Fin 104) (Fin (1 # 100)) (Fin 1) = Some false.
Proof. split; reflexivity. Qed.

(** ** C39: set_union *)
Section SU.
  Context {E : Type} (ltb : E -> E -> bool).
  Hypothesis ltb_irr : forall x, ltb x x = false.
  Hypothesis ltb_trans : forall x y z, ltb x y = true -> ltb y z = true -> ltb x z = true.
  Hypothesis ltb_total : forall x y, ltb x y = false -> ltb y x = false -> x = y.
  Notation srt := (StronglySorted (fun a b => ltb a b = true)).

  Lemma insert_in x s y : In y (set_insert ltb x s) <-> y = x \/ In y s.
  Proof.
    induction s as [|z s IH]; cbn.
    - intuition.
    - destruct (ltb x z) eqn:A; cbn; [intuition|]. destruct (ltb z x) eqn:B; cbn.
      + rewrite IH. intuition.
      + rewrite (ltb_total _ _ A B). intuition.
  Qed.
  Lemma insert_sorted x s : srt s -> srt (set_insert ltb x s).
  Proof.
    induction s as [|z s IH]; intros S; cbn; [repeat constructor|].
    inversion S as [|? ? S' F]; subst. destruct (ltb x z) eqn:A.
    - constructor; auto. constructor; auto. rewrite Forall_forall in *. eauto.
    - destruct (ltb z x) eqn:B; auto. constructor; auto.
      rewrite Forall_forall in *. intros y Hy. apply insert_in in Hy as [->|Hy]; auto.
  Qed.
  Lemma merge_in : forall l r y, In y (std_set_union ltb l r) <-> In y l \/ In y r.
  Proof.
    induction l as [|a l IHl]; intros r y.
    - destruct r; cbn; tauto.
    - induction r as [|b r IHr]; [cbn; tauto|].
      change (std_set_union ltb (a :: l) (b :: r)) with
        (if ltb a b then a :: std_set_union ltb l (b :: r)
         else if ltb b a then b :: std_set_union ltb (a :: l) r else a :: std_set_union ltb l r).
      destruct (ltb a b) eqn:A; [|destruct (ltb b a) eqn:B].
      + cbn [In]. rewrite IHl. cbn [In]. tauto.
      + cbn [In]. rewrite IHr. cbn [In]. tauto.
      + cbn [In]. rewrite IHl. rewrite (ltb_total _ _ A B). tauto.
  Qed.
  Lemma fold_ins l : forall s, srt s -> srt (fold_left (fun s x => set_insert ltb x s) l s) /\
    forall y, In y (fold_left (fun s x => set_insert ltb x s) l s) <-> In y l \/ In y s.
  Proof.
    induction l as [|x l IH]; intros s S; cbn [fold_left]; [split; [auto|cbn; tauto]|].
    destruct (IH _ (insert_sorted x s S)) as [A B]. split; auto.
    intros y. rewrite B, insert_in. cbn. intuition.
  Qed.
End SU.
Theorem set_union_is_union :
  forall (E : Type) (ltb : E -> E -> bool),
  (forall x y z, ltb x y = true -> ltb y z = true -> ltb x z = true) ->
  (forall x y, ltb x y = false -> ltb y x = false -> x = y) ->
  forall l r, StronglySorted (fun a b => ltb a b = true) (set_union ltb l r) /\
    forall y, In y (set_union ltb l r) <-> In y l \/ In y r.
Proof.
  intros E ltb T Tot l r. unfold set_union.
  destruct (fold_ins ltb T Tot (std_set_union ltb l r) [] (SSorted_nil _)) as [A B].
  split; auto. intros y. rewrite B, (merge_in ltb Tot). cbn. tauto.
Qed.
Example set_union_run : set_union Nat.ltb [1; 3; 5]%nat [2; 3; 8]%nat = [1; 2; 3; 5; 8]%nat.
Proof. reflexivity. Qed.
Print Assumptions pow_int_is_power.
Print Assumptions near_equal_finite.
Print Assumptions near_equal_nan_partial.
Print Assumptions near_equal_infinite_y_refuted.
Print Assumptions set_union_is_union.
