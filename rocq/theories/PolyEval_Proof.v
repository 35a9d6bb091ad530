From Coq Require Import List Arith NArith Lia Ring.
From Verif Require Import PolyEval_Spec PolyEval_Model.
Import ListNotations.

(** falling factorial n (n-1) ... (n-k+1) *)
Fixpoint ff (n k : nat) : nat := match k with 0 => 1 | S k' => ff n k' * (n - k') end.
Lemma ff_head n k : ff (S n) (S k) = S n * ff n k.
Proof.
  induction k as [|k IH]; cbn [ff]; [lia|]. cbn [ff] in IH. rewrite IH.
  replace (S n - S k) with (n - k) by lia. lia.
Qed.
Lemma ff_pos n k : k <= n -> 1 <= ff n k.
Proof. induction k as [|k IH]; intros H; cbn [ff]; [lia|]. specialize (IH ltac:(lia)). nia. Qed.
Lemma ff_mono n m k : n <= m -> ff n k <= ff m k.
Proof. intros H. induction k as [|k IH]; cbn [ff]; [lia|]. nia. Qed.
Lemma ff_mono_k n k j : j <= k -> k <= n -> ff n j <= ff n k.
Proof.
  intros H K. induction k as [|k IH]; [replace j with 0 by lia; lia|].
  destruct (Nat.eq_dec j (S k)); [subst; lia|]. cbn [ff]. specialize (IH ltac:(lia) ltac:(lia)). nia.
Qed.

Lemma smul_nat a b : (N.of_nat (a * b) < W)%N -> smul (N.of_nat a) (N.of_nat b) = N.of_nat (a * b).
Proof. intros H. unfold smul. rewrite <- Nat2N.inj_mul. now apply N.mod_small. Qed.

Section P.
  Context {R : Type} (r0 r1 : R) (radd rmul rsub : R -> R -> R) (ropp : R -> R).
  Hypothesis RT : ring_theory r0 r1 radd rmul rsub ropp (@eq R).
  Add Ring RR : RT.
  Variable of_size : N -> R.
  Hypothesis Hof : forall n, of_size (N.of_nat n) = of_nat r0 r1 radd n.
  Notation eval := (eval r0 radd rmul).
  Notation der := (der r0 r1 radd rmul).
  Notation der_n := (der_n r0 r1 radd rmul).
  Notation ofn := (of_nat r0 r1 radd).

  Lemma ofn_add m n : ofn (m + n) = radd (ofn m) (ofn n).
  Proof. induction m as [|m IH]; cbn; [ring|]. rewrite IH. ring. Qed.
  Lemma ofn_mul m n : ofn (m * n) = rmul (ofn m) (ofn n).
  Proof. induction m as [|m IH]; cbn; [ring|]. rewrite ofn_add, IH. ring. Qed.

  (** value through coefficients: lists with the same coefficients agree *)
  Lemma eval_ext a : forall b z, (forall i, nth i a r0 = nth i b r0) -> eval a z = eval b z.
  Proof.
    induction a as [|x a IH]; intros b z H.
    - induction b as [|y b IHb]; cbn; auto. pose proof (H 0) as H0. cbn in H0. subst y.
      rewrite <- IHb; [cbn; ring|]. intros i. specialize (H (S i)). cbn in H. destruct i; auto.
    - destruct b as [|y b]; cbn.
      + pose proof (H 0) as H0. cbn in H0. subst. rewrite (IH [] z); [cbn; ring|].
        intros i. specialize (H (S i)). cbn in H. destruct i; auto.
      + pose proof (H 0) as H0. cbn in H0. subst. rewrite (IH b z); auto. intros i. apply (H (S i)).
  Qed.

  Lemma nth_der_from a : forall n j, nth j (der_from r0 r1 radd rmul n a) r0 = rmul (ofn (n + j)) (nth j a r0).
  Proof.
    induction a as [|x a IH]; intros n j; cbn [der_from].
    - destruct j; cbn; ring.
    - destruct j; cbn [nth]; [now rewrite Nat.add_0_r|]. rewrite IH. do 2 f_equal. lia.
  Qed.
  Lemma nth_der a j : nth j (der a) r0 = rmul (ofn (S j)) (nth (S j) a r0).
  Proof. destruct a; cbn [PolyEval_Spec.der]; [destruct j; cbn; ring|]. now rewrite nth_der_from. Qed.
  Lemma nth_der_n k a : forall j, nth j (der_n k a) r0 = rmul (ofn (ff (j + k) k)) (nth (j + k) a r0).
  Proof.
    induction k as [|k IH]; intros j; cbn [PolyEval_Spec.der_n].
    - rewrite Nat.add_0_r. cbn. ring.
    - rewrite nth_der, IH. replace (S j + k) with (j + S k) by lia.
      cbn [ff]. replace (j + S k - k) with (S j) by lia. rewrite !ofn_mul. ring.
  Qed.

  Lemma horner_ok a z : forall i sum,
    horner r0 radd rmul a z i sum = radd (eval (firstn i a) z)
       (rmul sum ((fix p n := match n with 0 => r1 | S n' => rmul z (p n') end) i)) \/ length a < i.
  Proof.
    induction i as [|i IH]; intros sum; cbn [horner].
    - left. cbn. ring.
    - destruct (le_lt_dec (S i) (length a)) as [H|H]; [left|now right].
      destruct (IH (radd (rmul sum z) (nth i a r0))) as [E|E]; [|lia]. rewrite E.
      assert (F : forall (l : list R) n, n < length l -> firstn (S n) l = firstn n l ++ [nth n l r0]).
      { clear. induction l as [|x l IH]; intros [|n] H; cbn in *; try lia; auto.
        now rewrite <- IH by lia. }
      rewrite F by lia. clear F E IH.
      assert (G : forall l x, eval (l ++ [x]) z = radd (eval l z)
         (rmul x ((fix p n := match n with 0 => r1 | S n' => rmul z (p n') end) (length l)))).
      { induction l as [|y l IH]; intros x; cbn; [ring|]. rewrite IH. ring. }
      rewrite G, firstn_length_le by lia. cbn. ring.
  Qed.
  Lemma poly0_ok a z : a <> [] -> poly0 r0 radd rmul a z = Some (eval a z).
  Proof.
    intros N. destruct a as [|x a'] eqn:E; [congruence|]. unfold poly0. rewrite <- E in *. f_equal.
    destruct (horner_ok a z (length a - 1) (nth (length a - 1) a r0)) as [H|H]; [|lia]. rewrite H.
    clear H. assert (L : 1 <= length a) by (subst; cbn; lia). clear E N a' x.
    assert (G : forall l x, eval (l ++ [x]) z = radd (eval l z)
         (rmul x ((fix p n := match n with 0 => r1 | S n' => rmul z (p n') end) (length l)))).
    { induction l as [|y l IH]; intros x; cbn; [ring|]. rewrite IH. ring. }
    rewrite <- (firstn_length_le a (n := length a - 1)) at 3 by lia. rewrite <- G. f_equal.
    assert (K : forall (l : list R) n, S n = length l -> [nth n l r0] = skipn n l).
    { clear. induction l as [|x l IH]; intros [|n] H; cbn in *; try lia.
      - destruct l; auto. discriminate.
      - apply IH. lia. }
    rewrite (K a (length a - 1)) by lia. apply firstn_skipn.
  Qed.

  (** the factor *)
  Lemma fact_loop_ok n : forall i, 2 <= i -> (N.of_nat (ff (i + n - 1) (i + n - 1)) < W)%N ->
    fact_loop n i (N.of_nat (ff (i - 1) (i - 1))) = N.of_nat (ff (i + n - 1) (i + n - 1)).
  Proof.
    induction n as [|n IH]; intros i Hi H; cbn [fact_loop].
    - now replace (i + 0 - 1) with (i - 1) by lia.
    - assert (E : ff (i - 1) (i - 1) * i = ff i i).
      { destruct i as [|i]; [lia|]. replace (S i - 1) with i by lia. rewrite ff_head. lia. }
      rewrite smul_nat.
      + rewrite E. replace i with (S i - 1) at 2 3 by lia. rewrite IH; [|lia|].
        * do 2 f_equal; lia.
        * now replace (S i + n - 1) with (i + S n - 1) by lia.
      + rewrite E. eapply N.le_lt_trans; [|exact H]. 
        assert (ff i i <= ff (i + S n - 1) (i + S n - 1)); [|lia].
        transitivity (ff (i + S n - 1) i); [apply ff_mono; lia|apply ff_mono_k; lia].
  Qed.
  Lemma b_loop_ok (a : list R) k : 1 <= k -> forall n i, k <= i -> (n = 0 \/ (N.of_nat (ff (i + n - 1) k) < W)%N) ->
    b_loop r0 rmul of_size a k n i (N.of_nat (ff (i - 1) (k - 1)))
    = map (fun j => rmul (nth j a r0) (ofn (ff j k))) (seq i n).
  Proof.
    intros Hk. induction n as [|n IH]; intros i Hi H; cbn [b_loop seq map]; auto.
    destruct H as [H|H]; [discriminate|].
    assert (E : ff (i - 1) (k - 1) * i = ff i k).
    { destruct i as [|i]; [lia|]. destruct k as [|k]; [lia|].
      replace (S i - 1) with i by lia. replace (S k - 1) with k by lia. rewrite ff_head. lia. }
    assert (B : ff i k <= ff (i + S n - 1) k) by (apply ff_mono; lia).
    rewrite smul_nat by (rewrite E; lia). rewrite E, Hof. f_equal.
    assert (D : N.div (N.of_nat (ff i k)) (N.of_nat (i - k + 1)) = N.of_nat (ff (S i - 1) (k - 1))).
    { replace (S i - 1) with i by lia. destruct k as [|k]; [lia|]. replace (S k - 1) with k by lia.
      cbn [ff]. replace (i - S k + 1) with (i - k) by lia. rewrite Nat2N.inj_mul. apply N.div_mul. lia. }
    rewrite D. apply IH; [lia|]. right. now replace (S i + n - 1) with (i + S n - 1) by lia.
  Qed.

  Lemma Poly_ok k a z : a <> [] -> k < length a -> (N.of_nat (ff (length a - 1) k) < W)%N ->
    Poly r0 radd rmul of_size k a z = Some (eval (der_n k a) z).
  Proof.
    intros N Hk H. destruct a as [|x a'] eqn:E; [congruence|]. unfold Poly. rewrite <- E in *.
    destruct (Nat.ltb_spec (length a - 1) k); [lia|].
    destruct (Nat.ltb_spec 0 k).
    - assert (F : fact_loop (k - 2) 2 1 = N.of_nat (ff (k - 1) (k - 1))).
      { destruct (le_lt_dec k 1); [replace k with 1 by lia; reflexivity|].
        change 1%N with (N.of_nat (ff (2 - 1) (2 - 1))).
        rewrite fact_loop_ok; [|lia|].
        - do 2 f_equal; lia.
        - replace (2 + (k - 2) - 1) with (k - 1) by lia. eapply N.le_lt_trans; [|exact H].
          assert (ff (k - 1) (k - 1) <= ff (length a - 1) k); [|lia].
          transitivity (ff (length a - 1) (k - 1)); [apply ff_mono; lia|apply ff_mono_k; lia]. }
      rewrite F, b_loop_ok; [|lia|lia|right].
      2:{ now replace (k + (length a - 1 - k + 1) - 1) with (length a - 1) by lia. }
      rewrite poly0_ok.
      + f_equal. apply eval_ext. intros i. rewrite nth_der_n.
        destruct (le_lt_dec (length a - 1 - k + 1) i) as [G|G].
        * rewrite nth_overflow by (rewrite map_length, seq_length; lia).
          rewrite (nth_overflow a) by lia. ring.
        * rewrite (nth_indep _ r0 (rmul (nth 0 a r0) (ofn (ff 0 k)))) by (rewrite map_length, seq_length; lia).
          rewrite (map_nth (fun j => rmul (nth j a r0) (ofn (ff j k)))), seq_nth by lia.
          rewrite (Nat.add_comm k i). ring.
      + rewrite Nat.add_1_r. discriminate.
    - replace k with 0 by lia. rewrite poly0_ok; auto.
  Qed.
  Lemma Poly_high k a z : a <> [] -> length a <= k ->
    Poly r0 radd rmul of_size k a z = Some r0 /\ eval (der_n k a) z = r0.
  Proof.
    intros N Hk. split.
    - unfold Poly. destruct a; [congruence|]. destruct (Nat.ltb_spec (length (r :: a) - 1) k); auto.
      cbn in *. lia.
    - rewrite (eval_ext _ []); auto. intros i. rewrite nth_der_n, (nth_overflow a) by lia.
      destruct i; cbn; ring.
  Qed.
End P.
