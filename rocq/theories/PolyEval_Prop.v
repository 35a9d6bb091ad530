(** Property C31: Poly(k, a, z) is the k-th derivative. *)
From Coq Require Import List Arith NArith ZArith Ring Lia.
From Verif Require Import PolyEval_Spec PolyEval_Model PolyEval_Proof.
Import ListNotations.

(** For every commutative ring, every non-empty coefficient vector, every z
    and every k, provided d!/(d-k)! fits in a size_t (d is the degree bound).
    [of_size] is the conversion of a size_t to Type, assumed exact. *)
Theorem poly_is_kth_derivative_partial :
  forall (R : Type) (r0 r1 : R) radd rmul rsub ropp,
  ring_theory r0 r1 radd rmul rsub ropp (@eq R) ->
  forall of_size : N -> R, (forall n, of_size (N.of_nat n) = of_nat r0 r1 radd n) ->
  forall k a z, a <> [] ->
  (k < length a -> (N.of_nat (ff (length a - 1) k) < 2 ^ 64)%N) ->
  Poly r0 radd rmul of_size k a z = Some (eval r0 radd rmul (der_n r0 r1 radd rmul k a) z).
Proof.
  intros R r0 r1 radd rmul rsub ropp RT ofs Ho k a z N H.
  destruct (le_lt_dec (length a) k) as [L|L].
  - destruct (Poly_high r0 r1 radd rmul rsub ropp RT ofs k a z N L) as [-> ->]. reflexivity.
  - exact (Poly_ok r0 r1 radd rmul rsub ropp RT ofs Ho k a z N L (H L)).
Qed.

(** The exclusion is necessary: the 21-st derivative of z^21 is 21!, but the
    factor is computed modulo 2^64. *)
Theorem poly_overflow_refuted :
  let a := repeat 0%Z 21 ++ [1%Z] in
  Poly 0%Z Z.add Z.mul Z.of_N 21 a 1%Z <> Some (eval 0%Z Z.add Z.mul (der_n 0%Z 1%Z Z.add Z.mul 21 a) 1%Z) /\
  Poly 0%Z Z.add Z.mul Z.of_N 21 a 1%Z = Some (14197454024290336768)%Z.
Proof.
  split; [|vm_compute; reflexivity].
  rewrite (eval_ext 0%Z 1%Z Z.add Z.mul Z.sub Z.opp InitialRing.Zth _ [51090942171709440000%Z] 1%Z).
  - vm_compute. discriminate.
  - intros i. rewrite (nth_der_n 0%Z 1%Z Z.add Z.mul Z.sub Z.opp InitialRing.Zth).
    destruct i as [|i].
    + assert (O : forall n, of_nat 0%Z 1%Z Z.add n = Z.of_nat n) by (induction n; cbn [of_nat]; lia).
      rewrite O. cbn [Nat.add nth repeat app]. rewrite Z.mul_1_r.
      cbn [ff]. rewrite !Nat2Z.inj_mul. vm_compute. reflexivity.
    + rewrite (nth_overflow (_ ++ _)) by (cbn; lia). destruct i; cbn [nth]; lia.
Qed.

(** An empty vector is read outside its bounds. *)
Example poly_empty : Poly 0%Z Z.add Z.mul Z.of_N 0 [] 3%Z = None.
Proof. reflexivity. Qed.
Example poly_run : Poly 0%Z Z.add Z.mul Z.of_N 2 [5; 4; 3; 2]%Z 10%Z = Some 126%Z.
Proof. reflexivity. Qed.
(** the hypothesis holds e.g. for every derivative of a cubic *)
Example poly_hyp : forall k, k < 4 -> (N.of_nat (ff 3 k) < 2 ^ 64)%N.
Proof. intros [|[|[|[|k]]]] H; try reflexivity. lia. Qed.
Print Assumptions poly_is_kth_derivative_partial.
Print Assumptions poly_overflow_refuted.
