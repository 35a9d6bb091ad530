(** C42: polynomials, the trapezoidal rule, powers of a matrix *)
From Coq Require Import Reals List Arith.
Open Scope R_scope.

(** f 0 + ... + f (n-1) *)
Fixpoint sumn (n : nat) (f : nat -> R) : R := match n with O => 0 | S n' => sumn n' f + f n' end.
(** sum_{i <= d} c i x^i *)
Definition pval (c : nat -> R) (d : nat) (x : R) : R := sumn (S d) (fun i => c i * x ^ i).
(** g is a polynomial function of degree at most d *)
Definition polynomial (d : nat) (g : R -> R) : Prop := exists c, forall x, g x = pval c d x.
(** the trapezoidal rule with N intervals of equal length *)
Definition trapezoid (F : R -> R) (a b : R) (N : nat) : R :=
  let x k := a + (b - a) * INR k / INR N in
  sumn N (fun k => (x (S k) - x k) * (F (x k) + F (x (S k))) / 2).
(** v 0 * ... * v (m-1) *)
Fixpoint product (m : nat) (v : nat -> R) : R := match m with O => 1 | S m' => product m' v * v m' end.
(** the matrix vector product, A is n x n *)
Definition mat_vec (n : nat) (A : nat -> nat -> R) (x : nat -> R) (i : nat) : R := sumn n (fun j => A i j * x j).
(** A^k x *)
Fixpoint mat_pow (n : nat) (A : nat -> nat -> R) (k : nat) (x : nat -> R) : nat -> R :=
  match k with O => x | S k' => mat_vec n A (mat_pow n A k' x) end.
