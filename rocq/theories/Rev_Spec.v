(** C11: what the arguments and the result of Reverse(q, w) stand for. *)
From Coq Require Import Reals List Bool Arith.
Import ListNotations.

(** f 0 + f 1 + ... + f (n-1) *)
Definition total (n : nat) (f : nat -> R) : R := fold_right Rplus 0%R (map f (seq 0 n)).
(** Weight of the order k coefficient of dependent variable i: a vector of size m (the
    number of dependent variables) has the weights of order q-1 only, one of size m*q
    has element i*q+k for order k. *)
Definition weight (m q : nat) (w : list R) (i k : nat) : R :=
  if length w =? m then (if k =? q - 1 then nth i w 0%R else 0%R) else nth (i * q + k) w 0%R.
(** The element of the result that belongs to the order k coefficient of independent
    variable j: element j*q+k when w has size m*q; the orders are reversed when w has size m. *)
Definition partial_at (m q : nat) (w z : list R) (j k : nat) : R :=
  if length w =? m then nth (j * q + (q - 1 - k)) z 0%R else nth (j * q + k) z 0%R.
(** the coefficients x (order k of variable i: x k, element i) with order k0 of variable
    j0 increased by s *)
Definition moved (x : nat -> list R) (j0 k0 : nat) (s : R) (i k : nat) : R :=
  if (i =? j0) && (k =? k0) then (nth i (x k) 0 + s)%R else nth i (x k) 0%R.
