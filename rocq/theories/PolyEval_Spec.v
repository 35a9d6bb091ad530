(** Polynomials as coefficient lists over a commutative ring, their value and
    formal derivative. *)
From Coq Require Import List NArith.
Import ListNotations.
Section S.
  Context {R : Type} (r0 r1 : R) (radd rmul : R -> R -> R).
  (** the ring element 1 + ... + 1 *)
  Fixpoint of_nat (n : nat) : R := match n with 0 => r0 | S n' => radd r1 (of_nat n') end.
  (** a_0 + a_1 z + a_2 z^2 + ... *)
  Fixpoint eval (a : list R) (z : R) : R :=
    match a with [] => r0 | c :: a' => radd c (rmul z (eval a' z)) end.
  (** sum_i (n + i) a_i z^i *)
  Fixpoint der_from (n : nat) (a : list R) : list R :=
    match a with [] => [] | c :: a' => rmul (of_nat n) c :: der_from (S n) a' end.
  Definition der (a : list R) : list R := match a with [] => [] | _ :: a' => der_from 1 a' end.
  Fixpoint der_n (k : nat) (a : list R) : list R :=
    match k with 0 => a | S k' => der (der_n k' a) end.
End S.
