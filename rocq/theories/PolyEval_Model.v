(** utility/poly.hpp *)
From Coq Require Import List Arith NArith.
From Verif Require Import PolyEval_Spec.
Import ListNotations.

(** size_t arithmetic *)
Definition W : N := (2 ^ 64)%N.
Definition smul (x y : N) : N := N.modulo (N.mul x y) W.

Section M.
  Context {R : Type} (r0 r1 : R) (radd rmul : R -> R -> R).
  (** Type tmp = double(factor) (line 171); the conversions are assumed exact *)
  Variable of_size : N -> R.

  (** lines 179-185: sum = a[d]; while( i > 0 ) { sum *= z; sum += a[--i]; } *)
  Fixpoint horner (a : list R) (z : R) (i : nat) (sum : R) : R :=
    match i with
    | 0 => sum
    | S i' => horner a z i' (radd (rmul sum z) (nth i' a r0))
    end.
  (** k = 0; a[d] is an access outside a when a.size() is 0 *)
  Definition poly0 (a : list R) (z : R) : option R :=
    match a with
    | [] => None
    | _ => let d := length a - 1 in Some (horner a z d (nth d a r0))
    end.

  (** lines 163-165: for(i = 2; i < k; i++) factor *= i, with n = k - i *)
  Fixpoint fact_loop (n i : nat) (factor : N) : N :=
    match n with 0 => factor | S n' => fact_loop n' (S i) (smul factor (N.of_nat i)) end.
  (** lines 169-174, with n = d + 1 - i *)
  Fixpoint b_loop (a : list R) (k n i : nat) (factor : N) : list R :=
    match n with
    | 0 => []
    | S n' =>
      let factor := smul factor (N.of_nat i) in
      rmul (nth i a r0) (of_size factor)
        :: b_loop a k n' (S i) (N.div factor (N.of_nat (i - k + 1)))
    end.
  (** lines 145-186.  d = a.size() - 1 wraps to the largest size_t when a is
      empty: then k > d is false and the code reads outside a. *)
  Definition Poly (k : nat) (a : list R) (z : R) : option R :=
    match a with
    | [] => None
    | _ =>
      let d := length a - 1 in
      if d <? k then Some r0
      else if 0 <? k then
        poly0 (b_loop a k (d - k + 1) k (fact_loop (k - 2) 2 1)) z
      else poly0 a z
    end.
End M.
