(** C37: the cumulative summation operator: its arguments (op_code_var.hpp, CSumOp) and the
    linear function it stands for. *)
From Coq Require Import Reals List Arith.
Import ListNotations.

(** s0 is the index of the initial parameter; av, sv (ap, sp) are the indices of the
    variables (dynamic parameters) that are added and subtracted *)
Definition csum_arg (s0 : nat) (av sv ap sp : list nat) : list nat :=
  let e1 := 5 + length av in let e2 := e1 + length sv in
  let e3 := e2 + length ap in let e4 := e3 + length sp in
  [s0; e1; e2; e3; e4] ++ av ++ sv ++ ap ++ sp ++ [e4 + 1].

Definition sum_at (f : nat -> R) (l : list nat) : R := fold_right Rplus 0%R (map f l).
(** the order k coefficient of the sum, X v k is the order k coefficient of variable v *)
Definition csum_coef (P : nat -> R) (X : nat -> nat -> R) s0 av sv ap sp (k : nat) : R :=
  ((if k =? 0 then P s0 + sum_at P ap - sum_at P sp else 0)
   + sum_at (fun v => X v k) av - sum_at (fun v => X v k) sv)%R.
