(** C06: the conditional expression operator: its arguments (op_code_var.hpp, CExpOp) and its meaning order by order. *)
From Coq Require Import List Arith.
From Verif Require Import Base_Spec Tape_Spec.
Import ListNotations.

(** an argument of the operator: a variable or a parameter, with its index *)
Inductive operand := OVar (v : nat) | OPar (p : nat).
Definition opd_index (o : operand) : nat := match o with OVar v => v | OPar p => p end.
Definition opd_bit (o : operand) (bit : nat) : nat := match o with OVar _ => bit | OPar _ => 0 end.
(** the numeric code of the comparison, local/op_code_var.hpp and core/define.hpp (enum CompareOp) *)
Definition opd_code (c : cexpop) : nat := match c with XLt => 0 | XLe => 1 | XEq => 2 | XGe => 3 | XGt => 4 end.
Definition cond_exp_arg (c : cexpop) (l r t f : operand) : list nat :=
  [opd_code c; opd_bit l 1 + opd_bit r 2 + opd_bit t 4 + opd_bit f 8; opd_index l; opd_index r; opd_index t; opd_index f].
Section Spec.
  Context {b : base}.
  Notation T := (bt b).
  (** order [k] coefficient of an argument; [P]: parameters, [X v k]: order [k] coefficient of variable [v] *)
  Definition opd_coef (P : nat -> T) (X : nat -> nat -> T) (o : operand) (k : nat) : T :=
    match o with OVar v => X v k | OPar p => match k with 0 => P p | S _ => b0 end end.
  (** the branch that is selected by the values of left and right *)
  Definition selected (c : cexpop) (P : nat -> T) (X : nat -> nat -> T) (l r t f : operand) : operand :=
    if b_cmp (cexp_cmp c) (opd_coef P X l 0) (opd_coef P X r 0) then t else f.
  (** [a] is below the result [iv] of the operator *)
  Definition opd_below (iv : nat) (o : operand) : Prop := match o with OVar v => v < iv | OPar _ => True end.
End Spec.
