(** Specification for the subgraph calculations (C17): the dependence of a variable on another
    one in an operation sequence, and the weight vector of one component. *)
From Coq Require Import List Bool Arith.
From Verif Require Import Base_Spec Op_Model Tape_Proof2.
Import ListNotations.

(** variable [v] is computed from variable [w]: [w] is [v], or an argument of the operator with
    result [v] is computed from [w] *)
Inductive uses (l : list ins) : nat -> nat -> Prop :=
| uses_refl v : uses l v v
| uses_arg i x w : In i l -> 0 < num_res (i_op i) -> In x (var_args (i_op i) (i_arg i)) -> uses l x w -> uses l (i_var i) w.

(** the weights of Reverse(q, w) in the format of size m * q: one for the order q - 1 coefficient of component [ell],
    zero for the others *)
Definition unit_weight {T} (zero one : T) (m q ell : nat) : list T :=
  flat_map (fun i => map (fun k => if (i =? ell) && (k =? q - 1) then one else zero) (seq 0 q)) (seq 0 m).
