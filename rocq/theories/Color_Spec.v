(** Specification for the sparse Jacobian and Hessian functions: a matrix, its
    products with a vector, and the laws of the numeric type that are used. *)
From Coq Require Import List Arith.
Import ListNotations.

Record num_laws {T : Type} (zero one : T) (add mul : T -> T -> T) : Prop := {
  add_0_l : forall x, add zero x = x;
  add_0_r : forall x, add x zero = x;
  mul_1_l : forall x, mul one x = x;
  mul_0_l : forall x, mul zero x = zero
}.
Section Spec.
  Context {T : Type} (zero : T) (add mul : T -> T -> T).
  (** sum of f 0, ..., f (n-1) *)
  Fixpoint vsum (n : nat) (f : nat -> T) : T :=
    match n with 0 => zero | S n' => add (vsum n' f) (f n') end.
  (** w^T M, for M with m rows *)
  Definition vec_mat (m : nat) (M : nat -> nat -> T) (w : nat -> T) (j : nat) : T :=
    vsum m (fun i => mul (w i) (M i j)).
  (** M x, for M with n columns (written with the entries of x on the left) *)
  Definition mat_vec (n : nat) (M : nat -> nat -> T) (x : nat -> T) (i : nat) : T :=
    vsum n (fun j => mul (x j) (M i j)).
  (** the pattern contains every possibly non-zero entry of M whose row and
      column both appear in the subset *)
  Definition covers (m n : nat) (M : nat -> nat -> T) (subset pattern : list (nat * nat)) : Prop :=
    forall i j, i < m -> j < n ->
      (exists j', In (i, j') subset) -> (exists i', In (i', j) subset) ->
      ~ In (i, j) pattern -> M i j = zero.
  (** the same, where an index appears if it is a row or a column of the subset *)
  Definition covers_sym (n : nat) (M : nat -> nat -> T) (subset pattern : list (nat * nat)) : Prop :=
    forall i j, i < n -> j < n ->
      (exists k, In (i, k) subset \/ In (k, i) subset) ->
      (exists k, In (j, k) subset \/ In (k, j) subset) ->
      ~ In (i, j) pattern -> M i j = zero.
  (** sparsity patterns of an m by n matrix: the requested entries are entries
      of the pattern *)
  Definition subset_ok (m n : nat) (subset pattern : list (nat * nat)) : Prop :=
    forall i j, In (i, j) subset -> i < m /\ j < n /\ In (i, j) pattern.
  (** the values are the requested entries of M *)
  Definition entries (M : nat -> nat -> T) (subset : list (nat * nat)) (val : nat -> T) : Prop :=
    forall k i j, nth_error subset k = Some (i, j) -> val k = M i j.
End Spec.
