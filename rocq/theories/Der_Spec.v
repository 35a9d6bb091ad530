(** C34: partial derivatives of a function of a vector of real numbers. *)
From Coq Require Import Reals List Arith.
From Coquelicot Require Import Coquelicot.
Import ListNotations.

(** the point x + t u *)
Definition shift (x u : list R) (t : R) : list R :=
  map (fun j => (nth j x 0 + t * nth j u 0)%R) (seq 0 (length x)).
(** the j-th elementary vector of size n *)
Definition unit_vec (n j : nat) : list R := map (fun i => if i =? j then 1%R else 0%R) (seq 0 n).
(** d is the partial derivative of F with respect to x_j *)
Definition is_partial (F : list R -> R) (x : list R) (j : nat) (d : R) : Prop :=
  is_derive (fun t => F (shift x (unit_vec (length x) j) t)) 0%R d.
(** d is the partial derivative with respect to x_k of the partial derivative of F with
    respect to x_j *)
Definition is_partial2 (F : list R -> R) (x : list R) (k j : nat) (d : R) : Prop :=
  exists G : R -> R,
    locally 0%R (fun s => is_partial F (shift x (unit_vec (length x) k) s) j (G s)) /\
    is_derive G 0%R d.
