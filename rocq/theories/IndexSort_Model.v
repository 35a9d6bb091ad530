(** utility/index_sort.hpp *)
From Coq Require Import List Arith Bool Permutation Sorted.
Import ListNotations.

(** The C++ standard's requirement on operator< of the elements given to
    std::sort (otherwise its behaviour is undefined) *)
Definition strict_weak {A} (lt : A -> A -> bool) : Prop :=
  (forall x, lt x x = false) /\
  (forall x y z, lt x y = true -> lt y z = true -> lt x z = true) /\
  (forall x y z, lt x y = false -> lt y x = false -> lt y z = false -> lt z y = false ->
                 lt x z = false /\ lt z x = false).

(** The C++ standard's contract of std::sort(first, last) (external function):
    the range is permuted, and afterwards no element is < an earlier one. *)
Definition std_sort {A} (lt : A -> A -> bool) (sort : list A -> list A) : Prop :=
  strict_weak lt ->
  forall w, Permutation w (sort w) /\ StronglySorted (fun a b => lt b a = false) (sort w).

(** index_sort.hpp:84-106 class index_sort_element: (key_, index_), compared by
    key_ only (lines 92-93) *)
Definition elem_lt {K} (lt : K -> K -> bool) (a b : K * nat) : bool := lt (fst a) (fst b).

(** index_sort.hpp:130-166.  [sort] is std::sort on the elements.  The
    requirement keys.size() == ind.size() (lines 138-141) fixes the size of
    the result. *)
Definition index_sort {K} (sort : list (K * nat) -> list (K * nat)) (keys : list K) : list nat :=
  let work := combine keys (seq 0 (length keys)) in       (* lines 150-153 *)
  map snd (sort work).                                    (* lines 156-160 *)

(** an implementation of std::sort, to show the contract can be met:
    insertion sort *)
Fixpoint ins {A} (lt : A -> A -> bool) (x : A) (l : list A) : list A :=
  match l with
  | [] => [x]
  | y :: l' => if lt y x then y :: ins lt x l' else x :: l
  end.
Definition isort {A} (lt : A -> A -> bool) (l : list A) : list A := fold_right (ins lt) [] l.
