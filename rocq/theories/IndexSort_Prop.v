(** Property C29: index_sort returns a sorting permutation, for every key type
    with a strict weak order, every key vector and every conforming std::sort. *)
From Coq Require Import List Arith Bool Permutation Sorted.
From Verif Require Import IndexSort_Model IndexSort_Proof.
Import ListNotations.

Theorem index_sort_is_sorting_permutation :
  forall (K : Type) (lt : K -> K -> bool) (sort : list (K * nat) -> list (K * nat)) (d : K) (keys : list K),
  strict_weak lt -> std_sort (elem_lt lt) sort ->
  let ind := index_sort sort keys in
  length ind = length keys /\
  Permutation (seq 0 (length keys)) ind /\
  forall i j, i < j < length keys -> lt (nth (nth j ind 0) keys d) (nth (nth i ind 0) keys d) = false.
Proof.
  intros K lt sort d keys W S ind. destruct (index_sort_ok lt sort d keys W S) as [P Q].
  fold ind in P, Q. assert (L : length ind = length keys).
  { rewrite <- (Permutation_length P). apply seq_length. }
  split; [exact L|]. split; [exact P|]. rewrite <- L. clear -Q.
  induction Q as [|a l Q IH F]; cbn; intros i j [H1 H2]; [now apply Nat.nlt_0_r in H2|].
  destruct j as [|j]; [now apply Nat.nlt_0_r in H1|]. apply Nat.succ_lt_mono in H2.
  destruct i as [|i].
  - rewrite Forall_forall in F. apply F. now apply nth_In.
  - apply IH. split; auto. now apply Nat.succ_lt_mono.
Qed.

Example std_sort_exists : std_sort (elem_lt Nat.ltb) (isort (elem_lt Nat.ltb)).
Proof. exact (isort_std _). Qed.
Example index_sort_run : index_sort (isort (elem_lt Nat.ltb)) [5; 3; 9; 3] = [1; 3; 0; 2].
Proof. reflexivity. Qed.
Print Assumptions index_sort_is_sorting_permutation.
