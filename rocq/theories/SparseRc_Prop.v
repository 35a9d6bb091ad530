(** Property C21: sparse_rc behaves as dimensions plus an array of pairs for
    every history of operations on any number of objects; row_major /
    col_major are sorting permutations; == ignores the order. *)
From Coq Require Import List Arith Bool Permutation Sorted.
From Verif Require Import IndexSort_Model IndexSort_Proof SparseRc_Spec SparseRc_Model SparseRc_Proof.
Import ListNotations.

(** After any history that meets the documented preconditions, every object
    has the dimensions and the pairs of the specification, and row_major /
    col_major sort them (cached or not). *)
Theorem sparse_rc_refines_pairs :
  forall sort, std_sort (elem_lt Nat.ltb) sort ->
  forall h, pre_run (fun _ => empty) h ->
  exists s, run sort (fun _ => rc0) h = Some s /\
  forall o, let x := s o in let p := spec_run (fun _ => empty) h o in
    nr_ x = p_nr p /\ nc_ x = p_nc p /\ nnz_ x = length (p_pairs p) /\
    row_ x = map fst (p_pairs p) /\ col_ x = map snd (p_pairs p) /\
    (in_range p ->
       (forall l, row_major sort x = Some l -> sorts row_lt (p_pairs p) l) /\
       (forall l, col_major sort x = Some l -> sorts col_lt (p_pairs p) l) /\
       ((exists l, row_major sort x = Some l) <-> NoDup (p_pairs p)) /\
       ((exists l, col_major sort x = Some l) <-> NoDup (p_pairs p))).
Proof.
  intros sort Hs h Hp. destruct (run_sim sort Hs h _ _ (fun _ => inv0) Hp) as (s & E & I).
  exists s. split; [exact E|]. intros o x p. pose proof (I o) as J. fold x p in J.
  pose proof J as (A & B & C & D & F & _). do 5 (split; [assumption|]). intros R.
  split; [intros l; exact (row_major_sound sort Hs x p l J R)|].
  split; [intros l; exact (col_major_sound sort Hs x p l J R)|]. split; split.
  - intros [l H]. exact (sorts_nodup row_lt row_irr _ _ (row_major_sound sort Hs x p l J R H)).
  - intros N. destruct (row_major_ok sort Hs x p J (conj R N)) as (l & H & _). now exists l.
  - intros [l H]. exact (sorts_nodup col_lt col_irr _ _ (col_major_sound sort Hs x p l J R H)).
  - intros N. destruct (col_major_ok sort Hs x p J (conj R N)) as (l & H & _). now exists l.
Qed.

(** x == y is equality of patterns up to order.  Partial: it excludes the
    states in which *this has a stored row_major (or only a stored col_major)
    and other has not; there the code reads outside a vector (see below). *)
Theorem sparse_rc_equality_partial :
  forall sort, std_sort (elem_lt Nat.ltb) sort ->
  forall h s, pre_run (fun _ => empty) h -> run sort (fun _ => rc0) h = Some s ->
  forall o o2, let p := spec_run (fun _ => empty) h o in let q := spec_run (fun _ => empty) h o2 in
  proper p -> proper q ->
  (row_major_ (s o) <> [] -> row_major_ (s o2) <> []) ->
  (row_major_ (s o) = [] -> col_major_ (s o) <> [] -> col_major_ (s o2) <> []) ->
  exists b, eqb sort (s o) (s o2) = Some b /\ (b = true <-> pat_eq p q).
Proof.
  intros sort Hs h s Hp E o o2 p q Pp Pq C1 C2.
  destruct (run_sim sort Hs h _ _ (fun _ => inv0) Hp) as (s' & E' & I).
  rewrite E in E'. injection E' as <-.
  exact (eqb_ok sort Hs _ _ p q (I o) (I o2) Pp Pq (conj C1 C2)).
Qed.

(** The excluded states are reachable, and there == reads the empty vector
    other.row_major_ (lines 451-453 test this_row_ok twice). *)
Definition ex_h : list op :=
  [Resize 0 2 3 2 (fun _ => 0) (fun _ => 0); Set_ 0 0 1 2; Set_ 0 1 0 1; Copy 1 0; Push 1 1 0;
   Push 0 1 0; SetRowMajor 0].
Definition nsort := isort (elem_lt Nat.ltb).
Theorem sparse_rc_equality_refuted :
  exists h s, pre_run (fun _ => empty) h /\ run nsort (fun _ => rc0) h = Some s /\
    pat_eq (spec_run (fun _ => empty) h 0) (spec_run (fun _ => empty) h 1) /\
    proper (spec_run (fun _ => empty) h 0) /\ eqb nsort (s 0) (s 1) = None.
Proof.
  exists ex_h. eexists. split; [|split; [reflexivity|]].
  - cbn -[proper]. repeat split; try (cbn; auto with arith; fail).
    + repeat constructor.
    + repeat constructor; cbn; intuition congruence.
  - split; [|split].
    + repeat split; cbn. reflexivity.
    + split; [repeat constructor|repeat constructor; cbn; intuition congruence].
    + reflexivity.
Qed.

(** Non-vacuity *)
Example ex_row_major : exists s, run nsort (fun _ => rc0) ex_h = Some s /\
  row_major nsort (s 1) = Some [1; 2; 0] /\ col_major nsort (s 0) = Some [2; 1; 0] /\
  eqb nsort (s 1) (s 0) = Some true.
Proof. eexists. split; [reflexivity|]. repeat split. Qed.
Print Assumptions sparse_rc_refines_pairs.
Print Assumptions sparse_rc_equality_partial.
Print Assumptions sparse_rc_equality_refuted.
