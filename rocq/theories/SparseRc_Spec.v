(** What a user expects from a sparsity pattern: dimensions and an array of
    (row, column) pairs. *)
From Coq Require Import List Arith Bool Permutation Sorted.
Import ListNotations.

Record pat := mkPat { p_nr : nat; p_nc : nat; p_pairs : list (nat * nat) }.

(** row-major / column-major order of two pairs *)
Definition row_lt (a b : nat * nat) : Prop := fst a < fst b \/ (fst a = fst b /\ snd a < snd b).
Definition col_lt (a b : nat * nat) : Prop := snd a < snd b \/ (snd a = snd b /\ fst a < fst b).

(** [l] lists every index exactly once, in increasing order of the pairs *)
Definition sorts (lt : nat * nat -> nat * nat -> Prop) (ps : list (nat * nat)) (l : list nat) : Prop :=
  Permutation (seq 0 (length ps)) l /\
  StronglySorted (fun i j => lt (nth i ps (0, 0)) (nth j ps (0, 0))) l.

Definition in_range (p : pat) : Prop :=
  Forall (fun q => fst q < p_nr p /\ snd q < p_nc p) (p_pairs p).
Definition proper (p : pat) : Prop := in_range p /\ NoDup (p_pairs p).

(** equality of patterns: same dimensions, same pairs in any order *)
Definition pat_eq (p q : pat) : Prop :=
  p_nr p = p_nr q /\ p_nc p = p_nc q /\ Permutation (p_pairs p) (p_pairs q).

(** the client's operations; objects are numbered.  [fr], [fc] give the
    (unspecified) values of the elements of a vector after resize. *)
Inductive op :=
| Resize (o nr nc nnz : nat) (fr fc : nat -> nat)
| Set_ (o k r c : nat)
| Push (o r c : nat)
| SetRowMajor (o : nat)
| SetColMajor (o : nat)
| Copy (o o2 : nat)
| Swap (o o2 : nat).

Definition put {A} (s : nat -> A) (o : nat) (v : A) : nat -> A := fun k => if k =? o then v else s k.
Fixpoint upd {A} (l : list A) (k : nat) (v : A) : list A :=
  match l, k with
  | [], _ => []
  | _ :: l', 0 => v :: l'
  | x :: l', S k' => x :: upd l' k' v
  end.

Definition empty : pat := mkPat 0 0 [].
Definition spec_step (s : nat -> pat) (a : op) : nat -> pat :=
  match a with
  | Resize o nr nc nnz fr fc => put s o (mkPat nr nc (map (fun k => (fr k, fc k)) (seq 0 nnz)))
  | Set_ o k r c => put s o (mkPat (p_nr (s o)) (p_nc (s o)) (upd (p_pairs (s o)) k (r, c)))
  | Push o r c => put s o (mkPat (p_nr (s o)) (p_nc (s o)) (p_pairs (s o) ++ [(r, c)]))
  | SetRowMajor _ | SetColMajor _ => s
  | Copy o o2 => put s o (s o2)
  | Swap o o2 => put (put s o (s o2)) o2 (s o)
  end.
(** documented preconditions *)
Definition pre (s : nat -> pat) (a : op) : Prop :=
  match a with
  | Set_ o k r c => k < length (p_pairs (s o)) /\ r < p_nr (s o) /\ c < p_nc (s o)
  | Push o r c => r < p_nr (s o) /\ c < p_nc (s o)
  | SetRowMajor o | SetColMajor o => proper (s o)
  | _ => True
  end.
Fixpoint spec_run (s : nat -> pat) (h : list op) : nat -> pat :=
  match h with [] => s | a :: h' => spec_run (spec_step s a) h' end.
Fixpoint pre_run (s : nat -> pat) (h : list op) : Prop :=
  match h with [] => True | a :: h' => pre s a /\ pre_run (spec_step s a) h' end.
