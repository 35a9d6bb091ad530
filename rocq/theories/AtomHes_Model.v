(** Model of the Hessian sparsity sweeps at a call of an atomic function (C38): var_op/atomic_op.hpp (atomic_rev_hes, atomic_for_hes) and core/atomic/three/hes_sparsity.hpp.
    Paths are relative to /repo/include/cppad/local unless core.  A vector of sets is the function that says whether an element is in a set. *)
From Coq Require Import List Bool Arith.
From Verif Require Import Base_Spec Op_Model Tape_Spec Tape_Model Atom_Model.
Import ListNotations.

Section Hes.
  Context {b : base}.
  Notation T := (bt b).
  Variables (isd : nat -> bool) (P : nat -> T).
  (** jac_sparsity: dependency, parameter_x, type_x, select_x, select_y -> pattern; hes_sparsity: parameter_x, type_x, select_x, select_y -> pattern *)
  Variable cb_jac : nat -> nat -> bool -> list T -> list kind -> list bool -> list bool -> list (nat * nat).
  Variable cb_hes : nat -> nat -> list T -> list kind -> list bool -> list bool -> list (nat * nat).
  Notation work := (@work b).

  (** sparse sets: binary_union(target, left, right, other): the set target of [S] becomes the union of the set left of [S] and the set right of [R] *)
  Definition binary_union (S : sets) (target left right : nat) (R : sets) : sets := fun v e => if v =? target then S left e || R right e else S v e.
  Definition in_jac (sel_y sel_x : list bool) (p : nat * nat) : bool := let (i, j) := p in nth i sel_y false && nth j sel_x false.
  Definition in_hes (sel_x : list bool) (p : nat * nat) : bool := let (r, c) := p in nth r sel_x false && nth c sel_x false.

  (** core/atomic/three/hes_sparsity.hpp:324-413; [J] is for_jac_pattern, [fl] is rev_jac_flag *)
  Definition three_rev_hes (atom_index call_id : nat) (w : work) (n m fin : nat) (J : sets) (fl : nat -> bool) (H : sets) : option ((nat -> bool) * sets) :=
    let par := vec (w_par w) n in let typ := vec (w_type w) n in
    let sel_x := vec (fun j => nonempty J fin (w_ix w j)) n in
    let sel_y := vec (fun i => fl (w_iy w i)) m in
    let pj := cb_jac atom_index call_id false par typ sel_x sel_y in
    let ph := cb_hes atom_index call_id par typ sel_x sel_y in
    if forallb (in_jac sel_y sel_x) pj && forallb (in_hes sel_x) ph then
      let H1 := fold_left (fun H '(i, j) => binary_union H (w_ix w j) (w_ix w j) (w_iy w i) H) pj H in
      let fl1 := fold_left (fun fl '(i, j) => fset fl (w_ix w j) true) pj fl in
      let H2 := fold_left (fun H '(r, c) =>
        let H' := binary_union H (w_ix w r) (w_ix w r) (w_ix w c) J in binary_union H' (w_ix w c) (w_ix w c) (w_ix w r) J) ph H1 in
      Some (fl1, H2)
    else None.
  (** var_op/atomic_op.hpp:1406-1590 *)
  Definition atomic_rev_hes (fin : nat) (l : list ins) (w0 : work) (J : sets) (fl : nat -> bool) (H : sets) : option ((nat -> bool) * sets * list ins) :=
    match l with
    | mkIns AFunOp [atom_index; call_id; n; m] _ :: l1 =>
      match down_loop spa_y m l1 w0 with
      | None => None
      | Some (w1, l2) =>
        match down_loop (spa_x isd P) n l2 w1 with
        | Some (w, mkIns AFunOp _ _ :: l3) => match three_rev_hes atom_index call_id w n m fin J fl H with Some p => Some (p, l3) | None => None end
        | _ => None
        end
      end
    | _ => None
    end.

  (** for(v in the set [np1 + src]) set v of S becomes its union with the set [np1 + other]; the iterator is on a set that is not changed *)
  Definition spread (np1 src other : nat) (S : sets) : sets :=
    fold_left (fun S' v => if S (np1 + src) v then binary_union S' v v (np1 + other) S' else S') (seq 0 np1) S.
  (** core/atomic/three/hes_sparsity.hpp:181-280; [R] is rev_jac_pattern; the sets of S are those of the independent variables (less than np1), then those of the variables *)
  Definition three_for_hes (atom_index call_id : nat) (w : work) (n m np1 : nat) (R S : sets) : option sets :=
    let par := vec (w_par w) n in let typ := vec (w_type w) n in
    let sel_x := vec (fun j => nonempty S np1 (np1 + w_ix w j)) n in
    let sel_y := vec (fun i => nonempty R 1 (w_iy w i)) m in
    let pj := cb_jac atom_index call_id false par typ sel_x sel_y in
    let ph := cb_hes atom_index call_id par typ sel_x sel_y in
    if forallb (in_jac sel_y sel_x) pj && forallb (in_hes sel_x) ph then
      let S1 := posts S np1 (map (fun '(i, j) => (np1 + w_iy w i, np1 + w_ix w j)) pj) in
      Some (fold_left (fun S '(r, c) =>
        let S' := spread np1 (w_ix w r) (w_ix w c) S in
        if negb (c =? r) then spread np1 (w_ix w c) (w_ix w r) S' else S') ph S1)
    else None.
  (** var_op/atomic_op.hpp:1655-1850 *)
  Definition atomic_for_hes (np1 : nat) (l : list ins) (w0 : work) (R S : sets) : option (sets * list ins) :=
    match l with
    | mkIns AFunOp [atom_index; call_id; n; m] _ :: l1 =>
      match up_loop (spa_x isd P) 0 n l1 w0 with
      | None => None
      | Some (w1, l2) =>
        match up_loop spa_y 0 m l2 w1 with
        | Some (w, mkIns AFunOp _ _ :: l3) => match three_for_hes atom_index call_id w n m np1 R S with Some S' => Some (S', l3) | None => None end
        | _ => None
        end
      end
    | _ => None
    end.
End Hes.
