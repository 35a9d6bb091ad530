(** Model of the Jacobian sparsity pattern calculations:
    ADFun::for_jac_sparsity and ADFun::rev_jac_sparsity.

    A vector of sets (local/sparse/pack_setvec.hpp, list_setvec.hpp) is modelled as a function
    from set index and element to bool; that the containers behave like this is the subject of
    SetVec_Spec, PackSetvec_Prop and SizeSetvec_Prop.  Both values of internal_bool then have
    the same model.  CPPAD_ASSERT_UNKNOWN checks are not modelled. *)
From Coq Require Import List Bool Arith.
From Verif Require Import Base_Spec Op_Model Tape_Spec Tape_Model.
Import ListNotations.

Definition vset := nat -> nat -> bool.
(** set_vector assignment(i, j, other) *)
Definition sv_assign (U : vset) (i : nat) (s : nat -> bool) : vset := fset U i s.
(** set_vector clear(i) *)
Definition sv_clear (U : vset) (i : nat) : vset := fset U i (fun _ => false).
(** set_vector binary_union(i, i, j, other): set i of this gets the union with the set [s] *)
Definition sv_union (U : vset) (i : nat) (s : nat -> bool) : vset := fset U i (fun c => U i c || s c).

(** sweep/for_jac.hpp:107-127 (= sweep/rev_jac.hpp:143-163): vecad_ind; the number of VecAD
    vectors, play/player.hpp:282-292, is the number of iterations of this loop.
    [fuel] >= size of var_vecad_ind_. *)
Fixpoint vecad_ind (fuel : nat) (vec : list nat) (j i : nat) (f : nat -> nat) : nat -> nat :=
  match fuel with
  | 0 => f
  | S fuel' => if j <? length vec then vecad_ind fuel' vec (j + nth j vec 0 + 1) (S i) (fset f j i) else f
  end.
Definition vind (vec : list nat) : nat -> nat := vecad_ind (length vec) vec 0 0 (fun _ => length vec).

(** the two set vectors of a sweep: variables and VecAD vectors *)
Definition spst := (vset * vset)%type.

(** sweep/for_jac.hpp:156-426, one operator.
    one_var: var_op/one_var.hpp:105-115, two_var: var_op/two_var.hpp:105-118,
    csum: csum_op.hpp:442-462, cexp: cexp_op.hpp:849-881, load: load_op.hpp:533-563,
    store: store_op.hpp:303-352.  Atomic function calls are not modelled (no change). *)
Definition for_jac_op (dep : bool) (vi : nat -> nat) (i : ins) (s : spst) : spst :=
  let '(U, W) := s in
  let '(mkIns o a z) := i in
  let a0 := nth 0 a 0 in let a1 := nth 1 a 0 in let a2 := nth 2 a 0 in
  let v := vi (a0 - 1) in
  match o with
  | AbsOp | AcosOp | AcoshOp | AsinOp | AsinhOp | AtanOp | AtanhOp | CosOp | CoshOp | DivvpOp
  | ErfOp | ErfcOp | ExpOp | Expm1Op | LogOp | NegOp | Log1pOp | PowvpOp | SinOp | SinhOp
  | SqrtOp | SubvpOp | TanOp | TanhOp | ZmulvpOp => (sv_assign U z (U a0), W)
  | AddpvOp | DivpvOp | MulpvOp | PowpvOp | SubpvOp | ZmulpvOp => (sv_assign U z (U a1), W)
  | AddvvOp | DivvvOp | MulvvOp | PowvvOp | SubvvOp | ZmulvvOp =>
      (sv_assign U z (fun c => U a0 c || U a1 c), W)
  | CSumOp => (fold_left (fun U j => sv_union U z (U j)) (arg_range a 5 a2) (sv_clear U z), W)
  | CExpOp =>
      let U := sv_clear U z in
      let U := if dep then
                 let U := if Nat.testbit a1 0 then sv_union U z (U a2) else U in
                 if Nat.testbit a1 1 then sv_union U z (U (nth 3 a 0)) else U
               else U in
      let U := if Nat.testbit a1 2 then sv_union U z (U (nth 4 a 0)) else U in
      (if Nat.testbit a1 3 then sv_union U z (U (nth 5 a 0)) else U, W)
  | DisOp => (if dep then sv_assign U z (U a1) else sv_clear U z, W)
  | SignOp => (if dep then sv_assign U z (U a0) else sv_clear U z, W)
  | ParOp => (sv_clear U z, W)
  | LdpOp => (sv_assign U z (W v), W)
  | LdvOp => let U := sv_assign U z (W v) in
             (if dep then sv_union U z (U a1) else U, W)
  | StpvOp => (U, sv_union W v (U a2))
  | StvpOp => (U, if dep then sv_union W v (U a1) else W)
  | StvvOp => let W := if dep then sv_union W v (U a1) else W in
              (U, sv_union W v (U a2))
  | _ => (U, W)
  end.
Definition for_jac_sweep (dep : bool) (vi : nat -> nat) (l : list ins) (s : spst) : spst :=
  fold_left (fun s i => for_jac_op dep vi i s) l s.

(** sweep/rev_jac.hpp:190-460, one operator.
    one_var_rev_jac: one_var.hpp:158-170, two_var_rev_jac: two_var.hpp:161-175,
    csum_rev_jac: csum_op.hpp:508-526, cexp_rev_jac: cexp_op.hpp:991-1023,
    load_rev_jac: load_op.hpp:631-658, store_rev_jac: store_op.hpp:418-467. *)
Definition rev_jac_op (dep : bool) (vi : nat -> nat) (i : ins) (s : spst) : spst :=
  let '(U, W) := s in
  let '(mkIns o a z) := i in
  let a0 := nth 0 a 0 in let a1 := nth 1 a 0 in let a2 := nth 2 a 0 in
  let v := vi (a0 - 1) in
  match o with
  | AbsOp | AcosOp | AcoshOp | AsinOp | AsinhOp | AtanOp | AtanhOp | CosOp | CoshOp | DivvpOp
  | ErfOp | ErfcOp | ExpOp | Expm1Op | LogOp | NegOp | Log1pOp | PowvpOp | SinOp | SinhOp
  | SqrtOp | SubvpOp | TanOp | TanhOp | ZmulvpOp => (sv_union U a0 (U z), W)
  | AddpvOp | DivpvOp | MulpvOp | PowpvOp | SubpvOp | ZmulpvOp => (sv_union U a1 (U z), W)
  | AddvvOp | DivvvOp | MulvvOp | PowvvOp | SubvvOp | ZmulvvOp =>
      let U := sv_union U a0 (U z) in (sv_union U a1 (U z), W)
  | CSumOp => (fold_left (fun U j => sv_union U j (U z)) (arg_range a 5 a2) U, W)
  | CExpOp =>
      let U := if dep then
                 let U := if Nat.testbit a1 0 then sv_union U a2 (U z) else U in
                 if Nat.testbit a1 1 then sv_union U (nth 3 a 0) (U z) else U
               else U in
      let U := if Nat.testbit a1 2 then sv_union U (nth 4 a 0) (U z) else U in
      (if Nat.testbit a1 3 then sv_union U (nth 5 a 0) (U z) else U, W)
  | DisOp => (if dep then sv_union U a1 (U z) else U, W)
  | SignOp => (if dep then sv_union U a0 (U z) else U, W)
  | LdpOp => (U, sv_union W v (U z))
  | LdvOp => (if dep then sv_union U a1 (U z) else U, sv_union W v (U z))
  | StpvOp => (sv_union U a2 (W v), W)
  | StvpOp => (if dep then sv_union U a1 (W v) else U, W)
  | StvvOp => let U := if dep then sv_union U a1 (W v) else U in
              (sv_union U a2 (W v), W)
  | _ => (U, W)
  end.
(** the operators are visited from last to first *)
Definition rev_jac_sweep (dep : bool) (vi : nat -> nat) (l : list ins) (s : spst) : spst :=
  fold_right (rev_jac_op dep vi) s l.

(** sparse_rc as seen through nr(), nc(), row(), col() (SparseRc_Model has the full class) *)
Record pattern := mkPat { p_nr : nat; p_nc : nat; p_rc : list (nat * nat) }.
Definition swp (transpose : bool) (rc : nat * nat) : nat * nat := if transpose then (snd rc, fst rc) else rc.

(** local/sparse/internal.hpp:97-140 set_internal_pattern with zero_empty = true and all
    sets initially empty (post_element, process_post: add the posted elements) *)
Definition set_internal (transpose : bool) (index : list nat) (pat : pattern) : vset :=
  fold_left (fun U rc => let '(r, c) := swp transpose rc in
               let v := nth r index 0 in
               if v =? 0 then U else sv_union U v (Nat.eqb c))
            (p_rc pat) (fun _ _ => false).

(** local/sparse/internal.hpp:297-346 get_internal_pattern; [nc] is end() of the sets *)
Definition get_internal (transpose : bool) (index : list nat) (nc : nat) (U : vset) : pattern :=
  let nr := length index in
  let rc := flat_map (fun i => map (fun j => swp transpose (i, j)) (filter (U (nth i index 0)) (seq 0 nc)))
                     (seq 0 nr) in
  if transpose then mkPat nc nr rc else mkPat nr nc rc.

Section Drv.
  Context {b : base}.
  (** core/for_jac_sparsity.hpp:213-303; None: the assertion at line 232 fails
      (or the operation sequence is not well formed).  ind_taddr_[j] = j + 1. *)
  Definition for_jac_sparsity (f : adfun b) (pat : pattern) (transpose dep : bool) : option pattern :=
    let '(n, ell) := swp transpose (p_nr pat, p_nc pat) in
    if negb (n =? g_n f) then None
    else match decode (r_op (g_rec f)) (r_arg (g_rec f)) 0 with
         | None => None
         | Some l =>
           let S0 := set_internal transpose (seq 1 (g_n f)) pat in
           let '(S1, _) := for_jac_sweep dep (vind (r_vec (g_rec f))) l (S0, fun _ _ => false) in
           Some (get_internal transpose (g_dep f) ell S1)
         end.
  (** core/rev_jac_sparsity.hpp:163-255 *)
  Definition rev_jac_sparsity (f : adfun b) (pat : pattern) (transpose dep : bool) : option pattern :=
    let '(ell, m) := swp transpose (p_nr pat, p_nc pat) in
    if negb (m =? length (g_dep f)) then None
    else match decode (r_op (g_rec f)) (r_arg (g_rec f)) 0 with
         | None => None
         | Some l =>
           let S0 := set_internal (negb transpose) (g_dep f) pat in
           let '(S1, _) := rev_jac_sweep dep (vind (r_vec (g_rec f))) l (S0, fun _ _ => false) in
           Some (get_internal (negb transpose) (seq 1 (g_n f)) ell S1)
         end.
End Drv.
