(** Model of the Hessian sparsity pattern calculations: ADFun::rev_hes_sparsity and
    ADFun::for_hes_sparsity.  Vectors of sets are modelled as in Spar_Model. *)
From Coq Require Import List Bool Arith.
From Verif Require Import Base_Spec Op_Model Tape_Spec Tape_Model Spar_Model.
Import ListNotations.

(** The state of sweep/rev_hes.hpp: RevJac, rev_hes_sparse, vecad_jac, vecad_sparse *)
Record hst := mkHst { h_R : nat -> bool; h_H : vset; h_wR : nat -> bool; h_wH : vset }.

(** var_op/one_var.hpp:262-285 one_var_rev_hes; [J] is for_jac_sparse *)
Definition one_rev (J : vset) (lin : bool) (z v : nat) (s : hst) : hst :=
  if negb (h_R s z) then s
  else
    let H := sv_union (h_H s) v (h_H s z) in
    let H := if negb lin then sv_union H v (J v) else H in
    mkHst (fset (h_R s) v true) H (h_wR s) (h_wH s).
(** var_op/two_var.hpp:476-523 two_var_rev_hes *)
Definition two_rev (J : vset) (lx ly lxy : bool) (z x y : nat) (s : hst) : hst :=
  if negb (h_R s z) then s
  else
    let H := sv_union (h_H s) x (h_H s z) in
    let H := sv_union H y (H z) in
    let H := if negb lx then sv_union (sv_union H x (J x)) y (J x) else H in
    let H := if negb ly then sv_union (sv_union H x (J y)) y (J y) else H in
    let H := if negb lxy then sv_union (sv_union H x (J y)) y (J x) else H in
    mkHst (fset (fset (h_R s) x true) y true) H (h_wR s) (h_wH s).
(** one argument of cexp_op.hpp:1170-1179 or csum_op.hpp:596-606 *)
Definition arg_rev (z v : nat) (s : hst) : hst :=
  mkHst (fset (h_R s) v (h_R s v || h_R s z)) (sv_union (h_H s) v (h_H s z)) (h_wR s) (h_wH s).

(** sweep/rev_hes.hpp:188-435, one operator; load: load_op.hpp:749-756, store:
    store_op.hpp:557-578.  Atomic function calls are not modelled (no change). *)
Definition rev_hes_op (J : vset) (vi : nat -> nat) (i : ins) (s : hst) : hst :=
  let '(mkIns o a z) := i in
  let a0 := nth 0 a 0 in let a1 := nth 1 a 0 in let a2 := nth 2 a 0 in
  let v := vi (a0 - 1) in
  match o with
  | AbsOp | DivvpOp | NegOp | SubvpOp | ZmulvpOp => one_rev J true z a0 s
  | AcosOp | AcoshOp | AsinOp | AsinhOp | AtanOp | AtanhOp | CosOp | CoshOp | ErfOp | ErfcOp
  | ExpOp | Expm1Op | LogOp | Log1pOp | PowvpOp | SinOp | SinhOp | SqrtOp | TanOp | TanhOp =>
      one_rev J false z a0 s
  | AddpvOp | MulpvOp | SubpvOp | ZmulpvOp => one_rev J true z a1 s
  | PowpvOp | DivpvOp => one_rev J false z a1 s
  | AddvvOp | SubvvOp => two_rev J true true true z a0 a1 s
  | DivvvOp => two_rev J true false false z a0 a1 s
  | MulvvOp | ZmulvvOp => two_rev J true true false z a0 a1 s
  | PowvvOp => two_rev J false false false z a0 a1 s
  | CSumOp => fold_left (fun s j => arg_rev z j s) (arg_range a 5 a2) s
  | CExpOp =>
      let s := if Nat.testbit a1 2 then arg_rev z (nth 4 a 0) s else s in
      if Nat.testbit a1 3 then arg_rev z (nth 5 a 0) s else s
  | LdpOp | LdvOp =>
      mkHst (h_R s) (h_H s) (fset (h_wR s) v (h_wR s v || h_R s z)) (sv_union (h_wH s) v (h_H s z))
  | StpvOp | StvvOp =>
      mkHst (fset (h_R s) a2 (h_R s a2 || h_wR s v)) (sv_union (h_H s) a2 (h_wH s v)) (h_wR s) (h_wH s)
  | _ => s
  end.
(** the operators are visited from last to first *)
Definition rev_hes_sweep (J : vset) (vi : nat -> nat) (l : list ins) (s : hst) : hst :=
  fold_right (rev_hes_op J vi) s l.

(** The state of sweep/for_hes.hpp: rows np1 + v of for_hes_sparse (Jacobian of variable v),
    rows i < np1 (Hessian), vecad_sparsity *)
Record fhst := mkFh { fh_J : vset; fh_H : vset; fh_W : vset }.
(** the loop "for i_u in row x: row i_u gets the union with the set s" *)
Definition add_rows (x s : nat -> bool) (H : vset) : vset := fun u k => H u k || (x u && s k).
(** var_op/one_var.hpp:353-392 one_var_for_hes *)
Definition one_for (lin : bool) (z v : nat) (s : fhst) : fhst :=
  let J := sv_assign (fh_J s) z (fh_J s v) in
  mkFh J (if negb lin then add_rows (J v) (J v) (fh_H s) else fh_H s) (fh_W s).
(** var_op/two_var.hpp:260-370 two_var_for_hes *)
Definition two_for (lx ly lxy : bool) (z x y : nat) (s : fhst) : fhst :=
  let J := sv_assign (fh_J s) z (fun k => fh_J s x k || fh_J s y k) in
  let H := fh_H s in
  let H := if negb lx then add_rows (J x) (if negb lxy then J z else J x) H else H in
  let H := if negb ly then add_rows (J y) (if negb lxy then J z else J y) H else H in
  let H := if negb lxy && lx then add_rows (J x) (J y) H else H in
  let H := if negb lxy && ly then add_rows (J y) (J x) H else H in
  mkFh J H (fh_W s).

(** sweep/for_hes.hpp:235-508, one operator; [R] is rev_jac_sparse (row v contains 0),
    [sel] is select_domain.  The independent variable with index i_var is number i_var - 1
    (count_independent).  load: load_op.hpp:841-850, store: store_op.hpp:670-696, csum:
    csum_op.hpp:663-679.  Operators that fall into the default case of the switch (assertion)
    do not change anything, as for CPPAD_ASSERT_UNKNOWN in a release build. *)
Definition for_hes_op (R : nat -> bool) (sel : nat -> bool) (vi : nat -> nat) (i : ins) (s : fhst) : fhst :=
  let '(mkIns o a z) := i in
  let a0 := nth 0 a 0 in let a1 := nth 1 a 0 in let a2 := nth 2 a 0 in
  let v := vi (a0 - 1) in
  let include := match o with
                 | EndOp | CSkipOp | AFunOp | FunapOp | FunavOp | FunrpOp | FunrvOp
                 | StppOp | StpvOp | StvpOp | StvvOp => true
                 | _ => (0 <? num_res o) && R z
                 end in
  if negb include then s
  else
  match o with
  | InvOp => if sel (z - 1) then mkFh (sv_union (fh_J s) z (Nat.eqb z)) (fh_H s) (fh_W s) else s
  | AbsOp | DivvpOp | SubvpOp | ZmulvpOp => one_for true z a0 s
  | AddpvOp | MulpvOp | SubpvOp => one_for true z a1 s
  | AddvvOp | SubvvOp => two_for true true true z a0 a1 s
  | LdpOp | LdvOp => mkFh (sv_assign (fh_J s) z (fh_W s v)) (fh_H s) (fh_W s)
  | StpvOp | StvvOp => mkFh (fh_J s) (fh_H s) (sv_union (fh_W s) v (fh_J s a2))
  | AcosOp | AsinOp | AtanOp | CosOp | CoshOp | ExpOp | LogOp | NegOp | SinOp | SinhOp | SqrtOp
  | TanOp | TanhOp | AcoshOp | AsinhOp | AtanhOp | Expm1Op | Log1pOp | ErfOp | ErfcOp =>
      one_for false z a0 s
  | CSumOp => mkFh (fold_left (fun J j => sv_union J z (J j)) (arg_range a 5 a2) (sv_clear (fh_J s) z)) (fh_H s) (fh_W s)
  | DivvvOp => two_for true false false z a0 a1 s
  | DivpvOp | PowpvOp => one_for false z a1 s
  | MulvvOp | ZmulvvOp => two_for true true false z a0 a1 s
  | PowvpOp => one_for false z a0 s
  | PowvvOp => two_for false false false z a0 a1 s
  | _ => s
  end.
Definition for_hes_sweep (R sel : nat -> bool) (vi : nat -> nat) (l : list ins) (s : fhst) : fhst :=
  fold_left (fun s i => for_hes_op R sel vi i s) l s.

Section Drv.
  Context {b : base}.
  (** The set vector that for_jac_sparsity leaves in for_jac_sparse_pack_ (internal_bool
      true) or for_jac_sparse_set_ (false) and its end(); core/for_jac_sparsity.hpp:239-301 *)
  Definition for_jac_stored (f : adfun b) (pat : pattern) (transpose dep : bool) : option (vset * nat) :=
    let '(n, ell) := swp transpose (p_nr pat, p_nc pat) in
    if negb (n =? g_n f) then None
    else match decode (r_op (g_rec f)) (r_arg (g_rec f)) 0 with
         | None => None
         | Some l =>
           Some (fst (for_jac_sweep dep (vind (r_vec (g_rec f))) l (set_internal transpose (seq 1 (g_n f)) pat, (fun _ _ => false) : vset)), ell)
         end.
  (** core/rev_hes_sparsity.hpp: the loop rev_jac_pattern[ dep_taddr_[i] ] = select_range[i] *)
  Fixpoint select_dep (R : nat -> bool) (dep : list nat) (sel : list bool) : nat -> bool :=
    match dep, sel with
    | d :: dep', s :: sel' => select_dep (fset R d s) dep' sel'
    | _, _ => R
    end.
  (** core/rev_hes_sparsity.hpp, using what the previous call of for_jac_sparsity with the
      same internal_bool has stored; None: wrong size of select_range *)
  Definition rev_hes_sparsity (f : adfun b) (stored : vset * nat) (select_range : list bool) (transpose : bool) : option pattern :=
    if negb (length select_range =? length (g_dep f)) then None
    else match decode (r_op (g_rec f)) (r_arg (g_rec f)) 0 with
         | None => None
         | Some l =>
           let '(J, ell) := stored in
           let s := rev_hes_sweep J (vind (r_vec (g_rec f))) l
                      (mkHst (select_dep (fun _ => false) (g_dep f) select_range) (fun _ _ => false) (fun _ => false) (fun _ _ => false)) in
           Some (get_internal transpose (seq 1 (g_n f)) ell (h_H s))
         end.
  (** core/for_hes_sparsity.hpp:160-285 *)
  Definition for_hes_sparsity (f : adfun b) (select_domain select_range : list bool) : option pattern :=
    if negb (length select_domain =? g_n f) || negb (length select_range =? length (g_dep f)) then None
    else match decode (r_op (g_rec f)) (r_arg (g_rec f)) 0 with
         | None => None
         | Some l =>
           let R0 := fold_left (fun (U : vset) (ds : nat * bool) => if snd ds then sv_union U (fst ds) (Nat.eqb 0) else U)
                               (combine (g_dep f) select_range) (fun _ _ => false) in
           let R := fst (rev_jac_sweep false (vind (r_vec (g_rec f))) l (R0, (fun _ _ => false) : vset)) in
           let s := for_hes_sweep (fun v => R v 0) (fun j => nth j select_domain false) (vind (r_vec (g_rec f))) l
                      (mkFh (fun _ _ => false) (fun _ _ => false) (fun _ _ => false)) in
           let tmp := get_internal false (seq 1 (g_n f)) (g_n f + 1) (fh_H s) in
           Some (mkPat (g_n f) (g_n f) (map (fun rc => (fst rc, snd rc - 1)) (p_rc tmp)))
         end.
End Drv.
