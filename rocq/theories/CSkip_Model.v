(** Model of the conditional skip part of ADFun::optimize (C33): the sets of conditional expressions of get_op_usage.hpp, get_cexp_info.hpp and the
    insertion of CSkipOp in optimize_run.hpp.  The operators are those of the recorder of this model (PriOp, CSumOp and the operators of atomic functions have no case here).
    Simplifications: no operator is removed or merged and the arguments are not renumbered (that part is Opt_Model.v), the cumulative sums are off, and an element
    of a set is the pair of the index of the operator CExpOp and the value of compare instead of 2 * cexp_index + compare
    (cexp2op, get_cexp_info.hpp:166-167, maps the first to the second).  post_element is done at once: process_post (371-374, 135) is always called before a set is read. *)
From Coq Require Import List Bool Arith.
From Verif Require Import Base_Spec Op_Model Tape_Spec Tape_Model Opt_Model.
Import ListNotations.

(** cexp_set: for each operator the pairs (index of CExpOp, result of the comparison for which the operator can be skipped) *)
Definition cset : Type := nat -> bool -> bool.
Definition cempty : cset := fun _ _ => false.
Definition cadd (k : nat) (c : bool) (s : cset) : cset := fun k' c' => ((k' =? k) && Bool.eqb c' c) || s k' c'.
Definition cinter (s t : cset) : cset := fun k c => s k c && t k c.
(** op_usage (yes or no) and cexp_set *)
Definition cst : Type := (nat -> bool) * (nat -> cset).

Section Usage.
  Variable l : list ins.
  (** get_op_usage.hpp:100-140 op_inc_arg_usage; [k] i_result, [v] the variable; i_arg = var2op(v) *)
  Definition use (k : nat) (st : cst) (v : nat) : cst :=
    let '(U, C) := st in
    let j := var2op 0 l v in
    (fset U j true, fset C j (if U j then cinter (C j) (C k) else C k)).
  (** 497-532: a branch of a conditional expression; [c] is compare *)
  Definition use_branch (k : nat) (same c : bool) (st : cst) (v : nat) : cst :=
    let j := var2op 0 l v in
    let can_skip := negb same && negb (fst st j) in
    let '(U, C) := use k st v in
    if can_skip then (U, fset C j (cadd k c (C j))) else (U, C).
  (** 359-852: one operator *)
  Definition cusage_step (cmp : bool) (i : ins) (k : nat) (st : cst) : cst :=
    let '(U, C) := st in
    let o := i_op i in
    let g j := nth j (i_arg i) 0 in
    let m c := Nat.testbit (g 1) c in
    if g_unary o || g_vp o then (if U k then use k st (g 0) else st)                                (* 381-426 *)
    else if g_pv o || g_dis o then (if U k then use k st (g 1) else st)                             (* 429-445 *)
    else if g_vv o then (if U k then use k (use k st (g 0)) (g 1) else st)                          (* 448-465 *)
    else if g_cpp o then (if cmp then (fset U k true, C) else st)                                   (* 576-582 *)
    else if g_cpv o then (if cmp then use k (fset U k true, C) (g 1) else st)                       (* 585-598 *)
    else if g_cvp o then (if cmp then use k (fset U k true, C) (g 0) else st)                       (* 601-612 *)
    else if g_cvv o then (if cmp then use k (use k (fset U k true, C) (g 0)) (g 1) else st)         (* 615-630 *)
    else match o with
    | CExpOp =>                                                                                     (* 469-534 *)
      if U k then
        let st := if m 0 then use k st (g 2) else st in
        let st := if m 1 then use k st (g 3) else st in
        let same := m 2 && m 3 && (g 4 =? g 5) in
        let st := if m 2 then use_branch k same false st (g 4) else st in
        if m 3 then use_branch k same true st (g 5) else st
      else st
    | InvOp | BeginOp | EndOp => (fset U k true, C)                                                 (* 543-547 *)
    | _ => st
    end.
  (** 637-679: the operators of VecAD objects; the sets are not changed.  [W] vecad_used, kept by the offset of the first element as in Opt_Model *)
  Definition cusage_step1 (cmp : bool) (i : ins) (k : nat) (stW : cst * (nat -> bool)) : cst * (nat -> bool) :=
    let '((U, C), W) := stW in
    let g j := nth j (i_arg i) 0 in
    match i_op i with
    | LdpOp => ((U, C), if U k then fset W (g 0) true else W)
    | LdvOp => if U k then ((mark l U (g 1), C), fset W (g 0) true) else stW
    | StpvOp => if W (g 0) then ((mark l (fset U k true) (g 2), C), W) else stW
    | StvvOp => if W (g 0) then ((mark l (mark l (fset U k true) (g 1)) (g 2), C), W) else stW
    | _ => (cusage_step cmp i k (U, C), W)
    end.
  Fixpoint cusage_loop (cmp : bool) (k : nat) (rest : list ins) (stW : cst * (nat -> bool)) : cst * (nat -> bool) :=
    match rest with
    | [] => stW
    | i :: rest' => cusage_step1 cmp i k (cusage_loop cmp (S k) rest' stW)
    end.
  (** 353-361 *)
  Definition cusage (cmp : bool) (dep : list nat) : cst :=
    fst (cusage_loop cmp 0 l (fold_left (mark l) dep (fun _ => false), fun _ => cempty, fun _ => false)).

  (** get_cexp_info.hpp:195-253 skip_op_true ([c] true) and skip_op_false of the conditional expression number [k] *)
  Definition skip_ops (st : cst) (k : nat) (c : bool) : list nat :=
    filter (fun j => fst st j && snd st j k c) (seq 0 (length l)).
  (** 185-190 max_left_right *)
  Definition max_left_right (a : list nat) : nat :=
    let m c := Nat.testbit (nth 1 a 0) c in
    let x := if m 0 then Nat.max 0 (nth 2 a 0) else 0 in
    if m 1 then Nat.max x (nth 3 a 0) else x.

  (** optimize_run.hpp:572-631: for each operator the conditional expression that has its CSkipOp just before the operator, if any.
      [order] the rest of cskip_order, [iv] i_var: the last result of the last operator with results *)
  Fixpoint skip_plan (st : cst) (order : list nat) (iv : nat) (rest : list ins) : list (option nat) :=
    match rest with
    | [] => []
    | i :: rest' =>
      let iv' := if 0 <? num_res (i_op i) then i_var i else iv in
      let head := match i_op i with BeginOp | InvOp => true | _ => false end in
      match order with
      | [] => None :: skip_plan st [] iv' rest'
      | k :: order' =>
        let mlr := max_left_right (match nth_error l k with Some j => i_arg j | None => [] end) in
        if negb head && (if 0 <? num_res (i_op i) then mlr <? iv' else mlr <=? iv') then
          (if (0 <? length (skip_ops st k true)) || (0 <? length (skip_ops st k false)) then Some k else None) :: skip_plan st order' iv' rest'
        else None :: skip_plan st order iv' rest'
      end
    end.
  Definition isSome {A} (x : option A) : bool := match x with Some _ => true | None => false end.
  (** new_op: the index of operator number [j] in the new sequence *)
  Definition new_op (plan : list (option nat)) (j : nat) : nat := j + length (filter isSome (firstn (S j) plan)).
  (** 1303-1343: the arguments of the CSkipOp of the conditional expression number [k] *)
  Definition skip_args (st : cst) (plan : list (option nat)) (k : nat) : list nat :=
    let a := match nth_error l k with Some j => i_arg j | None => [] end in
    let t := map (new_op plan) (skip_ops st k true) in
    let f := map (new_op plan) (skip_ops st k false) in
    [nth 0 a 0; nth 1 a 0; nth 2 a 0; nth 3 a 0; length t; length f] ++ t ++ f ++ [7 + length t + length f].
  (** [nv] results precede *)
  Fixpoint skip_ins (args : nat -> list nat) (plan : list (option nat)) (nv : nat) (rest : list ins) : list ins :=
    match rest, plan with
    | i :: rest', p :: plan' =>
      (match p with Some k => [mkIns CSkipOp (args k) (nv - 1)] | None => [] end) ++ i :: skip_ins args plan' (nv + num_res (i_op i)) rest'
    | _, _ => rest
    end.
End Usage.
(** the operation sequence with conditional skips; [order] is cskip_order (optimize_run.hpp:470-480: the conditional expressions sorted by max_left_right), here the numbers of the operators themselves, in any order, and not all of them need be there *)
Definition cond_skip_ins (cmp : bool) (order dep : list nat) (l : list ins) : list ins :=
  let st := cusage l cmp dep in
  let plan := skip_plan l st order 0 l in
  skip_ins (skip_args l st plan) plan 0 l.

(** get_op_usage.hpp:328-338, 471-474 cexp2op: the conditional expressions of an operation sequence *)
Definition cexp2op (ops : list opvar) : list nat :=
  filter (fun k => match nth_error ops k with Some CExpOp => true | _ => false end) (seq 0 (length ops)).

Section Fun.
  Context {b : base}.
  (** the function object with conditional skips *)
  Definition cond_skip (cmp : bool) (order : list nat) (f : adfun b) : option (adfun b) :=
    let r := g_rec f in
    match decode (r_op r) (r_arg r) 0 with
    | None => None
    | Some l =>
      let l' := cond_skip_ins cmp order (g_dep f) l in
      Some (mkFun (mkRec (r_cmp r) (r_nvar r) (r_nload r) (map i_op l') (concat (map i_arg l')) (r_vec r) (r_hash r) (r_par r) (r_isdyn r) (r_dop r) (r_darg r))
        (g_n f) (g_dep f) (g_par f) (g_V f) (g_l2v f) (g_cc f) (g_num f) (g_opi f))
    end.
End Fun.
