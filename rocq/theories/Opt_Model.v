(** Model of ADFun::optimize (core/optimize.hpp:270-459 and local/optimize/*.hpp) for the options
    no_conditional_skip no_cumulative_sum_op, with or without no_compare_op, and collision_limit=[limit] (C22).
    Release build: an assertion does nothing, and an operator that is not in a switch is ignored.
    Operators PriOp, CSumOp and the operators of atomic functions are not modelled in this file: they do nothing here (the recorder of this model does not record them).
    With these two options there is no cexp_set and no csum_usage, and usage is yes or no. *)
From Coq Require Import List Bool Arith.
From Verif Require Import Base_Spec Op_Model Tape_Spec Tape_Model Tape_Proof.
Import ListNotations.

Definition opdyn_eq_dec : forall o o' : opdyn, {o = o'} + {o <> o'}.
Proof. decide equality. Defined.

(** ** Groups of operators (the case labels of the switches) *)
(** get_op_usage.hpp:381-417 without SubvpOp; the first argument is a variable, the others are not *)
Definition g_unary (o : opvar) : bool :=
  match o with
  | AbsOp | AcosOp | AcoshOp | AsinOp | AsinhOp | AtanOp | AtanhOp | CosOp | CoshOp | ErfOp | ErfcOp | ExpOp | Expm1Op | LogOp | Log1pOp
  | NegOp | SignOp | SinOp | SinhOp | SqrtOp | TanOp | TanhOp => true
  | _ => false
  end.
Definition g_vp (o : opvar) : bool := match o with SubvpOp | DivvpOp | PowvpOp | ZmulvpOp => true | _ => false end.
Definition g_pv (o : opvar) : bool := match o with AddpvOp | SubpvOp | DivpvOp | MulpvOp | PowpvOp | ZmulpvOp => true | _ => false end.
Definition g_vv (o : opvar) : bool := match o with AddvvOp | SubvvOp | DivvvOp | MulvvOp | PowvvOp | ZmulvvOp => true | _ => false end.
Definition g_cpp (o : opvar) : bool := match o with EqppOp | LeppOp | LtppOp | NeppOp => true | _ => false end.
Definition g_cpv (o : opvar) : bool := match o with LepvOp | LtpvOp | EqpvOp | NepvOp => true | _ => false end.
Definition g_cvp (o : opvar) : bool := match o with LevpOp | LtvpOp => true | _ => false end.
Definition g_cvv (o : opvar) : bool := match o with LevvOp | LtvvOp | EqvvOp | NevvOp => true | _ => false end.
Definition g_dis (o : opvar) : bool := match o with DisOp => true | _ => false end.
Definition g_erf (o : opvar) : bool := match o with ErfOp | ErfcOp => true | _ => false end.
Definition g_comm (o : opvar) : bool := match o with AddvvOp | MulvvOp => true | _ => false end.
(** get_op_previous.hpp:174-226: operators that are matched *)
Definition g_match (o : opvar) : bool :=
  g_unary o || g_vp o || g_pv o || g_vv o || g_cpp o || g_cpv o || g_cvp o || g_cvv o || g_dis o.
(** op_code_var.hpp:1104-1270 arg_is_variable, for the operators that are matched *)
Definition arg_is_var (o : opvar) : list bool :=
  if g_erf o then [true; false; false] else if g_unary o then [true]
  else if g_vp o || g_cvp o then [true; false] else if g_pv o || g_dis o || g_cpv o then [false; true]
  else if g_vv o || g_cvv o then [true; true] else if g_cpp o then [false; false] else [].

(** player random iterator var2op: the operator that has [v] as its (last) result; [k] the index of the first operator of [l] *)
Fixpoint var2op (k : nat) (l : list ins) (v : nat) : nat :=
  match l with
  | [] => 0
  | i :: l' => if (0 <? num_res (i_op i)) && (i_var i =? v) then k else var2op (S k) l' v
  end.

(** ** get_op_usage.hpp *)
Definition mark (l : list ins) (U : nat -> bool) (v : nat) : nat -> bool := fset U (var2op 0 l v) true.
(** 359-852: one operator.  [U] op_usage, [W] vecad_used (kept by the offset of the first element, which is what arg[0] is and arg2vecad maps to the number of the VecAD) *)
Definition usage_step (l : list ins) (cmp : bool) (i : ins) (k : nat) (st : (nat -> bool) * (nat -> bool)) : (nat -> bool) * (nat -> bool) :=
  let '(U, W) := st in
  let o := i_op i in
  let g j := nth j (i_arg i) 0 in
  let cx c j U := if Nat.testbit (g 1) c then mark l U (g j) else U in
  if g_unary o || g_vp o then (if U k then mark l U (g 0) else U, W)                            (* 381-426 *)
  else if g_pv o || g_dis o then (if U k then mark l U (g 1) else U, W)                         (* 429-445 *)
  else if g_vv o then (if U k then mark l (mark l U (g 0)) (g 1) else U, W)                     (* 448-465 *)
  else if g_cpp o then (if cmp then fset U k true else U, W)                                    (* 576-582 *)
  else if g_cpv o then (if cmp then mark l (fset U k true) (g 1) else U, W)                     (* 585-598 *)
  else if g_cvp o then (if cmp then mark l (fset U k true) (g 0) else U, W)                     (* 601-612 *)
  else if g_cvv o then (if cmp then mark l (mark l (fset U k true) (g 0)) (g 1) else U, W)      (* 615-630 *)
  else match o with
  | CExpOp => (if U k then cx 3 5 (cx 2 4 (cx 1 3 (cx 0 2 U))) else U, W)                       (* 469-534 *)
  | InvOp | BeginOp | EndOp => (fset U k true, W)                                               (* 543-547 *)
  | LdpOp => (U, if U k then fset W (g 0) true else W)                                          (* 637-643 *)
  | LdvOp => (if U k then mark l U (g 1) else U, if U k then fset W (g 0) true else W)          (* 646-655 *)
  | StpvOp => (if W (g 0) then mark l (fset U k true) (g 2) else U, W)                          (* 658-666 *)
  | StvvOp => (if W (g 0) then mark l (mark l (fset U k true) (g 1)) (g 2) else U, W)           (* 669-679 *)
  | _ => (U, W)                                                                                 (* 538-540, default 850: StppOp and StvpOp *)
  end.
(** 353-361 and the reverse pass 359-853; [rest] are the operators from number [k] on *)
Fixpoint usage_loop (l : list ins) (cmp : bool) (k : nat) (rest : list ins) (st : (nat -> bool) * (nat -> bool)) : (nat -> bool) * (nat -> bool) :=
  match rest with
  | [] => st
  | i :: rest' => usage_step l cmp i k (usage_loop l cmp (S k) rest' st)
  end.
Definition op_usage (l : list ins) (cmp : bool) (dep : list nat) : (nat -> bool) * (nat -> bool) :=
  usage_loop l cmp 0 l (fold_left (mark l) dep (fun _ => false), fun _ => false).

Section Hash.
  (** enum values of the operators, CPPAD_HASH_TABLE_SIZE, the option collision_limit *)
  Variables (opc : opvar -> nat) (dopc : opdyn -> nat) (hsize limit : nat).

  (** hash_code.hpp:33-46 *)
  Definition hash_code (code : nat) (a : list nat) : nat :=
    fst (fold_left (fun '(sum, prime) x => (sum + (prime + 2) * x, prime + 2)) a (code, 1)) mod hsize.

  (** ** match_op.hpp and get_op_previous.hpp *)
  Definition swap_le (m : list nat) : list nat :=
    match m with [x; y] => if y <? x then [y; x] else m | _ => m end.
  (** 205-225 *)
  Definition arg_match (v2p : nat -> nat) (o : opvar) (a : list nat) : list nat :=
    if g_comm o then swap_le [v2p (nth 0 a 0); v2p (nth 1 a 0)]
    else map (fun '(v, x) => if (v : bool) then v2p x else x) (combine (arg_is_var o) a).
  (** 249-270 *)
  Definition same_args (v2p : nat -> nat) (o : opvar) (m ac : list nat) : bool :=
    forallb (fun '(v, (x, y)) => if (v : bool) then x =? v2p y else x =? y) (combine (arg_is_var o) (combine m ac)).
  Definition op_matches (v2p : nat -> nat) (o : opvar) (m : list nat) (c : ins) : bool :=
    (if opvar_eq_dec o (i_op c) then true else false) &&
    (same_args v2p o m (i_arg c) ||
     g_comm o && (nth 0 m 0 =? v2p (nth 1 (i_arg c) 0)) && (nth 1 m 0 =? v2p (nth 0 (i_arg c) 0))).
  (** state of the pass: op_previous, var2previous_var, hash_table_op (the operators of each set in increasing order, each with its op_info) *)
  Definition mst : Type := (nat -> nat) * (nat -> nat) * (nat -> list (nat * ins)).
  (** match_op.hpp:187-295.  op_inc_arg_usage(previous), get_op_previous.hpp:237-245, changes nothing: an operator in the hash table has usage yes. *)
  Definition match_op (i : ins) (k : nat) (st : mst) : mst :=
    let '(prev, v2p, H) := st in
    let m := arg_match v2p (i_op i) (i_arg i) in
    let code := hash_code (opc (i_op i)) m in
    match find (fun '(_, c) => op_matches v2p (i_op i) m c) (H code) with
    | Some (c, ic) => (fset prev k c, if 0 <? num_res (i_op i) then fset v2p (i_var i) (i_var ic) else v2p, H)
    | None => (prev, v2p, fset H code ((if length (H code) =? limit then [] else H code) ++ [(k, i)]))
    end.
  (** get_op_previous.hpp:142-253 *)
  Fixpoint prev_loop (U : nat -> bool) (k : nat) (rest : list ins) (st : mst) : mst :=
    match rest with
    | [] => st
    | i :: rest' => prev_loop U (S k) rest' (if U k && g_match (i_op i) then match_op i k st else st)
    end.
  Definition op_previous (U : nat -> bool) (l : list ins) : nat -> nat :=
    fst (fst (prev_loop U 0 l (fun _ => 0, fun v => v, fun _ => []))).

  (** ** get_par_usage.hpp *)
  (** 155-405: the parameters used by one operator (with no csum_usage: 168-198 mark the parameter in every case) *)
  Definition par_marks (o : opvar) (a : list nat) : list nat :=
    let g i := nth i a 0 in
    let cx c j := if Nat.testbit (g 1) c then [] else [g j] in
    if g_cpp o then [g 0; g 1]                                                          (* 243-250 *)
    else if g_pv o || g_cpv o then [g 0]                                                (* 168-182, 254-266 *)
    else if g_vp o || g_cvp o then [g 1]                                                (* 185-198, 269-278 *)
    else if g_erf o then [g 1; g 2]                                                     (* 281-287 *)
    else match o with
    | ParOp => [g 0]
    | LdpOp | StpvOp => [g 1]
    | StppOp => [g 1; g 2]
    | StvpOp => [g 2]                                                                   (* 290-293 *)
    | CExpOp => cx 0 2 ++ cx 1 3 ++ cx 2 4 ++ cx 3 5                                    (* 296-306 *)
    | _ => []
    end.
  Definition marks (PU : nat -> bool) (l : list nat) : nat -> bool := fold_left (fun PU k => fset PU k true) l PU.
  Fixpoint par_ops (U : nat -> bool) (k : nat) (rest : list ins) (PU : nat -> bool) : nat -> bool :=
    match rest with
    | [] => PU
    | i :: rest' => par_ops U (S k) rest' (if U k then marks PU (par_marks (i_op i) (i_arg i)) else PU)
    end.
  (** 120-138: the initial elements of the VecAD objects that are used; [j] start_this_vector *)
  Fixpoint par_vec (fuel j : nat) (vec : list nat) (W : nat -> bool) (PU : nat -> bool) : nat -> bool :=
    match fuel with
    | 0 => PU
    | S fuel' =>
      if j <? length vec then
        let len := nth j vec 0 in
        par_vec fuel' (j + len + 1) vec W (if W (S j) then marks PU (firstn len (skipn (S j) vec)) else PU)
      else PU
    end.
  (** num_non_par_arg_dyn, op_code_dyn.hpp:312-346 *)
  Definition num_non_par_arg_dyn (o : opdyn) : nat := match o with cond_exp_dyn | dis_dyn => 1 | _ => 0 end.
  (** 409-490: the reverse pass over the dynamic parameters; an entry is (parameter index, operator, arguments) *)
  Fixpoint par_dyn (ds : list (nat * opdyn * list nat)) (PU : nat -> bool) : nat -> bool :=
    match ds with
    | [] => PU
    | (k, o, a) :: ds' => let PU1 := par_dyn ds' PU in if PU1 k then marks PU1 (skipn (num_non_par_arg_dyn o) a) else PU1
    end.
  (** 111-116 and the rest; [nd] n_dyn_independent *)
  Definition par_usage (nd : nat) (U W : nat -> bool) (l : list ins) (vec : list nat) (ds : list (nat * opdyn * list nat)) : nat -> bool :=
    par_dyn ds (par_ops U 0 l (par_vec (length vec) 0 vec W (fun k => k <=? nd))).

  (** ** get_dyn_previous.hpp *)
  (** 223-415: the operators that are matched (not dis, cond_exp; not ind_dyn) *)
  Definition dyn_matched (o : opdyn) : bool := match o with ind_dyn | dis_dyn | cond_exp_dyn => false | _ => true end.
  Definition dyn_comm (o : opdyn) : bool := match o with add_dyn | mul_dyn => true | _ => false end.
  (** state: dyn_previous (by parameter index: None for num_dynamic_par) and hash_table_dyn, with the parameter index, operator and arguments of each element *)
  Definition dst : Type := (nat -> option nat) * (nat -> list (nat * opdyn * list nat)).
  Definition same_dyn (o : opdyn) (m : list nat) (c : nat * opdyn * list nat) : bool :=
    let '(_, oc, ac) := c in
    (if opdyn_eq_dec o oc then true else false) && (if list_eq_dec Nat.eq_dec m (firstn (length m) ac) then true else false).
  (** 60-104 dyn_arg_match: the table dyn_previous of a constant is never set *)
  Definition dyn_arg_match (pv : nat -> option nat) (a : list nat) : list nat :=
    map (fun j => match pv j with Some c => c | None => j end) a.
  Definition key (c : nat * opdyn * list nat) : nat := fst (fst c).
  (** 223-416: one dynamic parameter *)
  Definition match_dyn (PU : nat -> bool) (e : nat * opdyn * list nat) (st : dst) : dst :=
    let '(k, o, a) := e in
    let '(pv, H) := st in
    if PU k && dyn_matched o then
      let m := dyn_arg_match pv a in
      let code := hash_code (dopc o) m in
      let swapped := if dyn_comm o then find (same_dyn o (rev m)) (H (hash_code (dopc o) (rev m))) else None in
      match find (same_dyn o m) (H code) with
      | Some c => (fset pv k (Some (key c)), H)                                                       (* 290-294, 358-362 *)
      | None =>
        match swapped with
        | Some c => (fset pv k (Some (key c)), H)                                                     (* 364-396 *)
        | None => (pv, fset H code ((if length (H code) =? 10 then [] else H code) ++ [e]))           (* 296-305, 397-407 *)
        end
      end
    else st.
  Definition dyn_previous (PU : nat -> bool) (ds : list (nat * opdyn * list nat)) : nat -> option nat :=
    fst (fold_left (fun st e => match_dyn PU e st) ds (fun _ => None, fun _ => [])).

  (** ** optimize_run.hpp *)
  Section Run.
  Context {b : base}.
  Notation T := (bt b).
  (** addr_t_max: new_par of a parameter that is not used *)
  Variable amax : nat.

  (** 336-341 *)
  Fixpoint new_ind (P : nat -> T) (k m : nat) (r : rec b) (np : nat -> nat) : rec b * (nat -> nat) :=
    match m with
    | 0 => (r, np)
    | S m' => let (r1, i) := put_dyn_par r (P k) ind_dyn [] in new_ind P (S k) m' r1 (fset np k i)
    end.
  (** 344-352: [k] i_par; the flags from number [k] on *)
  Fixpoint new_con (P : nat -> T) (PU : nat -> bool) (k : nat) (isd : list bool) (r : rec b) (np : nat -> nat) : rec b * (nat -> nat) :=
    match isd with
    | [] => (r, np)
    | d :: isd' =>
      if negb d && PU k then let (r1, i) := put_con_par r (P k) in new_con P PU (S k) isd' r1 (fset np k i)
      else new_con P PU (S k) isd' r np
    end.
  (** 457-496: the arguments of a dynamic parameter in the new recording *)
  Definition new_dyn_arg (np : nat -> nat) (o : opdyn) (a : list nat) : list nat :=
    match o with cond_exp_dyn | dis_dyn => firstn 1 a ++ map np (skipn 1 a) | _ => map np a end.
  (** 361-508 *)
  Fixpoint new_dyn (P : nat -> T) (PU : nat -> bool) (pv : nat -> option nat) (ds : list (nat * opdyn * list nat)) (r : rec b) (np : nat -> nat) : rec b * (nat -> nat) :=
    match ds with
    | [] => (r, np)
    | (k, o, a) :: ds' =>
      if PU k then
        match pv k with
        | Some c => new_dyn P PU pv ds' r (fset np k (np c))
        | None => let (r1, i) := put_dyn_par r (P k) o (new_dyn_arg np o a) in new_dyn P PU pv ds' r1 (fset np k i)
        end
      else new_dyn P PU pv ds' r np
    end.
  (** 331-508 *)
  Definition new_pars (rf : rec b) (P : nat -> T) (nd : nat) (PU : nat -> bool) (pv : nat -> option nat) (cmp : bool) : rec b * (nat -> nat) :=
    let (r1, _) := put_con_par (rec0 cmp) (P 0) in
    let (r2, np2) := new_ind P 1 nd r1 (fset (fun _ => amax) 0 0) in
    let (r3, np3) := new_con P PU (S nd) (skipn (S nd) (r_isdyn rf)) r2 np2 in
    let (r4, _) := put_con_par r3 b0 in                                                (* 355 *)
    new_dyn P PU pv (skipn nd (dentries rf)) r4 np3.

  (** 517-538: new_vecad_ind *)
  Fixpoint new_vec (fuel j : nat) (vec : list nat) (W : nat -> bool) (np : nat -> nat) (r : rec b) (m : nat -> nat) : rec b * (nat -> nat) :=
    match fuel with
    | 0 => (r, m)
    | S fuel' =>
      if j <? length vec then
        let len := nth j vec 0 in
        let (r1, m1) :=
          if W (S j) then
            let (ra, a) := put_vec_ind r len in
            fold_left (fun '(r, m) k => let (rb, c) := put_vec_ind r (np (nth (j + k) vec 0)) in (rb, fset m (j + k) c)) (seq 1 len) (ra, fset m j a)
          else (r, m) in
        new_vec fuel' (j + len + 1) vec W np r1 m1
      else (r, m)
    end.

  (** the arguments in the new recording, 667-1155; [m] new_var[var2op[.]], [np] new_par, [vi] new_vecad_ind, [nl] rec->num_var_load() *)
  Definition opt_args (m np vi : nat -> nat) (nl : nat) (o : opvar) (a : list nat) : list nat :=
    let g i := nth i a 0 in
    let cx c i := if Nat.testbit (g 1) c then m (g i) else np (g i) in
    if g_unary o then [m (g 0)]                                                         (* 667-695 *)
    else if g_vp o || g_cvp o then [m (g 0); np (g 1)]                                  (* 743-759, record_vp.hpp, 951-962 *)
    else if g_dis o then [g 0; m (g 1)]                                                 (* 762-776 *)
    else if g_pv o || g_cpv o then [np (g 0); m (g 1)]                                  (* 804-821, record_pv.hpp, 936-949 *)
    else if g_vv o || g_cvv o then [m (g 0); m (g 1)]                                   (* 850-866, record_vv.hpp, 964-977 *)
    else if g_cpp o then [np (g 0); np (g 1)]                                           (* 921-934 *)
    else match o with
    | CExpOp => [g 0; g 1; cx 0 2; cx 1 3; cx 2 4; cx 3 5]                              (* 869-909 *)
    | ParOp => [np (g 0)]                                                               (* 990-998 *)
    | LdpOp => [vi (g 0); np (g 1); nl]                                                 (* 1045-1062 *)
    | LdvOp => [vi (g 0); m (g 1); nl]                                                  (* 1065-1083 *)
    | StppOp => [vi (g 0); np (g 1); np (g 2)]                                          (* 1086-1100 *)
    | StvpOp => [vi (g 0); m (g 1); np (g 2)]                                           (* 1103-1118 *)
    | StpvOp => [vi (g 0); np (g 1); m (g 2)]                                           (* 1121-1136 *)
    | StvvOp => [vi (g 0); m (g 1); m (g 2)]                                            (* 1139-1155 *)
    | _ => []
    end.
  Definition is_simple (o : opvar) : bool :=
    match o with CExpOp | ParOp | StppOp | StvpOp | StpvOp | StvvOp => true | _ => false end.
  (** 572-1283: one operator.  [nv] new_var *)
  Definition opt_step (l : list ins) (U : nat -> bool) (prev : nat -> nat) (np vi : nat -> nat) (i : ins) (k : nat) (st : rec b * (nat -> nat)) : rec b * (nat -> nat) :=
    let '(r, nv) := st in
    let o := i_op i in
    let nv0 := fset nv k (if U k then nv (prev k) else 0) in                            (* 582-584 *)
    let a' := opt_args (fun v => nv0 (var2op 0 l v)) np vi (r_nload r) o (i_arg i) in
    let set w := if 0 <? num_res o then fset nv0 k w else nv0 in
    if negb (U k) then (r, nv0)                                                         (* 638-652 *)
    else if g_match o then
      if prev k =? 0 then
        if g_erf o then
          let (r1, w) := put_op (put_arg r a') o in                                     (* 691-709 *)
          let (r2, p0) := put_con_par r1 b0 in
          let (r3, p1) := put_con_par (put_arg r2 [p0]) berf in
          (put_arg r3 [p1], fset nv0 k w)
        else let (r1, w) := put_op (put_arg r a') o in (r1, set w)
      else (r, nv0)
    else if is_simple o then let (r1, w) := put_op (put_arg r a') o in (r1, set w)
    else match o with
    | BeginOp => let (r1, w) := put_op r BeginOp in (put_arg r1 [nth 0 (i_arg i) 0], fset nv0 k w)   (* 656-663 *)
    | EndOp => (fst (put_op r EndOp), nv0)                                              (* 912-917 *)
    | InvOp => let (r1, w) := put_op r InvOp in (r1, fset nv0 k w)                      (* 981-986 *)
    | LdpOp | LdvOp => let (r1, w) := put_load_op (put_arg r a') o in (r1, fset nv0 k w)
    | _ => (r, nv0)
    end.
  Fixpoint opt_loop (l : list ins) (U : nat -> bool) (prev : nat -> nat) (np vi : nat -> nat) (k : nat) (rest : list ins) (st : rec b * (nat -> nat)) : rec b * (nat -> nat) :=
    match rest with
    | [] => st
    | i :: rest' => opt_loop l U prev np vi (S k) rest' (opt_step l U prev np vi i k st)
    end.

  (** optimize.hpp:270-459 with optimize_run.hpp:153-1345.  [nd] is play_.n_dyn_independent().
      The old Taylor coefficients are dropped (412-415); compare_change_count_, ..._number_ and ..._op_index_ are not changed.  None: the operation sequence cannot be read. *)
  Definition optimize (nd : nat) (cmp : bool) (f : adfun b) : option (adfun b) :=
    let rf := g_rec f in
    match decode (r_op rf) (r_arg rf) 0 with
    | None => None
    | Some l =>
      let '(U, W) := op_usage l cmp (g_dep f) in
      let prev := op_previous U l in
      let PU := par_usage nd U W l (r_vec rf) (dentries rf) in
      let pv := dyn_previous PU (dentries rf) in
      let (r1, np) := new_pars rf (g_par f) nd PU pv cmp in
      let (r2, vi) := new_vec (length (r_vec rf)) 0 (r_vec rf) W np r1 (fun _ => length (r_vec rf)) in
      let (r3, nv) := opt_loop l U prev np vi 0 l (r2, fun _ => 0) in
      Some (mkFun r3 (g_n f) (map (fun v => nv (var2op 0 l v)) (g_dep f)) (fun i => nth i (r_par r3) bnan) (g_V f) (g_l2v f) (g_cc f) (g_num f) (g_opi f))
    end.
  End Run.
End Hash.
