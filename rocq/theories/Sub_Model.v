(** Model of the subgraph calculations (C17): subgraph_reverse, subgraph_sparsity,
    subgraph_jac_rev.  Operation sequences contain no atomic function call (AFunOp, FunapOp,
    FunavOp, FunrpOp, FunrvOp), so map_user_op_ is the identity (info.hpp:259-297) and
    entire_call (entire_call.hpp) changes nothing. *)
From Coq Require Import List Bool Arith.
From Verif Require Import Base_Spec Op_Model Tape_Spec Tape_Model Sweep_Model Drv_Model.
Import ListNotations.

(** local/op_code_var.hpp:1103-1319 arg_is_variable; the atomic function and PriOp operators have
    no result and are not passed to it here *)
Definition arg_is_variable (o : opvar) (a : list nat) : list bool :=
  let f := false in let t := true in
  match o with
  | EndOp | InvOp | FunrvOp => []
  | AbsOp | AcoshOp | AcosOp | AsinhOp | AsinOp | AtanhOp | AtanOp | CoshOp | CosOp | Expm1Op | ExpOp
  | Log1pOp | LogOp | NegOp | SignOp | SinhOp | SinOp | SqrtOp | TanhOp | TanOp | FunavOp => [t]
  | BeginOp | ParOp | FunapOp | FunrpOp => [f]
  | AddpvOp | DisOp | DivpvOp | EqpvOp | LepvOp | LtpvOp | MulpvOp | NepvOp | PowpvOp | SubpvOp | ZmulpvOp => [f; t]
  | DivvpOp | LevpOp | LtvpOp | PowvpOp | SubvpOp | ZmulvpOp => [t; f]
  | AddvvOp | DivvvOp | EqvvOp | LevvOp | LtvvOp | MulvvOp | NevvOp | PowvvOp | SubvvOp | ZmulvvOp => [t; t]
  | ErfOp | ErfcOp => [t; f; f]
  | LdpOp | StppOp => [f; f; f]
  | LdvOp | StvpOp => [f; t; f]
  | StpvOp => [f; f; t]
  | StvvOp => [f; t; t]
  | AFunOp => [f; f; f; f]
  | PriOp => [f; Nat.testbit (nth 0 a 0) 0; f; Nat.testbit (nth 0 a 0) 1; f]
  | CExpOp => [f; f; Nat.testbit (nth 1 a 0) 0; Nat.testbit (nth 1 a 0) 1; Nat.testbit (nth 1 a 0) 2; Nat.testbit (nth 1 a 0) 3]
  | CSkipOp => [f; f; Nat.testbit (nth 1 a 0) 0; Nat.testbit (nth 1 a 0) 1] ++ repeat f (3 + nth 4 a 0 + nth 5 a 0)
  | CSumOp => map (fun i => (5 <=? i) && (i <? nth 2 a 0)) (seq 0 (nth 4 a 0 + 1))
  | EqppOp | LeppOp | LtppOp | NeppOp => [f; f]
  end.
(** local/subgraph/arg_variable.hpp:91-100 get_argument_variable *)
Definition argument_variable (o : opvar) (a : list nat) : list nat :=
  map (fun j => nth j a 0)
    (filter (fun j => nth j (arg_is_variable o a) false) (seq 0 (length (arg_is_variable o a)))).

(** local/play/random_setup.hpp:91-106, random_iterator.hpp:121-132: var2op_index is set for the last
    result of each operator; None: an element that was not set *)
Fixpoint var2op (l : list ins) (k v : nat) : option nat :=
  match l with
  | [] => None
  | i :: l' => if (0 <? num_res (i_op i)) && (i_var i =? v) then Some k else var2op l' (S k) v
  end.

(** local/subgraph/info.hpp:20-60: in_subgraph_, select_domain_, process_range_
    (n_dep_ is the number of dependent variables) *)
Record sginfo := mkSg { s_mark : nat -> nat; s_sel : list bool; s_proc : nat -> bool }.
Definition upd_at {A} (g : nat -> A) (k : nat) (x : A) : nat -> A := fun j => if j =? k then x else g j.

Definition is_inv (o : opvar) : bool := match o with InvOp => true | _ => false end.
(** init_rev.hpp:140-149: does some argument belong to an operator marked depend_yes = [m] *)
Fixpoint any_yes (full : list ins) (m : nat) (mark : nat -> nat) (args : list nat) : option bool :=
  match args with
  | [] => Some false
  | x :: args' =>
    match var2op full 0 x, any_yes full m mark args' with
    | Some j, Some r => Some ((mark j =? m) || r)
    | _, _ => None
    end
  end.
(** init_rev.hpp:92-152; the marks are depend_yes = m, depend_no = m + 1 *)
Fixpoint init_marks (full l : list ins) (m : nat) (sel : list bool) (k : nat) (mark : nat -> nat) : option (nat -> nat) :=
  match l with
  | [] => Some mark
  | i :: l' =>
    let yes :=
      if is_inv (i_op i) then Some (nth (k - 1) sel false)
      else if 0 <? num_res (i_op i) then any_yes full m mark (argument_variable (i_op i) (i_arg i)) else Some false in
    match yes with
    | None => None
    | Some y => init_marks full l' m sel (S k) (upd_at mark k (if y then m else S m))
    end
  end.
(** init_rev.hpp:55-158 *)
Definition init_rev (l : list ins) (m : nat) (sel : list bool) : option sginfo :=
  match init_marks l l m sel 0 (fun _ => S m) with
  | None => None
  | Some mark => Some (mkSg mark sel (fun _ => false))
  end.

(** get_rev.hpp:135-150: one argument variable [jv] of the operator being processed *)
Definition visit (l : list ins) (m ell : nat) (sel : list bool) (st : list nat * (nat -> nat)) (jv : nat)
  : option (list nat * (nat -> nat)) :=
  let '(sg, mark) := st in
  match var2op l 0 jv with
  | None => None
  | Some jop =>
    match nth_error l jop with
    | None => None
    | Some i =>
      let add := (mark jop <=? m) && negb (mark jop =? ell) in
      let add := if is_inv (i_op i) then add && nth (jv - 1) sel false else add in
      if add then Some (sg ++ [jop], upd_at mark jop ell) else Some (sg, mark)
    end
  end.
Fixpoint visits (l : list ins) (m ell : nat) (sel : list bool) (args : list nat) (st : list nat * (nat -> nat))
  : option (list nat * (nat -> nat)) :=
  match args with
  | [] => Some st
  | x :: args' => match visit l m ell sel st x with None => None | Some st' => visits l m ell sel args' st' end
  end.
(** get_rev.hpp:121-153 the loop over sub_index; the fuel bounds the number of iterations and
    running out of it is None (Sub_Proof.get_rev_total: one more than the number of operators is enough) *)
Fixpoint bfs (fuel : nat) (l : list ins) (m ell : nat) (sel : list bool) (idx : nat) (st : list nat * (nat -> nat))
  : option (list nat * (nat -> nat)) :=
  match fuel with
  | 0 => None
  | S fuel' =>
    match nth_error (fst st) idx with
    | None => Some st
    | Some iop =>
      match nth_error l iop with
      | None => None
      | Some i =>
        match visits l m ell sel (argument_variable (i_op i) (i_arg i)) st with
        | None => None
        | Some st' => bfs fuel' l m ell sel (S idx) st'
        end
      end
    end
  end.
(** get_rev.hpp:77-154; the caller has checked process_range *)
Definition get_rev (l : list ins) (dep : list nat) (ell : nat) (s : sginfo) : option (list nat * sginfo) :=
  let m := length dep in
  match var2op l 0 (nth ell dep 0) with
  | None => None
  | Some iop =>
    let st := if s_mark s iop <=? m then ([iop], upd_at (s_mark s) iop ell) else ([], s_mark s) in
    match bfs (S (length l)) l m ell (s_sel s) 0 st with
    | None => None
    | Some (sg, mark) => Some (sg, mkSg mark (s_sel s) (upd_at (s_proc s) ell true))
    end
  end.

(** std::sort of a vector of operator indices *)
Fixpoint insert (x : nat) (l : list nat) : list nat :=
  match l with [] => [x] | y :: l' => if x <=? y then x :: l else y :: insert x l' end.
Definition sort (l : list nat) : list nat := fold_right insert [] l.
(** subgraph_reverse.hpp:421-434: the operators 1, ..., n at the start of the sorted vector (its element 0 is BeginOp) *)
Fixpoint take_ind (n : nat) (l : list nat) : list nat :=
  match l with [] => [] | x :: l' => if n <? x then [] else x :: take_ind n l' end.

Section Sub.
  Context {b : base}.
  Notation T := (bt b).
  Variable bnat : nat -> T.

  (** subgraph_reverse.hpp:369-394: the partials of the results of the operators in [sg] are set to zero *)
  Definition zero_op (q : nat) (i : ins) (p : nat -> nat -> T) : nat -> nat -> T :=
    match i_op i with
    | BeginOp => p
    | o => if num_res o =? 0 then p
           else fun v k => if (i_var i + 1 - num_res o <=? v) && (v <=? i_var i) && (k <? q) then b0 else p v k
    end.
  Fixpoint zero_ops (q : nat) (l : list ins) (sg : list nat) (p : nat -> nat -> T) : option (nat -> nat -> T) :=
    match sg with
    | [] => Some p
    | k :: sg' => match nth_error l k with None => None | Some i => zero_ops q l sg' (zero_op q i p) end
    end.
  (** sweep/reverse.hpp:208-686 with the subgraph iterator: the operators in [sg] (increasing), from last to first *)
  Fixpoint sweep_sub (P : nat -> T) (V : nat -> nat -> T) (l2v : nat -> nat) (skip : nat -> bool) (d : nat)
           (l : list ins) (sg : list nat) (p : nat -> nat -> T) : option (nat -> nat -> T) :=
    match sg with
    | [] => Some p
    | k :: sg' =>
      match sweep_sub P V l2v skip d l sg' p, nth_error l k with
      | Some p, Some i => Some (if skip k then p else rev_step bnat P V l2v d i p)
      | _, _ => None
      end
    end.

  (** core/subgraph_reverse.hpp:296-458.  [p0]: the elements of subgraph_partial_ after resize
      (left by earlier calls or not initialized), [dw0]: the elements of dw after resize.
      The test hasnan(dw) (452-455) is not modelled. *)
  Definition subgraph_reverse (f : adq b) (s : sginfo) (q ell : nat) (p0 : nat -> nat -> T) (dw0 : list T)
    : option (list nat * list T * sginfo) :=
    let n := d_n f in
    let m := length (d_dep f) in
    if negb (0 <? q) then None else                                                        (* 313-316 *)
    if negb (q <=? d_ord f) then None else                                                 (* 317-321 *)
    if negb (d_dir f =? 1) then None else                                                  (* 322-326 *)
    if negb (ell <? m) then None else                                                      (* 327-330 *)
    if s_proc s ell then None else                                                         (* 331-335 *)
    match decode (r_op (d_rec f)) (r_arg (d_rec f)) 0 with
    | None => None
    | Some l =>
      match get_rev l (d_dep f) ell s with                                                 (* 338-341 *)
      | None => None
      | Some (sg0, s') =>
        let sg := sort (sg0 ++ [0; length l - 1]) in                                       (* 349-353 *)
        match zero_ops q l sg (fun v k => if k <? q then p0 v k else b0) with              (* 368-394 *)
        | None => None
        | Some p1 =>
          let p2 := pset p1 (nth ell (d_dep f) 0) (q - 1) b1 in                            (* 397 *)
          match sweep_sub (d_par f) (view1 f) (d_l2v f) (d_skip f) (q - 1) l sg p2 with    (* 407-418 *)
          | None => None
          | Some p =>
            let inds := take_ind n (tl sg) in                                              (* 421-434 *)
            let col := map (fun iop => iop - 1) inds in                                    (* 440-447 *)
            let dw := flat_map (fun j => map (fun k =>
                        if existsb (Nat.eqb j) col then p (S j) k else nth (j * q + k) dw0 b0) (seq 0 q)) (seq 0 n) in
            Some (col, dw, s')
          end
        end
      end
    end.

  (** core/subgraph_reverse.hpp:196-239 *)
  Definition select_domain (r : rec b) (n : nat) (dep : list nat) (sel : list bool) : option sginfo :=
    if negb (length sel =? n) then None else
    match decode (r_op r) (r_arg r) 0 with
    | None => None
    | Some l => init_rev l (length dep) sel
    end.

  (** local/subgraph/sparsity.hpp:148-180: rows i, i+1, ... *)
  Fixpoint sg_rows (l : list ins) (dep : list nat) (range : list bool) (i : nat) (s : sginfo)
    : option (list (nat * nat) * sginfo) :=
    match range with
    | [] => Some ([], s)
    | false :: range' => sg_rows l dep range' (S i) s
    | true :: range' =>
      match get_rev l dep i s with
      | None => None
      | Some (sg, s') =>
        match sg_rows l dep range' (S i) s' with
        | None => None
        | Some (rest, s2) =>
          Some (map (fun iop => (i, iop - 1))
                  (filter (fun iop => match nth_error l iop with Some i => is_inv (i_op i) | None => false end) sg) ++ rest, s2)
        end
      end
    end.
  (** core/subgraph_sparsity.hpp:171-243: the pairs (row, column) of pattern_out *)
  Definition subgraph_sparsity (r : rec b) (n : nat) (dep : list nat) (sel range : list bool) (transpose : bool)
    : option (list (nat * nat) * sginfo) :=
    if negb ((length sel =? n) && (length range =? length dep)) then None else
    match decode (r_op r) (r_arg r) 0 with
    | None => None
    | Some l =>
      match init_rev l (length dep) sel with
      | None => None
      | Some s =>
        match sg_rows l dep range 0 s with
        | None => None
        | Some (rc, s') => Some (if transpose then map (fun e => (snd e, fst e)) rc else rc, s')
        end
      end
    end.
End Sub.
