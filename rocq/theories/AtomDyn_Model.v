(** Model of atomic functions that have dynamic parameters as results (C38): record/put_dyn_atomic.hpp, the cases atom_dyn and result_dyn of sweep/dynamic.hpp.
    Paths are relative to /repo/include/cppad/local. *)
From Coq Require Import List Bool Arith.
From Verif Require Import Base_Spec Op_Model Tape_Spec Tape_Model Atom_Model.
Import ListNotations.

(** op_code_dyn.hpp: the operators of Op_Model.opdyn and the two that it does not have *)
Inductive dop := Dplain (o : opdyn) | Datom | Dresult.
Section Dyn.
  Context {b : base}.
  Notation T := (bt b).
  (** a recorder; its dyn_par_op_ is the second component (r_dop of the first one is not used) *)
  Definition drec : Type := rec b * list dop.
  Definition push_darg (r : rec b) (l : list nat) : rec b :=
    mkRec (r_cmp r) (r_nvar r) (r_nload r) (r_op r) (r_arg r) (r_vec r) (r_hash r) (r_par r) (r_isdyn r) (r_dop r) (r_darg r ++ l).
  (** record/dyn_recorder.hpp:233-246 put_dyn_par(par, op) *)
  Definition push_dpar (d : drec) (v : T) (o : dop) : drec * nat :=
    let r := fst d in
    ((mkRec (r_cmp r) (r_nvar r) (r_nload r) (r_op r) (r_arg r) (r_vec r) (r_hash r) (r_par r ++ [v]) (r_isdyn r ++ [true]) (r_dop r) (r_darg r), snd d ++ [o]), length (r_par r)).
  (** record/put_dyn_atomic.hpp:121-143 *)
  Definition dput_x1 (r : rec b) (tx : kind * AD b) : rec b :=
    let (t, x) := tx in
    let (r1, a) := if le_con t then put_con_par r (a_val x) else (r, match t with Kdyn => a_taddr x | _ => 0 end) in
    push_darg r1 [a].
  (** 145-176 *)
  Fixpoint dput_ys (tid : nat) (first : bool) (d : drec) (l : list (kind * AD b)) : drec * list (AD b) :=
    match l with
    | [] => (d, [])
    | (t, y) :: l' =>
      let '(d1, a, y1, first1) := match t with
        | Kdyn => let (d1, a) := push_dpar d (a_val y) (if first then Datom else Dresult) in (d1, a, mkAD (a_val y) tid a T_dyn, false)
        | _ => (d, 0, y, first)
        end in
      let (d2, ys) := dput_ys tid first1 (push_darg (fst d1) [a], snd d1) l' in (d2, y1 :: ys)
    end.
  Definition kdyn (t : kind) : bool := match t with Kdyn => true | _ => false end.
  (** 92-178 *)
  Definition put_dyn_atomic (d : drec) (tid atom_index call_id : nat) (type_x type_y : list kind) (ax ay : list (AD b)) : drec * list (AD b) :=
    let num_dyn := length (filter kdyn type_y) in
    let r1 := push_darg (fst d) [atom_index; call_id; length ax; length ay; num_dyn] in
    let r2 := fold_left dput_x1 (combine type_x ax) r1 in
    let (d3, ay') := dput_ys tid true (r2, snd d) (combine type_y ay) in
    ((push_darg (fst d3) [6 + length ax + length ay], snd d3), ay').

  (** *** sweep/dynamic.hpp *)
  Section Sweep.
    Variable isd : nat -> bool.
    (** parameter_x, type_x, need_y, select_y, order_low, order_up, taylor_x, taylor_y -> taylor_y *)
    Variable cb_forward : nat -> nat -> list T -> list kind -> kind -> list bool -> nat -> nat -> list T -> list T -> list T.
    (** what is in the vector taylor_y before the call *)
    Variable junk : nat -> T.
    (** 425-512 *)
    Definition atom_step (args : list nat) (P : nat -> T) : nat -> T :=
      let n := nth 2 args 0 in
      let m := nth 3 args 0 in
      let xa := firstn n (skipn 5 args) in
      let ya := firstn m (skipn (5 + n) args) in
      let taylor_x := map P xa in
      let type_x := map (fun a => if a =? 0 then Kvar else if isd a then Kdyn else Kcon) xa in
      let res := cb_forward (nth 0 args 0) (nth 1 args 0) taylor_x type_x Kdyn (map isd ya) 0 0 taylor_x (map junk (seq 0 m)) in
      fold_left (fun P i => let p := nth i ya 0 in if isd p then fset P p (nth i res bnan) else P) (seq 0 m) P.
    (** 133-562; [fuel] bounds the number of iterations (it is at most the number of operators: n_dyn > 0) *)
    Fixpoint dsweep (fuel : nat) (ops : list dop) (idx args : list nat) (ind : list T) (P : nat -> T) : nat -> T :=
      match fuel with
      | 0 => P
      | S f =>
        match ops, idx with
        | Dplain o :: ops', i :: idx' => let n := num_arg_dyn o in dsweep f ops' idx' (skipn n args) (tl ind) (fset P i (dyn_sem o (firstn n args) (hd b0 ind) P))
        | Dresult :: ops', _ :: idx' => dsweep f ops' idx' args (tl ind) P
        | Datom :: _, _ :: _ =>
          let nd := nth 4 args 0 in
          dsweep f (skipn nd ops) (skipn nd idx) (skipn (6 + nth 2 args 0 + nth 3 args 0) args) (skipn nd ind) (atom_step args P)
        | _, _ => P
        end
      end.
    Definition dsweep_all (d : drec) (ind : list T) (P : nat -> T) : nat -> T :=
      dsweep (length (snd d)) (snd d) (dyn2par (r_isdyn (fst d)) 0) (r_darg (fst d)) ind P.
  End Sweep.
End Dyn.
