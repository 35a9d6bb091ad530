(** Model of the iterators over an operation sequence, local/play/:
    sequential_iterator.hpp, random_setup.hpp, random_iterator.hpp,
    subgraph_iterator.hpp.  Pointers into var_op and var_arg are offsets; that every
    offset is in range is a theorem.  addr_t and size_t are unbounded. *)
From Coq Require Import List Arith Bool.
From Verif Require Import Op_Model.
Import ListNotations.

(** sequential_iterator.hpp:26-53: the changing members op_cur_, arg_, var_index_, op_ *)
Record itr := mkItr { it_cur : nat; it_arg : nat; it_var : nat; it_op : opvar }.

Section Seq.
  Variables (ops : list opvar) (args : list nat) (num_var : nat).

  Definition op_at (k : nat) : opvar := nth k ops EndOp.
  Definition arg_at (k : nat) : nat := nth k args 0.

  (** 101-125, op_index = 0; 126-140, op_index = size - 1 *)
  Definition seq_begin : itr := mkItr 0 0 0 (op_at 0).
  Definition seq_end : itr :=
    mkItr (length ops - 1) (length args) (num_var - 1) (op_at (length ops - 1)).
  (** 145-158 *)
  Definition seq_inc (i : itr) : itr :=
    let o := op_at (S (it_cur i)) in
    mkItr (S (it_cur i)) (it_arg i + num_arg (it_op i)) (it_var i + num_res o) o.
  (** 163-192 *)
  Definition seq_fix_inc (i : itr) : itr :=
    let a := it_arg i in
    match it_op i with
    | CSumOp => mkItr (it_cur i) (a + (arg_at (a + 4) + 1)) (it_var i) (it_op i)
    | CSkipOp => mkItr (it_cur i) (a + (7 + arg_at (a + 4) + arg_at (a + 5))) (it_var i) (it_op i)
    | _ => i
    end.
  (** 196-209 *)
  Definition seq_dec (i : itr) : itr :=
    let o := op_at (it_cur i - 1) in
    mkItr (it_cur i - 1) (it_arg i - num_arg o) (it_var i - num_res (it_op i)) o.
  (** 217-252: the new value of arg, which is also stored in arg_ *)
  Definition seq_fix_dec (i : itr) : itr :=
    match it_op i with
    | CSumOp | CSkipOp => mkItr (it_cur i) (it_arg i - arg_at (it_arg i - 1)) (it_var i) (it_op i)
    | _ => i
    end.
  (** 268-284: op, offset of its arguments, var_index; with op_index(), 286-287 *)
  Definition op_info (i : itr) : nat * opvar * nat * nat := (it_cur i, it_op i, it_arg i, it_var i).

  Definition is_varlen (o : opvar) : bool :=
    match o with CSumOp | CSkipOp => true | _ => false end.
  (** the loop of a forward sweep, e.g. sweep/forward0.hpp:190-210, 250-290: ++itr, op_info;
      correct_before_increment for CSumOp and CSkipOp; until EndOp.  [n] is a bound
      on the number of operators. *)
  Fixpoint for_loop (n : nat) (i : itr) : list (nat * opvar * nat * nat) :=
    match n with
    | 0 => []
    | S n' =>
      let i1 := seq_inc i in
      match it_op i1 with
      | EndOp => [op_info i1]
      | o => op_info i1 :: for_loop n' (if is_varlen o then seq_fix_inc i1 else i1)
      end
    end.
  (** the loop of a reverse sweep, e.g. sweep/reverse.hpp:300-330: op_info of EndOp,
      then --itr, op_info, with correct_after_decrement for CSumOp and CSkipOp; until BeginOp *)
  Fixpoint rev_loop (n : nat) (i : itr) : list (nat * opvar * nat * nat) :=
    match n with
    | 0 => []
    | S n' =>
      let i1 := seq_dec i in
      let i2 := if is_varlen (it_op i1) then seq_fix_dec i1 else i1 in
      match it_op i2 with
      | BeginOp => [op_info i2]
      | _ => op_info i2 :: rev_loop n' i2
      end
    end.

  (** random_setup.hpp:91-132; the vectors are built in order of i_op.  Entries that are
      not assigned (op2var_index of operators without results, var2op_index of auxiliary
      results) keep the value given by lines 85-89 *)
  Fixpoint setup_loop (n i_op arg_index var_index : nat) (o2a o2v v2o : nat -> nat)
    : (nat -> nat) * (nat -> nat) * (nat -> nat) :=
    match n with
    | 0 => (o2a, o2v, v2o)
    | S n' =>
      let o := op_at i_op in
      let o2a' := fun k => if k =? i_op then arg_index else o2a k in
      let arg1 := arg_index + num_arg o in
      let var1 := var_index + num_res o in
      let o2v' := if 0 <? num_res o then fun k => if k =? i_op then var1 - 1 else o2v k else o2v in
      let v2o' := if 0 <? num_res o then fun k => if k =? var1 - 1 then i_op else v2o k else v2o in
      let arg2 := match o with CSumOp => arg1 + (arg_at (arg1 + 4) + 1) | _ => arg1 end in
      let arg3 := match o with
                  | CSkipOp => arg2 + (7 + arg_at (arg2 + 4) + arg_at (arg2 + 5))
                  | _ => arg2 end in
      setup_loop n' (S i_op) arg3 var1 o2a' o2v' v2o'
    end.
  Definition random_setup : (nat -> nat) * (nat -> nat) * (nat -> nat) :=
    setup_loop (length ops) 0 0 0 (fun _ => 0) (fun _ => num_var) (fun _ => length ops).
End Seq.

(** random_iterator.hpp:23-40: pointers to vectors, null by default *)
Record ritr := mkR {
  r_ops : option (list opvar); r_args : option (list nat);
  r_o2a : option (nat -> nat); r_o2v : option (nat -> nat); r_v2o : option (nat -> nat) }.
(** 47-53; 70-82 with player::get_random (player.hpp) *)
Definition r_default : ritr := mkR None None None None None.
Definition get_random (ops : list opvar) (args : list nat) (num_var : nat) : ritr :=
  let '(o2a, o2v, v2o) := random_setup ops args num_var in
  mkR (Some ops) (Some args) (Some o2a) (Some o2v) (Some v2o).
(** 55-62: does not copy var_arg_ *)
Definition r_assign (l r : ritr) : ritr := mkR (r_ops r) (r_args l) (r_o2a r) (r_o2v r) (r_v2o r).
(** 101-110; None is a null pointer *)
Definition r_op_info (i : ritr) (k : nat) : option (nat * opvar * nat * nat) :=
  match r_ops i, r_args i, r_o2a i, r_o2v i with
  | Some ops, Some _, Some o2a, Some o2v => Some (k, op_at ops k, o2a k, o2v k)
  | _, _, _, _ => None
  end.
(** 121-132 *)
Definition r_var2op (i : ritr) (v : nat) : option nat :=
  match r_v2o i with Some f => Some (f v) | None => None end.

(** subgraph_iterator.hpp:73-121: op_info at each position of the subgraph *)
Definition sub_op_info (i : ritr) (subgraph : list nat) (j : nat) : option (nat * opvar * nat * nat) :=
  match nth_error subgraph j with Some k => r_op_info i k | None => None end.
