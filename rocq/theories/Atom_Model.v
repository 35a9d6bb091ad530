(** Model of the calls of atomic functions (C38): recording of the call (record/put_var_atomic.hpp) and what the sweeps hand to the user's callbacks and
    do with the results (var_op/atomic_op.hpp, core/atomic/three/jac_sparsity.hpp).  Paths are relative to /repo/include/cppad/local unless core.
    The iterator over the player is the list of instructions from its position on (for a reverse iterator: the instructions before it, last one first).
    The work vectors are total functions (their contents before the call are whatever is in them); a callback is handed the elements
    of the vectors as a list.  [None]: an operator that is not expected (an assertion, or undefined).
    The tables taylor and partial are indexed with one number, as in the C++ code. *)
From Coq Require Import List Bool Arith.
From Verif Require Import Base_Spec Op_Model Tape_Spec Tape_Model.
Import ListNotations.

(** core/ad_type.hpp: identical_zero_enum < constant_enum < dynamic_enum < variable_enum *)
Inductive kind := Kzero | Kcon | Kdyn | Kvar.
Definition le_con (k : kind) : bool := match k with Kzero | Kcon => true | _ => false end.

Section Record.
  Context {b : base}.
  Notation T := (bt b).
  (** record/put_var_atomic.hpp:123-137 *)
  Definition put_x1 (r : rec b) (tx : kind * AD b) : rec b :=
    let (t, x) := tx in
    match t with
    | Kvar => fst (put_op (put_arg r [a_taddr x]) FunavOp)
    | _ =>
      let (r1, par) := if le_con t then put_con_par r (a_val x) else (r, a_taddr x) in
      fst (put_op (put_arg r1 [par]) FunapOp)
    end.
  (** 142-155 *)
  Definition put_y1 (tid : nat) (r : rec b) (t : kind) (y : AD b) : rec b * AD b :=
    match t with
    | Kvar => let (r', i) := put_op r FunrvOp in (r', mkAD (a_val y) tid i T_var)
    | _ =>
      let (r1, par) := if le_con t then put_con_par r (a_val y) else (r, a_taddr y) in
      (fst (put_op (put_arg r1 [par]) FunrpOp), y)
    end.
  Fixpoint put_ys (tid : nat) (r : rec b) (l : list (kind * AD b)) : rec b * list (AD b) :=
    match l with
    | [] => (r, [])
    | (t, y) :: l' => let (r1, y1) := put_y1 tid r t y in let (r2, ys) := put_ys tid r1 l' in (r2, y1 :: ys)
    end.
  (** 96-160 *)
  Definition put_var_atomic (r : rec b) (tid atom_index call_id : nat) (type_x type_y : list kind) (ax ay : list (AD b)) : rec b * list (AD b) :=
    let a := [atom_index; call_id; length ax; length ay] in
    let r1 := fst (put_op (put_arg r a) AFunOp) in
    let r2 := fold_left put_x1 (combine type_x ax) r1 in
    let (r3, ay') := put_ys tid r2 (combine type_y ay) in
    (fst (put_op (put_arg r3 a) AFunOp), ay').
End Record.

(** The loops over the argument operators and the result operators; [j] is the index of the argument that is next. *)
Fixpoint up_loop {W} (step : nat -> ins -> W -> option W) (j n : nat) (l : list ins) (w : W) : option (W * list ins) :=
  match n with
  | 0 => Some (w, l)
  | S n' =>
    match l with
    | [] => None
    | i :: l' => match step j i w with Some w' => up_loop step (S j) n' l' w' | None => None end
    end
  end.
Fixpoint down_loop {W} (step : nat -> ins -> W -> option W) (n : nat) (l : list ins) (w : W) : option (W * list ins) :=
  match n with
  | 0 => Some (w, l)
  | S j =>
    match l with
    | [] => None
    | i :: l' => match step j i w with Some w' => down_loop step j l' w' | None => None end
    end
  end.

Section Sweep.
  Context {b : base}.
  Notation T := (bt b).
  (** player: par_is_dyn; parameter *)
  Variables (isd : nat -> bool) (P : nat -> T).
  (** the callbacks, from the index of the atomic function and call_id (sweep/call_atomic.hpp).
      forward: parameter_x, type_x, need_y (variable_enum in these sweeps), select_y, order_low, order_up, taylor_x, taylor_y -> taylor_y *)
  Variable cb_forward : nat -> nat -> list T -> list kind -> kind -> list bool -> nat -> nat -> list T -> list T -> list T.
  (** reverse: parameter_x, type_x, select_x, order_up, taylor_x, taylor_y, partial_x, partial_y -> partial_x *)
  Variable cb_reverse : nat -> nat -> list T -> list kind -> list bool -> nat -> list T -> list T -> list T -> list T -> list T.
  (** jac_sparsity: dependency, parameter_x, type_x, select_x, select_y -> pattern (row, column) *)
  Variable cb_jac : nat -> nat -> bool -> list T -> list kind -> list bool -> list bool -> list (nat * nat).

  (** atomic_op_work *)
  Record work := mkW {
    w_par : nat -> T; w_type : nat -> kind; w_tx : nat -> T; w_ty : nat -> T; w_px : nat -> T; w_py : nat -> T;
    w_ix : nat -> nat; w_iy : nat -> nat; w_vx : nat -> bool; w_vy : nat -> bool }.
  Definition vec {A} (f : nat -> A) (n : nat) : list A := map f (seq 0 n).
  (** for(k = lo; k < hi; ++k) f[base + k] = g(k) *)
  Definition fill (f : nat -> T) (base lo hi : nat) (g : nat -> T) : nat -> T := fold_left (fun f k => fset f (base + k) (g k)) (seq lo (hi - lo)) f.
  Definition kind_of (p : nat) : kind := if isd p then Kdyn else Kcon.

  (** *** var_op/atomic_op.hpp:217-397 atomic_forward_any *)
  Section Forward.
    Variables (cap low up : nat).
    Let q := up + 1.
    (** 281-311 *)
    Definition fwd_x (tab : nat -> T) (j : nat) (i : ins) (w : work) : option work :=
      let a := nth 0 (i_arg i) 0 in
      match i_op i with
      | FunapOp =>
        Some (mkW (fset (w_par w) j (P a)) (fset (w_type w) j (kind_of a)) (fill (fset (w_tx w) (j * q + 0) (P a)) (j * q) 1 q (fun _ => b0))
                  (w_ty w) (w_px w) (w_py w) (w_ix w) (w_iy w) (w_vx w) (w_vy w))
      | FunavOp =>
        Some (mkW (fset (w_par w) j bnan) (fset (w_type w) j Kvar) (fill (w_tx w) (j * q) 0 q (fun k => tab (a * cap + k)))
                  (w_ty w) (w_px w) (w_py w) (w_ix w) (w_iy w) (w_vx w) (w_vy w))
      | _ => None
      end.
    (** 321-354; index_y is not used for a parameter (the largest size_t) *)
    Definition fwd_y (tab : nat -> T) (k : nat) (i : ins) (w : work) : option work :=
      match i_op i with
      | FunrpOp =>
        let ty1 := if 0 <? low then fset (w_ty w) (k * q + 0) (P (nth 0 (i_arg i) 0)) else w_ty w in
        Some (mkW (w_par w) (w_type w) (w_tx w) (fill ty1 (k * q) 1 low (fun _ => b0)) (w_px w) (w_py w) (w_ix w) (w_iy w) (w_vx w) (fset (w_vy w) k false))
      | FunrvOp =>
        Some (mkW (w_par w) (w_type w) (w_tx w) (fill (w_ty w) (k * q) 0 low (fun o => tab (i_var i * cap + o))) (w_px w) (w_py w) (w_ix w)
                  (fset (w_iy w) k (i_var i)) (w_vx w) (fset (w_vy w) k true))
      | _ => None
      end.
    (** 377-394 *)
    Definition fwd_out (w : work) (res : list T) (m : nat) (tab : nat -> T) : nat -> T :=
      fold_left (fun tab i => if w_vy w i then fill tab (w_iy w i * cap) low q (fun k => nth (i * q + k) res bnan) else tab) (seq 0 m) tab.
    Definition atomic_forward_any (l : list ins) (w0 : work) (tab : nat -> T) : option ((nat -> T) * list ins) :=
      match l with
      | mkIns AFunOp [atom_index; call_id; n; m] _ :: l1 =>
        match up_loop (fwd_x tab) 0 n l1 w0 with
        | None => None
        | Some (w1, l2) =>
          match up_loop (fwd_y tab) 0 m l2 w1 with
          | Some (w, mkIns AFunOp _ _ :: l3) =>
            let res := cb_forward atom_index call_id (vec (w_par w) n) (vec (w_type w) n) Kvar (vec (w_vy w) m) low up (vec (w_tx w) (n * q)) (vec (w_ty w) (m * q)) in
            Some (fwd_out w res m tab, l3)
          | _ => None
          end
        end
      | _ => None
      end.
  End Forward.

  (** *** 428-651 atomic_forward_dir; order_low = order_up *)
  Section Dir.
    Variables (cap up ndir : nat).
    Let q := up + 1.
    (** 447-454 *)
    Definition tindex (v order dir : nat) : nat := v * ((cap - 1) * ndir + 1) + (if 0 <? order then (order - 1) * ndir + 1 + dir else 0).
    (** 507-533 *)
    Definition dir_x (j : nat) (i : ins) (w : work) : option work :=
      let a := nth 0 (i_arg i) 0 in
      match i_op i with
      | FunapOp => Some (mkW (fset (w_par w) j (P a)) (fset (w_type w) j (kind_of a)) (w_tx w) (w_ty w) (w_px w) (w_py w) (w_ix w) (w_iy w) (w_vx w) (w_vy w))
      | FunavOp => Some (mkW (fset (w_par w) j bnan) (fset (w_type w) j Kvar) (w_tx w) (w_ty w) (w_px w) (w_py w) (fset (w_ix w) j a) (w_iy w) (w_vx w) (w_vy w))
      | _ => None
      end.
    (** 543-570 *)
    Definition dir_y (k : nat) (i : ins) (w : work) : option work :=
      match i_op i with
      | FunrpOp => Some (mkW (w_par w) (w_type w) (w_tx w) (w_ty w) (w_px w) (w_py w) (w_ix w) (fset (w_iy w) k (nth 0 (i_arg i) 0)) (w_vx w) (fset (w_vy w) k false))
      | FunrvOp => Some (mkW (w_par w) (w_type w) (w_tx w) (w_ty w) (w_px w) (w_py w) (w_ix w) (fset (w_iy w) k (i_var i)) (w_vx w) (fset (w_vy w) k true))
      | _ => None
      end.
    (** 582-594 *)
    Definition dir_tx (w : work) (tab : nat -> T) (n dir : nat) (tx : nat -> T) : nat -> T :=
      fold_left (fun tx j => match w_type w j with
        | Kvar => fill tx (j * q) 0 q (fun k => tab (tindex (w_ix w j) k dir))
        | _ => fill (fset tx (j * q + 0) (w_par w j)) (j * q) 1 q (fun _ => b0) end) (seq 0 n) tx.
    (** 597-610 *)
    Definition dir_ty (w : work) (tab : nat -> T) (m dir : nat) (ty : nat -> T) : nat -> T :=
      fold_left (fun ty i => if w_vy w i then fill ty (i * q) 0 up (fun k => tab (tindex (w_iy w i) k dir))
        else fill (if 0 <? up then fset ty (i * q + 0) (P (w_iy w i)) else ty) (i * q) 1 up (fun _ => b0)) (seq 0 m) ty.
    (** 626-630 *)
    Definition dir_out (w : work) (res : list T) (m dir : nat) (tab : nat -> T) : nat -> T :=
      fold_left (fun tab i => if w_vy w i then fold_left (fun tab k => fset tab (tindex (w_iy w i) k dir) (nth (i * q + k) res bnan)) (seq up (q - up)) tab else tab) (seq 0 m) tab.
    (** 578-648; the vector taylor_y of one direction is what the callback left for the previous one *)
    Fixpoint dir_loop (atom_index call_id n m : nat) (w : work) (k dir : nat) (tx ty tab : nat -> T) : nat -> T :=
      match k with
      | 0 => tab
      | S k' =>
        let tx1 := dir_tx w tab n dir tx in
        let ty1 := dir_ty w tab m dir ty in
        let res := cb_forward atom_index call_id (vec (w_par w) n) (vec (w_type w) n) Kvar (vec (w_vy w) m) up up (vec tx1 (n * q)) (vec ty1 (m * q)) in
        dir_loop atom_index call_id n m w k' (S dir) tx1 (fun i => nth i res bnan) (dir_out w res m dir tab)
      end.
    Definition atomic_forward_dir (l : list ins) (w0 : work) (tab : nat -> T) : option ((nat -> T) * list ins) :=
      match l with
      | mkIns AFunOp [atom_index; call_id; n; m] _ :: l1 =>
        match up_loop dir_x 0 n l1 w0 with
        | None => None
        | Some (w1, l2) =>
          match up_loop dir_y 0 m l2 w1 with
          | Some (w, mkIns AFunOp _ _ :: l3) => Some (dir_loop atom_index call_id n m w ndir 0 (w_tx w) (w_ty w) tab, l3)
          | _ => None
          end
        end
      | _ => None
      end.
  End Dir.

  (** *** 718-910 atomic_reverse; [q] is n_order *)
  Section Reverse.
    Variables (cap q : nat).
    (** 787-825 *)
    Definition rev_y (tab part : nat -> T) (k : nat) (i : ins) (w : work) : option work :=
      match i_op i with
      | FunrpOp =>
        Some (mkW (w_par w) (w_type w) (w_tx w) (fill (fset (w_ty w) (k * q + 0) (P (nth 0 (i_arg i) 0))) (k * q) 1 q (fun _ => b0))
                  (w_px w) (fill (fset (w_py w) (k * q + 0) b0) (k * q) 1 q (fun _ => b0)) (w_ix w) (w_iy w) (w_vx w) (w_vy w))
      | FunrvOp =>
        Some (mkW (w_par w) (w_type w) (w_tx w) (fill (w_ty w) (k * q) 0 q (fun o => tab (i_var i * cap + o)))
                  (w_px w) (fill (w_py w) (k * q) 0 q (fun o => part (i_var i * q + o))) (w_ix w) (w_iy w) (w_vx w) (w_vy w))
      | _ => None
      end.
    (** 844-878 *)
    Definition rev_x (tab : nat -> T) (j : nat) (i : ins) (w : work) : option work :=
      let a := nth 0 (i_arg i) 0 in
      match i_op i with
      | FunapOp =>
        Some (mkW (fset (w_par w) j (P a)) (fset (w_type w) j (kind_of a)) (fill (fset (w_tx w) (j * q + 0) (P a)) (j * q) 1 q (fun _ => b0))
                  (w_ty w) (w_px w) (w_py w) (fset (w_ix w) j a) (w_iy w) (fset (w_vx w) j false) (w_vy w))
      | FunavOp =>
        Some (mkW (fset (w_par w) j bnan) (fset (w_type w) j Kvar) (fill (w_tx w) (j * q) 0 q (fun k => tab (a * cap + k)))
                  (w_ty w) (w_px w) (w_py w) (fset (w_ix w) j a) (w_iy w) (fset (w_vx w) j true) (w_vy w))
      | _ => None
      end.
    (** 900-907 *)
    Definition rev_out (w : work) (px : list T) (n : nat) (part : nat -> T) : nat -> T :=
      fold_left (fun part j => if w_vx w j then
        fold_left (fun part k => let i := w_ix w j * q + k in fset part i (b_bin Badd (part i) (nth (j * q + k) px bnan))) (seq 0 q) part else part) (seq 0 n) part.
    Definition atomic_reverse (l : list ins) (w0 : work) (tab part : nat -> T) : option ((nat -> T) * list ins) :=
      match l with
      | mkIns AFunOp [atom_index; call_id; n; m] _ :: l1 =>
        match down_loop (rev_y tab part) m l1 w0 with
        | None => None
        | Some (w1, l2) =>
          match down_loop (rev_x tab) n l2 w1 with
          | Some (w, mkIns AFunOp _ _ :: l3) =>
            let px := cb_reverse atom_index call_id (vec (w_par w) n) (vec (w_type w) n) (vec (w_vx w) n) (q - 1)
                        (vec (w_tx w) (n * q)) (vec (w_ty w) (m * q)) (vec (w_px w) (n * q)) (vec (w_py w) (m * q)) in
            Some (rev_out w px n part, l3)
          | _ => None
          end
        end
      | _ => None
      end.
  End Reverse.

  (** *** Jacobian sparsity; a vector of sets is the function that says whether an element is in a set *)
  (** 1015-1041, 1285-1313 *)
  Definition spa_x (j : nat) (i : ins) (w : work) : option work :=
    let a := nth 0 (i_arg i) 0 in
    match i_op i with
    | FunapOp => Some (mkW (fset (w_par w) j (P a)) (fset (w_type w) j (kind_of a)) (w_tx w) (w_ty w) (w_px w) (w_py w) (fset (w_ix w) j 0) (w_iy w) (w_vx w) (w_vy w))
    | FunavOp => Some (mkW (fset (w_par w) j bnan) (fset (w_type w) j Kvar) (w_tx w) (w_ty w) (w_px w) (w_py w) (fset (w_ix w) j a) (w_iy w) (w_vx w) (w_vy w))
    | _ => None
    end.
  (** 1051-1070, 1215-1234 *)
  Definition spa_y (k : nat) (i : ins) (w : work) : option work :=
    match i_op i with
    | FunrpOp => Some (mkW (w_par w) (w_type w) (w_tx w) (w_ty w) (w_px w) (w_py w) (w_ix w) (fset (w_iy w) k 0) (w_vx w) (w_vy w))
    | FunrvOp => Some (mkW (w_par w) (w_type w) (w_tx w) (w_ty w) (w_px w) (w_py w) (w_ix w) (fset (w_iy w) k (i_var i)) (w_vx w) (w_vy w))
    | _ => None
    end.
  Definition sets : Type := nat -> nat -> bool.
  Definition nonempty (S : sets) (fin v : nat) : bool := existsb (S v) (seq 0 fin).
  (** the posts of the loop over the pattern, with the sets as they were before (the posted elements are added after the loop) *)
  Definition posts (S : sets) (fin : nat) (l : list (nat * nat)) : sets :=
    fold_left (fun D '(dst, src) => fun v e => if v =? dst then D v e || ((e <? fin) && S src e) else D v e) l S.
  (** core/atomic/three/jac_sparsity.hpp:198-255; None: the assertion that the pattern is in the selected range *)
  Definition three_for_jac (atom_index call_id : nat) (dep : bool) (w : work) (n m fin : nat) (S : sets) : option sets :=
    let sel_y := vec (fun i => negb (w_iy w i =? 0)) m in
    let sel_x := vec (fun j => nonempty S fin (w_ix w j)) n in
    let pat := cb_jac atom_index call_id dep (vec (w_par w) n) (vec (w_type w) n) sel_x sel_y in
    if forallb (fun '(i, j) => nth i sel_y false && nth j sel_x false) pat then Some (posts S fin (map (fun '(i, j) => (w_iy w i, w_ix w j)) pat)) else None.
  (** 298-356 *)
  Definition three_rev_jac (atom_index call_id : nat) (dep : bool) (w : work) (n m fin : nat) (S : sets) : option sets :=
    let sel_x := vec (fun _ => true) n in
    let sel_y := vec (fun i => nonempty S fin (w_iy w i)) m in
    let pat := cb_jac atom_index call_id dep (vec (w_par w) n) (vec (w_type w) n) sel_x sel_y in
    if forallb (fun '(i, j) => nth i sel_y false && nth j sel_x false) pat then Some (posts S fin (map (fun '(i, j) => (w_ix w j, w_iy w i)) pat)) else None.
  (** 958-1124 *)
  Definition atomic_for_jac (dep : bool) (fin : nat) (l : list ins) (w0 : work) (S : sets) : option (sets * list ins) :=
    match l with
    | mkIns AFunOp [atom_index; call_id; n; m] _ :: l1 =>
      match up_loop spa_x 0 n l1 w0 with
      | None => None
      | Some (w1, l2) =>
        match up_loop spa_y 0 m l2 w1 with
        | Some (w, mkIns AFunOp _ _ :: l3) => match three_for_jac atom_index call_id dep w n m fin S with Some S' => Some (S', l3) | None => None end
        | _ => None
        end
      end
    | _ => None
    end.
  (** 1163-1332 *)
  Definition atomic_rev_jac (dep : bool) (fin : nat) (l : list ins) (w0 : work) (S : sets) : option (sets * list ins) :=
    match l with
    | mkIns AFunOp [atom_index; call_id; n; m] _ :: l1 =>
      match down_loop spa_y m l1 w0 with
      | None => None
      | Some (w1, l2) =>
        match down_loop spa_x n l2 w1 with
        | Some (w, mkIns AFunOp _ _ :: l3) => match three_rev_jac atom_index call_id dep w n m fin S with Some S' => Some (S', l3) | None => None end
        | _ => None
        end
      end
    | _ => None
    end.
End Sweep.
