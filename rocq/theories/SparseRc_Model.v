(** utility/sparse_rc.hpp: class sparse_rc.  [None] is a failed assertion or
    an access outside a vector.  Numbers are unbounded (nr * nc is assumed to
    fit in size_t).  std::sort is the parameter [sort]. *)
From Coq Require Import List Arith Bool.
From Verif Require Import IndexSort_Model SparseRc_Spec.
Import ListNotations.

Section M.
  Variable sort : list (nat * nat) -> list (nat * nat).

  (** lines 333-355; nnz_, row_, col_, row_major_, col_major_ *)
  Record rc := mkRc {
    nr_ : nat; nc_ : nat; nnz_ : nat; row_ : list nat; col_ : list nat;
    row_major_ : list nat; col_major_ : list nat }.
  (** default constructor, lines 371-373 *)
  Definition rc0 : rc := mkRc 0 0 0 [] [] [] [].

  (** resize, lines 491-499 (the constructor 386-390 is the same on a new
      object) *)
  Definition resize (nr nc nnz : nat) (fr fc : nat -> nat) : rc :=
    mkRc nr nc nnz (map fr (seq 0 nnz)) (map fc (seq 0 nnz)) [] [].

  (** set, lines 502-520 *)
  Definition set (x : rc) (k r c : nat) : option rc :=
    if (k <? nnz_ x) && (r <? nr_ x) && (c <? nc_ x) then
      Some (mkRc (nr_ x) (nc_ x) (nnz_ x) (upd (row_ x) k r) (upd (col_ x) k c) [] [])
    else None.

  (** push_back, lines 523-540 *)
  Definition push_back (x : rc) (r c : nat) : option rc :=
    if (r <? nr_ x) && (c <? nc_ x) then
      Some (mkRc (nr_ x) (nc_ x) (S (nnz_ x)) (row_ x ++ [r]) (col_ x ++ [c]) [] [])
    else None.

  (** the NDEBUG check after sorting, lines 574-584 / 600-610: [strict k kp] *)
  Fixpoint check (strict : nat -> nat -> bool) (l : list nat) : bool :=
    match l with
    | k :: ((kp :: _) as l') => strict k kp && check strict l'
    | _ => true
    end.

  (** row_major, lines 563-587 *)
  Definition row_major (x : rc) : option (list nat) :=
    match row_major_ x with
    | _ :: _ => Some (row_major_ x)
    | [] =>
      let rk k := nth k (row_ x) 0 in
      let ck k := nth k (col_ x) 0 in
      if forallb (fun k => rk k <? nr_ x) (seq 0 (nnz_ x)) then
        let keys := map (fun k => rk k * nc_ x + ck k) (seq 0 (nnz_ x)) in
        let l := index_sort sort keys in
        if check (fun k kp => (rk k <? rk kp) || ((rk k =? rk kp) && (ck k <? ck kp))) l
        then Some l else None
      else None
    end.
  (** col_major, lines 590-613 *)
  Definition col_major (x : rc) : option (list nat) :=
    match col_major_ x with
    | _ :: _ => Some (col_major_ x)
    | [] =>
      let rk k := nth k (row_ x) 0 in
      let ck k := nth k (col_ x) 0 in
      if forallb (fun k => ck k <? nc_ x) (seq 0 (nnz_ x)) then
        let keys := map (fun k => ck k * nr_ x + rk k) (seq 0 (nnz_ x)) in
        let l := index_sort sort keys in
        if check (fun k kp => (ck k <? ck kp) || ((ck k =? ck kp) && (rk k <? rk kp))) l
        then Some l else None
      else None
    end.
  (** lines 615-627 *)
  Definition set_row_major (x : rc) : option rc :=
    match row_major x with
    | Some l => Some (mkRc (nr_ x) (nc_ x) (nnz_ x) (row_ x) (col_ x) l (col_major_ x))
    | None => None
    end.
  Definition set_col_major (x : rc) : option rc :=
    match col_major x with
    | Some l => Some (mkRc (nr_ x) (nc_ x) (nnz_ x) (row_ x) (col_ x) (row_major_ x) l)
    | None => None
    end.

  Definition nonempty (l : list nat) : bool := match l with [] => false | _ => true end.
  (** lines 447-478: the two orders used by operator==.  As in the source,
      lines 451 and 455 test this_row_ok (this_col_ok) twice and never
      other_row_ok (other_col_ok). *)
  Definition eq_orders (x y : rc) : option (list nat * list nat) :=
    let pair (a b : option (list nat)) :=
      match a, b with Some a, Some b => Some (a, b) | _, _ => None end in
    if nonempty (row_major_ x) && nonempty (row_major_ x) then Some (row_major_ x, row_major_ y)
    else if nonempty (col_major_ x) && nonempty (col_major_ x) then Some (col_major_ x, col_major_ y)
    else if nonempty (row_major_ x) then pair (Some (row_major_ x)) (row_major y)
    else if nonempty (col_major_ x) then pair (Some (col_major_ x)) (col_major y)
    else if nonempty (row_major_ y) then pair (row_major x) (Some (row_major_ y))
    else if nonempty (col_major_ y) then pair (col_major x) (Some (col_major_ y))
    else pair (row_major x) (row_major y).
  (** lines 481-486; reads outside a vector are None *)
  Fixpoint eq_loop (x y : rc) (ox oy : list nat) (n k : nat) (res : bool) : option bool :=
    match n with
    | 0 => Some res
    | S n' =>
      match nth_error ox k, nth_error oy k with
      | Some i, Some j =>
        match nth_error (row_ x) i, nth_error (col_ x) i, nth_error (row_ y) j, nth_error (col_ y) j with
        | Some a, Some b, Some c, Some d =>
            eq_loop x y ox oy n' (S k) (res && (a =? c) && (b =? d))
        | _, _, _, _ => None
        end
      | _, _ => None
      end
    end.
  (** operator==, lines 433-488 *)
  Definition eqb (x y : rc) : option bool :=
    if negb ((nr_ x =? nr_ y) && (nc_ x =? nc_ y) && (nnz_ x =? nnz_ y)) then Some false
    else match eq_orders x y with
         | Some (ox, oy) => eq_loop x y ox oy (nnz_ x) 0 true
         | None => None
         end.

  (** client operations on numbered objects; copy 393-402 / assignment 405-414
      copy all seven members, swap 417-426 exchanges them (the move
      constructor 377 and move assignment 429 are swaps) *)
  Definition step (s : nat -> rc) (a : op) : option (nat -> rc) :=
    let lift o (r : option rc) := match r with Some v => Some (put s o v) | None => None end in
    match a with
    | Resize o nr nc nnz fr fc => Some (put s o (resize nr nc nnz fr fc))
    | Set_ o k r c => lift o (set (s o) k r c)
    | Push o r c => lift o (push_back (s o) r c)
    | SetRowMajor o => lift o (set_row_major (s o))
    | SetColMajor o => lift o (set_col_major (s o))
    | Copy o o2 => Some (put s o (s o2))
    | Swap o o2 => Some (put (put s o (s o2)) o2 (s o))
    end.
  Fixpoint run (s : nat -> rc) (h : list op) : option (nat -> rc) :=
    match h with
    | [] => Some s
    | a :: h' => match step s a with Some s' => run s' h' | None => None end
    end.
End M.
