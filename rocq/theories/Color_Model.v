(** Colouring and recovery of sparse Jacobians and Hessians.

    Set vectors are represented by the increasing list of elements of each set
    (what iterating over them yields, property C20).  Vectors are functions on
    indices; a vector that is not initialised by the code is an arbitrary
    function given as argument.  [None] is a failed assertion. *)
From Coq Require Import List Arith Bool.
From Verif Require Import IndexSort_Model Util_Model.
Import ListNotations.

Definition fset {A} (f : nat -> A) (i : nat) (v : A) : nat -> A := fun k => if k =? i then v else f k.
Definition mem (x : nat) (l : list nat) : bool := existsb (Nat.eqb x) l.
Definition mem2 (i j : nat) (ps : list (nat * nat)) : bool :=
  existsb (fun p => (fst p =? i) && (snd p =? j)) ps.

(** local/sparse/internal.hpp:96-140 set_internal_pattern with internal_index
    the identity, zero_empty false: set i has the columns of row i of the
    pattern, or (transpose) set j has the rows of column j. *)
Definition internal_pattern (transpose : bool) (nc : nat) (pat : list (nat * nat)) (i : nat) : list nat :=
  filter (fun c => if transpose then mem2 c i pat else mem2 i c pat) (seq 0 nc).

(** the loops "for(...) if( (r < i) && (color[r] < m) ) forbidden[ color[r] ] = true" *)
Definition forbid (P : nat -> bool) (color : nat -> nat) (rs : list nat) (forb : nat -> bool) : nat -> bool :=
  fold_left (fun f r => if P r then fset f (color r) true else f) rs forb.
(** for(ell = 0; ell <= c; ell++) forbidden[ell] = false *)
Definition reset (c : nat) (forb : nat -> bool) : nat -> bool :=
  fun k => if k <=? c then false else forb k.
(** ell = 0; while( forbidden[ell] ) { ell++; assert( ell <= c ) } *)
Fixpoint first_free (fuel : nat) (c ell : nat) (forb : nat -> bool) : option nat :=
  if forb ell then
    if S ell <=? c then
      match fuel with 0 => None | S fuel' => first_free fuel' c (S ell) forb end
    else None
  else Some ell.

(** ** local/color_general.hpp:64-198 color_general_cppad.  [pattern] has m sets
    with end n; [ps] is the list of ( row[k] , col[k] ). *)
Section General.
  Variables (m n : nat) (pattern : nat -> list nat) (ps : list (nat * nat)).
  Definition row_appear (i : nat) : bool := existsb (fun p => fst p =? i) ps.     (* 82-96 *)
  Definition c2r_appear (j : nat) : list nat := filter (fun i => mem2 i j ps) (seq 0 m). (* 97, 101-102 *)
  Definition r2c_appear (i : nat) : list nat := filter (fun j => mem2 i j ps) (seq 0 n). (* 98, 103-104 *)
  Definition not_appear (j : nat) : list nat :=                                   (* 107-120 *)
    filter (fun i => mem j (pattern i) && negb (mem i (c2r_appear j))) (seq 0 m).
  (** lines 123-130 *)
  Fixpoint init_color (k i ell : nat) (color : nat -> nat) : nat -> nat :=
    match k with
    | 0 => color
    | S k' => if row_appear i then init_color k' (S i) (S ell) (fset color i ell)
              else init_color k' (S i) ell (fset color i m)
    end.
  (** lines 141-196: body of the loop *)
  Definition general_step (i : nat) (st : (nat -> nat) * (nat -> bool)) : option ((nat -> nat) * (nat -> bool)) :=
    let '(color, forb) := st in
    if color i <? m then
      let P r := (r <? i) && (color r <? m) in
      let forb := reset (color i) forb in
      let forb := fold_left (fun f j => forbid P color (c2r_appear j) f) (pattern i) forb in
      let forb := fold_left (fun f j => forbid P color (not_appear j) f) (r2c_appear i) forb in
      match first_free m (color i) 0 forb with
      | Some ell => Some (fset color i ell, forb)
      | None => None
      end
    else Some st.
  Fixpoint general_loop (k i : nat) (st : (nat -> nat) * (nat -> bool)) : option ((nat -> nat) * (nat -> bool)) :=
    match k with
    | 0 => Some st
    | S k' => match general_step i st with Some st' => general_loop k' (S i) st' | None => None end
    end.
  Definition color_general (color0 : nat -> nat) (forb0 : nat -> bool) : option (nat -> nat) :=
    if forallb (fun p => mem (snd p) (pattern (fst p))) ps then                   (* 91-95 *)
      match general_loop (m - 1) 1 (init_color m 0 0 color0, forb0) with
      | Some (color, _) => Some color
      | None => None
      end
    else None.
End General.

(** ** local/color_symmetric.hpp:73-208 color_symmetric_cppad *)
Section Symmetric.
  Variable sort : list (nat * nat) -> list (nat * nat).   (* std::sort in index_sort *)
  Variables (m : nat) (pattern : nat -> list nat).
  Definition ins := set_insert Nat.ltb.                   (* std::set::insert *)
  Definition erase (x : nat) (s : list nat) : list nat := filter (fun y => negb (y =? x)) s.
  (** lines 87-93 *)
  Fixpoint pair_init (ps : list (nat * nat)) (pn : nat -> list nat) : nat -> list nat :=
    match ps with
    | [] => pn
    | (i, j) :: ps' =>
      let pn := fset pn i (ins j (pn i)) in
      pair_init ps' (fset pn j (ins i (pn j)))
    end.
  (** lines 96-101 *)
  Definition order2row (pn : nat -> list nat) : list nat :=
    index_sort sort (map (fun i => m - length (pn i)) (seq 0 m)).
  (** lines 104-106 *)
  Fixpoint row2order (o2r : list nat) (o : nat) (f : nat -> nat) : nat -> nat :=
    match o2r with [] => f | i :: l => row2order l (S o) (fset f i o) end.
  (** lines 109-117 *)
  Fixpoint sym_init (pn : nat -> list nat) (o2r : list nat) (c1 : nat) (color : nat -> nat) : nat -> nat :=
    match o2r with
    | [] => color
    | i :: l => match pn i with
                | [] => sym_init pn l c1 (fset color i m)
                | _ => sym_init pn l (S c1) (fset color i c1)
                end
    end.
  Record sst := mkS { s_color : nat -> nat; s_forb : nat -> bool; s_pn : nat -> list nat }.
  (** lines 178-190 *)
  Fixpoint erase_loop (r2o : nat -> nat) (o1 i1 : nat) (l : list nat) (pn : nat -> list nat)
           (color : nat -> nat) : (nat -> list nat) * (nat -> nat) :=
    match l with
    | [] => (pn, color)
    | j1 :: l' =>
      if (o1 <? r2o j1) && mem i1 (pn j1) then
        let s := erase i1 (pn j1) in
        erase_loop r2o o1 i1 l' (fset pn j1 s) (match s with [] => fset color j1 m | _ => color end)
      else erase_loop r2o o1 i1 l' pn color
    end.
  (** lines 123-191: body; [before] is order2row[0..o1-1] *)
  Definition sym_step (r2o : nat -> nat) (before : list nat) (o1 i1 : nat) (st : sst) : option sst :=
    let color := s_color st in
    let pn := s_pn st in
    if color i1 <? m then
      let c1 := color i1 in
      let forb := reset c1 (s_forb st) in
      let forb := fold_left (fun f j1 => forbid (fun i2 => color i2 <? c1) color (pattern j1) f) (pn i1) forb in
      let forb := fold_left (fun f i2 =>
          fold_left (fun f j2 => if mem j2 (pattern i1) then fset f (color i2) true else f) (pn i2) f) before forb in
      match first_free m c1 0 forb with
      | None => None
      | Some c2 =>
        let '(pn, color) := erase_loop r2o o1 i1 (pn i1) pn (fset color i1 c2) in
        Some (mkS color forb pn)
      end
    else Some st.
  Fixpoint sym_loop (r2o : nat -> nat) (before todo : list nat) (o1 : nat) (st : sst) : option sst :=
    match todo with
    | [] => Some st
    | i1 :: l => match sym_step r2o before o1 i1 st with
                 | Some st' => sym_loop r2o (before ++ [i1]) l (S o1) st'
                 | None => None
                 end
    end.
  (** lines 194-206 *)
  Fixpoint reflect_loop (pn : nat -> list nat) (ps : list (nat * nat)) : option (list (nat * nat)) :=
    match ps with
    | [] => Some []
    | (i1, j1) :: ps' =>
      let r := if mem j1 (pn i1) then Some (i1, j1)
               else if mem i1 (pn j1) then Some (j1, i1) else None in
      match r, reflect_loop pn ps' with
      | Some p, Some l => Some (p :: l)
      | _, _ => None
      end
    end.
  (** returns color and the new ( row[k] , col[k] ) *)
  Definition color_symmetric (ps : list (nat * nat)) (color0 r2o0 : nat -> nat) (forb0 : nat -> bool)
    : option ((nat -> nat) * list (nat * nat)) :=
    if forallb (fun p => mem (snd p) (pattern (fst p))) ps then                  (* line 90 *)
      let pn := pair_init ps (fun _ => []) in
      let o2r := order2row pn in
      let r2o := row2order o2r 0 r2o0 in
      match sym_loop r2o [] o2r 0 (mkS (sym_init pn o2r 0 color0) forb0 pn) with
      | None => None
      | Some st => match reflect_loop (s_pn st) ps with
                   | Some l => Some (s_color st, l)
                   | None => None
                   end
      end
    else None.
End Symmetric.

(** ** sparse_jac_rev, sparse_jac_for, sparse_hes *)
Section Recover.
  Variable sort : list (nat * nat) -> list (nat * nat).
  Context {T : Type} (zero one : T).

  (** n_color: sparse_jac.hpp:394-396, 586-588, sparse_hes.hpp:484-486 *)
  Definition n_color (m : nat) (color : nat -> nat) : nat :=
    fold_left (fun c i => if color i <? m then Nat.max c (color i + 1) else c) (seq 0 m) 1.
  (** dx[j] = color[j] == ell ? one : zero *)
  Definition seed (color : nat -> nat) (ell : nat) (j : nat) : T := if color j =? ell then one else zero.

  (** while( k < K && color[ seed[ order[k] ] ] == ell ) { set( order[k], y[ read[ order[k] ] ] ); k++ }.
      [ps] is the list of ( seed , read ) pairs, [ord] is order from position k on. *)
  Fixpoint take_color (ps : list (nat * nat)) (color : nat -> nat) (ell : nat) (y : nat -> T)
           (ord : list nat) (val : nat -> T) : list nat * (nat -> T) :=
    match ord with
    | [] => ([], val)
    | k :: ord' =>
      let p := nth k ps (0, 0) in
      if color (fst p) =? ell then take_color ps color ell y ord' (fset val k (y (snd p)))
      else (ord, val)
    end.
  (** sparse_jac.hpp:599-627 and sparse_hes.hpp:500-540 (coloring = cppad...):
      [sweep] computes the derivative in the direction of the seed *)
  Fixpoint rev_loop (sweep : (nat -> T) -> nat -> T) (ps : list (nat * nat)) (color : nat -> nat)
           (n ell : nat) (ord : list nat) (val : nat -> T) : option (list nat * (nat -> T)) :=
    match n with
    | 0 => Some (ord, val)
    | S n' =>
      match ord with
      | [] => None                                         (* assert coloring == "colpack" *)
      | k :: _ =>
        if color (fst (nth k ps (0, 0))) =? ell then
          let '(ord, val) := take_color ps color ell (sweep (seed color ell)) ord val in
          rev_loop sweep ps color n' (S ell) ord val
        else None
      end
    end.
  (** sparse_jac.hpp:429-437: one group of directions.  dy[ r * group_size + ell ]
      is [sweep] of direction ell (Forward with several directions, property C10) *)
  Fixpoint group_loop (sweep : (nat -> T) -> nat -> T) (ps : list (nat * nat)) (color : nat -> nat)
           (n ell : nat) (ord : list nat) (val : nat -> T) : list nat * (nat -> T) :=
    match n with
    | 0 => (ord, val)
    | S n' => let '(ord, val) := take_color ps color ell (sweep (seed color ell)) ord val in
              group_loop sweep ps color n' (S ell) ord val
    end.
  (** sparse_jac.hpp:407-440: while( color_count < n_color ); [fuel] bounds the
      number of groups, None is exhaustion (group_max = 0 never terminates) *)
  Fixpoint for_loop (fuel : nat) (group_max : nat) (sweep : (nat -> T) -> nat -> T) (ps : list (nat * nat))
           (color : nat -> nat) (nc color_count : nat) (ord : list nat) (val : nat -> T) : option (nat -> T) :=
    if color_count <? nc then
      match fuel with
      | 0 => None
      | S fuel' =>
        let group_size := Nat.min group_max (nc - color_count) in
        let '(ord, val) := group_loop sweep ps color group_size color_count ord val in
        for_loop fuel' group_max sweep ps color nc (color_count + group_size) ord val
      end
    else Some val.

  (** order: sparse_jac.hpp:384-388, 576-580, sparse_hes.hpp:474-478 *)
  Definition color_order (ps : list (nat * nat)) (color : nat -> nat) : list nat :=
    index_sort sort (map (fun p => color (fst p)) ps).

  (** work: empty, or ( color , order , the (seed, read) pairs ) *)
  Definition work : Type := option ((nat -> nat) * list nat * list (nat * nat)).

  (** sparse_jac_rev, sparse_jac.hpp:487-629, with coloring = "cppad".
      [subset] is the list of (row, col); result: (values, n_color, work).
      [reverse1 w] is Reverse(1, w) after Forward(0, x). *)
  Definition sparse_jac_rev (reverse1 : (nat -> T) -> nat -> T) (m n : nat) (subset pattern : list (nat * nat))
      (color0 : nat -> nat) (forb0 : nat -> bool) (val0 : nat -> T) (w : work) : option ((nat -> T) * nat * work) :=
    match subset with
    | [] => Some (val0, 0, w)                               (* lines 526-527 *)
    | _ =>
      let w' := match w with
        | Some x => Some x
        | None => match color_general m n (internal_pattern false n pattern) subset color0 forb0 with
                  | Some color => Some (color, color_order subset color, subset)
                  | None => None
                  end
        end in
      match w' with
      | None => None
      | Some (color, ord, _) =>
        match rev_loop reverse1 subset color (n_color m color) 0 ord (fun _ => zero) with
        | Some (_, val) => Some (val, n_color m color, w')
        | None => None
        end
      end
    end.

  Definition flip (p : nat * nat) : nat * nat := (snd p, fst p).

  (** sparse_jac_for, sparse_jac.hpp:294-444, with coloring = "cppad": columns
      are the seeds.  [forward1 dx] is Forward(1, dx) after Forward(0, x). *)
  Definition sparse_jac_for (forward1 : (nat -> T) -> nat -> T) (group_max m n : nat)
      (subset pattern : list (nat * nat)) (color0 : nat -> nat) (forb0 : nat -> bool) (val0 : nat -> T) (w : work)
      : option ((nat -> T) * nat * work) :=
    match subset with
    | [] => Some (val0, 0, w)
    | _ =>
      let cr := map flip subset in
      let w' := match w with
        | Some x => Some x
        | None => match color_general n m (internal_pattern true m pattern) cr color0 forb0 with
                  | Some color => Some (color, color_order cr color, cr)
                  | None => None
                  end
        end in
      match w' with
      | None => None
      | Some (color, ord, _) =>
        match for_loop (S n) group_max forward1 cr color (n_color n color) 0 ord (fun _ => zero) with
        | Some val => Some (val, n_color n color, w')
        | None => None
        end
      end
    end.

  (** sparse_hes, sparse_hes.hpp:324-544, coloring "cppad.general" or
      "cppad.symmetric".  [hes dx] j is ddw[ 2 j + 1 ] of Reverse(2, w) after
      Forward(0, x), Forward(1, dx).  The symmetric method may exchange row
      and column of work.row, work.col. *)
  Definition sparse_hes (symmetric : bool) (hes : (nat -> T) -> nat -> T) (n : nat)
      (subset pattern : list (nat * nat)) (color0 r2o0 : nat -> nat) (forb0 : nat -> bool) (val0 : nat -> T) (w : work)
      : option ((nat -> T) * nat * work) :=
    match subset with
    | [] => Some (val0, 0, w)
    | _ =>
      let ok := match w with
        | None => true
        | Some (_, _, cr) =>                                 (* lines 374-396 *)
          (length cr =? length subset) &&
          forallb (fun q => let '((c, r), (sr, sc)) := q in
                     ((r =? sr) && (c =? sc)) || ((r =? sc) && (c =? sr))) (combine cr subset)
        end in
      let w' := match w with
        | Some x => Some x
        | None =>
          let cr := map flip subset in
          let ip := internal_pattern true n pattern in
          if symmetric then
            match color_symmetric sort n ip cr color0 r2o0 forb0 with
            | Some (color, cr') => Some (color, color_order cr' color, cr')
            | None => None
            end
          else
            match color_general n n ip cr color0 forb0 with
            | Some color => Some (color, color_order cr color, cr)
            | None => None
            end
        end in
      if ok then
        match w' with
        | None => None
        | Some (color, ord, cr) =>
          match rev_loop hes cr color (n_color n color) 0 ord (fun _ => zero) with
          | Some ([], val) => Some (val, n_color n color, w')   (* line 542: k == K *)
          | _ => None
          end
        end
      else None
    end.
End Recover.
