(** Model of utility/vector_bool.hpp and local/utility/vector_bool.hpp (vectorBool)
    on the heap of Vec_Model; an element of a block is one unit_t, as an N. *)
From Coq Require Import List Arith Bool NArith.
From Verif Require Import Vec_Spec Vec_Model.
Import ListNotations.

Section Model.
  Variable w : nat.                     (* bit_per_unit_, vector_bool.hpp:74 *)
  Variable capof : nat -> nat -> nat.   (* cap_bytes / sizeof(unit_t) of allocation k *)
  Variable junk : nat -> nat -> N.

  (** vector_bool.hpp:79-83 *)
  Definition unit_min (n : nat) : nat := if n =? 0 then 0 else (n - 1) / w + 1.
  (** vector_bool.hpp:253-272; cap v is n_unit_ *)
  Definition b_resize (s : st N) (x n : nat) : option (st N) :=
    let v := obj s x in
    if unit_min n <=? cap v then Some (set_obj s (heap s) x (mkV (cap v) n (ptr v)))
    else
      match (if 0 <? cap v then free (heap s) (ptr v) else Some (heap s)) with
      | None => None
      | Some m => let '(m1, p, c) := alloc capof junk m (unit_min n) in Some (set_obj s m1 x (mkV c n p))
      end.
  (** vector_bool.hpp:274-284 *)
  Definition b_clear (s : st N) (x : nat) : option (st N) :=
    let v := obj s x in
    match (if 0 <? cap v then free (heap s) (ptr v) else Some (heap s)) with
    | Some m => Some (set_obj s m x (mkV 0 0 (ptr v)))
    | None => None
    end.
  (** vector_bool.hpp:337-346 *)
  Definition b_swap (s : st N) (x y : nat) : st N :=
    if x =? y then s else mkS (heap s) (fset (fset (obj s) x (obj s y)) y (obj s x)).
  (** vector_bool.hpp:348-363 *)
  Definition b_assign (s : st N) (x y : nat) : option (st N) :=
    match (if len (obj s x) =? 0 then b_resize s x (len (obj s y)) else Some s) with
    | None => None
    | Some s1 =>
      if len (obj s1 x) =? len (obj s1 y) then
        match copy (heap s1) (ptr (obj s1 x)) 0 (ptr (obj s1 y)) 0 (unit_min (len (obj s1 x))) with
        | Some m => Some (mkS m (obj s1))
        | None => None
        end
      else None
    end.
  (** vector_bool.hpp:365-373 *)
  Definition b_move (s : st N) (x y : nat) : option (st N) :=
    if (len (obj s x) =? len (obj s y)) || (len (obj s x) =? 0) then Some (b_swap s x y) else None.
  (** vector_bool.hpp:402-411, local 60-61 *)
  Definition mask (i : nat) : N := N.shiftl 1 (N.of_nat (i - (i / w) * w)).
  Definition b_bit (m : mem N) (v : vec) (i : nat) : option bool :=
    if i <? len v then
      match read m (ptr v) (i / w) with Some u => Some (negb (N.land u (mask i) =? 0)%N) | None => None end
    else None.
  (** local/utility/vector_bool.hpp:62-71; vector_bool.hpp:476-482, 535-541:
      set bit i of the block p *)
  Definition b_put (m : mem N) (p i : nat) (b : bool) : option (mem N) :=
    match read m p (i / w) with
    | Some u => write m p (i / w) (if b then N.lor u (mask i) else N.ldiff u (mask i))
    | None => None
    end.
  Definition b_src (s : st N) (a : src bool) : option bool :=
    match a with Val b => Some b | Ref y j => b_bit (heap s) (obj s y) j end.
  (** x[i] = ...: vector_bool.hpp:412-420 and local 62-71 *)
  Definition b_set (s : st N) (x i : nat) (a : src bool) : option (st N) :=
    if i <? len (obj s x) then
      match b_src s a with
      | Some b => match b_put (heap s) (ptr (obj s x)) i b with Some m => Some (mkS m (obj s)) | None => None end
      | None => None
      end
    else None.
  (** vector_bool.hpp:462-471, 518-527: a new vector of n bits, the units in use are
      copied, swap; the old block is returned by the destructor of vec *)
  Definition b_grow (s : st N) (x n : nat) : option (st N) :=
    let v := obj s x in
    let '(m1, p, c) := alloc capof junk (heap s) (unit_min n) in
    match copy m1 p 0 (ptr v) 0 (unit_min (len v)) with
    | None => None
    | Some m2 =>
      match (if 0 <? cap v then free m2 (ptr v) else Some m2) with
      | Some m3 => Some (set_obj s m3 x (mkV c n p))
      | None => None
      end
    end.
  Definition b_enlarge (s : st N) (x n : nat) : option (st N) :=
    let v := obj s x in
    if cap v * w <? n then b_grow s x n
    else Some (set_obj s (heap s) x (mkV (cap v) n (ptr v))).
  (** vector_bool.hpp:454-483 *)
  Definition b_push (s : st N) (x : nat) (a : src bool) : option (st N) :=
    let old := len (obj s x) in
    match b_src s a with                                (* passed by value *)
    | None => None
    | Some b =>
      match b_enlarge s x (old + 1) with
      | None => None
      | Some s1 => match b_put (heap s1) (ptr (obj s1 x)) old b with Some m => Some (mkS m (obj s1)) | None => None end
      end
    end.
  (** vector_bool.hpp:534-542 *)
  Fixpoint b_loop (s : st N) (x y old k m : nat) : option (st N) :=
    match m with
    | 0 => Some s
    | S m' =>
      match b_bit (heap s) (obj s y) k with
      | None => None
      | Some b => match b_put (heap s) (ptr (obj s x)) (old + k) b with
                  | None => None
                  | Some h => b_loop (mkS h (obj s)) x y old (S k) m'
                  end
      end
    end.
  (** vector_bool.hpp:509-543, with a vectorBool argument *)
  Definition b_push_vec (s : st N) (x y : nat) : option (st N) :=
    let old := len (obj s x) in
    let m := len (obj s y) in
    match b_enlarge s x (old + m) with
    | None => None
    | Some s1 => b_loop s1 x y old 0 m
    end.
  Definition bret (o : option (st N)) : option (st N * list (obs bool)) :=
    match o with Some s => Some (s, []) | None => None end.
  Definition b_step (o : op bool) (s : st N) : option (st N * list (obs bool)) :=
    match o with
    | Resize x n => bret (b_resize s x n)
    | Clear x => bret (b_clear s x)
    | Swap x y => Some (b_swap s x y, [])
    | Assign x y => bret (b_assign s x y)
    | Move x y => bret (b_move s x y)
    | Set_ x i a => bret (b_set s x i a)
    | Push x a => bret (b_push s x a)
    | PushVec x y => bret (b_push_vec s x y)
    | Extend _ _ => None                                 (* not a member *)
    | Get x i => match b_bit (heap s) (obj s x) i with Some b => Some (s, [Elem b]) | None => None end
    | Size x => Some (s, [Num (len (obj s x))])
    end.
End Model.
