(** Model of utility/vector.hpp (class vector) and local/pod_vector.hpp (class
    pod_vector) on a heap of memory blocks. *)
From Coq Require Import List Arith Bool.
From Verif Require Import Vec_Spec.
Import ListNotations.

Section Model.
  Context {T : Type}.
  (** thread_alloc::create_array / get_memory: allocation number k of at least n
      elements has capacity [capof k n] and content [junk k] (see C26) *)
  Variable capof : nat -> nat -> nat.
  Variable junk : nat -> nat -> T.

  (** a block in use: capacity and elements *)
  Record mem := mkM { blk : nat -> option (nat * (nat -> T)); nxt : nat }.
  (** utility/vector.hpp:61-64, pod_vector.hpp:77-80: capacity_, length_ (size_), data_ *)
  Record vec := mkV { cap : nat; len : nat; ptr : nat }.
  Record st := mkS { heap : mem; obj : nat -> vec }.

  Definition alloc (m : mem) (n : nat) : mem * nat * nat :=
    (mkM (fset (blk m) (nxt m) (Some (capof (nxt m) n, junk (nxt m)))) (S (nxt m)), nxt m, capof (nxt m) n).
  (** thread_alloc::delete_array / return_memory; None: not a block in use *)
  Definition free (m : mem) (p : nat) : option mem :=
    match blk m p with Some _ => Some (mkM (fset (blk m) p None) (nxt m)) | None => None end.
  Definition read (m : mem) (p i : nat) : option T :=
    match blk m p with Some (c, f) => if i <? c then Some (f i) else None | None => None end.
  Definition write (m : mem) (p i : nat) (v : T) : option mem :=
    match blk m p with
    | Some (c, f) => if i <? c then Some (mkM (fset (blk m) p (Some (c, fset f i v))) (nxt m)) else None
    | None => None
    end.
  (** for(i = k; i < k + n; ++i) dst[o + i] = src[i] *)
  Fixpoint copy (m : mem) (dst o sr k n : nat) : option mem :=
    match n with
    | 0 => Some m
    | S n' => match read m sr k with
              | Some v => match write m dst (o + k) v with Some m' => copy m' dst o sr (S k) n' | None => None end
              | None => None
              end
    end.
  Definition set_obj (s : st) (m : mem) (x : nat) (v : vec) : st := mkS m (fset (obj s) x v).
  (** the value a reference refers to now *)
  Definition deref (s : st) (m : mem) (a : src T) (p : nat -> nat) : option T :=
    match a with Val v => Some v | Ref y j => read m (p y) j end.
  Definition ptrs (s : st) : nat -> nat := fun y => ptr (obj s y).

  (** ** CppAD::vector *)
  (** vector.hpp:283-305 *)
  Definition v_resize (s : st) (x n : nat) : option st :=
    let v := obj s x in
    if cap v <? n then
      if cap v =? 0 then
        let '(m1, p, c) := alloc (heap s) n in Some (set_obj s m1 x (mkV c n p))
      else
        let '(m1, p, c) := alloc (heap s) n in
        match copy m1 p 0 (ptr v) 0 (len v) with
        | Some m2 => match free m2 (ptr v) with Some m3 => Some (set_obj s m3 x (mkV c n p)) | None => None end
        | None => None
        end
    else Some (set_obj s (heap s) x (mkV (cap v) n (ptr v))).
  (** vector.hpp:306-312 (data_ keeps its value) *)
  Definition v_clear (s : st) (x : nat) : option st :=
    let v := obj s x in
    if 0 <? cap v then
      match free (heap s) (ptr v) with Some m => Some (set_obj s m x (mkV 0 0 (ptr v))) | None => None end
    else Some (set_obj s (heap s) x (mkV 0 0 (ptr v))).
  (** vector.hpp:362-372, pod_vector.hpp:294-299 *)
  Definition v_swap (s : st) (x y : nat) : st :=
    mkS (heap s) (fset (fset (obj s) x (obj s y)) y (obj s x)).
  (** vector.hpp:383-393 *)
  Definition v_assign (s : st) (x y : nat) : option st :=
    match v_resize s x 0 with
    | None => None
    | Some s1 =>
      match v_resize s1 x (len (obj s1 y)) with
      | None => None
      | Some s2 =>
        match copy (heap s2) (ptr (obj s2 x)) 0 (ptr (obj s2 y)) 0 (len (obj s2 x)) with
        | Some m => Some (mkS m (obj s2))
        | None => None
        end
      end
    end.
  (** vector.hpp:575-597: the temporary "vec" gets the old block and is destroyed (227-228) *)
  Definition v_push (s : st) (x : nat) (a : src T) : option st :=
    let v := obj s x in
    if len v <? cap v then
      match deref s (heap s) a (ptrs s) with
      | Some e => match write (heap s) (ptr v) (len v) e with
                  | Some m => Some (set_obj s m x (mkV (cap v) (S (len v)) (ptr v)))
                  | None => None
                  end
      | None => None
      end
    else
      let '(m1, p, c) := alloc (heap s) (len v + 1) in
      match copy m1 p 0 (ptr v) 0 (len v) with
      | None => None
      | Some m2 =>
        match deref s m2 a (ptrs s) with
        | None => None
        | Some e =>
          match write m2 p (len v) e with
          | None => None
          | Some m3 =>
            if 0 <? cap v then
              match free m3 (ptr v) with Some m4 => Some (set_obj s m4 x (mkV c (len v + 1) p)) | None => None end
            else Some (set_obj s m3 x (mkV c (len v + 1) p))
          end
        end
      end.
  (** vector.hpp:623-652 *)
  Definition v_push_vec (s : st) (x y : nat) : option st :=
    let v := obj s x in
    let n := len (obj s y) in
    if len v + n <=? cap v then
      match copy (heap s) (ptr v) (len v) (ptr (obj s y)) 0 n with
      | Some m => Some (set_obj s m x (mkV (cap v) (len v + n) (ptr v)))
      | None => None
      end
    else
      let '(m1, p, c) := alloc (heap s) (len v + n) in
      match copy m1 p 0 (ptr v) 0 (len v) with
      | None => None
      | Some m2 =>
        match copy m2 p (len v) (ptr (obj s y)) 0 n with
        | None => None
        | Some m3 =>
          if 0 <? cap v then
            match free m3 (ptr v) with Some m4 => Some (set_obj s m4 x (mkV c (len v + n) p)) | None => None end
          else Some (set_obj s m3 x (mkV c (len v + n) p))
        end
      end.
  (** vector.hpp:531-542, pod_vector.hpp:246-258: operator[] asserts the index is in range *)
  Definition chk (s : st) (a : src T) : bool :=
    match a with Val _ => true | Ref y j => j <? len (obj s y) end.
  Definition v_set (s : st) (x i : nat) (a : src T) : option st :=
    let v := obj s x in
    if i <? len v then
      match deref s (heap s) a (ptrs s) with
      | Some e => match write (heap s) (ptr v) i e with Some m => Some (mkS m (obj s)) | None => None end
      | None => None
      end
    else None.
  Definition v_get (s : st) (x i : nat) : option T :=
    if i <? len (obj s x) then read (heap s) (ptr (obj s x)) i else None.

  (** ** pod_vector *)
  (** pod_vector.hpp:356-387 *)
  Definition p_extend (s : st) (x n : nat) : option st :=
    let v := obj s x in
    let sz := len v + n in
    if sz <=? cap v then Some (set_obj s (heap s) x (mkV (cap v) sz (ptr v)))
    else
      let '(m1, p, c) := alloc (heap s) sz in
      match copy m1 p 0 (ptr v) 0 (len v) with       (* 377-378: memcpy of old_size elements *)
      | None => None
      | Some m2 =>
        if 0 <? cap v then
          match free m2 (ptr v) with Some m3 => Some (set_obj s m3 x (mkV c sz p)) | None => None end
        else Some (set_obj s m2 x (mkV c sz p))
      end.
  (** pod_vector.hpp:389-412 *)
  Definition p_resize (s : st) (x n : nat) : option st :=
    let v := obj s x in
    if cap v <? n then
      match (if 0 <? cap v then free (heap s) (ptr v) else Some (heap s)) with
      | None => None
      | Some m => let '(m1, p, c) := alloc m n in Some (set_obj s m1 x (mkV c n p))
      end
    else Some (set_obj s (heap s) x (mkV (cap v) n (ptr v))).
  (** pod_vector.hpp:414-424 *)
  Definition p_clear (s : st) (x : nat) : option st :=
    let v := obj s x in
    if 0 <? cap v then
      match free (heap s) (ptr v) with Some m => Some (set_obj s m x (mkV 0 0 0)) | None => None end
    else Some (set_obj s (heap s) x (mkV 0 0 0)).
  (** pod_vector.hpp:260-264: extend first, then the reference is used *)
  Definition p_push (s : st) (x : nat) (a : src T) : option st :=
    let i := len (obj s x) in
    match p_extend s x 1 with
    | None => None
    | Some s1 =>
      match deref s (heap s1) a (ptrs s) with
      | Some e => match write (heap s1) (ptr (obj s1 x)) i e with Some m => Some (mkS m (obj s1)) | None => None end
      | None => None
      end
    end.
  (** pod_vector.hpp:301-310 *)
  Definition p_assign (s : st) (x y : nat) : option st :=
    match p_resize s x (len (obj s y)) with
    | None => None
    | Some s1 =>
      match copy (heap s1) (ptr (obj s1 x)) 0 (ptr (obj s1 y)) 0 (len (obj s1 x)) with
      | Some m => Some (mkS m (obj s1))
      | None => None
      end
    end.

  Definition ret (o : option st) (l : list (obs T)) : option (st * list (obs T)) :=
    match o with Some s => Some (s, l) | None => None end.
  (** one statement of a program that uses CppAD::vector ... *)
  Definition v_step (o : op T) (s : st) : option (st * list (obs T)) :=
    match o with
    | Resize x n => ret (v_resize s x n) []
    | Clear x => ret (v_clear s x) []
    | Swap x y | Move x y => Some (v_swap s x y, [])
    | Assign x y => ret (v_assign s x y) []
    | Set_ x i a => if chk s a then ret (v_set s x i a) [] else None
    | Push x a => if chk s a then ret (v_push s x a) [] else None
    | PushVec x y => ret (v_push_vec s x y) []
    | Extend _ _ => None                                 (* not a member *)
    | Get x i => match v_get s x i with Some v => Some (s, [Elem v]) | None => None end
    | Size x => Some (s, [Num (len (obj s x))])
    end.
  (** ... or pod_vector *)
  Definition p_step (o : op T) (s : st) : option (st * list (obs T)) :=
    match o with
    | Resize x n => ret (p_resize s x n) []
    | Clear x => ret (p_clear s x) []
    | Swap x y => Some (v_swap s x y, [])
    | Assign x y => ret (p_assign s x y) []
    | Move _ _ | PushVec _ _ => None                     (* not members *)
    | Set_ x i a => if chk s a then ret (v_set s x i a) [] else None
    | Push x a => if chk s a then ret (p_push s x a) [] else None
    | Extend x n => ret (p_extend s x n) [Num (len (obj s x))]
    | Get x i => match v_get s x i with Some v => Some (s, [Elem v]) | None => None end
    | Size x => Some (s, [Num (len (obj s x))])
    end.
  (** default constructor of every vector: vector.hpp:174-176, pod_vector.hpp:132-136 *)
  Definition start : st := mkS (mkM (fun _ => None) 1) (fun _ => mkV 0 0 0).
End Model.
Arguments mem : clear implicits. Arguments st : clear implicits.
