(** * Model of /repo/include/cppad/local/sparse/pack_setvec.hpp

    A vector of sets packed as bits.  [nbit] is the number of bits in the
    type [Pack] (= size_t, n_bit_ at line 66/178).  Words are [N] below
    2^nbit; shifts wrap ([shl]).  Memory is a list; an access outside it is
    undefined behaviour, modelled by [None].  Sizes are [nat] (the overflow
    of n_set_ * n_pack_ in size_t is not modelled). *)
From stdpp Require Import list numbers option.
From Verif Require Import SetVec_Spec.

Section Pack.
Variable nbit : nat.

(** `x << k` on Pack: result modulo 2^nbit *)
Definition shl (x : N) (k : nat) : N := (N.shiftl x (N.of_nat k) mod 2 ^ N.of_nat nbit)%N.

(** class members, lines 64-72 *)
Record pk := { pk_n_set : nat; pk_end : nat; pk_n_pack : nat; pk_data : list N }.

(** constructor, lines 177-180 *)
Definition pk_init : pk := {| pk_n_set := 0; pk_end := 0; pk_n_pack := 0; pk_data := [] |}.

Definition wget (d : list N) (i : nat) : option N := d !! i.
Definition wset (d : list N) (i : nat) (v : N) : option (list N) :=
  if decide (i < length d) then Some (<[i := v]> d) else None.

(** resize, lines 242-264.  With n_set = 0 the code keeps the old n_pack_.
    With n_set > 0 and end = 0, [end_ - 1] wraps around in size_t and the
    requested memory is astronomically large: modelled as undefined. *)
Definition pk_resize (s : pk) (n_set end_ : nat) : option pk :=
  if decide (n_set = 0) then
    Some {| pk_n_set := n_set; pk_end := end_; pk_n_pack := pk_n_pack s; pk_data := [] |}
  else if decide (end_ = 0) then None
  else
    let n_pack := 1 + (end_ - 1) / nbit in
    Some {| pk_n_set := n_set; pk_end := end_; pk_n_pack := n_pack;
            pk_data := replicate (n_set * n_pack) 0%N |}.

(** inner loop of number_elements, lines 411-416 and 421-429: run [n] times
    over bits; [ks] is the list of word positions tested at each bit *)
Fixpoint pk_count (d : list N) (ks : list nat) (n : nat) (mask : N) (count : nat) : option (nat * N) :=
  match n with
  | 0 => Some (count, mask)
  | S n' =>
      ws ← mapM (wget d) ks;
      let c := length (filter (fun w => N.land mask w ≠ 0%N) ws) in
      pk_count d ks n' (shl mask 1) (count + c)
  end.

(** number_elements, lines 386-431.  In the second loop the code neither
    resets [mask] nor visits word 0: `while(--k)` runs k = n_pack-1 .. 1. *)
Definition pk_number_elements (s : pk) (i : nat) : option nat :=
  if decide (pk_end s = 1) then N.to_nat <$> wget (pk_data s) i
  else
    let n_last := (pk_end s - 1) mod nbit + 1 in
    '(count, mask) ← pk_count (pk_data s) [(i + 1) * pk_n_pack s - 1] n_last 1%N 0;
    if decide (pk_n_pack s = 1) then Some count
    else
      '(count, _) ← pk_count (pk_data s) (map (fun k => i * pk_n_pack s + k) (seq 1 (pk_n_pack s - 1)))
                             nbit mask count;
      Some count.

(** add_element, lines 448-464 (post_element 481-482 is the same, and
    process_post 504-505 does nothing) *)
Definition pk_add (s : pk) (i element : nat) : option pk :=
  let pos := if decide (pk_end s = 1) then i else i * pk_n_pack s + element / nbit in
  let mask := if decide (pk_end s = 1) then 1%N else shl 1 (element - element / nbit * nbit) in
  w ← wget (pk_data s) pos;
  d ← wset (pk_data s) pos (N.lor w mask);
  Some {| pk_n_set := pk_n_set s; pk_end := pk_end s; pk_n_pack := pk_n_pack s; pk_data := d |}.

(** is_element, lines 525-540 *)
Definition pk_is_element (s : pk) (i element : nat) : option bool :=
  if decide (pk_end s = 1) then w ← wget (pk_data s) i; Some (negb (N.eqb w 0))
  else
    let j := element / nbit in
    let k := element - j * nbit in
    w ← wget (pk_data s) (i * pk_n_pack s + j);
    Some (negb (N.eqb (N.land w (shl 1 k)) 0)).

(** the loop `while(j--) data_[t++] = f(...)` of clear 557-569, assignment
    586-604, binary_union 621-643, binary_intersection 660-682: [src] reads
    the value for offset [v]; note that [src] may read the data being
    modified, so it is given the current data *)
Fixpoint pk_loop (src : list N -> nat -> option N) (j t off : nat) (d : list N) : option (list N) :=
  match j with
  | 0 => Some d
  | S j' => w ← src d off; d' ← wset d t w; pk_loop src j' (S t) (S off) d'
  end.
Definition pk_with (s : pk) (d : list N) : pk :=
  {| pk_n_set := pk_n_set s; pk_end := pk_end s; pk_n_pack := pk_n_pack s; pk_data := d |}.

Definition pk_clear (s : pk) (target : nat) : option pk :=
  pk_with s <$> pk_loop (fun _ _ => Some 0%N) (pk_n_pack s) (target * pk_n_pack s) 0 (pk_data s).

(** [other]: [None] means other is this very object (aliasing) *)
Definition other_data (d : list N) (other : option pk) : list N :=
  match other with None => d | Some o => pk_data o end.

Definition pk_assignment (s : pk) (t v : nat) (other : option pk) : option pk :=
  pk_with s <$> pk_loop (fun d off => wget (other_data d other) (v * pk_n_pack s + off))
                        (pk_n_pack s) (t * pk_n_pack s) 0 (pk_data s).
Definition pk_binary (f : N -> N -> N) (s : pk) (t l r : nat) (other : option pk) : option pk :=
  pk_with s <$> pk_loop (fun d off =>
      wl ← wget d (l * pk_n_pack s + off);
      wr ← wget (other_data d other) (r * pk_n_pack s + off);
      Some (f wl wr)) (pk_n_pack s) (t * pk_n_pack s) 0 (pk_data s).
Definition pk_union := pk_binary N.lor.
Definition pk_inter := pk_binary N.land.

(** const_iterator: state (data_index_, next_element_), lines 749-750 *)
(** the while loop of operator++, lines 855-873; runs at most end - next times *)
Fixpoint pk_scan (fuel : nat) (d : list N) (end_ idx next bit : nat) (mask : N) : option (nat * nat) :=
  if decide (next < end_) then
    match fuel with
    | 0 => None
    | S fuel' =>
        w ← wget d idx;
        if decide (N.land w mask ≠ 0%N) then Some (idx, next)
        else
          let next := S next in let bit := S bit in let mask := shl mask 1 in
          if decide (bit = nbit) then pk_scan fuel' d end_ (S idx) next 0 1%N
          else pk_scan fuel' d end_ idx next bit mask
    end
  else Some (idx, next).

(** operator++, lines 831-876 *)
Definition pk_next (s : pk) (it : nat * nat) : option (nat * nat) :=
  let '(idx, next) := it in
  if decide (next = pk_end s) then Some it
  else
    let next := S next in
    if decide (next = pk_end s) then Some (idx, next)
    else
      let bit := next mod nbit in
      let idx := if decide (bit = 0) then S idx else idx in
      pk_scan (pk_end s) (pk_data s) (pk_end s) idx next bit (shl 1 bit).

(** constructor of the iterator, lines 771-794 *)
Definition pk_begin (s : pk) (i : nat) : option (nat * nat) :=
  let it := (i * pk_n_pack s, 0) in
  w ← wget (pk_data s) (i * pk_n_pack s);
  if decide (N.land w 1 ≠ 0%N) then Some it else pk_next s it.

(** the client's loop `while( *itr != end ) { use *itr; ++itr; }` *)
Fixpoint pk_collect (fuel : nat) (s : pk) (it : nat * nat) : option (list nat) :=
  if decide (snd it = pk_end s) then Some []
  else match fuel with
       | 0 => None
       | S fuel' => it' ← pk_next s it; l ← pk_collect fuel' s it'; Some (snd it :: l)
       end.
Definition pk_iterate (s : pk) (i : nat) : option (list nat) :=
  it ← pk_begin s i; pk_collect (S (pk_end s)) s it.

(** a store of several containers, and the client operations *)
Definition pkstore := nat -> pk.
Definition pput (s : pkstore) (o : nat) (v : pk) : pkstore := fun k => if Nat.eqb k o then v else s k.
Definition pother (s : pkstore) (o o2 : nat) : option pk := if Nat.eqb o o2 then None else Some (s o2).

Definition upd1 (s : pkstore) (o : nat) (r : option pk) : option (pkstore * out) :=
  v ← r; Some (pput s o v, ONone).
Definition pk_step (s : pkstore) (a : op) : option (pkstore * out) :=
  match a with
  | Resize o n lim => upd1 s o (pk_resize (s o) n lim)
  | Add o i e | Post o i e => upd1 s o (pk_add (s o) i e)
  | Process o i => Some (s, ONone)
  | Clear o i => upd1 s o (pk_clear (s o) i)
  | Assign o t o2 x => upd1 s o (pk_assignment (s o) t x (pother s o o2))
  | Union o t l o2 r => upd1 s o (pk_union (s o) t l r (pother s o o2))
  | Inter o t l o2 r => upd1 s o (pk_inter (s o) t l r (pother s o o2))
  | CopyVec o o2 => Some (pput s o (s o2), ONone)              (* operator=, lines 323-336 *)
  | SwapVec o o2 => Some (pput (pput s o (s o2)) o2 (s o), ONone) (* swap, lines 353-369 *)
  | IsElem o i e => b ← pk_is_element (s o) i e; Some (s, OBool b)
  | Count o i => n ← pk_number_elements (s o) i; Some (s, ONat n)
  | Iterate o i => l ← pk_iterate (s o) i; Some (s, OList l)
  end.
Definition pk_init_store : pkstore := fun _ => pk_init.
End Pack.
