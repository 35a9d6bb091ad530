(** * Model of /repo/include/cppad/local/sparse/size_setvec.hpp
    (list_setvec is the instance s_type = size_t, list_setvec.hpp:26).

    Sets are sorted, singly linked lists with reference counts, kept in one
    array of (value, next) pairs, plus a free list.  Index 0 is the end
    marker.  Array accesses out of range are undefined behaviour: [None].
    Loops over a linked list use fuel (length of the array + 1); running out
    of fuel (a cyclic list) is also [None].  Indices and counts are [nat]:
    overflow of s_type is not modelled.  Assertions (the CPPAD_ASSERT macros) are not
    executed. *)
From stdpp Require Import list numbers option sorting.
From Verif Require Import SetVec_Spec.

Section Size.
(** value of a freshly extended (uninitialised) array element, get_data_index line 370 *)
Variable junk : nat * nat.

(** class members, lines 146-157 (temporary_ is local to each call) *)
Record sz := {
  z_end   : nat;                 (* end_ *)
  z_nnu   : nat;                 (* number_not_used_ *)
  z_dnu   : nat;                 (* data_not_used_ *)
  z_data  : list (nat * nat);    (* data_ : (value, next) *)
  z_start : list nat;            (* start_ *)
  z_post  : list nat             (* post_ *)
}.

(** default constructor, lines 591-593 *)
Definition z_init : sz :=
  {| z_end := 0; z_nnu := 0; z_dnu := 0; z_data := []; z_start := []; z_post := [] |}.

Definition zval (s : sz) (i : nat) : option nat := fst <$> z_data s !! i.
Definition znext (s : sz) (i : nat) : option nat := snd <$> z_data s !! i.
Definition with_data (s : sz) (d : list (nat * nat)) : sz :=
  {| z_end := z_end s; z_nnu := z_nnu s; z_dnu := z_dnu s; z_data := d; z_start := z_start s; z_post := z_post s |}.
Definition with_start (s : sz) (l : list nat) : sz :=
  {| z_end := z_end s; z_nnu := z_nnu s; z_dnu := z_dnu s; z_data := z_data s; z_start := l; z_post := z_post s |}.
Definition with_post (s : sz) (l : list nat) : sz :=
  {| z_end := z_end s; z_nnu := z_nnu s; z_dnu := z_dnu s; z_data := z_data s; z_start := z_start s; z_post := l |}.
Definition with_free (s : sz) (nnu dnu : nat) : sz :=
  {| z_end := z_end s; z_nnu := nnu; z_dnu := dnu; z_data := z_data s; z_start := z_start s; z_post := z_post s |}.
Definition set_val (s : sz) (i v : nat) : option sz :=
  c ← z_data s !! i; Some (with_data s (<[i := (v, snd c)]> (z_data s))).
Definition set_next (s : sz) (i n : nat) : option sz :=
  c ← z_data s !! i; Some (with_data s (<[i := (fst c, n)]> (z_data s))).
Definition set_start (s : sz) (i v : nat) : option sz :=
  _ ← z_start s !! i; Some (with_start s (<[i := v]> (z_start s))).
Definition set_post (s : sz) (i v : nat) : option sz :=
  _ ← z_post s !! i; Some (with_post s (<[i := v]> (z_post s))).
Definition fuel (s : sz) : nat := S (length (z_data s)).

(** the loops of drop, lines 266-274 and 300-307: advance from [previous] to
    the last cell, counting cells; returns (last, count) *)
Fixpoint walk (f : nat) (s : sz) (previous count : nat) : option (nat * nat) :=
  match f with
  | 0 => None
  | S f' =>
      next ← znext s previous;
      if decide (next = 0) then Some (previous, count) else walk f' s next (S count)
  end.

(** drop, lines 251-314: returns the number of cells added to the free list *)
Definition drop (s : sz) (i : nat) : option (nat * sz) :=
  post ← z_post s !! i;
  '(number_drop, s) ←
    (if decide (post = 0) then Some (0, s)
     else
       s ← set_post s i 0;
       '(previous, n) ← walk (fuel s) s post 1;
       s ← set_next s previous (z_dnu s);
       Some (n, with_free s (z_nnu s) post));
  start ← z_start s !! i;
  if decide (start = 0) then Some (number_drop, s)
  else
    v ← zval s start;
    s ← set_val s start (v - 1);
    s ← set_start s i 0;
    if decide (0 < v - 1) then Some (number_drop, s)
    else
      '(previous, n) ← walk (fuel s) s start (S number_drop);
      s ← set_next s previous (z_dnu s);
      Some (n, with_free s (z_nnu s) start).

(** `number_not_used_ += drop(i)`, e.g. lines 1129-1130, 1209-1210 *)
Definition drop_count (s : sz) (i : nat) : option sz :=
  '(n, s) ← drop s i; Some (with_free s (z_nnu s + n) (z_dnu s)).

(** get_data_index, lines 356-373 *)
Definition get_data_index (s : sz) : option (nat * sz) :=
  if decide (0 < z_dnu s) then
    n ← znext s (z_dnu s);
    Some (z_dnu s, with_free s (z_nnu s - 1) n)
  else Some (length (z_data s), with_data s (z_data s ++ [junk])).

(** resize, lines 656-695 *)
Definition z_resize (s : sz) (n_set end_ : nat) : option sz :=
  if decide (n_set = 0) then Some z_init
  else Some {| z_end := end_; z_nnu := 0; z_dnu := 0; z_data := [(end_, 0)];
               z_start := replicate n_set 0; z_post := replicate n_set 0 |}.

(** loop of number_elements, lines 834-838 *)
Fixpoint count_list (f : nat) (s : sz) (next count : nat) : option nat :=
  if decide (next = 0) then Some count
  else match f with
       | 0 => None
       | S f' => n ← znext s next; count_list f' s n (S count)
       end.
(** number_elements, lines 816-841 *)
Definition z_number_elements (s : sz) (i : nat) : option nat :=
  start ← z_start s !! i;
  if decide (start = 0) then Some 0
  else next ← znext s start; count_list (fuel s) s next 0.

(** the search loop `while( value < element )`, lines 886-894 and 1176-1181:
    returns (previous, next, value) *)
Fixpoint find_pos (f : nat) (s : sz) (element previous next value : nat) : option (nat * nat * nat) :=
  if decide (value < element) then
    match f with
    | 0 => None
    | S f' => n ← znext s next; v ← zval s n; find_pos f' s element next n v
    end
  else Some (previous, next, value).

(** append one element to the list under construction, e.g. lines 930-933,
    943-946, 951-954 and 1138-1141 *)
Definition push_new (s : sz) (previous_new value : nat) : option (nat * sz) :=
  '(next_new, s) ← get_data_index s;
  s ← set_next s previous_new next_new;
  s ← set_val s next_new value;
  Some (next_new, s).

(** copying loops of add_element, lines 928-939 (bound = element) and
    949-960 (bound = end_): returns (previous_new, next, value, state) *)
Fixpoint copy_below (f : nat) (s : sz) (bound previous_new next value : nat) : option (nat * nat * nat * sz) :=
  if decide (value < bound) then
    match f with
    | 0 => None
    | S f' =>
        '(next_new, s) ← push_new s previous_new value;
        n ← znext s next; v ← zval s n;
        copy_below f' s bound next_new n v
    end
  else Some (previous_new, next, value, s).

(** add_element, lines 858-967 *)
Definition z_add (s : sz) (i element : nat) : option sz :=
  start ← z_start s !! i;
  if decide (start = 0) then
    '(start, s) ← get_data_index s;
    s ← set_start s i start;
    s ← set_val s start 1;
    '(next, s) ← get_data_index s;
    s ← set_next s start next;
    s ← set_val s next element;
    set_next s next 0
  else
    next ← znext s start;
    value ← zval s next;
    '(previous, next, value) ← find_pos (fuel s) s element start next value;
    if decide (value = element) then Some s
    else
      rc ← zval s start;
      if decide (rc = 1) then
        '(insert, s) ← get_data_index s;
        s ← set_next s insert next;
        s ← set_val s insert element;
        set_next s previous insert
      else
        s ← set_val s start (rc - 1);
        '(start_new, s) ← get_data_index s;
        s ← set_val s start_new 1;
        next ← znext s start;
        value ← zval s next;
        let f := fuel s in
        '(previous_new, next, value, s) ← copy_below f s element start_new next value;
        '(previous_new, s) ← push_new s previous_new element;
        '(previous_new, next, value, s) ← copy_below f s (z_end s) previous_new next value;
        s ← set_next s previous_new 0;
        set_start s i start_new.

(** post_element, lines 989-1006 *)
Definition z_post_element (s : sz) (i element : nat) : option sz :=
  next ← z_post s !! i;
  '(post, s) ← get_data_index s;
  s ← set_post s i post;
  s ← set_val s post element;
  set_next s post next.

(** build the list of a set from the values of temporary_: lines 1137-1143,
    1432-1438, 1563-1569 *)
Fixpoint build (s : sz) (index : nat) (tmp : list nat) : option sz :=
  match tmp with
  | [] => set_next s index 0
  | x :: tmp' => '(next, s) ← push_new s index x; build s next tmp'
  end.
(** lines 1134-1143 (also 1429-1438 and 1560-1569) *)
Definition build_set (s : sz) (i : nat) (tmp : list nat) : option sz :=
  '(index, s) ← get_data_index s;
  s ← set_start s i index;
  s ← set_val s index 1;
  build s index tmp.

(** values on the post list, lines 1058-1069; returns (values, last cell) *)
Fixpoint post_values (f : nat) (s : sz) (previous : nat) : option (list nat * nat) :=
  match f with
  | 0 => None
  | S f' =>
      value ← zval s previous;
      next ← znext s previous;
      if decide (next = 0) then Some ([value], previous)
      else '(l, last) ← post_values f' s next; Some (value :: l, last)
  end.

(** inner while loop of process_post, lines 1098-1103: moves elements of the
    set that are below post_value to the output; returns (moved, i_next, i_value) *)
Fixpoint take_below (f : nat) (s : sz) (bound i_next i_value : nat) : option (list nat * nat * nat) :=
  if decide (i_value < bound) then
    match f with
    | 0 => None
    | S f' =>
        n ← znext s i_next; v ← zval s n;
        '(l, n, v) ← take_below f' s bound n v;
        Some (i_value :: l, n, v)
    end
  else Some ([], i_next, i_value).

(** the for loop of process_post, lines 1095-1116: returns
    (output, i_next, i_value, post_is_subset) *)
Fixpoint merge_posts (s : sz) (posts : list nat) (i_next i_value previous_post : nat) (subset : bool)
  : option (list nat * nat * nat * bool) :=
  match posts with
  | [] => Some ([], i_next, i_value, subset)
  | post_value :: posts' =>
      '(l1, i_next, i_value) ← take_below (fuel s) s post_value i_next i_value;
      '(i_next, i_value, subset) ←
        (if decide (i_value = post_value) then
           n ← znext s i_next; v ← zval s n; Some (n, v, subset)
         else Some (i_next, i_value, false));
      let l2 := if decide (previous_post ≠ post_value) then [post_value] else [] in
      '(l3, i_next, i_value, subset) ← merge_posts s posts' i_next i_value post_value subset;
      Some (l1 ++ l2 ++ l3, i_next, i_value, subset)
  end.

(** process_post, lines 1029-1146.  std::sort (line 1080) is modelled by
    [merge_sort]. *)
Definition z_process_post (s : sz) (i : nat) : option sz :=
  post ← z_post s !! i;
  if decide (post = 0) then Some s
  else
    next ← znext s post;
    if decide (next = 0) then
      value ← zval s post;
      s ← set_post s i 0;
      s ← set_next s post (z_dnu s);
      let s := with_free s (S (z_nnu s)) post in
      z_add s i value
    else
      '(tmp, last) ← post_values (fuel s) s post;
      let number_post := length tmp in
      s ← set_post s i 0;
      s ← set_next s last (z_dnu s);
      let s := with_free s (z_nnu s + number_post) post in
      let tmp := merge_sort (≤) tmp in
      start ← z_start s !! i;
      '(i_next, i_value) ←
        (if decide (0 < start) then n ← znext s start; v ← zval s n; Some (n, v)
         else Some (start, z_end s));
      '(out, i_next, i_value, subset) ← merge_posts s tmp i_next i_value (z_end s) true;
      if subset : bool then Some s
      else
        '(rest, _, _) ← take_below (fuel s) s (z_end s) i_next i_value;
        s ← drop_count s i;
        build_set s i (out ++ rest).

(** is_element, lines 1163-1183 *)
Definition z_is_element (s : sz) (i element : nat) : option bool :=
  start ← z_start s !! i;
  if decide (start = 0) then Some false
  else
    next ← znext s start;
    value ← zval s next;
    '(_, _, value) ← find_pos (fuel s) s element start next value;
    Some (Nat.eqb element value).

(** clear, lines 1200-1213 *)
Definition z_clear (s : sz) (target : nat) : option sz := drop_count s target.

(** copy loop of assignment, lines 1273-1283, from [other] into this *)
Fixpoint copy_list (f : nat) (s other : sz) (this_next next : nat) : option sz :=
  if decide (next = 0) then Some s
  else match f with
       | 0 => None
       | S f' =>
           v ← zval other next;
           s ← set_val s this_next v;
           next ← znext other next;
           if decide (next = 0) then
             s ← set_next s this_next 0; copy_list f' s other this_next next
           else
             '(tmp, s) ← get_data_index s;
             s ← set_next s this_next tmp;
             copy_list f' s other tmp next
       end.

(** assignment, lines 1230-1294; [other = None] when other is this object *)
Definition z_assignment (s : sz) (this_target other_source : nat) (other : option sz) : option sz :=
  match other with
  | None =>
      if decide (this_target = other_source) then Some s
      else
        other_start ← z_start s !! other_source;
        s ← (if decide (other_start = 0) then Some s
             else v ← zval s other_start; set_val s other_start (S v));
        s ← drop_count s this_target;
        set_start s this_target other_start
  | Some o =>
      other_start ← z_start o !! other_source;
      '(this_start, s) ←
        (if decide (other_start = 0) then Some (0, s)
         else
           '(this_start, s) ← get_data_index s;
           '(this_next, s) ← get_data_index s;
           s ← set_val s this_start 1;
           s ← set_next s this_start this_next;
           next ← znext o other_start;
           s ← copy_list (fuel o) s o this_next next;
           Some (this_start, s));
      s ← drop_count s this_target;
      set_start s this_target this_start
  end.

(** main loop of binary_union (lines 1365-1397, [union = true]: all values are
    kept) and of binary_intersection (lines 1507-1537, [union = false]: only
    common values are kept).  Returns
    (temporary, next_left, value_left, next_right, value_right, left_is_subset, right_is_subset) *)
Fixpoint merge2 (union : bool) (f : nat) (s o : sz) (nl vl nr vr : nat) (ls rs : bool)
  : option (list nat * nat * nat * nat * nat * bool * bool) :=
  if decide (vl < z_end s ∧ vr < z_end s) then
    match f with
    | 0 => None
    | S f' =>
        if decide (vl = vr) then
          nl' ← znext s nl; vl' ← zval s nl'; nr' ← znext o nr; vr' ← zval o nr';
          '(t, a, b, c, d, e, g) ← merge2 union f' s o nl' vl' nr' vr' ls rs;
          Some (vl :: t, a, b, c, d, e, g)
        else if decide (vl < vr) then
          nl' ← znext s nl; vl' ← zval s nl';
          '(t, a, b, c, d, e, g) ← merge2 union f' s o nl' vl' nr vr false rs;
          Some (if union then vl :: t else t, a, b, c, d, e, g)
        else
          nr' ← znext o nr; vr' ← zval o nr';
          '(t, a, b, c, d, e, g) ← merge2 union f' s o nl vl nr' vr' ls false;
          Some (if union then vr :: t else t, a, b, c, d, e, g)
    end
  else Some ([], nl, vl, nr, vr, ls, rs).

Definition the_other (s : sz) (other : option sz) : sz := match other with None => s | Some o => o end.

(** binary_union, lines 1311-1441 *)
Definition z_union (s : sz) (this_target this_left other_right : nat) (other : option sz) : option sz :=
  let o := the_other s other in
  start_left ← z_start s !! this_left;
  start_right ← z_start o !! other_right;
  if decide (start_right = 0) then z_assignment s this_target this_left None
  else if decide (start_left = 0) then z_assignment s this_target other_right other
  else
    nl ← znext s start_left; vl ← zval s nl;
    nr ← znext o start_right; vr ← zval o nr;
    '(tmp, nl, vl, nr, vr, ls, rs) ← merge2 true (fuel s + fuel o) s o nl vl nr vr true true;
    let rs := rs && Nat.eqb vr (z_end s) in
    let ls := ls && Nat.eqb vl (z_end s) in
    if rs : bool then z_assignment s this_target this_left None
    else if ls : bool then z_assignment s this_target other_right other
    else
      '(tl, _, _) ← take_below (fuel s) s (z_end s) nl vl;
      '(tr, _, _) ← take_below (fuel o) o (z_end s) nr vr;
      s ← drop_count s this_target;
      build_set s this_target (tmp ++ tl ++ tr).

(** binary_intersection, lines 1458-1572 *)
Definition z_inter (s : sz) (this_target this_left other_right : nat) (other : option sz) : option sz :=
  let o := the_other s other in
  start_left ← z_start s !! this_left;
  start_right ← z_start o !! other_right;
  if decide (start_left = 0 ∨ start_right = 0) then z_clear s this_target
  else
    nl ← znext s start_left; vl ← zval s nl;
    nr ← znext o start_right; vr ← zval o nr;
    '(tmp, nl, vl, nr, vr, ls, rs) ← merge2 false (fuel s + fuel o) s o nl vl nr vr true true;
    let rs := rs && Nat.eqb vr (z_end s) in
    let ls := ls && Nat.eqb vl (z_end s) in
    if ls : bool then z_assignment s this_target this_left None
    else if rs : bool then z_assignment s this_target other_right other
    else
      s ← drop_count s this_target;
      if decide (length tmp = 0) then Some s
      else build_set s this_target tmp.

(** const_iterator: the pair next_pair_ (line 1618).
    Constructor, lines 1638-1664 *)
Definition z_begin (s : sz) (i : nat) : option (nat * nat) :=
  start ← z_start s !! i;
  if decide (start = 0) then Some (z_end s, 0)
  else next ← znext s start; z_data s !! next.
(** operator++, lines 1702-1705 *)
Definition z_incr (s : sz) (p : nat * nat) : option (nat * nat) := z_data s !! (snd p).
(** the client's loop `while( *itr != end )` *)
Fixpoint z_collect (f : nat) (s : sz) (p : nat * nat) : option (list nat) :=
  if decide (fst p = z_end s) then Some []
  else match f with
       | 0 => None
       | S f' => p' ← z_incr s p; l ← z_collect f' s p'; Some (fst p :: l)
       end.
Definition z_iterate (s : sz) (i : nat) : option (list nat) :=
  p ← z_begin s i; z_collect (fuel s) s p.

(** store of several containers, and the client operations *)
Definition zstore := nat -> sz.
Definition zput (s : zstore) (o : nat) (v : sz) : zstore := fun k => if Nat.eqb k o then v else s k.
Definition zother (s : zstore) (o o2 : nat) : option sz := if Nat.eqb o o2 then None else Some (s o2).
Definition zupd1 (s : zstore) (o : nat) (r : option sz) : option (zstore * out) :=
  v ← r; Some (zput s o v, ONone).
Definition z_step (s : zstore) (a : op) : option (zstore * out) :=
  match a with
  | Resize o n lim => zupd1 s o (z_resize (s o) n lim)
  | Add o i e => zupd1 s o (z_add (s o) i e)
  | Post o i e => zupd1 s o (z_post_element (s o) i e)
  | Process o i => zupd1 s o (z_process_post (s o) i)
  | Clear o i => zupd1 s o (z_clear (s o) i)
  | Assign o t o2 x => zupd1 s o (z_assignment (s o) t x (zother s o o2))
  | Union o t l o2 r => zupd1 s o (z_union (s o) t l r (zother s o o2))
  | Inter o t l o2 r => zupd1 s o (z_inter (s o) t l r (zother s o o2))
  | CopyVec o o2 => Some (zput s o (s o2), ONone)                  (* operator=, lines 754-766 *)
  | SwapVec o o2 => Some (zput (zput s o (s o2)) o2 (s o), ONone)  (* swap, lines 783-799 *)
  | IsElem o i e => b ← z_is_element (s o) i e; Some (s, OBool b)
  | Count o i => n ← z_number_elements (s o) i; Some (s, ONat n)
  | Iterate o i => l ← z_iterate (s o) i; Some (s, OList l)
  end.
Definition z_init_store : zstore := fun _ => z_init.
End Size.
