(** Model of utility/thread_alloc.hpp (C26): block headers in memory, linked lists of blocks, counters. *)
From Coq Require Import NArith List Bool Arith.
From Verif Require Import TA_Spec.
Import ListNotations.

(** *** memory obtained from operator new *)
(** thread_alloc.hpp:104-120 block_t at the start of each piece of memory, with the size of the piece *)
Record node := mkNode { b_size : N; b_extra : N; b_tc : nat; b_next : option N }.
Definition heap := list (N * node).
Fixpoint h_get (h : heap) (a : N) : option node :=
  match h with [] => None | (a', b) :: h' => if (a' =? a)%N then Some b else h_get h' a end.
Definition h_upd (h : heap) (a : N) (f : node -> node) : heap := map (fun e => if (fst e =? a)%N then (fst e, f (snd e)) else e) h.
Definition h_del (h : heap) (a : N) : heap := filter (fun e => negb (fst e =? a)%N) h.
(** contract of operator new: the address returned is that of memory not in use *)
Definition h_free (h : heap) (a size : N) : bool :=
  forallb (fun e => (fst e + b_size (snd e) <=? a)%N || (a + size <=? fst e)%N) h.
Definition set_next (x : option N) (b : node) : node := mkNode (b_size b) (b_extra b) (b_tc b) x.
Definition set_extra (x : N) (b : node) : node := mkNode (b_size b) x (b_tc b) (b_next b).

(** thread_alloc.hpp:131-145 thread_alloc_info; the memory of the structure itself (operator new at 228) is not modelled *)
Record tinfo := mkInfo { i_use : N; i_av : N; i_ra : nat -> option N; i_ru : nat -> option N }.
Definition zero_info : tinfo := mkInfo 0 0 (fun _ => None) (fun _ => None).
(** the static variables: all_info (194), hold memory (161), number of threads (353), and the
    constructor / destructor calls that were made *)
Record tstate := mkT { t_heap : heap; t_info : nat -> option tinfo; t_hold : bool; t_num : nat; t_log : list event }.

(** thread_alloc.hpp:86-101: the capacities; [fuel]: CPPAD_MAX_NUM_CAPACITY (35) *)
Fixpoint capacities (fuel : nat) (half cap : N) : list N :=
  match fuel with
  | 0 => []
  | S fuel' => if (cap <? half)%N then cap :: capacities fuel' half (3 * ((cap + 1) / 2)) else []
  end.

Section TA.
  Variable caps : list N.
  Variable half : N.                       (* std::numeric_limits<size_t>::max() / 2 *)
  Variable maxt : nat.                     (* CPPAD_MAX_NUM_THREADS *)
  Variable HDR : N.                        (* sizeof(block_t) *)
  Variable dbg : bool.                     (* NDEBUG is not defined and CPPAD_DEBUG_AND_RELEASE is 0 *)
  Let num := length caps.

  (** 191-242 thread_info(thread) and thread_info(thread, true) *)
  Definition info_of (s : tstate) (t : nat) : tinfo := match t_info s t with Some i => i | None => zero_info end.
  Definition set_info (s : tstate) (t : nat) (i : tinfo) : tstate :=
    mkT (t_heap s) (fun t' => if t' =? t then Some i else t_info s t') (t_hold s) (t_num s) (t_log s).
  Definition clear_info (s : tstate) (t : nat) : tstate :=
    mkT (t_heap s) (fun t' => if t' =? t then None else t_info s t') (t_hold s) (t_num s) (t_log s).
  Definition set_heap (s : tstate) (h : heap) : tstate := mkT h (t_info s) (t_hold s) (t_num s) (t_log s).
  Definition put_root (g : nat -> option N) (c : nat) (x : option N) : nat -> option N := fun c' => if c' =? c then x else g c'.

  (** 768-773; None: the loop leaves the array of capacities *)
  Fixpoint c_index (l : list N) (min : N) : option nat :=
    match l with
    | [] => None
    | c :: l' => if (c <? min)%N then match c_index l' min with Some i => Some (S i) | None => None end else Some 0
    end.

  (** 753-865 *)
  Definition get_memory (s : tstate) (t : nat) (min sys : N) : option (N * N * tstate) :=
    if negb (min <? half)%N then None else                                          (* 758-761 *)
    match c_index caps min with
    | None => None
    | Some c =>
      let cap := nth c caps 0%N in
      let tc := t * num + c in
      let i := info_of s t in
      match i_ra i c with
      | Some a =>                                                                   (* 804-837 *)
        match h_get (t_heap s) a with
        | None => None
        | Some b =>
          let h' := if dbg then h_upd (t_heap s) a (set_next (i_ru i c)) else t_heap s in
          let ru' := if dbg then put_root (i_ru i) c (Some a) else i_ru i in
          Some ((a + HDR)%N, cap,
            set_heap (set_info s t (mkInfo (i_use i + cap) (i_av i - cap) (put_root (i_ra i) c (b_next b)) ru')) h')
        end
      | None =>                                                                     (* 842-864 *)
        if h_free (t_heap s) sys (HDR + cap) then
          let b := mkNode (HDR + cap) 0 tc (if dbg then i_ru i c else None) in
          let ru' := if dbg then put_root (i_ru i) c (Some sys) else i_ru i in
          Some ((sys + HDR)%N, cap,
            set_heap (set_info s t (mkInfo (i_use i + cap) (i_av i) (i_ra i) ru')) ((sys, b) :: t_heap s))
        else None
      end
    end.

  (** 952-954: the element of the in use list before [target]; None: it is not in the list *)
  Fixpoint walk (fuel : nat) (h : heap) (target : N) (prev cur : option N) : option (option N) :=
    match fuel with
    | 0 => None
    | S fuel' =>
      match cur with
      | None => None
      | Some x => if (x =? target)%N then Some prev else
        match h_get h x with None => None | Some b => walk fuel' h target (Some x) (b_next b) end
      end
    end.
  (** 930-999 *)
  Definition return_memory (s : tstate) (t : nat) (par : bool) (p : N) : option tstate :=
    let a := (p - HDR)%N in
    match h_get (t_heap s) a with
    | None => None                                                                  (* 934: not allocated memory *)
    | Some b =>
      let thread := b_tc b / num in
      let c := b_tc b mod num in
      let cap := nth c caps 0%N in
      if negb ((thread =? t) || negb par) then None else                            (* 940-944 *)
      let i := info_of s thread in
      let unlinked :=
        if dbg then
          match walk (S (length (t_heap s))) (t_heap s) a None (i_ru i c) with
          | None => None                                                            (* 957-974 *)
          | Some None => Some (t_heap s, put_root (i_ru i) c (b_next b))
          | Some (Some q) => Some (h_upd (t_heap s) q (set_next (b_next b)), i_ru i)
          end
        else Some (t_heap s, i_ru i) in
      match unlinked with
      | None => None
      | Some (h1, ru') =>
        if negb (t_hold s)
        then Some (set_heap (set_info s thread (mkInfo (i_use i - cap) (i_av i) (i_ra i) ru')) (h_del h1 a))
        else Some (set_heap (set_info s thread (mkInfo (i_use i - cap) (i_av i + cap) (put_root (i_ra i) c (Some a)) ru'))
                     (h_upd h1 a (set_next (i_ra i c))))
      end
    end.

  (** 1073-1080: the list starting at [cur] is released; [av]: count_available_ *)
  Fixpoint release (fuel : nat) (h : heap) (cap : N) (cur : option N) (av : N) : option (heap * N) :=
    match cur with
    | None => Some (h, av)
    | Some a =>
      match fuel with
      | 0 => None
      | S fuel' => match h_get h a with None => None | Some b => release fuel' (h_del h a) cap (b_next b) (av - cap) end
      end
    end.
  (** 1069-1082 *)
  Fixpoint release_all (l : list N) (c : nat) (h : heap) (i : tinfo) : option (heap * tinfo) :=
    match l with
    | [] => Some (h, i)
    | cap :: l' =>
      match release (length h) h cap (i_ra i c) (i_av i) with
      | None => None
      | Some (h', av') => release_all l' (S c) h' (mkInfo (i_use i) av' (put_root (i_ra i) c None) (i_ru i))
      end
    end.
  (** 1052-1088; the caller has checked the assertions *)
  Definition free_available (s : tstate) (thread : nat) : option tstate :=
    match release_all caps 0 (t_heap s) (info_of s thread) with
    | None => None
    | Some (h', i) =>
      let s' := set_heap (set_info s thread i) h' in
      Some (if (i_use i =? 0)%N then clear_info s' thread else s')
    end.
  (** 1507-1512: threads k-1, ..., 0 *)
  Fixpoint free_loop (k : nat) (s : tstate) (ok : bool) : option (bool * tstate) :=
    match k with
    | 0 => Some (ok, s)
    | S k' =>
      let ok' := ok && (i_use (info_of s k') =? 0)%N in
      match free_available s k' with None => None | Some s' => free_loop k' s' ok' end
    end.
  Definition log_all (s : tstate) (l : list event) : tstate := mkT (t_heap s) (t_info s) (t_hold s) (t_num s) (t_log s ++ l).
  Definition set_num (s : tstate) (n : nat) : tstate := mkT (t_heap s) (t_info s) (t_hold s) n (t_log s).
  (** 540-541 *)
  Fixpoint touch (k : nat) (s : tstate) : tstate :=
    match k with 0 => s | S k' => set_info (touch k' s) k' (info_of (touch k' s) k') end.

  (** [t]: the value of thread_num() (384-403, 663-664), [par]: the value of in_parallel() *)
  Definition t_step (s : tstate) (t : nat) (par : bool) (c : tcall) : option (tout * tstate) :=
    if negb (t <? t_num s) then None else                                           (* 398-401 *)
    match c with
    | TGet min sys => match get_memory s t min sys with Some (p, cap, s') => Some (OPtr p cap, s') | None => None end
    | TReturn p => match return_memory s t par p with Some s' => Some (ONone, s') | None => None end
    | TFree t' =>                                                                   (* 1053-1061 *)
      if negb (t' <? maxt) then None else if negb ((t' =? t) || negb par) then None else
      match free_available s t' with Some s' => Some (ONone, s') | None => None end
    | THold v => Some (ONone, mkT (t_heap s) (t_info s) v (t_num s) (t_log s))      (* 1130-1133 *)
    | TCreate sz count sys =>                                                       (* 1351-1372 *)
      match get_memory s t ((count * sz) mod (2 * half + 2)) sys with
      | None => None
      | Some (p, cap, s') =>
        let n := (cap / sz)%N in
        Some (OArr p n, log_all (set_heap s' (h_upd (t_heap s') (p - HDR) (set_extra n))) (elements (Ctor p) n))
      end
    | TDelete p =>                                                                  (* 1442-1455 *)
      match h_get (t_heap s) (p - HDR) with
      | None => None
      | Some b =>
        match return_memory (log_all s (elements (Dtor p) (b_extra b))) t par p with Some s' => Some (ONone, s') | None => None end
      end
    | TSetup n sys =>                                                               (* 505-559 *)
      if par then None else                                                         (* 356 *)
      if n =? 1 then Some (ONone, set_num s 1) else
      if negb (n <=? maxt) then None else if n =? 0 then None else
      match get_memory (touch n s) t 0 sys with
      | None => None
      | Some (p, _, s1) =>
        match return_memory s1 t par p with
        | None => None
        | Some s2 => match free_available s2 t with None => None | Some s3 => Some (ONone, set_num s3 n) end
        end
      end
    | TFreeAll => if par then None else                                             (* 1502-1514 *)
        match free_loop maxt s true with Some (ok, s') => Some (OBool ok, s') | None => None end
    | TInuse t' =>                                                                  (* 1188-1196 *)
        if (t' <? maxt) && ((t' =? t) || negb par) then Some (ONum (i_use (info_of s t')), set_info s t' (info_of s t')) else None
    | TAvailable t' =>                                                              (* 1243-1251 *)
        if (t' <? maxt) && ((t' =? t) || negb par) then Some (ONum (i_av (info_of s t')), set_info s t' (info_of s t')) else None
    end.
  Fixpoint t_run (s : tstate) (h : list (nat * bool * tcall)) : option (list tout * tstate) :=
    match h with
    | [] => Some ([], s)
    | (t, par, c) :: h' =>
      match t_step s t par c with
      | None => None
      | Some (o, s') => match t_run s' h' with Some (os, s2) => Some (o :: os, s2) | None => None end
      end
    end.
  Definition t_init : tstate := mkT [] (fun _ => None) false 1 [].
End TA.
