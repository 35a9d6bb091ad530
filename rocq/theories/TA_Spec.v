(** Specification of thread_alloc (C26): which blocks are in use and which are held, without any
    memory layout, lists of pointers or counters.
    A block is identified by the address that the program gets; [k_own] is the thread for which it was allocated,
    [k_cap] its number of bytes, [k_arr] the number of elements constructed in it by create_array. *)
From Coq Require Import NArith List Bool Arith.
Import ListNotations.

Record block := mkBlk { k_ptr : N; k_own : nat; k_cap : N; k_arr : option N }.
(** constructor / destructor call for element [i] of the array at an address *)
Inductive event := Ctor (p i : N) | Dtor (p i : N).
Record tspec := mkTS { u_use : list block; u_held : list block; u_hold : bool; u_num : nat; u_log : list event }.

(** One call: the calling thread, whether execution is parallel, and what is called.
    [sys]: the address that operator new returns, in case it is called. *)
Inductive tcall :=
| TGet (min sys : N)                                (* get_memory(min, cap) *)
| TReturn (p : N)                                   (* return_memory(p) *)
| TFree (t : nat)                                   (* free_available(t) *)
| THold (v : bool)                                  (* hold_memory(v) *)
| TCreate (sz count sys : N)                        (* create_array<Type>(count, size_out), sizeof(Type) = sz *)
| TDelete (p : N)                                   (* delete_array(p) *)
| TSetup (n : nat) (sys : N)                        (* parallel_setup(n, ...) *)
| TFreeAll                                          (* free_all() *)
| TInuse (t : nat)                                  (* inuse(t) *)
| TAvailable (t : nat).                             (* available(t) *)
Inductive tout := ONone | OPtr (p cap : N) | OArr (p n : N) | OBool (x : bool) | ONum (x : N).

Section Spec.
  Variable caps : list N.                           (* the block sizes, increasing *)
  Variable half : N.                                (* bound for the bytes in a request *)
  Variable maxt : nat.                              (* bound for the number of threads *)
  Variable HDR : N.                                 (* bytes in front of each block *)

  Definition total (t : nat) (l : list block) : N :=
    fold_right N.add 0%N (map k_cap (filter (fun k => k_own k =? t) l)).
  Definition in_use (s : tspec) (t : nat) : N := total t (u_use s).
  Definition available (s : tspec) (t : nat) : N := total t (u_held s).

  (** the memory from the system for a block, including the bytes in front of it *)
  Definition disjoint (k : block) (p cap : N) : bool :=
    (k_ptr k + k_cap k <=? p - HDR)%N || (p + cap <=? k_ptr k - HDR)%N.
  Fixpoint take (t : nat) (cap : N) (l : list block) : option (block * list block) :=
    match l with
    | [] => None
    | k :: l' => if (k_own k =? t) && (k_cap k =? cap)%N then Some (k, l')
                 else match take t cap l' with Some (x, r) => Some (x, k :: r) | None => None end
    end.
  Definition is_ptr (p : N) (k : block) : bool := (k_ptr k =? p)%N.

  (** the smallest size that is large enough; a held block of the thread is used again *)
  Definition s_get (s : tspec) (t : nat) (min sys : N) (arr : N -> option N) : option (N * N * tspec) :=
    if negb (min <? half)%N then None else
    match find (fun c => (min <=? c)%N) caps with
    | None => None
    | Some cap =>
      match take t cap (u_held s) with
      | Some (k, r) => Some (k_ptr k, cap, mkTS (mkBlk (k_ptr k) t cap (arr cap) :: u_use s) r (u_hold s) (u_num s) (u_log s))
      | None =>
        let p := (sys + HDR)%N in
        if forallb (fun k => disjoint k p cap) (u_use s ++ u_held s)
        then Some (p, cap, mkTS (mkBlk p t cap (arr cap) :: u_use s) (u_held s) (u_hold s) (u_num s) (u_log s))
        else None                                   (* operator new returned memory that is not free *)
      end
    end.
  Definition s_return (s : tspec) (t : nat) (par : bool) (p : N) : option tspec :=
    match find (is_ptr p) (u_use s) with
    | None => None
    | Some k =>
      if (k_own k =? t) || negb par then
        Some (mkTS (filter (fun x => negb (is_ptr p x)) (u_use s)) (if u_hold s then k :: u_held s else u_held s) (u_hold s) (u_num s) (u_log s))
      else None
    end.
  Definition s_free (s : tspec) (t : nat) : tspec :=
    mkTS (u_use s) (filter (fun k => negb (k_own k =? t)) (u_held s)) (u_hold s) (u_num s) (u_log s).
  Definition add_log (s : tspec) (l : list event) : tspec := mkTS (u_use s) (u_held s) (u_hold s) (u_num s) (u_log s ++ l).
  Definition elements (f : N -> event) (n : N) : list event := map (fun i => f (N.of_nat i)) (seq 0 (N.to_nat n)).

  (** size_t arithmetic: bytes = count * sizeof(Type) modulo 2 * half + 2 *)
  Definition s_step (s : tspec) (t : nat) (par : bool) (c : tcall) : option (tout * tspec) :=
    if negb (t <? u_num s) then None else
    match c with
    | TGet min sys => match s_get s t min sys (fun _ => None) with Some (p, cap, s') => Some (OPtr p cap, s') | None => None end
    | TReturn p =>
      match find (is_ptr p) (u_use s) with
      | Some (mkBlk _ _ _ None) => match s_return s t par p with Some s' => Some (ONone, s') | None => None end
      | _ => None                                   (* not from get_memory *)
      end
    | TFree t' => if (t' <? maxt) && ((t' =? t) || negb par) then Some (ONone, s_free s t') else None
    | THold v => Some (ONone, mkTS (u_use s) (u_held s) v (u_num s) (u_log s))
    | TCreate sz count sys =>
      match s_get s t ((count * sz) mod (2 * half + 2)) sys (fun cap => Some (cap / sz)%N) with
      | Some (p, cap, s') => Some (OArr p (cap / sz), add_log s' (elements (Ctor p) (cap / sz)))
      | None => None
      end
    | TDelete p =>
      match find (is_ptr p) (u_use s) with
      | Some (mkBlk _ _ _ (Some n)) =>
        match s_return s t par p with Some s' => Some (ONone, add_log s' (elements (Dtor p) n)) | None => None end
      | _ => None
      end
    | TSetup n sys =>
      if par then None else
      if n =? 1 then Some (ONone, mkTS (u_use s) (u_held s) (u_hold s) 1 (u_log s)) else
      if negb ((n <=? maxt) && (0 <? n)) then None else
      match s_get s t 0 sys (fun _ => None) with
      | None => None
      | Some (p, _, s1) =>
        match s_return s1 t par p with
        | None => None
        | Some s2 => let s3 := s_free s2 t in Some (ONone, mkTS (u_use s3) (u_held s3) (u_hold s3) n (u_log s3))
        end
      end
    | TFreeAll => if par then None else
        Some (OBool (forallb (fun t => (in_use s t =? 0)%N) (seq 0 maxt)),
              mkTS (u_use s) (filter (fun k => negb (k_own k <? maxt)) (u_held s)) (u_hold s) (u_num s) (u_log s))
    | TInuse t' => if (t' <? maxt) && ((t' =? t) || negb par) then Some (ONum (in_use s t'), s) else None
    | TAvailable t' => if (t' <? maxt) && ((t' =? t) || negb par) then Some (ONum (available s t'), s) else None
    end.
  Fixpoint s_run (s : tspec) (h : list (nat * bool * tcall)) : option (list tout * tspec) :=
    match h with
    | [] => Some ([], s)
    | (t, par, c) :: h' =>
      match s_step s t par c with
      | None => None
      | Some (o, s') => match s_run s' h' with Some (os, s2) => Some (o :: os, s2) | None => None end
      end
    end.
  Definition s_init : tspec := mkTS [] [] false 1 [].
End Spec.
