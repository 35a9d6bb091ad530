(** C43: what a program that uses track_new_del (debug build) observes. *)
From Coq Require Import List Arith.
Import ListNotations.

Section Spec.
  Context {T : Type}.
  Inductive top :=
  | TNew (len : nat)                  (* p = TrackNewVec(len)              *)
  | TDel (p : nat)                    (* TrackDelVec(p)                    *)
  | TExtend (newlen ncopy p : nat)    (* q = TrackExtend(newlen, ncopy, p) *)
  | TCount                            (* n = TrackCount()                  *)
  | RawNew (len : nat)                (* p = new Type[len]                 *)
  | RawDel (p : nat)                  (* delete [] p, of a p from RawNew   *)
  | TSet (p i : nat) (v : T)          (* p[i] = v                          *)
  | TGet (p i : nat).                 (* ... = p[i]                        *)
  Inductive tobs := TNone | TPtr (p : nat) | TNum (n : nat) | TElem (v : T).
  (** an allocated vector: whether it was allocated by track_new_del, and its elements *)
  Record block := mkB { tracked : bool; elems : list T }.
  Definition live := nat -> option block.
  Definition is_tracked (m : live) (p : nat) : Prop := exists b, m p = Some b /\ tracked b = true.
  (** n vectors are allocated by track_new_del and not deleted *)
  Definition count_is (m : live) (n : nat) : Prop :=
    exists l, NoDup l /\ (forall p, In p l <-> is_tracked m p) /\ length l = n.
  Definition updl (m m' : live) (p : nat) (b : option block) : Prop :=
    m' p = b /\ forall q, q <> p -> m' q = m q.
  (** m and m' are the allocated vectors before and after *)
  Definition tspec (o : top) (r : tobs) (m m' : live) : Prop :=
    match o with
    | TNew n => exists p e, r = TPtr p /\ m p = None /\ length e = n /\ updl m m' p (Some (mkB true e))
    | RawNew n => exists p e, r = TPtr p /\ m p = None /\ length e = n /\ updl m m' p (Some (mkB false e))
    | TDel p => r = TNone /\ is_tracked m p /\ updl m m' p None
    | RawDel p => r = TNone /\ (exists b, m p = Some b /\ tracked b = false) /\ updl m m' p None
    | TExtend n k p =>
        k <= n /\ exists q e, r = TPtr q /\ m q = None /\ length e = n /\
        if k =? 0 then updl m m' q (Some (mkB true e))
        else is_tracked m p /\ q <> p /\
             (forall b, m p = Some b -> k <= length (elems b) /\ firstn k e = firstn k (elems b)) /\
             m' p = None /\ m' q = Some (mkB true e) /\ (forall z, z <> p -> z <> q -> m' z = m z)
    | TCount => exists n, r = TNum n /\ count_is m n /\ forall p, m' p = m p
    | TSet p i v => r = TNone /\ exists b, m p = Some b /\ i < length (elems b) /\
        updl m m' p (Some (mkB (tracked b) (firstn i (elems b) ++ v :: skipn (S i) (elems b))))
    | TGet p i => (forall q, m' q = m q) /\ exists b v, m p = Some b /\ nth_error (elems b) i = Some v /\ r = TElem v
    end.
  (** a statement that must be rejected *)
  Definition bad (o : top) (m : live) : Prop :=
    match o with
    | TDel p => ~ is_tracked m p
    | RawDel p => ~ (exists b, m p = Some b /\ tracked b = false)
    | TExtend n k p => n < k \/ (0 < k /\ (~ is_tracked m p \/ exists b, m p = Some b /\ length (elems b) < k))
    | TSet p i _ | TGet p i => forall b, m p = Some b -> length (elems b) <= i
    | _ => False
    end.
End Spec.
Arguments top : clear implicits. Arguments tobs : clear implicits. Arguments block : clear implicits. Arguments live : clear implicits.
