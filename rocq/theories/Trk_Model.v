(** Model of utility/track_new_del.hpp, NDEBUG not defined. *)
From Coq Require Import List Arith Bool.
From Verif Require Import Trk_Spec.
Import ListNotations.

Section Model.
  Context {T : Type}.
  (** new Type[len]: some address not in use (it may have been used before), some content *)
  Variable pick : (nat -> option (list T)) -> nat -> nat.
  Variable junk : nat -> nat -> T.
  (** memory; the list of TrackElement::ptr from Root()->next on (261-284); file and line
      are not modelled *)
  Record tst := mkT { heap : nat -> option (list T); track : list nat }.

  Definition hset (h : nat -> option (list T)) (p : nat) (b : option (list T)) : nat -> option (list T) :=
    fun q => if q =? p then b else h q.
  Definition raw_new (s : tst) (len : nat) : tst * nat :=
    let p := pick (heap s) len in
    (mkT (hset (heap s) p (Some (map (junk p) (seq 0 len)))) (track s), p).
  (** delete [] p *)
  Definition raw_del (s : tst) (p : nat) : option tst :=
    match heap s p with Some _ => Some (mkT (hset (heap s) p None) (track s)) | None => None end.
  (** 362-400: the new element becomes Root()->next *)
  Definition track_new (s : tst) (len : nat) : tst * nat :=
    let '(s1, p) := raw_new s len in (mkT (heap s1) (p :: track s1), p).
  (** 435-441, 444, 456: search from Root(); unlink the element found; None: TrackError *)
  Fixpoint unlink (l : list nat) (p : nat) : option (list nat) :=
    match l with
    | [] => None
    | e :: l' => if e =? p then Some l' else match unlink l' p with Some l1 => Some (e :: l1) | None => None end
    end.
  (** 421-465 *)
  Definition track_del (s : tst) (p : nat) : option tst :=
    match unlink (track s) p with
    | None => None
    | Some l => raw_del (mkT (heap s) l) p
    end.
  Definition read (s : tst) (p i : nat) : option T :=
    match heap s p with Some e => nth_error e i | None => None end.
  Definition write (s : tst) (p i : nat) (v : T) : option tst :=
    match heap s p with
    | Some e => if i <? length e then Some (mkT (hset (heap s) p (Some (firstn i e ++ v :: skipn (S i) e))) (track s)) else None
    | None => None
    end.
  (** 501-503 *)
  Fixpoint copy (s : tst) (q p i n : nat) : option tst :=
    match n with
    | 0 => Some s
    | S n' => match read s p i with
              | None => None
              | Some v => match write s q i v with Some s' => copy s' q p (S i) n' | None => None end
              end
    end.
  (** 470-510 *)
  Definition track_extend (s : tst) (newlen ncopy p : nat) : option (tst * nat) :=
    if ncopy <=? newlen then
      let '(s1, q) := track_new s newlen in
      match copy s1 q p 0 ncopy with
      | None => None
      | Some s2 => if 0 <? ncopy then match track_del s2 p with Some s3 => Some (s3, q) | None => None end
                   else Some (s2, q)
      end
    else None.
  (** 513-526: number of elements after Root() *)
  Fixpoint track_count (l : list nat) : nat := match l with [] => 0 | _ :: l' => S (track_count l') end.
  (** a vector obtained by new is not in the list *)
  Definition tstep (o : top T) (s : tst) : option (tst * tobs T) :=
    match o with
    | TNew n => let '(s1, p) := track_new s n in Some (s1, TPtr p)
    | TDel p => match track_del s p with Some s1 => Some (s1, TNone) | None => None end
    | TExtend n k p => match track_extend s n k p with Some (s1, q) => Some (s1, TPtr q) | None => None end
    | TCount => Some (s, TNum (track_count (track s)))
    | RawNew n => let '(s1, p) := raw_new s n in Some (s1, TPtr p)
    | RawDel p => if existsb (Nat.eqb p) (track s) then None (* outside the contract of delete [] *)
                  else match raw_del s p with Some s1 => Some (s1, TNone) | None => None end
    | TSet p i v => match write s p i v with Some s1 => Some (s1, TNone) | None => None end
    | TGet p i => match read s p i with Some v => Some (s, TElem v) | None => None end
    end.
  Definition tstart : tst := mkT (fun _ => None) [].
End Model.
Arguments tst : clear implicits.
