(** Histories of calls on an ADFun object (C09, C12), and what they are expected
    to do in terms of the arguments of the calls only. *)
From Coq Require Import List Bool Arith.
Import ListNotations.

Section Spec.
  Context {T : Type}.

  Inductive dcall :=
  | CFor (q : nat) (xq : list T)        (* f.Forward(q, xq)     *)
  | CForR (q r : nat) (xq : list T)     (* f.Forward(q, r, xq)  *)
  | CRev (q : nat) (w : list T)         (* f.Reverse(q, w)      *)
  | CCap (c : nat)                      (* f.capacity_order(c)  *)
  | CDyn (d : list T).                  (* f.new_dynamic(d)     *)

  (** no multiple direction call *)
  Definition one_direction (h : list dcall) : Prop :=
    Forall (fun c => match c with CForR _ _ _ => False | _ => True end) h.

  (** The Taylor coefficients of the independent variables: [X k] is the vector of
      order [k] coefficients after the history (n independent variables).  In a
      vector [xq] of size n * (q+1), element j * (q+1) + k is the order k coefficient of
      variable j; a vector of size n has order q only. *)
  Definition given1 (zero : T) (n : nat) (X : nat -> list T) (c : dcall) : nat -> list T :=
    match c with
    | CFor q xq => fun k => if length xq =? n then (if k =? q then xq else X k)
                            else map (fun j => nth (j * (q + 1) + k) xq zero) (seq 0 n)
    | _ => X
    end.
  Definition given (zero : T) (n : nat) (h : list dcall) : nat -> list T :=
    fold_left (given1 zero n) h (fun _ => []).

  (** the same with several directions: [X ell k], direction [ell]; in the argument of
      Forward(q, r, xq), element j * r + ell belongs to variable j and direction ell *)
  Definition givenD1 (zero : T) (n : nat) (X : nat -> nat -> list T) (c : dcall) : nat -> nat -> list T :=
    match c with
    | CForR q r xq => fun ell k =>
        if k =? q then map (fun j => nth (j * r + ell) xq zero) (seq 0 n) else X ell k
    | _ => fun ell => given1 zero n (X ell) c
    end.
  Definition givenD (zero : T) (n : nat) (h : list dcall) : nat -> nat -> list T :=
    fold_left (givenD1 zero n) h (fun _ _ => []).
  (** the part of the result of Forward(q, r, xq) that belongs to direction [ell] *)
  Definition direction_of (zero : T) (m r ell : nat) (ys : list T) : list T :=
    map (fun i => nth (i * r + ell) ys zero) (seq 0 m).

  (** the argument of a single call that sets the orders 0, ..., q *)
  Definition all_orders (zero : T) (n q : nat) (X : nat -> list T) : list T :=
    flat_map (fun j => map (fun k => nth j (X k) zero) (seq 0 (q + 1))) (seq 0 n).

  (** the values given to new_dynamic, in order *)
  Definition dynamics (h : list dcall) : list (list T) :=
    flat_map (fun c => match c with CDyn d => [d] | _ => [] end) h.

  (** the order k coefficients in a result [Y] for m dependent variables, orders 0..q *)
  Definition order_of (zero : T) (m q k : nat) (Y : list T) : list T :=
    map (fun i => nth (i * (q + 1) + k) Y zero) (seq 0 m).

  (** ( size_order(), size_direction() ) after one more (successful) call *)
  Definition book (s : nat * nat) (c : dcall) : nat * nat :=
    match c with
    | CFor q _ => (q + 1, 1)
    | CForR q r _ => (q + 1, r)
    | CRev q _ => if (q =? 1) && (1 <? snd s) then (1, 1) else s
    | CCap c => (Nat.min (fst s) c,
                 if c <=? 1 then c else if snd s =? 0 then 1 else snd s)
    | CDyn _ => (0, snd s)
    end.
End Spec.
Arguments dcall : clear implicits.
