(** C27: what programs that use CppAD::vector / pod_vector observe, in terms of
    lists.  An element that the documentation leaves unspecified is [None]. *)
From Coq Require Import List Arith Bool.
Import ListNotations.

Section Spec.
  Context {T : Type}.
  (** argument of type const Type& : a value, or a reference to element j of vector y *)
  Inductive src := Val (v : T) | Ref (y j : nat).
  Inductive op :=
  | Resize (x n : nat)             (* x.resize(n)      *)
  | Clear (x : nat)                (* x.clear()        *)
  | Swap (x y : nat)               (* x.swap(y)        *)
  | Assign (x y : nat)             (* x = y            *)
  | Move (x y : nat)               (* x = std::move(y) *)
  | Set_ (x i : nat) (s : src)     (* x[i] = s         *)
  | Push (x : nat) (s : src)       (* x.push_back(s)   *)
  | PushVec (x y : nat)            (* x.push_vector(y) *)
  | Extend (x n : nat)             (* x.extend(n)      *)
  | Get (x i : nat)                (* ... = x[i]       *)
  | Size (x : nat).                (* ... = x.size()   *)
  Inductive obs := Elem (v : T) | Num (n : nat).

  Definition lists := nat -> list (option T).
  Definition fset {A} (f : nat -> A) (k : nat) (a : A) : nat -> A := fun i => if i =? k then a else f i.
  Definition nth_set {A} (l : list A) (i : nat) (a : A) : list A := firstn i l ++ a :: skipn (S i) l.
  Definition src_val (s : lists) (a : src) : option (option T) :=
    match a with Val v => Some (Some v) | Ref y j => nth_error (s y) j end.

  (** what is expected: new lists and the observed value (an element: Some None = any).
      [keep]: whether a resize of x that increases its size preserves the elements *)
  Inductive expect := Nothing | AnElem (v : option T) | ANum (n : nat).
  Definition spec_step (keep : nat -> nat -> bool) (o : op) (s : lists) : option (lists * expect) :=
    match o with
    | Resize x n => Some (fset s x (
        if keep x n || (n <=? length (s x)) then firstn n (s x) ++ repeat None (n - length (s x))
        else repeat None n), Nothing)
    | Clear x => Some (fset s x [], Nothing)
    | Swap x y | Move x y => Some (fset (fset s x (s y)) y (s x), Nothing)
    | Assign x y => Some (fset s x (s y), Nothing)
    | Set_ x i a => match src_val s a with
                    | Some v => if i <? length (s x) then Some (fset s x (nth_set (s x) i v), Nothing) else None
                    | None => None
                    end
    | Push x a => match src_val s a with Some v => Some (fset s x (s x ++ [v]), Nothing) | None => None end
    | PushVec x y => Some (fset s x (s x ++ s y), Nothing)
    | Extend x n => Some (fset s x (s x ++ repeat None n), ANum (length (s x)))
    | Get x i => match nth_error (s x) i with Some v => Some (s, AnElem v) | None => None end
    | Size x => Some (s, ANum (length (s x)))
    end.
  Definition fits (e : expect) (o : list obs) : Prop :=
    match e with
    | Nothing => o = []
    | AnElem (Some v) => o = [Elem v]
    | AnElem None => exists v, o = [Elem v]
    | ANum n => o = [Num n]
    end.
End Spec.
Arguments src : clear implicits. Arguments op : clear implicits. Arguments obs : clear implicits.
Arguments lists : clear implicits. Arguments expect : clear implicits.
