(** utility/pow_int.hpp, utility/near_equal.hpp, utility/set_union.hpp *)
From Coq Require Import List Arith ZArith QArith Bool Lia.
Import ListNotations.

(** ** pow_int.hpp:99-121 *)
Section PowInt.
  Context {T : Type} (one : T) (mul div : T -> T -> T).
  (** int is 32 bit; - n overflows (undefined behaviour) for n = INT_MIN.
      [fuel] bounds the recursion depth; it is given 34, and None would be
      exhaustion.  n / 2 and n % 2 truncate towards zero. *)
  Definition INT_MIN : Z := (- 2 ^ 31)%Z.
  Definition INT_MAX : Z := (2 ^ 31 - 1)%Z.
  Fixpoint pow_fuel (fuel : nat) (x : T) (n : Z) : option T :=
    match fuel with
    | 0%nat => None
    | S fuel' =>
      let n2 := Z.quot n 2 in
      if (n =? 0)%Z then Some one
      else if (n <? 0)%Z then
        if (n =? INT_MIN)%Z then None
        else match pow_fuel fuel' x (- n) with Some p => Some (div one p) | None => None end
      else if (n =? 1)%Z then Some x
      else match pow_fuel fuel' (mul x x) n2 with
           | Some p => if (Z.rem n 2 =? 0)%Z then Some p else Some (mul p x)
           | None => None
           end
    end.
  Definition pow_int (x : T) (n : Z) : option T := pow_fuel 34 x n.
End PowInt.

(** ** near_equal.hpp:148-201 on exact extended numbers: a finite rational,
    an infinity or nan, with the IEEE rules for these. *)
Inductive ext := Fin (q : Q) | Inf (neg : bool) | Nan.
Definition ext_neg (x : ext) : ext :=
  match x with Fin q => Fin (- q) | Inf s => Inf (negb s) | Nan => Nan end.
Definition ext_add (x y : ext) : ext :=
  match x, y with
  | Nan, _ | _, Nan => Nan
  | Fin a, Fin b => Fin (a + b)
  | Inf s, Inf t => if Bool.eqb s t then Inf s else Nan
  | Inf s, Fin _ => Inf s
  | Fin _, Inf t => Inf t
  end.
Definition ext_sub (x y : ext) : ext := ext_add x (ext_neg y).
Definition q_sign (q : Q) : comparison := (q ?= 0)%Q.
Definition ext_mul (x y : ext) : ext :=
  match x, y with
  | Nan, _ | _, Nan => Nan
  | Fin a, Fin b => Fin (a * b)
  | Inf s, Inf t => Inf (xorb s t)
  | Inf s, Fin a | Fin a, Inf s =>
      match q_sign a with Eq => Nan | Lt => Inf (negb s) | Gt => Inf s end
  end.
Definition ext_le (x y : ext) : bool :=
  match x, y with
  | Nan, _ | _, Nan => false
  | Fin a, Fin b => Qle_bool a b
  | Inf true, _ => true
  | _, Inf false => true
  | _, _ => false
  end.
Definition ext_eq (x y : ext) : bool :=
  match x, y with
  | Fin a, Fin b => Qeq_bool a b
  | Inf s, Inf t => Bool.eqb s t
  | _, _ => false
  end.
Definition zero : ext := Fin 0.
Definition inf : ext := Inf false.

(** near_equal_isfinite, lines 149-161.  As in the source line 158 tests x,
    not y. *)
Definition near_equal_isfinite (x y : ext) : bool :=
  let xNan := negb (ext_eq x x) in
  let yNan := negb (ext_eq y y) in
  let xInf := ext_eq x inf || ext_eq x (ext_neg inf) in
  let yInf := ext_eq x inf || ext_eq x (ext_neg inf) in
  negb (xNan || yNan || xInf || yInf).
(** NearEqual, lines 163-201; None is a failed assertion *)
Definition NearEqual (x y r a : ext) : option bool :=
  if negb (ext_le zero r) then None
  else if negb (ext_le zero a) then None
  else if negb (near_equal_isfinite x y) then Some false
  else
    let ax := if ext_le x zero then ext_neg x else x in
    let ay := if ext_le y zero then ext_neg y else y in
    let d := ext_sub x y in
    let ad := if ext_le d zero then ext_neg d else d in
    if ext_le ad a then Some true
    else if ext_le ad (ext_mul r (ext_add ax ay)) then Some true
    else Some false.

(** ** set_union.hpp:64-77.  std::set<Element> is an increasing list; the
    algorithm std::set_union (external, as specified by the C++ standard:
    merges two increasing ranges, one copy of equivalent elements) writes to an
    inserter on the result. *)
Section SetUnion.
  Context {E : Type} (ltb : E -> E -> bool).
  (** std::set::insert *)
  Fixpoint set_insert (x : E) (s : list E) : list E :=
    match s with
    | [] => [x]
    | y :: s' => if ltb x y then x :: s else if ltb y x then y :: set_insert x s' else s
    end.
  (** the sequence written by std::set_union *)
  Fixpoint std_set_union (l r : list E) : list E :=
    let fix go (r : list E) : list E :=
      match l, r with
      | [], _ => r
      | _, [] => l
      | a :: l', b :: r' =>
        if ltb a b then a :: std_set_union l' r
        else if ltb b a then b :: go r'
        else a :: std_set_union l' r'
      end in go r.
  Definition set_union (l r : list E) : list E :=
    fold_left (fun s x => set_insert x s) (std_set_union l r) [].
End SetUnion.
