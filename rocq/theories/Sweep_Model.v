(** Model of the derivative calculations of one operator, for any order:
    include/cppad/local/var_op/*_op.hpp, functions *_forward_any,
    *_forward_dir and *_reverse.  Paths below are relative to
    /repo/include/cppad/local/var_op.

    Simplifications (whole file):
    - taylor[ i * cap_order + k ] is [V i k]  (k < cap_order, so the C++ index
      determines i and k); partial[ i * n_order + k ] is [p i k];
    - with several directions, element m of the row of variable i is [D i m];
    - Base( double(k) ) is [bnat k], Base(-1.0) is minus Base(1.0);
    - in csum_forward_any the C++ code runs over the orders inside the loop over
      the addends; here each order runs over the addends (the orders are
      independent of each other, arguments are different rows than the result);
    - atomic functions are not modelled. *)
From Coq Require Import ZArith List Bool Arith.
From Verif Require Import Base_Spec Op_Model Tape_Spec Tape_Model.
Import ListNotations.

(** a parameter that is read either from the parameter vector or (powpv: the
    "kludge" pow_op.hpp:281-290) from order zero of a variable *)
Inductive pref := Ppar (i : nat) | Pvar (i : nat).

(** Elementary loops over the orders.  Most operators are one such loop; pow and
    erf call the loops of other operators on their auxiliary results. *)
Inductive sub :=
| SAdd (x y : nat) | SAddp (p y : nat)
| SSub (x y : nat) | SSubp (p y : nat) | SSubv (x p : nat)
| SMul (x y : nat) | SMulp (p : pref) (y : nat)
| SZmul (x y : nat) | SZmulp (p y : nat) | SZmulv (x p : nat)
| SDiv (x y : nat) | SDivp (p y : nat) | SDivv (x p : nat)
| SUn (u : unop) (x : nat)         (* one result: abs neg sign exp expm1 log log1p sqrt *)
| SPair (u : unop) (x : nat)       (* two results: auxiliary, primary *)
| SPar (p : nat) | SLogp (p : nat) (* parameter;  log of a parameter (powpv) *)
| SDis (k x : nat)
| SCexp (a : list nat) | SCsum (a : list nat)
| SPowexp (x : pref) (y z1 : nat)  (* last step of powvv, powpv *)
| SPowvp (x p : nat)
| SErf (erfc : bool) (x z3 : nat). (* last step of erf *)

(** number of results *)
Definition sub_res (s : sub) : nat := match s with SPair _ _ => 2 | _ => 1 end.

(** The loops executed by one operator, with the index of the first result.
    None: the operator computes no Taylor coefficient by a loop (load is treated
    separately).  sweep/forward_any.hpp:187-652; pow_op.hpp:26-74 (powvv),
    241-304 (powpv); erf_op.hpp:87-164. *)
Definition subs (o : opvar) (a : list nat) (iv : nat) : option (list (nat * sub)) :=
  let a0 := nth 0 a 0 in
  let a1 := nth 1 a 0 in
  let a2 := nth 2 a 0 in
  let one s := Some [(iv, s)] in
  let pair u := Some [(iv - 1, SPair u a0)] in
  match o with
  | AbsOp => one (SUn Uabs a0) | NegOp => one (SUn Uneg a0) | SignOp => one (SUn Usign a0)
  | ExpOp => one (SUn Uexp a0) | Expm1Op => one (SUn Uexpm1 a0)
  | LogOp => one (SUn Ulog a0) | Log1pOp => one (SUn Ulog1p a0)
  | SqrtOp => one (SUn Usqrt a0)
  | AddvvOp => one (SAdd a0 a1) | AddpvOp => one (SAddp a0 a1)
  | SubvvOp => one (SSub a0 a1) | SubpvOp => one (SSubp a0 a1) | SubvpOp => one (SSubv a0 a1)
  | MulvvOp => one (SMul a0 a1) | MulpvOp => one (SMulp (Ppar a0) a1)
  | ZmulvvOp => one (SZmul a0 a1) | ZmulpvOp => one (SZmulp a0 a1) | ZmulvpOp => one (SZmulv a0 a1)
  | DivvvOp => one (SDiv a0 a1) | DivpvOp => one (SDivp a0 a1) | DivvpOp => one (SDivv a0 a1)
  | AcosOp => pair Uacos | AcoshOp => pair Uacosh | AsinOp => pair Uasin | AsinhOp => pair Uasinh
  | AtanOp => pair Uatan | AtanhOp => pair Uatanh | CosOp => pair Ucos | CoshOp => pair Ucosh
  | SinOp => pair Usin | SinhOp => pair Usinh | TanOp => pair Utan | TanhOp => pair Utanh
  | ParOp => one (SPar a0) | DisOp => one (SDis a0 a1)
  | CExpOp => one (SCexp a) | CSumOp => one (SCsum a)
  | PowvvOp => let z := iv - 2 in
      Some [(z, SUn Ulog a0); (z + 1, SMul z a1); (z + 2, SPowexp (Pvar a0) a1 (z + 1))]
  | PowpvOp => let z := iv - 2 in
      Some [(z, SLogp a0); (z + 1, SMulp (Pvar z) a1); (z + 2, SPowexp (Ppar a0) a1 (z + 1))]
  | PowvpOp => one (SPowvp a0 a1)
  | ErfOp | ErfcOp => let z := iv - 4 in
      Some [(z, SMul a0 a0); (z + 1, SSubp a1 z); (z + 2, SUn Uexp (z + 1));
            (z + 3, SMulp (Ppar a2) (z + 2));
            (z + 4, SErf (match o with ErfcOp => true | _ => false end) a0 (z + 3))]
  | _ => None
  end.

Section Sweep.
  Context {b : base}.
  Notation T := (bt b).
  Variable bnat : nat -> T.       (* Base( double(k) ) *)
  Variable P : nat -> T.          (* parameter *)

  Notation "x + y" := (b_bin Badd x y).
  Notation "x - y" := (b_bin Bsub x y).
  Notation "x * y" := (b_bin Bmul x y).
  Notation "x / y" := (b_bin Bdiv x y).
  Notation "- x" := (b_un Uneg x).
  Notation azmul := (b_bin Bazmul).
  Notation two := (bnat 2).

  Definition pget (p : pref) (V : nat -> nat -> T) : T :=
    match p with Ppar i => P i | Pvar i => V i 0 end.

  (** for(k = lo; k < hi; k++) z = f(k, z) *)
  Definition loop {A : Type} (lo hi : nat) (f : nat -> A -> A) (z : A) : A :=
    fold_left (fun z k => f k z) (seq lo (Nat.sub hi lo)) z.

  (** CondExpEq(x0, 0, 0, y):  core/cond_exp.hpp, base_cond_exp.hpp *)
  Definition ceq0 (x0 y : T) : T := if b_cmp Ceq x0 b0 then b0 else y.

  Fixpoint sum_rows (f : T -> T -> T) (l : list nat) (V : nat -> nat -> T) (j : nat) (z : T) : T :=
    match l with [] => z | i :: l' => sum_rows f l' V j (f z (V i j)) end.

  (** [coef s r V j]: the order [j] coefficients of the results (in order of their
      index) of loop [s] whose first result is variable [r].  *_forward_any. *)
  Definition coef (s : sub) (r : nat) (V : nat -> nat -> T) (j : nat) : list T :=
    match s with
    | SAdd x y => [V x j + V y j]                                  (* add 38-39 *)
    | SAddp p y => [if j =? 0 then P p + V y 0 else V y j]         (* add 159-166 *)
    | SSub x y => [V x j - V y j]                                  (* sub 37-38 *)
    | SSubp p y => [if j =? 0 then P p - V y 0 else - V y j]       (* sub 157-162 *)
    | SSubv x p => [if j =? 0 then V x 0 - P p else V x j]         (* sub 280-285 *)
    | SMul x y =>                                                  (* mul 38-42 *)
      [loop 0 (S j) (fun k z => z + V x (Nat.sub j k) * V y k) b0]
    | SMulp p y => [pget p V * V y j]                              (* mul 176-177 *)
    | SZmul x y =>                                                 (* zmul 38-42 *)
      [loop 0 (S j) (fun k z => z + azmul (V x (Nat.sub j k)) (V y k)) b0]
    | SZmulp p y => [azmul (P p) (V y j)]                          (* zmul 173-174 *)
    | SZmulv x p => [azmul (V x j) (P p)]                          (* zmul 297-298 *)
    | SDiv x y =>                                                  (* div 41-46 *)
      [loop 1 (S j) (fun k z => z - V r (Nat.sub j k) * V y k) (V x j) / V y 0]
    | SDivp p y =>                                                 (* div 193-202 *)
      [if j =? 0 then P p / V y 0
       else loop 1 (S j) (fun k z => z - V r (Nat.sub j k) * V y k) b0 / V y 0]
    | SDivv x p => [V x j / P p]                                   (* div 346-347 *)
    | SUn u x =>
      match u with
      | Uabs => [b_un Usign (V x 0) * V x j]                       (* abs 37-38 *)
      | Uneg => [- V x j]                                          (* neg 35-36 *)
      | Usign => [if j =? 0 then b_un Usign (V x 0) else b0]       (* sign 37-42 *)
      | Uexp | Uexpm1 =>                                           (* exp 39-49, expm1 39-50 *)
        [if j =? 0 then b_un u (V x 0)
         else let z := loop 2 (S j) (fun k z => z + bnat k * V x k * V r (Nat.sub j k))
                            (V x 1 * V r (Nat.sub j 1)) / bnat j in
              match u with Uexpm1 => z + V x j | _ => z end]
      | Ulog | Ulog1p =>                                           (* log 38-56, log1p 38-56 *)
        let d := match u with Ulog => V x 0 | _ => b1 + V x 0 end in
        [if j =? 0 then b_un u (V x 0)
         else if j =? 1 then V x 1 / d
         else (loop 2 j (fun k z => z - bnat k * V r k * V x (Nat.sub j k))
                    (- V r 1 * V x (Nat.sub j 1)) / bnat j + V x j) / d]
      | Usqrt =>                                                   (* sqrt 39-51 *)
        [if j =? 0 then b_un Usqrt (V x 0)
         else (loop 1 j (fun k z => z - bnat k * V r k * V r (Nat.sub j k)) b0 / bnat j
               + V x j / two) / V r 0]
      | _ => [b0]
      end
    | SPair u x =>
      let z := S r in                        (* primary result *)
      match u with
      | Usin | Ucos =>                                             (* sin 43-58, cos 43-58 *)
        let '(s, c) := match u with Usin => (z, r) | _ => (r, z) end in
        let sj := if j =? 0 then b_un Usin (V x 0)
                  else loop 1 (S j) (fun k w => w + bnat k * V x k * V c (Nat.sub j k)) b0 / bnat j in
        let cj := if j =? 0 then b_un Ucos (V x 0)
                  else loop 1 (S j) (fun k w => w - bnat k * V x k * V s (Nat.sub j k)) b0 / bnat j in
        match u with Usin => [cj; sj] | _ => [sj; cj] end
      | Usinh | Ucosh =>                                           (* sinh 44-59, cosh 43-58 *)
        let '(s, c) := match u with Usinh => (z, r) | _ => (r, z) end in
        let sj := if j =? 0 then b_un Usinh (V x 0)
                  else loop 1 (S j) (fun k w => w + bnat k * V x k * V c (Nat.sub j k)) b0 / bnat j in
        let cj := if j =? 0 then b_un Ucosh (V x 0)
                  else loop 1 (S j) (fun k w => w + bnat k * V x k * V s (Nat.sub j k)) b0 / bnat j in
        match u with Usinh => [cj; sj] | _ => [sj; cj] end
      | Utan | Utanh =>                                            (* tan 40-55, tanh 40-55 *)
        if j =? 0 then let z0 := b_un u (V x 0) in [z0 * z0; z0]
        else
          let term k := bnat k * V x k * V r (Nat.sub j k) / bnat j in
          let zj := loop 1 (S j) (fun k w => match u with Utan => w + term k | _ => w - term k end)
                         (V x j) in
          let Z k := if k =? j then zj else V z k in
          [loop 1 (S j) (fun k w => w + Z k * Z (Nat.sub j k)) (Z 0 * zj); zj]
      | Uasin | Uacos | Uasinh | Uacosh =>   (* asin 41-65, acos 41-65, asinh 42-66, acosh 42-66 *)
        if j =? 0 then
          let x2 := V x 0 * V x 0 in
          let u0 := match u with Uasinh => b1 + x2 | Uacosh => x2 - b1 | _ => b1 - x2 end in
          [b_un Usqrt u0; b_un u (V x 0)]
        else
          let uj := loop 0 (S j) (fun k w =>
                      let t := V x k * V x (Nat.sub j k) in
                      match u with Uasin | Uacos => w - t | _ => w + t end) b0 in
          let bj := loop 1 j (fun k w => w - bnat k * V r k * V r (Nat.sub j k)) b0 / bnat j in
          let zj := loop 1 j (fun k w => w - bnat k * V z k * V r (Nat.sub j k)) b0 / bnat j in
          [(bj + uj / two) / V r 0;
           match u with Uacos => zj - V x j | _ => zj + V x j end / V r 0]
      | Uatan =>                                                   (* atan 40-56 *)
        if j =? 0 then [b1 + V x 0 * V x 0; b_un Uatan (V x 0)]
        else
          [loop 1 j (fun k w => w + V x k * V x (Nat.sub j k)) (two * V x 0 * V x j);
           (loop 1 j (fun k w => w - bnat k * V z k * V r (Nat.sub j k)) b0 / bnat j + V x j) / V r 0]
      | Uatanh =>                                                  (* atanh 41-57 *)
        if j =? 0 then [b1 - V x 0 * V x 0; b_un Uatanh (V x 0)]
        else
          [loop 1 j (fun k w => w - V x k * V x (Nat.sub j k)) (- two * V x 0 * V x j);
           (loop 1 j (fun k w => w - bnat k * V z k * V r (Nat.sub j k)) b0 / bnat j + V x j) / V r 0]
      | _ => [b0; b0]
      end
    | SPar p => [if j =? 0 then P p else b0]                       (* par 167-172 *)
    | SLogp p => [if j =? 0 then b_un Ulog (P p) else b0]          (* pow 266-273 *)
    | SDis k x => [if j =? 0 then b_dis k (V x 0) else b0]         (* dis 177-183 *)
    | SCexp a =>                                                   (* cexp 165-227 *)
      let m := nth 1 a 0 in
      let V0 i := V i 0 in
      let br bit i := if Nat.testbit m bit then V i j else if j =? 0 then P i else b0 in
      [cond_exp_code (nth 0 a 0) (vp m 0 P V0 (nth 2 a 0)) (vp m 1 P V0 (nth 3 a 0))
         (br 2 (nth 4 a 0)) (br 3 (nth 5 a 0))]
    | SCsum a =>                                                   (* csum 192-218 *)
      let g k := nth k a 0 in
      let z := if j =? 0 then
                 fold_left (fun z i => z - P i) (arg_range a (g 3) (g 4))
                   (fold_left (fun z i => z + P i) (arg_range a (g 2) (g 3)) (P (g 0)))
               else b0 in
      [sum_rows (fun z v => z - v) (arg_range a (g 1) (g 2)) V j
         (sum_rows (fun z v => z + v) (arg_range a 5 (g 1)) V j z)]
    | SPowexp x y z1 =>                                 (* pow 61-73, 294-303; exp 43-49 *)
      [if j =? 0 then b_bin Bpow (pget x V) (V y 0)
       else loop 2 (S j) (fun k z => z + bnat k * V z1 k * V r (Nat.sub j k))
                 (V z1 1 * V r (Nat.sub j 1)) / bnat j]
    | SPowvp x p =>                                                (* pow 525-538 *)
      let y := P p in
      [if j =? 0 then b_bin Bpow (V x 0) y
       else
         let sum := loop 1 j (fun k w => w + bnat k * (y * V x k * V r (Nat.sub j k)
                                                       - V r k * V x (Nat.sub j k))) b0 in
         ceq0 (V x 0) ((y * V r 0 * V x j + sum / bnat j) / V x 0)]
    | SErf c x z3 =>                                               (* erf 141-163 *)
      let sign := if c then - b1 else b1 in
      [if j =? 0 then b_un (if c then Uerfc else Uerf) (V x 0)
       else loop 1 (S j) (fun k w => w + sign * (bnat k / bnat j) * V x k * V z3 (Nat.sub j k)) b0]
    end.

  (** [coef_dir s r V q]: order [q] > 0 coefficients for one direction;
      [V] is the view of that direction.  *_forward_dir. *)
  Definition coef_dir (s : sub) (r : nat) (V : nat -> nat -> T) (q : nat) : list T :=
    match s with
    | SAdd x y => [V x q + V y q]                                  (* add 70-71 *)
    | SAddp p y => [V y q]                                         (* add 195-196 *)
    | SSub x y => [V x q - V y q]                                  (* sub 68-69 *)
    | SSubp p y => [- V y q]                                       (* sub 192-193 *)
    | SSubv x p => [V x q]                                         (* sub 315-316 *)
    | SMul x y =>                                                  (* mul 72-77 *)
      [loop 1 q (fun k z => z + V x (Nat.sub q k) * V y k) (V x 0 * V y q + V x q * V y 0)]
    | SMulp p y => [pget p V * V y q]                              (* mul 209-210 *)
    | SZmul x y =>                                                 (* zmul 72-77 *)
      [loop 1 q (fun k z => z + azmul (V x (Nat.sub q k)) (V y k))
            (azmul (V x 0) (V y q) + azmul (V x q) (V y 0))]
    | SZmulp p y => [azmul (P p) (V y q)]                          (* zmul 206-207 *)
    | SZmulv x p => [azmul (V x q) (P p)]                          (* zmul 330-331 *)
    | SDiv x y =>                                                  (* div 79-84 *)
      [loop 1 q (fun k z => z - V r (Nat.sub q k) * V y k) (V x q - V r 0 * V y q) / V y 0]
    | SDivp p y =>                                                 (* div 233-238 *)
      [loop 1 q (fun k z => z - V r (Nat.sub q k) * V y k) (- V r 0 * V y q) / V y 0]
    | SDivv x p => [V x q / P p]                                   (* div 381-382 *)
    | SUn u x =>
      match u with
      | Uabs => [b_un Usign (V x 0) * V x q]                       (* abs 69-70 *)
      | Uneg => [- V x q]                                          (* neg 68-69 *)
      | Usign => [b0]                                              (* sign 68-69 *)
      | Uexp | Uexpm1 =>                                           (* exp 81-86, expm1 81-87 *)
        let z := loop 1 q (fun k z => z + bnat k * V x k * V r (Nat.sub q k))
                      (bnat q * V x q * V r 0) / bnat q in
        [match u with Uexpm1 => z + V x q | _ => z end]
      | Ulog =>                                                    (* log 88-93 *)
        [loop 1 q (fun k z => z - bnat k * V r k * V x (Nat.sub q k)) (bnat q * V x q)
         / (bnat q * V x 0)]
      | Ulog1p =>                                                  (* log1p 87-92 *)
        [loop 1 q (fun k z => z - bnat k * V r k * V x (Nat.sub q k)) (bnat q * V x q)
         / (bnat q + bnat q * V x 0)]
      | Usqrt =>                                                   (* sqrt 82-89 *)
        [(loop 1 q (fun k z => z - bnat k * V r k * V r (Nat.sub q k)) b0 / bnat q
          + V x q / two) / V r 0]
      | _ => [b0]
      end
    | SPair u x =>
      let z := S r in
      match u with
      | Usin | Ucos =>                                             (* sin 93-102, cos 93-102 *)
        let '(s, c) := match u with Usin => (z, r) | _ => (r, z) end in
        let sq := loop 1 q (fun k w => w + bnat k * V x k * V c (Nat.sub q k))
                       (bnat q * V x q * V c 0) / bnat q in
        let cq := loop 1 q (fun k w => w - bnat k * V x k * V s (Nat.sub q k))
                       (- bnat q * V x q * V s 0) / bnat q in
        match u with Usin => [cq; sq] | _ => [sq; cq] end
      | Usinh | Ucosh =>                                           (* sinh 94-103, cosh 93-102 *)
        (* cosh_op.hpp:85-86 names the primary result s and the auxiliary c *)
        let s := z in
        let c := r in
        let sq := loop 1 q (fun k w => w + bnat k * V x k * V c (Nat.sub q k))
                       (bnat q * V x q * V c 0) / bnat q in
        let cq := loop 1 q (fun k w => w + bnat k * V x k * V s (Nat.sub q k))
                       (bnat q * V x q * V s 0) / bnat q in
        [cq; sq]
      | Utan | Utanh =>                                            (* tan 88-97, tanh 88-97 *)
        let zq := loop 1 q (fun k w =>
                     let t := bnat k * V x k * V r (Nat.sub q k) in
                     match u with Utan => w + t | _ => w - t end)
                   (bnat q * (match u with Utan => V x q + V x q * V r 0
                                         | _ => V x q - V x q * V r 0 end)) / bnat q in
        [loop 1 q (fun k w => w + V z k * V z (Nat.sub q k)) (two * zq * V z 0); zq]
      | Uasin | Uacos | Uasinh | Uacosh =>   (* asin 97-109, acos 97-109, asinh 98-110, acosh 98-110 *)
        let uq := loop 1 q (fun k w =>
                    let t := V x k * V x (Nat.sub q k) in
                    match u with Uasin | Uacos => w - t | _ => w + t end)
                  (match u with Uasin | Uacos => - two | _ => two end * V x q * V x 0) in
        let bq := loop 1 q (fun k w => w + bnat k * V r k * V r (Nat.sub q k)) b0 in
        let zq := loop 1 q (fun k w => w + bnat k * V z k * V r (Nat.sub q k)) b0 in
        [(uq / two - bq / bnat q) / V r 0;
         match u with Uacos => - (V x q + zq / bnat q) | _ => V x q - zq / bnat q end / V r 0]
      | Uatan =>                                                   (* atan 88-96 *)
        [loop 1 q (fun k w => w + V x k * V x (Nat.sub q k)) (two * V x q * V x 0);
         loop 1 q (fun k w => w - bnat k * V z k * V r (Nat.sub q k)) (bnat q * V x q)
         / (bnat q * V r 0)]
      | Uatanh =>                                                  (* atanh 89-97 *)
        [loop 1 q (fun k w => w - V x k * V x (Nat.sub q k)) (- two * V x q * V x 0);
         loop 1 q (fun k w => w - bnat k * V z k * V r (Nat.sub q k)) (bnat q * V x q)
         / (bnat q * V r 0)]
      | _ => [b0; b0]
      end
    | SPar p => [b0]                                               (* par 244-245 *)
    | SLogp p => [b0]                                              (* pow 346-347 *)
    | SDis k x => [b0]                                             (* dis 181-183 *)
    | SCexp a =>                                                   (* cexp 341-490 *)
      let m := nth 1 a 0 in
      let V0 i := V i 0 in
      let br bit i := if Nat.testbit m bit then V i q else b0 in
      [cond_exp_code (nth 0 a 0) (vp m 0 P V0 (nth 2 a 0)) (vp m 1 P V0 (nth 3 a 0))
         (br 2 (nth 4 a 0)) (br 3 (nth 5 a 0))]
    | SCsum a =>                                                   (* csum 294-311 *)
      let g k := nth k a 0 in
      [sum_rows (fun z v => z - v) (arg_range a (g 1) (g 2)) V q
         (sum_rows (fun z v => z + v) (arg_range a 5 (g 1)) V q b0)]
    | SPowexp x y z1 =>                                            (* pow 123-124, 367-368; exp 81-86 *)
      [loop 1 q (fun k z => z + bnat k * V z1 k * V r (Nat.sub q k))
            (bnat q * V z1 q * V r 0) / bnat q]
    | SPowvp x p =>                                                (* pow 590-604 *)
      let y := P p in
      let sum := loop 1 q (fun k w => w + bnat k * (y * V x k * V r (Nat.sub q k)
                                                    - V r k * V x (Nat.sub q k))) b0 in
      [ceq0 (V x 0) ((y * V r 0 * V x q + sum / bnat q) / V x 0)]
    | SErf c x z3 =>                                               (* erf 402-422 *)
      let sign := if c then - b1 else b1 in
      [loop 1 q (fun k w => w + sign * (bnat k / bnat q) * V x k * V z3 (Nat.sub q k))
            (sign * V z3 0 * V x q)]
    end.

  (** ** Reverse mode: the partial array [p] is updated in place *)
  Definition pset (p : nat -> nat -> T) (v k : nat) (x : T) : nat -> nat -> T :=
    fun v' k' => if (v' =? v) && (k' =? k) then x else p v' k'.
  Definition padd (v k : nat) (x : T) (p : nat -> nat -> T) := pset p v k (p v k + x).
  Definition psub (v k : nat) (x : T) (p : nat -> nat -> T) := pset p v k (p v k - x).

  (** j = d; while(j) { f(j); --j; }  (orders d, ..., 1) *)
  Definition down1 (d : nat) (f : nat -> (nat -> nat -> T) -> nat -> nat -> T) p :=
    fold_left (fun p j => f j p) (rev (seq 1 d)) p.
  (** j = d + 1; while(j) { --j; f(j); }  (orders d, ..., 0) *)
  Definition down0 (d : nat) (f : nat -> (nat -> nat -> T) -> nat -> nat -> T) p :=
    fold_left (fun p j => f j p) (rev (seq 0 (S d))) p.

  (** "skip" of exp, expm1, erf: e.g. exp_op.hpp:144-148 *)
  Definition all_zero (p : nat -> nat -> T) (z d : nat) : bool :=
    forallb (fun k => is0 (p z k)) (seq 0 (S d)).

  (** *_reverse for the orders 0, ..., d (d = n_order - 1); [r] is the first
      result of [s] *)
  Definition rev_sub (s : sub) (r : nat) (V : nat -> nat -> T) (d : nat)
             (p : nat -> nat -> T) : nat -> nat -> T :=
    match s with
    | SAdd x y =>                                                  (* add 125-130 *)
      down0 d (fun i p => let p := padd x i (p r i) p in padd y i (p r i) p) p
    | SAddp _ y => down0 d (fun i p => padd y i (p r i) p) p       (* add 250-254 *)
    | SSub x y =>                                                  (* sub 121-126 *)
      down0 d (fun i p => let p := padd x i (p r i) p in psub y i (p r i) p) p
    | SSubp _ y => down0 d (fun i p => psub y i (p r i) p) p       (* sub 245-249 *)
    | SSubv x _ => down0 d (fun i p => padd x i (p r i) p) p       (* sub 369-373 *)
    | SMul x y | SZmul x y =>                           (* mul 134-145, zmul 133-142 *)
      down0 d (fun j p => loop 0 (S j) (fun k p =>
          let p := padd x (Nat.sub j k) (azmul (p r j) (V y k)) p in
          padd y k (azmul (p r j) (V x (Nat.sub j k))) p) p) p
    | SMulp q y => down0 d (fun j p => padd y j (azmul (p r j) (pget q V)) p) p  (* mul 264-271 *)
    | SZmulp q y => down0 d (fun j p => padd y j (azmul (p r j) (P q)) p) p      (* zmul 261-266 *)
    | SZmulv x q => down0 d (fun j p => padd x j (azmul (p r j) (P q)) p) p      (* zmul 385-390 *)
    | SDiv x y =>                                                  (* div 142-158 *)
      let inv := b1 / V y 0 in
      down0 d (fun j p =>
        let p := pset p r j (azmul (p r j) inv) in
        let p := padd x j (p r j) p in
        let p := loop 1 (S j) (fun k p =>
                   let p := psub r (Nat.sub j k) (azmul (p r j) (V y k)) p in
                   psub y k (azmul (p r j) (V r (Nat.sub j k))) p) p in
        psub y 0 (azmul (p r j) (V r j)) p) p
    | SDivp _ y =>                                                 (* div 296-311 *)
      let inv := b1 / V y 0 in
      down0 d (fun j p =>
        let p := pset p r j (azmul (p r j) inv) in
        let p := loop 1 (S j) (fun k p =>
                   let p := psub r (Nat.sub j k) (azmul (p r j) (V y k)) p in
                   psub y k (azmul (p r j) (V r (Nat.sub j k))) p) p in
        psub y 0 (azmul (p r j) (V r j)) p) p
    | SDivv x q =>                                                 (* div 440-447 *)
      let inv := b1 / P q in down0 d (fun j p => padd x j (azmul (p r j) inv) p) p
    | SUn u x =>
      match u with
      | Uabs =>                                                    (* abs 128-129 *)
        loop 0 (S d) (fun j p => padd x j (b_un Usign (V x 0) * p r j) p) p
      | Uneg =>                                                    (* neg 124-126 *)
        loop 0 (S d) (fun j p => padd x j (azmul (p r j) (- b1)) p) p
      | Uexp =>                                                    (* exp 144-163 *)
        if all_zero p r d then p else
        let p := down1 d (fun j p =>
                   let p := pset p r j (p r j / bnat j) in
                   loop 1 (S j) (fun k p =>
                     let p := padd x k (bnat k * azmul (p r j) (V r (Nat.sub j k))) p in
                     padd r (Nat.sub j k) (bnat k * azmul (p r j) (V x k)) p) p) p in
        padd x 0 (azmul (p r 0) (V r 0)) p
      | Uexpm1 =>                                                  (* expm1 143-164 *)
        if all_zero p r d then p else
        let p := down1 d (fun j p =>
                   let p := padd x j (p r j) p in
                   let p := pset p r j (p r j / bnat j) in
                   loop 1 (S j) (fun k p =>
                     let p := padd x k (bnat k * azmul (p r j) (V r (Nat.sub j k))) p in
                     padd r (Nat.sub j k) (bnat k * azmul (p r j) (V x k)) p) p) p in
        padd x 0 (p r 0 + azmul (p r 0) (V r 0)) p
      | Ulog | Ulog1p =>                                           (* log 153-172, log1p 150-169 *)
        let inv := b1 / (match u with Ulog => V x 0 | _ => b1 + V x 0 end) in
        let p := down1 d (fun j p =>
                   let p := pset p r j (azmul (p r j) inv) in
                   let p := psub x 0 (azmul (p r j) (V r j)) p in
                   let p := padd x j (p r j) p in
                   let p := pset p r j (p r j / bnat j) in
                   loop 1 j (fun k p =>
                     let p := psub r k (bnat k * azmul (p r j) (V x (Nat.sub j k))) p in
                     psub x (Nat.sub j k) (bnat k * azmul (p r j) (V r k)) p) p) p in
        padd x 0 (azmul (p r 0) inv) p
      | Usqrt =>                                                   (* sqrt 145-162 *)
        let inv := b1 / V r 0 in
        let p := down1 d (fun j p =>
                   let p := pset p r j (azmul (p r j) inv) in
                   let p := psub r 0 (azmul (p r j) (V r j)) p in
                   let p := padd x j (p r j / two) p in
                   loop 1 j (fun k p => psub r k (azmul (p r j) (V r (Nat.sub j k))) p) p) p in
        padd x 0 (azmul (p r 0) inv / two) p
      | _ => p                                                     (* sign 114 *)
      end
    | SPair u x =>
      let z := S r in
      match u with
      | Usin | Ucos =>                                             (* sin 169-187, cos 167-185 *)
        let '(s, c) := match u with Usin => (z, r) | _ => (r, z) end in
        let p := down1 d (fun j p =>
                   let p := pset p s j (p s j / bnat j) in
                   let p := pset p c j (p c j / bnat j) in
                   loop 1 (S j) (fun k p =>
                     let p := padd x k (bnat k * azmul (p s j) (V c (Nat.sub j k))) p in
                     let p := psub x k (bnat k * azmul (p c j) (V s (Nat.sub j k))) p in
                     let p := psub s (Nat.sub j k) (bnat k * azmul (p c j) (V x k)) p in
                     padd c (Nat.sub j k) (bnat k * azmul (p s j) (V x k)) p) p) p in
        let p := padd x 0 (azmul (p s 0) (V c 0)) p in
        psub x 0 (azmul (p c 0) (V s 0)) p
      | Usinh | Ucosh =>                                           (* sinh 168-186, cosh 167-185 *)
        let '(s, c) := match u with Usinh => (z, r) | _ => (r, z) end in
        let p := down1 d (fun j p =>
                   let p := pset p s j (p s j / bnat j) in
                   let p := pset p c j (p c j / bnat j) in
                   loop 1 (S j) (fun k p =>
                     let p := padd x k (bnat k * azmul (p s j) (V c (Nat.sub j k))) p in
                     let p := padd x k (bnat k * azmul (p c j) (V s (Nat.sub j k))) p in
                     let p := padd s (Nat.sub j k) (bnat k * azmul (p c j) (V x k)) p in
                     padd c (Nat.sub j k) (bnat k * azmul (p s j) (V x k)) p) p) p in
        let p := padd x 0 (azmul (p s 0) (V c 0)) p in
        padd x 0 (azmul (p c 0) (V s 0)) p
      | Utan =>                                                    (* tan 162-178 *)
        let p := down1 d (fun j p =>
                   let p := padd x j (p z j) p in
                   let p := pset p z j (p z j / bnat j) in
                   let p := loop 1 (S j) (fun k p =>
                     let p := padd x k (azmul (p z j) (V r (Nat.sub j k)) * bnat k) p in
                     padd r (Nat.sub j k) (azmul (p z j) (V x k) * bnat k) p) p in
                   loop 0 j (fun k p =>
                     padd z k (azmul (p r (Nat.sub j 1)) (V z (Nat.sub (Nat.sub j k) 1)) * two) p) p) p in
        padd x 0 (azmul (p z 0) (b1 + V r 0)) p
      | Utanh =>                                                   (* tanh 161-177 *)
        let p := down1 d (fun j p =>
                   let p := padd x j (p z j) p in
                   let p := pset p z j (p z j / bnat j) in
                   let p := loop 1 (S j) (fun k p =>
                     let p := psub x k (azmul (p z j) (V r (Nat.sub j k)) * bnat k) p in
                     psub r (Nat.sub j k) (azmul (p z j) (V x k) * bnat k) p) p in
                   loop 0 j (fun k p =>
                     padd z k (azmul (p r (Nat.sub j 1)) (V z (Nat.sub (Nat.sub j k) 1)) * two) p) p) p in
        padd x 0 (azmul (p z 0) (b1 - V r 0)) p
      | Uasin | Uacos | Uasinh | Uacosh =>   (* asin 171-210, acos 171-210, asinh 172-211, acosh 172-211 *)
        let inv := b1 / V r 0 in
        let xs v k t := match u with Uasin | Uacos => psub v k t | _ => padd v k t end in
        let p := down1 d (fun j p =>
                   let p := pset p r j (azmul (p r j) inv) in
                   let p := pset p z j (azmul (p z j) inv) in
                   let p := psub r 0 (azmul (p z j) (V z j) + azmul (p r j) (V r j)) p in
                   let p := xs x 0 (azmul (p r j) (V x j)) p in
                   let p := match u with
                            | Uasin => padd x j (p z j - azmul (p r j) (V x 0)) p
                            | Uacos => psub x j (p z j + azmul (p r j) (V x 0)) p
                            | _ => padd x j (p z j + azmul (p r j) (V x 0)) p
                            end in
                   let p := pset p z j (p z j / bnat j) in
                   loop 1 j (fun k p =>
                     let p := psub r (Nat.sub j k)
                                (bnat k * azmul (p z j) (V z k) + azmul (p r j) (V r k)) p in
                     let p := xs x k (azmul (p r j) (V x (Nat.sub j k))) p in
                     psub z k (bnat k * azmul (p z j) (V r (Nat.sub j k))) p) p) p in
        match u with
        | Uasin => padd x 0 (azmul (p z 0 - azmul (p r 0) (V x 0)) inv) p
        | Uacos => psub x 0 (azmul (p z 0 + azmul (p r 0) (V x 0)) inv) p
        | _ => padd x 0 (azmul (p z 0 + azmul (p r 0) (V x 0)) inv) p
        end
      | Uatan =>                                                   (* atan 158-182 *)
        let inv := b1 / V r 0 in
        let p := down1 d (fun j p =>
                   let p := pset p z j (azmul (p z j) inv) in
                   let p := pset p r j (p r j * two) in
                   let p := psub r 0 (azmul (p z j) (V z j)) p in
                   let p := padd x j (p z j + azmul (p r j) (V x 0)) p in
                   let p := padd x 0 (azmul (p r j) (V x j)) p in
                   let p := pset p z j (p z j / bnat j) in
                   loop 1 j (fun k p =>
                     let p := psub r (Nat.sub j k) (bnat k * azmul (p z j) (V z k)) p in
                     let p := psub z k (bnat k * azmul (p z j) (V r (Nat.sub j k))) p in
                     padd x k (azmul (p r j) (V x (Nat.sub j k))) p) p) p in
        padd x 0 (azmul (p z 0) inv + two * azmul (p r 0) (V x 0)) p
      | Uatanh =>                                                  (* atanh 159-183 *)
        let inv := b1 / V r 0 in
        let p := down1 d (fun j p =>
                   let p := pset p z j (azmul (p z j) inv) in
                   let p := pset p r j (p r j * two) in
                   let p := psub r 0 (azmul (p z j) (V z j)) p in
                   let p := padd x j (p z j - azmul (p r j) (V x 0)) p in
                   let p := psub x 0 (azmul (p r j) (V x j)) p in
                   let p := pset p z j (p z j / bnat j) in
                   loop 1 j (fun k p =>
                     let p := psub r (Nat.sub j k) (bnat k * azmul (p z j) (V z k)) p in
                     let p := psub z k (bnat k * azmul (p z j) (V r (Nat.sub j k))) p in
                     psub x k (azmul (p r j) (V x (Nat.sub j k))) p) p) p in
        padd x 0 (azmul (p z 0) inv - two * azmul (p r 0) (V x 0)) p
      | _ => p
      end
    | SPar _ | SLogp _ | SDis _ _ => p              (* reverse.hpp:397, 520; pow 433-472 *)
    | SCexp a =>                                                   (* cexp 702-747 *)
      let m := nth 1 a 0 in
      let V0 i := V i 0 in
      let sel t f := cond_exp_code (nth 0 a 0) (vp m 0 P V0 (nth 2 a 0)) (vp m 1 P V0 (nth 3 a 0)) t f in
      let p := if Nat.testbit m 2
               then down0 d (fun j p => padd (nth 4 a 0) j (sel (p r j) b0) p) p else p in
      if Nat.testbit m 3
      then down0 d (fun j p => padd (nth 5 a 0) j (sel b0 (p r j)) p) p else p
    | SCsum a =>                                                   (* csum 368-386 *)
      let g k := nth k a 0 in
      let p := fold_left (fun p i => down0 d (fun k p => padd i k (p r k) p) p)
                         (arg_range a 5 (g 1)) p in
      fold_left (fun p i => down0 d (fun k p => psub i k (p r k) p) p) (arg_range a (g 1) (g 2)) p
    | SPowexp _ _ x =>                                             (* pow 207-211, 453-457; exp 144-163 *)
      if all_zero p r d then p else
      let p := down1 d (fun j p =>
                 let p := pset p r j (p r j / bnat j) in
                 loop 1 (S j) (fun k p =>
                   let p := padd x k (bnat k * azmul (p r j) (V r (Nat.sub j k))) p in
                   padd r (Nat.sub j k) (bnat k * azmul (p r j) (V x k)) p) p) p in
      padd x 0 (azmul (p r 0) (V r 0)) p
    | SPowvp x q =>                                                (* pow 682-732 *)
      let y := P q in
      let w0 : nat -> T := fun j => p x j in                       (* work *)
      let wadd (w : nat -> T) k t : nat -> T := fset w k (w k + t) in
      let wsub (w : nat -> T) k t : nat -> T := fset w k (w k - t) in
      let '(p, w) := fold_left (fun '(p, w) j =>
          let w := wadd w j (azmul (p r j) (y * V r 0 / V x 0)) in
          let w := loop 1 j (fun k w =>
                     wadd w k (azmul (p r j)
                       ((bnat k * y - bnat (Nat.sub j k)) * V r (Nat.sub j k) / (bnat j * V x 0)))) w in
          let p := loop 1 j (fun k p =>
                     padd r k (azmul (p r j)
                       ((bnat (Nat.sub j k) * y - bnat k) * V x (Nat.sub j k) / (bnat j * V x 0))) p) p in
          let w := wsub w 0 (azmul (p r j) (V r j / V x 0)) in
          let p := padd r 0 (azmul (p r j) (y * V x j / V x 0)) p in
          (p, w)) (rev (seq 1 d)) (p, w0) in
      let w := wadd w 0 (azmul (p r 0) (y * V r 0 / V x 0)) in
      loop 0 (S d) (fun j p => pset p x j (ceq0 (V x 0) (w j))) p
    | SErf c x z3 =>                                               (* erf 557-571 *)
      let sign := if c then - b1 else b1 in
      let p := down1 d (fun j p =>
                 let p := pset p r j (p r j / bnat j) in
                 loop 1 (S j) (fun k p =>
                   let p := padd x k (sign * azmul (p r j) (V z3 (Nat.sub j k)) * bnat k) p in
                   padd z3 (Nat.sub j k) (sign * azmul (p r j) (V x k) * bnat k) p) p) p in
      padd x 0 (sign * azmul (p r 0) (V z3 0)) p
    end.

  (** write a list of coefficients of order [j], first one at variable [r] *)
  Fixpoint put_row (V : nat -> nat -> T) (r j : nat) (l : list T) : nat -> nat -> T :=
    match l with
    | [] => V
    | c :: l' => put_row (pset V r j c) (S r) j l'
    end.

  (** one loop, orders lo, ..., up *)
  Definition run_sub (lo up : nat) (V : nat -> nat -> T) (rs : nat * sub) : nat -> nat -> T :=
    loop lo (S up) (fun j V => put_row V (fst rs) j (coef (snd rs) (fst rs) V j)) V.

  (** ** sweep/forward_any.hpp *)
  Record fstq := mkQ {
    q_V : nat -> nat -> T; q_isv : nat -> bool; q_idx : nat -> nat; q_l2v : nat -> nat;
    q_num : nat; q_opi : nat; q_skip : nat -> bool }.

  (** load_op.hpp:307-340 load_forward_nonzero *)
  Definition load_rows (V : nat -> nat -> T) (iv i_y lo up : nat) : nat -> nat -> T :=
    loop lo (S up) (fun j V => pset V iv j (if 0 <? i_y then V i_y j else b0)) V.

  (** order zero row of the taylor array, and the order zero state *)
  Definition row0 (V : nat -> nat -> T) : nat -> T := fun i => V i 0.
  Definition set0 (V : nat -> nat -> T) (r : nat -> T) : nat -> nat -> T :=
    fun i k => if k =? 0 then r i else V i k.
  Definition to0 (s : fstq) : fst0 b :=
    mkF (row0 (q_V s)) (q_isv s) (q_idx s) (q_l2v s) (q_num s) (q_opi s) (q_skip s).
  Definition of0 (s : fstq) (t : fst0 b) : fstq :=
    mkQ (set0 (q_V s) (f_V t)) (f_isv t) (f_idx t) (f_l2v t) (f_num t) (f_opi t) (f_skip t).
  Definition setV (s : fstq) (V : nat -> nat -> T) : fstq :=
    mkQ V (q_isv s) (q_idx s) (q_l2v s) (q_num s) (q_opi s) (q_skip s).

  (** one operator: forward_any.hpp:187-652.  For load, store and skip at order
      zero, and for comparisons (at every order!), the C++ code calls the
      functions that the zero order sweep calls, modelled by [step0]. *)
  Definition step_any (cc lo up : nat) (i : ins) (k : nat) (s : fstq) : option fstq :=
    let 'mkIns o a iv := i in
    match subs o a iv with
    | Some l => Some (setV s (fold_left (run_sub lo up) l (q_V s)))
    | None =>
      match o with
      | LdpOp | LdvOp =>                          (* forward_any.hpp:392-433 *)
        match (if lo =? 0 then option_map (of0 s) (step0 P cc i k (to0 s)) else Some s) with
        | None => None
        | Some s' => Some (setV s' (load_rows (q_V s') iv (q_l2v s' (nth 2 a 0)) (Nat.max lo 1) up))
        end
      | StppOp | StpvOp | StvpOp | StvvOp | CSkipOp =>   (* 311-318, 543-560 *)
        if lo =? 0 then option_map (of0 s) (step0 P cc i k (to0 s)) else Some s
      | _ => option_map (of0 s) (step0 P cc i k (to0 s))   (* comparisons, Begin, Inv, End, Pri *)
      end
    end.

  (** forward_any.hpp:149-677 *)
  Fixpoint sweep_any (cc lo up : nat) (l : list ins) (k : nat) (s : fstq) : option fstq :=
    match l with
    | [] => Some s
    | i :: l' =>
      if q_skip s k then sweep_any cc lo up l' (S k) s
      else match step_any cc lo up i k s with
           | None => None
           | Some s' => sweep_any cc lo up l' (S k) s'
           end
    end.

  (** forward_any.hpp:77-102: at order zero, clear the counters, the VecAD state
      and cskip_op (otherwise they are those of the ADFun object; VecAD state is
      not used) *)
  Definition init_any (r : rec b) (lo : nat) (s : fstq) : fstq :=
    if lo =? 0 then
      mkQ (q_V s) (fun _ => false) (fun i => nth i (r_vec r) 0) (q_l2v s) 0 0 (fun _ => false)
    else s.

  (** ** sweep/reverse.hpp:268-685: one operator *)
  Definition rev_step (V : nat -> nat -> T) (l2v : nat -> nat) (d : nat) (i : ins)
             (p : nat -> nat -> T) : nat -> nat -> T :=
    let 'mkIns o a iv := i in
    match subs o a iv with
    | Some l =>
      let run p := fold_left (fun p rs => rev_sub (snd rs) (fst rs) V d p) (rev l) p in
      match o with
      | ErfOp | ErfcOp => if all_zero p iv d then p else run p     (* erf 534-540 *)
      | _ => run p
      end
    | None =>
      match o with
      | LdpOp | LdvOp =>                                           (* load 454-465 *)
        let i_y := l2v (nth 2 a 0) in
        if 0 <? i_y then down0 d (fun j p => padd i_y j (p iv j) p) p else p
      | _ => p
      end
    end.

  (** sweep/reverse.hpp:208-686: operators from the last to the first, skipping
      those marked by cskip_op; [k] is the index of the first one of [l] *)
  Fixpoint sweep_rev (V : nat -> nat -> T) (l2v : nat -> nat) (skip : nat -> bool) (d : nat)
           (l : list ins) (k : nat) (p : nat -> nat -> T) : nat -> nat -> T :=
    match l with
    | [] => p
    | i :: l' =>
      let p := sweep_rev V l2v skip d l' (S k) p in
      if skip k then p else rev_step V l2v d i p
    end.
End Sweep.
Arguments fstq : clear implicits.
