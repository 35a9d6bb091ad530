(** C42: model of RombergOne, RombergMul and Runge45.
    Float / Scalar is the field of real numbers (exact arithmetic).  A vector is the function
    of its index.  Not modelled: rounding, nan, the conversions int(ipow2), int(ipow4) of
    integers above 2^31 (n > 31), the debug assertions. *)
From Coq Require Import Reals List Arith Bool.
Import ListNotations.
Open Scope R_scope.

(** v[k] = e *)
Definition upd (r : nat -> R) (k : nat) (e : R) : nat -> R := fun j => if (j =? k)%nat then e else r j.

(** romberg_one.hpp:180  for(k = 1; k < ipow2; k += 2) *)
Definition odd_below (ip : nat) : list nat := map (fun j => (1 + 2 * j)%nat) (seq 0 (ip / 2)).
(** romberg_one.hpp:176-186, one iteration of the first loop; ip is ipow2 *)
Definition refine (F : R -> R) (a b : R) (st : nat * (nat -> R)) (i : nat) : nat * (nat -> R) :=
  let '(ip, r) := st in
  let ip := (ip * 2)%nat in
  let pow2 := INR ip in
  let sum := fold_left (fun sum k => sum + F (((pow2 - INR k) * a + INR k * b) / pow2)) (odd_below ip) 0 in
  (ip, upd r i (r (i - 1)%nat / 2 + sum * (b - a) / pow2)).
(** romberg_one.hpp:195-199, one iteration of the second loop; ip is ipow4 *)
Definition extrapolate (n : nat) (st : nat * (nat -> R)) (i : nat) : nat * (nat -> R) :=
  let '(ip, r) := st in
  let ip := (ip * 4)%nat in
  (ip, fold_left (fun r k => upd r k ((INR ip * r k - r (k - 1)%nat) / INR (ip - 1))) (rev (seq (S i) (n - 1 - i))) r).
(** romberg_one.hpp:148-207; the result is (value, e); None is the assertion n >= 2 *)
Definition romberg_one (F : R -> R) (a b : R) (n p : nat) : option (R * R) :=
  if (n <? 2)%nat then None else
  let r0 := upd (fun _ => 0) 0 ((F a + F b) * (b - a) / 2) in
  let r := snd (fold_left (refine F a b) (seq 1 (n - 1)) (1%nat, r0)) in
  let r := snd (fold_left (extrapolate n) (seq 0 p) (1%nat, r)) in
  let e := r (n - 1)%nat - r (n - 2)%nat in
  Some (r (n - 1)%nat, if Rlt_dec e 0 then - e else e).

(** romberg_mul.hpp:168-186 SliceLast: x[last] = xlast, then F(x) *)
Definition slice_last (F : (nat -> R) -> R) (last : nat) (x : nat -> R) (xlast : R) : R :=
  F (fun i => if (i <? last)%nat then x i else if (i =? last)%nat then xlast else 0).
(** romberg_mul.hpp:188-229 IntegrateLast: the value (its error estimate is not modelled) *)
Definition integrate_last (F : (nat -> R) -> R) (last : nat) (a b : nat -> R) (n p : nat -> nat) (x : nat -> R) : option R :=
  option_map fst (romberg_one (slice_last F last x) (a last) (b last) (n last) (p last)).
(** romberg_mul.hpp:231-318: m - 1 nested applications; the value only.  n i >= 2 for every i
    (otherwise RombergOne's assertion fails: None) *)
Fixpoint romberg_mul (m : nat) (F : (nat -> R) -> R) (a b : nat -> R) (n p : nat -> nat) : option R :=
  match m with
  | O => None
  | 1%nat => integrate_last F 0 a b n p a
  | S m' => if forallb (fun i => 2 <=? n i)%nat (seq 0 m)
            then romberg_mul m' (fun x => match integrate_last F m' a b n p x with Some v => v | None => 0 end) a b n p
            else None
  end.

(** runge_45.hpp:304-311 *)
Definition ra : list R := [0; 1 / 5; 3 / 10; 3 / 5; 1; 7 / 8].
(** runge_45.hpp:312-342, 5 x 5, row major *)
Definition rb : list R :=
  [1 / 5; 0; 0; 0; 0;
   3 / 40; 9 / 40; 0; 0; 0;
   3 / 10; - 9 / 10; 6 / 5; 0; 0;
   - 11 / 54; 5 / 2; - 70 / 27; 35 / 27; 0;
   1631 / 55296; 175 / 512; 575 / 13824; 44275 / 110592; 253 / 4096].
(** runge_45.hpp:343-350 *)
Definition rc4 : list R := [2825 / 27648; 0; 18575 / 48384; 13525 / 55296; 277 / 14336; 1 / 4].
(** runge_45.hpp:351-358 *)
Definition rc5 : list R := [37 / 378; 0; 250 / 621; 125 / 594; 0; 512 / 1771].

(** the state of one step: fh (component, stage), x4, x5 *)
Record rstep := mkR { s_fh : nat -> nat -> R; s_x4 : nat -> R; s_x5 : nat -> R }.
(** runge_45.hpp:389-415, iteration j (zero_or_nan is zero for real numbers) *)
Definition stage (F : R -> (nat -> R) -> nat -> R) (n : nat) (t h : R) (xf : nat -> R) (s : rstep) (j : nat) : rstep :=
  let xtmp := fold_left (fun xtmp k => let bjk := nth ((j - 1) * 5 + k) rb 0 in
                (fun i => if (i <? n)%nat then xtmp i + bjk * s_fh s i k else xtmp i)) (seq 0 j) xf in
  let ftmp := F (t + nth j ra 0 * h) xtmp in
  mkR (fun i k => if ((i <? n) && (k =? j))%nat then ftmp i * h else s_fh s i k)
      (fun i => if (i <? n)%nat then s_x4 s i + nth j rc4 0 * (ftmp i * h) else s_x4 s i)
      (fun i => if (i <? n)%nat then s_x5 s i + nth j rc5 0 * (ftmp i * h) else s_x5 s i).
Definition six (F : R -> (nat -> R) -> nat -> R) n t h xf : rstep :=
  fold_left (stage F n t h xf) (seq 0 6) (mkR (fun _ _ => 0) xf xf).
(** runge_45.hpp:381-426, iteration m; the state is (xf, e) *)
Definition runge_step (F : R -> (nat -> R) -> nat -> R) (n M : nat) (ti tf : R) (st : (nat -> R) * (nat -> R)) (m : nat) :=
  let '(xf, e) := st in
  let ns := INR M in let h := (tf - ti) / ns in
  let t := ti * (INR (M - m) / ns) + tf * (INR m / ns) in
  let s := six F n t h xf in
  (s_x5 s, fun i => if (i <? n)%nat then e i + Rabs (s_x5 s i - s_x4 s i) else e i).
(** runge_45.hpp:284-428; the result is (xf, e); None is the assertion M >= 1 *)
Definition runge45 (F : R -> (nat -> R) -> nat -> R) (n M : nat) (ti tf : R) (xi : nat -> R) : option ((nat -> R) * (nat -> R)) :=
  if (M <? 1)%nat then None else
  Some (fold_left (runge_step F n M ti tf) (seq 0 M) (xi, fun _ => 0)).
