(** Model of utility/lu_factor.hpp, lu_invert.hpp, lu_solve.hpp over an arbitrary
    ordered field (exact arithmetic: no rounding, no nan).  The vectors are total
    functions of the flat index; a loop "for(i = a; i < b; i++)" is a fold over
    iota a (b - a). *)
From mathcomp Require Import all_ssreflect all_algebra.
Set Implicit Arguments.
Unset Strict Implicit.
Unset Printing Implicit Defensive.
Import GRing.Theory Num.Theory.
Local Open Scope ring_scope.

Section LU.
  Variable F : realFieldType.

  Definition upd A (f : nat -> A) (k : nat) (v : A) : nat -> A :=
    fun i => if i == k then v else f i.

  (** lu_factor.hpp:242-251 *)
  Definition abs_geq (x y : F) : bool :=
    let xa := if x <= 0 then - x else x in
    let ya := if y <= 0 then - y else y in ya <= xa.

  (** 318-334: search for the pivot; 387 is (n, n) when nothing is found *)
  Definition search_row (n : nat) (ip jp : nat -> nat) (LU : nat -> F) (p i : nat)
      (st : nat * nat * F) : nat * nat * F :=
    foldl (fun st j => let e := LU (ip i * n + jp j)%N in
                       if abs_geq e st.2 then (i, j, e) else st) st (iota p (n - p)).
  Definition search (n : nat) (ip jp : nat -> nat) (LU : nat -> F) (p : nat) : nat * nat * F :=
    foldl (fun st i => search_row n ip jp LU p i st) (n, n, 0) (iota p (n - p)).

  (** 342-355: exchange of two elements of ip or jp *)
  Definition exchange (f : nat -> nat) (p q : nat) : nat -> nat := upd (upd f p (f q)) q (f p).

  (** 369-370 *)
  Definition scale_row (n : nat) (ip jp : nat -> nat) (p : nat) (pivot : F) (LU : nat -> F) : nat -> F :=
    foldl (fun LU j => upd LU (ip p * n + jp j)%N (LU (ip p * n + jp j)%N / pivot)) LU
          (iota p.+1 (n - p.+1)).
  (** 376-382 *)
  Definition elim_row (n : nat) (ip jp : nat -> nat) (p i : nat) (LU : nat -> F) : nat -> F :=
    let etmp := LU (ip i * n + jp p)%N in
    foldl (fun LU j => upd LU (ip i * n + jp j)%N
                           (LU (ip i * n + jp j)%N - etmp * LU (ip p * n + jp j)%N)) LU
          (iota p.+1 (n - p.+1)).
  Definition elim (n : nat) (ip jp : nat -> nat) (p : nat) (LU : nat -> F) : nat -> F :=
    foldl (fun LU i => elim_row n ip jp p i LU) LU (iota p.+1 (n - p.+1)).

  Record lu := mkLU { l_ip : nat -> nat; l_jp : nat -> nat; l_mat : nat -> F; l_sign : int }.

  (** 315-384: [k] iterations remain, p = n - k.  The result is (state, return value). *)
  Fixpoint lu_loop (n k : nat) (s : lu) : lu * int :=
    match k with
    | 0%N => (s, l_sign s)
    | k'.+1 =>
      let p := (n - k)%N in
      let: (imax, jmax, _) := search n (l_ip s) (l_jp s) (l_mat s) p in
      let: (ip, s1) := if imax != p then (exchange (l_ip s) p imax, - l_sign s) else (l_ip s, l_sign s) in
      let: (jp, s2) := if jmax != p then (exchange (l_jp s) p jmax, - s1) else (l_jp s, s1) in
      let pivot := l_mat s (ip p * n + jp p)%N in
      if pivot == 0 then (mkLU ip jp (l_mat s) s2, 0)
      else lu_loop n k' (mkLU ip jp (elim n ip jp p (scale_row n ip jp p pivot (l_mat s))) s2)
    end.
  (** 270-385, starting with 306-311 *)
  Definition LuFactor (n : nat) (A : nat -> F) : lu * int :=
    lu_loop n n (mkLU (fun i => i) (fun i => i) A 1).

  (** lu_invert.hpp:202-210, column k of B *)
  Definition for_step (n m k : nat) (ip jp : nat -> nat) (LU : nat -> F) (B : nat -> F) (p : nat) : nat -> F :=
    let etmp := B (ip p * m + k)%N / LU (ip p * n + jp p)%N in
    foldl (fun B i => upd B (ip i * m + k)%N (B (ip i * m + k)%N - etmp * LU (ip i * n + jp p)%N))
          (upd B (ip p * m + k)%N etmp) (iota p.+1 (n - p.+1)).
  (** 213-221: the body for this value of p *)
  Definition back_step (n m k : nat) (ip jp : nat -> nat) (LU : nat -> F)
      (st : (nat -> F) * (nat -> F)) (p : nat) : (nat -> F) * (nat -> F) :=
    let: (B, x) := st in
    let etmp := B (ip p * m + k)%N in
    (foldl (fun B i => upd B (ip i * m + k)%N (B (ip i * m + k)%N - etmp * LU (ip i * n + jp p)%N))
           B (iota 0 p),
     upd x (jp p) etmp).
  (** 200-226 *)
  Definition invert_col (n m : nat) (ip jp : nat -> nat) (LU : nat -> F) (B : nat -> F) (k : nat) : nat -> F :=
    let B1 := foldl (for_step n m k ip jp LU) B (iota 0 n) in
    let: (B2, x) := foldl (back_step n m k ip jp LU) (B1, fun _ => 0) (rev (iota 0 n)) in
    foldl (fun B i => upd B (i * m + k)%N (x i)) B2 (iota 0 n).
  Definition LuInvert (n m : nat) (ip jp : nat -> nat) (LU : nat -> F) (B : nat -> F) : nat -> F :=
    foldl (invert_col n m ip jp LU) B (iota 0 m).

  (** lu_solve.hpp:312-332: [r] is (logdet, signdet); None: return 0 *)
  Fixpoint det_loop (log : F -> F) (n : nat) (ip jp : nat -> nat) (LU : nat -> F)
      (ps : seq nat) (logdet : F) (sg : int) : option (F * int) :=
    match ps with
    | [::] => Some (logdet, sg)
    | p :: ps' =>
      let pivot := LU (ip p * n + jp p)%N in
      if pivot == 0 then None
      else if pivot <= 0 then det_loop log n ip jp LU ps' (logdet + log (- pivot)) (- sg)
      else det_loop log n ip jp LU ps' (logdet + log pivot) sg
    end.
  (** 261-339: the result is X, logdet and the return value *)
  Definition LuSolve (log : F -> F) (n m : nat) (A B : nat -> F) : (nat -> F) * F * int :=
    let: (s, signdet) := LuFactor n A in
    match det_loop log n (l_ip s) (l_jp s) (l_mat s) (iota 0 n) 0 signdet with
    | None => (B, 0, 0)
    | Some (logdet, sg) => (LuInvert n m (l_ip s) (l_jp s) (l_mat s) B, logdet, sg)
    end.
End LU.
