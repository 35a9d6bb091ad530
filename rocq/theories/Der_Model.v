(** Model of the first and second order derivative drivers of ADFun: core/jacobian.hpp,
    core/hessian.hpp, core/for_one.hpp, core/rev_one.hpp, core/for_two.hpp,
    core/rev_two.hpp; on top of Forward and Reverse (Drv_Model).

    A SimpleVector that is modified by the code is a function on nat ([fset] is an
    assignment to one element); [vec n u] is its value as a vector of size n.
    [junk] is the content of an uninitialised vector. *)
From Coq Require Import List Bool Arith.
From Verif Require Import Base_Spec Op_Model Tape_Spec Tape_Model Sweep_Model Drv_Model.
Import ListNotations.

Section Der.
  Context {b : base}.
  Notation T := (bt b).
  Variable bnat : nat -> T.
  Variable junk : nat -> T.
  Notation forward := (forward (b:=b) bnat junk).
  Notation reverse := (reverse (b:=b) bnat junk).
  Notation adq := (adq b).

  Definition vec (n : nat) (u : nat -> T) : list T := map u (seq 0 n).
  Definition zeros : nat -> T := fun _ => b0.
  (** for(i = 0; i < len; i++) a[ idx(i) ] = v[ src(i) ] *)
  Definition copy (len : nat) (idx src : nat -> nat) (v : list T) (a : nat -> T) : nat -> T :=
    fold_left (fun a i => fset a (idx i) (nth (src i) v b0)) (seq 0 len) a.

  (** Parameter(i): dep_parameter_[i] (ad_fun.hpp:674-682).  In a recording a ParOp is
      made exactly for the dependent variables that are parameters (ad_tape.hpp:163-176,
      dependent.hpp:249-262), hence the flag is read from the operation sequence. *)
  Definition parameter_dep (f : adq) (i : nat) : bool :=
    match decode (r_op (d_rec f)) (r_arg (d_rec f)) 0 with
    | Some l => existsb (fun j => match i_op j with ParOp => i_var j =? nth i (d_dep f) 0 | _ => false end) l
    | None => false
    end.

  (** jacobian.hpp:107-144, the loop over j *)
  Fixpoint jac_for (f : adq) (js : list nat) (u jac : nat -> T) : option ((nat -> T) * adq) :=
    match js with
    | [] => Some (jac, f)
    | j :: js' =>
      let n := d_n f in let m := length (d_dep f) in
      let u := fset u j b1 in
      match forward f 1 (vec n u) with
      | None => None
      | Some (v, f') =>
        let u := fset u j b0 in
        jac_for f' js' u (copy m (fun i => i * n + j) (fun i => i) v jac)
      end
    end.
  (** jacobian.hpp:145-187, the loop over i *)
  Fixpoint jac_rev (f : adq) (is : list nat) (v jac : nat -> T) : option ((nat -> T) * adq) :=
    match is with
    | [] => Some (jac, f)
    | i :: is' =>
      let n := d_n f in let m := length (d_dep f) in
      if parameter_dep f i
      then jac_rev f is' v (fold_left (fun a j => fset a (i * n + j) b0) (seq 0 n) jac)
      else
        let v := fset v i b1 in
        match reverse f 1 (vec m v) with
        | None => None
        | Some (u, f') =>
          let v := fset v i b0 in
          jac_rev f' is' v (copy n (fun j => i * n + j) (fun j => j) u jac)
        end
    end.
  (** jacobian.hpp:189-226 *)
  Definition jacobian (f : adq) (x : list T) : option (list T * adq) :=
    let n := d_n f in let m := length (d_dep f) in
    if negb (length x =? n) then None else
    match forward f 0 x with
    | None => None
    | Some (_, f) =>
      let work_reverse := fold_left (fun c i => if negb (parameter_dep f i) then S c else c) (seq 0 m) 0 in
      match (if n <=? work_reverse then jac_for f (seq 0 n) zeros junk
             else jac_rev f (seq 0 m) zeros junk) with
      | None => None
      | Some (jac, f) => Some (vec (n * m) jac, f)
      end
    end.

  (** for_one.hpp:117-153 *)
  Definition for_one (f : adq) (x : list T) (j : nat) : option (list T * adq) :=
    let n := d_n f in
    if negb (length x =? n) then None else
    if negb (j <? n) then None else
    match forward f 0 x with
    | None => None
    | Some (_, f) => forward f 1 (vec n (fset zeros j b1))
    end.
  (** rev_one.hpp:120-156 *)
  Definition rev_one (f : adq) (x : list T) (i : nat) : option (list T * adq) :=
    let n := d_n f in let m := length (d_dep f) in
    if negb (length x =? n) then None else
    if negb (i <? m) then None else
    match forward f 0 x with
    | None => None
    | Some (_, f) => reverse f 1 (vec m (fset zeros i b1))
    end.

  (** hessian.hpp:190-202 *)
  Fixpoint hes_loop (f : adq) (w : list T) (js : list nat) (u hes : nat -> T) : option ((nat -> T) * adq) :=
    match js with
    | [] => Some (hes, f)
    | j :: js' =>
      let n := d_n f in
      let u := fset u j b1 in
      match forward f 1 (vec n u) with
      | None => None
      | Some (_, f) =>
        let u := fset u j b0 in
        match reverse f 2 w with
        | None => None
        | Some (ddw, f) => hes_loop f w js' u (copy n (fun k => k * n + j) (fun k => k * 2 + 1) ddw hes)
        end
      end
    end.
  (** hessian.hpp:154-205 *)
  Definition hessian (f : adq) (x w : list T) : option (list T * adq) :=
    let n := d_n f in
    if negb (length x =? n) then None else
    if negb (length w =? length (d_dep f)) then None else
    match forward f 0 x with
    | None => None
    | Some (_, f) =>
      match hes_loop f w (seq 0 n) zeros junk with
      | None => None
      | Some (hes, f) => Some (vec (n * n) hes, f)
      end
    end.
  (** hessian.hpp:136-151 *)
  Definition hessian_of (f : adq) (x : list T) (l : nat) : option (list T * adq) :=
    let m := length (d_dep f) in
    if negb (l <? m) then None else hessian f x (vec m (fset zeros l b1)).

  (** rev_two.hpp:209-227, the loop over l for one j1; [done] is first_done *)
  Fixpoint rev_two_in (f : adq) (i j : list nat) (j1 : nat) (ls : list nat) (done : bool) (dx w ddw : nat -> T)
    : option ((nat -> T) * (nat -> T) * (nat -> T) * adq) :=
    match ls with
    | [] => Some (ddw, dx, w, f)
    | l :: ls' =>
      let n := d_n f in let m := length (d_dep f) in let p := length i in
      if negb (nth l j 0 =? j1) then rev_two_in f i j j1 ls' done dx w ddw else
      match (if done then Some (dx, f)
             else let dx := fset dx j1 b1 in
                  match forward f 1 (vec n dx) with
                  | None => None
                  | Some (_, f) => Some (fset dx j1 b0, f)
                  end) with
      | None => None
      | Some (dx, f) =>
        let i1 := nth l i 0 in
        let w := fset w i1 b1 in
        match reverse f 2 (vec m w) with
        | None => None
        | Some (r, f) =>
          let w := fset w i1 b0 in
          rev_two_in f i j j1 ls' true dx w (copy n (fun k => k * p + l) (fun k => k * 2 + 1) r ddw)
        end
      end
    end.
  (** rev_two.hpp:206-228 *)
  Fixpoint rev_two_out (f : adq) (i j : list nat) (js : list nat) (dx w ddw : nat -> T) : option ((nat -> T) * adq) :=
    match js with
    | [] => Some (ddw, f)
    | j1 :: js' =>
      match rev_two_in f i j j1 (seq 0 (length i)) false dx w ddw with
      | None => None
      | Some (ddw, dx, w, f) => rev_two_out f i j js' dx w ddw
      end
    end.
  (** rev_two.hpp:143-230 *)
  Definition rev_two (f : adq) (x : list T) (i j : list nat) : option (list T * adq) :=
    let n := d_n f in let m := length (d_dep f) in let p := length i in
    if negb (length x =? n) then None else
    if negb (length i =? length j) then None else
    match forward f 0 x with
    | None => None
    | Some (_, f) =>
      if negb (forallb (fun l => (nth l i 0 <? m) && (nth l j 0 <? n)) (seq 0 p)) then None else
      match rev_two_out f i j (seq 0 n) zeros zeros junk with
      | None => None
      | Some (ddw, f) => Some (vec (n * p) ddw, f)
      end
    end.

  (** for_two.hpp:208-222: one pass of the while loop, for one index; the state is
      ( c , D , dx , *this ) *)
  Definition for_two_diag (st : (nat -> bool) * (nat -> T) * (nat -> T) * adq) (j1 : nat)
    : option ((nat -> bool) * (nat -> T) * (nat -> T) * adq) :=
    let '(c, D, dx, f) := st in
    let n := d_n f in let m := length (d_dep f) in
    if c j1 then Some st
    else
      let c := fset c j1 true in
      let dx := fset dx j1 b1 in
      match forward f 1 (vec n dx) with
      | None => None
      | Some (_, f) =>
        let dx := fset dx j1 b0 in
        match forward f 2 (vec n dx) with
        | None => None
        | Some (dy, f) => Some (c, copy m (fun i => i * n + j1) (fun i => i) dy D, dx, f)
        end
      end.
  (** for_two.hpp:196-223 *)
  Fixpoint for_two_first (st : (nat -> bool) * (nat -> T) * (nat -> T) * adq) (jk : list (nat * nat))
    : option ((nat -> bool) * (nat -> T) * (nat -> T) * adq) :=
    match jk with
    | [] => Some st
    | (j1, k1) :: jk' =>
      let n := d_n (snd st) in
      if negb ((j1 <? n) && (k1 <? n)) then None else
      match for_two_diag st j1 with
      | None => None
      | Some st => match for_two_diag st k1 with
                   | None => None
                   | Some st => for_two_first st jk'
                   end
      end
    end.
  (** for_two.hpp:225-248; [p] is j.size(), [l] the index of the first element of [jk] *)
  Fixpoint for_two_second (f : adq) (D : nat -> T) (p l : nat) (jk : list (nat * nat)) (dx ddy : nat -> T)
    : option ((nat -> T) * adq) :=
    match jk with
    | [] => Some (ddy, f)
    | (j1, k1) :: jk' =>
      let n := d_n f in let m := length (d_dep f) in
      if j1 =? k1 then
        for_two_second f D p (S l) jk' dx
          (fold_left (fun a i => fset a (i * p + l) (b_bin Bmul (bnat 2) (D (i * n + j1)))) (seq 0 m) ddy)
      else
        let dx := fset (fset dx j1 b1) k1 b1 in
        match forward f 1 (vec n dx) with
        | None => None
        | Some (_, f) =>
          let dx := fset (fset dx j1 b0) k1 b0 in
          match forward f 2 (vec n dx) with
          | None => None
          | Some (dy, f) =>
            for_two_second f D p (S l) jk' dx
              (fold_left (fun a i => fset a (i * p + l) (b_bin Bsub (b_bin Bsub (nth i dy b0) (D (i * n + j1))) (D (i * n + k1)))) (seq 0 m) ddy)
          end
        end
    end.
  (** for_two.hpp:142-250 *)
  Definition for_two (f : adq) (x : list T) (j k : list nat) : option (list T * adq) :=
    let n := d_n f in let m := length (d_dep f) in let p := length j in
    if negb (length x =? n) then None else
    if negb (length j =? length k) then None else
    match forward f 0 x with
    | None => None
    | Some (_, f) =>
      match for_two_first (fun _ => false, junk, zeros, f) (combine j k) with
      | None => None
      | Some (_, D, dx, f) =>
        match for_two_second f D p 0 (combine j k) dx junk with
        | None => None
        | Some (ddy, f) => Some (vec (m * p) ddy, f)
        end
      end
    end.
End Der.
