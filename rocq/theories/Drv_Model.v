(** Model of the ADFun drivers that own the Taylor coefficient array:
    core/forward/forward.hpp, core/capacity_order.hpp, core/reverse.hpp,
    core/new_dynamic.hpp, sweep/forward_dir.hpp.

    Simplifications: the array taylor_ is a function on nat (its size is not
    modelled); reading a never written element of a new array gives [junk];
    check_for_nan and printing are not modelled; a failing CPPAD_ASSERT_KNOWN or
    CPPAD_ASSERT_UNKNOWN is the result None. *)
From Coq Require Import ZArith List Bool Arith.
From Verif Require Import Base_Spec Op_Model Tape_Spec Tape_Model Sweep_Model.
Import ListNotations.

Section Drv.
  Context {b : base}.
  Notation T := (bt b).
  Variable bnat : nat -> T.
  Variable junk : nat -> T.

  Record adq := mkA {
    d_rec : rec b; d_n : nat; d_dep : list nat; d_par : nat -> T;
    d_tay : nat -> T;         (* taylor_ *)
    d_cap : nat;              (* cap_order_taylor_ *)
    d_ord : nat;              (* num_order_taylor_ : size_order() *)
    d_dir : nat;              (* num_direction_taylor_ : size_direction() *)
    d_l2v : nat -> nat; d_cc : nat; d_num : nat; d_opi : nat; d_skip : nat -> bool }.

  Definition set_tay (f : adq) t c o d :=
    mkA (d_rec f) (d_n f) (d_dep f) (d_par f) t c o d (d_l2v f) (d_cc f) (d_num f) (d_opi f) (d_skip f).
  Definition set_ord (f : adq) o := set_tay f (d_tay f) (d_cap f) o (d_dir f).

  (** ADFun( x, y ) leaves no Taylor coefficient: dependent.hpp:268-313
      (the constructor ADFun(x, y) then runs Forward(0, x): fun_construct.hpp:527-571) *)
  Definition drv_of (f : adfun b) : adq :=
    mkA (g_rec f) (g_n f) (g_dep f) (g_par f) junk 0 0 0 (g_l2v f) (g_cc f) (g_num f) (g_opi f)
        (fun _ => false).

  (** position of order [k], direction [ell] of variable [i]; capacity_order.hpp:187-194 *)
  Definition tidx (C R i k ell : nat) : nat :=
    ((C - 1) * R + 1) * i + (if k =? 0 then 0 else (k - 1) * R + ell + 1).

  (** capacity_order.hpp:151-209 *)
  Definition copy_tay (old : nat -> T) (nv C R c r p : nat) : nat -> T :=
    fold_left (fun t i =>
      let t := fset t (tidx c r i 0 0) (old (tidx C R i 0 0)) in
      fold_left (fun t k =>
        fold_left (fun t ell => fset t (tidx c r i k ell) (old (tidx C R i k ell)))
                  (seq 0 R) t)
        (seq 1 (p - 1)) t)
      (seq 0 nv) junk.
  Definition capacity2 (f : adq) (c r : nat) : option adq :=
    if (c =? d_cap f) && (r =? d_dir f) then Some f
    else if c =? 0 then
      if r =? 0 then Some (set_tay f junk 0 0 r) else None            (* 160 *)
    else if negb ((r =? d_dir f) || (d_ord f <=? 1)) then None         (* 167 *)
    else
      let p := Nat.min (d_ord f) c in
      let t := if 0 <? p then copy_tay (d_tay f) (r_nvar (d_rec f)) (d_cap f) (d_dir f) c r p
               else junk in
      Some (set_tay f t c p r).
  (** capacity_order.hpp:236-249 *)
  Definition capacity_order (f : adq) (c : nat) : option adq :=
    if (c =? 0) || (c =? 1) then capacity2 f c c
    else capacity2 f c (if d_dir f =? 0 then 1 else d_dir f).

  (** taylor_ with one direction, as rows; and back *)
  Definition view1 (f : adq) : nat -> nat -> T := fun i k => d_tay f (d_cap f * i + k).
  Definition flat1 (C : nat) (V : nat -> nat -> T) : nat -> T := fun a => V (a / C) (a mod C).

  (** forward.hpp:178-189: ind_taddr_[j] = j + 1.  [xq] of size n: order q only;
      otherwise all orders 0..q *)
  Fixpoint set_row (V : nat -> nat -> T) (q j : nat) (x : list T) : nat -> nat -> T :=
    match x with [] => V | v :: x' => set_row (pset V (S j) q v) q (S j) x' end.
  Definition in_rows (V : nat -> nat -> T) (n p q : nat) (xq : list T) : nat -> nat -> T :=
    if p =? q then set_row V q 0 xq
    else fun i k => if (1 <=? i) && (i <=? n) && (k <=? q) then nth ((q + 1) * (i - 1) + k) xq b0
                    else V i k.

  (** forward.hpp:97-314 *)
  Definition forward (f : adq) (q : nat) (xq : list T) : option (list T * adq) :=
    let n := d_n f in
    if negb ((length xq =? n) || (length xq =? n * (q + 1))) then None else   (* 119-122 *)
    let p := q + 1 - length xq / n in                                         (* 125 *)
    if negb ((q <=? d_ord f) || (p =? 0)) then None else                      (* 129-133 *)
    if negb ((p <=? 1) || (d_dir f =? 1)) then None else                      (* 136-141 *)
    match (if (d_cap f <=? q) || negb (d_dir f =? 1)                          (* 144-154 *)
           then capacity2 (set_ord f (if p =? 0 then 0 else q)) (Nat.max (q + 1) (d_cap f)) 1
           else Some f) with
    | None => None
    | Some f1 =>
      let C := d_cap f1 in
      let nv := r_nvar (d_rec f) in
      let V1 i k := if (i <? nv) && (p <=? k) && (k <=? q) then bnan else view1 f1 i k in   (* 164-167 *)
      let V2 := in_rows V1 n p q xq in
      match decode (r_op (d_rec f)) (r_arg (d_rec f)) 0 with
      | None => None
      | Some l =>
        match (if q =? 0 then                                                 (* 194-229 *)
                 match sweep0 (d_par f) (d_cc f) l 0 (init0 (d_rec f) (row0 V2) (d_l2v f)) with
                 | None => None
                 | Some t => Some (of0 (mkQ V2 (f_isv t) (f_idx t) (f_l2v t) (f_num t) (f_opi t) (f_skip t)) t)
                 end
               else sweep_any bnat (d_par f) (d_cc f) p q l 0
                      (init_any (d_rec f) p
                         (mkQ V2 (fun _ => false) (fun i => nth i (r_vec (d_rec f)) 0) (d_l2v f)
                              (d_num f) (d_opi f) (d_skip f)))) with
        | None => None
        | Some s =>
          let V := q_V s in
          let yq := if p =? q then map (fun a => V a q) (d_dep f)             (* 232-247 *)
                    else flat_map (fun a => map (fun k => V a k) (seq 0 (q + 1))) (d_dep f) in
          Some (yq, mkA (d_rec f) n (d_dep f) (d_par f) (flat1 C V) C (q + 1) 1
                        (q_l2v s) (d_cc f) (q_num s) (q_opi s) (q_skip s))    (* 311 *)
        end
      end
    end.

  (** ** several directions *)
  Definition viewD (f : adq) : nat -> nat -> nat -> T :=
    fun i k ell => d_tay f (tidx (d_cap f) (d_dir f) i k ell).
  Definition flatD (C R : nat) (D : nat -> nat -> nat -> T) : nat -> T :=
    fun a => let w := (C - 1) * R + 1 in
             let m := a mod w in
             if m =? 0 then D (a / w) 0 0 else D (a / w) ((m - 1) / R + 1) ((m - 1) mod R).

  (** one elementary loop for all directions (they are independent) *)
  Definition run_sub_dir (P : nat -> T) (q R : nat) (D : nat -> nat -> nat -> T) (rs : nat * sub)
    : nat -> nat -> nat -> T :=
    fun i k ell =>
      let V i k := D i k ell in
      if ell <? R then put_row V (fst rs) q (coef_dir bnat P (snd rs) (fst rs) V q) i k else D i k ell.

  (** sweep/forward_dir.hpp:98-648; load_op.hpp:307-340.  None: atomic functions *)
  Definition step_dir (P : nat -> T) (q R : nat) (l2v : nat -> nat) (i : ins)
             (D : nat -> nat -> nat -> T) : option (nat -> nat -> nat -> T) :=
    let 'mkIns o a iv := i in
    match subs o a iv with
    | Some l => Some (fold_left (run_sub_dir P q R) l D)
    | None =>
      match o with
      | LdpOp | LdvOp =>
        let y := l2v (nth 2 a 0) in
        Some (fun i k ell => if (i =? iv) && (k =? q) && (ell <? R)
                             then (if 0 <? y then D y q ell else b0) else D i k ell)
      | AFunOp | FunapOp | FunavOp | FunrpOp | FunrvOp => None
      | _ => Some D
      end
    end.
  Fixpoint sweep_dir (P : nat -> T) (q R : nat) (l2v : nat -> nat) (skip : nat -> bool) (l : list ins)
           (k : nat) (D : nat -> nat -> nat -> T) : option (nat -> nat -> nat -> T) :=
    match l with
    | [] => Some D
    | i :: l' =>
      if skip k then sweep_dir P q R l2v skip l' (S k) D
      else match step_dir P q R l2v i D with
           | None => None
           | Some D' => sweep_dir P q R l2v skip l' (S k) D'
           end
    end.

  (** forward.hpp:407-516 *)
  Definition forward_r (f : adq) (q r : nat) (xq : list T) : option (list T * adq) :=
    let n := d_n f in
    if q =? 0 then None else
    if negb (length xq =? r * n) then None else
    if negb (q <=? d_ord f) then None else
    if negb ((q =? 1) || (d_dir f =? r)) then None else
    match (if (d_cap f <=? q) || negb (d_dir f =? r)
           then capacity2 (if negb (d_dir f =? r) then set_ord f 1 else f)
                          (Nat.max (q + 1) (d_cap f)) r
           else Some f) with
    | None => None
    | Some f1 =>
      let c := d_cap f1 in
      let D0 := viewD f1 in
      let D1 i k ell := if (1 <=? i) && (i <=? n) && (k =? q) && (ell <? r)
                        then nth (r * (i - 1) + ell) xq b0 else D0 i k ell in
      match decode (r_op (d_rec f)) (r_arg (d_rec f)) 0 with
      | None => None
      | Some l =>
        match sweep_dir (d_par f) q r (d_l2v f) (d_skip f) l 0 D1 with
        | None => None
        | Some D =>
          Some (flat_map (fun a => map (fun ell => D a q ell) (seq 0 r)) (d_dep f),
                set_tay f (flatD c r D) c (q + 1) r)
        end
      end
    end.

  (** ** core/reverse.hpp:85-199 *)
  Definition reverse (f : adq) (q : nat) (w : list T) : option (list T * adq) :=
    let n := d_n f in
    let m := length (d_dep f) in
    if negb ((length w =? m) || (length w =? m * q)) then None else
    if negb (0 <? q) then None else
    if negb (q <=? d_ord f) then None else
    match (if (q =? 1) && (1 <? d_dir f) then capacity2 (set_ord f 1) (d_cap f) 1 else Some f) with
    | None => None
    | Some f1 =>
      if negb (d_dir f1 =? 1) then None else
      let p0 : nat -> nat -> T := fun _ _ => b0 in                            (* 133-136 *)
      let p1 :=                                                               (* 140-153 *)
        if length w =? m
        then fold_left (fun p i => padd (nth i (d_dep f) 0) (q - 1) (nth i w b0) p) (seq 0 m) p0
        else fold_left (fun p i => fold_left (fun p k =>
                 padd (nth i (d_dep f) 0) k (nth (i * q + k) w b0) p) (seq 0 q) p) (seq 0 m) p0 in
      match decode (r_op (d_rec f)) (r_arg (d_rec f)) 0 with
      | None => None
      | Some l =>
        let p := sweep_rev bnat (d_par f) (view1 f1) (d_l2v f) (d_skip f) (q - 1) l 0 p1 in
        let value := flat_map (fun j => map (fun k =>
                       if length w =? m then p (S j) (q - 1 - k) else p (S j) k) (seq 0 q)) (seq 0 n) in
        Some (value, f1)
      end
    end.

  (** core/new_dynamic.hpp:95-128 *)
  Definition new_dyn (f : adq) (d : list T) : adq :=
    mkA (d_rec f) (d_n f) (d_dep f) (dyn_sweep (d_rec f) d (d_par f)) (d_tay f) (d_cap f) 0 (d_dir f)
        (d_l2v f) (d_cc f) (d_num f) (d_opi f) (d_skip f).
End Drv.
Arguments adq : clear implicits.
