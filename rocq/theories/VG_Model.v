(** Model of local/val_graph (C23): the tape of the value operator graph, its evaluation, and the passes rev_depend, dead_code, renumber, compress,
    fold_con and summation.
    Simplification: an operator is an element of [vop] with its arguments, not a position in var_arg_ / con_vec_ / str_vec_ / vec_initial_
    (op_iterator.hpp, which finds the arguments of operator i, is not modelled; a constant, a string token and the initial vector are kept in the operator). *)
From Coq Require Import List Bool Arith.
Import ListNotations.

(** val_type.hpp:52-110 *)
Inductive cmpop := CEq | CNe | CLt | CLe | CNo.
Inductive uop := UNeg | UFun (k : nat).
Inductive bop := BAdd | BSub | BMul | BDiv | BPow.

(** The type Value: arithmetic, discrete functions and atomic functions (value callback, and the callbacks used by the passes) *)
Record vbase (A : Type) := mkVB {
  v_nan : A; v_isnan : A -> bool; v_zero : A;
  v_un : uop -> A -> A; v_bin : bop -> A -> A -> A; v_dis : nat -> A -> A;
  v_cmp : cmpop -> A -> A -> bool; v_int : A -> nat;
  v_ideq : A -> A -> bool;                                        (* IdenticalEqualCon *)
  v_hash : A -> nat;                                              (* op_hash_table.hpp:100-117 *)
  v_call : nat -> nat -> nat -> list A -> list A;                 (* atomic_index call_id n_res x *)
  v_rdep : nat -> nat -> list A -> list bool -> list bool -> list bool;   (* atomic_index call_id con_x (is constant) depend_y, gives depend_x *)
  v_ftype : nat -> nat -> list A -> list bool -> nat -> list bool }.      (* atomic_index call_id con_x (is constant) n_res, gives: is y constant *)
Arguments v_nan {A}. Arguments v_isnan {A}. Arguments v_zero {A}. Arguments v_un {A}. Arguments v_bin {A}. Arguments v_dis {A}. Arguments v_cmp {A}.
Arguments v_int {A}. Arguments v_ideq {A}. Arguments v_hash {A}. Arguments v_call {A}. Arguments v_rdep {A}. Arguments v_ftype {A}.

Section VG.
  Context {A : Type} (B : vbase A).

  Inductive vop :=
  | VCon (c : A)                                       (* con_op.hpp *)
  | VUn (u : uop) (x : nat)                            (* unary_op.hpp *)
  | VBin (b : bop) (x y : nat)                         (* binary_op.hpp *)
  | VDis (d x : nat)                                   (* dis_op.hpp *)
  | VCall (atom id nres : nat) (xs : list nat)         (* call_op.hpp *)
  | VCsum (add sub : list nat)                         (* csum_op.hpp *)
  | VCexp (c : cmpop) (l r t f : nat)                  (* cexp_op.hpp *)
  | VComp (c : cmpop) (l r : nat)                      (* comp_op.hpp *)
  | VPri (before after flag value : nat)               (* pri_op.hpp *)
  | VVec (w : nat) (initial : list nat)                (* vector_op.hpp *)
  | VLoad (w i : nat)
  | VStore (w i v : nat).
  (** tape.hpp:192-214 *)
  Record vtape := mkVT { t_nind : nat; t_ops : list vop; t_dep : list nat }.

  (** n_res() of each operator *)
  Definition n_res (o : vop) : nat :=
    match o with VCall _ _ n _ => n | VComp _ _ _ | VPri _ _ _ _ | VVec _ _ | VStore _ _ _ => 0 | _ => 1 end.
  (** the arguments between n_before() and n_arg() - n_after() *)
  Definition op_vals (o : vop) : list nat :=
    match o with
    | VCon _ | VVec _ _ => [] | VUn _ x | VDis _ x => [x] | VBin _ x y => [x; y] | VCall _ _ _ xs => xs | VCsum a s => a ++ s
    | VCexp _ l r t f => [l; r; t; f] | VComp _ l r => [l; r] | VPri _ _ f v => [f; v] | VLoad _ i => [i] | VStore _ i v => [i; v]
    end.
  Definition map_vals (g : nat -> nat) (o : vop) : vop :=
    match o with
    | VCon _ | VVec _ _ => o | VUn u x => VUn u (g x) | VDis d x => VDis d (g x) | VBin b x y => VBin b (g x) (g y)
    | VCall a i n xs => VCall a i n (map g xs) | VCsum a s => VCsum (map g a) (map g s)
    | VCexp c l r t f => VCexp c (g l) (g r) (g t) (g f) | VComp c l r => VComp c (g l) (g r) | VPri b a f v => VPri b a (g f) (g v)
    | VLoad w i => VLoad w (g i) | VStore w i v => VStore w (g i) (g v)
    end.
  Definition n_val (t : vtape) : nat := t_nind t + list_sum (map n_res (t_ops t)).
  Definition n_op (t : vtape) : nat := length (t_ops t).

  (** *** evaluation *)
  (** values so far, dynamic vectors (the last element is the flag, vector_op.hpp:180-185), compare_false, what was printed *)
  Record vst := mkVS { s_val : list A; s_vec : list (list nat); s_cf : nat; s_out : list (nat * nat * A) }.
  Fixpoint rds (l : list nat) (vs : list A) : option (list A) :=
    match l with
    | [] => Some []
    | i :: l' => match nth_error vs i, rds l' vs with Some a, Some r => Some (a :: r) | _, _ => None end
    end.
  Fixpoint upd {X} (i : nat) (x : X) (l : list X) : list X :=
    match i, l with _, [] => [] | 0, _ :: l' => x :: l' | S i', y :: l' => y :: upd i' x l' end.
  Definition vsum (xs : list A) (s : A) : A := fold_left (v_bin B BAdd) xs s.
  Definition vsub (xs : list A) (s : A) : A := fold_left (v_bin B BSub) xs s.
  (** results of an operator that does not use dynamic vectors:
      con_op.hpp:130-131, unary_op.hpp:34-35, binary_op.hpp:37-39, dis_op.hpp:140-146, call_op.hpp:189-229, csum_op.hpp:189-201, cexp_op.hpp:132-171 *)
  Definition sem (o : vop) (xs : list A) : option (list A) :=
    match o, xs with
    | VCon c, _ => Some [c]
    | VUn u _, [x] => Some [v_un B u x]
    | VBin b _ _, [x; y] => Some [v_bin B b x y]
    | VDis d _, [x] => Some [v_dis B d x]
    | VCall a i n _, _ => Some (v_call B a i n xs)
    | VCsum add _, _ => Some [vsub (skipn (length add) xs) (vsum (firstn (length add) xs) (v_zero B))]
    | VCexp c _ _ _ _, [l; r; t; f] => Some [if v_cmp B c l r then t else f]
    | _, _ => None
    end.
  Definition put_val (s : vst) (r : list A) : vst := mkVS (s_val s ++ r) (s_vec s) (s_cf s) (s_out s).
  Definition put_vec (s : vst) (v : list (list nat)) : vst := mkVS (s_val s) v (s_cf s) (s_out s).
  (** None: a value is used that is not there yet, or an assertion fails *)
  Definition ev_op (n : nat) (s : vst) (o : vop) : option vst :=
    match o with
    | VComp c _ _ =>                                                             (* comp_op.hpp:133-184 *)
      match rds (op_vals o) (s_val s) with
      | Some [l; r] => Some (if match c with CNo => true | _ => v_cmp B c l r end then s else mkVS (s_val s) (s_vec s) (S (s_cf s)) (s_out s))
      | _ => None
      end
    | VPri b a f _ =>                                                            (* pri_op.hpp:158-181 *)
      if f =? n then Some s else
      match rds (op_vals o) (s_val s) with
      | Some [fl; v] => Some (if v_cmp B CLe fl (v_zero B) then mkVS (s_val s) (s_vec s) (s_cf s) (s_out s ++ [(b, a, v)]) else s)
      | _ => None
      end
    | VVec w initial =>                                                          (* vector_op.hpp:163-185 *)
      if forallb (fun i => i <? length (s_val s)) initial && (length (s_vec s) =? w) && (0 <? n)
      then Some (put_vec s (s_vec s ++ [initial ++ [0]])) else None
    | VLoad w i =>                                                               (* vector_op.hpp:315-341 *)
      match nth_error (s_vec s) w, nth_error (s_val s) i with
      | Some vec, Some idx =>
        if (last vec 0 =? n) || v_isnan B idx
        then match nth_error (s_val s) n with Some a => Some (put_val s [a]) | None => None end
        else if S (v_int B idx) <? length vec
             then match nth_error (s_val s) (nth (v_int B idx) vec 0) with Some a => Some (put_val s [a]) | None => None end
             else None
      | _, _ => None
      end
    | VStore w i v =>                                                            (* vector_op.hpp:479-502 *)
      match nth_error (s_vec s) w, nth_error (s_val s) i, nth_error (s_val s) v with
      | Some vec, Some idx, Some _ =>
        if v_isnan B idx then Some (put_vec s (upd w (upd (length vec - 1) n vec) (s_vec s)))
        else if S (v_int B idx) <? length vec
             then Some (put_vec s (upd w (upd (v_int B idx) v vec) (s_vec s)))
             else None
      | _, _, _ => None
      end
    | _ =>
      match rds (op_vals o) (s_val s) with
      | Some xs => match sem o xs with Some r => Some (put_val s r) | None => None end
      | None => None
      end
    end.
  Fixpoint ev_ops (n : nat) (s : vst) (l : list vop) : option vst :=
    match l with [] => Some s | o :: l' => match ev_op n s o with Some s' => ev_ops n s' l' | None => None end end.
  (** tape.hpp:301-367: the values, and the number of comparisons that are false *)
  Definition eval (t : vtape) (x : list A) : option vst := ev_ops (t_nind t) (mkVS x [] 0 []) (t_ops t).
  (** what the caller sees: dependent values, compare_false, printed *)
  Definition result (t : vtape) (x : list A) : option (list A * nat * list (nat * nat * A)) :=
    match eval t x with
    | Some s => match rds (t_dep t) (s_val s) with Some y => Some (y, s_cf s, s_out s) | None => None end
    | None => None
    end.

  (** *** rev_depend.hpp:84-242 *)
  (** operator index, first result index, operator *)
  Fixpoint pos (i r : nat) (l : list vop) : list (nat * nat * vop) :=
    match l with [] => [] | o :: l' => (i, r, o) :: pos (S i) (r + n_res o) l' end.
  (** 131-137 *)
  Definition inc (nop : nat) (use : list nat) (v i : nat) : list nat := upd v (if nth v use 0 =? 0 then i else nop) use.
  Definition used (use : list nat) (v : nat) : bool := negb (nth v use 0 =? 0).
  Definition inc_if (nop i : nat) (use : list nat) (kd : nat * bool) : list nat := if snd kd then inc nop use (fst kd) i else use.
  Definition ty_con (con : list A) (xs : list nat) : list bool := map (fun v => negb (v_isnan B (nth v con (v_nan B)))) xs.
  (** 144-235; [con]: val_index2con *)
  Definition rd_op (nop : nat) (con : list A) (e : nat * nat * vop) (s : list nat * list nat) : list nat * list nat :=
    let '(i, r, o) := e in let (use, lastl) := s in
    match o with
    | VComp _ _ _ | VPri _ _ _ _ | VVec _ _ | VStore _ _ _ => s
    | VCall a id n xs =>                                                         (* 193-234 *)
      let dy := map (used use) (seq r n) in
      let dx := v_rdep B a id (map (fun v => nth v con (v_nan B)) xs) (ty_con con xs) dy in
      (fold_left (inc_if nop i) (combine xs dx) use, lastl)
    | VBin _ x y =>                                                              (* 170-176 *)
      if used use r then
        let use1 := inc nop use x i in
        ((if x =? y then use1 else inc nop use1 y i), lastl)
      else s
    | VLoad w v =>                                                               (* 177-184 *)
      if used use r then (inc nop use v i, if nth w lastl 0 =? 0 then upd w i lastl else lastl) else s
    | _ => if used use r then (fold_left (fun u v => inc nop u v i) (op_vals o) use, lastl) else s
    end.
  Definition n_vec (t : vtape) : nat := length (filter (fun o => match o with VVec _ _ => true | _ => false end) (t_ops t)).
  Definition rev_depend (t : vtape) : option (list nat * list nat) :=
    match eval t (repeat (v_nan B) (t_nind t)) with                              (* 107-112 *)
    | None => None
    | Some s =>
      let use0 := fold_left (fun u d => upd d (n_op t) u) (t_dep t) (repeat 0 (n_val t)) in   (* 116-128 *)
      Some (fold_right (rd_op (n_op t) (s_val s)) (use0, repeat 0 (n_vec t)) (pos 0 (t_nind t) (t_ops t)))
    end.

  (** *** record_new.hpp:88-256 and dead_code.hpp:95-233 *)
  Record dst := mkD { d_ops : list vop; d_nval : nat; d_nvi : list nat; d_nw : list nat; d_nvec : nat; d_use : list bool }.
  Fixpoint set_range (i v k : nat) (l : list nat) : list nat :=
    match k with 0 => l | S k' => set_range (S i) (S v) k' (upd i v l) end.
  (** the operator for the new tape *)
  Definition new_op (n : nat) (use : list nat) (s : dst) (o : vop) : vop :=
    let g v := nth v (d_nvi s) 0 in
    match o with
    | VCall a i k xs => VCall a i k (map (fun v => if used use v then g v else n) xs)              (* 224-252 *)
    | VVec _ initial => VVec (d_nvec s) initial                                                     (* 181-189 *)
    | VLoad w i => VLoad (nth w (d_nw s) 0) (g i)                                                   (* 145-152 *)
    | VStore w i v => VStore (nth w (d_nw s) 0) (g i) (g v)                                         (* 167-177 *)
    | _ => map_vals g o
    end.
  (** record_new, and dead_code.hpp:204-211; [r]: the old result index *)
  Definition put_new (n : nat) (use : list nat) (s : dst) (r : nat) (o : vop) : dst :=
    let skip := match o with VCon c => v_isnan B c | _ => false end in                              (* record.hpp:223-224 *)
    let new_r := if skip then n else d_nval s in
    let new_r' := match n_res o with 0 => 0 | _ => new_r end in
    mkD (if skip then d_ops s else d_ops s ++ [new_op n use s o])
        (if skip then d_nval s else d_nval s + n_res o)
        (set_range r new_r' (n_res o) (d_nvi s))
        (match o with VVec w _ => upd w (d_nvec s) (d_nw s) | _ => d_nw s end)
        (match o with VVec _ _ => S (d_nvec s) | _ => d_nvec s end)
        (d_use s ++ map (used use) (seq r (n_res o))).
  (** dead_code.hpp:172-189 *)
  Definition need (n : nat) (kc kp : bool) (use lastl : list nat) (e : nat * nat * vop) : bool :=
    let '(i, r, o) := e in
    match o with
    | VVec w _ | VStore w _ _ => i <? nth w lastl 0
    | VPri _ _ f _ => kp && negb (f =? n)
    | VComp c _ _ => kc && match c with CNo => false | _ => true end
    | _ => existsb (used use) (seq r (n_res o))
    end.
  Definition dc_op (n : nat) (kc kp : bool) (use lastl : list nat) (s : dst) (e : nat * nat * vop) : dst :=
    if need n kc kp use lastl e then put_new n use s (snd (fst e)) (snd e) else s.
  (** [kc], [kp]: options keep_compare, keep_print. Result: the new tape and new_use_val *)
  Definition dead_code (kc kp : bool) (t : vtape) : option (vtape * list bool) :=
    match rev_depend t with
    | None => None
    | Some (use, lastl) =>
      let n := t_nind t in
      let nv := n_val t in
      let s0 := mkD [VCon (v_nan B)] (n + 1) (seq 0 (n + 1) ++ repeat nv (nv - (n + 1))) (repeat (n_vec t) (n_vec t)) 0 (repeat true (n + 1)) in   (* 118-148 *)
      let s := fold_left (dc_op n kc kp use lastl) (tl (pos 0 n (t_ops t))) s0 in                   (* 157-213 *)
      Some (mkVT n (d_ops s) (map (fun d => nth d (d_nvi s) 0) (t_dep t)), d_use s)                 (* 216-222 *)
    end.

  (** *** op_hash_table.hpp *)
  Definition cmp_num (c : cmpop) : nat := match c with CEq => 0 | CNe => 1 | CLt => 2 | CLe => 3 | CNo => 4 end.
  Definition op_num (o : vop) : nat :=
    match o with
    | VCon _ => 0 | VUn UNeg _ => 1 | VUn (UFun k) _ => 13 + k | VBin BAdd _ _ => 2 | VBin BSub _ _ => 3 | VBin BMul _ _ => 4 | VBin BDiv _ _ => 5 | VBin BPow _ _ => 6
    | VDis _ _ => 7 | VCall _ _ _ _ => 8 | VCsum _ _ => 9 | VCexp _ _ _ _ _ => 10 | VComp _ _ _ => 11 | VPri _ _ _ _ => 12
    | VVec _ _ => 0 | VLoad _ _ => 1 | VStore _ _ _ => 2
    end.
  Definition is_vecop (o : vop) : bool := match o with VVec _ _ | VLoad _ _ | VStore _ _ _ => true | _ => false end.
  (** the arguments before and after the values *)
  Definition op_other (o : vop) : list nat :=
    match o with
    | VDis d _ => [d] | VCall a i n xs => [length xs + 5; n; a; i; length xs + 5] | VCsum a s => [length a; length s; 3 + length a + length s]
    | VCexp c _ _ _ _ | VComp c _ _ => [cmp_num c] | VPri b a _ _ => [b; a] | VVec w _ | VLoad w _ | VStore w _ _ => [w] | _ => []
    end.
  (** 135-171 *)
  Definition hash_code (nh : nat) (nvi : list nat) (o : vop) : nat :=
    (match o with VCon c => v_hash B c | _ => list_sum (op_other o) + list_sum (map (fun v => nth v nvi 0) (op_vals o)) end) mod nh.
  Fixpoint leqb (l l' : list nat) : bool :=
    match l, l' with [], [] => true | x :: l1, y :: l2 => (x =? y) && leqb l1 l2 | _, _ => false end.
  (** 250-284 *)
  Definition same_op (nvi : list nat) (o oj : vop) : bool :=
    let g := map (fun v => nth v nvi 0) in
    (op_num o =? op_num oj) && Bool.eqb (is_vecop o) (is_vecop oj) &&
    match o, oj with
    | VCon c, VCon cj => v_ideq B c cj
    | _, _ => leqb (op_other o) (op_other oj) && leqb (g (op_vals o)) (g (op_vals oj)) ||
              match o, oj with
              | VBin BAdd _ _, VBin BAdd _ _ | VBin BMul _ _, VBin BMul _ _ => leqb (g (op_vals o)) (rev (g (op_vals oj)))
              | _, _ => false
              end
    end.
  Definition tab := list (list (nat * nat * vop)).       (* for each code: operators, with their first result *)
  (** 210-293: None if this operator is put in the table, else the operator that it matches *)
  Definition match_op (nh : nat) (nvi : list nat) (first : nat * nat * vop) (T : tab) (e : nat * nat * vop) : option (nat * nat * vop) * tab :=
    let o := snd e in
    if match o with VCon c => v_isnan B c | _ => false end then (Some first, T) else              (* 227-234 *)
    let code := hash_code nh nvi o in
    match find (fun ej => same_op nvi o (snd ej)) (nth code T []) with
    | Some ej => (Some ej, T)
    | None => (None, upd code (nth code T [] ++ [e]) T)
    end.

  (** *** renumber.hpp:70-174 *)
  (** 104-137; None: assertion at 130 *)
  Fixpoint rn_ops (n nh : nat) (first : nat * nat * vop) (nvi : list nat) (T : tab) (l : list (nat * nat * vop)) : option (list nat * list vop) :=
    match l with
    | [] => Some (nvi, [])
    | e :: l' =>
      let '(i, r, o) := e in
      match match_op nh nvi first T e with
      | (None, T') => match rn_ops n nh first nvi T' l' with Some (v, os) => Some (v, o :: os) | None => None end
      | (Some (j, rj, _), T') =>
        if j =? i then match rn_ops n nh first nvi T' l' with Some (v, os) => Some (v, o :: os) | None => None end else
        match o with
        | VPri b a _ v => match rn_ops n nh first nvi T' l' with Some (v', os) => Some (v', VPri b a n v :: os) | None => None end       (* 126-127 *)
        | VComp _ x y => match rn_ops n nh first nvi T' l' with Some (v', os) => Some (v', VComp CNo x y :: os) | None => None end       (* 131 *)
        | VVec _ _ | VStore _ _ _ => None
        | _ => match rn_ops n nh first (set_range r rj (n_res o) nvi) T' l' with Some (v, os) => Some (v, o :: os) | None => None end    (* 134-135 *)
        end
      end
    end.
  Definition renumber (t : vtape) : option vtape :=
    let n := t_nind t in
    let nh := 1 + n_val t / 2 in
    match rn_ops n nh (0, n, VCon (v_nan B)) (seq 0 (n_val t)) (repeat [] nh) (pos 0 n (t_ops t)) with
    | None => None
    | Some (nvi, os) => let g v := nth v nvi 0 in Some (mkVT n (map (map_vals g) os) (map g (t_dep t)))      (* 140-161 *)
    end.

  (** *** compress.hpp:76-234 *)
  Definition cp_op (n : nat) (kc kp : bool) (use lastl : list nat) (nh : nat) (sT : dst * tab) (e : nat * nat * vop) : dst * tab :=
    let (s, T) := sT in
    let '(i, r, o) := e in
    let use_op := match o with                                                                       (* 158-173 *)
                  | VVec w _ | VStore w _ _ => i <? nth w lastl 0 | VPri _ _ _ _ => kp | VComp _ _ _ => kc
                  | _ => existsb (used use) (seq r (n_res o)) end in
    if use_op then
      match match_op nh (d_nvi s) (0, n, VCon (v_nan B)) T e with
      | (Some (_, rj, _), T') => (mkD (d_ops s) (d_nval s) (set_range r rj (n_res o) (d_nvi s)) (d_nw s) (d_nvec s) (d_use s), T')     (* 186-188 *)
      | (None, T') => (put_new n use s r o, T')                                                      (* 192-211 *)
      end
    else (s, T).
  Definition compress (kc kp : bool) (t : vtape) : option vtape :=
    match rev_depend t with
    | None => None
    | Some (use, lastl) =>
      let n := t_nind t in
      let nv := n_val t in
      let nh := 1 + nv / 2 in
      let s0 := mkD [VCon (v_nan B)] (n + 1) (seq 0 (n + 1) ++ repeat nv (nv - (n + 1))) (repeat (n_vec t) (n_vec t)) 0 (repeat true (n + 1)) in
      let s := fst (fold_left (cp_op n kc kp use lastl nh) (tl (pos 0 n (t_ops t))) (s0, repeat [] nh)) in
      Some (mkVT n (d_ops s) (map (fun d => nth d (d_nvi s) 0) (t_dep t)))
    end.

  (** *** fold_con.hpp:75-261 *)
  Record fst_ := mkF { f_ops : list vop; f_nval : nat; f_new : list nat; f_con : list bool }.   (* new tape, its n_val, old2new_index, is_constant *)
  (** record.hpp:216-243: new index and tape *)
  Definition f_put_con (n : nat) (s : fst_) (c : A) : nat * fst_ :=
    if v_isnan B c then (n, s) else (f_nval s, mkF (f_ops s ++ [VCon c]) (S (f_nval s)) (f_new s) (f_con s)).
  Definition f_push (s : fst_) (v : nat) (k : bool) : fst_ := mkF (f_ops s) (f_nval s) (f_new s ++ [v]) (f_con s ++ [k]).
  (** 230-241; [r]: old result index, [q]: new result index *)
  Fixpoint f_res (n : nat) (con : list A) (s : fst_) (r q : nat) (ty : list bool) : fst_ :=
    match ty with
    | [] => s
    | true :: ty' => let (v, s1) := f_put_con n s (nth r con (v_nan B)) in f_res n con (f_push s1 v true) (S r) (S q) ty'
    | false :: ty' => f_res n con (f_push s q false) (S r) (S q) ty'
    end.
  (** 125-245; None: 174 *)
  Definition fc_op (n : nat) (con : list A) (s : fst_) (e : nat * nat * vop) : option fst_ :=
    let '(_, r, o) := e in
    let g v := nth v (f_new s) 0 in
    match o with
    | VComp _ _ _ | VPri _ _ _ _ | VVec _ _ | VStore _ _ _ => None
    | VCon c => let (v, s1) := f_put_con n s (nth r con (v_nan B)) in Some (f_push s1 v true)        (* 180-187 *)
    | VCall a id k xs =>
      if k =? 1 then                                                                                 (* 144-169 *)
        if forallb (fun v => nth v (f_con s) false) xs
        then let (v, s1) := f_put_con n s (nth r con (v_nan B)) in Some (f_push s1 v true)
        else Some (f_push (mkF (f_ops s ++ [map_vals g o]) (f_nval s + 1) (f_new s) (f_con s)) (f_nval s) false)
      else                                                                                           (* 190-243 *)
        let ty := v_ftype B a id (map (fun v => nth v con (v_nan B)) xs) (map (fun v => nth v (f_con s) false) xs) k in
        let s1 := mkF (f_ops s ++ [map_vals g o]) (f_nval s + k) (f_new s) (f_con s) in
        Some (f_res n con s1 r (f_nval s) ty)
    | _ =>
      if forallb (fun v => nth v (f_con s) false) (op_vals o)
      then let (v, s1) := f_put_con n s (nth r con (v_nan B)) in Some (f_push s1 v true)
      else Some (f_push (mkF (f_ops s ++ [map_vals g o]) (f_nval s + 1) (f_new s) (f_con s)) (f_nval s) false)
    end.
  Fixpoint fc_ops (n : nat) (con : list A) (s : fst_) (l : list (nat * nat * vop)) : option fst_ :=
    match l with [] => Some s | e :: l' => match fc_op n con s e with Some s' => fc_ops n con s' l' | None => None end end.
  Definition fold_con (t : vtape) : option vtape :=
    let n := t_nind t in
    match eval t (repeat (v_nan B) n) with
    | None => None
    | Some s =>
      let s0 := mkF [VCon (v_nan B)] (n + 1) (seq 0 (n + 1)) (repeat false n ++ [true]) in
      match fc_ops n (s_val s) s0 (tl (pos 0 n (t_ops t))) with
      | None => None
      | Some s' => Some (mkVT n (f_ops s') (map (fun d => nth d (f_new s') 0) (t_dep t)))
      end
    end.

  (** *** summation.hpp *)
  (** 73-80 *)
  Record csum := mkC { c_fd : bool; c_sd : bool; c_add : list nat; c_sub : list nat }.
  Definition csum0 : csum := mkC false false [] [].
  Definition is_sum (o : vop) : bool := match o with VUn UNeg _ | VBin BAdd _ _ | VBin BSub _ _ => true | _ => false end.
  Definition cmap := nat -> option csum.
  Definition cset (m : cmap) (j : nat) (c : option csum) : cmap := fun k => if k =? j then c else m k.
  (** 266-302 *)
  Definition finish (o : vop) (c : csum) : csum :=
    match o with
    | VBin BAdd x y => mkC true true (c_add c ++ (if c_fd c then [] else [x]) ++ (if c_sd c then [] else [y])) (c_sub c)
    | VBin BSub x y => mkC true true (c_add c ++ (if c_fd c then [] else [x])) (c_sub c ++ (if c_sd c then [] else [y]))
    | _ => mkC true true (c_add c) (c_sub c)
    end.
  (** 335-364 *)
  Definition start (o : vop) : csum :=
    match o with
    | VUn UNeg x => mkC false false [] [x]
    | VBin BAdd x y => mkC false false [x; y] []
    | VBin BSub x y => if x =? y then csum0 else mkC false false [x] [y]
    | _ => csum0
    end.
  (** 367-436: the terms of i, whose result is [r], go to the operator [oj] *)
  Definition splice (r : nat) (ci : csum) (oj : vop) (cj : csum) : csum :=
    let x := match oj with VBin _ x _ => x | _ => 0 end in
    let y := match oj with VBin _ _ y => y | _ => 0 end in
    let binary := match oj with VBin _ _ _ => true | _ => false end in
    let second := binary && (y =? r) in
    let equal := binary && (y =? x) in
    let (a, s) :=
      match oj with
      | VUn UNeg _ => (c_add cj ++ c_sub ci, c_sub cj ++ c_add ci)
      | VBin BAdd _ _ => if equal then (c_add cj ++ c_add ci ++ c_add ci, c_sub cj ++ c_sub ci ++ c_sub ci)
                         else (c_add cj ++ c_add ci, c_sub cj ++ c_sub ci)
      | VBin BSub _ _ =>
        if second then if equal then (c_add cj, c_sub cj) else (c_add cj ++ c_sub ci, c_sub cj ++ c_add ci)
        else if equal then (c_add cj ++ c_add ci ++ c_add ci, c_sub cj ++ c_sub ci ++ c_sub ci)
        else (c_add cj ++ c_add ci, c_sub cj ++ c_sub ci)
      | _ => (c_add cj, c_sub cj)
      end in
    mkC (if equal then true else if second then c_fd cj else true) (if equal then true else if second then true else c_sd cj) a s.
  (** 226-440 *)
  Definition sm_op (nop : nat) (use : list nat) (s : list vop * cmap) (e : nat * nat * vop) : list vop * cmap :=
    let (ops, m) := s in
    let '(i, r, o) := e in
    if is_sum o && used use r then
      let mi := match m i with Some c => Some (finish o c) | None => None end in
      let m1 := cset m i mi in
      let j := nth r use 0 in
      let replace := match mi with Some c => (upd i (VCsum (c_add c) (c_sub c)) ops, cset m1 i None) | None => (ops, m1) end in
      if j =? nop then replace                                                                       (* 304-311 *)
      else
        let oj := nth j ops (VCon (v_zero B)) in
        if is_sum oj then                                                                            (* 331-437 *)
          let ci := match mi with Some c => c | None => start o end in
          let cj := match m1 j with Some c => c | None => csum0 end in
          (ops, cset (cset m1 i (Some ci)) j (Some (splice r ci oj cj)))
        else replace                                                                                 (* 324-330 *)
    else (ops, m).
  Definition summation (t : vtape) : option vtape :=
    match rev_depend t with
    | None => None
    | Some (use, _) =>
      Some (mkVT (t_nind t) (fst (fold_left (sm_op (n_op t) use) (tl (pos 0 (t_nind t) (t_ops t))) (@pair (list vop) cmap (t_ops t) (fun _ => None)))) (t_dep t))
    end.

  (** *** val_optimize.hpp:83-100 *)
  Definition val_optimize (cumulative kc kp : bool) (t : vtape) : option (vtape * list bool) :=
    match renumber t with
    | None => None
    | Some t1 => match (if cumulative then summation t1 else Some t1) with None => None | Some t2 => dead_code kc kp t2 end
    end.
End VG.
Arguments vop : clear implicits.
Arguments vtape : clear implicits.
Arguments vst : clear implicits.
