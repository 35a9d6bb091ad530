(** Model of ADFun::fun2val (core side of C24): from a recording to a tape of the value operator graph (VG_Model). *)
From Coq Require Import List Bool Arith.
From Verif Require Import Base_Spec Op_Model Tape_Model Tape_Proof.
From Verif Require VG_Model.
Import ListNotations.

Section F2V.
  Context {b : base}.
  Notation T := (bt b).
  (** val_graph/unary_op.hpp: the functions of the unary operators other than neg *)
  Definition un_list : list unop :=
    [Ufabs; Uacos; Uacosh; Uasin; Uasinh; Uatan; Uatanh; Ucos; Ucosh; Uerf; Uerfc; Uexp; Uexpm1; Ulog1p; Ulog; Usign; Usin; Usinh; Usqrt; Utan; Utanh].
  (** The value type of the graph is Base. [isnan], [int], [hash], [call], [rdep], [ftype] are not used on the tapes below. *)
  Definition val_base isnan int hash call rdep ftype : VG_Model.vbase T :=
    VG_Model.mkVB T bnan isnan b0
      (fun u x => match u with VG_Model.UNeg => b_un Uneg x | VG_Model.UFun k => b_un (nth k un_list Uneg) x end)
      (fun o x y => b_bin (match o with VG_Model.BAdd => Badd | VG_Model.BSub => Bsub | VG_Model.BMul => Bmul | VG_Model.BDiv => Bdiv | VG_Model.BPow => Bpow end) x y)
      b_dis
      (fun c x y => match c with VG_Model.CEq => b_cmp Ceq x y | VG_Model.CNe => b_cmp Cne x y | VG_Model.CLt => b_cmp Clt x y | VG_Model.CLe => b_cmp Cle x y | VG_Model.CNo => true end)
      int ideq hash call rdep ftype.

  (** fun2val.hpp:118-139, type_var_op *)
  Definition un_code (o : opvar) : option VG_Model.uop :=
    match o with
    | NegOp => Some VG_Model.UNeg
    | AbsOp => Some (VG_Model.UFun 0) | AcosOp => Some (VG_Model.UFun 1) | AcoshOp => Some (VG_Model.UFun 2) | AsinOp => Some (VG_Model.UFun 3) | AsinhOp => Some (VG_Model.UFun 4)
    | AtanOp => Some (VG_Model.UFun 5) | AtanhOp => Some (VG_Model.UFun 6) | CosOp => Some (VG_Model.UFun 7) | CoshOp => Some (VG_Model.UFun 8) | ErfOp => Some (VG_Model.UFun 9)
    | ErfcOp => Some (VG_Model.UFun 10) | ExpOp => Some (VG_Model.UFun 11) | Expm1Op => Some (VG_Model.UFun 12) | Log1pOp => Some (VG_Model.UFun 13) | LogOp => Some (VG_Model.UFun 14)
    | SignOp => Some (VG_Model.UFun 15) | SinOp => Some (VG_Model.UFun 16) | SinhOp => Some (VG_Model.UFun 17) | SqrtOp => Some (VG_Model.UFun 18) | TanOp => Some (VG_Model.UFun 19)
    | TanhOp => Some (VG_Model.UFun 20)
    | _ => None
    end.
  (** fun2val.hpp:143-163, 472-506: operator, is the left operand a variable, is the right one; azmul is not implemented (assertion at 475) *)
  Definition bin_code (o : opvar) : option (VG_Model.bop * bool * bool) :=
    match o with
    | AddpvOp => Some (VG_Model.BAdd, false, true) | AddvvOp => Some (VG_Model.BAdd, true, true)
    | SubpvOp => Some (VG_Model.BSub, false, true) | SubvpOp => Some (VG_Model.BSub, true, false) | SubvvOp => Some (VG_Model.BSub, true, true)
    | MulpvOp => Some (VG_Model.BMul, false, true) | MulvvOp => Some (VG_Model.BMul, true, true)
    | DivpvOp => Some (VG_Model.BDiv, false, true) | DivvpOp => Some (VG_Model.BDiv, true, false) | DivvvOp => Some (VG_Model.BDiv, true, true)
    | PowpvOp => Some (VG_Model.BPow, false, true) | PowvpOp => Some (VG_Model.BPow, true, false) | PowvvOp => Some (VG_Model.BPow, true, true)
    | _ => None
    end.
  (** fun2val.hpp:532-614 *)
  Definition cmp_code (o : opvar) : option (VG_Model.cmpop * bool * bool) :=
    match o with
    | EqppOp => Some (VG_Model.CEq, false, false) | EqpvOp => Some (VG_Model.CEq, false, true) | EqvvOp => Some (VG_Model.CEq, true, true)
    | NeppOp => Some (VG_Model.CNe, false, false) | NepvOp => Some (VG_Model.CNe, false, true) | NevvOp => Some (VG_Model.CNe, true, true)
    | LtppOp => Some (VG_Model.CLt, false, false) | LtpvOp => Some (VG_Model.CLt, false, true) | LtvpOp => Some (VG_Model.CLt, true, false) | LtvvOp => Some (VG_Model.CLt, true, true)
    | LeppOp => Some (VG_Model.CLe, false, false) | LepvOp => Some (VG_Model.CLe, false, true) | LevpOp => Some (VG_Model.CLe, true, false) | LevvOp => Some (VG_Model.CLe, true, true)
    | _ => None
    end.
  (** operators of the new tape, number of values, par2val_index and var2val_index (None is invalid_addr_t) *)
  Record fst2 := mkF2 { f2_ops : list (VG_Model.vop T); f2_nv : nat; f2_par : nat -> option nat; f2_var : nat -> option nat }.
  Definition set_opt (f : nat -> option nat) (i v : nat) : nat -> option nat := fun j => if j =? i then Some v else f j.
  (** tape.hpp record_op and the like: one operator with one result *)
  Definition rec1 (s : fst2) (o : VG_Model.vop T) : fst2 := mkF2 (f2_ops s ++ [o]) (S (f2_nv s)) (f2_par s) (f2_var s).
  Definition set_var (s : fst2) (v i : nat) : fst2 := mkF2 (f2_ops s) (f2_nv s) (f2_par s) (set_opt (f2_var s) v i).
  (** fun2val.hpp:267-276 ensure_par2val_index, or var2val_index; None: an invalid index would be used *)
  Definition f2_opd (P : nat -> T) (isv : bool) (j : nat) (s : fst2) : option (fst2 * nat) :=
    if isv then match f2_var s j with Some i => Some (s, i) | None => None end
    else match f2_par s j with
         | Some i => Some (s, i)
         | None => Some (mkF2 (f2_ops s ++ [VG_Model.VCon (P j)]) (S (f2_nv s)) (set_opt (f2_par s) j (f2_nv s)) (f2_var s), f2_nv s)
         end.
  (** fun2val.hpp:805-838: comparison, exchange of the branches *)
  Definition cexp_cmp (c : nat) : option (VG_Model.cmpop * bool) :=
    match c with
    | 0 => Some (VG_Model.CLt, false) | 1 => Some (VG_Model.CLe, false) | 2 => Some (VG_Model.CEq, false)
    | 3 => Some (VG_Model.CLt, true) | 4 => Some (VG_Model.CLe, true) | 5 => Some (VG_Model.CEq, true) | _ => None
    end.
  (** fun2val.hpp:440-897, one operator; None: not implemented, an invalid index, or not modelled here (VecAD, print, atomic functions, sums).
      The comparisons do not create the constants they use: 546-547, 555, 563. *)
  Definition f2v_ins (P : nat -> T) (s : fst2) (i : ins) : option fst2 :=
    let a := i_arg i in let a0 := nth 0 a 0 in let a1 := nth 1 a 0 in
    match un_code (i_op i) with
    | Some u => match f2_var s a0 with Some x => Some (set_var (rec1 s (VG_Model.VUn u x)) (i_var i) (f2_nv s)) | None => None end
    | None =>
    match bin_code (i_op i) with
    | Some (o, lv, rv) =>
        match f2_opd P lv a0 s with
        | None => None
        | Some (s1, x) => match f2_opd P rv a1 s1 with
                          | None => None
                          | Some (s2, y) => Some (set_var (rec1 s2 (VG_Model.VBin o x y)) (i_var i) (f2_nv s2)) end end
    | None =>
    match cmp_code (i_op i) with
    | Some (c, lv, rv) =>
        match (if lv then f2_var s a0 else f2_par s a0), (if rv then f2_var s a1 else f2_par s a1) with
        | Some x, Some y => Some (mkF2 (f2_ops s ++ [VG_Model.VComp c x y]) (f2_nv s) (f2_par s) (f2_var s))
        | _, _ => None
        end
    | None =>
    match i_op i with
    | InvOp | EndOp => Some s
    | ParOp => match f2_opd P false a0 s with Some (s1, x) => Some (set_var s1 (i_var i) x) | None => None end
    | DisOp => match f2_var s a1 with Some x => Some (set_var (rec1 s (VG_Model.VDis a0 x)) (i_var i) (f2_nv s)) | None => None end
    | CExpOp =>
        match f2_opd P (Nat.testbit a1 0) (nth 2 a 0) s with
        | None => None
        | Some (s1, l) =>
        match f2_opd P (Nat.testbit a1 1) (nth 3 a 0) s1 with
        | None => None
        | Some (s2, r) =>
        match f2_opd P (Nat.testbit a1 2) (nth 4 a 0) s2 with
        | None => None
        | Some (s3, t) =>
        match f2_opd P (Nat.testbit a1 3) (nth 5 a 0) s3 with
        | None => None
        | Some (s4, f) =>
          match cexp_cmp a0 with
          | Some (c, sw) => Some (set_var (rec1 s4 (if sw then VG_Model.VCexp c l r f t else VG_Model.VCexp c l r t f)) (i_var i) (f2_nv s4))
          | None => None
          end end end end end
    | _ => None
    end end end end.
  Fixpoint f2v_loop (P : nat -> T) (s : fst2) (l : list ins) : option fst2 :=
    match l with [] => Some s | i :: l' => match f2v_ins P s i with Some s' => f2v_loop P s' l' | None => None end end.
  Fixpoint opts {X} (l : list (option X)) : option (list X) :=
    match l with [] => Some [] | Some x :: l' => match opts l' with Some r => Some (x :: r) | None => None end | None :: _ => None end.
  (** fun2val.hpp:196-208, 251-255, 427-431, 899-903; [nd] independent dynamic parameters and no others (the code for the operators of dynamic parameters, 283-423, is not modelled).
      set_ind (tape.hpp) records the constant nan after the independents. *)
  Definition fun2val (nd : nat) (f : adfun b) : option (VG_Model.vtape T) :=
    let r := g_rec f in
    let n := g_n f in
    match skipn nd (dentries r), decode (r_op r) (r_arg r) 0 with
    | [], Some (_ :: l) =>
      let s0 := mkF2 [VG_Model.VCon bnan] (S (nd + n)) (fun j => if (0 <? j) && (j <=? nd) then Some (j - 1) else None)
                     (fun v => if (0 <? v) && (v <=? n) then Some (nd + (v - 1)) else None) in
      match f2v_loop (g_par f) s0 l with
      | Some s => match opts (map (f2_var s) (g_dep f)) with
                  | Some dep => Some (VG_Model.mkVT (nd + n) (f2_ops s) dep)
                  | None => None end
      | None => None
      end
    | _, _ => None
    end.
End F2V.
