(** Model of ADFun::to_graph (core/graph/to_graph.hpp) and ADFun::from_graph (core/graph/from_graph.hpp) (C25).
    A graph is the record of Graph_Spec: operator_vec and operator_arg of cpp_graph are kept as a list of operator usages, with the name of a discrete function
    instead of an index in the graph's list of names.  Atomic functions and PrintFor (PriOp, print_graph_op) are not modelled.
    None: an operator that is not in a switch, an index that is out of range or another error (assertions on). *)
From Coq Require Import String List Bool Arith.
From Verif Require Import Base_Spec Op_Model Tape_Spec Tape_Model Tape_Proof Graph_Spec.
Import ListNotations.

Section Graph.
  Context {b : base}.
  Notation T := (bt b).
  (** discrete<Base>::name(k) for the functions that are defined *)
  Variable reg : list string.

  (** ** to_graph *)
  (** 186-320: unary and binary dynamic parameter operators *)
  Definition dyn_gop (o : opdyn) : option gop :=
    match o with
    | abs_dyn | fabs_dyn => Some (Gun Uabs) | acosh_dyn => Some (Gun Uacosh) | asinh_dyn => Some (Gun Uasinh) | atanh_dyn => Some (Gun Uatanh)
    | erf_dyn => Some (Gun Uerf) | erfc_dyn => Some (Gun Uerfc) | expm1_dyn => Some (Gun Uexpm1) | log1p_dyn => Some (Gun Ulog1p)
    | acos_dyn => Some (Gun Uacos) | asin_dyn => Some (Gun Uasin) | atan_dyn => Some (Gun Uatan) | cosh_dyn => Some (Gun Ucosh)
    | cos_dyn => Some (Gun Ucos) | exp_dyn => Some (Gun Uexp) | log_dyn => Some (Gun Ulog) | neg_dyn => Some (Gun Uneg)
    | sign_dyn => Some (Gun Usign) | sinh_dyn => Some (Gun Usinh) | sin_dyn => Some (Gun Usin) | sqrt_dyn => Some (Gun Usqrt)
    | tanh_dyn => Some (Gun Utanh) | tan_dyn => Some (Gun Utan)
    | add_dyn => Some (Gbin Badd) | div_dyn => Some (Gbin Bdiv) | mul_dyn => Some (Gbin Bmul) | pow_dyn => Some (Gbin Bpow)
    | sub_dyn => Some (Gbin Bsub) | zmul_dyn => Some (Gbin Bazmul)
    | cond_exp_dyn | dis_dyn | ind_dyn => None
    end.
  (** 413-444, 1158-1189: the operator, and whether if_true and if_false are exchanged; CompareOp: 0 Lt, 1 Le, 2 Eq, 3 Ge, 4 Gt; 5 Ne is not
      modelled: there is no conditional expression with Ne, and CondExpOp has no case for it *)
  Definition cexp_gop (cop : nat) : option (gcexp * bool) :=
    match cop with
    | 0 => Some (GLt, false) | 1 => Some (GLe, false) | 2 => Some (GEq, false) | 3 => Some (GLt, true) | 4 => Some (GLe, true)
    | _ => None
    end.
  Definition cexp_use (cop left right if_true if_false : nat) : option gusage :=
    match cexp_gop cop with
    | Some (c, s) => Some (mkUse (Gcexp c) (if s then [left; right; if_false; if_true] else [left; right; if_true; if_false]))
    | None => None
    end.
  (** 329-346, 1016-1033 *)
  Definition dis_use (k node : nat) : option gusage :=
    match nth_error reg k with Some s => Some (mkUse (Gdis s) [node]) | None => None end.
  (** 499-655 and 656-793: operators with a fixed number of arguments; [is_var] *)
  Definition fix_gop (o : opvar) : option (gop * list bool) :=
    match o with
    | AbsOp => Some (Gun Uabs, [true]) | AcoshOp => Some (Gun Uacosh, [true]) | AsinhOp => Some (Gun Uasinh, [true]) | AtanhOp => Some (Gun Uatanh, [true])
    | ErfOp => Some (Gun Uerf, [true]) | ErfcOp => Some (Gun Uerfc, [true]) | Expm1Op => Some (Gun Uexpm1, [true]) | Log1pOp => Some (Gun Ulog1p, [true])
    | AcosOp => Some (Gun Uacos, [true]) | AsinOp => Some (Gun Uasin, [true]) | AtanOp => Some (Gun Uatan, [true]) | CoshOp => Some (Gun Ucosh, [true])
    | CosOp => Some (Gun Ucos, [true]) | ExpOp => Some (Gun Uexp, [true]) | LogOp => Some (Gun Ulog, [true]) | NegOp => Some (Gun Uneg, [true])
    | SignOp => Some (Gun Usign, [true]) | SinhOp => Some (Gun Usinh, [true]) | SinOp => Some (Gun Usin, [true]) | SqrtOp => Some (Gun Usqrt, [true])
    | TanhOp => Some (Gun Utanh, [true]) | TanOp => Some (Gun Utan, [true])
    | AddpvOp => Some (Gbin Badd, [false; true]) | DivpvOp => Some (Gbin Bdiv, [false; true]) | MulpvOp => Some (Gbin Bmul, [false; true])
    | PowpvOp => Some (Gbin Bpow, [false; true]) | SubpvOp => Some (Gbin Bsub, [false; true]) | ZmulpvOp => Some (Gbin Bazmul, [false; true])
    | DivvpOp => Some (Gbin Bdiv, [true; false]) | PowvpOp => Some (Gbin Bpow, [true; false]) | SubvpOp => Some (Gbin Bsub, [true; false])
    | ZmulvpOp => Some (Gbin Bazmul, [true; false])
    | AddvvOp => Some (Gbin Badd, [true; true]) | DivvvOp => Some (Gbin Bdiv, [true; true]) | MulvvOp => Some (Gbin Bmul, [true; true])
    | PowvvOp => Some (Gbin Bpow, [true; true]) | SubvvOp => Some (Gbin Bsub, [true; true]) | ZmulvvOp => Some (Gbin Bazmul, [true; true])
    | _ => None
    end.
  (** 814-910 *)
  Definition comp_gop (o : opvar) : option (gcomp * list bool) :=
    match o with
    | EqppOp => Some (HEq, [false; false]) | NeppOp => Some (HNe, [false; false]) | LtppOp => Some (HLt, [false; false]) | LeppOp => Some (HLe, [false; false])
    | EqpvOp => Some (HEq, [false; true]) | NepvOp => Some (HNe, [false; true]) | LtpvOp => Some (HLt, [false; true]) | LepvOp => Some (HLe, [false; true])
    | LtvpOp => Some (HLt, [true; false]) | LevpOp => Some (HLe, [true; false])
    | EqvvOp => Some (HEq, [true; true]) | NevvOp => Some (HNe, [true; true]) | LtvvOp => Some (HLt, [true; true]) | LevvOp => Some (HLe, [true; true])
    | _ => None
    end.
  Definition node_args (p2n v2n : nat -> nat) (is_var : list bool) (a : list nat) : list nat :=
    map (fun '(v, k) => if (v : bool) then v2n k else p2n k) (combine is_var a).

  (** 139-145: the constants; [k] the parameter index; [prev] previous_node *)
  Fixpoint tg_con (P : nat -> T) (isd : list bool) (k prev : nat) (p2n : nat -> nat) : list T * nat * (nat -> nat) :=
    match isd with
    | [] => ([], prev, p2n)
    | d :: isd' =>
      if d then tg_con P isd' (S k) prev p2n
      else let '(c, prev', p2n') := tg_con P isd' (S k) (S prev) (fset p2n k (S prev)) in (P k :: c, prev', p2n')
    end.
  (** 321-462: the operator of one dynamic parameter *)
  Definition tg_dyn1 (p2n : nat -> nat) (o : opdyn) (a : list nat) : option gusage :=
    let g i := nth i a 0 in
    match o with
    | dis_dyn => dis_use (g 0) (p2n (g 1))
    | cond_exp_dyn => cexp_use (g 0) (p2n (g 1)) (p2n (g 2)) (p2n (g 3)) (p2n (g 4))
    | _ => match dyn_gop o with Some u => Some (mkUse u (map p2n a)) | None => None end
    end.
  (** 161-464 *)
  Fixpoint tg_dyn (ds : list (nat * opdyn * list nat)) (prev : nat) (p2n : nat -> nat) : option (list gusage * nat * (nat -> nat)) :=
    match ds with
    | [] => Some ([], prev, p2n)
    | (k, o, a) :: ds' =>
      match tg_dyn1 p2n o a with
      | None => None
      | Some u =>
        match tg_dyn ds' (S prev) (fset p2n k (S prev)) with
        | Some (us, prev', p2n') => Some (u :: us, prev', p2n')
        | None => None
        end
      end
    end.
  (** 915-1012: CSumOp; the operators, and the node of the result *)
  Definition csum_use (p2n v2n : nat -> nat) (prev : nat) (a : list nat) : list gusage * nat :=
    let g i := nth i a 0 in
    let range lo hi := firstn (hi - lo) (skipn lo a) in
    let add := mkUse Gsum (p2n (g 0) :: map v2n (range 5 (g 1)) ++ map p2n (range (g 2) (g 3))) in
    let sub := map v2n (range (g 1) (g 2)) ++ map p2n (range (g 3) (g 4)) in
    if (g 1 =? g 2) && (g 3 =? g 4) then ([add], prev + 1)
    else ([add; mkUse Gsum sub; mkUse (Gbin Bsub) [prev + 1; prev + 2]], prev + 3).
  (** 482-1226: the operators after BeginOp *)
  Fixpoint tg_ops (p2n : nat -> nat) (l : list ins) (prev : nat) (v2n : nat -> nat) : option (list gusage * (nat -> nat)) :=
    match l with
    | [] => None
    | mkIns o a iv :: l' =>
      let g i := nth i a 0 in
      let cx bit i := if Nat.testbit (g 1) bit then v2n (g i) else p2n (g i) in
      let one u := match u with
        | None => None
        | Some u => match tg_ops p2n l' (S prev) (fset v2n iv (S prev)) with Some (us, w) => Some (u :: us, w) | None => None end
        end in
      match fix_gop o with
      | Some (u, is_var) => one (Some (mkUse u (node_args p2n v2n is_var a)))
      | None =>
        match comp_gop o with
        | Some (c, is_var) =>
          match tg_ops p2n l' prev v2n with Some (us, w) => Some (mkUse (Gcomp c) (node_args p2n v2n is_var a) :: us, w) | None => None end
        | None =>
          match o with
          | CSumOp =>
            let (us, k) := csum_use p2n v2n prev a in
            match tg_ops p2n l' k (fset v2n iv k) with Some (us', w) => Some (us ++ us', w) | None => None end
          | DisOp => one (dis_use (g 0) (v2n (g 1)))
          | CExpOp => one (cexp_use (g 0) (cx 0 2) (cx 1 3) (cx 2 4) (cx 3 5))
          | EndOp => Some ([], v2n)
          | InvOp => tg_ops p2n l' prev v2n
          | ParOp => tg_ops p2n l' prev (fset v2n iv (p2n (g 0)))
          | _ => None
          end
        end
      end
    end.
  (** 62-1234; [nd] play_.n_dyn_independent() *)
  Definition to_graph (nd : nat) (f : adfun b) : option (graph b) :=
    let r := g_rec f in
    let n := g_n f in
    match decode (r_op r) (r_arg r) 0 with
    | None => None
    | Some l =>
      let '(con, prev1, p2n1) := tg_con (g_par f) (tl (r_isdyn r)) 1 (nd + n) (fun i => if (1 <=? i) && (i <=? nd) then i else 0) in
      match tg_dyn (skipn nd (dentries r)) prev1 p2n1 with
      | None => None
      | Some (us1, prev2, p2n) =>
        match tg_ops p2n (tl l) prev2 (fun i => if (1 <=? i) && (i <=? n) then nd + i else 0) with
        | None => None
        | Some (us2, v2n) => Some (mkGraph nd n con (us1 ++ us2) (map v2n (g_dep f)))
        end
      end
    end.

  (** ** from_graph *)
  Inductive nty := Ncon | Ndyn | Nvar.
  Definition is_con (t : nty) : bool := match t with Ncon => true | _ => false end.
  Definition is_dy (t : nty) : bool := match t with Ndyn => true | _ => false end.
  Definition is_va (t : nty) : bool := match t with Nvar => true | _ => false end.

  (** 810-973 *)
  Definition un_var (u : unop) : option opvar :=
    match u with
    | Uabs => Some AbsOp | Uacosh => Some AcoshOp | Uasinh => Some AsinhOp | Uatanh => Some AtanhOp | Uerf => Some ErfOp | Uerfc => Some ErfcOp
    | Uexpm1 => Some Expm1Op | Ulog1p => Some Log1pOp | Uacos => Some AcosOp | Uasin => Some AsinOp | Uatan => Some AtanOp | Ucosh => Some CoshOp
    | Ucos => Some CosOp | Uexp => Some ExpOp | Ulog => Some LogOp | Uneg => Some NegOp | Usign => Some SignOp | Usinh => Some SinhOp
    | Usin => Some SinOp | Usqrt => Some SqrtOp | Utanh => Some TanhOp | Utan => Some TanOp
    | Ufabs => None
    end.
  (** 974-1089 *)
  Definition un_dyn (u : unop) : option opdyn :=
    match u with
    | Uabs => Some abs_dyn | Uacosh => Some acosh_dyn | Uasinh => Some asinh_dyn | Uatanh => Some atanh_dyn | Uerf => Some erf_dyn | Uerfc => Some erfc_dyn
    | Uexpm1 => Some expm1_dyn | Ulog1p => Some log1p_dyn | Uacos => Some acos_dyn | Uasin => Some asin_dyn | Uatan => Some atan_dyn | Ucosh => Some cosh_dyn
    | Ucos => Some cos_dyn | Uexp => Some exp_dyn | Ulog => Some log_dyn | Uneg => Some neg_dyn | Usign => Some sign_dyn | Usinh => Some sinh_dyn
    | Usin => Some sin_dyn | Usqrt => Some sqrt_dyn | Utanh => Some tanh_dyn | Utan => Some tan_dyn
    | Ufabs => None
    end.
  (** 1235-1277, 1278-1321 (for add and mul the parameter becomes the first argument), 1322-1363, 1364-1405 *)
  Definition bin_vv (o : binop) : opvar := match o with Badd => AddvvOp | Bazmul => ZmulvvOp | Bdiv => DivvvOp | Bmul => MulvvOp | Bpow => PowvvOp | Bsub => SubvvOp end.
  Definition bin_vp (o : binop) (x p : nat) : opvar * list nat :=
    match o with
    | Badd => (AddpvOp, [p; x]) | Bazmul => (ZmulvpOp, [x; p]) | Bdiv => (DivvpOp, [x; p]) | Bmul => (MulpvOp, [p; x]) | Bpow => (PowvpOp, [x; p])
    | Bsub => (SubvpOp, [x; p])
    end.
  Definition bin_pv (o : binop) : opvar := match o with Badd => AddpvOp | Bazmul => ZmulpvOp | Bdiv => DivpvOp | Bmul => MulpvOp | Bpow => PowpvOp | Bsub => SubpvOp end.
  Definition bin_dyn (o : binop) : opdyn := match o with Badd => add_dyn | Bazmul => zmul_dyn | Bdiv => div_dyn | Bmul => mul_dyn | Bpow => pow_dyn | Bsub => sub_dyn end.
  Definition cexp_cop (c : gcexp) : nat := match c with GLt => 0 | GLe => 1 | GEq => 2 end.
  (** record/comp_op.hpp with dyn_left / dyn_right true for an operand that is not a variable, and the results of 465-499 *)
  Definition comp_rec (c : gcomp) (vl vr : bool) (x y : nat) : opvar * list nat :=
    match c, vl, vr with
    | HEq, true, true => (EqvvOp, [x; y]) | HEq, true, false => (EqpvOp, [y; x]) | HEq, false, true => (EqpvOp, [x; y]) | HEq, false, false => (EqppOp, [x; y])
    | HNe, true, true => (NevvOp, [x; y]) | HNe, true, false => (NepvOp, [y; x]) | HNe, false, true => (NepvOp, [x; y]) | HNe, false, false => (NeppOp, [x; y])
    | HLe, true, true => (LevvOp, [x; y]) | HLe, true, false => (LevpOp, [x; y]) | HLe, false, true => (LepvOp, [x; y]) | HLe, false, false => (LeppOp, [x; y])
    | HLt, true, true => (LtvvOp, [x; y]) | HLt, true, false => (LtvpOp, [x; y]) | HLt, false, true => (LtpvOp, [x; y]) | HLt, false, false => (LtppOp, [x; y])
    end.
  (** 172-198: an error when the name occurs more than once *)
  Definition discrete_index (s : string) : option nat :=
    match filter (fun k => String.eqb (nth k reg EmptyString) s) (seq 0 (length reg)) with [k] => Some k | _ => None end.

  (** 342-1465: one operator; [x] and [a] are type_x and arg.  Result: recorder and i_result.
      A comparison with a constant operand reads parameter_x (458, 463), which is empty: out of range. *)
  Definition fg_op (r : rec b) (o : gop) (x : list nty) (a : list nat) : option (rec b * nat) :=
    let par i := nth (nth i a 0) (r_par r) bnan in
    let g i := nth i a 0 in
    let t i := nth i x Ncon in
    let var := existsb is_va x in
    let dyn := existsb is_dy x in
    match o, a with
    | Gcexp c, [_; _; _; _] =>                                                              (* 394-437 *)
      if var then
        let bit i w := if is_va (t i) then w else 0 in
        Some (put_op (put_arg r ([cexp_cop c; bit 0 1 + bit 1 2 + bit 2 4 + bit 3 8] ++ a)) CExpOp)
      else if dyn then Some (put_dyn_par r bnan cond_exp_dyn (cexp_cop c :: a))
      else Some (put_con_par r (cond_exp_code (cexp_cop c) (par 0) (par 1) (par 2) (par 3)))
    | Gcomp c, [_; _] =>                                                                    (* 441-500 *)
      if is_con (t 0) || is_con (t 1) then None
      else let (o', a') := comp_rec c (is_va (t 0)) (is_va (t 1)) (g 0) (g 1) in Some (put_op (put_arg r a') o')
    | Gsum, _ =>                                                                            (* 504-567 *)
      let sel p := map snd (filter (fun '(ty, _) => p ty) (combine x a)) in
      let s := fold_left (fun s k => b_bin Badd s (nth k (r_par r) bnan)) (sel is_con) b0 in
      let (r1, i) := put_con_par r s in
      if var then
        let nv := length (sel is_va) in
        let m := 5 + nv + length (sel is_dy) in
        Some (put_op (put_arg r1 ([i; 5 + nv; 5 + nv; m; m] ++ sel is_va ++ sel is_dy ++ [m + 1])) CSumOp)
      else Some (fold_left (fun '(r, i) k => put_dyn_par r bnan add_dyn [i; k]) (sel is_dy) (r1, i))
    | Gdis s, [_] =>                                                                        (* 598-636 *)
      match discrete_index s with
      | None => None
      | Some k =>
        match t 0 with
        | Nvar => Some (put_op (put_arg r [k; g 0]) DisOp)
        | Ndyn => Some (put_dyn_par r bnan dis_dyn [k; g 0])
        | Ncon => Some (put_con_par r (b_dis k (par 0)))
        end
      end
    | Gun u, [_] =>                                                                         (* 807-1228 *)
      match t 0 with
      | Nvar =>
        match un_var u with
        | None => None
        | Some o' =>
          match o' with
          | ErfOp | ErfcOp =>
            let (r1, w) := put_op (put_arg r a) o' in
            let (r2, p0) := put_con_par r1 b0 in
            let (r3, p1) := put_con_par (put_arg r2 [p0]) berf in
            Some (put_arg r3 [p1], w)
          | _ => Some (put_op (put_arg r a) o')
          end
        end
      | Ndyn => match un_dyn u with Some o' => Some (put_dyn_par r bnan o' a) | None => None end
      | Ncon => match un_dyn u with Some _ => Some (put_con_par r (b_un u (par 0))) | None => None end
      end
    | Gbin o, [_; _] =>                                                                     (* 1232-1449 *)
      match t 0, t 1 with
      | Nvar, Nvar => Some (put_op (put_arg r a) (bin_vv o))
      | Nvar, _ => let (o', a') := bin_vp o (g 0) (g 1) in Some (put_op (put_arg r a') o')
      | _, Nvar => Some (put_op (put_arg r a) (bin_pv o))
      | Ncon, Ncon => Some (put_con_par r (b_bin o (par 0) (par 1)))
      | _, _ => Some (put_dyn_par r bnan (bin_dyn o) a)
      end
    | _, _ => None
    end.
  Definition res_type (x : list nty) : nty := if existsb is_va x then Nvar else if existsb is_dy x then Ndyn else Ncon.
  (** recorder, node_type, node2fun *)
  Definition fst_t : Type := rec b * list nty * list nat.
  (** 363-385 and 1452-1465 *)
  Definition fg_use (u : gusage) (st : fst_t) : option fst_t :=
    let '(r, ty, nf) := st in
    if forallb (fun k => k <? length ty) (gu_arg u) then
      let x := map (fun k => nth k ty Ncon) (gu_arg u) in
      let a := map (fun k => nth k nf 0) (gu_arg u) in
      match fg_op r (gu_op u) x a with
      | None => None
      | Some (r', i) => match gu_op u with Gcomp _ => Some (r', ty, nf) | _ => Some (r', ty ++ [res_type x], nf ++ [i]) end
      end
    else None.
  Fixpoint fg_ops (us : list gusage) (st : fst_t) : option fst_t :=
    match us with [] => Some st | u :: us' => match fg_use u st with Some st' => fg_ops us' st' | None => None end end.
  (** 278-308; true: an independent variable of the function *)
  Definition fg_ind1 (st : fst_t) (var : bool) : fst_t :=
    let '(r, ty, nf) := st in
    if var then let (r', i) := put_op r InvOp in (r', ty ++ [Nvar], nf ++ [i])
    else let (r', i) := put_dyn_par r bnan ind_dyn [] in (r', ty ++ [Ndyn], nf ++ [i]).
  (** 313-320 *)
  Definition fg_con1 (st : fst_t) (c : T) : fst_t :=
    let '(r, ty, nf) := st in let (r', i) := put_con_par r c in (r', ty ++ [Ncon], nf ++ [i]).
  (** 1478-1492: recorder and dep_taddr *)
  Definition fg_dep1 (ty : list nty) (nf : list nat) (st : rec b * list nat) (k : nat) : rec b * list nat :=
    let (r, dep) := st in
    match nth k ty Ncon with
    | Nvar => (r, dep ++ [nth k nf 0])
    | _ => let (r', w) := put_op (put_arg r [nth k nf 0]) ParOp in (r', dep ++ [w])
    end.
  (** 112-1551; [V] and [l2v] are the values in new memory *)
  Definition from_graph (V : nat -> T) (l2v : nat -> nat) (g : graph b) (dyn2var var2dyn : list bool) : option (adfun b) :=
    if (length dyn2var =? gr_ndyn g) && (length var2dyn =? gr_nvar g) then
      let kinds := dyn2var ++ map negb var2dyn in
      let (r0, _) := put_con_par (rec0 false) bnan in                                       (* 248-270 *)
      let r1 := put_arg (fst (put_op r0 BeginOp)) [0] in                                    (* 274-275 *)
      let st1 := fold_left fg_ind1 kinds (r1, [Ncon], [0]) in
      let st2 := fold_left fg_con1 (gr_con g) st1 in
      match fg_ops (gr_ops g) st2 with
      | None => None
      | Some (r, ty, nf) =>
        if forallb (fun k => k <? length ty) (gr_dep g) then
          let (r', dep) := fold_left (fg_dep1 ty nf) (gr_dep g) (r, []) in
          let r3 := fst (put_op r' EndOp) in
          Some (mkFun r3 (count_occ Bool.bool_dec kinds true) dep (fun i => nth i (r_par r3) bnan) V l2v 1 0 0)
        else None
      end
    else None.
End Graph.
