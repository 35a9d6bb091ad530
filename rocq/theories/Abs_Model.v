(** Model of core/abs_normal_fun.hpp (C41).
    The operation sequence is read with [decode] (the sequential iterator, C35).  An assertion that fails gives None (debug build).
    Text of PriOp is not modelled (the recorder of this model never records PriOp). *)
From Coq Require Import List Bool Arith.
From Verif Require Import Base_Spec Op_Model Tape_Spec Tape_Model.
Import ListNotations.

Section Abs.
  Context {b : base}.
  Notation T := (bt b).

  (** 348-374: arguments and results of the absolute value operators *)
  Fixpoint abs_list (l : list ins) : list (nat * nat) :=
    match l with
    | [] => []
    | i :: l' => match i_op i with AbsOp => (nth 0 (i_arg i) 0, i_var i) :: abs_list l' | _ => abs_list l' end
    end.

  (** 394-452: copy the parameters; [P] play_.par_one, [k] i_par, [dop] and [darg] from i_dyn and i_arg on *)
  Fixpoint copy_par (P : nat -> T) (k : nat) (isd : list bool) (dop : list opdyn) (darg : list nat) (r : rec b) : option (rec b) :=
    match isd with
    | [] => Some r
    | false :: isd' =>
      let (r1, j) := put_con_par r (P k) in
      if j =? k then copy_par P (S k) isd' dop darg r1 else None                       (* 451 *)
    | true :: isd' =>
      match dop with
      | [] => None
      | o :: dop' =>
        let n := num_arg_dyn o in
        let (r1, j) := put_dyn_par r (P k) o (firstn n darg) in
        if j =? k then copy_par P (S k) isd' dop' (skipn n darg) r1 else None
      end
    end.

  (** 466-495: BeginOp and the independent variables; the rest of the operators *)
  Fixpoint copy_head (l : list ins) (r : rec b) (f2g : nat -> nat) : list ins * rec b * (nat -> nat) :=
    match l with
    | [] => (l, r, f2g)
    | i :: l' =>
      match i_op i with
      | BeginOp => let (r1, v) := put_op (put_arg r [0]) BeginOp in copy_head l' r1 (fset f2g (i_var i) v)
      | InvOp => let (r1, v) := put_op r InvOp in copy_head l' r1 (fset f2g (i_var i) v)
      | _ => (l, r, f2g)
      end
    end.

  (** 501-502 *)
  Fixpoint copy_abs (res : list nat) (r : rec b) (f2g : nat -> nat) : rec b * (nat -> nat) :=
    match res with
    | [] => (r, f2g)
    | v :: res' => let (r1, w) := put_op r InvOp in copy_abs res' r1 (fset f2g v w)
    end.

  (** 512-889: the arguments that are put in the new recording; None: an operator that is not expected (default).
      [m] f2g_var, [ok] the assertions f2g_var[.] < num_var *)
  Definition new_args (m : nat -> nat) (o : opvar) (a : list nat) : option (list nat) :=
    let g i := nth i a 0 in
    let cx k i := if Nat.testbit (g 1) k then m (g i) else g i in
    match o with
    | ParOp => Some [g 0]
    | AcosOp | AcoshOp | AsinOp | AsinhOp | AtanOp | AtanhOp | CosOp | CoshOp | ExpOp | Expm1Op | LogOp | Log1pOp | NegOp
    | SignOp | SinOp | SinhOp | SqrtOp | TanOp | TanhOp => Some [m (g 0)]               (* 540-567 *)
    | ErfOp | ErfcOp => Some [g 1; g 2]                                                 (* 569-579 *)
    | SubvpOp | DivvpOp | PowvpOp | ZmulvpOp => Some [m (g 0); g 1]                     (* 582-592 *)
    | DisOp => Some [g 0; m (g 1)]                                                      (* 595-601 *)
    | AddpvOp | SubpvOp | MulpvOp | DivpvOp | PowpvOp | ZmulpvOp => Some [g 0; m (g 1)] (* 605-624 *)
    | AddvvOp | SubvvOp | MulvvOp | DivvvOp | PowvvOp | ZmulvvOp => Some [m (g 0); m (g 1)]   (* 627-647 *)
    | CExpOp => Some [g 0; g 1; cx 0 2; cx 1 3; cx 2 4; cx 3 5]                         (* 650-673 *)
    | LepvOp | LtpvOp | EqpvOp | NepvOp => Some [g 0; m (g 1)]                          (* 685-694 *)
    | LevpOp | LtvpOp => Some [m (g 0); g 1]                                            (* 696-703 *)
    | LevvOp | LtvvOp | EqvvOp | NevvOp => Some [m (g 0); m (g 1)]                      (* 705-714 *)
    | LdpOp => Some [g 0; g 1; g 2]                                                     (* 761-772 *)
    | LdvOp => Some [g 0; m (g 1); g 2]                                                 (* 775-787 *)
    | StppOp => Some [g 0; g 1; g 2]                                                    (* 790-801 *)
    | StvpOp => Some [g 0; m (g 1); g 2]                                                (* 804-816 *)
    | StpvOp => Some [g 0; g 1; m (g 2)]                                                (* 819-831 *)
    | StvvOp => Some [g 0; m (g 1); m (g 2)]                                            (* 834-846 *)
    | _ => None
    end.
  (** the variables whose new index is asserted to be less than num_var (not done for comparisons) *)
  Definition asserted (o : opvar) (a : list nat) : list nat :=
    let g i := nth i a 0 in
    let cx k i := if Nat.testbit (g 1) k then [g i] else [] in
    match o with
    | AcosOp | AcoshOp | AsinOp | AsinhOp | AtanOp | AtanhOp | CosOp | CoshOp | ExpOp | Expm1Op | LogOp | Log1pOp | NegOp
    | SignOp | SinOp | SinhOp | SqrtOp | TanOp | TanhOp | ErfOp | ErfcOp | SubvpOp | DivvpOp | PowvpOp | ZmulvpOp => [g 0]
    | DisOp | AddpvOp | SubpvOp | MulpvOp | DivpvOp | PowpvOp | ZmulpvOp | LdvOp | StvpOp => [g 1]
    | AddvvOp | SubvvOp | MulvvOp | DivvvOp | PowvvOp | ZmulvvOp => [g 0; g 1]
    | CExpOp => cx 0 2 ++ cx 1 3 ++ cx 2 4 ++ cx 3 5
    | StpvOp => [g 2] | StvvOp => [g 1; g 2]
    | _ => []
    end.
  Definition is_cmp_or_store (o : opvar) : bool :=
    match o with
    | LepvOp | LtpvOp | EqpvOp | NepvOp | LevpOp | LtvpOp | LevvOp | LtvvOp | EqvvOp | NevvOp | StppOp | StvpOp | StpvOp => true
    | _ => false
    end.
  (** one pass of the loop 508-892 for an operator that is not EndOp: what is left of [abs], the recording and f2g_var *)
  Definition copy_op (nv : nat) (i : ins) (abs : list (nat * nat)) (r : rec b) (f2g : nat -> nat) : option (list (nat * nat) * rec b * (nat -> nat)) :=
    match i_op i with
    | AbsOp =>                                                                          (* 515-521 *)
      match abs with
      | (x, v) :: abs' => if (x =? nth 0 (i_arg i) 0) && (v =? i_var i) && (0 <? f2g (i_var i)) then Some (abs', r, f2g) else None
      | [] => None
      end
    | _ =>
      match new_args f2g (i_op i) (i_arg i) with
      | None => None
      | Some a' =>
        if forallb (fun v => f2g v <? nv) (asserted (i_op i) (i_arg i)) then
          let r1 := put_arg r a' in
          match i_op i with
          | StvvOp => Some (abs, r1, f2g)                                               (* 845: no PutOp *)
          | LdpOp | LdvOp => let (r2, v) := put_load_op r1 (i_op i) in Some (abs, r2, fset f2g (i_var i) v)
          | _ => let (r2, v) := put_op r1 (i_op i) in Some (abs, r2, if is_cmp_or_store (i_op i) then f2g else fset f2g (i_var i) v)
          end
        else None
      end
    end.
  Definition is_end (o : opvar) : bool := match o with EndOp => true | _ => false end.
  (** 508-892 *)
  Fixpoint copy_body (nv : nat) (l : list ins) (abs : list (nat * nat)) (r : rec b) (f2g : nat -> nat) : option (rec b * (nat -> nat)) :=
    match l with
    | [] => None
    | i :: l' =>
      if is_end (i_op i) then Some (fst (put_op r EndOp), f2g)                          (* 677-681 *)
      else match copy_op nv i abs r f2g with
           | None => None
           | Some (abs', r', f2g') => copy_body nv l' abs' r' f2g'
           end
    end.

  (** 341-988.  [g0]: the object g before the call: its load_op2var_ and compare_change_count_ are not set by this function.
      subgraph_info_, the sparsity patterns and dep_parameter_ are not modelled (taylor_ is emptied: forward0 does not use the old values). *)
  Definition abs_normal_fun (f g0 : adfun b) : option (adfun b * adfun b) :=
    let rf := g_rec f in
    match decode (r_op rf) (r_arg rf) 0 with
    | None => None
    | Some l =>
      let abs := abs_list l in
      let s := length abs in
      match copy_par (g_par f) 0 (r_isdyn rf) (r_dop rf) (r_darg rf) (rec0 true) with
      | None => None
      | Some r0 =>
        let nv := r_nvar rf in
        let '(l1, r1, m1) := copy_head l r0 (fun _ => nv) in
        let (r2, m2) := copy_abs (map snd abs) r1 m1 in
        match copy_body nv l1 abs r2 m2 with
        | None => None
        | Some (r3, m3) =>
          let ind := map m3 (map S (seq 0 (g_n f)) ++ map snd abs) in
          let dep := map m3 (g_dep f ++ map fst abs) in
          if (length (r_op r3) =? length (r_op rf)) && (r_nvar r3 =? r_nvar rf) && (r_nload r3 =? r_nload rf)      (* 894-896 *)
             && forallb (fun j => nth j ind 0 =? S j) (seq 0 (g_n f + s))                                           (* 911-920 *)
             && forallb (fun v => v <? nv) dep && forallb (fun v => v <? nv) (map snd abs)                          (* 925-933, 976 *)
          then Some (mkFun r3 (g_n f + s) dep (fun i => nth i (r_par r3) bnan) (g_V g0) (g_l2v g0) (g_cc g0) (g_num g0) (g_opi g0),
                     mkFun rf (g_n f) (map snd abs) (g_par f) (g_V f) (g_l2v f) (g_cc f) (g_num f) (g_opi f))       (* 969-977 *)
          else None
        end
      end
    end.
End Abs.
