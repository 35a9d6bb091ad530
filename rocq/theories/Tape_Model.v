(** Model of recording an operation sequence with AD<Base>, of the dynamic
    parameter sweep and of the zero order forward sweep.

    Paths are relative to /repo/include/cppad.

    Simplifications (whole file):
    - addresses (addr_t, size_t, tape_id_t) are unbounded naturals; the C++ code
      asserts (CPPAD_ASSERT_KNOWN) that they do not overflow;
    - one thread: [tid] is the identifier of the tape that is recording;
    - atomic functions (AFunOp) and PrintFor (PriOp) are not recorded;
    - [rec] merges classes recorder and dyn_recorder (the former only forwards
      to the latter), and also plays the role of class player, which receives
      these vectors by swap in get_recording;
    - arrays that are only indexed (taylor, parameter) are total functions;
      that every index is in range is a theorem ([wf_ins], Tape_Proof). *)
From Coq Require Import ZArith List Bool Arith.
From Verif Require Import Base_Spec Op_Model Tape_Spec.
Import ListNotations.

(** core/ad_type.hpp:36-42 *)
Inductive ad_type := T_con | T_dyn | T_var.
Definition is_T_dyn (t : ad_type) := match t with T_dyn => true | _ => false end.
Definition is_T_var (t : ad_type) := match t with T_var => true | _ => false end.

Section Model.
  Context {b : base}.
  Notation T := (bt b).

  (** core/ad.hpp:34-45  class AD<Base>: value_, tape_id_, taddr_, ad_type_. *)
  Record AD := mkAD { a_val : T; a_tid : nat; a_taddr : nat; a_type : ad_type }.

  (** core/ad_ctor.hpp  AD(const Base&): a constant. *)
  Definition con_ad (v : T) : AD := mkAD v 0 0 T_con.

  (** core/vec_ad/vec_ad.hpp:377-382 class VecAD: data_ (and its length),
      tape_id_, offset_, ad_type_.  taddr_ is only scratch space between
      put_con_par and put_var_vecad and is not kept. *)
  Record VecAD := mkVec { v_data : list T; v_tid : nat; v_off : nat; v_type : ad_type }.

  (** local/record/recorder.hpp:136-169, local/record/dyn_recorder.hpp:68-94. *)
  Record rec := mkRec {
    r_cmp   : bool;          (* record_compare_ *)
    r_nvar  : nat;           (* num_var_ *)
    r_nload : nat;           (* num_var_load_ *)
    r_op    : list opvar;    (* var_op_ *)
    r_arg   : list nat;      (* var_arg_ *)
    r_vec   : list nat;      (* var_vecad_ind_ *)
    r_hash  : nat -> nat;    (* par_hash_table_ *)
    r_par   : list T;        (* par_all_ *)
    r_isdyn : list bool;     (* par_is_dyn_ *)
    r_dop   : list opdyn;    (* dyn_par_op_ *)
    r_darg  : list nat       (* dyn_par_arg_ *)
  }.

  (** recorder.hpp:174-179, dyn_recorder.hpp:99-111 constructors *)
  Definition rec0 (cmp : bool) : rec :=
    mkRec cmp 0 0 [] [] [] (fun _ => 0) [] [] [] [].

  (** recorder.hpp:422-445 PutOp *)
  Definition put_op (r : rec) (o : opvar) : rec * nat :=
    let nv := r_nvar r + num_res o in
    (mkRec (r_cmp r) nv (r_nload r) (r_op r ++ [o]) (r_arg r) (r_vec r)
           (r_hash r) (r_par r) (r_isdyn r) (r_dop r) (r_darg r), nv - 1).
  (** recorder.hpp:630-656 PutLoadOp *)
  Definition put_load_op (r : rec) (o : opvar) : rec * nat :=
    let nv := r_nvar r + num_res o in
    (mkRec (r_cmp r) nv (S (r_nload r)) (r_op r ++ [o]) (r_arg r) (r_vec r)
           (r_hash r) (r_par r) (r_isdyn r) (r_dop r) (r_darg r), nv - 1).
  (** recorder.hpp:511-582 PutArg (all arities) *)
  Definition put_arg (r : rec) (a : list nat) : rec :=
    mkRec (r_cmp r) (r_nvar r) (r_nload r) (r_op r) (r_arg r ++ a) (r_vec r)
          (r_hash r) (r_par r) (r_isdyn r) (r_dop r) (r_darg r).
  (** record/put_var_vecad.hpp:49-59 put_var_vecad_ind *)
  Definition put_vec_ind (r : rec) (i : nat) : rec * nat :=
    (mkRec (r_cmp r) (r_nvar r) (r_nload r) (r_op r) (r_arg r) (r_vec r ++ [i])
           (r_hash r) (r_par r) (r_isdyn r) (r_dop r) (r_darg r), length (r_vec r)).
  (** record/put_var_vecad.hpp:104-125 put_var_vecad *)
  Definition put_var_vecad (r : rec) (taddr : list nat) : rec * nat :=
    let '(r1, start) := put_vec_ind r (length taddr) in
    (fold_left (fun r i => fst (put_vec_ind r i)) taddr r1, start).

  (** dyn_recorder.hpp:406-446 put_con_par *)
  Definition put_con_par (r : rec) (v : T) : rec * nat :=
    let code := bhash v in
    let index := r_hash r code in
    if (0 <? index) && (index <? length (r_par r))
       && negb (nth index (r_isdyn r) false) && ideq (nth index (r_par r) bnan) v
    then (r, index)
    else let index := length (r_par r) in
      (mkRec (r_cmp r) (r_nvar r) (r_nload r) (r_op r) (r_arg r) (r_vec r)
             (fset (r_hash r) code index) (r_par r ++ [v]) (r_isdyn r ++ [false])
             (r_dop r) (r_darg r), index).

  (** dyn_recorder.hpp:233-273 put_dyn_par (all arities), 326-347
      put_dyn_cond_exp: push value, flag, operator and arguments. *)
  Definition put_dyn_par (r : rec) (v : T) (o : opdyn) (a : list nat) : rec * nat :=
    (mkRec (r_cmp r) (r_nvar r) (r_nload r) (r_op r) (r_arg r) (r_vec r)
           (r_hash r) (r_par r ++ [v]) (r_isdyn r ++ [true]) (r_dop r ++ [o])
           (r_darg r ++ a), length (r_par r)).

  Section Tid.
  Variable tid : nat.    (* tape->id_ *)

  (** e.g. core/add.hpp:28-37: match_x, dyn_x, var_x *)
  Definition is_dyn (a : AD) : bool := (a_tid a =? tid) && is_T_dyn (a_type a).
  Definition is_var (a : AD) : bool := (a_tid a =? tid) && negb (is_T_dyn (a_type a)).
  (** core/con_dyn_var.hpp:92-100 Constant, 113-121 Dynamic, 134-142 Parameter,
      155-163 Variable, when the only recording tape is [tid] *)
  Definition is_constant (a : AD) : bool := (a_tid a =? 0) || negb (a_tid a =? tid).
  Definition is_dynamic (a : AD) : bool :=
    negb (a_tid a =? 0) && is_T_dyn (a_type a) && (a_tid a =? tid).
  Definition is_parameter (a : AD) : bool :=
    (a_tid a =? 0) || is_T_dyn (a_type a) || negb (a_tid a =? tid).
  Definition is_variable (a : AD) : bool :=
    negb (a_tid a =? 0) && is_T_var (a_type a) && (a_tid a =? tid).

  (** the idiom "p = x.taddr_; if( ! dyn_x ) p = put_con_par(x.value_)" ,
      e.g. core/add.hpp:68-70 *)
  Definition par_addr (r : rec) (a : AD) : rec * nat :=
    if is_dyn a then (r, a_taddr a) else put_con_par r (a_val a).

  (** the idiom "PutArg(...); result.taddr_ = PutOp(op); result.tape_id_ =
      tape_id; result.ad_type_ = variable_enum", e.g. core/add.hpp:50-55 *)
  Definition rec_var (r : rec) (o : opvar) (a : list nat) (v : T) : rec * AD :=
    let '(r', i) := put_op (put_arg r a) o in (r', mkAD v tid i T_var).
  (** the idiom "result.taddr_ = put_dyn_par(...); result.tape_id_ = tape_id;
      result.ad_type_ = dynamic_enum", e.g. core/add.hpp:120-124 *)
  Definition rec_dyn (r : rec) (o : opdyn) (a : list nat) (v : T) : rec * AD :=
    let '(r', i) := put_dyn_par r v o a in (r', mkAD v tid i T_dyn).
  (** "arg0 = ..., arg1 = ..., put_dyn_par", e.g. core/add.hpp:112-124 *)
  Definition rec_dyn2 (r : rec) (o : opdyn) (x y : AD) (v : T) : rec * AD :=
    let '(r1, p0) := par_addr r x in
    let '(r2, p1) := par_addr r1 y in
    rec_dyn r2 o [p0; p1] v.

  (** core/ad.hpp:275-292 make_variable / make_dynamic applied to a result
      whose value is [v] *)
  Definition make_var (v : T) (a : AD) : AD := mkAD v (a_tid a) (a_taddr a) T_var.
  Definition make_dyn (v : T) (a : AD) : AD := mkAD v (a_tid a) (a_taddr a) T_dyn.

  (** core/add.hpp:12-128 *)
  Definition ad_add (r : rec) (l rt : AD) : rec * AD :=
    let v := b_bin Badd (a_val l) (a_val rt) in
    if is_var l then
      if is_var rt then rec_var r AddvvOp [a_taddr l; a_taddr rt] v
      else if negb (is_dyn rt) && is0 (a_val rt) then (r, make_var v l)
      else let '(r1, p) := par_addr r rt in rec_var r1 AddpvOp [p; a_taddr l] v
    else if is_var rt then
      if negb (is_dyn l) && is0 (a_val l) then (r, make_var v rt)
      else let '(r1, p) := par_addr r l in rec_var r1 AddpvOp [p; a_taddr rt] v
    else if is_dyn l || is_dyn rt then
      if negb (is_dyn l) && is0 (a_val l) then (r, make_dyn v rt)
      else if negb (is_dyn rt) && is0 (a_val rt) then (r, make_dyn v l)
      else rec_dyn2 r add_dyn l rt v
    else (r, con_ad v).

  (** core/sub.hpp:12-118 *)
  Definition ad_sub (r : rec) (l rt : AD) : rec * AD :=
    let v := b_bin Bsub (a_val l) (a_val rt) in
    if is_var l then
      if is_var rt then rec_var r SubvvOp [a_taddr l; a_taddr rt] v
      else if negb (is_dyn rt) && is0 (a_val rt) then (r, make_var v l)
      else let '(r1, p) := par_addr r rt in rec_var r1 SubvpOp [a_taddr l; p] v
    else if is_var rt then
      let '(r1, p) := par_addr r l in rec_var r1 SubpvOp [p; a_taddr rt] v
    else if is_dyn l || is_dyn rt then
      if negb (is_dyn rt) && is0 (a_val rt) then (r, make_dyn v l)
      else rec_dyn2 r sub_dyn l rt v
    else (r, con_ad v).

  (** core/mul.hpp:12-139 *)
  Definition ad_mul (r : rec) (l rt : AD) : rec * AD :=
    let v := b_bin Bmul (a_val l) (a_val rt) in
    if is_var l then
      if is_var rt then rec_var r MulvvOp [a_taddr l; a_taddr rt] v
      else if negb (is_dyn rt) && is0 (a_val rt) then (r, con_ad b0)
      else if negb (is_dyn rt) && is1 (a_val rt) then (r, make_var v l)
      else let '(r1, p) := par_addr r rt in rec_var r1 MulpvOp [p; a_taddr l] v
    else if is_var rt then
      if negb (is_dyn l) && is0 (a_val l) then (r, con_ad b0)
      else if negb (is_dyn l) && is1 (a_val l) then (r, make_var v rt)
      else let '(r1, p) := par_addr r l in rec_var r1 MulpvOp [p; a_taddr rt] v
    else if is_dyn l || is_dyn rt then
      if negb (is_dyn l) && is0 (a_val l) then (r, con_ad b0)
      else if negb (is_dyn rt) && is0 (a_val rt) then (r, con_ad b0)
      else if negb (is_dyn l) && is1 (a_val l) then (r, make_dyn v rt)
      else if negb (is_dyn rt) && is1 (a_val rt) then (r, make_dyn v l)
      else rec_dyn2 r mul_dyn l rt v
    else (r, con_ad v).

  (** core/div.hpp:12-125 *)
  Definition ad_div (r : rec) (l rt : AD) : rec * AD :=
    let v := b_bin Bdiv (a_val l) (a_val rt) in
    if is_var l then
      if is_var rt then rec_var r DivvvOp [a_taddr l; a_taddr rt] v
      else if negb (is_dyn rt) && is1 (a_val rt) then (r, make_var v l)
      else let '(r1, p) := par_addr r rt in rec_var r1 DivvpOp [a_taddr l; p] v
    else if is_var rt then
      if negb (is_dyn l) && is0 (a_val l) then (r, con_ad b0)
      else let '(r1, p) := par_addr r l in rec_var r1 DivpvOp [p; a_taddr rt] v
    else if is_dyn l || is_dyn rt then
      if negb (is_dyn l) && is0 (a_val l) then (r, con_ad b0)
      else if negb (is_dyn rt) && is1 (a_val rt) then (r, make_dyn v l)
      else rec_dyn2 r div_dyn l rt v
    else (r, con_ad v).

  (** core/azmul.hpp:88-221 *)
  Definition ad_azmul (r : rec) (x y : AD) : rec * AD :=
    let v := b_bin Bazmul (a_val x) (a_val y) in
    if is_var x then
      if is_var y then rec_var r ZmulvvOp [a_taddr x; a_taddr y] v
      else if negb (is_dyn y) && is0 (a_val y) then (r, con_ad v)
      else if negb (is_dyn y) && is1 (a_val y) then (r, make_var v x)
      else let '(r1, p) := par_addr r y in rec_var r1 ZmulvpOp [a_taddr x; p] v
    else if is_var y then
      if negb (is_dyn x) && is0 (a_val x) then (r, con_ad v)
      else if negb (is_dyn x) && is1 (a_val x) then (r, make_var v y)
      else let '(r1, p) := par_addr r x in rec_var r1 ZmulpvOp [p; a_taddr y] v
    else if is_dyn x || is_dyn y then
      if negb (is_dyn x) && is0 (a_val x) then (r, con_ad v)
      else if negb (is_dyn y) && is0 (a_val y) then (r, con_ad v)
      else if negb (is_dyn x) && is1 (a_val x) then (r, make_dyn v y)
      else if negb (is_dyn y) && is1 (a_val y) then (r, make_dyn v x)
      else rec_dyn2 r zmul_dyn x y v
    else (r, con_ad v).

  (** core/pow.hpp:107-227 *)
  Definition ad_pow (r : rec) (x y : AD) : rec * AD :=
    let v := b_bin Bpow (a_val x) (a_val y) in
    if is_var x then
      if is_var y then rec_var r PowvvOp [a_taddr x; a_taddr y] v
      else if negb (is_dyn y) && is0 (a_val y) then (r, con_ad v)
      else let '(r1, p) := par_addr r y in rec_var r1 PowvpOp [a_taddr x; p] v
    else if is_var y then
      if negb (is_dyn x) && is0 (a_val x) then (r, con_ad v)
      else let '(r1, p) := par_addr r x in rec_var r1 PowpvOp [p; a_taddr y] v
    else if is_dyn x || is_dyn y then
      if negb (is_dyn x) && is0 (a_val x) then (r, con_ad v)
      else if negb (is_dyn y) && is0 (a_val y) then (r, con_ad v)
      else rec_dyn2 r pow_dyn x y v
    else (r, con_ad v).

  Definition ad_bin (o : binop) : rec -> AD -> AD -> rec * AD :=
    match o with
    | Badd => ad_add | Bsub => ad_sub | Bmul => ad_mul | Bdiv => ad_div
    | Bazmul => ad_azmul | Bpow => ad_pow
    end.

  (** core/add_eq.hpp:12-125.  The argument [l] is *this before the call; the
      result is *this after it.  (When right aliases *this both have the same
      kind, so right.value_, already updated, is not used.) *)
  Definition ad_add_eq (r : rec) (l rt : AD) : rec * AD :=
    let v := b_bin Badd (a_val l) (a_val rt) in
    let keep := mkAD v (a_tid l) (a_taddr l) (a_type l) in
    if is_var l then
      if is_var rt then rec_var r AddvvOp [a_taddr l; a_taddr rt] v
      else if is_dyn rt || negb (is0 (a_val rt)) then
        let '(r1, p) := par_addr r rt in rec_var r1 AddpvOp [p; a_taddr l] v
      else (r, keep)
    else if is_var rt then
      if negb (is_dyn l) && is0 (a_val l) then (r, make_var v rt)
      else let '(r1, p) := par_addr r l in rec_var r1 AddpvOp [p; a_taddr rt] v
    else if is_dyn l || is_dyn rt then
      if negb (is_dyn rt) && is0 (a_val rt) then (r, keep)
      else if negb (is_dyn l) && is0 (a_val l) then (r, make_dyn v rt)
      else rec_dyn2 r add_dyn l rt v
    else (r, keep).

  (** core/sub_eq.hpp:12-117 *)
  Definition ad_sub_eq (r : rec) (l rt : AD) : rec * AD :=
    let v := b_bin Bsub (a_val l) (a_val rt) in
    let keep := mkAD v (a_tid l) (a_taddr l) (a_type l) in
    if is_var l then
      if is_var rt then rec_var r SubvvOp [a_taddr l; a_taddr rt] v
      else if negb (is_dyn rt) && is0 (a_val rt) then (r, keep)
      else let '(r1, p) := par_addr r rt in rec_var r1 SubvpOp [a_taddr l; p] v
    else if is_var rt then
      let '(r1, p) := par_addr r l in rec_var r1 SubpvOp [p; a_taddr rt] v
    else if is_dyn l || is_dyn rt then
      if negb (is_dyn rt) && is0 (a_val rt) then (r, keep)
      else rec_dyn2 r sub_dyn l rt v
    else (r, keep).

  (** core/mul_eq.hpp:12-138 *)
  Definition ad_mul_eq (r : rec) (l rt : AD) : rec * AD :=
    let v := b_bin Bmul (a_val l) (a_val rt) in
    let keep := mkAD v (a_tid l) (a_taddr l) (a_type l) in
    let untape := mkAD v 0 (a_taddr l) (a_type l) in    (* tape_id_ = 0 *)
    if is_var l then
      if is_var rt then rec_var r MulvvOp [a_taddr l; a_taddr rt] v
      else if negb (is_dyn rt) && is1 (a_val rt) then (r, keep)
      else if negb (is_dyn rt) && is0 (a_val rt) then (r, untape)
      else let '(r1, p) := par_addr r rt in rec_var r1 MulpvOp [p; a_taddr l] v
    else if is_var rt then
      if negb (is_dyn l) && is0 (a_val l) then (r, keep)
      else if negb (is_dyn l) && is1 (a_val l) then (r, make_var v rt)
      else let '(r1, p) := par_addr r l in rec_var r1 MulpvOp [p; a_taddr rt] v
    else if is_dyn l || is_dyn rt then
      if negb (is_dyn rt) && is1 (a_val rt) then (r, keep)
      else if negb (is_dyn rt) && is0 (a_val rt) then (r, untape)
      else if negb (is_dyn l) && is1 (a_val l) then (r, make_dyn v rt)
      else if negb (is_dyn l) && is0 (a_val l) then (r, keep)
      else rec_dyn2 r mul_dyn l rt v
    else (r, keep).

  (** core/div_eq.hpp:12-123 *)
  Definition ad_div_eq (r : rec) (l rt : AD) : rec * AD :=
    let v := b_bin Bdiv (a_val l) (a_val rt) in
    let keep := mkAD v (a_tid l) (a_taddr l) (a_type l) in
    if is_var l then
      if is_var rt then rec_var r DivvvOp [a_taddr l; a_taddr rt] v
      else if negb (is_dyn rt) && is1 (a_val rt) then (r, keep)
      else let '(r1, p) := par_addr r rt in rec_var r1 DivvpOp [a_taddr l; p] v
    else if is_var rt then
      if negb (is_dyn l) && is0 (a_val l) then (r, keep)
      else let '(r1, p) := par_addr r l in rec_var r1 DivpvOp [p; a_taddr rt] v
    else if is_dyn l || is_dyn rt then
      if negb (is_dyn rt) && is1 (a_val rt) then (r, keep)
      else if negb (is_dyn l) && is0 (a_val l) then (r, keep)
      else rec_dyn2 r div_dyn l rt v
    else (r, keep).

  Definition ad_eq (o : eqop) : rec -> AD -> AD -> rec * AD :=
    match o with
    | Eadd => ad_add_eq | Esub => ad_sub_eq | Emul => ad_mul_eq | Ediv => ad_div_eq
    end.

  (** which operator a unary function records: core/unary_minus.hpp:93-114,
      abs.hpp:90-112, sign.hpp:87-109, std_math_11.hpp:775-792, 825-861 *)
  Definition un_op (u : unop) : opvar :=
    match u with
    | Uneg => NegOp | Uabs => AbsOp | Ufabs => AbsOp | Usign => SignOp
    | Uacos => AcosOp | Uacosh => AcoshOp | Uasin => AsinOp | Uasinh => AsinhOp
    | Uatan => AtanOp | Uatanh => AtanhOp | Ucos => CosOp | Ucosh => CoshOp
    | Uexp => ExpOp | Uexpm1 => Expm1Op | Ulog => LogOp | Ulog1p => Log1pOp
    | Usin => SinOp | Usinh => SinhOp | Usqrt => SqrtOp | Utan => TanOp
    | Utanh => TanhOp | Uerf => ErfOp | Uerfc => ErfcOp
    end.
  Definition un_dyn (u : unop) : opdyn :=
    match u with
    | Uneg => neg_dyn | Uabs => abs_dyn | Ufabs => fabs_dyn | Usign => sign_dyn
    | Uacos => acos_dyn | Uacosh => acosh_dyn | Uasin => asin_dyn
    | Uasinh => asinh_dyn | Uatan => atan_dyn | Uatanh => atanh_dyn
    | Ucos => cos_dyn | Ucosh => cosh_dyn | Uexp => exp_dyn | Uexpm1 => expm1_dyn
    | Ulog => log_dyn | Ulog1p => log1p_dyn | Usin => sin_dyn | Usinh => sinh_dyn
    | Usqrt => sqrt_dyn | Utan => tan_dyn | Utanh => tanh_dyn
    | Uerf => erf_dyn | Uerfc => erfc_dyn
    end.

  (** core/unary_minus.hpp:76-116, abs.hpp:75-114, sign.hpp:72-111,
      std_math_11.hpp:739-767 and (erf, erfc) 807-863: same structure; erf and
      erfc pass two extra constant parameters. *)
  Definition ad_un (u : unop) (r : rec) (x : AD) : rec * AD :=
    let v := b_un u (a_val x) in
    if negb (a_tid x =? tid) then (r, con_ad v)
    else if is_T_dyn (a_type x) then rec_dyn r (un_dyn u) [a_taddr x] v
    else match u with
         | Uerf | Uerfc =>
             let '(r1, p) := put_con_par r b0 in
             let '(r2, q) := put_con_par r1 berf in
             rec_var r2 (un_op u) [a_taddr x; p; q] v
         | _ => rec_var r (un_op u) [a_taddr x] v
         end.

  (** core/discrete/discrete.hpp:250-313 *)
  Definition ad_dis (k : nat) (r : rec) (x : AD) : rec * AD :=
    let v := b_dis k (a_val x) in
    if negb (a_tid x =? tid) then (r, con_ad v)
    else if is_T_dyn (a_type x) then rec_dyn r dis_dyn [k; a_taddr x] v
    else rec_var r DisOp [k; a_taddr x] v.

  (** core/base_cond_exp.hpp / define.hpp enum CompareOp: numeric code *)
  Definition cexp_code (c : cexpop) : nat :=
    match c with XLt => 0 | XLe => 1 | XEq => 2 | XGe => 3 | XGt => 4 end.
  (** core/base_cond_exp.hpp:225-274 CondExpTemplate on the numeric code
      (its default case returns exp_if_true) *)
  Definition cond_exp_code (c : nat) (l r t f : T) : T :=
    match c with
    | 0 => if b_cmp Clt l r then t else f
    | 1 => if b_cmp Cle l r then t else f
    | 2 => if b_cmp Ceq l r then t else f
    | 3 => if b_cmp Cge l r then t else f
    | 4 => if b_cmp Cgt l r then t else f
    | _ => t
    end.

  (** local/record/cond_exp.hpp:95-143: one argument; [bit] is added to arg1
      when the argument is a variable *)
  Definition cexp_arg (r : rec) (x : AD) (bit : nat) : rec * nat * nat :=
    if is_constant x then let '(r1, p) := put_con_par r (a_val x) in (r1, p, 0)
    else (r, a_taddr x, if is_T_dyn (a_type x) then 0 else bit).

  (** core/cond_exp.hpp:164-194 CondExpOp with local/record/cond_exp.hpp:74-174 *)
  Definition ad_cond (c : cexpop) (r : rec) (l rt t f : AD) : rec * AD :=
    let v := cond_exp_code (cexp_code c) (a_val l) (a_val rt) (a_val t) (a_val f) in
    if is_constant l && is_constant rt then (r, con_ad v)
    else
      let '(r1, a2, m0) := cexp_arg r l 1 in
      let '(r2, a3, m1) := cexp_arg r1 rt 2 in
      let '(r3, a4, m2) := cexp_arg r2 t 4 in
      let '(r4, a5, m3) := cexp_arg r3 f 8 in
      let m := m0 + m1 + m2 + m3 in
      if m =? 0 then rec_dyn r4 cond_exp_dyn [cexp_code c; a2; a3; a4; a5] v
      else rec_var r4 CExpOp [cexp_code c; m; a2; a3; a4; a5] v.

  (** core/compare.hpp and local/record/comp_op.hpp:85-286.
      [rec_ord vv vp pv pp x y]: record the ordering operator with operands
      x, y in that order, choosing the code by the operand kinds; nothing is
      recorded for two constants.  (put_con_par order is immaterial: at most
      one operand is a constant.) *)
  Definition rec_ord (vv vp pv pp : opvar) (r : rec) (x y : AD) : rec :=
    if is_var x then
      if is_var y then fst (put_op (put_arg r [a_taddr x; a_taddr y]) vv)
      else let '(r1, p) := par_addr r y in fst (put_op (put_arg r1 [a_taddr x; p]) vp)
    else if is_var y then
      let '(r1, p) := par_addr r x in fst (put_op (put_arg r1 [p; a_taddr y]) pv)
    else if is_dyn x || is_dyn y then
      let '(r1, p0) := par_addr r x in
      let '(r2, p1) := par_addr r1 y in fst (put_op (put_arg r2 [p0; p1]) pp)
    else r.
  Definition rec_lt := rec_ord LtvvOp LtvpOp LtpvOp LtppOp.
  Definition rec_le := rec_ord LevvOp LevpOp LepvOp LeppOp.
  (** comp_op.hpp:85-142 (== ) and compare.hpp:571-617 (!=): the parameter is
      always the first argument *)
  Definition rec_eqn (vv pv pp : opvar) (r : rec) (x y : AD) : rec :=
    if is_var x then
      if is_var y then fst (put_op (put_arg r [a_taddr x; a_taddr y]) vv)
      else let '(r1, p) := par_addr r y in fst (put_op (put_arg r1 [p; a_taddr x]) pv)
    else if is_var y then
      let '(r1, p) := par_addr r x in fst (put_op (put_arg r1 [p; a_taddr y]) pv)
    else if is_dyn x || is_dyn y then
      let '(r1, p0) := par_addr r x in
      let '(r2, p1) := par_addr r1 y in fst (put_op (put_arg r2 [p0; p1]) pp)
    else r.
  Definition rec_eq := rec_eqn EqvvOp EqpvOp EqppOp.
  Definition rec_ne := rec_eqn NevvOp NepvOp NeppOp.

  (** core/compare.hpp: < 116-203, <= 212-300, > 308-396, >= 404-492,
      == 500-534, != 542-618 *)
  Definition ad_cmp (c : cmpop) (r : rec) (l rt : AD) : rec * bool :=
    let res := b_cmp c (a_val l) (a_val rt) in
    if negb (r_cmp r) then (r, res)
    else
      ((match c with
        | Clt => if res then rec_lt r l rt else rec_le r rt l
        | Cle => if res then rec_le r l rt else rec_lt r rt l
        | Cgt => if res then rec_lt r rt l else rec_le r l rt
        | Cge => if res then rec_le r rt l else rec_lt r l rt
        | Ceq => if res then rec_eq r l rt else rec_ne r l rt
        | Cne => if res then rec_ne r l rt else rec_eq r l rt
        end), res).

  (** loop "for i: taddr_[i] = put_con_par( data_[i] )", vec_ad.hpp:485-486 *)
  Fixpoint put_con_list (r : rec) (l : list T) : rec * list nat :=
    match l with
    | [] => (r, [])
    | v :: l' => let '(r1, p) := put_con_par r v in
                 let '(r2, ps) := put_con_list r1 l' in (r2, p :: ps)
    end.

  (** vec_ad.hpp:485-498 (and 565-577): put the vector on the tape *)
  Definition vec_on_tape (r : rec) (v : VecAD) : rec * VecAD :=
    let '(r1, taddr) := put_con_list r (v_data v) in
    let '(r2, start) := put_var_vecad r1 taddr in
    (r2, mkVec (v_data v) tid (S start) T_var).

  Definition vec_var (v : VecAD) : bool := (v_tid v =? tid) && is_T_var (v_type v).

  (** vec_ad.hpp:440-502 VecAD::operator[](const AD&) *)
  Definition vec_index (r : rec) (v : VecAD) (ind : AD) : option (rec * VecAD) :=
    match index_of (b_int (a_val ind)) (length (v_data v)) with
    | None => None                                   (* assert known *)
    | Some _ =>
      if negb (vec_var v) && negb (is_dyn ind || is_var ind) then Some (r, v)
      else if negb (vec_var v) then Some (vec_on_tape r v)
      else Some (r, v)
    end.

  (** vec_ad.hpp:187-273 VecAD_reference::ADBase(): a load *)
  Definition vec_load (r : rec) (v : VecAD) (ind : AD) : option (rec * AD) :=
    match index_of (b_int (a_val ind)) (length (v_data v)) with
    | None => None
    | Some i =>
      let x := nth i (v_data v) b0 in
      let con_ind := negb (is_dyn ind || is_var ind) in
      if negb (vec_var v) && con_ind then Some (r, con_ad x)
      else
        let '(r1, p) := if con_ind then put_con_par r (a_val ind) else (r, a_taddr ind) in
        let '(r2, z) := put_load_op (put_arg r1 [v_off v; p; r_nload r1])
                                    (if is_var ind then LdvOp else LdpOp) in
        Some (r2, mkAD x tid z T_var)
    end.

  (** vec_ad.hpp:508-640 VecAD_reference::operator=(const AD&): a store *)
  Definition vec_store (r : rec) (v : VecAD) (ind rt : AD) : option (rec * VecAD) :=
    match index_of (b_int (a_val ind)) (length (v_data v)) with
    | None => None
    | Some i =>
      let v1 := mkVec (lset (v_data v) i (a_val rt)) (v_tid v) (v_off v) (v_type v) in
      let con_ind := negb (is_dyn ind || is_var ind) in
      let con_right := negb (is_dyn rt || is_var rt) in
      if negb (vec_var v1) && con_right then Some (r, v1)
      else
        let '(r1, v2) := if negb (vec_var v1) then vec_on_tape r v1 else (r, v1) in
        let '(r2, p) := if con_ind then put_con_par r1 (a_val ind) else (r1, a_taddr ind) in
        let '(r3, q) := if con_right then put_con_par r2 (a_val rt) else (r2, a_taddr rt) in
        let o := if is_var rt then (if is_var ind then StvvOp else StpvOp)
                 else (if is_var ind then StvpOp else StppOp) in
        Some (fst (put_op (put_arg r3 [v_off v2; p; q]) o), v2)
    end.

  (** the user's objects while recording *)
  Record state := mkState { st_r : nat -> AD; st_v : nat -> VecAD; st_rec : rec }.

  Definition set_ad (s : state) (d : nat) (p : rec * AD) : state :=
    mkState (fset (st_r s) d (snd p)) (st_v s) (fst p).

  (** execution of one statement of the user's algorithm in AD<Base> *)
  Definition step_rec (i : instr T) (s : state) : option state :=
    let r := st_rec s in
    match i with
    | Iconst d c => Some (set_ad s d (r, con_ad c))       (* ad_assign.hpp *)
    | Icopy d x => Some (set_ad s d (r, st_r s x))
    | Iun u d x => Some (set_ad s d (ad_un u r (st_r s x)))
    | Ibin o d l rt => Some (set_ad s d (ad_bin o r (st_r s l) (st_r s rt)))
    | Ieq o d rt => Some (set_ad s d (ad_eq o r (st_r s d) (st_r s rt)))
    | Icond c d l rt t f =>
        Some (set_ad s d (ad_cond c r (st_r s l) (st_r s rt) (st_r s t) (st_r s f)))
    | Idis k d x => Some (set_ad s d (ad_dis k r (st_r s x)))
    | Ild d v i =>
        match vec_index r (st_v s v) (st_r s i) with
        | None => None
        | Some (r1, v1) =>
          match vec_load r1 v1 (st_r s i) with
          | None => None
          | Some (r2, a) =>
            Some (mkState (fset (st_r s) d a) (fset (st_v s) v v1) r2)
          end
        end
    | Ist v i x =>
        match vec_index r (st_v s v) (st_r s i) with
        | None => None
        | Some (r1, v1) =>
          match vec_store r1 v1 (st_r s i) (st_r s x) with
          | None => None
          | Some (r2, v2) => Some (mkState (st_r s) (fset (st_v s) v v2) r2)
          end
        end
    end.

  (** local/ad_tape.hpp:163-176 RecordParOp *)
  Definition record_par_op (r : rec) (y : AD) : rec * nat :=
    if is_dynamic y then put_op (put_arg r [a_taddr y]) ParOp
    else let '(r1, p) := put_con_par r (a_val y) in put_op (put_arg r1 [p]) ParOp.

  (** core/dependent.hpp:251-263: dep_taddr_ *)
  Fixpoint dep_loop (r : rec) (ys : list AD) : rec * list nat :=
    match ys with
    | [] => (r, [])
    | y :: ys' =>
      let '(r1, t) := if is_parameter y then record_par_op r y else (r, a_taddr y) in
      let '(r2, ts) := dep_loop r1 ys' in (r2, t :: ts)
    end.

  (** run the algorithm; at its end Dependent (dependent.hpp:232-266) appends
      ParOp for parameter dependents and EndOp. *)
  Fixpoint exec (p : prog T) (s : state) : option (rec * list nat) :=
    match p with
    | Pret ys =>
        let '(r, dep) := dep_loop (st_rec s) (map (st_r s) ys) in
        Some (fst (put_op r EndOp), dep)
    | Pstep i p' => match step_rec i s with Some s' => exec p' s' | None => None end
    | Pif c l rt pt pf =>
        let '(r, res) := ad_cmp c (st_rec s) (st_r s l) (st_r s rt) in
        exec (if res then pt else pf) (mkState (st_r s) (st_v s) r)
    end.

  (** local/independent.hpp:67-75: x[j] becomes a variable, for j = k, ..., n-1 *)
  Fixpoint ind_loop (k : nat) (n : nat) (r : rec) (e : nat -> AD) : rec * (nat -> AD) :=
    match n with
    | 0 => (r, e)
    | S n' => let '(r1, a) := put_op r InvOp in
              ind_loop (S k) n' r1 (fset e k (mkAD (a_val (e k)) tid a T_var))
    end.
  (** local/independent.hpp:92-109: dynamic[j] (register nx + j), j = k, ... *)
  Fixpoint dyn_ind_loop (nx k n : nat) (r : rec) (e : nat -> AD) : rec * (nat -> AD) :=
    match n with
    | 0 => (r, e)
    | S n' =>
      let '(r1, _) := put_dyn_par r (a_val (e (nx + k))) ind_dyn [] in
      dyn_ind_loop nx (S k) n' r1
        (fset e (nx + k) (mkAD (a_val (e (nx + k))) tid (S k) T_dyn))
    end.
  (** local/independent.hpp:34-110 ADTape::Independent with n independent
      variables (registers 0..n-1) and np dynamic parameters (n..n+np-1) *)
  Definition independent (cmp : bool) (n np : nat) (e : nat -> AD) (ev : nat -> VecAD) : state :=
    let r1 := fst (put_op (rec0 cmp) BeginOp) in
    let r2 := put_arg r1 [0] in
    let '(r3, e1) := ind_loop 0 n r2 e in
    let '(r4, _) := put_con_par r3 bnan in
    let '(r5, e2) := dyn_ind_loop n 0 np r4 e1 in
    mkState e2 ev r5.
  End Tid.

  (** ** Dynamic parameter sweep: local/sweep/dynamic.hpp:87-563 *)

  (** local/play/dyn_player.hpp:350-357 dyn2par_index_ *)
  Fixpoint dyn2par (isd : list bool) (i : nat) : list nat :=
    match isd with
    | [] => []
    | true :: l => i :: dyn2par l (S i)
    | false :: l => dyn2par l (S i)
    end.

  (** sweep/dynamic.hpp:167-418: the value assigned to par_all[i_par].
      [a] are the arguments of this operator, [ind] is ind_dynamic[i_dyn]. *)
  Definition dyn_sem (o : opdyn) (a : list nat) (ind : T) (P : nat -> T) : T :=
    let p0 := P (nth 0 a 0) in
    let p1 := P (nth 1 a 0) in
    match o with
    | acos_dyn => b_un Uacos p0 | asin_dyn => b_un Uasin p0 | atan_dyn => b_un Uatan p0
    | cos_dyn => b_un Ucos p0 | cosh_dyn => b_un Ucosh p0 | exp_dyn => b_un Uexp p0
    | fabs_dyn => b_un Ufabs p0 | log_dyn => b_un Ulog p0 | sin_dyn => b_un Usin p0
    | sinh_dyn => b_un Usinh p0 | sqrt_dyn => b_un Usqrt p0 | tan_dyn => b_un Utan p0
    | tanh_dyn => b_un Utanh p0 | asinh_dyn => b_un Uasinh p0 | acosh_dyn => b_un Uacosh p0
    | atanh_dyn => b_un Uatanh p0 | expm1_dyn => b_un Uexpm1 p0 | erf_dyn => b_un Uerf p0
    | erfc_dyn => b_un Uerfc p0 | log1p_dyn => b_un Ulog1p p0
    | abs_dyn => b_un Ufabs p0
    | neg_dyn => b_un Uneg p0 | sign_dyn => b_un Usign p0
    | add_dyn => b_bin Badd p0 p1 | div_dyn => b_bin Bdiv p0 p1
    | mul_dyn => b_bin Bmul p0 p1 | pow_dyn => b_bin Bpow p0 p1
    | sub_dyn => b_bin Bsub p0 p1 | zmul_dyn => b_bin Bazmul p0 p1
    | dis_dyn => b_dis (nth 0 a 0) p1
    | ind_dyn => ind
    | cond_exp_dyn => cond_exp_code (nth 0 a 0) p1 (P (nth 2 a 0)) (P (nth 3 a 0)) (P (nth 4 a 0))
    end.

  (** sweep/dynamic.hpp:133-560: the loop; [args] is dyn_par_arg from i_arg on,
      [ind] is ind_dynamic from i_dyn on. *)
  Fixpoint dyn_loop (ops : list opdyn) (idx args : list nat) (ind : list T)
           (P : nat -> T) : nat -> T :=
    match ops, idx with
    | o :: ops', i :: idx' =>
      let n := num_arg_dyn o in
      dyn_loop ops' idx' (skipn n args) (tl ind)
               (fset P i (dyn_sem o (firstn n args) (hd b0 ind) P))
    | _, _ => P
    end.
  Definition dyn_sweep (r : rec) (ind : list T) (P : nat -> T) : nat -> T :=
    dyn_loop (r_dop r) (dyn2par (r_isdyn r) 0) (r_darg r) ind P.

  (** ** Zero order forward sweep: local/sweep/forward_0.hpp:46-572 *)

  (** state of the sweep: zero order coefficients (taylor[ i * cap_order ]),
      vec_ad2isvar, vec_ad2index, load_op2var, compare_change_number,
      compare_change_op_index and cskip_op. *)
  Record fst0 := mkF {
    f_V : nat -> T; f_isv : nat -> bool; f_idx : nat -> nat; f_l2v : nat -> nat;
    f_num : nat; f_opi : nat; f_skip : nat -> bool }.

  (** write the results of an operator: [l] are the values of its NumRes
      results, the last one at [iv] *)
  Fixpoint put_res (V : nat -> T) (first : nat) (l : list T) : nat -> T :=
    match l with
    | [] => V
    | x :: l' => put_res (fset V first x) (S first) l'
    end.

  (** csum_op.hpp:199-203, 206-218: bounds are positions in the argument list *)
  Definition arg_range (a : list nat) (lo hi : nat) : list nat :=
    firstn (hi - lo) (skipn lo a).
  (** csum_op.hpp:168-219 csum_forward_any at order zero *)
  Definition csum0 (a : list nat) (P V : nat -> T) : T :=
    let g k := nth k a 0 in
    let z := P (g 0) in
    let z := fold_left (fun z i => b_bin Badd z (P i)) (arg_range a (g 2) (g 3)) z in
    let z := fold_left (fun z i => b_bin Bsub z (P i)) (arg_range a (g 3) (g 4)) z in
    let z := fold_left (fun z i => b_bin Badd z (V i)) (arg_range a 5 (g 1)) z in
    fold_left (fun z i => b_bin Bsub z (V i)) (arg_range a (g 1) (g 2)) z.

  (** cexp_op.hpp:511-542: variable or parameter according to a bit of arg[1] *)
  Definition vp (m : nat) (bit : nat) (P V : nat -> T) (i : nat) : T :=
    if Nat.testbit m bit then V i else P i.

  (** The results of the operators that only compute values, in order of their
      result index (the primary result is last).  local/var_op/*_op.hpp,
      functions *_forward_0; lines given per operator. *)
  Definition sem0 (o : opvar) (a : list nat) (P V : nat -> T) : option (list T) :=
    let a0 := nth 0 a 0 in
    let a1 := nth 1 a 0 in
    let un u := b_un u (V a0) in
    let mul := b_bin Bmul in
    let x2 := mul (V a0) (V a0) in
    match o with
    | AbsOp => Some [un Ufabs]                                   (* abs 75-96 *)
    | AddvvOp => Some [b_bin Badd (V a0) (V a1)]                 (* add 78-96 *)
    | AddpvOp => Some [b_bin Badd (P a0) (V a1)]                 (* add 202-222 *)
    | AcosOp => Some [b_un Usqrt (b_bin Bsub b1 x2); un Uacos]   (* acos 114-136 *)
    | AcoshOp => Some [b_un Usqrt (b_bin Bsub x2 b1); un Uacosh] (* acosh 115-137 *)
    | AsinOp => Some [b_un Usqrt (b_bin Bsub b1 x2); un Uasin]   (* asin 114-136 *)
    | AsinhOp => Some [b_un Usqrt (b_bin Badd b1 x2); un Uasinh] (* asinh 115-137 *)
    | AtanOp => Some [b_bin Badd b1 x2; un Uatan]                (* atan 101-123 *)
    | AtanhOp => Some [b_bin Bsub b1 x2; un Uatanh]              (* atanh 102-124 *)
    | CExpOp =>                                                  (* cexp 495-552 *)
        Some [cond_exp_code a0 (vp a1 0 P V (nth 2 a 0)) (vp a1 1 P V (nth 3 a 0))
                (vp a1 2 P V (nth 4 a 0)) (vp a1 3 P V (nth 5 a 0))]
    | CosOp => Some [un Usin; un Ucos]                           (* cos 107-129 *)
    | CoshOp => Some [un Usinh; un Ucosh]                        (* cosh 107-129 *)
    | CSumOp => Some [csum0 a P V]                               (* csum 168-219 *)
    | DisOp => Some [b_dis a0 (V a1)]                            (* dis 152-184 *)
    | DivvvOp => Some [b_bin Bdiv (V a0) (V a1)]                 (* div 91-109 *)
    | DivpvOp => Some [b_bin Bdiv (P a0) (V a1)]                 (* div 244-264 *)
    | DivvpOp => Some [b_bin Bdiv (V a0) (P a1)]                 (* div 389-409 *)
    | ErfOp | ErfcOp =>                                          (* erf 218-268 *)
        let z1 := b_bin Bsub (P a1) x2 in
        let z2 := b_un Uexp z1 in
        Some [x2; z1; z2; mul (P (nth 2 a 0)) z2;
              un (match o with ErfOp => Uerf | _ => Uerfc end)]
    | ExpOp => Some [un Uexp]                                    (* exp 91-111 *)
    | Expm1Op => Some [un Uexpm1]                                (* expm1 91-111 *)
    | LogOp => Some [un Ulog]                                    (* log 98-119 *)
    | Log1pOp => Some [un Ulog1p]                                (* log1p 96-117 *)
    | MulvvOp => Some [mul (V a0) (V a1)]                        (* mul 83-101 *)
    | MulpvOp => Some [mul (P a0) (V a1)]                        (* mul 215-235 *)
    | NegOp => Some [un Uneg]                                    (* neg 75-95 *)
    | ParOp => Some [P a0]                                       (* par 87-105 *)
    | PowvvOp =>                                                 (* pow 141-167 *)
        Some [un Ulog; mul (un Ulog) (V a1); b_bin Bpow (V a0) (V a1)]
    | PowpvOp =>                                                 (* pow 384-417 *)
        Some [b_un Ulog (P a0); mul (b_un Ulog (P a0)) (V a1); b_bin Bpow (P a0) (V a1)]
    | PowvpOp => Some [b_bin Bpow (V a0) (P a1)]                 (* pow 621-641 *)
    | SignOp => Some [un Usign]                                  (* sign 74-95 *)
    | SinOp => Some [un Ucos; un Usin]                           (* sin 108-130 *)
    | SinhOp => Some [un Ucosh; un Usinh]                        (* sinh 108-130 *)
    | SqrtOp => Some [un Usqrt]                                  (* sqrt 94-114 *)
    | SubvvOp => Some [b_bin Bsub (V a0) (V a1)]                 (* sub 75-93 *)
    | SubpvOp => Some [b_bin Bsub (P a0) (V a1)]                 (* sub 198-218 *)
    | SubvpOp => Some [b_bin Bsub (V a0) (P a1)]                 (* sub 322-342 *)
    | TanOp => Some [mul (un Utan) (un Utan); un Utan]           (* tan 103-125 *)
    | TanhOp => Some [mul (un Utanh) (un Utanh); un Utanh]       (* tanh 102-124 *)
    | ZmulvvOp => Some [b_bin Bazmul (V a0) (V a1)]              (* zmul 83-101 *)
    | ZmulpvOp => Some [b_bin Bazmul (P a0) (V a1)]              (* zmul 212-232 *)
    | ZmulvpOp => Some [b_bin Bazmul (V a0) (P a1)]              (* zmul 336-356 *)
    | _ => None
    end.

  (** compare_op.hpp:187-263 : Some true when the comparison changed;
      None when [o] is not a comparison *)
  Definition cmp_change (o : opvar) (a : list nat) (P V : nat -> T) : option bool :=
    let a0 := nth 0 a 0 in
    let a1 := nth 1 a 0 in
    match o with
    | EqppOp => Some (b_cmp Cne (P a0) (P a1))
    | EqpvOp => Some (b_cmp Cne (P a0) (V a1))
    | EqvvOp => Some (b_cmp Cne (V a0) (V a1))
    | LeppOp => Some (gtz (b_bin Bsub (P a0) (P a1)))
    | LepvOp => Some (gtz (b_bin Bsub (P a0) (V a1)))
    | LevpOp => Some (gtz (b_bin Bsub (V a0) (P a1)))
    | LevvOp => Some (gtz (b_bin Bsub (V a0) (V a1)))
    | LtppOp => Some (gez (b_bin Bsub (P a0) (P a1)))
    | LtpvOp => Some (gez (b_bin Bsub (P a0) (V a1)))
    | LtvpOp => Some (gez (b_bin Bsub (V a0) (P a1)))
    | LtvvOp => Some (gez (b_bin Bsub (V a0) (V a1)))
    | NeppOp => Some (b_cmp Ceq (P a0) (P a1))
    | NepvOp => Some (b_cmp Ceq (P a0) (V a1))
    | NevvOp => Some (b_cmp Ceq (V a0) (V a1))
    | _ => None
    end.

  (** cskip_op.hpp:186-216: true_case *)
  Definition cskip_true (a : list nat) (P V : nat -> T) : bool :=
    let m := nth 1 a 0 in
    let diff := b_bin Bsub (vp m 0 P V (nth 2 a 0)) (vp m 1 P V (nth 3 a 0)) in
    match nth 0 a 0 with
    | 0 => negb (gez diff)           (* LessThanZero *)
    | 1 => negb (gtz diff)           (* LessThanOrZero *)
    | 2 => is0 diff
    | 3 => gez diff
    | 4 => gtz diff
    | 5 => negb (is0 diff)
    | _ => false
    end.

  (** one operator; [k] is its op_index, [cc] is compare_change_count *)
  Definition step0 (P : nat -> T) (cc : nat) (i : ins) (k : nat) (s : fst0) : option fst0 :=
    let 'mkIns o a iv := i in
    let V := f_V s in
    let setV l := mkF (put_res V (iv + 1 - length l) l) (f_isv s) (f_idx s)
                      (f_l2v s) (f_num s) (f_opi s) (f_skip s) in
    match sem0 o a P V with
    | Some l => Some (setV l)
    | None =>
    match cmp_change o a P V with
    | Some ch =>                          (* compare_op.hpp:182-183, 264-268 *)
      if (cc =? 0) || negb ch then Some s
      else Some (mkF V (f_isv s) (f_idx s) (f_l2v s) (S (f_num s))
                     (if S (f_num s) =? cc then k else f_opi s) (f_skip s))
    | None =>
    match o with
    | BeginOp | EndOp | InvOp | PriOp => Some s
    | LdpOp | LdvOp =>                    (* load_op.hpp:197-263 *)
      let x := match o with LdpOp => P (nth 1 a 0) | _ => V (nth 1 a 0) end in
      match index_of (b_int x) (f_idx s (nth 0 a 0 - 1)) with
      | None => None                      (* assert known *)
      | Some iv' =>
        let i_y := f_idx s (nth 0 a 0 + iv') in
        let isv := f_isv s (nth 0 a 0 + iv') in
        Some (mkF (fset V iv (if isv then V i_y else P i_y)) (f_isv s) (f_idx s)
                  (fset (f_l2v s) (nth 2 a 0) (if isv then i_y else 0))
                  (f_num s) (f_opi s) (f_skip s))
      end
    | StppOp | StpvOp | StvpOp | StvvOp => (* store_op.hpp:170-233 *)
      let x := match o with StppOp | StpvOp => P (nth 1 a 0) | _ => V (nth 1 a 0) end in
      let isv := match o with StpvOp | StvvOp => true | _ => false end in
      match index_of (b_int x) (f_idx s (nth 0 a 0 - 1)) with
      | None => None
      | Some iv' =>
        Some (mkF V (fset (f_isv s) (nth 0 a 0 + iv') isv)
                  (fset (f_idx s) (nth 0 a 0 + iv') (nth 2 a 0))
                  (f_l2v s) (f_num s) (f_opi s) (f_skip s))
      end
    | CSkipOp =>                          (* cskip_op.hpp:146-226 *)
      let l := if cskip_true a P V then arg_range a 6 (6 + nth 4 a 0)
               else arg_range a (6 + nth 4 a 0) (6 + nth 4 a 0 + nth 5 a 0) in
      Some (mkF V (f_isv s) (f_idx s) (f_l2v s) (f_num s) (f_opi s)
                (fold_left (fun f j => fset f j true) l (f_skip s)))
    | _ => None                           (* atomic functions: not modelled *)
    end end end.

  (** forward_0.hpp:138-565: the loop over operators *)
  Fixpoint sweep0 (P : nat -> T) (cc : nat) (l : list ins) (k : nat) (s : fst0) : option fst0 :=
    match l with
    | [] => Some s
    | i :: l' =>
      if f_skip s k then sweep0 P cc l' (S k) s
      else match step0 P cc i k s with
           | None => None
           | Some s' => sweep0 P cc l' (S k) s'
           end
    end.

  (** forward_0.hpp:71-96: initialisation *)
  Definition init0 (r : rec) (V : nat -> T) (l2v : nat -> nat) : fst0 :=
    mkF V (fun _ => false) (fun i => nth i (r_vec r) 0) l2v 0 0 (fun _ => false).

  (** ** ADFun *)
  Record adfun := mkFun {
    g_rec : rec;              (* play_ (immutable part) *)
    g_n   : nat;              (* ind_taddr_.size() *)
    g_dep : list nat;         (* dep_taddr_ *)
    g_par : nat -> T;         (* play_.par_all() *)
    g_V   : nat -> T;         (* zero order row of taylor_ *)
    g_l2v : nat -> nat;       (* load_op2var_ *)
    g_cc  : nat;              (* compare_change_count_ *)
    g_num : nat;              (* compare_change_number_ *)
    g_opi : nat               (* compare_change_op_index_ *)
  }.

  (** Independent, the algorithm, then Dependent (core/dependent.hpp:232-328).
      [V0] is the (indeterminate) initial content of taylor_. *)
  Definition record_fun (tid : nat) (cmp : bool) (n np : nat) (e : nat -> AD)
    (ev : nat -> VecAD) (p : prog T) (V0 : nat -> T) (l2v : nat -> nat) : option adfun :=
    match exec tid p (independent tid cmp n np e ev) with
    | None => None
    | Some (r, dep) =>
      Some (mkFun r n dep (fun i => nth i (r_par r) bnan) V0 l2v 1 0 0)
    end.

  (** core/new_dynamic.hpp:95-128 *)
  Definition new_dynamic (f : adfun) (d : list T) : adfun :=
    mkFun (g_rec f) (g_n f) (g_dep f) (dyn_sweep (g_rec f) d (g_par f))
          (g_V f) (g_l2v f) (g_cc f) (g_num f) (g_opi f).

  (** core/forward/forward.hpp:97-314 with q = 0: set the independent variables
      (ind_taddr_[j] = j+1, dependent.hpp:297-302), sweep, collect. *)
  Fixpoint set_ind (V : nat -> T) (j : nat) (x : list T) : nat -> T :=
    match x with [] => V | v :: x' => set_ind (fset V (S j) v) (S j) x' end.
  Definition forward0 (f : adfun) (x : list T) : option (list T * adfun) :=
    let r := g_rec f in
    match decode (r_op r) (r_arg r) 0 with
    | None => None
    | Some l =>
      (* forward.hpp:164-167: order zero of every variable becomes nan *)
      let V := set_ind (fun i => if i <? r_nvar r then bnan else g_V f i) 0 x in
      match sweep0 (g_par f) (g_cc f) l 0 (init0 r V (g_l2v f)) with
      | None => None
      | Some s => Some (map (f_V s) (g_dep f),
                        mkFun r (g_n f) (g_dep f) (g_par f) (f_V s) (f_l2v s)
                              (g_cc f) (f_num s) (f_opi s))
      end
    end.

  (** compare_change_count(c), core/ad_fun.hpp / fun_eval.hpp *)
  Definition set_compare_change_count (f : adfun) (c : nat) : adfun :=
    mkFun (g_rec f) (g_n f) (g_dep f) (g_par f) (g_V f) (g_l2v f) c 0 0.
End Model.
Arguments AD : clear implicits. Arguments VecAD : clear implicits.
Arguments rec : clear implicits. Arguments state : clear implicits.
Arguments fst0 : clear implicits. Arguments adfun : clear implicits.
