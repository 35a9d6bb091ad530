(** Vocabulary shared by specification and model: what CppAD requires of a
    [Base] type (include/cppad/core/base_*.hpp, "base_require").
    [base] is a record of operations; nothing is assumed about them.
    [base_laws] collects the algebraic facts that CppAD's own recording
    short-cuts (0+x, 1*x, 0*x, ...) silently rely on; it is an explicit premise
    of the theorems that need it.  Exact arithmetic ([Z] below, R in other
    files) satisfies them; IEEE numbers satisfy them except at nan, infinities
    and signed zeros (see the remarks in DESIGN.md). *)
From Coq Require Import ZArith List Bool Lia.
Import ListNotations.

(** the unary functions of AD<Base>: unary minus, abs, fabs, sign and the
    standard math functions (core/unary_minus.hpp, abs.hpp, sign.hpp,
    std_math_11.hpp:775-805). *)
Inductive unop :=
| Uneg | Uabs | Ufabs | Usign
| Uacos | Uacosh | Uasin | Uasinh | Uatan | Uatanh | Ucos | Ucosh
| Uexp | Uexpm1 | Ulog | Ulog1p | Usin | Usinh | Usqrt | Utan | Utanh
| Uerf | Uerfc.

(** the binary functions *)
Inductive binop := Badd | Bsub | Bmul | Bdiv | Bazmul | Bpow.

(** the comparison operators *)
Inductive cmpop := Clt | Cle | Ceq | Cge | Cgt | Cne.

Record base := mkBase {
  bt    : Type;
  b0    : bt;                          (* Base(0.0) *)
  b1    : bt;                          (* Base(1.0) *)
  bnan  : bt;                          (* quiet_NaN *)
  berf  : bt;                          (* Base(1.0/sqrt(atan(1.0))) *)
  b_un  : unop -> bt -> bt;
  b_bin : binop -> bt -> bt -> bt;
  b_cmp : cmpop -> bt -> bt -> bool;   (* Base comparison operators *)
  b_dis : nat -> bt -> bt;             (* user's discrete functions *)
  b_int : bt -> Z;                     (* Integer(x) *)
  is0   : bt -> bool;                  (* IdenticalZero *)
  is1   : bt -> bool;                  (* IdenticalOne *)
  ideq  : bt -> bt -> bool;            (* IdenticalEqualCon *)
  gtz   : bt -> bool;                  (* GreaterThanZero *)
  gez   : bt -> bool;                  (* GreaterThanOrZero *)
  bhash : bt -> nat                    (* hash_code *)
}.

Arguments b0 {b}. Arguments b1 {b}. Arguments bnan {b}. Arguments berf {b}.
Arguments b_un {b}. Arguments b_bin {b}. Arguments b_cmp {b}.
Arguments b_dis {b}. Arguments b_int {b}. Arguments is0 {b}. Arguments is1 {b}.
Arguments ideq {b}. Arguments gtz {b}. Arguments gez {b}. Arguments bhash {b}.

Record base_laws (b : base) : Prop := {
  l_is0   : forall x : bt b, is0 x = true -> x = b0;
  l_is1   : forall x : bt b, is1 x = true -> x = b1;
  l_ideq  : forall x y : bt b, ideq x y = true -> x = y;
  l_add0l : forall x : bt b, b_bin Badd b0 x = x;
  l_add0r : forall x : bt b, b_bin Badd x b0 = x;
  l_addC  : forall x y : bt b, b_bin Badd x y = b_bin Badd y x;
  l_sub0r : forall x : bt b, b_bin Bsub x b0 = x;
  l_mul0l : forall x : bt b, b_bin Bmul b0 x = b0;
  l_mul0r : forall x : bt b, b_bin Bmul x b0 = b0;
  l_mul1l : forall x : bt b, b_bin Bmul b1 x = x;
  l_mul1r : forall x : bt b, b_bin Bmul x b1 = x;
  l_mulC  : forall x y : bt b, b_bin Bmul x y = b_bin Bmul y x;
  l_div0l : forall x : bt b, b_bin Bdiv b0 x = b0;
  l_div1r : forall x : bt b, b_bin Bdiv x b1 = x;
  l_azmul : forall x y : bt b,
              b_bin Bazmul x y = if is0 x then b0 else b_bin Bmul x y;
  l_pow0  : forall x x' : bt b, b_bin Bpow x b0 = b_bin Bpow x' b0;
  l_abs   : forall x : bt b, b_un Uabs x = b_un Ufabs x;
  l_ge    : forall x y : bt b, b_cmp Cge x y = b_cmp Cle y x;
  l_gt    : forall x y : bt b, b_cmp Cgt x y = b_cmp Clt y x;
  l_ne    : forall x y : bt b, b_cmp Cne x y = negb (b_cmp Ceq x y);
  l_eqC   : forall x y : bt b, b_cmp Ceq x y = b_cmp Ceq y x;
  l_total : forall x y : bt b, b_cmp Cle x y = negb (b_cmp Clt y x);
  l_gtz   : forall x y : bt b, gtz (b_bin Bsub x y) = b_cmp Clt y x;
  l_gez   : forall x y : bt b, gez (b_bin Bsub x y) = b_cmp Cle y x
}.

(** ** A computable instance: exact integer arithmetic.
    The transcendental functions are arbitrary integer functions here; they
    only matter through the fact that recording and replay apply the same one. *)
Definition Z_un (u : unop) (x : Z) : Z :=
  match u with
  | Uneg => - x | Uabs | Ufabs => Z.abs x | Usign => Z.sgn x
  | Uexp => x * x + 1 | Usin => x * x - x | Ucos => 3 * x - 1
  | Usqrt => Z.sqrt x | Ulog => Z.log2 x | Uerf => 2 * x + 7
  | Uerfc => 1 - (2 * x + 7)
  | _ => x + 5
  end%Z.
Definition Z_bin (o : binop) (x y : Z) : Z :=
  match o with
  | Badd => x + y | Bsub => x - y | Bmul => x * y | Bdiv => x / y
  | Bazmul => if x =? 0 then 0 else x * y
  | Bpow => x ^ y
  end%Z.
Definition Z_cmp (c : cmpop) (x y : Z) : bool :=
  match c with
  | Clt => x <? y | Cle => x <=? y | Ceq => x =? y
  | Cge => y <=? x | Cgt => y <? x | Cne => negb (x =? y)
  end%Z.
Definition Zbase : base := mkBase Z 0%Z 1%Z (-999)%Z 2%Z Z_un Z_bin Z_cmp
  (fun k x => (x / 2 + Z.of_nat k)%Z) (fun x => x)
  (fun x => (x =? 0)%Z) (fun x => (x =? 1)%Z) Z.eqb
  (fun x => (0 <? x)%Z) (fun x => (0 <=? x)%Z) (fun x => Z.to_nat (x mod 97)).

Lemma Zbase_laws : base_laws Zbase.
Proof.
  constructor; cbn; intros; auto with zarith;
    try (now apply Z.eqb_eq); try (destruct x; reflexivity).
  - now rewrite Z.eqb_sym.
  - now rewrite Z.leb_antisym.
  - destruct (Z.ltb_spec 0 (x - y)), (Z.ltb_spec y x); auto; lia.
  - destruct (Z.leb_spec 0 (x - y)), (Z.leb_spec y x); auto; lia.
Qed.
