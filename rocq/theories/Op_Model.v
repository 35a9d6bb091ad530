(** Operator codes and their argument / result tables. *)
From Coq Require Import List Arith.
Import ListNotations.

(** local/op_code_var.hpp:194-268  enum op_code_var (same order). *)
Inductive opvar :=
| AFunOp | AbsOp | AcosOp | AcoshOp | AddpvOp | AddvvOp | AsinOp | AsinhOp
| AtanOp | AtanhOp | BeginOp | CExpOp | CSkipOp | CSumOp | CosOp | CoshOp
| DisOp | DivpvOp | DivvpOp | DivvvOp | EndOp | EqppOp | EqpvOp | EqvvOp
| ErfOp | ErfcOp | ExpOp | Expm1Op | FunapOp | FunavOp | FunrpOp | FunrvOp
| InvOp | LdpOp | LdvOp | LeppOp | LepvOp | LevpOp | LevvOp | Log1pOp | LogOp
| LtppOp | LtpvOp | LtvpOp | LtvvOp | MulpvOp | MulvvOp | NegOp | NeppOp
| NepvOp | NevvOp | ParOp | PowpvOp | PowvpOp | PowvvOp | PriOp | SignOp
| SinOp | SinhOp | SqrtOp | StppOp | StpvOp | StvpOp | StvvOp | SubpvOp
| SubvpOp | SubvvOp | TanOp | TanhOp | ZmulpvOp | ZmulvpOp | ZmulvvOp.

Definition opvar_eq_dec (a b : opvar) : {a = b} + {a <> b}.
Proof. decide equality. Defined.
Definition opvar_eqb (a b : opvar) : bool := if opvar_eq_dec a b then true else false.

(** local/op_code_var.hpp:299-401  NumArg (the table; CSkipOp and CSumOp are
    variable length, their table entry is 0). *)
Definition num_arg (o : opvar) : nat :=
  match o with
  | AFunOp => 4
  | AbsOp | AcosOp | AcoshOp | AsinOp | AsinhOp | AtanOp | AtanhOp | CosOp
  | CoshOp | ExpOp | Expm1Op | Log1pOp | LogOp | NegOp | SignOp | SinOp
  | SinhOp | SqrtOp | TanOp | TanhOp => 1
  | BeginOp | ParOp | FunapOp | FunavOp | FunrpOp => 1
  | FunrvOp | InvOp | EndOp | CSkipOp | CSumOp => 0
  | CExpOp => 6
  | ErfOp | ErfcOp | LdpOp | LdvOp | StppOp | StpvOp | StvpOp | StvvOp => 3
  | PriOp => 5
  | AddpvOp | AddvvOp | DisOp | DivpvOp | DivvpOp | DivvvOp
  | EqppOp | EqpvOp | EqvvOp | LeppOp | LepvOp | LevpOp | LevvOp
  | LtppOp | LtpvOp | LtvpOp | LtvvOp | MulpvOp | MulvvOp
  | NeppOp | NepvOp | NevvOp | PowpvOp | PowvpOp | PowvvOp
  | SubpvOp | SubvpOp | SubvvOp | ZmulpvOp | ZmulvpOp | ZmulvvOp => 2
  end.

(** local/op_code_var.hpp:420-509  NumRes. *)
Definition num_res (o : opvar) : nat :=
  match o with
  | AFunOp | CSkipOp | EndOp | EqppOp | EqpvOp | EqvvOp | FunapOp | FunavOp
  | FunrpOp | LeppOp | LepvOp | LevpOp | LevvOp | LtppOp | LtpvOp | LtvpOp
  | LtvvOp | NeppOp | NepvOp | NevvOp | PriOp | StppOp | StpvOp | StvpOp
  | StvvOp => 0
  | AcosOp | AcoshOp | AsinOp | AsinhOp | AtanOp | AtanhOp | CosOp | CoshOp
  | SinOp | SinhOp | TanOp | TanhOp => 2
  | PowpvOp | PowvvOp => 3
  | ErfOp | ErfcOp => 5
  | _ => 1
  end.

(** local/op_code_dyn.hpp:172-208  enum op_code_dyn.  [atom_dyn] and
    [result_dyn] (atomic function calls) are not modelled. *)
Inductive opdyn :=
| abs_dyn | acos_dyn | acosh_dyn | add_dyn | asin_dyn | asinh_dyn | atan_dyn
| atanh_dyn | cond_exp_dyn | cos_dyn | cosh_dyn | dis_dyn | div_dyn | erf_dyn
| erfc_dyn | exp_dyn | expm1_dyn | fabs_dyn | ind_dyn | log1p_dyn | log_dyn
| mul_dyn | neg_dyn | pow_dyn | sign_dyn | sin_dyn | sinh_dyn | sqrt_dyn
| sub_dyn | tan_dyn | tanh_dyn | zmul_dyn.

(** local/op_code_dyn.hpp:256-308  num_arg_dyn. *)
Definition num_arg_dyn (o : opdyn) : nat :=
  match o with
  | ind_dyn => 0
  | cond_exp_dyn => 5
  | add_dyn | dis_dyn | div_dyn | mul_dyn | pow_dyn | sub_dyn | zmul_dyn => 2
  | _ => 1
  end.

(** Number of [var_arg] entries actually used by an operator whose arguments
    start at [rest]:  NumArg except for the two variable length operators,
    local/play/sequential_iterator.hpp (correct_before_increment):
    CSumOp uses arg[4] + 1 entries, CSkipOp uses 7 + arg[4] + arg[5]. *)
Definition n_actual (o : opvar) (rest : list nat) : nat :=
  match o with
  | CSumOp => match nth_error rest 4 with
              | Some k => k + 1
              | None => S (length rest)      (* arg[4] outside of the vector *)
              end
  | CSkipOp => 7 + nth 4 rest 0 + nth 5 rest 0
  | _ => num_arg o
  end.

(** One decoded operator: code, its arguments, and the index of its last
    (primary) result [i_var] as reported by op_info(). *)
Record ins := mkIns { i_op : opvar; i_arg : list nat; i_var : nat }.

(** The operation sequence as seen by play::const_sequential_iterator:
    [nv] results precede this point (i_var = nv + NumRes - 1; the C++ index for
    an operator without results is that of the previous operator). *)
Fixpoint decode (ops : list opvar) (args : list nat) (nv : nat)
  : option (list ins) :=
  match ops with
  | [] => match args with [] => Some [] | _ => None end
  | o :: ops' =>
    let n := n_actual o args in
    if length args <? n then None
    else match decode ops' (skipn n args) (nv + num_res o) with
         | None => None
         | Some l => Some (mkIns o (firstn n args) (nv + num_res o - 1) :: l)
         end
  end.
