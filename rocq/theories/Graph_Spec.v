(** Specification for C25: what an AD graph means (the documentation cpp_ad_graph.xrst, json_graph_op.xrst); nothing of the model occurs here.
    Node 0 is not used (its value is nan); then come the independent dynamic parameters, the independent variables, the constants
    and the results of the operators, in this order. *)
From Coq Require Import String List Bool Arith.
From Verif Require Import Base_Spec.
Import ListNotations.

Inductive gcexp := GLt | GLe | GEq.           (* cexp_lt, cexp_le, cexp_eq *)
Inductive gcomp := HLt | HLe | HEq | HNe.     (* comp_lt, comp_le, comp_eq, comp_ne *)
(** operators of a graph; a discrete function is identified by its name *)
Inductive gop :=
| Gun (u : unop) | Gbin (o : binop) | Gcexp (c : gcexp) | Gcomp (c : gcomp) | Gsum | Gdis (name : string).
Record gusage := mkUse { gu_op : gop; gu_arg : list nat }.
Definition gcexp_cmp (c : gcexp) : cmpop := match c with GLt => Clt | GLe => Cle | GEq => Ceq end.

Section Graph.
  Context {b : base}.
  Notation T := (bt b).
  Record graph := mkGraph {
    gr_ndyn : nat; gr_nvar : nat;             (* number of independent dynamic parameters and variables *)
    gr_con : list T; gr_ops : list gusage; gr_dep : list nat }.

  (** the registered discrete functions have the names [reg] *)
  Variable reg : list string.
  Definition name_index (s : string) : option nat := find (fun k => String.eqb (nth k reg EmptyString) s) (seq 0 (length reg)).

  (** the result of an operator; none for a comparison *)
  Definition use_value (vals : list T) (u : gusage) : list T :=
    let x i := nth (nth i (gu_arg u) 0) vals bnan in
    match gu_op u with
    | Gun o => [b_un o (x 0)]
    | Gbin o => [b_bin o (x 0) (x 1)]
    | Gcexp c => [if b_cmp (gcexp_cmp c) (x 0) (x 1) then x 2 else x 3]
    | Gcomp _ => []
    | Gsum => [fold_left (fun s k => b_bin Badd s (nth k vals bnan)) (gu_arg u) b0]
    | Gdis s => [match name_index s with Some k => b_dis k (x 0) | None => bnan end]
    end.
  (** the values of all nodes *)
  Fixpoint nodes (ops : list gusage) (vals : list T) : list T :=
    match ops with [] => vals | u :: ops' => nodes ops' (vals ++ use_value vals u) end.
  (** [u]: the independent dynamic parameters followed by the independent variables *)
  Definition graph_eval (g : graph) (u : list T) : list T :=
    let vals := nodes (gr_ops g) (bnan :: u ++ gr_con g) in map (fun k => nth k vals bnan) (gr_dep g).
End Graph.
Arguments graph b : clear implicits.

(** The values of the independent nodes of a graph when some of them are dynamic parameters (false) and the others variables (true) of a function:
    [d] and [x] are the values of the dynamic parameters and of the variables, each in order. *)
Fixpoint indep {A} (v0 : A) (kinds : list bool) (d x : list A) : list A :=
  match kinds with
  | [] => []
  | true :: ks => hd v0 x :: indep v0 ks d (tl x)
  | false :: ks => hd v0 d :: indep v0 ks (tl d) x
  end.
