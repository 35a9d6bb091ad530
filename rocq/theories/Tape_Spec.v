(** Specification for C01-C03, C05-C07, C32: what a user's AD<Base> algorithm
    means when it is simply executed with Base arithmetic.  No tape, no AD
    object, nothing of the model occurs here.

    An algorithm is a tree of elementary statements on scalar objects
    ("registers") and arrays (VecAD objects), with branches on comparisons;
    a run follows one path. *)
From Coq Require Import ZArith List Bool Arith.
From Verif Require Import Base_Spec.
Import ListNotations.

(** operators that have a compound assignment form *)
Inductive eqop := Eadd | Esub | Emul | Ediv.
Definition eqop_bin (o : eqop) : binop :=
  match o with Eadd => Badd | Esub => Bsub | Emul => Bmul | Ediv => Bdiv end.

(** relations of the conditional expressions CondExpLt, Le, Eq, Ge, Gt *)
Inductive cexpop := XLt | XLe | XEq | XGe | XGt.
Definition cexp_cmp (c : cexpop) : cmpop :=
  match c with XLt => Clt | XLe => Cle | XEq => Ceq | XGe => Cge | XGt => Cgt end.

Inductive instr (T : Type) :=
| Iconst (d : nat) (c : T)                    (* d = c;          c : Base *)
| Icopy  (d s : nat)                          (* d = s; *)
| Iun    (u : unop) (d s : nat)               (* d = u(s); *)
| Ibin   (o : binop) (d l r : nat)            (* d = l o r; *)
| Ieq    (o : eqop) (d r : nat)               (* d o= r; *)
| Icond  (c : cexpop) (d l r t f : nat)       (* d = CondExpc(l, r, t, f); *)
| Idis   (k d s : nat)                        (* d = discrete_k(s); *)
| Ild    (d v i : nat)                        (* d = v[i]; *)
| Ist    (v i s : nat).                       (* v[i] = s; *)
Arguments Iconst {T}. Arguments Icopy {T}. Arguments Iun {T}.
Arguments Ibin {T}. Arguments Ieq {T}. Arguments Icond {T}.
Arguments Idis {T}. Arguments Ild {T}. Arguments Ist {T}.

Inductive prog (T : Type) :=
| Pret  (ys : list nat)                       (* dependents *)
| Pstep (i : instr T) (p : prog T)
| Pif   (c : cmpop) (l r : nat) (pt pf : prog T).   (* if( l c r ) pt else pf *)
Arguments Pret {T}. Arguments Pstep {T}. Arguments Pif {T}.

Section Eval.
  Context {b : base}.
  Notation T := (bt b).

  Record senv := mkEnv { sr : nat -> T; sv : nat -> list T }.

  Definition fset {A} (f : nat -> A) (k : nat) (a : A) : nat -> A :=
    fun i => if i =? k then a else f i.

  Definition set_r (s : senv) (d : nat) (x : T) := mkEnv (fset (sr s) d x) (sv s).

  (** replace element [i] of a list *)
  Fixpoint lset {A} (l : list A) (i : nat) (x : A) : list A :=
    match l, i with
    | [], _ => []
    | _ :: l', 0 => x :: l'
    | y :: l', S i' => y :: lset l' i' x
    end.

  (** an array index is valid when 0 <= Integer(x) < length *)
  Definition index_of (z : Z) (len : nat) : option nat :=
    if ((0 <=? z)%Z && (z <? Z.of_nat len)%Z)%bool then Some (Z.to_nat z) else None.

  Definition step_spec (i : instr T) (s : senv) : option senv :=
    match i with
    | Iconst d c => Some (set_r s d c)
    | Icopy d s' => Some (set_r s d (sr s s'))
    | Iun u d x => Some (set_r s d (b_un u (sr s x)))
    | Ibin o d l r => Some (set_r s d (b_bin o (sr s l) (sr s r)))
    | Ieq o d r => Some (set_r s d (b_bin (eqop_bin o) (sr s d) (sr s r)))
    | Icond c d l r t f =>
        Some (set_r s d (if b_cmp (cexp_cmp c) (sr s l) (sr s r) then sr s t else sr s f))
    | Idis k d x => Some (set_r s d (b_dis k (sr s x)))
    | Ild d v i =>
        match index_of (b_int (sr s i)) (length (sv s v)) with
        | Some k => Some (set_r s d (nth k (sv s v) b0))
        | None => None
        end
    | Ist v i x =>
        match index_of (b_int (sr s i)) (length (sv s v)) with
        | Some k => Some (mkEnv (sr s) (fset (sv s) v (lset (sv s v) k (sr s x))))
        | None => None
        end
    end.

  (** the value of the algorithm *)
  Fixpoint eval (p : prog T) (s : senv) : option (list T) :=
    match p with
    | Pret ys => Some (map (sr s) ys)
    | Pstep i p' => match step_spec i s with Some s' => eval p' s' | None => None end
    | Pif c l r pt pf => if b_cmp c (sr s l) (sr s r) then eval pt s else eval pf s
    end.

  (** the outcomes of the comparisons met by a run, in order *)
  Fixpoint decisions (p : prog T) (s : senv) : list bool :=
    match p with
    | Pret _ => []
    | Pstep i p' => match step_spec i s with Some s' => decisions p' s' | None => [] end
    | Pif c l r pt pf =>
        if b_cmp c (sr s l) (sr s r) then true :: decisions pt s else false :: decisions pf s
    end.

  (** follow the operations of the path [ds] starting from other values;
      also count the comparisons whose outcome differs from [ds]. *)
  Fixpoint follow (p : prog T) (s : senv) (ds : list bool) : option (list T * nat) :=
    match p with
    | Pret ys => Some (map (sr s) ys, 0)
    | Pstep i p' => match step_spec i s with Some s' => follow p' s' ds | None => None end
    | Pif c l r pt pf =>
        match ds with
        | [] => None
        | d :: ds' =>
          match follow (if d then pt else pf) s ds' with
          | None => None
          | Some (ys, n) =>
            Some (ys, if Bool.eqb (b_cmp c (sr s l) (sr s r)) d then n else S n)
          end
        end
    end.

  (** initial values: registers 0..n-1 are the independent variables, n..n+np-1
      the independent dynamic parameters, all others keep their Base value. *)
  Definition start (s : senv) (x p : list T) : senv :=
    mkEnv (fun i => if i <? length x then nth i x b0
                    else if i <? length x + length p then nth (i - length x) p b0
                    else sr s i)
          (sv s).

  (** a path along which no comparison changes gives the value of the algorithm *)
  Lemma follow_same (p : prog T) : forall s ds ys,
    follow p s ds = Some (ys, 0) -> eval p s = Some ys.
  Proof.
    induction p as [zs|i p IH|c l r pt IHt pf IHf]; intros s ds ys; cbn.
    - congruence.
    - destruct (step_spec i s); [apply IH|discriminate].
    - destruct ds as [|d ds]; [discriminate|].
      destruct (follow (if d then pt else pf) s ds) as [[zs n]|] eqn:E; [|discriminate].
      destruct (Bool.eqb (b_cmp c (sr s l) (sr s r)) d) eqn:D; [|discriminate].
      apply eqb_prop in D. rewrite D. destruct d; intros H; injection H as <- ->;
        eauto.
  Qed.

  (** following the path recorded at the same point reproduces it *)
  Lemma follow_self (p : prog T) : forall s ys,
    eval p s = Some ys -> follow p s (decisions p s) = Some (ys, 0).
  Proof.
    induction p as [zs|i p IH|c l r pt IHt pf IHf]; intros s ys; cbn.
    - congruence.
    - destruct (step_spec i s); [apply IH|discriminate].
    - destruct (b_cmp c (sr s l) (sr s r)) eqn:D; cbn; intros H.
      + now rewrite (IHt _ _ H).
      + now rewrite (IHf _ _ H).
  Qed.
End Eval.
Arguments senv : clear implicits.
