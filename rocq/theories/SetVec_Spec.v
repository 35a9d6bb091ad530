(** * Specification of a vector of sets of natural numbers.

    Independent of any implementation.  A container holds [n] sets, each a
    set of numbers below [lim].  Elements may be "posted" to a set and take
    effect when [Process] is called; reading a set that has posted elements
    is not allowed (this is the documented protocol, e.g.
    /repo/include/cppad/local/sparse/size_setvec.hpp:800-1025). *)
From Coq Require Import List Arith Bool Lia.
Import ListNotations.

Record sv := {
  sv_n    : nat;                     (* number of sets *)
  sv_lim  : nat;                     (* elements are < sv_lim *)
  sv_mem  : nat -> nat -> bool;      (* sv_mem i e : e is in set i *)
  sv_pend : nat -> nat -> bool       (* sv_pend i e : e was posted to set i *)
}.

Definition empty_set : nat -> bool := fun _ => false.
Definition upd_set (f : nat -> nat -> bool) (i : nat) (s : nat -> bool) :=
  fun k => if Nat.eqb k i then s else f k.
Definition sv_init : sv :=
  {| sv_n := 0; sv_lim := 0; sv_mem := fun _ => empty_set; sv_pend := fun _ => empty_set |}.

(** Several containers, named by numbers, so that operations between two
    different containers (and of a container with itself) can be stated. *)
Inductive op :=
| Resize (o n lim : nat)              (* o.resize(n, lim)                     *)
| Add (o i e : nat)                   (* o.add_element(i, e)                  *)
| Post (o i e : nat)                  (* o.post_element(i, e)                 *)
| Process (o i : nat)                 (* o.process_post(i)                    *)
| Clear (o i : nat)                   (* o.clear(i)                           *)
| Assign (o t o2 s : nat)             (* o.assignment(t, s, o2)               *)
| Union (o t l o2 r : nat)            (* o.binary_union(t, l, r, o2)          *)
| Inter (o t l o2 r : nat)            (* o.binary_intersection(t, l, r, o2)   *)
| CopyVec (o o2 : nat)                (* o = o2                               *)
| SwapVec (o o2 : nat)                (* o.swap(o2)                           *)
| IsElem (o i e : nat)                (* o.is_element(i, e)                   *)
| Count (o i : nat)                   (* o.number_elements(i)                 *)
| Iterate (o i : nat).                (* const_iterator itr(o, i) until end   *)

Inductive out := ONone | OBool (b : bool) | ONat (n : nat) | OList (l : list nat).

Definition store := nat -> sv.
Definition put (s : store) (o : nat) (v : sv) : store :=
  fun k => if Nat.eqb k o then v else s k.

Definition set_mem (v : sv) (i : nat) (m : nat -> bool) : sv :=
  {| sv_n := sv_n v; sv_lim := sv_lim v; sv_mem := upd_set (sv_mem v) i m; sv_pend := sv_pend v |}.
(** replacing a whole set also forgets what was posted to it *)
Definition replace_set (v : sv) (i : nat) (m : nat -> bool) : sv :=
  {| sv_n := sv_n v; sv_lim := sv_lim v; sv_mem := upd_set (sv_mem v) i m;
     sv_pend := upd_set (sv_pend v) i empty_set |}.

Definition elements (v : sv) (i : nat) : list nat :=
  filter (sv_mem v i) (seq 0 (sv_lim v)).

Definition no_pend (v : sv) (i : nat) : Prop := forall e, sv_pend v i e = false.

Definition spec_step (s : store) (a : op) : store * out :=
  match a with
  | Resize o n lim =>
      (put s o {| sv_n := n; sv_lim := lim; sv_mem := fun _ => empty_set; sv_pend := fun _ => empty_set |}, ONone)
  | Add o i e => (put s o (set_mem (s o) i (fun x => Nat.eqb x e || sv_mem (s o) i x)), ONone)
  | Post o i e =>
      (put s o {| sv_n := sv_n (s o); sv_lim := sv_lim (s o); sv_mem := sv_mem (s o);
                  sv_pend := upd_set (sv_pend (s o)) i (fun x => Nat.eqb x e || sv_pend (s o) i x) |}, ONone)
  | Process o i =>
      (put s o (replace_set (s o) i (fun x => sv_pend (s o) i x || sv_mem (s o) i x)), ONone)
  | Clear o i => (put s o (replace_set (s o) i empty_set), ONone)
  | Assign o t o2 x => (put s o (replace_set (s o) t (sv_mem (s o2) x)), ONone)
  | Union o t l o2 r =>
      (put s o (replace_set (s o) t (fun x => sv_mem (s o) l x || sv_mem (s o2) r x)), ONone)
  | Inter o t l o2 r =>
      (put s o (replace_set (s o) t (fun x => sv_mem (s o) l x && sv_mem (s o2) r x)), ONone)
  | CopyVec o o2 => (put s o (s o2), ONone)
  | SwapVec o o2 => (put (put s o (s o2)) o2 (s o), ONone)
  | IsElem o i e => (s, OBool (sv_mem (s o) i e))
  | Count o i => (s, ONat (length (elements (s o) i)))
  | Iterate o i => (s, OList (elements (s o) i))
  end.

(** What the documentation requires of the caller. *)
Definition pre (s : store) (a : op) : Prop :=
  match a with
  | Resize o n lim => (n = 0 -> lim = 0) /\ (n <> 0 -> lim <> 0)
  | Add o i e | Post o i e => i < sv_n (s o) /\ e < sv_lim (s o)
  | Process o i | Clear o i => i < sv_n (s o)
  | Assign o t o2 x =>
      t < sv_n (s o) /\ x < sv_n (s o2) /\ sv_lim (s o) = sv_lim (s o2) /\ no_pend (s o2) x
  | Union o t l o2 r | Inter o t l o2 r =>
      t < sv_n (s o) /\ l < sv_n (s o) /\ r < sv_n (s o2) /\ sv_lim (s o) = sv_lim (s o2)
      /\ no_pend (s o) l /\ no_pend (s o2) r
  | CopyVec _ _ | SwapVec _ _ => True
  | IsElem o i e => i < sv_n (s o) /\ e < sv_lim (s o) /\ no_pend (s o) i
  | Count o i | Iterate o i => i < sv_n (s o) /\ no_pend (s o) i
  end.

(** A whole history: the outputs, provided every call meets its precondition. *)
Fixpoint spec_run (s : store) (l : list op) : list out :=
  match l with
  | [] => []
  | a :: l' => snd (spec_step s a) :: spec_run (fst (spec_step s a)) l'
  end.
Fixpoint all_pre (s : store) (l : list op) : Prop :=
  match l with
  | [] => True
  | a :: l' => pre s a /\ all_pre (fst (spec_step s a)) l'
  end.
Definition init_store : store := fun _ => sv_init.

(** Generic run of an implementation whose steps may hit undefined behaviour
    ([None]). *)
Fixpoint impl_run {ST} (step : ST -> op -> option (ST * out)) (s : ST) (l : list op)
  : option (list out) :=
  match l with
  | [] => Some []
  | a :: l' =>
      match step s a with
      | None => None
      | Some (s', r) => match impl_run step s' l' with None => None | Some rs => Some (r :: rs) end
      end
  end.

(** Lifting a one-step simulation to histories. *)
Lemma run_refines {ST} (step : ST -> op -> option (ST * out)) (R : ST -> store -> Prop) (ok : store -> op -> Prop) :
  (forall c s a, R c s -> pre s a -> ok s a -> exists c', step c a = Some (c', snd (spec_step s a)) /\ R c' (fst (spec_step s a))) ->
  forall l c s, R c s -> all_pre s l ->
    (fix all_ok (s : store) (l : list op) : Prop :=
       match l with [] => True | a :: l' => ok s a /\ all_ok (fst (spec_step s a)) l' end) s l ->
    impl_run step c l = Some (spec_run s l).
Proof.
  intros H l; induction l as [|a l IH]; intros c s HR Hp Hok; [reflexivity|].
  destruct Hp as [Hp1 Hp2]; destruct Hok as [Ho1 Ho2].
  destruct (H c s a HR Hp1 Ho1) as (c' & E & HR').
  cbn [impl_run spec_run]. rewrite E, (IH c' _ HR' Hp2 Ho2). reflexivity.
Qed.

(** ** A checker for [all_pre], used for the concrete demonstrations. *)
Definition no_pendb (v : sv) (i : nat) : bool := forallb (fun e => negb (sv_pend v i e)) (seq 0 (sv_lim v)).
Definition preb (s : store) (a : op) : bool :=
  match a with
  | Resize o n lim => Bool.eqb (Nat.eqb n 0) (Nat.eqb lim 0)
  | Add o i e | Post o i e => Nat.ltb i (sv_n (s o)) && Nat.ltb e (sv_lim (s o))
  | Process o i | Clear o i => Nat.ltb i (sv_n (s o))
  | Assign o t o2 x =>
      Nat.ltb t (sv_n (s o)) && Nat.ltb x (sv_n (s o2)) && Nat.eqb (sv_lim (s o)) (sv_lim (s o2)) && no_pendb (s o2) x
  | Union o t l o2 r | Inter o t l o2 r =>
      Nat.ltb t (sv_n (s o)) && Nat.ltb l (sv_n (s o)) && Nat.ltb r (sv_n (s o2)) && Nat.eqb (sv_lim (s o)) (sv_lim (s o2))
      && no_pendb (s o) l && no_pendb (s o2) r
  | CopyVec _ _ | SwapVec _ _ => true
  | IsElem o i e => Nat.ltb i (sv_n (s o)) && Nat.ltb e (sv_lim (s o)) && no_pendb (s o) i
  | Count o i | Iterate o i => Nat.ltb i (sv_n (s o)) && no_pendb (s o) i
  end.
Fixpoint all_preb (s : store) (l : list op) : bool :=
  match l with [] => true | a :: l' => preb s a && all_preb (fst (spec_step s a)) l' end.
Definition pend_bounded (s : store) : Prop := forall o i e, sv_pend (s o) i e = true -> e < sv_lim (s o).

Lemma no_pendb_ok s o i : pend_bounded s -> no_pendb (s o) i = true -> no_pend (s o) i.
Proof.
  intros Hb H e. destruct (sv_pend (s o) i e) eqn:E; [|reflexivity]. specialize (Hb o i e E).
  unfold no_pendb in H. rewrite forallb_forall in H. specialize (H e). rewrite E in H.
  assert (In e (seq 0 (sv_lim (s o)))) as Hin by (apply in_seq; lia). specialize (H Hin). discriminate.
Qed.
Lemma preb_ok s a : pend_bounded s -> preb s a = true -> pre s a.
Proof.
  intros Hb H. destruct a; cbn [preb pre] in *; repeat rewrite andb_true_iff in H; repeat rewrite Nat.ltb_lt in H; repeat rewrite Nat.eqb_eq in H.
  1: { split; [intros ->; destruct lim; [reflexivity|discriminate]|intros Hn ->; destruct n; [congruence|discriminate]]. }
  all: repeat match goal with H : _ /\ _ |- _ => destruct H end; repeat split; try assumption; try (apply (no_pendb_ok s); assumption).
Qed.
Lemma pend_put s o v : pend_bounded s -> (forall i e, sv_pend v i e = true -> e < sv_lim v) -> pend_bounded (put s o v).
Proof. intros Hb Hv k i e. unfold put. destruct (Nat.eqb k o); [apply Hv|apply Hb]. Qed.
Lemma pend_step s a : pend_bounded s -> pre s a -> pend_bounded (fst (spec_step s a)).
Proof.
  intros Hb Hp. destruct a; cbn [spec_step fst]; try exact Hb; repeat apply pend_put; try exact Hb; cbn;
    try (intros j x; unfold upd_set; destruct (Nat.eqb j _); [discriminate|apply Hb]); try apply Hb.
  - intros ? ? H. discriminate.
  - intros j x. unfold upd_set. destruct (Nat.eqb j i); [|apply Hb]. intros H. apply orb_true_iff in H as [H|H].
    + apply Nat.eqb_eq in H as ->. apply Hp.
    + apply Hb in H. exact H.
Qed.
Lemma all_preb_ok : forall l s, pend_bounded s -> all_preb s l = true -> all_pre s l.
Proof.
  induction l as [|a l IH]; intros s Hb H; cbn in *; [exact I|]. apply andb_true_iff in H as (H1 & H2).
  pose proof (preb_ok s a Hb H1) as Hp. split; [exact Hp|]. apply IH; [apply pend_step; assumption|exact H2].
Qed.
Lemma init_bounded : pend_bounded init_store.
Proof. intros o i e H. discriminate. Qed.
