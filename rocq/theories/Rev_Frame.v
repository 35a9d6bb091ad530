(** Which rows of the partials the reverse mode routines change (any Base). *)
From Coq Require Import ZArith List Bool Arith Lia.
From Verif Require Import Base_Spec Op_Model Tape_Spec Tape_Model Tape_Proof Tape_Proof2 Sweep_Model Sweep_Eqs Sweep_Eqs2 Sweep_Tape Sweep_Uniq.
Import ListNotations.

Section Frame.
  Context {b : base}.
  Notation T := (bt b).
  Variable bnat : nat -> T.
  Variable P : nat -> T.
  Section Row.
    Variable v : nat.
    Variable c : nat -> T.
    Definition keeps (p : nat -> nat -> T) : Prop := forall k, p v k = c k.
    Lemma keeps_set p i k x : i <> v -> keeps p -> keeps (pset p i k x).
    Proof. intros H K q. unfold pset. destruct (Nat.eqb_spec v i); [congruence|]. apply K. Qed.
    Lemma keeps_add p i k x : i <> v -> keeps p -> keeps (padd i k x p).
    Proof. apply keeps_set. Qed.
    Lemma keeps_sub p i k x : i <> v -> keeps p -> keeps (psub i k x p).
    Proof. apply keeps_set. Qed.
    Lemma keeps_fold {B} (f : (nat -> nat -> T) -> B -> nat -> nat -> T) l : forall p,
      (forall p x, In x l -> keeps p -> keeps (f p x)) -> keeps p -> keeps (fold_left f l p).
    Proof. induction l as [|x l IH]; intros p H K; cbn [fold_left]; auto. apply IH; [intros; apply H; auto; now right|]. apply H; auto. now left. Qed.
    Lemma keeps_loop lo hi f p : (forall k p, keeps p -> keeps (f k p)) -> keeps p -> keeps (loop (A:=nat->nat->T) lo hi f p).
    Proof. intros H. unfold loop. apply keeps_fold. auto. Qed.
    Lemma keeps_down0 d f p : (forall k p, keeps p -> keeps (f k p)) -> keeps p -> keeps (down0 d f p).
    Proof. intros H. unfold down0. apply keeps_fold. auto. Qed.
    Lemma keeps_down1 d f p : (forall k p, keeps p -> keeps (f k p)) -> keeps p -> keeps (down1 d f p).
    Proof. intros H. unfold down1. apply keeps_fold. auto. Qed.
    Lemma keeps_pair (f : (nat -> nat -> T) * (nat -> T) -> nat -> (nat -> nat -> T) * (nat -> T)) l : forall pw,
      (forall pw x, keeps (fst pw) -> keeps (fst (f pw x))) -> keeps (fst pw) -> keeps (fst (fold_left f l pw)).
    Proof. induction l as [|x l IH]; intros pw H K; cbn [fold_left]; auto. Qed.
  End Row.

  Ltac kp := cbv zeta beta; lazymatch goal with
    | |- keeps _ _ (pset _ _ _ _) => apply keeps_set; [congruence|kp]
    | |- keeps _ _ (padd _ _ _ _) => apply keeps_add; [congruence|kp]
    | |- keeps _ _ (psub _ _ _ _) => apply keeps_sub; [congruence|kp]
    | |- keeps _ _ (loop _ _ _ _) => apply keeps_loop; [intros; kp|kp]
    | |- keeps _ _ (down0 _ _ _) => apply keeps_down0; [intros; kp|kp]
    | |- keeps _ _ (down1 _ _ _) => apply keeps_down1; [intros; kp|kp]
    | |- keeps _ _ (if ?c then _ else _) => destruct c; kp
    | _ => auto
    end.

  Lemma rev_sub_frame s r V d p v : ~ In v (sub_args s) -> (v < r \/ r + sub_res s <= v) -> sub_ok s ->
    forall k, rev_sub bnat P s r V d p v k = p v k.
  Proof.
    intros A H SO. assert (keeps v (p v) p) as K by (intros k; reflexivity).
    change (keeps v (p v) (rev_sub bnat P s r V d p)).
    generalize dependent (p v). intros c K.
    destruct s as [x y|q y|x y|q y|x q|x y|q y|x y|q y|x q|x y|q y|x q|u x|u x|q|q|k x|a|a|x y z1|x q|k x z3];
      cbn [sub_args sub_res] in *;
      repeat match goal with
      | H : ~ In v (_ ++ _) |- _ => rewrite in_app_iff in H
      | H : ~ In v (_ :: _) |- _ => cbn [In] in H
      | H : ~ (_ \/ In v _) |- _ => cbn [In] in H
      end.
    all: assert (v <> r) as Nr by lia.
    all: try (assert (x <> v) as Nx by (intros ->; tauto)).
    all: try (assert (y <> v) as Ny by (intros ->; tauto)).
    all: try (assert (z1 <> v) as Nz1 by (intros ->; tauto)).
    all: try (assert (z3 <> v) as Nz3 by (intros ->; tauto)).
    all: assert (r <> v) as Nr' by lia.
    all: try (cbn [rev_sub]; kp; fail).
    - destruct u; cbn [rev_sub]; kp.
    - assert (S r <> v) as Nz by lia. destruct u; cbn [rev_sub]; kp.
    - cbn [rev_sub]. cbv zeta. cbn [var_args] in A. rewrite !in_app_iff in A.
      destruct (Nat.testbit (nth 1 a 0) 2) eqn:B2; destruct (Nat.testbit (nth 1 a 0) 3) eqn:B3; cbn [In] in A;
        try (assert (nth 4 a 0 <> v) as N4 by tauto); try (assert (nth 5 a 0 <> v) as N5 by tauto); kp.
    - cbn [rev_sub]. cbv zeta. cbn [var_args] in A. cbn [sub_ok] in SO.
      apply keeps_fold; [|apply keeps_fold; auto].
      + intros p' i Hi Kp. assert (i <> v) by (intros ->; apply A; eauto using arg_range_incr). kp.
      + intros p' i Hi Kp. assert (i <> v) by (intros ->; apply A; eauto using arg_range_incl). kp.
    - cbn [rev_sub]. cbv zeta.
      match goal with |- keeps v c (let '(p, w) := ?E in _) => assert (keeps v c (fst E)) as KE; [|destruct E as [p' w']] end.
      + apply keeps_pair; [|exact K]. intros [p' w'] j Kp. cbn [fst] in *. kp.
      + cbn [fst] in KE. kp.
  Qed.

  Lemma subs_vargs o a iv ls rs x : subs o a iv = Some ls -> num_res o <= iv + 1 -> In rs ls -> In x (sub_args (snd rs)) ->
    x < iv + 1 - num_res o -> In x (var_args o a).
  Proof.
    intros E N Hr Hx L. destruct o; cbn in E; try discriminate; injection E as <-; cbn [num_res var_args In] in *;
      repeat (destruct Hr as [<-|Hr]; [cbn [snd sub_args pref_var app In] in Hx|]); try contradiction; auto;
      repeat (destruct Hx as [<-|Hx]); try contradiction; auto; try lia.
  Qed.
  Lemma chain_frame ls V d v : forall r p, subs_ok ls -> chain r ls -> v < r ->
    (forall rs, In rs ls -> ~ In v (sub_args (snd rs))) ->
    forall k, fold_left (fun p rs => rev_sub bnat P (snd rs) (fst rs) V d p) (rev ls) p v k = p v k.
  Proof.
    induction ls as [|[r' s] ls IH]; intros r p O C L A k; cbn [rev fold_left]; auto.
    destruct C as (-> & Ag & C). inversion O as [|? ? O1 O2]; subst.
    rewrite fold_left_app. cbn [fold_left fst snd].
    rewrite rev_sub_frame; [apply (IH (r + sub_res s)); auto; try lia| | |exact O1].
    - intros rs Hrs. apply A. now right.
    - apply (A (r, s)). now left.
    - auto.
  Qed.
  Lemma rev_step_frame np nv nl i l V l2v d p v : wfl np nv nl (i :: l) -> v < nv ->
    ~ In v (var_args (i_op i) (i_arg i)) -> (is_load (i_op i) = true -> v <> l2v (nth 2 (i_arg i) 0)) ->
    forall k, rev_step bnat P V l2v d i p v k = p v k.
  Proof.
    intros W L A LD k. destruct i as [o a iv]. cbn [i_op i_arg] in *. unfold rev_step. cbv beta iota zeta.
    pose proof W as (Hiv & _). cbn [i_op i_var] in Hiv.
    destruct (subs o a iv) as [ls|] eqn:E.
    - destruct (chain_subs np nv nl _ ls l W E) as (O & C & CR & N1 & N2). cbn [i_op i_var] in *.
      assert (fold_left (fun p rs => rev_sub bnat P (snd rs) (fst rs) V d p) (rev ls) p v k = p v k) as K.
      { apply (chain_frame ls V d v nv); auto. intros rs Hr Hx. apply A. eapply subs_vargs; eauto. lia. }
      destruct o; try exact K; destruct (all_zero _ _ _); auto.
    - destruct o; auto.
      + specialize (LD eq_refl). destruct (0 <? _); auto. assert (keeps v (p v) p) as K by (intros q; reflexivity).
        generalize dependent (p v). intros c K. revert k. change (keeps v c (down0 d (fun j p => padd (l2v (nth 2 a 0)) j (p iv j) p) p)). kp.
      + specialize (LD eq_refl). destruct (0 <? _); auto. assert (keeps v (p v) p) as K by (intros q; reflexivity).
        generalize dependent (p v). intros c K. revert k. change (keeps v c (down0 d (fun j p => padd (l2v (nth 2 a 0)) j (p iv j) p) p)). kp.
  Qed.
End Frame.
