(** Auxiliary results of an operator are never arguments, dependent variables or
    elements of a VecAD (any Base). *)
From Coq Require Import ZArith List Bool Arith Lia.
From Verif Require Import Base_Spec Op_Model Tape_Spec Tape_Model Tape_Proof Tape_Proof2
  Sweep_Model Sweep_Eqs Sweep_Eqs2 Sweep_Tape Sweep_Uniq Tape_Swf Rev_Frame.
Import ListNotations.

Lemma wfl_split np l l' : forall nv nl, wfl np nv nl (l ++ l') -> wfl np (nv + tres l) (nl + nload l) l'.
Proof.
  induction l as [|i l IH]; intros nv nl W; cbn [tres nload app] in *; [now rewrite !Nat.add_0_r|].
  destruct W as (A & B & C & D & E & W). apply IH in W. rewrite !Nat.add_assoc.
  replace (nl + (if is_load (i_op i) then 1 else 0)) with (if is_load (i_op i) then S nl else nl) by (destruct (is_load _); lia).
  exact W.
Qed.
Lemma tres_app l l' : tres (l ++ l') = tres l + tres l'.
Proof. induction l; cbn; auto. rewrite IHl. lia. Qed.
Lemma wfl_load np l : forall nv nl i, wfl np nv nl l -> In i l -> is_load (i_op i) = true ->
  nl <= nth 2 (i_arg i) 0 < nl + nload l.
Proof.
  induction l as [|h l IH]; intros nv nl i W Hi L; [destruct Hi|]. destruct W as (A & B & C & D & E & W). cbn [nload].
  destruct Hi as [->|Hi].
  - rewrite (D L), L. lia.
  - specialize (IH _ _ i W Hi L). destruct (is_load (i_op h)); lia.
Qed.
Lemma seenof_from np l : forall nv nl seen v, wfl np nv nl l -> In v (seenof seen l) -> In v seen \/ nv <= v.
Proof.
  induction l as [|i l IH]; intros nv nl seen v W H; [now left|].
  destruct W as (A & B & C & D & E & W). cbn [seenof fold_left] in H.
  destruct (IH _ _ (seen1 seen i) v W H) as [K|K]; [|right; lia].
  unfold seen1 in K. destruct (Nat.ltb_spec 0 (num_res (i_op i))); auto. destruct K as [<-|K]; auto. right. lia.
Qed.

(** operators refer to visible results only, their auxiliary results are not visible *)
Lemma sok_prim np l : forall nv nl seen, wfl np nv nl l -> sok seen nl l -> (forall v, In v seen -> v < nv) ->
  Forall (fun i => Forall (fun x => In x (seenof seen l)) (var_args (i_op i) (i_arg i)) /\
    (forall v, i_var i + 1 - num_res (i_op i) <= v < i_var i -> ~ In v (seenof seen l)) /\
    okop (i_op i) = true) l.
Proof.
  induction l as [|i l IH]; intros nv nl seen W S HS; constructor.
  - destruct S as (S1 & S2 & S3 & S4). destruct W as (A & B & C & D & E & W).
    split; [|split; auto].
    + eapply Forall_impl; [|exact S2]. intros x. apply (seenof_incl (i :: l)).
    + intros v Hv Hi. cbn [seenof fold_left] in Hi. apply (seenof_from np l _ _ _ v W) in Hi. unfold seen1 in Hi.
      destruct (Nat.ltb_spec 0 (num_res (i_op i))) as [N|N].
      * destruct Hi as [[Hi|Hi]|Hi]; [lia|apply HS in Hi; lia|lia].
      * lia.
  - destruct S as (S1 & S2 & S3 & S4). destruct W as (A & B & C & D & E & W).
    apply (IH _ _ (seen1 seen i) W S4). intros v Hv. unfold seen1 in Hv.
    destruct (Nat.ltb_spec 0 (num_res (i_op i))); [destruct Hv as [<-|Hv]|]; try (apply HS in Hv); lia.
Qed.

Section Prim.
  Context {b : base}.
  Notation T := (bt b).
  Variable P : nat -> T.
  Variable prim : nat -> Prop.

  Lemma sweep0_prim cc l : forall k (s t : fst0 b), (forall j, f_skip s j = false) ->
    Forall (fun i => Forall prim (var_args (i_op i) (i_arg i)) /\ okop (i_op i) = true) l ->
    (forall m, f_isv s m = true -> prim (f_idx s m)) -> sweep0 P cc l k s = Some t ->
    (forall m, f_isv t m = true -> prim (f_idx t m)) /\
    (forall m, f_l2v s m = 0 \/ prim (f_l2v s m) -> f_l2v t m = 0 \/ prim (f_l2v t m)) /\
    (forall i, In i l -> is_load (i_op i) = true -> f_l2v t (nth 2 (i_arg i) 0) = 0 \/ prim (f_l2v t (nth 2 (i_arg i) 0))).
  Proof.
    induction l as [|i l IH]; intros k s t HS PA HV H; cbn [sweep0] in H.
    - injection H as <-. repeat split; auto. intros i [].
    - rewrite HS in H. destruct (step0 P cc i k s) as [s1|] eqn:S1; [|discriminate].
      inversion PA as [|? ? [P1 P2] PA2]; subst.
      assert ((forall j, f_skip s1 j = false) /\ (forall m, f_isv s1 m = true -> prim (f_idx s1 m)) /\
        (forall m, f_l2v s m = 0 \/ prim (f_l2v s m) -> f_l2v s1 m = 0 \/ prim (f_l2v s1 m)) /\
        (is_load (i_op i) = true -> f_l2v s1 (nth 2 (i_arg i) 0) = 0 \/ prim (f_l2v s1 (nth 2 (i_arg i) 0)))) as (A1 & A2 & A3 & A4).
      { destruct i as [o a iv]. cbn [i_op i_arg] in *. unfold step0 in S1.
        destruct (sem0 o a P (f_V s)) eqn:S0.
        { injection S1 as <-. cbn. repeat split; auto. intros L; destruct o; discriminate. }
        destruct (cmp_change o a P (f_V s)) eqn:S2.
        { assert (is_load o = false) as L by (destruct o; try discriminate; auto).
          destruct ((cc =? 0) || negb _); injection S1 as <-; cbn; repeat split; auto; rewrite L; discriminate. }
        destruct o; try discriminate; try (injection S1 as <-; cbn; repeat split; auto; discriminate).
        - destruct (index_of _ _) as [j|]; [|discriminate]. injection S1 as <-. cbn [f_isv f_idx f_skip f_l2v].
          assert ((if f_isv s (nth 0 a 0 + j) then f_idx s (nth 0 a 0 + j) else 0) = 0 \/
            prim (if f_isv s (nth 0 a 0 + j) then f_idx s (nth 0 a 0 + j) else 0)) as Q.
          { destruct (f_isv s (nth 0 a 0 + j)) eqn:Q; auto. }
          split; [auto|split; [auto|split]].
          + intros m Hm. unfold fset. destruct (m =? nth 2 a 0); auto.
          + intros _. now rewrite fset_eq.
        - destruct (index_of _ _) as [j|]; [|discriminate]. injection S1 as <-. cbn [f_isv f_idx f_skip f_l2v].
          assert ((if f_isv s (nth 0 a 0 + j) then f_idx s (nth 0 a 0 + j) else 0) = 0 \/
            prim (if f_isv s (nth 0 a 0 + j) then f_idx s (nth 0 a 0 + j) else 0)) as Q.
          { destruct (f_isv s (nth 0 a 0 + j)) eqn:Q; auto. }
          split; [auto|split; [auto|split]].
          + intros m Hm. unfold fset. destruct (m =? nth 2 a 0); auto.
          + intros _. now rewrite fset_eq.
        - destruct (index_of _ _) as [j|]; [|discriminate]. injection S1 as <-. cbn [f_isv f_idx f_skip f_l2v].
          split; [auto|split; [|split; [auto|discriminate]]]. intros m. unfold fset. destruct (m =? _); [discriminate|auto].
        - destruct (index_of _ _) as [j|]; [|discriminate]. injection S1 as <-. cbn [f_isv f_idx f_skip f_l2v].
          split; [auto|split; [|split; [auto|discriminate]]]. intros m. unfold fset. destruct (m =? _); [|auto].
          intros _. rewrite Forall_forall in P1. apply P1. cbn. auto.
        - destruct (index_of _ _) as [j|]; [|discriminate]. injection S1 as <-. cbn [f_isv f_idx f_skip f_l2v].
          split; [auto|split; [|split; [auto|discriminate]]]. intros m. unfold fset. destruct (m =? _); [discriminate|auto].
        - destruct (index_of _ _) as [j|]; [|discriminate]. injection S1 as <-. cbn [f_isv f_idx f_skip f_l2v].
          split; [auto|split; [|split; [auto|discriminate]]]. intros m. unfold fset. destruct (m =? _); [|auto].
          intros _. rewrite Forall_forall in P1. apply P1. cbn. auto. }
      destruct (IH (S k) s1 t A1 PA2 A2 H) as (B1 & B2 & B3). split; [auto|split].
      + intros m Hm. apply B2, A3, Hm.
      + intros j [<-|Hj] L; [apply B2, A4, L|apply B3; auto].
  Qed.
  Lemma sweep0_app cc l l' : forall k (s : fst0 b), sweep0 P cc (l ++ l') k s =
    match sweep0 P cc l k s with Some t => sweep0 P cc l' (k + length l) t | None => None end.
  Proof.
    induction l as [|i l IH]; intros k s; cbn [app sweep0 length]; [now rewrite Nat.add_0_r|].
    rewrite Nat.add_succ_r, <- Nat.add_succ_l.
    destruct (f_skip s k); [apply IH|]. destruct (step0 P cc i k s); auto.
  Qed.
  (** the operators at the start of the tape do nothing *)
  Lemma sweep0_head n cc k (s : fst0 b) : (forall j, f_skip s j = false) -> sweep0 P cc (head_ins n) k s = Some s.
  Proof.
    intros HS. unfold head_ins. cbn [sweep0]. rewrite HS. cbn [step0 sem0 cmp_change].
    assert (forall m j k, sweep0 P cc (map (fun j => mkIns InvOp [] (S j)) (seq j m)) k s = Some s) as K.
    { induction m as [|m IH]; intros j k'; cbn [seq map sweep0]; auto. rewrite HS. cbn. apply IH. }
    apply K.
  Qed.
  Variable bnat : nat -> T.
  Lemma sweep_rev_app V l2v skip d l l' : forall k p, sweep_rev bnat P V l2v skip d (l ++ l') k p =
    sweep_rev bnat P V l2v skip d l k (sweep_rev bnat P V l2v skip d l' (k + length l) p).
  Proof.
    induction l as [|i l IH]; intros k p; cbn [app sweep_rev length]; [now rewrite Nat.add_0_r|].
    rewrite Nat.add_succ_r, <- Nat.add_succ_l, IH. reflexivity.
  Qed.
  Lemma sweep_rev_head V l2v skip d n k p : sweep_rev bnat P V l2v skip d (head_ins n) k p = p.
  Proof.
    unfold head_ins. cbn [sweep_rev].
    assert (forall m j k, sweep_rev bnat P V l2v skip d (map (fun j => mkIns InvOp [] (S j)) (seq j m)) k p = p) as K.
    { induction m as [|m IH]; intros j k'; cbn [seq map sweep_rev]; auto. rewrite IH. destruct (skip k'); reflexivity. }
    rewrite K. destruct (skip k); reflexivity.
  Qed.
  Lemma sweep_rev_skip V l2v d skip skip' l : (forall j, skip j = skip' j) -> forall k p,
    sweep_rev bnat P V l2v skip d l k p = sweep_rev bnat P V l2v skip' d l k p.
  Proof. intros H. induction l as [|i l IH]; intros k p; cbn [sweep_rev]; auto. now rewrite IH, H. Qed.
End Prim.
