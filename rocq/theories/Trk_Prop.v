(** C43.  For every program and allocator, track_new_del keeps exactly the vectors
    allocated by it and not deleted. *)
From Coq Require Import List Arith Bool Lia.
From Verif Require Import Trk_Spec Trk_Model.
Import ListNotations.

(** the allocated vectors, as seen by the specification *)
Definition view {T} (s : tst T) : live T :=
  fun p => match heap s p with Some e => Some (mkB (existsb (Nat.eqb p) (track s)) e) | None => None end.
(** run of a program, with the observed results and intermediate states *)
Inductive truns {T} (pick : (nat -> option (list T)) -> nat -> nat) (junk : nat -> nat -> T)
  : list (top T * tobs T) -> tst T -> Prop :=
| truns_nil : truns pick junk [] tstart
| truns_cons h s o s' r : truns pick junk h s -> tstep pick junk o s = Some (s', r) -> truns pick junk (h ++ [(o, r)]) s'.

(** the one way a misuse goes unnoticed: TrackExtend with elements to copy, whose oldptr is
    not an allocated vector but is the address that the allocator chooses for the new one *)
Definition stale_extend {T} (o : top T) (r : tobs T) (m : live T) : Prop :=
  match o with TExtend _ k p => 0 < k /\ m p = None /\ r = TPtr p | _ => False end.

Section Proof.
  Context {T : Type}.
  Variable pick : (nat -> option (list T)) -> nat -> nat.
  Variable junk : nat -> nat -> T.
  Hypothesis pick_fresh : forall h n, h (pick h n) = None.

  Definition tinv (s : tst T) : Prop := NoDup (track s) /\ forall p, In p (track s) -> heap s p <> None.

  Lemma exb p l : existsb (Nat.eqb p) l = true <-> In p l.
  Proof.
    rewrite existsb_exists. split.
    - intros (x & H & E). apply Nat.eqb_eq in E. now subst.
    - intro H. exists p. split; auto. apply Nat.eqb_refl.
  Qed.
  Lemma exb_false p l : existsb (Nat.eqb p) l = false <-> ~ In p l.
  Proof. rewrite <- exb. destruct (existsb _ _); split; congruence. Qed.
  Lemma hset_eq h p (b : option (list T)) : hset h p b p = b.
  Proof. unfold hset. now rewrite Nat.eqb_refl. Qed.
  Lemma hset_ne h p (b : option (list T)) q : q <> p -> hset h p b q = h q.
  Proof. intro H. unfold hset. destruct (Nat.eqb_spec q p); congruence. Qed.

  Lemma is_tracked_view (s : tst T) p : tinv s -> (is_tracked (view s) p <-> In p (track s)).
  Proof.
    intros (N & H). unfold is_tracked, view. split.
    - intros (b & E & Hb). destruct (heap s p); [|discriminate]. inversion E; subst b. now apply exb.
    - intro Hi. specialize (H p Hi). destruct (heap s p) as [e|]; [|congruence].
      eexists. split; [reflexivity|]. now apply exb.
  Qed.

  Lemma unlink_spec l p : NoDup l ->
    match unlink l p with
    | Some l' => In p l /\ NoDup l' /\ (forall q, In q l' <-> In q l /\ q <> p)
    | None => ~ In p l
    end.
  Proof.
    induction l as [|e l IH]; intro N; cbn; [auto|]. inversion_clear N.
    destruct (Nat.eqb_spec e p) as [->|Hne].
    - split; [auto|]. split; [auto|]. intro q. split.
      + intro Hq. split; [auto|]. intros ->. auto.
      + intros [[->|Hq] Hn]; congruence.
    - specialize (IH H0). destruct (unlink l p) as [l'|].
      + destruct IH as (A & B & C). split; [auto|]. split.
        * constructor; auto. intro Hi. apply C in Hi. tauto.
        * intro q. cbn. rewrite C. split; [intros [->|]; tauto | tauto].
      + intros [->|Hi]; auto.
  Qed.
  Lemma count_len l : track_count l = length l.
  Proof. induction l; cbn; auto. Qed.

  Lemma raw_new_inv s n : tinv s -> let '(s1, p) := raw_new pick junk s n in
    tinv s1 /\ heap s p = None /\ ~ In p (track s) /\ track s1 = track s /\
    heap s1 = hset (heap s) p (Some (map (junk p) (seq 0 n))).
  Proof.
    intros (N & H). unfold raw_new. cbn. split; [split; cbn; auto|].
    - intros p Hp. destruct (Nat.eq_dec p (pick (heap s) n)) as [->|Hne]; [rewrite hset_eq; discriminate|].
      rewrite hset_ne by auto. auto.
    - split; [apply pick_fresh|]. split; [|auto]. intro Hi. apply H in Hi. apply Hi, pick_fresh.
  Qed.

  Lemma copy_spec n : forall (s : tst T) q p i e f, p <> q -> heap s p = Some e -> heap s q = Some f -> i + n <= length f ->
    if i + n <=? length e then
      exists s' f', copy s q p i n = Some s' /\ heap s' q = Some f' /\ length f' = length f /\
        (forall z, z <> q -> heap s' z = heap s z) /\ track s' = track s /\
        (forall k, nth_error f' k = if (i <=? k) && (k <? i + n) then nth_error e k else nth_error f k)
    else 0 < n -> copy s q p i n = None.
  Proof.
    induction n as [|n IH]; intros s q p i e f Hpq Hp Hq Hi; cbn [copy].
    - destruct (Nat.leb_spec (i + 0) (length e)); [|lia].
      exists s, f. repeat split; auto. intro k.
      destruct (Nat.leb_spec i k), (Nat.ltb_spec k (i + 0)); try lia; reflexivity.
    - unfold read. rewrite Hp. destruct (nth_error e i) as [v|] eqn:Ev.
      + assert (i < length e) by (apply nth_error_Some; congruence).
        unfold write. rewrite Hq. destruct (Nat.ltb_spec i (length f)); [|lia].
        set (f1 := firstn i f ++ v :: skipn (S i) f).
        assert (Lf : length f1 = length f).
        { unfold f1. rewrite app_length. cbn [length]. rewrite firstn_length_le, skipn_length by lia. lia. }
        assert (Nf : forall k, nth_error f1 k = if k =? i then Some v else nth_error f k).
        { intro k. unfold f1. destruct (Nat.eqb_spec k i) as [->|Hk].
          - rewrite nth_error_app2; rewrite firstn_length_le by lia; [|lia]. rewrite Nat.sub_diag. reflexivity.
          - destruct (le_lt_dec i k) as [Hle|Hlt].
            + rewrite nth_error_app2; rewrite firstn_length_le by lia; [|lia].
              destruct (k - i) as [|d] eqn:Ed; [lia|]. cbn [nth_error].
              rewrite <- (firstn_skipn (S i) f) at 2. rewrite nth_error_app2; rewrite firstn_length_le by lia; [|lia].
              f_equal. lia.
            + rewrite nth_error_app1 by (rewrite firstn_length_le; lia).
              rewrite <- (firstn_skipn i f) at 2. rewrite nth_error_app1; auto. rewrite firstn_length_le; lia. }
        specialize (IH (mkT (hset (heap s) q (Some f1)) (track s)) q p (S i) e f1 Hpq).
        cbn [heap track] in IH. rewrite hset_ne, hset_eq, Lf in IH by auto.
        specialize (IH Hp eq_refl ltac:(lia)). replace (i + S n) with (S i + n) by lia.
        destruct (S i + n <=? length e) eqn:Ele.
        * destruct IH as (s' & f' & A & B & C & D & E & F). exists s', f'. split; [exact A|]. split; auto. split; auto.
          split; [|split; auto].
          -- intros z Hz. rewrite D by auto. apply hset_ne. auto.
          -- intro k. rewrite F, Nf. destruct (Nat.eqb_spec k i) as [->|Hk].
             ++ destruct (Nat.leb_spec (S i) i); [lia|]. cbn [andb].
                destruct (Nat.leb_spec i i); [|lia]. destruct (Nat.ltb_spec i (S i + n)); [|lia]. auto.
             ++ destruct (Nat.leb_spec (S i) k), (Nat.leb_spec i k); try lia; reflexivity.
        * intros _. destruct n as [|n]; [apply Nat.leb_gt in Ele; lia|]. apply IH. lia.
      + apply nth_error_None in Ev. destruct (Nat.leb_spec (i + S n) (length e)); [lia|]. auto.
  Qed.

  Lemma copy_self n : forall (s : tst T) q i f, heap s q = Some f -> tinv s ->
    match copy s q q i n with Some s' => tinv s' | None => True end.
  Proof.
    induction n as [|n IH]; intros s q i f Hq Hi; cbn [copy]; auto.
    unfold read, write. rewrite Hq. destruct (nth_error f i); auto. destruct (i <? length f); auto.
    eapply IH; [cbn; apply hset_eq|]. destruct Hi as (N & H). split; cbn; auto. intros p Hp.
    destruct (Nat.eq_dec p q) as [->|Hne]; [rewrite hset_eq; discriminate|]. rewrite hset_ne by auto. auto.
  Qed.
  Lemma nth_error_ext {A} (l l' : list A) : (forall i, nth_error l i = nth_error l' i) -> l = l'.
  Proof.
    revert l'. induction l as [|a l IH]; intros [|b l'] H; auto; try (specialize (H 0); discriminate).
    pose proof (H 0) as H0. cbn in H0. inversion H0. f_equal. apply IH. intro i. apply (H (S i)).
  Qed.
  Lemma nth_error_firstn_lt {A} (l : list A) n i : i < n -> nth_error (firstn n l) i = nth_error l i.
  Proof.
    revert l i. induction n as [|n IH]; intros l i H; [lia|]. destruct l, i; cbn; auto. apply IH. lia.
  Qed.
  Lemma view_new (s : tst T) p e : ~ In p (track s) ->
    updl (view s) (view (mkT (hset (heap s) p (Some e)) (p :: track s))) p (Some (mkB true e)).
  Proof.
    intro H. unfold updl, view. cbn [heap track]. split.
    - rewrite hset_eq. cbn. now rewrite Nat.eqb_refl.
    - intros q Hq. rewrite hset_ne by auto. cbn. destruct (Nat.eqb_spec q p); [congruence|]. reflexivity.
  Qed.
  Lemma track_del_ok (s : tst T) p : tinv s ->
    match track_del s p with
    | Some s' => tinv s' /\ is_tracked (view s) p /\ updl (view s) (view s') p None
    | None => ~ is_tracked (view s) p
    end.
  Proof.
    intros Hi. pose proof Hi as (N & H). unfold track_del.
    pose proof (unlink_spec (track s) p N) as U. destruct (unlink (track s) p) as [l|].
    - destruct U as (A & B & C). unfold raw_del. cbn [heap]. specialize (H p A) as Hp.
      destruct (heap s p) as [e|] eqn:Ep; [|congruence].
      split; [split; cbn; auto|split].
      + intros q Hq. apply C in Hq. rewrite hset_ne by tauto. apply H. tauto.
      + now apply is_tracked_view.
      + unfold updl, view. cbn [heap track]. rewrite hset_eq. split; auto.
        intros q Hq. rewrite hset_ne by auto. destruct (heap s q); auto. f_equal. f_equal.
        destruct (existsb (Nat.eqb q) (track s)) eqn:E1.
        * apply exb. apply C. split; auto. now apply exb.
        * apply exb_false. intro H1. apply C in H1. apply exb_false in E1. tauto.
    - intro H1. apply is_tracked_view in H1; auto.
  Qed.

  Lemma tstep_ok s o : tinv s ->
    match tstep pick junk o s with
    | Some (s', r) => tinv s' /\ (stale_extend o r (view s) \/ tspec o r (view s) (view s'))
    | None => bad o (view s)
    end.
  Proof.
    intros Hi. pose proof Hi as (N & H). destruct o as [n|p|n k p| |n|p|p i v|p i]; cbn [tstep].
    - unfold track_new. pose proof (raw_new_inv s n Hi) as R. destruct (raw_new pick junk s n) as [s1 p].
      destruct R as ((N1 & H1) & A & B & C & D). split; [split; cbn|].
      + rewrite C. now constructor.
      + intros q [<-|Hq]; [rewrite D, hset_eq; discriminate|]. apply H1, Hq.
      + right. exists p, (map (junk p) (seq 0 n)). split; auto. split; [unfold view; now rewrite A|].
        split; [now rewrite map_length, seq_length|]. rewrite D, C. now apply view_new.
    - pose proof (track_del_ok s p Hi) as D. destruct (track_del s p) as [s'|]; [|exact D].
      destruct D as (A & B & C). split; auto. right. split; auto.
    - unfold track_extend. destruct (Nat.leb_spec k n) as [Hk|Hk]; [|left; auto].
      unfold track_new. pose proof (raw_new_inv s n Hi) as R. destruct (raw_new pick junk s n) as [s1 q].
      destruct R as ((N1 & H1) & A & B & C & D). rewrite D, C.
      set (e := map (junk q) (seq 0 n)). assert (Le : length e = n) by (unfold e; now rewrite map_length, seq_length).
      set (s2 := mkT (hset (heap s) q (Some e)) (q :: track s)).
      assert (Hi2 : tinv s2).
      { split; cbn; [now constructor|]. intros z [<-|Hz]; [rewrite hset_eq; discriminate|].
        rewrite hset_ne; auto. intros ->. auto. }
      assert (Hq : heap s2 q = Some e) by (apply hset_eq).
      destruct k as [|k].
      { cbn [copy Nat.ltb Nat.leb]. split; auto. right. split; [lia|]. exists q, e. split; auto. split; [unfold view; now rewrite A|].
        split; auto. cbn [Nat.eqb]. now apply view_new. }
      assert (Bd : ~ is_tracked (view s) p -> bad (TExtend n (S k) p) (view s)) by (intro; right; split; [lia|auto]).
      destruct (Nat.ltb_spec 0 (S k)); [|lia].
      destruct (Nat.eq_dec p q) as [->|Hpq].
      { assert (NT : ~ is_tracked (view s) q) by (intro X; apply is_tracked_view in X; auto).
        pose proof (copy_self (S k) s2 q 0 e Hq Hi2) as Cp.
        destruct (copy s2 q q 0 (S k)) as [s3|] eqn:Ec; [|auto].
        pose proof (track_del_ok s3 q Cp) as Dl.
        destruct (track_del s3 q) as [s4|] eqn:Ed; [|auto].
        destruct Dl as (P & _). split; auto. left. cbn. split; [lia|]. split; auto. unfold view. now rewrite A. }
      destruct (heap s p) as [ep|] eqn:Ep.
      2:{ assert (NT : ~ is_tracked (view s) p) by (intros (b & X & _); unfold view in X; rewrite Ep in X; discriminate).
          cbn [copy]. unfold read. unfold s2 at 1. cbn [heap]. rewrite hset_ne, Ep by auto. auto. }
      assert (Hp2 : heap s2 p = Some ep) by (unfold s2; cbn [heap]; rewrite hset_ne by auto; auto).
      pose proof (copy_spec (S k) s2 q p 0 ep e Hpq Hp2 Hq ltac:(lia)) as Cp.
      destruct (Nat.leb_spec (0 + S k) (length ep)) as [Hl|Hl].
      + destruct Cp as (s3 & f' & P & Q & R & S0 & U & W). rewrite P.
        assert (Hi3 : tinv s3).
        { destruct Hi2 as (X & Y). split; rewrite U; auto. intros z Hz.
          destruct (Nat.eq_dec z q) as [->|Hzq]; [rewrite Q; discriminate|]. rewrite S0 by auto. auto. }
        assert (Tr : is_tracked (view s3) p <-> is_tracked (view s) p).
        { rewrite !is_tracked_view by auto. rewrite U. cbn. split; [intros [->|]; tauto|auto]. }
        pose proof (track_del_ok s3 p Hi3) as Dl. destruct (track_del s3 p) as [s4|].
        * destruct Dl as (X & Y & Z1 & Z2). split; auto. right. split; [lia|]. exists q, f'. split; auto.
          split; [unfold view; now rewrite A|]. split; [congruence|]. cbn [Nat.eqb].
          split; [now apply Tr|]. split; [auto|]. split; [|split; [auto|split]].
          -- intros b Eb. unfold view in Eb. rewrite Ep in Eb. inversion Eb; subst b. cbn [elems]. split; [lia|].
             apply nth_error_ext. intro z. destruct (le_lt_dec (S k) z) as [G|G].
             ++ rewrite !(proj2 (nth_error_None _ _)); auto; rewrite firstn_length; lia.
             ++ rewrite !nth_error_firstn_lt by auto. rewrite W. cbn [Nat.leb andb].
                destruct (Nat.ltb_spec z (0 + S k)); [|lia]. reflexivity.
          -- rewrite Z2 by auto. unfold view. rewrite Q, U. cbn. now rewrite Nat.eqb_refl.
          -- intros z Hz Hzq. rewrite Z2 by auto. unfold view. rewrite S0 by auto. rewrite U.
             unfold s2. cbn [heap track]. rewrite hset_ne by auto. cbn.
             destruct (Nat.eqb_spec z q); [congruence|]. reflexivity.
        * apply Bd. intro X. apply Dl. now apply Tr.
      + rewrite Cp by lia. right. split; [lia|]. right. exists (mkB (existsb (Nat.eqb p) (track s)) ep).
        split; [unfold view; now rewrite Ep|]. cbn. lia.
    - split; auto. right. rewrite count_len. eexists. split; [reflexivity|]. split; auto.
      exists (track s). split; auto. split; auto. intro p. symmetry. now apply is_tracked_view.
    - pose proof (raw_new_inv s n Hi) as R. destruct (raw_new pick junk s n) as [s1 p].
      destruct R as (I1 & A & B & C & D). split; auto. right.
      exists p, (map (junk p) (seq 0 n)). split; auto. split; [unfold view; now rewrite A|].
      split; [now rewrite map_length, seq_length|]. unfold updl, view. rewrite D, C. rewrite hset_eq. split.
      + f_equal. f_equal. now apply exb_false.
      + intros q Hq. now rewrite hset_ne by auto.
    - destruct (existsb (Nat.eqb p) (track s)) eqn:Ex.
      + intros (b & E & Hb). unfold view in E. destruct (heap s p); [|discriminate]. inversion E; subst b. cbn in Hb. congruence.
      + unfold raw_del. destruct (heap s p) as [e|] eqn:Ep.
        * split; [split; cbn; auto|].
          -- intros q Hq. rewrite hset_ne; auto. intros ->. apply exb_false in Ex. auto.
          -- right. split; auto. split; [unfold view; rewrite Ep; eexists; split; [reflexivity|exact Ex]|].
             unfold updl, view. cbn [heap track]. rewrite hset_eq. split; auto. intros q Hq. now rewrite hset_ne by auto.
        * intros (b & E & _). unfold view in E. rewrite Ep in E. discriminate.
    - unfold write. destruct (heap s p) as [e|] eqn:Ep.
      + destruct (Nat.ltb_spec i (length e)) as [Hl|Hl].
        * split; [split; cbn; auto|].
          -- intros q Hq. destruct (Nat.eq_dec q p) as [->|Hne]; [rewrite hset_eq; discriminate|]. rewrite hset_ne by auto. auto.
          -- right. split; auto. eexists. split; [unfold view; rewrite Ep; reflexivity|]. cbn [elems tracked]. split; auto.
             unfold updl, view. cbn [heap track]. rewrite hset_eq. split; auto. intros q Hq. now rewrite hset_ne by auto.
        * intros b E. unfold view in E. rewrite Ep in E. inversion E; subst b. exact Hl.
      + intros b E. unfold view in E. rewrite Ep in E. discriminate.
    - unfold read. destruct (heap s p) as [e|] eqn:Ep.
      + destruct (nth_error e i) as [v|] eqn:Ev.
        * split; auto. right. split; auto. eexists _, v. split; [unfold view; rewrite Ep; reflexivity|]. split; auto.
        * intros b E. unfold view in E. rewrite Ep in E. inversion E; subst b. now apply nth_error_None.
      + intros b E. unfold view in E. rewrite Ep in E. discriminate.
  Qed.
  Lemma runs_inv h s : truns pick junk h s -> tinv s.
  Proof.
    induction 1 as [|h s o s' r Hr IH E].
    - split; [constructor|]. intros p [].
    - pose proof (tstep_ok s o IH) as H. rewrite E in H. tauto.
  Qed.
End Proof.

Section Theorems.
  Context {T : Type}.
  Variable pick : (nat -> option (list T)) -> nat -> nat.
  Variable junk : nat -> nat -> T.

  (** after every program: each statement has exactly the specified effect on the allocated
      vectors (except for a stale TrackExtend), or is rejected and is one that must be *)
  Theorem track_exact : forall (pick_fresh : forall h n, h (pick h n) = None) h s o,
    truns pick junk h s ->
    match tstep pick junk o s with
    | Some (s', r) => stale_extend o r (view s) \/ tspec o r (view s) (view s')
    | None => bad o (view s)
    end.
  Proof.
    intros Hf h s o Hr. pose proof (tstep_ok pick junk Hf s o (runs_inv pick junk Hf h s Hr)) as H.
    destruct (tstep pick junk o s) as [[s' r]|]; tauto.
  Qed.
  (** a delete of a pointer not allocated by track_new_del, or already deleted, is rejected *)
  Theorem track_rejects_delete : forall (pick_fresh : forall h n, h (pick h n) = None) h s p,
    truns pick junk h s -> (tstep pick junk (TDel p) s = None <-> ~ is_tracked (view s) p).
  Proof.
    intros Hf h s p Hr. pose proof (track_exact Hf h s (TDel p) Hr) as H.
    destruct (tstep pick junk (TDel p) s) as [[s' r]|].
    - destruct H as [[]|(_ & H & _)]. split; [discriminate|tauto].
    - cbn in H. tauto.
  Qed.
  (** TrackCount is the number of vectors allocated and not deleted *)
  Theorem track_counts : forall (pick_fresh : forall h n, h (pick h n) = None) h s,
    truns pick junk h s -> exists n, tstep pick junk TCount s = Some (s, TNum n) /\ count_is (view s) n.
  Proof.
    intros Hf h s Hr. pose proof (track_exact Hf h s TCount Hr) as H. cbn in *.
    destruct H as [[]|(n & E & C & _)]. exists n. inversion E. split; congruence.
  Qed.
End Theorems.

(** FINDING: TrackExtend of a deleted vector is not always rejected: with an allocator that
    reuses the address, the new vector is deleted and its address returned *)
Definition first_free (h : nat -> option (list nat)) (n : nat) : nat :=
  match h 0 with None => 0 | Some _ => match h 1 with None => 1 | Some _ => 2 end end.
Theorem track_extend_stale_refuted :
  exists s s', truns first_free (fun _ i => i) [(TNew 2, TPtr 0); (TDel 0, TNone)] s /\ ~ is_tracked (view s) 0 /\ tstep first_free (fun _ i => i) (TExtend 3 2 0) s = Some (s', TPtr 0) /\ view s' 0 = None.
Proof.
  eexists _, _. split; [|split; [|split]].
  - apply (truns_cons _ _ [(TNew 2, TPtr 0)]) with (s := fst (track_new first_free (fun _ i => i) tstart 2)).
    + apply (truns_cons _ _ []) with (s := tstart); [constructor|reflexivity].
    + reflexivity.
  - intros (b & E & _). vm_compute in E. discriminate.
  - reflexivity.
  - reflexivity.
Qed.
Definition bump (h : nat -> option (list nat)) (n : nat) : nat :=
  match h 0 with None => 0 | Some _ => match h 1 with None => 1 | Some _ => match h 2 with None => 2 | Some _ => 3 end end end.
Fixpoint trun {T} pick junk (os : list (top T)) (s : tst T) : option (list (tobs T)) :=
  match os with [] => Some [] | o :: os' => match tstep pick junk o s with None => None
    | Some (s1, r) => match trun pick junk os' s1 with Some l => Some (r :: l) | None => None end end end.
(** non-trivial case: extend keeps the copied elements, deletes the old vector *)
Example ex_track : trun bump (fun p i => 10 * p + i)
   [TNew 2; TSet 0 0 7; TSet 0 1 8; TNew 1; RawNew 4; TCount; TExtend 3 2 0; TGet 3 1; TGet 3 2; TCount; TDel 1; TCount; TExtend 2 0 3; TCount] tstart =
  Some [TPtr 0; TNone; TNone; TPtr 1; TPtr 2; TNum 2; TPtr 3; TElem 8; TElem 32; TNum 2; TNone; TNum 1; TPtr 0; TNum 2].
Proof. vm_compute. reflexivity. Qed.
Example ex_track_rejects : trun bump (fun p i => 10 * p + i) [TNew 2; RawNew 1; TDel 1] tstart = None.
Proof. vm_compute. reflexivity. Qed.
