(** Colouring: the general method *)
From Coq Require Import List Arith Bool Lia Permutation Sorted.
From Verif Require Import IndexSort_Model Util_Model Color_Model.
Import ListNotations.

Lemma fset_eq {A} (f : nat -> A) i v : fset f i v i = v.
Proof. unfold fset. now rewrite Nat.eqb_refl. Qed.
Lemma fset_ne {A} (f : nat -> A) i v k : k <> i -> fset f i v k = f k.
Proof. unfold fset. intros H. now apply Nat.eqb_neq in H as ->. Qed.
Lemma mem_iff x l : mem x l = true <-> In x l.
Proof.
  unfold mem. rewrite existsb_exists. split.
  - intros (y & H & E). apply Nat.eqb_eq in E. now subst.
  - intros H. exists x. split; auto. apply Nat.eqb_refl.
Qed.
Lemma mem2_iff i j ps : mem2 i j ps = true <-> In (i, j) ps.
Proof.
  unfold mem2. rewrite existsb_exists. split.
  - intros ([a b] & H & E). cbn in E. apply andb_true_iff in E as [E1 E2].
    apply Nat.eqb_eq in E1, E2. now subst.
  - intros H. exists (i, j). split; auto. cbn. now rewrite !Nat.eqb_refl.
Qed.
Lemma internal_pattern_in tr nc pat i c :
  In c (internal_pattern tr nc pat i) <-> c < nc /\ In (if tr then (c, i) else (i, c)) pat.
Proof.
  unfold internal_pattern. rewrite filter_In, in_seq. destruct tr; rewrite mem2_iff; cbn; intuition lia.
Qed.

Lemma forbid_true P color rs : forall forb k,
  forbid P color rs forb k = true <-> forb k = true \/ exists r, In r rs /\ P r = true /\ color r = k.
Proof.
  unfold forbid. induction rs as [|r rs IH]; intros forb k; cbn [fold_left].
  - split; [auto|]. intros [H|(r & [] & _)]; auto.
  - rewrite IH. destruct (P r) eqn:E.
    + destruct (Nat.eq_dec (color r) k) as [<-|N].
      * split; intros _; [right; exists r; cbn; auto | left; apply fset_eq].
      * rewrite fset_ne by auto. split; (intros [H|(x & H & H1 & H2)]; [auto|right]).
        -- exists x. cbn. auto.
        -- destruct H as [->|H]; [congruence|]. exists x. auto.
    + split; (intros [H|(x & H & H1 & H2)]; [auto|right]).
      * exists x. cbn. auto.
      * destruct H as [->|H]; [congruence|]. exists x. auto.
Qed.
Lemma fold_forbid_true P color (s : nat -> list nat) js : forall forb k,
  fold_left (fun f j => forbid P color (s j) f) js forb k = true <->
  forb k = true \/ exists j r, In j js /\ In r (s j) /\ P r = true /\ color r = k.
Proof.
  induction js as [|j js IH]; intros forb k; cbn [fold_left].
  - split; [auto|]. intros [H|(j & r & [] & _)]; auto.
  - rewrite IH, forbid_true. split.
    + intros [[H|(r & A & B & C)]|(j' & r & A & B)]; auto.
      * right. exists j, r. cbn. auto.
      * right. exists j', r. cbn. split; auto. 
    + intros [H|(j' & r & A & B & C)]; auto. cbn in A. destruct A as [->|A].
      * left. right. eauto.
      * right. exists j', r. auto.
Qed.
Lemma first_free_ok : forall fuel c ell forb,
  forb c = false -> ell <= c -> c - ell <= fuel ->
  exists e, first_free fuel c ell forb = Some e /\ ell <= e <= c /\ forb e = false /\
            forall k, ell <= k < e -> forb k = true.
Proof.
  induction fuel as [|fuel IH]; intros c ell forb Hc Hl Hf; cbn [first_free].
  - assert (ell = c) as -> by lia. rewrite Hc. exists c. repeat split; auto; intros; lia.
  - destruct (forb ell) eqn:E.
    + assert (ell <> c) by congruence.
      destruct (S ell <=? c) eqn:L; [|apply Nat.leb_gt in L; lia].
      destruct (IH c (S ell) forb Hc) as (e & A & B & C & D); try lia.
      exists e. repeat split; auto; try lia. intros k Hk.
      destruct (Nat.eq_dec k ell) as [->|]; auto. apply D. lia.
    + exists ell. repeat split; auto; intros; lia.
Qed.

(** ** specification of a colouring *)
Definition appears (ps : list (nat * nat)) (i : nat) : Prop := exists j, In (i, j) ps.
Definition proper (m : nat) (P : nat -> nat -> Prop) (ps : list (nat * nat)) (color : nat -> nat) : Prop :=
  forall i j r, In (i, j) ps -> r < m -> r <> i -> color r = color i -> ~ P r j.
Definition contiguous (ps : list (nat * nat)) (color : nat -> nat) : Prop :=
  forall i c, appears ps i -> c < color i -> exists r, appears ps r /\ color r = c.

Section General.
  Variables (m n : nat) (pattern : nat -> list nat) (ps : list (nat * nat)).
  Hypothesis range : forall i j, In (i, j) ps -> i < m /\ j < n.
  Hypothesis inpat : forall i j, In (i, j) ps -> In j (pattern i).

  Lemma row_appear_iff i : row_appear ps i = true <-> appears ps i.
  Proof.
    unfold row_appear, appears. rewrite existsb_exists. split.
    - intros ([a b] & H & E). apply Nat.eqb_eq in E. cbn in E. subst. eauto.
    - intros [j H]. exists (i, j). split; auto. apply Nat.eqb_refl.
  Qed.
  Lemma appears_lt i : appears ps i -> i < m.
  Proof. intros [j H]. now apply range in H. Qed.

  Definition before i := length (filter (row_appear ps) (seq 0 i)).
  Lemma before_S i : before (S i) = before i + (if row_appear ps i then 1 else 0).
  Proof.
    unfold before. rewrite seq_S, filter_app, app_length. cbn.
    now destruct (row_appear ps i).
  Qed.
  Lemma before_le i : before i <= i.
  Proof. induction i; [apply Nat.le_refl|]. rewrite before_S. destruct (row_appear ps i); lia. Qed.
  Lemma before_mono i k : i <= k -> before i <= before k.
  Proof. induction 1; auto. rewrite before_S. lia. Qed.
  Lemma before_lt i k : appears ps i -> i < k -> before i < before k.
  Proof.
    intros A H. pose proof (before_mono (S i) k H) as B. rewrite before_S in B.
    apply row_appear_iff in A. rewrite A in B. lia.
  Qed.
  Lemma init_color_ok : forall k i color,
    (forall r, r < i -> color r = if row_appear ps r then before r else m) ->
    forall r, r < i + k -> init_color m ps k i (before i) color r = if row_appear ps r then before r else m.
  Proof.
    induction k as [|k IH]; intros i color H r Hr; cbn [init_color].
    - apply H. lia.
    - assert (forall v, v = (if row_appear ps i then before i else m) ->
        forall r, r < S i -> fset color i v r = if row_appear ps r then before r else m) as Q.
      { intros v -> r' Hr'. destruct (Nat.eq_dec r' i) as [->|N]; [now rewrite fset_eq|].
        rewrite fset_ne by auto. apply H. lia. }
      destruct (row_appear ps i) eqn:E.
      + replace (S (before i)) with (before (S i)) by (rewrite before_S, E; lia).
        apply IH; [now apply Q|lia].
      + replace (before i) with (before (S i)) by (rewrite before_S, E; lia).
        apply IH; [now apply Q|lia].
  Qed.

  (** invariant: rows below i are done *)
  Record ginv (i : nat) (color : nat -> nat) : Prop := {
    gi_not : forall r, r < m -> ~ appears ps r -> color r = m;
    gi_le : forall r, appears ps r -> color r <= before r;
    gi_todo : forall r, appears ps r -> i <= r -> color r = before r;
    gi_proper : forall r1 r2 j, r1 < i -> r2 < i -> r1 <> r2 -> appears ps r1 -> appears ps r2 ->
      color r1 = color r2 -> In (r1, j) ps -> ~ In j (pattern r2);
    gi_cont : forall r c, r < i -> appears ps r -> c < color r -> exists r', r' < i /\ appears ps r' /\ color r' = c
  }.
  Lemma ginv_color i color r : ginv i color -> r < m -> (color r <? m) = true <-> appears ps r.
  Proof.
    intros G Hr. rewrite Nat.ltb_lt. split.
    - intros H. destruct (row_appear ps r) eqn:E; [now apply row_appear_iff|].
      rewrite (gi_not _ _ G) in H; [lia|auto|]. rewrite <- row_appear_iff. congruence.
    - intros A. pose proof (gi_le _ _ G r A). pose proof (before_le r). lia.
  Qed.
  Lemma general_step_ok i color forb : i < m -> ginv i color ->
    exists color' forb', general_step m n pattern ps i (color, forb) = Some (color', forb') /\ ginv (S i) color'.
  Proof.
    intros Hi G. unfold general_step.
    destruct (color i <? m) eqn:E.
    2:{ exists color, forb. split; auto.
        assert (NA : ~ appears ps i) by (intros A; apply (ginv_color i color i G Hi) in A; congruence).
        destruct G as [a b c d e]. split; auto.
        - intros r A Hr. apply c; auto; lia.
        - intros r1 r2 j H1 H2 N A1 A2. apply d; auto.
          + destruct (Nat.eq_dec r1 i) as [->|]; [contradiction|lia].
          + destruct (Nat.eq_dec r2 i) as [->|]; [contradiction|lia].
        - intros r k Hr A Hk. destruct (Nat.eq_dec r i) as [->|]; [contradiction|].
          destruct (e r k) as (r' & X & Y); auto; [lia|]. exists r'. split; auto; lia. }
    apply (ginv_color i color i G Hi) in E.
    pose proof (gi_todo _ _ G i E (Nat.le_refl _)) as Ci. rewrite Ci in *.
    set (P r := (r <? i) && (color r <? m)).
    set (forb1 := reset (before i) forb).
    set (forb2 := fold_left _ (pattern i) forb1).
    set (forb3 := fold_left _ (r2c_appear n ps i) forb2).
    assert (PP : forall r, P r = true <-> r < i /\ appears ps r).
    { intros r. unfold P. rewrite andb_true_iff, Nat.ltb_lt. split.
      - intros [A B]. split; auto. apply (ginv_color i color r G) in B; auto; lia.
      - intros [A B]. split; auto. apply (ginv_color i color r G); auto; lia. }
    assert (F : forall k, k <= before i -> (forb3 k = true <->
       exists r j, r < i /\ appears ps r /\ color r = k /\
         ((In j (pattern i) /\ In (r, j) ps) \/ (In (i, j) ps /\ In j (pattern r))))).
    { intros k Hk. unfold forb3, forb2. rewrite !fold_forbid_true. unfold forb1, reset.
      apply Nat.leb_le in Hk. rewrite Hk. split.
      - intros [[H|(j & r & A & B & C & D)]|(j & r & A & B & C & D)]; [discriminate| |].
        + apply PP in C as [C1 C2]. unfold c2r_appear in B. apply filter_In in B as [_ B].
          apply mem2_iff in B. exists r, j. repeat split; auto.
        + apply PP in C as [C1 C2]. unfold r2c_appear in A. apply filter_In in A as [_ A].
          apply mem2_iff in A. unfold not_appear in B. apply filter_In in B as [_ B].
          apply andb_true_iff in B as [B _]. apply mem_iff in B.
          exists r, j. repeat split; auto.
      - intros (r & j & Hr & A & C & [[D1 D2]|[D1 D2]]).
        + left. right. exists j, r. repeat split; auto; [|apply PP; auto].
          apply filter_In. split; [apply in_seq; lia|now apply mem2_iff].
        + destruct (mem2 r j ps) eqn:M.
          * left. right. exists j, r. repeat split; auto; [|apply PP; auto].
            apply filter_In. split; [apply in_seq; lia|auto].
          * right. exists j, r. repeat split; auto; [| |apply PP; auto].
            -- apply filter_In. split; [apply in_seq; apply range in D1; lia|now apply mem2_iff].
            -- apply filter_In. split; [apply in_seq; lia|]. apply andb_true_iff. split; [now apply mem_iff|].
               destruct (mem r (c2r_appear m ps j)) eqn:M'; auto.
               apply mem_iff in M'. apply filter_In in M' as [_ M']. congruence. }
    assert (Free : forb3 (before i) = false).
    { destruct (forb3 (before i)) eqn:B; auto. apply F in B as (r & j & Hr & A & C & _); [|auto].
      pose proof (gi_le _ _ G r A). pose proof (before_lt r i A Hr). lia. }
    destruct (first_free_ok m (before i) 0 forb3) as (e & E1 & E2 & E3 & E4); auto; [lia| |].
    { pose proof (before_le i). lia. }
    rewrite E1. exists (fset color i e), forb3. split; auto.
    assert (NF : forall r j, r < i -> appears ps r -> color r = e ->
         (In j (pattern i) -> In (r, j) ps -> False) /\ (In (i, j) ps -> In j (pattern r) -> False)).
    { intros r j Hr A C. assert (X : forb3 e = true -> False) by congruence. 
      split; intros H1 H2; apply X; apply F; try lia; exists r, j; auto 10. }
    destruct G as [a b c d e']. split.
    - intros r Hr A. rewrite fset_ne; [auto|]. intros ->. contradiction.
    - intros r A. destruct (Nat.eq_dec r i) as [->|N]; [rewrite fset_eq; lia|]. rewrite fset_ne by auto. auto.
    - intros r A Hr. rewrite fset_ne by lia. apply c; auto; lia.
    - intros r1 r2 j H1 H2 N A1 A2 C Hj Hj2.
      destruct (Nat.eq_dec r1 i) as [->|N1]; destruct (Nat.eq_dec r2 i) as [->|N2]; try contradiction.
      + rewrite fset_eq, fset_ne in C by auto. destruct (NF r2 j) as [_ Q]; auto; lia.
      + rewrite fset_eq, fset_ne in C by auto. destruct (NF r1 j) as [Q _]; auto; lia.
      + rewrite !fset_ne in C by auto. apply (d r1 r2 j); auto; lia.
    - intros r k Hr A Hk. destruct (Nat.eq_dec r i) as [->|N].
      + rewrite fset_eq in Hk. destruct (F k) as [Q _]; [lia|].
        destruct Q as (r & j & X & Y & Z & _); [apply E4; lia|].
        exists r. rewrite fset_ne by lia. repeat split; auto; lia.
      + rewrite fset_ne in Hk by auto. destruct (e' r k) as (r' & X & Y & Z); auto; [lia|].
        exists r'. rewrite fset_ne by lia. repeat split; auto; lia.
  Qed.
  Lemma general_loop_ok : forall k i color forb, i + k <= m -> ginv i color ->
    exists color' forb', general_loop m n pattern ps k i (color, forb) = Some (color', forb') /\ ginv (i + k) color'.
  Proof.
    induction k as [|k IH]; intros i color forb H G; cbn [general_loop].
    - exists color, forb. rewrite Nat.add_0_r. auto.
    - destruct (general_step_ok i color forb) as (c1 & f1 & E & G1); auto; [lia|]. rewrite E.
      destruct (IH (S i) c1 f1) as (c2 & f2 & E2 & G2); auto; [lia|].
      exists c2, f2. rewrite E2. split; auto. now rewrite <- plus_n_Sm.
  Qed.
  Lemma color_general_ok color0 forb0 :
    exists color, color_general m n pattern ps color0 forb0 = Some color /\
      (forall i, i < m -> (color i < m <-> appears ps i)) /\ (forall i, appears ps i -> color i < m) /\
      (forall i j r, In (i, j) ps -> appears ps r -> r <> i -> color r = color i -> ~ In j (pattern r)) /\
      contiguous ps color.
  Proof.
    unfold color_general.
    replace (forallb _ ps) with true.
    2:{ symmetry. apply forallb_forall. intros [i j] H. apply mem_iff. now apply inpat. }
    assert (I0 : forall r, r < m -> init_color m ps m 0 0 color0 r = if row_appear ps r then before r else m).
    { intros r Hr. apply (init_color_ok m 0 color0); [lia|lia]. }
    assert (G : ginv 1 (init_color m ps m 0 0 color0)).
    { assert (Z : forall r, appears ps r -> init_color m ps m 0 0 color0 r = before r).
      { intros r A. rewrite I0 by (now apply appears_lt). apply row_appear_iff in A. now rewrite A. }
      split; intros.
      - rewrite I0 by auto. destruct (row_appear ps r) eqn:E; auto. apply row_appear_iff in E. contradiction.
      - rewrite Z; auto.
      - now apply Z.
      - exfalso; lia.
      - rewrite Z in H1 by auto. pose proof (before_le r). exfalso; lia. }
    assert (Em : m = 0 \/ 0 < m) by lia. destruct Em as [Em|Em].
    - replace (m - 1) with 0 by lia. cbn [general_loop]. eexists. split; [reflexivity|].
      assert (N : forall i, ~ appears ps i) by (intros i A; apply appears_lt in A; lia).
      split; [intros; lia|]. split; [intros i A; now apply N in A|]. split.
      + intros i j r H. exfalso. apply (N i). exists j. auto.
      + intros i c A. now apply N in A.
    - destruct (general_loop_ok (m - 1) 1 _ forb0 ltac:(lia) G) as (c & f & E & G').
      rewrite E. exists c. split; auto. replace (1 + (m - 1)) with m in G' by lia.
      assert (CL : forall i, i < m -> (c i < m <-> appears ps i)).
      { intros i Hi. rewrite <- Nat.ltb_lt. now apply (ginv_color m). }
      split; auto. split; [|split].
      + intros i A. apply CL; auto. now apply appears_lt.
      + intros i j r H A N C. eapply (gi_proper _ _ G' i r j); eauto using appears_lt.
        * apply range in H. lia.
        * exists j; auto.
      + intros i k A Hk. destruct (gi_cont _ _ G' i k) as (r & X & Y & Z); auto; [now apply appears_lt|]. eauto.
  Qed.
End General.
