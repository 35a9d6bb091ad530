(** Colouring: the symmetric method *)
From Coq Require Import List Arith Bool Lia Permutation Sorted.
From Verif Require Import IndexSort_Model IndexSort_Proof Util_Model Util_Prop Color_Model Color_Proof Color_Proof2.
Import ListNotations.

Lemma ins_in x s y : In y (Color_Model.ins x s) <-> y = x \/ In y s.
Proof.
  unfold Color_Model.ins. induction s as [|z s IH]; cbn [set_insert].
  - cbn. intuition.
  - destruct (Nat.ltb_spec x z) as [H|H]; [cbn; intuition|].
    destruct (Nat.ltb_spec z x) as [H1|H1].
    + split; [intros [A|A]|intros [A|[A|A]]]; try (apply IH in A); cbn; rewrite ?IH; intuition.
    + assert (z = x) as -> by lia. cbn. intuition.
Qed.
Lemma erase_in x s y : In y (erase x s) <-> In y s /\ y <> x.
Proof.
  unfold erase. rewrite filter_In, negb_true_iff, Nat.eqb_neq. tauto.
Qed.
Lemma nonempty_ex {A} (l : list A) : l <> [] <-> exists x, In x l.
Proof.
  split.
  - destruct l; [congruence|]. intros _. exists a. cbn; auto.
  - intros (x & H) ->. destruct H.
Qed.
Lemma pair_init_in : forall ps pn i j,
  In j (pair_init ps pn i) <-> In j (pn i) \/ In (i, j) ps \/ In (j, i) ps.
Proof.
  induction ps as [|[a b] ps IH]; intros pn i j; cbn [pair_init]; [cbn; tauto|].
  rewrite IH. cbn [In].
  set (pn1 := fset pn a (Color_Model.ins b (pn a))).
  assert (H1 : In j (pn1 i) <-> In j (pn i) \/ (a, b) = (i, j)).
  { unfold pn1. destruct (Nat.eq_dec i a) as [->|N].
    - rewrite fset_eq, ins_in. split; intros [H|H]; subst; auto; left; congruence.
    - rewrite fset_ne by auto. split; auto. intros [H|H]; auto. congruence. }
  destruct (Nat.eq_dec i b) as [->|N].
  - rewrite fset_eq, ins_in, H1. split.
    + intros [[H|[H|H]]|H]; try tauto. subst. tauto.
    + intros [H|[[H|H]|[H|H]]]; try tauto. left. left. congruence.
  - rewrite fset_ne by auto. rewrite H1.
    assert ((a, b) <> (j, i)) by congruence. tauto.
Qed.

Section Sym.
  Variable sort : list (nat * nat) -> list (nat * nat).
  Hypothesis Hsort : std_sort (elem_lt Nat.ltb) sort.
  Variables (m : nat) (pattern : nat -> list nat) (ps : list (nat * nat)).
  Hypothesis range : forall i j, In (i, j) ps -> i < m /\ j < m.
  Hypothesis inpat : forall i j, In (i, j) ps -> In j (pattern i).
  Hypothesis patlt : forall i j, In j (pattern i) -> j < m.

  Definition P0 i j := In (i, j) ps \/ In (j, i) ps.
  Definition pn0 := pair_init ps (fun _ => []).
  Lemma pn0_in i j : In j (pn0 i) <-> P0 i j.
  Proof. unfold pn0. rewrite pair_init_in. cbn. unfold P0. tauto. Qed.
  Lemma P0_sym i j : P0 i j -> P0 j i. Proof. unfold P0. tauto. Qed.
  Lemma P0_lt i j : P0 i j -> i < m /\ j < m.
  Proof. intros [H|H]; apply range in H; lia. Qed.

  Definition o2r := order2row sort m pn0.
  Lemma o2r_perm : Permutation (seq 0 m) o2r.
  Proof.
    unfold o2r, order2row.
    destruct (index_sort_ok Nat.ltb sort 0 (map (fun i => m - length (pn0 i)) (seq 0 m)) nat_sw Hsort) as [P _].
    now rewrite map_length, seq_length in P.
  Qed.
  Lemma o2r_nodup : NoDup o2r.
  Proof. apply (Permutation_NoDup o2r_perm), seq_NoDup. Qed.
  Lemma o2r_in i : In i o2r <-> i < m.
  Proof.
    split; intros H.
    - apply (Permutation_in _ (Permutation_sym o2r_perm)) in H. apply in_seq in H. lia.
    - apply (Permutation_in _ o2r_perm). apply in_seq. lia.
  Qed.
  Lemma o2r_len : length o2r = m.
  Proof. rewrite <- (Permutation_length o2r_perm). apply seq_length. Qed.

  Lemma row2order_out : forall l o f i, ~ In i l -> row2order l o f i = f i.
  Proof.
    induction l as [|x l IH]; intros o f i H; cbn [row2order]; auto.
    rewrite IH by (cbn in H; tauto). apply fset_ne. cbn in H. intuition.
  Qed.
  Lemma row2order_in : forall b i t o f, NoDup (b ++ i :: t) -> row2order (b ++ i :: t) o f i = o + length b.
  Proof.
    induction b as [|x b IH]; intros i t o f H; cbn [app row2order length].
    - cbn in H. inversion H; subst. rewrite row2order_out by auto. rewrite fset_eq. lia.
    - cbn in H. inversion H; subst. rewrite IH by auto. lia.
  Qed.
  Section Pos.
    Variables (b : list nat) (i : nat) (t : list nat) (f : nat -> nat).
    Hypothesis E : o2r = b ++ i :: t.
    Notation r2o := (row2order o2r 0 f).
    Lemma pos_i : r2o i = length b.
    Proof. rewrite E. rewrite row2order_in; [lia|]. rewrite <- E. apply o2r_nodup. Qed.
    Lemma pos_b x : In x b -> r2o x < length b.
    Proof.
      intros H. apply in_split in H as (b1 & b2 & ->). rewrite E, <- app_assoc. cbn [app].
      rewrite row2order_in; [rewrite app_length; cbn; lia|].
      replace (b1 ++ x :: b2 ++ i :: t) with o2r; [apply o2r_nodup|]. rewrite E, <- app_assoc. reflexivity.
    Qed.
    Lemma pos_t x : In x t -> length b < r2o x.
    Proof.
      intros H. apply in_split in H as (b1 & b2 & ->). rewrite E.
      replace (b ++ i :: b1 ++ x :: b2) with ((b ++ i :: b1) ++ x :: b2) by (now rewrite <- app_assoc).
      rewrite row2order_in; [rewrite app_length; cbn; lia|].
      rewrite <- app_assoc. cbn. rewrite <- E. apply o2r_nodup.
    Qed.
  End Pos.

  Definition ne (i : nat) : bool := match pn0 i with [] => false | _ => true end.
  Lemma ne_iff i : ne i = true <-> pn0 i <> [].
  Proof. unfold ne. destruct (pn0 i); split; congruence. Qed.
  Lemma sym_init_out : forall l c color i, ~ In i l -> sym_init m pn0 l c color i = color i.
  Proof.
    induction l as [|x l IH]; intros c color i H; cbn [sym_init]; auto.
    destruct (pn0 x); (rewrite IH; [apply fset_ne|]); cbn in H; intuition.
  Qed.
  Lemma sym_init_in : forall b i t c color, NoDup (b ++ i :: t) ->
    sym_init m pn0 (b ++ i :: t) c color i = if ne i then c + length (filter ne b) else m.
  Proof.
    induction b as [|x b IH]; intros i t c color H; cbn [app sym_init filter].
    - cbn in H. inversion H; subst. unfold ne. destruct (pn0 i); rewrite sym_init_out by auto; rewrite fset_eq; cbn; lia.
    - cbn in H. inversion H; subst. replace (match pn0 x with [] => _ | _ => _ end) with
        (sym_init m pn0 (b ++ i :: t) (if ne x then S c else c) (fset color x (if ne x then c else m))).
      + rewrite IH by auto. destruct (ne i); auto. destruct (ne x); cbn; lia.
      + unfold ne. destruct (pn0 x); reflexivity.
  Qed.
  Variable color0 : nat -> nat.
  Definition c0 := sym_init m pn0 o2r 0 color0.
  Lemma c0_empty i : i < m -> pn0 i = [] -> c0 i = m.
  Proof.
    intros Hi E. apply o2r_in in Hi. apply in_split in Hi as (b & t & S).
    unfold c0. rewrite S, sym_init_in by (rewrite <- S; apply o2r_nodup).
    unfold ne. now rewrite E.
  Qed.
  Lemma c0_val b i t : o2r = b ++ i :: t -> pn0 i <> [] -> c0 i = length (filter ne b) /\ c0 i < m.
  Proof.
    intros S H. apply ne_iff in H. unfold c0. rewrite S, sym_init_in by (rewrite <- S; apply o2r_nodup).
    rewrite H. split; [lia|]. assert (Q : length (filter ne b) <= length b) by (clear; induction b as [|x b IH]; cbn; auto; destruct (ne x); cbn; lia). pose proof o2r_len as L.
    rewrite S, app_length in L. cbn in L. lia.
  Qed.
  Lemma c0_lt b i t x : o2r = b ++ i :: t -> In x b -> pn0 x <> [] -> pn0 i <> [] -> c0 x < c0 i.
  Proof.
    intros S X Hx Hi. destruct (c0_val _ _ _ S Hi) as [-> _].
    apply in_split in X as (b1 & b2 & ->). rewrite <- app_assoc in S. cbn in S.
    destruct (c0_val _ _ _ S Hx) as [-> _]. apply ne_iff in Hx.
    rewrite filter_app, app_length. cbn. rewrite Hx. cbn. lia.
  Qed.
  Lemma c0_gt b i t x : o2r = b ++ i :: t -> In x t -> pn0 x <> [] -> pn0 i <> [] -> c0 i < c0 x.
  Proof.
    intros S X Hx Hi. apply in_split in X as (t1 & t2 & ->).
    apply (c0_lt (b ++ i :: t1) x t2); auto.
    - rewrite <- app_assoc. exact S.
    - apply in_or_app; cbn; auto.
  Qed.

  Record sinv (before todo : list nat) (color : nat -> nat) (pn : nat -> list nat) : Prop := {
    sv_split : o2r = before ++ todo;
    sv_sub : forall i j, In j (pn i) -> P0 i j;
    sv_cov : forall i j, P0 i j -> In j (pn i) \/ In i (pn j);
    sv_one : forall i j, In i before -> j <> i -> In j (pn i) -> ~ In i (pn j);
    sv_empty : forall i, i < m -> pn i = [] -> color i = m;
    sv_todo : forall i, In i todo -> pn i <> [] -> color i = c0 i;
    sv_done : forall i, In i before -> pn i <> [] -> color i <= c0 i;
    sv_prop : forall i1 i2 j, In i1 before -> In i2 before -> i1 <> i2 -> pn i2 <> [] ->
      color i1 = color i2 -> In j (pn i1) -> ~ In i2 (pattern j) \/ ~ In j (pattern i2);
    sv_cont : forall i c, In i before -> pn i <> [] -> c < color i ->
      exists r, In r before /\ pn r <> [] /\ color r = c
  }.
  Lemma sinv_ne before todo color pn i : sinv before todo color pn -> pn i <> [] -> pn0 i <> [].
  Proof.
    intros V H. apply nonempty_ex in H as (j & H). apply nonempty_ex. exists j. apply pn0_in.
    eapply sv_sub; eauto.
  Qed.
  Lemma sinv_color before todo color pn i : sinv before todo color pn -> i < m ->
    (color i < m <-> pn i <> []).
  Proof.
    intros V Hi. split.
    - intros H E. rewrite (sv_empty _ _ _ _ V) in H; auto. lia.
    - intros H. pose proof (sinv_ne _ _ _ _ _ V H) as H0.
      apply o2r_in in Hi. pose proof Hi as Hs. apply in_split in Hs as (b & t & S).
      destruct (c0_val _ _ _ S H0) as [_ L].
      rewrite (sv_split _ _ _ _ V) in Hi. apply in_app_or in Hi as [Hi|Hi].
      + pose proof (sv_done _ _ _ _ V i Hi H). lia.
      + pose proof (sv_todo _ _ _ _ V i Hi H). lia.
  Qed.

  Lemma erase_loop_ok r2o o1 i1 : forall l pn color,
    (forall j, o1 < r2o j -> j <> i1) ->
    let '(pn', color') := erase_loop m r2o o1 i1 l pn color in
    (forall x y, In y (pn' x) <-> In y (pn x) /\ ~ (In x l /\ o1 < r2o x /\ y = i1)) /\
    (forall x, r2o x <= o1 -> pn' x = pn x /\ color' x = color x) /\
    (forall x, pn' x <> [] -> color' x = color x) /\
    (forall x, pn' x = [] -> color' x = m \/ (pn x = [] /\ color' x = color x)).
  Proof.
    induction l as [|j l IH]; intros pn color Hne; cbn [erase_loop].
    - repeat split; intros; cbn in *; tauto.
    - destruct ((o1 <? r2o j) && mem i1 (pn j)) eqn:B.
      + apply andb_true_iff in B as [B1 B2]. apply Nat.ltb_lt in B1. apply mem_iff in B2.
        set (s := erase i1 (pn j)).
        set (color1 := match s with [] => fset color j m | _ => color end).
        specialize (IH (fset pn j s) color1 Hne).
        destruct (erase_loop m r2o o1 i1 l (fset pn j s) color1) as [pn' color'].
        destruct IH as (A & C & D & F).
        assert (Q : forall x y, In y (fset pn j s x) <-> In y (pn x) /\ ~ (x = j /\ y = i1)).
        { intros x y. destruct (Nat.eq_dec x j) as [->|N].
          - rewrite fset_eq. unfold s. rewrite erase_in. intuition.
          - rewrite fset_ne by auto. intuition. }
        assert (CO : forall x, x <> j -> color1 x = color x).
        { intros x N. unfold color1. destruct s; auto. now apply fset_ne. }
        split; [|split; [|split]].
        * intros x y. rewrite A, Q. cbn [In]. split; [intros [[U V] W]|intros [U W]]; (split; [|]); auto.
          -- intros ([X|X] & Y & Z); [apply V; auto|]. tauto.
          -- split; auto. intros [-> ->]. tauto.
          -- intros (X & Y & Z). tauto.
        * intros x Hx. destruct (C x Hx) as [-> ->].
          assert (x <> j) by (intros ->; lia). rewrite fset_ne by auto. auto.
        * intros x Hx. rewrite D by auto. unfold color1. destruct s eqn:Es; auto.
          destruct (Nat.eq_dec x j) as [->|N]; [|now apply fset_ne].
          exfalso. apply nonempty_ex in Hx as (y & Hy). apply A in Hy as [Hy _].
          rewrite fset_eq in Hy. destruct Hy.
        * intros x Hx. destruct (F x Hx) as [|[U V]]; auto.
          destruct (Nat.eq_dec x j) as [->|N].
          -- rewrite fset_eq in U. rewrite V. unfold color1. rewrite U. left. apply fset_eq.
          -- rewrite fset_ne in U by auto. rewrite V, CO by auto. auto.
      + specialize (IH pn color Hne). destruct (erase_loop m r2o o1 i1 l pn color) as [pn' color'].
        destruct IH as (A & C & D & F). split; [|split; [|split]]; auto.
        intros x y. rewrite A. cbn [In]. split; intros [U W]; split; auto.
        * intros ([X|X] & Y & Z); [|tauto]. subst x y.
          apply Nat.ltb_lt in Y. apply mem_iff in U. rewrite Y, U in B. discriminate.
        * intros (X & Y & Z). tauto.
  Qed.

  Lemma fold_before (color : nat -> nat) (pn : nat -> list nat) (p : list nat) : forall before forb k,
    fold_left (fun f i2 => fold_left (fun f j2 => if mem j2 p then fset f (color i2) true else f) (pn i2) f) before forb k = true <->
    forb k = true \/ exists i2 j2, In i2 before /\ In j2 (pn i2) /\ In j2 p /\ color i2 = k.
  Proof.
    assert (Inner : forall c l forb k, fold_left (fun f j2 => if mem j2 p then fset f c true else f) l forb k = true <->
       forb k = true \/ exists j2, In j2 l /\ In j2 p /\ c = k).
    { intros c. induction l as [|j l IH]; intros forb k; cbn [fold_left].
      - split; auto. intros [H|(j & [] & _)]; auto.
      - rewrite IH. destruct (mem j p) eqn:E.
        + apply mem_iff in E. destruct (Nat.eq_dec c k) as [->|N].
          * rewrite fset_eq. split; auto. intros _. right. exists j. cbn. auto.
          * rewrite fset_ne by auto. split; intros [H|(x & H & H1 & H2)]; auto; contradiction.
        + split; (intros [H|(x & H & H1 & H2)]; [auto|right; exists x]); [cbn; auto|].
          destruct H as [->|H]; auto. apply mem_iff in H1. congruence. }
    induction before as [|i l IH]; intros forb k; cbn [fold_left].
    - split; auto. intros [H|(i & j & [] & _)]; auto.
    - rewrite IH, Inner. split.
      + intros [[H|(j & A & B & C)]|(i2 & j2 & A & B)]; auto.
        * right. exists i, j. cbn. auto.
        * right. exists i2, j2. cbn. auto.
      + intros [H|(i2 & j2 & A & B & C & D)]; auto. destruct A as [->|A].
        * left. right. eauto.
        * right. exists i2, j2. auto.
  Qed.

  Lemma sym_step_ok f before i1 todo color forb pn :
    sinv before (i1 :: todo) color pn ->
    exists color' forb' pn',
      sym_step m pattern (row2order o2r 0 f) before (length before) i1 (mkS color forb pn) = Some (mkS color' forb' pn') /\
      sinv (before ++ [i1]) todo color' pn'.
  Proof.
    intros V. unfold sym_step. cbn [s_color s_forb s_pn].
    pose proof (sv_split _ _ _ _ V) as Sp.
    assert (Hi1 : i1 < m) by (apply o2r_in; rewrite Sp; apply in_or_app; cbn; auto).
    assert (Sp' : o2r = (before ++ [i1]) ++ todo) by (now rewrite <- app_assoc).
    assert (NB : ~ In i1 before /\ ~ In i1 todo).
    { pose proof o2r_nodup as N. rewrite Sp in N. apply NoDup_remove_2 in N. rewrite in_app_iff in N. tauto. }
    assert (NBT : forall x, In x before -> ~ In x todo).
    { intros x X Y. pose proof o2r_nodup as N. rewrite Sp' in N.
      apply in_split in Y as (t1 & t2 & ->). rewrite app_assoc in N. apply NoDup_remove_2 in N.
      apply N. rewrite !in_app_iff. auto. }
    destruct (color i1 <? m) eqn:L.
    2:{ apply Nat.ltb_ge in L.
        assert (E : pn i1 = []).
        { destruct (pn i1) eqn:E; auto. exfalso.
          assert (color i1 < m); [|lia]. apply (sinv_color _ _ _ _ _ V Hi1). rewrite E. discriminate. }
        exists color, forb, pn. split; auto.
        destruct V as [a b c d e g h k l]. split; auto.
        - intros i j Hi. apply in_app_or in Hi as [Hi|[<-|[]]]; auto. rewrite E. intros _ [].
        - intros i Hi. apply g. cbn; auto.
        - intros i Hi. apply in_app_or in Hi as [Hi|[<-|[]]]; auto. congruence.
        - intros x1 x2 j H1 H2 N1 N2 N3 N4.
          apply in_app_or in H1 as [H1|[<-|[]]]; [|rewrite E in N4; destruct N4].
          apply in_app_or in H2 as [H2|[<-|[]]]; [|congruence]. apply (k x1 x2 j); auto.
        - intros i k0 Hi N Hk. apply in_app_or in Hi as [Hi|[<-|[]]]; [|congruence].
          destruct (l i k0 Hi N Hk) as (r & X & Y). exists r. rewrite in_app_iff. auto. }
    apply Nat.ltb_lt in L. pose proof (proj1 (sinv_color _ _ _ _ _ V Hi1) L) as NE.
    pose proof (sv_todo _ _ _ _ V i1 (or_introl eq_refl) NE) as C1.
    pose proof (sinv_ne _ _ _ _ _ V NE) as NE0.
    set (c1 := color i1) in *.
    set (forb1 := reset c1 forb). set (forb2 := fold_left _ (pn i1) forb1).
    set (forb3 := fold_left _ before forb2).
    assert (Done : forall x, In x before -> pn x <> [] -> color x < c1).
    { intros x X N. pose proof (sv_done _ _ _ _ V x X N). pose proof (sinv_ne _ _ _ _ _ V N) as N0.
      pose proof (c0_lt _ _ _ x Sp X N0 NE0). lia. }
    assert (Lower : forall x, x < m -> color x < c1 -> In x before /\ pn x <> []).
    { intros x Hx Hc. assert (N : pn x <> []) by (apply (sinv_color _ _ _ _ _ V Hx); lia).
      split; auto. apply o2r_in in Hx. rewrite Sp in Hx. apply in_app_or in Hx as [Hx|[<-|Hx]]; auto; [lia|].
      pose proof (sv_todo _ _ _ _ V x (or_intror Hx) N).
      pose proof (c0_gt _ _ _ x Sp Hx (sinv_ne _ _ _ _ _ V N) NE0). lia. }
    assert (F : forall k, k <= c1 -> (forb3 k = true <->
       (exists j1 i2, In j1 (pn i1) /\ In i2 (pattern j1) /\ color i2 < c1 /\ color i2 = k) \/
       (exists i2 j2, In i2 before /\ In j2 (pn i2) /\ In j2 (pattern i1) /\ color i2 = k))).
    { intros k Hk. unfold forb3. rewrite fold_before. unfold forb2.
      rewrite (fold_forbid_true (fun i2 => color i2 <? c1) color pattern).
      unfold forb1, reset. apply Nat.leb_le in Hk. rewrite Hk.
      split.
      - intros [[H|(j & r & A & B & C & D)]|H]; [discriminate| |auto].
        apply Nat.ltb_lt in C. left. exists j, r. auto.
      - intros [(j & r & A & B & C & D)|H]; auto.
        left. right. exists j, r. repeat split; auto. now apply Nat.ltb_lt. }
    assert (Free : forb3 c1 = false).
    { destruct (forb3 c1) eqn:B; auto. apply F in B as [(j1 & i2 & _ & _ & X & Y)|(i2 & j2 & X & Y & _ & Z)]; auto; [lia|].
      assert (color i2 < c1); [|lia]. apply Done; auto. apply nonempty_ex; eauto. }
    destruct (first_free_ok m c1 0 forb3) as (e & E1 & E2 & E3 & E4); auto; [lia|lia|].
    rewrite E1.
    pose proof (erase_loop_ok (row2order o2r 0 f) (length before) i1 (pn i1) pn (fset color i1 e)) as EL.
    assert (HP : forall j, length before < row2order o2r 0 f j -> j <> i1).
    { intros j Hj ->. rewrite (pos_i _ _ _ _ Sp) in Hj. lia. }
    specialize (EL HP).
    destruct (erase_loop m (row2order o2r 0 f) (length before) i1 (pn i1) pn (fset color i1 e)) as [pn' color'].
    destruct EL as (EA & EB & EC & ED).
    exists color', forb3, pn'. split; [reflexivity|].
    destruct (EB i1) as [Pi1 Ci1]; [rewrite (pos_i _ _ _ _ Sp); auto|]. rewrite fset_eq in Ci1.
    assert (Pb : forall x, In x before -> pn' x = pn x /\ color' x = color x).
    { intros x X. destruct (EB x) as [U W].
      - pose proof (pos_b _ _ _ f Sp x X). lia.
      - rewrite fset_ne in W; auto. intros ->. tauto. }
    assert (Sub : forall x y, In y (pn' x) -> In y (pn x)) by (intros x y H; apply EA in H; tauto).
    assert (NFA : forall i2 j, color i2 < c1 -> color i2 = e -> In j (pn i1) -> ~ In i2 (pattern j)).
    { intros i2 j A B C D. assert (X : forb3 e = true); [|congruence]. apply F; [lia|].
      left. exists j, i2. auto. }
    assert (NFB : forall i2 j, In i2 before -> color i2 = e -> In j (pn i2) -> ~ In j (pattern i1)).
    { intros i2 j A B C D. assert (X : forb3 e = true); [|congruence]. apply F; [lia|].
      right. exists i2, j. auto. }
    split.
    - exact Sp'.
    - intros i j H. apply Sub in H. eapply sv_sub; eauto.
    - intros i j H. pose proof (sv_cov _ _ _ _ V i j H) as Q.
      rewrite !EA.
      destruct (in_dec Nat.eq_dec j (pn i)) as [I|I]; destruct (in_dec Nat.eq_dec i (pn j)) as [J|J]; try tauto.
      + destruct (Nat.eq_dec j i1) as [->|N1]; [|left; split; auto; tauto].
        right. split; auto. intros (X & Y & ->).
        rewrite (pos_i _ _ _ _ Sp) in Y. lia.
      + left. split; auto. intros (X & Y & ->). contradiction.
      + right. split; auto. intros (X & Y & ->). contradiction.
    - intros i j Hi N H H2. apply in_app_or in Hi as [Hi|[<-|[]]].
      + apply (sv_one _ _ _ _ V i j Hi N); auto.
      + rewrite Pi1 in H. apply EA in H2 as [H2 H3].
        assert (j < m) as Hj by (apply (P0_lt i1 j); eapply sv_sub; eauto).
        apply o2r_in in Hj. rewrite Sp in Hj. apply in_app_or in Hj as [Hj|[Hj|Hj]]; [|congruence|].
        * apply (sv_one _ _ _ _ V j i1 Hj); auto.
        * apply H3. repeat split; auto. now apply (pos_t _ _ _ f Sp).
    - intros i Hi E. destruct (ED i E) as [|[U W]]; auto. rewrite W.
      destruct (Nat.eq_dec i i1) as [->|N]; [congruence|]. rewrite fset_ne by auto. eapply sv_empty; eauto.
    - intros i Hi N. rewrite EC by auto. rewrite fset_ne by (intros ->; tauto).
      apply (sv_todo _ _ _ _ V); [cbn; auto|].
      apply nonempty_ex in N as (y & Hy). apply nonempty_ex. exists y. auto.
    - intros i Hi N. apply in_app_or in Hi as [Hi|[<-|[]]].
      + destruct (Pb i Hi) as [U W]. rewrite W. apply (sv_done _ _ _ _ V); auto. congruence.
      + rewrite Ci1. lia.
    - intros x1 x2 j H1 H2 N Nx C J.
      apply in_app_or in H1 as [H1|[<-|[]]]; apply in_app_or in H2 as [H2|[<-|[]]]; try congruence.
      + destruct (Pb x1 H1) as [U1 W1]. destruct (Pb x2 H2) as [U2 W2].
        apply (sv_prop _ _ _ _ V x1 x2 j); auto; congruence.
      + destruct (Pb x1 H1) as [U1 W1]. rewrite U1 in J. rewrite W1, Ci1 in C.
        right. eapply NFB; eauto.
      + destruct (Pb x2 H2) as [U2 W2]. rewrite W2, Ci1 in C. rewrite Pi1 in J.
        left. apply NFA; auto. apply Done; auto. congruence.
    - intros i k Hi N Hk. apply in_app_or in Hi as [Hi|[<-|[]]].
      + destruct (Pb i Hi) as [U W]. rewrite U in N. rewrite W in Hk.
        destruct (sv_cont _ _ _ _ V i k Hi N Hk) as (r & X & Y & Z). exists r.
        destruct (Pb r X) as [U2 W2]. rewrite U2, W2, in_app_iff. auto.
      + rewrite Ci1 in Hk. destruct (proj1 (F k ltac:(lia)) (E4 k ltac:(lia))) as
          [(j1 & i2 & X & Y & Z & W)|(i2 & j2 & X & Y & _ & Z)].
        * destruct (Lower i2 (patlt _ _ Y) Z) as [B B']. exists i2. destruct (Pb i2 B) as [-> ->].
          rewrite in_app_iff. auto.
        * exists i2. destruct (Pb i2 X) as [-> ->]. rewrite in_app_iff. repeat split; auto.
          apply nonempty_ex; eauto.
  Qed.

  Lemma sym_loop_ok f : forall todo before color forb pn,
    sinv before todo color pn ->
    exists color' forb' pn',
      sym_loop m pattern (row2order o2r 0 f) before todo (length before) (mkS color forb pn) = Some (mkS color' forb' pn') /\
      sinv o2r [] color' pn'.
  Proof.
    induction todo as [|i1 todo IH]; intros before color forb pn V; cbn [sym_loop].
    - exists color, forb, pn. split; auto. pose proof (sv_split _ _ _ _ V) as E. rewrite app_nil_r in E. now rewrite E in *.
    - destruct (sym_step_ok f before i1 todo color forb pn V) as (c & fb & q & E & V'). rewrite E.
      destruct (IH _ _ fb _ V') as (c' & fb' & q' & E' & V2). rewrite app_length in E'. cbn [length] in E'.
      rewrite Nat.add_1_r in E'. rewrite E'. exists c', fb', q'. auto.
  Qed.
  Lemma sinv_0 : sinv [] o2r c0 pn0.
  Proof.
    split; auto; try (intros; contradiction).
    - intros i j. apply pn0_in.
    - intros i j H. left. now apply pn0_in.
    - intros i. apply c0_empty.
  Qed.
  Lemma reflect_loop_ok color pn : sinv o2r [] color pn -> forall l, (forall i j, In (i, j) l -> P0 i j) ->
    exists l', reflect_loop pn l = Some l' /\
      Forall2 (fun p q => (q = p \/ q = flip p) /\ In (snd q) (pn (fst q))) l l'.
  Proof.
    intros V. induction l as [|[i j] l IH]; intros H; cbn [reflect_loop].
    - exists []. split; auto.
    - destruct IH as (l' & E & F); [intros; apply H; cbn; auto|].
      assert (P : P0 i j) by (apply H; cbn; auto). rewrite E.
      destruct (mem j (pn i)) eqn:M1.
      + exists ((i, j) :: l'). split; auto. constructor; auto. split; auto. now apply mem_iff.
      + destruct (mem i (pn j)) eqn:M2.
        * exists ((j, i) :: l'). split; auto. constructor; auto. split; [right; reflexivity|]. now apply mem_iff.
        * destruct (sv_cov _ _ _ _ V i j P) as [X|X]; apply mem_iff in X; congruence.
  Qed.
  Lemma color_symmetric_ok r2o0 forb0 :
    exists color ps', color_symmetric sort m pattern ps color0 r2o0 forb0 = Some (color, ps') /\
      Forall2 (fun p q => q = p \/ q = flip p) ps ps' /\
      (forall i, i < m -> (color i < m <-> appears ps' i)) /\
      (forall i j r, In (i, j) ps' -> appears ps' r -> r <> i -> color r = color i ->
         ~ In r (pattern j) \/ ~ In j (pattern r)) /\
      contiguous ps' color.
  Proof.
    unfold color_symmetric.
    replace (forallb _ ps) with true.
    2:{ symmetry. apply forallb_forall. intros [i j] H. apply mem_iff. now apply inpat. }
    fold pn0. fold o2r. fold c0.
    destruct (sym_loop_ok r2o0 o2r [] c0 forb0 pn0 sinv_0) as (color & fb & pn & E & V).
    cbn [length] in E. rewrite E. cbn [s_pn s_color].
    destruct (reflect_loop_ok color pn V ps) as (ps' & E' & F); [intros i j H; left; auto|].
    rewrite E'. exists color, ps'. split; auto.
    assert (In' : forall i j, In (i, j) ps' -> In j (pn i) /\ P0 i j).
    { intros i j H. assert (J : In j (pn i)).
      { clear -F H. induction F as [|p q l l' [HP HQ] F IH]; [destruct H|].
        destruct H as [->|H]; auto. }
      split; auto. eapply sv_sub; eauto. }
    assert (F' : Forall2 (fun p q => q = p \/ q = flip p) ps ps').
    { clear -F. induction F as [|p q l l' [HP HQ] F IH]; constructor; auto. }
    assert (App : forall i, appears ps' i <-> pn i <> []).
    { intros i. split.
      - intros (j & J). apply In' in J as [J _]. apply nonempty_ex. eauto.
      - intros N. apply nonempty_ex in N as (j & J). exists j.
        pose proof (sv_sub _ _ _ _ V i j J) as P.
        assert (One : j = i \/ ~ In i (pn j)).
        { destruct (Nat.eq_dec j i); auto. right. apply (sv_one _ _ _ _ V); auto. apply o2r_in. now apply P0_lt in P. }
        clear -F J P One. unfold P0 in P.
        induction F as [|p q l l' [HP HQ] F IH]; [cbn in P; tauto|].
        cbn [In] in P |- *.
        assert (G : p = (i, j) \/ p = (j, i) \/ In (i, j) l \/ In (j, i) l) by tauto.
        destruct G as [->|[->|G]].
        + destruct HP as [->| ->]; auto. cbn in HQ. destruct One as [->|One]; [auto|contradiction].
        + destruct HP as [->| ->]; auto. cbn in HQ. destruct One as [->|One]; [auto|contradiction].
        + right. apply IH. tauto. }
    split; auto. split; [|split].
    - intros i Hi. rewrite App. now apply (sinv_color _ _ _ _ _ V).
    - intros i j r H A N C. apply In' in H as [H P]. apply App in A.
      apply (sv_prop _ _ _ _ V i r j); auto; apply o2r_in; [now apply P0_lt in P|].
      apply nonempty_ex in A as (x & X). apply (sv_sub _ _ _ _ V) in X. now apply P0_lt in X.
    - intros i c A Hc. apply App in A. destruct (sv_cont _ _ _ _ V i c) as (r & X & Y & Z); auto.
      + apply nonempty_ex in A as (x & X). apply (sv_sub _ _ _ _ V) in X. apply P0_lt in X. now apply o2r_in.
      + exists r. rewrite App. auto.
  Qed.
End Sym.
