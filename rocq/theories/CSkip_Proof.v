(** C33: what is needed and what is skipped. *)
From Coq Require Import List Bool Arith Lia.
From Verif Require Import Base_Spec Op_Model Tape_Spec Tape_Model Tape_Proof Tape_Proof2 Abs_Proof Opt_Model Opt_Proof3 CSkip_Model.
Import ListNotations.

(** the uses of variables by an operator; [Some c]: not used when the comparison of the conditional expression is [c] *)
Definition uses (o : opvar) (a : list nat) : list (nat * option bool) :=
  let g j := nth j a 0 in
  let m c := Nat.testbit (g 1) c in
  match o with
  | CExpOp =>
    let same := m 2 && m 3 && (g 4 =? g 5) in
    (if m 0 then [(g 2, None)] else []) ++ (if m 1 then [(g 3, None)] else []) ++
    (if m 2 then [(g 4, if same then None else Some false)] else []) ++ (if m 3 then [(g 5, if same then None else Some true)] else [])
  | _ => map (fun v => (v, None)) (var_args o a)
  end.
Lemma uses_var o a v oc : In (v, oc) (uses o a) -> In v (var_args o a).
Proof.
  assert (In (v, oc) (map (fun v => (v, @None bool)) (var_args o a)) -> In v (var_args o a)) as K.
  { intros H. apply in_map_iff in H as (w & E & H). now injection E as -> _. }
  destruct o; try exact K. clear K. cbn [uses var_args]. rewrite !in_app_iff. intros H.
  destruct H as [H|[H|[H|H]]]; (destruct (Nat.testbit _ _); [|destruct H]); destruct H as [H|[]]; injection H as <- _; cbn; auto 8.
Qed.

Section L.
  Variable l : list ins.
  Hypothesis HN : numd 0 l.
  Hypothesis HA : forall k i, nth_error l k = Some i -> forall j, In j (var_args (i_op i) (i_arg i)) ->
    exists kj ij, kj < k /\ nth_error l kj = Some ij /\ 0 < num_res (i_op ij) /\ i_var ij = j.
  Hypothesis HO : forall i, In i l -> supp (i_op i) = true.
  Notation v2 := (var2op 0 l).
  Lemma av k i v : nth_error l k = Some i -> In v (var_args (i_op i) (i_arg i)) -> exists iv, nth_error l (v2 v) = Some iv /\ v2 v < k /\ 0 < num_res (i_op iv) /\ i_var iv = v.
  Proof. intros H Hv. destruct (HA k i H v Hv) as (kj & ij & A & B & C & <-). rewrite (var2op_eq l 0 0 kj ij HN B C). cbn. eauto 6. Qed.

  Definition use1 (k : nat) (st : cst) (u : nat * option bool) : cst :=
    match snd u with
    | None => use l k st (fst u)
    | Some c => use_branch l k false c st (fst u)
    end.
  Definition use_all (k : nat) (us : list (nat * option bool)) (st : cst) : cst := fold_left (use1 k) us st.
  Lemma branch_same k c st v : use_branch l k true c st v = use l k st v.
  Proof. unfold use_branch. cbn [negb andb]. destruct (use l k st v). reflexivity. Qed.
  (** the step is the uses of the operator, when it is active *)
  Lemma step_uses cmp i k U C : supp (i_op i) = true ->
    cusage_step l cmp i k (U, C) =
      if ishead (i_op i) then (fset U k true, C) else
      match i_op i with EndOp => (fset U k true, C) | ParOp => (U, C) | _ =>
      if num_res (i_op i) =? 0 then (if cmp then use_all k (uses (i_op i) (i_arg i)) (fset U k true, C) else (U, C))
      else if U k then use_all k (uses (i_op i) (i_arg i)) (U, C) else (U, C) end.
  Proof.
    intros S. destruct i as [o a v]. cbn [i_op i_arg] in *. unfold cusage_step. cbn [i_op i_arg].
    destruct o; try discriminate S; try reflexivity; cbn [g_unary g_vp g_pv g_dis g_vv g_cpp g_cpv g_cvp g_cvv orb ishead num_res Nat.eqb]; try reflexivity.
    destruct (U k); [|reflexivity]. cbn [uses]. unfold use_all. rewrite !fold_left_app.
    destruct (Nat.testbit (nth 1 a 0) 0), (Nat.testbit (nth 1 a 0) 1), (Nat.testbit (nth 1 a 0) 2), (Nat.testbit (nth 1 a 0) 3); cbn [andb fold_left];
      try destruct (nth 4 a 0 =? nth 5 a 0); cbn [fold_left use1 snd fst]; rewrite ?branch_same; reflexivity.
  Qed.

  Definition sub (s t : cset) : Prop := forall k c, s k c = true -> t k c = true.
  (** one use *)
  Lemma use1_ok k U C v oc : v2 v <> k -> let (U', C') := use1 k (U, C) (v, oc) in
    U' = fset U (v2 v) true /\ (forall j, j <> v2 v -> C' j = C j) /\ (U (v2 v) = true -> sub (C' (v2 v)) (C (v2 v))) /\
    (forall k' c', C' (v2 v) k' c' = true -> C k k' c' = true \/ (k' = k /\ oc = Some c')).
  Proof.
    intros NE. set (j := v2 v) in *.
    assert (let (U', C') := use l k (U, C) v in U' = fset U j true /\ (forall j', j' <> j -> C' j' = C j') /\ (U j = true -> sub (C' j) (C j)) /\ (forall k' c', C' j k' c' = true -> C k k' c' = true)) as K.
    { cbn. fold j. split; auto. split; [intros; now apply fset_ne|]. rewrite fset_eq. split.
      - intros ->. intros k' c' H. unfold cinter in H. now apply andb_true_iff in H.
      - intros k' c' H. destruct (U j); auto. unfold cinter in H. now apply andb_true_iff in H. }
    destruct oc as [c|]; cbn [use1 snd fst].
    - unfold use_branch. cbn [negb andb]. fold j. destruct (use l k (U, C) v) as [U1 C1] eqn:E. destruct K as (K1 & K2 & K3 & K4). cbn [fst]. destruct (U j) eqn:UJ; cbn [negb].
      + repeat (split; auto).
      + split; auto. split; [intros; rewrite fset_ne; auto|]. split; [discriminate|]. intros k' c'. rewrite fset_eq. unfold cadd. rewrite orb_true_iff, andb_true_iff. intros [[H1 H2]|H]; [|left; auto].
        right. apply Nat.eqb_eq in H1. apply eqb_prop in H2. subst. auto.
    - destruct (use l k (U, C) v) as [U1 C1]. destruct K as (K1 & K2 & K3 & K4). repeat (split; auto).
  Qed.
  Lemma use_all_ok k us : forall U C, (forall v oc, In (v, oc) us -> v2 v <> k) -> let (U', C') := use_all k us (U, C) in
    (forall j, U' j = true <-> U j = true \/ exists v oc, In (v, oc) us /\ j = v2 v) /\ (forall j, U j = true -> sub (C' j) (C j)) /\
    (forall j, (forall v oc, In (v, oc) us -> j <> v2 v) -> C' j = C j) /\
    (forall v oc, In (v, oc) us -> forall k' c', C' (v2 v) k' c' = true -> C k k' c' = true \/ (k' = k /\ forall w oc', In (w, oc') us -> v2 w = v2 v -> oc' = Some c')).
  Proof.
    induction us as [|[v oc] us IH]; intros U C NE; cbn [use_all fold_left].
    - split; [intros j; split; [auto|intros [?|(? & ? & [] & _)]; auto]|]. split; [intros j _ k' c'; auto|]. split; [auto|]. intros v oc [].
    - pose proof (use1_ok k U C v oc (NE v oc (or_introl eq_refl))) as S. destruct (use1 k (U, C) (v, oc)) as [U1 C1] eqn:E1. destruct S as (S1 & S2 & S3 & S4).
      change (fold_left (use1 k) us (U1, C1)) with (use_all k us (U1, C1)).
      specialize (IH U1 C1 ltac:(intros; eapply NE; right; eauto)). destruct (use_all k us (U1, C1)) as [U' C']. destruct IH as (I1 & I2 & I3 & I4).
      assert (C1 k = C k) as CK by (apply S2; intros Q; apply (NE v oc); [now left|auto]).
      assert (U1 (v2 v) = true) as UV by (rewrite S1; apply fset_eq).
      split; [|split; [|split]].
      + intros j. rewrite I1, S1. unfold fset. destruct (Nat.eqb_spec j (v2 v)) as [->|N].
        * split; [intros _; right; exists v, oc; split; [now left|auto]|auto].
        * split; [intros [?|(w & o' & Hw & ->)]; auto; right; exists w, o'; split; [now right|auto]|].
          intros [?|(w & o' & [Q|Hw] & ->)]; auto; [injection Q as <- <-; now destruct N|right; eauto].
      + intros j Hj k' c' H. apply I2 in H; [|rewrite S1; unfold fset; destruct (j =? v2 v); auto]. destruct (Nat.eq_dec j (v2 v)) as [->|N]; [apply S3; auto|now rewrite S2 in H].
      + intros j Hj. rewrite I3, S2; auto; [apply (Hj v oc); now left|]. intros w o' Hw. apply (Hj w o'). now right.
      + intros w oc' Hin k' c' H.
        assert (v2 w = v2 v -> C k k' c' = true \/ (k' = k /\ oc = Some c')) as FST.
        { intros Q. rewrite Q in H. apply I2 in H; auto. }
        assert (forall x ox, In (x, ox) us -> v2 x = v2 w -> C k k' c' = true \/ (k' = k /\ forall y oy, In (y, oy) us -> v2 y = v2 w -> oy = Some c')) as TL.
        { intros x ox Hx Qx. rewrite <- Qx in H. destruct (I4 x ox Hx k' c' H) as [?|[? Q]]; [left; congruence|right; split; auto]. rewrite <- Qx. auto. }
        assert ((exists x ox, In (x, ox) us /\ v2 x = v2 w) \/ (forall x ox, In (x, ox) us -> v2 x <> v2 w)) as [(x & ox & Hx & Qx)|NO].
        { clear. induction us as [|[x ox] us IH]; [right; intros ? ? []|]. destruct (Nat.eq_dec (v2 x) (v2 w)) as [E|E]; [left; exists x, ox; split; [now left|auto]|].
          destruct IH as [(y & oy & Hy & Q)|IH]; [left; exists y, oy; split; [now right|auto]|right]. intros y oy [Q|Hy]; [injection Q as <- <-; auto|eauto]. }
        * destruct (TL x ox Hx Qx) as [?|[-> Q]]; auto. destruct (Nat.eq_dec (v2 w) (v2 v)) as [EQ|NQ].
          -- destruct (FST EQ) as [?|[_ F]]; auto. right. split; auto. intros y oy [R|Hy] Qy; [injection R as <- <-; auto|eauto].
          -- right. split; auto. intros y oy [R|Hy] Qy; [injection R as <- <-; congruence|eauto].
        * destruct Hin as [R|Hin]; [injection R as <- <-|destruct (NO w oc' Hin eq_refl)].
          destruct (FST eq_refl) as [?|[-> F]]; auto. right. split; auto. intros y oy [R|Hy] Qy; [injection R as <- <-; auto|destruct (NO y oy Hy Qy)].
  Qed.

  Variables (cmp : bool) (dep : list nat).
  Hypothesis HD : forall v, In v dep -> exists i, In i l /\ 0 < num_res (i_op i) /\ i_var i = v.
  Definition active (U : nat -> bool) (m : nat) (i : ins) : Prop := if num_res (i_op i) =? 0 then cmp = true else U m = true.
  Definition cinv (k : nat) (st : cst) : Prop :=
    let '(U, C) := st in
    (forall v, In v dep -> U (v2 v) = true /\ forall k' c', C (v2 v) k' c' = false) /\
    (forall m i, nth_error l m = Some i -> num_res (i_op i) = 0 -> forall k' c', C m k' c' = false) /\
    (forall m i, k <= m -> nth_error l m = Some i -> active U m i -> forall v oc, In (v, oc) (uses (i_op i) (i_arg i)) ->
       U (v2 v) = true /\ forall k' c', C (v2 v) k' c' = true ->
         C m k' c' = true \/ (k' = m /\ forall w oc', In (w, oc') (uses (i_op i) (i_arg i)) -> v2 w = v2 v -> oc' = Some c')).
  Lemma v2_lt k i v oc : nth_error l k = Some i -> In (v, oc) (uses (i_op i) (i_arg i)) -> v2 v < k.
  Proof. intros H Hv. destruct (av k i v H (uses_var _ _ _ _ Hv)) as (iv & _ & Q & _). auto. Qed.
  Lemma cinv_use k i U C U0 : nth_error l k = Some i -> cinv (S k) (U, C) -> (forall j, U j = true -> U0 j = true) -> (forall j, j <> k -> U0 j = U j) ->
    cinv k (use_all k (uses (i_op i) (i_arg i)) (U0, C)).
  Proof.
    intros Hi (D & Z & I) M1 M2. pose proof (use_all_ok k (uses (i_op i) (i_arg i)) U0 C) as K.
    destruct (use_all k _ (U0, C)) as [U' C']. destruct K as (K1 & K2 & K3 & K4).
    { intros v oc Hv. pose proof (v2_lt k i v oc Hi Hv). lia. }
    assert (forall j, k <= j -> C' j = C j) as CK.
    { intros j Hj. apply K3. intros v oc Hv. pose proof (v2_lt k i v oc Hi Hv). lia. }
    split; [|split].
    - intros v Hv. destruct (D v Hv) as [D1 D2]. split; [apply K1; left; auto|]. intros k' c'. destruct (C' (v2 v) k' c') eqn:E; auto. apply K2 in E; [|auto]. now rewrite D2 in E.
    - intros m im Hm R k' c'. rewrite K3; [eauto|]. intros v oc Hv ->. destruct (av k i v Hi (uses_var _ _ _ _ Hv)) as (iv & A & _ & B & _). rewrite A in Hm. injection Hm as ->. lia.
    - intros m im Hkm Hm ACT v oc Hv. destruct (Nat.eq_dec m k) as [->|N].
      + rewrite Hi in Hm. injection Hm as <-. split; [apply K1; right; eauto|]. intros k' c' H. rewrite CK by lia. eauto.
      + assert (active U m im) as ACT'.
        { unfold active in *. destruct (num_res (i_op im) =? 0); auto. apply K1 in ACT as [H|(w & o' & Hw & Q)]; [now rewrite M2 in H|]. pose proof (v2_lt k i w o' Hi Hw). lia. }
        destruct (I m im ltac:(lia) Hm ACT' v oc Hv) as [I1 I2]. split; [apply K1; left; auto|]. intros k' c' H. apply K2 in H; [|auto]. rewrite CK by lia. auto.
  Qed.
  Lemma cinv_step k i st : nth_error l k = Some i -> cinv (S k) st -> cinv k (cusage_step l cmp i k st).
  Proof.
    intros Hi HI. destruct st as [U C]. assert (supp (i_op i) = true) as S by (apply HO; eapply nth_error_In; eauto). rewrite step_uses by auto.
    assert (forall j, U j = true -> fset U k true j = true) as M1 by (intros j; unfold fset; destruct (j =? k); auto).
    assert (forall j, j <> k -> fset U k true j = U j) as M2 by (intros j N; now apply fset_ne).
    assert (uses (i_op i) (i_arg i) = [] -> cinv k (fset U k true, C) /\ cinv k (U, C)) as NU.
    { intros E. pose proof (cinv_use k i U C _ Hi HI M1 M2) as A1. pose proof (cinv_use k i U C U Hi HI ltac:(auto) ltac:(auto)) as A2. rewrite E in A1, A2. auto. }
    destruct (ishead (i_op i)) eqn:H; [apply NU; destruct (i_op i); try discriminate H; reflexivity|].
    assert (forall U0 C0, ~ active U0 k i -> cinv (Datatypes.S k) (U0, C0) -> cinv k (U0, C0)) as NA.
    { intros U0 C0 NAc (D & Z & I). split; [|split]; auto. intros m im Hkm Hm ACT. destruct (Nat.eq_dec m k) as [->|N]; [rewrite Hi in Hm; injection Hm as <-; now destruct NAc|]. apply I; auto. lia. }
    assert (i_op i = EndOp \/ i_op i = ParOp \/ (i_op i <> EndOp /\ i_op i <> ParOp)) as [E|[E|[E1 E2]]] by (destruct (i_op i); auto; right; right; split; discriminate).
    - rewrite E in *. apply NU. reflexivity.
    - rewrite E in *. apply NU. reflexivity.
    - assert (forall X Y Z : cst, match i_op i with EndOp => X | ParOp => Y | _ => Z end = Z) as -> by (intros; destruct (i_op i); auto; congruence).
      destruct (num_res (i_op i) =? 0) eqn:R.
      + destruct cmp eqn:CM; [apply (cinv_use k i U C); auto|]. apply NA; auto. unfold active. rewrite R, CM. discriminate.
      + destruct (U k) eqn:UK; [apply (cinv_use k i U C); auto|]. apply NA; auto. unfold active. rewrite R, UK. discriminate.
  Qed.
  Lemma cinv_loop rest : forall pre stW, l = pre ++ rest -> cinv (length l) (fst stW) -> cinv (length pre) (fst (cusage_loop l cmp (length pre) rest stW)).
  Proof.
    induction rest as [|i rest IH]; intros pre st E H; cbn [cusage_loop].
    - rewrite app_nil_r in E. now rewrite <- E.
    - specialize (IH (pre ++ [i]) st). rewrite <- app_assoc, app_length in IH. cbn [app length] in IH. rewrite Nat.add_1_r in IH. specialize (IH E H).
      assert (nth_error l (length pre) = Some i) as Hi by (rewrite E, nth_error_app2, Nat.sub_diag by lia; reflexivity).
      pose proof (HO i (nth_error_In _ _ Hi)) as S. destruct (cusage_loop l cmp _ rest st) as [[U C] W]. cbn [fst] in IH.
      assert (fst (cusage_step1 l cmp i (length pre) (U, C, W)) = cusage_step l cmp i (length pre) (U, C)) as ES by (unfold cusage_step1; destruct (i_op i); (discriminate S || reflexivity)).
      change (cinv (length pre) (fst (cusage_step1 l cmp i (length pre) (U, C, W)))). rewrite ES.
      apply (cinv_step (length pre) i (U, C) Hi IH).
  Qed.
  Lemma mark_dep ds : forall (U : nat -> bool) j, fold_left (mark l) ds U j = true <-> U j = true \/ exists v, In v ds /\ j = v2 v.
  Proof. exact (markl_iff l ds). Qed.
  Lemma cinv_all : cinv 0 (cusage l cmp dep).
  Proof.
    apply (cinv_loop l []); auto. cbn [fst]. split; [|split].
    - intros v Hv. split; [|reflexivity]. apply mark_dep. eauto.
    - reflexivity.
    - intros m i Hm H. assert (m < length l) by (apply nth_error_Some; congruence). lia.
  Qed.

  (** ** what the dependent variables and the comparisons need; [out k] is the result of the comparison of CExpOp number [k] *)
  Variable out : nat -> bool.
  Inductive live : nat -> Prop :=
  | live_dep v : In v dep -> live (v2 v)
  | live_cmp k i : cmp = true -> nth_error l k = Some i -> num_res (i_op i) = 0 -> live k
  | live_arg k i v oc : live k -> nth_error l k = Some i -> In (v, oc) (uses (i_op i) (i_arg i)) -> oc <> Some (out k) -> live (v2 v).
  Lemma live_ex m : live m -> exists i, nth_error l m = Some i.
  Proof.
    intros [v Hv|k i _ H _|k i v oc _ H Hv _]; [|eauto|].
    - destruct (HD v Hv) as (i & Hi & R & <-). apply In_nth_error in Hi as (k & Hk). rewrite (var2op_eq l 0 0 k i HN Hk R). eauto.
    - destruct (av k i v H (uses_var _ _ _ _ Hv)) as (iv & Q & _). eauto.
  Qed.
  Theorem live_skip m : live m -> forall i, nth_error l m = Some i -> active (fst (cusage l cmp dep)) m i /\
    forall k c, snd (cusage l cmp dep) m k c = true -> live k /\ out k <> c.
  Proof.
    pose proof cinv_all as CI. destruct (cusage l cmp dep) as [U C] eqn:EU. cbn [fst snd]. destruct CI as (D & Z & I).
    intros L. induction L as [v Hv|k ik CM Hk R|k ik v oc Lk IH Hk Hv NC]; intros i Hi.
    - destruct (D v Hv) as [D1 D2]. split; [|intros k c H; now rewrite D2 in H]. unfold active. destruct (HD v Hv) as (iv & Hin & R & Ev). apply In_nth_error in Hin as (kv & Hkv).
      assert (kv = v2 v) as -> by (rewrite <- Ev; symmetry; exact (var2op_eq l 0 0 kv iv HN Hkv R)). rewrite Hi in Hkv. injection Hkv as <-. destruct (Nat.eqb_spec (num_res (i_op i)) 0); [lia|auto].
    - rewrite Hi in Hk. injection Hk as <-. split; [unfold active; now rewrite R|]. intros k' c H. now rewrite (Z k i Hi R) in H.
    - destruct (IH ik Hk) as [IH1 IH2]. destruct (I k ik ltac:(lia) Hk IH1 v oc Hv) as [I1 I2]. split.
      + unfold active. destruct (av k ik v Hk (uses_var _ _ _ _ Hv)) as (iv & A & _ & B & _). rewrite Hi in A. injection A as <-. destruct (Nat.eqb_spec (num_res (i_op i)) 0); [lia|auto].
      + intros k' c H. destruct (I2 k' c H) as [H1|[-> H1]]; [eauto|]. split; auto. specialize (H1 v oc Hv eq_refl). congruence.
  Qed.
End L.
