(** A recorded operation sequence has the properties used by the subgraph calculations. *)
From Coq Require Import ZArith List Bool Arith Lia.
From Verif Require Import Base_Spec Op_Model Tape_Spec Tape_Model Tape_Proof Tape_Proof2 Tape_Proof10 Tape_Prop Sweep_Model Sweep_Eqs Sweep_Eqs2 Sweep_Tape Sweep_Uniq Tape_Swf
  Drv_Model Drv_Proof3 Spar_Proof3 Sub_Spec Sub_Model Sub_Proof.
Import ListNotations.

Lemma av_ok o a : okop o = true \/ o = BeginOp \/ o = InvOp -> 0 < num_res o -> argument_variable o a = var_args o a.
Proof.
  intros H N. unfold argument_variable. destruct o; cbn in N; try lia; try (destruct H as [H|[H|H]]; discriminate H); try reflexivity.
  cbn [arg_is_variable]. unfold var_args.
  destruct (Nat.testbit (nth 1 a 0) 0), (Nat.testbit (nth 1 a 0) 1), (Nat.testbit (nth 1 a 0) 2), (Nat.testbit (nth 1 a 0) 3); reflexivity.
Qed.
Lemma exec_end {b : base} tid : forall p (st : state b) r dep, exec tid p st = Some (r, dep) -> exists ops, r_op r = ops ++ [EndOp].
Proof.
  fix IH 1. intros p st r dep E. destruct p as [ys|i p'|c lf rt pt pf]; cbn [exec] in E.
  - destruct (dep_loop _ _ _) as [r1 d1]. injection E as <- <-. cbn [put_op fst r_op]. eauto.
  - destruct (step_rec _ _ _) as [s'|]; [|discriminate]. exact (IH p' s' r dep E).
  - destruct (ad_cmp _ _ _ _ _) as [r1 res]. destruct res; [exact (IH pt _ r dep E)|exact (IH pf _ r dep E)].
Qed.
Lemma decode_ops ops : forall args nv l, decode ops args nv = Some l -> map i_op l = ops.
Proof.
  induction ops as [|o ops IH]; intros args nv l D; cbn [decode] in D.
  - destruct args; [|discriminate]. now injection D as <-.
  - destruct (length args <? n_actual o args); [discriminate|]. destruct (decode ops _ _) eqn:E; [|discriminate]. injection D as <-. cbn. f_equal. eauto.
Qed.

(** every primary result seen so far is found by var2op *)
Lemma seen_op l : forall seen x, In x (seenof seen l) -> In x seen \/ exists k i, nth_error l k = Some i /\ 0 < num_res (i_op i) /\ i_var i = x.
Proof.
  induction l as [|i l IH]; intros seen x H; [auto|]. cbn in H. apply IH in H as [H|(k & i' & E & N & V)].
  - unfold seen1 in H. destruct (Nat.ltb_spec 0 (num_res (i_op i))) as [N|N]; [|auto]. destruct H as [<-|H]; [|auto]. right. exists 0, i. auto.
  - right. exists (S k), i'. auto.
Qed.
Lemma sok_at l : forall seen nl k i, sok seen nl l -> nth_error l k = Some i ->
  okop (i_op i) = true /\ forall x, In x (var_args (i_op i) (i_arg i)) -> In x (seenof seen (firstn k l)).
Proof.
  induction l as [|i0 l IH]; intros seen nl k i S E; [destruct k; discriminate|]. destruct S as (O & F & _ & S2). destruct k as [|k]; cbn in E.
  - injection E as <-. split; auto. rewrite Forall_forall in F. exact F.
  - cbn [firstn]. apply (IH _ _ _ _ S2 E).
Qed.

Lemma recorded_tape_ok {b : base} (L : base_laws b) tid cmp n np e ev p V l2v (f : adfun b) : recorded tid cmp n np e ev p V l2v f ->
  let l := head_ins n ++ body n (g_rec f) in
  decode (r_op (g_rec f)) (r_arg (g_rec f)) 0 = Some l /\ tape_ok (length (r_par (g_rec f))) (g_n f) l (g_dep f).
Proof.
  intros R. cbn zeta. destruct (recorded_rtape L _ _ _ _ _ _ _ _ _ _ R) as [RT EN]. rewrite EN. destruct RT as [DC _ SO DP _ WA _].
  split; [exact DC|]. set (l := head_ins n ++ body n (g_rec f)) in *.
  assert (length (head_ins n) = S n) as LH by (unfold head_ins; cbn; now rewrite map_length, seq_length).
  assert (forall j, j < n -> nth_error l (S j) = Some (mkIns InvOp [] (S j))) as HI.
  { intros j Hj. unfold l. rewrite nth_error_app1 by lia. unfold head_ins. cbn [nth_error]. rewrite nth_error_map.
    rewrite (nth_error_nth' _ 0) by (rewrite seq_length; lia). rewrite seq_nth by lia. reflexivity. }
  assert (forall k i, nth_error l k = Some i -> k = 0 /\ i = mkIns BeginOp [0] 0 \/ 1 <= k <= n /\ i = mkIns InvOp [] k \/
      S n <= k /\ nth_error (body n (g_rec f)) (k - S n) = Some i) as CA.
  { intros k i E. destruct k as [|k]; [left; cbn in E; injection E as <-; auto|]. right. destruct (Nat.lt_ge_cases k n) as [Hk|Hk].
    - left. rewrite HI in E by auto. injection E as <-. split; [lia|auto].
    - right. split; [lia|]. unfold l in E. rewrite nth_error_app2 in E by lia. now rewrite LH in E. }
  (* the ends *)
  destruct R as (T0 & [NE NVE] & RF & _). destruct (rec_exec tid cmp n np e ev p V l2v f RF) as (EX & _). destruct (exec_end tid p _ _ _ EX) as (ops & EO).
  assert (exists a v, nth_error l (length l - 1) = Some (mkIns EndOp a v)) as HE.
  { pose proof (decode_ops _ _ _ _ DC) as DO. pose proof (f_equal (@length opvar) DO) as DL. rewrite map_length, EO, app_length in DL. change (length [EndOp]) with 1 in DL.
    assert (nth_error (map i_op l) (length l - 1) = Some EndOp) as X.
    { rewrite DO, EO, nth_error_app2 by lia. replace (length l - 1 - length ops) with 0 by lia. reflexivity. }
    rewrite nth_error_map in X. destruct (nth_error l (length l - 1)) as [[o a v]|]; [|discriminate]. cbn in X. injection X as ->. eauto. }
  assert (S n < length l) as LL.
  { destruct HE as (a & v & E). destruct (CA _ _ E) as [[_ X]|[[_ X]|[X _]]]; try discriminate.
    assert (length l - 1 < length l) by (apply nth_error_Some; congruence). lia. }
  assert (K : forall k i, nth_error l k = Some i -> 0 < num_res (i_op i) -> var2op l 0 (i_var i) = Some k).
  { (* uniqueness of results needs only the numbering *)
    intros k i E N. destruct (var2op l 0 (i_var i)) as [k'|] eqn:C; [|exfalso; eapply var2op_none; eauto].
    apply var2op_some in C as (_ & i' & C & N' & V'). rewrite Nat.sub_0_r in C. f_equal.
    destruct (wfl_at _ l 0 0 k i WA E) as (? & ? & W1 & _). destruct (wfl_at _ l 0 0 k' i' WA C) as (? & ? & W2 & _). cbn [Nat.add] in W1, W2.
    pose proof (vstart_S _ _ _ E) as S1. pose proof (vstart_S _ _ _ C) as S2.
    destruct (Nat.lt_trichotomy k k') as [H|[H|H]]; auto.
    - pose proof (vstart_mono l (S k) k' H). lia.
    - pose proof (vstart_mono l (S k') k H). lia. }
  assert (K2 : forall k x, k <= length (body n (g_rec f)) -> In x (seenof (seq 1 n) (firstn k (body n (g_rec f)))) -> exists k', k' < S n + k /\ var2op l 0 x = Some k').
  { intros k x Lk Hx. apply seen_op in Hx as [Hx|(k' & i & E & N & V')].
    - apply in_seq in Hx. destruct x as [|j]; [lia|]. exists (S j). split; [lia|]. apply (K (S j) (mkIns InvOp [] (S j))); [apply HI; lia|cbn; lia].
    - exists (S n + k'). assert (k' < length (firstn k (body n (g_rec f)))) as Lk' by (apply nth_error_Some; congruence). rewrite firstn_length in Lk'. split; [lia|].
      rewrite <- V'. apply K; auto. unfold l. rewrite nth_error_app2 by lia. rewrite LH. replace (S n + k' - S n) with k' by lia.
      rewrite <- (firstn_skipn k (body n (g_rec f))), nth_error_app1 by (rewrite firstn_length; lia). exact E. }
  constructor; auto.
  - intros k i x E N Hx. destruct (CA _ _ E) as [[_ ->]|[[_ ->]|[Lk E']]]; [destruct Hx|destruct Hx|].
    destruct (sok_at _ _ _ _ _ SO E') as [_ SA]. assert (k - S n < length (body n (g_rec f))) by (apply nth_error_Some; congruence).
    destruct (K2 (k - S n) x) as (k' & L' & V'); [lia|auto|]. exists k'. split; [lia|auto].
  - intros k i E O. destruct (CA _ _ E) as [[_ ->]|[[Hk ->]|[Lk E']]]; [discriminate|auto|].
    destruct (sok_at _ _ _ _ _ SO E') as [OK _]. rewrite O in OK. discriminate.
  - intros ell He. rewrite Forall_forall in DP. specialize (DP _ (nth_In _ 0 He)). rewrite <- (firstn_all (body n (g_rec f))) in DP.
    destruct (K2 _ _ (Nat.le_refl _) DP) as (k & _ & V'). eauto.
  - intros k i E N. apply av_ok; auto. destruct (CA _ _ E) as [[_ ->]|[[_ ->]|[_ E']]]; auto. left. eapply sok_at; eauto.
  - exists [0], 0. reflexivity.
Qed.
