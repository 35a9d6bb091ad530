(** C33: the sweep with conditional skips. *)
From Coq Require Import List Bool Arith Lia.
From Verif Require Import Base_Spec Op_Model Tape_Spec Tape_Model Tape_Proof Tape_Proof2 Tape_Swf Sweep_Tape Sweep_Uniq Abs_Proof Spar_Proof Opt_Model Opt_Proof3 CSkip_Model CSkip_Proof.
Import ListNotations.

(** ** positions *)
Section Plan.
  Variable plan : list (option nat).
  Definition cnt (m : nat) : nat := length (filter isSome (firstn m plan)).
  Lemma cnt_le : forall m, cnt m <= cnt (S m).
  Proof. unfold cnt. intros m. revert plan. induction m as [|m IH]; intros [|p q]; cbn [firstn filter length]; try lia. destruct (isSome p); cbn [length]; specialize (IH q); cbn [firstn filter] in *; lia. Qed.
  Lemma cnt_mono m m' : m <= m' -> cnt m <= cnt m'.
  Proof. intros H. induction H; auto. pose proof (cnt_le m0). lia. Qed.
  Lemma new_op_lt j k : j < k -> new_op plan j < k + cnt k.
  Proof. intros H. unfold new_op. fold (cnt (S j)). pose proof (cnt_mono (S j) k ltac:(lia)). lia. Qed.
  Lemma new_op_ge j k : k <= j -> j + cnt (S k) <= new_op plan j.
  Proof. intros H. unfold new_op. fold (cnt (S j)). pose proof (cnt_mono (S k) (S j) ltac:(lia)). lia. Qed.
  Lemma new_op_inj j k : new_op plan j = new_op plan k -> j = k.
  Proof. intros H. destruct (Nat.lt_trichotomy j k) as [L|[L|L]]; auto; pose proof (new_op_lt _ _ L) as A; unfold new_op in *; fold (cnt (S j)) in *; fold (cnt (S k)) in *; [pose proof (cnt_le k)|pose proof (cnt_le j)]; lia. Qed.
End Plan.
Lemma cnt_at pre p post : cnt (pre ++ p :: post) (S (length pre)) = cnt (pre ++ p :: post) (length pre) + (if isSome p then 1 else 0).
Proof.
  unfold cnt. induction pre as [|q pre IH]; cbn [app length firstn filter].
  - destruct (isSome p); reflexivity.
  - cbn [firstn] in IH. destruct (isSome q); cbn [length]; rewrite IH; auto.
Qed.

Section Sim.
  Context {b : base} (BL : base_laws b).
  Notation T := (bt b).
  Hypothesis EQ0 : forall x y : T, is0 (b_bin Bsub x y) = b_cmp Ceq x y.
  Variable l : list ins.
  Hypothesis HN : numd 0 l.
  Hypothesis HA : forall k i, nth_error l k = Some i -> forall j, In j (var_args (i_op i) (i_arg i)) ->
    exists kj ij, kj < k /\ nth_error l kj = Some ij /\ 0 < num_res (i_op ij) /\ i_var ij = j.
  Hypothesis HO : forall i, In i l -> supp (i_op i) = true.
  Hypothesis HC : forall i, In i l -> i_op i = CExpOp -> nth 0 (i_arg i) 0 < 5.
  Hypothesis H0 : forall i, nth_error l 0 = Some i -> 0 < num_res (i_op i).
  Variables (cmp : bool) (dep : list nat).
  Hypothesis HD : forall v, In v dep -> exists i, In i l /\ 0 < num_res (i_op i) /\ i_var i = v.
  Variable order : list nat.
  Hypothesis HR : forall k, In k order -> exists i, nth_error l k = Some i /\ i_op i = CExpOp.
  Variables (P V0 : nat -> T) (cc : nat).
  Notation v2 := (var2op 0 l).
  Notation Vf := (vsweep P l V0).
  Definition out (k : nat) : bool := match nth_error l k with Some i => cexp_sel_at P Vf (i_arg i) | None => false end.
  Notation lv := (live l cmp dep out).

  Lemma var_ge post : forall nv k i, numd nv post -> nth_error post k = Some i -> 0 < num_res (i_op i) -> nv <= i_var i.
  Proof. induction post as [|j post IH]; intros nv k i N H R; [now destruct k|]. destruct N as [N1 N2]. destruct k as [|k]; cbn in H; [injection H as ->; lia|]. specialize (IH _ _ _ N2 H R). lia. Qed.
  Lemma tres_app (x y : list ins) : tres (x ++ y) = tres x + tres y.
  Proof. induction x; cbn; lia. Qed.
  Lemma var_lt pre post k i : l = pre ++ post -> nth_error l k = Some i -> 0 < num_res (i_op i) -> i_var i < tres pre -> k < length pre.
  Proof.
    intros E H R HV. destruct (Nat.lt_ge_cases k (length pre)); auto. rewrite E, nth_error_app2 in H by auto. pose proof HN as N. rewrite E in N. apply numd_app in N as [_ N]. cbn in N.
    pose proof (var_ge _ _ _ _ N H R). lia.
  Qed.
  Lemma var_below pre post k i : l = pre ++ post -> nth_error l k = Some i -> 0 < num_res (i_op i) -> k < length pre -> i_var i < tres pre.
  Proof.
    intros E H R HV. rewrite E, nth_error_app1 in H by auto. pose proof HN as N. rewrite E in N. apply numd_app in N as [N _].
    destruct (nth_error_split _ _ H) as (m1 & m2 & -> & _). apply numd_app in N as [_ [N _]]. rewrite tres_app. cbn [tres]. lia.
  Qed.

  (** ** the operators that are planned come after the arguments of the comparison *)
  Lemma plan_ok st rest : forall pre order' iv, l = pre ++ rest -> (pre = [] /\ iv = 0) \/ iv < tres pre -> (forall k, In k order' -> In k order) ->
    length (skip_plan l st order' iv rest) = length rest /\
    forall q k, nth_error (skip_plan l st order' iv rest) q = Some (Some k) -> exists ik, nth_error l k = Some ik /\ i_op ik = CExpOp /\
      forall bit j, In (bit, j) [(0, 2); (1, 3)] -> Nat.testbit (nth 1 (i_arg ik) 0) bit = true -> v2 (nth j (i_arg ik) 0) < length pre + q.
  Proof.
    induction rest as [|i rest IH]; intros pre order' iv E HV HI; [split; [reflexivity|intros [|q] k; discriminate]|].
    cbn [skip_plan]. set (iv' := if 0 <? num_res (i_op i) then i_var i else iv).
    assert (numd (tres pre) (i :: rest)) as [N1 N2] by (pose proof HN as N; rewrite E in N; apply numd_app in N as [_ N]; exact N).
    assert (iv' < tres (pre ++ [i])) as HV'.
    { rewrite tres_app. cbn [tres]. unfold iv'. destruct (Nat.ltb_spec 0 (num_res (i_op i))) as [R|R]; [lia|]. destruct HV as [[-> ->]|HV]; [|lia]. assert (0 < num_res (i_op i)) by (apply H0; rewrite E; reflexivity). lia. }
    assert (l = (pre ++ [i]) ++ rest) as E' by (rewrite <- app_assoc; exact E).
    assert (forall o, (forall k, In k o -> In k order) -> length (None :: skip_plan l st o iv' rest) = S (length rest) /\
      forall q k, nth_error (None :: skip_plan l st o iv' rest) q = Some (Some k) -> exists ik, nth_error l k = Some ik /\ i_op ik = CExpOp /\
      forall bit j, In (bit, j) [(0, 2); (1, 3)] -> Nat.testbit (nth 1 (i_arg ik) 0) bit = true -> v2 (nth j (i_arg ik) 0) < length pre + q) as NO.
    { intros o Ho. destruct (IH (pre ++ [i]) o iv' E' ltac:(right; auto) Ho) as [L1 L2]. split; [cbn; congruence|]. intros [|q] k Hq; [discriminate|]. cbn in Hq. destruct (L2 q k Hq) as (ik & A & B & C).
      exists ik. split; auto. split; auto. intros bit j Hin HB. specialize (C bit j Hin HB). rewrite app_length in C. cbn in C. lia. }
    destruct order' as [|k0 order']; [apply NO; intros k []|]. destruct (HR k0 (HI _ (or_introl eq_refl))) as (ik & HK & OK). rewrite HK.
    destruct (_ && _) eqn:G; [|apply NO; auto]. apply andb_true_iff in G as [_ G].
    destruct (NO order' ltac:(intros; apply HI; now right)) as [L1 L2]. split; [exact L1|]. intros [|q] k Hq; [|apply (L2 (S q)); exact Hq]. cbn in Hq.
    assert (k = k0) as -> by (destruct (_ || _) in Hq; congruence). exists ik. split; auto. split; auto. intros bit j Hin HB. rewrite Nat.add_0_r.
    assert (nth j (i_arg ik) 0 <= max_left_right (i_arg ik)) as MX.
    { unfold max_left_right. cbv zeta. destruct Hin as [Q|[Q|[]]]; injection Q as <- <-; rewrite HB; [destruct (Nat.testbit _ 1); lia|lia]. }
    assert (In (nth j (i_arg ik) 0) (var_args (i_op ik) (i_arg ik))) as VA.
    { rewrite OK. cbn [var_args]. rewrite !in_app_iff. destruct Hin as [Q|[Q|[]]]; injection Q as <- <-; rewrite HB; cbn; auto. }
    destruct (av l HN HA k0 ik _ HK VA) as (ij & A & _ & R & EV). set (v := nth j (i_arg ik) 0) in *.
    set (kv := v2 v) in *. clearbody kv.
    destruct (0 <? num_res (i_op i)) eqn:RI.
    - apply Nat.ltb_lt in G, RI. unfold iv' in G. destruct (Nat.lt_ge_cases (kv) (length pre)) as [|GE]; auto. exfalso.
      rewrite E, nth_error_app2 in A by auto. destruct (kv - length pre) eqn:Q; cbn in A; [injection A as ->; lia|]. pose proof (var_ge _ _ _ _ N2 A R). lia.
    - apply Nat.leb_le in G. unfold iv' in G. apply (var_lt pre (i :: rest) kv ij E A R). destruct HV as [[-> ->]|HV]; [|lia].
      assert (0 < num_res (i_op i)) by (apply H0; rewrite E; reflexivity). apply Nat.ltb_ge in RI. lia.
  Qed.

  (** ** CSkipOp and CExpOp have the same outcome *)
  Lemma cskip_sel a V : nth 0 a 0 < 5 -> cskip_true a P V = cexp_sel_at P V a.
  Proof.
    intros H. unfold cskip_true, cexp_sel_at, cexp_sel. destruct (nth 0 a 0) as [|[|[|[|[|c]]]]]; try lia.
    - rewrite (l_gez b BL), (l_total b BL). apply negb_involutive.
    - rewrite (l_gtz b BL), (l_total b BL). reflexivity.
    - apply EQ0.
    - rewrite (l_gez b BL), (l_ge b BL). reflexivity.
    - rewrite (l_gtz b BL), (l_gt b BL). reflexivity.
  Qed.

  (** ** values of a live operator *)
  Definition okv (V : nat -> T) (m : nat) : Prop := forall k i, k < m -> nth_error l k = Some i -> lv k -> 0 < num_res (i_op i) -> V (i_var i) = Vf (i_var i).
  Lemma need_ok V k i v oc : okv V k -> lv k -> nth_error l k = Some i -> In (v, oc) (uses (i_op i) (i_arg i)) -> oc <> Some (out k) -> V v = Vf v.
  Proof.
    intros O L H Hv NC. destruct (av l HN HA k i v H (uses_var _ _ _ _ Hv)) as (iv & A & B & C & D). rewrite <- D at 1 2. apply (O (v2 v) iv B A); auto. eapply live_arg; eauto.
  Qed.
  Lemma sel_live V k i : (forall bit j, In (bit, j) [(0, 2); (1, 3)] -> Nat.testbit (nth 1 (i_arg i) 0) bit = true -> V (nth j (i_arg i) 0) = Vf (nth j (i_arg i) 0)) -> nth_error l k = Some i ->
    cexp_sel_at P V (i_arg i) = out k.
  Proof.
    intros A H. unfold out. rewrite H. unfold cexp_sel_at. cbv zeta. unfold vp.
    assert (forall bit j, In (bit, j) [(0, 2); (1, 3)] -> (if Nat.testbit (nth 1 (i_arg i) 0) bit then V (nth j (i_arg i) 0) else P (nth j (i_arg i) 0)) = (if Nat.testbit (nth 1 (i_arg i) 0) bit then Vf (nth j (i_arg i) 0) else P (nth j (i_arg i) 0))) as K.
    { intros bit j Hin. specialize (A bit j Hin). destruct (Nat.testbit _ bit); auto. }
    rewrite (K 0 2), (K 1 3) by (cbn; auto). reflexivity.
  Qed.
  Lemma live_val V k i : okv V k -> lv k -> nth_error l k = Some i -> 0 < num_res (i_op i) -> ishead (i_op i) = false -> semv (i_op i) (i_arg i) P V = semv (i_op i) (i_arg i) P Vf.
  Proof.
    intros O L H R NH. assert (supp (i_op i) = true) as S by (apply HO; eapply nth_error_In; eauto).
    assert (i_op i = CExpOp \/ i_op i <> CExpOp) as [E|E] by (destruct (i_op i); (now left) || (right; discriminate)).
    - pose proof (fun v oc => need_ok V k i v oc O L H) as ND. rewrite E in *. unfold semv. cbn [sem0 last]. rewrite !cexp_sel_code.
      assert (forall bit j, In (bit, j) [(0, 2); (1, 3)] -> Nat.testbit (nth 1 (i_arg i) 0) bit = true -> V (nth j (i_arg i) 0) = Vf (nth j (i_arg i) 0)) as LR.
      { intros bit j Hin HB. apply (ND _ None); [|discriminate]. cbn [uses]. rewrite !in_app_iff. destruct Hin as [Q|[Q|[]]]; injection Q as <- <-; rewrite HB; cbn; auto. }
      pose proof (sel_live V k i LR H) as S1. assert (cexp_sel_at P Vf (i_arg i) = out k) as S2 by (unfold out; now rewrite H).
      unfold cexp_sel_at in S1, S2. cbv zeta in S1, S2. rewrite S1, S2. unfold vp. destruct (out k) eqn:OK.
      + destruct (Nat.testbit (nth 1 (i_arg i) 0) 2) eqn:B; auto. apply (ND _ (if true && Nat.testbit (nth 1 (i_arg i) 0) 3 && (nth 4 (i_arg i) 0 =? nth 5 (i_arg i) 0) then None else Some false)).
        * cbn [uses]. rewrite B, !in_app_iff. cbn. auto.
        * destruct (_ && _); discriminate.
      + destruct (Nat.testbit (nth 1 (i_arg i) 0) 3) eqn:B; auto. apply (ND _ (if Nat.testbit (nth 1 (i_arg i) 0) 2 && true && (nth 4 (i_arg i) 0 =? nth 5 (i_arg i) 0) then None else Some true)).
        * cbn [uses]. rewrite B, !in_app_iff. cbn. auto.
        * destruct (_ && _); discriminate.
    - unfold semv. rewrite (sem0_ext P (i_op i) (i_arg i) V Vf); [reflexivity|now apply supp_csum|]. intros v Hv. apply (need_ok V k i v None O L H); [|discriminate].
      replace (uses (i_op i) (i_arg i)) with (map (fun v => (v, @None bool)) (var_args (i_op i) (i_arg i))) by (destruct (i_op i); auto; congruence). apply in_map_iff. eauto.
  Qed.
  Lemma vstep_at V nv i : supp (i_op i) = true -> 0 < num_res (i_op i) -> ishead (i_op i) = false -> i_var i = nv + num_res (i_op i) - 1 -> vstep P i V (i_var i) = semv (i_op i) (i_arg i) P V.
  Proof.
    intros S R NH E. unfold vstep. destruct (semv_some (i_op i) (i_arg i) P V S R NH) as (r & E1 & E2 & E3). rewrite E1, <- E3. pose proof (sem0_length P _ _ _ _ E1) as SL.
    destruct (exists_last E2) as (r' & x & ->). rewrite last_last. rewrite app_length in *. cbn [length] in *.
    replace (i_var i) with (i_var i + 1 - (length r' + 1) + length r') at 2 by lia. rewrite put_res_at by (rewrite app_length; cbn; lia). rewrite app_nth2, Nat.sub_diag by lia. reflexivity.
  Qed.
  Lemma vstep_frame V nv i v : i_var i = nv + num_res (i_op i) - 1 -> v < nv \/ nv + num_res (i_op i) <= v -> vstep P i V v = V v.
  Proof.
    intros E H. unfold vstep. destruct (sem0 _ _ P V) as [r|] eqn:S; auto. apply sem0_length in S. rewrite put_res_spec.
    destruct (Nat.leb_spec (i_var i + 1 - length r) v), (Nat.ltb_spec v (i_var i + 1 - length r + length r)); cbn; auto; lia.
  Qed.
  Lemma vsweep_ge pre : forall nv V v, numd nv pre -> nv + tres pre <= v -> vsweep P pre V v = V v.
  Proof.
    induction pre as [|i pre IH]; intros nv V v N H; auto. destruct N as [N1 N2]. cbn [tres] in H. cbn [vsweep fold_left]. change (vsweep P pre (vstep P i V) v = V v).
    rewrite (IH _ _ _ N2) by lia. apply (vstep_frame V nv i v N1). lia.
  Qed.

  (** ** one step *)
  Definition dnum (i : ins) (V : nat -> T) : nat :=
    if num_res (i_op i) =? 0 then match cmp_change (i_op i) (i_arg i) P V with Some true => if cc =? 0 then 0 else 1 | _ => 0 end else 0.
  Lemma step0_gen i k (s : fst0 b) : supp (i_op i) = true ->
    exists s1, step0 P cc i k s = Some s1 /\ f_V s1 = vstep P i (f_V s) /\ f_skip s1 = f_skip s /\ f_num s1 = f_num s + dnum i (f_V s).
  Proof.
    intros S. destruct i as [o a v]. unfold step0, vstep, dnum. cbn [i_op i_arg i_var].
    destruct (sem0 o a P (f_V s)) as [r|] eqn:E.
    - eexists. split; [reflexivity|]. cbn. repeat (split; auto). pose proof (sem0_length P _ _ _ _ E) as SL. destruct (num_res o =? 0) eqn:Z; [|lia].
      destruct o; try discriminate S; try discriminate Z; discriminate E.
    - destruct (cmp_change o a P (f_V s)) as [ch|] eqn:C.
      + assert (num_res o =? 0 = true) as -> by (destruct o; try discriminate S; try discriminate C; reflexivity).
        destruct (cc =? 0), ch; cbn; eexists; (split; [reflexivity|]); cbn; repeat (split; auto); lia.
      + destruct o; try discriminate S; try discriminate E; try discriminate C; eexists; (split; [reflexivity|]); cbn; repeat (split; auto).
  Qed.

  Notation st := (cusage l cmp dep).
  Notation plan := (skip_plan l st order 0 l).
  Notation args := (skip_args l st plan).
  (** the state [s] of the sweep with conditional skips and the state [s0] of the original sweep, before operator number [m] *)
  Definition sinv (m : nat) (s s0 : fst0 b) : Prop :=
    okv (f_V s) m /\ (forall v, tres (firstn m l) <= v -> f_V s v = V0 v) /\
    (forall q, f_skip s q = true -> exists j, q = new_op plan j /\ ~ lv j) /\
    f_V s0 = vsweep P (firstn m l) V0 /\ (forall q, f_skip s0 q = false) /\ (cmp = true -> f_num s = f_num s0).

  Lemma skip_fold (ls : list nat) : forall (g : nat -> bool) q, fold_left (fun f j => fset f j true) ls g q = true -> In q ls \/ g q = true.
  Proof.
    induction ls as [|x ls IH]; intros g q H; cbn [fold_left] in H; auto. destruct (IH _ _ H) as [?|H1]; [left; now right|].
    unfold fset in H1. destruct (Nat.eqb_spec q x) as [->|]; auto. left. now left.
  Qed.
  Lemma in_skip_ops k c j : In j (skip_ops l st k c) -> snd st j k c = true.
  Proof. intros H. apply filter_In in H as [_ H]. now apply andb_true_iff in H. Qed.
  (** the operator CSkipOp itself *)
  Lemma cskip_step k ik m q (s s0 : fst0 b) z : nth_error l k = Some ik -> i_op ik = CExpOp -> sinv m s s0 ->
    (forall bit j, In (bit, j) [(0, 2); (1, 3)] -> Nat.testbit (nth 1 (i_arg ik) 0) bit = true -> v2 (nth j (i_arg ik) 0) < m) ->
    exists s1, step0 P cc (mkIns CSkipOp (args k) z) q s = Some s1 /\ sinv m s1 s0.
  Proof.
    intros HK OK (I1 & I2 & I3 & I4 & I5 & I6) LT.
    unfold step0. cbn [sem0 cmp_change]. eexists. split; [reflexivity|]. cbn [f_V f_skip f_num].
    split; [auto|split; [auto|split; [|auto]]]. cbn [f_skip].
    intros q' Hq. apply skip_fold in Hq as [Hq|Hq]; auto.
    assert (cskip_true (args k) P (f_V s) = cexp_sel_at P (f_V s) (i_arg ik)) as CS.
    { rewrite <- cskip_sel by (apply HC; [eapply nth_error_In; eauto|auto]). unfold skip_args. rewrite HK. reflexivity. }
    rewrite CS in Hq. clear CS. set (c := cexp_sel_at P (f_V s) (i_arg ik)) in *.
    assert (exists j, In j (skip_ops l st k c) /\ q' = new_op plan j) as (j & Hj & ->).
    { assert (In q' (map (new_op plan) (skip_ops l st k c))) as Hm; [|apply in_map_iff in Hm as (j & <- & Hj); eauto].
      unfold skip_args in Hq. rewrite HK in Hq. cbn [nth app] in Hq. unfold arg_range in Hq.
      set (t := map (new_op plan) (skip_ops l st k true)) in *. set (f := map (new_op plan) (skip_ops l st k false)) in *.
      assert (forall x y (z : list nat), x = length y -> In q' (firstn x (y ++ z)) -> In q' y) as FN by (intros x y z' -> H; rewrite firstn_app, Nat.sub_diag, firstn_all in H; cbn [firstn] in H; now rewrite app_nil_r in H).
      destruct c; cbn [plus skipn] in Hq.
      - apply FN in Hq; [exact Hq|lia].
      - rewrite skipn_app, skipn_all, Nat.sub_diag in Hq. cbn [skipn app] in Hq. apply FN in Hq; [exact Hq|lia]. }
    exists j. split; auto. intros L. apply in_skip_ops in Hj. destruct (live_ex l HN HA cmp dep HD out j L) as (ij & Hij).
    destruct (live_skip l HN HA HO cmp dep HD out j L ij Hij) as [_ LS]. destruct (LS k c Hj) as [LK NC]. apply NC. symmetry. apply (sel_live (f_V s) k ik); auto.
    intros bit j' Hin HB. assert (In (nth j' (i_arg ik) 0, None) (uses (i_op ik) (i_arg ik))) as HU.
    { rewrite OK. cbn [uses]. rewrite !in_app_iff. destruct Hin as [Q|[Q|[]]]; injection Q as <- <-; rewrite HB; cbn; auto. }
    destruct (av l HN HA k ik _ HK (uses_var _ _ _ _ HU)) as (iv & A & B & R & EV). rewrite <- EV at 1 2. apply (I1 (v2 (nth j' (i_arg ik) 0)) iv); eauto.
    eapply (live_arg l cmp dep out k ik _ None); eauto. discriminate.
  Qed.

  (** an operator of the original sequence *)
  Lemma op_step i k (s s0 : fst0 b) : nth_error l k = Some i -> sinv k s s0 ->
    exists s01, step0 P cc i k s0 = Some s01 /\
      (f_skip s (new_op plan k) = true -> sinv (S k) s s01) /\
      (f_skip s (new_op plan k) = false -> exists s1, step0 P cc i (new_op plan k) s = Some s1 /\ sinv (S k) s1 s01).
  Proof.
    intros Hi (I1 & I2 & I3 & I4 & I5 & I6). assert (supp (i_op i) = true) as S by (apply HO; eapply nth_error_In; eauto).
    destruct (nth_error_split _ _ Hi) as (pre & post & E & EL).
    assert (firstn k l = pre) as FP by (rewrite E, <- EL, firstn_app, Nat.sub_diag, firstn_all; cbn; apply app_nil_r).
    assert (firstn (Datatypes.S k) l = pre ++ [i]) as FS.
    { rewrite E, <- EL, firstn_app. replace (Datatypes.S (length pre) - length pre) with 1 by lia. rewrite firstn_all2 by lia. reflexivity. }
    assert (numd 0 pre /\ i_var i = tres pre + num_res (i_op i) - 1 /\ numd (tres pre + num_res (i_op i)) post) as (N0 & N1 & N2) by (pose proof HN as N; rewrite E in N; apply numd_app in N as [? [? ?]]; auto).
    rewrite FP in *.
    destruct (step0_gen i k s0 S) as (s01 & E1 & E2 & E3 & E4). exists s01. split; auto.
    assert (f_V s01 = vsweep P (firstn (Datatypes.S k) l) V0) as V01 by (rewrite E2, I4, FS, vsweep_app'; reflexivity).
    assert (forall q, f_skip s01 q = false) as S01 by (intros q; rewrite E3; auto).
    assert (tres (firstn (Datatypes.S k) l) = tres pre + num_res (i_op i)) as TS by (rewrite FS, tres_app; cbn; lia).
    split.
    - intros SK. destruct (I3 _ SK) as (j & Q & NL). apply new_op_inj in Q as <-. split; [|split; [|split; [|split; [|split]]]]; auto.
      + intros k' i' Hk Hi' L R. destruct (Nat.eq_dec k' k) as [->|NE]; [now destruct NL|]. apply (I1 k' i'); auto. lia.
      + intros v Hv. apply I2. lia.
      + intros CM. rewrite E4, (I6 CM). unfold dnum. destruct (Nat.eqb_spec (num_res (i_op i)) 0) as [R|R]; [|lia]. destruct NL. eapply live_cmp; eauto.
    - intros SK. destruct (step0_gen i (new_op plan k) s S) as (s1 & F1 & F2 & F3 & F4). exists s1. split; auto. split; [|split; [|split; [|split; [|split]]]]; auto.
      + intros k' i' Hk Hi' L R. rewrite F2. destruct (Nat.eq_dec k' k) as [->|NE].
        * rewrite Hi in Hi'. injection Hi' as <-. destruct (ishead (i_op i)) eqn:H.
          -- unfold vstep. assert (sem0 (i_op i) (i_arg i) P (f_V s) = None) as -> by (destruct (i_op i); try discriminate H; reflexivity).
             rewrite I2 by lia. rewrite E, vsweep_app'. cbn [vsweep fold_left]. change (V0 (i_var i) = vsweep P post (vstep P i (vsweep P pre V0)) (i_var i)).
             rewrite (vsweep_lt P post (tres pre + num_res (i_op i))) by (auto; lia). unfold vstep.
             assert (forall X, sem0 (i_op i) (i_arg i) P X = None) as -> by (intros X; destruct (i_op i); try discriminate H; reflexivity).
             symmetry. apply (vsweep_ge pre 0); auto. lia.
          -- rewrite (vstep_at (f_V s) (tres pre) i) by auto. rewrite (live_val (f_V s) k i) by auto. symmetry. apply (sweep_eq l HN HA HO P V0 k i); auto.
        * assert (k' < length pre) as LT by lia. pose proof (var_below pre (i :: post) k' i' E Hi' R LT). rewrite (vstep_frame (f_V s) (tres pre) i) by (auto; lia). apply (I1 k' i'); auto. lia.
      + intros v Hv. rewrite TS in Hv. rewrite F2, (vstep_frame (f_V s) (tres pre) i) by (auto; lia). apply I2. lia.
      + intros q Hq. rewrite F3 in Hq. auto.
      + intros CM. rewrite F4, E4, (I6 CM). f_equal. unfold dnum. destruct (Nat.eqb_spec (num_res (i_op i)) 0) as [R|R]; [|reflexivity].
        rewrite (cmp_change_ext P (i_op i) (i_arg i) (f_V s) (f_V s0)); auto. intros v Hv.
        assert (lv k) as LK by (eapply live_cmp; eauto). rewrite I4. rewrite (need_ok (f_V s) k i v None I1 LK Hi); [| |discriminate].
        * destruct (av l HN HA k i v Hi Hv) as (ij & A & B & C & <-). rewrite E at 1. rewrite vsweep_app'. apply (vsweep_lt P (i :: post) (tres pre)); [split; auto|].
          assert (v2 (i_var ij) < length pre) as LT by lia. exact (var_below pre (i :: post) _ ij E A C LT).
        * replace (uses (i_op i) (i_arg i)) with (map (fun v => (v, @None bool)) (var_args (i_op i) (i_arg i))) by (destruct (i_op i); try discriminate R; reflexivity). apply in_map_iff. eauto.
  Qed.

  (** the sweeps *)
  Lemma sim rest : forall pre plp plr (s s0 : fst0 b), l = pre ++ rest -> plan = plp ++ plr -> length plp = length pre -> sinv (length pre) s s0 ->
    exists s' s0', sweep0 P cc (skip_ins args plr (tres pre) rest) (length pre + length (filter isSome plp)) s = Some s' /\ sweep0 P cc rest (length pre) s0 = Some s0' /\ sinv (length l) s' s0'.
  Proof.
    induction rest as [|i rest IH]; intros pre plp plr s s0 E EP LP I.
    - exists s, s0. destruct plr; cbn; (split; [reflexivity|split; [reflexivity|]]); rewrite E, app_nil_r; auto.
    - destruct (plan_ok st l [] order 0 eq_refl ltac:(left; auto) ltac:(auto)) as [PL PO].
      destruct plr as [|p plr]; [exfalso; rewrite EP, app_nil_r in PL; rewrite E, app_length in PL; cbn in PL; lia|].
      assert (nth_error plan (length pre) = Some p) as HP by (rewrite EP, nth_error_app2, LP, Nat.sub_diag by lia; reflexivity).
      assert (nth_error l (length pre) = Some i) as Hi by (rewrite E, nth_error_app2, Nat.sub_diag by lia; reflexivity).
      set (m := length pre) in *.
      assert (cnt plan m = length (filter isSome plp)) as CM by (unfold cnt; rewrite EP, <- LP, firstn_app, Nat.sub_diag, firstn_all; cbn [firstn]; now rewrite app_nil_r).
      assert (new_op plan m = m + length (filter isSome plp) + (if isSome p then 1 else 0)) as NM.
      { unfold new_op. fold (cnt plan (S m)). rewrite EP, <- LP, cnt_at. rewrite EP, <- LP in CM. rewrite CM. lia. }
      assert (exists s2, sweep0 P cc (skip_ins args (p :: plr) (tres pre) (i :: rest)) (m + length (filter isSome plp)) s =
        sweep0 P cc (i :: skip_ins args plr (tres pre + num_res (i_op i)) rest) (new_op plan m) s2 /\ sinv m s2 s0) as (s2 & -> & I').
      { destruct p as [k|].
        - destruct (PO m k HP) as (ik & HK & OK & LT). cbn [length plus] in LT. destruct (cskip_step k ik m (m + length (filter isSome plp)) s s0 (tres pre - 1) HK OK I LT) as (s2 & ST & I2).
          exists s2. split; auto. cbn [skip_ins app]. cbn [sweep0]. destruct (f_skip s (m + length (filter isSome plp))) eqn:SK.
          + exfalso. destruct I as (_ & _ & I3 & _). destruct (I3 _ SK) as (j & Q & _). cbn [isSome] in NM. destruct (Nat.lt_ge_cases j m) as [L|L].
            * pose proof (new_op_lt plan j m L). lia.
            * pose proof (new_op_ge plan j m L) as G. assert (cnt plan (S m) = length (filter isSome plp) + 1) by (rewrite EP, <- LP, cnt_at; rewrite EP, <- LP in CM; rewrite CM; reflexivity). lia.
          + rewrite ST, NM. cbn [isSome]. replace (m + length (filter isSome plp) + 1) with (S (m + length (filter isSome plp))) by lia. reflexivity.
        - exists s. split; auto. rewrite NM. cbn [isSome skip_ins app]. now rewrite Nat.add_0_r. }
      destruct (op_step i m s2 s0 Hi I') as (s01 & E0 & A1 & A2). cbn [sweep0]. destruct I' as (_ & _ & _ & _ & I5 & _). rewrite (I5 m), E0.
      assert (S (new_op plan m) = length (pre ++ [i]) + length (filter isSome (plp ++ [p]))) as POS.
      { rewrite NM, filter_app, !app_length. cbn [filter]. fold m. destruct (isSome p); cbn; lia. }
      assert (forall s1, sinv (S m) s1 s01 -> exists s' s0', sweep0 P cc (skip_ins args plr (tres pre + num_res (i_op i)) rest) (S (new_op plan m)) s1 = Some s' /\ sweep0 P cc rest (S m) s01 = Some s0' /\ sinv (length l) s' s0') as NX.
      { intros s1 I1. specialize (IH (pre ++ [i]) (plp ++ [p]) plr s1 s01). rewrite <- !app_assoc in IH. rewrite tres_app in IH. cbn [tres app] in IH. rewrite Nat.add_0_r in IH. rewrite <- POS in IH.
        rewrite !app_length in IH. cbn [length] in IH. rewrite !Nat.add_1_r in IH. fold m in IH. apply IH; auto. }
      destruct (f_skip s2 (new_op plan m)) eqn:SK; [auto|]. destruct (A2 eq_refl) as (s1 & F1 & F2). rewrite F1. auto.
  Qed.
End Sim.
