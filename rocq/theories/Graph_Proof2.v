(** C25, to_graph: the graph of a function has the values of the function. *)
From Coq Require Import String List Bool Arith Lia.
From Verif Require Import Base_Spec Op_Model Tape_Spec Tape_Model Tape_Proof Tape_Proof2 Tape_Swf Abs_Proof Abs_Proof3 Abs_Prop Opt_Model Opt_Proof Opt_Proof2 Opt_Proof3 Opt_Proof4 Opt_Proof5
  Graph_Spec Graph_Model Graph_Proof1.
Import ListNotations.

Section ToGraph.
  Context {b : base} (BL : base_laws b).
  Notation T := (bt b).
  Variable reg : list string.
  Hypothesis ND : NoDup reg.

  Lemma tg_inv p2n l prev v2n : forall js, tg_ops reg p2n (map (fun j => mkIns InvOp [] (S j)) js ++ l) prev v2n = tg_ops reg p2n l prev v2n.
  Proof. induction js as [|j js IH]; cbn; auto. Qed.
  Lemma incr_split (pre post : list dent) e e' : incr (map key (pre ++ e :: post)) -> In e' (pre ++ e :: post) -> key e' < key e -> In e' pre.
  Proof.
    induction pre as [|x pre IH]; cbn; intros [A B] H K.
    - destruct H as [<-|H]; [lia|]. specialize (A (key e') (in_map key _ _ H)). lia.
    - destruct H as [<-|H]; auto.
  Qed.

  Theorem to_graph_ok (f : adfun b) n nd D2 ind rest l0 e g : opt_ok f n nd D2 ind rest -> g_n f = n -> rest = l0 ++ [mkIns EndOp [] e] -> (forall i, In i l0 -> i_op i <> EndOp) ->
    0 < length (r_par (g_rec f)) -> nth 0 (r_par (g_rec f)) bnan = bnan -> to_graph reg nd f = Some g ->
    gr_ndyn g = nd /\ gr_nvar g = n /\
    forall P ind' (x : list T) W, Pok ind' P (g_rec f) -> length ind' = nd -> length x = n -> W 0 = bnan ->
      graph_eval reg g (ind' ++ x) = map (vsweep P (head_ins n ++ rest) (set_ind W 0 x)) (g_dep f).
  Proof.
    intros [AD AA AS AE AW WF IFM AP APk AN] Gn ER EN P0 PN HG. set (L := head_ins n ++ rest) in *. unfold to_graph in HG. rewrite AD, Gn in HG. set (r := g_rec f) in *.
    destruct IFM as [I1 I2 (isd & I3)]. rewrite I3 in HG. cbn [tl] in HG.
    destruct (tg_con _ _ _ _ _) as [[con prev1] p2n1] eqn:EC. destruct (tg_dyn reg _ _ _) as [[[us1 prev2] p2n]|] eqn:ED; [|discriminate].
    destruct (tg_ops reg _ _ _ _) as [[us2 v2n]|] eqn:EO; [|discriminate]. injection HG as <-. split; [auto|]. split; [auto|].
    intros P ind' x W [K1 K2] Li Lx W0. unfold graph_eval. cbn [gr_ops gr_con gr_dep]. rewrite nodes_app.
    replace (skipn nd (dentries r)) with D2 in ED. 2:{ rewrite I1. rewrite skipn_app, map_length, seq_length, Nat.sub_diag, skipn_all2; [reflexivity|rewrite map_length, seq_length; lia]. }
    set (B := bnan :: (ind' ++ x)). assert (length B = S (nd + n)) as LB by (unfold B; cbn; rewrite app_length; lia).
    replace (bnan :: (ind' ++ x) ++ con) with (B ++ con) by reflexivity.
    assert (length (r_isdyn r) = length (r_par r)) as LI by (apply (w_isd _ WF)).
    destruct (tg_con_ok _ _ _ _ _ _ _ _ EC) as (C1 & C2 & C3 & C4). specialize (C4 B LB).
    (* all parameters that are not dependent dynamic parameters *)
    set (S0 := fun k => k < length (r_par r) /\ (nth k (r_isdyn r) false = false \/ k <= nd)).
    assert (good S0 p2n1 (B ++ con) P) as G1.
    { intros k [Hk Ck]. destruct k as [|k].
      - rewrite C2 by lia. cbn. split; [lia|]. rewrite K1; auto. rewrite I3. reflexivity.
      - destruct (Nat.le_gt_cases (S k) nd) as [Hn|Hn].
        + assert (p2n1 (S k) = S k) as ->.
          { replace (S k) with (1 + k) by lia. rewrite C3; [cbn [Nat.add]; destruct (Nat.leb_spec (S k) nd); [reflexivity|lia]|]. rewrite app_nth1 by (rewrite repeat_length; lia). apply nth_repeat. }
          split; [rewrite app_length; lia|]. rewrite app_nth1 by lia. unfold B. cbn. rewrite app_nth1 by lia.
          rewrite (K2 k (S k) ind_dyn []); [cbn; apply nth_indep; lia|].
          fold r. rewrite I1. rewrite nth_error_app1 by (rewrite map_length, seq_length; lia). rewrite nth_error_map.
          rewrite (nth_error_nth' _ 0) by (rewrite seq_length; lia). rewrite seq_nth by lia. reflexivity.
        + destruct Ck as [Ck|Ck]; [|lia]. rewrite I3 in Ck. cbn [nth] in Ck. destruct (C4 (S k)) as [Q1 Q2].
          { exists k. split; [lia|]. rewrite I3 in LI. cbn in LI. assert (k < length (repeat true nd ++ isd)) as Hk' by lia. split; [lia|]. rewrite <- Ck. now apply nth_indep. }
          split; auto. rewrite Q2. rewrite K1 by (auto; fold r; rewrite I3; exact Ck). apply AP; auto. fold r. now rewrite I3. }
    assert (good (fun k => k < length (r_par r)) p2n (nodes reg us1 (B ++ con)) P /\ length (nodes reg us1 (B ++ con)) = S prev2) as [G2 L2].
    { destruct (tg_dyn_ok BL reg ND P D2 S0 prev1 p2n1 us1 prev2 p2n (B ++ con)) as [D1 D3]; auto.
      - rewrite app_length, LB. lia.
      - intros k o a Hk. rewrite Forall_forall in I2. split; [now apply (I2 _ Hk)|]. assert (In (k, o, a) (dentries r)) as Hk' by (rewrite I1; apply in_or_app; auto).
        pose proof (dok_rec _ WF) as [_ DK]. rewrite Forall_forall in DK. split; [now apply (DK _ Hk')|]. apply In_nth_error in Hk' as (m & Hm). rewrite (K2 _ _ _ _ Hm).
        apply dyn_sem_ind. now apply (I2 _ Hk).
      - intros pre k o a post EQ j Hj. assert (In (k, o, a) (dentries r)) as Hk by (rewrite I1; apply in_or_app; right; rewrite EQ; apply in_or_app; right; now left).
        pose proof (w_dlt _ WF _ _ _ _ Hk Hj) as LT. destruct (dent_dyn _ _ _ _ WF Hk) as [_ Lk].
        destruct (nth j (r_isdyn r) false) eqn:DJ; [|left; split; auto; lia]. destruct (Nat.le_gt_cases j nd) as [|Hn]; [left; split; auto; lia|]. right.
        destruct (dent_of _ _ WF DJ) as (m & o' & a' & Hm). apply nth_error_In in Hm. pose proof (dok_rec _ WF) as [IC _].
        rewrite I1, EQ, app_assoc in Hm, IC. apply (incr_split _ _ _ _ IC) in Hm; [|exact LT]. apply in_app_or in Hm as [Hm|Hm].
        + apply in_map_iff in Hm as (m' & E' & Hm). injection E' as -> _ _. apply in_seq in Hm. lia.
        + exact (in_map key _ _ Hm).
      - split; auto. refine (good_sub _ _ _ _ _ _ D3). intros k Hk. destruct (nth k (r_isdyn r) false) eqn:DJ; [|left; split; auto]. destruct (Nat.le_gt_cases k nd) as [|Hn]; [left; split; auto|]. right.
        destruct (dent_of _ _ WF DJ) as (m & o' & a' & Hm). apply nth_error_In in Hm. rewrite I1 in Hm. apply in_app_or in Hm as [Hm|Hm].
        + apply in_map_iff in Hm as (m' & E' & Hm). injection E' as -> _ _. apply in_seq in Hm. lia.
        + exact (in_map key _ _ Hm). }
    destruct (nodes_pre reg us1 (B ++ con)) as (w & EW).
    set (V := vsweep P L (set_ind W 0 x)).
    assert (forall i, In i L -> supp (i_op i) = true) as HO.
    { intros i Hi. apply in_app_or in Hi as [Hi|Hi]; [|now apply AS]. unfold head_ins in Hi. destruct Hi as [<-|Hi]; auto. apply in_map_iff in Hi as (j & <- & _). reflexivity. }
    pose proof (decode_numd _ _ _ _ AD) as HN.
    assert (forall i, i <= n -> V i = nth i (bnan :: x) bnan) as VH.
    { intros i Hi. unfold V, L. rewrite vsweep_app', vsweep_head. unfold L in HN. apply numd_app in HN as [_ HN]. rewrite tres_head in HN. cbn [Nat.add] in HN.
      rewrite (vsweep_lt P rest (S n)) by (auto; lia). destruct i as [|i]; [rewrite set_ind_low by lia; exact W0|]. change (S i) with (S (0 + i)) at 1. rewrite (set_ind_nth x W 0 i) by lia. cbn. apply nth_indep. lia. }
    unfold L, head_ins in EO. cbn [app tl] in EO. rewrite tg_inv in EO.
    assert (good (fun j => j <= n \/ exists i, In i rest /\ 0 < num_res (i_op i) /\ i_var i = j) v2n (nodes reg us2 (nodes reg us1 (B ++ con))) V) as G3.
    { apply (tg_ops_ok BL reg ND P V p2n (fun k => k < length (r_par r)) rest (fun j => j <= n) prev2 _ us2 v2n (nodes reg us1 (B ++ con))) in EO; auto.
      - rewrite EW. apply good_app. apply good_app. intros i Hi. rewrite VH by auto. destruct i as [|i]; cbn [Nat.leb andb].
        + split; [unfold B; cbn; lia|reflexivity].
        + destruct n as [|n']; [lia|]. destruct (Nat.leb_spec i n'); [|lia]. split; [lia|]. unfold B. replace (nd + S i) with (S (nd + i)) by lia. cbn [nth]. rewrite app_nth2 by lia. f_equal. lia.
      - intros i Hi. destruct (AS i Hi) as [Q1 Q2]. split; auto. split; auto. rewrite Forall_forall in AW. assert (In i L) as Hi' by (apply in_or_app; auto).
        destruct (AW i Hi') as (_ & Q3 & Q4 & _). split; auto. intros j Hj. rewrite Forall_forall in Q3. now apply Q3.
      - intros i Hi R. apply In_nth_error in Hi as (m & Hm). apply (sweep_eq L HN AA HO P _ (length (head_ins n) + m)); auto.
        + unfold L. rewrite nth_error_app2 by lia. rewrite <- Hm. f_equal. lia.
        + apply (AS i). eapply nth_error_In; eauto.
      - intros pre i post EQ j Hj. destruct (AA (length (head_ins n) + length pre) i) with (j := j) as (kj & ij & A1 & A2 & A3 & A4); auto.
        { unfold L. rewrite EQ. rewrite nth_error_app2 by lia. rewrite nth_error_app2 by lia. replace (_ - _ - _) with 0 by lia. reflexivity. }
        unfold L in A2. destruct (Nat.lt_ge_cases kj (length (head_ins n))) as [Hk|Hk].
        + left. rewrite nth_error_app1 in A2 by auto. rewrite head_len in Hk. rewrite head_nth in A2 by lia. injection A2 as <-. subst j. destruct (Nat.eqb_spec kj 0); cbn; lia.
        + right. exists ij. split; auto. rewrite nth_error_app2 in A2 by auto. rewrite EQ in A2. rewrite nth_error_app1 in A2 by lia. eapply nth_error_In; eauto.
      - eauto. }
    rewrite map_map. apply map_ext_in. intros v Hv. apply G3. destruct (AE v Hv) as (i & Hi & R & <-). apply in_app_or in Hi as [Hi|Hi]; [left|right; eauto].
    apply In_nth_error in Hi as (m & Hm). assert (m < length (head_ins n)) as Hk by (apply nth_error_Some; congruence). rewrite head_len in Hk. rewrite head_nth in Hm by lia. injection Hm as <-. destruct (Nat.eqb_spec m 0); cbn; lia.
  Qed.

  (** by Forward(0, x) *)
  Theorem to_graph_values (f : adfun b) n nd D2 ind rest l0 e g : opt_ok f n nd D2 ind rest -> g_n f = n -> rest = l0 ++ [mkIns EndOp [] e] -> (forall i, In i l0 -> i_op i <> EndOp) ->
    0 < length (r_par (g_rec f)) -> nth 0 (r_par (g_rec f)) bnan = bnan -> to_graph reg nd f = Some g ->
    gr_ndyn g = nd /\ gr_nvar g = n /\ (forall x, length ind = nd -> length x = n -> exists f', forward0 f x = Some (graph_eval reg g (ind ++ x), f')) /\
    forall ds d x, length d = nd -> length x = n -> exists f', forward0 (dyns (ds ++ [d]) f) x = Some (graph_eval reg g (d ++ x), f').
  Proof.
    intros O Gn ER EN P0 PN HG. destruct (to_graph_ok f n nd D2 ind rest l0 e g O Gn ER EN P0 PN HG) as (A1 & A2 & A3). split; auto. split; auto.
    assert (forall f1 ind' x, decode (r_op (g_rec f1)) (r_arg (g_rec f1)) 0 = Some (head_ins n ++ rest) -> g_rec f1 = g_rec f -> g_dep f1 = g_dep f -> Pok ind' (g_par f1) (g_rec f) -> length ind' = nd -> length x = n ->
      exists f', forward0 f1 x = Some (graph_eval reg g (ind' ++ x), f')) as K.
    { intros f1 ind' x D E1 E2 PK Li Lx. destruct (forward0_sv f1 _ x D) as (f' & Hf).
      - intros i Hi. apply in_app_or in Hi as [Hi|Hi]; [|now apply (oo_sup _ _ _ _ _ _ O)]. unfold head_ins in Hi. destruct Hi as [<-|Hi]; auto. apply in_map_iff in Hi as (j & <- & _). reflexivity.
      - exists f'. rewrite Hf. f_equal. f_equal. unfold V0. rewrite (A3 _ ind' x (fun i => if i <? r_nvar (g_rec f1) then bnan else g_V f1 i) PK Li Lx), E2; [reflexivity|].
        assert (0 < r_nvar (g_rec f1)) as Z. { rewrite E1, (oo_nv _ _ _ _ _ _ O), <- (dec_ops _ _ _ _ (oo_dec _ _ _ _ _ _ O)). unfold head_ins. cbn. lia. }
        apply Nat.ltb_lt in Z. now rewrite Z. }
    split.
    - intros x Li Lx. apply K; auto; apply O.
    - intros ds d x Ld Lx. destruct (dyns_inv (ds ++ [d]) f) as (F1 & F2 & F3). apply K; auto.
      + rewrite F1. apply O.
      + destruct ds as [|d1 ds].
        * apply (dyns_pok [] d f); apply O.
        * pose proof (dyns_pok (ds ++ [d]) d1 f (oo_dwf _ _ _ _ _ _ O) (oo_par _ _ _ _ _ _ O)) as Q. rewrite last_last in Q. exact Q.
  Qed.
End ToGraph.
