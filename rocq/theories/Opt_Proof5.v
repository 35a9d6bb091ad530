(** C22: optimize of a function object, for the requirements in [opt_ok]. *)
From Coq Require Import List Bool Arith Lia.
From Verif Require Import Base_Spec Op_Model Tape_Spec Tape_Model Tape_Proof Tape_Proof2 Tape_Proof10 Tape_Swf Sweep_Uniq Abs_Proof Abs_Proof2 Abs_Proof3 Abs_Prop
  Opt_Model Opt_Proof Opt_Proof2 Opt_Proof3 Opt_Proof4.
Import ListNotations.

Section Opt.
  Context {b : base} (BL : base_laws b).
  Notation T := (bt b).
  Implicit Types f : adfun b.
  Variables (opc : opvar -> nat) (dopc : opdyn -> nat) (hsize limit amax : nat).

  (** a zero order sweep *)
  Lemma sweep_sv P cc l : forall k (s : fst0 b), (forall j, f_skip s j = false) -> (forall i, In i l -> supp (i_op i) = true) ->
    exists s', sweep0 P cc l k s = Some s' /\ f_V s' = vsweep P l (f_V s).
  Proof.
    induction l as [|i l IH]; intros k s H F; cbn [sweep0 vsweep fold_left]; [eauto|]. rewrite H. pose proof (F i (or_introl eq_refl)) as F1.
    assert (exists s1, step0 P cc i k s = Some s1 /\ f_V s1 = vstep P i (f_V s) /\ forall j, f_skip s1 j = false) as (s1 & E1 & E2 & E3).
    { destruct i as [o a iv]. unfold step0, vstep. cbn [i_op i_arg i_var] in *. destruct (sem0 o a P (f_V s)) eqn:S; [eexists; split; [reflexivity|]; auto|].
      destruct (cmp_change o a P (f_V s)) eqn:C.
      - destruct ((cc =? 0) || negb b0); eexists; split; try reflexivity; auto.
      - destruct o; try discriminate F1; try discriminate S; try discriminate C; eauto. }
    rewrite E1. destruct (IH (S k) s1 E3 ltac:(intros; apply F; now right)) as (s' & A & B). exists s'. split; auto. rewrite B, E2. reflexivity.
  Qed.
  Definition V0 f x : nat -> T := set_ind (fun i => if i <? r_nvar (g_rec f) then bnan else g_V f i) 0 x.
  Lemma forward0_sv f l x : decode (r_op (g_rec f)) (r_arg (g_rec f)) 0 = Some l -> (forall i, In i l -> supp (i_op i) = true) ->
    exists f', forward0 f x = Some (map (vsweep (g_par f) l (V0 f x)) (g_dep f), f').
  Proof.
    intros D F. unfold forward0. rewrite D. fold (V0 f x). destruct (sweep_sv (g_par f) (g_cc f) l 0 (init0 (g_rec f) (V0 f x) (g_l2v f))) as (s' & E1 & E2); auto.
    rewrite E1. eexists. rewrite E2. reflexivity.
  Qed.

  Record opt_ok f (n nd : nat) (D2 : list dent) (ind : list T) (rest : list ins) : Prop := {
    oo_dec : decode (r_op (g_rec f)) (r_arg (g_rec f)) 0 = Some (head_ins n ++ rest);
    oo_args : argsok (head_ins n ++ rest);
    oo_sup : forall i, In i rest -> supp (i_op i) = true /\ ishead (i_op i) = false;
    oo_dep : forall v, In v (g_dep f) -> exists i, In i (head_ins n ++ rest) /\ 0 < num_res (i_op i) /\ i_var i = v;
    oo_wf : Forall (wf_ins (length (r_par (g_rec f)))) (head_ins n ++ rest);
    oo_dwf : dwf (g_rec f); oo_ind : indform nd (g_rec f) D2; oo_par : parok (g_rec f) (g_par f); oo_pok : Pok ind (g_par f) (g_rec f);
    oo_nv : r_nvar (g_rec f) = nres (r_op (g_rec f)) }.

  Lemma dyns_pok ds d : forall f, dwf (g_rec f) -> parok (g_rec f) (g_par f) -> Pok (last ds d) (g_par (dyns (d :: ds) f)) (g_rec f).
  Proof.
    revert d. induction ds as [|d' ds IH]; intros d f W P.
    - cbn [dyns fold_left last new_dynamic g_par]. apply dyn_sweep_ok; auto. apply P.
    - change (dyns (d :: d' :: ds) f) with (dyns (d' :: ds) (new_dynamic f d)). change (last (d' :: ds) d) with (match ds with [] => d' | _ => last ds d end).
      assert (match ds with [] => d' | _ => last ds d end = last ds d') as E by (destruct ds as [|x ds]; auto; clear; revert x; induction ds as [|y ds IH]; intros x; auto; apply IH).
      rewrite E. apply (IH d' (new_dynamic f d)); auto. cbn [new_dynamic g_rec g_par]. apply parok_dyn; auto. apply w_isd; auto.
  Qed.
  Lemma set_ind_low (x : list T) : forall V j i, i <= j -> set_ind V j x i = V i.
  Proof. induction x as [|v x IH]; intros V j i H; cbn; auto. rewrite IH by lia. apply fset_ne. lia. Qed.

  Theorem optimize_ok f n nd D2 ind rest cmp : opt_ok f n nd D2 ind rest ->
    exists f', optimize opc dopc hsize limit amax nd cmp f = Some f' /\ g_n f' = g_n f /\ length (g_dep f') = length (g_dep f) /\
      forall ds x, length x = n -> exists y f1 f2, forward0 (dyns ds f) x = Some (y, f1) /\ forward0 (dyns ds f') x = Some (y, f2).
  Proof.
    intros [AD AA AS AE AW WF IFM AP APk AN]. set (L := head_ins n ++ rest) in *. set (rf := g_rec f) in *.
    pose proof (decode_numd _ _ _ _ AD) as HN.
    assert (forall i, In i L -> supp (i_op i) = true) as HO.
    { intros i Hi. apply in_app_or in Hi as [Hi|Hi]; [|now apply AS]. unfold head_ins in Hi. destruct Hi as [<-|Hi]; auto. apply in_map_iff in Hi as (j & <- & _). reflexivity. }
    assert (forall i, In i L -> length (i_arg i) = n_actual (i_op i) (i_arg i)) as HL.
    { intros i Hi. rewrite Forall_forall in AW. apply AW in Hi. apply Hi. }
    assert (forall v, In v (g_dep f) -> exists k i, nth_error L k = Some i /\ 0 < num_res (i_op i) /\ i_var i = v) as HD.
    { intros v Hv. destruct (AE v Hv) as (i & Hi & R & E). apply In_nth_error in Hi as (k & Hk). eauto. }
    unfold optimize. cbv zeta. fold rf. rewrite AD. fold L.
    pose proof (usage_ok L HN AA HO cmp (g_dep f) HD) as [U1 [U2 U3]].
    pose proof (usage_W L HO cmp (g_dep f)) as UW.
    destruct (op_usage L cmp (g_dep f)) as [U W] eqn:EU. cbn [fst snd] in *. subst W.
    set (prev := op_previous opc hsize limit U L). set (PU := par_usage nd U (fun _ => false) L (r_vec rf) (dentries rf)). set (pv := dyn_previous dopc hsize PU (dentries rf)).
    assert (exists i, nth_error L 0 = Some i /\ i_op i = BeginOp) as H0 by (eexists; split; reflexivity).
    pose proof (op_previous_ok (l_addC b BL) (l_mulC b BL) L HN AA HO HL opc hsize limit U H0) as [PO]. fold prev in PO.
    pose proof (dyn_previous_ok (l_addC b BL) (l_mulC b BL) dopc hsize PU (dentries rf) (dok_rec _ WF)) as [PV1 PV2]. fold pv in PV1, PV2.
    assert (forall P ind, Pok ind P rf -> deqs (dentries rf) P ind) as DQ.
    { intros P ind' [_ K] j k o a Hj. now apply K. }
    assert (forall k o a, In (k, o, a) (dentries rf) -> PU k = true -> forall j, In j (par_args_dyn o a) -> PU j = true) as UCL.
    { intros k o a Hk Uk. apply (par_dyn_closed _ _ (dok_rec _ WF) _ _ _ Hk Uk). }
    assert (forall i, i <= nd -> PU i = true) as PUnd.
    { intros i Hi. unfold PU, par_usage. apply par_dyn_keep. apply par_ops_keep.
      assert (forall fuel j P0, P0 i = true -> par_vec fuel j (r_vec rf) (fun _ => false) P0 i = true) as K.
      { induction fuel as [|fuel IH]; intros j P0 HP0; cbn [par_vec]; auto. destruct (_ <? _); auto. }
      apply K. now apply Nat.leb_le. }
    assert (forall k c, pv k = Some c -> c < k /\ PU c = true /\ (exists oc ac, In (c, oc, ac) (dentries rf)) /\ g_par f k = g_par f c /\ exists o a, In (k, o, a) (dentries rf) /\ dyn_matched o = true) as PV3.
    { intros k c Hk. destruct (PV1 _ _ Hk) as (Q1 & _ & Q3 & _ & Q5 & Q6). split; auto. split; auto. split; auto. split; auto. eapply PV2; eauto. }
    pose proof (new_pars_ok (l_ideq b BL) rf (g_par f) nd D2 PU pv WF IFM UCL PV3 amax cmp) as NP.
    destruct (new_pars amax rf (g_par f) nd PU pv cmp) as [r1 np]. destruct NP as (S & HJ & HS & R1 & R2 & R3 & R4 & R5).
    assert (forall fuel j m, new_vec fuel j (r_vec rf) (fun _ => false) np r1 m = (r1, m)) as NV.
    { induction fuel as [|fuel IH]; intros j m; cbn [new_vec]; auto. destruct (_ <? _); auto. }
    rewrite NV. set (vi := fun _ : nat => length (r_vec rf)).
    assert (forall j c, prev j = c -> c <> 0 -> c < j /\ U c = true /\ prev c = 0 /\
       exists ij ic, nth_error L j = Some ij /\ nth_error L c = Some ic /\ i_op ij = i_op ic /\ g_match (i_op ij) = true) as HP.
    { intros j c E N. destruct (PO j c E N) as (Q1 & _ & Q2 & Q3 & ij & ic & Q4 & Q5 & Q6 & Q7 & _). eauto 10. }
    assert (dwf r1) as W1 by apply HJ.
    assert (forall i, In i rest -> ishead (i_op i) = false) as HR by (intros i Hi; now apply AS).
    destruct (opt_loop_ok (l_ideq b BL) r1 W1 n rest U prev np vi HN AA HO HR U2 U3 HP ltac:(auto) (fun _ => 0)) as (lg2 & HI).
    fold L in HI. destruct (opt_loop L U prev np vi 0 L (r1, fun _ => 0)) as [r3 nv].
    eexists. split; [reflexivity|]. split; [reflexivity|]. split; [cbn; now rewrite map_length|].
    intros ds x Lx. set (f' := mkFun r3 _ _ _ _ _ _ _ _).
    destruct (dyns_inv ds f) as (F1 & F2 & F3), (dyns_inv ds f') as (F1' & F2' & F3').
    pose proof (iv_em _ _ _ _ _ _ _ _ _ _ _ HI) as E. pose proof (iv_sup _ _ _ _ _ _ _ _ _ _ _ HI) as S2.
    assert (decode (r_op r3) (r_arg r3) 0 = Some (head_ins n ++ lg2)) as DEC.
    { destruct E as [E1 E2 _ _ _ _ E7 E8]. rewrite E1, E2. exact (decode_adds (head_ins n ++ lg2) [] [] [] eq_refl E7 E8). }
    assert (forall i, In i (head_ins n ++ lg2) -> supp (i_op i) = true) as HO'.
    { intros i Hi. apply in_app_or in Hi as [Hi|Hi]; [apply HO; apply in_or_app; auto|now apply S2]. }
    destruct (forward0_sv (dyns ds f) L x) as (f1 & X1); [now rewrite F1|auto|].
    destruct (forward0_sv (dyns ds f') (head_ins n ++ lg2) x) as (f2 & X2); [now rewrite F1'|auto|].
    exists (map (vsweep (g_par (dyns ds f)) L (V0 (dyns ds f) x)) (g_dep (dyns ds f))), f1, f2. split; auto.
    rewrite X2. f_equal. f_equal. rewrite F3, F3'. cbn [f' g_dep]. rewrite map_map. apply map_ext_in. intros v Hv.
    destruct (HD v Hv) as (k & i & Hk & R & <-). rewrite (v2o L HN k i Hk R).
    (* parameters *)
    set (P := g_par (dyns ds f)). set (P' := g_par (dyns ds f')).
    assert (cext r1 r3) as CX by apply E.
    destruct (cext_dwf _ _ CX W1) as [W3 ED3].
    assert (forall k, S k -> k < length (r_par rf) -> P' (np k) = P k) as HPv.
    { pose proof (J_ext rf (g_par f) pv S r1 np r3 CX HJ) as HJ3.
      assert (J rf (g_par f) pv (fun k => S k /\ k < length (r_par rf)) r3 np) as HJ4.
      { destruct HJ3 as [J1 J2 J3 J4]. constructor; auto.
        - intros k0 [Hk0 _]. auto.
        - intros k0 [Hk0 _]. auto.
        - intros j k0 o a Hj [Sk Lk]. specialize (J4 j k0 o a Hj Sk). destruct (pv k0) as [c|] eqn:PK.
          + destruct J4 as [J4 J5]. split; auto. split; auto. apply PV1 in PK as (Q & _). lia.
          + destruct J4 as [J4 J5]. split; auto. intros i0 Hi0. split; auto. apply nth_error_In in Hj. apply (w_dlt _ WF _ _ _ _ Hj) in Hi0. lia. }
      intros k0 Sk Lk. destruct ds as [|d ds].
      - unfold P', P. cbn [dyns fold_left f' g_par]. apply (j_val _ _ _ _ _ _ HJ3). auto.
      - assert (Pok (last ds d) P rf) as K1 by (apply dyns_pok; auto).
        assert (Pok (last ds d) P' r3) as K2 by (apply (dyns_pok ds d f'); [exact W3|apply parok0]).
        apply (new_par_value rf (g_par f) nd D2 PU pv (fun k => S k /\ k < length (r_par rf)) r3 np) with (ind := last ds d); auto.
        + intros k1 c Hk1. destruct (PV1 _ _ Hk1) as (Q1 & _ & Q3 & _). auto.
        + intros k1 c Hk1. eapply PV2; eauto.
        + intros k1 [_ Q]. exact Q. }
    apply (new_values r1 n rest U prev np vi HN AA HO HR U3 HP ltac:(auto) lg2 r3 nv P P' (V0 (dyns ds f) x) (V0 (dyns ds f') x)); auto.
    - intros j c ij ic Ej Nc Hj Hc Rj. destruct (PO j c Ej Nc) as (_ & _ & _ & _ & ij' & ic' & Q4 & Q5 & _ & _ & Q8). fold L in Hj, Hc.
      rewrite Hj in Q4. rewrite Hc in Q5. injection Q4 as <-. injection Q5 as <-. apply Q8. exact Rj.
    - intros w Hw. unfold V0. rewrite F1, F1', !dyns_V. destruct w as [|w].
      + rewrite !set_ind_low by lia. assert (0 < r_nvar (g_rec f)) as Z1. { unfold L in AD. fold rf. rewrite AN, <- (dec_ops _ _ _ _ AD). unfold head_ins. cbn. lia. }
        assert (0 < r_nvar r3) as Z2. { cbn [f' g_rec]. rewrite (em_nv _ _ _ E). rewrite tres_app, tres_head. lia. }
        apply Nat.ltb_lt in Z1, Z2. change (r_nvar (g_rec f')) with (r_nvar r3). now rewrite Z1, Z2.
      + rewrite !(set_ind_nth x _ 0 w) by lia. reflexivity.
    - intros k1 i1 Hk1 Uk1 j Hj. apply HPv.
      + apply HS.
        * apply nth_error_In in Hk1. rewrite Forall_forall in AW. destruct (AW _ Hk1) as (_ & AW2 & _). rewrite Forall_forall in AW2. auto.
        * eapply par_used; eauto.
      + apply nth_error_In in Hk1. rewrite Forall_forall in AW. destruct (AW _ Hk1) as (_ & AW2 & _). rewrite Forall_forall in AW2. auto.
    - rewrite <- (v2o L HN k i Hk R). auto.
  Qed.
End Opt.
