(** C22: a recorded function meets the requirements of [optimize_ok]. *)
From Coq Require Import List Bool Arith Lia.
From Verif Require Import Base_Spec Op_Model Tape_Spec Tape_Model Tape_Proof Tape_Proof2 Tape_Proof10 Tape_Hist Tape_Swf Tape_Gen Tape_Prop Sweep_Uniq
  Abs_Proof Abs_Proof2 Abs_Proof3 Abs_Prop Opt_Model Opt_Proof Opt_Proof2 Opt_Proof3 Opt_Proof4 Opt_Proof5.
Import ListNotations.

(** no operator of a VecAD object *)
Definition no_vecad (o : opvar) : bool := match o with LdpOp | LdvOp | StppOp | StpvOp | StvpOp | StvvOp => false | _ => true end.

Lemma sok_args l : forall seen nl pre, sok seen nl l -> argsok pre -> (forall v, In v seen -> exists ij, In ij pre /\ 0 < num_res (i_op ij) /\ i_var ij = v) ->
  argsok (pre ++ l) /\ forall v, In v (seenof seen l) -> exists ij, In ij (pre ++ l) /\ 0 < num_res (i_op ij) /\ i_var ij = v.
Proof.
  induction l as [|i l IH]; intros seen nl pre S A H; [rewrite app_nil_r; auto|]. destruct S as (S1 & S2 & _ & S4).
  change (pre ++ i :: l) with (pre ++ [i] ++ l). rewrite app_assoc. apply (IH (seen1 seen i) _ (pre ++ [i]) S4).
  - apply argsok_add; auto. rewrite Forall_forall in S2. auto.
  - unfold seen1. intros v Hv. destruct (Nat.ltb_spec 0 (num_res (i_op i))) as [R|R].
    + destruct Hv as [<-|Hv]; [exists i; split; [apply in_or_app; cbn; auto|auto]|]. destruct (H v Hv) as (ij & Q & Q'). exists ij. split; auto. apply in_or_app. auto.
    + destruct (H v Hv) as (ij & Q & Q'). exists ij. split; auto. apply in_or_app. auto.
Qed.
Lemma sok_okop l : forall seen nl, sok seen nl l -> forall i, In i l -> okop (i_op i) = true.
Proof. induction l as [|i0 l IH]; intros sn k S i Hi; [easy|]. destruct S as (S1 & _ & _ & S4). destruct Hi as [<-|Hi]; [exact S1|]. exact (IH _ _ S4 _ Hi). Qed.

Section Rec.
  Context {b : base} (BL : base_laws b).
  Notation T := (bt b).

  (** the independent dynamic parameters come first *)
  Definition iform (nd : nat) (r : rec b) : Prop :=
    length (r_isdyn r) = length (r_par r) /\ length (dyn2par (r_isdyn r) 0) = length (r_dop r) /\ length (r_darg r) = dargs (r_dop r) /\ exists D2, indform nd r D2.
  Lemma iform_same nd r r' : r_par r' = r_par r -> r_isdyn r' = r_isdyn r -> r_dop r' = r_dop r -> r_darg r' = r_darg r -> iform nd r -> iform nd r'.
  Proof.
    intros A B C D (H1 & H2 & H3 & D2 & [E1 E2 E3]). unfold iform. rewrite A, B, C, D. do 3 (split; auto). exists D2. constructor; auto.
    - rewrite <- E1. unfold dentries. now rewrite B, C, D.
    - now rewrite B.
  Qed.
  Lemma iform_con nd r v : iform nd r -> iform nd (fst (put_con_par r v)).
  Proof.
    intros (H1 & H2 & H3 & D2 & [E1 E2 (isd & E3)]). unfold put_con_par. destruct (_ && _); cbn [fst]; [unfold iform; split; auto; split; auto; split; auto; exists D2; constructor; eauto|].
    unfold iform. cbn [r_isdyn r_par r_dop r_darg]. rewrite !app_length, H1. split; auto. rewrite dyn2par_app. cbn [dyn2par]. rewrite app_nil_r. do 2 (split; auto).
    exists D2. constructor; auto.
    - rewrite <- E1. unfold dentries. cbn [r_isdyn r_dop r_darg]. rewrite dyn2par_app. cbn [dyn2par]. now rewrite app_nil_r.
    - exists (isd ++ [false]). cbn [r_isdyn]. rewrite E3. cbn [app]. now rewrite <- app_assoc.
  Qed.
  Lemma iform_dyn nd r v o a : iform nd r -> length a = num_arg_dyn o -> o <> ind_dyn -> iform nd (fst (put_dyn_par r v o a)).
  Proof.
    intros (H1 & H2 & H3 & D2 & [E1 E2 (isd & E3)]) La No. unfold put_dyn_par. cbn [fst]. unfold iform. cbn [r_isdyn r_par r_dop r_darg].
    rewrite dyn2par_app. cbn [dyn2par]. rewrite !app_length, H1, H2, H3, dargs_app. cbn [length dargs fold_right]. split; auto. split; auto. split; [cbn; lia|].
    exists (D2 ++ [(length (r_isdyn r), o, a)]). constructor.
    - rewrite app_assoc, <- E1. unfold dentries. cbn [r_isdyn r_dop r_darg]. rewrite dyn2par_app. cbn [dyn2par]. rewrite Nat.add_0_l. apply dents_app; auto.
    - apply Forall_app. split; auto. constructor; auto. cbn [fst snd key]. split; auto. rewrite E3. cbn. rewrite app_length, repeat_length. lia.
    - exists (isd ++ [true]). cbn [r_isdyn]. rewrite E3. cbn [app]. now rewrite <- app_assoc.
  Qed.

  Variables (tid : nat) (cmp : bool) (n np : nat) (e : nat -> AD b) (ev : nat -> VecAD b) (p : prog T) (V : nat -> T) (l2v : nat -> nat) (f0 f : adfun b) (h : list (call b)).
  Lemma iform_rec : record_fun tid cmp n np e ev p V l2v = Some f0 -> iform np (g_rec f0).
  Proof.
    intros RF. destruct (rec_exec tid cmp n np e ev p V l2v f0 RF) as (EX & _).
    assert (forall r o, iform np r -> okop o = true -> o <> EndOp -> iform np (fst (put_op r o))) as Q1 by (intros r o Q _ _; refine (iform_same np r _ _ _ _ _ Q); reflexivity).
    assert (forall r o, iform np r -> okop o = true -> o <> EndOp -> iform np (fst (put_load_op r o))) as Q2 by (intros r o Q _ _; refine (iform_same np r _ _ _ _ _ Q); reflexivity).
    assert (forall r a, iform np r -> iform np (put_arg r a)) as Q3 by (intros r a Q; refine (iform_same np r _ _ _ _ _ Q); reflexivity).
    assert (forall r a, iform np r -> iform np (fst (put_vec_ind r a))) as Q4 by (intros r a Q; refine (iform_same np r _ _ _ _ _ Q); reflexivity).
    assert (iform np (g_rec f0)) as K; [|exact K]. destruct (Q_exec tid (iform np) Q1 Q2 Q3 Q4 (iform_con np) (iform_dyn np) p (independent tid cmp n np e ev) (g_rec f0) (g_dep f0)) as (r1 & Q & ER); [|exact EX|rewrite ER].
    - destruct (independent_spec tid cmp n np e ev) as ((hh & A) & _). rewrite A. unfold iform. cbn [r_isdyn r_par r_dop r_darg]. 
      cbn [dyn2par]. rewrite dyn2par_rep, dargs_rep, seq_length. cbn [length]. rewrite repeat_length, repeat_length, map_length, seq_length. do 3 (split; auto).
      exists []. constructor; auto.
      + unfold dentries. cbn [r_isdyn r_dop r_darg dyn2par]. rewrite dyn2par_rep, dents_rep, app_nil_r. reflexivity.
      + exists []. cbn. now rewrite app_nil_r.
    - refine (iform_same np r1 _ _ _ _ _ Q); reflexivity.
  Qed.

  Lemma rec_opt_ok : recorded tid cmp n np e ev p V l2v f0 -> Forall (sized n np) h -> run f0 h = Some f -> forallb no_vecad (r_op (g_rec f0)) = true ->
    exists D2 rest, opt_ok f n np D2 (cur_dyn (dyn_values n np e) h) rest.
  Proof.
    intros (T0 & NT & RF & HF) SZ RH NVc. pose proof NT as [NE NV].
    destruct (rec_exec tid cmp n np e ev p V l2v f0 RF) as (EX & HN & HP & _).
    assert (dwf (g_rec f0)) as WF by (eapply (dwf_rec tid T0); eauto).
    destruct (run_inv h f0 f RH) as (G1 & G2 & G3 & G4); [now apply w_isd|rewrite HP; apply parok0|].
    destruct (swf_exec tid n T0 p _ _ _ (sst_init tid n T0 cmp np e ev NE) EX) as [(S1 & S2 & S3 & S4 & _) S5].
    destruct (iform_rec RF) as (_ & _ & _ & D2 & IF).
    destruct (wf_rec BL tid T0 cmp n np e ev p NE NV V l2v f0 RF HF) as (l & W1 & W2 & W3 & _). rewrite S1 in W1. injection W1 as <-.
    assert (fok n np f0 f (cur_dyn (dyn_values n np e) h)) as FK.
    { eapply (fok_run BL tid cmp n np e ev p V l2v f0 T0 NT RF HF); eauto. eapply (fok0 BL tid T0); eauto. }
    unfold prims in S5. set (rest := body n (g_rec f0)) in *.
    assert (forall i, In i rest -> supp (i_op i) = true /\ ishead (i_op i) = false) as SU.
    { intros i Hi. pose proof (sok_okop _ _ _ S2 i Hi) as OK. rewrite forallb_forall in NVc. specialize (NVc (i_op i)).
      rewrite <- (dec_ops _ _ _ _ S1) in NVc. specialize (NVc ltac:(apply in_map; apply in_or_app; auto)). destruct (i_op i); try discriminate; auto. }
    destruct (sok_args rest (seq 1 n) 0 (head_ins n) S2) as [A1 A2].
    { intros k i Hi j Hj. exfalso. assert (k < length (head_ins n)) as Hk by (apply nth_error_Some; congruence). rewrite head_len in Hk. rewrite head_nth in Hi by lia. injection Hi as <-. destruct (k =? 0); destruct Hj. }
    { intros v Hv. apply in_seq in Hv. exists (mkIns InvOp [] v). split; [|cbn; auto]. apply (nth_error_In _ v). rewrite head_nth by lia. destruct (Nat.eqb_spec v 0); [lia|reflexivity]. }
    exists D2, rest. constructor; rewrite ?G1, ?G3; auto.
    - intros v Hv. apply A2. rewrite Forall_forall in S5. auto.
    - apply FK.
  Qed.
End Rec.
