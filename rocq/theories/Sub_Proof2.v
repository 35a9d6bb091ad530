(** Subgraph calculations: get_rev computes exactly the operators that the dependent variable
    uses and that use a selected independent variable. *)
From Coq Require Import ZArith List Bool Arith Lia Sorted Permutation.
From Verif Require Import Base_Spec Op_Model Tape_Spec Tape_Model Tape_Proof2 Sweep_Model Sweep_Eqs Sweep_Eqs2 Sweep_Tape Sweep_Uniq Tape_Swf
  Drv_Model Rev_Zero Sub_Spec Sub_Model Sub_Proof.
Import ListNotations.

Lemma nodup_bound (sg : list nat) N : NoDup sg -> (forall k, In k sg -> k < N) -> length sg <= N.
Proof.
  intros ND H. rewrite <- (seq_length N 0). apply NoDup_incl_length; auto. intros k Hk. apply in_seq. specialize (H k Hk). lia.
Qed.

Section Rev.
  Context (np n : nat) (l : list ins) (dep : list nat).
  Hypothesis TK : tape_ok np n l dep.
  Context (sel : list bool).
  Notation m := (length dep).
  Notation D := (Dep n l sel).
  Context (ell : nat) (ELL : ell < m).
  Notation y := (nth ell dep 0).
  (** the dependent variable uses the result of operator [k] *)
  Definition Uop (k : nat) : Prop := exists i, nth_error l k = Some i /\ 0 < num_res (i_op i) /\ uses l y (i_var i).
  Context (m0 : nat -> nat).
  Hypothesis M0 : forall k, k < length l -> (m0 k <= m <-> D k).
  Hypothesis M1 : forall k, k < length l -> m0 k <> ell.

  Record binv (sg : list nat) (mark : nat -> nat) : Prop := {
    b_nd : NoDup sg;
    b_in : forall k, In k sg -> D k /\ Uop k /\ mark k = ell;
    b_out : forall k, k < length l -> ~ In k sg -> mark k = m0 k }.
  (** every argument of operator [k] that depends on the selection is in the list *)
  Definition done (sg : list nat) (k : nat) : Prop :=
    forall i x k', nth_error l k = Some i -> In x (var_args (i_op i) (i_arg i)) -> var2op l 0 x = Some k' -> D k' -> In k' sg.

  Lemma D_lt k : D k -> k < length l.
  Proof. apply (Dep_lt n l sel). Qed.
  Lemma visit_ok sg mark k i x : binv sg mark -> In k sg -> nth_error l k = Some i -> In x (var_args (i_op i) (i_arg i)) ->
    exists sg' mark', visit l m ell sel (sg, mark) x = Some (sg', mark') /\ binv sg' mark' /\
      (exists t, sg' = sg ++ t) /\ (forall k', var2op l 0 x = Some k' -> D k' -> In k' sg').
  Proof.
    intros B Hk E Hx. destruct (b_in _ _ B k Hk) as (Dk & (i0 & E0 & N & U) & Mk). assert (i0 = i) by congruence. subst i0.
    destruct (k_arg _ _ _ _ TK _ _ _ E N Hx) as (k' & Lk & V). pose proof V as V0. apply (var2op_iff _ _ _ _ TK) in V as (i' & E' & N' & V').
    unfold visit. rewrite V0, E'. cbv zeta.
    assert (k' < length l) as Lk' by (apply nth_error_Some; congruence).
    assert (Uop k') as Uk'. { exists i'. split; [auto|]. split; [auto|]. rewrite V'. eapply uses_trans; [exact U|]. econstructor; eauto; [|constructor]. eapply nth_error_In; eauto. }
    set (add0 := (mark k' <=? m) && negb (mark k' =? ell)).
    assert (add0 = true <-> D k' /\ ~ In k' sg) as HA.
    { unfold add0. rewrite andb_true_iff, Nat.leb_le, negb_true_iff, Nat.eqb_neq. split.
      - intros [A1 A2]. assert (~ In k' sg) as NI by (intros NI; apply A2; apply (b_in _ _ B _ NI)). split; auto.
        apply M0; auto. rewrite <- (b_out _ _ B) by auto. auto.
      - intros [A1 A2]. rewrite (b_out _ _ B) by auto. split; [apply M0; auto|apply M1; auto]. }
    assert ((if is_inv (i_op i') then add0 && nth (x - 1) sel false else add0) = add0) as ->.
    { destruct (is_inv (i_op i')) eqn:O; auto. assert (i_op i' = InvOp) as O' by (destruct (i_op i'); auto; discriminate).
      destruct (k_inv _ _ _ _ TK _ _ E' O') as [_ Vk]. destruct add0; auto. cbn [andb].
      destruct HA as [HA _]. specialize (HA eq_refl) as [HA _]. rewrite (Dep_inv _ _ _ _ TK sel _ _ E' O') in HA. replace x with k' by congruence. auto. }
    destruct add0.
    - destruct HA as [HA _]. specialize (HA eq_refl) as [A1 A2]. eexists _, _. split; [reflexivity|]. split; [|split; [eauto|]].
      + constructor.
        * apply (Permutation_NoDup (Permutation_cons_append sg k')). constructor; auto. apply (b_nd _ _ B).
        * intros k2 H2. unfold upd_at. apply in_app_or in H2 as [H2|[<-|[]]].
          -- destruct (b_in _ _ B _ H2) as (H3 & H4 & H5). destruct (k2 =? k'); auto.
          -- rewrite Nat.eqb_refl. auto.
        * intros k2 L2 H2. unfold upd_at. rewrite in_app_iff in H2. cbn [In] in H2. destruct (Nat.eqb_spec k2 k') as [->|]; [tauto|]. apply (b_out _ _ B); tauto.
      + intros k2 V2 _. assert (k2 = k') by congruence. subst. apply in_or_app. right. now left.
    - eexists _, _. split; [reflexivity|]. split; [auto|]. split; [exists []; now rewrite app_nil_r|].
      intros k2 V2 D2. assert (k2 = k') by congruence. subst. destruct (in_dec Nat.eq_dec k' sg) as [|NI]; auto.
      destruct HA as [_ HA]. discriminate HA; auto.
  Qed.
  Lemma visits_ok k i : nth_error l k = Some i -> forall args, incl args (var_args (i_op i) (i_arg i)) -> forall sg mark, binv sg mark -> In k sg ->
    exists sg' mark', visits l m ell sel args (sg, mark) = Some (sg', mark') /\ binv sg' mark' /\
      (exists t, sg' = sg ++ t) /\ (forall x k', In x args -> var2op l 0 x = Some k' -> D k' -> In k' sg').
  Proof.
    intros E. induction args as [|x args IH]; intros HI sg mark B Hk; cbn [visits].
    - eexists _, _. split; [reflexivity|]. split; [auto|]. split; [exists []; now rewrite app_nil_r|]. intros x k' [].
    - destruct (visit_ok sg mark k i x B Hk E) as (sg1 & mk1 & -> & B1 & (t1 & ->) & C1); [apply HI; now left|].
      destruct (IH (fun z H => HI z (or_intror H)) _ _ B1) as (sg2 & mk2 & -> & B2 & (t2 & ->) & C2); [apply in_or_app; auto|].
      eexists _, _. split; [reflexivity|]. split; [auto|]. split; [exists (t1 ++ t2); now rewrite app_assoc|].
      intros z k' [<-|Hz] V Dk; [|eauto]. apply in_or_app. left. eauto.
  Qed.
  Lemma bfs_ok : forall fuel idx sg mark, binv sg mark -> idx <= length sg -> S (length l) <= fuel + idx ->
    (forall p k, p < idx -> nth_error sg p = Some k -> done sg k) ->
    exists sg' mark', bfs fuel l m ell sel idx (sg, mark) = Some (sg', mark') /\ binv sg' mark' /\ (exists t, sg' = sg ++ t) /\ forall k, In k sg' -> done sg' k.
  Proof.
    induction fuel as [|fuel IH]; intros idx sg mark B LI LF HD.
    - exfalso. pose proof (nodup_bound sg (length l) (b_nd _ _ B)) as LB. specialize (LB (fun k H => D_lt _ (proj1 (b_in _ _ B k H)))). lia.
    - cbn [bfs fst]. destruct (nth_error sg idx) as [iop|] eqn:En.
      + assert (In iop sg) as Hi by (eapply nth_error_In; eauto). destruct (b_in _ _ B iop Hi) as (_ & (i & E & N & _) & _). rewrite E.
        rewrite (k_av _ _ _ _ TK _ _ E N).
        destruct (visits_ok iop i E _ (incl_refl _) sg mark B Hi) as (sg1 & mk1 & -> & B1 & (t1 & ->) & C1).
        destruct (IH (S idx) _ _ B1) as (sg2 & mk2 & E2 & B2 & (t2 & ->) & C2).
        * rewrite app_length. assert (idx < length sg) by (apply nth_error_Some; congruence). lia.
        * lia.
        * intros p k Hp Ek. assert (idx < length sg) by (apply nth_error_Some; congruence). rewrite nth_error_app1 in Ek by lia.
          destruct (Nat.eq_dec p idx) as [->|].
          -- assert (k = iop) by congruence. subst k. intros i' x k' E' Hx V Dk. assert (i' = i) by congruence. subst i'. eauto.
          -- intros i' x k' E' Hx V Dk. apply in_or_app. left. eapply (HD p k); eauto. lia.
        * eexists _, _. split; [exact E2|]. split; [auto|]. split; [exists (t1 ++ t2); now rewrite app_assoc|auto].
      + apply nth_error_None in En. eexists _, _. split; [reflexivity|]. split; [auto|]. split; [exists []; now rewrite app_nil_r|].
        intros k Hk. apply In_nth_error in Hk as (p & Hp). apply (HD p k); auto. assert (p < length sg) by (apply nth_error_Some; congruence). lia.
  Qed.
  (** a closed list that contains the operator of the dependent variable contains everything it uses *)
  Lemma done_uses sg : (forall k, In k sg -> done sg k) -> forall v w, uses l v w -> forall k k', var2op l 0 v = Some k -> var2op l 0 w = Some k' -> In k sg -> D k' -> In k' sg.
  Proof.
    intros HD v w U. induction U as [v|i x w Hi N Hx U IH]; intros k k' V W Hk Dk.
    - congruence.
    - apply In_nth_error in Hi as (k2 & E2). assert (k2 = k) as ->.
      { apply (var2op_iff _ _ _ _ TK) in V as (i1 & E1 & N1 & V1). eapply (ivar_inj _ _ _ _ TK k2 k i i1); eauto. }
      destruct (k_arg _ _ _ _ TK _ _ _ E2 N Hx) as (kx & _ & Vx). apply (IH kx k'); auto.
      apply (HD k Hk i x kx); auto.
      destruct Dk as (i' & j & E' & N' & Hj & S & U'). apply (var2op_iff _ _ _ _ TK) in W as (i1 & E1 & N1 & V1). assert (i1 = i') by congruence. subst i1.
      apply (var2op_iff _ _ _ _ TK) in Vx as (ix & Ex & Nx & Vx'). exists ix, j. rewrite Vx'. rewrite V1 in U'. repeat split; auto. eapply uses_trans; eauto.
  Qed.
End Rev.

Section GetRev.
  Context (np n : nat) (l : list ins) (dep : list nat).
  Hypothesis TK : tape_ok np n l dep.
  Context (sel : list bool).
  Notation m := (length dep).
  Notation D := (Dep n l sel).
  Theorem get_rev_total ell s : ell < m -> sg_ok n l dep sel s -> s_proc s ell = false ->
    exists sg s', get_rev l dep ell s = Some (sg, s') /\ sg_ok n l dep sel s' /\ s_proc s' = upd_at (s_proc s) ell true /\
      NoDup sg /\ (forall k, In k sg <-> D k /\ Uop l dep ell k).
  Proof.
    intros LE SO PR. destruct (k_dep _ _ _ _ TK ell LE) as (k0 & V0). unfold get_rev. rewrite V0.
    pose proof V0 as VV. apply (var2op_iff _ _ _ _ TK) in V0 as (i0 & E0 & N0 & V0).
    assert (k0 < length l) as L0 by (apply nth_error_Some; congruence).
    assert (M1 : forall k, k < length l -> s_mark s k <> ell).
    { intros k Hk Em. assert (s_proc s (s_mark s k) = true) as X by (apply (o_new _ _ _ _ _ SO); auto; lia). rewrite Em, PR in X. discriminate. }
    assert (Uop l dep ell k0) as U0 by (exists i0; rewrite V0; repeat split; auto; constructor).
    set (st := if s_mark s k0 <=? m then ([k0], upd_at (s_mark s) k0 ell) else ([], s_mark s)).
    assert (binv n l dep sel ell (s_mark s) (fst st) (snd st)) as B.
    { unfold st. destruct (Nat.leb_spec (s_mark s k0) m) as [Lm|Lm]; cbn [fst snd]; constructor.
      - constructor; auto. constructor.
      - intros k [<-|[]]. unfold upd_at. rewrite Nat.eqb_refl. repeat split; auto. apply (o_dep _ _ _ _ _ SO); auto.
      - intros k Hk NI. unfold upd_at. destruct (Nat.eqb_spec k k0); auto. subst. destruct NI. now left.
      - constructor.
      - intros k [].
      - auto. }
    destruct (bfs_ok np n l dep TK sel ell LE (s_mark s) (o_dep _ _ _ _ _ SO) M1 (S (length l)) 0 (fst st) (snd st) B) as (sg & mk & E & B' & (t & Ht) & C); [lia|lia|intros; lia|].
    rewrite <- surjective_pairing in E. rewrite (o_sel _ _ _ _ _ SO), E. eexists _, _. split; [reflexivity|]. split; [|split; [reflexivity|split; [apply (b_nd _ _ _ _ _ _ _ _ B')|]]].
    - constructor; cbn [s_sel s_mark s_proc]; auto.
      + intros k Hk. destruct (in_dec Nat.eq_dec k sg) as [I|I].
        * destruct (b_in _ _ _ _ _ _ _ _ B' k I) as (D1 & _ & ->). split; [auto|lia].
        * rewrite (b_out _ _ _ _ _ _ _ _ B' k Hk I). apply (o_dep _ _ _ _ _ SO); auto.
      + intros k Hk Lm. unfold upd_at. destruct (Nat.eqb_spec (mk k) ell) as [|NE]; auto. destruct (in_dec Nat.eq_dec k sg) as [I|I].
        * exfalso. apply NE. apply (b_in _ _ _ _ _ _ _ _ B' k I).
        * rewrite (b_out _ _ _ _ _ _ _ _ B' k Hk I) in *. apply (o_new _ _ _ _ _ SO); auto.
    - intros k. split.
      + intros Hk. destruct (b_in _ _ _ _ _ _ _ _ B' k Hk) as (A1 & A2 & _). auto.
      + intros [Dk (i & Ei & Ni & U)].
        apply (done_uses np n l dep TK sel sg C _ _ U k0 k); auto.
        * apply (var2op_iff _ _ _ _ TK). eauto.
        * rewrite Ht. apply in_or_app. left. unfold st.
          assert (D k0) as D0. { destruct Dk as (i' & j & E' & N' & Hj & S & U'). assert (i' = i) by congruence. subst i'. exists i0, j. repeat split; auto. rewrite V0. eapply uses_trans; eauto. }
          apply (o_dep _ _ _ _ _ SO) in D0; auto. apply Nat.leb_le in D0. rewrite D0. now left.
  Qed.
End GetRev.
