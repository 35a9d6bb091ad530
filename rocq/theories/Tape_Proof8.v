(** Simulation between recording and replay: statements and programs. *)
From Coq Require Import ZArith List Bool Arith Lia.
From Verif Require Import Base_Spec Op_Model Tape_Spec Tape_Model Tape_Proof Tape_Proof2 Tape_Proof3
  Tape_Proof4 Tape_Proof5 Tape_Proof6 Tape_Proof7.
Import ListNotations.

Section Ok.
  Context {b : base}.
  Notation T := (bt b).
  Variable tid : nat.
  (** statements that are replayed faithfully (the excluded ones are refuted
      separately): see pow_ok and cond_ok *)
  Definition instr_ok (i : instr T) (s : state b) : Prop :=
    match i with
    | Ibin Bpow _ l r => pow_ok tid (st_r s l) (st_r s r)
    | Icond c _ l r t f => cond_ok tid c (st_r s l) (st_r s r) (st_r s t) (st_r s f)
    | _ => True
    end.
  Fixpoint prog_ok (p : prog T) (s : state b) : Prop :=
    match p with
    | Pret _ => True
    | Pstep i p' => instr_ok i s /\
        match step_rec tid i s with Some s' => prog_ok p' s' | None => True end
    | Pif c l r pt pf =>
        let '(rc, res) := ad_cmp tid c (st_rec s) (st_r s l) (st_r s r) in
        prog_ok (if res then pt else pf) (mkState (st_r s) (st_v s) rc)
    end.
End Ok.

Section Sim.
  Context {b : base} (L : base_laws b).
  Notation T := (bt b).
  Variable tid : nat.
  Hypothesis tid0 : tid <> 0.
  Variables (ind : list T) (P : nat -> T) (cc : nat).
  Variables (V0 : nat -> T) (vec0 : nat -> nat) (l2v0 : nat -> nat).
  Variable same : Prop.
  Notation tape_ok := (tape_ok P cc V0 vec0 l2v0).
  Notation grows := (grows ind P cc V0 vec0 l2v0 same).
  Notation grow0 := (grow0 ind P cc V0 vec0 l2v0 same).
  Notation Pok := (Pok ind P).
  Notation Vok := (Vok vec0).
  Notation is_var := (is_var tid).
  Notation is_dyn := (is_dyn tid).
  Notation rel := (rel tid P same).
  Notation vrel := (vrel tid P same).
  Notation vfresh := (vfresh vec0).
  Notation opres := (opres tid ind P cc V0 vec0 l2v0 same).
  Notation s_init := (s_init V0 vec0 l2v0).
  Notation dead := (dead P cc V0 vec0 l2v0).

  Record Inv (st : state b) (e0 e1 : senv b) (s : fst0 b) : Prop := {
    i_tape : tape_ok (st_rec st) s;
    i_rel  : forall i, rel (st_rec st) s (st_r st i) (sr e0 i) (sr e1 i);
    i_vrel : forall i, vrel (st_rec st) s (st_v st i) (sv e0 i) (sv e1 i);
    i_disj : vdisj tid (st_v st);
    i_fresh : vfresh (st_rec st) s
  }.

  (** assigning a register *)
  Lemma Inv_set_r st e0 e1 s d a r' s' v0 v1 ev :
    Inv st e0 e1 s -> grow0 (st_rec st) s r' s' -> vfresh r' s' ->
    rel r' s' a v0 v1 ->
    (forall i, vrel r' s' (ev i) (sv e0 i) (sv e1 i)) -> vdisj tid ev ->
    Inv (mkState (fset (st_r st) d a) ev r') (set_r e0 d v0) (set_r e1 d v1) s'.
  Proof.
    intros [] G F R V D. constructor; cbn; auto.
    - apply (h_ok _ _ _ _ _ _ _ _ _ _ _ G).
    - intros i. unfold fset. destruct (i =? d); auto. eapply rel_grow0; eauto.
  Qed.

  Lemma vfresh_grows r s r' s' : vfresh r s -> grows r s r' s' -> vfresh r' s'.
  Proof.
    intros F G i. rewrite (g_isv _ _ _ _ _ _ _ _ _ _ _ G), (g_idx _ _ _ _ _ _ _ _ _ _ _ G),
      (g_vec _ _ _ _ _ _ _ _ _ _ _ G). apply F.
  Qed.

  Lemma Inv_opres st e0 e1 s d ra v0 v1 :
    Inv st e0 e1 s -> opres (st_rec st) s ra v0 v1 -> Pok (fst ra) ->
    exists s', Inv (set_ad st d ra) (set_r e0 d v0) (set_r e1 d v1) s' /\ f_num s' = f_num s /\
      (same -> pareq P (st_rec st) -> pareq P (fst ra)).
  Proof.
    intros I (s' & G & _ & R) HP. exists s'. split; [|split].
    - unfold set_ad. pose proof (grows_grow0 _ _ _ _ _ _ _ _ _ _ _ G) as G0.
      eapply Inv_set_r; eauto.
      + eapply vfresh_grows; eauto. apply (i_fresh _ _ _ _ I).
      + intros i. eapply vrel_grow0; eauto. apply (i_vrel _ _ _ _ I).
      + apply (i_disj _ _ _ _ I).
    - apply (g_cnt _ _ _ _ _ _ _ _ _ _ _ G).
    - intros Hs Hq. apply (g_peq _ _ _ _ _ _ _ _ _ _ _ G); auto.
  Qed.

  Lemma vec_var_spec v r s d0 d1 : vrel r s v d0 d1 -> vec_var tid v = (v_tid v =? tid).
  Proof.
    intros (_ & _ & _ & H). unfold vec_var. destruct (v_tid v =? tid); auto.
    destruct H as [-> _]. auto.
  Qed.

  (** index expression: tape address of the index *)
  Lemma idx_addr r s x i0 i1 r' p :
    tape_ok r s -> rel r s x i0 i1 ->
    (if negb (is_dyn x || is_var x) then put_con_par r (a_val x) else (r, a_taddr x)) = (r', p) ->
    grows r s r' s /\ r_nvar r' = r_nvar r /\
    (Pok r' -> if is_var x then 0 < p < r_nvar r' /\ f_V s p = i1 else p < length (r_par r') /\ P p = i1).
  Proof.
    intros K R H. destruct (is_dyn x) eqn:D; cbn in H.
    - injection H as <- <-. split; [now apply grows_refl|split; auto].
      rewrite (is_dyn_not_var _ _ D).
      destruct (rel_dyn _ _ _ _ _ _ _ _ R D) as (_ & _ & A & B). auto.
    - destruct (is_var x) eqn:V; cbn in H.
      + injection H as <- <-. split; [now apply grows_refl|split; auto].
        destruct (rel_var _ _ _ _ _ _ _ _ R V) as (_ & _ & A & B). auto.
      + destruct (put_con_par_grows L ind _ _ _ _ _ same _ _ _ _ _ K H) as (A & B & C & _ & E).
        split; [auto|split; auto]. intros HP. split; auto. rewrite (E HP).
        destruct (rel_con _ _ _ _ _ _ _ _ R V D) as [_ ->]. now apply rel_val in R.
  Qed.

  Lemma Pok_grow0 r s r' s' : tape_ok r s -> grow0 r s r' s' -> Pok r' -> Pok r.
  Proof.
    intros K G. apply Pok_ext; [apply (t_dwf _ _ _ _ _ _ _ K)|apply (h_ext _ _ _ _ _ _ _ _ _ _ _ G)].
  Qed.
  Lemma Vok_grow0 r s r' s' : grow0 r s r' s' -> Vok r' -> Vok r.
  Proof. intros G. apply Vok_ext, (h_ext _ _ _ _ _ _ _ _ _ _ _ G). Qed.

  Lemma vdisj_set (ev : nat -> VecAD b) v v' :
    vdisj tid ev -> length (v_data v') = length (v_data (ev v)) ->
    (v_tid v' = v_tid (ev v) /\ v_off v' = v_off (ev v)) \/
    (forall j, j <> v -> v_tid (ev j) = tid -> v_off (ev j) + length (v_data (ev j)) < v_off v') ->
    vdisj tid (fset ev v v').
  Proof.
    intros D Hl H i j Hij. unfold fset.
    destruct (Nat.eqb_spec i v) as [->|Hi]; destruct (Nat.eqb_spec j v) as [->|Hj]; try easy; [| |auto].
    - destruct H as [[A B]|H].
      + rewrite A, B, Hl. auto.
      + intros _ Hj'. right. now apply H.
    - destruct H as [[A B]|H].
      + rewrite A, B, Hl. auto.
      + intros Hi' _. left. now apply H.
  Qed.

  Lemma vdisj_ext (ev ev' : nat -> VecAD b) : (forall j, ev j = ev' j) -> vdisj tid ev -> vdisj tid ev'.
  Proof. intros H D i j. rewrite <- !H. apply D. Qed.

  Lemma vrel_con r s v d0 d1 : vrel r s v d0 d1 -> v_tid v <> tid -> d1 = d0.
  Proof. intros (_ & _ & _ & H) N. apply Nat.eqb_neq in N. now rewrite N in H. Qed.

  (** VecAD::operator[] *)
  Lemma vec_index_res st e0 e1 s v i r' v' :
    Inv st e0 e1 s -> vec_index tid (st_rec st) (st_v st v) (st_r st i) = Some (r', v') ->
    Pok r' -> Vok r' ->
    Inv (mkState (st_r st) (fset (st_v st) v v') r') e0 e1 s /\
    v_data v' = v_data (st_v st v) /\
    (exists k, index_of (b_int (a_val (st_r st i))) (length (v_data (st_v st v))) = Some k) /\
    (v_tid v' = tid \/ (is_var (st_r st i) = false /\ is_dyn (st_r st i) = false)) /\
    (same -> pareq P (st_rec st) -> pareq P r').
  Proof.
    intros I H HP HV. unfold vec_index in H.
    destruct (index_of _ _) as [k|] eqn:E; [|discriminate].
    pose proof (vec_var_spec _ _ _ _ _ (i_vrel _ _ _ _ I v)) as VV. rewrite VV in H.
    assert (Inv (mkState (st_r st) (fset (st_v st) v (st_v st v)) (st_rec st)) e0 e1 s) as I'.
    { destruct I. constructor; cbn; auto.
      - intros j. unfold fset. destruct (Nat.eqb_spec j v) as [->|]; auto.
      - apply vdisj_set; auto. }
    destruct (Nat.eqb_spec (v_tid (st_v st v)) tid) as [Et|Et]; cbn in H.
    - injection H as <- <-. split; [auto|split; [auto|split; [eauto|split; [auto|auto]]]].
    - assert (vec_on_tape tid (st_rec st) (st_v st v) = (r', v') ->
        Inv (mkState (st_r st) (fset (st_v st) v v') r') e0 e1 s /\
        v_data v' = v_data (st_v st v) /\ v_tid v' = tid /\
        (same -> pareq P (st_rec st) -> pareq P r')) as W.
      { clear H. intros H.
        destruct (vec_on_tape_res L tid ind P cc V0 vec0 l2v0 same _ _ _ _ _ (i_tape _ _ _ _ I) (i_fresh _ _ _ _ I) H)
          as (G & F & A1 & A2 & A3 & A4 & A5).
        split; [|split; [auto|split; [auto|
              intros Hs Hq; apply (h_peq _ _ _ _ _ _ _ _ _ _ _ G); auto]]].
        constructor; cbn; auto.
        - apply (h_ok _ _ _ _ _ _ _ _ _ _ _ G).
        - intros j; eapply rel_grow0; eauto; apply (i_rel _ _ _ _ I).
        - intros j; unfold fset; destruct (Nat.eqb_spec j v) as [->|];
            [|eapply vrel_grow0; eauto; apply (i_vrel _ _ _ _ I)].
          pose proof (i_vrel _ _ _ _ I v) as R; pose proof (vrel_con _ _ _ _ _ R Et) as Ed;
          destruct R as (R1 & R2 & R3 & _).
          split; [congruence|split; [auto|split; [auto|]]]. rewrite A2, Nat.eqb_refl; split; auto.
          rewrite Ed, <- R1; now apply A5.
        - apply vdisj_set; [apply (i_disj _ _ _ _ I)|congruence|right].
          intros j Hj Ht; pose proof (i_vrel _ _ _ _ I j) as (R1 & R2 & _ & R4);
          rewrite Ht, Nat.eqb_refl in R4; destruct R4 as (_ & _ & R4 & _); rewrite R1, <- R2; lia. }
      destruct (is_dyn (st_r st i)) eqn:D, (is_var (st_r st i)) eqn:V; cbn in H.
      4:{ injection H as <- <-. split; [auto|split; [auto|split; [eauto|split; [auto|auto]]]]. }
      all: injection H as H; destruct (W H) as (W1 & W2 & W3 & W4);
        split; [auto|split; [auto|split; [eauto|split; [auto|auto]]]].
  Qed.

  Lemma Pok_lext r r' : lwf r -> ext r r' -> Pok r' -> Pok r.
  Proof.
    intros W [_ _ [q1 Q1] [q2 Q2] [q3 Q3] _] [H1 H2]. split.
    - intros j Hj Hb. rewrite H1, Q1, app_nth1; auto.
      + rewrite Q1, app_length. lia.
      + rewrite Q2, app_nth1; auto. rewrite (lw_isd _ W). auto.
    - intros kk ii oo aa Hk. apply H2. rewrite Q3, nth_error_app1; auto.
      apply nth_error_Some. congruence.
  Qed.

  Lemma step_sim i st e0 e1 s st' :
    Inv st e0 e1 s -> step_rec tid i st = Some st' -> instr_ok tid i st ->
    Pok (st_rec st') -> Vok (st_rec st') ->
    exists e0', step_spec i e0 = Some e0' /\
      match step_spec i e1 with
      | Some e1' => exists s', Inv st' e0' e1' s' /\ f_num s' = f_num s /\
          (same -> pareq P (st_rec st) -> pareq P (st_rec st'))
      | None => dead (st_rec st')
      end.
  Proof.
    intros I H Hok HP HV. pose proof (i_tape _ _ _ _ I) as K. pose proof (i_rel _ _ _ _ I) as R.
    destruct i as [d c|d x|u d x|o d l rt|o d rt|c d l rt t f|k d x|d v i|v i x]; cbn [step_rec] in H.
    1-7: injection H as <-; cbn [set_ad st_rec] in HP, HV; cbn [step_spec]; eexists; (split; [reflexivity|]).
    1-7: apply Inv_opres; auto.
    - apply leaf_same; auto. now apply rel_con_ad.
    - apply leaf_same; auto.
    - now apply ad_un_res.
    - apply ad_bin_res; auto. intros ->. exact Hok.
    - now apply ad_eq_res.
    - apply ad_cond_res; auto.
    - now apply ad_dis_res.
    - (* load *)
      destruct (vec_index tid (st_rec st) (st_v st v) (st_r st i)) as [[r1 v1]|] eqn:E; [|discriminate].
      destruct (vec_load tid r1 v1 (st_r st i)) as [[r2 a]|] eqn:F; [|discriminate].
      injection H as <-. cbn [st_rec] in HP, HV.
      pose proof (pre_vec_load tid _ _ _ _ _ F) as PRE.
      pose proof (pre_vec_index tid _ _ _ _ _ E) as PRE1.
      destruct (PRE1 (dwf_lwf _ (t_dwf _ _ _ _ _ _ _ K))) as [X1 LW1 _ _].
      destruct (PRE LW1) as [X LW2 _ _].
      unfold vec_load in F.
      destruct (index_of (b_int (a_val (st_r st i))) (length (v_data v1))) as [k0|] eqn:Ek; [|discriminate].
      pose proof (vec_var_spec (st_v st v)) as _.
      (* the state after operator[] *)
      assert (Pok r1 /\ Vok r1) as [HP1 HV1].
      { split; [|eapply Vok_ext; eauto]. eapply Pok_lext; eauto. }
      destruct (vec_index_res _ _ _ _ _ _ _ _ I E HP1 HV1) as (I1 & Ed & (k & Ek') & Hk & Hq1).
      pose proof (i_vrel _ _ _ _ I1 v) as RV. cbn in RV. rewrite fset_eq in RV.
      pose proof (i_rel _ _ _ _ I1 i) as RI. cbn in RI.
      pose proof (i_vrel _ _ _ _ I v) as (RV0 & _).
      destruct RV as (V1 & V2 & V3 & V4).
      rewrite Ed in Ek. rewrite Ek in Ek'. injection Ek' as <-.
      cbn [step_spec]. rewrite <- (rel_val _ _ _ _ _ _ _ _ RI), <- RV0, Ek. eexists; split; [reflexivity|].
      pose proof (vec_var_spec v1 r1 s (sv e0 v) (sv e1 v) (conj V1 (conj V2 (conj V3 V4)))) as VV.
      rewrite VV in F. destruct (Nat.eqb_spec (v_tid v1) tid) as [Et|Et]; cbn [negb andb] in F.
      + destruct V4 as [V4 V5].
        destruct (if negb (is_dyn (st_r st i) || is_var (st_r st i)) then put_con_par r1 (a_val (st_r st i))
                  else (r1, a_taddr (st_r st i))) as [r3 p] eqn:Ep.
        destruct (idx_addr _ _ _ _ _ _ _ (i_tape _ _ _ _ I1) RI Ep) as (G3 & N3 & A3).
        set (o := if is_var (st_r st i) then LdvOp else LdpOp) in F.
        pose proof (load_res ind P cc V0 vec0 l2v0 same r3 s (v_off v1) (sv e1 v) o p (r_nload r3) (sr e1 i)) as LD.
        destruct (put_load_op (put_arg r3 [v_off v1; p; r_nload r3]) o) as [r4 z] eqn:Ez.
        injection F as <- <-. cbn [fst] in LD.
        pose proof (grows_grow0 _ _ _ _ _ _ _ _ _ _ _ G3) as G3'.
        pose proof (g_ok _ _ _ _ _ _ _ _ _ _ _ G3) as K3.
        assert (Pok r3) as HP3.
        { assert (pre r3 r4) as PR.
          { replace r4 with (fst (put_load_op (put_arg r3 [v_off v1; p; r_nload r3]) o)) by now rewrite Ez.
            eapply pre_trans; [apply pre_put_arg|apply (pre_put_load_op (put_arg r3 _) o)]. }
          destruct (PR (dwf_lwf _ (t_dwf _ _ _ _ _ _ _ K3))) as [X3 _ _ _].
          eapply Pok_ext; [apply (t_dwf _ _ _ _ _ _ _ K3)|eauto|auto]. }
        specialize (A3 HP3).
        specialize (LD K3 (on_tape_grow0 _ _ _ _ _ _ _ _ _ _ _ _ _ G3' V5)).
        assert (z = r_nvar r3 /\ r_nvar r4 = S (r_nvar r3)) as [Ezv En4].
        { unfold put_load_op in Ez. injection Ez as <- <-. subst o. cbn.
          destruct (is_var (st_r st i)); cbn; lia. }
        destruct (index_of (b_int (sr e1 i)) (length (sv e1 v))) as [k1|] eqn:Ek1.
        * destruct LD as (s' & G4 & Vz).
          { subst o. destruct (is_var (st_r st i)); [left|right]; tauto. }
          exists s'. split; [|split].
          -- pose proof (grow0_trans _ _ _ _ _ _ _ _ _ _ _ _ _ G3' G4) as G5.
             assert (vfresh r4 s') as FR.
             { intros j Hj. rewrite (h_isv _ _ _ _ _ _ _ _ _ _ _ G4), (h_idx _ _ _ _ _ _ _ _ _ _ _ G4).
               apply (i_fresh _ _ _ _ I1). cbn.
               pose proof (ext_vec_len _ _ (h_ext _ _ _ _ _ _ _ _ _ _ _ G5)). cbn in *. lia. }
             apply (Inv_set_r _ _ _ _ d _ _ _ _ _ (fset (st_v st) v v1) I1 G5 FR).
             ++ split; [|split]; cbn.
                ** now rewrite Ed, RV0.
                ** intros Hs. rewrite RV0 in *. rewrite (V3 Hs) in *.
                   rewrite (rel_same _ _ _ _ _ _ _ _ RI Hs), <- (rel_val _ _ _ _ _ _ _ _ RI) in Ek1.
                   congruence.
                ** rewrite Nat.eqb_refl. split; [auto|]. split; [|now rewrite Ezv].
                   pose proof (t_nv1 _ _ _ _ _ _ _ K3). lia.
             ++ intros j. eapply vrel_grow0; [exact G5|]. apply (i_vrel _ _ _ _ I1).
             ++ apply (i_disj _ _ _ _ I1).
          -- rewrite (h_cnt _ _ _ _ _ _ _ _ _ _ _ G4). auto.
          -- intros Hs Hq. cbn. apply (h_peq _ _ _ _ _ _ _ _ _ _ _ G4); auto.
             apply (h_peq _ _ _ _ _ _ _ _ _ _ _ G3'); auto.
        * cbn. apply LD. subst o. destruct (is_var (st_r st i)); [left|right]; tauto.
      + destruct Hk as [Hk|[Hv Hd]]; [easy|]. rewrite Hv, Hd in F. cbn in F.
        injection F as <- <-.
        destruct (rel_con _ _ _ _ _ _ _ _ RI Hv Hd) as [_ Ei].
        rewrite Ei, V4, <- (rel_val _ _ _ _ _ _ _ _ RI), <- RV0, Ek.
        exists s. split; [|split; [auto|cbn; auto]].
        assert (tape_ok r1 s) as K1 by apply (i_tape _ _ _ _ I1).
        rewrite Ed. eapply (Inv_set_r _ _ _ _ _ _ _ _ _ _ _ I1 (grow0_refl _ _ _ _ _ _ _ _ _ K1)).
        * apply (i_fresh _ _ _ _ I1).
        * now apply rel_con_ad.
        * intros j. pose proof (i_vrel _ _ _ _ I1 j) as RJ. cbn in RJ. exact RJ.
        * apply (i_disj _ _ _ _ I1).
    - (* store *)
      destruct (vec_index tid (st_rec st) (st_v st v) (st_r st i)) as [[r1 v1]|] eqn:E; [|discriminate].
      destruct (vec_store tid r1 v1 (st_r st i) (st_r st x)) as [[r2 v2]|] eqn:F; [|discriminate].
      injection H as <-. cbn [st_rec] in HP, HV.
      pose proof (pre_vec_store tid _ _ _ _ _ _ F) as PRE.
      pose proof (pre_vec_index tid _ _ _ _ _ E) as PRE1.
      destruct (PRE1 (dwf_lwf _ (t_dwf _ _ _ _ _ _ _ K))) as [X1 LW1 _ _].
      destruct (PRE LW1) as [X LW2 _ _].
      assert (Pok r1 /\ Vok r1) as [HP1 HV1].
      { split; [|eapply Vok_ext; eauto]. eapply Pok_lext; eauto. }
      destruct (vec_index_res _ _ _ _ _ _ _ _ I E HP1 HV1) as (I1 & Ed & (k & Ek) & Hk & Hq1).
      unfold vec_store in F. cbv zeta in F. rewrite Ed, Ek in F. rewrite <- Ed in F.
      pose proof (i_vrel _ _ _ _ I1 v) as RV. cbn in RV. rewrite fset_eq in RV.
      pose proof (i_rel _ _ _ _ I1 i) as RI. cbn in RI.
      pose proof (i_rel _ _ _ _ I1 x) as RX. cbn in RX.
      pose proof (i_vrel _ _ _ _ I v) as (RV0 & _).
      pose proof RV as (V1 & V2 & V3 & V4).
      cbn [step_spec]. rewrite <- (rel_val _ _ _ _ _ _ _ _ RI), <- RV0, Ek.
      eexists; split; [reflexivity|].
      pose proof (vec_var_spec v1 r1 s (sv e0 v) (sv e1 v) RV) as VV.
      set (w := mkVec (lset (v_data v1) k (a_val (st_r st x))) (v_tid v1) (v_off v1) (v_type v1)) in F.
      assert (vec_var tid w = (v_tid v1 =? tid)) as VW by (rewrite <- VV; reflexivity).
      rewrite VW in F.
      (* step 1: the vector after its data has been assigned and it has been put on the tape *)
      destruct (negb (v_tid v1 =? tid) && negb (is_dyn (st_r st x) || is_var (st_r st x))) eqn:Cv.
      + (* constant vector and constant right hand side *)
        injection F as <- <-. apply andb_true_iff in Cv as [C1 C2].
        apply negb_true_iff in C1, C2. apply orb_false_iff in C2 as [C2 C3].
        apply Nat.eqb_neq in C1. destruct Hk as [Hk|[Hv Hd]]; [easy|].
        destruct (rel_con _ _ _ _ _ _ _ _ RI Hv Hd) as [_ Ei].
        destruct (rel_con _ _ _ _ _ _ _ _ RX C3 C2) as [_ Ex].
        pose proof (vrel_con _ _ _ _ _ RV C1) as Ev.
        rewrite Ei, Ev, <- (rel_val _ _ _ _ _ _ _ _ RI), <- RV0, Ek.
        exists s. split; [|split; [auto|cbn; auto]].
        destruct I1 as [J1 J2 J3 J4 J5]. cbn in J2, J3. constructor; cbn; auto.
        * intros j. unfold fset. destruct (Nat.eqb_spec j v) as [->|Hj].
          -- subst w. cbn. split; [cbn; now rewrite (rel_val _ _ _ _ _ _ _ _ RX), Ed|].
             split; [now rewrite !lset_length|]. split; [now rewrite Ex|].
             apply Nat.eqb_neq in C1. cbn. rewrite C1. now rewrite Ex.
          -- specialize (J3 j). unfold fset in J3. apply Nat.eqb_neq in Hj. now rewrite Hj in J3.
        * apply (vdisj_ext (fset (fset (st_v st) v v1) v w)).
          { intros j; unfold fset; now destruct (j =? v). }
          apply vdisj_set; auto; rewrite fset_eq; subst w; cbn; [now rewrite lset_length|auto].
      + (* the vector is on the tape, or is put there now *)
        assert (exists r3 w', (if negb (v_tid v1 =? tid) then vec_on_tape tid r1 w else (r1, w)) = (r3, w')
                 /\ pre r1 r3) as (r3 & w' & Ew & PR3).
        { pose proof (pre_vec_on_tape tid r1 w). destruct (negb (v_tid v1 =? tid)).
          - destruct (vec_on_tape tid r1 w) as [r3 w']. eauto.
          - exists r1, w. split; auto using pre_refl. }
        rewrite Ew in F.
        destruct (if negb (is_dyn (st_r st i) || is_var (st_r st i)) then put_con_par r3 (a_val (st_r st i))
                  else (r3, a_taddr (st_r st i))) as [r4 p] eqn:Ep.
        destruct (if negb (is_dyn (st_r st x) || is_var (st_r st x)) then put_con_par r4 (a_val (st_r st x))
                  else (r4, a_taddr (st_r st x))) as [r5 q] eqn:Eq.
        set (o := if is_var (st_r st x) then if is_var (st_r st i) then StvvOp else StpvOp
                  else if is_var (st_r st i) then StvpOp else StppOp) in F.
        injection F as F <-.
        assert (pre r5 r2) as PR5.
        { subst r2. eapply pre_trans; [apply pre_put_arg|apply (pre_put_op (put_arg r5 [v_off w'; p; q]) o)]. }
        (* the cells of the vector hold the old values, except that cell k is arbitrary
           if the vector was just put on the tape *)
        assert (exists dx, (forall j, nth j (lset (sv e1 v) k dx) b0 = nth j (lset (sv e1 v) k dx) b0) /\
           v_data w' = lset (sv e0 v) k (sr e0 x) /\ v_tid w' = tid /\ v_type w' = T_var /\
           (v_tid v1 = tid /\ v_off w' = v_off v1 \/ length (r_vec r1) < v_off w') /\
           grow0 r1 s r3 s /\ vfresh r3 s /\
           (Pok r3 -> Vok r3 -> on_tape P r3 s (v_off w') (if v_tid v1 =? tid then sv e1 v else lset (sv e1 v) k dx)) /\
           (v_tid v1 <> tid -> is_var (st_r st i) = false /\ is_dyn (st_r st i) = false))
          as (dx & _ & D1 & D2 & D3 & D4 & G3 & F3 & O3 & Q3).
        { destruct (Nat.eqb_spec (v_tid v1) tid) as [Et|Et]; cbn in Ew.
          - injection Ew as <- <-. exists b0. subst w. cbn. destruct V4 as [V4 V5].
            split; [auto|]. split; [now rewrite V1, (rel_val _ _ _ _ _ _ _ _ RX)|].
            split; [auto|split; [auto|split; [auto|split; [apply grow0_refl, (i_tape _ _ _ _ I1)|]]]].
            split; [apply (i_fresh _ _ _ _ I1)|]. split; [auto|easy].
          - destruct (vec_on_tape_res L tid ind P cc V0 vec0 l2v0 same _ _ _ _ _ (i_tape _ _ _ _ I1) (i_fresh _ _ _ _ I1) Ew)
              as (G & F' & A1 & A2 & A3 & A4 & A5). cbn in G, F', A4.
            exists (sr e0 x). split; [auto|].
            split; [rewrite A1; subst w; cbn; now rewrite V1, (rel_val _ _ _ _ _ _ _ _ RX)|].
            split; [auto|split; [auto|split; [auto|split; [auto|split; [auto|split]]]]].
            + intros HP3 HV3. rewrite V4. specialize (A5 HP3 HV3). subst w. cbn in A5.
              now rewrite V1, (rel_val _ _ _ _ _ _ _ _ RX) in A5.
            + intros _. destruct Hk as [Hk|Hk]; [easy|auto]. }
        pose proof (h_ok _ _ _ _ _ _ _ _ _ _ _ G3) as K3.
        pose proof (rel_grow0 _ _ _ _ _ _ _ _ _ _ _ _ _ _ _ G3 RI) as RI3.
        pose proof (rel_grow0 _ _ _ _ _ _ _ _ _ _ _ _ _ _ _ G3 RX) as RX3.
        destruct (idx_addr _ _ _ _ _ _ _ K3 RI3 Ep) as (G4 & N4 & A4).
        pose proof (g_ok _ _ _ _ _ _ _ _ _ _ _ G4) as K4.
        pose proof (rel_grows tid tid0 _ _ _ _ _ _ _ _ _ _ _ _ _ _ G4 RX3) as RX4.
        destruct (idx_addr _ _ _ _ _ _ _ K4 RX4 Eq) as (G5 & N5 & A5).
        pose proof (g_ok _ _ _ _ _ _ _ _ _ _ _ G5) as K5.
        pose proof (grow0_trans _ _ _ _ _ _ _ _ _ _ _ _ _ (grows_grow0 _ _ _ _ _ _ _ _ _ _ _ G4)
                      (grows_grow0 _ _ _ _ _ _ _ _ _ _ _ G5)) as G45.
        pose proof (grow0_trans _ _ _ _ _ _ _ _ _ _ _ _ _ G3 G45) as G35.
        destruct (PR5 (dwf_lwf _ (t_dwf _ _ _ _ _ _ _ K5))) as [X5 _ _ _].
        assert (Pok r5) as HP5 by (eapply Pok_ext; [apply (t_dwf _ _ _ _ _ _ _ K5)|exact X5|auto]).
        assert (Pok r4) as HP4 by (eapply Pok_g; [exact K4|exact G5|auto]).
        assert (Pok r3) as HP3 by (eapply Pok_g; [exact K3|exact G4|auto]).
        assert (Vok r3) as HV3.
        { eapply Vok_ext; [|eapply Vok_ext; [exact X5|exact HV]]. apply (h_ext _ _ _ _ _ _ _ _ _ _ _ G45). }
        specialize (A4 HP4). specialize (A5 HP5). specialize (O3 HP3 HV3).
        set (dd := if v_tid v1 =? tid then sv e1 v else lset (sv e1 v) k dx) in *.
        assert (length dd = length (sv e1 v)) as Ldd by (subst dd; destruct (v_tid v1 =? tid); rewrite ?lset_length; auto).
        pose proof (on_tape_grow0 _ _ _ _ _ _ _ _ _ _ _ _ _ G45 O3) as O5.
        pose proof (store_res P cc V0 vec0 l2v0 r5 s (v_off w') dd o p q (sr e1 i)
                      (is_var (st_r st i)) (is_var (st_r st x)) K5 O5 eq_refl) as ST.
        pose proof (e_nv _ _ (h_ext _ _ _ _ _ _ _ _ _ _ _ (grows_grow0 _ _ _ _ _ _ _ _ _ _ _ G5))) as LN5.
        pose proof (ext_par_len _ _ (g_ext _ _ _ _ _ _ _ _ _ _ _ G5)) as LP5.
        assert (fst (put_op (put_arg r5 [v_off w'; p; q]) o) = r2) as F' by exact F.
        rewrite Ldd, F' in ST. clear F'.
        assert (r_par r2 = r_par r5 /\ r_nvar r2 = r_nvar r5 /\ r_vec r2 = r_vec r5) as (Ep2 & En2 & Ev2).
        { subst r2. cbn. replace (num_res o) with 0; [auto|].
          subst o. now destruct (is_var (st_r st x)), (is_var (st_r st i)). }
        specialize (ST ltac:(destruct (is_var (st_r st i)); intuition lia)).
        specialize (ST ltac:(destruct (is_var (st_r st x)); intuition lia)).
        destruct (index_of (b_int (sr e1 i)) (length (sv e1 v))) as [k1|] eqn:Ek1; [|exact ST].
        destruct ST as (s' & K2 & S1 & S2 & S3 & S4).
        pose proof (index_of_some _ _ _ Ek1) as Hk1.
        assert (v_tid v1 <> tid -> k1 = k) as Hkk.
        { intros Et. destruct (Q3 Et) as [Q4 Q5].
          destruct (rel_con _ _ _ _ _ _ _ _ RI Q4 Q5) as [_ Ei].
          rewrite Ei, <- (rel_val _ _ _ _ _ _ _ _ RI), V2, <- RV0 in Ek1. congruence. }
        destruct O5 as (O51 & O52 & O53 & O54). rewrite Ldd in *.
        assert (off_w : v_off w' + k1 < length (r_vec r5)) by lia.
        exists s'. split; [|split; [auto|]].
        * constructor; cbn [st_rec st_r st_v].
          -- exact K2.
          -- intros j. cbn [sr]. pose proof (i_rel _ _ _ _ I1 j) as RJ. cbn in RJ.
             pose proof (rel_grow0 _ _ _ _ _ _ _ _ _ _ _ _ _ _ _ G35 RJ) as (B1 & B2 & B3).
             split; [auto|split; [auto|]]. destruct (a_tid (st_r st j) =? tid); auto.
             rewrite S1, Ep2, En2. exact B3.
          -- intros j. unfold fset. cbn [sv]. unfold fset.
             destruct (Nat.eqb_spec j v) as [->|Hj].
             ++ split; [rewrite D1, RV0; f_equal|].
                split; [now rewrite !lset_length, RV0|].
                split.
                { intros Hs. rewrite (V3 Hs), (rel_same _ _ _ _ _ _ _ _ RX Hs), RV0. f_equal.
                  rewrite (V3 Hs), (rel_same _ _ _ _ _ _ _ _ RI Hs), <- (rel_val _ _ _ _ _ _ _ _ RI), <- RV0 in Ek1.
                  congruence. }
                rewrite D2, Nat.eqb_refl. split; [auto|].
                unfold on_tape. rewrite lset_length, Ev2. split; [auto|split; [auto|split]].
                ** rewrite S3, fset_ne by lia. auto.
                ** intros m Hm. rewrite nth_lset by auto. unfold cell_ok, elem. rewrite S1, S2, S3.
                   destruct (Nat.eqb_spec m k1) as [->|Hm1].
                   --- rewrite !fset_eq. rewrite Ep2, En2.
                       destruct (is_var (st_r st x)); split; intuition.
                   --- rewrite !fset_ne by lia. destruct (O54 m Hm) as [C1 C2].
                       unfold cell_ok, elem in C1, C2. rewrite Ep2, En2. split; [exact C1|].
                       rewrite C2. subst dd. destruct (Nat.eqb_spec (v_tid v1) tid) as [Et|Et]; [auto|].
                       rewrite nth_lset by auto. rewrite <- (Hkk Et).
                       apply Nat.eqb_neq in Hm1. now rewrite Hm1.
             ++ pose proof (i_vrel _ _ _ _ I1 j) as RJ0. cbn in RJ0. unfold fset in RJ0.
                apply Nat.eqb_neq in Hj. rewrite Hj in RJ0. apply Nat.eqb_neq in Hj.
                pose proof RJ0 as (Z1 & Z2 & _ & Z4).
                pose proof (vrel_grow0 _ _ _ _ _ _ _ _ _ _ _ _ _ _ _ G35 RJ0) as (B1 & B2 & B3 & B4).
                split; [auto|split; [auto|split; [auto|]]].
                destruct (Nat.eqb_spec (v_tid (st_v st j)) tid) as [Et|Et]; auto.
                destruct B4 as (B4 & B5 & B6 & B7 & B8). split; [auto|].
                assert (forall m, v_off (st_v st j) - 1 <= m < v_off (st_v st j) + length (sv e1 j) ->
                          m <> v_off w' + k1) as NE.
                { intros m Hm. destruct D4 as [[D4 D5]|D4].
                  - pose proof (i_disj _ _ _ _ I1 j v Hj) as DJ. cbn in DJ. rewrite fset_eq, fset_ne in DJ by auto.
                    specialize (DJ Et D4). rewrite D5. rewrite Z1, V1, <- Z2, <- V2 in DJ. lia.
                  - destruct Z4 as (_ & _ & Z4 & _). lia. }
                unfold on_tape. rewrite Ev2. split; [auto|split; [auto|split]].
                ** rewrite S3, fset_ne; auto. apply NE. lia.
                ** intros m Hm. destruct (B8 m Hm) as [C1 C2]. unfold cell_ok, elem in *.
                   rewrite S1, S2, S3, !fset_ne, Ep2, En2 by (apply NE; lia). auto.
          -- apply (vdisj_ext (fset (fset (st_v st) v v1) v w')).
             { intros j; unfold fset; now destruct (j =? v). }
             apply vdisj_set; [apply (i_disj _ _ _ _ I1)| |]; rewrite fset_eq.
             ++ now rewrite D1, lset_length, V1.
             ++ destruct D4 as [[D4 D5]|D4]; [left; split; congruence|right].
                intros j Hj Et. rewrite fset_ne in * by auto.
                pose proof (i_vrel _ _ _ _ I1 j) as RJ0. cbn in RJ0. rewrite fset_ne in RJ0 by auto.
                destruct RJ0 as (Z1 & Z2 & _ & Z4). rewrite Et, Nat.eqb_refl in Z4.
                destruct Z4 as (_ & _ & Z4 & _). rewrite Z1, <- Z2. lia.
          -- intros j Hj. rewrite Ev2 in Hj. rewrite S2, S3, !fset_ne by lia.
             apply F3. pose proof (ext_vec_len _ _ (h_ext _ _ _ _ _ _ _ _ _ _ _ G45)). lia.
        * intros Hs Hq m. cbn [st_rec]. rewrite Ep2. revert m.
          apply (h_peq _ _ _ _ _ _ _ _ _ _ _ G35); auto.
  Qed.
End Sim.
