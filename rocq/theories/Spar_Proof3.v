(** The sparsity patterns of a recorded function, at the level of the zero order sweep. *)
From Coq Require Import ZArith List Bool Arith Lia.
From Verif Require Import Base_Spec Op_Model Tape_Spec Tape_Model Tape_Proof Tape_Proof2 Tape_Proof7 Tape_Proof10
  Tape_Hist Tape_Prop Sweep_Model Sweep_Eqs Sweep_Eqs2 Sweep_Tape Sweep_Uniq Tape_Swf Tape_Vec
  Drv_Proof2 Drv_Proof3 Rev_Prim Spar_Model Spar_Proof Spar_Proof2.
Import ListNotations.

(** position (i, j) of a pattern (of its transpose) is present *)
Definition entry (transpose : bool) (pat : pattern) (i j : nat) : Prop := In (swp transpose (i, j)) (p_rc pat).

Lemma swp_swp t p : swp t (swp t p) = p.
Proof. now destruct t, p. Qed.
Lemma get_internal_spec t index nc U i j : i < length index -> j < nc ->
  entry t (get_internal t index nc U) i j <-> U (nth i index 0) j = true.
Proof.
  intros Hi Hj. unfold entry, get_internal.
  match goal with |- In _ (p_rc (if t then mkPat _ _ ?rc else _)) <-> _ => set (l := rc) end.
  assert (p_rc (if t then mkPat nc (length index) l else mkPat (length index) nc l) = l) as -> by now destruct t.
  unfold l. rewrite in_flat_map. split.
  - intros (i' & Hi' & Hx). apply in_map_iff in Hx as (j' & E & Hj'). apply (f_equal (swp t)) in E. rewrite !swp_swp in E. injection E as -> ->.
    now apply filter_In in Hj'.
  - intros H. exists i. split; [apply in_seq; lia|]. apply in_map_iff. exists j. split; auto. apply filter_In. split; auto. apply in_seq. lia.
Qed.
Lemma set_internal_spec t index pat v c :
  set_internal t index pat v c = true <-> v <> 0 /\ exists r, entry t pat r c /\ nth r index 0 = v.
Proof.
  unfold set_internal, entry.
  assert (forall l U, fold_left (fun U rc => let '(r, c) := swp t rc in
               let v := nth r index 0 in
               if v =? 0 then U else sv_union U v (Nat.eqb c)) l U v c = true <->
    U v c = true \/ (v <> 0 /\ exists r, In (swp t (r, c)) l /\ nth r index 0 = v)) as K.
  { induction l as [|rc l IH]; intros U; cbn [fold_left].
    - split; [auto|]. intros [H|(_ & r & [] & _)]; auto.
    - rewrite IH. clear IH. destruct (swp t rc) as [r' c'] eqn:E. cbv zeta.
      apply (f_equal (swp t)) in E. rewrite swp_swp in E. subst rc.
      destruct (Nat.eqb_spec (nth r' index 0) 0) as [Z|Z].
      + split; intros [H|(A & r & B & C)]; auto; right; (split; [auto|]); exists r; (split; auto).
        * now right.
        * destruct B as [B|B]; auto. apply (f_equal (swp t)) in B. rewrite !swp_swp in B. injection B as -> ->. lia.
      + unfold sv_union, fset. destruct (Nat.eqb_spec v (nth r' index 0)) as [Q|Q].
        * rewrite orb_true_iff, Nat.eqb_eq, <- Q. split.
          -- intros [[H|H]|(A & r & B & C)]; auto.
             ++ right. split; [lia|]. exists r'. split; [left; now rewrite H|auto].
             ++ right. split; [auto|]. exists r. split; [now right|auto].
          -- intros [H|(A & r & [B|B] & C)]; auto.
             ++ apply (f_equal (swp t)) in B. rewrite !swp_swp in B. injection B as -> ->. auto.
             ++ right. eauto.
        * split; intros [H|(A & r & B & C)]; auto; right; (split; [auto|]); exists r; (split; auto).
          -- now right.
          -- destruct B as [B|B]; auto. apply (f_equal (swp t)) in B. rewrite !swp_swp in B. injection B as -> ->. lia. }
  rewrite K. split; [intros [H|H]; [discriminate|auto]|auto].
Qed.

Lemma for_jac_sweep_app dep vi l l' s : for_jac_sweep dep vi (l ++ l') s = for_jac_sweep dep vi l' (for_jac_sweep dep vi l s).
Proof. apply fold_left_app. Qed.
Lemma for_jac_head dep vi n s : for_jac_sweep dep vi (head_ins n) s = s.
Proof.
  unfold for_jac_sweep, head_ins. cbn [fold_left]. destruct s as [U W]. cbn [for_jac_op].
  generalize 0. induction n as [|n IH]; intros k; cbn [seq map fold_left]; auto.
Qed.
Lemma rev_jac_sweep_app dep vi l l' s : rev_jac_sweep dep vi (l ++ l') s = rev_jac_sweep dep vi l (rev_jac_sweep dep vi l' s).
Proof. apply fold_right_app. Qed.
Lemma rev_jac_head dep vi n s : rev_jac_sweep dep vi (head_ins n) s = s.
Proof.
  unfold rev_jac_sweep, head_ins. cbn [fold_right]. destruct s as [U W].
  assert (forall k, fold_right (rev_jac_op dep vi) (U, W) (map (fun j => mkIns InvOp [] (S j)) (seq k n)) = (U, W)) as ->; auto.
  induction n as [|n IH]; intros k; cbn [seq map fold_right]; auto. now rewrite IH.
Qed.

Section Rec.
  Context {b : base} (L : base_laws b).
  Notation T := (bt b).

  (** what the sparsity calculations and the sweeps need to know about a recording *)
  Record rtape (r : rec b) (n : nat) (dep : list nat) (l : list ins) : Prop := {
    t_dec : decode (r_op r) (r_arg r) 0 = Some (head_ins n ++ l);
    t_wfl : wfl (length (r_par r)) (S n) 0 l;
    t_sok : sok (seq 1 n) 0 l;
    t_dep : Forall (fun t => In t (seenof (seq 1 n) l)) dep;
    t_vec : exists hd, blocks (r_vec r) hd /\ Forall (vec_at hd) l;
    t_all : wfl (length (r_par r)) 0 0 (head_ins n ++ l);
    t_dep0 : Forall (fun t => 0 < t < r_nvar r) dep }.

  Lemma recorded_rtape tid cmp n np e ev p V l2v (f : adfun b) : recorded tid cmp n np e ev p V l2v f ->
    rtape (g_rec f) n (g_dep f) (body n (g_rec f)) /\ g_n f = n.
  Proof.
    intros R. destruct (recorded_struct L _ _ _ _ _ _ _ _ _ _ R) as (D & S1 & S2 & S3 & WL & NV & S4 & EN).
    destruct R as (T0 & [NE NVE] & RF & _). destruct (recorded_vec _ _ _ _ _ _ _ _ _ _ NVE RF) as (hd & B1 & (l' & B2 & B3)).
    rewrite D in B2. assert (l' = head_ins n ++ body n (g_rec f)) as -> by congruence. apply Forall_app in B3 as [_ B3].
    split; auto. constructor; auto.
    - pose proof (wfl_split _ (head_ins n) (body n (g_rec f)) 0 0 WL) as Q. unfold head_ins in Q. cbn [tres nload i_op num_res is_load Nat.add] in Q.
      rewrite tres_inv, nload_inv in Q. exact Q.
    - eauto.
  Qed.

  Variables (r : rec b) (n : nat) (dep_taddr : list nat) (l : list ins).
  Hypothesis RT : rtape r n dep_taddr l.
  Variables (P : nat -> T) (cc : nat).

  Lemma rtape_agree dep (G H : nat -> Prop) (V V' : nat -> T) (lv lv' : nat -> nat) t t' : closed dep G H l ->
    sweep0 P cc (head_ins n ++ l) 0 (init0 r V lv) = Some t -> sweep0 P cc (head_ins n ++ l) 0 (init0 r V' lv') = Some t' ->
    (dep = false -> Forall (same_choice P (f_V t) (f_V t') (f_l2v t) (f_l2v t')) l) ->
    (forall j, j < n -> G (S j) -> V (S j) = V' (S j)) ->
    forall v, In v (seenof (seq 1 n) l) -> G v -> f_V t v = f_V t' v.
  Proof.
    intros CL S1 S2 SC HI. destruct RT as [D W SO DP (hd & BL & VA) _ _].
    rewrite sweep0_app, sweep0_head in S1, S2 by (intros; reflexivity).
    refine (sweep0_agree P dep G (r_vec r) hd BL (length (r_par r)) cc l (S n) 0 (seq 1 n) _ H (init0 r V lv) (init0 r V' lv') t t' W SO _ VA CL _ _ _ S1 S2 SC); auto.
    - intros v Hv. apply in_seq in Hv. lia.
    - constructor.
      + intros v Hv Gv. apply in_seq in Hv. destruct v as [|j]; [lia|]. cbn [init0 f_V]. apply HI; auto. lia.
      + auto.
      + intros h Hh Hg j Hj. cbn [init0 f_isv f_idx]. split; [discriminate|auto].
  Qed.

  (** forward: a variable whose set does not contain [c] does not depend on the independent
      variables whose sets contain [c] *)
  Lemma spar_for vi dep U0 c (V V' : nat -> T) (lv lv' : nat -> nat) t t' Uf Wf :
    for_jac_sweep dep vi (head_ins n ++ l) (U0, fun _ _ => false) = (Uf, Wf) ->
    sweep0 P cc (head_ins n ++ l) 0 (init0 r V lv) = Some t -> sweep0 P cc (head_ins n ++ l) 0 (init0 r V' lv') = Some t' ->
    (dep = false -> Forall (same_choice P (f_V t) (f_V t') (f_l2v t) (f_l2v t')) l) ->
    (forall j, j < n -> U0 (S j) c = false -> V (S j) = V' (S j)) ->
    forall i, In i dep_taddr -> Uf i c = false -> f_V t i = f_V t' i.
  Proof.
    intros FJ S1 S2 SC HI i Hi Ui. rewrite for_jac_sweep_app, for_jac_head in FJ.
    pose proof (for_jac_closed dep vi c _ l _ _ _ U0 (fun _ _ => false) (t_wfl _ _ _ _ RT) (t_sok _ _ _ _ RT)) as K.
    unfold spst, vset in *. rewrite FJ in K. destruct K as [K1 K2].
    apply (rtape_agree dep _ _ V V' lv lv' t t' K2 S1 S2 SC); auto.
    - intros j Hj Q. apply HI; auto. rewrite <- K1 by lia. auto.
    - pose proof (t_dep _ _ _ _ RT) as DP. rewrite Forall_forall in DP. now apply DP.
  Qed.
  (** reverse: a variable whose initial set contains [c] depends only on the independent
      variables whose final sets contain [c] *)
  Lemma spar_rev vi dep U0 c (V V' : nat -> T) (lv lv' : nat -> nat) t t' Uf Wf :
    rev_jac_sweep dep vi (head_ins n ++ l) (U0, fun _ _ => false) = (Uf, Wf) ->
    sweep0 P cc (head_ins n ++ l) 0 (init0 r V lv) = Some t -> sweep0 P cc (head_ins n ++ l) 0 (init0 r V' lv') = Some t' ->
    (dep = false -> Forall (same_choice P (f_V t) (f_V t') (f_l2v t) (f_l2v t')) l) ->
    (forall j, j < n -> Uf (S j) c = true -> V (S j) = V' (S j)) ->
    forall i, In i dep_taddr -> U0 i c = true -> f_V t i = f_V t' i.
  Proof.
    intros FJ S1 S2 SC HI i Hi Ui. rewrite rev_jac_sweep_app, rev_jac_head in FJ.
    assert (Forall (fun i => okop (i_op i) = true) l) as OKS.
    { assert (forall v, In v (seq 1 n) -> v < S n) as SQ by (intros v Hv; apply in_seq in Hv; lia).
      eapply Forall_impl; [|exact (sok_prim _ _ _ _ _ (t_wfl _ _ _ _ RT) (t_sok _ _ _ _ RT) SQ)]. intros ? (_ & _ & Q). exact Q. }
    pose proof (rev_jac_mono dep vi c l U0 (fun _ _ => false) OKS) as M.
    pose proof (rev_jac_closed dep vi c _ U0 (fun _ _ => false) Uf l _ _ _ (t_wfl _ _ _ _ RT) (t_sok _ _ _ _ RT)) as K.
    unfold spst, vset in *. rewrite FJ in K, M. specialize (K (fun v H => H) (fun v _ => eq_refl)).
    apply (rtape_agree dep _ _ V V' lv lv' t t' K S1 S2 SC); auto.
    pose proof (t_dep _ _ _ _ RT) as DP. rewrite Forall_forall in DP. now apply DP.
  Qed.
End Rec.
