(** C24 (in part): the value operator graph of a recorded function has the values of the function. *)
From Coq Require Import ZArith List Bool Arith Lia.
From Verif Require Import Base_Spec Op_Model Tape_Spec Tape_Model Tape_Proof Tape_Proof2 Tape_Swf Tape_Proof10 Tape_Hist Tape_Prop Abs_Proof Abs_Proof3 Abs_Prop Opt_Model Opt_Proof Opt_Proof2 Opt_Proof3 Opt_Proof4 Opt_Proof5 Opt_Proof6 Spar_Proof Tape_Codes Graph_Prop CmpIdx_Prop F2V_Model.
From Verif Require VG_Model.
Import ListNotations.

Section F2V.
  Context {b : base} (BL : base_laws b).
  Notation T := (bt b).
  Variables (isnan : T -> bool) (int : T -> nat) (hash : T -> nat) (call : nat -> nat -> nat -> list T -> list T)
    (rdep : nat -> nat -> list T -> list bool -> list bool -> list bool) (ftype : nat -> nat -> list T -> list bool -> nat -> list bool).
  Let B := val_base isnan int hash call rdep ftype.
  Section Loop.
  (** [P] the parameters when fun2val is called, [Q] and [V] those of the evaluation *)
  Variables (P Q V : nat -> T) (x : list T) (nd : nat).
  Hypothesis PQ : forall j, j = 0 \/ nd < j -> Q j = P j.
  Definition ev (s : fst2) : option (VG_Model.vst T) := VG_Model.ev_ops B (length x) (VG_Model.mkVS x [] 0 []) (f2_ops s).
  Definition Good (q : nat) (s : fst2) : Prop := exists w, ev s = Some w /\ VG_Model.s_cf w = q /\ length (VG_Model.s_val w) = f2_nv s /\ VG_Model.s_out w = [] /\
    (forall j i, f2_par s j = Some i -> nth_error (VG_Model.s_val w) i = Some (Q j)) /\
    (forall j i, f2_var s j = Some i -> nth_error (VG_Model.s_val w) i = Some (V j)) /\
    (forall j, 1 <= j <= nd -> f2_par s j <> None).
  Lemma ev_ops_app l l' : forall n w, VG_Model.ev_ops B n w (l ++ l') = match VG_Model.ev_ops B n w l with Some w' => VG_Model.ev_ops B n w' l' | None => None end.
  Proof. induction l as [|o l IH]; intros n w; cbn; auto. destruct (VG_Model.ev_op B n w o); auto. Qed.
  (** the value numbered [i] of state [s] *)
  Definition val (s : fst2) (i : nat) (v : T) : Prop := exists w, ev s = Some w /\ nth_error (VG_Model.s_val w) i = Some v.
  Definition ext (s s' : fst2) : Prop := (forall i v, val s i v -> val s' i v).
  Lemma nth_app_l {X} (l l' : list X) i v : nth_error l i = Some v -> nth_error (l ++ l') i = Some v.
  Proof. intros H. rewrite nth_error_app1; auto. apply nth_error_Some. congruence. Qed.
  Lemma nth_new {X} (l : list X) v : nth_error (l ++ [v]) (length l) = Some v.
  Proof. rewrite nth_error_app2, Nat.sub_diag by lia. reflexivity. Qed.
  (** one operator with one result *)
  Lemma rec1_ok q s (o : VG_Model.vop T) r : Good q s -> (forall w, ev s = Some w -> VG_Model.ev_op B (length x) w o = Some (VG_Model.put_val w [r])) ->
    Good q (rec1 s o) /\ ext s (rec1 s o) /\ val (rec1 s o) (f2_nv s) r.
  Proof.
    intros (w & E & CF & L & O & GP & GV & GD) H. specialize (H w E).
    assert (ev (rec1 s o) = Some (VG_Model.put_val w [r])) as E'. { unfold ev, rec1 in *. cbn [f2_ops]. rewrite ev_ops_app, E. cbn. now rewrite H. }
    split; [|split].
    - exists (VG_Model.put_val w [r]). split; auto. cbn. rewrite app_length. cbn. split; [exact CF|]. split; [lia|]. split; auto. split; [|split]; auto; intros; apply nth_app_l; auto.
    - intros i v (w' & F & N). rewrite E in F. injection F as <-. exists (VG_Model.put_val w [r]). split; auto. cbn. now apply nth_app_l.
    - exists (VG_Model.put_val w [r]). split; auto. cbn. rewrite <- L. apply nth_new.
  Qed.
  Lemma set_var_ok q s v i : Good q s -> val s i (V v) -> Good q (set_var s v i).
  Proof.
    intros (w & E & CF & L & O & GP & GV & GD) (w' & E' & N). rewrite E in E'. injection E' as <-. exists w. cbn. repeat split; auto.
    intros j k. unfold set_opt. destruct (Nat.eqb_spec j v) as [->|]; auto. now intros [= <-].
  Qed.
  Lemma var_val q s j i : Good q s -> f2_var s j = Some i -> val s i (V j).
  Proof. intros (w & E & _ & _ & _ & _ & GV & _) H. exists w. auto. Qed.
  Lemma par_val q s j i : Good q s -> f2_par s j = Some i -> val s i (Q j).
  Proof. intros (w & E & _ & _ & _ & GP & _) H. exists w. auto. Qed.
  Lemma opd_ok q isv j s s' i : Good q s -> f2_opd P isv j s = Some (s', i) -> Good q s' /\ ext s s' /\ val s' i (if isv then V j else Q j).
  Proof.
    intros G H. unfold f2_opd in H. destruct isv.
    - destruct (f2_var s j) eqn:E; [|discriminate]. injection H as <- <-. split; auto. split; [intros ? ?; auto|]. now apply (var_val q).
    - destruct (f2_par s j) eqn:E; injection H as <- <-.
      + split; auto. split; [intros ? ?; auto|]. now apply (par_val q).
      + assert (Q j = P j) as QP.
        { apply PQ. destruct (Nat.eq_dec j 0); auto. destruct (Nat.le_gt_cases j nd); auto. destruct G as (_ & _ & _ & _ & _ & _ & _ & GD). now destruct (GD j ltac:(lia)). }
        destruct (rec1_ok q s (VG_Model.VCon (P j)) (P j) G) as (G1 & X1 & V1); [intros; reflexivity|].
        destruct G1 as (w & E1 & CF & L & O & GP & GV & GD). assert (forall w', ev (mkF2 (f2_ops s ++ [VG_Model.VCon (P j)]) (S (f2_nv s)) (set_opt (f2_par s) j (f2_nv s)) (f2_var s)) = Some w' <-> ev (rec1 s (VG_Model.VCon (P j))) = Some w') as EE by reflexivity.
        split; [|split].
        * exists w. split; auto. split; auto. split; auto. split; auto. split; [|split]; auto.
          -- intros k m. cbn. unfold set_opt. destruct (Nat.eqb_spec k j) as [->|]; [|apply GP]. intros [= <-]. destruct V1 as (w' & F & N). rewrite E1 in F. injection F as <-. now rewrite QP.
          -- intros k Hk. cbn. unfold set_opt. destruct (k =? j); [discriminate|]. now apply GD.
        * exact X1.
        * rewrite QP. exact V1.
  Qed.
  Lemma get1 s (o : VG_Model.vop T) i v : VG_Model.op_vals o = [i] -> val s i v -> forall w, ev s = Some w -> VG_Model.rds (VG_Model.op_vals o) (VG_Model.s_val w) = Some [v].
  Proof. intros E (w & F & N) w' F'. rewrite F in F'. injection F' as <-. rewrite E. cbn. now rewrite N. Qed.
  Lemma rds_ok s l : forall vs, Forall2 (val s) l vs -> forall w, ev s = Some w -> VG_Model.rds l (VG_Model.s_val w) = Some vs.
  Proof.
    induction l as [|i l IH]; intros vs F w E; inversion F as [|? v ? vs' H F']; subst; cbn; auto. destruct H as (w' & E' & N). rewrite E in E'. injection E' as <-. rewrite N.
    now rewrite (IH _ F' w E).
  Qed.
  Lemma simple_ok q s (o : VG_Model.vop T) vs r : Good q s -> match o with VG_Model.VUn _ _ | VG_Model.VBin _ _ _ | VG_Model.VDis _ _ | VG_Model.VCexp _ _ _ _ _ => True | _ => False end ->
    Forall2 (val s) (VG_Model.op_vals o) vs -> VG_Model.sem B o vs = Some [r] -> Good q (rec1 s o) /\ ext s (rec1 s o) /\ val (rec1 s o) (f2_nv s) r.
  Proof.
    intros G K F S. apply rec1_ok; auto. intros w E. pose proof (rds_ok _ _ _ F w E) as R. destruct o; try easy; cbn [VG_Model.ev_op VG_Model.op_vals] in *; rewrite R, S; reflexivity.
  Qed.
  Lemma un_sem o u a : un_code o = Some u -> semv o a Q V = VG_Model.v_un B u (V (nth 0 a 0)).
  Proof. destruct o; try discriminate; intros [= <-]; reflexivity. Qed.
  Definition fals (i : ins) : nat := match relation Q V i with Some false => 1 | _ => 0 end.
  Lemma f2v_ins_ok q s s' i : Good q s -> supp (i_op i) = true -> (0 < num_res (i_op i) -> ishead (i_op i) = false -> V (i_var i) = semv (i_op i) (i_arg i) Q V) ->
    (i_op i = CExpOp -> nth 0 (i_arg i) 0 < 5) -> f2v_ins P s i = Some s' -> Good (q + fals i) s'.
  Proof.
    intros G SU EQ C5 H. unfold f2v_ins in H. destruct i as [o a iv]. cbn [i_op i_arg i_var] in *. cbv zeta in H.
    assert (cmp_code o = None -> q + fals (mkIns o a iv) = q) as F0 by (intros CN; unfold fals, relation; cbn [i_op i_arg]; destruct o; try discriminate CN; apply Nat.add_0_r).
    destruct (un_code o) as [u|] eqn:UC.
    { destruct (f2_var s (nth 0 a 0)) as [y|] eqn:Y; [|discriminate]. injection H as <-.
      assert (V iv = VG_Model.v_un B u (V (nth 0 a 0))) as E.
      { rewrite EQ by (destruct o; try discriminate; cbn; auto; lia). now apply un_sem. }
      destruct (simple_ok q s (VG_Model.VUn u y) [V (nth 0 a 0)] (V iv) G I) as (A1 & _ & A3); [repeat constructor; now apply (var_val q)|cbn [VG_Model.sem]; now rewrite E|].
      rewrite F0 by (destruct o; try discriminate; reflexivity). now apply set_var_ok. }
    destruct (bin_code o) as [[[c lv] rv]|] eqn:BC.
    { destruct (f2_opd P lv (nth 0 a 0) s) as [[s1 y]|] eqn:O1; [|discriminate]. destruct (f2_opd P rv (nth 1 a 0) s1) as [[s2 z]|] eqn:O2; [|discriminate]. injection H as <-.
      destruct (opd_ok _ _ _ _ _ _ G O1) as (G1 & X1 & V1). destruct (opd_ok _ _ _ _ _ _ G1 O2) as (G2 & X2 & V2). apply X2 in V1.
      assert (V iv = VG_Model.v_bin B c (if lv then V (nth 0 a 0) else Q (nth 0 a 0)) (if rv then V (nth 1 a 0) else Q (nth 1 a 0))) as E.
      { rewrite EQ by (destruct o; try discriminate; cbn; auto; lia). destruct o; try discriminate; injection BC as <- <- <-; reflexivity. }
      destruct (simple_ok q s2 (VG_Model.VBin c y z) [if lv then V (nth 0 a 0) else Q (nth 0 a 0); if rv then V (nth 1 a 0) else Q (nth 1 a 0)] (V iv) G2 I) as (A1 & _ & A3);
        [repeat constructor; auto|cbn [VG_Model.sem]; now rewrite E|].
      rewrite F0 by (destruct o; try discriminate; reflexivity). now apply set_var_ok. }
    destruct (cmp_code o) as [[[c lv] rv]|] eqn:CC.
    { destruct (if lv then f2_var s (nth 0 a 0) else f2_par s (nth 0 a 0)) as [y|] eqn:Y; [|discriminate]. destruct (if rv then f2_var s (nth 1 a 0) else f2_par s (nth 1 a 0)) as [z|] eqn:Z; [|discriminate]. injection H as <-.
      set (v1 := if lv then V (nth 0 a 0) else Q (nth 0 a 0)). set (v2 := if rv then V (nth 1 a 0) else Q (nth 1 a 0)).
      assert (val s y v1 /\ val s z v2) as [W1 W2] by (unfold v1, v2; split; [destruct lv|destruct rv]; eauto using var_val, par_val).
      assert (c <> VG_Model.CNo /\ relation Q V (mkIns o a iv) = Some (VG_Model.v_cmp B c v1 v2)) as [CN RE].
      { unfold relation. cbn [i_op i_arg]. destruct o; try discriminate; injection CC as <- <- <-; split; try discriminate; reflexivity. }
      destruct G as (w & E & CF & L & O & GP & GV & GD). pose proof (rds_ok s [y; z] [v1; v2] ltac:(repeat constructor; auto) w E) as R.
      unfold fals. rewrite RE.
      assert (ev (mkF2 (f2_ops s ++ [VG_Model.VComp c y z]) (f2_nv s) (f2_par s) (f2_var s)) = Some (if VG_Model.v_cmp B c v1 v2 then w else VG_Model.mkVS (VG_Model.s_val w) (VG_Model.s_vec w) (S (VG_Model.s_cf w)) (VG_Model.s_out w))) as E'.
      { unfold ev in *; cbn [f2_ops]; rewrite ev_ops_app, E; cbn [VG_Model.ev_ops VG_Model.ev_op VG_Model.op_vals]; rewrite R. destruct c; reflexivity. }
      eexists. split; [exact E'|]. destruct (VG_Model.v_cmp B c v1 v2); cbn; (split; [lia|]); auto 10. }
    rewrite (F0 eq_refl). clear F0.
    destruct o; try discriminate; try (injection H as <-; exact G).
    - (* CExp *)
      destruct (f2_opd P _ (nth 2 a 0) s) as [[s1 l]|] eqn:O1; [|discriminate]. destruct (f2_opd P _ (nth 3 a 0) s1) as [[s2 r]|] eqn:O2; [|discriminate].
      destruct (f2_opd P _ (nth 4 a 0) s2) as [[s3 t]|] eqn:O3; [|discriminate]. destruct (f2_opd P _ (nth 5 a 0) s3) as [[s4 f]|] eqn:O4; [|discriminate].
      destruct (cexp_cmp (nth 0 a 0)) as [[c sw]|] eqn:CP; [|discriminate]. injection H as <-.
      destruct (opd_ok _ _ _ _ _ _ G O1) as (G1 & X1 & V1). destruct (opd_ok _ _ _ _ _ _ G1 O2) as (G2 & X2 & V2). destruct (opd_ok _ _ _ _ _ _ G2 O3) as (G3 & X3 & V3). destruct (opd_ok _ _ _ _ _ _ G3 O4) as (G4 & X4 & V4).
      apply X2, X3, X4 in V1. apply X3, X4 in V2. apply X4 in V3.
      specialize (EQ ltac:(cbn; lia) eq_refl). cbn [semv sem0 last] in EQ. unfold semv in EQ. cbn [sem0 last] in EQ. unfold vp in EQ.
      set (vl := if Nat.testbit (nth 1 a 0) 0 then V (nth 2 a 0) else Q (nth 2 a 0)) in *. set (vr := if Nat.testbit (nth 1 a 0) 1 then V (nth 3 a 0) else Q (nth 3 a 0)) in *.
      set (vt := if Nat.testbit (nth 1 a 0) 2 then V (nth 4 a 0) else Q (nth 4 a 0)) in *. set (vf := if Nat.testbit (nth 1 a 0) 3 then V (nth 5 a 0) else Q (nth 5 a 0)) in *.
      specialize (C5 eq_refl).
      assert (VG_Model.v_cmp B c vl vr = (if sw then negb (cexp_sel (nth 0 a 0) vl vr) else cexp_sel (nth 0 a 0) vl vr)) as E.
      { clear -CP C5 BL. destruct (nth 0 a 0) as [|[|[|[|[|k]]]]]; try lia; injection CP as <- <-; cbn; auto; rewrite ?(l_ge b BL), ?(l_gt b BL), (l_total b BL), ?negb_involutive; reflexivity. }
      rewrite cexp_sel_code in EQ.
      destruct (simple_ok q s4 (if sw then VG_Model.VCexp c l r f t else VG_Model.VCexp c l r t f) (if sw then [vl; vr; vf; vt] else [vl; vr; vt; vf]) (V iv) G4) as (A1 & _ & A3).
      { destruct sw; exact I. } { destruct sw; repeat constructor; auto. }
      { destruct sw; cbn [VG_Model.sem]; rewrite E, EQ; destruct (cexp_sel (nth 0 a 0) vl vr); reflexivity. }
      now apply set_var_ok.
    - (* Dis *)
      destruct (f2_var s (nth 1 a 0)) as [y|] eqn:Y; [|discriminate]. injection H as <-. specialize (EQ ltac:(cbn; lia) eq_refl).
      destruct (simple_ok q s (VG_Model.VDis (nth 0 a 0) y) [V (nth 1 a 0)] (V iv) G I) as (A1 & _ & A3); [repeat constructor; now apply (var_val q)|cbn [VG_Model.sem]; now rewrite EQ|].
      now apply set_var_ok.
    - (* Par *)
      destruct (f2_opd P false (nth 0 a 0) s) as [[s1 y]|] eqn:O1; [|discriminate]. injection H as <-. destruct (opd_ok _ _ _ _ _ _ G O1) as (G1 & _ & V1). specialize (EQ ltac:(cbn; lia) eq_refl).
      apply set_var_ok; auto. rewrite EQ. exact V1.
  Qed.
  Lemma f2v_loop_ok l : forall q m s s', Good q s -> (forall i, In i l -> supp (i_op i) = true /\ (0 < num_res (i_op i) -> ishead (i_op i) = false -> V (i_var i) = semv (i_op i) (i_arg i) Q V) /\ (i_op i = CExpOp -> nth 0 (i_arg i) 0 < 5)) ->
    f2v_loop P s l = Some s' -> Good (q + length (changed Q V m l)) s'.
  Proof.
    induction l as [|i l IH]; intros q m s s' G A H; cbn [f2v_loop] in H; [injection H as <-; cbn; now rewrite Nat.add_0_r|].
    destruct (f2v_ins P s i) as [s1|] eqn:E; [|discriminate]. destruct (A i (or_introl eq_refl)) as (A1 & A2 & A3).
    assert (q + length (changed Q V m (i :: l)) = q + fals i + length (changed Q V (S m) l)) as ->.
    { cbn [changed]. rewrite app_length. unfold fals. destruct (relation Q V i) as [[|]|]; cbn; lia. }
    apply (IH _ _ s1); auto; [|intros j Hj; apply A; now right]. eapply f2v_ins_ok; eauto.
  Qed.
  End Loop.

  Lemma last_cons {X} (l : list X) : forall d a, last (d :: l) a = last l d.
  Proof. induction l as [|d' l IH]; intros d a; auto. change (last (d' :: l) a = last (d' :: l) d). now rewrite !IH. Qed.
  Lemma some_inj {X} (x y : X) : Some x = Some y -> x = y.
  Proof. congruence. Qed.
  Lemma opts_ok {X Y} (g : X -> option Y) l : forall ys, opts (map g l) = Some ys -> Forall2 (fun a y => g a = Some y) l ys.
  Proof.
    induction l as [|a l IH]; intros ys H; cbn in H; [injection H as <-; constructor|]. destruct (g a) as [y|] eqn:E; [|discriminate]. destruct (opts (map g l)) as [r|]; [|discriminate]. injection H as <-. constructor; auto.
  Qed.
  Theorem fun2val_ok (f : adfun b) n nd ind rest t : opt_ok f n nd [] ind rest -> g_n f = n -> 0 < length (r_par (g_rec f)) ->
    (forall i, In i rest -> i_op i = CExpOp -> nth 0 (i_arg i) 0 < 5) -> fun2val nd f = Some t ->
    forall Q ind' (x : list T) W, parok (g_rec f) Q -> Pok ind' Q (g_rec f) -> length ind' = nd -> length x = n ->
      let V := vsweep Q (head_ins n ++ rest) (set_ind W 0 x) in VG_Model.result B t (ind' ++ x) = Some (map V (g_dep f), length (changed Q V 0 (head_ins n ++ rest)), []).
  Proof.
    intros [AD AA AS AE AW WF IFM AP APk AN] Gn P0 CX H Q ind' x W PQ PK Li Lx. cbv zeta. set (L := head_ins n ++ rest) in *. unfold fun2val in H. rewrite AD, Gn in H. set (r := g_rec f) in *.
    destruct IFM as [I1 I2 I3]. rewrite app_nil_r in I1. destruct (skipn nd (dentries r)); [|discriminate]. unfold L, head_ins in H. cbn [app] in H.
    set (V := vsweep Q L (set_ind W 0 x)).
    destruct (f2v_loop _ _ _) as [s|] eqn:E; [|discriminate]. destruct (opts _) as [dep|] eqn:D; [|discriminate]. injection H as <-.
    assert (forall i, In i L -> supp (i_op i) = true) as HO.
    { intros i Hi. apply in_app_or in Hi as [Hi|Hi]; [|now apply AS]. unfold head_ins in Hi. destruct Hi as [<-|Hi]; auto. apply in_map_iff in Hi as (j & <- & _). reflexivity. }
    pose proof (decode_numd _ _ _ _ AD) as HN.
    assert (forall j, nth j (r_isdyn r) false = true -> 1 <= j <= nd) as DY.
    { intros j Hj. destruct (dent_of _ _ WF Hj) as (m & o' & a' & Hm). apply nth_error_In in Hm. fold r in Hm. rewrite I1 in Hm. apply in_map_iff in Hm as (m' & E' & Hm). injection E' as -> _ _. apply in_seq in Hm. lia. }
    assert (forall j, j = 0 \/ nd < j -> Q j = g_par f j) as QP.
    { intros j Hj. destruct AP as [AP1 AP2], PQ as [PQ1 PQ2]. destruct (Nat.lt_ge_cases j (length (r_par r))) as [LT|GE]; [|now rewrite PQ2, AP2].
      assert (nth j (r_isdyn r) false = false) as F. { destruct (nth j (r_isdyn r) false) eqn:F; auto. apply DY in F. lia. } now rewrite PQ1, AP1. }
    assert (forall k, k < n -> V (S k) = nth k x b0) as VH.
    { intros k Hk. unfold V, L. rewrite vsweep_app', vsweep_head. unfold L in HN. apply numd_app in HN as [_ HN]. rewrite tres_head in HN. cbn [Nat.add] in HN.
      rewrite (vsweep_lt Q rest (S n)) by (auto; lia). change (S k) with (S (0 + k)). apply (set_ind_nth x W 0 k). lia. }
    assert (forall k, k < nd -> Q (S k) = nth k ind' b0) as QH.
    { intros k Hk. destruct PK as [_ K2]. rewrite (K2 k (S k) ind_dyn []); [reflexivity|]. fold r. rewrite I1, nth_error_map.
      rewrite (nth_error_nth' _ 0) by (rewrite seq_length; lia). rewrite seq_nth by lia. reflexivity. }
    assert (Good Q V (ind' ++ x) nd (0 + length (changed Q V 1 (map (fun j => mkIns InvOp [] (S j)) (seq 0 n) ++ rest))) s) as G.
    { refine (f2v_loop_ok (g_par f) Q V (ind' ++ x) nd QP _ 0 1 _ s _ _ E).
      - eexists. split; [reflexivity|]. cbn [VG_Model.put_val VG_Model.s_val VG_Model.s_out VG_Model.s_cf f2_nv f2_par f2_var]. split; [reflexivity|]. split; [rewrite !app_length; cbn; lia|]. split; auto. split; [|split].
        + intros j i Hi. destruct j as [|k]; [discriminate|]. change (0 <? S k) with true in Hi. cbn [andb] in Hi. destruct (Nat.leb_spec (S k) nd); [|discriminate]. apply some_inj in Hi. subst i. replace (S k - 1) with k by lia.
          rewrite QH by lia. apply nth_app_l, nth_app_l. apply nth_error_nth'. lia.
        + intros j i Hi. destruct j as [|k]; [discriminate|]. change (0 <? S k) with true in Hi. cbn [andb] in Hi. destruct (Nat.leb_spec (S k) n); [|discriminate]. apply some_inj in Hi. subst i. replace (S k - 1) with k by lia.
          rewrite VH by lia. apply nth_app_l. rewrite nth_error_app2 by lia. replace (nd + k - length ind') with k by lia. apply nth_error_nth'. lia.
        + intros j Hj. destruct (Nat.ltb_spec 0 j); [|lia]. destruct (Nat.leb_spec j nd); [|lia]. discriminate.
      - assert (forall i, In i (map (fun j => mkIns InvOp [] (S j)) (seq 0 n) ++ rest) -> In i L) as IL by (intros i Hi; unfold L, head_ins; now right).
        intros i Hi. split; [now apply HO, IL|]. split.
        + intros R NH. apply IL, In_nth_error in Hi as (k & Hk). now apply (sweep_eq L HN AA HO Q _ k).
        + intros EC. apply in_app_or in Hi as [Hi|Hi]; [apply in_map_iff in Hi as (j & <- & _); discriminate|]. now apply CX. }
    destruct G as (w & Ew & CF & Lw & Ow & _ & GV & _). fold V. unfold ev in Ew. unfold VG_Model.result, VG_Model.eval. cbn [VG_Model.t_nind VG_Model.t_ops VG_Model.t_dep].
    replace (nd + n) with (length (ind' ++ x)) by (rewrite app_length; lia). fold B. rewrite Ew.
    assert (VG_Model.rds dep (VG_Model.s_val w) = Some (map V (g_dep f))) as ->; [|rewrite Ow, CF; reflexivity].
    apply opts_ok in D. clear -D GV. induction D as [|v i l d H D IH]; cbn; auto. now rewrite (GV _ _ H), IH.
  Qed.

  Variables (tid : nat) (cmp : bool) (n np : nat) (e : nat -> AD b) (ev0 : nat -> VecAD b) (p : prog T) (V : nat -> T) (l2v : nat -> nat) (f0 f : adfun b) (h : list (Tape_Hist.call b)).
  (** The graph that fun2val returns has the zero order values of the function, for every argument and after every later sequence of new_dynamic calls.
      Missing: operators of dynamic parameters, VecAD, print, cumulative sums, atomic functions (fun2val of the model returns None for these), val2fun, that fun2val succeeds. *)
  Theorem fun2val_values_partial t : recorded tid cmp n np e ev0 p V l2v f0 -> Forall (sized n np) h -> run f0 h = Some f -> forallb no_vecad (r_op (g_rec f0)) = true ->
    fun2val np f = Some t ->
    forall ds x, Forall (fun d => length d = np) ds -> length x = n ->
      exists y f' c, forward0 (dyns ds f) x = Some (y, f') /\ VG_Model.result B t (last ds (cur_dyn (dyn_values n np e) h) ++ x) = Some (y, c, []) /\
        (cur_cc 1 h <> 0 -> c = g_num f').
  Proof.
    intros R SZ RH NV H ds x LD Lx. destruct (rec_graph_ok BL tid cmp n np e ev0 p V l2v f0 f h R SZ RH NV) as (D2 & rest & l0 & z & O & Gn & ER & EN & P0 & PN).
    assert (D2 = []) as ->.
    { destruct (oo_ind _ _ _ _ _ _ O) as [I1 _ _]. unfold fun2val in H. rewrite I1, skipn_app, map_length, seq_length, Nat.sub_diag, skipn_all2 in H by (rewrite map_length, seq_length; lia). cbn [app skipn] in H. destruct D2; [reflexivity|discriminate]. }
    assert (g_rec f = g_rec f0) as GR.
    { destruct R as (T0 & NT & RF & HF). destruct (rec_exec tid cmp n np e ev0 p V l2v f0 RF) as (EX & _ & HP & _). assert (dwf (g_rec f0)) as WF by (eapply (dwf_rec tid T0); eauto; apply NT).
      destruct (run_inv h f0 f RH) as (G1 & _); [now apply w_isd|rewrite HP; apply parok0|]. exact G1. }
    assert (forall i, In i rest -> i_op i = CExpOp -> nth 0 (i_arg i) 0 < 5) as CX.
    { intros i Hi E. pose proof (oo_dec _ _ _ _ _ _ O) as D. rewrite GR in D. destruct R as (_ & _ & RF & _).
      apply (proj1 (recorded_codes tid (fun _ => True) cmp n np e ev0 p V l2v f0 (dis_any p) RF) _ i D); auto. apply in_or_app. auto. }
    destruct (dyns_inv ds f) as (F1 & F2 & F3).
    assert (parok (g_rec f) (g_par (dyns ds f)) /\ Pok (last ds (cur_dyn (dyn_values n np e) h)) (g_par (dyns ds f)) (g_rec f)) as [PA PK].
    { split.
      - clear -O. assert (forall g : adfun b, dwf (g_rec g) -> parok (g_rec g) (g_par g) -> parok (g_rec g) (g_par (dyns ds g))) as K; [|apply K; apply O].
        induction ds as [|d ds IH]; intros g D A; auto. change (dyns (d :: ds) g) with (dyns ds (new_dynamic g d)). apply (IH (new_dynamic g d)); auto. cbn [new_dynamic g_rec g_par]. apply parok_dyn; auto. now apply w_isd.
      - destruct ds as [|d ds]; [apply O|]. assert (last (d :: ds) (cur_dyn (dyn_values n np e) h) = last ds d) as ->; [|apply dyns_pok; apply O].
apply last_cons. }
    assert (length (last ds (cur_dyn (dyn_values n np e) h)) = np) as LL.
    { assert (forall hs d0, Forall (sized n np) hs -> length d0 = np -> length (@cur_dyn b d0 hs) = np) as K.
      { clear. induction hs as [|c hs IH]; intros d0 F L; cbn; auto. inversion F as [|? ? F1 F2]; subst. destruct c; apply IH; auto. }
      assert (length (cur_dyn (dyn_values n np e) h) = np) as K0 by (apply K; auto; unfold dyn_values; now rewrite map_length, seq_length).
      clear -LD K0. induction LD as [|d ds H _ IH]; auto. destruct ds; auto. }
    destruct (forward0_sv (dyns ds f) (head_ins n ++ rest) x) as (f' & Hf).
    { rewrite F1. apply O. }
    { intros i Hi. apply in_app_or in Hi as [Hi|Hi]; [|now apply (oo_sup _ _ _ _ _ _ O)]. unfold head_ins in Hi. destruct Hi as [<-|Hi]; auto. apply in_map_iff in Hi as (j & <- & _). reflexivity. }
    pose proof (fun2val_ok f n np _ rest t O Gn P0 CX H _ _ x (fun i => if i <? r_nvar (g_rec (dyns ds f)) then bnan else g_V (dyns ds f) i) PA PK LL Lx) as Hc. cbv zeta in Hc.
    rewrite Hc, Hf, F3. do 3 eexists. split; [reflexivity|]. split; [reflexivity|]. intros C.
    assert (run f0 (h ++ map NewDynamic ds) = Some (dyns ds f)) as RD.
    { clear -RH. revert f0 RH. induction h as [|c h' IH]; intros f0 H; cbn [run app] in *.
      - injection H as ->. revert f. induction ds as [|d ds IH]; intros f; cbn; auto. apply IH.
      - destruct c as [d|x0|c0]; auto. destruct (forward0 f0 x0) as [[y g]|]; [auto|discriminate]. }
    assert (forall k, cur_cc k (h ++ map NewDynamic ds) = cur_cc k h) as CE.
    { clear. induction h as [|c h' IH]; intros k; cbn; [|destruct c; auto]. induction ds; cbn; auto. }
    destruct (compare_change_op_index_is BL _ _ _ _ _ _ _ _ _ _ _ _ x _ f' R RD ltac:(now rewrite CE) Hf) as (l & D & _ & N & _).
    rewrite N. rewrite <- GR, (oo_dec _ _ _ _ _ _ O) in D. apply some_inj in D. subst l.
    set (L := head_ins n ++ rest) in *. pose proof Hf as Hg. unfold forward0 in Hg. rewrite F1, (oo_dec _ _ _ _ _ _ O) in Hg. fold L in Hg. cbv zeta in Hg.
    destruct (sweep_sv (g_par (dyns ds f)) (g_cc (dyns ds f)) L 0 (init0 (g_rec f) (set_ind (fun i => if i <? r_nvar (g_rec f) then bnan else g_V (dyns ds f) i) 0 x) (g_l2v (dyns ds f)))) as (s' & E1 & E2); auto.
    { intros i Hi. apply in_app_or in Hi as [Hi|Hi]; [|now apply (oo_sup _ _ _ _ _ _ O)]. unfold head_ins in Hi. destruct Hi as [<-|Hi]; auto. apply in_map_iff in Hi as (j & <- & _). reflexivity. }
    rewrite E1 in Hg. injection Hg as _ <-. cbn [g_par g_V]. rewrite E2, F1. reflexivity.
  Qed.
End F2V.

(** *** A concrete case: a dynamic parameter, a constant, a conditional expression, a comparison of two variables *)
Definition fv_p : prog Z :=
  Pstep (Ibin Bmul 3 0 2) (                 (* r3 = x0 * dyn           *)
  Pstep (Icond XGe 4 0 1 3 1) (             (* r4 = x0 >= x1 ? r3 : x1 *)
  Pstep (Iun Ufabs 5 4) (                   (* r5 = |r4|               *)
  Pstep (Ibin Bsub 6 5 7) (                 (* r6 = r5 - 9             *)
  Pif Clt 0 1 (Pret [6; 2; 1]) (Pret [6]))))).
Definition fv_e (i : nat) : AD Zbase := @mkAD Zbase (match i with 0 => 2%Z | 1 => 3%Z | 2 => 4%Z | 7 => 9%Z | _ => 0%Z end) 0 0 T_con.
Definition fv_v : nat -> VecAD Zbase := fun _ => @mkVec Zbase [] 0 0 T_con.
Definition fv_rec (p : prog Z) := @record_fun Zbase 7 true 2 1 fv_e fv_v p (fun _ => (-5)%Z) (fun _ => 0).
Definition fv_base : VG_Model.vbase Z := @val_base Zbase (fun _ => false) Z.to_nat (fun _ => 0) (fun _ _ _ _ => []) (fun _ _ _ _ _ => []) (fun _ _ _ _ _ => []).
Definition fv_run (h : list (call Zbase)) (a : list Z) : option (list Z * nat * list (nat * nat * Z)) :=
  match fv_rec fv_p with
  | Some f0 => match run f0 h with
               | Some f => match fun2val (b := Zbase) 1 f with Some t => VG_Model.result fv_base t a | None => None end
               | None => None end
  | None => None end.
Lemma fv_recorded : exists f, recorded 7 true 2 1 fv_e fv_v fv_p (fun _ => (-5)%Z) (fun _ => 0) f /\ forallb no_vecad (r_op (g_rec f)) = true.
Proof.
  eexists. split; [|shelve]. split; [discriminate|]. split; [split; intros i; cbn; discriminate|]. split; [vm_compute; reflexivity|].
  vm_compute. repeat split; auto; try discriminate; try (intros; discriminate).
  Unshelve. vm_compute. reflexivity.
Qed.
Lemma fv_values : fv_run [] [4; 2; 3]%Z = Some ([-6; 4; 3]%Z, 0, []) /\ fv_run [@NewDynamic Zbase [7]%Z] [4; 5; 3]%Z = Some ([11; 4; 3]%Z, 1, []).
Proof. split; vm_compute; reflexivity. Qed.
(** A comparison with a constant that no earlier operator uses: fun2val reads par2val_index of the constant, which is not set (fun2val.hpp:555). *)
Lemma fun2val_compare_refuted :
  match fv_rec (Pif Clt 0 7 (Pret [0; 1]) (Pret [1])) with Some f => r_op (g_rec f) = [BeginOp; InvOp; InvOp; LtvpOp; EndOp] /\ fun2val (b := Zbase) 1 f = None | None => False end.
Proof. vm_compute. auto. Qed.
(** the same comparison after the constant is used: no failure *)
Lemma fun2val_compare_used :
  match fv_rec (Pstep (Ibin Badd 3 0 7) (Pif Clt 0 7 (Pret [3; 1]) (Pret [1]))) with Some f => fun2val (b := Zbase) 1 f <> None | None => False end.
Proof. vm_compute. discriminate. Qed.
Print Assumptions fun2val_values_partial.
