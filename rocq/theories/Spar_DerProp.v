(** C13, C14: the derivative form of the sparsity results, over the real numbers.

    Reading guide.  [recorded ... f]: f is the object produced by a recording (Tape_Prop);
    [with_dynamics f0 ds]: the object after the new_dynamic calls ds; [X] is a curve of
    argument vectors, [F t] what Forward(0, X(t)) returns; [entry transpose pat i j]: the
    pair (i, j), or (j, i) when transpose, is in the pattern. *)
From Coq Require Import Reals ZArith Lra Lia List Bool Arith.
From Coquelicot Require Import Coquelicot.
From Verif Require Import Base_Spec Op_Model Tape_Spec Tape_Model Tape_Proof Tape_Proof2 Tape_Proof10 Tape_Hist Tape_Prop
  Sweep_Model Sweep_Eqs Sweep_Eqs2 Sweep_Tape Sweep_Uniq Sweep_Val0 Tape_Swf Tape_Vec Rev_Prim
  Drv_Spec Drv_Model Drv_Proof Drv_Proof2 Drv_Proof3 Drv_Proof4 Drv_Prop Drv_Link Real_Base Tay_Calc Tay_Sub Tay_Tape Tay_Prop
  Rev_Spec Rev_Prop Spar_Model Spar_Proof Spar_Proof2 Spar_Proof3 Spar_Prop.
Import ListNotations.
Open Scope nat_scope.

Section Der.
  Variable dis : nat -> R -> R.
  Variable nan : R.
  Notation b := (Rbase dis nan).
  Variable junk : nat -> R.
  Context (tid : nat) (cmp : bool) (n np : nat) (e : nat -> AD b) (ev : nat -> VecAD b) (p : prog R)
    (V0 : nat -> R) (l0 : nat -> nat) (f : adfun b).
  Hypothesis REC : recorded tid cmp n np e ev p V0 l0 f.
  Hypothesis POS : 0 < n.
  Let f0 : adq b := drv_of (b:=b) junk f.

  (** None of the choices made by the evaluation (value of sign and of discrete functions,
      branch of conditional expressions, element read from a VecAD) changes near t = 0.
      Differentiability of the other operators is not required. *)
  Definition steady (P : nat -> R) (Y : nat -> R -> R) (L : R -> nat -> nat) (i : ins) : Prop :=
    let a := i_arg i in
    let a0 := nth 0 a 0%nat in
    let a1 := nth 1 a 0%nat in
    match i_op i with
    | SignOp => frozen (fun t => Rsgn (Y a0 t))
    | DisOp => frozen (fun t => dis a0 (Y a1 t))
    | CExpOp => frozen (cexp_choice dis nan P a Y)
    | LdpOp | LdvOp => let m := nth 2 a 0%nat in
        frozen (fun t => L t m) /\ (L 0%R m = 0 -> frozen (Y (i_var i)))
    | _ => True
    end.
  Definition steady_at (a : adq b) (X : R -> list R) : Prop :=
    List.Forall (steady (d_par a) (value_at dis nan junk a X) (load_at dis nan junk a X)) (tape dis nan f).
  Lemma smooth_steady a X : smooth_at dis nan junk f a X -> steady_at a X.
  Proof.
    unfold smooth_at, steady_at. apply Forall_impl. intros i H. unfold ins_reg in H. unfold steady. destruct (i_op i); auto.
  Qed.

  (** the zero order sweep of Forward(0, x) *)
  Lemma zero_sweep ds x ys z : length x = n -> forward (b:=b) INR junk (with_dynamics f0 ds) 0 x = Some (ys, z) ->
    let a := with_dynamics f0 ds in let l := head_ins n ++ body n (g_rec f) in
    exists V l1 s, sweep0 (b:=b) (d_par a) (d_cc a) l 0 (init0 (b:=b) (g_rec f) V l1) = Some s /\
      (forall j, j < n -> V (S j) = nth j x 0%R) /\ ys = map (f_V s) (g_dep f) /\
      (forall v, 0 < v < r_nvar (g_rec f) -> view1 z v 0 = f_V s v) /\
      (forall m, m < nload l -> d_l2v z m = f_l2v s m) /\
      List.Forall (val_ins (b:=b) INR (d_par a) (f_V s) (f_l2v s)) l.
  Proof.
    intros Hx Fz a l. pose proof (Rtaylor_laws dis nan) as TL. pose proof (Rbase_laws dis nan) as BL.
    destruct (recorded_struct BL _ _ _ _ _ _ _ _ _ _ REC) as (DE & _ & _ & _ & _ & _ & _ & EN).
    destruct (recorded_rtape BL _ _ _ _ _ _ _ _ _ _ REC) as [RT _].
    pose proof (recorded_twf BL _ _ _ _ _ _ _ _ _ _ REC POS) as W. rewrite EN in W.
    destruct (dyn_fields (b:=b) ds f0) as (N1 & N2 & N3 & N4). fold a in N1, N2, N3, N4. cbn in N1, N2, N3, N4.
    destruct (good_history BL TL INR junk _ _ _ _ _ _ _ _ _ _ REC POS (map CDyn ds) a) as (G1 & G2 & G3 & G4 & G5 & G6 & G7 & G8 & G9).
    { unfold one_direction. apply Forall_forall. intros c Hc. apply in_map_iff in Hc as (d & <- & _). exact I. }
    { unfold a, with_dynamics. fold f0. generalize f0. clear. induction ds as [|d ds IH]; intros g; cbn [map drun dstep fold_left]; [reflexivity|apply IH]. }
    assert (dynamics (map CDyn ds) = ds) as ED.
    { clear. induction ds as [|d ds IH]; cbn; auto. f_equal. exact IH. }
    rewrite ED in *. fold f0 in G2, G3, G4, G5, G6, G7, G8, G9. fold a in G2, G3, G4, G5, G6, G7, G8, G9.
    destruct (forward_valid TL INR junk _ a _ 0 x ys z (valid_empty (b:=b) INR l _ _ (fun _ => []) G7 G9) Fz)
        as (B1 & B2 & B3 & B4 & B5 & B6 & B7 & B8 & _).
    assert (valid (b:=b) INR l z (fun k => if k =? 0 then x else [])) as VZ.
    { refine (valid_inputs (b:=b) INR l _ _ _ _ B1). intros m. unfold upd. rewrite N1, EN, Hx, Nat.eqb_refl. auto. }
    destruct (v_st _ _ _ _ VZ ltac:(lia)) as [(V1 & l1 & s & T1 & T2 & T3 & T4) T5 T6 T7].
    replace (d_rec z) with (g_rec f) in * by congruence. replace (d_par z) with (d_par a) in * by congruence.
    replace (d_cc z) with (d_cc a) in * by congruence.
    replace (d_n z) with n in * by congruence.
    exists V1, l1, s. split; [exact T1|].
    pose proof (w_dep _ _ _ _ W) as WD. cbn in WD.
    assert (forall v, 0 < v < r_nvar (g_rec f) -> view1 z v 0 = f_V s v) as T3' by (intros v Hv; auto).
    split; [|split; [|split; [|split]]].
    - intros j Hj. now apply T2.
    - rewrite B3. unfold yout, low. replace (d_dep z) with (g_dep f) by congruence. rewrite N1, EN, Hx, Nat.eqb_refl.
      apply map_ext_in. intros v Hv. rewrite Forall_forall in WD. apply T3'. now apply WD.
    - exact T3'.
    - exact T4.
    - destruct (sweep0_val TL INR (d_par a) (length (r_par (g_rec f))) _ l 0 0 0 (init0 (b:=b) (g_rec f) V1 l1) s (w_wfl _ _ _ _ W)
          ltac:(cbn; auto) ltac:(intros m Hm; cbn in Hm; discriminate) T1) as (_ & _ & _ & U4 & U5). exact U4.
  Qed.

  Lemma cexp_sel_true c (l r : R) : cexp_sel (b:=b) c l r = cexp_true c l r.
  Proof. do 5 (destruct c as [|c]; [reflexivity|]). reflexivity. Qed.
  Lemma locally_Forall (Q : ins -> R -> Prop) l : List.Forall (fun i => locally 0%R (Q i)) l -> locally 0%R (fun t => List.Forall (fun i => Q i t) l).
  Proof.
    induction 1 as [|i l H1 H2 IH]; [apply filter_forall; constructor|].
    generalize (filter_and _ _ H1 IH). apply filter_imp. intros t [A B]. now constructor.
  Qed.

  (** what steady means for one t near 0 *)
  Definition steady_pt (P : nat -> R) (Y : nat -> R -> R) (L : R -> nat -> nat) (i : ins) (t : R) : Prop :=
    let a := i_arg i in
    let a0 := nth 0 a 0%nat in
    let a1 := nth 1 a 0%nat in
    match i_op i with
    | SignOp => Rsgn (Y a0 t) = Rsgn (Y a0 0%R)
    | DisOp => dis a0 (Y a1 t) = dis a0 (Y a1 0%R)
    | CExpOp => cexp_choice dis nan P a Y t = cexp_choice dis nan P a Y 0%R
    | LdpOp | LdvOp => let m := nth 2 a 0%nat in L t m = L 0%R m /\ (L 0%R m = 0 -> Y (i_var i) t = Y (i_var i) 0%R)
    | _ => True
    end.
  Lemma steady_local P Y L i : steady P Y L i -> locally 0%R (steady_pt P Y L i).
  Proof.
    unfold steady, steady_pt, frozen.
    assert (forall m : nat, locally 0%R (fun t => L t m = L 0%R m) /\ (L 0%R m = 0 -> locally 0%R (fun t => Y (i_var i) t = Y (i_var i) 0%R)) ->
      locally 0%R (fun t => L t m = L 0%R m /\ (L 0%R m = 0 -> Y (i_var i) t = Y (i_var i) 0%R))) as K.
    { intros m [A B]. destruct (Nat.eq_dec (L 0%R m) 0) as [Z|Z].
      - generalize (filter_and _ _ A (B Z)). apply filter_imp. tauto.
      - generalize A. apply filter_imp. tauto. }
    destruct (i_op i); auto; intros _; now apply filter_forall.
  Qed.

  Lemma same_of_steady P Y L V V' (lv lv' : nat -> nat) i t np' nv nl l : wfl np' nv nl (i :: l) ->
    (forall v, 0 < v < nv + num_res (i_op i) -> Y v t = V v /\ Y v 0%R = V' v) ->
    (forall m, m < (if is_load (i_op i) then S nl else nl) -> L t m = lv m /\ L 0%R m = lv' m) ->
    0 < nv -> List.Forall (fun v => 0 < v < nv) (var_args (i_op i) (i_arg i)) ->
    val_ins (b:=b) INR P V lv i -> val_ins (b:=b) INR P V' lv' i -> steady_pt P Y L i t ->
    same_choice (b:=b) P V V' lv lv' i.
  Proof.
    intros (Hiv & W1 & HC & HL & HB & W2) HY HLd PV HA VI VI' S. destruct i as [o a iv]. cbn [i_op i_arg i_var] in *.
    unfold same_choice, steady_pt in *. cbn [i_op i_arg i_var] in *. rewrite Forall_forall in HA.
    assert (forall x, In x (var_args o a) -> Y x t = V x /\ Y x 0%R = V' x) as HX by (intros x Hx; apply HY; apply HA in Hx; lia).
    destruct o; auto.
    - (* CExp *) unfold cexp_choice, cexp_sel_at in *. rewrite !cexp_sel_true. rewrite <- !cexp_sel_true in S. rewrite <- !cexp_sel_true.
      cbn [var_args] in HX. unfold vp in *.
      destruct (Nat.testbit (nth 1 a 0) 0), (Nat.testbit (nth 1 a 0) 1);
        rewrite ?(proj1 (HX (nth 2 a 0) ltac:(cbn; auto))), ?(proj2 (HX (nth 2 a 0) ltac:(cbn; auto))) in S;
        rewrite ?(proj1 (HX (nth 3 a 0) ltac:(cbn; auto))), ?(proj2 (HX (nth 3 a 0) ltac:(cbn; auto))) in S; exact S.
    - (* Dis *) unfold val_ins in *. cbn [i_op i_arg i_var subs] in *. inversion VI as [|? ? Q1 _]; subst. inversion VI' as [|? ? Q2 _]; subst.
      specialize (Q1 0 ltac:(cbn; lia)). specialize (Q2 0 ltac:(cbn; lia)). cbn [fst snd] in *. rewrite Nat.add_0_r in Q1, Q2.
      cbn in Q1, Q2. etransitivity; [exact Q1|]. etransitivity; [|symmetry; exact Q2]. destruct (HX (nth 1 a 0)) as [<- <-]; [now left|exact S].
    - destruct S as [S1 S2]. specialize (HL eq_refl). rewrite HL in *. destruct (HLd nl ltac:(cbn; lia)) as [<- <-].
      destruct (HY iv ltac:(cbn in *; lia)) as [<- <-]. split; auto. intros Z. apply S2. congruence.
    - destruct S as [S1 S2]. specialize (HL eq_refl). rewrite HL in *. destruct (HLd nl ltac:(cbn; lia)) as [<- <-].
      destruct (HY iv ltac:(cbn in *; lia)) as [<- <-]. split; auto. intros Z. apply S2. congruence.
    - (* Sign *) unfold val_ins in *. cbn [i_op i_arg i_var subs] in *. inversion VI as [|? ? Q1 _]; subst. inversion VI' as [|? ? Q2 _]; subst.
      specialize (Q1 0 ltac:(cbn; lia)). specialize (Q2 0 ltac:(cbn; lia)). cbn [fst snd] in *. rewrite Nat.add_0_r in Q1, Q2.
      cbn in Q1, Q2. etransitivity; [exact Q1|]. etransitivity; [|symmetry; exact Q2]. destruct (HX (nth 0 a 0)) as [<- <-]; [now left|exact S].
  Qed.

  Lemma steady_list P Y L V V' (lv lv' : nat -> nat) t np' l : forall nv nl seen, wfl np' nv nl l -> sok seen nl l ->
    (forall v, In v seen -> 0 < v < nv) -> 0 < nv ->
    (forall v, 0 < v < nv + tres l -> Y v t = V v /\ Y v 0%R = V' v) ->
    (forall m, m < nl + nload l -> L t m = lv m /\ L 0%R m = lv' m) ->
    List.Forall (val_ins (b:=b) INR P V lv) l -> List.Forall (val_ins (b:=b) INR P V' lv') l ->
    List.Forall (fun i => steady_pt P Y L i t) l ->
    List.Forall (same_choice (b:=b) P V V' lv lv') l.
  Proof.
    induction l as [|i l IH]; intros nv nl seen W SO SL PV HY HLd VI VI' S; constructor;
      inversion VI as [|? ? VI1 VI2]; subst; inversion VI' as [|? ? VI1' VI2']; subst; inversion S as [|? ? S1 S2]; subst;
      pose proof W as (Hiv & W1 & HC & HL & HB & W2); pose proof SO as (OK & SA & _ & SO2); cbn [tres nload] in *.
    - apply (same_of_steady P Y L V V' lv lv' i t np' nv nl l W); auto.
      + intros v Hv. apply HY. lia.
      + intros m Hm. apply HLd. destruct (is_load (i_op i)); lia.
      + eapply Forall_impl; [|exact SA]. intros v Hv. now apply SL.
    - apply (IH _ _ (seen1 seen i) W2 SO2); auto; try lia.
      + intros v Hv. unfold seen1 in Hv. destruct (Nat.ltb_spec 0 (num_res (i_op i))); [destruct Hv as [<-|Hv]|]; try apply SL in Hv; lia.
      + intros v Hv. apply HY. lia.
      + intros m Hm. apply HLd. destruct (is_load (i_op i)); lia.
  Qed.

  (** near t = 0 the zero order sweeps make the choices of t = 0 *)
  Lemma steady_sweeps ds (X F : R -> list R) : let a := with_dynamics f0 ds in
    (forall t, length (X t) = n) ->
    locally 0%R (fun t => exists z, forward (b:=b) INR junk a 0 (X t) = Some (F t, z)) ->
    steady_at a X ->
    let l := body n (g_rec f) in
    locally 0%R (fun t => exists V V' l1 l1' s s',
      sweep0 (b:=b) (d_par a) (d_cc a) (head_ins n ++ l) 0 (init0 (b:=b) (g_rec f) V l1) = Some s /\
      sweep0 (b:=b) (d_par a) (d_cc a) (head_ins n ++ l) 0 (init0 (b:=b) (g_rec f) V' l1') = Some s' /\
      List.Forall (same_choice (b:=b) (d_par a) (f_V s) (f_V s') (f_l2v s) (f_l2v s')) l /\
      (forall j, j < n -> V (S j) = nth j (X t) 0%R) /\ (forall j, j < n -> V' (S j) = nth j (X 0%R) 0%R) /\
      F t = map (f_V s) (g_dep f) /\ F 0%R = map (f_V s') (g_dep f)).
  Proof.
    intros a XL FL ST l. pose proof (Rbase_laws dis nan) as BL.
    destruct (recorded_struct BL _ _ _ _ _ _ _ _ _ _ REC) as (DE & _ & _ & _ & _ & NV & _ & EN).
    destruct (recorded_rtape BL _ _ _ _ _ _ _ _ _ _ REC) as [RT _].
    assert (tape dis nan f = head_ins n ++ l) as ET by (unfold tape; now rewrite DE).
    unfold steady_at in ST. rewrite ET in ST. apply Forall_app in ST as [_ ST].
    assert (locally 0%R (fun t => List.Forall (fun i => steady_pt (d_par a) (value_at dis nan junk a X) (load_at dis nan junk a X) i t) l)) as SL.
    { apply locally_Forall. eapply Forall_impl; [|exact ST]. intros i. apply steady_local. }
    destruct (locally_singleton _ _ FL) as (z0 & Fz0).
    destruct (zero_sweep ds (X 0%R) _ z0 (XL 0%R) Fz0) as (V' & l1' & s' & A1 & A2 & A3 & A4 & A5 & A6). fold a l in A1, A2, A3, A4, A5, A6.
    generalize (filter_and _ _ FL SL). apply filter_imp. intros t [(z & Fz) St].
    destruct (zero_sweep ds (X t) _ z (XL t) Fz) as (V & l1 & s & B1 & B2 & B3 & B4 & B5 & B6). fold a l in B1, B2, B3, B4, B5, B6.
    exists V, V', l1, l1', s, s'. repeat (split; [now auto|]). split; [|auto].
    apply Forall_app in A6 as [_ A6]. apply Forall_app in B6 as [_ B6].
    assert (tres (head_ins n) = S n) as TH by (unfold head_ins; cbn [tres i_op num_res]; now rewrite tres_inv).
    assert (nload (head_ins n) = 0) as NH by (unfold head_ins; cbn [nload i_op is_load]; now rewrite nload_inv).
    refine (steady_list (d_par a) (value_at dis nan junk a X) (load_at dis nan junk a X) _ _ _ _ t _ l (S n) 0 (seq 1 n) (t_wfl _ _ _ _ RT) (t_sok _ _ _ _ RT) _ _ _ _ B6 A6 St); try lia.
    - intros v Hv. apply in_seq in Hv. lia.
    - intros v Hv. unfold value_at. rewrite Fz, Fz0. rewrite tres_app, TH in NV. fold l in NV. split; [apply B4|apply A4]; lia.
    - intros m Hm. unfold load_at. rewrite Fz, Fz0. rewrite nload_app, NH in A5, B5. split; [apply B5|apply A5]; lia.
  Qed.

  Lemma nth_map_dep (g : nat -> R) i : i < length (g_dep f) -> nth i (map g (g_dep f)) 0%R = g (nth i (g_dep f) 0).
  Proof. intros Hi. rewrite (nth_indep _ 0%R (g 0)) by (rewrite map_length; auto). apply (map_nth g). Qed.
  Lemma frozen_derive (g : R -> R) : frozen g -> is_derive g 0%R 0%R.
  Proof.
    intros H. apply is_derive_ext_loc with (fun _ => g 0%R); [|apply (is_derive_const (g 0%R))].
    unfold frozen in H. revert H. apply filter_imp. auto.
  Qed.

  (** ** C13.  (i, c) is not in the pattern returned by for_jac_sparsity: component i of
      F(X(t)) is constant near t = 0, hence its derivative is zero, for every curve X(t)
      whose components j with (j, c) not in the input pattern R stay fixed: the component
      (i, c) of F'(x) R is zero.  [dependency] is arbitrary. *)
  Theorem for_jac_derivative : forall pat transpose dependency out ds,
    for_jac_sparsity f pat transpose dependency = Some out ->
    let a := with_dynamics f0 ds in
    forall (X F : R -> list R) i c,
    (forall t, length (X t) = n) ->
    locally 0%R (fun t => exists z, forward (b:=b) INR junk a 0 (X t) = Some (F t, z)) ->
    steady_at a X ->
    i < length (g_dep f) -> c < snd (swp transpose (p_nr pat, p_nc pat)) ->
    (forall j, j < n -> ~ entry transpose pat j c -> frozen (fun t => nth j (X t) 0%R)) ->
    ~ entry transpose out i c ->
    frozen (fun t => nth i (F t) 0%R) /\ is_derive (fun t => nth i (F t) 0%R) 0%R 0%R.
  Proof.
    intros pat tr dp out ds SP a X F i c XL FL ST Hi Hc AG NO.
    cut (frozen (fun t => nth i (F t) 0%R)). { intros H. split; auto. now apply frozen_derive. }
    destruct (recorded_rtape (Rbase_laws dis nan) _ _ _ _ _ _ _ _ _ _ REC) as [RT EN].
    unfold for_jac_sparsity in SP. rewrite EN, (t_dec _ _ _ _ RT) in SP.
    destruct (swp tr (p_nr pat, p_nc pat)) as [u ell]. cbn [snd] in Hc. destruct (negb (u =? n)); [discriminate|].
    destruct (for_jac_sweep _ _ _ _) as [Uf Wf] eqn:FJ. injection SP as <-.
    rewrite get_internal_spec in NO by auto. apply not_true_is_false in NO.
    assert (locally 0%R (fun t => forall j, j < n -> ~ entry tr pat j c -> nth j (X t) 0%R = nth j (X 0%R) 0%R)) as AL.
    { unfold frozen in AG. clear - AG. induction n as [|m IH]; [apply filter_forall; intros; lia|].
      assert (locally 0%R (fun t => ~ entry tr pat m c -> nth m (X t) 0%R = nth m (X 0%R) 0%R)) as K.
      { assert ({In (swp tr (m, c)) (p_rc pat)} + {~ In (swp tr (m, c)) (p_rc pat)}) as [Q|Q].
        { apply in_dec. decide equality; apply Nat.eq_dec. }
        - apply filter_forall. intros t N. now destruct N.
        - generalize (AG m ltac:(lia) Q). apply filter_imp. auto. }
      generalize (filter_and _ _ K (IH ltac:(intros; apply AG; auto))). apply filter_imp. intros t [A B] j Hj N.
      destruct (Nat.eq_dec j m) as [->|]; auto. apply B; auto. lia. }
    unfold frozen. generalize (filter_and _ _ AL (steady_sweeps ds X F XL FL ST)). apply filter_imp.
    intros t [AT (V & V' & l1 & l1' & s & s' & S1 & S2 & SC & I1 & I2 & -> & ->)]. rewrite !nth_map_dep by auto.
    refine (spar_for _ _ _ _ RT _ _ _ dp _ c V V' _ _ s s' _ _ FJ S1 S2 (fun _ => SC) _ _ _ NO).
    - intros j Hj UJ. rewrite I1, I2 by auto. apply AT; auto. intros En.
      apply not_true_iff_false in UJ. apply UJ, set_internal_spec. split; [lia|]. exists j. split; auto. rewrite seq_nth; lia.
    - apply nth_In; auto.
  Qed.

  (** ** C14.  (c, j) is in the pattern returned by rev_jac_sparsity whenever component j
      of x can influence a component i of F with (c, i) in the input pattern R: the
      components i with (c, i) in R are constant along every curve that keeps the x_j with
      (c, j) in the returned pattern fixed, so row c of R F'(x) is zero at the other
      columns. *)
  Theorem rev_jac_derivative : forall pat transpose dependency out ds,
    rev_jac_sparsity f pat transpose dependency = Some out ->
    let a := with_dynamics f0 ds in
    forall (X F : R -> list R) i c,
    (forall t, length (X t) = n) ->
    locally 0%R (fun t => exists z, forward (b:=b) INR junk a 0 (X t) = Some (F t, z)) ->
    steady_at a X ->
    i < length (g_dep f) -> c < fst (swp transpose (p_nr pat, p_nc pat)) ->
    entry transpose pat c i ->
    (forall j, j < n -> entry transpose out c j -> frozen (fun t => nth j (X t) 0%R)) ->
    frozen (fun t => nth i (F t) 0%R) /\ is_derive (fun t => nth i (F t) 0%R) 0%R 0%R.
  Proof.
    intros pat tr dp out ds SP a X F i c XL FL ST Hi Hc EN0 AG.
    cut (frozen (fun t => nth i (F t) 0%R)). { intros H. split; auto. now apply frozen_derive. }
    destruct (recorded_rtape (Rbase_laws dis nan) _ _ _ _ _ _ _ _ _ _ REC) as [RT EN].
    unfold rev_jac_sparsity in SP. rewrite EN, (t_dec _ _ _ _ RT) in SP.
    destruct (swp tr (p_nr pat, p_nc pat)) as [ell m]. cbn [fst] in Hc. destruct (negb (m =? _)); [discriminate|].
    destruct (rev_jac_sweep _ _ _ _) as [Uf Wf] eqn:FJ. injection SP as <-.
    assert (forall pat i j, entry tr pat i j <-> entry (negb tr) pat j i) as FLP by (intros; unfold entry; now destruct tr).
    assert (locally 0%R (fun t => forall j, j < n -> Uf (S j) c = true -> nth j (X t) 0%R = nth j (X 0%R) 0%R)) as AL.
    { assert (forall j, j < n -> Uf (S j) c = true -> frozen (fun t => nth j (X t) 0%R)) as AG2.
      { intros j Hj UJ. apply AG; auto. apply FLP. apply get_internal_spec; try (rewrite seq_length); auto. now rewrite seq_nth by auto. }
      unfold frozen in AG2. clear - AG2. induction n as [|m IH]; [apply filter_forall; intros; lia|].
      assert (locally 0%R (fun t => Uf (S m) c = true -> nth m (X t) 0%R = nth m (X 0%R) 0%R)) as K.
      { destruct (Uf (S m) c) eqn:Q.
        - generalize (AG2 m ltac:(lia) Q). apply filter_imp. auto.
        - apply filter_forall. discriminate. }
      generalize (filter_and _ _ K (IH ltac:(intros; apply AG2; auto))). apply filter_imp. intros t [A B] j Hj N.
      destruct (Nat.eq_dec j m) as [->|]; auto. apply B; auto. lia. }
    unfold frozen. generalize (filter_and _ _ AL (steady_sweeps ds X F XL FL ST)). apply filter_imp.
    intros t [AT (V & V' & l1 & l1' & s & s' & S1 & S2 & SC & I1 & I2 & -> & ->)]. rewrite !nth_map_dep by auto.
    refine (spar_rev _ _ _ _ RT _ _ _ dp _ c V V' _ _ s s' _ _ FJ S1 S2 (fun _ => SC) _ _ _ _).
    - intros j Hj UJ. rewrite I1, I2 by auto. now apply AT.
    - apply nth_In; auto.
    - apply set_internal_spec. pose proof (t_dep0 _ _ _ _ RT) as DP. rewrite Forall_forall in DP.
      specialize (DP (nth i (g_dep f) 0) ltac:(now apply nth_In)). split; [lia|]. exists i. split; auto. now apply FLP.
  Qed.

  (** The same for the coefficients computed by Forward: when the coefficients of order
      1, ..., q of the independent variables vanish for the x_j with (j, c) not in the input
      pattern, then the coefficients of order 1, ..., q that Forward(q, xq) returns vanish for
      the components i with (i, c) not in the returned pattern (q = 1: the product F'(x) r). *)
  Theorem for_jac_contains_forward : forall pat transpose dependency out h g q xq ys g',
    for_jac_sparsity f pat transpose dependency = Some out ->
    one_direction h -> drun (b:=b) INR junk f0 h = Some g -> forward (b:=b) INR junk g q xq = Some (ys, g') ->
    let x := given 0%R (g_n f) (h ++ [CFor q xq]) in
    let a := with_dynamics f0 (dynamics h) in
    let X t := map (fun j => poly q (fun k => nth j (x k) 0%R) t) (seq 0 (g_n f)) in
    forall (F : R -> list R) i c k,
    locally 0%R (fun t => exists z, forward (b:=b) INR junk a 0 (X t) = Some (F t, z)) ->
    smooth_at dis nan junk f a X ->
    i < length (g_dep f) -> c < snd (swp transpose (p_nr pat, p_nc pat)) ->
    (forall j k, j < n -> 1 <= k <= q -> ~ entry transpose pat j c -> nth j (x k) 0%R = 0%R) ->
    ~ entry transpose out i c ->
    1 <= k <= q -> (length xq = g_n f -> k = q) ->
    nth i (returned f q k xq ys) 0%R = 0%R.
  Proof.
    intros pat tr dp out h g q xq ys g' SP OD RUN FW x a X F i c k FL SM Hi Hc HZ NO Hk Hkq.
    destruct (recorded_struct (Rbase_laws dis nan) _ _ _ _ _ _ _ _ _ _ REC) as (_ & _ & _ & _ & _ & _ & _ & EN).
    assert (forall t, length (X t) = g_n f) as XL by (intros t; unfold X; now rewrite map_length, seq_length).
    assert (forall t j, j < g_n f -> nth j (X t) 0%R = poly q (fun k => nth j (x k) 0%R) t) as XN.
    { intros t j Hj. unfold X. rewrite (nth_indep _ 0%R ((fun j => poly q (fun k => nth j (x k) 0%R) t) 0)) by (rewrite map_length, seq_length; auto).
      rewrite (map_nth (fun j => poly q (fun k => nth j (x k) 0%R) t)), seq_nth by auto. reflexivity. }
    destruct (for_jac_derivative pat tr dp out (dynamics h) SP X F i c) as [FR _]; auto.
    { intros. now rewrite XL, EN. }
    { now apply smooth_steady. }
    { intros j Hj Ne. unfold frozen. apply filter_forall. intros t. rewrite !XN by (rewrite EN; auto).
      unfold poly. assert (forall t, sum_f_R0 (fun k => nth j (x k) 0 * t ^ k)%R q = nth j (x 0) 0%R) as K; [|now rewrite !K].
      clearbody x. clear - HZ Hj Ne. intros t. induction q as [|q IH]; cbn [sum_f_R0]; [cbn; ring|].
      rewrite IH by (intros; apply HZ; auto; lia). rewrite (HZ j (S q) Hj ltac:(lia) Ne). ring. }
    pose proof (forward_is_taylor dis nan junk tid cmp n np e ev p V0 l0 f REC POS h g q xq ys g' OD RUN FW X F XL) as K.
    assert (forall j, j < g_n f -> tay q (fun t => nth j (X t) 0%R) (fun k => nth j (x k) 0%R)) as XT.
    { intros j Hj. apply tay_loc with (poly q (fun k => nth j (x k) 0%R)); [|apply tay_poly; auto].
      apply filter_forall. intros t. now rewrite XN. }
    specialize (K XT FL SM i k Hi ltac:(lia) Hkq). clear - K FR Hk.
    assert (is_derive_n (fun _ : R => nth i (F 0%R) 0%R) k 0%R (INR (fact k) * nth i (returned f q k xq ys) 0)%R) as K2.
    { refine (is_derive_n_ext_loc _ _ k _ _ FR K). }
    apply is_derive_n_unique in K2. destruct k as [|k]; [lia|]. rewrite Derive_n_const in K2.
    symmetry in K2. apply Rmult_integral in K2 as [K2|K2]; auto. exfalso. revert K2. apply INR_fact_neq_0.
  Qed.

  (** Reverse(1, w) with weights that vanish for the components i with (c, i) not in the
      input pattern: the returned partial with respect to x_j vanishes when (c, j) is not in
      the returned pattern. *)
  Theorem rev_jac_contains_reverse : forall pat transpose dependency out h g w z g',
    rev_jac_sparsity f pat transpose dependency = Some out ->
    one_direction h -> drun (b:=b) INR junk f0 h = Some g -> reverse (b:=b) INR junk g 1 w = Some (z, g') ->
    let x := given 0%R (g_n f) h in
    let a := with_dynamics f0 (dynamics h) in
    forall (F : R -> list R) c j0,
    let X s := map (fun j => moved x j0 0 s j 0) (seq 0 (g_n f)) in
    locally 0%R (fun s => exists z, forward (b:=b) INR junk a 0 (X s) = Some (F s, z)) ->
    smooth_at dis nan junk f a X ->
    c < fst (swp transpose (p_nr pat, p_nc pat)) -> j0 < n ->
    (forall i, i < length (g_dep f) -> ~ entry transpose pat c i -> nth i w 0%R = 0%R) ->
    ~ entry transpose out c j0 ->
    nth j0 z 0%R = 0%R.
  Proof.
    intros pat tr dp out h g w z g' SP OD RUN RV x a F c j0 X FL SM Hc Hj HZ NO.
    destruct (recorded_struct (Rbase_laws dis nan) _ _ _ _ _ _ _ _ _ _ REC) as (_ & _ & _ & _ & _ & _ & _ & EN).
    assert (forall t, length (X t) = g_n f) as XL by (intros t; unfold X; now rewrite map_length, seq_length).
    assert (forall t j, j < g_n f -> nth j (X t) 0%R = moved x j0 0 t j 0) as XN.
    { intros t j Hj2. unfold X. rewrite (nth_indep _ 0%R ((fun j => moved x j0 0 t j 0) 0)) by (rewrite map_length, seq_length; auto).
      rewrite (map_nth (fun j => moved x j0 0 t j 0)), seq_nth by auto. reflexivity. }
    pose proof (reverse_is_partial_derivative dis nan junk tid cmp n np e ev p V0 l0 f REC POS h g 1 w z g' j0 0 OD RUN RV ltac:(rewrite EN; auto) ltac:(lia)) as K.
    cbv zeta in K. fold f0 x a in K. specialize (K (fun s _ => F s)).
    assert (forall s, all_orders 0%R (g_n f) (1 - 1) (fun k => map (fun i => moved x j0 0 s i k) (seq 0 (g_n f))) = X s) as AO.
    { intros s. unfold all_orders. cbn [Nat.sub Nat.add seq map]. unfold X at 1.
      assert (forall (u : nat -> R) m k, flat_map (fun j => [u j]) (seq k m) = map u (seq k m)) as FM.
      { intros u. induction m as [|m IHm]; intros k; cbn; auto.  }
      rewrite FM. apply map_ext_in. intros j Hj2. apply in_seq in Hj2. fold (X s). now apply XN. }
    assert (is_derive (fun s => total (length (g_dep f)) (fun i => total 1 (fun k => weight (length (g_dep f)) 1 w i k * nth i (F s) 0))%R) 0%R
      (partial_at (length (g_dep f)) 1 w z j0 0)) as K2.
    { apply K; clear K.
      - generalize FL. apply filter_imp. intros s (z1 & Fz). rewrite AO. exists (F s), z1. split; [exact Fz|].
        intros k Hk. unfold returned. now rewrite XL, Nat.eqb_refl.
      - exact SM. }
    assert (partial_at (length (g_dep f)) 1 w z j0 0 = nth j0 z 0%R) as EP.
    { unfold partial_at. cbn [Nat.sub]. rewrite Nat.mul_1_r, Nat.add_0_r. now destruct (_ =? _). }
    rewrite EP in K2.
    assert (forall i, weight (length (g_dep f)) 1 w i 0 = nth i w 0%R) as EW.
    { intros i. unfold weight. rewrite Nat.mul_1_r, Nat.add_0_r. destruct (_ =? _); auto. }
    assert (frozen (fun s => total (length (g_dep f)) (fun i => total 1 (fun k => weight (length (g_dep f)) 1 w i k * nth i (F s) 0))%R)) as FR.
    { assert (forall i, i < length (g_dep f) -> frozen (fun s => nth i w 0 * nth i (F s) 0)%R) as FI.
      { intros i Hi.
        assert ({In (swp tr (c, i)) (p_rc pat)} + {~ In (swp tr (c, i)) (p_rc pat)}) as [Q|Q].
        { apply in_dec. decide equality; apply Nat.eq_dec. }
        - destruct (rev_jac_derivative pat tr dp out (dynamics h) SP X F i c) as [FI _]; auto.
          + intros. now rewrite XL, EN.
          + now apply smooth_steady.
          + intros j Hj2 Ej. unfold frozen. apply filter_forall. intros s. rewrite !XN by (rewrite EN; auto). unfold moved.
            destruct (Nat.eqb_spec j j0) as [->|]; [now destruct NO|]. reflexivity.
          + unfold frozen in *. revert FI. apply filter_imp. intros s ->. auto.
        - unfold frozen. apply filter_forall. intros s. rewrite (HZ i Hi Q). ring. }
      unfold frozen in *.
      assert (forall M, M <= length (g_dep f) -> locally 0%R (fun s => forall i, i < M -> (nth i w 0 * nth i (F s) 0 = nth i w 0 * nth i (F 0%R) 0)%R)) as ALL.
      { induction M as [|M IHM]; intros HM; [apply filter_forall; intros; lia|].
        generalize (filter_and _ _ (FI M HM) (IHM ltac:(lia))). apply filter_imp. intros s [A B] i Hi.
        destruct (Nat.eq_dec i M) as [->|]; auto. apply B. lia. }
      generalize (ALL _ (le_n _)). apply filter_imp. intros s A. unfold total. f_equal. apply map_ext_in. intros i Hi. apply in_seq in Hi.
      cbn [seq map fold_right]. rewrite !EW. rewrite A by lia. reflexivity. }
    pose proof (is_derive_unique _ _ _ (frozen_derive _ FR)) as U1. pose proof (is_derive_unique _ _ _ K2) as U2.
    etransitivity; [symmetry; exact U2|exact U1].
  Qed.
End Der.
