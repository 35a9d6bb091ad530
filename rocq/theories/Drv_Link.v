(** The zero order call of the multiple order model (Drv_Model.forward) and the zero
    order model of Tape_Model (forward0) return the same values. *)
From Coq Require Import ZArith List Bool Arith Lia.
From Verif Require Import Base_Spec Op_Model Tape_Spec Tape_Model Tape_Proof Tape_Proof2 Tape_Proof10 Tape_Hist Tape_Prop
  Sweep_Model Sweep_Eqs Sweep_Eqs2 Sweep_Tape Sweep_Uniq Tape_Swf
  Drv_Spec Drv_Model Drv_Proof Drv_Proof2 Drv_Proof3 Drv_Proof4 Drv_Prop.
Import ListNotations.

Section Link.
  Context {b : base} (L : base_laws b).
  Notation T := (bt b).
  Variables (bnat junk : nat -> T).

  Lemma new_dynamic_fields ds : forall (f : adfun b) (g : adq b), d_rec g = g_rec f -> d_par g = g_par f ->
    let f' := fold_left new_dynamic ds f in let g' := with_dynamics g ds in
    g_rec f' = g_rec f /\ g_n f' = g_n f /\ g_dep f' = g_dep f /\ g_cc f' = g_cc f /\ g_par f' = d_par g'.
  Proof.
    unfold with_dynamics. induction ds as [|d ds IH]; intros f g E1 E2; cbn [fold_left]; auto.
    destruct (IH (new_dynamic f d) (new_dyn g d)) as (A & B & C & D & E); auto.
    { cbn. now rewrite E1, E2. }
  Qed.

  Lemma forward0_link tid cmp n np e ev p V l2v (f : adfun b) ds x :
    recorded tid cmp n np e ev p V l2v f -> 0 < n -> length x = n ->
    option_map fst (forward bnat junk (with_dynamics (drv_of junk f) ds) 0 x) =
    option_map fst (forward0 (fold_left new_dynamic ds f) x).
  Proof.
    intros R Hn Hx. pose proof (recorded_twf L _ _ _ _ _ _ _ _ _ _ R Hn) as W.
    destruct (recorded_struct L _ _ _ _ _ _ _ _ _ _ R) as (_ & _ & _ & _ & _ & _ & _ & EN).
    rewrite EN in W.
    destruct (new_dynamic_fields ds f (drv_of junk f) eq_refl eq_refl) as (A1 & A2 & A3 & A4 & A5).
    destruct (dyn_fields ds (drv_of junk f)) as (B1 & B2 & B3 & B4). cbn in B1, B2, B3, B4.
    set (g := with_dynamics (drv_of junk f) ds) in *. set (ga := fold_left new_dynamic ds f) in *.
    assert (d_cap g = 0) as Cg.
    { unfold g, with_dynamics.
      assert (forall ds (a : adq b), d_cap (fold_left new_dyn ds a) = d_cap a) as K by (clear; induction ds; cbn; auto; intros; now rewrite IHds).
      now rewrite K. }
    set (l := head_ins n ++ body n (g_rec f)) in *.
    unfold forward, forward0. rewrite B1, B3, EN, Hx, Nat.eqb_refl. cbn [orb negb]. rewrite Nat.div_same by lia.
    cbn [Nat.add Nat.sub Nat.leb orb negb Nat.eqb]. rewrite Cg. cbn [Nat.leb orb].
    unfold capacity2. cbn [set_ord set_tay d_cap d_dir d_ord d_rec]. rewrite Cg. cbn [Nat.max Nat.eqb andb orb negb Nat.leb].
    rewrite orb_true_r. cbn [negb set_tay d_cap].
    rewrite A1, (w_dec _ _ _ _ W).
    match goal with |- context [in_rows ?V1 _ _ _ _] => set (V2 := in_rows V1 n 0 0 x) end.
    match goal with |- context [set_ind ?V1 _ _] => set (V3 := set_ind V1 0 x) end.
    rewrite A4, A5, B4.
    assert (forall j, j < n -> V2 (S j) 0 = nth j x b0) as H2.
    { intros j Hj. unfold V2, in_rows. cbn [Nat.eqb]. rewrite set_row_spec. cbn [Nat.eqb andb].
      rewrite Hx. destruct (Nat.leb_spec 1 (S j)), (Nat.ltb_spec (S j) (1 + n)); try lia. cbn [andb]. f_equal. lia. }
    assert (forall j, j < n -> V3 (S j) = nth j x b0) as H3.
    { intros j Hj. unfold V3. apply (set_ind_at tid (proj1 R) x _ 0 j). lia. }
    assert (forall i, In i l -> i_op i = InvOp -> V2 (i_var i) 0 = V3 (i_var i)) as HI.
    { intros i Hi Ho. pose proof (w_inv2 _ _ _ _ W i Hi Ho) as Hr. destruct (i_var i); [lia|]. now rewrite H2, H3 by lia. }
    assert (vec_ok 0 (fun _ => false) (fun i => nth i (r_vec (g_rec f)) 0)) as VO by (intros m Hm; discriminate).
    set (s1 := init0 (g_rec f) (row0 V2) (d_l2v g)). set (s2 := init0 (g_rec f) V3 (g_l2v ga)).
    assert (eq0 0 0 0 s1 s2) as EQ by (constructor; cbn; auto; intros; lia).
    assert (eq0 0 0 0 s2 s1) as EQ' by (constructor; cbn; auto; intros; lia).
    destruct (sweep0 (d_par g) (g_cc f) l 0 s1) as [t|] eqn:S1.
    - destruct (sweep0_eq (d_par g) (length (r_par (g_rec f))) (g_cc f) l 0 0 0 0 s1 s2 t (le_n _) (w_wfl _ _ _ _ W)
        (fun _ => eq_refl) VO EQ HI S1) as (t' & -> & E & _).
      cbn [option_map fst]. f_equal. cbn [of0 q_V]. rewrite B2, A3.
      apply map_ext_in. intros a Ha. pose proof (w_dep _ _ _ _ W) as WD. rewrite Forall_forall in WD. specialize (WD a Ha).
      rewrite (w_nv _ _ _ _ W) in WD. rewrite <- (e0_V _ _ _ _ _ E) by auto. reflexivity.
    - destruct (sweep0 (d_par g) (g_cc f) l 0 s2) as [t'|] eqn:S2; [|reflexivity].
      destruct (sweep0_eq (d_par g) (length (r_par (g_rec f))) (g_cc f) l 0 0 0 0 s2 s1 t' (le_n _) (w_wfl _ _ _ _ W)
        (fun _ => eq_refl) VO EQ' (fun i Hi Ho => eq_sym (HI i Hi Ho)) S2) as (t & E1 & _). congruence.
  Qed.

  (** Forward(0, x) after new_dynamic calls is the algorithm evaluated at x *)
  Lemma forward_value tid cmp n np e ev p V l2v (f : adfun b) ds x ys :
    recorded tid cmp n np e ev p V l2v f -> 0 < n -> length x = n -> Forall (fun d => length d = np) ds ->
    let s := start (base_values e ev) x (last ds (dyn_values n np e)) in
    decisions p s = decisions p (base_values e ev) -> eval p s = Some ys ->
    exists g', forward bnat junk (with_dynamics (drv_of junk f) ds) 0 x = Some (ys, g').
  Proof.
    intros R Hn Hx HD s DE EV.
    pose proof (forward0_link tid cmp n np e ev p V l2v f ds x R Hn Hx) as K.
    assert (forall ds (f : adfun b), run f (map NewDynamic ds) = Some (fold_left new_dynamic ds f)) as RN.
    { clear. induction ds; intros f; cbn; auto. }
    assert (forall ds (d0 : list T), cur_dyn d0 (map NewDynamic ds) = last ds d0) as CD.
    { clear. induction ds as [|d ds IH]; intros d0; auto. cbn [map cur_dyn]. rewrite IH. cbn [last].
      destruct ds as [|d' ds]; auto. clear. revert d'. induction ds as [|c ds IH]; intros d'; auto. cbn [last] in *. apply IH. }
    pose proof (forward_zero_is_algorithm L tid cmp n np e ev p V l2v f R (map NewDynamic ds) (fold_left new_dynamic ds f) x) as Z.
    cbv zeta in Z. rewrite CD in Z. fold s in Z. specialize (fun A B C D => Z A B C D). rewrite EV in Z. destruct Z as (g' & Z); auto.
    { apply Forall_forall. intros c Hc. apply in_map_iff in Hc as (d & <- & Hd). rewrite Forall_forall in HD. now apply HD. }
    rewrite Z in K. destruct (forward bnat junk _ 0 x) as [[zs z]|]; [|discriminate]. injection K as ->. eauto.
  Qed.
End Link.
