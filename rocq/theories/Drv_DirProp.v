(** C10: Forward(q, r, xq) is r independent Forward calculations. *)
From Coq Require Import ZArith QArith Qcanon List Bool Arith Lia FunctionalExtensionality.
From Verif Require Import Base_Spec Op_Model Tape_Spec Tape_Model Tape_Proof Tape_Proof2 Tape_Proof10 Tape_Prop
  Sweep_Model Sweep_Eqs Sweep_Eqs2 Sweep_Tape Sweep_Uniq Tape_Swf Field_Spec Sweep_Dir Drv_Spec Drv_Model Drv_Proof Drv_Proof2 Drv_Proof3 Drv_Proof4 Drv_Prop Drv_Dir Drv_Dir2 Drv_Dir3 Drv_Dir4 Qbase Tape_Hist.
Import ListNotations.
Close Scope Q_scope.
Open Scope nat_scope.

Section Dir.
  Context {b : base} (L : base_laws b) (TL : taylor_laws b) (bnat : nat -> bt b) (FL : field_laws b bnat).
  Notation T := (bt b).
  Variable junk : nat -> T.

  Lemma nth_flat_dir (D : list nat) (V : nat -> nat -> T) r ell i : i < length D -> ell < r ->
    nth (i * r + ell) (flat_map (fun a => map (fun ell => V a ell) (seq 0 r)) D) b0 = V (nth i D 0) ell.
  Proof.
    intros Hi Hl. destruct r as [|r]; [lia|]. pose proof (nth_map_flat D V r ell i Hi ltac:(lia)) as K.
    now rewrite Nat.add_1_r in K.
  Qed.

  Section Recorded.
    Context (tid : nat) (cmp : bool) (n np : nat) (e : nat -> AD b) (ev : nat -> VecAD b) (p : prog T)
      (V0 : nat -> T) (l0 : nat -> nat) (f : adfun b).
    Hypothesis REC : recorded tid cmp n np e ev p V0 l0 f.
    Hypothesis POS : 0 < n.
    Let f0 := drv_of junk f.

    Lemma goodD_history h g : drun bnat junk f0 h = Some g ->
      goodD bnat (head_ins n ++ body n (g_rec f)) (with_dynamics f0 (dynamics h)) g (givenD b0 (g_n f) h).
    Proof.
      intros R. apply (goodD_run TL bnat FL junk _ h f0 f0 (fun _ _ => [])); auto.
      pose proof (recorded_twf L _ _ _ _ _ _ _ _ _ _ REC POS) as W.
      split; [apply validD_new; auto|]. split; [unfold same; repeat (split; auto)|].
      split; [auto|split; [auto|]]. apply valid_new. auto.
    Qed.

    Lemma order_qq (Y : list T) (g1 : adq b) X q : 0 < g_n f -> d_dep g1 = g_dep f ->
      Y = yout g1 (g_n f) q (pack (g_n f) q X) ->
      order_of b0 (length (g_dep f)) q q Y = map (fun a => view1 g1 a q) (g_dep f).
    Proof.
      intros Hn ED1 B3. rewrite B3. unfold yout. rewrite low_pack by auto. rewrite ED1. unfold order_of.
      destruct ((if g_n f * (q + 1) =? g_n f then q else 0) =? q) eqn:E0.
      - assert (q = 0) as ->.
        { destruct (Nat.eqb_spec (g_n f * (q + 1)) (g_n f)); [nia|]. apply Nat.eqb_eq in E0. auto. }
        apply order0.
      - rewrite <- (map_nth_seq (fun a => view1 g1 a q) _ 0). apply map_ext_in.
        intros i Hi. apply in_seq in Hi. apply nth_map_flat; lia.
    Qed.

    (** After any history (also with other multiple direction calls), every direction of
        the result of Forward(q, r, xq) is the order q part of one Forward call with the orders
        0 .. q of that direction. *)
    Theorem forward_directions_independent : forall h g q r xq ys g',
      drun bnat junk f0 h = Some g -> forward_r bnat junk g q r xq = Some (ys, g') ->
      length ys = length (g_dep f) * r /\
      forall ell, ell < r ->
      let X := givenD b0 (g_n f) (h ++ [CForR q r xq]) ell in
      exists Y g1,
        forward bnat junk (with_dynamics f0 (dynamics h)) q (all_orders b0 (g_n f) q X) = Some (Y, g1) /\
        direction_of b0 (length (g_dep f)) r ell ys = order_of b0 (length (g_dep f)) q q Y.
    Proof.
      intros h g q r xq ys g' R F. destruct (goodD_history h g R) as (G1 & (S1 & S2 & S3 & S4 & S5) & G3 & G4 & G5).
      destruct (forward_r_validD TL bnat FL junk _ g _ q r xq ys g' G1 F) as (A1 & A2 & A3 & A4 & A5 & A6 & A7 & A8 & A9 & A10 & A11).
      destruct (dyn_fields (dynamics h) f0) as (D1 & D2 & D3 & D4).
      set (l := head_ins n ++ body n (g_rec f)) in *. set (g0 := with_dynamics f0 (dynamics h)) in *.
      change (d_n f0) with (g_n f) in D1. change (d_dep f0) with (g_dep f) in D2.
      assert (d_n g = g_n f) as Dn by congruence. assert (d_dep g = g_dep f) as Dd by congruence.
      split.
      { rewrite A6, Dd. rewrite (flat_map_const _ _ r); auto. intros. now rewrite map_length, seq_length. }
      intros ell Hl X.
      assert (valid bnat l (proj ell g') X) as VX.
      { refine (valid_inputs bnat l _ _ _ _ (vd_dir _ _ _ _ A1 ell ltac:(lia))). intros k. unfold X, givenD.
        rewrite fold_left_app. cbn [fold_left givenD1]. rewrite Dn. reflexivity. }
      assert (0 < g_n f) as Hn.
      { rewrite <- Dn. rewrite <- A8. apply (w_n _ _ _ _ (v_twf _ _ _ _ VX)). }
      pose proof (valid_empty bnat l _ _ X G3 G5) as V0'.
      destruct (forward_total TL bnat junk l (proj ell g') g0 X q VX) as (Y & g1 & F1); cbn [proj d_ord d_rec d_n d_par d_cc]; try congruence; try lia; auto.
      cbn [proj d_n] in F1. replace (d_n g') with (g_n f) in F1 by congruence. exists Y, g1. split; [exact F1|].
      destruct (forward_valid TL bnat junk _ g0 _ q _ Y g1 V0' F1) as (B1 & B2 & B3 & B4 & B5 & B6 & B7 & B8 & B9 & _).
      replace (d_n g0) with (g_n f) in * by congruence.
      assert (d_dep g1 = g_dep f) as ED1 by congruence.
      rewrite (order_qq Y g1 X q Hn ED1 B3).
      pose proof (vd_cap _ _ _ _ A1) as CAP.
      assert (forall v, 0 < v < r_nvar (d_rec g') -> viewD g' v q ell = view1 g1 v q) as K.
      { intros v Hv. rewrite <- view1_proj by lia. apply (valid_det bnat l (proj ell g') g1 X _ (q + 1) VX B1); cbn [proj d_ord d_rec d_n d_par d_cc]; try congruence; try lia.
        intros k' j Hk' Hj. symmetry. apply upd_pack; auto; try lia; try congruence. }
      pose proof (w_dep _ _ _ _ (v_twf _ _ _ _ VX)) as WD. cbn [proj d_rec d_dep] in WD. rewrite Forall_forall in WD.
      assert (d_dep g' = g_dep f) as ED by congruence.
      unfold direction_of. rewrite <- (map_nth_seq (fun a => view1 g1 a q) _ 0). apply map_ext_in.
      intros i Hi. apply in_seq in Hi. rewrite A6, Dd.
      rewrite (nth_flat_dir (g_dep f) (fun a ell => viewD g' a q ell)) by lia.
      apply K, WD. rewrite ED. apply nth_In. lia.
    Qed.

    (** a Forward(q, xq) after a history with multiple direction calls *)
    Theorem forward_after_directions : forall h g q xq ys g',
      drun bnat junk f0 h = Some g -> forward bnat junk g q xq = Some (ys, g') ->
      let X := givenD b0 (g_n f) (h ++ [CFor q xq]) 0 in
      exists Y g1,
        forward bnat junk (with_dynamics f0 (dynamics h)) q (all_orders b0 (g_n f) q X) = Some (Y, g1) /\
        (if length xq =? g_n f then ys else order_of b0 (length (g_dep f)) q q ys) = order_of b0 (length (g_dep f)) q q Y.
    Proof.
      intros h g q xq ys g' R F X. destruct (goodD_history h g R) as (G1 & (S1 & S2 & S3 & S4 & S5) & G3 & G4 & G5).
      destruct (forward_validD TL bnat junk _ g _ q xq ys g' G1 F) as (A1 & A2 & A3 & A4 & A5 & A6 & A7 & A8 & A9).
      destruct (dyn_fields (dynamics h) f0) as (D1 & D2 & D3 & D4).
      set (l := head_ins n ++ body n (g_rec f)) in *. set (g0 := with_dynamics f0 (dynamics h)) in *.
      change (d_n f0) with (g_n f) in D1. change (d_dep f0) with (g_dep f) in D2.
      assert (d_n g = g_n f) as Dn by congruence. assert (d_dep g = g_dep f) as Dd by congruence.
      assert (valid bnat l g' X) as VX.
      { refine (valid_inputs bnat l _ _ _ _ (validD1 bnat l g' _ A1 A3)). intros k. unfold X, givenD. rewrite fold_left_app. cbn [fold_left givenD1].
        rewrite given_upd, Dn. auto. }
      assert (0 < g_n f) as Hn.
      { rewrite <- Dn. rewrite <- A6. apply (w_n _ _ _ _ (v_twf _ _ _ _ VX)). }
      pose proof (valid_empty bnat l _ _ X G3 G5) as V0'.
      destruct (forward_total TL bnat junk l g' g0 X q VX ltac:(lia) V0') as (Y & g1 & F1); try congruence.
      replace (d_n g') with (g_n f) in F1 by congruence. exists Y, g1. split; [exact F1|].
      destruct (forward_valid TL bnat junk _ g0 _ q _ Y g1 V0' F1) as (B1 & B2 & B3 & B4 & B5 & B6 & B7 & B8 & B9 & _).
      replace (d_n g0) with (g_n f) in * by congruence.
      assert (d_dep g1 = g_dep f) as ED1 by congruence.
      rewrite (order_qq Y g1 X q Hn ED1 B3).
      assert (d_dep g' = g_dep f) as ED by congruence.
      rewrite A4, Dn. pose proof (yout_order g' (g_n f) q xq q) as YO. rewrite ED in YO. rewrite YO.
      - apply map_ext_in. intros a Ha.
        pose proof (w_dep _ _ _ _ (v_twf _ _ _ _ VX)) as WD. rewrite Forall_forall in WD.
        apply (valid_det bnat l g' g1 X _ (q + 1) VX B1); try congruence; try lia.
        + intros k' j Hk' Hj. symmetry. apply upd_pack; auto; try lia; try congruence.
        + apply WD. congruence.
      - split; [|lia]. unfold low. destruct (length xq =? g_n f); lia.
    Qed.

    (** Reverse(q, w) after a history with multiple direction calls *)
    Theorem reverse_after_directions : forall h g q w z g',
      drun bnat junk f0 h = Some g -> reverse bnat junk g q w = Some (z, g') ->
      let X := givenD b0 (g_n f) h 0 in
      exists Y g1 g2,
        forward bnat junk (with_dynamics f0 (dynamics h)) (q - 1) (all_orders b0 (g_n f) (q - 1) X) = Some (Y, g1) /\
        reverse bnat junk g1 q w = Some (z, g2).
    Proof.
      intros h g q w z g' R F X. destruct (goodD_history h g R) as (G1 & (S1 & S2 & S3 & S4 & S5) & G3 & G4 & G5).
      destruct (reverse_validD bnat junk _ g g' _ q w z G1 F) as (A1 & (B1 & B2 & B3 & B4 & B5) & A3 & A4 & A5 & A6 & _).
      destruct (dyn_fields (dynamics h) f0) as (D1 & D2 & D3 & D4).
      set (l := head_ins n ++ body n (g_rec f)) in *. set (g0 := with_dynamics f0 (dynamics h)) in *.
      change (d_n f0) with (g_n f) in D1.
      pose proof (validD1 bnat l g' _ A1 A3) as VX. fold X in VX.
      assert (0 < g_n f) as Hn.
      { replace (g_n f) with (d_n g') by congruence. apply (w_n _ _ _ _ (v_twf _ _ _ _ VX)). }
      destruct (forward_total TL bnat junk l g' g0 X (q - 1) VX ltac:(lia) G5) as (Y & g1 & F1); try congruence.
      replace (d_n g') with (g_n f) in F1 by congruence. exists Y, g1.
      destruct (forward_valid TL bnat junk _ g0 _ _ _ Y g1 G5 F1) as (C1 & C2 & C3 & C4 & C5 & C6 & C7 & C8 & C9 & _).
      pose proof (reverse_det bnat junk l g' g1 _ _ q w VX C1) as K. rewrite A6 in K. cbn [option_map fst] in K.
      assert (Some z = option_map fst (reverse bnat junk g1 q w)) as K'.
      { apply K; try congruence; try lia.
        intros k j Hk Hj. symmetry. replace (d_n g0) with (g_n f) by congruence.
        apply upd_pack; auto; try lia; try congruence. }
      destruct (reverse bnat junk g1 q w) as [[z' g2]|]; [|discriminate]. cbn in K'. injection K' as <-.
      exists g2. split; auto.
    Qed.
  End Recorded.
End Dir.

(* ------------------------------------------------------------------------ *)
(** ** a concrete case in exact rational arithmetic: y0 = x0 * x1 / dyn + exp(x0),
    y1 = VecAD element *)
Local Notation q_ k := (Q2Qc (inject_Z k)).
Definition qx_e : nat -> AD Qbase := fun i =>
  @mkAD Qbase (match i with 0 => q_ 2 | 1 => q_ 1 | 2 => q_ 4 | _ => q_ 3 end) 0 0 T_con.
Definition qx_ev : nat -> VecAD Qbase := fun _ => @mkVec Qbase [q_ 10; q_ 20; q_ 30] 0 0 T_con.
Definition qx_p : prog Qc :=
  Pstep (Ibin Bmul 4 0 1) (
  Pstep (Ibin Bdiv 5 4 2) (
  Pstep (Iun Uexp 6 0) (
  Pstep (Ibin Badd 7 5 6) (
  Pstep (Ist 0 1 5) (
  Pstep (Ild 8 0 1) (
  Pret [7; 8])))))).
Local Notation qx_rec := (@record_fun Qbase 7 true 2 1 qx_e qx_ev qx_p (fun _ => q_ 0) (fun _ => 0)).
Lemma qx_hazard : @hazard_free Qbase 7 qx_p (@independent Qbase 7 true 2 1 qx_e qx_ev).
Proof. vm_compute. repeat (split; [first [exact I|discriminate]|]). first [exact I|discriminate]. Qed.
Lemma qx_on : @not_on_tape Qbase 7 qx_e qx_ev.
Proof. split; intros i; cbn; discriminate. Qed.
Lemma qx_some : match qx_rec with Some _ => true | None => false end = true.
Proof. vm_compute. reflexivity. Qed.
Lemma some_of {A} (o : option A) : match o with Some _ => true | None => false end = true -> exists f, o = Some f.
Proof. destruct o; [eauto|discriminate]. Qed.
Example qx_recorded : exists f, qx_rec = Some f /\
  @recorded Qbase 7 true 2 1 qx_e qx_ev qx_p (fun _ => q_ 0) (fun _ => 0) f.
Proof.
  destruct (some_of qx_rec qx_some) as [f E].
  exists f. exact (conj E (conj (Nat.neq_succ_0 6) (conj qx_on (conj E qx_hazard)))).
Qed.
Definition qx_drv (h : list (dcall Qc)) : option (adq Qbase) :=
  match qx_rec with
  | Some f => @drun Qbase Qnat (fun _ => q_ (-77)) (@drv_of Qbase (fun _ => q_ (-77)) f) h
  | None => None
  end.
Definition qx_show (o : option (list Qc)) : option (list Q) := option_map (map this) o.
(** two directions, orders 1 and 2 *)
Definition qx_hist : list (dcall Qc) :=
  [CFor 0 [q_ 2; q_ 1]; CDyn [q_ 5]; CFor 0 [q_ 3; q_ 1]; CForR 1 2 [q_ 1; q_ 2; q_ 0; q_ 4]].
Example qx_directions :
  match qx_drv qx_hist with
  | Some g => (d_ord g, d_dir g,
      qx_show (option_map fst (@forward_r Qbase Qnat (fun _ => q_ (-77)) g 2 2 [q_ 0; q_ 1; q_ 1; q_ 0])))
  | None => (0, 0, None)
  end = (2, 2, Some [28 # 5; 159 # 5; 3 # 5; 9 # 5]%Q).
Proof. vm_compute. reflexivity. Qed.
Example qx_direction1 :
  match qx_drv [CDyn [q_ 5]] with
  | Some g => qx_show (option_map fst (@forward Qbase Qnat (fun _ => q_ (-77)) g 2 [q_ 3; q_ 2; q_ 1; q_ 1; q_ 4; q_ 0]))
  | None => None
  end = Some [53 # 5; 114 # 5; 159 # 5; 3 # 5; 14 # 5; 9 # 5]%Q.
Proof. vm_compute. reflexivity. Qed.
