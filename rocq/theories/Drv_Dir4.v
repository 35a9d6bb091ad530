(** Several directions: histories. *)
From Coq Require Import ZArith List Bool Arith Lia FunctionalExtensionality.
From Verif Require Import Base_Spec Op_Model Tape_Spec Tape_Model Tape_Proof Tape_Proof2
  Sweep_Model Sweep_Eqs Sweep_Eqs2 Sweep_Tape Sweep_Uniq Field_Spec Sweep_Dir Drv_Spec Drv_Model Drv_Proof Drv_Proof2 Drv_Proof3 Drv_Proof4 Drv_Prop Drv_Dir Drv_Dir2 Drv_Dir3.
Import ListNotations.

Section Dir.
  Context {b : base} (TL : taylor_laws b) (bnat : nat -> bt b) (FL : field_laws b bnat).
  Notation T := (bt b).
  Variable junk : nat -> T.
  Notation valid := (valid bnat).
  Notation validD := (validD bnat).

  Definition same (f' f : adq b) : Prop :=
    d_rec f' = d_rec f /\ d_n f' = d_n f /\ d_dep f' = d_dep f /\ d_par f' = d_par f /\ d_cc f' = d_cc f.

  Lemma forward1_validD l f X q xq ys f' : validD l f X -> d_dir f = 1 -> forward bnat junk f q xq = Some (ys, f') ->
    validD l f' (fun ell => upd (d_n f) q xq (X ell)) /\ d_ord f' = q + 1 /\ d_dir f' = 1 /\
    ys = yout f' (d_n f) q xq /\ same f' f.
  Proof.
    intros V D1 H. pose proof (validD1 bnat l f X V D1) as V1.
    destruct (forward_valid TL bnat junk l f (X 0) q xq ys f' V1 H) as (A1 & A2 & A3 & A4 & A5 & A6 & A7 & A8 & _).
    assert (d_dir f' = 1) as D1' by (apply (v_dir _ _ _ _ A1); lia).
    split; [|repeat (split; auto)]. apply valid1D; auto.
    intros ell. unfold upd. pose proof (vd_X _ _ _ _ V ell) as E. rewrite E. reflexivity.
  Qed.

  Lemma forward_cap f q xq ys f' : d_dir f <> 1 -> 0 < d_n f -> d_ord f <= d_cap f ->
    forward bnat junk f q xq = Some (ys, f') ->
    exists o f1, capacity2 junk (set_ord f o) (Nat.max (q + 1) (d_cap f)) 1 = Some f1 /\ o <= d_ord f /\
      forward bnat junk f1 q xq = Some (ys, f').
  Proof.
    intros HD Hn HC H. pose proof H as H0. unfold forward in H.
    destruct ((length xq =? d_n f) || (length xq =? d_n f * (q + 1))) eqn:EL; [|discriminate].
    cbn [negb] in H. rewrite (low_p _ _ _ Hn EL) in H. set (p := low (d_n f) q xq) in *.
    assert (p = q \/ p = 0) as Hp by (unfold p, low; destruct (length xq =? d_n f); auto).
    destruct ((q <=? d_ord f) || (p =? 0)) eqn:EO; cbn [negb] in H; [|discriminate].
    destruct ((p <=? 1) || (d_dir f =? 1)) eqn:ED; cbn [negb] in H; [|discriminate].
    destruct (Nat.eqb_spec (d_dir f) 1) as [|_]; [contradiction|]. cbn [negb] in H. rewrite orb_true_r in H.
    rewrite orb_false_r in ED. apply Nat.leb_le in ED.
    set (o := if p =? 0 then 0 else q) in *.
    assert (o <= d_ord f) as Ho.
    { unfold o. destruct (Nat.eqb_spec p 0); [lia|]. rewrite orb_false_r in EO. now apply Nat.leb_le in EO. }
    assert (o <= 1) as Ho1 by (unfold o; destruct (Nat.eqb_spec p 0); lia).
    destruct (capacity2 junk (set_ord f o) (Nat.max (q + 1) (d_cap f)) 1) as [f1|] eqn:EC; [|discriminate].
    exists o, f1. split; auto. split; auto.
    assert (exists t, f1 = set_tay f t (Nat.max (q + 1) (d_cap f)) o 1) as (t & ->).
    { unfold capacity2 in EC. cbn [set_ord set_tay d_cap d_dir d_ord] in EC.
      destruct (Nat.eqb_spec 1 (d_dir f)); [lia|]. rewrite andb_false_r in EC.
      destruct (Nat.eqb_spec (Nat.max (q + 1) (d_cap f)) 0); [lia|]. cbn [orb] in EC.
      destruct (o <=? 1) eqn:E1; [|discriminate]. cbn [negb] in EC. injection EC as <-.
      eexists. unfold set_tay. cbn [d_rec d_n d_dep d_par d_l2v d_cc d_num d_opi d_skip]. f_equal. lia. }
    unfold forward. cbn [set_tay d_rec d_n d_dep d_par d_tay d_cap d_ord d_dir d_l2v d_cc d_num d_opi d_skip].
    rewrite EL. cbn [negb]. rewrite (low_p _ _ _ Hn EL). fold p.
    assert ((q <=? o) || (p =? 0) = true) as ->.
    { unfold o. destruct (Nat.eqb_spec p 0); [apply orb_true_r|]. now rewrite Nat.leb_refl. }
    cbn [negb Nat.eqb]. rewrite orb_true_r. cbn [negb].
    destruct (Nat.leb_spec (Nat.max (q + 1) (d_cap f)) q); [lia|]. cbn [orb].
    exact H.
  Qed.

  Lemma forward_validD l f X q xq ys f' : validD l f X -> forward bnat junk f q xq = Some (ys, f') ->
    validD l f' (fun ell => upd (d_n f) q xq (X ell)) /\ d_ord f' = q + 1 /\ d_dir f' = 1 /\
    ys = yout f' (d_n f) q xq /\ same f' f.
  Proof.
    intros V H. destruct (Nat.eq_dec (d_dir f) 1) as [D1|D1]; [apply forward1_validD; auto|].
    pose proof (w_n _ _ _ _ (v_twf _ _ _ _ (vd_zero _ _ _ _ V))) as Hn. cbn in Hn.
    destruct (forward_cap f q xq ys f' D1 Hn (vd_cap _ _ _ _ V) H) as (o & f1 & EC & Ho & H1).
    destruct (validD_cap2 bnat junk l _ f1 X _ _ (validD_set_ord bnat l f X o V Ho) EC) as (V1 & E2 & E3 & E4 & E5 & E6 & E7 & E8 & E9 & E10 & _).
    cbn [set_ord set_tay d_rec d_n d_dep d_par d_cc] in *.
    destruct (forward1_validD l f1 X q xq ys f' V1 E3 H1) as (A1 & A2 & A3 & A4 & A5 & A6 & A7 & A8 & A9).
    rewrite E6 in *. unfold same. repeat (split; auto); congruence.
  Qed.

  Lemma validD_cap l f f' X c : validD l f X -> capacity_order junk f c = Some f' ->
    validD l f' X /\ d_ord f' = Nat.min (d_ord f) c /\ same f' f.
  Proof.
    intros V H. unfold capacity_order in H.
    destruct ((c =? 0) || (c =? 1)); eapply validD_cap2 in H; eauto;
      destruct H as (V1 & E2 & E3 & E4 & E5 & E6 & E7 & E8 & E9 & E10 & _); unfold same; repeat (split; auto).
  Qed.
  Lemma validD_dyn l (f : adq b) X Y d : validD l f X -> (forall ell, Y ell 0 = Y 0 0) -> validD l (new_dyn f d) Y.
  Proof.
    intros [A B C E] HY. constructor; auto.
    - cbn. lia.
    - intros ell Hl. specialize (B ell Hl). destruct B as [B1 B2 B3 B4 B5]. constructor; auto; cbn; lia.
    - destruct C as [B1 B2 B3 B4 B5]. constructor; auto; cbn; lia.
  Qed.
  Lemma reverse_validD l (f f' : adq b) X q w z : validD l f X -> reverse bnat junk f q w = Some (z, f') ->
    validD l f' X /\ same f' f /\ d_dir f' = 1 /\ q <= d_ord f' /\ 0 < q /\ reverse bnat junk f' q w = Some (z, f') /\
    (d_ord f' = d_ord f \/ d_ord f' = 1).
  Proof.
    intros V H. unfold reverse in H.
    destruct ((length w =? length (d_dep f)) || (length w =? length (d_dep f) * q)) eqn:E1; cbn [negb] in H; [|discriminate].
    destruct (Nat.ltb_spec 0 q) as [Hq|]; cbn [negb] in H; [|discriminate].
    destruct (Nat.leb_spec q (d_ord f)) as [Ho|]; cbn [negb] in H; [|discriminate].
    destruct (if (q =? 1) && (1 <? d_dir f) then _ else _) as [f1|] eqn:EC; [|discriminate].
    destruct (Nat.eqb_spec (d_dir f1) 1) as [D1|]; cbn [negb] in H; [|discriminate].
    assert (validD l f1 X /\ same f1 f /\ q <= d_ord f1 /\ d_l2v f1 = d_l2v f /\ d_skip f1 = d_skip f /\
            (d_ord f1 = d_ord f \/ d_ord f1 = 1)) as (V1 & S1 & O1 & L1 & K1 & OO).
    { destruct ((q =? 1) && (1 <? d_dir f)) eqn:EB.
      - apply andb_true_iff in EB as [EB _]. apply Nat.eqb_eq in EB.
        destruct (validD_cap2 bnat junk l _ f1 X _ _ (validD_set_ord bnat l f X 1 V ltac:(lia)) EC) as (W1 & E2 & E3 & E4 & E5 & E6 & E7 & E8 & E9 & E10 & E11 & E12 & E13).
        pose proof (vd_cap _ _ _ _ V). cbn [set_ord set_tay d_rec d_n d_dep d_par d_cc d_ord d_l2v d_skip] in *.
        unfold same. repeat (split; auto); lia.
      - injection EC as <-. unfold same. repeat (split; auto). }
    destruct (decode _ _ _) as [l'|] eqn:ED; [|discriminate]. injection H as Hz <-.
    split; auto. split; auto. split; auto. split; auto. split; auto. split; auto.
    destruct S1 as (S1 & S2 & S3 & S4 & S5).
    unfold reverse. rewrite S1, S2, S3, S4, L1, K1, E1. destruct (Nat.ltb_spec 0 q); [|lia].
    destruct (Nat.leb_spec q (d_ord f1)); [|lia]. cbn [negb]. rewrite D1. cbn [Nat.ltb Nat.leb]. rewrite andb_false_r.
    rewrite D1. cbn [Nat.eqb negb]. rewrite ED, Hz. auto.
  Qed.
  Lemma validD_new l (f : adfun b) X : (forall ell, X ell 0 = X 0 0) -> twf (g_rec f) (g_n f) (g_dep f) l -> validD l (drv_of junk f) X.
  Proof.
    intros HX W. constructor; auto.
    - intros ell Hl. cbn in Hl. lia.
    - constructor; auto; cbn; lia.
  Qed.

  Definition goodD l (g0 g : adq b) X := validD l g X /\ same g g0 /\ d_ord g0 = 0 /\ d_cap g0 = 0 /\ valid l g0 (X 0).

  Lemma validD_inputs l (f : adq b) X Y : (forall ell k, X ell k = Y ell k) -> validD l f X -> validD l f Y.
  Proof.
    intros E V. assert (X = Y) as <-; auto. do 2 (apply functional_extensionality; intros ?). auto.
  Qed.
  Lemma goodD_run l h : forall g0 g X gf, goodD l g0 g X -> drun bnat junk g h = Some gf ->
    goodD l (with_dynamics g0 (dynamics h)) gf (fold_left (givenD1 b0 (d_n g0)) h X).
  Proof.
    induction h as [|c h IH]; intros g0 g X gf G R; cbn [drun] in R.
    - injection R as <-. exact G.
    - destruct (dstep bnat junk g c) as [g1|] eqn:E; [|discriminate].
      destruct G as (G1 & G2 & G3 & G4 & G5). pose proof G2 as (S1 & S2 & S3 & S4 & S5). cbn [fold_left].
      destruct c as [q xq|q r xq|q w|c|d]; cbn [dstep] in E; unfold dynamics; cbn [flat_map app].
      + destruct (forward bnat junk g q xq) as [[ys g']|] eqn:F; [|discriminate]. injection E as <-.
        destruct (forward_validD l g X q xq ys g' G1 F) as (A1 & A2 & A3 & A4 & A5 & A6 & A7 & A8 & A9).
        apply (IH g0 g' _ gf); auto. split; [|split; [unfold same; repeat (split; [congruence|]); congruence|split; [auto|split; [auto|]]]].
        * refine (validD_inputs l _ _ _ _ A1). intros ell k. cbn [givenD1]. now rewrite given_upd, <- S2.
        * exact (valid_empty bnat l _ _ _ G3 G5).
      + destruct (forward_r bnat junk g q r xq) as [[ys g']|] eqn:F; [|discriminate]. injection E as <-.
        destruct (forward_r_validD TL bnat FL junk l g X q r xq ys g' G1 F) as (A1 & A2 & A3 & A4 & A5 & A6 & A7 & A8 & A9 & A10 & A11).
        apply (IH g0 g' _ gf); auto. split; [|split; [unfold same; repeat (split; [congruence|]); congruence|split; [auto|split; [auto|]]]].
        * rewrite <- S2. exact A1.
        * exact (valid_empty bnat l _ _ _ G3 G5).
      + destruct (reverse bnat junk g q w) as [[z g']|] eqn:F; [|discriminate]. injection E as <-. cbn [snd] in R.
        destruct (reverse_validD l g g' X q w z G1 F) as (A1 & (B1 & B2 & B3 & B4 & B5) & _).
        apply (IH g0 g' _ gf); auto. split; [auto|split; [unfold same; repeat (split; [congruence|]); congruence|split; [auto|split; [auto|]]]].
        exact G5.
      + destruct (validD_cap l g g1 X c G1 E) as (A1 & A2 & (B1 & B2 & B3 & B4 & B5)).
        apply (IH g0 g1 _ gf); auto. split; [auto|split; [unfold same; repeat (split; [congruence|]); congruence|split; [auto|split; [auto|]]]].
        exact G5.
      + injection E as <-. change (goodD l (with_dynamics (new_dyn g0 d) (dynamics h)) gf (fold_left (givenD1 b0 (d_n (new_dyn g0 d))) h X)).
        apply (IH (new_dyn g0 d) (new_dyn g d) _ gf); auto.
        split; [eapply validD_dyn; eauto; apply (vd_X _ _ _ _ G1)|].
        split; [unfold same; cbn; repeat (split; [congruence|]); congruence|]. split; [auto|]. split; [auto|].
        eapply valid_dyn; eauto.
  Qed.
End Dir.
