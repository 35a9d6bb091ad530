(** Several directions: what the driver functions do to the stored coefficients. *)
From Coq Require Import ZArith List Bool Arith Lia FunctionalExtensionality.
From Verif Require Import Base_Spec Op_Model Tape_Spec Tape_Model Tape_Proof Tape_Proof2
  Sweep_Model Sweep_Eqs Sweep_Eqs2 Sweep_Tape Sweep_Uniq Field_Spec Sweep_Dir Drv_Spec Drv_Model Drv_Proof Drv_Proof2 Drv_Proof3 Drv_Proof4 Drv_Prop Drv_Dir Drv_Dir2.
Import ListNotations.

Section Dir.
  Context {b : base} (TL : taylor_laws b) (bnat : nat -> bt b) (FL : field_laws b bnat).
  Notation T := (bt b).
  Variable junk : nat -> T.
  Notation valid := (valid bnat).
  Notation validD := (validD bnat).

  Lemma nth_mapseq {A} (g : nat -> A) n j d : j < n -> nth j (map g (seq 0 n)) d = g j.
  Proof.
    intros H. rewrite (nth_indep _ d (g 0)) by (rewrite map_length, seq_length; auto).
    now rewrite (map_nth g), seq_nth.
  Qed.
  Definition updR (n q r : nat) (xq : list T) (X : nat -> nat -> list T) : nat -> nat -> list T :=
    fun ell k => if k =? q then map (fun j => nth (j * r + ell) xq b0) (seq 0 n) else X ell k.

  Lemma forward_r_validD l f X q r xq ys f' : validD l f X -> forward_r bnat junk f q r xq = Some (ys, f') ->
    validD l f' (updR (d_n f) q r xq X) /\ d_ord f' = q + 1 /\ d_dir f' = r /\ 0 < q /\ q <= d_ord f /\
    ys = flat_map (fun a => map (fun ell => viewD f' a q ell) (seq 0 r)) (d_dep f) /\
    d_rec f' = d_rec f /\ d_n f' = d_n f /\ d_dep f' = d_dep f /\ d_par f' = d_par f /\ d_cc f' = d_cc f.
  Proof.
    intros VD H. unfold forward_r in H. set (n := d_n f) in *.
    destruct (Nat.eqb_spec q 0) as [|Hq]; [discriminate|].
    destruct (Nat.eqb_spec (length xq) (r * n)) as [EL|]; cbn [negb] in H; [|discriminate].
    destruct (Nat.leb_spec q (d_ord f)) as [EO|]; cbn [negb] in H; [|discriminate].
    destruct ((q =? 1) || (d_dir f =? r)) eqn:EQ; cbn [negb] in H; [|discriminate].
    destruct (if (d_cap f <=? q) || negb (d_dir f =? r) then _ else _) as [f1|] eqn:EC; [|discriminate].
    pose proof (vd_cap _ _ _ _ VD) as CAP.
    assert (validD l f1 X /\ q < d_cap f1 /\ d_dir f1 = r /\ q <= d_ord f1 /\
      d_rec f1 = d_rec f /\ d_n f1 = d_n f /\ d_dep f1 = d_dep f /\ d_par f1 = d_par f /\
      d_l2v f1 = d_l2v f /\ d_cc f1 = d_cc f /\ d_skip f1 = d_skip f) as
      (V1 & C1 & C2 & C3 & C4 & C5 & C6 & C7 & C8 & C9 & C10).
    { destruct ((d_cap f <=? q) || negb (d_dir f =? r)) eqn:EB.
      - set (f2 := if negb (d_dir f =? r) then set_ord f 1 else f) in *.
        assert (validD l f2 X /\ q <= d_ord f2 /\ d_rec f2 = d_rec f /\ d_n f2 = d_n f /\ d_dep f2 = d_dep f /\ d_par f2 = d_par f /\
           d_l2v f2 = d_l2v f /\ d_cc f2 = d_cc f /\ d_skip f2 = d_skip f) as (V2 & D1 & D2 & D3 & D4 & D5 & D6 & D7 & D8).
        { unfold f2. destruct (d_dir f =? r) eqn:ED; cbn [negb].
          - repeat (split; auto).
          - rewrite orb_false_r in EQ. apply Nat.eqb_eq in EQ. split; [apply validD_set_ord; auto; lia|].
            cbn. repeat (split; auto). lia. }
        destruct (validD_cap2 bnat junk l f2 f1 X _ _ V2 EC) as (E1 & E2 & E3 & E4 & E5 & E6 & E7 & E8 & E9 & E10 & E11 & E12 & E13).
        split; auto. rewrite E2, E4. split; [lia|]. split; [auto|]. split; [lia|].
        repeat (split; [congruence|]). congruence.
      - injection EC as <-. apply orb_false_iff in EB as [E1 E2].
        apply Nat.leb_gt in E1. apply negb_false_iff, Nat.eqb_eq in E2. repeat (split; auto). }
    set (D1 := fun i k ell => if (1 <=? i) && (i <=? n) && (k =? q) && (ell <? r)
                        then nth (r * (i - 1) + ell) xq b0 else viewD f1 i k ell) in *.
    destruct (decode _ _ _) as [l'|] eqn:EDec; [|discriminate].
    destruct (sweep_dir _ _ _ _ _ _ _ _ _) as [D|] eqn:ES; [|discriminate].
    injection H as Hy Hf'.
    pose proof (vd_zero _ _ _ _ V1) as VZ.
    pose proof (v_twf _ _ _ _ VZ) as W. cbn [zero proj set_ord set_tay d_rec d_n d_dep] in W. rewrite C4, C5, C6 in W.
    assert (l' = l) as -> by (pose proof (w_dec _ _ _ _ W); congruence).
    pose proof (w_wfl _ _ _ _ W) as WL. pose proof (w_inv _ _ _ _ W) as WI.
    assert (d_rec f' = d_rec f /\ d_n f' = d_n f /\ d_dep f' = d_dep f /\ d_par f' = d_par f /\ d_cc f' = d_cc f /\
            d_ord f' = q + 1 /\ d_l2v f' = d_l2v f /\ d_dir f' = r /\ d_skip f' = d_skip f /\ d_cap f' = d_cap f1 /\
            d_tay f' = flatD (d_cap f1) r D) as
      (F1 & F2 & F3 & F4 & F5 & F6 & F7 & F8 & F9 & F10 & F11) by (rewrite <- Hf'; repeat split; auto).
    assert (forall j, d_skip f j = false) as SK.
    { intros j. rewrite <- C10. apply (v_skip _ _ _ _ VZ). }
    assert (forall ell i, D1 i 0 ell = viewD f1 i 0 ell) as D10.
    { intros ell i. unfold D1. destruct (Nat.eqb_spec 0 q); [lia|]. now rewrite andb_false_r. }
    assert (0 < d_cap f1) as CP by lia.
    (* the sweep in one direction *)
    assert (forall ell, ell < r ->
      (forall v j, j <> q -> D v j ell = D1 v j ell) /\
      Forall (ins_sat bnat (d_par f) (dirv D ell) (d_l2v f) q) l /\
      (forall i j, In i l -> i_op i = InvOp -> D (i_var i) j ell = D1 (i_var i) j ell)) as SW.
    { intros ell Hl. pose proof (vd_dir _ _ _ _ V1 ell ltac:(lia)) as Vl.
      destruct (v_st _ _ _ _ Vl) as [S1 S2 S3 S4]; [cbn; lia|]. cbn [proj d_l2v] in S2. rewrite C8 in S2.
      destruct (sweep_dir_any bnat FL (d_par f) (d_cc f) q r (d_l2v f) (d_skip f) ell l ltac:(lia) Hl D1 D 0
                  (fun _ => false) (fun _ => 0) 0 0 ES) as (n1 & o1 & SA).
      destruct (sweep_any_spec TL bnat (d_par f) (length (r_par (d_rec f))) (d_cc f) q q l 0 0 0
          (mkQ (dirv D1 ell) (fun _ => false) (fun _ => 0) (d_l2v f) 0 0 (d_skip f)) _ WL SK ltac:(intros; lia) ltac:(auto) SA)
        as (A1 & A2 & A3 & A4 & A5 & A6).
      cbn [q_V q_l2v] in A1, A2, A5. split; [|split].
      - intros v j Hj. apply (A1 v j). lia.
      - apply A2. lia.
      - intros i j Hi Ho. apply (A5 i (i_var i) j); auto. }
    assert (forall i, D i 0 0 = viewD f1 i 0 0) as Z0.
    { intros i. destruct (Nat.eq_dec r 0) as [Hr|Hr].
      - rewrite (sweep_dir_any0 bnat (d_par f) q r (d_l2v f) (d_skip f) 0 l _ _ _ ES) by lia. apply D10.
      - destruct (SW 0 ltac:(lia)) as [A _]. rewrite A by lia. apply D10. }
    assert (forall ell i, viewD f' i 0 ell = viewD f1 i 0 0) as W0.
    { intros ell i. unfold viewD. rewrite F8, F10, F11. change (tidx (d_cap f1) r i 0 ell) with (tidx (d_cap f1) r i 0 0).
      rewrite flatD_view by (auto; lia). rewrite Z0. unfold viewD. now rewrite C2. }
    assert (forall ell, ell < r -> forall v k, k <= q -> viewD f' v k ell = D v k ell) as VV.
    { intros ell Hl v k Hk. destruct (Nat.eq_dec k 0) as [->|Hk0].
      - rewrite W0. destruct (SW ell Hl) as [A _]. rewrite A by lia. rewrite D10. symmetry. apply viewD0.
      - unfold viewD. rewrite F8, F10, F11. apply flatD_view; auto; lia. }
    split; [constructor|].
    - rewrite F6, F10. lia.
    - intros ell Hl. rewrite F8 in Hl. pose proof (vd_dir _ _ _ _ V1 ell ltac:(lia)) as Vl.
      destruct (v_st _ _ _ _ Vl) as [S1 S2 S3 S4]; [cbn; lia|]. cbn [proj d_l2v d_n d_ord d_par d_rec d_cc] in *.
      rewrite C4, C5, C7, C8, C9 in *. destruct (SW ell Hl) as (A1 & A2 & A3).
      assert (forall v k, k <= q -> view1 (proj ell f') v k = dirv D ell v k) as VP.
      { intros v k Hk. rewrite view1_proj by lia. now apply VV. }
      assert (forall v k, k < q -> view1 (proj ell f') v k = view1 (proj ell f1) v k) as KEEP.
      { intros v k Hk. rewrite VP by lia. rewrite view1_proj by lia. unfold dirv. rewrite A1 by lia.
        unfold D1. destruct (Nat.eqb_spec k q); [lia|]. now rewrite andb_false_r. }
      constructor; cbn [proj d_rec d_n d_dep d_par d_cap d_ord d_dir d_l2v d_cc d_skip].
      + rewrite F1, F2, F3. exact W.
      + rewrite F6, F10. lia.
      + auto.
      + rewrite F9. auto.
      + intros _. constructor; cbn [proj d_rec d_n d_dep d_par d_cap d_ord d_dir d_l2v d_cc d_skip].
        * rewrite F1, F2, F4, F5, F7. destruct S1 as (U0 & l0 & t & B1 & B2 & B3 & B4).
          exists U0, l0, t. split; [auto|split; [|split]]; auto.
          -- intros j Hj. unfold updR. destruct (Nat.eqb_spec 0 q); [lia|auto].
          -- intros v Hv. rewrite KEEP by lia. auto.
        * rewrite F7. auto.
        * rewrite F4, F6, F7. intros k Hk. destruct (Nat.eq_dec k q) as [->|Hkq].
          -- apply (ins_sat_ext_all bnat (d_par f) (length (r_par (d_rec f))) l 0 0 (dirv D ell) _ (d_l2v f) _ q); auto.
             intros v k' Hv Hk'. symmetry. apply VP. lia.
          -- apply (ins_sat_ext_all bnat (d_par f) (length (r_par (d_rec f))) l 0 0 (view1 (proj ell f1)) _ (d_l2v f) _ k); auto.
             ++ intros v k' Hv Hk'. symmetry. apply KEEP. lia.
             ++ apply S3. lia.
        * rewrite F2, F6. intros j k Hj Hk. destruct (Nat.eq_dec k q) as [->|Hkq].
          -- rewrite VP by lia. unfold dirv, updR. rewrite Nat.eqb_refl.
             destruct (WI j Hj) as (i & Hi & Ho & Hv). rewrite <- Hv, A3 by auto. rewrite Hv. unfold D1.
             rewrite Nat.eqb_refl. fold n in Hj. destruct (Nat.leb_spec 1 (S j)), (Nat.leb_spec (S j) n), (Nat.ltb_spec ell r); try lia. cbn [andb].
             rewrite (nth_mapseq (fun j => nth (j * r + ell) xq b0)) by auto. f_equal. nia.
          -- rewrite KEEP by lia. unfold updR. destruct (Nat.eqb_spec k q); [lia|]. apply S4; auto; lia.
    - refine (valid_keep bnat l (zero f1) (zero f') _ _ VZ _ _ _ _ _ _ _ _ _ _ _ _); cbn [zero proj set_ord set_tay d_rec d_n d_dep d_par d_cap d_ord d_dir d_l2v d_cc d_skip]; try congruence; try lia.
      + intros v k Hv Hk. replace k with 0 by lia. rewrite !view1_zero by lia. apply W0.
      + intros k Hk. unfold updR. destruct (Nat.eqb_spec k q); [lia|auto].
    - intros ell. unfold updR. destruct (Nat.eqb_spec 0 q); [lia|]. apply (vd_X _ _ _ _ V1).
    - repeat (split; [auto; lia|]). split; [|auto].
      rewrite <- Hy. apply flat_map_ext_in. intros a Ha. apply map_ext_in. intros ell Hl. apply in_seq in Hl.
      symmetry. apply VV; lia.
  Qed.
End Dir.
