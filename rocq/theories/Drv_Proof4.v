(** Histories of calls: the other driver functions keep the stored coefficients. *)
From Coq Require Import ZArith List Bool Arith Lia.
From Verif Require Import Base_Spec Op_Model Tape_Spec Tape_Model Tape_Proof Tape_Proof2
  Sweep_Model Sweep_Eqs Sweep_Eqs2 Sweep_Tape Sweep_Uniq Drv_Model Drv_Proof Drv_Proof2 Drv_Proof3 Sweep_RevExt.
Import ListNotations.

Section Drv.
  Context {b : base} (TL : taylor_laws b).
  Notation T := (bt b).
  Variable bnat : nat -> T.
  Variable junk : nat -> T.

  Lemma stored_keep l (f f' : adq b) X : twf (d_rec f) (d_n f) (d_dep f) l -> stored bnat l f X ->
    d_rec f' = d_rec f -> d_n f' = d_n f -> d_par f' = d_par f -> d_cc f' = d_cc f -> d_l2v f' = d_l2v f ->
    0 < d_ord f' <= d_ord f ->
    (forall v k, v < r_nvar (d_rec f) -> k < d_ord f' -> view1 f' v k = view1 f v k) ->
    stored bnat l f' X.
  Proof.
    intros W [(V0 & l0 & t & A1 & A2 & A3 & A4) A5 A6 A7] E1 E2 E3 E4 E5 O HV.
    constructor.
    - exists V0, l0, t. rewrite E1, E2, E3, E4, E5. repeat split; auto. intros v Hv. rewrite HV by lia. auto.
    - now rewrite E5.
    - intros k Hk. rewrite E3, E5. apply (ins_sat_ext_all bnat (d_par f) _ l 0 0 (view1 f) _ (d_l2v f) _ k (w_wfl _ _ _ _ W)); auto.
      + intros v k' Hv Hk'. symmetry. apply HV; [rewrite (w_nv _ _ _ _ W); lia|lia].
      + apply A6. lia.
    - intros j k Hj Hk. rewrite E2 in Hj. rewrite HV; [apply A7; lia| |lia].
      destruct (w_inv _ _ _ _ W j Hj) as (i & Hi & Ho & <-). rewrite (w_nv _ _ _ _ W).
      apply (tres_bound _ l 0 0 (w_wfl _ _ _ _ W)); auto. rewrite Ho. cbn. lia.
  Qed.

  Lemma valid_cap l (f f' : adq b) X c : valid bnat l f X -> capacity_order junk f c = Some f' ->
    valid bnat l f' X /\ d_ord f' = Nat.min (d_ord f) c /\ 
    d_rec f' = d_rec f /\ d_n f' = d_n f /\ d_dep f' = d_dep f /\ d_par f' = d_par f /\ d_cc f' = d_cc f.
  Proof.
    intros [W VC VD VS ST] H. unfold capacity_order in H.
    assert (exists r, capacity2 junk f c r = Some f' /\ (0 < Nat.min (d_ord f) c -> r = 1)) as (r & Hc & Hr).
    { destruct ((c =? 0) || (c =? 1)) eqn:E.
      - exists c. split; auto. intros. apply orb_true_iff in E as [E|E]; apply Nat.eqb_eq in E; lia.
      - eexists. split; [exact H|]. intros. rewrite VD by lia. auto. }
    destruct (capacity2_spec junk f f' c r Hc VC ltac:(lia)) as (C1 & C2 & C3 & C4 & C5 & C6 & C7 & C8 & C9 & C10 & C11 & C12 & C13).
    split; [|repeat split; auto].
    constructor.
    - now rewrite C5, C6, C7.
    - rewrite C3, C1. lia.
    - intros O. rewrite C2. apply Hr. lia.
    - intros j. now rewrite C13.
    - intros O. apply (stored_keep l f); auto; try lia.
      + apply ST. lia.
      + intros v k Hv Hk. unfold view1. rewrite C1.
        rewrite <- (tidx1 c v k), <- (tidx1 (d_cap f) v k) by lia.
        rewrite (Hr ltac:(lia)) in *. rewrite (VD ltac:(lia)) in *. apply C4; auto; lia.
  Qed.

  Lemma valid_dyn l (f : adq b) X Y d : valid bnat l f X -> valid bnat l (new_dyn f d) Y.
  Proof. intros [W VC VD VS ST]. constructor; auto; cbn; lia. Qed.

  Lemma valid_rev l (f f' : adq b) X q w z : valid bnat l f X -> reverse bnat junk f q w = Some (z, f') -> f' = f.
  Proof.
    intros [W VC VD VS ST] H. unfold reverse in H.
    destruct (negb _); [discriminate|]. destruct (Nat.ltb_spec 0 q); [|discriminate]. cbn [negb] in H.
    destruct (Nat.leb_spec q (d_ord f)); [|discriminate]. cbn [negb] in H.
    rewrite (VD ltac:(lia)) in H. rewrite andb_false_r in H. rewrite (VD ltac:(lia)) in H. cbn [Nat.eqb negb] in H.
    destruct (decode _ _ _); [|discriminate]. injection H as _ <-. auto.
  Qed.

  Lemma valid_new l (f : adfun b) X : twf (g_rec f) (g_n f) (g_dep f) l -> valid bnat l (drv_of junk f) X.
  Proof. intros W. constructor; auto; cbn; lia. Qed.

  Lemma valid_det_l2v l (f g : adq b) X Y :
    valid bnat l f X -> valid bnat l g Y -> d_rec g = d_rec f -> d_n g = d_n f -> d_par g = d_par f -> d_cc g = d_cc f ->
    0 < d_ord f -> 0 < d_ord g ->
    (forall j, j < d_n f -> nth j (X 0) b0 = nth j (Y 0) b0) ->
    forall m, m < nload l -> d_l2v f m = d_l2v g m.
  Proof.
    intros Vf Vg E1 E2 E3 E4 Mf Mg HX m Hm.
    pose proof (v_twf _ _ _ _ Vf) as W.
    destruct (v_st _ _ _ _ Vf ltac:(lia)) as [(V0 & l0 & t & A1 & A2 & A3 & A4) A5 A6 A7].
    destruct (v_st _ _ _ _ Vg ltac:(lia)) as [(V0' & l0' & t' & B1 & B2 & B3 & B4) B5 B6 B7].
    rewrite ?E1, ?E2, ?E3, ?E4 in *.
    assert (forall i, In i l -> i_op i = InvOp -> exists j, j < d_n f /\ i_var i = S j) as INV.
    { intros i Hi Ho. pose proof (w_inv2 _ _ _ _ W i Hi Ho). exists (i_var i - 1). lia. }
    destruct (sweep0_eq (d_par f) (length (r_par (d_rec f))) (d_cc f) l 0 0 0 0
                (init0 (d_rec f) V0 l0) (init0 (d_rec f) V0' l0') t) as (t2 & C1 & C2 & _); auto.
    { apply (w_wfl _ _ _ _ W). }
    { intros m' Hm'. discriminate. }
    { constructor; auto; intros; lia. }
    { intros i Hi Ho. destruct (INV i Hi Ho) as (j & Hj & ->). cbn. rewrite A2, B2 by auto. apply HX; lia. }
    rewrite B1 in C1. injection C1 as <-. rewrite A4, B4 by lia. apply (e0_l2v _ _ _ _ _ C2). lia.
  Qed.

  (** Reverse(q, w) depends only on the inputs of orders less than q *)
  Lemma reverse_det l (f g : adq b) X Y q w :
    valid bnat l f X -> valid bnat l g Y -> d_rec g = d_rec f -> d_n g = d_n f -> d_par g = d_par f -> d_cc g = d_cc f ->
    d_dep g = d_dep f -> q <= d_ord f -> q <= d_ord g ->
    (forall k j, k < q -> j < d_n f -> nth j (X k) b0 = nth j (Y k) b0) ->
    option_map fst (reverse bnat junk f q w) = option_map fst (reverse bnat junk g q w).
  Proof.
    intros Vf Vg E1 E2 E3 E4 E5 Mf Mg HX. unfold reverse. rewrite E1, E2, E3, E5.
    destruct (negb _); auto. destruct (Nat.ltb_spec 0 q) as [Hq|]; auto. cbn [negb].
    destruct (Nat.leb_spec q (d_ord f)); [|lia]. destruct (Nat.leb_spec q (d_ord g)); [|lia]. cbn [negb].
    rewrite (v_dir _ _ _ _ Vf), (v_dir _ _ _ _ Vg) by lia. rewrite andb_false_r.
    rewrite (v_dir _ _ _ _ Vf), (v_dir _ _ _ _ Vg) by lia. cbn [Nat.eqb negb].
    pose proof (v_twf _ _ _ _ Vf) as W. rewrite (w_dec _ _ _ _ W). cbn [option_map fst]. f_equal.
    assert (forall p, sweep_rev bnat (d_par f) (view1 f) (d_l2v f) (d_skip f) (q - 1) l 0 p =
                      sweep_rev bnat (d_par f) (view1 g) (d_l2v g) (d_skip g) (q - 1) l 0 p) as K.
    { intros p. replace (d_skip g) with (d_skip f).
      2:{ apply FunctionalExtensionality.functional_extensionality. intros j. now rewrite (v_skip _ _ _ _ Vf), (v_skip _ _ _ _ Vg). }
      apply (sweep_rev_ext bnat (d_par f) _ l 0 0 0 _ _ _ _ _ _ _ (w_wfl _ _ _ _ W)).
      - intros v k Hv Hk. apply (valid_det bnat l f g X Y q Vf Vg); auto; try lia. rewrite (w_nv _ _ _ _ W). lia.
      - intros m Hm. apply (valid_det_l2v l f g X Y Vf Vg); auto; try lia. }
    rewrite K. reflexivity.
  Qed.
End Drv.
