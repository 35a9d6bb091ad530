(** Several directions: the driver functions (exact arithmetic). *)
From Coq Require Import ZArith List Bool Arith Lia FunctionalExtensionality.
From Verif Require Import Base_Spec Op_Model Tape_Spec Tape_Model Tape_Proof Tape_Proof2
  Sweep_Model Sweep_Eqs Sweep_Eqs2 Sweep_Tape Sweep_Uniq Field_Spec Sweep_Dir Drv_Spec Drv_Model Drv_Proof Drv_Proof2 Drv_Proof3 Drv_Proof4 Drv_Prop Drv_Dir.
Import ListNotations.

Section Dir.
  Context {b : base} (TL : taylor_laws b) (bnat : nat -> bt b) (FL : field_laws b bnat).
  Notation T := (bt b).
  Variable junk : nat -> T.
  Notation valid := (valid bnat).

  Lemma tidx_div C R i k ell : k < C -> (k = 0 -> ell = 0) -> (0 < k -> ell < R) ->
    tidx C R i k ell / ((C - 1) * R + 1) = i /\
    tidx C R i k ell mod ((C - 1) * R + 1) = if k =? 0 then 0 else (k - 1) * R + ell + 1.
  Proof.
    intros A1 A2 A3. unfold tidx. pose proof (tidx_split C R k ell A1 A2 A3) as H. cbn zeta in H.
    set (w := (C - 1) * R + 1) in *. set (m := if k =? 0 then 0 else (k - 1) * R + ell + 1) in *.
    assert (w <> 0) by (unfold w; lia). split.
    - rewrite Nat.mul_comm, Nat.div_add_l, Nat.div_small by auto. lia.
    - rewrite (Nat.mul_comm w), Nat.add_comm, Nat.mod_add, Nat.mod_small by auto. auto.
  Qed.
  Lemma flatD_view C R (D : nat -> nat -> nat -> T) i k ell : k < C -> (k = 0 -> ell = 0) -> (0 < k -> ell < R) ->
    flatD C R D (tidx C R i k ell) = D i k ell.
  Proof.
    intros A1 A2 A3. unfold flatD. destruct (tidx_div C R i k ell A1 A2 A3) as [-> ->].
    destruct (Nat.eqb_spec k 0) as [->|]; cbn [Nat.eqb].
    - now rewrite (A2 eq_refl).
    - specialize (A3 ltac:(lia)). rewrite Nat.add_1_r. cbn [Nat.eqb]. 
      replace (S ((k - 1) * R + ell) - 1) with ((k - 1) * R + ell) by (generalize ((k - 1) * R); intros; lia).
      rewrite Nat.div_add_l, Nat.div_small by lia.
      rewrite (Nat.add_comm _ ell), Nat.mod_add, Nat.mod_small by lia. f_equal. lia.
  Qed.

  (** direction [ell] as a one direction object *)
  Definition proj (ell : nat) (f : adq b) : adq b :=
    mkA (d_rec f) (d_n f) (d_dep f) (d_par f) (flat1 (d_cap f) (fun i k => viewD f i k ell)) (d_cap f) (d_ord f) 1
        (d_l2v f) (d_cc f) (d_num f) (d_opi f) (d_skip f).
  Definition zero (f : adq b) : adq b := set_ord (proj 0 f) (Nat.min (d_ord f) 1).
  Lemma view1_proj ell (f : adq b) i k : k < d_cap f -> view1 (proj ell f) i k = viewD f i k ell.
  Proof. intros H. unfold view1, proj. cbn [d_tay d_cap]. now rewrite flat1_view. Qed.
  Lemma view1_zero (f : adq b) i : 0 < d_cap f -> view1 (zero f) i 0 = viewD f i 0 0.
  Proof. intros H. unfold view1, zero, proj. cbn [set_ord set_tay d_tay d_cap]. now rewrite flat1_view. Qed.
  Lemma viewD0 (f : adq b) i ell : viewD f i 0 ell = viewD f i 0 0.
  Proof. reflexivity. Qed.

  Lemma valid_keep l (f f' : adq b) X Y : valid l f X ->
    d_rec f' = d_rec f -> d_n f' = d_n f -> d_dep f' = d_dep f -> d_par f' = d_par f -> d_cc f' = d_cc f ->
    d_l2v f' = d_l2v f -> d_skip f' = d_skip f ->
    d_ord f' <= d_ord f -> d_ord f' <= d_cap f' -> (0 < d_ord f' -> d_dir f' = 1) ->
    (forall v k, v < r_nvar (d_rec f) -> k < d_ord f' -> view1 f' v k = view1 f v k) ->
    (forall k, k < d_ord f' -> X k = Y k) ->
    valid l f' Y.
  Proof.
    intros [W VC VD VS ST] E1 E2 E3 E4 E5 E6 E7 O1 O2 HD HV HX. constructor.
    - now rewrite E1, E2, E3.
    - auto.
    - auto.
    - intros j. now rewrite E7.
    - intros O. destruct (stored_keep bnat l f f' X W (ST ltac:(lia)) E1 E2 E4 E5 E6 ltac:(lia) HV) as [G1 G2 G3 G4].
      constructor; auto.
      + destruct G1 as (V0 & l0 & t & H1 & H2 & H3). exists V0, l0, t. rewrite <- HX by auto. auto.
      + intros. rewrite <- HX by auto. auto.
  Qed.

  Record validD (l : list ins) (f : adq b) (X : nat -> nat -> list T) : Prop := {
    vd_cap : d_ord f <= d_cap f;
    vd_dir : forall ell, ell < d_dir f -> valid l (proj ell f) (X ell);
    vd_zero : valid l (zero f) (X 0);
    vd_X : forall ell, X ell 0 = X 0 0 }.

  Lemma validD1 l (f : adq b) X : validD l f X -> d_dir f = 1 -> valid l f (X 0).
  Proof.
    intros [C D Z E] H1. refine (valid_keep l (proj 0 f) f (X 0) (X 0) (D 0 ltac:(lia)) _ _ _ _ _ _ _ _ _ _ _ _); auto.
    intros v k Hv Hk. rewrite view1_proj by lia. unfold viewD, view1. rewrite H1, tidx1 by lia. auto.
  Qed.
  Lemma valid1D l (f : adq b) X : valid l f (X 0) -> d_dir f = 1 -> (forall ell, X ell 0 = X 0 0) -> validD l f X.
  Proof.
    intros V H1 HX. pose proof (v_cap _ _ _ _ V) as C.
    assert (forall i k, k < d_cap f -> viewD f i k 0 = view1 f i k) as E.
    { intros i k Hk. unfold viewD, view1. rewrite H1, tidx1 by lia. auto. }
    constructor; auto.
    - intros ell Hl. assert (ell = 0) by lia. subst ell.
      refine (valid_keep l f (proj 0 f) (X 0) (X 0) V _ _ _ _ _ _ _ _ _ _ _ _); auto.
      intros v k Hv Hk. cbn [proj d_ord] in Hk. rewrite view1_proj by lia. apply E. lia.
    - refine (valid_keep l f (zero f) (X 0) (X 0) V _ _ _ _ _ _ _ _ _ _ _ _); auto.
      + cbn. lia.
      + cbn. lia.
      + intros v k Hv Hk. cbn [zero set_ord set_tay d_ord] in Hk. replace k with 0 by lia. rewrite view1_zero by lia. apply E. lia.
  Qed.

  Lemma validD_set_ord l (f : adq b) X o : validD l f X -> o <= d_ord f -> validD l (set_ord f o) X.
  Proof.
    intros [C D Z E] H. constructor; auto.
    - cbn. lia.
    - intros ell Hl. cbn in Hl.
      refine (valid_keep l (proj ell f) _ _ _ (D ell Hl) _ _ _ _ _ _ _ _ _ _ _ _); auto. cbn. lia.
    - refine (valid_keep l (zero f) _ _ _ Z _ _ _ _ _ _ _ _ _ _ _ _); auto; cbn; lia.
  Qed.

  Lemma capacity2_dir (f f' : adq b) c r : capacity2 junk f c r = Some f' -> d_ord f <= d_cap f ->
    r = d_dir f \/ d_ord f' <= 1.
  Proof.
    unfold capacity2. intros H HC. destruct (Nat.eqb_spec c (d_cap f)) as [->|]; cbn [andb] in H.
    - destruct (Nat.eqb_spec r (d_dir f)); auto.
      destruct (d_cap f =? 0); [destruct (r =? 0); [injection H as <-; cbn; auto|discriminate]|].
      cbn [orb] in H. destruct (Nat.leb_spec (d_ord f) 1); [|discriminate]. injection H as <-. cbn. lia.
    - destruct (c =? 0); [destruct (r =? 0); [injection H as <-; cbn; auto|discriminate]|].
      destruct (Nat.eqb_spec r (d_dir f)); auto.
      cbn [orb] in H. destruct (Nat.leb_spec (d_ord f) 1); [|discriminate]. injection H as <-. cbn. lia.
  Qed.

  Lemma validD_cap2 l (f f' : adq b) X c r : validD l f X -> capacity2 junk f c r = Some f' ->
    validD l f' X /\ d_cap f' = c /\ d_dir f' = r /\ d_ord f' = Nat.min (d_ord f) c /\
    d_rec f' = d_rec f /\ d_n f' = d_n f /\ d_dep f' = d_dep f /\ d_par f' = d_par f /\
    d_l2v f' = d_l2v f /\ d_cc f' = d_cc f /\ d_num f' = d_num f /\ d_opi f' = d_opi f /\ d_skip f' = d_skip f.
  Proof.
    intros [C D Z E] H. pose proof (capacity2_dir f f' c r H C) as HD.
    destruct (capacity2_spec junk f f' c r H C ltac:(lia)) as (C1 & C2 & C3 & C4 & C5 & C6 & C7 & C8 & C9 & C10 & C11 & C12 & C13).
    split; [|repeat (split; auto)].
    assert (forall i k ell, i < r_nvar (d_rec f) -> k < d_ord f' -> (k = 0 -> ell = 0) -> (0 < k -> ell < d_dir f) ->
       viewD f' i k ell = viewD f i k ell) as HV.
    { intros. unfold viewD. rewrite C1, C2. apply C4; auto. }
    constructor; auto.
    - lia.
    - intros ell Hl. rewrite C2 in Hl. destruct HD as [HD|HD].
      + refine (valid_keep l (proj ell f) _ _ _ (D ell ltac:(lia)) _ _ _ _ _ _ _ _ _ _ _ _); auto; cbn [proj d_ord d_cap d_rec]; try lia.
        intros v k Hv Hk. rewrite !view1_proj by lia. destruct k; [apply (HV v 0 0); auto; lia|apply HV; lia].
      + refine (valid_keep l (zero f) _ _ _ Z _ _ _ _ _ _ _ _ _ _ _ _); auto; cbn [zero proj set_ord set_tay d_ord d_cap d_rec]; try lia.
        * intros v k Hv Hk. replace k with 0 by lia. rewrite view1_proj by lia. rewrite view1_zero by lia.
          apply (HV v 0 0); auto; lia.
        * intros k Hk. replace k with 0 by lia. auto.
    - refine (valid_keep l (zero f) _ _ _ Z _ _ _ _ _ _ _ _ _ _ _ _); auto; cbn [zero proj set_ord set_tay d_ord d_cap d_rec]; try lia.
      intros v k Hv Hk. replace k with 0 by lia. rewrite !view1_zero by lia. apply (HV v 0 0); auto; lia.
  Qed.
End Dir.
