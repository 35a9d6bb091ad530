(** The loops of the derivative drivers *)
From Coq Require Import Reals ZArith Lra Lia List Bool Arith FunctionalExtensionality.
From Coquelicot Require Import Coquelicot.
From Verif Require Import Base_Spec Op_Model Tape_Spec Tape_Model Tape_Proof Tape_Proof2 Tape_Proof10 Tape_Hist Tape_Prop
  Sweep_Model Sweep_Eqs Sweep_Eqs2 Sweep_Tape Sweep_Uniq Sweep_Val0 Tape_Swf
  Drv_Spec Drv_Model Drv_Proof Drv_Proof2 Drv_Proof3 Drv_Proof4 Drv_Prop Drv_Link Real_Base Tay_Calc Tay_Sub Tay_Tape Tay_Prop
  Rev_Spec Rev_Calc Rev_Prop Der_Model Der_Spec Der_Proof Der_Proof2.
Import ListNotations.
Open Scope nat_scope.

Lemma fold_fset {A} (idx : nat -> nat) (val : nat -> A) l : forall a, NoDup l ->
  (forall i j, In i l -> In j l -> idx i = idx j -> i = j) ->
  (forall i, In i l -> fold_left (fun a i => fset a (idx i) (val i)) l a (idx i) = val i) /\
  (forall k, (forall i, In i l -> idx i <> k) -> fold_left (fun a i => fset a (idx i) (val i)) l a k = a k).
Proof.
  induction l as [|i0 l IH]; intros a ND INJ; [split; [intros ? []|auto]|].
  inversion ND as [|? ? N1 N2]; subst. cbn [fold_left].
  destruct (IH (fset a (idx i0) (val i0)) N2) as [I1 I2]; [intros; apply INJ; auto; now right|].
  split.
  - intros i [->|Hi].
    + rewrite I2.
      * unfold fset. now rewrite Nat.eqb_refl.
      * intros k Hk E. apply N1. replace i with k; auto. apply INJ; auto; [now right|now left].
    + now apply I1.
  - intros k H. rewrite I2 by (intros; apply H; now right). unfold fset.
    destruct (Nat.eqb_spec k (idx i0)) as [->|]; auto. destruct (H i0); auto. now left.
Qed.
Lemma fold_seq {A} (idx : nat -> nat) (val : nat -> A) len a :
  (forall i j, i < len -> j < len -> idx i = idx j -> i = j) ->
  (forall i, i < len -> fold_left (fun a i => fset a (idx i) (val i)) (seq 0 len) a (idx i) = val i) /\
  (forall k, (forall i, i < len -> idx i <> k) -> fold_left (fun a i => fset a (idx i) (val i)) (seq 0 len) a k = a k).
Proof.
  intros INJ. destruct (fold_fset idx val (seq 0 len) a (seq_NoDup _ _)) as [A1 A2].
  - intros i j Hi Hj. apply in_seq in Hi, Hj. apply INJ; lia.
  - split; [intros; apply A1, in_seq; lia|]. intros k H. apply A2. intros i Hi. apply in_seq in Hi. apply H. lia.
Qed.
Lemma index_inj n i j i' j' : j < n -> j' < n -> i * n + j = i' * n + j' -> i = i' /\ j = j'.
Proof.
  intros Hj Hj' E. assert (i = i') as ->; [|lia].
  destruct (Nat.lt_trichotomy i i') as [H|[H|H]]; auto; exfalso; nia.
Qed.
(** a matrix with rows of length n: setting column j for all rows i < len *)
Lemma fold_col {A} (val : nat -> A) n len j a : j < n ->
  forall i k, k < n -> i < len ->
  fold_left (fun a i => fset a (i * n + j) (val i)) (seq 0 len) a (i * n + k) = if k =? j then val i else a (i * n + k).
Proof.
  intros Hj i k Hk Hi. destruct (fold_seq (fun i => i * n + j) val len a) as [A1 A2].
  - intros i1 i2 _ _ E. apply (index_inj n) in E; lia.
  - destruct (Nat.eqb_spec k j) as [->|Ne]; [now apply A1|]. apply A2. intros i1 _ E. apply (index_inj n) in E; lia.
Qed.
Lemma fold_row {A} (val : nat -> A) n j a :
  forall i k, k < n ->
  fold_left (fun a k => fset a (j * n + k) (val k)) (seq 0 n) a (i * n + k) = if i =? j then val k else a (i * n + k).
Proof.
  intros i k Hk. destruct (fold_seq (fun k => j * n + k) val n a) as [A1 A2].
  - intros; lia.
  - destruct (Nat.eqb_spec i j) as [->|Ne]; [now apply A1|]. apply A2. intros i1 H1 E. apply (index_inj n) in E; lia.
Qed.

Lemma vec_unit {dis nan} n (u : nat -> R) j : (forall k, u k = 0%R) -> vec (b:=Rbase dis nan) n (fset u j 1%R) = unit_vec n j.
Proof.
  intros Z. apply (nth_eq 0%R).
  - etransitivity; [exact (vec_length (b:=Rbase dis nan) n _)|]. now rewrite unit_length.
  - intros i Hi. assert (i < n) as Hi' by (erewrite <- (vec_length (b:=Rbase dis nan) n); exact Hi).
    etransitivity; [exact (vec_nth (b:=Rbase dis nan) n _ 0%R i Hi')|]. rewrite unit_nth by auto. unfold fset. destruct (i =? j); auto.
Qed.
Lemma fset_zero (u : nat -> R) j c : (forall k, u k = 0%R) -> forall k, fset (fset u j c) j 0%R k = 0%R.
Proof. intros Z k. unfold fset. destruct (k =? j); auto. Qed.

Section Der.
  Variable dis : nat -> R -> R.
  Variable nan : R.
  Notation b := (Rbase dis nan).
  Variable junk : nat -> R.
  Context (tid : nat) (cmp : bool) (n np : nat) (e : nat -> AD b) (ev : nat -> VecAD b) (p : prog R)
    (V0 : nat -> R) (l0 : nat -> nat) (f : adfun b).
  Hypothesis REC : recorded tid cmp n np e ev p V0 l0 f.
  Hypothesis POS : 0 < n.
  Let f0 : adq b := drv_of (b:=b) junk f.
  Let m := length (g_dep f).
  Notation forward := (forward (b:=b) INR junk).
  Notation reverse := (reverse (b:=b) INR junk).
  Context (ds : list (list R)).
  Let a : adq b := with_dynamics f0 ds.
  Context (F : list R -> list R).
  Notation at1 := (at1 dis nan junk f ds).
  Notation at2 := (at2 dis nan junk f ds).
  Notation reg := (reg dis nan junk f ds F).

  (** a dependent variable that is a parameter is constant *)
  Lemma par_const g y i : at1 g y -> parameter_dep g i = true -> i < m -> exists c, forall y ys z, length y = n ->
    forward a 0 y = Some (ys, z) -> nth i ys 0%R = c.
  Proof.
    intros AT PD Hi. destruct (at1_fields dis nan junk tid cmp n np e ev p V0 l0 f REC POS ds g y AT) as (Q1 & Q2 & Q3).
    pose proof (gn dis nan tid cmp n np e ev p V0 l0 f REC) as GN.
    destruct (recorded_struct (Rbase_laws dis nan) _ _ _ _ _ _ _ _ _ _ REC) as (DE & _).
    unfold parameter_dep in PD. rewrite Q3, DE, Q2 in PD. apply existsb_exists in PD as (j & Hj & PJ).
    destruct j as [o arg iv]. cbn [i_op i_var] in PJ. destruct o; try discriminate PJ. apply Nat.eqb_eq in PJ. subst iv.
    exists (d_par a (nth 0 arg 0)). intros y' ys z Ly FW.
    pose proof (good_history (Rbase_laws dis nan) (Rtaylor_laws dis nan) INR junk _ _ _ _ _ _ _ _ _ _ REC POS (map CDyn ds) a
       (one_map ds) (run_dyn dis nan junk ds f0)) as G.
    rewrite dyn_map in G. fold f0 in G. fold a in G.
    destruct G as (G1 & G2 & G3 & G4 & G5 & G6 & G7 & G8 & G9).
    set (l := head_ins n ++ body n (g_rec f)) in *.
    destruct (dyn_fields (b:=b) ds f0) as (N1 & N2 & N3 & _). fold a in N1, N2, N3. cbn in N1, N2, N3.
    pose proof (Rtaylor_laws dis nan) as TL. rewrite GN in N1.
    destruct (forward_valid TL INR junk _ a _ _ y' _ z (valid_empty (b:=b) INR l _ _ (fun _ => []) G7 G9) FW) as (B1 & B2 & B3 & B4 & B5 & B6 & B7 & B8 & _).
    destruct (v_st _ _ _ _ B1 ltac:(lia)) as [(V1 & l1 & s & T1 & T2 & T3 & T4) T5 T6 T7].
    pose proof (v_twf _ _ _ _ B1) as W. pose proof (w_nv _ _ _ _ W) as NV.
    replace (d_rec z) with (g_rec f) in * by congruence. replace (d_par z) with (d_par a) in * by congruence.
    replace (d_n z) with n in * by congruence.
    assert (ys = map (fun v => view1 z v 0) (g_dep f)) as ->.
    { rewrite B3. unfold yout, low. replace (d_dep z) with (g_dep f) by congruence.
      replace (length y' =? d_n a) with true by (symmetry; apply Nat.eqb_eq; congruence). auto. }
    destruct (sweep0_val TL INR (d_par a) (length (r_par (g_rec f))) _ l 0 0 0 (init0 (b:=b) (g_rec f) V1 l1) s (w_wfl _ _ _ _ W)
          ltac:(cbn; auto) ltac:(intros k Hk; cbn in Hk; discriminate) T1) as (_ & _ & _ & U4 & U5).
    rewrite (nth_indep _ 0%R ((fun v => view1 z v 0) 0)) by (rewrite map_length; auto).
    rewrite (map_nth (fun v => view1 z v 0)).
    pose proof (w_dep _ _ _ _ W) as WD. rewrite Forall_forall in WD. replace (d_dep z) with (g_dep f) in WD by congruence.
    rewrite T3 by (apply WD, nth_In; auto).
    rewrite Forall_forall in U4. specialize (U4 _ Hj). unfold val_ins in U4. cbn in U4.
    inversion U4 as [|? ? U _]; subst. specialize (U 0 ltac:(cbn; lia)). cbn in U. rewrite Nat.add_0_r in U. exact U.
  Qed.

  Section At.
    Context (x : list R) (Lx : length x = n) (d : R) (Hd : (0 < d)%R).
    Notation near := (near n x d).
    Hypothesis RG : forall y, near y -> (exists z, forward a 0 y = Some (F y, z)) /\ forall u, length u = n -> smooth_at dis nan junk f a (shift y u).
    Notation dir := (dir F).
    Notation hes := (hes n F x).
    Notation u_ := (unit_vec n).
    Let NX : near x := near_x n x Lx d Hd.
    Let REGX u (Lu : length u = n) : reg x u := near_reg dis nan junk n f ds F x d RG x u NX Lu.
    Let FLD := at1_fields dis nan junk tid cmp n np e ev p V0 l0 f REC POS ds.

    Lemma fwd1_dir g u : at1 g x -> length u = n -> exists v g', forward g 1 u = Some (v, g') /\ at2 g' x u /\
      forall i, i < m -> nth i v 0%R = dir i x u.
    Proof.
      intros AT Lu. destruct (fwd_ok1 dis nan junk tid cmp n np e ev p V0 l0 f REC POS ds g x u AT Lu) as (v & g' & FW).
      exists v, g'. split; auto. split; [eapply at_fwd1; eauto|]. intros i Hi. symmetry. apply is_derive_unique.
      exact (fwd1 dis nan junk tid cmp n np e ev p V0 l0 f REC POS ds F g x u v g' AT Lx Lu (REGX u Lu) FW i Hi).
    Qed.
    Lemma rev1_dir g w : at1 g x -> length w = m -> exists z, reverse g 1 w = Some (z, g) /\
      forall j, j < n -> nth j z 0%R = total m (fun i => nth i w 0 * dir i x (u_ j))%R.
    Proof.
      intros AT Lw. destruct (rev_ok1 dis nan junk tid cmp n np e ev p V0 l0 f REC POS ds g x w AT Lw) as (z & RV).
      exists z. split; auto. intros j Hj.
      pose proof (rev1 dis nan junk tid cmp n np e ev p V0 l0 f REC POS ds F g x w z g AT Lx Lw RV (u_ j) (unit_length n j) (REGX _ (unit_length n j))) as K.
      fold m in K. rewrite (total_unit_r n j (fun k => nth k z 0%R) Hj) in K.
      etransitivity; [symmetry; exact (is_derive_unique _ _ _ K)|]. apply is_derive_unique.
      apply (is_derive_total m (fun i s => nth i w 0 * nth i (F (shift x (u_ j) s)) 0)%R (fun i => nth i w 0 * dir i x (u_ j))%R).
      intros i Hi. apply (is_derive_scal (fun s => nth i (F (shift x (u_ j) s)) 0%R)).
      apply (dir_ok dis nan junk tid cmp n np e ev p V0 l0 f REC POS ds F x d RG i x (u_ j) NX Hi (unit_length n j)).
    Qed.
    Lemma rev2_hes g j w : at2 g x (u_ j) -> length w = m -> exists z, reverse g 2 w = Some (z, g) /\
      forall k, k < n -> nth (k * 2 + 1) z 0%R = total m (fun i => nth i w 0 * hes i k j)%R.
    Proof.
      intros AT Lw. destruct (rev_ok2 dis nan junk tid cmp n np e ev p V0 l0 f REC POS ds g x _ w AT Lw) as (z & RV).
      exists z. split; auto. intros k Hk.
      pose proof (rev2 dis nan junk tid cmp n np e ev p V0 l0 f REC POS ds F g x (u_ j) w z g AT Lx (unit_length n j) Lw RV (u_ k)
        (fun s i => dir i (shift x (u_ k) s) (u_ j)) (unit_length n k)) as K.
      fold m in K. rewrite (total_unit_r n k (fun k => nth (k * 2 + 1) z 0%R) Hk) in K.
      etransitivity; [symmetry; refine (is_derive_unique _ _ _ (K _ _))|].
      - generalize (near_loc n x d x (u_ k) NX). apply filter_imp. intros s Ns. split; [|split].
        + destruct (proj1 (RG _ Ns)) as (zz & Fzz). eexists; eexists; exact Fzz.
        + apply (near_reg dis nan junk n f ds F x d RG _ _ Ns (unit_length n j)).
        + intros i Hi. apply (dir_ok dis nan junk tid cmp n np e ev p V0 l0 f REC POS ds F x d RG i _ (u_ j) Ns Hi (unit_length n j)).
      - apply (proj2 (RG x NX)). apply unit_length.
      - apply is_derive_unique.
        apply (is_derive_total m (fun i s => nth i w 0 * dir i (shift x (u_ k) s) (u_ j))%R (fun i => nth i w 0 * hes i k j)%R).
        intros i Hi. apply (is_derive_scal (fun s => dir i (shift x (u_ k) s) (u_ j))).
        apply (hes_ok dis nan junk tid cmp n np e ev p V0 l0 f REC POS ds F x Lx d Hd RG i k j Hi).
    Qed.
    Lemma fwd2_quad g u c : at2 g x u -> length u = n -> length c = n -> (forall j, j < n -> nth j c 0%R = 0%R) -> exists v g', forward g 2 c = Some (v, g') /\ at2 g' x u /\
      forall i, i < m -> (2 * nth i v 0)%R = total n (fun k => total n (fun j => hes i k j * nth j u 0) * nth k u 0)%R.
    Proof.
      intros AT Lu Lc Zc. destruct (fwd_ok2 dis nan junk tid cmp n np e ev p V0 l0 f REC POS ds g x u c AT Lc) as (v & g' & FW).
      exists v, g'. split; auto. split; [eapply at_fwd2; eauto|]. intros i Hi.
      apply (quad dis nan junk tid cmp n np e ev p V0 l0 f REC POS ds F x Lx d Hd RG i u _ Hi Lu).
      exact (fwd2 dis nan junk tid cmp n np e ev p V0 l0 f REC POS ds F g x u c v g' AT Lx Lu Lc Zc (REGX u Lu) FW i Hi).
    Qed.

    Lemma jac_for_ok js : forall g (u jac : nat -> R), at1 g x -> (forall k, u k = 0%R) -> NoDup js -> (forall j, In j js -> j < n) ->
      exists jac' g', jac_for (b:=b) INR junk g js u jac = Some (jac', g') /\ at1 g' x /\
      forall i j, i < m -> j < n -> (In j js -> jac' (i * n + j) = dir i x (u_ j)) /\ (~ In j js -> jac' (i * n + j) = jac (i * n + j)).
    Proof.
      induction js as [|j0 js IH]; intros g u jac AT Zu ND Hj; cbn [jac_for].
      - exists jac, g. split; auto. split; auto. intros i j _ _. split; [intros []|auto].
      - destruct (FLD g x AT) as (Q1 & Q2 & _). rewrite Q1, Q2. fold m.
        match goal with |- context [@vec ?bb n ?w] => replace (@vec bb n w) with (unit_vec n j0) by (symmetry; exact (vec_unit n u j0 Zu)) end.
        destruct (fwd1_dir g (u_ j0) AT (unit_length n j0)) as (v & g' & -> & AT' & D).
        apply NoDup_cons_iff in ND as [N1 N2].
        destruct (IH g' (fset (fset u j0 1%R) j0 0%R) (copy (b:=b) m (fun i => i * n + j0) (fun i => i) v jac) (at2_at1 dis nan junk f ds _ _ _ AT')
          (fset_zero u j0 1%R Zu) N2 ltac:(intros; apply Hj; now right)) as (jac' & g2 & E & AT2 & K).
        exists jac', g2. split; [exact E|]. split; auto. intros i j Hi Hjn.
        destruct (K i j Hi Hjn) as [K1 K2].
        assert (copy (b:=b) m (fun i => i * n + j0) (fun i => i) v jac (i * n + j) = if j =? j0 then nth i v 0%R else jac (i * n + j)) as CO.
        { unfold copy. exact (fold_col (fun i => nth i v 0%R) n m j0 jac (Hj j0 (or_introl eq_refl)) i j Hjn Hi). }
        split.
        + intros [<-|Hin]; [|auto]. rewrite K2 by auto. etransitivity; [exact CO|]. rewrite Nat.eqb_refl. auto.
        + intros NI. rewrite K2 by (intros Q; apply NI; now right). etransitivity; [exact CO|].
          destruct (Nat.eqb_spec j j0) as [->|]; auto. destruct NI. now left.
    Qed.

    Lemma jac_rev_ok is : forall g (v jac : nat -> R), at1 g x -> (forall k, v k = 0%R) -> NoDup is -> (forall i, In i is -> i < m) ->
      exists jac' g', jac_rev (b:=b) INR junk g is v jac = Some (jac', g') /\ at1 g' x /\
      forall i j, i < m -> j < n -> (In i is -> jac' (i * n + j) = dir i x (u_ j)) /\ (~ In i is -> jac' (i * n + j) = jac (i * n + j)).
    Proof.
      induction is as [|i0 is IH]; intros g v jac AT Zv ND Hi; cbn [jac_rev].
      - exists jac, g. split; auto. split; auto. intros i j _ _. split; [intros []|auto].
      - destruct (FLD g x AT) as (Q1 & Q2 & _). rewrite Q1, Q2. fold m. apply NoDup_cons_iff in ND as [N1 N2].
        assert (i0 < m) as Hi0 by (apply Hi; now left).
        destruct (parameter_dep g i0) eqn:PD.
        + destruct (par_const g x i0 AT PD Hi0) as (c & CO).
          destruct (IH g v (fold_left (fun a0 j => fset a0 (i0 * n + j) 0%R) (seq 0 n) jac) AT Zv N2 ltac:(intros; apply Hi; now right)) as (jac' & g2 & E & AT2 & K).
          exists jac', g2. split; [exact E|]. split; auto. intros i j Hi1 Hj.
          destruct (K i j Hi1 Hj) as [K1 K2]. pose proof (fold_row (fun _ => 0%R) n i0 jac i j Hj) as R.
          split.
          * intros [<-|Hin]; [|auto]. rewrite K2 by auto. rewrite R, Nat.eqb_refl. symmetry. apply is_derive_unique.
            apply is_derive_ext_loc with (fun _ => c); [|apply (is_derive_const c)].
            generalize (near_loc n x d x (u_ j) NX). apply filter_imp. intros s Ns. symmetry.
            destruct (proj1 (RG _ Ns)) as (zz & Fzz). eapply CO; [|exact Fzz]. apply Ns.
          * intros NI. rewrite K2 by (intros Q; apply NI; now right). rewrite R.
            destruct (Nat.eqb_spec i i0) as [->|]; auto. destruct NI. now left.
        + match goal with |- context [@vec ?bb m ?w] => replace (@vec bb m w) with (unit_vec m i0) by (symmetry; exact (vec_unit m v i0 Zv)) end.
          destruct (rev1_dir g (unit_vec m i0) AT (unit_length m i0)) as (z & -> & D).
          destruct (IH g (fset (fset v i0 1%R) i0 0%R) (copy (b:=b) n (fun j => i0 * n + j) (fun j => j) z jac) AT
            (fset_zero v i0 1%R Zv) N2 ltac:(intros; apply Hi; now right)) as (jac' & g2 & E & AT2 & K).
          exists jac', g2. split; [exact E|]. split; auto. intros i j Hi1 Hj.
          destruct (K i j Hi1 Hj) as [K1 K2].
          assert (copy (b:=b) n (fun j => i0 * n + j) (fun j => j) z jac (i * n + j) = if i =? i0 then nth j z 0%R else jac (i * n + j)) as CO.
          { unfold copy. exact (fold_row (fun j => nth j z 0%R) n i0 jac i j Hj). }
          split.
          * intros [<-|Hin]; [|auto]. rewrite K2 by auto. etransitivity; [exact CO|]. rewrite Nat.eqb_refl, D by auto.
            exact (total_unit m i0 (fun i => dir i x (u_ j)) Hi0).
          * intros NI. rewrite K2 by (intros Q; apply NI; now right). etransitivity; [exact CO|].
            destruct (Nat.eqb_spec i i0) as [->|]; auto. destruct NI. now left.
    Qed.

    Lemma hes_loop_ok w js : length w = m -> forall g (u H : nat -> R), at1 g x -> (forall k, u k = 0%R) -> NoDup js -> (forall j, In j js -> j < n) ->
      exists H' g', hes_loop (b:=b) INR junk g w js u H = Some (H', g') /\ at1 g' x /\
      forall k j, k < n -> j < n -> (In j js -> H' (k * n + j) = total m (fun i => nth i w 0 * hes i k j)%R) /\ (~ In j js -> H' (k * n + j) = H (k * n + j)).
    Proof.
      intros Lw. induction js as [|j0 js IH]; intros g u H AT Zu ND Hj; cbn [hes_loop].
      - exists H, g. split; auto. split; auto. intros i j _ _. split; [intros []|auto].
      - destruct (FLD g x AT) as (Q1 & Q2 & _). rewrite Q1.
        match goal with |- context [@vec ?bb n ?w] => replace (@vec bb n w) with (unit_vec n j0) by (symmetry; exact (vec_unit n u j0 Zu)) end.
        destruct (fwd1_dir g (u_ j0) AT (unit_length n j0)) as (v & g' & -> & AT' & _).
        destruct (rev2_hes g' j0 w AT' Lw) as (z & -> & D).
        apply NoDup_cons_iff in ND as [N1 N2].
        destruct (IH g' (fset (fset u j0 1%R) j0 0%R) (copy (b:=b) n (fun k => k * n + j0) (fun k => k * 2 + 1) z H) (at2_at1 dis nan junk f ds _ _ _ AT')
          (fset_zero u j0 1%R Zu) N2 ltac:(intros; apply Hj; now right)) as (H' & g2 & E & AT2 & K).
        exists H', g2. split; [exact E|]. split; auto. intros k j Hk Hjn.
        destruct (K k j Hk Hjn) as [K1 K2].
        assert (copy (b:=b) n (fun k => k * n + j0) (fun k => k * 2 + 1) z H (k * n + j) = if j =? j0 then nth (k * 2 + 1) z 0%R else H (k * n + j)) as CO.
        { unfold copy. exact (fold_col (fun k => nth (k * 2 + 1) z 0%R) n n j0 H (Hj j0 (or_introl eq_refl)) k j Hjn Hk). }
        split.
        + intros [<-|Hin]; [|auto]. rewrite K2 by auto. etransitivity; [exact CO|]. rewrite Nat.eqb_refl. auto.
        + intros NI. rewrite K2 by (intros Q; apply NI; now right). etransitivity; [exact CO|].
          destruct (Nat.eqb_spec j j0) as [->|]; auto. destruct NI. now left.
    Qed.
  End At.
End Der.
