(** Forward mode histories: determinism and success of the one call version *)
From Coq Require Import ZArith List Bool Arith Lia FunctionalExtensionality.
From Verif Require Import Base_Spec Op_Model Tape_Spec Tape_Model Tape_Proof Tape_Proof2 Tape_Proof10 Tape_Prop
  Sweep_Model Sweep_Eqs Sweep_Eqs2 Sweep_Tape Sweep_Uniq Tape_Swf Drv_Model Drv_Proof Drv_Proof2.
Import ListNotations.

Section Det.
  Context {b : base} (TL : taylor_laws b).
  Notation T := (bt b).
  Variable bnat : nat -> T.
  Variable junk : nat -> T.
  Notation valid := (valid bnat).
  Notation stored := (stored bnat).

  (** what is stored is determined by the inputs *)
  Lemma valid_det l (f g : adq b) X Y m :
    valid l f X -> valid l g Y -> d_rec g = d_rec f -> d_n g = d_n f -> d_par g = d_par f -> d_cc g = d_cc f ->
    m <= d_ord f -> m <= d_ord g -> 
    (forall k j, k < m -> j < d_n f -> nth j (X k) b0 = nth j (Y k) b0) ->
    forall v k, 0 < v < r_nvar (d_rec f) -> k < m -> view1 f v k = view1 g v k.
  Proof.
    intros Vf Vg E1 E2 E3 E4 Mf Mg HX v k Hv Hk.
    pose proof (v_twf _ _ _ _ Vf) as W.
    destruct (v_st _ _ _ _ Vf ltac:(lia)) as [(V0 & l0 & t & A1 & A2 & A3 & A4) A5 A6 A7].
    destruct (v_st _ _ _ _ Vg ltac:(lia)) as [(V0' & l0' & t' & B1 & B2 & B3 & B4) B5 B6 B7].
    rewrite ?E1, ?E2, ?E3, ?E4 in *.
    assert (forall i, In i l -> i_op i = InvOp -> exists j, j < d_n f /\ i_var i = S j) as INV.
    { intros i Hi Ho. pose proof (w_inv2 _ _ _ _ W i Hi Ho). exists (i_var i - 1). lia. }
    destruct (sweep0_eq (d_par f) (length (r_par (d_rec f))) (d_cc f) l 0 0 0 0
                (init0 (d_rec f) V0 l0) (init0 (d_rec f) V0' l0') t) as (t2 & C1 & C2 & _); auto.
    { apply (w_wfl _ _ _ _ W). }
    { intros m' Hm. discriminate. }
    { constructor; auto; intros; lia. }
    { intros i Hi Ho. destruct (INV i Hi Ho) as (j & Hj & ->). cbn. rewrite A2, B2 by auto. apply HX; lia. }
    rewrite B1 in C1. injection C1 as <-.
    pose proof (w_nv _ _ _ _ W) as NV.
    apply (tape_unique bnat (d_par f) (length (r_par (d_rec f))) (m - 1) l 0 0 (view1 f) (view1 g) (d_l2v f) (d_l2v g)).
    - apply (w_wfl _ _ _ _ W).
    - apply (w_nf _ _ _ _ W).
    - exact A5.
    - intros m' Hm. rewrite A4, B4 by lia. symmetry. apply (e0_l2v _ _ _ _ _ C2). lia.
    - intros; lia.
    - intros w Hw Hw0. rewrite A3, B3 by lia. apply (e0_V _ _ _ _ _ C2). lia.
    - intros i k' Hi Ho Hk'. destruct (INV i Hi Ho) as (j & Hj & ->).
      rewrite A7, B7 by lia. apply HX; lia.
    - intros j Hj. apply A6. lia.
    - intros j Hj. apply B6. lia.
    - lia.
    - lia.
  Qed.

  (** a multiple order sweep from order zero succeeds when the zero order sweep does *)
  Lemma sweep_any_total (P : nat -> T) np cc up l : forall nv nl k (s : fstq b) t, wfl np nv nl l ->
    (forall j, q_skip s j = false) -> vec_ok nv (q_isv s) (q_idx s) ->
    sweep0 P cc l k (to0 s) = Some t -> exists s', sweep_any bnat P cc 0 up l k s = Some s'.
  Proof.
    induction l as [|i l IH]; intros nv nl k s t W HS VO H; cbn [sweep0 Sweep_Model.sweep_any] in *.
    - eauto.
    - change (f_skip (to0 s) k) with (q_skip s k) in H. rewrite HS in *.
      destruct (step0 P cc i k (to0 s)) as [t1|] eqn:E0; [|discriminate].
      assert (exists s1, step_any bnat P cc 0 up i k s = Some s1) as (s1 & E1).
      { destruct i as [o a iv]. unfold step_any. destruct (subs o a iv); [eauto|].
        rewrite E0. destruct o; cbn; eauto. }
      rewrite E1. pose proof W as (_ & _ & _ & _ & _ & W2).
      destruct (step_any_spec TL bnat P np nv nl l cc 0 up i k s s1 W (fun _ => VO)) as (_ & _ & _ & _ & F & _ & G); auto.
      { lia. }
      destruct (G eq_refl) as [G1 G2]. rewrite E0 in G2. injection G2 as ->.
      eapply IH; [exact W2| |exact G1|exact H]. intros j. rewrite F. auto.
  Qed.

  (** all the input coefficients of orders 0 .. q, in the order used by Forward *)
  Definition pack (n q : nat) (X : nat -> list T) : list T :=
    flat_map (fun j => map (fun k => nth j (X k) b0) (seq 0 (q + 1))) (seq 0 n).
  Lemma flat_map_const {A B} (f : A -> list B) (l : list A) c : (forall a, length (f a) = c) -> length (flat_map f l) = length l * c.
  Proof. intros H. induction l; cbn; auto. rewrite app_length, H, IHl. auto. Qed.
  Lemma nth_flat_map {A} (f : nat -> list A) c d m : (forall a, length (f a) = c) -> forall s j k, j < m -> k < c ->
    nth (c * j + k) (flat_map f (seq s m)) d = nth k (f (s + j)) d.
  Proof.
    intros H. induction m as [|m IH]; intros s j k Hj Hk; [lia|]. cbn [seq flat_map].
    destruct j as [|j].
    - rewrite Nat.mul_0_r, Nat.add_0_r, app_nth1 by (rewrite H; lia). auto.
    - rewrite app_nth2 by (rewrite H; nia). rewrite H. replace (c * S j + k - c) with (c * j + k) by nia.
      rewrite IH by lia. f_equal. f_equal. lia.
  Qed.
  Lemma pack_length n q X : length (pack n q X) = n * (q + 1).
  Proof. unfold pack. erewrite flat_map_const; [|intros; rewrite map_length, seq_length; reflexivity]. now rewrite seq_length. Qed.
  Lemma pack_nth n q X j k : j < n -> k <= q -> nth ((q + 1) * j + k) (pack n q X) b0 = nth j (X k) b0.
  Proof.
    intros Hj Hk. unfold pack. rewrite (nth_flat_map (fun j => map (fun k => nth j (X k) b0) (seq 0 (q + 1))) (q + 1)); try lia.
    2:{ intros; now rewrite map_length, seq_length. }
    rewrite (nth_indep _ b0 (nth (0 + j) (X 0) b0)) by (rewrite map_length, seq_length; lia).
    rewrite (map_nth (fun k => nth (0 + j) (X k) b0)), seq_nth by lia. reflexivity.
  Qed.
  Lemma upd_pack n q X Y k j : 0 < n -> k <= q -> j < n -> nth j (upd n q (pack n q X) Y k) b0 = nth j (X k) b0.
  Proof.
    intros Hn Hk Hj. unfold upd. rewrite pack_length. destruct (Nat.eqb_spec (n * (q + 1)) n).
    - assert (q = 0) by nia. subst q. replace k with 0 by lia. cbn [Nat.eqb].
      rewrite <- (pack_nth n 0 X j 0) by lia. f_equal. lia.
    - rewrite (nth_indep _ b0 (nth ((q + 1) * 0 + k) (pack n q X) b0)) by (rewrite map_length, seq_length; lia).
      rewrite (map_nth (fun j => nth ((q + 1) * j + k) (pack n q X) b0)), seq_nth by lia. cbn [Nat.add]. apply pack_nth; auto.
  Qed.
  Lemma low_pack n q X : 0 < n -> low n q (pack n q X) = if n * (q + 1) =? n then q else 0.
  Proof. intros. unfold low. now rewrite pack_length. Qed.

  (** one call with all the orders succeeds on a fresh object *)
  Lemma forward_total l (f g : adq b) X q : valid l f X -> 0 < d_ord f -> valid l g X ->
    d_rec g = d_rec f -> d_n g = d_n f -> d_par g = d_par f -> d_cc g = d_cc f -> d_ord g = 0 -> d_cap g = 0 -> 
    exists Y g', forward bnat junk g q (pack (d_n f) q X) = Some (Y, g').
  Proof.
    intros Vf Of Vg E1 E2 E3 E4 Og Cg. pose proof (v_twf _ _ _ _ Vf) as W. pose proof (w_n _ _ _ _ W) as Hn.
    unfold forward. set (xq := pack (d_n f) q X). rewrite E1, E2, E3, E4, Cg.
    assert ((length xq =? d_n f) || (length xq =? d_n f * (q + 1)) = true) as EL.
    { unfold xq. rewrite pack_length, Nat.eqb_refl. apply orb_true_r. }
    rewrite EL. cbn [negb]. rewrite (low_p _ _ _ Hn EL).
    set (p := if d_n f * (q + 1) =? d_n f then q else 0).
    assert (p = 0) as P0.
    { unfold p. destruct (Nat.eqb_spec (d_n f * (q + 1)) (d_n f)); auto. nia. }
    assert (low (d_n f) q xq = 0) as LW by (unfold xq; rewrite low_pack by auto; exact P0).
    rewrite LW. cbn [Nat.eqb]. rewrite orb_true_r. cbn [negb Nat.leb orb].
    unfold capacity2. cbn [set_ord set_tay d_cap d_dir d_ord d_rec].
    rewrite Cg. destruct (Nat.eqb_spec (Nat.max (q + 1) 0) 0); [lia|]. cbn [andb].
    rewrite orb_true_r. cbn [negb]. cbn [set_tay d_cap].
    rewrite (w_dec _ _ _ _ W).
    match goal with |- context [in_rows ?V1 _ _ _ _] => set (V2 := in_rows V1 (d_n f) 0 q xq) end.
    destruct (v_st _ _ _ _ Vf Of) as [(V0 & l0 & t & A1 & A2 & _) _ _ _].
    assert (forall i, In i l -> i_op i = InvOp -> V2 (i_var i) 0 = V0 (i_var i)) as HI.
    { intros i Hi Ho. pose proof (w_inv2 _ _ _ _ W i Hi Ho) as Hr.
      destruct (i_var i) as [|j] eqn:Ev; [lia|]. rewrite A2 by lia. unfold V2, in_rows.
      destruct (Nat.eqb_spec 0 q) as [<-|].
      - rewrite set_row_spec. unfold xq. rewrite pack_length. cbn [Nat.eqb andb].
        destruct (Nat.leb_spec 1 (S j)), (Nat.ltb_spec (S j) (1 + d_n f * (0 + 1))); try lia. cbn [andb].
        rewrite <- (pack_nth (d_n f) 0 X j 0) by lia. f_equal. lia.
      - destruct (Nat.leb_spec 1 (S j)), (Nat.leb_spec (S j) (d_n f)), (Nat.leb_spec 0 q); try lia. cbn [andb].
        unfold xq. rewrite <- (pack_nth (d_n f) q X j 0) by lia. f_equal. lia. }
    destruct (sweep0_eq (d_par f) (length (r_par (d_rec f))) (d_cc f) l 0 0 0 0
                (init0 (d_rec f) V0 l0) (init0 (d_rec f) (row0 V2) (d_l2v g)) t) as (t2 & C1 & C2 & _); auto.
    { apply (w_wfl _ _ _ _ W). }
    { intros m' Hm. discriminate. }
    { constructor; auto; intros; lia. }
    { intros i Hi Ho. cbn. unfold row0. now rewrite HI. }
    destruct (Nat.eqb_spec q 0).
    - rewrite C1. eauto.
    - unfold init_any. cbn [Nat.eqb q_V q_l2v].
      destruct (sweep_any_total (d_par f) (length (r_par (d_rec f))) (d_cc f) q l 0 0 0
        (mkQ V2 (fun _ => false) (fun i => nth i (r_vec (d_rec f)) 0) (d_l2v g) 0 0 (fun _ => false)) t2) as (s' & Es); auto.
      { apply (w_wfl _ _ _ _ W). }
      { intros m Hm; discriminate. }
      rewrite Es. eauto.
  Qed.
End Det.

(** a recorded function satisfies the structural requirements *)
Lemma recorded_struct {b : base} (L : base_laws b) tid cmp n np e ev p V l2v (f : adfun b) :
  recorded tid cmp n np e ev p V l2v f -> 
  decode (r_op (g_rec f)) (r_arg (g_rec f)) 0 = Some (head_ins n ++ body n (g_rec f)) /\
  sok (seq 1 n) 0 (body n (g_rec f)) /\
  Forall (fun t => In t (prims n (g_rec f))) (g_dep f) /\
  Forall (wf_ins (length (r_par (g_rec f)))) (head_ins n ++ body n (g_rec f)) /\
  wfl (length (r_par (g_rec f))) 0 0 (head_ins n ++ body n (g_rec f)) /\
  r_nvar (g_rec f) = tres (head_ins n ++ body n (g_rec f)) /\
  Forall (fun t => 0 < t < r_nvar (g_rec f)) (g_dep f) /\ g_n f = n.
Proof.
  intros (T0 & [NE NV] & RF & HF).
  destruct (rec_exec tid cmp n np e ev p V l2v f RF) as (EX & HN & _).
  destruct (wf_rec L tid T0 cmp n np e ev p NE NV V l2v f RF HF) as (l & D1 & D2 & D3 & D4).
  destruct (swf_exec tid n T0 p _ _ _ (sst_init tid n T0 cmp np e ev NE) EX) as [(S1 & S2 & S3 & S4 & _) S5].
  assert (l = head_ins n ++ body n (g_rec f)) as El by (rewrite D1 in S1; now injection S1).
  subst l.
  split; [auto|]. split; [auto|]. split; [auto|]. split; [auto|].
  assert (wfl (length (r_par (g_rec f))) 0 0 (head_ins n ++ body n (g_rec f))) as W.
  { apply wfl_app; [apply wfl_head|]. cbn [head_ins tres i_op num_res nload is_load]. rewrite tres_inv, nload_inv.
    cbn [Nat.add]. apply (sok_wfl _ _ (seq 1 n)); auto; try lia.
    - exact (proj2 (proj1 (Forall_app _ (head_ins n) (body n (g_rec f))) D2)).
    - destruct (decode_split _ _ _ _ _ D1) as (o & a & D'). cbn [head_ins tres i_op num_res] in D'. rewrite tres_inv in D'. eauto. }
  split; [auto|]. split; [|auto].
  rewrite D3. symmetry. eapply tres_nres; eauto.
Qed.

Lemma recorded_twf {b : base} (L : base_laws b) tid cmp n np e ev p V l2v (f : adfun b) :
  recorded tid cmp n np e ev p V l2v f -> 0 < n ->
  twf (g_rec f) (g_n f) (g_dep f) (head_ins n ++ body n (g_rec f)).
Proof.
  intros R Hn. destruct (recorded_struct L _ _ _ _ _ _ _ _ _ _ R) as (A & B & C & D & E & F & G & ->).
  assert (forall l seen nl, sok seen nl l -> Forall (fun i => i_op i <> FunrvOp /\ i_op i <> InvOp) l) as NF.
  { induction l as [|i l IH]; intros seen nl S; constructor.
    - destruct S as (O & _). destruct (i_op i); try discriminate O; split; discriminate.
    - eapply IH. apply S. }
  specialize (NF _ _ _ B). rewrite Forall_forall in NF.
  constructor; auto.
  - apply Forall_app. split.
    + unfold head_ins. constructor; [discriminate|]. apply Forall_forall. intros i Hi. apply in_map_iff in Hi as (j & <- & _). discriminate.
    + apply Forall_forall. intros i Hi. apply (NF i Hi).
  - intros j Hj. exists (mkIns InvOp [] (S j)). split; [|auto]. apply in_or_app. left. right.
    apply in_map_iff. exists j. split; auto. apply in_seq. lia.
  - intros i Hi Ho. apply in_app_or in Hi as [Hi|Hi]; [|apply NF in Hi; tauto].
    destruct Hi as [<-|Hi]; [discriminate|]. apply in_map_iff in Hi as (j & <- & Hj). apply in_seq in Hj. cbn. lia.
Qed.
