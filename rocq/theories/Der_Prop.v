(** C34: Jacobian, Hessian, ForOne, RevOne, ForTwo and RevTwo return the derivatives of the
    function of the object, whatever calls were made before *)
From Coq Require Import Reals ZArith Lra Lia List Bool Arith FunctionalExtensionality.
From Coquelicot Require Import Coquelicot.
From Verif Require Import Base_Spec Op_Model Tape_Spec Tape_Model Tape_Proof Tape_Proof2 Tape_Proof10 Tape_Hist Tape_Prop
  Sweep_Model Sweep_Eqs Sweep_Eqs2 Sweep_Tape Sweep_Uniq Sweep_Val0 Tape_Swf
  Drv_Spec Drv_Model Drv_Proof Drv_Proof2 Drv_Proof3 Drv_Proof4 Drv_Prop Drv_Link Real_Base Tay_Calc Tay_Sub Tay_Tape Tay_Prop
  Rev_Spec Rev_Calc Rev_Prop Der_Model Der_Spec Der_Proof Der_Proof2 Der_Proof3 Der_Proof4.
Import ListNotations.
Open Scope nat_scope.

Section Total0.
  Context {b : base} (TL : taylor_laws b).
  Notation T := (bt b).
  Variable bnat : nat -> T.
  Variable junk : nat -> T.
  Lemma forward0_total l (f g : adq b) X Y (x : list T) : valid bnat l f X -> 0 < d_ord f -> valid bnat l g Y ->
    d_rec g = d_rec f -> d_n g = d_n f -> d_par g = d_par f -> d_cc g = d_cc f -> length x = d_n f ->
    (forall j, j < d_n f -> nth j (X 0) b0 = nth j x b0) ->
    exists ys g', forward bnat junk g 0 x = Some (ys, g').
  Proof.
    intros Vf Of Vg E1 E2 E3 E4 HL HX. pose proof (v_twf _ _ _ _ Vf) as W. pose proof (w_n _ _ _ _ W) as Hn.
    unfold forward. rewrite E1, E2, E3, E4, HL, Nat.eqb_refl. cbn [orb negb]. rewrite Nat.div_same by lia. cbn [Nat.add Nat.sub Nat.leb orb negb Nat.eqb].
    match goal with |- context [match ?e with Some _ => _ | None => _ end] => assert (exists f1, e = Some f1) as (f1 & ->) end.
    { destruct (_ || _); [|eauto]. unfold capacity2. cbn [set_ord set_tay d_cap d_dir d_ord d_rec].
      destruct (_ && _); [eauto|]. destruct (Nat.eqb_spec (Nat.max 1 (d_cap g)) 0); [lia|]. cbn [Nat.leb]. rewrite orb_true_r. cbn [negb]. eauto. }
    rewrite (w_dec _ _ _ _ W).
    match goal with |- context [in_rows ?V1 _ _ _ _] => set (V2 := in_rows V1 (d_n f) 0 0 x) end.
    destruct (v_st _ _ _ _ Vf Of) as [(V0 & l0 & t & A1 & A2 & _) _ _ _].
    assert (forall i, In i l -> i_op i = InvOp -> V2 (i_var i) 0 = V0 (i_var i)) as HI.
    { intros i Hi Ho. pose proof (w_inv2 _ _ _ _ W i Hi Ho) as Hr.
      destruct (i_var i) as [|j] eqn:Ev; [lia|]. rewrite A2 by lia. unfold V2, in_rows. cbn [Nat.eqb].
      rewrite set_row_spec, HL. cbn [Nat.eqb andb].
      destruct (Nat.leb_spec 1 (S j)), (Nat.ltb_spec (S j) (1 + d_n f)); try lia. cbn [andb]. replace (S j - 1) with j by lia. symmetry. apply HX. lia. }
    destruct (sweep0_eq (d_par f) (length (r_par (d_rec f))) (d_cc f) l 0 0 0 0
                (init0 (d_rec f) V0 l0) (init0 (d_rec f) (row0 V2) (d_l2v g)) t) as (t2 & C1 & C2 & _); auto.
    { apply (w_wfl _ _ _ _ W). }
    { intros m' Hm. discriminate. }
    { constructor; auto; intros; lia. }
    { intros i Hi Ho. cbn. unfold row0. now rewrite HI. }
    rewrite C1. eauto.
  Qed.
End Total0.

Section Der.
  Variable dis : nat -> R -> R.
  Variable nan : R.
  Notation b := (Rbase dis nan).
  Variable junk : nat -> R.
  Context (tid : nat) (cmp : bool) (n np : nat) (e : nat -> AD b) (ev : nat -> VecAD b) (p : prog R)
    (V0 : nat -> R) (l0 : nat -> nat) (f : adfun b).
  Hypothesis REC : recorded tid cmp n np e ev p V0 l0 f.
  Hypothesis POS : 0 < n.
  Let f0 : adq b := drv_of (b:=b) junk f.
  Let m := length (g_dep f).
  Notation forward := (forward (b:=b) INR junk).
  Notation reverse := (reverse (b:=b) INR junk).
  Context (F : list R -> list R).


  (** after any history h of single direction calls, with the dynamic parameters then in force *)
  Context (h : list (dcall R)) (g : adq b).
  Hypothesis OD : one_direction h.
  Hypothesis RUN : drun (b:=b) INR junk f0 h = Some g.
  Context (x : list R).
  Hypothesis Lx : length x = g_n f.
  (** near x, Forward(0, y) is F(y), every operator is differentiable and no choice changes *)
  Hypothesis REG : regular dis nan junk n f (dynamics h) F x.

  Let GN : g_n f = n := gn dis nan tid cmp n np e ev p V0 l0 f REC.
  Let ds := dynamics h.
  Let a := with_dynamics f0 ds.
  Notation at1 := (at1 dis nan junk f ds).
  Notation at2 := (at2 dis nan junk f ds).

  Lemma fwd0 : exists ys z, forward g 0 x = Some (ys, z) /\ at1 z x.
  Proof.
    assert (length x = n) as L by (now rewrite Lx).
    destruct REG as (d & Hd & RG). destruct (RG x L) as [(z & Fz) _].
    { intros j Hj. replace (nth j x 0 - nth j x 0)%R with 0%R by ring. now rewrite Rabs_R0. }
    pose proof (Rtaylor_laws dis nan) as TL. pose proof (Rbase_laws dis nan) as BL.
    destruct (good_history BL TL INR junk _ _ _ _ _ _ _ _ _ _ REC POS h g OD RUN) as (G1 & G2 & G3 & G4 & G5 & G6 & G7 & G8 & G9).
    set (l := head_ins n ++ body n (g_rec f)) in *.
    destruct (forward_valid TL INR junk _ _ _ 0 x _ z (valid_empty (b:=b) INR l _ _ (fun _ => []) G7 G9) Fz) as (A1 & A2 & A3 & A4 & A5 & A6 & A7 & A8 & _).
    destruct (dyn_fields (b:=b) (dynamics h) (drv_of (b:=b) junk f)) as (N1 & N2 & N3 & _). cbn in N1. rewrite GN in N1.
    destruct (forward0_total (b:=b) INR junk l z g _ _ x A1 ltac:(lia) G1) as (ys & z' & FW); try congruence.
    - exact (eq_trans L (eq_sym (eq_trans A5 N1))).
    - intros j Hj. unfold upd. cbn [Nat.eqb].
      match goal with |- context [if ?c then _ else _] => replace c with true; [reflexivity|] end. symmetry. apply Nat.eqb_eq. exact (eq_trans L (eq_sym N1)).
    - exists ys, z'. split; [exact FW|].
      exact (at_fwd0 dis nan junk tid cmp n np e ev p V0 l0 f REC POS ds h g x ys z' OD eq_refl RUN L FW).
  Qed.
  Lemma dn : d_n g = n /\ d_dep g = g_dep f.
  Proof.
    destruct (good_history (Rbase_laws dis nan) (Rtaylor_laws dis nan) INR junk _ _ _ _ _ _ _ _ _ _ REC POS h g OD RUN) as (G1 & G2 & G3 & G4 & _).
    destruct (dyn_fields (b:=b) (dynamics h) (drv_of (b:=b) junk f)) as (N1 & N2 & N3 & _).
    split; [exact (eq_trans G3 (eq_trans N1 GN))|exact (eq_trans G4 N2)].
  Qed.
  Ltac start_ := assert (length x = n) as L by (now rewrite Lx); destruct fwd0 as (y0 & g1 & FW & AT); destruct dn as [DN DD];
    destruct (at1_fields dis nan junk tid cmp n np e ev p V0 l0 f REC POS ds g1 x AT) as (Q1 & Q2 & _);
    pose proof REG as (d & Hd & RG0);
    assert (forall y, near n x d y -> (exists z, forward a 0 y = Some (F y, z)) /\ forall u, length u = n -> smooth_at dis nan junk f a (shift y u)) as RG
      by (intros y [Y1 Y2]; apply (RG0 y Y1 Y2));
    assert (@length R x =? n = true) as LT by (apply Nat.eqb_eq; exact L).
  Ltac lt_ := match goal with LT : (length x =? n) = true |- context [@length ?A ?y =? n] => replace (@length A y =? n) with true by (symmetry; exact LT) end.
  Lemma partial_dir d i j : (0 < d)%R -> length x = n ->
    (forall y, near n x d y -> (exists z, forward a 0 y = Some (F y, z)) /\ forall u, length u = n -> smooth_at dis nan junk f a (shift y u)) ->
    i < m -> is_partial (fun y => nth i (F y) 0%R) x j (dir F i x (unit_vec n j)).
  Proof.
    intros Hd L RG Hi. unfold is_partial. rewrite L.
    apply (dir_ok dis nan junk tid cmp n np e ev p V0 l0 f REC POS ds F x d RG i x _ (near_x n x L d Hd) Hi (unit_length n j)).
  Qed.

  (** Jacobian(x): element i * n + j is the partial derivative of component i w.r.t. x_j *)
  Theorem jacobian_is_partials : exists jac g', jacobian (b:=b) INR junk g x = Some (jac, g') /\
    length jac = g_n f * length (g_dep f) /\
    forall i j, i < length (g_dep f) -> j < g_n f ->
      is_partial (fun y => nth i (F y) 0%R) x j (nth (i * g_n f + j) jac 0%R).
  Proof.
    start_. rewrite GN. unfold jacobian. rewrite DN, DD. lt_. cbn [negb]. rewrite FW.
    assert (forall j, In j (seq 0 n) -> j < n) as SJ by (intros j Hj; apply in_seq in Hj; lia).
    assert (forall j, In j (seq 0 m) -> j < m) as SI by (intros j Hj; apply in_seq in Hj; lia).
    match goal with |- context [match (if ?c then ?e1 else ?e2) with _ => _ end] =>
      assert (exists jac g', (if c then e1 else e2) = Some (jac, g') /\ forall i j, i < m -> j < n -> jac (i * n + j) = dir F i x (unit_vec n j)) as (jac & g' & E & K) end.
    { match goal with |- context [if ?c then _ else _] => destruct c end.
      - destruct (jac_for_ok dis nan junk tid cmp n np e ev p V0 l0 f REC POS ds F x L d Hd RG (seq 0 n) g1 (fun _ => 0%R) junk AT ltac:(auto) (seq_NoDup _ _) SJ) as (jac & g' & E & _ & K).
        exists jac, g'. split; [exact E|]. intros i j Hi Hj. destruct (K i j Hi Hj) as [K1 _]. apply K1. apply in_seq. lia.
      - destruct (jac_rev_ok dis nan junk tid cmp n np e ev p V0 l0 f REC POS ds F x L d Hd RG (seq 0 m) g1 (fun _ => 0%R) junk AT ltac:(auto) (seq_NoDup _ _) SI) as (jac & g' & E & _ & K).
        exists jac, g'. split; [exact E|]. intros i j Hi Hj. destruct (K i j Hi Hj) as [K1 _]. apply K1. apply in_seq. lia. }
    rewrite E. exists (vec (b:=b) (n * m) jac), g'. split; [reflexivity|]. split; [apply vec_length|].
    intros i j Hi Hj. replace (nth (i * n + j) (vec (b:=b) (n * m) jac) 0%R) with (dir F i x (unit_vec n j)); [apply (partial_dir d); auto|].
    symmetry. etransitivity; [apply (vec_nth (b:=b)); fold m in Hi; nia|]. apply K; auto.
  Qed.

  (** ForOne(x, j): column j of the Jacobian *)
  Theorem for_one_is_partials : forall j, j < g_n f -> exists dy g', for_one (b:=b) INR junk g x j = Some (dy, g') /\
    forall i, i < length (g_dep f) -> is_partial (fun y => nth i (F y) 0%R) x j (nth i dy 0%R).
  Proof.
    start_. rewrite GN. intros j Hj. unfold for_one. rewrite DN. lt_. cbn [negb]. rewrite (proj2 (Nat.ltb_lt _ _) Hj). cbn [negb]. rewrite FW.
    match goal with |- context [@vec ?bb n ?w] => replace (@vec bb n w) with (unit_vec n j) by (symmetry; exact (vec_unit n (fun _ => 0%R) j ltac:(auto))) end.
    destruct (fwd1_dir dis nan junk tid cmp n np e ev p V0 l0 f REC POS ds F x L d Hd RG g1 (unit_vec n j) AT (unit_length n j)) as (v & g' & E & _ & K).
    exists v, g'. split; [exact E|]. intros i Hi. rewrite K by auto. apply (partial_dir d); auto.
  Qed.
  (** RevOne(x, i): row i of the Jacobian *)
  Theorem rev_one_is_partials : forall i, i < length (g_dep f) -> exists dw g', rev_one (b:=b) INR junk g x i = Some (dw, g') /\
    forall j, j < g_n f -> is_partial (fun y => nth i (F y) 0%R) x j (nth j dw 0%R).
  Proof.
    start_. rewrite GN. intros i Hi. unfold rev_one. rewrite DN, DD. lt_. cbn [negb]. rewrite (proj2 (Nat.ltb_lt _ _) Hi). cbn [negb]. rewrite FW. fold m.
    match goal with |- context [@vec ?bb m ?w] => replace (@vec bb m w) with (unit_vec m i) by (symmetry; exact (vec_unit m (fun _ => 0%R) i ltac:(auto))) end.
    destruct (rev1_dir dis nan junk tid cmp n np e ev p V0 l0 f REC POS ds F x L d Hd RG g1 (unit_vec m i) AT (unit_length m i)) as (z & E & K).
    exists z, g1. split; [exact E|]. intros j Hj.
    replace (nth j z 0%R) with (dir F i x (unit_vec n j)); [apply (partial_dir d); auto|]. symmetry. etransitivity; [exact (K j Hj)|].
    exact (total_unit m i (fun i => dir F i x (unit_vec n j)) Hi).
  Qed.

  Lemma hes_loop_partial2 (w : list R) d k j : (0 < d)%R -> length x = n ->
    (forall y, near n x d y -> (exists z, forward a 0 y = Some (F y, z)) /\ forall u, length u = n -> smooth_at dis nan junk f a (shift y u)) ->
    is_partial2 (fun y => total m (fun i => nth i w 0 * nth i (F y) 0)%R) x k j (total m (fun i => nth i w 0 * hes n F x i k j)%R).
  Proof.
    intros Hd L RG. exists (fun s => total m (fun i => nth i w 0 * dir F i (shift x (unit_vec n k) s) (unit_vec n j))%R). rewrite L. split.
    - generalize (near_loc n x d x (unit_vec n k) (near_x n x L d Hd)). apply filter_imp. intros s Ns. unfold is_partial. rewrite shift_length, L.
      apply (is_derive_total m (fun i t => nth i w 0 * nth i (F (shift (shift x (unit_vec n k) s) (unit_vec n j) t)) 0)%R (fun i => nth i w 0 * dir F i (shift x (unit_vec n k) s) (unit_vec n j))%R).
      intros i Hi. apply (is_derive_scal (fun t => nth i (F (shift (shift x (unit_vec n k) s) (unit_vec n j) t)) 0%R)).
      apply (dir_ok dis nan junk tid cmp n np e ev p V0 l0 f REC POS ds F x d RG i _ _ Ns Hi (unit_length n j)).
    - apply (is_derive_total m (fun i s => nth i w 0 * dir F i (shift x (unit_vec n k) s) (unit_vec n j))%R (fun i => nth i w 0 * hes n F x i k j)%R).
      intros i Hi. apply (is_derive_scal (fun s => dir F i (shift x (unit_vec n k) s) (unit_vec n j))).
      apply (hes_ok dis nan junk tid cmp n np e ev p V0 l0 f REC POS ds F x L d Hd RG i k j Hi).
  Qed.
  (** Hessian(x, w): element k * n + j is the second partial derivative of w . F *)
  Theorem hessian_is_second_partials : forall w, length w = length (g_dep f) -> exists H g', hessian (b:=b) INR junk g x w = Some (H, g') /\
    length H = g_n f * g_n f /\
    forall k j, k < g_n f -> j < g_n f ->
      is_partial2 (fun y => total (length (g_dep f)) (fun i => nth i w 0 * nth i (F y) 0)%R) x k j (nth (k * g_n f + j) H 0%R).
  Proof.
    start_. rewrite GN. intros w Lw. unfold hessian. rewrite DN, DD. lt_. cbn [negb].
    assert (@length R w =? length (g_dep f) = true) as LW by (apply Nat.eqb_eq; exact Lw). match goal with |- context [@length ?A w =? ?k] => replace (@length A w =? k) with true by (symmetry; exact LW) end. cbn [negb]. rewrite FW.
    destruct (hes_loop_ok dis nan junk tid cmp n np e ev p V0 l0 f REC POS ds F x L d Hd RG w (seq 0 n) Lw g1 (fun _ => 0%R) junk AT ltac:(auto) (seq_NoDup _ _)) as (H & g' & E & _ & K).
    { intros j Hj; apply in_seq in Hj; lia. }
    match goal with |- context [match ?e with Some _ => _ | None => _ end] => replace e with (Some (H, g')) by (symmetry; exact E) end.
    exists (vec (b:=b) (n * n) H), g'. split; [reflexivity|]. split; [apply vec_length|]. intros k j Hk Hj.
    replace (nth (k * n + j) (vec (b:=b) (n * n) H) 0%R) with (total m (fun i => nth i w 0 * hes n F x i k j)%R); [apply (hes_loop_partial2 w d); auto|].
    symmetry. etransitivity; [apply (vec_nth (b:=b)); nia|]. apply K; auto. apply in_seq; lia.
  Qed.
  (** Hessian(x, l) *)
  Theorem hessian_of_component : forall l, l < length (g_dep f) -> exists H g', hessian_of (b:=b) INR junk g x l = Some (H, g') /\
    length H = g_n f * g_n f /\
    forall k j, k < g_n f -> j < g_n f -> is_partial2 (fun y => nth l (F y) 0%R) x k j (nth (k * g_n f + j) H 0%R).
  Proof.
    intros l Hl. unfold hessian_of. rewrite (proj2 dn), (proj2 (Nat.ltb_lt _ _) Hl). cbn [negb]. fold m.
    match goal with |- context [@vec ?bb m ?w] => replace (@vec bb m w) with (unit_vec m l) by (symmetry; exact (vec_unit m (fun _ => 0%R) l ltac:(auto))) end.
    destruct (hessian_is_second_partials (unit_vec m l) (unit_length m l)) as (H & g' & E & LH & K). fold m in K.
    exists H, g'. split; auto. split; auto. intros k j Hk Hj. destruct (K k j Hk Hj) as (G & G1 & G2). exists G. split; auto.
    generalize G1. apply filter_imp. intros s. unfold is_partial. apply is_derive_ext. intros t. exact (total_unit m l (fun i => nth i (F _) 0%R) Hl).
  Qed.

  (** RevTwo(x, i, j): element k * p + l is the second partial derivative of component i[l] w.r.t. x_j[l] and x_k *)
  Theorem rev_two_is_second_partials : forall ii jj : list nat, length ii = length jj ->
    (forall l, l < length ii -> nth l ii 0 < length (g_dep f) /\ nth l jj 0 < g_n f) ->
    exists ddw g', rev_two (b:=b) INR junk g x ii jj = Some (ddw, g') /\ length ddw = g_n f * length ii /\
    forall k l, k < g_n f -> l < length ii ->
      is_partial2 (fun y => nth (nth l ii 0) (F y) 0%R) x k (nth l jj 0) (nth (k * length ii + l) ddw 0%R).
  Proof.
    start_. rewrite GN. intros ii jj LI HI. unfold rev_two. rewrite DN, DD. lt_. rewrite LI, Nat.eqb_refl. cbn [negb]. rewrite FW, <- LI.
    match goal with |- context [forallb ?P ?ls] => replace (forallb P ls) with true end.
    2: { symmetry. apply forallb_forall. intros l Hl. apply in_seq in Hl. destruct (HI l ltac:(lia)) as [H1 H2].
         now rewrite (proj2 (Nat.ltb_lt _ _) H1), (proj2 (Nat.ltb_lt _ _) H2). }
    cbn [negb].
    destruct (rev_two_out_ok dis nan junk tid cmp n np e ev p V0 l0 f REC POS ds F x L d Hd RG ii jj (seq 0 n) ltac:(intros l Hl; apply (HI l Hl)) g1 (fun _ => 0%R) (fun _ => 0%R) junk AT ltac:(auto) ltac:(auto) (seq_NoDup _ _)) as (ddw & g' & E & _ & K).
    { intros j Hj; apply in_seq in Hj; lia. }
    match goal with |- context [match ?e with Some _ => _ | None => _ end] => replace e with (Some (ddw, g')) by (symmetry; exact E) end.
    exists (vec (b:=b) (n * length ii) ddw), g'. split; [reflexivity|]. split; [apply vec_length|]. intros k l Hk Hl. destruct (HI l Hl) as [H1 H2].
    replace (nth (k * length ii + l) (vec (b:=b) (n * length ii) ddw) 0%R) with (hes n F x (nth l ii 0) k (nth l jj 0)).
    - apply (hes_partial2 dis nan junk tid cmp n np e ev p V0 l0 f REC POS ds F x L d Hd RG); auto.
    - symmetry. etransitivity; [apply (vec_nth (b:=b)); nia|]. apply K; auto. apply in_seq; lia.
  Qed.

  (** ForTwo(x, j, k): element i * p + l is the mean of the two mixed second partial
      derivatives of component i w.r.t. x_j[l] and x_k[l] (which are equal for a twice
      continuously differentiable function) *)
  Theorem for_two_is_second_partials : forall jj kk : list nat, length jj = length kk ->
    (forall l, l < length jj -> nth l jj 0 < g_n f /\ nth l kk 0 < g_n f) ->
    exists ddy g', for_two (b:=b) INR junk g x jj kk = Some (ddy, g') /\ length ddy = length (g_dep f) * length jj /\
    forall i l, i < length (g_dep f) -> l < length jj -> exists d1 d2,
      is_partial2 (fun y => nth i (F y) 0%R) x (nth l kk 0) (nth l jj 0) d1 /\
      is_partial2 (fun y => nth i (F y) 0%R) x (nth l jj 0) (nth l kk 0) d2 /\
      nth (i * length jj + l) ddy 0%R = ((d1 + d2) / 2)%R.
  Proof.
    start_. rewrite GN. intros jj kk LI HI. unfold for_two. rewrite DN, DD. lt_. rewrite <- LI, Nat.eqb_refl. cbn [negb]. rewrite FW.
    assert (List.Forall (fun q => fst q < n /\ snd q < n) (combine jj kk)) as HF.
    { apply Forall_forall. intros [j k] Hq. apply (In_nth _ _ (0, 0)) in Hq as (l & Hl & E). rewrite combine_length in Hl.
      rewrite combine_nth in E by auto. injection E as <- <-. cbn. apply HI. lia. }
    destruct (for_two_first_ok dis nan junk tid cmp n np e ev p V0 l0 f REC POS ds F x L d Hd RG (combine jj kk) (fun _ => false, junk, (fun _ => 0%R), g1) HF) as ([[[c D] dx] g2] & E2 & DI & _ & FL).
    { split; [exact AT|]. split; [auto|discriminate]. }
    match goal with |- context [match ?e with Some _ => _ | None => _ end] => replace e with (Some (c, D, dx, g2)) by (symmetry; exact E2) end.
    destruct DI as (AT2 & Zd & DI).
    destruct (for_two_second_ok dis nan junk tid cmp n np e ev p V0 l0 f REC POS ds F x L d Hd RG D (length jj) (combine jj kk) g2 0 dx junk AT2 Zd HF) as (ddy & g' & E & _ & K).
    { rewrite Forall_forall in *. intros q Hq. destruct (FL q Hq) as [F1 F2]. destruct (HF q Hq) as [H1 H2]. split; intros i Hi; now apply DI. }
    { rewrite combine_length. lia. }
    match goal with |- context [match ?e with Some _ => _ | None => _ end] => replace e with (Some (ddy, g')) by (symmetry; exact E) end.
    exists (vec (b:=b) (m * length jj) ddy), g'. split; [reflexivity|]. split; [apply vec_length|]. intros i l Hi Hl. fold m in Hi.
    destruct (HI l Hl) as [H1 H2]. exists (hes n F x i (nth l kk 0) (nth l jj 0)), (hes n F x i (nth l jj 0) (nth l kk 0)).
    split; [apply (hes_partial2 dis nan junk tid cmp n np e ev p V0 l0 f REC POS ds F x L d Hd RG); auto|].
    split; [apply (hes_partial2 dis nan junk tid cmp n np e ev p V0 l0 f REC POS ds F x L d Hd RG); auto|].
    etransitivity; [apply (vec_nth (b:=b)); nia|]. destruct (K i Hi) as [K1 _]. specialize (K1 l ltac:(rewrite combine_length; lia)).
    cbn [Nat.add] in K1. rewrite combine_nth in K1 by auto. cbn [fst snd] in K1. rewrite K1. unfold mixed.
    destruct (Nat.eqb_spec (nth l jj 0) (nth l kk 0)) as [<-|]; lra.
  Qed.

  (** points, components and indices of the wrong size are rejected *)
  Theorem drivers_reject : 
    (forall y, length y <> g_n f -> jacobian (b:=b) INR junk g y = None /\ (forall j, for_one (b:=b) INR junk g y j = None) /\
       (forall i, rev_one (b:=b) INR junk g y i = None) /\ (forall w, hessian (b:=b) INR junk g y w = None) /\
       (forall i j, rev_two (b:=b) INR junk g y i j = None) /\ (forall j k, for_two (b:=b) INR junk g y j k = None)) /\
    (forall y j, g_n f <= j -> for_one (b:=b) INR junk g y j = None) /\
    (forall y i, length (g_dep f) <= i -> rev_one (b:=b) INR junk g y i = None) /\
    (forall y w, length w <> length (g_dep f) -> hessian (b:=b) INR junk g y w = None) /\
    (forall y l, length (g_dep f) <= l -> hessian_of (b:=b) INR junk g y l = None).
  Proof.
    destruct dn as [DN DD].
    split; [|split; [|split; [|split]]].
    - intros y Hy. assert (@length R y =? d_n g = false) as E by (apply Nat.eqb_neq; rewrite DN, <- GN; exact Hy).
      repeat split; intros; unfold jacobian, for_one, rev_one, hessian, rev_two, for_two; match goal with |- context [@length ?A y =? ?k] => replace (@length A y =? k) with false by (symmetry; exact E) end; reflexivity.
    - intros y j Hj. unfold for_one. rewrite DN. destruct (negb _); auto. destruct (Nat.ltb_spec j n); auto. lia.
    - intros y j Hj. unfold rev_one. rewrite DD. destruct (negb _); auto. destruct (Nat.ltb_spec j (length (g_dep f))); auto. lia.
    - intros y w Hw. unfold hessian. destruct (negb _); auto. assert (@length R w =? length (d_dep g) = false) as E by (apply Nat.eqb_neq; rewrite DD; exact Hw). match goal with |- context [@length ?A w =? ?k] => replace (@length A w =? k) with false by (symmetry; exact E) end. auto.
    - intros y j Hj. unfold hessian_of. rewrite DD. destruct (Nat.ltb_spec j (length (g_dep f))); auto. lia.
  Qed.
End Der.

(** the hypothesis on F from the user's algorithm p: near x its evaluation makes the recorded
    decisions and is F *)
Theorem regular_of_algorithm dis nan junk tid cmp n np (e : nat -> AD (Rbase dis nan)) (ev : nat -> VecAD (Rbase dis nan)) p V0 l0 f
  (REC : recorded tid cmp n np e ev p V0 l0 f) (POS : 0 < n) (ds : list (list R)) (F : list R -> list R) x d :
  List.Forall (fun v => length v = np) ds -> (0 < d)%R ->
  (forall y, length y = n -> (forall j, j < n -> (Rabs (nth j y 0 - nth j x 0) < d)%R) ->
     let s := start (base_values e ev) y (last ds (dyn_values n np e)) in
     decisions (b:=Rbase dis nan) p s = decisions (b:=Rbase dis nan) p (base_values e ev) /\ eval (b:=Rbase dis nan) p s = Some (F y) /\
     forall u, length u = n -> smooth_at dis nan junk f (with_dynamics (drv_of (b:=Rbase dis nan) junk f) ds) (shift y u)) ->
  regular dis nan junk n f ds F x.
Proof.
  intros DD Hd H. exists d. split; auto. intros y Ly Ny. destruct (H y Ly Ny) as (D & E & S). split; auto.
  apply (forward_value (Rbase_laws dis nan) INR junk tid cmp n np e ev p V0 l0 f ds y (F y) REC POS); auto.
Qed.
