(** C08: the results of forward mode are the Taylor coefficients of the recorded
    function along the curve given by the Taylor coefficients of its argument. *)
From Coq Require Import Reals ZArith Lra Lia List Bool Arith.
From Coquelicot Require Import Coquelicot.
From Verif Require Import Base_Spec Op_Model Tape_Spec Tape_Model Tape_Proof Tape_Proof2 Tape_Proof10 Tape_Hist Tape_Prop
  Sweep_Model Sweep_Eqs Sweep_Eqs2 Sweep_Tape Sweep_Uniq Sweep_Val0 Tape_Swf
  Drv_Spec Drv_Model Drv_Proof Drv_Proof2 Drv_Proof3 Drv_Proof4 Drv_Prop Drv_Link Real_Base Tay_Calc Tay_Sub Tay_Tape.
Import ListNotations.
Open Scope nat_scope.

(** the polynomial with coefficients c 0, ..., c q *)
Definition poly (q : nat) (c : nat -> R) (t : R) : R := sum_f_R0 (fun k => c k * t ^ k)%R q.
Lemma poly_deriv q c t : is_derive (poly q c) t (match q with O => 0%R | S m => poly m (Dc c) t end).
Proof.
  assert (forall m c, is_derive (poly (S m) c) t (poly m (Dc c) t)) as K.
  { clear q c. induction m as [|m IH]; intros c.
    - unfold poly, Dc. cbn [sum_f_R0 INR]. auto_derive; auto. cbn. ring.
    - unfold poly in *. cbn [sum_f_R0] in *.
      apply (is_derive_plus (fun t => sum_f_R0 (fun k => c k * t ^ k)%R (S m)) (fun t => (c (S (S m)) * t ^ S (S m))%R)).
      + apply IH.
      + auto_derive; auto. unfold Dc. cbn [pow pred]. rewrite (S_INR (S m)). replace (match m with 0 => 1%R | S _ => (INR m + 1)%R end) with (INR (S m)) by reflexivity. ring. }
  destruct q; [|apply K]. unfold poly. cbn. apply (is_derive_const (c O * 1)%R).
Qed.
Lemma tay_poly n : forall q c, n <= q -> tay n (poly q c) c.
Proof.
  assert (forall q c, poly q c 0%R = c 0) as Z.
  { intros q c. unfold poly. induction q as [|q IH]; cbn [sum_f_R0].
    - cbn. ring.
    - rewrite IH. rewrite pow_i by lia. ring. }
  induction n as [|n IH]; intros q c H; (split; [apply Z|auto]).
  destruct q as [|q]; [lia|]. exists (poly q (Dc c)). split; [|apply IH; lia].
  apply filter_forall. intros t. apply (poly_deriv (S q)).
Qed.

(** ** the two constants of erf and erfc *)
Section Erf.
  Context {b : base} (L : base_laws b).
  Notation T := (bt b).
  Lemma recorded_econ tid cmp n np e ev p V l2v (f : adfun b) : recorded tid cmp n np e ev p V l2v f ->
    econ n (g_rec f) /\ g_par f = (fun i => nth i (r_par (g_rec f)) bnan).
  Proof.
    intros (T0 & [NE NV] & RF & HF).
    destruct (rec_exec tid cmp n np e ev p V l2v f RF) as (EX & HN & HP & _).
    destruct (swf_exec tid n T0 p _ _ _ (sst_init tid n T0 cmp np e ev NE) EX) as [(S1 & S2 & S3 & S4 & S6) S5].
    auto.
  Qed.
  (** a constant parameter is not changed by new_dynamic *)
  Lemma const_dyn junk (f : adfun b) ds k : nth k (r_isdyn (g_rec f)) false = false ->
    d_par (with_dynamics (drv_of junk f) ds) k = g_par f k.
  Proof.
    intros H. unfold with_dynamics.
    assert (forall ds (a : adq b), d_rec a = g_rec f -> d_par (fold_left new_dyn ds a) k = d_par a k) as K.
    { clear ds. induction ds as [|d ds IH]; intros a E; cbn [fold_left]; auto. rewrite IH by auto. cbn. unfold dyn_sweep.
      apply dyn_loop_frame. rewrite E. intros Q. apply dyn2par_ge in Q. rewrite Nat.sub_0_r in Q. destruct Q as (_ & Q & _). congruence. }
    now rewrite K.
  Qed.
End Erf.

Section C08.
  Variable dis : nat -> R -> R.
  Variable nan : R.
  Notation b := (Rbase dis nan).
  Variable junk : nat -> R.
  Context (tid : nat) (cmp : bool) (n np : nat) (e : nat -> AD b) (ev : nat -> VecAD b) (p : prog R)
    (V0 : nat -> R) (l0 : nat -> nat) (f : adfun b).
  Hypothesis REC : recorded tid cmp n np e ev p V0 l0 f.
  Hypothesis POS : 0 < n.
  Let f0 : adq b := drv_of (b:=b) junk f.

  (** the operators on the tape *)
  Definition tape : list ins := match decode (r_op (g_rec f)) (r_arg (g_rec f)) 0 with Some l => l | None => [] end.
  (** value of variable [v] of the tape, and variable number read by load [m], after
      Forward(0, X(t)) on the object [a] *)
  Definition value_at (a : adq b) (X : R -> list R) (v : nat) (t : R) : R :=
    match forward (b:=b) INR junk a 0 (X t) with Some (_, z) => view1 z v 0 | None => 0%R end.
  Definition load_at (a : adq b) (X : R -> list R) (t : R) (m : nat) : nat :=
    match forward (b:=b) INR junk a 0 (X t) with Some (_, z) => d_l2v z m | None => 0 end.
  (** every operator is differentiable at its arguments for t = 0, and none of the
      choices (conditional expressions, VecAD elements, discrete functions, signs) changes near
      t = 0 *)
  Definition smooth_at (a : adq b) (X : R -> list R) : Prop :=
    List.Forall (ins_reg dis nan (d_par a) (value_at a X) (load_at a X)) tape.

  Lemma erf_ok_tape ds i : In i tape -> erf_ok (d_par (with_dynamics f0 ds)) i.
  Proof.
    destruct (recorded_econ _ _ _ _ _ _ _ _ _ _ REC) as [[_ E] GP].
    destruct (recorded_struct (Rbase_laws dis nan) _ _ _ _ _ _ _ _ _ _ REC) as (D & _).
    unfold tape. rewrite D. intros Hi. apply in_app_or in Hi as [Hi|Hi].
    - unfold erf_ok, head_ins in *. destruct Hi as [<-|Hi]; [exact I|]. apply in_map_iff in Hi as (j & <- & _). exact I.
    - rewrite Forall_forall in E. specialize (E i Hi). unfold erfa in E. unfold erf_ok.
      assert (erfop (i_op i) = true -> d_par (with_dynamics f0 ds) (nth 1 (i_arg i) 0) = 0%R /\
        d_par (with_dynamics f0 ds) (nth 2 (i_arg i) 0) = erf_c) as K.
      { intros Q. destruct (E Q) as [(A1 & A2 & A3) (B1 & B2 & B3)]. unfold f0.
        rewrite !const_dyn by auto. rewrite GP. cbn in A3, B3. split; [destruct A3 as [A3|A3]|destruct B3 as [B3|B3]]; auto; now apply Reqb_eq in A3 || apply Reqb_eq in B3. }
      destruct (i_op i); auto.
  Qed.

  (** Whatever calls were made before: when Forward(q, xq) succeeds, the order k
      coefficients it returns are (1/k!) times the k-th derivative at t = 0 of
      F(X(t)), where F(x) is what Forward(0, x) returns and X is any curve with the
      Taylor coefficients given for the independent variables. *)
  Theorem forward_is_taylor : forall h g q xq ys g',
    one_direction h -> drun (b:=b) INR junk f0 h = Some g -> forward (b:=b) INR junk g q xq = Some (ys, g') ->
    let x := given 0%R (g_n f) (h ++ [CFor q xq]) in
    let a := with_dynamics f0 (dynamics h) in
    forall (X : R -> list R) (F : R -> list R),
    (forall t, length (X t) = g_n f) ->
    (forall j, j < g_n f -> tay q (fun t => nth j (X t) 0%R) (fun k => nth j (x k) 0%R)) ->
    locally 0%R (fun t => exists z, forward (b:=b) INR junk a 0 (X t) = Some (F t, z)) ->
    smooth_at a X ->
    forall i k, i < length (g_dep f) -> k <= q -> (length xq = g_n f -> k = q) ->
    is_derive_n (fun t => nth i (F t) 0%R) k 0%R (INR (fact k) * nth i (returned f q k xq ys) 0)%R.
  Proof.
    intros h g q xq ys g' OD RUN FW x a X F XL XT FL SM i k Hi Hk Hkq.
    pose proof (Rtaylor_laws dis nan) as TL. pose proof (Rbase_laws dis nan) as BL.
    destruct (recorded_struct BL _ _ _ _ _ _ _ _ _ _ REC) as (DE & _).
    destruct (good_history BL TL INR junk _ _ _ _ _ _ _ _ _ _ REC POS h g OD RUN) as (G1 & G2 & G3 & G4 & G5 & G6 & G7 & G8 & G9).
    set (l := head_ins n ++ body n (g_rec f)) in *. fold f0 in G2, G3, G4, G5, G6, G7, G8, G9. fold a in G2, G3, G4, G5, G6, G7, G8, G9.
    assert (tape = l) as ET by (unfold tape; now rewrite DE).
    destruct (dyn_fields (b:=b) (dynamics h) f0) as (N1 & N2 & N3 & _). fold a in N1, N2, N3. cbn in N1, N2, N3.
    destruct (forward_valid TL INR junk _ g _ q xq ys g' G1 FW) as (A1 & A2 & A3 & A4 & A5 & A6 & A7 & A8 & A9 & _).
    assert (valid (b:=b) INR l g' x) as VX.
    { refine (valid_inputs (b:=b) INR l _ _ _ _ A1). intros m. unfold x, given. rewrite fold_left_app. cbn [fold_left].
      symmetry. etransitivity; [apply (given_upd (b:=b))|]. now replace (d_n g) with (g_n f) by congruence. }
    clear A1. pose proof (v_twf _ _ _ _ VX) as W. pose proof (w_nv _ _ _ _ W) as NV.
    assert (d_par g' = d_par a) as EP by congruence. assert (d_n g' = g_n f) as EN by congruence.
    assert (d_rec g' = g_rec f) as ER by congruence. assert (d_dep g' = g_dep f) as ED by congruence.
    rewrite ER in *. rewrite EN in *. rewrite ED in *.
    destruct (v_st _ _ _ _ VX ltac:(lia)) as [_ S2 S3 S4].
    (* the zero order sweeps *)
    assert (forall t ys z, forward (b:=b) INR junk a 0 (X t) = Some (ys, z) ->
      valid (b:=b) INR l z (fun k => if k =? 0 then X t else []) /\ d_ord z = 1 /\ d_rec z = g_rec f /\ d_par z = d_par a /\ d_cc z = d_cc a /\ d_n z = g_n f /\ 
      ys = map (fun v => view1 z v 0) (g_dep f) /\
      List.Forall (val_ins (b:=b) INR (d_par a) (fun v => view1 z v 0) (d_l2v z)) l /\
      (forall j, j < g_n f -> view1 z (S j) 0 = nth j (X t) 0%R)) as ZT.
    { intros t zs z Fz. destruct (forward_valid TL INR junk _ a _ 0 (X t) zs z (valid_empty (b:=b) INR l _ _ (fun _ => []) G7 G9) Fz)
        as (B1 & B2 & B3 & B4 & B5 & B6 & B7 & B8 & _).
      assert (valid (b:=b) INR l z (fun k => if k =? 0 then X t else [])) as VZ.
      { refine (valid_inputs (b:=b) INR l _ _ _ _ B1). intros m. unfold upd. rewrite N1, XL, Nat.eqb_refl. auto. }
      destruct (v_st _ _ _ _ VZ ltac:(lia)) as [(V1 & l1 & s & T1 & T2 & T3 & T4) T5 T6 T7].
      replace (d_rec z) with (g_rec f) in * by congruence. replace (d_par z) with (d_par a) in * by congruence.
      replace (d_n z) with (g_n f) in * by congruence.
      split; [auto|]. split; [auto|]. split; [auto|]. split; [auto|]. split; [auto|]. split; [auto|].
      split; [|split].
      - rewrite B3. unfold yout, low. replace (d_dep z) with (g_dep f) by congruence. rewrite N1, XL, Nat.eqb_refl. auto.
      - destruct (sweep0_val TL INR (d_par a) (length (r_par (g_rec f))) _ l 0 0 0 (init0 (b:=b) (g_rec f) V1 l1) s (w_wfl _ _ _ _ W)
          ltac:(cbn; auto) ltac:(intros m Hm; cbn in Hm; discriminate) T1) as (_ & _ & _ & U4 & U5).
        apply (val_list_ext (b:=b) INR (d_par a) (length (r_par (g_rec f))) l 0 0 (f_V s) _ (f_l2v s) _ (w_wfl _ _ _ _ W)); auto.
        + intros v Hv. apply T3. rewrite NV. auto.
        + intros m Hm. apply T4. lia.
      - intros j Hj. rewrite T7 by lia. auto. }
    set (Y := value_at a X). set (Lt := load_at a X).
    assert (forall t ys z, forward (b:=b) INR junk a 0 (X t) = Some (ys, z) ->
      (forall v, Y v t = view1 z v 0) /\ (forall m, Lt t m = d_l2v z m)) as YE.
    { intros t zs z Fz. unfold Y, Lt, value_at, load_at. rewrite Fz. auto. }
    destruct (locally_singleton _ _ FL) as (z0 & Fz0).
    destruct (YE _ _ _ Fz0) as [Y0 L0]. destruct (ZT _ _ _ Fz0) as (Z1 & Z2 & Z3 & Z4 & Z5 & Z6 & Z7 & Z8 & Z9).
    assert (forall j, j < g_n f -> nth j (X 0%R) 0%R = nth j (x 0) 0%R) as X0.
    { intros j Hj. apply (tay_0 _ _ _ (XT j Hj)). }
    assert (forall v, 0 < v < r_nvar (g_rec f) -> tay q (Y v) (view1 g' v)) as KT.
    { rewrite NV. apply (tape_tay dis nan (d_par a) (length (r_par (g_rec f))) q l 0 0 Y (view1 g') Lt (d_l2v g') (w_wfl _ _ _ _ W)).
      - apply (w_nf _ _ _ _ W).
      - exact S2.
      - intros; lia.
      - intros j Hj Ho. pose proof (w_inv2 _ _ _ _ W j Hj Ho) as R. destruct (i_var j) as [|m]; [lia|].
        apply tay_ext with (fun t => nth m (X t) 0%R) (fun k => nth m (x k) 0%R).
        + generalize FL. apply filter_imp. intros t (z & Fz). destruct (YE _ _ _ Fz) as [-> _].
          destruct (ZT _ _ _ Fz) as (_ & _ & _ & _ & _ & _ & _ & _ & Q). rewrite Q by lia. auto.
        + intros k' Hk'. rewrite S4 by lia. auto.
        + apply XT. lia.
      - intros j Hj. generalize FL. apply filter_imp. intros t (z & Fz). destruct (YE _ _ _ Fz) as [Yz Lz].
        destruct (ZT _ _ _ Fz) as (_ & _ & _ & _ & _ & _ & _ & VI & _).
        assert (List.Forall (val_ins (b:=b) INR (d_par a) (fun v => Y v t) (Lt t)) l) as VI2.
        { destruct (ZT _ _ _ Fz) as (Vz & Oz & _). apply (val_list_ext (b:=b) INR (d_par a) (length (r_par (g_rec f))) l 0 0 (fun v => view1 z v 0) _ (d_l2v z) _ (w_wfl _ _ _ _ W)); auto.
          apply (s_ld _ _ _ _ (v_st _ _ _ _ Vz ltac:(lia))). }
        rewrite Forall_forall in VI2. now apply VI2.
      - intros v Hv. rewrite Y0. apply (valid_det (b:=b) INR l z0 g' _ x 1 Z1 VX); try congruence; try lia.
        + intros k' j Hk' Hj. replace k' with 0 by lia. cbn [Nat.eqb]. apply X0. lia.
        + rewrite Z3, NV. auto.
      - intros m Hm. rewrite L0. apply (valid_det_l2v (b:=b) INR l z0 g' _ x Z1 VX); try congruence; try lia.
        intros j Hj. cbn [Nat.eqb]. apply X0. lia.
      - intros j Hj. rewrite <- EP. apply S3. lia.
      - intros j Hj. rewrite <- ET in Hj. split; [|now apply erf_ok_tape].
        unfold smooth_at in SM. rewrite Forall_forall in SM. apply SM; auto. }
    pose proof (w_dep _ _ _ _ W) as WD. rewrite Forall_forall in WD.
    assert (In (nth i (g_dep f) 0) (g_dep f)) as ID by (apply nth_In; auto).
    assert (returned f q k xq ys = map (fun v => view1 g' v k) (g_dep f)) as ->.
    { unfold returned. rewrite A3. replace (d_n g) with (g_n f) by congruence. rewrite <- ED. apply yout_order.
      unfold low. destruct (Nat.eqb_spec (length xq) (g_n f)); [specialize (Hkq ltac:(auto))|]; lia. }
    rewrite (nth_indep _ 0%R ((fun v => view1 g' v k) 0)) by (rewrite map_length; auto).
    rewrite (map_nth (fun v => view1 g' v k)).
    specialize (KT _ (WD _ ID)).
    apply is_derive_n_ext_loc with (Y (nth i (g_dep f) 0)).
    - generalize FL. apply filter_imp. intros t (z & Fz). destruct (YE _ _ _ Fz) as [-> _].
      destruct (ZT _ _ _ Fz) as (_ & _ & _ & _ & _ & _ & -> & _ & _).
      rewrite (nth_indep _ 0%R ((fun v => view1 z v 0) 0)) by (rewrite map_length; auto).
      now rewrite (map_nth (fun v => view1 z v 0)).
    - eapply tay_Derive_n; eauto.
  Qed.

  (** The form used in the documentation.  F is the user's algorithm, evaluated in
      real arithmetic at the current dynamic parameters,
        X(t) = x^(0) + x^(1) t + ... + x^(q) t^q,
      the comparisons made by the algorithm have the outcomes that were recorded for t
      near zero; then y^(k) = (1/k!) (d/dt)^k F(X(t)) at t = 0. *)
  Theorem forward_is_taylor_of_algorithm : forall h g q xq ys g',
    one_direction h -> List.Forall (fun d => length d = np) (dynamics h) ->
    drun (b:=b) INR junk f0 h = Some g -> forward (b:=b) INR junk g q xq = Some (ys, g') ->
    let x := given 0%R (g_n f) (h ++ [CFor q xq]) in
    let X t := map (fun j => poly q (fun k => nth j (x k) 0%R) t) (seq 0 (g_n f)) in
    let at_ t := start (base_values e ev) (X t) (last (dynamics h) (dyn_values n np e)) in
    forall F : R -> list R,
    locally 0%R (fun t => decisions (b:=b) p (at_ t) = decisions (b:=b) p (base_values e ev) /\ eval (b:=b) p (at_ t) = Some (F t)) ->
    smooth_at (with_dynamics f0 (dynamics h)) X ->
    forall i k, i < length (g_dep f) -> k <= q -> (length xq = g_n f -> k = q) ->
    is_derive_n (fun t => nth i (F t) 0%R) k 0%R (INR (fact k) * nth i (returned f q k xq ys) 0)%R.
  Proof.
    intros h g q xq ys g' OD DD RUN FW x X at_ F FL SM i k Hi Hk Hkq.
    destruct (recorded_struct (Rbase_laws dis nan) _ _ _ _ _ _ _ _ _ _ REC) as (_ & _ & _ & _ & _ & _ & _ & EN).
    assert (forall t, length (X t) = g_n f) as XL by (intros t; unfold X; now rewrite map_length, seq_length).
    apply (forward_is_taylor h g q xq ys g' OD RUN FW X F XL); auto.
    - intros j Hj. fold x. apply tay_loc with (poly q (fun k => nth j (x k) 0%R)); [|apply tay_poly; auto].
      apply filter_forall. intros t. unfold X.
      rewrite (nth_indep _ 0%R ((fun j => poly q (fun k => nth j (x k) 0%R) t) 0)) by (rewrite map_length, seq_length; auto).
      rewrite (map_nth (fun j => poly q (fun k => nth j (x k) 0%R) t)), seq_nth by auto. reflexivity.
    - generalize FL. apply filter_imp. intros t [D E].
      apply (forward_value (Rbase_laws dis nan) INR junk tid cmp n np e ev p V0 l0 f (dynamics h) (X t) (F t) REC POS); auto.
      rewrite XL. auto.
  Qed.
End C08.
