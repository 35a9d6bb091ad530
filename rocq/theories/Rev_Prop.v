(** C11: Reverse(q, w) returns the partial derivatives of the weighted sum of the Taylor
    coefficients returned by Forward. *)
From Coq Require Import Reals ZArith Lra Lia List Bool Arith FunctionalExtensionality.
From Coquelicot Require Import Coquelicot.
From Verif Require Import Base_Spec Op_Model Tape_Spec Tape_Model Tape_Proof Tape_Proof2 Tape_Proof10 Tape_Hist Tape_Prop
  Sweep_Model Sweep_Eqs Sweep_Eqs2 Sweep_Tape Sweep_Uniq Sweep_Val0 Tape_Swf
  Drv_Spec Drv_Model Drv_Proof Drv_Proof2 Drv_Proof3 Drv_Proof4 Drv_Prop Drv_Link Real_Base Tay_Calc Tay_Sub Tay_Tape Tay_Prop
  Rev_Spec Rev_Calc Rev_Sub Rev_Sub2 Rev_Sub7 Rev_Frame Rev_Prim Rev_Tape.
Import ListNotations.
Open Scope nat_scope.

Lemma total_sumR n f : total n f = sumR 0 n f.
Proof.
  unfold total. assert (forall m k, fold_right Rplus 0%R (map f (seq k m)) = sumR k (k + m) f) as K.
  { induction m as [|m IH]; intros k; cbn [seq map fold_right]; [now rewrite sumR_nil by lia|].
    rewrite IH. rewrite (sumR_fst k) by lia. do 2 f_equal. lia. }
  apply (K n 0).
Qed.

(** ins_reg depends on the values near zero only *)
Lemma ins_reg_ext dis nan P np nv nl i l Y Y' L L' : wfl np nv nl (i :: l) ->
  (forall v, 0 < v < nv + num_res (i_op i) -> locally 0%R (fun t => Y v t = Y' v t)) ->
  (is_load (i_op i) = true -> locally 0%R (fun t => L t nl = L' t nl)) ->
  ins_reg dis nan P Y L i -> ins_reg dis nan P Y' L' i.
Proof.
  intros W HY HL. destruct W as (A & B & C & D & E & W).
  assert (forall x, In x (var_args (i_op i) (i_arg i)) -> locally 0%R (fun t => Y x t = Y' x t)) as HX.
  { intros x Hx. apply HY. destruct i as [o a iv]. pose proof (wf_arg_range np o a iv x B Hx) as R1. cbn [i_op i_arg i_var] in *. lia. }
  assert (forall x, In x (var_args (i_op i) (i_arg i)) -> Y x 0%R = Y' x 0%R) as HX0.
  { intros x Hx. exact (locally_singleton _ _ (HX x Hx)). }
  assert (forall (B : Type) (g : R -> B) x, In x (var_args (i_op i) (i_arg i)) -> frozen (fun t => g (Y x t)) -> frozen (fun t => g (Y' x t))) as FZ.
  { intros Bt g x Hx F. unfold frozen in *. pose proof (HX x Hx) as Q. rewrite (HX0 x Hx) in F. generalize (filter_and _ _ F Q). apply filter_imp.
    intros t [F1 <-]. exact F1. }
  destruct i as [o a iv]. unfold ins_reg. cbn [i_op i_arg i_var] in *.
  destruct o; auto; cbn [var_args In] in HX, HX0, FZ.
  all: try (rewrite <- HX0 by auto; auto; fail).
  all: try (apply (FZ _ _); auto; fail).
  - (* cexp *) unfold frozen. intros F.
    assert (forall j q, (j = 0 /\ q = 2 \/ j = 1 /\ q = 3) ->
      locally 0%R (fun t => vp (b:=Rbase dis nan) (nth 1 a 0) j P (fun i => Y i t) (nth q a 0) = vp (b:=Rbase dis nan) (nth 1 a 0) j P (fun i => Y' i t) (nth q a 0))) as VP.
    { intros j q Hq. unfold vp. destruct (Nat.testbit (nth 1 a 0) j) eqn:TB; [|apply filter_forall; auto].
      apply HX. rewrite !in_app_iff. destruct Hq as [[-> ->]|[-> ->]]; rewrite TB; cbn; auto. }
    pose proof (VP 0 2 ltac:(auto)) as V1. pose proof (VP 1 3 ltac:(auto)) as V2.
    assert (forall t, vp (b:=Rbase dis nan) (nth 1 a 0) 0 P (fun i => Y i t) (nth 2 a 0) = vp (b:=Rbase dis nan) (nth 1 a 0) 0 P (fun i => Y' i t) (nth 2 a 0) ->
      vp (b:=Rbase dis nan) (nth 1 a 0) 1 P (fun i => Y i t) (nth 3 a 0) = vp (b:=Rbase dis nan) (nth 1 a 0) 1 P (fun i => Y' i t) (nth 3 a 0) ->
      cexp_choice dis nan P a Y t = cexp_choice dis nan P a Y' t) as CE.
    { intros t E1 E2. unfold cexp_choice. cbv zeta. now rewrite E1, E2. }
    rewrite <- (CE 0%R (locally_singleton _ _ V1) (locally_singleton _ _ V2)).
    generalize (filter_and _ _ F (filter_and _ _ V1 V2)). apply filter_imp. intros t (F1 & F2 & F3). rewrite <- (CE t F2 F3). exact F1.
  - intros [F1 F2]. specialize (D eq_refl). specialize (HL eq_refl). rewrite D in *. pose proof (locally_singleton _ _ HL) as L0. split.
    + unfold frozen in *. rewrite <- L0. generalize (filter_and _ _ F1 HL). apply filter_imp. intros t [Q1 Q2]. now rewrite <- Q2.
    + rewrite <- L0. intros Z. specialize (F2 Z). assert (locally 0%R (fun t => Y iv t = Y' iv t)) as Q by (apply HY; cbn in *; assert (0 < nv) by (apply E; discriminate); lia).
      unfold frozen in *. rewrite <- (locally_singleton _ _ Q). generalize (filter_and _ _ F2 Q). apply filter_imp. intros t [Q1 Q2]. now rewrite <- Q2.
  - intros [F1 F2]. specialize (D eq_refl). specialize (HL eq_refl). rewrite D in *. pose proof (locally_singleton _ _ HL) as L0. split.
    + unfold frozen in *. rewrite <- L0. generalize (filter_and _ _ F1 HL). apply filter_imp. intros t [Q1 Q2]. now rewrite <- Q2.
    + rewrite <- L0. intros Z. specialize (F2 Z). assert (locally 0%R (fun t => Y iv t = Y' iv t)) as Q by (apply HY; cbn in *; assert (0 < nv) by (apply E; discriminate); lia).
      unfold frozen in *. rewrite <- (locally_singleton _ _ Q). generalize (filter_and _ _ F2 Q). apply filter_imp. intros t [Q1 Q2]. now rewrite <- Q2.
Qed.
Lemma ins_reg_ext_all dis nan P np l : forall nv nl Y Y' L L', wfl np nv nl l ->
  (forall v, 0 < v < nv + tres l -> locally 0%R (fun t => Y v t = Y' v t)) ->
  (forall m, nl <= m < nl + nload l -> locally 0%R (fun t => L t m = L' t m)) ->
  List.Forall (ins_reg dis nan P Y L) l -> List.Forall (ins_reg dis nan P Y' L') l.
Proof.
  induction l as [|i l IH]; intros nv nl Y Y' L L' W HY HL F; constructor; inversion F as [|? ? F1 F2]; subst; cbn [tres nload] in *.
  - apply (ins_reg_ext dis nan P np nv nl i l Y Y' L L' W); auto.
    + intros v Hv. apply HY. lia.
    + intros Q. apply HL. rewrite Q. lia.
  - pose proof W as (_ & _ & _ & _ & _ & W2). apply (IH _ _ Y Y' L L' W2); auto.
    + intros v Hv. apply HY. lia.
    + intros m Hm. apply HL. destruct (is_load (i_op i)); lia.
Qed.

Section Weights.
  Variable dis : nat -> R -> R.
  Variable nan : R.
  Notation b := (Rbase dis nan).
  (** the partials at the start of a reverse sweep *)
  Definition start_p (dep : list nat) (q : nat) (w : list R) : nat -> nat -> R :=
    let m := length dep in
    if length w =? m
    then fold_left (fun p i => padd (b:=b) (nth i dep 0) (q - 1) (nth i w 0%R) p) (seq 0 m) (fun _ _ => 0%R)
    else fold_left (fun p i => fold_left (fun p k =>
           padd (b:=b) (nth i dep 0) k (nth (i * q + k) w 0%R) p) (seq 0 q) p) (seq 0 m) (fun _ _ => 0%R).
  Lemma start_pair dep q w d N W : q = S d -> List.Forall (fun v => 0 < v < N) dep ->
    pair d N W (start_p dep q w) = total (length dep) (fun i => total q (fun k => weight (length dep) q w i k * W (nth i dep 0%nat) k)%R).
  Proof.
    intros -> HD. unfold start_p. cbv zeta. rewrite Forall_forall in HD.
    assert (pair d N W (fun _ _ => 0%R) = 0%R) as Z.
    { unfold pair. apply sumR_zero. intros. apply sumR_zero. intros. ring. }
    assert (forall (l : list nat) (g : nat -> nat -> nat -> R) (p : nat -> nat -> R) (f : (nat -> nat -> R) -> nat -> nat -> nat -> R) (h : nat -> R),
      (forall p i, In i l -> pair d N W (f p i) = (pair d N W p + h i)%R) ->
      pair d N W (fold_left f l p) = (pair d N W p + fold_right Rplus 0%R (map h l))%R) as FD.
    { intros l _. induction l as [|i l IH]; intros p f h H; cbn [fold_left map fold_right]; [ring|].
      rewrite (IH _ f h) by (intros; apply H; now right). rewrite H by (now left). ring. }
    assert (forall i, i < length dep -> 0 < nth i dep 0 < N) as RG by (intros i Hi; apply HD, nth_In, Hi).
    unfold weight, total. destruct (length w =? length dep).
    - rewrite (FD (seq 0 (length dep)) (fun _ _ _ => 0%R) _ _ (fun i => (nth i w 0 * W (nth i dep 0%nat) d)%R)).
      + rewrite Z, Rplus_0_l. f_equal. apply map_ext. intros i. fold (total (S d) (fun k => ((if k =? S d - 1 then nth i w 0 else 0) * W (nth i dep 0%nat) k)%R)).
        rewrite total_sumR. rewrite (sumR_one 0 (S d) _ d); [|lia|].
        * replace (S d - 1) with d by lia. now rewrite Nat.eqb_refl.
        * intros k Hk Nk. destruct (Nat.eqb_spec k (S d - 1)); [lia|ring].
      + intros p i Hi. apply in_seq in Hi. replace (S d - 1) with d by lia. rewrite pair_add; auto. apply RG. lia.
    - rewrite (FD (seq 0 (length dep)) (fun _ _ _ => 0%R) _ _ (fun i => total (S d) (fun k => nth (i * S d + k) w 0 * W (nth i dep 0%nat) k)%R)).
      + rewrite Z, Rplus_0_l. reflexivity.
      + intros p i Hi. apply in_seq in Hi.
        rewrite (FD (seq 0 (S d)) (fun _ _ _ => 0%R) _ _ (fun k => nth (i * S d + k) w 0 * W (nth i dep 0%nat) k)%R).
        * reflexivity.
        * intros p' k Hk. apply in_seq in Hk. rewrite pair_add; auto; [apply RG; lia|lia].
  Qed.
  Lemma start_zero dep q w v k : ~ In v dep -> start_p dep q w v k = 0%R.
  Proof.
    intros H. unfold start_p. cbv zeta.
    assert (forall i, In i (seq 0 (length dep)) -> nth i dep 0 <> v) as NE.
    { intros i Hi Q. apply H. rewrite <- Q. apply nth_In. apply in_seq in Hi. lia. }
    assert (keeps (b:=b) v (fun _ => 0%R) (fun _ _ => 0%R)) as K0 by (intros j; reflexivity).
    destruct (length w =? length dep).
    - refine (keeps_fold (b:=b) v (fun _ => 0%R) _ _ _ _ K0 k). intros p i Hi Kp. apply keeps_add; auto.
    - refine (keeps_fold (b:=b) v (fun _ => 0%R) _ _ _ _ K0 k). intros p i Hi Kp.
      apply (keeps_fold (b:=b) v (fun _ => 0%R)); auto. intros p' k' _ Kp'. apply keeps_add; auto.
  Qed.
End Weights.

Section C11.
  Variable dis : nat -> R -> R.
  Variable nan : R.
  Notation b := (Rbase dis nan).
  Variable junk : nat -> R.
  Context (tid : nat) (cmp : bool) (n np : nat) (e : nat -> AD b) (ev : nat -> VecAD b) (p : prog R)
    (V0 : nat -> R) (l0 : nat -> nat) (f : adfun b).
  Hypothesis REC : recorded tid cmp n np e ev p V0 l0 f.
  Hypothesis POS : 0 < n.
  Let f0 : adq b := drv_of (b:=b) junk f.

  (** Reverse(q, w) after any history.  [X s k] are the order k coefficients of the
      independent variables, moved along a differentiable curve (parameter s) that
      starts at the coefficients given to the object; [Y s k] are the order k coefficients
      that Forward returns for them.  The derivative of the weighted sum of the Y is the sum of
      the elements of the result times the derivatives of the coefficients. *)
  Theorem reverse_is_adjoint : forall h g q w z g',
    one_direction h -> drun (b:=b) INR junk f0 h = Some g -> reverse (b:=b) INR junk g q w = Some (z, g') ->
    let x := given 0%R (g_n f) h in
    let a := with_dynamics f0 (dynamics h) in
    let m := length (g_dep f) in
    forall (X Y : R -> nat -> list R),
    (forall s, length (X s 0) = g_n f) ->
    (forall j k, j < g_n f -> k < q -> nth j (X 0%R k) 0%R = nth j (x k) 0%R) ->
    (forall j k, j < g_n f -> k < q -> ex_derive (fun s => nth j (X s k) 0%R) 0%R) ->
    locally 0%R (fun s => let xq := all_orders 0%R (g_n f) (q - 1) (X s) in
      exists ys z, forward (b:=b) INR junk a (q - 1) xq = Some (ys, z) /\ forall k, k < q -> Y s k = returned f (q - 1) k xq ys) ->
    smooth_at dis nan junk f a (fun s => X s 0) ->
    is_derive (fun s => total m (fun i => total q (fun k => weight m q w i k * nth i (Y s k) 0)))%R 0%R
      (total (g_n f) (fun j => total q (fun k => partial_at m q w z j k * Derive (fun s => nth j (X s k) 0) 0)))%R.
  Proof.
    intros h g q w z g' OD RUN RV x a m X Y XL X0 XD FL SM.
    pose proof (Rtaylor_laws dis nan) as TL. pose proof (Rbase_laws dis nan) as BL.
    destruct (recorded_struct BL _ _ _ _ _ _ _ _ _ _ REC) as (DE & SOK & DP & _ & WL & NV & DR & EN).
    destruct (good_history BL TL INR junk _ _ _ _ _ _ _ _ _ _ REC POS h g OD RUN) as (G1 & G2 & G3 & G4 & G5 & G6 & G7 & G8 & G9).
    set (l := head_ins n ++ body n (g_rec f)) in *. fold f0 in G2, G3, G4, G5, G6, G7, G8, G9. fold a in G2, G3, G4, G5, G6, G7, G8, G9.
    assert (tape dis nan f = l) as ET by (unfold tape; now rewrite DE).
    destruct (dyn_fields (b:=b) (dynamics h) f0) as (N1 & N2 & N3 & _). fold a in N1, N2, N3. cbn in N1, N2, N3.
    assert (0 < q <= d_ord g) as Hq.
    { unfold reverse in RV. destruct (negb _); [discriminate|]. destruct (Nat.ltb_spec 0 q); [|discriminate].
      cbn [negb] in RV. destruct (Nat.leb_spec q (d_ord g)); [lia|discriminate]. }
    assert (0 < g_n f) as Hn by lia.
    pose proof (v_twf _ _ _ _ G1) as W.
    (* the state after Forward at s *)
    set (xq := fun s => all_orders 0%R (g_n f) (q - 1) (X s)) in *.
    assert (forall s ys c, forward (b:=b) INR junk a (q - 1) (xq s) = Some (ys, c) ->
      exists U, valid (b:=b) INR l c U /\ (forall j k, j < g_n f -> k < q -> nth j (U k) 0%R = nth j (X s k) 0%R) /\
      d_ord c = q /\ d_rec c = g_rec f /\ d_par c = d_par a /\ d_cc c = d_cc a /\ d_n c = g_n f /\ d_dep c = g_dep f /\
      (forall k, k < q -> returned f (q - 1) k (xq s) ys = map (fun v => view1 c v k) (g_dep f))) as FV.
    { intros s ys c Fc. destruct (forward_valid TL INR junk _ a _ _ (xq s) ys c G9 Fc) as (A1 & A2 & A3 & A4 & A5 & A6 & A7 & A8 & A9 & _).
      eexists. split; [exact A1|]. rewrite N1. split; [|split; [lia|split; [congruence|split; [congruence|split; [congruence|split; [congruence|split; [congruence|]]]]]]].
      - intros j k Hj Hk. apply (upd_pack (b:=b)); auto. lia.
      - intros k Hk. unfold returned. rewrite A3. replace (d_n a) with (g_n f) by congruence. replace (g_dep f) with (d_dep c) by congruence. apply yout_order.
        change (xq s) with (pack (b:=b) (g_n f) (q - 1) (X s)). rewrite (low_pack (b:=b)) by auto. destruct (Nat.eqb_spec (g_n f * (q - 1 + 1)) (g_n f)); [nia|lia]. }
    (* values and loads *)
    set (zs := fun s => match forward (b:=b) INR junk a (q - 1) (xq s) with Some (_, c) => c | None => a end).
    set (Vh := fun s => view1 (zs s)). set (Lh := fun s => d_l2v (zs s)).
    assert (forall s, X s 0 = all_orders 0%R (g_n f) 0 (X s)) as XP.
    { intros s. unfold all_orders. cbn [Nat.add seq map]. rewrite <- (XL s). generalize (X s 0). clear. intros u.
      rewrite <- (map_id u) at 1. rewrite <- (map_nth_seq (fun v : R => v) u 0%R). symmetry.
      assert (forall lst, flat_map (fun j => [nth j u 0%R]) lst = map (fun i => nth i u 0%R) lst) as K by (induction lst; cbn; congruence).
      apply K. }
    assert (forall s ys c, forward (b:=b) INR junk a (q - 1) (xq s) = Some (ys, c) ->
      exists ys0 c0, forward (b:=b) INR junk a 0 (X s 0) = Some (ys0, c0) /\
        (forall v, 0 < v < r_nvar (g_rec f) -> view1 c0 v 0 = view1 c v 0) /\ (forall m, m < nload l -> d_l2v c0 m = d_l2v c m)) as ZF.
    { intros s ys c Fc. destruct (FV s ys c Fc) as (U & U1 & U2 & U3 & U4 & U5 & U6 & U7 & U8 & _).
      destruct (forward_total TL INR junk l c a U 0 U1 ltac:(lia) (valid_empty (b:=b) INR l _ _ U G7 G9)) as (Y1 & c1 & F1); try congruence.
      assert (pack (b:=b) (d_n c) 0 U = X s 0) as PE.
      { rewrite XP, U7. unfold pack, all_orders. rewrite !flat_map_concat_map. f_equal. apply map_ext_in. intros j Hj. apply in_seq in Hj.
        cbn [Nat.add seq map]. f_equal. apply U2; lia. }
      rewrite PE in F1. exists Y1, c1. split; auto.
      destruct (forward_valid TL INR junk _ a _ _ (X s 0) Y1 c1 G9 F1) as (A1 & A2 & A3 & A4 & A5 & A6 & A7 & A8 & A9 & _).
      assert (forall j, j < g_n f -> nth j (upd (b:=b) (d_n a) 0 (X s 0) (fun _ => []) 0) 0%R = nth j (U 0) 0%R) as UE.
      { intros j Hj. unfold upd. rewrite N1, XL, Nat.eqb_refl. cbn [Nat.eqb]. symmetry. apply U2; lia. }
      split.
      - intros v Hv. apply (valid_det (b:=b) INR l c1 c _ U 1 A1 U1); try congruence; try lia.
        + intros k j Hk Hj. replace k with 0 by lia. apply UE. lia.
        + replace (d_rec c1) with (g_rec f) by congruence. auto.
      - intros m' Hm. apply (valid_det_l2v (b:=b) INR l c1 c _ U A1 U1); try congruence; try lia.
        intros j Hj. apply UE. lia. }
    assert (locally 0%R (fun s => exists ys c, forward (b:=b) INR junk a (q - 1) (xq s) = Some (ys, c) /\ zs s = c /\ forall k, k < q -> Y s k = returned f (q - 1) k (xq s) ys)) as FL1.
    { generalize FL. apply filter_imp. intros s (ys & c & Fc & Fy). change (all_orders 0%R (g_n f) (q - 1) (X s)) with (xq s) in Fc, Fy. exists ys, c. split; auto. split; auto. unfold zs. now rewrite Fc. }
    clear FL. destruct (locally_singleton _ _ FL1) as (ys0 & c0 & Fc0 & Ec0 & _).
    destruct (FV _ _ _ Fc0) as (U & U1 & U2 & U3 & U4 & U5 & U6 & U7 & U8 & U9).
    destruct (v_st _ _ _ _ U1 ltac:(lia)) as [(W0 & l1 & t & S1 & S2 & S3 & S4) S5 S6 S7].
    rewrite U4, U5, U7 in *.
    assert (wfl (length (r_par (g_rec f))) (S n) 0 (body n (g_rec f))) as WB.
    { pose proof (wfl_split _ (head_ins n) (body n (g_rec f)) 0 0 WL) as Q. unfold head_ins in Q. cbn [tres nload i_op num_res is_load Nat.add] in Q.
      rewrite tres_inv, nload_inv in Q. exact Q. }
    assert (S n + tres (body n (g_rec f)) = r_nvar (g_rec f)) as TB.
    { rewrite NV. unfold l. rewrite tres_app. unfold head_ins. cbn [tres i_op num_res]. rewrite tres_inv. lia. }
    assert (nload (body n (g_rec f)) = nload l) as NLB.
    { unfold l. rewrite nload_app. unfold head_ins. cbn [nload i_op is_load]. now rewrite nload_inv. }
    assert (forall v, In v (seq 1 n) -> v < S n) as SQ by (intros v Hv; apply in_seq in Hv; lia).
    pose proof (sok_prim _ _ _ _ _ WB SOK SQ) as SP.
    set (prim := fun v => In v (prims n (g_rec f))). change (seenof (seq 1 n) (body n (g_rec f))) with (prims n (g_rec f)) in SP.
    assert (List.Forall (prim_ins Lh prim) (body n (g_rec f))) as PI.
    { unfold l in S1. rewrite sweep0_app in S1. rewrite sweep0_head in S1 by (intros; reflexivity). rewrite Forall_forall in SP. rewrite Forall_forall. intros i Hi.
      destruct (SP i Hi) as (Q1 & Q2 & Q3). split; [exact Q1|split; [exact Q2|]]. intros Ld. cbv zeta.
      assert (List.Forall (fun i => List.Forall prim (var_args (i_op i) (i_arg i)) /\ okop (i_op i) = true) (body n (g_rec f))) as PA.
      { rewrite Forall_forall. intros j Hj. destruct (SP j Hj) as (T1 & _ & T3). split; [exact T1|exact T3]. }
      destruct (sweep0_prim (b:=b) (d_par a) prim (d_cc c0) (body n (g_rec f)) (0 + length (head_ins n)) (init0 (b:=b) (g_rec f) W0 l1) t
        (fun j => eq_refl) PA ltac:(intros ? Q; discriminate) S1) as (_ & _ & R3).
      specialize (R3 i Hi Ld). unfold Lh. rewrite Ec0. rewrite S4; [exact R3|].
      pose proof (wfl_load _ _ _ _ i WB Hi Ld). lia. }
    assert (List.Forall (fun i => okop (i_op i) = true) (body n (g_rec f))) as OKS.
    { eapply Forall_impl; [|exact SP]. intros i (_ & _ & Q). exact Q. }
    (* the inputs *)
    assert (forall j k, j < g_n f -> k < q -> locally 0%R (fun s => Vh s (S j) k = nth j (X s k) 0%R)) as IN.
    { intros j k Hj Hk. generalize FL1. apply filter_imp. intros s (ys & c & Fc & Ec & _). unfold Vh. rewrite Ec.
      destruct (FV _ _ _ Fc) as (Us & V1 & V2 & V3 & V4 & V5 & V6 & V7 & V8 & _).
      rewrite (s_in _ _ _ _ (v_st _ _ _ _ V1 ltac:(lia))) by lia. apply V2; lia. }
    assert (forall j k, j < g_n f -> k < q -> ok Vh (S j) k /\ dV Vh (S j) k = Derive (fun s => nth j (X s k) 0%R) 0%R) as IND.
    { intros j k Hj Hk. apply isd_ok. apply isd_loc with (fun s => nth j (X s k) 0%R); [apply IN; auto|].
      apply Derive_correct. apply XD; auto. }
    assert (forall i, In i l -> ins_eqs dis nan (d_par a) Vh Lh (q - 1) i) as EQS.
    { intros i Hi. split.
      - generalize FL1. apply filter_imp. intros s (ys & c & Fc & Ec & _). unfold Vh, Lh. rewrite Ec.
        destruct (FV _ _ _ Fc) as (Us & V1 & V2 & V3 & V4 & V5 & V6 & V7 & V8 & _).
        destruct (v_st _ _ _ _ V1 ltac:(lia)) as [(W1 & l2 & ts & T1 & T2 & T3 & T4) T5 T6 T7].
        rewrite V4, V5 in *.
        destruct (sweep0_val TL INR (d_par a) (length (r_par (g_rec f))) _ l 0 0 0 (init0 (b:=b) (g_rec f) W1 l2) ts WL
          ltac:(cbn; auto) ltac:(intros ? Q; cbn in Q; discriminate) T1) as (_ & _ & _ & U4' & U5').
        assert (List.Forall (val_ins (b:=b) INR (d_par a) (fun v => view1 c v 0) (d_l2v c)) l) as VI.
        { apply (val_list_ext (b:=b) INR (d_par a) (length (r_par (g_rec f))) l 0 0 (f_V ts) _ (f_l2v ts) _ WL); auto.
          + intros v Hv. apply T3. rewrite NV. auto.
          + intros m' Hm. apply T4. lia. }
        rewrite Forall_forall in VI. now apply VI.
      - intros j Hj. generalize FL1. apply filter_imp. intros s (ys & c & Fc & Ec & _). unfold Vh, Lh. rewrite Ec.
        destruct (FV _ _ _ Fc) as (Us & V1 & V2 & V3 & V4 & V5 & V6 & V7 & V8 & _).
        pose proof (s_sat _ _ _ _ (v_st _ _ _ _ V1 ltac:(lia)) j ltac:(lia)) as T6. rewrite V5 in T6.
        rewrite Forall_forall in T6. now apply T6. }
    assert (List.Forall (ins_reg dis nan (d_par a) (fun v s => Vh s v 0) Lh) l) as RG.
    { unfold smooth_at in SM. rewrite ET in SM.
      refine (ins_reg_ext_all dis nan (d_par a) (length (r_par (g_rec f))) l 0 0 _ _ _ _ WL _ _ SM).
      - intros v Hv. generalize FL1. apply filter_imp. intros s (ys & c & Fc & Ec & _). unfold Vh. rewrite Ec.
        destruct (ZF _ _ _ Fc) as (y1 & c1 & F1 & K1 & _). unfold value_at. rewrite F1. apply K1. rewrite NV. auto.
      - intros m' Hm. generalize FL1. apply filter_imp. intros s (ys & c & Fc & Ec & _). unfold Lh. rewrite Ec.
        destruct (ZF _ _ _ Fc) as (y1 & c1 & F1 & _ & K1). unfold load_at. rewrite F1. apply K1. lia. }
    assert (List.Forall (ld_ok (Lh 0%R)) (body n (g_rec f))) as LDB.
    { unfold Lh. rewrite Ec0. unfold l in S5. apply Forall_app in S5. exact (proj2 S5). }
    destruct (tape_adj dis nan (d_par a) Vh Lh (q - 1) prim (length (r_par (g_rec f))) (body n (g_rec f)) (S n) 0 WB LDB ltac:(lia) PI OKS) as [OKV ADJ].
    { intros v k Hv Hk. destruct v as [|j]; [lia|]. apply IND; lia. }
    { intros i Hi. assert (In i l) as Hil by (unfold l; apply in_or_app; now right).
      split; [now apply EQS|]. rewrite Forall_forall in RG. split; [now apply RG|].
      apply (erf_ok_tape dis nan junk _ _ _ _ _ _ _ _ _ _ REC). now rewrite ET. }
    rewrite TB in OKV, ADJ.
    set (p1 := start_p dis nan (g_dep f) q w).
    set (p2 := sweep_rev (b:=b) INR (d_par a) (Vh 0%R) (Lh 0%R) (fun _ => false) (q - 1) (body n (g_rec f)) (length (head_ins n)) p1).
    destruct (ADJ (length (head_ins n)) p1) as [AD _].
    { intros v k _ Nv _. apply start_zero. intros Q. apply Nv. rewrite Forall_forall in DP. now apply DP. }
    fold p2 in AD.
    (* the result *)
    assert (forall j k, j < g_n f -> k < q -> partial_at m q w z j k = p2 (S j) k) as PZ.
    { assert (z = flat_map (fun j => map (fun k => if length w =? m then p2 (S j) (q - 1 - k) else p2 (S j) k) (seq 0 q)) (seq 0 (g_n f))) as EZ.
      { pose proof (reverse_det (b:=b) INR junk l g c0 _ U q w G1 U1) as RD.
        rewrite RV in RD. cbn [option_map fst] in RD.
        assert (Some z = option_map fst (reverse (b:=b) INR junk c0 q w)) as RD2.
        { apply RD; try congruence; try lia. intros k j Hk Hj. symmetry. transitivity (nth j (X 0%R k) 0%R); [apply U2; lia|]. apply X0; lia. }
        unfold reverse in RD2. rewrite U4, U5, U7, U8, U3 in RD2. fold m in RD2.
        destruct ((length w =? m) || (length w =? m * q)); [|discriminate]. cbn [negb] in RD2.
        destruct (Nat.ltb_spec 0 q); [|lia]. cbn [negb] in RD2. rewrite Nat.leb_refl in RD2. cbn [negb] in RD2.
        pose proof (v_dir _ _ _ _ U1 ltac:(lia)) as VD. rewrite VD in RD2. rewrite andb_false_r in RD2. rewrite VD in RD2. cbn [Nat.eqb negb] in RD2.
        rewrite DE in RD2. cbn [option_map fst] in RD2. injection RD2 as ->.
        assert (sweep_rev (b:=b) INR (d_par a) (view1 c0) (d_l2v c0) (d_skip c0) (q - 1) l 0 p1 = p2) as E2.
        { unfold l. rewrite sweep_rev_app, sweep_rev_head. unfold p2, Vh, Lh. rewrite Ec0. apply sweep_rev_skip. apply (v_skip _ _ _ _ U1). }
        rewrite <- E2. reflexivity. }
      intros j k Hj Hk. unfold partial_at. rewrite EZ. set (F := fun j => map (fun k => if length w =? m then p2 (S j) (q - 1 - k) else p2 (S j) k) (seq 0 q)).
      assert (forall k, k < q -> nth (j * q + k) (flat_map F (seq 0 (g_n f))) 0%R = if length w =? m then p2 (S j) (q - 1 - k) else p2 (S j) k) as NF.
      { intros k' Hk'. pose proof (nth_flat_map F q 0%R (g_n f) ltac:(intros; unfold F; now rewrite map_length, seq_length) 0 j k' Hj Hk') as Q.
        rewrite Nat.mul_comm in Q. rewrite Q. unfold F.
        rewrite (nth_indep _ 0%R ((fun k => if length w =? m then p2 (S (0 + j)) (q - 1 - k) else p2 (S (0 + j)) k) 0)) by (rewrite map_length, seq_length; auto).
        rewrite (map_nth (fun k => if length w =? m then p2 (S (0 + j)) (q - 1 - k) else p2 (S (0 + j)) k)), seq_nth by auto. reflexivity. }
      pose proof (NF k Hk) as A1. pose proof (NF (q - 1 - k) ltac:(lia)) as A2. clearbody F. change (@length (bt b) w) with (@length R w) in A1, A2. change (@length (bt b) w) with (@length R w). revert A1 A2.
      clear NF EZ. destruct (@length R w =? m); intros A1 A2; [etransitivity; [exact A2|f_equal; lia]|exact A1]. }
    (* conclusion *)
    assert (forall k i, i < m -> k < q -> 0 < nth i (g_dep f) 0 < r_nvar (g_rec f)) as DRi.
    { intros k i Hi Hk. rewrite Forall_forall in DR. apply DR, nth_In, Hi. }
    change (isd (fun s => total m (fun i => total q (fun k => weight m q w i k * nth i (Y s k) 0)))%R
      (total (g_n f) (fun j => total q (fun k => partial_at m q w z j k * Derive (fun s => nth j (X s k) 0) 0)))%R).
    apply isd_loc with (fun s => sumR 0 m (fun i => sumR 0 q (fun k => weight m q w i k * Vh s (nth i (g_dep f) 0%nat) k)))%R.
    { generalize FL1. apply filter_imp. intros s (ys & c & Fc & Ec & FY). rewrite total_sumR. apply sumR_ext. intros i Hi.
      rewrite total_sumR. apply sumR_ext. intros k Hk. f_equal. rewrite FY by lia.
      destruct (FV _ _ _ Fc) as (Us & V1 & V2 & V3 & V4 & V5 & V6 & V7 & V8 & V9). rewrite V9 by lia. unfold Vh. rewrite Ec.
      rewrite (nth_indep _ 0%R ((fun v => view1 c v k) 0)) by (rewrite map_length; lia). now rewrite (map_nth (fun v => view1 c v k)). }
    eapply isd_eq.
    { apply isd_sumR. intros i Hi. apply isd_sumR. intros k Hk. apply isd_scal. apply okd. apply OKV; [apply (DRi k)|]; lia. }
    transitivity (pair (q - 1) (r_nvar (g_rec f)) (dV Vh) p1).
    - unfold p1. rewrite (start_pair dis nan (g_dep f) q w (q - 1) (r_nvar (g_rec f)) (dV Vh) ltac:(lia) DR). fold m. rewrite total_sumR. apply sumR_ext. intros i Hi. now rewrite total_sumR.
    - rewrite <- AD. rewrite total_sumR. unfold pair. rewrite EN.
      transitivity (sumR 0 n (fun j => sumR 0 q (fun k => p2 (S j) k * dV Vh (S j) k))%R).
      + replace (S (q - 1)) with q by lia.
        assert (forall m h, sumR 1 (S m) h = sumR 0 m (fun j => h (S j))) as SH.
        { induction m0 as [|m0 IH]; intros hh; [now rewrite !sumR_nil by lia|]. rewrite (sumR_lst 1 (S m0)), (sumR_lst 0 m0) by lia. now rewrite IH. }
        apply SH.
      + apply sumR_ext. intros j Hj. rewrite total_sumR. apply sumR_ext. intros k Hk. rewrite PZ by lia.
        destruct (IND j k ltac:(lia) ltac:(lia)) as [_ ->]. reflexivity.
  Qed.

  (** The result of Reverse(q, w), element by element: the partial derivative with respect
      to the order k coefficient of independent variable j. *)
  Theorem reverse_is_partial_derivative : forall h g q w z g' j0 k0,
    one_direction h -> drun (b:=b) INR junk f0 h = Some g -> reverse (b:=b) INR junk g q w = Some (z, g') ->
    j0 < g_n f -> k0 < q ->
    let x := given 0%R (g_n f) h in
    let a := with_dynamics f0 (dynamics h) in
    let m := length (g_dep f) in
    let X s k := map (fun i => moved x j0 k0 s i k) (seq 0 (g_n f)) in
    forall (Y : R -> nat -> list R),
    locally 0%R (fun s => let xq := all_orders 0%R (g_n f) (q - 1) (X s) in
      exists ys z, forward (b:=b) INR junk a (q - 1) xq = Some (ys, z) /\ forall k, k < q -> Y s k = returned f (q - 1) k xq ys) ->
    smooth_at dis nan junk f a (fun s => X s 0) ->
    is_derive (fun s => total m (fun i => total q (fun k => weight m q w i k * nth i (Y s k) 0)))%R 0%R (partial_at m q w z j0 k0).
  Proof.
    intros h g q w z g' j0 k0 OD RUN RV Hj0 Hk0 x a m X Y FL SM.
    assert (forall s i k, i < g_n f -> nth i (X s k) 0%R = moved x j0 k0 s i k) as NX.
    { intros s i k Hi. unfold X. rewrite (nth_indep _ 0%R (moved x j0 k0 s 0 k)) by (rewrite map_length, seq_length; auto).
      rewrite (map_nth (fun i => moved x j0 k0 s i k)), seq_nth by auto. reflexivity. }
    assert (forall i k, i < g_n f -> isd (fun s => nth i (X s k) 0%R) (if (i =? j0) && (k =? k0) then 1%R else 0%R)) as DX.
    { intros i k Hi. apply isd_loc with (fun s => moved x j0 k0 s i k); [apply all_loc; intros; now apply NX|].
      unfold moved. destruct ((i =? j0) && (k =? k0)); [|apply isd_const].
      eapply isd_eq; [apply isd_plus; [apply isd_const|apply (is_derive_id (K:=R_AbsRing))]|]. unfold one; cbn. ring. }
    pose proof (reverse_is_adjoint h g q w z g' OD RUN RV X Y) as K. fold x a m in K.
    assert (total (g_n f) (fun j => total q (fun k => partial_at m q w z j k * Derive (fun s => nth j (X s k) 0) 0))%R = partial_at m q w z j0 k0) as E.
    { rewrite total_sumR, (sumR_one 0 (g_n f) _ j0); [rewrite total_sumR, (sumR_one 0 q _ k0)| |]; try lia.
      - rewrite (is_derive_unique _ _ _ (DX j0 k0 Hj0)), !Nat.eqb_refl. cbn. ring.
      - intros k Hk Nk. rewrite (is_derive_unique _ _ _ (DX j0 k Hj0)). destruct (Nat.eqb_spec k k0); [lia|]. rewrite andb_false_r. ring.
      - intros j Hj Nj. rewrite total_sumR. apply sumR_zero. intros k Hk. rewrite (is_derive_unique _ _ _ (DX j k ltac:(lia))).
        destruct (Nat.eqb_spec j j0); [lia|]. cbn. ring. }
    rewrite <- E. apply K; auto.
    - intros s. unfold X. now rewrite map_length, seq_length.
    - intros j k Hj Hk. rewrite NX by auto. unfold moved. destruct (_ && _); ring.
    - intros j k Hj Hk. eexists. apply DX; auto.
  Qed.

  (** The form used in the documentation.  F(s, t) is the user's algorithm, evaluated in
      real arithmetic at X(t) = x^(0) + x^(1) t + ... + x^(q-1) t^(q-1), where
      coefficient x_j^(k) has been increased by s; y_i^(k) is the order k Taylor coefficient of
      F_i(s, .) at t = 0; then the element of the result for (j, k) is the partial derivative
      of sum_ik w_ik y_i^(k) with respect to x_j^(k). *)
  Theorem reverse_is_derivative_of_algorithm : forall h g q w z g' j0 k0,
    one_direction h -> List.Forall (fun d => length d = np) (dynamics h) ->
    drun (b:=b) INR junk f0 h = Some g -> reverse (b:=b) INR junk g q w = Some (z, g') ->
    j0 < g_n f -> k0 < q ->
    let x := given 0%R (g_n f) h in
    let a := with_dynamics f0 (dynamics h) in
    let m := length (g_dep f) in
    let X s t := map (fun i => poly (q - 1) (moved x j0 k0 s i) t) (seq 0 (g_n f)) in
    let at_ s t := start (base_values e ev) (X s t) (last (dynamics h) (dyn_values n np e)) in
    forall F : R -> R -> list R,
    locally 0%R (fun s => smooth_at dis nan junk f a (X s) /\
      locally 0%R (fun t => decisions (b:=b) p (at_ s t) = decisions (b:=b) p (base_values e ev) /\ eval (b:=b) p (at_ s t) = Some (F s t))) ->
    smooth_at dis nan junk f a (fun s => X s 0%R) ->
    let y s i k := (Derive_n (fun t => nth i (F s t) 0) k 0 / INR (fact k))%R in
    is_derive (fun s => total m (fun i => total q (fun k => weight m q w i k * y s i k)))%R 0%R (partial_at m q w z j0 k0).
  Proof.
    intros h g q w z g' j0 k0 OD DD RUN RV Hj0 Hk0 x a m X at_ F FL SM y.
    pose proof (Rtaylor_laws dis nan) as TL. pose proof (Rbase_laws dis nan) as BL.
    destruct (recorded_struct BL _ _ _ _ _ _ _ _ _ _ REC) as (DE & SOK & DP & _ & WL & NV & DR & EN).
    destruct (good_history BL TL INR junk _ _ _ _ _ _ _ _ _ _ REC POS h g OD RUN) as (G1 & G2 & G3 & G4 & G5 & G6 & G7 & G8 & G9).
    set (l := head_ins n ++ body n (g_rec f)) in *. fold f0 in G2, G3, G4, G5, G6, G7, G8, G9. fold a in G2, G3, G4, G5, G6, G7, G8, G9.
    destruct (dyn_fields (b:=b) (dynamics h) f0) as (N1 & N2 & N3 & _). fold a in N1, N2, N3. cbn in N1, N2, N3.
    set (Xc := fun s k => map (fun i => moved x j0 k0 s i k) (seq 0 (g_n f))).
    assert (forall s i k, i < g_n f -> nth i (Xc s k) 0%R = moved x j0 k0 s i k) as NX.
    { intros s i k Hi. unfold Xc. rewrite (nth_indep _ 0%R (moved x j0 k0 s 0 k)) by (rewrite map_length, seq_length; auto).
      rewrite (map_nth (fun i => moved x j0 k0 s i k)), seq_nth by auto. reflexivity. }
    assert (forall s t, length (X s t) = g_n f) as XL by (intros; unfold X; now rewrite map_length, seq_length).
    assert (forall s, X s 0%R = Xc s 0) as X0.
    { intros s. unfold X, Xc. apply map_ext. intros i. apply (tay_0 0 _ _ (tay_poly 0 (q - 1) (moved x j0 k0 s i) ltac:(lia))). }
    set (xq := fun s => all_orders 0%R (g_n f) (q - 1) (Xc s)).
    set (Y := fun s k => match forward (b:=b) INR junk a (q - 1) (xq s) with Some (ys, _) => returned f (q - 1) k (xq s) ys | None => [] end).
    set (h' := map (@CDyn R) (dynamics h)).
    assert (forall ds : list (list R), dynamics (map CDyn ds) = ds) as DH by (induction ds as [|d0 ds IH]; cbn; [auto|f_equal; exact IH]).
    assert (forall ds (c : adq b), drun (b:=b) INR junk c (map CDyn ds) = Some (with_dynamics c ds)) as DRN.
    { induction ds as [|d0 ds IH]; intros c; [reflexivity|]. exact (IH (new_dyn c d0)). }
    assert (forall s t, locally 0%R (fun t => decisions (b:=b) p (at_ s t) = decisions (b:=b) p (base_values e ev) /\ eval (b:=b) p (at_ s t) = Some (F s t)) ->
      t = 0%R -> exists ys c, forward (b:=b) INR junk a (q - 1) (xq s) = Some (ys, c)) as FW.
    { intros s t FLs _. destruct (locally_singleton _ _ FLs) as [D E].
      destruct (forward_value BL INR junk tid cmp n np e ev p V0 l0 f (dynamics h) (X s 0%R) (F s 0%R) REC POS ltac:(rewrite XL; exact EN) DD D E) as (c & Fc).
      fold f0 a in Fc. rewrite X0 in Fc.
      destruct (forward_valid TL INR junk _ a _ _ (Xc s 0) _ c (valid_empty (b:=b) INR l _ _ (Xc s) G7 G9) Fc) as (A1 & A2 & A3 & A4 & A5 & A6 & A7 & A8 & A9 & _).
      assert (valid (b:=b) INR l c (Xc s)) as VC.
      { refine (valid_inputs (b:=b) INR l _ _ _ _ A1). intros k. unfold upd. rewrite N1, <- X0, XL, Nat.eqb_refl, X0.
        destruct (Nat.eqb_spec k 0) as [->|]; auto. }
      destruct (forward_total TL INR junk l c a (Xc s) (q - 1) VC ltac:(lia) (valid_empty (b:=b) INR l _ _ (Xc s) G7 G9)) as (Y1 & c1 & F1); try congruence.
      replace (d_n c) with (g_n f) in F1 by congruence. exists Y1, c1. exact F1. }
    pose proof (reverse_is_partial_derivative h g q w z g' j0 k0 OD RUN RV Hj0 Hk0 Y) as K. fold x a m in K. fold Xc in K.
    assert (is_derive (fun s => total m (fun i => total q (fun k => weight m q w i k * nth i (Y s k) 0)))%R 0%R (partial_at m q w z j0 k0)) as KK.
    { apply K; clear K.
      - generalize FL. apply filter_imp. intros s [_ Fs]. destruct (FW s 0%R Fs eq_refl) as (ys & c & Fc).
        exists ys, c. split; [exact Fc|]. intros k Hk. unfold Y. rewrite Fc. reflexivity.
      - replace (fun s => Xc s 0) with (fun s => X s 0%R) by (apply functional_extensionality; exact X0). exact SM. }
    eapply is_derive_ext_loc; [|exact KK]. clear K KK. generalize FL. apply filter_imp. intros s [Ss Fs].
    rewrite !total_sumR. apply sumR_ext. intros i Hi. rewrite !total_sumR. apply sumR_ext. intros k Hk. f_equal.
    destruct (FW s 0%R Fs eq_refl) as (ys & c & Fc).
    assert (one_direction h') as OD' by (unfold h', one_direction; apply Forall_forall; intros c0 H0; apply in_map_iff in H0 as (d & <- & _); exact I).
    assert (drun (b:=b) INR junk f0 h' = Some a) as RUN' by apply DRN.
    assert (dynamics h' = dynamics h) as DY' by apply DH.
    pose proof (forward_is_taylor dis nan junk tid cmp n np e ev p V0 l0 f REC POS h' a (q - 1) (xq s) ys c OD' RUN' Fc (X s) (F s) (XL s)) as T.
    cbv zeta in T. fold f0 in T. replace (with_dynamics f0 (@dynamics (bt b) h')) with a in T by (unfold a; f_equal; symmetry; exact DY').
    assert (forall j k, j < g_n f -> k <= q - 1 -> nth j (given 0%R (g_n f) (h' ++ [CFor (q - 1) (xq s)]) k) 0%R = moved x j0 k0 s j k) as GV.
    { intros j k1 Hj Hk1. unfold given. rewrite fold_left_app. cbn [fold_left].
      pose proof (given_upd (b:=b) (g_n f) (fold_left (given1 0%R (g_n f)) h' (fun _ => [])) (q - 1) (xq s) k1) as GU.
      pose proof (upd_pack (b:=b) (g_n f) (q - 1) (Xc s) (fold_left (given1 0%R (g_n f)) h' (fun _ => [])) k1 j ltac:(lia) ltac:(lia) ltac:(lia)) as UP.
      etransitivity; [exact (f_equal (fun l => nth j l 0%R) GU)|]. etransitivity; [exact UP|]. now apply NX. }
    assert (is_derive_n (fun t => nth i (F s t) 0%R) k 0%R (INR (fact k) * nth i (returned f (q - 1) k (xq s) ys) 0)%R) as D1.
    { apply T; try lia; clear T.
      - intros j Hj. apply tay_ext with (poly (q - 1) (moved x j0 k0 s j)) (moved x j0 k0 s j); [|intros; symmetry; apply GV; lia|apply tay_poly; lia].
        apply filter_forall. intros t. unfold X.
        rewrite (nth_indep _ 0%R ((fun i => poly (q - 1) (moved x j0 k0 s i) t) 0)) by (rewrite map_length, seq_length; auto).
        rewrite (map_nth (fun i => poly (q - 1) (moved x j0 k0 s i) t)), seq_nth by auto. reflexivity.
      - generalize Fs. apply filter_imp. intros t [D E].
        apply (forward_value BL INR junk tid cmp n np e ev p V0 l0 f (dynamics h) (X s t) (F s t) REC POS); auto. rewrite XL. exact EN.
      - exact Ss.
      - intros LX. unfold xq, all_orders in LX. rewrite (flat_map_const _ _ q) in LX.
        + rewrite seq_length in LX. assert (0 < g_n f) by (rewrite EN; exact POS). nia.
        + intros. rewrite map_length, seq_length. lia. }
    apply is_derive_n_unique in D1. unfold y. rewrite D1. unfold Y. rewrite Fc.
    generalize (nth i (returned f (q - 1) k (xq s) ys) 0%R). intros u. symmetry. change (INR (fact k) * u / INR (fact k) = u)%R. field. apply INR_fact_neq_0.
  Qed.
End C11.
