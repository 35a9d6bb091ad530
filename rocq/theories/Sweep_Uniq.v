(** The equations of the tape determine all Taylor coefficients (any Base). *)
From Coq Require Import ZArith List Bool Arith Lia FunctionalExtensionality.
From Verif Require Import Base_Spec Op_Model Tape_Spec Tape_Model Tape_Proof Tape_Proof2
  Sweep_Model Sweep_Eqs Sweep_Eqs2 Sweep_Tape.
Import ListNotations.

Fixpoint nload (l : list ins) : nat :=
  match l with [] => 0 | i :: l' => (if is_load (i_op i) then 1 else 0) + nload l' end.
Fixpoint tres (l : list ins) : nat :=
  match l with [] => 0 | i :: l' => num_res (i_op i) + tres l' end.

Section Uniq.
  Context {b : base}.
  Notation T := (bt b).
  Variable bnat : nat -> T.
  Variable P : nat -> T.
  Notation ins_sat := (ins_sat bnat P).
  Notation sat_subs := (sat_subs bnat P).
  Notation sat_sub := (sat_sub bnat P).

  Lemma sat_sub_unique1 V V' r s q : sub_ok s -> 0 < r ->
    Forall (fun x => 0 < x < r) (sub_args s) ->
    (forall v k, 0 < v < r -> k <= q -> V v k = V' v k) -> (forall v, r <= v < r + sub_res s -> V v 0 = V' v 0) ->
    (forall j, 1 <= j <= q -> sat_sub V r s j) -> (forall j, 1 <= j <= q -> sat_sub V' r s j) ->
    forall v k, 0 < v < r + sub_res s -> k <= q -> V v k = V' v k.
  Proof.
    intros O R0 A H H0 S S' v k Hv Hk. destruct (le_lt_dec r v) as [Hr|]; [|apply H; auto; lia].
    revert v Hv Hr. induction k as [k IH] using lt_wf_ind. intros v Hv Hr.
    destruct (Nat.eq_dec k 0) as [->|]; [apply H0; lia|].
    replace v with (r + (v - r)) by lia.
    rewrite S, S' by lia. f_equal. apply coef_ext; [| |exact O].
    - intros x Hx i Hi. rewrite Forall_forall in A. apply A in Hx. apply H; lia.
    - intros n' Hn i Hi. apply IH; lia.
  Qed.

  Lemma sat_subs_unique1 q l : forall V V' r, subs_ok l -> chain r l -> 0 < r ->
    (forall v k, 0 < v < r -> k <= q -> V v k = V' v k) ->
    (forall v, r <= v < r + chain_res l -> V v 0 = V' v 0) ->
    (forall j, 1 <= j <= q -> sat_subs V l j) -> (forall j, 1 <= j <= q -> sat_subs V' l j) ->
    forall v k, 0 < v < r + chain_res l -> k <= q -> V v k = V' v k.
  Proof.
    induction l as [|[r' s] l IH]; intros V V' r O C R0 H H0 S S' v k Hv Hk.
    - apply H; auto. cbn in Hv. lia.
    - destruct C as (-> & A & C). inversion O as [|? ? O1 O2]; subst. cbn [snd chain_res] in *.
      eapply (IH V V' (r + sub_res s)); auto; try lia.
      + intros w i Hw Hi. eapply (sat_sub_unique1 V V' r s q); auto.
        * intros; apply H0; lia.
        * intros j Hj. specialize (S j Hj). now inversion S.
        * intros j Hj. specialize (S' j Hj). now inversion S'.
      + intros; apply H0; lia.
      + intros j Hj. specialize (S j Hj). now inversion S.
      + intros j Hj. specialize (S' j Hj). now inversion S'.
  Qed.

  Lemma tape_unique np q l : forall nv nl V V' (l2v l2v' : nat -> nat),
    wfl np nv nl l -> Forall (fun i => i_op i <> FunrvOp) l ->
    Forall (ld_ok l2v) l -> (forall m, nl <= m < nl + nload l -> l2v' m = l2v m) ->
    (forall v k, 0 < v < nv -> k <= q -> V v k = V' v k) ->
    (forall v, nv <= v < nv + tres l -> 0 < v -> V v 0 = V' v 0) ->
    (forall i k, In i l -> i_op i = InvOp -> k <= q -> V (i_var i) k = V' (i_var i) k) ->
    (forall j, 1 <= j <= q -> Forall (ins_sat V l2v j) l) ->
    (forall j, 1 <= j <= q -> Forall (ins_sat V' l2v' j) l) ->
    forall v k, 0 < v < nv + tres l -> k <= q -> V v k = V' v k.
  Proof.
    induction l as [|i l IH]; intros nv nl V V' l2v l2v' W NF LO L2 H H0 HI S S' v k Hv Hk.
    - apply H; auto. cbn in Hv. lia.
    - cbn [tres nload] in *. pose proof W as (Hiv & W1 & HC & HL & HB & W2).
      inversion NF as [|? ? NF1 NF2]; subst. inversion LO as [|? ? LO1 LO2]; subst.
      assert (forall j, 1 <= j <= q -> ins_sat V l2v j i) as Si by (intros j Hj; specialize (S j Hj); now inversion S).
      assert (forall j, 1 <= j <= q -> ins_sat V' l2v' j i) as Si' by (intros j Hj; specialize (S' j Hj); now inversion S').
      refine (IH (nv + num_res (i_op i)) (if is_load (i_op i) then Datatypes.S nl else nl) V V' l2v l2v' W2 NF2 LO2 _ _ _ _ _ _ v k _ Hk).
      + intros m Hm. apply L2. destruct (is_load (i_op i)); lia.
      + clear v k Hv Hk. intros v k Hv Hk.
        destruct (subs (i_op i) (i_arg i) (i_var i)) as [ls|] eqn:E.
        * destruct (chain_subs np nv nl i ls l W E) as (O & C & CR & N1 & N2).
          assert (0 < nv) by (apply HB; intros Q; rewrite Q in E; discriminate).
          apply (sat_subs_unique1 q ls V V' nv O C); auto; try lia.
          -- rewrite CR. intros; apply H0; lia.
          -- intros j Hj. specialize (Si j Hj). unfold Sweep_Tape.ins_sat in Si. now rewrite E in Si.
          -- intros j Hj. specialize (Si' j Hj). unfold Sweep_Tape.ins_sat in Si'. now rewrite E in Si'.
        * destruct (le_lt_dec nv v) as [Hge|]; [|apply H; lia].
          destruct (Nat.eq_dec k 0) as [->|Hk0]; [apply H0; lia|].
          destruct (is_load (i_op i)) eqn:L.
          -- specialize (HL eq_refl).
             assert (num_res (i_op i) = 1) as NR by (destruct (i_op i); try discriminate; auto).
             assert (v = i_var i) as -> by lia.
             specialize (Si k ltac:(lia)). specialize (Si' k ltac:(lia)). unfold Sweep_Tape.ins_sat in Si, Si'.
             rewrite E in Si, Si'. rewrite Si, Si' by auto. rewrite HL. cbn zeta. rewrite L2 by lia.
             specialize (LO1 L). rewrite HL in LO1.
             destruct (Nat.ltb_spec 0 (l2v nl)); auto. apply H; lia.
          -- destruct (i_op i) eqn:OP; cbn in E, L; try discriminate; cbn [num_res] in *; try lia; try congruence.
             ++ (* Begin *) exfalso. apply (proj2 HB); auto. lia.
             ++ assert (v = i_var i) as -> by lia. apply HI; auto. now left.
      + intros; apply H0; lia.
      + intros i' k' Hin. apply HI. now right.
      + intros j Hj. specialize (S j Hj). now inversion S.
      + intros j Hj. specialize (S' j Hj). now inversion S'.
      + lia.
  Qed.

  Lemma fold_ext_in {A} (f g : A -> nat -> A) (l : list nat) : forall z,
    (forall z i, In i l -> f z i = g z i) -> fold_left f l z = fold_left g l z.
  Proof.
    induction l as [|x l IH]; intros z H; cbn; auto.
    rewrite (H z x) by now left. apply IH. intros; apply H; now right.
  Qed.

  Lemma sem0_ext o a (V V' : nat -> T) : csum_ok o a -> (forall v, In v (var_args o a) -> V v = V' v) ->
    sem0 o a P V = sem0 o a P V'.
  Proof.
    intros HC H. destruct o; cbn [var_args] in H; cbn [sem0];
      rewrite ?(H (nth 0 a 0)) by (cbn; auto); rewrite ?(H (nth 1 a 0)) by (cbn; auto); try reflexivity.
    - (* CExp *)
      assert (forall bit j, In (bit, j) [(0, 2); (1, 3); (2, 4); (3, 5)] ->
        vp (nth 1 a 0) bit P V (nth j a 0) = vp (nth 1 a 0) bit P V' (nth j a 0)) as K.
      { intros bit j Hin. unfold vp. destruct (Nat.testbit (nth 1 a 0) bit) eqn:E; auto. apply H.
        rewrite !in_app_iff. cbn in Hin.
        repeat match goal with H : _ \/ _ |- _ => destruct H as [H|H] end; try contradiction;
          injection Hin as <- <-; rewrite E; cbn; auto. }
      rewrite !K by (cbn; auto). reflexivity.
    - (* CSum *) specialize (HC eq_refl). f_equal. f_equal. unfold csum0. cbn zeta.
      rewrite (fold_ext_in (fun z i => b_bin Bsub z (V i)) (fun z i => b_bin Bsub z (V' i))).
      2:{ intros z i Hi. f_equal. apply H. apply arg_range_incr with (mid := nth 1 a 0); auto. }
      f_equal. apply fold_ext_in. intros z i Hi. f_equal. apply H.
      apply arg_range_incl with (mid := nth 1 a 0); auto.
  Qed.

  Lemma cmp_change_ext o a (V V' : nat -> T) : (forall v, In v (var_args o a) -> V v = V' v) ->
    cmp_change o a P V = cmp_change o a P V'.
  Proof.
    intros H. destruct o; cbn [var_args] in H; cbn [cmp_change];
      rewrite ?(H (nth 0 a 0)) by (cbn; auto); rewrite ?(H (nth 1 a 0)) by (cbn; auto); reflexivity.
  Qed.

  Lemma sem0_length o a (V : nat -> T) res : sem0 o a P V = Some res -> length res = num_res o.
  Proof. destruct o; cbn; intros H; try discriminate; injection H as <-; reflexivity. Qed.

  (** everything but the values: equal;  values: equal for 0 < v < nv *)
  Record eq0 (nv nl nl0 : nat) (s t : fst0 b) : Prop := {
    e0_V : forall v, 0 < v < nv -> f_V s v = f_V t v;
    e0_isv : f_isv s = f_isv t; e0_idx : f_idx s = f_idx t; e0_skip : f_skip s = f_skip t;
    e0_num : f_num s = f_num t; e0_opi : f_opi s = f_opi t;
    e0_l2v : forall m, nl0 <= m < nl -> f_l2v s m = f_l2v t m }.

  Lemma step0_eq np nv nl nl0 lp cc i k s t s' : nl0 <= nl -> wfl np nv nl (i :: lp) ->
    vec_ok nv (f_isv s) (f_idx s) -> eq0 nv nl nl0 s t ->
    (i_op i = InvOp -> f_V s (i_var i) = f_V t (i_var i)) ->
    step0 P cc i k s = Some s' ->
    exists t', step0 P cc i k t = Some t' /\
      eq0 (nv + num_res (i_op i)) (if is_load (i_op i) then S nl else nl) nl0 s' t'.
  Proof.
    intros Hnl (Hiv & W & HC & HL & HB & _) VO E HI H. destruct i as [o a iv]. cbn [i_op i_arg i_var] in *.
    destruct E as [EV E1 E2 E3 E4 E5 E6].
    assert (forall x, In x (var_args o a) -> 0 < x < nv) as WA.
    { intros x Hx. destruct W as (W & _). cbn in W. rewrite Forall_forall in W. apply W in Hx. lia. }
    assert (forall v, In v (var_args o a) -> f_V s v = f_V t v) as HA by (intros; apply EV; auto).
    unfold step0 in *. rewrite <- (sem0_ext o a _ _ HC HA), <- (cmp_change_ext o a _ _ HA).
    destruct (sem0 o a P (f_V s)) as [res|] eqn:S0.
    { injection H as <-. assert (is_load o = false) as L by (destruct o; try discriminate; auto).
      rewrite L. pose proof (sem0_length _ _ _ _ S0) as LR.
      eexists; split; [reflexivity|]. constructor; cbn; auto.
      intros v Hv. rewrite !put_res_spec, LR.
      destruct (Nat.leb_spec (iv + 1 - num_res o) v), (Nat.ltb_spec v (iv + 1 - num_res o + num_res o)); cbn; auto; try (apply EV; lia). }
    destruct (cmp_change o a P (f_V s)) as [ch|] eqn:S1.
    { assert (is_load o = false /\ num_res o = 0) as [L N] by (destruct o; try discriminate; auto).
      rewrite L, N, Nat.add_0_r.
      destruct ((cc =? 0) || negb ch); injection H as <-; (eexists; split; [reflexivity|]); constructor; cbn; auto.
      now rewrite E4, E5. }
    rewrite <- E1, <- E2.
    destruct o; try discriminate; cbn [is_load num_res] in *; try rewrite Nat.add_0_r.
    - injection H as <-. eexists; split; [reflexivity|]. constructor; auto.
      intros v Hv. destruct (Nat.eq_dec nv 0) as [->|Hn]; [lia|]. exfalso. apply (proj2 HB); auto. lia.
    - injection H as <-. eexists; split; [reflexivity|]. constructor; cbn; auto.
      assert (vp (nth 1 a 0) 0 P (f_V s) (nth 2 a 0) = vp (nth 1 a 0) 0 P (f_V t) (nth 2 a 0)) as A0.
      { unfold vp. destruct (Nat.testbit (nth 1 a 0) 0) eqn:Q; auto. apply HA. cbn [var_args]. rewrite Q. cbn; auto. }
      assert (vp (nth 1 a 0) 1 P (f_V s) (nth 3 a 0) = vp (nth 1 a 0) 1 P (f_V t) (nth 3 a 0)) as A1.
      { unfold vp. destruct (Nat.testbit (nth 1 a 0) 1) eqn:Q; auto. apply HA. cbn [var_args]. rewrite Q, in_app_iff. cbn; auto. }
      unfold cskip_true. now rewrite A0, A1, E3.
    - injection H as <-. eexists; split; [reflexivity|]. constructor; auto.
    - injection H as <-. eexists; split; [reflexivity|]. constructor; auto.
      intros v Hv. destruct (Nat.eq_dec v iv) as [->|]; [auto|apply EV; lia].
    - (* Ldp *)
      destruct (index_of _ _) as [j|]; [|discriminate]. injection H as <-.
      eexists; split; [reflexivity|]. constructor; cbn [f_V f_isv f_idx f_skip f_num f_opi f_l2v]; auto.
      + intros v Hv. unfold fset. destruct (Nat.eqb_spec v iv); [|apply EV; lia].
        destruct (f_isv s (nth 0 a 0 + j)) eqn:Q; [apply EV, VO, Q|auto].
      + intros m Hm. unfold fset. destruct (Nat.eqb_spec m (nth 2 a 0)); auto. apply E6.
        rewrite HL in * by auto. lia.
    - rewrite <- (HA (nth 1 a 0)) by (cbn; auto).
      destruct (index_of _ _) as [j|]; [|discriminate]. injection H as <-.
      eexists; split; [reflexivity|]. constructor; cbn [f_V f_isv f_idx f_skip f_num f_opi f_l2v]; auto.
      + intros v Hv. unfold fset. destruct (Nat.eqb_spec v iv); [|apply EV; lia].
        destruct (f_isv s (nth 0 a 0 + j)) eqn:Q; [apply EV, VO, Q|auto].
      + intros m Hm. unfold fset. destruct (Nat.eqb_spec m (nth 2 a 0)); auto. apply E6.
        rewrite HL in * by auto. lia.
    - injection H as <-. eexists; split; [reflexivity|]. constructor; auto.
    - destruct (index_of _ _) as [j|]; [|discriminate]. injection H as <-.
      eexists; split; [reflexivity|]. constructor; auto.
    - destruct (index_of _ _) as [j|]; [|discriminate]. injection H as <-.
      eexists; split; [reflexivity|]. constructor; auto.
    - rewrite <- (HA (nth 1 a 0)) by (cbn; auto).
      destruct (index_of _ _) as [j|]; [|discriminate]. injection H as <-.
      eexists; split; [reflexivity|]. constructor; auto.
    - rewrite <- (HA (nth 1 a 0)) by (cbn; auto).
      destruct (index_of _ _) as [j|]; [|discriminate]. injection H as <-.
      eexists; split; [reflexivity|]. constructor; auto.
  Qed.

  Lemma sweep0_eq np cc l : forall nv nl nl0 k s t s', nl0 <= nl -> wfl np nv nl l ->
    (forall j, f_skip s j = false) -> vec_ok nv (f_isv s) (f_idx s) -> eq0 nv nl nl0 s t ->
    (forall i, In i l -> i_op i = InvOp -> f_V s (i_var i) = f_V t (i_var i)) ->
    sweep0 P cc l k s = Some s' ->
    exists t', sweep0 P cc l k t = Some t' /\ eq0 (nv + tres l) (nl + nload l) nl0 s' t' /\
      vec_ok (nv + tres l) (f_isv s') (f_idx s') /\ (forall j, f_skip s' j = false) /\
      (forall v, v < nv \/ (exists i, In i l /\ i_op i = InvOp /\ v = i_var i) -> f_V s' v = f_V s v).
  Proof.
    induction l as [|i l IH]; intros nv nl nl0 k s t s' Hnl W HS VO E HI H; cbn [sweep0] in H.
    - injection H as <-. exists t. cbn. rewrite !Nat.add_0_r. split; [auto|split; [auto|split; [auto|split; auto]]].
    - rewrite HS in H. destruct (step0 P cc i k s) as [s1|] eqn:S1; [|discriminate].
      pose proof W as (Hiv & W1 & HC & HL & HB & W2).
      destruct (step0_eq np nv nl nl0 l cc i k s t s1 Hnl W VO E) as (t1 & T1 & E1); auto.
      { intros Q. apply HI; auto. now left. }
      destruct (step0_vec P np nv nl l cc i k s s1 W S1 VO) as (V1 & V2 & _).
      assert (forall v, v < nv \/ nv + num_res (i_op i) <= v \/ i_op i = InvOp -> f_V s1 v = f_V s v) as F1.
      { intros v Hv. clear - S1 Hv Hiv HB. destruct i as [o a iv]. cbn [i_op i_arg i_var] in *.
        unfold step0 in S1. destruct (sem0 o a P (f_V s)) as [res|] eqn:S0.
        - injection S1 as <-. cbn. rewrite put_res_spec, (sem0_length _ _ _ _ S0).
          destruct (Nat.leb_spec (iv + 1 - num_res o) v), (Nat.ltb_spec v (iv + 1 - num_res o + num_res o)); cbn; auto.
          exfalso. destruct Hv as [Hv|[Hv| ->]]; try discriminate S0;
            assert (0 < num_res o) by (destruct o; try discriminate; cbn; lia); lia.
        - destruct (cmp_change o a P (f_V s)).
          + destruct ((cc =? 0) || negb _); injection S1 as <-; auto.
          + destruct o; try discriminate; cbn [num_res] in *; try (injection S1 as <-; auto; fail);
              destruct (index_of _ _); try discriminate; injection S1 as <-; cbn; auto;
              destruct Hv as [Hv|[Hv|Hv]]; try discriminate Hv; rewrite fset_ne by lia; auto. }
      destruct (IH (nv + num_res (i_op i)) (if is_load (i_op i) then S nl else nl) nl0 (S k) s1 t1 s') as (t' & T' & E' & V' & S' & F'); auto.
      + destruct (is_load (i_op i)); lia.
      + intros j. rewrite V2. auto.
      + intros i' Hin Hop.
        assert (nv + num_res (i_op i) <= i_var i') as Hge.
        { eapply wfl_ge; eauto. rewrite Hop. cbn. lia. }
        assert (f_V t1 (i_var i') = f_V t (i_var i')) as F2.
        { clear - T1 Hge Hiv HB. destruct i as [o a iv]. cbn [i_op i_arg i_var] in *.
          unfold step0 in T1. destruct (sem0 o a P (f_V t)) as [res|] eqn:S0.
          - injection T1 as <-. cbn. rewrite put_res_spec, (sem0_length _ _ _ _ S0).
            assert (0 < num_res o) by (destruct o; try discriminate; cbn; lia).
            destruct (Nat.leb_spec (iv + 1 - num_res o) (i_var i')), (Nat.ltb_spec (i_var i') (iv + 1 - num_res o + num_res o)); cbn; auto; lia.
          - destruct (cmp_change o a P (f_V t)).
            + destruct ((cc =? 0) || negb _); injection T1 as <-; auto.
            + destruct o; try discriminate; cbn [num_res] in *; try (injection T1 as <-; auto; fail);
                destruct (index_of _ _); try discriminate; injection T1 as <-; cbn; auto;
                rewrite fset_ne by lia; auto. }
        rewrite F2, F1 by lia. apply HI; auto. now right.
      + exists t'. cbn [sweep0 tres nload]. rewrite <- (e0_skip _ _ _ _ _ E), HS, T1.
        rewrite !Nat.add_assoc. replace (nl + (if is_load (i_op i) then 1 else 0)) with (if is_load (i_op i) then S nl else nl) by (destruct (is_load (i_op i)); lia).
        split; [auto|]. split; [auto|]. split; [auto|]. split; [auto|].
        intros v Hv. destruct Hv as [Hv|(i' & [<-|Hin] & Hop & ->)].
        * rewrite F' by lia. apply F1. lia.
        * rewrite F'; [apply F1; auto|]. left. rewrite Hiv, Hop. cbn. lia.
        * rewrite F' by eauto. apply F1. right; left. eapply wfl_ge; eauto. rewrite Hop. cbn. lia.
  Qed.
End Uniq.
