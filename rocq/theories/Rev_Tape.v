(** The adjoint identity of the reverse sweep over a whole tape, over the real numbers. *)
From Coq Require Import Reals ZArith Lra Lia List Bool Arith.
From Coquelicot Require Import Coquelicot.
From Verif Require Import Base_Spec Op_Model Tape_Spec Tape_Model Tape_Proof Tape_Proof2
  Sweep_Model Sweep_Eqs Sweep_Eqs2 Sweep_Tape Sweep_Uniq Sweep_Val0 Tape_Swf Real_Base Tay_Calc Tay_Sub Tay_Tape
  Rev_Calc Rev_Sub Rev_Sub2 Rev_Sub3 Rev_Sub4 Rev_Sub5 Rev_Sub6 Rev_Sub7 Rev_Frame.
Import ListNotations.
Open Scope nat_scope.

Section RevTape.
  Variable dis : nat -> R -> R.
  Variable nan : R.
  Notation b := (Rbase dis nan).
  Variable P : nat -> R.
  (** Taylor coefficients and the variables read by the loads, as functions of one parameter *)
  Variable Vh : R -> nat -> nat -> R.
  Variable Lh : R -> nat -> nat.
  Variable d : nat.
  Notation ok := (ok Vh).
  Notation dV := (dV Vh).
  Notation V := (Vh 0%R).
  Notation rev_sub := (rev_sub (b:=b) INR P).
  Notation rev_step := (rev_step (b:=b) INR P V (Lh 0%R) d).

  Lemma chain_adj ls : forall r, 0 < r -> subs_ok ls -> chain r ls ->
    (forall v k, 0 < v < r -> k <= d -> ok v k) ->
    (forall rs, In rs ls -> sats dis nan P Vh d (fst rs) (snd rs)) ->
    List.Forall (fun rs => sub_reg dis nan P (snd rs) (fun i h => Vh h i 0)) ls ->
    (forall v k, 0 < v < r + chain_res ls -> k <= d -> ok v k) /\
    ((forall rs, In rs ls -> sub_res (snd rs) <> 2) -> forall p,
     pair d r dV (fold_left (fun p rs => rev_sub (snd rs) (fst rs) V d p) (rev ls) p) = pair d (r + chain_res ls) dV p).
  Proof.
    induction ls as [|[r' s] ls IH]; intros r Hr O C HK HS HG; cbn [chain_res rev fold_left].
    - rewrite Nat.add_0_r. split; auto.
    - destruct C as (-> & A & C). inversion O as [|? ? O1 O2]; subst. inversion HG as [|? ? HG1 HG2]; subst. cbn [fst snd] in *.
      assert (adj dis nan P Vh d r s) as [J1 J2].
      { apply sub_adj; auto.
        - split; [exact A|]. intros x Hx k Hk. rewrite Forall_forall in A. apply HK; auto.
        - apply (HS (r, s)). now left. }
      destruct (IH (r + sub_res s)) as [K1 K2]; auto; try lia.
      + intros v k Hv Hk. destruct (Nat.lt_ge_cases v r); [apply HK; auto; lia|].
        replace v with (r + (v - r)) by lia. apply J1; auto. lia.
      + intros rs Hrs. apply HS. now right.
      + replace (r + (sub_res s + chain_res ls)) with (r + sub_res s + chain_res ls) by lia. split; auto.
        intros N p. rewrite fold_left_app. cbn [fold_left fst snd].
        rewrite J2; [apply K2; intros rs Hrs; apply N; now right|]. intros Q. exfalso. apply (N (r, s)); auto. now left.
  Qed.

  Lemma pair_zero N M p : N <= M -> 0 < N -> (forall v k, N <= v < M -> k <= d -> p v k = 0%R) -> pair d M dV p = pair d N dV p.
  Proof.
    intros L Hn H. induction L; auto. rewrite pair_last by lia. rewrite IHL by (intros; apply H; lia).
    rewrite sumR_zero; [ring|]. intros k Hk. rewrite H by lia. ring.
  Qed.

  (** regularity of the operator gives regularity of its loops *)
  Lemma ins_sub_reg' o a iv ls (Y : nat -> R -> R) L : subs o a iv = Some ls -> ins_reg dis nan P Y L (mkIns o a iv) -> erf_ok P (mkIns o a iv) ->
    (o = PowvvOp -> locally 0%R (fun t => (0 < Y (nth 0%nat a 0%nat) t)%R)) ->
    (forall rs, In rs ls -> locally 0%R (fun t => sat_sub (b:=b) INR P (fun v _ => Y v t) (fst rs) (snd rs) 0)) ->
    num_res o <= iv + 1 ->
    List.Forall (fun rs => sub_reg dis nan P (snd rs) Y) ls.
  Proof.
    intros E R RE HT HV Hiv. unfold ins_reg in R. unfold erf_ok in RE. cbn [i_op i_arg i_var] in *.
    destruct o; cbn in E; try discriminate; injection E as <-; cbn [num_res] in Hiv.
    all: try (constructor; [cbn [snd sub_reg]; auto|constructor]; fail).
    - (* erf *) destruct RE as [RE1 RE2].
      do 4 (constructor; [exact I|]). constructor; [|constructor]. cbn [snd sub_reg].
      pose proof (HV _ (or_introl eq_refl)) as K1.
      pose proof (HV _ (or_intror (or_introl eq_refl))) as K2.
      pose proof (HV _ (or_intror (or_intror (or_introl eq_refl)))) as K3.
      pose proof (HV _ (or_intror (or_intror (or_intror (or_introl eq_refl))))) as K4.
      generalize (filter_and _ _ (filter_and _ _ K1 K2) (filter_and _ _ K3 K4)). apply filter_imp.
      intros t [[A1 A2] [A3 A4]]. specialize (A1 0%nat (le_n _)). specialize (A2 0%nat (le_n _)).
      specialize (A3 0%nat (le_n _)). specialize (A4 0%nat (le_n _)).
      cbn [fst snd] in *. rewrite Nat.add_0_r in *. cbn in A1, A2, A3, A4. rewrite A4, A3, A2, A1, RE1, RE2.
      unfold Rminus. rewrite !Rplus_0_l. auto.
    - destruct RE as [RE1 RE2].
      do 4 (constructor; [exact I|]). constructor; [|constructor]. cbn [snd sub_reg].
      pose proof (HV _ (or_introl eq_refl)) as K1.
      pose proof (HV _ (or_intror (or_introl eq_refl))) as K2.
      pose proof (HV _ (or_intror (or_intror (or_introl eq_refl)))) as K3.
      pose proof (HV _ (or_intror (or_intror (or_intror (or_introl eq_refl))))) as K4.
      generalize (filter_and _ _ (filter_and _ _ K1 K2) (filter_and _ _ K3 K4)). apply filter_imp.
      intros t [[A1 A2] [A3 A4]]. specialize (A1 0%nat (le_n _)). specialize (A2 0%nat (le_n _)).
      specialize (A3 0%nat (le_n _)). specialize (A4 0%nat (le_n _)).
      cbn [fst snd] in *. rewrite Nat.add_0_r in *. cbn in A1, A2, A3, A4. rewrite A4, A3, A2, A1, RE1, RE2.
      unfold Rminus. rewrite !Rplus_0_l. auto.
    - (* powpv *)
      pose proof (HV _ (or_introl eq_refl)) as K1.
      pose proof (HV _ (or_intror (or_introl eq_refl))) as K2. cbn [fst snd] in *.
      assert (locally 0%R (fun t => Y (iv - 2) t = ln (P (nth 0 a 0)))) as F1.
      { generalize K1. apply filter_imp. intros t A1. specialize (A1 0%nat (le_n _)). rewrite Nat.add_0_r in A1. exact A1. }
      constructor; [exact I|]. constructor; [|constructor; [|constructor]]; cbn [snd sub_reg].
      + unfold frozen. rewrite (locally_singleton _ _ F1). exact F1.
      + generalize (filter_and _ _ F1 K2). apply filter_imp. intros t [A1 A2]. cbn [pgetf]. split; auto.
        specialize (A2 0%nat (le_n _)). rewrite Nat.add_0_r in A2. cbn in A2. rewrite A2, A1. ring.
    - (* powvv *)
      pose proof (HV _ (or_introl eq_refl)) as K1.
      pose proof (HV _ (or_intror (or_introl eq_refl))) as K2. cbn [fst snd] in *.
      assert (locally 0%R (fun t => Y (iv - 2) t = ln (Y (nth 0 a 0) t))) as F1.
      { generalize K1. apply filter_imp. intros t A1. specialize (A1 0%nat (le_n _)). rewrite Nat.add_0_r in A1. exact A1. }
      constructor; [exact R|]. constructor; [exact I|constructor; [|constructor]]; cbn [snd sub_reg].
      generalize (filter_and _ _ (HT eq_refl) (filter_and _ _ F1 K2)). apply filter_imp. intros t [A0 [A1 A2]]. cbn [pgetf]. split; auto.
      specialize (A2 0%nat (le_n _)). rewrite Nat.add_0_r in A2. cbn in A2. rewrite A2, A1. ring.
  Qed.

  (** all the equations of one operator hold near h = 0 *)
  Definition ins_eqs (i : ins) : Prop :=
    locally 0%R (fun h => val_ins (b:=b) INR P (fun v => Vh h v 0) (Lh h) i) /\
    forall j, 1 <= j <= d -> locally 0%R (fun h => ins_sat (b:=b) INR P (Vh h) (Lh h) j i).

  (** the chains of the operators with an auxiliary pair *)
  Lemma subs_two o a iv ls : subs o a iv = Some ls ->
    (forall rs, In rs ls -> sub_res (snd rs) <> 2) \/ (exists s, ls = [(iv - 1, s)] /\ sub_res s = 2 /\ num_res o = 2).
  Proof.
    destruct o; cbn; intros E; try discriminate; injection E as <-;
      try (right; eexists; split; [reflexivity|split; reflexivity]);
      left; intros rs Hr; repeat (destruct Hr as [<-|Hr]; [cbn; discriminate|]); destruct Hr.
  Qed.

  Lemma all_zero_spec p z : all_zero (b:=b) p z d = true -> forall k, k <= d -> p z k = 0%R.
  Proof.
    unfold all_zero. rewrite forallb_forall. intros H k Hk. specialize (H k). rewrite in_seq in H. specialize (H ltac:(lia)).
    unfold is0 in H. cbn in H. now apply Reqb_eq in H.
  Qed.

  Lemma ins_adj np nv nl i l : wfl np nv nl (i :: l) -> okop (i_op i) = true -> ld_ok (Lh 0%R) i -> 0 < nv ->
    (forall v k, 0 < v < nv -> k <= d -> ok v k) ->
    ins_eqs i -> ins_reg dis nan P (fun v h => Vh h v 0) Lh i -> erf_ok P i ->
    (forall v k, 0 < v < nv + num_res (i_op i) -> k <= d -> ok v k) /\
    forall p, (forall v k, nv <= v < i_var i -> k <= d -> p v k = 0%R) ->
      pair d nv dV (rev_step i p) = pair d (nv + num_res (i_op i)) dV p.
  Proof.
    intros W OKO LO Hnv HK [Q0 QJ] RI EI. pose proof W as (Hiv & W1 & HC & HLd & HB & W2).
    destruct (subs (i_op i) (i_arg i) (i_var i)) as [ls|] eqn:E.
    - destruct (chain_subs np nv nl i ls l W E) as (O & C & CR & N1 & N2).
      assert (forall rs, In rs ls -> locally 0%R (fun t => sat_sub (b:=b) INR P (fun v _ => Vh t v 0) (fst rs) (snd rs) 0)) as VS.
      { intros rs Hrs. generalize Q0. apply filter_imp. intros t K. unfold val_ins in K. rewrite E in K.
        unfold sat_subs in K. rewrite Forall_forall in K. now apply K. }
      assert (forall rs, In rs ls -> sats dis nan P Vh d (fst rs) (snd rs)) as SS.
      { intros rs Hrs j Hj. destruct (Nat.eq_dec j 0) as [->|Nj].
        - generalize (VS rs Hrs). apply filter_imp. intros t K m Hm. specialize (K m Hm). cbn beta in K. rewrite K. f_equal.
          destruct (chain_ge ls nv rs C Hrs) as (_ & _ & Ag). unfold subs_ok in O. rewrite Forall_forall in O.
          apply (coef_ext (b:=b)); [| |exact (O rs Hrs)].
          + intros x Hx k Hk. now replace k with 0 by lia.
          + intros; lia.
        - generalize (QJ j ltac:(lia)). apply filter_imp. intros t K. unfold ins_sat in K. rewrite E in K.
          unfold sat_subs in K. rewrite Forall_forall in K. now apply K. }
      assert (List.Forall (fun rs => sub_reg dis nan P (snd rs) (fun i h => Vh h i 0)) ls) as RG.
      { destruct i as [o a iv]. cbn [i_op i_arg i_var] in *.
        apply (ins_sub_reg' o a iv ls (fun i h => Vh h i 0) Lh E); auto.
        intros ->. cbn in RI. assert (In (nth 0 a 0) (var_args PowvvOp a)) as Hx by (now left).
        pose proof (wf_arg_range np PowvvOp a iv _ W1 Hx) as R1.
        assert (ok (nth 0 a 0) 0) as OK0 by (apply HK; lia).
        assert (continuous (fun h => Vh h (nth 0 a 0) 0) 0%R) as CT by (apply (ex_derive_continuous (fun h => Vh h (nth 0 a 0) 0)); exact OK0).
        apply (CT (fun y => 0 < y)%R). apply (open_gt 0%R). exact RI. }
      destruct (chain_adj ls nv Hnv O C HK SS RG) as [K1 K2]. rewrite CR in K1, K2. split; auto.
      intros p Z. destruct i as [o a iv]. cbn [i_op i_arg i_var] in *.
      set (run := fold_left (fun p rs => rev_sub (snd rs) (fst rs) V d p) (rev ls) p) in *.
      assert (pair d nv dV run = pair d (nv + num_res o) dV p) as KR.
      { destruct (subs_two o a iv ls E) as [N|(s & -> & S2 & NR)].
        - unfold run. apply K2; auto.
        - unfold run. cbn [rev app fold_left fst snd]. assert (nv = iv - 1) as En by lia. rewrite <- En.
          pose proof (Forall_inv RG) as RG1. pose proof (Forall_inv O) as O1. cbn [snd] in RG1, O1.
          assert (adj dis nan P Vh d nv s) as [_ J2].
          { destruct C as (_ & A & _). pose proof (SS _ (or_introl eq_refl)) as SS1. cbn [fst snd] in SS1. rewrite <- En in SS1.
            apply sub_adj; auto. split; [exact A|]. intros x Hx k Hk. rewrite Forall_forall in A. apply HK; auto. }
          rewrite J2; [now rewrite S2, NR|]. intros _ k Hk. apply Z; auto. lia. }
      unfold Sweep_Model.rev_step. cbv beta iota zeta. rewrite E. fold run.
      assert (all_zero (b:=b) p iv d = true -> pair d nv dV p = pair d (nv + num_res o) dV p) as KZ.
      { intros AZ. symmetry. apply pair_zero; auto; [lia|]. intros v k Hv Hk.
        destruct (Nat.eq_dec v iv) as [->|]; [apply all_zero_spec; auto|apply Z; auto; lia]. }
      destruct o; try exact KR; destruct (all_zero (b:=b) p iv d) eqn:AZ; auto.
    - destruct (is_load (i_op i)) eqn:Ld.
      + specialize (HLd eq_refl). assert (num_res (i_op i) = 1) as NR by (destruct (i_op i); try discriminate; auto).
        assert (frozen (fun t => Lh t nl) /\ (Lh 0%R nl = 0 -> frozen (fun h => Vh h (i_var i) 0))) as [F1 F2].
        { unfold ins_reg in RI. destruct (i_op i); try discriminate; rewrite HLd in RI; exact RI. }
        specialize (LO Ld). rewrite HLd in LO. rewrite NR in *. assert (i_var i = nv) as En by lia. rewrite En in *.
        assert (forall k, k <= d -> isd (fun h => Vh h nv k) (if 0 <? Lh 0%R nl then dV (Lh 0%R nl) k else 0%R)) as DD.
        { intros k Hk. destruct (Nat.ltb_spec 0 (Lh 0%R nl)) as [Hp|Hp].
          - apply isd_loc with (fun h => Vh h (Lh 0%R nl) k); [|exact (okd Vh _ _ (HK (Lh 0%R nl) k ltac:(lia) Hk))].
            unfold frozen in F1. destruct (Nat.eq_dec k 0) as [->|Nk].
            + generalize (filter_and _ _ Q0 F1). apply filter_imp. intros t [K KF]. unfold val_ins in K.
              rewrite En, E, HLd in K. specialize (K Ld). cbv zeta in K. rewrite KF in K. now apply K.
            + pose proof (QJ k ltac:(lia)) as Qk. generalize (filter_and _ _ Qk F1). apply filter_imp. intros t [K KF]. unfold ins_sat in K.
              rewrite En, E, HLd in K. specialize (K Ld). cbv zeta in K. rewrite KF in K.
              destruct (Nat.ltb_spec 0 (Lh 0%R nl)); [exact K|lia].
          - destruct (Nat.eq_dec k 0) as [->|Nk].
            + apply frozen_isd. apply F2. lia.
            + apply isd_loc with (fun _ => 0%R); [|apply isd_const]. unfold frozen in F1.
              pose proof (QJ k ltac:(lia)) as Qk. generalize (filter_and _ _ Qk F1). apply filter_imp. intros t [K KF]. unfold ins_sat in K.
              rewrite En, E, HLd in K. specialize (K Ld). cbv zeta in K. rewrite KF in K.
              destruct (Nat.ltb_spec 0 (Lh 0%R nl)); [lia|exact K]. }
        assert (forall k, k <= d -> ok nv k /\ dV nv k = if 0 <? Lh 0%R nl then dV (Lh 0%R nl) k else 0%R) as OD.
        { intros k Hk. apply isd_ok. apply DD; auto. }
        split.
        * intros v k Hv Hk. destruct (Nat.eq_dec v nv) as [->|]; [exact (proj1 (OD k Hk))|apply HK; auto; lia].
        * intros p _. rewrite Nat.add_1_r, pair_last by auto.
          assert (forall p, rev_step i p = if 0 <? Lh 0%R nl then down0 (b:=b) d (fun j p => padd (b:=b) (Lh 0%R nl) j (p nv j) p) p else p) as RS.
          { intros p'. destruct i as [o a iv]. cbn [i_op i_arg i_var] in *. unfold Sweep_Model.rev_step. rewrite En, E, HLd. destruct o; try discriminate; reflexivity. }
          rewrite RS. destruct (Nat.ltb_spec 0 (Lh 0%R nl)) as [Hp|Hp].
          -- unfold down0.
             destruct (down0_pair d (fun p => pair d nv dV p)
               (fun j p => padd (b:=b) (Lh 0%R nl) j (p nv j) p) (fun q => forall k, q nv k = p nv k)
               (fun k => p nv k * dV (Lh 0%R nl) k)%R p) as [_ EE].
             ++ auto.
             ++ intros k q Hk Iq. split.
                ** intros k'. unfold Sweep_Model.padd, Sweep_Model.pset. destruct (Nat.eqb_spec nv (Lh 0%R nl)); [lia|]. apply Iq.
                ** rewrite pair_add by lia. now rewrite Iq.
             ++ etransitivity; [exact EE|]. f_equal. apply sumR_ext. intros k Hk. destruct (OD k ltac:(lia)) as [_ ->]. auto.
          -- rewrite sumR_zero; [ring|]. intros k Hk. destruct (OD k ltac:(lia)) as [_ ->]. ring.
      + assert (num_res (i_op i) = 0) as NR.
        { destruct (i_op i); cbn in E, Ld, OKO; try discriminate; reflexivity. }
        rewrite NR, Nat.add_0_r. split; auto. intros p _.
        destruct i as [o a iv]. cbn [i_op i_arg i_var] in *. unfold Sweep_Model.rev_step. rewrite E. destruct o; try discriminate; reflexivity.
  Qed.

  (** rows that are visible to the user; the others are auxiliary results *)
  Variable prim : nat -> Prop.
  Definition prim_ins (i : ins) : Prop :=
    List.Forall prim (var_args (i_op i) (i_arg i)) /\
    (forall v, i_var i + 1 - num_res (i_op i) <= v < i_var i -> ~ prim v) /\
    (is_load (i_op i) = true -> let y := Lh 0%R (nth 2 (i_arg i) 0) in y = 0 \/ prim y).

  Lemma tape_adj np l : forall nv nl, wfl np nv nl l -> List.Forall (ld_ok (Lh 0%R)) l -> 0 < nv ->
    List.Forall prim_ins l -> List.Forall (fun i => okop (i_op i) = true) l ->
    (forall v k, 0 < v < nv -> k <= d -> ok v k) ->
    (forall i, In i l -> ins_eqs i /\ ins_reg dis nan P (fun v h => Vh h v 0) Lh i /\ erf_ok P i) ->
    (forall v k, 0 < v < nv + tres l -> k <= d -> ok v k) /\
    forall k0 p, (forall v k, 0 < v < nv + tres l -> ~ prim v -> k <= d -> p v k = 0%R) ->
      let p' := sweep_rev (b:=b) INR P V (Lh 0%R) (fun _ => false) d l k0 p in
      pair d nv dV p' = pair d (nv + tres l) dV p /\
      (forall v k, 0 < v < nv -> ~ prim v -> k <= d -> p' v k = 0%R).
  Proof.
    induction l as [|i l IH]; intros nv nl W LO Hnv PR OKS HK HI.
    - cbn [tres sweep_rev]. rewrite Nat.add_0_r. split; auto.
    - pose proof W as (Hiv & W1 & HC & HLd & HB & W2).
      inversion LO as [|? ? LO1 LO2]; subst. inversion PR as [|? ? (P1 & P2 & P3) PR2]; subst. inversion OKS as [|? ? OK1 OK2]; subst.
      destruct (HI i (or_introl eq_refl)) as (I1 & I2 & I3).
      cbn [tres] in *.
      destruct (ins_adj np nv nl i l W OK1 LO1 Hnv HK I1 I2 I3) as [A1 A2].
      destruct (IH _ _ W2 LO2 ltac:(lia) PR2 OK2 A1) as [B1 B2]; [intros j Hj; apply HI; now right|].
      rewrite Nat.add_assoc. split; auto.
      intros k0 p Z. cbn [sweep_rev]. cbv zeta.
      destruct (B2 (S k0) p) as [C1 C2]; [intros; apply Z; auto; lia|].
      set (q := sweep_rev (b:=b) INR P V (Lh 0%R) (fun _ => false) d l (S k0) p) in *.
      split.
      + rewrite A2; [exact C1|]. intros v k Hv Hk. apply C2; auto; [lia|]. apply P2. lia.
      + intros v k Hv Nv Hk. rewrite (rev_step_frame (b:=b) INR P np nv nl i l); auto.
        * apply C2; auto. lia.
        * lia.
        * intros Hx. rewrite Forall_forall in P1. apply Nv. auto.
        * intros Ld Ev. subst v. destruct (P3 Ld); [lia|contradiction].
  Qed.
End RevTape.
