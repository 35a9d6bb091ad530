(** Taylor coefficients of every variable of a tape, over the real numbers. *)
From Coq Require Import Reals ZArith Lra Lia List Bool Arith.
From Coquelicot Require Import Coquelicot.
From Verif Require Import Base_Spec Op_Model Tape_Spec Tape_Model Tape_Proof Tape_Proof2
  Sweep_Model Sweep_Eqs Sweep_Eqs2 Sweep_Tape Sweep_Uniq Sweep_Val0 Real_Base Tay_Calc Tay_Sub.
Import ListNotations.
Open Scope nat_scope.

Section Tape.
  Variable dis : nat -> R -> R.
  Variable nan : R.
  Notation b := (Rbase dis nan).
  Variable P : nat -> R.

  (** The operation is differentiable at its arguments at t = 0, and no discontinuous
      choice made by it changes near t = 0.  [Y v t] is the value of variable v at X(t),
      [L t m] the variable read by load number m (0: a parameter was read). *)
  Definition ins_reg (Y : nat -> R -> R) (L : R -> nat -> nat) (i : ins) : Prop :=
    let a := i_arg i in
    let a0 := nth 0 a 0%nat in
    let a1 := nth 1 a 0%nat in
    match i_op i with
    | AbsOp | SignOp => frozen (fun t => Rsgn (Y a0 t))
    | LogOp | SqrtOp => (0 < Y a0 0)%R
    | Log1pOp => (0 < 1 + Y a0 0)%R
    | AsinOp | AcosOp | AtanhOp => (-1 < Y a0 0 < 1)%R
    | AcoshOp => (1 < Y a0 0)%R
    | TanOp => cos (Y a0 0%R) <> 0%R
    | DivvvOp | DivpvOp => Y a1 0%R <> 0%R
    | PowvvOp => (0 < Y a0 0)%R
    | PowpvOp => (0 < P a0)%R
    | PowvpOp => pow_reg (Y a0 0%R) (P a1)
    | DisOp => frozen (fun t => dis a0 (Y a1 t))
    | CExpOp => frozen (cexp_choice dis nan P a Y)
    | LdpOp | LdvOp => let m := nth 2 a 0%nat in
        frozen (fun t => L t m) /\ (L 0%R m = 0 -> frozen (Y (i_var i)))
    | _ => True
    end.
  (** the two constants of the erf operators *)
  Definition erf_ok (i : ins) : Prop :=
    match i_op i with
    | ErfOp | ErfcOp => P (nth 1 (i_arg i) 0%nat) = 0%R /\ P (nth 2 (i_arg i) 0%nat) = erf_c
    | _ => True
    end.

  Lemma nth_in_subs (Y : nat -> R -> R) r s :
    locally 0%R (fun t => sat_sub (b:=b) INR P (fun v _ => Y v t) r s 0) ->
    forall m, m < sub_res s -> val_sub dis nan P Y r s m.
  Proof. intros H m Hm. unfold val_sub. generalize H. apply filter_imp. intros t K. apply K. auto. Qed.

  Lemma chain_tay n ls : forall r Y V, subs_ok ls -> chain r ls ->
    (forall v, 0 < v < r -> tay n (Y v) (V v)) ->
    (forall rs, In rs ls -> locally 0%R (fun t => sat_sub (b:=b) INR P (fun v _ => Y v t) (fst rs) (snd rs) 0)) ->
    (forall v, r <= v < r + chain_res ls -> Y v 0%R = V v 0) ->
    (forall j, 1 <= j <= n -> sat_subs (b:=b) INR P V ls j) ->
    List.Forall (fun rs => sub_reg dis nan P (snd rs) Y) ls ->
    forall v, 0 < v < r + chain_res ls -> tay n (Y v) (V v).
  Proof.
    induction ls as [|[r' s] ls IH]; intros r Y V O C H HV H0 HS HR v Hv; cbn [chain_res] in *.
    - apply H. lia.
    - destruct C as (-> & A & C). inversion O as [|? ? O1 O2]; subst. inversion HR as [|? ? HR1 HR2]; subst. cbn [fst snd] in *.
      apply (IH (r + sub_res s) Y V); auto; try lia.
      + intros w Hw. destruct (Nat.lt_ge_cases w r) as [Hr|Hr]; [apply H; lia|].
        replace w with (r + (w - r)) by lia.
        apply (sub_tay dis nan P s r Y V n); auto; try lia.
        * apply Forall_forall. intros x Hx. rewrite Forall_forall in A. apply H. auto.
        * apply nth_in_subs. apply (HV (r, s)). now left.
        * intros m Hm. apply H0. lia.
        * intros j Hj. specialize (HS j Hj). now inversion HS.
      + intros rs Hrs. apply HV. now right.
      + intros w Hw. apply H0. lia.
      + intros j Hj. specialize (HS j Hj). now inversion HS.
  Qed.

  (** regularity of the operator gives regularity of its loops *)
  Lemma ins_sub_reg n o a iv ls (Y : nat -> R -> R) V L : subs o a iv = Some ls -> ins_reg Y L (mkIns o a iv) -> erf_ok (mkIns o a iv) ->
    (forall x, In x (var_args o a) -> tay (S n) (Y x) (V x)) ->
    (forall rs, In rs ls -> locally 0%R (fun t => sat_sub (b:=b) INR P (fun v _ => Y v t) (fst rs) (snd rs) 0)) ->
    num_res o <= iv + 1 ->
    List.Forall (fun rs => sub_reg dis nan P (snd rs) Y) ls.
  Proof.
    intros E R RE HT HV Hiv. unfold ins_reg in R. unfold erf_ok in RE. cbn [i_op i_arg i_var] in *.
    assert (forall x, In x (var_args o a) -> exists x', D1 (Y x) x') as HD.
    { intros x Hx. destruct (tay_D1 _ _ _ (HT x Hx)) as (x' & Q & _). eauto. }
    destruct o; cbn in E; try discriminate; injection E as <-; cbn [num_res] in Hiv; cbn [var_args] in HD.
    all: try (constructor; [cbn [snd sub_reg]; auto|constructor]; fail).
    - (* erf *) destruct RE as [RE1 RE2].
      do 4 (constructor; [exact I|]). constructor; [|constructor]. cbn [snd sub_reg].
      pose proof (HV _ (or_introl eq_refl)) as K1.
      pose proof (HV _ (or_intror (or_introl eq_refl))) as K2.
      pose proof (HV _ (or_intror (or_intror (or_introl eq_refl)))) as K3.
      pose proof (HV _ (or_intror (or_intror (or_intror (or_introl eq_refl))))) as K4.
      generalize (filter_and _ _ (filter_and _ _ K1 K2) (filter_and _ _ K3 K4)). apply filter_imp.
      intros t [[A1 A2] [A3 A4]]. specialize (A1 0%nat (le_n _)). specialize (A2 0%nat (le_n _)).
      specialize (A3 0%nat (le_n _)). specialize (A4 0%nat (le_n _)).
      cbn [fst snd] in *. rewrite Nat.add_0_r in *. cbn in A1, A2, A3, A4. rewrite A4, A3, A2, A1, RE1, RE2.
      unfold Rminus. rewrite !Rplus_0_l. auto.
    - destruct RE as [RE1 RE2].
      do 4 (constructor; [exact I|]). constructor; [|constructor]. cbn [snd sub_reg].
      pose proof (HV _ (or_introl eq_refl)) as K1.
      pose proof (HV _ (or_intror (or_introl eq_refl))) as K2.
      pose proof (HV _ (or_intror (or_intror (or_introl eq_refl)))) as K3.
      pose proof (HV _ (or_intror (or_intror (or_intror (or_introl eq_refl))))) as K4.
      generalize (filter_and _ _ (filter_and _ _ K1 K2) (filter_and _ _ K3 K4)). apply filter_imp.
      intros t [[A1 A2] [A3 A4]]. specialize (A1 0%nat (le_n _)). specialize (A2 0%nat (le_n _)).
      specialize (A3 0%nat (le_n _)). specialize (A4 0%nat (le_n _)).
      cbn [fst snd] in *. rewrite Nat.add_0_r in *. cbn in A1, A2, A3, A4. rewrite A4, A3, A2, A1, RE1, RE2.
      unfold Rminus. rewrite !Rplus_0_l. auto.
    - (* powpv *)
      pose proof (HV _ (or_introl eq_refl)) as K1.
      pose proof (HV _ (or_intror (or_introl eq_refl))) as K2. cbn [fst snd] in *.
      assert (locally 0%R (fun t => Y (iv - 2) t = ln (P (nth 0 a 0)))) as F1.
      { generalize K1. apply filter_imp. intros t A1. specialize (A1 0%nat (le_n _)). rewrite Nat.add_0_r in A1. exact A1. }
      constructor; [exact I|]. constructor; [|constructor; [|constructor]]; cbn [snd sub_reg].
      + unfold frozen. rewrite (locally_singleton _ _ F1). exact F1.
      + generalize (filter_and _ _ F1 K2). apply filter_imp. intros t [A1 A2]. cbn [pgetf]. split; auto.
        specialize (A2 0%nat (le_n _)). rewrite Nat.add_0_r in A2. cbn in A2. rewrite A2, A1. ring.
    - (* powvv *)
      pose proof (HV _ (or_introl eq_refl)) as K1.
      pose proof (HV _ (or_intror (or_introl eq_refl))) as K2. cbn [fst snd] in *.
      assert (locally 0%R (fun t => Y (iv - 2) t = ln (Y (nth 0 a 0) t))) as F1.
      { generalize K1. apply filter_imp. intros t A1. specialize (A1 0%nat (le_n _)). rewrite Nat.add_0_r in A1. exact A1. }
      destruct (HD (nth 0 a 0%nat)) as [x' Dx]; [now left|].
      constructor; [exact R|]. constructor; [exact I|constructor; [|constructor]]; cbn [snd sub_reg].
      generalize (filter_and _ _ (D1_gt _ _ _ Dx R) (filter_and _ _ F1 K2)). apply filter_imp. intros t [A0 [A1 A2]]. cbn [pgetf]. split; auto.
      specialize (A2 0%nat (le_n _)). rewrite Nat.add_0_r in A2. cbn in A2. rewrite A2, A1. ring.
  Qed.

  Lemma tape_tay np n l : forall nv nl Y V L l2v, wfl np nv nl l ->
    List.Forall (fun i => i_op i <> FunrvOp) l -> List.Forall (ld_ok l2v) l ->
    (forall v, 0 < v < nv -> tay n (Y v) (V v)) ->
    (forall i, In i l -> i_op i = InvOp -> tay n (Y (i_var i)) (V (i_var i))) ->
    (forall i, In i l -> locally 0%R (fun t => val_ins (b:=b) INR P (fun v => Y v t) (L t) i)) ->
    (forall v, 0 < v < nv + tres l -> Y v 0%R = V v 0) -> (forall m, nl <= m < nl + nload l -> L 0%R m = l2v m) ->
    (forall j, 1 <= j <= n -> List.Forall (ins_sat (b:=b) INR P V l2v j) l) ->
    (forall i, In i l -> ins_reg Y L i /\ erf_ok i) ->
    forall v, 0 < v < nv + tres l -> tay n (Y v) (V v).
  Proof.
    destruct n as [|n]; [intros; split; auto|].
    induction l as [|i l IH]; intros nv nl Y V L l2v W NF LO H HI HV H0 HL HS HR v Hv.
    - apply H. cbn in Hv. lia.
    - cbn [tres nload] in *. pose proof W as (Hiv & W1 & HC & HLd & HB & W2).
      inversion NF as [|? ? NF1 NF2]; subst. inversion LO as [|? ? LO1 LO2]; subst.
      assert (forall j, 1 <= j <= S n -> ins_sat (b:=b) INR P V l2v j i) as Si by (intros j Hj; specialize (HS j Hj); now inversion HS).
      apply (IH (nv + num_res (i_op i)) (if is_load (i_op i) then S nl else nl) Y V L l2v); auto; try lia.
      + clear v Hv. intros v Hv. pose proof (HV i (or_introl eq_refl)) as Vi. destruct (HR i (or_introl eq_refl)) as [Ri Ei].
        destruct (subs (i_op i) (i_arg i) (i_var i)) as [ls|] eqn:E.
        * destruct (chain_subs np nv nl i ls l W E) as (O & C & CR & N1 & N2). rewrite <- CR in *.
          assert (forall rs, In rs ls -> locally 0%R (fun t => sat_sub (b:=b) INR P (fun v _ => Y v t) (fst rs) (snd rs) 0)) as VS.
          { intros rs Hrs. generalize Vi. apply filter_imp. intros t K. unfold val_ins in K. rewrite E in K.
            unfold sat_subs in K. rewrite Forall_forall in K. now apply K. }
          apply (chain_tay (S n) ls nv Y V O C); auto.
          -- intros w Hw. apply H0. assert (0 < nv) by (apply HB; intros Q; rewrite Q in E; discriminate). lia.
          -- intros j Hj. specialize (Si j Hj). unfold ins_sat in Si. now rewrite E in Si.
          -- destruct i as [o a iv]. cbn [i_op i_arg i_var] in *.
             apply (ins_sub_reg n o a iv ls Y V L E Ri Ei); auto; try lia.
             intros x Hx. apply H. pose proof (wf_arg_range np o a iv x W1 Hx). lia.
        * destruct (Nat.lt_ge_cases v nv) as [Hr|Hr]; [apply H; lia|].
          destruct (is_load (i_op i)) eqn:Ld.
          -- specialize (HLd eq_refl).
             assert (num_res (i_op i) = 1) as NR by (destruct (i_op i); try discriminate; auto).
             assert (v = i_var i) as -> by lia. specialize (LO1 Ld).
             assert (frozen (fun t => L t nl) /\ (L 0%R nl = 0 -> frozen (Y (i_var i)))) as [F1 F2].
             { unfold ins_reg in Ri. destruct (i_op i); try discriminate; rewrite HLd in Ri; exact Ri. }
             assert (L 0%R nl = l2v nl) as EL by (apply HL; lia).
             assert (forall q, q < S n -> V (i_var i) (S q) = if 0 <? l2v nl then V (l2v nl) (S q) else 0%R) as SQ.
             { intros q Hq. specialize (Si (S q) ltac:(lia)). unfold ins_sat in Si. rewrite E, HLd in Si. apply Si; auto. }
             assert (Y (i_var i) 0%R = V (i_var i) 0) as E0 by (apply H0; lia).
             rewrite HLd in LO1.
             destruct (Nat.ltb_spec 0 (l2v nl)) as [Hp|Hp].
             ++ assert (tay (S n) (Y (l2v nl)) (V (l2v nl))) as T by (apply H; lia).
                apply (tay_lin (S n) _ _ _ _ T); auto.
                generalize (filter_and _ _ Vi F1). apply filter_imp. intros t [K KF].
                unfold val_ins in K. rewrite E, HLd in K. specialize (K Ld). cbn zeta in K. rewrite KF, EL in K. now apply K.
             ++ apply (tay_lin (S n) _ _ _ _ (tay_c0 (S n) (Y (i_var i) 0%R))); auto.
                apply F2. lia.
          -- assert (i_op i = InvOp /\ v = i_var i) as [Ho ->].
             { destruct (i_op i) eqn:OP; cbn in E, Ld; try discriminate; cbn [num_res] in *; try lia; try congruence; try (split; [auto|lia]).
               exfalso. apply (proj2 HB); auto. lia. }
             apply HI; auto. now left.
      + intros j Hj. apply HI. now right.
      + intros j Hj. apply HV. now right.
      + intros w Hw. apply H0. lia.
      + intros m Hm. apply HL. destruct (is_load (i_op i)); lia.
      + intros j Hj. specialize (HS j Hj). now inversion HS.
      + intros j Hj. apply HR. now right.
  Qed.
End Tape.
