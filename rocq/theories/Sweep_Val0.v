(** After a zero order sweep every operator satisfies its order zero equation (any Base). *)
From Coq Require Import ZArith List Bool Arith Lia.
From Verif Require Import Base_Spec Op_Model Tape_Spec Tape_Model Tape_Proof Tape_Proof2
  Sweep_Model Sweep_Eqs Sweep_Eqs2 Sweep_Tape Sweep_Uniq.
Import ListNotations.

Section Val0.
  Context {b : base} (TL : taylor_laws b).
  Notation T := (bt b).
  Variable bnat : nat -> T.
  Variable P : nat -> T.

  Definition val_ins (W : nat -> T) (L : nat -> nat) (i : ins) : Prop :=
    match subs (i_op i) (i_arg i) (i_var i) with
    | Some ls => sat_subs bnat P (fun v _ => W v) ls 0
    | None => is_load (i_op i) = true -> let y := L (nth 2 (i_arg i) 0) in
        0 < y -> W (i_var i) = W y
    end.

  (** the order zero equations of the loops of one operator *)
  Lemma chain_val0 ls : forall r (R : nat -> T), subs_ok ls -> chain r ls ->
    let R' := fold_left (fun R rs => put_res R (fst rs) (coef bnat P (snd rs) (fst rs) (fun i _ => R i) 0)) ls R in
    (forall v, v < r \/ r + chain_res ls <= v -> R' v = R v) /\
    sat_subs bnat P (fun v _ => R' v) ls 0.
  Proof.
    intros r R O C R'.
    pose proof (run_subs_spec bnat P 0 0 ls (fun v _ => R v) r O C) as [A B].
    pose proof (chain_fold_row0 bnat P 0 ls (fun v _ => R v) r O C) as E.
    change (row0 (fun v _ => R v)) with R in E.
    set (V' := fold_left (run_sub bnat P 0 0) ls (fun v _ => R v)) in *.
    assert (forall v, R' v = V' v 0) as ER by (intros v; unfold R'; rewrite <- E; reflexivity).
    split.
    - intros v Hv. rewrite ER. apply A. lia.
    - specialize (B 0 ltac:(lia)). unfold sat_subs in *. clearbody R' V'. clear A E. clear TL.
      revert r C. induction ls as [|[r' s] ls IH]; intros r C; constructor; inversion B as [|? ? B1 B2]; subst.
      + cbn [fst snd] in *. intros n Hn. specialize (B1 n Hn). rewrite ER, B1. f_equal.
        inversion O as [|? ? O1 O2]; subst. apply coef_ext; [| |exact O1].
        * intros x Hx k Hk. rewrite ER. replace k with 0 by lia. auto.
        * intros; lia.
      + inversion O as [|? ? O1 O2]; subst. destruct C as (-> & _ & C). eapply (IH O2 B2); eauto.
  Qed.

  Lemma step0_val np nv nl lp cc i k (s t : fst0 b) : wfl np nv nl (i :: lp) ->
    vec_ok nv (f_isv s) (f_idx s) -> step0 P cc i k s = Some t ->
    (forall v, v < nv \/ nv + num_res (i_op i) <= v -> f_V t v = f_V s v) /\
    (i_op i = InvOp -> f_V t = f_V s) /\
    val_ins (f_V t) (f_l2v t) i /\
    (forall m, m <> nl -> f_l2v t m = f_l2v s m).
  Proof.
    intros W VO E. pose proof W as (Hiv & W1 & HC & HL & HB & W2).
    destruct (step0_vec P np nv nl lp cc i k s t W E VO) as (V1 & V2 & V3).
    unfold val_ins. destruct (subs (i_op i) (i_arg i) (i_var i)) as [ls|] eqn:S.
    - destruct (chain_subs np nv nl i ls lp W S) as (O & C & CR & N1 & N2).
      destruct i as [o a iv]. cbn [i_op i_arg i_var] in *.
      destruct (subs_sem0 TL bnat P o a iv ls np (f_V s) S W1 N1) as (res & S0 & LR & F).
      unfold step0 in E. rewrite S0 in E. injection E as <-. cbn [f_V f_l2v]. rewrite LR, <- F.
      destruct (chain_val0 ls nv (f_V s) O C) as [A B]. rewrite CR in A.
      split; [auto|split; [|split; auto]]. intros ->. discriminate.
    - destruct (is_load (i_op i)) eqn:L.
      + specialize (HL eq_refl). specialize (V3 eq_refl). rewrite HL in *. destruct V3 as [V3 V4].
        assert (num_res (i_op i) = 1 /\ 0 < nv) as [NR NV].
        { split; [destruct (i_op i); try discriminate; auto|]. apply HB. destruct (i_op i); discriminate. }
        destruct i as [o a iv]. cbn [i_op i_arg i_var] in *.
        assert (iv = nv) as -> by lia.
        assert (exists (y : nat) (isv : bool), (isv = true -> y < nv) /\ f_V t = fset (f_V s) nv (if isv then f_V s y else P y) /\
                  f_l2v t = fset (f_l2v s) nl (if isv then y else 0)) as (y & isv & Y1 & Y2 & Y3).
        { unfold step0 in E. destruct o; try discriminate; cbn [sem0 cmp_change] in E;
            (destruct (index_of _ _) as [j|]; [|discriminate]); injection E as <-; cbn [f_V f_l2v]; rewrite HL;
            eexists; eexists; (split; [|split; reflexivity]); intros Q; apply VO in Q; lia. }
        rewrite Y2, Y3. split; [|split; [|split]].
        * intros v Hv. rewrite fset_ne; auto. lia.
        * intros ->. discriminate.
        * intros _. cbn zeta. rewrite !fset_eq. destruct isv; [|lia]. intros Hy. rewrite fset_ne; auto. specialize (Y1 eq_refl). lia.
        * intros m Hm. now rewrite fset_ne.
      + destruct (step0_none_V P cc i k s t S L E) as [-> ->]. repeat split; auto. discriminate.
  Qed.

  Lemma val_ins_ext np nv nl i lp (W W' : nat -> T) (L L' : nat -> nat) : wfl np nv nl (i :: lp) ->
    (forall v, 0 < v < nv + num_res (i_op i) -> W' v = W v) -> (is_load (i_op i) = true -> L' nl = L nl) ->
    ld_ok L i -> val_ins W L i -> val_ins W' L' i.
  Proof.
    intros Wf E EL LD. pose proof Wf as (Hiv & W1 & HC & HL & HB & W2). unfold val_ins.
    destruct (subs (i_op i) (i_arg i) (i_var i)) as [ls|] eqn:S.
    - destruct (chain_subs np nv nl i ls lp Wf S) as (O & C & CR & N1 & N2).
      assert (0 < nv) as N0 by (apply HB; intros Q; rewrite Q in S; discriminate).
      rewrite <- CR in E. clear - O C E N0. unfold sat_subs. intros B. revert E N0. generalize nv C. clear C nv.
      induction ls as [|[r s] ls IH]; intros nv C E N0; constructor; inversion B as [|? ? B1 B2]; subst.
      + cbn [fst snd chain_res] in *. destruct C as (-> & A & C). inversion O as [|? ? O1 O2]; subst.
        intros m Hm. rewrite E by lia. rewrite B1 by auto. f_equal. apply coef_ext; auto.
        * intros x Hx k _. rewrite Forall_forall in A. symmetry. apply E. specialize (A x Hx). lia.
        * intros; lia.
      + inversion O as [|? ? O1 O2]; subst. destruct C as (-> & A & C). cbn [chain_res] in E.
        apply (IH O2 B2 (nv + sub_res s)); auto. 2: lia. intros; apply E; lia.
    - intros H Ld. specialize (H Ld). specialize (HL Ld). specialize (LD Ld). rewrite HL in *. cbn zeta in *. rewrite EL by auto.
      assert (num_res (i_op i) = 1) as NR by (destruct (i_op i); try discriminate; auto).
      intros Hy. rewrite !E by lia. auto.
  Qed.

  Lemma val_list_ext np l : forall nv nl (W W' : nat -> T) (L L' : nat -> nat), wfl np nv nl l ->
    (forall v, 0 < v < nv + tres l -> W' v = W v) -> (forall m, nl <= m < nl + nload l -> L' m = L m) ->
    Forall (ld_ok L) l -> Forall (val_ins W L) l -> Forall (val_ins W' L') l.
  Proof.
    induction l as [|i l IH]; intros nv nl W W' L L' Wf E EL LD H; [constructor|].
    apply Forall_cons_iff in LD as [L1 L2]. apply Forall_cons_iff in H as [H1 H2]. cbn [tres nload] in *. constructor.
    - apply (val_ins_ext np nv nl i l W W' L L' Wf); auto.
      + intros; apply E; lia.
      + intros Ld. apply EL. rewrite Ld. lia.
    - pose proof Wf as (_ & _ & _ & _ & _ & W2). apply (IH _ _ W W' L L' W2); auto.
      + intros; apply E; lia.
      + intros m Hm. apply EL. destruct (is_load (i_op i)); lia.
  Qed.

  Lemma sweep0_val np cc l : forall nv nl k (s t : fst0 b), wfl np nv nl l ->
    (forall j, f_skip s j = false) -> vec_ok nv (f_isv s) (f_idx s) -> sweep0 P cc l k s = Some t ->
    (forall v, v < nv -> f_V t v = f_V s v) /\
    (forall m, m < nl -> f_l2v t m = f_l2v s m) /\
    (forall i, In i l -> i_op i = InvOp -> f_V t (i_var i) = f_V s (i_var i)) /\
    Forall (val_ins (f_V t) (f_l2v t)) l /\ Forall (ld_ok (f_l2v t)) l.
  Proof.
    induction l as [|i l IH]; intros nv nl k s t W HS VO H; cbn [sweep0] in H.
    - injection H as <-. split; [auto|split; [auto|split; [intros ? []|auto]]].
    - rewrite HS in H. destruct (step0 P cc i k s) as [s1|] eqn:S1; [|discriminate].
      pose proof W as (Hiv & W1 & HC & HL & HB & W2).
      destruct (step0_vec P np nv nl l cc i k s s1 W S1 VO) as (V1 & V2 & V3).
      destruct (step0_val np nv nl l cc i k s s1 W VO S1) as (A1 & A2 & A3 & A4).
      destruct (IH (nv + num_res (i_op i)) (if is_load (i_op i) then S nl else nl) (S k) s1 t) as (B1 & B2 & B3 & B4 & B5); auto.
      { intros j. rewrite V2. auto. }
      assert (ld_ok (f_l2v s1) i) as LD.
      { intros Ld. destruct (V3 Ld) as [Q _].
        assert (num_res (i_op i) = 1) as NR by (destruct (i_op i); try discriminate; auto). lia. }
      assert (is_load (i_op i) = true -> f_l2v t nl = f_l2v s1 nl) as EL.
      { intros Ld. apply B2. rewrite Ld. lia. }
      split; [|split; [|split; [|split]]].
      + intros v Hv. rewrite B1 by lia. apply A1. lia.
      + intros m Hm. rewrite B2 by (destruct (is_load (i_op i)); lia). apply A4. lia.
      + intros j [<-|Hj] Ho.
        * rewrite B1 by (rewrite Ho in *; cbn in *; lia). now rewrite A2.
        * rewrite B3 by auto.
          assert (forall l nv nl i, wfl np nv nl l -> In i l -> nv <= i_var i + 1 - num_res (i_op i)) as WG.
          { clear. induction l as [|j l IH]; intros nv nl i W []; destruct W as (Hv & _ & _ & _ & _ & W).
            - subst. lia.
            - specialize (IH _ _ _ W H). lia. }
          apply A1. right. specialize (WG _ _ _ j W2 Hj). rewrite Ho in WG. cbn in WG. lia.
      + constructor; auto. refine (val_ins_ext np nv nl i l (f_V s1) (f_V t) (f_l2v s1) (f_l2v t) W _ EL LD A3). intros; apply B1; lia.
      + constructor; auto. intros Ld. specialize (LD Ld). rewrite HL in * by auto. now rewrite EL.
  Qed.
End Val0.
