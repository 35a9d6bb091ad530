(** C32: a zero weight does not contaminate the derivatives, whatever the Taylor coefficients
    (nan, infinity) of the components with zero weight. *)
From Coq Require Import ZArith List Bool Arith Lia FunctionalExtensionality.
From Verif Require Import Base_Spec Op_Model Tape_Spec Tape_Model Tape_Proof Tape_Proof2 Tape_Proof10 Tape_Hist Tape_Prop Sweep_Model Sweep_Eqs Sweep_Eqs2 Sweep_Tape Sweep_Uniq Sweep_RevExt Sweep_Val0 Tape_Swf
  Drv_Spec Drv_Model Drv_Proof Drv_Proof2 Drv_Proof3 Drv_Proof4 Drv_Prop Rev_Zero Sub_Spec Sub_Model Sub_Proof Sub_Proof4 Sub_Tape Spar_Proof3.
Import ListNotations.

(** *** coefficients on a set of variables that is closed under the operators *)
Section On.
  Context {b : base}.
  Notation T := (bt b).
  Variable bnat : nat -> T.
  Variable P : nat -> T.
  Notation pa := (nat -> nat -> T).

  Lemma chain_unique_on q ls : forall r (V V' : pa), subs_ok ls -> chain r ls ->
    (forall rs x, In rs ls -> In x (sub_args (snd rs)) -> x < r -> forall k, k <= q -> V x k = V' x k) ->
    (forall j, j <= q -> sat_subs bnat P V ls j) -> (forall j, j <= q -> sat_subs bnat P V' ls j) ->
    forall v k, r <= v < r + chain_res ls -> k <= q -> V v k = V' v k.
  Proof.
    induction ls as [|[r' s] ls IH]; intros r V V' O C HA S S' v k Hv Hk; cbn [chain_res] in Hv; [lia|].
    destruct C as (-> & A & C). inversion O as [|? ? O1 O2]; subst. cbn [snd] in *.
    assert (forall n k, n < sub_res s -> k <= q -> V (r + n) k = V' (r + n) k) as K.
    { clear v k Hv Hk. intros n k. revert n. induction k as [k IHk] using lt_wf_ind. intros n Hn Hk.
      pose proof (S k Hk) as Sk. pose proof (S' k Hk) as Sk'. inversion Sk as [|? ? Sk1 _]. inversion Sk' as [|? ? Sk1' _]. subst. cbn [fst snd] in *.
      rewrite (Sk1 n Hn), (Sk1' n Hn). f_equal. apply coef_ext; [| |exact O1].
      - intros x Hx i Hi. rewrite Forall_forall in A. pose proof (A x Hx). apply (HA (r, s)); auto; try lia. now left.
      - intros n' Hn' i Hi. apply IHk; lia. }
    destruct (Nat.lt_ge_cases v (r + sub_res s)) as [Lv|Lv].
    - replace v with (r + (v - r)) by lia. apply K; lia.
    - apply (IH (r + sub_res s) V V'); auto; try lia.
      + intros rs x Hr Hx Lx i Hi. destruct (Nat.lt_ge_cases x r); [apply (HA rs); auto; now right|].
        replace x with (r + (x - r)) by lia. apply K; lia.
      + intros j Hj. specialize (S j Hj). now inversion S.
      + intros j Hj. specialize (S' j Hj). now inversion S'.
  Qed.

  (** [W]: a set of variables; with a result of an operator it contains all its results and arguments *)
  Definition cl_on (W : nat -> Prop) (nv : nat) (i : ins) : Prop :=
    forall v, nv <= v < nv + num_res (i_op i) -> W v ->
      (forall x, In x (var_args (i_op i) (i_arg i)) -> W x) /\ (forall v', nv <= v' < nv + num_res (i_op i) -> W v').
  Fixpoint clo (W : nat -> Prop) (nv : nat) (l : list ins) : Prop :=
    match l with [] => True | i :: l' => cl_on W nv i /\ clo W (nv + num_res (i_op i)) l' end.

  Lemma tape_unique_on (W : nat -> Prop) np q l : forall nv nl (V V' : pa) (lv lv' : nat -> nat),
    wfl np nv nl l -> Forall (fun i => i_op i <> FunrvOp) l -> Forall (fun i => is_load (i_op i) = false) l -> clo W nv l ->
    (forall v k, 0 < v < nv -> W v -> k <= q -> V v k = V' v k) ->
    (forall i k, In i l -> i_op i = InvOp -> W (i_var i) -> k <= q -> V (i_var i) k = V' (i_var i) k) ->
    Forall (val_ins bnat P (fun v => V v 0) lv) l -> Forall (val_ins bnat P (fun v => V' v 0) lv') l ->
    (forall j, 1 <= j <= q -> Forall (ins_sat bnat P V lv j) l) ->
    (forall j, 1 <= j <= q -> Forall (ins_sat bnat P V' lv' j) l) ->
    forall v k, 0 < v < nv + tres l -> W v -> k <= q -> V v k = V' v k.
  Proof.
    induction l as [|i l IH]; intros nv nl V V' lv lv' Wf NF NL CL H HI Z Z' S S' v k Hv Wv Hk.
    { apply H; auto. cbn in Hv. lia. }
    cbn [tres] in *. pose proof Wf as (Hiv & W1 & HC & HL & HB & W2). destruct CL as [CL1 CL2].
    apply Forall_cons_iff in NF as [NF1 NF2]. apply Forall_cons_iff in NL as [NL1 NL2].
    apply Forall_cons_iff in Z as [Z1 Z2]. apply Forall_cons_iff in Z' as [Z1' Z2'].
    assert (forall j, 1 <= j <= q -> ins_sat bnat P V lv j i) as Si by (intros j Hj; specialize (S j Hj); now inversion S).
    assert (forall j, 1 <= j <= q -> ins_sat bnat P V' lv' j i) as Si' by (intros j Hj; specialize (S' j Hj); now inversion S').
    assert (forall v k, nv <= v < nv + num_res (i_op i) -> 0 < v -> W v -> k <= q -> V v k = V' v k) as K.
    { clear v k Hv Wv Hk. intros v k Hv Pv Wv Hk. destruct (CL1 v Hv Wv) as [CA CR].
      destruct (subs (i_op i) (i_arg i) (i_var i)) as [ls|] eqn:E.
      - destruct (chain_subs np nv nl i ls l Wf E) as (O & C & CRS & N1 & N2).
        assert (forall (V : pa) lv, val_ins bnat P (fun v => V v 0) lv i -> (forall j, 1 <= j <= q -> ins_sat bnat P V lv j i) -> forall j, j <= q -> sat_subs bnat P V ls j) as ALL.
        { clear - E O. intros V lv Z S j Hj. destruct j as [|j].
          - unfold val_ins in Z. rewrite E in Z. unfold sat_subs, subs_ok in *. rewrite Forall_forall in Z, O. apply Forall_forall. intros [r s] Hin. specialize (Z _ Hin). specialize (O _ Hin). cbn [fst snd] in *. unfold sat_sub in *.
            intros n Hn. rewrite (Z n Hn). f_equal. apply coef_ext; [| |exact O]; intros; try lia. assert (k = 0) by lia. now subst.
          - specialize (S (Datatypes.S j) ltac:(lia)). unfold ins_sat in S. now rewrite E in S. }
        apply (chain_unique_on q ls nv V V' O C); auto; try lia.
        + intros rs x Hr Hx Lx i' Hi'. assert (0 < x) as Px.
          { assert (0 < nv) as P0 by (apply HB; intros Q; rewrite Q in E; discriminate).
            clear - C Hr Hx P0. revert nv C P0. induction ls as [|[r' s'] ls IH]; intros nv C P0; [destruct Hr|]. destruct C as (-> & A & C). destruct Hr as [<-|Hr].
            - cbn [snd] in Hx. rewrite Forall_forall in A. apply A in Hx. lia.
            - eapply IH; eauto. lia. }
          apply H; auto. apply CA. eapply subs_vargs0; eauto; lia.
        + eauto.
        + eauto.
      - destruct (i_op i) eqn:OP; cbn in E, NL1; try discriminate; cbn [num_res] in *; try lia; try congruence.
        + exfalso. apply (proj2 HB); auto. lia.
        + assert (v = i_var i) as -> by lia. apply HI; auto. now left. }
    refine (IH (nv + num_res (i_op i)) (if is_load (i_op i) then Datatypes.S nl else nl) V V' lv lv' W2 NF2 NL2 CL2 _ _ Z2 Z2' _ _ v k _ Wv Hk); try lia.
    - intros v' k' Hv' Wv' Hk'. destruct (Nat.lt_ge_cases v' nv); [apply H; auto; lia|apply K; auto; lia].
    - intros i' k' Hin. apply HI. now right.
    - intros j Hj. specialize (S j Hj). now inversion S.
    - intros j Hj. specialize (S' j Hj). now inversion S'.
  Qed.
End On.

Section RevOn.
  Context {b : base}.
  Notation T := (bt b).
  Variable bnat : nat -> T.
  Variable P : nat -> T.
  Variable ZL : zero_laws b bnat.
  Notation pa := (nat -> nat -> T).

  Lemma rev_step_ext_on np nv nl lp i (V V' : pa) (lv lv' : nat -> nat) d p :
    wfl np nv nl (i :: lp) -> is_load (i_op i) = false ->
    (forall x k, In x (var_args (i_op i) (i_arg i)) -> k <= d -> V x k = V' x k) ->
    (forall v k, nv <= v < nv + num_res (i_op i) -> k <= d -> V v k = V' v k) ->
    rev_step bnat P V lv d i p = rev_step bnat P V' lv' d i p.
  Proof.
    intros W NL HA HR. destruct i as [o a iv]. unfold rev_step. cbn [i_op i_arg i_var] in *.
    destruct (subs o a iv) as [l|] eqn:E.
    - destruct (chain_subs np nv nl (mkIns o a iv) l lp W E) as (O & C & CR & N1 & N2). cbn [i_op i_var] in *.
      assert (forall p, fold_left (fun p rs => rev_sub bnat P (snd rs) (fst rs) V d p) (rev l) p =
                fold_left (fun p rs => rev_sub bnat P (snd rs) (fst rs) V' d p) (rev l) p) as K.
      { intros p0. apply fold_ext. intros q rs Hin. apply in_rev in Hin. destruct (chain_in _ _ _ C Hin) as [I1 I2].
        apply rev_sub_ext.
        - intros x Hx k Hk. destruct (Nat.lt_ge_cases x nv) as [Lx|Lx].
          + apply HA; auto. eapply subs_vargs0; eauto; lia.
          + apply HR; auto. pose proof (chain_args _ _ _ _ C Hin Hx). lia.
        - intros n Hn k Hk. apply HR; auto. lia. }
      destruct o; auto; rewrite K; auto.
    - destruct o; auto; discriminate.
  Qed.
  (** a load with zero adjoint *)
  Lemma rev_step_zero2 np nv nl i lp V l2v d (p : pa) : wfl np nv nl (i :: lp) -> pow_ins V i ->
    (forall v j, nv <= v < nv + num_res (i_op i) -> j <= d -> p v j = b0) -> rev_step bnat P V l2v d i p = p.
  Proof.
    intros W PI HZ. destruct (is_load (i_op i)) eqn:L; [|eapply rev_step_zero; eauto].
    pose proof W as (Hiv & _). destruct i as [o a iv]. cbn [i_op i_arg i_var] in *. unfold rev_step.
    destruct o; try discriminate L; cbn [subs]; cbn [num_res] in *; cbn zeta;
      (destruct (0 <? l2v (nth 2 a 0)); [|reflexivity]);
      (apply down0_id; intros k Hk; apply (padd_id bnat ZL); apply HZ; lia).
  Qed.

  Lemma sweep_rev_on (W : nat -> Prop) np d (V V' : pa) (lv lv' : nat -> nat) sk (l : list ins) :
    forall nv nl k (p : pa), wfl np nv nl l -> Forall (fun i => is_load (i_op i) = false) l -> clo W nv l ->
    (forall i v, In i l -> i_var i + 1 - num_res (i_op i) <= v <= i_var i -> 0 < num_res (i_op i) -> W v \/ ~ W v) ->
    (forall v j, 0 < v < nv + tres l -> W v -> j <= d -> V v j = V' v j) ->
    (forall i, In i l -> pow_ins V i) -> (forall i, In i l -> pow_ins V' i) ->
    (forall v j, ~ W v -> j <= d -> p v j = b0) ->
    sweep_rev bnat P V lv sk d l k p = sweep_rev bnat P V' lv' sk d l k p /\
    (forall v j, ~ W v -> j <= d -> sweep_rev bnat P V lv sk d l k p v j = b0).
  Proof.
    induction l as [|i l IH]; intros nv nl k p Wf NL CL DC H PW PW' HZ; cbn [sweep_rev]; [auto|].
    cbn [tres] in H. pose proof Wf as (Hiv & W1 & HC & HL & HB & W2). destruct CL as [CL1 CL2]. apply Forall_cons_iff in NL as [NL1 NL2].
    destruct (IH (nv + num_res (i_op i)) _ (S k) p W2 NL2 CL2) as [A Z]; auto.
    { intros; eapply DC; eauto. now right. }
    { intros; apply H; auto. lia. }
    { intros; apply PW. now right. }
    { intros; apply PW'. now right. }
    rewrite <- A. destruct (sk k); [auto|]. set (p1 := sweep_rev bnat P V lv sk d l (S k) p) in *.
    assert (num_res (i_op i) = 0 \/ 0 < num_res (i_op i)) as [N0|N0] by lia.
    - rewrite (rev_step_zero2 np nv nl i l V lv d p1 Wf), (rev_step_zero2 np nv nl i l V' lv' d p1 Wf); auto; try (apply PW; now left); try (apply PW'; now left); intros; lia.
    - destruct (DC i (i_var i) (or_introl eq_refl) ltac:(lia) N0) as [Wi|Wi].
      + destruct (CL1 (i_var i) ltac:(lia) Wi) as [CA CR].
        assert (rev_step bnat P V lv d i p1 = rev_step bnat P V' lv' d i p1) as EQ.
        { destruct (Nat.eq_dec nv 0) as [->|Pn].
          - (* BeginOp *) assert (i_op i = BeginOp) as OB by (destruct (opvar_eq_dec (i_op i) BeginOp); auto; exfalso; apply HB in n; lia).
            destruct i as [o a iv]. cbn [i_op] in OB. subst o. reflexivity.
          - apply (rev_step_ext_on np nv nl l i V V' lv lv' d p1 Wf NL1).
            + intros x j Hx Hj. apply H; auto. unfold wf_ins in W1. destruct W1 as [W1 _]. rewrite Forall_forall in W1. apply W1 in Hx. lia.
            + intros v j Hv Hj. apply H; auto. lia. }
        split; auto. intros v j Nv Hj.
        rewrite (rev_step_keeps bnat P (fun v => ~ W v) np nv nl i l V lv d p1 Wf NL1); auto.
      + assert (forall v j, nv <= v < nv + num_res (i_op i) -> j <= d -> p1 v j = b0) as Z1.
        { intros v j Hv Hj. apply Z; auto. intros Wv. apply Wi. apply (CL1 v Hv Wv). lia. }
        rewrite (rev_step_zero2 np nv nl i l V lv d p1 Wf), (rev_step_zero2 np nv nl i l V' lv' d p1 Wf); auto; try (apply PW; now left); try (apply PW'; now left).
  Qed.
  Lemma sweep_rev_zero np d (V : pa) lv sk (l : list ins) : forall nv nl k (p : pa), wfl np nv nl l ->
    (forall i, In i l -> pow_ins V i) -> (forall v j, j <= d -> p v j = b0) -> sweep_rev bnat P V lv sk d l k p = p.
  Proof.
    induction l as [|i l IH]; intros nv nl k p Wf PW HZ; cbn [sweep_rev]; [auto|].
    pose proof Wf as (Hiv & W1 & HC & HL & HB & W2). rewrite (IH _ _ (S k) p W2); auto; [|intros; apply PW; now right].
    destruct (sk k); auto. eapply rev_step_zero2; eauto. apply PW. now left.
  Qed.
End RevOn.

Section Set_.
  Context (np n : nat) (l : list ins) (dep : list nat).
  Hypothesis TK : tape_ok np n l dep.
  Lemma list_dec {A} (Q : A -> Prop) (t : list A) : (forall x, In x t -> Q x \/ ~ Q x) -> (exists x, In x t /\ Q x) \/ ~ (exists x, In x t /\ Q x).
  Proof.
    induction t as [|x t IH]; intros D; [right; intros (x & [] & _)|]. destruct (D x (or_introl eq_refl)) as [H|H]; [left; exists x; split; [now left|auto]|].
    destruct IH as [(y & Hy & K)|N]; [intros; apply D; now right|left; exists y; split; [now right|auto]|].
    right. intros (y & [<-|Hy] & K); [auto|]. apply N. eauto.
  Qed.
  Lemma uses_dec w : forall v, uses l v w \/ ~ uses l v w.
  Proof.
    intros v. induction v as [v IH] using lt_wf_ind. destruct (Nat.eq_dec v w) as [->|NE]; [left; constructor|].
    destruct (var2op l 0 v) as [k|] eqn:E.
    - apply (var2op_iff _ _ _ _ TK) in E as (i & E & N & V).
      destruct (list_dec (fun x => uses l x w) (var_args (i_op i) (i_arg i))) as [(x & Hx & U)|NU].
      + intros x Hx. apply IH. destruct (wfl_at np l 0 0 k i (k_wfl _ _ _ _ TK) E) as (lp & nl' & Hv & (WA & _) & _). rewrite Forall_forall in WA. apply WA in Hx. lia.
      + left. rewrite <- V. econstructor; eauto. eapply nth_error_In; eauto.
      + right. intros U. destruct (uses_inv _ _ _ _ TK _ _ U k i E N V) as [->|(x & Hx & Ux)]; [auto|]. apply NU. eauto.
    - right. intros U. inversion U as [|i x w' Hi N Hx U']; subst; [auto|]. apply In_nth_error in Hi as (k & Ek).
      rewrite (proj2 (var2op_iff _ _ _ _ TK (i_var i) k)) in E; [discriminate|eauto].
  Qed.

  (** the variables (including auxiliary results) of the operators from which the components in [I] are computed *)
  Variable I : nat -> bool.
  Definition Iop (i : ins) : Prop := exists c, c < length dep /\ I c = true /\ uses l (nth c dep 0) (i_var i).
  Definition Ivar (v : nat) : Prop := exists k i, nth_error l k = Some i /\ isop l v k /\ Iop i.
  Lemma Iop_dec i : Iop i \/ ~ Iop i.
  Proof.
    destruct (list_dec (fun c => I c = true /\ uses l (nth c dep 0) (i_var i)) (seq 0 (length dep))) as [(c & Hc & H)|N].
    - intros c _. destruct (I c); [|right; intros [? _]; discriminate]. destruct (uses_dec (i_var i) (nth c dep 0)); [left; auto|right; tauto].
    - left. apply in_seq in Hc. exists c. intuition lia.
    - right. intros (c & Hc & H). apply N. exists c. split; auto. apply in_seq. lia.
  Qed.
  Lemma Ivar_op k i v : nth_error l k = Some i -> isop l v k -> (Ivar v <-> Iop i).
  Proof.
    intros E Iv. split.
    - intros (k' & i' & E' & Iv' & H). assert (k' = k) by (eapply isop_inj; eauto). subst k'. assert (i' = i) by congruence. now subst.
    - intros H. exists k, i. auto.
  Qed.
  Lemma Ivar_clo : clo Ivar 0 l.
  Proof.
    assert (forall suf pre, l = pre ++ suf -> clo Ivar (tres pre) suf) as K; [|exact (K l [] eq_refl)].
    induction suf as [|i suf IH]; intros pre El; cbn [clo]; auto. split.
    - assert (nth_error l (length pre) = Some i) as E by (rewrite El, nth_error_app2, Nat.sub_diag by lia; reflexivity).
      assert (vstart l (length pre) = tres pre) as VS.
      { unfold vstart. rewrite El, firstn_app, Nat.sub_diag, firstn_all. cbn [firstn]. now rewrite app_nil_r. }
      intros v Hv Iv. assert (isop l v (length pre)) as Ov by (exists i; rewrite VS; auto). apply (Ivar_op _ _ _ E Ov) in Iv.
      assert (0 < num_res (i_op i)) as N by lia. split.
      + intros x Hx. destruct (k_arg _ _ _ _ TK _ _ _ E N Hx) as (k' & Hk & V'). pose proof (isop_var2op _ _ _ _ TK _ _ V') as Ix.
        apply (var2op_iff _ _ _ _ TK) in V' as (i' & E' & N' & <-). exists k', i'. split; auto. split; auto.
        destruct Iv as (c & Hc & Ic & U). exists c. repeat split; auto. eapply uses_trans; [exact U|]. econstructor; eauto; [eapply nth_error_In; eauto|constructor].
      + intros v' Hv'. apply (Ivar_op _ _ v' E); auto. exists i. rewrite VS. auto.
    - replace (tres pre + num_res (i_op i)) with (tres (pre ++ [i])) by (rewrite tres_app; cbn [tres]; lia).
      apply IH. now rewrite <- app_assoc.
  Qed.
  Lemma Ivar_dep c : c < length dep -> I c = true -> Ivar (nth c dep 0).
  Proof.
    intros Hc Ic. destruct (k_dep _ _ _ _ TK c Hc) as (k & V). pose proof (isop_var2op _ _ _ _ TK _ _ V) as Ix.
    apply (var2op_iff _ _ _ _ TK) in V as (i & E & N & V). exists k, i. split; auto. split; auto. exists c. rewrite V. repeat split; auto. constructor.
  Qed.
  Lemma Ivar_ind j : j < n -> Ivar (S j) -> exists c, c < length dep /\ I c = true /\ uses l (nth c dep 0) (S j).
  Proof.
    intros Hj Iv. pose proof (k_inv2 _ _ _ _ TK j Hj) as E. destruct (proj1 (Ivar_op (S j) _ (S j) E ltac:(
      eexists; split; [exact E|]; cbn; pose proof (ivar _ _ _ _ TK _ _ E) as V; cbn in V; lia)) Iv) as (c & H). exists c. exact H.
  Qed.
End Set_.

Section Prop32.
  Context {b : base} (L : base_laws b) (TL : taylor_laws b).
  Notation T := (bt b).
  Variable bnat : nat -> T.
  Variable junk : nat -> T.
  Variable ZL : zero_laws b bnat.
  Context (tid : nat) (cmp : bool) (n np : nat) (e : nat -> AD b) (ev : nat -> VecAD b) (p : prog T) (V0 : nat -> T) (l0 : nat -> nat) (f : adfun b).
  Hypothesis REC : recorded tid cmp n np e ev p V0 l0 f.
  Hypothesis POS : 0 < n.
  Variable l : list ins.
  Hypothesis OPS : decode (r_op (g_rec f)) (r_arg (g_rec f)) 0 = Some l.
  Notation pa := (nat -> nat -> T).

  (** Reverse with weights that are all zero returns zeros, whatever the Taylor coefficients are *)
  Theorem zero_weights_give_zero : forall h g q w z g', drun bnat junk (drv_of junk f) h = Some g ->
    Forall (fun x => x = b0) w -> (forall i, In i l -> pow_ins (view1 g') i) ->
    reverse bnat junk g q w = Some (z, g') -> Forall (fun x => x = b0) z.
  Proof.
    intros h g q w z g' RUN WZ PW R. destruct (drun_book bnat junk h (drv_of junk f) g (Nat.le_refl 0) RUN) as (_ & _ & RE). cbn in RE.
    pose proof (proj1 (recorded_rtape L _ _ _ _ _ _ _ _ _ _ REC)) as RT.
    assert (l = head_ins n ++ body n (g_rec f)) as El by (pose proof (t_dec _ _ _ _ RT); congruence).
    pose proof (t_all _ _ _ _ RT) as WF. rewrite <- El in WF.
    assert (forall i, nth i w b0 = b0) as WN.
    { intros i. destruct (Nat.lt_ge_cases i (length w)); [|now apply nth_overflow]. rewrite Forall_forall in WZ. apply WZ. now apply nth_In. }
    unfold reverse in R. do 3 (destruct (negb _); [discriminate|]).
    destruct (if (q =? 1) && (1 <? d_dir g) then _ else _) as [f1|]; [|discriminate]. destruct (negb _); [discriminate|].
    rewrite RE, OPS in R. injection R as <- <-. apply Forall_forall. intros x Hx. apply in_flat_map in Hx as (j & _ & Hx). apply in_map_iff in Hx as (k & <- & Hk). apply in_seq in Hk.
    match goal with |- context [sweep_rev bnat _ _ _ _ _ l 0 ?u] => set (p1 := u) end.
    assert (p1 = fun _ _ => b0) as ->.
    { unfold p1. destruct (length w =? _); apply fold_id; intros i _; [apply (padd_id bnat ZL); auto|].
      apply fold_id. intros; apply (padd_id bnat ZL); auto. }
    rewrite (sweep_rev_zero bnat (d_par g) ZL (length (r_par (g_rec f))) (q - 1) (view1 f1) _ _ l 0 0 0 _ WF); auto.
    destruct (_ =? _); reflexivity.
  Qed.

  (** Reverse does not depend on the components with zero weight: let [I] contain the components
      with a non-zero weight.  Two histories that gave the same coefficients to the independent
      variables from which the components in [I] are computed lead to the same result, whatever
      the other components are (for instance nan or infinity) *)
  Theorem reverse_ignores_zero_weight : forall h1 g1 h2 g2 q w I z g1',
    (forall i, In i l -> is_load (i_op i) = false) ->
    one_direction h1 -> drun bnat junk (drv_of junk f) h1 = Some g1 ->
    one_direction h2 -> drun bnat junk (drv_of junk f) h2 = Some g2 ->
    dynamics h1 = dynamics h2 -> q <= d_ord g2 ->
    (forall i, In i l -> pow_ins (view1 g1) i) -> (forall i, In i l -> pow_ins (view1 g2) i) ->
    (forall c k, c < length (g_dep f) -> k < q -> I c = false ->
       nth (if length w =? length (g_dep f) then c else c * q + k) w b0 = b0) ->
    (forall c j k, c < length (g_dep f) -> I c = true -> j < g_n f -> uses l (nth c (g_dep f) 0) (S j) -> k < q ->
       nth j (given b0 (g_n f) h1 k) b0 = nth j (given b0 (g_n f) h2 k) b0) ->
    reverse bnat junk g1 q w = Some (z, g1') ->
    exists g2', reverse bnat junk g2 q w = Some (z, g2').
  Proof.
    intros h1 g1 h2 g2 q w I z g1' NL OD1 R1 OD2 R2 ED Q2 PW1 PW2 HW HX R.
    destruct (good_history L TL bnat junk _ _ _ _ _ _ _ _ _ _ REC POS h1 g1 OD1 R1) as (G1 & G2 & G3 & G4 & G5 & G6 & G7 & G8 & G9).
    destruct (good_history L TL bnat junk _ _ _ _ _ _ _ _ _ _ REC POS h2 g2 OD2 R2) as (H1 & H2 & H3 & H4 & H5 & H6 & H7 & H8 & H9).
    rewrite <- ED in *. pose proof (proj1 (recorded_rtape L _ _ _ _ _ _ _ _ _ _ REC)) as RT.
    assert (head_ins n ++ body n (g_rec f) = l) as El by (pose proof (t_dec _ _ _ _ RT); congruence). rewrite El in *.
    destruct (recorded_tape_ok L _ _ _ _ _ _ _ _ _ _ REC) as [_ TK]. rewrite El in TK.
    destruct (dyn_fields (dynamics h1) (drv_of junk f)) as (D1 & D2 & D3 & D4).
    set (g0 := with_dynamics (drv_of junk f) (dynamics h1)) in *. change (d_n (drv_of junk f)) with (g_n f) in D1. change (d_dep (drv_of junk f)) with (g_dep f) in D2.
    assert (d_n g1 = g_n f /\ d_n g2 = g_n f /\ d_dep g1 = g_dep f /\ d_dep g2 = g_dep f) as (N1 & N2 & P1 & P2) by (repeat split; congruence).
    destruct (drun_book bnat junk h1 (drv_of junk f) g1 (Nat.le_refl 0) R1) as (_ & _ & RE1). destruct (drun_book bnat junk h2 (drv_of junk f) g2 (Nat.le_refl 0) R2) as (_ & _ & RE2). cbn in RE1, RE2.
    unfold reverse in R |- *. rewrite N1, P1, RE1, OPS in R. rewrite N2, P2, RE2, OPS.
    destruct (negb (_ || _)); [discriminate|]. destruct (Nat.ltb_spec 0 q) as [Hq|]; [|discriminate]. destruct (Nat.leb_spec q (d_ord g1)) as [Q1|]; [|discriminate].
    destruct (Nat.leb_spec q (d_ord g2)); [|lia]. cbn [negb] in R |- *.
    rewrite (v_dir _ _ _ _ G1) in R by lia. rewrite (v_dir _ _ _ _ H1) by lia. rewrite andb_false_r in R |- *.
    rewrite (v_dir _ _ _ _ G1) in R by lia. rewrite (v_dir _ _ _ _ H1) by lia. cbn [Nat.eqb negb] in R |- *.
    injection R as <- <-. exists g2. do 2 f_equal.
    match goal with |- context [sweep_rev bnat _ _ _ _ _ l 0 ?u] => set (p1 := u) end.
    assert (sweep_rev bnat (d_par g2) (view1 g2) (d_l2v g2) (d_skip g2) (q - 1) l 0 p1 = sweep_rev bnat (d_par g1) (view1 g1) (d_l2v g1) (d_skip g1) (q - 1) l 0 p1) as ->; [|reflexivity].
    replace (d_par g2) with (d_par g1) by congruence.
    replace (d_skip g2) with (d_skip g1).
    2:{ apply functional_extensionality. intros j. now rewrite (v_skip _ _ _ _ G1), (v_skip _ _ _ _ H1). }
    set (W := Ivar l (g_dep f) I).
    pose proof (v_twf _ _ _ _ G1) as TW. rewrite RE1 in TW.
    (* the coefficients *)
    assert (forall v k, 0 < v < tres l -> W v -> k < q -> view1 g1 v k = view1 g2 v k) as AG.
    { assert (forall g X, valid bnat l g X -> d_rec g = g_rec f -> d_n g = g_n f -> 0 < d_ord g ->
        Forall (val_ins bnat (d_par g) (fun v => view1 g v 0) (d_l2v g)) l) as VAL.
      { intros g X VG ER EN HO. destruct (v_st _ _ _ _ VG HO) as [(Va & la & t & A1 & A2 & A3 & A4) A5 A6 A7]. rewrite ER in *.
        destruct (sweep0_val TL bnat (d_par g) _ _ l 0 0 0 (init0 (g_rec f) Va la) t (w_wfl _ _ _ _ TW) (fun _ => eq_refl) ltac:(intros m Hm; discriminate) A1) as (_ & _ & _ & B4 & B5).
        apply (val_list_ext bnat (d_par g) _ l 0 0 (f_V t) _ (f_l2v t) _ (w_wfl _ _ _ _ TW)); auto.
        - intros v Hv. apply A3. rewrite (w_nv _ _ _ _ TW). lia.
        - intros m Hm. apply A4. lia. }
      intros v k Hv Wv Hk.
      refine (tape_unique_on bnat (d_par g1) W (length (r_par (g_rec f))) (q - 1) l 0 0 (view1 g1) (view1 g2) (d_l2v g1) (d_l2v g2) (w_wfl _ _ _ _ TW) (w_nf _ _ _ _ TW) _ (Ivar_clo _ _ _ _ TK I) _ _ _ _ _ _ v k _ Wv _); try lia.
      - apply Forall_forall. exact NL.
      - intros i k' Hi Ho Wi Hk'. pose proof (w_inv2 _ _ _ _ TW i Hi Ho) as Hn. rewrite N1 in Hn.
        replace (i_var i) with (S (i_var i - 1)) in * by lia.
        destruct (Ivar_ind _ _ _ _ TK I (i_var i - 1) ltac:(lia) Wi) as (c & Hc & Ic & U).
        destruct (v_st _ _ _ _ G1 ltac:(lia)) as [_ _ _ IN1]. destruct (v_st _ _ _ _ H1 ltac:(lia)) as [_ _ _ IN2].
        rewrite IN1, IN2 by lia. apply (HX c); auto; lia.
      - apply (VAL g1 _ G1); auto; lia.
      - replace (d_par g1) with (d_par g2) by congruence. apply (VAL g2 _ H1); auto; lia.
      - intros j Hj. destruct (v_st _ _ _ _ G1 ltac:(lia)) as [_ _ S1 _]. apply S1. lia.
      - intros j Hj. replace (d_par g1) with (d_par g2) by congruence. destruct (v_st _ _ _ _ H1 ltac:(lia)) as [_ _ S1 _]. apply S1. lia. }
    symmetry. refine (proj1 (sweep_rev_on bnat (d_par g1) ZL W (length (r_par (g_rec f))) (q - 1) (view1 g1) (view1 g2) (d_l2v g1) (d_l2v g2) (d_skip g1) l 0 0 0 p1 (w_wfl _ _ _ _ TW) _ (Ivar_clo _ _ _ _ TK I) _ _ PW1 PW2 _)).
    - apply Forall_forall. exact NL.
    - intros i v Hi Hv N. apply In_nth_error in Hi as (k & E). assert (isop l v k) as O by (exists i; rewrite (ivar _ _ _ _ TK _ _ E) in Hv; split; auto; lia).
      unfold W. rewrite (Ivar_op l (g_dep f) I k i v E O). apply (Iop_dec _ _ _ _ TK).
    - intros v j Hv Wv Hj. apply AG; auto. lia.
    - (* the seeds *)
      assert (forall (u : pa) c k x, c < length (g_dep f) -> (I c = false -> x = b0) -> (forall v j, ~ W v -> j <= q - 1 -> u v j = b0) ->
        forall v j, ~ W v -> j <= q - 1 -> padd (nth c (g_dep f) 0) k x u v j = b0) as SEED.
      { intros u c k x Hc HI HU v j Nv Hj. unfold padd, pset. destruct (Nat.eqb_spec v (nth c (g_dep f) 0)) as [->|]; cbn [andb]; [|auto].
        destruct (j =? k) eqn:Ejk; [|auto]. apply Nat.eqb_eq in Ejk. subst j. destruct (I c) eqn:Ic; [exfalso; apply Nv; eapply Ivar_dep; eauto|].
        rewrite (HI eq_refl), HU by auto. apply (z_add _ _ ZL). }
      assert (forall (A : Type) (fn : pa -> A -> pa) (t : list A) (u : pa), (forall u x, In x t -> (forall v j, ~ W v -> j <= q - 1 -> u v j = b0) -> forall v j, ~ W v -> j <= q - 1 -> fn u x v j = b0) ->
        (forall v j, ~ W v -> j <= q - 1 -> u v j = b0) -> forall v j, ~ W v -> j <= q - 1 -> fold_left fn t u v j = b0) as FOLD.
      { intros A fn t. induction t as [|x t IH]; intros u HF HU; cbn [fold_left]; auto. apply IH; [intros; apply HF; auto; now right|]. apply HF; auto. now left. }
      unfold p1. destruct (length w =? length (g_dep f)) eqn:LW.
      + apply FOLD; auto. intros u c Hc HU. apply in_seq in Hc. apply SEED; auto; try lia. intros Ic. apply (HW c 0); auto; lia.
      + apply FOLD; auto. intros u c Hc HU. apply in_seq in Hc. apply FOLD; auto. intros u' k Hk HU'. apply in_seq in Hk. apply SEED; auto; try lia.
        intros Ic. apply (HW c k); auto; lia.
  Qed.
End Prop32.
