(** Subgraph calculations: the reverse sweep over the subgraph gives the adjoints of the full sweep. *)
From Coq Require Import ZArith List Bool Arith Lia Sorted Permutation.
From Verif Require Import Base_Spec Op_Model Tape_Spec Tape_Model Tape_Proof2 Sweep_Model Sweep_Eqs Sweep_Eqs2 Sweep_Tape Sweep_Uniq Tape_Swf
  Drv_Model Rev_Zero Sub_Spec Sub_Model Sub_Proof Sub_Proof2.
Import ListNotations.

(** *** sorting *)
Lemma insert_perm x l : Permutation (insert x l) (x :: l).
Proof. induction l as [|y l IH]; cbn [insert]; [auto|]. destruct (x <=? y); [auto|]. rewrite IH. apply perm_swap. Qed.
Lemma sort_perm l : Permutation (sort l) l.
Proof. induction l as [|x l IH]; cbn [sort fold_right]; [auto|]. rewrite insert_perm. auto. Qed.
Lemma insert_sorted x l : StronglySorted le l -> StronglySorted le (insert x l).
Proof.
  induction 1 as [|y l S IH F]; cbn [insert]; [repeat constructor|]. destruct (Nat.leb_spec x y).
  - constructor; [constructor; auto|]. constructor; auto. eapply Forall_impl; [|exact F]. cbn. lia.
  - constructor; auto. apply (Permutation_Forall (Permutation_sym (insert_perm x l))). constructor; [lia|auto].
Qed.
Lemma sort_sorted l : StronglySorted le (sort l).
Proof. induction l; cbn [sort fold_right]; [constructor|]. now apply insert_sorted. Qed.
Lemma sorted_lt l : StronglySorted le l -> NoDup l -> StronglySorted lt l.
Proof.
  induction 1 as [|x l S IH F]; intros ND; [constructor|]. inversion ND; subst. constructor; auto.
  rewrite Forall_forall in *. intros y Hy. specialize (F y Hy). assert (x <> y) by congruence. lia.
Qed.
Lemma take_ind_in n l x : StronglySorted lt l -> (In x (take_ind n l) <-> In x l /\ x <= n).
Proof.
  induction 1 as [|y l S IH F]; cbn [take_ind In]; [tauto|]. rewrite Forall_forall in F. destruct (Nat.ltb_spec n y).
  - split; [intros []|]. intros [[->|H1] H2]; [lia|]. specialize (F x H1). lia.
  - cbn [In]. rewrite IH. split; [intros [->|H1]; intuition lia|intuition].
Qed.
Lemma take_ind_sorted n l : StronglySorted lt l -> StronglySorted lt (take_ind n l).
Proof.
  induction 1 as [|y l S IH F]; cbn [take_ind]; [constructor|]. destruct (n <? y); constructor; auto.
  rewrite Forall_forall in *. intros x Hx. apply F. apply take_ind_in in Hx; auto. tauto.
Qed.

Section Sweep.
  Context {b : base}.
  Notation T := (bt b).
  Variable bnat : nat -> T.
  Variable P : nat -> T.
  Variable ZL : zero_laws b bnat.
  Notation pa := (nat -> nat -> T).
  Context (np n : nat) (l : list ins) (dep : list nat).
  Hypothesis TK : tape_ok np n l dep.

  Lemma sweep_sub_rev (V : pa) l2v skip d : forall suf pre sg (sk : nat -> bool) (p : pa), l = pre ++ suf -> StronglySorted lt sg ->
    (forall k, In k sg -> length pre <= k < length l) ->
    (forall j, length pre <= j < length l -> sk j = skip j || negb (existsb (Nat.eqb j) sg)) ->
    sweep_sub bnat P V l2v skip d l sg p = Some (sweep_rev bnat P V l2v sk d suf (length pre) p).
  Proof.
    induction suf as [|i suf IH]; intros pre sg sk p El SS HI HK.
    - rewrite app_nil_r in El. rewrite El in HI. destruct sg as [|k sg]; [reflexivity|]. specialize (HI k (or_introl eq_refl)). lia.
    - assert (nth_error l (length pre) = Some i) as E by (rewrite El, nth_error_app2, Nat.sub_diag by lia; reflexivity).
      assert (length pre < length l) as Lp by (apply nth_error_Some; congruence).
      assert (l = (pre ++ [i]) ++ suf) as El' by (rewrite <- app_assoc; exact El).
      assert (length (pre ++ [i]) = S (length pre)) as Ln by (rewrite app_length; cbn; lia).
      cbn [sweep_rev]. rewrite HK by lia.
      destruct sg as [|k sg].
      + rewrite (orb_comm (skip _)). cbn [existsb negb orb]. rewrite <- Ln. apply IH; auto; [intros j []|]. intros j Hj. apply HK. lia.
      + apply StronglySorted_inv in SS as [SS' FS]. rewrite Forall_forall in FS. pose proof (HI k (or_introl eq_refl)) as Hk.
        destruct (Nat.eq_dec k (length pre)) as [->|NE].
        * cbn [existsb]. rewrite Nat.eqb_refl. cbn [orb negb]. rewrite orb_false_r. cbn [sweep_sub]. rewrite E.
          rewrite (IH (pre ++ [i]) sg sk p); auto.
          -- rewrite Ln. reflexivity.
          -- intros k Hk'. specialize (FS k Hk'). specialize (HI k (or_intror Hk')). lia.
          -- intros j Hj. rewrite HK by lia. cbn [existsb]. replace (j =? length pre) with false by (symmetry; apply Nat.eqb_neq; lia). reflexivity.
        * assert (existsb (Nat.eqb (length pre)) (k :: sg) = false) as X.
          { apply not_true_is_false. intros X. apply existsb_exists in X as (x & Hx & Ex). apply Nat.eqb_eq in Ex. subst x. destruct Hx as [Hx|Hx]; [congruence|]. specialize (FS _ Hx). lia. }
          rewrite X. cbn [negb]. rewrite orb_true_r. rewrite <- Ln. apply IH; auto; [constructor; auto; now apply Forall_forall| |].
          -- intros k' Hk'. specialize (HI k' Hk'). destruct Hk' as [<-|Hk']; [lia|]. specialize (FS _ Hk'). lia.
          -- intros j Hj. apply HK. lia.
  Qed.

  Context (V : pa) (l2v : nat -> nat) (skip : nat -> bool) (d : nat).
  Hypothesis NL : forall i, In i l -> is_load (i_op i) = false.
  Hypothesis PW : forall i, In i l -> pow_ins V i.
  (** [Dk]: operators that depend on the selected variables; [Lk] : operators of the subgraph; [Lb]: operators in the sweep *)
  Context (Dk Lk : nat -> Prop) (Db Lb : nat -> bool).
  Hypothesis HDb : forall k, k < length l -> (Db k = true <-> Dk k).
  Hypothesis HD : forall k i x k', nth_error l k = Some i -> 0 < num_res (i_op i) -> In x (var_args (i_op i) (i_arg i)) -> isop l x k' -> Dk k' -> Dk k.
  Hypothesis HL : forall k i x k', nth_error l k = Some i -> In x (var_args (i_op i) (i_arg i)) -> isop l x k' -> Lk k -> Dk k' -> Lk k'.
  Hypothesis HLD : forall k, Lk k -> Dk k.
  Hypothesis HLb : forall k, Lk k -> Lb k = true.
  Hypothesis HLb2 : forall k i, nth_error l k = Some i -> Lb k = true -> Lk k \/ i_op i = BeginOp \/ i_op i = EndOp.
  Definition DV (v : nat) : Prop := exists k, isop l v k /\ Dk k.
  Definition LV (v : nat) : Prop := exists k, isop l v k /\ Lk k.

  Lemma sub_full : forall suf pre (p p' : pa) (sk : nat -> bool), l = pre ++ suf ->
    (forall j, length pre <= j < length l -> sk j = skip j || negb (Lb j)) ->
    ag LV p p' -> (forall v k, DV v -> ~ LV v -> p v k = b0) ->
    let r := sweep_rev bnat P V l2v skip d suf (length pre) p in
    let r' := sweep_rev bnat P V l2v sk d suf (length pre) p' in
    ag LV r r' /\ (forall v k, DV v -> ~ LV v -> r v k = b0).
  Proof.
    induction suf as [|i suf IH]; intros pre p p' sk El HK A Z; cbn zeta; [auto|].
    assert (nth_error l (length pre) = Some i) as E by (rewrite El, nth_error_app2, Nat.sub_diag by lia; reflexivity).
    assert (length pre < length l) as Lp by (apply nth_error_Some; congruence).
    assert (l = (pre ++ [i]) ++ suf) as El' by (rewrite <- app_assoc; exact El).
    assert (length (pre ++ [i]) = S (length pre)) as Ln by (rewrite app_length; cbn; lia).
    specialize (IH (pre ++ [i]) p p' sk El'). rewrite Ln in IH. cbn zeta in IH.
    destruct IH as [A1 Z1]; [intros; apply HK; lia|auto|auto|].
    cbn [sweep_rev]. set (r := sweep_rev bnat P V l2v skip d suf (S (length pre)) p) in *.
    set (r' := sweep_rev bnat P V l2v sk d suf (S (length pre)) p') in *. rewrite HK by lia.
    destruct (skip (length pre)); cbn [orb]; [auto|].
    assert (In i l) as Hi by (eapply nth_error_In; eauto).
    destruct (wfl_at np l 0 0 _ _ (k_wfl _ _ _ _ TK) E) as (lp & nl' & W). cbn [Nat.add] in W.
    assert (forall v, vstart l (length pre) <= v < vstart l (length pre) + num_res (i_op i) -> isop l v (length pre)) as IO by (intros v Hv; exists i; auto).
    destruct (Lb (length pre)) eqn:EL; cbn [negb].
    - destruct (HLb2 _ _ E EL) as [HLk|Htriv].
      + split.
        * eapply rev_step_local; eauto. intros v Hv. exists (length pre). auto.
        * intros v k Dv Lv. rewrite <- (Z1 v k Dv Lv).
          apply (rev_step_keeps bnat P (fun v => DV v /\ ~ LV v) _ _ _ _ _ V l2v d r W (NL i Hi)); auto.
          -- intros v' Hv' [_ N]. apply N. exists (length pre). auto.
          -- intros _ x Hx [(k' & I' & D') N]. apply N. exists k'. split; auto. eapply HL; eauto.
      + assert (forall q, rev_step bnat P V l2v d i q = q) as ID.
        { intros q. unfold rev_step. destruct i as [o a iv]. cbn [i_op] in Htriv. destruct Htriv as [-> | ->]; reflexivity. }
        rewrite !ID. auto.
    - assert (~ Lk (length pre)) as NLk by (intros H; rewrite (HLb _ H) in EL; discriminate).
      destruct (Db (length pre)) eqn:ED.
      + apply HDb in ED; auto. rewrite (rev_step_zero bnat P ZL _ _ _ _ _ V l2v d r W (NL i Hi) (PW i Hi)); [auto|].
        intros v j Hv _. apply Z1; [exists (length pre); auto|]. intros (k' & I' & L'). assert (k' = length pre) by (eapply isop_inj; eauto). congruence.
      + assert (~ Dk (length pre)) as ND by (rewrite <- HDb by auto; congruence).
        assert (keeps DV r (rev_step bnat P V l2v d i r)) as K.
        { apply (rev_step_keeps bnat P DV _ _ _ _ _ V l2v d r W (NL i Hi)); auto.
          - intros v Hv (k' & I' & D'). assert (k' = length pre) by (eapply isop_inj; eauto). congruence.
          - intros NR x Hx (k' & I' & D'). apply ND. eapply HD; eauto. lia. }
        split.
        * intros v k Lv. rewrite <- A1 by auto. apply K. destruct Lv as (k' & I' & L'). exists k'. auto.
        * intros v k Dv Lv. rewrite K by auto. auto.
  Qed.
End Sweep.

(** *** the initial partials *)
Section Init.
  Context {b : base}.
  Notation T := (bt b).
  Context (np n : nat) (l : list ins) (dep : list nat).
  Hypothesis TK : tape_ok np n l dep.
  Lemma zero_op_b0 q i (p : nat -> nat -> T) v k : p v k = b0 -> zero_op q i p v k = b0.
  Proof. intros E. unfold zero_op. destruct (i_op i); auto; cbn [num_res Nat.eqb]; try exact E; destruct (_ && _); auto. Qed.
  Lemma zero_ops_ok q : forall sg (p : nat -> nat -> T), (forall k, In k sg -> k < length l) ->
    exists p', zero_ops q l sg p = Some p' /\ (forall v k, p v k = b0 -> p' v k = b0) /\
      (forall v k kk i, In kk sg -> nth_error l kk = Some i -> i_op i <> BeginOp -> isop l v kk -> k < q -> p' v k = b0).
  Proof.
    induction sg as [|k0 sg IH]; intros p HI; cbn [zero_ops].
    - exists p. split; [auto|]. split; [auto|]. intros v k kk i [].
    - assert (k0 < length l) as L0 by (apply HI; now left). destruct (nth_error l k0) as [i0|] eqn:E0; [|apply nth_error_None in E0; lia].
      destruct (IH (zero_op q i0 p) (fun k H => HI k (or_intror H))) as (p' & -> & Z1 & Z2). exists p'. split; [auto|]. split.
      + intros v k E. apply Z1. now apply zero_op_b0.
      + intros v k kk i [<-|Hk] E NB IO Hq; [|eauto]. apply Z1. assert (i0 = i) by congruence. subst i0. destruct IO as (i' & E' & Hv). assert (i' = i) by congruence. subst i'.
        pose proof (ivar _ _ _ _ TK _ _ E) as IV. unfold zero_op.
        assert (num_res (i_op i) <> 0) as NR by lia.
        assert ((i_var i + 1 - num_res (i_op i) <=? v) && (v <=? i_var i) && (k <? q) = true) as C.
        { rewrite !andb_true_iff, !Nat.leb_le, Nat.ltb_lt. lia. }
        destruct (i_op i); try congruence; cbn [num_res Nat.eqb] in *; try congruence; rewrite C; reflexivity.
  Qed.
End Init.
