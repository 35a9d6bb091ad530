(** The Hessian patterns of a recorded function, at the level of the zero order sweep. *)
From Coq Require Import Reals ZArith Lra Lia List Bool Arith.
From Verif Require Import Base_Spec Op_Model Tape_Spec Tape_Model Tape_Proof Tape_Proof2 Tape_Proof7 Tape_Proof10
  Sweep_Model Sweep_Eqs Sweep_Eqs2 Sweep_Tape Sweep_Uniq Sweep_Val0 Tape_Swf Tape_Vec Drv_Proof3 Rev_Prim Real_Base
  Spar_Model Spar_Proof Spar_Proof2 Spar_Proof3 Hes_Model Hes_Proof Hes_Proof2 Hes_Proof3 Hes_Proof4.
Import ListNotations.
Open Scope nat_scope.

Lemma seenof_mono l : forall seen v, In v seen -> In v (seenof seen l).
Proof.
  induction l as [|i l IH]; intros seen v H; cbn [seenof fold_left]; auto. apply IH. unfold seen1. destruct (_ <? _); auto. now right.
Qed.
Lemma sok_args l : forall seen nl, sok seen nl l -> Forall (fun i => Forall (fun x => In x (seenof seen l)) (var_args (i_op i) (i_arg i))) l.
Proof.
  induction l as [|i l IH]; intros seen nl H; constructor; destruct H as (_ & A & _ & B).
  - eapply Forall_impl; [|exact A]. intros x Hx. apply seenof_mono. exact Hx.
  - exact (IH _ _ B).
Qed.
Lemma sok_ops l : forall seen nl, sok seen nl l -> Forall (fun i => okop (i_op i) = true) l.
Proof. induction l as [|i l IH]; intros seen nl H; constructor; destruct H as (A & _ & _ & B); eauto. Qed.

Section Choice.
  Context {b : base}.
  Variable P : nat -> bt b.
  Lemma same_choice_sym V V' L L' i : same_choice (b:=b) P V V' L L' i -> same_choice (b:=b) P V' V L' L i.
  Proof.
    unfold same_choice. destruct (i_op i); auto; intros [A B]; (split; [auto|]); intros Z; symmetry; apply B; congruence.
  Qed.
  Lemma same_choice_trans V V' V'' L L' L'' i : same_choice (b:=b) P V V' L L' i -> same_choice (b:=b) P V' V'' L' L'' i -> same_choice (b:=b) P V V'' L L'' i.
  Proof.
    unfold same_choice. destruct (i_op i); auto; try congruence; intros [A B] [C D]; (split; [congruence|]); intros Z; (etransitivity; [apply B; auto|apply D; congruence]).
  Qed.
End Choice.

Section Core.
  Variable dis : nat -> R -> R.
  Variable nan : R.
  Notation b := (Rbase dis nan).
  Variables (r : rec b) (n : nat) (dep_taddr : list nat) (l : list ins).
  Hypothesis RT : rtape r n dep_taddr l.
  Variables (P : nat -> R) (cc : nat).
  Variables (V : bool -> bool -> nat -> R) (lv : bool -> bool -> nat -> nat) (T : bool -> bool -> fst0 b).
  Hypothesis SW : forall s t, sweep0 (b:=b) P cc (head_ins n ++ l) 0 (init0 (b:=b) r (V s t) (lv s t)) = Some (T s t).
  Let W s t := f_V (T s t).
  Let Ld s t := f_l2v (T s t).
  Hypothesis SC : forall s t, Forall (same_choice (b:=b) P (W s t) (W false false) (Ld s t) (Ld false false)) l.
  Hypothesis SA : forall s t, Forall (same_abs (W s t) (W false false)) l.

  Lemma SC2 s t s' t' : Forall (same_choice (b:=b) P (W s t) (W s' t') (Ld s t) (Ld s' t')) l.
  Proof.
    pose proof (SC s t) as A. pose proof (SC s' t') as B. rewrite Forall_forall in *. intros i Hi.
    eapply same_choice_trans; [apply A; auto|]. apply same_choice_sym. auto.
  Qed.
  Lemma core_S dep (G H : nat -> Prop) : closed dep G H l -> (forall j t, j < n -> G (S j) -> V true t (S j) = V false t (S j)) ->
    forall v, In v (seenof (seq 1 n) l) -> G v -> indS W v.
  Proof.
    intros CL HI v Hv Gv t. refine (rtape_agree _ _ _ _ RT P cc dep G H _ _ _ _ _ _ CL (SW true t) (SW false t) (fun _ => SC2 _ _ _ _) _ v Hv Gv).
    intros j Hj Gj. now apply HI.
  Qed.
  Lemma core_T dep (G H : nat -> Prop) : closed dep G H l -> (forall j s, j < n -> G (S j) -> V s true (S j) = V s false (S j)) ->
    forall v, In v (seenof (seq 1 n) l) -> G v -> indT W v.
  Proof.
    intros CL HI v Hv Gv s. refine (rtape_agree _ _ _ _ RT P cc dep G H _ _ _ _ _ _ CL (SW s true) (SW s false) (fun _ => SC2 _ _ _ _) _ v Hv Gv).
    intros j Hj Gj. now apply HI.
  Qed.
  Lemma core_mixed (G H : nat -> Prop) : closed false G H l -> Forall (nl_ok W G) l ->
    (forall j, j < n -> G (S j) -> (V true true (S j) + V false false (S j) = V true false (S j) + V false true (S j))%R) ->
    forall i, In i dep_taddr -> G i -> mixed0 W i.
  Proof.
    intros CL NL HI i Hi Gi. destruct RT as [D Wf SO DP (hd & BL & VA) _ _].
    assert (forall v, In v (seq 1 n) -> v < S n) as SQ by (intros v Hv; apply in_seq in Hv; lia).
    assert (forall s t, sweep0 (b:=b) P cc l (length (head_ins n)) (init0 (b:=b) r (V s t) (lv s t)) = Some (T s t)) as SW2.
    { intros s t. specialize (SW s t). rewrite sweep0_app, sweep0_head in SW by (intros; reflexivity). exact SW. }
    assert (forall s t, srcs G (Ld s t) (seq 1 n) l /\ Forall (is_val (b:=b) P (W s t) (Ld s t)) l) as K.
    { intros s t. refine (sweep0_srcs (b:=b) P G (r_vec r) hd BL (length (r_par r)) cc l (S n) 0 (seq 1 n) _ H (init0 (b:=b) r (V s t) (lv s t)) _ Wf SO SQ VA CL _ _ _ (SW2 s t)); auto.
      - constructor; auto. cbn [init0 f_isv]. discriminate.
      - cbn [init0 f_isv]. discriminate. }
    refine (mixed_list dis nan P W Ld G (length (r_par r)) l (S n) 0 (seq 1 n) H Wf SO SQ CL (proj1 (K false false)) (fun s t => proj2 (K s t)) SC SA NL _ i _ Gi).
    - intros v Hv Gv. apply in_seq in Hv. destruct v as [|j]; [lia|].
      assert (forall s t, W s t (S j) = V s t (S j)) as E.
      { intros s t. refine (proj1 (sweep0_frame (b:=b) P (length (r_par r)) cc l (S n) 0 _ (seq 1 n) _ _ Wf SO _ (SW2 s t)) (S j) _); [intros; reflexivity|lia]. }
      unfold mixed0. rewrite !E. apply HI; auto. lia.
    - rewrite Forall_forall in DP. now apply DP.
  Qed.

  (** reverse Hessian sparsity: [J] from a forward Jacobian sweep, columns [c], independent
      variable number [j0] *)
  Lemma rev_hes_core dep vi U0 J Wj c j0 s0 i :
    for_jac_sweep dep vi (head_ins n ++ l) (U0, fun _ _ => false) = (J, Wj) ->
    let s := rev_hes_sweep J vi (head_ins n ++ l) s0 in
    (forall j t, j < n -> U0 (S j) c = false -> V true t (S j) = V false t (S j)) ->
    (forall j s, j < n -> j <> j0 -> V s true (S j) = V s false (S j)) ->
    (forall j, j < n -> (V true true (S j) + V false false (S j) = V true false (S j) + V false true (S j))%R) ->
    h_H s (S j0) c = false ->
    In i dep_taddr -> h_R s0 i = true -> mixed0 W i.
  Proof.
    intros FJ s HS HT HD NE Hi Ri.
    pose proof RT as [D Wf SO DP (hd & BL & VA) _ _].
    assert (s = rev_hes_sweep J vi l s0) as Es.
    { subst s. unfold rev_hes_sweep. rewrite fold_right_app. generalize (fold_right (rev_hes_op J vi) s0 l). intros s1.
      unfold head_ins. cbn [fold_right]. assert (forall k, fold_right (rev_hes_op J vi) s1 (map (fun j => mkIns InvOp [] (S j)) (seq k n)) = s1) as ->; auto.
      clear. induction n as [|m IH]; intros k; cbn [seq map fold_right]; auto. now rewrite IH. }
    rewrite for_jac_sweep_app, for_jac_head in FJ.
    pose proof (for_jac_closed dep vi c _ l _ _ _ U0 (fun _ _ => false) Wf SO) as CJ. unfold spst, vset in *. rewrite FJ in CJ. destruct CJ as [CJ1 CJ2].
    destruct (rev_hes_closed J vi c _ s0 (h_R s) (h_H s) l (S n) 0 (seq 1 n) Wf SO) as [CR NR]; try (rewrite Es; auto; fail).
    rewrite <- Es in CR.
    assert (forall v, In v (seenof (seq 1 n) l) -> J v c = false -> indS W v) as IS.
    { apply (core_S dep _ _ CJ2). intros j t Hj Q. apply HS; auto. rewrite <- CJ1 by lia. exact Q. }
    assert (forall v, In v (seenof (seq 1 n) l) -> h_R s v = true -> h_H s v c = true -> indT W v) as IT.
    { intros v Hv A B. refine (core_T false _ _ (CR true) _ v Hv (conj A (fun _ => B))). intros j t Hj [_ Q]. specialize (Q eq_refl).
      apply HT; auto. intros ->. congruence. }
    assert (forall v, h_R s0 v = true -> h_R s v = true) as MR.
    { intros v. rewrite Es. clear -c. induction l as [|j l' IH]; cbn; auto. intros H. apply (rev_hes_le J vi c j). auto. }
    refine (core_mixed _ _ (CR false) _ (fun j Hj _ => HD j Hj) i Hi _); [|split; [auto|discriminate]].
    pose proof (sok_args _ _ _ SO) as AR. pose proof (CR false) as CL.
    assert (Forall (fun i => 0 < num_res (i_op i) -> is_vec (i_op i) = false -> h_R s (i_var i) = true -> Forall (fun v => h_R s v = true) (rel_args false (i_op i) (i_arg i))) l) as RA.
    { clearbody s. clear - CL. revert CL. generalize (wq vi c false s). induction l as [|i l' IH]; intros H CL; constructor.
      - destruct CL as (H' & [_ CI] & _). intros N NV Rz. destruct i as [o a z]. cbn [i_op i_arg i_var] in *.
        assert (Forall (fun v => h_R s v = true /\ (false = true -> h_H s v c = true)) (rel_args false o a)) as K.
        { destruct o; try discriminate; apply CI; auto; split; auto; discriminate. }
        eapply Forall_impl; [|exact K]. now intros v [Q _].
      - destruct CL as (H' & _ & CL). exact (IH _ CL). }
    clear CL. rewrite Forall_forall in *. intros [o a z] Hin [Rz _]. specialize (NR _ Hin). specialize (AR _ Hin). specialize (RA _ Hin).
    unfold nlr in NR. cbn [i_op i_arg i_var] in *. specialize (NR Rz). rewrite Forall_forall in AR.
    clear - NR AR RA IS IT Rz.
    assert (forall x, In x (var_args o a) -> h_R s x = true -> (J x c = true -> h_H s x c = true) -> indS W x \/ indT W x) as N1.
    { intros x Hx Rx K. destruct (J x c) eqn:E; [right; apply IT; auto|left; apply IS; auto]. }
    assert (forall b, J b c = true \/ J b c = false) as CA by (intros v; destruct (J v c); auto).
    destruct o; try exact I; cbn [num_res is_vec rel_args var_args] in *; specialize (RA ltac:(lia) eq_refl Rz);
      inversion RA as [|? ? R1 R2]; subst; try (apply N1; cbn; auto; fail); inversion R2 as [|? ? R3 _]; subst;
      pose proof (AR _ (or_introl eq_refl)) as A1; pose proof (AR _ (or_intror (or_introl eq_refl))) as A2;
      destruct (CA (nth 0 a 0)) as [C1|C1], (CA (nth 1 a 0)) as [C2|C2]; clear CA N1 AR RA R2; intuition auto.
  Qed.

  (** forward Hessian sparsity: independent variables number [i0] and [j0] *)
  Lemma for_hes_core vi U0 Rf Wr sel (i0 j0 : nat) i :
    rev_jac_sweep false vi (head_ins n ++ l) (U0, fun _ _ => false) = (Rf, Wr) ->
    let R v := Rf v 0 in
    let s := for_hes_sweep R sel vi (head_ins n ++ l) (mkFh (fun _ _ => false) (fun _ _ => false) (fun _ _ => false)) in
    Forall (fun i => for_hes_op_ok (i_op i) = true) l ->
    i0 < n -> j0 < n -> sel i0 = true -> sel j0 = true ->
    (forall j t, j < n -> j <> i0 -> V true t (S j) = V false t (S j)) ->
    (forall j s, j < n -> j <> j0 -> V s true (S j) = V s false (S j)) ->
    (forall j, j < n -> (V true true (S j) + V false false (S j) = V true false (S j) + V false true (S j))%R) ->
    fh_H s (S i0) (S j0) = false ->
    In i dep_taddr -> U0 i 0 = true -> mixed0 W i.
  Proof.
    intros FJ R s OK2 Hi0 Hj0 Si Sj HS HT HD NE Hi Ri.
    pose proof RT as [D Wf SO DP (hd & BL & VA) _ _].
    rewrite rev_jac_sweep_app, rev_jac_head in FJ.
    pose proof (rev_jac_mono false vi 0 l U0 (fun _ _ => false) (sok_ops _ _ _ SO)) as M.
    pose proof (rev_jac_closed false vi 0 _ U0 (fun _ _ => false) Rf l _ _ _ Wf SO) as CR.
    unfold spst, vset in *. rewrite FJ in CR, M. specialize (CR (fun v H => H) (fun v _ => eq_refl)).
    change (fun v => Rf v 0 = true) with (fun v => R v = true) in CR.
    set (s1 := for_hes_sweep R sel vi (head_ins n) (mkFh (fun _ _ => false) (fun _ _ => false) (fun _ _ => false))).
    assert (s = for_hes_sweep R sel vi l s1) as Es by (unfold s, s1, for_hes_sweep; now rewrite fold_left_app).
    assert (forall u, 0 < u <= n -> R u = true -> sel (u - 1) = true -> fh_J s1 u u = true) as J1.
    { unfold s1, head_ins. unfold for_hes_sweep. cbn [fold_left].
      match goal with |- context [fold_left _ _ ?z] => generalize z end. clear. intros z u.
      assert (forall m k z, fh_J z u u = true \/ k < u <= k + m -> R u = true -> sel (u - 1) = true ->
        fh_J (fold_left (fun s i => for_hes_op R sel vi i s) (map (fun j => mkIns InvOp [] (S j)) (seq k m)) z) u u = true) as K.
      { induction m as [|m IH]; intros k z' Hu Ru Su; cbn [seq map fold_left]; [destruct Hu; [auto|lia]|].
        apply IH; auto. unfold for_hes_op. cbn [num_res Nat.ltb Nat.leb andb].
        destruct (Nat.eq_dec u (S k)) as [->|Ne].
        - left. rewrite Ru, Su. cbn [negb fh_J]. apply sv_union_in. apply Nat.eqb_refl.
        - destruct Hu as [Hu|Hu]; [left|right; lia]. destruct (R (S k)); cbn [negb]; auto. destruct (sel (S k - 1)); auto. cbn [fh_J]. now apply sv_union_mono. }
      intros. apply K; auto. }
    destruct (for_hes_closed R sel vi _ l (S n) 0 (seq 1 n) s1 _ Wf SO OK2 CR) as (FR & CF & NF). rewrite <- Es in FR, CF, NF.
    assert (forall v, In v (seenof (seq 1 n) l) -> R v = true -> fh_J s v (S i0) = false -> indS W v) as IS.
    { intros v Hv A B. refine (core_S false _ _ (CF (S i0)) _ v Hv (conj A B)). intros j t Hj [Q1 Q2]. apply HS; auto. intros ->.
      rewrite FR, J1 in Q2 by (cbn [Nat.sub]; rewrite ?Nat.sub_0_r; auto; lia). discriminate. }
    assert (forall v, In v (seenof (seq 1 n) l) -> R v = true -> fh_J s v (S j0) = false -> indT W v) as IT.
    { intros v Hv A B. refine (core_T false _ _ (CF (S j0)) _ v Hv (conj A B)). intros j t Hj [Q1 Q2]. apply HT; auto. intros ->.
      rewrite FR, J1 in Q2 by (cbn [Nat.sub]; rewrite ?Nat.sub_0_r; auto; lia). discriminate. }
    refine (core_mixed _ _ CR _ (fun j Hj _ => HD j Hj) i Hi (M i Ri)).
    pose proof (sok_args _ _ _ SO) as AR.
    assert (Forall (fun i => 0 < num_res (i_op i) -> is_vec (i_op i) = false -> R (i_var i) = true -> Forall (fun v => R v = true) (rel_args false (i_op i) (i_arg i))) l) as RA.
    { clearbody R. clear - CR. revert CR. generalize (fun h => Wr (vi h) 0 = true). induction l as [|i l' IH]; intros H CL; constructor.
      - destruct CL as (H' & [_ CI] & _). intros N NV Rz. destruct i as [o a z]. cbn [i_op i_arg i_var] in *.
        destruct o; try discriminate; apply CI; auto.
      - destruct CL as (H' & _ & CL). exact (IH _ CL). }
    specialize (NF (S i0) (S j0)).
    rewrite Forall_forall in *. intros [o a z] Hin Rz. specialize (NF _ Hin). specialize (AR _ Hin). specialize (RA _ Hin).
    unfold nlf in NF. cbn [i_op i_arg i_var] in *. specialize (NF Rz). rewrite Forall_forall in AR.
    clearbody s R. rewrite NE in NF. clear - NF AR RA IS IT Rz.
    assert (forall x k, fh_J s x k = true \/ fh_J s x k = false) as CA by (intros x k; destruct (fh_J s x k); auto).
    assert (forall x, In x (var_args o a) -> R x = true -> (fh_J s x (S i0) = true -> fh_J s x (S j0) = true -> false = true) -> indS W x \/ indT W x) as N1.
    { intros x Hx Rx K. destruct (CA x (S i0)) as [A|A]; [|left; auto]. destruct (CA x (S j0)) as [B|B]; [|right; auto]. specialize (K A B). discriminate. }
    assert (false = true -> False) as FF by discriminate.
    destruct o; try exact I; cbn [num_res is_vec rel_args var_args] in *; specialize (RA ltac:(lia) eq_refl Rz);
      inversion RA as [|? ? R1 R2]; subst; try (apply N1; cbn; auto; fail); inversion R2 as [|? ? R3 _]; subst;
      pose proof (AR _ (or_introl eq_refl)) as A1; pose proof (AR _ (or_intror (or_introl eq_refl))) as A2;
      destruct (CA (nth 0 a 0) (S i0)) as [C1|C1], (CA (nth 1 a 0) (S i0)) as [C2|C2];
      destruct (CA (nth 0 a 0) (S j0)) as [D1|D1], (CA (nth 1 a 0) (S j0)) as [D2|D2]; clear CA N1 AR RA R2; intuition auto.
  Qed.
End Core.
