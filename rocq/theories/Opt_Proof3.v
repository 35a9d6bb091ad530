(** C22, the operators: values, which operators are used, and which ones are merged. *)
From Coq Require Import List Bool Arith Lia.
From Verif Require Import Base_Spec Op_Model Tape_Spec Tape_Model Tape_Proof Tape_Proof2 Tape_Swf Sweep_Eqs Sweep_Uniq Abs_Proof Opt_Model Opt_Proof.
Import ListNotations.

(** operators for which this is proved *)
Definition supp (o : opvar) : bool :=
  match o with LdpOp | LdvOp | StppOp | StpvOp | StvpOp | StvvOp => false | BeginOp | InvOp => true | _ => okop o end.
Definition ishead (o : opvar) : bool := match o with BeginOp | InvOp => true | _ => false end.
Lemma supp_csum o a : supp o = true -> csum_ok o a.
Proof. destruct o; try discriminate; intros _; cbn; auto; discriminate. Qed.

(** ** var2op *)
Lemma var2op_eq l : forall nv k m i, numd nv l -> nth_error l m = Some i -> 0 < num_res (i_op i) -> var2op k l (i_var i) = k + m.
Proof.
  induction l as [|i0 l IH]; intros nv k m i N H R; [now destruct m|]. destruct N as [N1 N2]. cbn [var2op]. destruct m as [|m].
  - injection H as ->. rewrite (proj2 (Nat.ltb_lt _ _) R), Nat.eqb_refl. cbn. lia.
  - cbn in H. assert (nv + num_res (i_op i0) + num_res (i_op i) - 1 <= i_var i) as G.
    { clear -N2 H. revert m H N2. generalize (nv + num_res (i_op i0)). induction l as [|j l IH]; intros s m H N; [now destruct m|]. destruct N as [M1 M2]. destruct m; cbn in H.
      - injection H as ->. lia.
      - specialize (IH _ _ H M2). lia. }
    destruct (_ && _) eqn:C.
    + apply andb_true_iff in C as [C1 C2]. apply Nat.ltb_lt in C1. apply Nat.eqb_eq in C2. lia.
    + rewrite (IH _ (S k) m i N2 H R). lia.
Qed.

Section Ops.
  Context {b : base}.
  Notation T := (bt b).
  Hypothesis addC : forall x y : T, b_bin Badd x y = b_bin Badd y x.
  Hypothesis mulC : forall x y : T, b_bin Bmul x y = b_bin Bmul y x.

  (** the (last) result of an operator *)
  Definition semv (o : opvar) (a : list nat) (P V : nat -> T) : T := match sem0 o a P V with Some l => last l b0 | None => b0 end.
  Lemma semv_some o a P V : supp o = true -> 0 < num_res o -> ishead o = false -> exists l, @sem0 b o a P V = Some l /\ l <> [] /\ last l b0 = semv o a P V.
  Proof. intros S R H. unfold semv. destruct o; try discriminate; cbn in R; try lia; eexists; (split; [reflexivity|split; [discriminate|reflexivity]]). Qed.

  (** argument lists that agree *)
  Definition agree (V : nat -> T) (o : opvar) (a a' : list nat) : Prop :=
    forall j, j < length (arg_is_var o) -> if nth j (arg_is_var o) false then V (nth j a 0) = V (nth j a' 0) else nth j a 0 = nth j a' 0.
  Lemma semv_agree P V o a a' : g_match o = true -> agree V o a a' -> semv o a P V = semv o a' P V.
  Proof.
    intros M H. pose proof (H 0) as H0. pose proof (H 1) as H1. pose proof (H 2) as H2. clear H. unfold semv.
    destruct o; try discriminate M; cbn in H0, H1, H2; cbn [sem0];
      try (specialize (H0 ltac:(lia))); try (specialize (H1 ltac:(lia))); try (specialize (H2 ltac:(lia))); rewrite ?H0, ?H1, ?H2; reflexivity.
  Qed.
  Lemma semv_comm P V o a a' : g_comm o = true -> V (nth 0 a 0) = V (nth 1 a' 0) -> V (nth 1 a 0) = V (nth 0 a' 0) -> semv o a P V = semv o a' P V.
  Proof. intros M H0 H1. unfold semv. destruct o; try discriminate M; cbn [sem0 last]; rewrite H0, H1; auto. Qed.
  (** the arguments in the new recording *)
  Lemma semv_opt P V P' V' m np vi nl o a ex : supp o = true -> (forall j, In j (var_args o a) -> V' (m j) = V j) -> (forall j, In j (par_args o a) -> P' (np j) = P j) ->
    semv o (opt_args m np vi nl o a ++ ex) P' V' = semv o a P V.
  Proof.
    intros S HV HP. unfold semv. destruct o; try discriminate S; cbn [var_args par_args] in HV, HP; cbn [sem0 opt_args g_unary g_vp g_cvp g_dis g_pv g_cpv g_vv g_cvv g_cpp orb app nth last];
      rewrite ?(HV (nth 0 a 0)), ?(HV (nth 1 a 0)), ?(HP (nth 0 a 0)), ?(HP (nth 1 a 0)) by (cbn [In]; auto); try reflexivity.
    assert (forall bit j, In (bit, j) [(0, 2); (1, 3); (2, 4); (3, 5)] ->
      vp (nth 1 a 0) bit P' V' (if Nat.testbit (nth 1 a 0) bit then m (nth j a 0) else np (nth j a 0)) = vp (nth 1 a 0) bit P V (nth j a 0)) as E.
    { intros bit j Hin. unfold vp. destruct (Nat.testbit (nth 1 a 0) bit) eqn:F; [apply HV|apply HP]; cbn [In] in Hin;
        destruct Hin as [Hin|[Hin|[Hin|[Hin|[]]]]]; injection Hin as <- <-; rewrite F, ?in_app_iff; cbn [In]; auto 10. }
    rewrite (E 0 2), (E 1 3), (E 2 4), (E 3 5) by (cbn; auto). reflexivity.
  Qed.

  Lemma vsweep_app' (P : nat -> T) l l' V : vsweep P (l ++ l') V = vsweep P l' (vsweep P l V).
  Proof. apply fold_left_app. Qed.

  Section Tape.
    Variable L : list ins.
    Hypothesis HN : numd 0 L.
    Hypothesis HA : forall k i, nth_error L k = Some i -> forall j, In j (var_args (i_op i) (i_arg i)) ->
      exists kj ij, kj < k /\ nth_error L kj = Some ij /\ 0 < num_res (i_op ij) /\ i_var ij = j.
    Hypothesis HO : forall i, In i L -> supp (i_op i) = true.
    Hypothesis HL : forall i, In i L -> length (i_arg i) = n_actual (i_op i) (i_arg i).

    Lemma v2o k i : nth_error L k = Some i -> 0 < num_res (i_op i) -> var2op 0 L (i_var i) = k.
    Proof. intros H R. exact (var2op_eq L 0 0 k i HN H R). Qed.
    Lemma arg_v2o k i j : nth_error L k = Some i -> In j (var_args (i_op i) (i_arg i)) ->
      exists ij, nth_error L (var2op 0 L j) = Some ij /\ var2op 0 L j < k /\ 0 < num_res (i_op ij) /\ i_var ij = j.
    Proof. intros H Hj. destruct (HA k i H j Hj) as (kj & ij & A & B & C & <-). rewrite (v2o kj ij B C). eauto. Qed.
    (** the values satisfy the equations of the operators *)
    Lemma sweep_eq P V k i : nth_error L k = Some i -> 0 < num_res (i_op i) -> ishead (i_op i) = false ->
      vsweep P L V (i_var i) = semv (i_op i) (i_arg i) P (vsweep P L V).
    Proof.
      intros H R NH. destruct (nth_error_split _ _ H) as (l1 & l2 & EL & Lk).
      assert (supp (i_op i) = true) as S by (apply HO; rewrite EL; apply in_or_app; right; now left).
      pose proof HN as N. rewrite EL in N. apply numd_app in N as [N1 [N2 N3]]. cbn [Nat.add] in *.
      assert (forall v, v < tres l1 -> vsweep P L V v = vsweep P l1 V v) as LT.
      { intros v Hv. rewrite EL, vsweep_app'. apply (vsweep_lt P (i :: l2) (tres l1)); [split; auto|auto]. }
      assert (forall v, In v (var_args (i_op i) (i_arg i)) -> v < tres l1) as AL.
      { intros v Hv. destruct (HA k i H v Hv) as (kj & ij & A & B & C & <-). rewrite EL, nth_error_app1 in B by lia. destruct (nth_error_split _ _ B) as (m1 & m2 & EM & _).
        rewrite EM in N1 |- *. apply numd_app in N1 as [_ [M1 _]]. cbn [Nat.add] in M1. clear -M1 C. induction m1 as [|x m1 IH]; cbn [app tres] in *; [lia|]. 
        assert (forall y z, tres (y ++ z) = tres y + tres z) as TA by (induction y; intros; cbn; rewrite ?IHy; lia). rewrite TA. cbn [tres]. lia. }
      assert (sem0 (i_op i) (i_arg i) P (vsweep P L V) = sem0 (i_op i) (i_arg i) P (vsweep P l1 V)) as E.
      { apply sem0_ext; [now apply supp_csum|]. intros v Hv. apply LT. auto. }
      unfold semv. rewrite E. destruct (semv_some (i_op i) (i_arg i) P (vsweep P l1 V) S R NH) as (r & E1 & E2 & _). rewrite E1.
      rewrite EL, vsweep_app'. cbn [vsweep fold_left]. change (vsweep P l2 (vstep P i (vsweep P l1 V)) (i_var i) = last r b0).
      rewrite (vsweep_lt P l2 (tres l1 + num_res (i_op i))) by (auto; lia). unfold vstep. rewrite E1.
      destruct (exists_last E2) as (r' & x & ->). rewrite last_last, app_length. cbn [length].
      pose proof (sem0_length _ _ _ _ _ E1) as SL. rewrite app_length in SL. cbn in SL.
      replace (i_var i) with (i_var i + 1 - (length r' + 1) + length r') at 2 by lia. rewrite put_res_at by (rewrite app_length; cbn; lia).
      rewrite app_nth2, Nat.sub_diag by lia. reflexivity.
    Qed.

    (** ** get_op_usage *)
    Variables (cmp : bool) (dep : list nat).
    Definition markl (U : nat -> bool) (vs : list nat) : nat -> bool := fold_left (mark L) vs U.
    Lemma markl_iff vs : forall U j, markl U vs j = true <-> U j = true \/ exists v, In v vs /\ j = var2op 0 L v.
    Proof.
      induction vs as [|v vs IH]; intros U j; cbn [markl fold_left]; [split; [auto|intros [?|(? & [] & _)]; auto]|]. change (markl (mark L U v) vs j = true <-> U j = true \/ exists w, (v = w \/ In w vs) /\ j = var2op 0 L w).
      rewrite IH. unfold mark, fset. destruct (Nat.eqb_spec j (var2op 0 L v)) as [->|N].
      - split; eauto.
      - split; [intros [?|(w & ? & ?)]; eauto|intros [?|(w & [->|?] & ?)]; eauto; now destruct N].
    Qed.
    Lemma step_used i k U W : supp (i_op i) = true -> 0 < num_res (i_op i) -> ishead (i_op i) = false ->
      usage_step L cmp i k (U, W) = (if U k then markl U (var_args (i_op i) (i_arg i)) else U, W).
    Proof.
      intros S R H. destruct i as [o a v]. cbn [i_op i_arg] in *. unfold usage_step. cbn [i_op i_arg].
      destruct o; try discriminate S; try discriminate H; cbn [num_res] in R; try lia; try (destruct (U k); reflexivity).
      cbn [g_unary g_vp g_pv g_dis g_vv g_cpp g_cpv g_cvp g_cvv orb var_args]. unfold markl. destruct (U k); [|reflexivity].
      destruct (Nat.testbit (nth 1 a 0) 0), (Nat.testbit (nth 1 a 0) 1), (Nat.testbit (nth 1 a 0) 2), (Nat.testbit (nth 1 a 0) 3); reflexivity.
    Qed.
    Lemma step_any i k U W : supp (i_op i) = true ->
      let (U', W') := usage_step L cmp i k (U, W) in (forall j, U j = true -> U' j = true) /\ (ishead (i_op i) = true \/ i_op i = EndOp -> U' k = true) /\
        forall j, U' j = true -> U j = true \/ (j = k /\ (0 < num_res (i_op i) \/ cmp = true \/ var_args (i_op i) (i_arg i) = [])) \/ exists v, In v (var_args (i_op i) (i_arg i)) /\ j = var2op 0 L v.
    Proof.
      intros S. destruct i as [o a v]. cbn [i_op i_arg] in *.
      assert (forall U vs, (forall j, U j = true -> markl U vs j = true) /\ forall j, markl U vs j = true -> U j = true \/ exists v, In v vs /\ j = var2op 0 L v) as K.
      { intros U0 vs. split; intros j H; [apply markl_iff; auto|now apply markl_iff]. }
      assert (forall vs, (forall w, In w vs -> In w (var_args o a)) -> (0 < num_res o \/ cmp = true \/ var_args o a = []) ->
        (forall j, U j = true -> markl (fset U k true) vs j = true) /\ (ishead o = true \/ o = EndOp -> markl (fset U k true) vs k = true) /\
        forall j, markl (fset U k true) vs j = true -> U j = true \/ (j = k /\ (0 < num_res o \/ cmp = true \/ var_args o a = [])) \/ exists v, In v (var_args o a) /\ j = var2op 0 L v) as K2.
      { intros vs HS HC. destruct (K (fset U k true) vs) as [K3 K4]. split; [|split].
        - intros j H. apply K3. unfold fset. destruct (j =? k); auto.
        - intros _. apply K3, fset_eq.
        - intros j H. apply K4 in H as [H|(w & Hw & ->)]; [|right; right; exists w; auto]. unfold fset in H. destruct (Nat.eqb_spec j k); auto. }
      destruct (ishead o) eqn:H.
      { destruct o; try discriminate H; apply (K2 []); try (intros w []); auto. }
      destruct (Nat.eq_dec (num_res o) 0) as [R|R].
      - assert ((forall j, U j = true -> U j = true) /\ (false = true \/ o = EndOp -> o = EndOp) /\ forall j, U j = true -> U j = true \/ (j = k /\ (0 < num_res o \/ cmp = true \/ var_args o a = [])) \/ exists v, In v (var_args o a) /\ j = var2op 0 L v) as K5.
        { split; auto. split; [intros [?|?]; [discriminate|auto]|auto]. }
        destruct o; try discriminate S; try discriminate R; try discriminate H; unfold usage_step; cbn [i_op i_arg g_unary g_vp g_pv g_dis g_vv g_cpp g_cpv g_cvp g_cvv orb];
          try exact (K2 [] ltac:(intros w []) ltac:(auto)); 
          (destruct cmp; [|destruct K5 as (X & Y & Z); split; [exact X|split; [intros Q; apply Y in Q; discriminate|exact Z]]]);
          try exact (K2 [] ltac:(intros w []) ltac:(auto));
          try exact (K2 [nth 0 a 0] ltac:(cbn; auto) ltac:(auto)); try exact (K2 [nth 1 a 0] ltac:(cbn; auto) ltac:(auto)); try exact (K2 [nth 0 a 0; nth 1 a 0] ltac:(cbn; auto) ltac:(auto)).
      - rewrite step_used by (cbn; auto; lia). destruct (K U (var_args o a)) as [K3 K4]. cbn [i_op i_arg].
        assert (false = true \/ o = EndOp -> False) as NE by (intros [?| ->]; [discriminate|now destruct R]).
        destruct (U k); (split; [auto|split; [intros Q; now apply NE in Q|]]); auto. intros j Hj. apply K4 in Hj as [?|?]; auto.
    Qed.
    Lemma step_cl i k U W : supp (i_op i) = true -> (U k = true -> 0 < num_res (i_op i) \/ cmp = true \/ var_args (i_op i) (i_arg i) = []) ->
      let (U', W') := usage_step L cmp i k (U, W) in U' k = true -> forall j, In j (var_args (i_op i) (i_arg i)) -> U' (var2op 0 L j) = true.
    Proof.
      intros S HC. destruct (ishead (i_op i)) eqn:H.
      { destruct i as [o a v]. cbn [i_op i_arg] in *. destruct o; try discriminate H; cbn; intros _ j []. }
      destruct (Nat.eq_dec (num_res (i_op i)) 0) as [R|R].
      - destruct i as [o a v]. cbn [i_op i_arg] in *.
        assert (cmp = true -> usage_step L cmp (mkIns o a v) k (U, W) = (markl (fset U k true) (var_args o a), W)) as KT.
        { intros ->. destruct o; try discriminate S; try discriminate R; try discriminate H; reflexivity. }
        assert (cmp = false -> var_args o a <> [] -> usage_step L cmp (mkIns o a v) k (U, W) = (U, W)) as KF.
        { intros -> N. destruct o; try discriminate S; try discriminate R; try discriminate H; try reflexivity; now destruct N. }
        destruct cmp.
        + rewrite KT by auto. intros _ j Hj. apply markl_iff. eauto.
        + destruct (var_args o a) eqn:EV; [destruct (usage_step _ _ _ _ _); intros _ j []|]. rewrite KF by (auto; discriminate). intros Uk. destruct (HC Uk) as [?|[?|?]]; [lia|discriminate|discriminate].
      - rewrite step_used by (auto; lia). destruct (U k) eqn:E; [|congruence]. intros _ j Hj. apply markl_iff. eauto.
    Qed.
    Definition flow (U : nat -> bool) : Prop := forall k i, nth_error L k = Some i -> U k = true -> 0 < num_res (i_op i) \/ cmp = true \/ var_args (i_op i) (i_arg i) = [].
    Lemma usage_loop_ok rest : forall pre st, L = pre ++ rest -> flow (fst st) ->
      let (U, W) := usage_loop L cmp (length pre) rest st in
      (forall j, fst st j = true -> U j = true) /\ flow U /\
      (forall k i, length pre <= k -> nth_error L k = Some i -> ishead (i_op i) = true \/ i_op i = EndOp -> U k = true) /\
      forall k i, length pre <= k -> nth_error L k = Some i -> U k = true -> forall j, In j (var_args (i_op i) (i_arg i)) -> U (var2op 0 L j) = true.
    Proof.
      induction rest as [|i rest IH]; intros pre st EL FL; cbn [usage_loop].
      - destruct st as [U W]. split; auto. split; auto. rewrite app_nil_r in EL. subst pre.
        split; intros k i Hk Hi; assert (k < length L) by (apply nth_error_Some; congruence); lia.
      - specialize (IH (pre ++ [i]) st). rewrite <- app_assoc in IH. specialize (IH EL FL). rewrite app_length in IH. cbn [length] in IH. rewrite Nat.add_1_r in IH.
        destruct (usage_loop L cmp (S (length pre)) rest st) as [U1 W1]. destruct IH as (IH1 & IH0 & IH3 & IH2).
        assert (nth_error L (length pre) = Some i) as Hi by (rewrite EL, nth_error_app2, Nat.sub_diag by lia; reflexivity).
        assert (supp (i_op i) = true) as S by (apply HO; eapply nth_error_In; eauto).
        pose proof (step_any i (length pre) U1 W1 S) as SA. pose proof (step_cl i (length pre) U1 W1 S (IH0 _ _ Hi)) as SC.
        destruct (usage_step L cmp i (length pre) (U1, W1)) as [U W] eqn:EU. destruct SA as (SA1 & SA3 & SA2).
        split; [auto|]. split; [|split].
        + intros k i' Hi' Uk. apply SA2 in Uk as [Q|[[-> Q]|(v & Hv & ->)]]; [eapply IH0; eauto|congruence|]. 
          destruct (arg_v2o _ _ _ Hi Hv) as (ij & Q & _ & R & _). rewrite Hi' in Q. injection Q as <-. auto.
        + intros k i' Hk Hi' HE. destruct (Nat.eq_dec k (length pre)) as [->|Nk].
          * rewrite Hi in Hi'. injection Hi' as <-. auto.
          * apply SA1. eapply IH3; eauto. lia.
        + intros k i' Hk Hi' Uk j Hj. destruct (Nat.eq_dec k (length pre)) as [->|Nk].
          * rewrite Hi in Hi'. injection Hi' as <-. auto.
          * assert (U1 k = true) as U1k.
            { apply SA2 in Uk as [Q|[[Q _]|(v & Hv & Ek)]]; [exact Q|now destruct Nk|]. destruct (arg_v2o _ _ _ Hi Hv) as (_ & _ & Q & _). subst k. clear -Q Hk. lia. }
            assert (Datatypes.S (length pre) <= k) as Lk by (clear -Hk Nk; lia). apply SA1. exact (IH2 k i' Lk Hi' U1k j Hj).
    Qed.
    Hypothesis HD : forall v, In v dep -> exists k i, nth_error L k = Some i /\ 0 < num_res (i_op i) /\ i_var i = v.
    Lemma usage_ok : let U := fst (op_usage L cmp dep) in
      (forall v, In v dep -> U (var2op 0 L v) = true) /\
      (forall k i, nth_error L k = Some i -> ishead (i_op i) = true \/ i_op i = EndOp -> U k = true) /\
      forall k i, nth_error L k = Some i -> U k = true -> forall j, In j (var_args (i_op i) (i_arg i)) -> U (var2op 0 L j) = true.
    Proof.
      unfold op_usage. pose proof (usage_loop_ok L [] (fold_left (mark L) dep (fun _ => false), fun _ => false) eq_refl) as K. cbn [length fst] in K.
      assert (flow (fold_left (mark L) dep (fun _ => false))) as FL.
      { intros k i Hi Hk. apply (markl_iff dep) in Hk as [Hk|(v & Hv & ->)]; [discriminate|]. destruct (HD v Hv) as (k' & i' & A & B & <-). rewrite (v2o _ _ A B) in Hi. rewrite A in Hi. injection Hi as <-. auto. }
      specialize (K FL). destruct (usage_loop L cmp 0 L _) as [U W]. cbn [fst] in *. destruct K as (K1 & _ & K3 & K2). split; [|split].
      - intros v Hv. apply K1. apply (markl_iff dep). eauto.
      - intros k i Hi. apply K3; auto. lia.
      - intros k i Hi. apply K2; auto. lia.
    Qed.
    (** no load operator: no VecAD object is used *)
    Lemma usage_W : snd (op_usage L cmp dep) = fun _ => false.
    Proof.
      unfold op_usage. assert (forall rest k st, (forall i, In i rest -> supp (i_op i) = true) -> snd (usage_loop L cmp k rest st) = snd st) as K.
      { induction rest as [|i rest IH]; intros k st HS; cbn [usage_loop]; auto. rewrite <- (IH (S k) st) by (intros; apply HS; now right).
        destruct (usage_loop L cmp (S k) rest st) as [U W]. cbn [snd]. specialize (HS i ltac:(now left)). destruct i as [o a v]. cbn [i_op] in HS. destruct o; try discriminate HS; reflexivity. }
      now rewrite K.
    Qed.

    (** the parameters of a used operator are used *)
    Lemma par_ops_keep U rest : forall k PU j, PU j = true -> par_ops U k rest PU j = true.
    Proof. induction rest as [|i rest IH]; intros k PU j H; cbn [par_ops]; auto. apply IH. destruct (U k); auto. apply marks_iff. auto. Qed.
    Lemma par_ops_used U rest : forall k0 PU m i, nth_error rest m = Some i -> U (k0 + m) = true -> forall j, In j (par_marks (i_op i) (i_arg i)) -> par_ops U k0 rest PU j = true.
    Proof.
      induction rest as [|i0 rest IH]; intros k0 PU m i H Uk j Hj; [now destruct m|]. cbn [par_ops]. destruct m as [|m].
      - injection H as ->. rewrite Nat.add_0_r in Uk. rewrite Uk. apply par_ops_keep. apply marks_iff. auto.
      - cbn in H. eapply IH; eauto. now rewrite Nat.add_succ_comm.
    Qed.
    Lemma par_args_marks o a : supp o = true -> forall j, In j (par_args o a) -> In j (par_marks o a).
    Proof. intros S j. destruct o; try discriminate S; cbn [par_args]; try (intros []; fail); exact (fun H => H). Qed.
    Lemma par_used nd U W vec ds k i : nth_error L k = Some i -> U k = true -> forall j, In j (par_args (i_op i) (i_arg i)) -> par_usage nd U W L vec ds j = true.
    Proof.
      intros H Uk j Hj. unfold par_usage. apply par_dyn_keep. eapply par_ops_used; [exact H|exact Uk|]. apply par_args_marks; auto. apply HO. eapply nth_error_In; eauto.
    Qed.

    (** ** get_op_previous *)
    Section Prev.
      Variables (opc : opvar -> nat) (hsize limit : nat) (U : nat -> bool).
      Hypothesis H0 : exists i, nth_error L 0 = Some i /\ i_op i = BeginOp.
      Definition veq (u v : nat) : Prop := forall P V, vsweep P L V u = @vsweep b P L V v.
      Record prev_ok (k : nat) (prev : nat -> nat) : Prop := {
        pv_ok : forall j c, prev j = c -> c <> 0 -> c < j /\ j < k /\ U c = true /\ prev c = 0 /\
          exists ij ic, nth_error L j = Some ij /\ nth_error L c = Some ic /\ i_op ij = i_op ic /\ g_match (i_op ij) = true /\ (0 < num_res (i_op ij) -> veq (i_var ij) (i_var ic)) }.
      Definition tab_ok (k : nat) (prev : nat -> nat) (H : nat -> list (nat * ins)) : Prop :=
        forall code c ic, In (c, ic) (H code) -> c < k /\ nth_error L c = Some ic /\ U c = true /\ g_match (i_op ic) = true /\ prev c = 0.

      Lemma arg_len i : In i L -> g_match (i_op i) = true -> length (i_arg i) = length (arg_is_var (i_op i)).
      Proof. intros Hi M. rewrite (HL i Hi). destruct i as [o a v]. cbn [i_op i_arg] in *. destruct o; try discriminate M; reflexivity. Qed.
      Lemma matches_ok v2p i ic : In i L -> In ic L -> g_match (i_op i) = true -> (forall v, veq (v2p v) v) ->
        op_matches v2p (i_op i) (arg_match v2p (i_op i) (i_arg i)) ic = true -> i_op i = i_op ic /\ forall P V, semv (i_op i) (i_arg i) P (vsweep P L V) = semv (i_op ic) (i_arg ic) P (vsweep P L V).
      Proof.
        intros Hi Hic M VE OM. unfold op_matches in OM. apply andb_true_iff in OM as [O1 O2]. destruct (opvar_eq_dec (i_op i) (i_op ic)) as [EO|]; [|discriminate].
        split; auto. intros P V. rewrite <- EO. pose proof (arg_len i Hi M) as La. pose proof (arg_len ic Hic ltac:(now rewrite <- EO)) as Lc. rewrite <- EO in Lc.
        set (o := i_op i) in *. set (a := i_arg i) in *. set (a' := i_arg ic) in *. set (W := vsweep P L V).
        assert (forall v, W (v2p v) = W v) as WE by (intros v; apply VE).
        assert (forall x y, (x =? v2p y) = true -> W x = W y) as XE by (intros x y E; apply Nat.eqb_eq in E; subst x; auto).
        destruct (g_comm o) eqn:GC.
        - assert (arg_is_var o = [true; true]) as AV by (destruct o; try discriminate GC; reflexivity). rewrite AV in *. cbn in La, Lc.
          destruct a as [|x [|y [|z a]]]; try discriminate La. destruct a' as [|x' [|y' [|z' a']]]; try discriminate Lc.
          unfold same_args, arg_match in O2. rewrite GC, AV in O2. cbn [nth swap_le] in O2.
          assert (W x = W x' /\ W y = W y' \/ W x = W y' /\ W y = W x') as [[E1 E2]|[E1 E2]].
          { destruct (v2p y <? v2p x); cbn [nth combine forallb] in O2; rewrite ?andb_true_r, ?andb_true_l in O2; apply orb_true_iff in O2 as [O2|O2]; repeat (apply andb_true_iff in O2 as [O2 ?]);
              repeat match goal with H : (_ =? v2p _) = true |- _ => apply XE in H; rewrite WE in H end; auto. }
          + apply semv_agree; auto. intros [|[|j]] Hj; rewrite AV; cbn; auto. rewrite AV in Hj. cbn in Hj. lia.
          + apply semv_comm; auto.
        - rewrite andb_false_l, orb_false_r in O2. unfold same_args, arg_match in O2. rewrite GC in O2. apply semv_agree; auto.
          revert O2. unfold agree. clear -La Lc XE WE. clearbody a a'. revert a a' La Lc. induction (arg_is_var o) as [|v l IH]; intros [|x a] [|x' a'] La Lc; try discriminate; [cbn; intros; lia|].
          cbn [combine map forallb]. intros O2. apply andb_true_iff in O2 as [O2 O3]. cbn in La, Lc. injection La as La. injection Lc as Lc. intros [|j] Hj; cbn [nth].
          + destruct v; [apply XE in O2; now rewrite WE in O2|now apply Nat.eqb_eq in O2].
          + apply IH; auto. cbn in Hj. lia.
      Qed.
      Lemma match_res o : supp o = true -> g_match o = true -> ishead o = false.
      Proof. destruct o; try discriminate; auto. Qed.
      Lemma prev_loop_ok rest : forall pre st, L = pre ++ rest -> let '(prev, v2p, H) := st in
        prev_ok (length pre) prev -> tab_ok (length pre) prev H -> (forall v, veq (v2p v) v) ->
        prev_ok (length L) (fst (fst (prev_loop opc hsize limit U (length pre) rest st))).
      Proof.
        induction rest as [|i rest IH]; intros pre st EL; destruct st as [[prev v2p] H]; intros PO TO VO; cbn [prev_loop].
        - cbn [fst]. rewrite EL, app_nil_r. exact PO.
        - assert (nth_error L (length pre) = Some i) as Hi by (rewrite EL, nth_error_app2, Nat.sub_diag by lia; reflexivity).
          pose proof (nth_error_In _ _ Hi) as Ii.
          assert (L = (pre ++ [i]) ++ rest) as EL' by (rewrite <- app_assoc; exact EL).
          assert (length (pre ++ [i]) = S (length pre)) as LP by (rewrite app_length; cbn; lia).
          assert (prev (length pre) = 0) as P0 by (destruct (Nat.eq_dec (prev (length pre)) 0) as [|N]; auto; destruct (pv_ok _ _ PO _ _ eq_refl N) as (_ & ? & _); lia).
          assert (prev_ok (S (length pre)) prev) as PO' by (constructor; intros j c E N; destruct (pv_ok _ _ PO j c E N) as (A & B & C); split; auto).
          assert (tab_ok (S (length pre)) prev H) as TO' by (intros code c ic Hin; destruct (TO _ _ _ Hin) as (A & B); split; auto).
          destruct (U (length pre) && g_match (i_op i)) eqn:C.
          2:{ rewrite <- LP in *. apply (IH (pre ++ [i]) (prev, v2p, H) EL'); auto. }
          apply andb_true_iff in C as [C1 C2]. unfold match_op. cbv zeta.
          destruct (find _ _) as [[c ic]|] eqn:F.
          + apply find_some in F as [F1 F2]. destruct (TO _ _ _ F1) as (A1 & A2 & A3 & A4 & A5). pose proof (nth_error_In _ _ A2) as Iic.
            destruct (matches_ok v2p i ic Ii Iic C2 VO F2) as [M1 M2].
            assert (c <> 0) as Nc.
            { intros ->. destruct H0 as (i0 & G1 & G2). rewrite A2 in G1. injection G1 as <-. rewrite G2 in A4. discriminate. }
            assert (0 < num_res (i_op i) -> veq (i_var i) (i_var ic)) as VE.
            { intros R P V. rewrite (sweep_eq P V _ i Hi R (match_res _ (HO i Ii) C2)). rewrite M2. symmetry. apply (sweep_eq P V c ic); auto; [now rewrite <- M1|apply match_res; auto]. }
            rewrite <- LP in *. apply (IH (pre ++ [i]) (fset prev (length pre) c, if 0 <? num_res (i_op i) then fset v2p (i_var i) (i_var ic) else v2p, H) EL').
            * constructor. intros j c' E N. unfold fset in E at 1. destruct (Nat.eqb_spec j (length pre)) as [->|Nj].
              -- subst c'. split; auto. split; [lia|]. split; auto. split; [rewrite fset_ne by lia; auto|]. exists i, ic. auto.
              -- destruct (pv_ok _ _ PO' j c' E N) as (B1 & B2 & B3 & B4 & B5). destruct (pv_ok _ _ PO j c' E N) as (_ & B6 & _). split; auto. split; auto. split; auto. split; auto. rewrite fset_ne by lia. auto.
            * intros code c' ic' Hin. destruct (TO' _ _ _ Hin) as (B1 & B2 & B3 & B4 & B5). destruct (TO _ _ _ Hin) as (B6 & _). split; auto. split; auto. split; auto. split; auto. rewrite fset_ne by lia. auto.
            * destruct (Nat.ltb_spec 0 (num_res (i_op i))) as [R|R]; auto. intros v P V. unfold fset. destruct (Nat.eqb_spec v (i_var i)) as [->|]; [|apply VO]. symmetry. apply VE; auto.
          + rewrite <- LP in *. apply (IH (pre ++ [i]) (prev, v2p, _) EL'); auto.
            intros code c ic Hin. unfold fset in Hin. destruct (code =? _).
            * apply in_app_or in Hin as [Hin|[Hin|[]]].
              -- apply (TO' (hash_code hsize (opc (i_op i)) (arg_match v2p (i_op i) (i_arg i)))). destruct (length _ =? limit); [easy|exact Hin].
              -- injection Hin as <- <-. split; [lia|]. auto.
            * apply (TO' _ _ _ Hin).
      Qed.
      Lemma op_previous_ok : prev_ok (length L) (op_previous opc hsize limit U L).
      Proof.
        unfold op_previous. apply (prev_loop_ok L [] (fun _ => 0, fun v => v, fun _ => []) eq_refl).
        - constructor. intros j c <- []. reflexivity.
        - intros code c ic [].
        - intros v P V. reflexivity.
      Qed.
    End Prev.
  End Tape.
End Ops.
