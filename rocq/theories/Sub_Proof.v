(** Subgraph calculations: marks, the breadth first search, and the restricted reverse sweep. *)
From Coq Require Import ZArith List Bool Arith Lia Sorted.
From Verif Require Import Base_Spec Op_Model Tape_Spec Tape_Model Tape_Proof2 Sweep_Model Sweep_Eqs Sweep_Eqs2 Sweep_Tape Sweep_Uniq Tape_Swf
  Drv_Model Rev_Zero Sub_Spec Sub_Model.
Import ListNotations.

(** what is used of an operation sequence *)
Record tape_ok (np n : nat) (l : list ins) (dep : list nat) : Prop := {
  k_wfl : wfl np 0 0 l;
  k_arg : forall k i x, nth_error l k = Some i -> 0 < num_res (i_op i) -> In x (var_args (i_op i) (i_arg i)) ->
            exists k', k' < k /\ var2op l 0 x = Some k';
  k_inv : forall k i, nth_error l k = Some i -> i_op i = InvOp -> 1 <= k <= n /\ i_var i = k;
  k_inv2 : forall j, j < n -> nth_error l (S j) = Some (mkIns InvOp [] (S j));
  k_dep : forall ell, ell < length dep -> exists k, var2op l 0 (nth ell dep 0) = Some k;
  k_av : forall k i, nth_error l k = Some i -> 0 < num_res (i_op i) -> argument_variable (i_op i) (i_arg i) = var_args (i_op i) (i_arg i);
  k_beg : exists a v, nth_error l 0 = Some (mkIns BeginOp a v);
  k_end : exists a v, nth_error l (length l - 1) = Some (mkIns EndOp a v);
  k_len : S n < length l }.

(** first result of the operator with index [k] *)
Definition vstart (l : list ins) (k : nat) : nat := tres (firstn k l).
Lemma tres_app l l' : tres (l ++ l') = tres l + tres l'.
Proof. induction l as [|i l IH]; cbn [app tres]; [auto|]. rewrite IH. lia. Qed.
Lemma wfl_at np l : forall nv nl k i, wfl np nv nl l -> nth_error l k = Some i ->
  exists lp nl', wfl np (nv + vstart l k) nl' (i :: lp).
Proof.
  induction l as [|i0 l IH]; intros nv nl k i W E; [destruct k; discriminate|].
  destruct k as [|k].
  - cbn in E. injection E as <-. exists l, nl. unfold vstart. cbn [firstn tres]. now rewrite Nat.add_0_r.
  - cbn [nth_error] in E. pose proof W as (_ & _ & _ & _ & _ & W2). destruct (IH _ _ _ _ W2 E) as (lp & nl' & H).
    exists lp, nl'. unfold vstart in *. cbn [firstn tres]. now rewrite Nat.add_assoc.
Qed.
Lemma vstart_S l k i : nth_error l k = Some i -> vstart l (S k) = vstart l k + num_res (i_op i).
Proof.
  intros E. unfold vstart. revert k E. induction l as [|i0 l IH]; intros k E; [destruct k; discriminate|].
  destruct k as [|k]; cbn in E.
  - injection E as <-. cbn [firstn tres]. lia.
  - change (firstn (S (S k)) (i0 :: l)) with (i0 :: firstn (S k) l). change (firstn (S k) (i0 :: l)) with (i0 :: firstn k l). cbn [tres]. rewrite (IH k E). lia.
Qed.
Lemma vstart_mono l j k : j <= k -> vstart l j <= vstart l k.
Proof.
  induction 1 as [|k H IH]; auto. destruct (nth_error l k) as [i|] eqn:E.
  - rewrite (vstart_S _ _ _ E). lia.
  - unfold vstart in *. apply nth_error_None in E. rewrite (firstn_all2 l (n := S k)) by lia. rewrite (firstn_all2 l (n := k)) in IH by lia. auto.
Qed.

Section Tape.
  Context (np n : nat) (l : list ins) (dep : list nat).
  Hypothesis TK : tape_ok np n l dep.
  Lemma ivar k i : nth_error l k = Some i -> i_var i = vstart l k + num_res (i_op i) - 1.
  Proof. intros E. destruct (wfl_at np l 0 0 k i (k_wfl _ _ _ _ TK) E) as (lp & nl' & H & _). exact H. Qed.
  Lemma ivar_inj j k i i' : nth_error l j = Some i -> nth_error l k = Some i' -> 0 < num_res (i_op i) -> 0 < num_res (i_op i') ->
    i_var i = i_var i' -> j = k.
  Proof.
    intros E E' N N' V. rewrite (ivar _ _ E), (ivar _ _ E') in V. pose proof (vstart_S _ _ _ E) as S1. pose proof (vstart_S _ _ _ E') as S2.
    destruct (Nat.lt_trichotomy j k) as [H|[H|H]]; auto.
    - pose proof (vstart_mono l (S j) k H). lia.
    - pose proof (vstart_mono l (S k) j H). lia.
  Qed.
  Lemma var2op_some : forall l' k0 v k, var2op l' k0 v = Some k -> k0 <= k /\ exists i, nth_error l' (k - k0) = Some i /\ 0 < num_res (i_op i) /\ i_var i = v.
  Proof.
    induction l' as [|i l' IH]; intros k0 v k E; cbn [var2op] in E; [discriminate|].
    destruct (Nat.ltb_spec 0 (num_res (i_op i))) as [N|N], (Nat.eqb_spec (i_var i) v) as [V|V]; cbn [andb] in E.
    - injection E as <-. split; auto. exists i. rewrite Nat.sub_diag. auto.
    - destruct (IH _ _ _ E) as (A & i' & B). split; [lia|]. exists i'. replace (k - k0) with (S (k - S k0)) by lia. auto.
    - destruct (IH _ _ _ E) as (A & i' & B). split; [lia|]. exists i'. replace (k - k0) with (S (k - S k0)) by lia. auto.
    - destruct (IH _ _ _ E) as (A & i' & B). split; [lia|]. exists i'. replace (k - k0) with (S (k - S k0)) by lia. auto.
  Qed.
  Lemma var2op_none : forall l' k0 k i, nth_error l' k = Some i -> 0 < num_res (i_op i) -> var2op l' k0 (i_var i) <> None.
  Proof.
    induction l' as [|i0 l' IH]; intros k0 k i E N; [destruct k; discriminate|]. cbn [var2op].
    destruct ((0 <? num_res (i_op i0)) && (i_var i0 =? i_var i)) eqn:C; [discriminate|]. destruct k as [|k]; cbn in E.
    - injection E as ->. rewrite Nat.eqb_refl, andb_true_r in C. apply Nat.ltb_ge in C. lia.
    - eapply IH; eauto.
  Qed.
  Lemma var2op_iff v k : var2op l 0 v = Some k <-> exists i, nth_error l k = Some i /\ 0 < num_res (i_op i) /\ i_var i = v.
  Proof.
    split.
    - intros E. apply var2op_some in E as (_ & i & E). rewrite Nat.sub_0_r in E. eauto.
    - intros (i & E & N & <-). destruct (var2op l 0 (i_var i)) as [k'|] eqn:C; [|exfalso; eapply var2op_none; eauto].
      pose proof C as C0. apply var2op_some in C as (_ & i' & C & N' & V'). rewrite Nat.sub_0_r in C. f_equal. symmetry. eapply ivar_inj; eauto.
  Qed.

  (** the operator with result [v] *)
  Definition isop (v k : nat) : Prop := exists i, nth_error l k = Some i /\ vstart l k <= v < vstart l k + num_res (i_op i).
  Lemma isop_inj v j k : isop v j -> isop v k -> j = k.
  Proof.
    intros (i & E & H) (i' & E' & H'). pose proof (vstart_S _ _ _ E) as S1. pose proof (vstart_S _ _ _ E') as S2.
    destruct (Nat.lt_trichotomy j k) as [G|[G|G]]; auto.
    - pose proof (vstart_mono l (S j) k G). lia.
    - pose proof (vstart_mono l (S k) j G). lia.
  Qed.
  Lemma isop_var2op v k : var2op l 0 v = Some k -> isop v k.
  Proof. intros E. apply var2op_iff in E as (i & E & N & <-). exists i. split; auto. rewrite (ivar _ _ E). lia. Qed.

  (** *** dependence *)
  Lemma uses_inv v w : uses l v w -> forall k i, nth_error l k = Some i -> 0 < num_res (i_op i) -> i_var i = v ->
    w = v \/ exists x, In x (var_args (i_op i) (i_arg i)) /\ uses l x w.
  Proof.
    intros U k i E N V. destruct U as [v|i' x w Hi N' Hx U]; [auto|]. right.
    apply In_nth_error in Hi as (k' & E'). assert (k' = k) by (eapply ivar_inj; eauto). subst k'. assert (i' = i) by congruence. subst. eauto.
  Qed.
  Lemma uses_trans v w z : uses l v w -> uses l w z -> uses l v z.
  Proof. intros U. revert z. induction U; intros z Z; auto. econstructor; eauto. Qed.

  Context (sel : list bool).
  (** the result of operator [k] is computed from a selected independent variable *)
  Definition Dep (k : nat) : Prop := exists i j, nth_error l k = Some i /\ 0 < num_res (i_op i) /\ j < n /\ nth j sel false = true /\ uses l (i_var i) (S j).

  Lemma Dep_inv k i : nth_error l k = Some i -> i_op i = InvOp -> (Dep k <-> nth (k - 1) sel false = true).
  Proof.
    intros E O. destruct (k_inv _ _ _ _ TK _ _ E O) as [Hk V]. split.
    - intros (i' & j & E' & N & Hj & S & U). assert (i' = i) by congruence. subst i'.
      destruct (uses_inv _ _ U k i E N eq_refl) as [W|(x & Hx & _)].
      + rewrite V in W. replace (k - 1) with j by lia. auto.
      + rewrite O in Hx. destruct Hx.
    - intros S. exists i, (k - 1). rewrite O. cbn. repeat split; auto; try lia. rewrite V. replace (Datatypes.S (k - 1)) with k by lia. constructor.
  Qed.
  Lemma Dep_op k i : nth_error l k = Some i -> 0 < num_res (i_op i) -> i_op i <> InvOp ->
    (Dep k <-> exists x k', In x (var_args (i_op i) (i_arg i)) /\ var2op l 0 x = Some k' /\ Dep k').
  Proof.
    intros E N O. split.
    - intros (i' & j & E' & _ & Hj & S & U). assert (i' = i) by congruence. subst i'.
      destruct (uses_inv _ _ U k i E N eq_refl) as [W|(x & Hx & Ux)].
      + exfalso. pose proof (k_inv2 _ _ _ _ TK j Hj) as E2. assert (Datatypes.S j = k) as <-.
        { eapply ivar_inj; eauto. }
        rewrite E in E2. injection E2 as ->. apply O. reflexivity.
      + destruct (k_arg _ _ _ _ TK _ _ _ E N Hx) as (k' & Hk & V). exists x, k'. split; [auto|]. split; [auto|].
        apply var2op_iff in V as (i' & E2 & N2 & V2). exists i', j. rewrite V2. auto.
    - intros (x & k' & Hx & V & (i' & j & E' & N' & Hj & S & U)). exists i, j. repeat split; auto.
      apply var2op_iff in V as (i2 & E2 & N2 & V2). assert (i2 = i') by congruence. subst i2. rewrite V2 in U.
      econstructor; eauto. eapply nth_error_In; eauto.
  Qed.
  Lemma Dep_res k : Dep k -> exists i, nth_error l k = Some i /\ 0 < num_res (i_op i).
  Proof. intros (i & j & E & N & _). eauto. Qed.
  Lemma Dep_lt k : Dep k -> k < length l.
  Proof. intros (i & j & E & N & _). apply nth_error_Some. congruence. Qed.

  (** *** init_rev *)
  Notation m := (length dep).
  Lemma any_yes_ok mark k : (forall k', k' < k -> (mark k' = m <-> Dep k')) -> forall args,
    (forall x, In x args -> exists k', k' < k /\ var2op l 0 x = Some k') ->
    exists r, any_yes l m mark args = Some r /\ (r = true <-> exists x k', In x args /\ var2op l 0 x = Some k' /\ Dep k').
  Proof.
    intros HM. induction args as [|x args IH]; intros HA.
    - exists false. split; [reflexivity|]. split; [discriminate|]. intros (x & k' & [] & _).
    - destruct IH as (r & Er & Hr); [intros; apply HA; now right|]. destruct (HA x (or_introl eq_refl)) as (k' & Hk & V).
      cbn [any_yes]. rewrite V, Er. eexists. split; [reflexivity|]. rewrite orb_true_iff, Nat.eqb_eq, (HM k' Hk), Hr. split.
      + intros [D|(x' & k2 & H1 & H2)]; [exists x, k'|exists x', k2]; cbn [In]; tauto.
      + intros (x' & k2 & [<-|H1] & H2 & H3); [left; congruence|right; eauto].
  Qed.
  Lemma init_marks_ok : forall suf pre mark, l = pre ++ suf ->
    (forall k, k < length pre -> (mark k = m <-> Dep k)) -> (forall k, mark k = m \/ mark k = S m) ->
    exists mark', init_marks l suf m sel (length pre) mark = Some mark' /\ (forall k, k < length l -> (mark' k = m <-> Dep k)) /\ (forall k, mark' k = m \/ mark' k = S m).
  Proof.
    induction suf as [|i suf IH]; intros pre mark El HM HR; cbn [init_marks].
    - rewrite app_nil_r in El. rewrite El. eauto.
    - assert (nth_error l (length pre) = Some i) as E by (rewrite El, nth_error_app2, Nat.sub_diag by lia; reflexivity).
      assert (exists y, (if is_inv (i_op i) then Some (nth (length pre - 1) sel false)
           else if 0 <? num_res (i_op i) then any_yes l m mark (argument_variable (i_op i) (i_arg i)) else Some false) = Some y /\ (y = true <-> Dep (length pre))) as (y & Ey & Hy).
      { destruct (is_inv (i_op i)) eqn:O.
        - eexists. split; [reflexivity|]. symmetry. apply (Dep_inv _ i); auto. destruct (i_op i); auto; discriminate.
        - destruct (Nat.ltb_spec 0 (num_res (i_op i))) as [N|N].
          + rewrite (k_av _ _ _ _ TK _ _ E N). destruct (any_yes_ok mark (length pre) HM (var_args (i_op i) (i_arg i))) as (r & Er & Hr).
            * intros x Hx. eapply (k_arg _ _ _ _ TK); eauto.
            * exists r. split; auto. rewrite Hr. symmetry. apply Dep_op; auto. intros O'. rewrite O' in O. discriminate.
          + exists false. split; auto. split; [discriminate|]. intros D. apply Dep_res in D as (i' & E' & N'). assert (i' = i) by congruence. subst. lia. }
      rewrite Ey. replace (S (length pre)) with (length (pre ++ [i])) by (rewrite app_length; cbn; lia).
      apply IH.
      + rewrite <- app_assoc. exact El.
      + intros k Hk. rewrite app_length in Hk. cbn in Hk. unfold upd_at. destruct (Nat.eqb_spec k (length pre)) as [->|].
        * rewrite <- Hy. destruct y; split; auto; try discriminate; lia.
        * apply HM. lia.
      + intros k. unfold upd_at. destruct (k =? length pre); auto. destruct y; auto.
  Qed.

  (** the state between calls: the marks at most [m] are those of the operators that depend on the selected
      independent variables; the marks less than [m] are those of dependent variables already processed *)
  Record sg_ok (s : sginfo) : Prop := {
    o_sel : s_sel s = sel;
    o_dep : forall k, k < length l -> (s_mark s k <= m <-> Dep k);
    o_new : forall k, k < length l -> s_mark s k < m -> s_proc s (s_mark s k) = true }.
  Lemma init_rev_ok : exists s, init_rev l m sel = Some s /\ sg_ok s /\ forall i, s_proc s i = false.
  Proof.
    unfold init_rev. destruct (init_marks_ok l [] (fun _ => S m)) as (mark & E & H1 & H2); auto; [cbn; intros; lia|].
    cbn [length] in E. rewrite E. eexists. split; [reflexivity|]. split; auto. constructor; cbn; auto.
    - intros k Hk. rewrite <- H1 by auto. destruct (H2 k) as [-> | ->]; lia.
    - intros k Hk L. destruct (H2 k) as [E1|E1]; rewrite E1 in L; lia.
  Qed.
End Tape.
