(** C22, the new operation sequence. *)
From Coq Require Import List Bool Arith Lia.
From Verif Require Import Base_Spec Op_Model Tape_Spec Tape_Model Tape_Proof Tape_Proof2 Tape_Swf Sweep_Eqs Sweep_Uniq Abs_Proof Abs_Proof3 Opt_Model Opt_Proof Opt_Proof2 Opt_Proof3.
Import ListNotations.

Lemma opt_args_ext m m' np vi nl o a : supp o = true -> (forall j, In j (var_args o a) -> m j = m' j) -> opt_args m np vi nl o a = opt_args m' np vi nl o a.
Proof.
  intros S H. destruct o; try discriminate S; cbn [var_args] in H; cbn [opt_args g_unary g_vp g_cvp g_dis g_pv g_cpv g_vv g_cvv g_cpp orb];
    rewrite ?(H (nth 0 a 0)), ?(H (nth 1 a 0)) by (cbn [In]; auto); try reflexivity.
  assert (forall bit j, In (bit, j) [(0, 2); (1, 3); (2, 4); (3, 5)] ->
      (if Nat.testbit (nth 1 a 0) bit then m (nth j a 0) else np (nth j a 0)) = (if Nat.testbit (nth 1 a 0) bit then m' (nth j a 0) else np (nth j a 0))) as E.
  { intros bit j Hin. destruct (Nat.testbit (nth 1 a 0) bit) eqn:F; [apply H|reflexivity]; cbn [In] in Hin;
      destruct Hin as [Hin|[Hin|[Hin|[Hin|[]]]]]; injection Hin as <- <-; rewrite F, ?in_app_iff; cbn [In]; auto 10. }
  rewrite (E 0 2), (E 1 3), (E 2 4), (E 3 5) by (cbn; auto). reflexivity.
Qed.
Lemma var_args_opt m np vi nl o a ex x : supp o = true -> In x (var_args o (opt_args m np vi nl o a ++ ex)) -> exists j, In j (var_args o a) /\ x = m j.
Proof.
  intros S. destruct o; try discriminate S; cbn [opt_args g_unary g_vp g_cvp g_dis g_pv g_cpv g_vv g_cvv g_cpp orb app var_args nth In]; try (intros [<-|[<-|[]]]; eauto; fail); try (intros [<-|[]]; eauto; fail); try (intros []; fail).
  rewrite !in_app_iff. intros H.
  assert (forall bit j, In (bit, j) [(0, 2); (1, 3); (2, 4); (3, 5)] -> In x (if Nat.testbit (nth 1 a 0) bit then [if Nat.testbit (nth 1 a 0) bit then m (nth j a 0) else np (nth j a 0)] else []) ->
    exists i, In i (if Nat.testbit (nth 1 a 0) bit then [nth j a 0] else []) /\ x = m i) as E.
  { intros bit j _ Hx. destruct (Nat.testbit (nth 1 a 0) bit); [|destruct Hx]. destruct Hx as [<-|[]]. eexists. split; [now left|reflexivity]. }
  destruct H as [H|[H|[H|H]]]; apply E in H as (i & Hi & ->); cbn; auto; exists i; rewrite !in_app_iff; auto.
Qed.
Lemma map_inv m : forall s, map (fun _ : nat => InvOp) (seq s m) = repeat InvOp m.
Proof. induction m as [|m IH]; intros s; cbn; auto. now rewrite IH. Qed.
Definition erfn (o : opvar) : nat := if g_erf o then 2 else 0.
Lemma n_actual_opt m np vi nl o a ex : supp o = true -> ishead o = false -> o <> EndOp -> length ex = erfn o -> n_actual o (opt_args m np vi nl o a ++ ex) = length (opt_args m np vi nl o a ++ ex).
Proof. intros S H E L. rewrite app_length, L. destruct o; try discriminate S; try discriminate H; try reflexivity; now destruct E. Qed.

Section Loop.
  Context {b : base}.
  Notation T := (bt b).
  Implicit Types r : rec b.
  Hypothesis ideq_eq : forall x y : T, ideq x y = true -> x = y.
  Variable r0 : rec b.
  Hypothesis W0 : dwf r0.

  (** the recording [r] is [r0] with the operators [lg] and more constants *)
  Record emits (lg : list ins) r : Prop := {
    em_op : r_op r = map i_op lg; em_arg : r_arg r = concat (map i_arg lg); em_nv : r_nvar r = tres lg; em_ld : r_nload r = 0; em_vec : r_vec r = r_vec r0; em_ext : cext r0 r;
    em_num : numd 0 lg; em_act : Forall (fun i => n_actual (i_op i) (i_arg i) = length (i_arg i)) lg }.
  Lemma tres_app l l' : tres (l ++ l') = tres l + tres l'.
  Proof. induction l as [|i l IH]; cbn [app tres]; auto. rewrite IH. lia. Qed.
  Lemma emits_dwf lg r : emits lg r -> dwf r.
  Proof. intros E. exact (proj1 (cext_dwf _ _ (em_ext _ _ E) W0)). Qed.
  Lemma emits_add lg r o a r' : emits lg r -> n_actual o a = length a ->
    r_op r' = r_op r ++ [o] -> r_arg r' = r_arg r ++ a -> r_nvar r' = r_nvar r + num_res o -> r_nload r' = r_nload r -> r_vec r' = r_vec r -> cext r r' ->
    emits (lg ++ [mkIns o a (r_nvar r + num_res o - 1)]) r'.
  Proof.
    intros [A B C D E F G H] L H1 H2 H3 H4 H5 H6. constructor.
    - rewrite H1, A, map_app. reflexivity.
    - rewrite H2, B, map_app, concat_app. cbn. now rewrite app_nil_r.
    - rewrite H3, C, tres_app. cbn. lia.
    - congruence.
    - congruence.
    - eapply cext_trans; eauto.
    - apply numd_app. split; auto. cbn. rewrite C. auto.
    - apply Forall_app. split; auto.
  Qed.
  Lemma emits_op lg r o a : emits lg r -> n_actual o a = length a -> let (r', w) := put_op (put_arg r a) o in
    emits (lg ++ [mkIns o a w]) r' /\ w = r_nvar r + num_res o - 1 /\ cext r r' /\ r_op r' = r_op r ++ [o] /\ r_arg r' = r_arg r ++ a /\ r_nvar r' = r_nvar r + num_res o /\ r_nload r' = r_nload r /\ r_vec r' = r_vec r.
  Proof.
    intros E L. cbn [put_op put_arg]. assert (forall r', r_par r' = r_par r -> r_isdyn r' = r_isdyn r -> r_dop r' = r_dop r -> r_darg r' = r_darg r -> cext r r') as X by (intros; now apply cext_refl).
    split; [|repeat (split; [first [reflexivity|now apply X]|]); reflexivity]. apply (emits_add lg r); auto.
  Qed.

  Lemma put_op_f r o a : let (r', w) := put_op (put_arg r a) o in
    w = r_nvar r + num_res o - 1 /\ cext r r' /\ r_op r' = r_op r ++ [o] /\ r_arg r' = r_arg r ++ a /\ r_nvar r' = r_nvar r + num_res o /\ r_nload r' = r_nload r /\ r_vec r' = r_vec r.
  Proof. cbn. split; auto. split; [now apply cext_refl|]. auto 10. Qed.

  (** every argument is the result of an earlier operator *)
  Definition argsok (l : list ins) : Prop := forall k i, nth_error l k = Some i -> forall j, In j (var_args (i_op i) (i_arg i)) ->
      exists kj ij, kj < k /\ nth_error l kj = Some ij /\ 0 < num_res (i_op ij) /\ i_var ij = j.
  Lemma argsok_add l i : argsok l -> (forall j, In j (var_args (i_op i) (i_arg i)) -> exists ij, In ij l /\ 0 < num_res (i_op ij) /\ i_var ij = j) -> argsok (l ++ [i]).
  Proof.
    intros A H k i' Hi j Hj. destruct (Nat.lt_ge_cases k (length l)) as [Hk|Hk].
    - rewrite nth_error_app1 in Hi by auto. destruct (A k i' Hi j Hj) as (kj & ij & B & C & D). exists kj, ij. split; auto. split; auto. rewrite nth_error_app1 by lia. auto.
    - rewrite nth_error_app2 in Hi by auto. destruct (k - length l) eqn:E; [|destruct n; discriminate]. injection Hi as <-. destruct (H j Hj) as (ij & B & C & D).
      apply In_nth_error in B as (kj & B). assert (kj < length l) by (apply nth_error_Some; congruence). exists kj, ij. split; [lia|]. rewrite nth_error_app1 by auto. auto.
  Qed.

  Variables (n : nat) (rest : list ins) (U : nat -> bool) (prev np : nat -> nat) (vi : nat -> nat).
  Notation L := (head_ins n ++ rest).
  Hypothesis HN : numd 0 L.
  Hypothesis HA : argsok L.
  Hypothesis HO : forall i, In i L -> supp (i_op i) = true.
  Hypothesis HR : forall i, In i rest -> ishead (i_op i) = false.
  Hypothesis HU : forall k i, nth_error L k = Some i -> ishead (i_op i) = true \/ i_op i = EndOp -> U k = true.
  Hypothesis HC : forall k i, nth_error L k = Some i -> U k = true -> forall j, In j (var_args (i_op i) (i_arg i)) -> U (var2op 0 L j) = true.
  Hypothesis HP : forall j c, prev j = c -> c <> 0 -> c < j /\ U c = true /\ prev c = 0 /\
    exists ij ic, nth_error L j = Some ij /\ nth_error L c = Some ic /\ i_op ij = i_op ic /\ g_match (i_op ij) = true.
  Notation step := (opt_step L U prev np vi).
  Notation m nv := (fun v => nv (var2op 0 L v)).

  (** what is known about operator number [j] of the old sequence *)
  Definition done_ok (lg : list ins) (nv : nat -> nat) (j : nat) : Prop := forall i, nth_error L j = Some i -> U j = true -> 0 < num_res (i_op i) ->
    (exists i', In i' lg /\ 0 < num_res (i_op i') /\ i_var i' = nv j) /\
    (if ishead (i_op i) then nv j = j else
     if prev j =? 0 then exists i' ex, In i' lg /\ i_op i' = i_op i /\ i_var i' = nv j /\ i_arg i' = opt_args (m nv) np vi 0 (i_op i) (i_arg i) ++ ex
     else nv j = nv (prev j)).
  Record inv (k : nat) (lg2 : list ins) r (nv : nat -> nat) : Prop := {
    iv_em : emits (head_ins n ++ lg2) r; iv_args : argsok (head_ins n ++ lg2); iv_sup : forall i, In i lg2 -> supp (i_op i) = true /\ ishead (i_op i) = false;
    iv_done : forall j, j < k -> done_ok (head_ins n ++ lg2) nv j }.

  Lemma done_ext lg lg' nv nv' k j : done_ok lg nv j -> (forall i, In i lg -> In i lg') -> (forall x, x <> k -> nv' x = nv x) -> j < k -> done_ok lg' nv' j.
  Proof.
    intros D I E Hj i Hi Uj R. destruct (D i Hi Uj R) as [(i' & A & B & C) D2].
    assert (nv' j = nv j) as Ej by (apply E; lia). split; [exists i'; rewrite Ej; auto|].
    destruct (ishead (i_op i)) eqn:H; [congruence|]. destruct (Nat.eqb_spec (prev j) 0) as [P0|P0].
    - destruct D2 as (i2 & ex & D3 & D4 & D5 & D6). exists i2, ex. split; auto. split; auto. split; [congruence|]. rewrite D6. f_equal.
      apply opt_args_ext; [apply HO; eapply nth_error_In; eauto|]. intros v Hv. symmetry. apply E. destruct (arg_v2o L HN HA _ _ _ Hi Hv) as (_ & _ & Q & _). lia.
    - rewrite Ej, D2. symmetry. apply E. destruct (HP j _ eq_refl P0) as (Q & _). lia.
  Qed.

  Lemma match_nohead o : supp o = true -> g_match o = true -> ishead o = false.
  Proof. destruct o; try discriminate; auto. Qed.
  Lemma classify o : supp o = true -> ishead o = false -> o <> EndOp -> g_match o = true \/ (g_match o = false /\ is_simple o = true).
  Proof. destruct o; try discriminate; auto; intros _ _ H; now destruct H. Qed.

  (** one operator that is not at the head *)
  Lemma step_inv k i lg2 r nv : inv k lg2 r nv -> nth_error L k = Some i -> ishead (i_op i) = false -> i_op i <> EndOp -> exists lg3, let (r', nv') := step i k (r, nv) in inv (S k) (lg2 ++ lg3) r' nv'.
  Proof.
    intros [E A S D] Hi NH NE. pose proof (nth_error_In _ _ Hi) as Ii. pose proof (HO i Ii) as SU.
    assert (forall lg3 nv', (forall x, x <> k -> nv' x = nv x) -> done_ok ((head_ins n ++ lg2) ++ lg3) nv' k -> forall j, j < Datatypes.S k -> done_ok (head_ins n ++ lg2 ++ lg3) nv' j) as DN.
    { intros lg3 nv' HX Dk j Hj. rewrite app_assoc. destruct (Nat.eq_dec j k) as [->|Nj]; auto. apply (done_ext (head_ins n ++ lg2) _ nv nv' k); [apply D; lia|intros; apply in_or_app; auto|auto|lia]. }
    unfold opt_step. cbv zeta. set (nv0 := fset nv k (if U k then nv (prev k) else 0)).
    assert (forall x, x <> k -> nv0 x = nv x) as X0 by (intros x Hx; now apply fset_ne).
    destruct (U k) eqn:Uk; cbn [negb].
    2:{ exists []. rewrite app_nil_r. constructor; auto. specialize (DN [] nv0 X0). rewrite !app_nil_r in DN. apply DN. intros i0 Hi0 U0. congruence. }
    assert (prev k <> 0 -> g_match (i_op i) = true /\ done_ok ((head_ins n ++ lg2) ++ []) nv0 k) as PR.
    { intros P0. destruct (HP k _ eq_refl P0) as (Q1 & Q2 & Q3 & ij & ic & Q4 & Q5 & Q6 & Q7). rewrite Hi in Q4. injection Q4 as <-. split; auto. rewrite app_nil_r.
      intros i0 Hi0 _ R. rewrite Hi in Hi0. injection Hi0 as <-. rewrite NH, (proj2 (Nat.eqb_neq _ _) P0).
      assert (nv0 k = nv (prev k)) as Ek by apply fset_eq. assert (nv0 (prev k) = nv (prev k)) as Ec by (apply X0; lia). split; [|congruence].
      destruct (D (prev k) Q1 ic Q5 Q2 ltac:(congruence)) as [Q8 _]. now rewrite Ek. }
    assert (0 = r_nload r) as NL by (symmetry; apply E). rewrite <- NL.
    set (a' := opt_args (m nv0) np vi 0 (i_op i) (i_arg i)).
    assert (forall ex j, In j (var_args (i_op i) (a' ++ ex)) -> exists ij, In ij (head_ins n ++ lg2) /\ 0 < num_res (i_op ij) /\ i_var ij = j) as AO.
    { intros ex j Hj. apply var_args_opt in Hj as (j' & Hj' & ->); auto. destruct (arg_v2o L HN HA _ _ _ Hi Hj') as (ij & Q1 & Q2 & Q3 & Q4).
      destruct (D _ Q2 ij Q1 (HC k i Hi Uk _ Hj') Q3) as [(i2 & Q5 & Q6 & Q7) _]. exists i2. rewrite X0 by lia. auto. }
    assert (forall ex r' w, emits ((head_ins n ++ lg2) ++ [mkIns (i_op i) (a' ++ ex) w]) r' -> prev k = 0 ->
      forall nv', nv' = (if 0 <? num_res (i_op i) then fset nv0 k w else nv0) -> inv (Datatypes.S k) (lg2 ++ [mkIns (i_op i) (a' ++ ex) w]) r' nv') as NEW.
    { intros ex r' w E' P0 nv' ->. rewrite <- app_assoc in E'. assert (forall x, x <> k -> (if 0 <? num_res (i_op i) then fset nv0 k w else nv0) x = nv x) as XN.
      { intros x Hx. destruct (0 <? _); auto. rewrite fset_ne by auto. auto. }
      constructor; auto.
      - rewrite app_assoc. apply argsok_add; auto. cbn [i_op i_arg]. exact (AO ex).
      - intros x Hx. apply in_app_or in Hx as [Hx|[<-|[]]]; auto.
      - apply DN; auto. intros i0 Hi0 _ R. rewrite Hi in Hi0. injection Hi0 as <-. rewrite (proj2 (Nat.ltb_lt _ _) R). rewrite NH, P0. cbn [Nat.eqb].
        assert (In (mkIns (i_op i) (a' ++ ex) w) ((head_ins n ++ lg2) ++ [mkIns (i_op i) (a' ++ ex) w])) as IN by (apply in_or_app; right; now left).
        split; [eexists; split; [exact IN|cbn [i_op i_var]; rewrite fset_eq; auto]|].
        eexists _, ex. split; [exact IN|]. cbn [i_op i_var i_arg]. rewrite fset_eq. split; auto. split; auto. f_equal. unfold a'.
        apply opt_args_ext; auto. intros j Hj. destruct (arg_v2o L HN HA _ _ _ Hi Hj) as (ij & Q1 & Q2 & _). rewrite fset_ne by lia. reflexivity. }
    destruct (classify (i_op i) SU NH NE) as [GM|[GM IS]]; rewrite GM.
    - destruct (Nat.eqb_spec (prev k) 0) as [P0|P0].
      2:{ exists []. rewrite app_nil_r. constructor; auto. destruct (PR P0) as [_ PR']. specialize (DN [] nv0 X0 PR'). now rewrite !app_nil_r in DN. }
      destruct (g_erf (i_op i)) eqn:GE.
      + (* the constants of an error function *)
        set (o := i_op i) in *. pose proof (put_op_f r o a') as F1. destruct (put_op (put_arg r a') o) as [r1 w]. destruct F1 as (Ew & F1 & F2 & F3 & F4 & F5 & F6).
        assert (dwf r1) as W1 by exact (proj1 (cext_dwf _ _ F1 (emits_dwf _ _ E))).
        pose proof (put_con_spec ideq_eq r1 b0 W1) as C1. destruct (put_con_par r1 b0) as [r2 p0]. destruct C1 as (C1 & _ & _ & _ & _ & B1 & B2 & B3 & B4 & B5).
        set (r3 := put_arg r2 [p0]).
        assert (cext r1 r3) as C3 by (eapply cext_trans; [exact C1|now apply cext_refl]).
        assert (dwf r3) as W3 by exact (proj1 (cext_dwf _ _ C3 W1)).
        pose proof (put_con_spec ideq_eq r3 berf W3) as C4. destruct (put_con_par r3 berf) as [r4 p1]. destruct C4 as (C4 & _ & _ & _ & _ & D1 & D2 & D3 & D4 & D5).
        exists [mkIns o (a' ++ [p0; p1]) w]. apply NEW; auto.
        * rewrite Ew. apply emits_add with (r := r); auto.
          -- apply n_actual_opt; auto. unfold erfn. fold o. now rewrite GE.
          -- cbn [put_arg r_op]. rewrite D3. cbn [r3 put_arg r_op]. now rewrite B3.
          -- cbn [put_arg r_arg]. rewrite D4. cbn [r3 put_arg r_arg]. rewrite B4, F3. now rewrite <- !app_assoc.
          -- cbn [put_arg r_nvar]. rewrite D1. cbn [r3 put_arg r_nvar]. now rewrite B1.
          -- cbn [put_arg r_nload]. rewrite D2. cbn [r3 put_arg r_nload]. now rewrite B2.
          -- cbn [put_arg r_vec]. rewrite D5. cbn [r3 put_arg r_vec]. now rewrite B5.
          -- apply cext_trans with r1; [exact F1|]. apply cext_trans with r3; [exact C3|]. apply cext_trans with r4; [exact C4|now apply cext_refl].
        * assert (0 < num_res o) as R by (destruct o; try discriminate GE; cbn; lia). now rewrite (proj2 (Nat.ltb_lt _ _) R).
      + pose proof (emits_op _ r (i_op i) a' E) as K. assert (n_actual (i_op i) a' = length a') as LA.
        { rewrite <- (app_nil_r a'). apply n_actual_opt; auto. unfold erfn. now rewrite GE. }
        specialize (K LA). destruct (put_op (put_arg r a') (i_op i)) as [r1 w]. destruct K as (K & _). exists [mkIns (i_op i) a' w].
        rewrite <- (app_nil_r a') in K |- *. apply (NEW [] r1 w); auto.
    - rewrite IS. assert (prev k = 0) as P0 by (destruct (Nat.eq_dec (prev k) 0) as [|P0]; auto; destruct (PR P0); congruence).
      assert (g_erf (i_op i) = false) as GE by (destruct (i_op i); try discriminate GM; reflexivity).
      pose proof (emits_op _ r (i_op i) a' E) as K. assert (n_actual (i_op i) a' = length a') as LA.
      { rewrite <- (app_nil_r a'). apply n_actual_opt; auto. unfold erfn. now rewrite GE. }
      specialize (K LA). destruct (put_op (put_arg r a') (i_op i)) as [r1 w]. destruct K as (K & _). exists [mkIns (i_op i) a' w].
      rewrite <- (app_nil_r a') in K |- *. apply (NEW [] r1 w); auto.
  Qed.
  (** the last operator *)
  Lemma step_end k i lg2 r nv : inv k lg2 r nv -> nth_error L k = Some i -> i_op i = EndOp -> exists e, let (r', nv') := step i k (r, nv) in inv (S k) (lg2 ++ [mkIns EndOp [] e]) r' nv'.
  Proof.
    intros [E A S D] Hi EO. pose proof (HU k i Hi ltac:(auto)) as Uk.
    unfold opt_step. cbv zeta. rewrite EO, Uk. cbn [negb g_match g_unary g_vp g_pv g_vv g_cpp g_cpv g_cvp g_cvv g_dis orb is_simple].
    pose proof (emits_op _ r EndOp [] E eq_refl) as K. exists (r_nvar r + 0 - 1). cbn [put_op fst] in *. cbn [put_arg r_op r_arg r_nvar r_nload r_vec r_cmp r_hash r_par r_isdyn r_dop r_darg] in K.
    destruct K as (K & _). rewrite app_nil_r, <- app_assoc in K.
    constructor; auto.
    - rewrite app_assoc. apply argsok_add; auto. intros j [].
    - intros x Hx. apply in_app_or in Hx as [Hx|[<-|[]]]; auto.
    - intros j Hj. rewrite app_assoc. destruct (Nat.eq_dec j k) as [->|Nj].
      + intros i0 Hi0 _ R. rewrite Hi in Hi0. injection Hi0 as <-. rewrite EO in R. cbn in R. lia.
      + apply (done_ext (head_ins n ++ lg2) _ nv _ k); [apply D; lia|intros; apply in_or_app; auto|intros x Hx; now apply fset_ne|lia].
  Qed.
  Lemma loop_inv l : forall k lg2 r nv, (forall j i, nth_error l j = Some i -> nth_error L (k + j) = Some i /\ ishead (i_op i) = false) -> inv k lg2 r nv ->
    exists lg3, let (r', nv') := opt_loop L U prev np vi k l (r, nv) in inv (k + length l) lg3 r' nv'.
  Proof.
    induction l as [|i l IH]; intros k lg2 r nv H I; cbn [opt_loop length].
    - exists lg2. now rewrite Nat.add_0_r.
    - destruct (H 0 i eq_refl) as [Hi NH]. rewrite Nat.add_0_r in Hi.
      assert (exists lg3, let (r', nv') := step i k (r, nv) in inv (S k) lg3 r' nv') as (lg3 & K).
      { destruct (opvar_eq_dec (i_op i) EndOp) as [E|E].
        - destruct (step_end k i lg2 r nv I Hi E) as (e & K). eauto.
        - destruct (step_inv k i lg2 r nv I Hi NH E) as (e & K). eauto. }
      destruct (step i k (r, nv)) as [r1 nv1]. destruct (IH (S k) lg3 r1 nv1) as (lg4 & K4); auto.
      { intros j i' Hj. destruct (H (S j) i' Hj) as [X Y]. rewrite Nat.add_succ_r in X. auto. }
      exists lg4. rewrite Nat.add_succ_r. exact K4.
  Qed.
  (** the head *)
  Lemma head_nth j : j <= n -> nth_error (head_ins n) j = Some (if j =? 0 then mkIns BeginOp [0] 0 else mkIns InvOp [] j).
  Proof.
    intros H. unfold head_ins. destruct j as [|j]; cbn [nth_error Nat.eqb]; auto. rewrite nth_error_map.
    assert (nth_error (seq 0 n) j = Some j) as ->; [|reflexivity]. rewrite (nth_error_nth' _ 0) by (rewrite seq_length; lia). rewrite seq_nth by lia. reflexivity.
  Qed.
  Lemma head_len : length (head_ins n) = S n.
  Proof. unfold head_ins. cbn. now rewrite map_length, seq_length. Qed.
  Lemma Lhead j : j <= n -> nth_error L j = Some (if j =? 0 then mkIns BeginOp [0] 0 else mkIns InvOp [] j).
  Proof. intros H. rewrite nth_error_app1 by (rewrite head_len; lia). now apply head_nth. Qed.
  Lemma phead j : j <= n -> prev j = 0.
  Proof.
    intros H. destruct (Nat.eq_dec (prev j) 0) as [|P0]; auto. destruct (HP j _ eq_refl P0) as (_ & _ & _ & ij & ic & Q & _ & _ & G). rewrite (Lhead j H) in Q. injection Q as <-. destruct (j =? 0); discriminate G.
  Qed.
  Lemma head_loop mm : forall j r nv rest', j + mm = n -> 
    r_op r = BeginOp :: repeat InvOp j -> r_arg r = [0] -> r_nvar r = S j -> r_nload r = 0 -> r_vec r = r_vec r0 -> cext r0 r -> (forall x, x <= j -> nv x = x) ->
    exists r' nv', opt_loop L U prev np vi (S j) (map (fun j => mkIns InvOp [] (S j)) (seq j mm) ++ rest') (r, nv) = opt_loop L U prev np vi (S n) rest' (r', nv') /\
      r_op r' = BeginOp :: repeat InvOp n /\ r_arg r' = [0] /\ r_nvar r' = S n /\ r_nload r' = 0 /\ r_vec r' = r_vec r0 /\ cext r0 r' /\ (forall x, x <= n -> nv' x = x).
  Proof.
    induction mm as [|mm IH]; intros j r nv rest' Hj O A N LD V X NV.
    - rewrite Nat.add_0_r in Hj. subst j. cbn [seq map app]. exists r, nv. auto 10.
    - cbn [seq map app opt_loop]. unfold opt_step. cbn [i_op i_arg]. cbv zeta.
      pose proof (Lhead (S j) ltac:(lia)) as Hi. cbn [Nat.eqb] in Hi. rewrite (HU (S j) _ Hi) by (cbn; auto).
      cbn [negb g_match g_unary g_vp g_pv g_vv g_cpp g_cpv g_cvp g_cvv g_dis orb is_simple put_op num_res].
      apply IH; cbn [r_op r_arg r_nvar r_nload r_vec]; try assumption; try lia.
      + rewrite O. cbn [app]. f_equal. rewrite <- repeat_cons. reflexivity.
      + intros x Hx. unfold fset at 1. destruct (Nat.eqb_spec x (S j)) as [->|Nx]; [lia|]. rewrite fset_ne by auto. apply NV. lia.
  Qed.
  Hypothesis R0 : r_op r0 = [] /\ r_arg r0 = [] /\ r_nvar r0 = 0 /\ r_nload r0 = 0.
  Hypothesis HB : forall i, nth_error L 0 = Some i -> i_arg i = [0].
  Lemma opt_loop_ok nv0 : exists lg2, let (r, nv) := opt_loop L U prev np vi 0 L (r0, nv0) in inv (length L) lg2 r nv.
  Proof.
    destruct R0 as (Z1 & Z2 & Z3 & Z4).
    assert (exists r1 nv1, opt_loop L U prev np vi 0 L (r0, nv0) = opt_loop L U prev np vi 1 (map (fun j => mkIns InvOp [] (S j)) (seq 0 n) ++ rest) (r1, nv1) /\
      r_op r1 = [BeginOp] /\ r_arg r1 = [0] /\ r_nvar r1 = 1 /\ r_nload r1 = 0 /\ r_vec r1 = r_vec r0 /\ cext r0 r1 /\ (forall x, x <= 0 -> nv1 x = x)) as (r1 & nv1 & E1 & A1 & A2 & A3 & A4 & A5 & A6 & A7).
    { unfold head_ins at 1 2. cbn [app opt_loop]. unfold opt_step at 1. cbn [i_op i_arg]. cbv zeta.
      pose proof (Lhead 0 ltac:(lia)) as Hi. cbn [Nat.eqb] in Hi. rewrite (HU 0 _ Hi) by (cbn; auto).
      cbn [negb g_match g_unary g_vp g_pv g_vv g_cpp g_cpv g_cvp g_cvv g_dis orb is_simple put_op num_res nth put_arg].
      eexists _, _. split; [reflexivity|]. cbn [r_op r_arg r_nvar r_nload r_vec]. rewrite Z1, Z2, Z3. repeat (split; [first [reflexivity|exact Z4|now apply cext_refl]|]).
      intros x Hx. assert (x = 0) as -> by lia. rewrite fset_eq. reflexivity. }
    destruct (head_loop n 0 r1 nv1 rest eq_refl A1 A2 A3 A4 A5 A6 A7) as (r2 & nv2 & E2 & B1 & B2 & B3 & B4 & B5 & B6 & B7).
    assert (inv (S n) [] r2 nv2) as I2.
    { constructor.
      - rewrite app_nil_r. pose proof (tres_head n) as TH. constructor; auto.
        + rewrite B1. unfold head_ins. cbn [map i_op]. rewrite map_map. cbn [i_op]. f_equal. symmetry. apply map_inv.
        + rewrite B2. unfold head_ins. cbn [map i_arg concat app]. rewrite map_map. cbn [i_arg]. f_equal. clear. induction (seq 0 n); cbn; auto.
        + congruence.
        + apply numd_app in HN. apply HN.
        + constructor; [reflexivity|]. apply Forall_forall. intros i Hi. apply in_map_iff in Hi as (j & <- & _). reflexivity.
      - rewrite app_nil_r. intros k i Hi j Hj. assert (k < length (head_ins n)) as Hk by (apply nth_error_Some; congruence). rewrite head_len in Hk. rewrite head_nth in Hi by lia. injection Hi as <-. destruct (k =? 0); destruct Hj.
      - intros i [].
      - intros j Hj i Hi Uj R. rewrite app_nil_r. rewrite (Lhead j) in Hi by lia. assert (nv2 j = j) as Ej by (apply B7; lia).
        split.
        + exists i. injection Hi as <-. split; [|split; [auto|]].
          * apply (nth_error_In _ j). rewrite head_nth by lia. reflexivity.
          * rewrite Ej. destruct (Nat.eqb_spec j 0) as [->|]; reflexivity.
        + injection Hi as <-. destruct (j =? 0); exact Ej. }
    destruct (loop_inv rest (S n) [] r2 nv2) as (lg3 & K); auto.
    { intros j i Hj. split; [|apply HR; eapply nth_error_In; eauto]. rewrite nth_error_app2 by (rewrite head_len; lia). rewrite head_len. replace (S n + j - S n) with j by lia. exact Hj. }
    exists lg3. rewrite E1. rewrite E2. rewrite app_length, head_len. exact K.
  Qed.

  (** the new operation sequence computes the same values *)
  Lemma new_values lg2 r nv (P P' V0 V0' : nat -> T) : inv (length L) lg2 r nv ->
    (forall j c ij ic, prev j = c -> c <> 0 -> nth_error L j = Some ij -> nth_error L c = Some ic -> 0 < num_res (i_op ij) -> vsweep P L V0 (i_var ij) = vsweep P L V0 (i_var ic)) ->
    (forall v, v <= n -> V0' v = V0 v) ->
    (forall k i, nth_error L k = Some i -> U k = true -> forall j, In j (par_args (i_op i) (i_arg i)) -> P' (np j) = P j) ->
    forall k i, nth_error L k = Some i -> U k = true -> 0 < num_res (i_op i) -> vsweep P' (head_ins n ++ lg2) V0' (nv k) = vsweep P L V0 (i_var i).
  Proof.
    intros [E A S D] PVE HV HPar. set (lg := head_ins n ++ lg2) in *.
    assert (forall i, In i lg -> supp (i_op i) = true) as SL.
    { intros i Hi. apply in_app_or in Hi as [Hi|Hi]; [apply HO; apply in_or_app; auto|apply S; auto]. }
    induction k as [k IH] using lt_wf_ind. intros i Hi Uk R.
    assert (k < length L) as Lk by (apply nth_error_Some; congruence).
    destruct (D k Lk i Hi Uk R) as [_ D2]. destruct (ishead (i_op i)) eqn:H.
    - rewrite D2. assert (k <= n /\ i_var i = k) as [Hk ->].
      { destruct (Nat.lt_ge_cases n k) as [Q|Q].
        - rewrite nth_error_app2 in Hi by (rewrite head_len; lia). apply nth_error_In, HR in Hi. congruence.
        - split; auto. rewrite (Lhead k Q) in Hi. injection Hi as <-. destruct (Nat.eqb_spec k 0) as [->|]; reflexivity. }
      pose proof (em_num _ _ E) as N'. apply numd_app in N' as [_ N']. pose proof HN as N. apply numd_app in N as [_ N]. rewrite tres_head in N, N'.
      unfold lg. rewrite !vsweep_app, !vsweep_head. rewrite (vsweep_lt P' lg2 _ _ _ N') by lia. rewrite (vsweep_lt P rest _ _ _ N) by lia. auto.
    - destruct (Nat.eqb_spec (prev k) 0) as [P0|P0].
      + destruct D2 as (i' & ex & Q1 & Q2 & Q3 & Q4). apply In_nth_error in Q1 as (k' & Q1). rewrite <- Q3.
        rewrite (sweep_eq lg (em_num _ _ E) A SL P' V0' k' i' Q1) by congruence.
        rewrite (sweep_eq L HN HA HO P V0 k i Hi R H). rewrite Q2, Q4. apply semv_opt; [apply HO; eapply nth_error_In; eauto| |intros; eapply HPar; eauto].
        intros j Hj. destruct (arg_v2o L HN HA _ _ _ Hi Hj) as (ij & X1 & X2 & X3 & <-). apply IH; auto. exact (HC _ _ Hi Uk _ Hj).
      + rewrite D2. destruct (HP k _ eq_refl P0) as (Q1 & Q2 & Q3 & ij & ic & Q4 & Q5 & Q6 & Q7). rewrite Hi in Q4. injection Q4 as <-.
        rewrite (PVE k _ i ic eq_refl P0 Hi Q5 R). apply IH; auto. congruence.
  Qed.
End Loop.
