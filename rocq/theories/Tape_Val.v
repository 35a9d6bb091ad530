(** Values and kinds of AD results while recording (C03), and: recording an
    algorithm computes the same values and meets the same failures as running
    it in Base arithmetic. *)
From Coq Require Import ZArith List Bool Arith Lia.
From Verif Require Import Base_Spec Op_Model Tape_Spec Tape_Model.
Import ListNotations.

Section Val.
  Context {b : base} (L : base_laws b).
  Notation T := (bt b).
  Variable tid : nat.
  Implicit Types (r : rec b) (x y l rt : AD b).
  Notation is_var := (is_var tid).
  Notation is_dyn := (is_dyn tid).

  Ltac idz :=
    repeat match goal with
    | H : _ && _ = true |- _ => apply andb_true_iff in H; destruct H
    | H : is0 ?x = true |- _ => apply (l_is0 _ L) in H
    | H : is1 ?x = true |- _ => apply (l_is1 _ L) in H
    end.
  Ltac dif :=
    repeat match goal with
    | |- context [if ?c then _ else _] =>
        match c with
        | context [if _ then _ else _] => fail 1
        | _ => destruct c eqn:?
        end
    | |- context [let '(_, _) := ?p in _] => destruct p eqn:?
    end.

  Lemma rec_dyn2_val r o x y v : a_val (snd (rec_dyn2 tid r o x y v)) = v.
  Proof. unfold rec_dyn2. now destruct (par_addr tid r x), (par_addr tid _ y). Qed.

  Lemma ad_bin_val o r x y : a_val (snd (ad_bin tid o r x y)) = b_bin o (a_val x) (a_val y).
  Proof.
    destruct o; cbn [ad_bin]; unfold ad_add, ad_sub, ad_mul, ad_div, ad_azmul, ad_pow; cbv zeta;
      dif; cbn; rewrite ?rec_dyn2_val; auto; idz;
      repeat match goal with H : a_val _ = _ |- _ => rewrite H; clear H end;
      symmetry; first [apply (l_mul0l _ L)|apply (l_mul0r _ L)|apply (l_div0l _ L)].
  Qed.
  Lemma ad_eq_val o r x y : a_val (snd (ad_eq tid o r x y)) = b_bin (eqop_bin o) (a_val x) (a_val y).
  Proof.
    destruct o; cbn [ad_eq]; unfold ad_add_eq, ad_sub_eq, ad_mul_eq, ad_div_eq; cbv zeta;
      dif; cbn; rewrite ?rec_dyn2_val; auto.
  Qed.
  Lemma ad_un_val u r x : a_val (snd (ad_un tid u r x)) = b_un u (a_val x).
  Proof. unfold ad_un; cbv zeta. destruct u; dif; cbn; auto. Qed.
  Lemma ad_dis_val k r x : a_val (snd (ad_dis tid k r x)) = b_dis k (a_val x).
  Proof. unfold ad_dis; cbv zeta. dif; cbn; auto. Qed.
  Lemma cexp_code_val c (l rt t f : T) :
    cond_exp_code (cexp_code c) l rt t f = if b_cmp (cexp_cmp c) l rt then t else f.
  Proof. now destruct c. Qed.
  Lemma ad_cond_val c r l rt t f :
    a_val (snd (ad_cond tid c r l rt t f))
      = if b_cmp (cexp_cmp c) (a_val l) (a_val rt) then a_val t else a_val f.
  Proof.
    rewrite <- cexp_code_val. unfold ad_cond; cbv zeta. destruct (_ && _); auto.
    destruct (cexp_arg tid r l 1) as [[r1 a1] m1], (cexp_arg tid r1 rt 2) as [[r2 a2] m2],
      (cexp_arg tid r2 t 4) as [[r3 a3] m3], (cexp_arg tid r3 f 8) as [[r4 a4] m4].
    now destruct (_ =? 0).
  Qed.
  Lemma ad_cmp_val c r x y : snd (ad_cmp tid c r x y) = b_cmp c (a_val x) (a_val y).
  Proof. unfold ad_cmp. now destruct (negb (r_cmp r)). Qed.

  (** values agree *)
  Definition vals (st : state b) (e : senv b) : Prop :=
    (forall i, a_val (st_r st i) = sr e i) /\ (forall i, v_data (st_v st i) = sv e i).

  Lemma vec_on_tape_data r v : v_data (snd (vec_on_tape tid r v)) = v_data v.
  Proof.
    unfold vec_on_tape. destruct (put_con_list r (v_data v)) as [r1 ta].
    now destruct (put_var_vecad r1 ta).
  Qed.
  Lemma vec_index_data r v i :
    match vec_index tid r v i with
    | Some (_, v') => v_data v' = v_data v /\ exists k, index_of (b_int (a_val i)) (length (v_data v)) = Some k
    | None => index_of (b_int (a_val i)) (length (v_data v)) = None
    end.
  Proof.
    unfold vec_index. destruct (index_of _ _) eqn:E; auto.
    destruct (_ && _); [eauto|]. destruct (negb (vec_var tid v)); [|eauto].
    pose proof (vec_on_tape_data r v). destruct (vec_on_tape tid r v). cbn in *. eauto.
  Qed.
  Lemma vec_load_val r v i :
    match vec_load tid r v i with
    | Some (_, a) => exists k, index_of (b_int (a_val i)) (length (v_data v)) = Some k /\
                       a_val a = nth k (v_data v) b0
    | None => index_of (b_int (a_val i)) (length (v_data v)) = None
    end.
  Proof.
    unfold vec_load. destruct (index_of _ _) eqn:E; auto.
    destruct (_ && _); [cbn; eauto|].
    destruct (if negb (is_dyn i || is_var i) then put_con_par r (a_val i) else (r, a_taddr i)).
    cbn. eauto.
  Qed.
  Lemma vec_store_val r v i x :
    match vec_store tid r v i x with
    | Some (_, v') => exists k, index_of (b_int (a_val i)) (length (v_data v)) = Some k /\
                       v_data v' = lset (v_data v) k (a_val x)
    | None => index_of (b_int (a_val i)) (length (v_data v)) = None
    end.
  Proof.
    unfold vec_store. destruct (index_of _ _) as [k|] eqn:E; auto.
    set (v1 := mkVec _ _ _ _).
    destruct (_ && _); [cbn; eauto|].
    pose proof (vec_on_tape_data r v1) as D.
    assert (v_data (snd (if negb (vec_var tid v1) then vec_on_tape tid r v1 else (r, v1))) = v_data v1) as D'
      by (destruct (negb _); auto).
    destruct (if negb (vec_var tid v1) then vec_on_tape tid r v1 else (r, v1)) as [r1 v2].
    cbn in D'.
    destruct (if negb (is_dyn i || is_var i) then put_con_par r1 (a_val i) else (r1, a_taddr i)) as [r2 p].
    destruct (if negb (is_dyn x || is_var x) then put_con_par r2 (a_val x) else (r2, a_taddr x)).
    eauto.
  Qed.

  Lemma step_vals i st e : vals st e ->
    match step_rec tid i st with
    | Some st' => exists e', step_spec i e = Some e' /\ vals st' e'
    | None => step_spec i e = None
    end.
  Proof.
    intros [V1 V2].
    assert (forall d ra v, a_val (snd ra) = v -> vals (set_ad st d ra) (set_r e d v)) as W.
    { intros d ra v H. split; cbn; auto. intros j. unfold fset. destruct (j =? d); auto. }
    destruct i as [d c|d x|u d x|o d l rt|o d rt|c d l rt t f|k d x|d v i|v i x]; cbn [step_rec step_spec].
    1-7: eexists; split; [reflexivity|]; apply W.
    - auto.
    - cbn. auto.
    - now rewrite ad_un_val, V1.
    - now rewrite ad_bin_val, !V1.
    - now rewrite ad_eq_val, !V1.
    - now rewrite ad_cond_val, !V1.
    - now rewrite ad_dis_val, V1.
    - pose proof (vec_index_data (st_rec st) (st_v st v) (st_r st i)) as H.
      destruct (vec_index tid (st_rec st) (st_v st v) (st_r st i)) as [[r1 v1]|]; rewrite V1, V2 in H.
      2:{ now rewrite H. }
      destruct H as [H1 [k H2]].
      pose proof (vec_load_val r1 v1 (st_r st i)) as H. rewrite V1, H1 in H.
      destruct (vec_load tid r1 v1 (st_r st i)) as [[r2 a]|]; rewrite H2 in *; [|discriminate].
      destruct H as (k' & Hk & Ha). injection Hk as <-. eexists; split; [reflexivity|].
      split; cbn; intros j; unfold fset; [destruct (j =? d); auto|].
      destruct (Nat.eqb_spec j v) as [->|]; auto; now rewrite H1.
    - pose proof (vec_index_data (st_rec st) (st_v st v) (st_r st i)) as H.
      destruct (vec_index tid (st_rec st) (st_v st v) (st_r st i)) as [[r1 v1]|]; rewrite V1, V2 in H.
      2:{ now rewrite H. }
      destruct H as [H1 [k H2]].
      pose proof (vec_store_val r1 v1 (st_r st i) (st_r st x)) as H. rewrite V1, H1 in H.
      destruct (vec_store tid r1 v1 (st_r st i) (st_r st x)) as [[r2 v2]|]; rewrite H2 in *; [|discriminate].
      destruct H as (k' & Hk & Ha). injection Hk as <-. eexists; split; [reflexivity|].
      split; cbn; intros j; unfold fset; auto.
      destruct (Nat.eqb_spec j v) as [->|]; auto; now rewrite Ha, V1.
  Qed.

  Lemma exec_vals p : forall st e, vals st e ->
    match exec tid p st with
    | Some _ => exists ys, eval p e = Some ys
    | None => eval p e = None
    end.
  Proof.
    induction p as [ys|i p IH|c l rt pt IHt pf IHf]; intros st e V; cbn [exec eval].
    - destruct (dep_loop tid (st_rec st) (map (st_r st) ys)). eauto.
    - pose proof (step_vals i st e V) as H. destruct (step_rec tid i st) as [st'|].
      + destruct H as (e' & -> & V'). now apply IH.
      + now rewrite H.
    - pose proof (ad_cmp_val c (st_rec st) (st_r st l) (st_r st rt)) as H.
      destruct (ad_cmp tid c (st_rec st) (st_r st l) (st_r st rt)) as [r res]. cbn in H.
      destruct V as [V1 V2]. rewrite !V1 in H. rewrite <- H.
      destruct res; [apply IHt|apply IHf]; split; auto.
  Qed.

  (* ---------------------------------------------------------------- *)
  (** kinds *)
  Definition kind_le (a : AD b) (xs : list (AD b)) : Prop :=
    (is_var a = true -> existsb is_var xs = true) /\
    (is_dyn a = true -> existsb is_var xs = false /\ existsb is_dyn xs = true).

  Lemma kind_var_dyn (a : AD b) : is_dyn a = true -> is_var a = false.
  Proof.
    unfold Tape_Model.is_var, Tape_Model.is_dyn. destruct (_ =? _); [|easy]. cbn. now intros ->.
  Qed.
  Lemma rec_dyn2_kind r o x y v :
    is_var (snd (rec_dyn2 tid r o x y v)) = false.
  Proof.
    unfold rec_dyn2. destruct (par_addr tid r x), (par_addr tid _ y). cbn.
    unfold Tape_Model.is_var; cbn. apply andb_false_r.
  Qed.

  Hypothesis tid0 : tid <> 0.
  Lemma not_tid (v : T) t ty : is_var (mkAD v 0 t ty) = false /\ is_dyn (mkAD v 0 t ty) = false.
  Proof. unfold Tape_Model.is_var, Tape_Model.is_dyn. cbn. destruct tid; auto. easy. Qed.
  Lemma same_kind (v : T) (a : AD b) : is_var (mkAD v (a_tid a) (a_taddr a) (a_type a)) = is_var a /\
    is_dyn (mkAD v (a_tid a) (a_taddr a) (a_type a)) = is_dyn a.
  Proof. split; reflexivity. Qed.
  Lemma make_kind (v : T) (a : AD b) :
    (is_var a = true -> is_dyn (make_var v a) = false) /\ (is_dyn a = true -> is_var (make_dyn v a) = false).
  Proof.
    unfold Tape_Model.is_var, Tape_Model.is_dyn; cbn. split; intros; apply andb_false_r.
  Qed.
  Lemma tape_var (v : T) k : is_dyn (mkAD v tid k T_var) = false.
  Proof. unfold Tape_Model.is_dyn; cbn. apply andb_false_r. Qed.
  Lemma tape_dyn (v : T) k : is_var (mkAD v tid k T_dyn) = false.
  Proof. unfold Tape_Model.is_var; cbn. apply andb_false_r. Qed.

  Lemma ad_bin_kind o r x y : kind_le (snd (ad_bin tid o r x y)) [x; y].
  Proof.
    assert (kind_le (con_ad b0) [x; y] /\ forall v, kind_le (con_ad v) [x; y]) as [C0 C].
    { assert (forall v, kind_le (con_ad v) [x; y]) as C; [|auto].
      intros v. unfold kind_le, con_ad. now rewrite (proj1 (not_tid _ _ _)), (proj2 (not_tid _ _ _)). }
    assert (forall v, is_var x = true -> kind_le (make_var v x) [x; y]) as MX.
    { intros v H. split; cbn; rewrite H; auto. now rewrite (proj1 (make_kind v x) H). }
    assert (forall v, is_var y = true -> kind_le (make_var v y) [x; y]) as MY.
    { intros v H. split; cbn; rewrite H, ?orb_true_r; auto. now rewrite (proj1 (make_kind v y) H). }
    assert (forall v, is_dyn x = true -> is_var y = false -> kind_le (make_dyn v x) [x; y]) as DX.
    { intros v H H'. split; cbn; [now rewrite (proj2 (make_kind v x) H)|]. rewrite H, H', (kind_var_dyn x H); auto. }
    assert (forall v, is_dyn y = true -> is_var x = false -> kind_le (make_dyn v y) [x; y]) as DY.
    { intros v H H'. split; cbn; [now rewrite (proj2 (make_kind v y) H)|].
      rewrite H, H', (kind_var_dyn y H), orb_true_r; auto. }
    assert (forall o' v, is_var x = false -> is_var y = false -> is_dyn x || is_dyn y = true ->
              kind_le (snd (rec_dyn2 tid r o' x y v)) [x; y]) as D2.
    { intros o' v H H1 H2. split; [now rewrite rec_dyn2_kind|]. cbn. rewrite H, H1, !orb_false_r; auto. }
    assert (forall r' o' a v, is_var x || is_var y = true -> kind_le (snd (rec_var tid r' o' a v)) [x; y]) as RV.
    { intros r' o' a v H. split; cbn; rewrite ?orb_false_r; auto. now rewrite tape_var. }
    destruct o; cbn [ad_bin]; unfold ad_add, ad_sub, ad_mul, ad_div, ad_azmul, ad_pow; cbv zeta;
      destruct (is_var x) eqn:?, (is_var y) eqn:?, (is_dyn x) eqn:?, (is_dyn y) eqn:?; cbn [orb negb andb];
      dif; cbn [snd]; auto.
  Qed.

  Lemma ad_eq_kind o r x y : kind_le (snd (ad_eq tid o r x y)) [x; y].
  Proof.
    assert (forall v k t, kind_le (mkAD v 0 k t) [x; y]) as C.
    { intros v k t. unfold kind_le. now rewrite (proj1 (not_tid _ _ _)), (proj2 (not_tid _ _ _)). }
    assert (forall v, is_var x = true \/ is_var y = false \/ is_dyn x = false ->
              kind_le (mkAD v (a_tid x) (a_taddr x) (a_type x)) [x; y]) as KX.
    { intros v H. unfold kind_le. rewrite (proj1 (same_kind v x)), (proj2 (same_kind v x)). cbn.
      split; [now intros ->|]. intros D. rewrite (kind_var_dyn _ D), D in *.
      destruct H as [|[-> | ]]; auto; discriminate. }
    assert (forall v, is_var y = true -> kind_le (make_var v y) [x; y]) as MY.
    { intros v H. split; cbn; rewrite H, ?orb_true_r; auto. now rewrite (proj1 (make_kind v y) H). }
    assert (forall v, is_dyn y = true -> is_var x = false -> kind_le (make_dyn v y) [x; y]) as DY.
    { intros v H H'. split; cbn; [now rewrite (proj2 (make_kind v y) H)|].
      rewrite H, H', (kind_var_dyn y H), orb_true_r; auto. }
    assert (forall o' v, is_var x = false -> is_var y = false -> is_dyn x || is_dyn y = true ->
              kind_le (snd (rec_dyn2 tid r o' x y v)) [x; y]) as D2.
    { intros o' v H H1 H2. split; [now rewrite rec_dyn2_kind|]. cbn. rewrite H, H1, !orb_false_r; auto. }
    assert (forall r' o' a v, is_var x || is_var y = true -> kind_le (snd (rec_var tid r' o' a v)) [x; y]) as RV.
    { intros r' o' a v H. split; cbn; rewrite ?orb_false_r; auto. now rewrite tape_var. }
    destruct o; cbn [ad_eq]; unfold ad_add_eq, ad_sub_eq, ad_mul_eq, ad_div_eq; cbv zeta;
      destruct (is_var x) eqn:?, (is_var y) eqn:?, (is_dyn x) eqn:?, (is_dyn y) eqn:?; cbn [orb negb andb];
      dif; cbn [snd]; auto.
  Qed.

  Lemma on_tape_kind x : a_tid x =? tid = true ->
    (is_T_dyn (a_type x) = true -> is_dyn x = true) /\ (is_T_dyn (a_type x) = false -> is_var x = true).
  Proof. unfold Tape_Model.is_var, Tape_Model.is_dyn. intros ->. cbn. split; now intros ->. Qed.

  Lemma un_like r r' x (v : T) o d (l l' : list nat) :
    kind_le (snd (if negb (a_tid x =? tid) then (r, con_ad v)
      else if is_T_dyn (a_type x) then rec_dyn tid r d l v else rec_var tid r' o l' v)) [x].
  Proof.
    destruct (a_tid x =? tid) eqn:E; cbn [negb].
    - destruct (on_tape_kind x E) as [A B]. destruct (is_T_dyn (a_type x)); unfold kind_le; cbn.
      + rewrite tape_dyn, (kind_var_dyn x), A; auto; split; try easy; auto.
      + rewrite tape_var, B; auto; split; auto; discriminate.
    - cbn. unfold kind_le, con_ad. now rewrite (proj1 (not_tid _ _ _)), (proj2 (not_tid _ _ _)).
  Qed.
  Lemma ad_un_kind u r x : kind_le (snd (ad_un tid u r x)) [x].
  Proof.
    unfold ad_un; cbv zeta. destruct u; try apply un_like;
      destruct (put_con_par r b0) as [r1 p], (put_con_par r1 berf) as [r2 q]; apply un_like.
  Qed.
  Lemma ad_dis_kind k r x : kind_le (snd (ad_dis tid k r x)) [x].
  Proof. unfold ad_dis; cbv zeta. apply un_like. Qed.

  Lemma constant_kind x : is_constant tid x = negb (is_var x) && negb (is_dyn x).
  Proof.
    unfold is_constant, Tape_Model.is_var, Tape_Model.is_dyn.
    destruct (a_tid x =? tid) eqn:E; cbn.
    - apply Nat.eqb_eq in E. rewrite E. destruct tid; [easy|]. cbn. now destruct (is_T_dyn (a_type x)).
    - now rewrite orb_true_r.
  Qed.
  Lemma cexp_arg_bit r x k r' a m : k <> 0 -> cexp_arg tid r x k = (r', a, m) ->
    m = if is_var x then k else 0.
  Proof.
    intros Hk. unfold cexp_arg. rewrite constant_kind.
    unfold Tape_Model.is_var, Tape_Model.is_dyn.
    destruct (a_tid x =? tid), (is_T_dyn (a_type x)); cbn.
    all: try (destruct (put_con_par r (a_val x))); intros H; injection H as <- <- <-; auto.
  Qed.
  Lemma ad_cond_kind c r l rt t f : kind_le (snd (ad_cond tid c r l rt t f)) [l; rt; t; f].
  Proof.
    unfold ad_cond; cbv zeta. rewrite !constant_kind.
    destruct (_ && _) eqn:E0.
    { cbn. unfold kind_le, con_ad. now rewrite (proj1 (not_tid _ _ _)), (proj2 (not_tid _ _ _)). }
    destruct (cexp_arg tid r l 1) as [[r1 a1] m1] eqn:E1, (cexp_arg tid r1 rt 2) as [[r2 a2] m2] eqn:E2,
      (cexp_arg tid r2 t 4) as [[r3 a3] m3] eqn:E3, (cexp_arg tid r3 f 8) as [[r4 a4] m4] eqn:E4.
    apply cexp_arg_bit in E1, E2, E3, E4; auto. subst.
    destruct (_ =? 0) eqn:E; unfold kind_le; cbn [rec_dyn rec_var put_dyn_par put_op put_arg snd existsb].
    - rewrite tape_dyn. split; [easy|]. intros _. apply Nat.eqb_eq in E.
      destruct (is_var l), (is_var rt), (is_var t), (is_var f); try (exfalso; lia). split; auto.
      cbn in E0. destruct (is_dyn l), (is_dyn rt); auto. discriminate.
    - rewrite tape_var. split; [|easy]. intros _. apply Nat.eqb_neq in E.
      destruct (is_var l), (is_var rt), (is_var t), (is_var f); auto.
  Qed.

  (** a variable operand is never forgotten when the other operand is a variable too *)
  Lemma ad_bin_var o r x y : is_var x = true -> is_var y = true -> is_var (snd (ad_bin tid o r x y)) = true.
  Proof.
    intros A B. destruct o; cbn [ad_bin]; unfold ad_add, ad_sub, ad_mul, ad_div, ad_azmul, ad_pow;
      rewrite A, B; unfold Tape_Model.is_var; cbn; now rewrite Nat.eqb_refl.
  Qed.
  (** no operand on the tape: the tape does not change and the result is a constant *)
  Lemma ad_bin_const o r x y : is_var x = false -> is_dyn x = false -> is_var y = false -> is_dyn y = false ->
    ad_bin tid o r x y = (r, con_ad (b_bin o (a_val x) (a_val y))).
  Proof.
    intros A B C D. destruct o; cbn [ad_bin]; unfold ad_add, ad_sub, ad_mul, ad_div, ad_azmul, ad_pow;
      rewrite A, B, C, D; auto.
  Qed.
End Val.
