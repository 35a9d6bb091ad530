(** Recording only appends to the tape (no invariant needed). *)
From Coq Require Import ZArith List Bool Arith Lia.
From Verif Require Import Base_Spec Op_Model Tape_Spec Tape_Model Tape_Proof Tape_Proof2 Tape_Proof3.
Import ListNotations.

Lemma decode_prefix ops : forall args nv l ops' args' lf,
  decode ops args nv = Some l -> decode (ops ++ ops') (args ++ args') nv = Some lf ->
  exists l', lf = l ++ l'.
Proof.
  induction ops as [|o ops IH]; intros args nv l ops' args' lf H H'.
  - cbn in H. destruct args; [|discriminate]. injection H as <-. now exists lf.
  - cbn [app decode] in *.
    destruct (length args <? n_actual o args) eqn:E; [discriminate|]. apply Nat.ltb_ge in E.
    destruct (decode ops (skipn (n_actual o args) args) (nv + num_res o)) as [l0|] eqn:D; [|discriminate].
    injection H as <-.
    rewrite (n_actual_le_app o args args' E) in H'.
    destruct (length (args ++ args') <? n_actual o args) eqn:E'; [discriminate|].
    rewrite skipn_app, firstn_app in H'.
    replace (n_actual o args - length args) with 0 in H' by lia. cbn [skipn firstn] in H'.
    destruct (decode (ops ++ ops') (skipn (n_actual o args) args ++ args') (nv + num_res o))
      as [l1|] eqn:D'; [|discriminate].
    injection H' as <-. destruct (IH _ _ _ _ _ _ D D') as [l' ->].
    exists l'. cbn. now rewrite app_nil_r.
Qed.

Section Pre.
  Context {b : base}.
  Notation T := (bt b).
  Variable tid : nat.

  Record lwf (r : rec b) : Prop := {
    lw_isd  : length (r_isdyn r) = length (r_par r);
    lw_dop  : length (dyn2par (r_isdyn r) 0) = length (r_dop r);
    lw_darg : length (r_darg r) = dargs (r_dop r)
  }.
  Lemma dwf_lwf r : dwf r -> lwf r.
  Proof. intros []. constructor; auto. Qed.

  Record pre0 (r r' : rec b) : Prop := {
    p_ext : ext r r';
    p_lwf : lwf r';
    p_op  : exists l, r_op r' = r_op r ++ l;
    p_arg : exists l, r_arg r' = r_arg r ++ l
  }.
  Definition pre (r r' : rec b) : Prop := lwf r -> pre0 r r'.

  Lemma pre_refl r : pre r r.
  Proof. intros W. constructor; auto using ext_refl; exists []; now rewrite app_nil_r. Qed.
  Lemma pre_trans r1 r2 r3 : pre r1 r2 -> pre r2 r3 -> pre r1 r3.
  Proof.
    intros A B W. destruct (A W) as [E1 W1 [o1 O1] [a1 A1]].
    destruct (B W1) as [E2 W2 [o2 O2] [a2 A2]]. constructor; auto.
    - eapply ext_trans; eauto.
    - exists (o1 ++ o2). now rewrite O2, O1, app_assoc.
    - exists (a1 ++ a2). now rewrite A2, A1, app_assoc.
  Qed.

  Ltac pre_easy := intros [w1 w2 w3]; constructor;
    [constructor; cbn; auto; try lia; try (eexists; reflexivity); exists []; now rewrite app_nil_r
    |constructor; cbn; auto
    |cbn; try (eexists; reflexivity); exists []; now rewrite app_nil_r
    |cbn; try (eexists; reflexivity); exists []; now rewrite app_nil_r].

  Lemma pre_put_op r o : pre r (fst (put_op r o)).
  Proof. pre_easy. Qed.
  Lemma pre_put_load_op r o : pre r (fst (put_load_op r o)).
  Proof. pre_easy. Qed.
  Lemma pre_put_arg r a : pre r (put_arg r a).
  Proof. pre_easy. Qed.
  Lemma pre_put_vec_ind r i : pre r (fst (put_vec_ind r i)).
  Proof. pre_easy. Qed.
  Lemma pre_put_con_par r v : pre r (fst (put_con_par r v)).
  Proof.
    unfold put_con_par. destruct (_ && _); [apply pre_refl|].
    intros [w1 w2 w3].
    assert (dyn2par (r_isdyn r ++ [false]) 0 = dyn2par (r_isdyn r) 0) as E
      by (rewrite dyn2par_app; cbn; now rewrite app_nil_r).
    constructor; cbn.
    - constructor; cbn; auto; try (eexists; reflexivity); exists []; rewrite app_nil_r; auto.
      unfold dentries. cbn. now rewrite E.
    - constructor; cbn; auto; rewrite ?E; auto. rewrite !app_length. cbn. lia.
    - exists []; now rewrite app_nil_r.
    - exists []; now rewrite app_nil_r.
  Qed.
  Lemma pre_put_dyn_par r v o a : length a = num_arg_dyn o -> pre r (fst (put_dyn_par r v o a)).
  Proof.
    intros La [w1 w2 w3]. unfold put_dyn_par. constructor; cbn.
    - constructor; cbn; auto; try (eexists; reflexivity).
      + unfold dentries; cbn. rewrite dyn2par_app. cbn. rewrite dents_app; auto. eexists; reflexivity.
      + exists []. now rewrite app_nil_r.
    - constructor; cbn.
      + rewrite !app_length. cbn. lia.
      + rewrite dyn2par_app, !app_length. cbn. lia.
      + rewrite app_length, dargs_app. cbn. lia.
    - exists []; now rewrite app_nil_r.
    - exists []; now rewrite app_nil_r.
  Qed.

  Lemma pre_rec_var r o a v : pre r (fst (rec_var tid r o a v)).
  Proof. cbn. eapply pre_trans; [apply (pre_put_arg r a)|apply (pre_put_op (put_arg r a) o)]. Qed.
  Lemma pre_rec_dyn r o a v : length a = num_arg_dyn o -> pre r (fst (rec_dyn tid r o a v)).
  Proof. intros H. apply (pre_put_dyn_par r v o a H). Qed.
  Lemma pre_par_addr r a : pre r (fst (par_addr tid r a)).
  Proof. unfold par_addr. destruct (is_dyn tid a); [apply pre_refl|apply pre_put_con_par]. Qed.
  Lemma pre_rec_dyn2 r o x y v : num_arg_dyn o = 2 -> pre r (fst (rec_dyn2 tid r o x y v)).
  Proof.
    intros H. unfold rec_dyn2.
    pose proof (pre_par_addr r x). destruct (par_addr tid r x) as [r1 p0].
    pose proof (pre_par_addr r1 y). destruct (par_addr tid r1 y) as [r2 p1]. cbn [fst] in *.
    eapply pre_trans; [eauto|]. eapply pre_trans; [eauto|]. now apply pre_rec_dyn.
  Qed.
  Lemma pre_cexp_arg r x k : pre r (fst (fst (cexp_arg tid r x k))).
  Proof.
    unfold cexp_arg. destruct (is_constant tid x); [|apply pre_refl].
    pose proof (pre_put_con_par r (a_val x)). now destruct (put_con_par r (a_val x)).
  Qed.

  Ltac dest_pair :=
    match goal with
    | |- context [let '(_, _) := ?e in _] =>
      match e with
      | par_addr tid ?r ?a => let H := fresh in pose proof (pre_par_addr r a) as H; destruct e as [? ?]
      | put_con_par ?r ?v => let H := fresh in pose proof (pre_put_con_par r v) as H; destruct e as [? ?]
      end; cbn [fst] in *
    end.
  Ltac prestep :=
    repeat dest_pair; cbn [fst];
    repeat match goal with H : pre ?x ?r |- pre ?x ?r' => eapply pre_trans; [exact H|]; clear H
                     | H : pre ?y ?r |- pre ?x ?r' => fail 1 end.
  Ltac pretac :=
    match goal with
    | |- pre ?r ?r => apply pre_refl
    | |- pre ?r (fst (rec_var _ _ _ _ _)) => apply pre_rec_var
    | |- pre ?r (fst (rec_dyn _ _ _ _ _)) => apply pre_rec_dyn; reflexivity
    | |- pre ?r (fst (rec_dyn2 _ _ _ _ _ _)) => apply pre_rec_dyn2; reflexivity
    | |- pre ?r (fst (?r, _)) => apply pre_refl
    | |- pre ?r (fst (if ?c then _ else _)) => destruct c; pretac
    | |- pre ?r (fst (let '(_, _) := par_addr tid ?r ?a in _)) =>
        let H := fresh in pose proof (pre_par_addr r a) as H; destruct (par_addr tid r a) as [? ?];
        cbn [fst] in H; eapply pre_trans; [exact H|]; pretac
    | |- pre ?r (fst (let '(_, _) := put_con_par ?r ?a in _)) =>
        let H := fresh in pose proof (pre_put_con_par r a) as H; destruct (put_con_par r a) as [? ?];
        cbn [fst] in H; eapply pre_trans; [exact H|]; pretac
    end.

  Lemma pre_ad_bin o r x y : pre r (fst (ad_bin tid o r x y)).
  Proof.
    destruct o; cbn [ad_bin]; unfold ad_add, ad_sub, ad_mul, ad_div, ad_azmul, ad_pow; pretac.
  Qed.
  Lemma pre_ad_eq o r x y : pre r (fst (ad_eq tid o r x y)).
  Proof.
    destruct o; cbn [ad_eq]; unfold ad_add_eq, ad_sub_eq, ad_mul_eq, ad_div_eq; pretac.
  Qed.
  Lemma pre_ad_un u r x : pre r (fst (ad_un tid u r x)).
  Proof. unfold ad_un. destruct u; cbn [un_op un_dyn]; pretac. Qed.
  Lemma pre_ad_dis k r x : pre r (fst (ad_dis tid k r x)).
  Proof. unfold ad_dis. pretac. Qed.
  Lemma pre_ad_cond c r l rt t f : pre r (fst (ad_cond tid c r l rt t f)).
  Proof.
    unfold ad_cond. destruct (_ && _); [apply pre_refl|].
    pose proof (pre_cexp_arg r l 1). destruct (cexp_arg tid r l 1) as [[r1 a2] m0].
    pose proof (pre_cexp_arg r1 rt 2). destruct (cexp_arg tid r1 rt 2) as [[r2 a3] m1].
    pose proof (pre_cexp_arg r2 t 4). destruct (cexp_arg tid r2 t 4) as [[r3 a4] m2].
    pose proof (pre_cexp_arg r3 f 8). destruct (cexp_arg tid r3 f 8) as [[r4 a5] m3].
    cbn [fst] in *.
    eapply pre_trans; [eauto|]. eapply pre_trans; [eauto|]. eapply pre_trans; [eauto|].
    eapply pre_trans; [eauto|]. pretac.
  Qed.

  Lemma pre_put_op_arg r a o : pre r (fst (put_op (put_arg r a) o)).
  Proof. eapply pre_trans; [apply (pre_put_arg r a)|apply (pre_put_op (put_arg r a) o)]. Qed.

  Lemma pre_rec_ord vv vp pv pp r x y : pre r (rec_ord tid vv vp pv pp r x y).
  Proof.
    unfold rec_ord. destruct (is_var tid x), (is_var tid y); try apply pre_put_op_arg.
    - pose proof (pre_par_addr r y). destruct (par_addr tid r y). cbn [fst] in *.
      eapply pre_trans; [eauto|]. apply pre_put_op_arg.
    - pose proof (pre_par_addr r x). destruct (par_addr tid r x). cbn [fst] in *.
      eapply pre_trans; [eauto|]. apply pre_put_op_arg.
    - destruct (_ || _); [|apply pre_refl].
      pose proof (pre_par_addr r x). destruct (par_addr tid r x) as [r1 p0].
      pose proof (pre_par_addr r1 y). destruct (par_addr tid r1 y) as [r2 p1]. cbn [fst] in *.
      eapply pre_trans; [eauto|]. eapply pre_trans; [eauto|]. apply pre_put_op_arg.
  Qed.
  Lemma pre_rec_eqn vv pv pp r x y : pre r (rec_eqn tid vv pv pp r x y).
  Proof.
    unfold rec_eqn. destruct (is_var tid x), (is_var tid y); try apply pre_put_op_arg.
    - pose proof (pre_par_addr r y). destruct (par_addr tid r y). cbn [fst] in *.
      eapply pre_trans; [eauto|]. apply pre_put_op_arg.
    - pose proof (pre_par_addr r x). destruct (par_addr tid r x). cbn [fst] in *.
      eapply pre_trans; [eauto|]. apply pre_put_op_arg.
    - destruct (_ || _); [|apply pre_refl].
      pose proof (pre_par_addr r x). destruct (par_addr tid r x) as [r1 p0].
      pose proof (pre_par_addr r1 y). destruct (par_addr tid r1 y) as [r2 p1]. cbn [fst] in *.
      eapply pre_trans; [eauto|]. eapply pre_trans; [eauto|]. apply pre_put_op_arg.
  Qed.
  Lemma pre_ad_cmp c r x y : pre r (fst (ad_cmp tid c r x y)).
  Proof.
    unfold ad_cmp. destruct (negb (r_cmp r)); [apply pre_refl|]. cbn [fst].
    destruct c, (b_cmp _ _ _); cbn; try apply pre_rec_ord; apply pre_rec_eqn.
  Qed.

  Lemma pre_put_con_list l : forall r, pre r (fst (put_con_list r l)).
  Proof.
    induction l as [|v l IH]; intros r; cbn; [apply pre_refl|].
    pose proof (pre_put_con_par r v). destruct (put_con_par r v) as [r1 p].
    pose proof (IH r1). destruct (put_con_list r1 l) as [r2 ps]. cbn [fst] in *.
    eapply pre_trans; eauto.
  Qed.
  Lemma pre_put_var_vecad r t : pre r (fst (put_var_vecad r t)).
  Proof.
    unfold put_var_vecad. pose proof (pre_put_vec_ind r (length t)).
    destruct (put_vec_ind r (length t)) as [r1 st]. cbn [fst] in *.
    eapply pre_trans; [eauto|]. clear. revert r1.
    induction t as [|i t IH]; intros r1; cbn [fold_left]; [apply pre_refl|].
    eapply pre_trans; [apply (pre_put_vec_ind r1 i)|apply IH].
  Qed.
  Lemma pre_vec_on_tape r v : pre r (fst (vec_on_tape tid r v)).
  Proof.
    unfold vec_on_tape. pose proof (pre_put_con_list (v_data v) r).
    destruct (put_con_list r (v_data v)) as [r1 ta]. pose proof (pre_put_var_vecad r1 ta).
    destruct (put_var_vecad r1 ta) as [r2 st]. cbn [fst] in *. eapply pre_trans; eauto.
  Qed.
  Lemma pre_vec_index r v i r' v' : vec_index tid r v i = Some (r', v') -> pre r r'.
  Proof.
    unfold vec_index. destruct (index_of _ _); [|discriminate].
    destruct (_ && _); [|destruct (negb (vec_var tid v))]; intros H; injection H as H;
      try (injection H as <- <-); try (subst; apply pre_refl).
    pose proof (pre_vec_on_tape r v). now rewrite H in *.
  Qed.
  Lemma pre_vec_load r v i r' a : vec_load tid r v i = Some (r', a) -> pre r r'.
  Proof.
    unfold vec_load. destruct (index_of _ _); [|discriminate].
    destruct (negb (vec_var tid v) && _). { intros H; injection H as <- <-. apply pre_refl. }
    assert (pre r (fst (if negb (is_dyn tid i || is_var tid i) then put_con_par r (a_val i)
       else (r, a_taddr i)))) as A by (destruct (negb _); [apply pre_put_con_par|apply pre_refl]).
    destruct (if negb _ then _ else _) as [r1 p]. cbn [fst] in *.
    intros H. injection H as H _. subst r'. eapply pre_trans; [exact A|].
    eapply pre_trans; [apply (pre_put_arg r1 [v_off v; p; r_nload r1])|].
    apply (pre_put_load_op (put_arg r1 [v_off v; p; r_nload r1]) (if is_var tid i then LdvOp else LdpOp)).
  Qed.
  Lemma pre_vec_store r v i x r' v' : vec_store tid r v i x = Some (r', v') -> pre r r'.
  Proof.
    unfold vec_store. destruct (index_of _ _) as [k|]; [|discriminate].
    set (v1 := mkVec _ _ _ _).
    destruct (negb (vec_var tid v1) && _). { intros H; injection H as <- <-. apply pre_refl. }
    assert (pre r (fst (if negb (vec_var tid v1) then vec_on_tape tid r v1 else (r, v1)))) as A
      by (destruct (negb _); [apply pre_vec_on_tape|apply pre_refl]).
    destruct (if negb (vec_var tid v1) then _ else _) as [r1 v2]. cbn [fst] in A.
    assert (pre r1 (fst (if negb (is_dyn tid i || is_var tid i) then put_con_par r1 (a_val i)
       else (r1, a_taddr i)))) as B by (destruct (negb _); [apply pre_put_con_par|apply pre_refl]).
    destruct (if negb (is_dyn tid i || is_var tid i) then _ else _) as [r2 p]. cbn [fst] in B.
    assert (pre r2 (fst (if negb (is_dyn tid x || is_var tid x) then put_con_par r2 (a_val x)
       else (r2, a_taddr x)))) as C by (destruct (negb _); [apply pre_put_con_par|apply pre_refl]).
    destruct (if negb (is_dyn tid x || is_var tid x) then _ else _) as [r3 q]. cbn [fst] in C.
    intros H. injection H as H _. subst r'.
    eapply pre_trans; [exact A|]. eapply pre_trans; [exact B|]. eapply pre_trans; [exact C|].
    eapply pre_trans; [apply (pre_put_arg r3 [v_off v2; p; q])|].
    apply (pre_put_op (put_arg r3 [v_off v2; p; q]) (if is_var tid x then if is_var tid i then StvvOp else StpvOp
                         else if is_var tid i then StvpOp else StppOp)).
  Qed.

  Lemma pre_step i (s s' : state b) : step_rec tid i s = Some s' -> pre (st_rec s) (st_rec s').
  Proof.
    destruct i; cbn [step_rec]; intros H.
    1-7: injection H as <-; cbn [set_ad st_rec].
    - apply pre_refl.
    - apply pre_refl.
    - apply pre_ad_un.
    - apply pre_ad_bin.
    - apply pre_ad_eq.
    - apply pre_ad_cond.
    - apply pre_ad_dis.
    - destruct (vec_index _ _ _ _) as [[r1 v1]|] eqn:E; [|discriminate].
      destruct (vec_load _ _ _ _) as [[r2 a]|] eqn:F; [|discriminate].
      injection H as <-. cbn. eapply pre_trans; [eapply pre_vec_index|eapply pre_vec_load]; eauto.
    - destruct (vec_index _ _ _ _) as [[r1 v1]|] eqn:E; [|discriminate].
      destruct (vec_store _ _ _ _ _) as [[r2 a]|] eqn:F; [|discriminate].
      injection H as <-. cbn. eapply pre_trans; [eapply pre_vec_index|eapply pre_vec_store]; eauto.
  Qed.

  Lemma pre_record_par_op r y : pre r (fst (record_par_op tid r y)).
  Proof.
    unfold record_par_op. destruct (is_dynamic tid y); [apply pre_put_op_arg|].
    pose proof (pre_put_con_par r (a_val y)). destruct (put_con_par r (a_val y)) as [r1 p]. cbn [fst] in *.
    eapply pre_trans; [eauto|]. apply pre_put_op_arg.
  Qed.
  Lemma pre_dep_loop ys : forall r, pre r (fst (dep_loop tid r ys)).
  Proof.
    induction ys as [|y ys IH]; intros r; cbn [dep_loop]; [apply pre_refl|].
    assert (pre r (fst (if is_parameter tid y then record_par_op tid r y else (r, a_taddr y)))) as A
      by (destruct (is_parameter tid y); [apply pre_record_par_op|apply pre_refl]).
    destruct (if is_parameter tid y then _ else _) as [r1 t].
    pose proof (IH r1). destruct (dep_loop tid r1 ys) as [r2 ts]. cbn [fst] in *.
    eapply pre_trans; eauto.
  Qed.
  Lemma pre_exec p : forall (s : state b) r dep, exec tid p s = Some (r, dep) -> pre (st_rec s) r.
  Proof.
    induction p as [ys|i p IH|c l rt pt IHt pf IHf]; intros s r dep H; cbn [exec] in H.
    - pose proof (pre_dep_loop (map (st_r s) ys) (st_rec s)).
      destruct (dep_loop tid (st_rec s) (map (st_r s) ys)) as [r1 d]. cbn [fst] in *.
      injection H as <- <-. eapply pre_trans; [eauto|]. apply (pre_put_op r1 EndOp).
    - destruct (step_rec tid i s) as [s'|] eqn:E; [|discriminate].
      eapply pre_trans; [eapply pre_step; eauto|]. eauto.
    - pose proof (pre_ad_cmp c (st_rec s) (st_r s l) (st_r s rt)).
      destruct (ad_cmp tid c (st_rec s) (st_r s l) (st_r s rt)) as [r1 res]. cbn [fst] in *.
      eapply pre_trans; [eauto|]. destruct res; eauto.
      + now apply IHt in H.
      + now apply IHf in H.
  Qed.
End Pre.
