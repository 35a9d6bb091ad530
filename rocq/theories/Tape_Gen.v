(** A predicate on recordings that is kept by each of the recorder's functions
    is kept by the whole recording (no assumption on values). *)
From Coq Require Import ZArith List Bool Arith Lia.
From Verif Require Import Base_Spec Op_Model Tape_Spec Tape_Model Tape_Swf.
Import ListNotations.

Section Gen.
  Context {b : base}.
  Notation T := (bt b).
  Variable tid : nat.
  Implicit Types (r : rec b) (x y : AD b).
  Variable Q : rec b -> Prop.
  Hypothesis Qop : forall r o, Q r -> okop o = true -> o <> EndOp -> Q (fst (put_op r o)).
  Hypothesis Qld : forall r o, Q r -> okop o = true -> o <> EndOp -> Q (fst (put_load_op r o)).
  Hypothesis Qarg : forall r a, Q r -> Q (put_arg r a).
  Hypothesis Qvec : forall r i, Q r -> Q (fst (put_vec_ind r i)).
  Hypothesis Qcon : forall r v, Q r -> Q (fst (put_con_par r v)).
  Hypothesis Qdyn : forall r v o a, Q r -> length a = num_arg_dyn o -> o <> ind_dyn -> Q (fst (put_dyn_par r v o a)).

  Lemma Q_op_arg r l o : Q r -> okop o = true -> o <> EndOp -> Q (fst (put_op (put_arg r l) o)).
  Proof. intros. apply Qop; auto. Qed.
  Lemma Q_par_addr r a : Q r -> Q (fst (par_addr tid r a)).
  Proof. intros W. unfold par_addr. destruct (is_dyn tid a); auto. Qed.
  Lemma Q_rec_var r o l v : Q r -> okop o = true -> o <> EndOp -> Q (fst (rec_var tid r o l v)).
  Proof. intros. unfold rec_var. now apply (Q_op_arg r l o). Qed.
  Lemma Q_rec_dyn r o l v : Q r -> length l = num_arg_dyn o -> o <> ind_dyn -> Q (fst (rec_dyn tid r o l v)).
  Proof. intros. unfold rec_dyn. now apply (Qdyn r v o l). Qed.
  Lemma Q_rec_dyn2 r o x y v : Q r -> num_arg_dyn o = 2 -> o <> ind_dyn -> Q (fst (rec_dyn2 tid r o x y v)).
  Proof.
    intros W No. unfold rec_dyn2. pose proof (Q_par_addr r x W) as A. destruct (par_addr tid r x) as [r1 p0].
    pose proof (Q_par_addr r1 y A) as A'. destruct (par_addr tid r1 y) as [r2 p1]. now apply Q_rec_dyn.
  Qed.

  Ltac qtac :=
    repeat match goal with
    | |- Q (fst (if ?c then _ else _)) => destruct c eqn:?
    | |- Q (fst (let '(_, _) := par_addr tid ?r ?x in _)) =>
        let A := fresh in assert (A : Q (fst (par_addr tid r x))) by (apply Q_par_addr; auto);
        destruct (par_addr tid r x) as [? ?]; cbn [fst] in A
    | |- Q (fst (let '(_, _) := put_con_par ?r ?x in _)) =>
        let A := fresh in assert (A : Q (fst (put_con_par r x))) by (apply Qcon; auto);
        destruct (put_con_par r x) as [? ?]; cbn [fst] in A
    | |- Q (fst (rec_var _ _ _ _ _)) => apply Q_rec_var; [assumption|reflexivity|discriminate]
    | |- Q (fst (rec_dyn2 _ _ _ _ _ _)) => apply Q_rec_dyn2; [assumption|reflexivity|discriminate]
    | |- Q (fst (_, _)) => assumption
    end.
  Lemma Q_bin o r x y : Q r -> Q (fst (ad_bin tid o r x y)).
  Proof. intros W. destruct o; cbn [ad_bin]; unfold ad_add, ad_sub, ad_mul, ad_div, ad_azmul, ad_pow; cbv zeta; qtac. Qed.
  Lemma Q_eq o r x y : Q r -> Q (fst (ad_eq tid o r x y)).
  Proof. intros W. destruct o; cbn [ad_eq]; unfold ad_add_eq, ad_sub_eq, ad_mul_eq, ad_div_eq; cbv zeta; qtac. Qed.
  Lemma Q_un u r x : Q r -> Q (fst (ad_un tid u r x)).
  Proof.
    intros W. unfold ad_un; cbv zeta. destruct (negb _); [assumption|].
    destruct (is_T_dyn (a_type x)) eqn:F; [apply Q_rec_dyn; auto; destruct u; (reflexivity || discriminate)|]. destruct u; qtac.
  Qed.
  Lemma Q_dis k r x : Q r -> Q (fst (ad_dis tid k r x)).
  Proof.
    intros W. unfold ad_dis; cbv zeta. destruct (negb _); [assumption|].
    destruct (is_T_dyn (a_type x)); [apply Q_rec_dyn; auto; discriminate|qtac].
  Qed.
  Lemma Q_cexp_arg r x k : Q r -> Q (fst (fst (cexp_arg tid r x k))).
  Proof.
    intros W. unfold cexp_arg. destruct (is_constant tid x); [|assumption]. pose proof (Qcon r (a_val x) W) as A.
    destruct (put_con_par r (a_val x)). exact A.
  Qed.
  Lemma Q_cond c r (l rt t f : AD b) : Q r -> Q (fst (ad_cond tid c r l rt t f)).
  Proof.
    intros W. unfold ad_cond; cbv zeta. destruct (_ && _); [assumption|].
    pose proof (Q_cexp_arg r l 1 W) as W1. destruct (cexp_arg tid r l 1) as [[r1 a1] m1]. cbn [fst] in W1.
    pose proof (Q_cexp_arg r1 rt 2 W1) as W2. destruct (cexp_arg tid r1 rt 2) as [[r2 a2] m2]. cbn [fst] in W2.
    pose proof (Q_cexp_arg r2 t 4 W2) as W3. destruct (cexp_arg tid r2 t 4) as [[r3 a3] m3]. cbn [fst] in W3.
    pose proof (Q_cexp_arg r3 f 8 W3) as W4. destruct (cexp_arg tid r3 f 8) as [[r4 a4] m4]. cbn [fst] in W4.
    destruct (_ =? 0); [apply Q_rec_dyn; auto; discriminate|qtac].
  Qed.
  Lemma Q_ord vv vp pv pp r x y : Q r -> (forall o, In o [vv; vp; pv; pp] -> okop o = true /\ o <> EndOp) -> Q (rec_ord tid vv vp pv pp r x y).
  Proof.
    intros W H. unfold rec_ord. cbn [In] in H.
    destruct (is_var tid x), (is_var tid y).
    - apply Q_op_arg; auto; apply H; auto.
    - pose proof (Q_par_addr r y W) as A. destruct (par_addr tid r y). apply Q_op_arg; auto; apply H; auto.
    - pose proof (Q_par_addr r x W) as A. destruct (par_addr tid r x). apply Q_op_arg; auto; apply H; auto.
    - destruct (_ || _); [|assumption]. pose proof (Q_par_addr r x W) as A. destruct (par_addr tid r x) as [r1 ?].
      pose proof (Q_par_addr r1 y A) as A2. destruct (par_addr tid r1 y). apply Q_op_arg; auto; apply H; auto.
  Qed.
  Lemma Q_eqn vv pv pp r x y : Q r -> (forall o, In o [vv; pv; pp] -> okop o = true /\ o <> EndOp) -> Q (rec_eqn tid vv pv pp r x y).
  Proof.
    intros W H. unfold rec_eqn. cbn [In] in H.
    destruct (is_var tid x), (is_var tid y).
    - apply Q_op_arg; auto; apply H; auto.
    - pose proof (Q_par_addr r y W) as A. destruct (par_addr tid r y). apply Q_op_arg; auto; apply H; auto.
    - pose proof (Q_par_addr r x W) as A. destruct (par_addr tid r x). apply Q_op_arg; auto; apply H; auto.
    - destruct (_ || _); [|assumption]. pose proof (Q_par_addr r x W) as A. destruct (par_addr tid r x) as [r1 ?].
      pose proof (Q_par_addr r1 y A) as A2. destruct (par_addr tid r1 y). apply Q_op_arg; auto; apply H; auto.
  Qed.
  Lemma Q_cmp c r x y : Q r -> Q (fst (ad_cmp tid c r x y)).
  Proof.
    intros W. unfold ad_cmp. destruct (negb (r_cmp r)); [assumption|]. cbn [fst].
    destruct c, (b_cmp _ _ _); cbn; unfold rec_lt, rec_le, rec_eq, rec_ne; first [apply Q_ord|apply Q_eqn]; auto;
      intros o Ho; cbn in Ho; repeat (destruct Ho as [<-|Ho]; [split; [reflexivity|discriminate]|]); easy.
  Qed.
  Lemma Q_con_list l : forall r, Q r -> Q (fst (put_con_list r l)).
  Proof.
    induction l as [|v l IH]; intros r W; cbn; auto. pose proof (Qcon r v W) as A. destruct (put_con_par r v) as [r1 p].
    pose proof (IH r1 A). destruct (put_con_list r1 l) as [r2 ps]. auto.
  Qed.
  Lemma Q_var_vecad r t : Q r -> Q (fst (put_var_vecad r t)).
  Proof.
    intros W. unfold put_var_vecad. pose proof (Qvec r (length t) W) as A.
    destruct (put_vec_ind r (length t)) as [r1 st]. cbn [fst] in *. clear - A Qvec. revert r1 A.
    induction t as [|i t IH]; intros r1 A; cbn [fold_left]; auto.
  Qed.
  Lemma Q_vec_on_tape r v : Q r -> Q (fst (vec_on_tape tid r v)).
  Proof.
    intros W. unfold vec_on_tape. pose proof (Q_con_list (v_data v) r W) as A.
    destruct (put_con_list r (v_data v)) as [r1 ta]. pose proof (Q_var_vecad r1 ta A).
    destruct (put_var_vecad r1 ta) as [r2 st]. auto.
  Qed.
  Lemma Q_vec_index r v i r' v' : Q r -> vec_index tid r v i = Some (r', v') -> Q r'.
  Proof.
    intros W. unfold vec_index. destruct (index_of _ _); [|discriminate].
    destruct (_ && _); [intros H; injection H as <- <-; auto|].
    destruct (negb (vec_var tid v)); intros H; injection H as H.
    - pose proof (Q_vec_on_tape r v W). now rewrite H in *.
    - now subst.
  Qed.
  Lemma Q_con_if r (c : bool) (v : T) (k : nat) : Q r -> Q (fst (if c then put_con_par r v else (r, k))).
  Proof. intros W. destruct c; auto. Qed.
  Lemma Q_vec_load r v i r' a : Q r -> vec_load tid r v i = Some (r', a) -> Q r'.
  Proof.
    intros W. unfold vec_load. destruct (index_of _ _); [|discriminate].
    destruct (_ && _). { intros H; injection H as <- <-. auto. }
    pose proof (Q_con_if r (negb (is_dyn tid i || is_var tid i)) (a_val i) (a_taddr i) W) as A.
    destruct (if negb (is_dyn tid i || is_var tid i) then put_con_par r (a_val i) else (r, a_taddr i)) as [r1 p].
    cbn [fst] in A. intros H. injection H as <- _. destruct (is_var tid i).
    - apply (Qld (put_arg r1 _) LdvOp); auto. discriminate.
    - apply (Qld (put_arg r1 _) LdpOp); auto. discriminate.
  Qed.
  Lemma Q_vec_store r v i x r' v' : Q r -> vec_store tid r v i x = Some (r', v') -> Q r'.
  Proof.
    intros W. unfold vec_store. destruct (index_of _ _) as [k|]; [|discriminate].
    set (v1 := mkVec _ _ _ _). destruct (_ && _). { intros H; injection H as <- <-. auto. }
    assert (Q (fst (if negb (vec_var tid v1) then vec_on_tape tid r v1 else (r, v1)))) as A.
    { destruct (negb _); [now apply Q_vec_on_tape|assumption]. }
    destruct (if negb (vec_var tid v1) then vec_on_tape tid r v1 else (r, v1)) as [r1 v2]. cbn [fst] in A.
    pose proof (Q_con_if r1 (negb (is_dyn tid i || is_var tid i)) (a_val i) (a_taddr i) A) as A2.
    destruct (if negb (is_dyn tid i || is_var tid i) then put_con_par r1 (a_val i) else (r1, a_taddr i)) as [r2 p].
    cbn [fst] in A2.
    pose proof (Q_con_if r2 (negb (is_dyn tid x || is_var tid x)) (a_val x) (a_taddr x) A2) as A3.
    destruct (if negb (is_dyn tid x || is_var tid x) then put_con_par r2 (a_val x) else (r2, a_taddr x)) as [r3 q].
    cbn [fst] in A3. cbv zeta.
    intros H. apply (f_equal (option_map fst)) in H. cbn [option_map fst] in H. injection H as <-.
    apply Q_op_arg; auto; destruct (is_var tid i), (is_var tid x); try reflexivity; discriminate.
  Qed.
  Lemma Q_step i (s s' : state b) : Q (st_rec s) -> step_rec tid i s = Some s' -> Q (st_rec s').
  Proof.
    intros W H.
    destruct i as [d c|d x|u d x|o d l rt|o d rt|c d l rt t f|k d x|d v i|v i x]; cbn [step_rec] in H.
    1-7: injection H as <-; cbn [set_ad st_rec].
    - assumption.
    - assumption.
    - now apply Q_un.
    - now apply Q_bin.
    - now apply Q_eq.
    - now apply Q_cond.
    - now apply Q_dis.
    - destruct (vec_index tid (st_rec s) (st_v s v) (st_r s i)) as [[r1 v1]|] eqn:E; [|discriminate].
      destruct (vec_load tid r1 v1 (st_r s i)) as [[r2 a]|] eqn:F; [|discriminate]. injection H as <-. cbn.
      eapply Q_vec_load; [|exact F]. eapply Q_vec_index; eauto.
    - destruct (vec_index tid (st_rec s) (st_v s v) (st_r s i)) as [[r1 v1]|] eqn:E; [|discriminate].
      destruct (vec_store tid r1 v1 (st_r s i) (st_r s x)) as [[r2 v2]|] eqn:F; [|discriminate]. injection H as <-. cbn.
      eapply Q_vec_store; [|exact F]. eapply Q_vec_index; eauto.
  Qed.
  Lemma Q_dep_loop ys : forall r, Q r -> Q (fst (dep_loop tid r ys)).
  Proof.
    induction ys as [|y ys IH]; intros r W; cbn [dep_loop]; auto.
    assert (Q (fst (if is_parameter tid y then record_par_op tid r y else (r, a_taddr y)))) as A.
    { destruct (is_parameter tid y); auto. unfold record_par_op. destruct (is_dynamic tid y).
      - apply Q_op_arg; auto. discriminate.
      - pose proof (Qcon r (a_val y) W) as A. destruct (put_con_par r (a_val y)). apply Q_op_arg; auto. discriminate. }
    destruct (if is_parameter tid y then record_par_op tid r y else (r, a_taddr y)) as [r1 t].
    cbn [fst] in A. pose proof (IH r1 A). now destruct (dep_loop tid r1 ys).
  Qed.
  (** the recording just before EndOp *)
  Lemma Q_exec p : forall (s : state b) r dep, Q (st_rec s) -> exec tid p s = Some (r, dep) -> exists r1, Q r1 /\ r = fst (put_op r1 EndOp).
  Proof.
    induction p as [ys|i p IH|c l rt pt IHt pf IHf]; intros s r dep W H; cbn [exec] in H.
    - pose proof (Q_dep_loop (map (st_r s) ys) _ W) as A.
      destruct (dep_loop tid (st_rec s) (map (st_r s) ys)) as [r1 d]. injection H as <- <-. eauto.
    - destruct (step_rec tid i s) eqn:E; [|discriminate]. eapply IH; [|exact H]. eapply Q_step; eauto.
    - pose proof (Q_cmp c (st_rec s) (st_r s l) (st_r s rt) W) as W1.
      destruct (ad_cmp tid c (st_rec s) (st_r s l) (st_r s rt)) as [r1 res]. cbn [fst] in *.
      destruct res; [eapply IHt; [|exact H]|eapply IHf; [|exact H]]; exact W1.
  Qed.
End Gen.
