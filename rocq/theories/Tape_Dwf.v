(** The dynamic parameter part of a recording is always well formed: arguments
    of a dynamic operator are parameters with smaller index (no assumption on
    values is needed). *)
From Coq Require Import ZArith List Bool Arith Lia.
From Verif Require Import Base_Spec Op_Model Tape_Spec Tape_Model Tape_Proof Tape_Proof2 Tape_Proof5 Tape_Val.
Import ListNotations.

Local Arguments dentries : simpl never.

Section Dwf.
  Context {b : base}.
  Notation T := (bt b).
  Variable tid : nat.
  Implicit Types (r : rec b) (x y : AD b).
  Notation is_var := (is_var tid).
  Notation is_dyn := (is_dyn tid).

  Definition Da r (a : AD b) : Prop := is_dyn a = true -> a_taddr a < length (r_par r).
  Definition dg0 r r' : Prop := dwf r' /\ length (r_par r) <= length (r_par r').
  Definition dg r (ra : rec b * AD b) : Prop := dg0 r (fst ra) /\ Da (fst ra) (snd ra).

  Lemma Da_mono r r' a : length (r_par r) <= length (r_par r') -> Da r a -> Da r' a.
  Proof. unfold Da. intros H D E. specialize (D E). lia. Qed.
  Lemma dg0_refl r : dwf r -> dg0 r r.
  Proof. split; auto. Qed.
  Lemma dg0_trans r1 r2 r3 : dg0 r1 r2 -> dg0 r2 r3 -> dg0 r1 r3.
  Proof. intros [A B] [C D]. split; auto. lia. Qed.

  (** only the parameter part matters *)
  Lemma dwf_same r r' : r_par r' = r_par r -> r_isdyn r' = r_isdyn r -> r_dop r' = r_dop r ->
    r_darg r' = r_darg r -> dwf r -> dwf r'.
  Proof.
    intros A B C D [w1 w2 w3 w4]. assert (dentries r' = dentries r) as E by (unfold dentries; now rewrite B, C, D).
    constructor; rewrite ?A, ?B, ?C, ?D, ?E; auto.
  Qed.
  Lemma dg0_put_op r o : dwf r -> dg0 r (fst (put_op r o)).
  Proof. intros W. split; [eapply dwf_same; [..|exact W]; reflexivity|auto]. Qed.
  Lemma dg0_put_load_op r o : dwf r -> dg0 r (fst (put_load_op r o)).
  Proof. intros W. split; [eapply dwf_same; [..|exact W]; reflexivity|auto]. Qed.
  Lemma dg0_put_arg r o : dwf r -> dg0 r (put_arg r o).
  Proof. intros W. split; [eapply dwf_same; [..|exact W]; reflexivity|auto]. Qed.
  Lemma dg0_put_op_arg r l o : dwf r -> dg0 r (fst (put_op (put_arg r l) o)).
  Proof. intros W. split; [eapply dwf_same; [..|exact W]; reflexivity|auto]. Qed.
  Lemma dg0_put_vec_ind r i : dwf r -> dg0 r (fst (put_vec_ind r i)).
  Proof. intros W. split; [eapply dwf_same; [..|exact W]; reflexivity|auto]. Qed.

  Lemma dg0_put_con_par r v : dwf r ->
    dg0 r (fst (put_con_par r v)) /\ snd (put_con_par r v) < length (r_par (fst (put_con_par r v))).
  Proof.
    intros W. unfold put_con_par.
    destruct ((0 <? r_hash r (bhash v)) && (r_hash r (bhash v) <? length (r_par r))
      && negb (nth (r_hash r (bhash v)) (r_isdyn r) false)
      && ideq (nth (r_hash r (bhash v)) (r_par r) bnan) v) eqn:E; cbn [fst snd].
    - split; [now apply dg0_refl|].
      apply andb_true_iff in E as [E E4]. apply andb_true_iff in E as [E E3].
      apply andb_true_iff in E as [E1 E2]. now apply Nat.ltb_lt in E2.
    - split; [|cbn; rewrite app_length; cbn; lia].
      split; [|cbn; rewrite app_length; lia].
      destruct W as [w1 w2 w3 w4]. constructor; cbn; auto.
      + rewrite !app_length. cbn. lia.
      + rewrite dyn2par_app. cbn. now rewrite app_nil_r.
      + rewrite (dentries_con r); auto.
  Qed.

  Lemma dg0_put_dyn_par r (v : T) o a : dwf r -> length a = num_arg_dyn o ->
    Forall (fun j => j < length (r_par r)) (par_args_dyn o a) ->
    dg0 r (fst (put_dyn_par r v o a)) /\ snd (put_dyn_par r v o a) < length (r_par (fst (put_dyn_par r v o a))).
  Proof.
    intros [w1 w2 w3 w4] La Hlt. unfold put_dyn_par; cbn [fst snd].
    split; [|cbn; rewrite app_length; cbn; lia].
    split; [|cbn; rewrite app_length; lia].
    constructor; cbn.
    - rewrite !app_length. cbn. lia.
    - rewrite dyn2par_app, !app_length. cbn. lia.
    - rewrite app_length, dargs_app. cbn. lia.
    - intros i o' a' j Hin Hj. unfold dentries in Hin. cbn in Hin. rewrite dyn2par_app in Hin. cbn in Hin.
      rewrite dents_app in Hin; auto. apply in_app_iff in Hin.
      destruct Hin as [Hin|[Hin|[]]]; [eapply w4; eauto|].
      injection Hin as <- <- <-. rewrite Forall_forall in Hlt. rewrite w1. auto.
  Qed.

  Lemma dg0_par_addr r a : dwf r -> Da r a ->
    dg0 r (fst (par_addr tid r a)) /\ snd (par_addr tid r a) < length (r_par (fst (par_addr tid r a))).
  Proof.
    intros W D. unfold par_addr. destruct (is_dyn a) eqn:E; [|now apply dg0_put_con_par].
    split; [now apply dg0_refl|]. now apply D.
  Qed.

  Lemma dg_rec_var r o l v : dwf r -> dg r (rec_var tid r o l v).
  Proof.
    intros W. split; [now apply (dg0_put_op_arg r l o)|]. unfold Da, Tape_Model.is_dyn. cbn.
    now rewrite andb_false_r.
  Qed.
  Lemma dg_rec_dyn r o l v : dwf r -> length l = num_arg_dyn o ->
    Forall (fun j => j < length (r_par r)) (par_args_dyn o l) -> dg r (rec_dyn tid r o l v).
  Proof.
    intros W La F. destruct (dg0_put_dyn_par r v o l W La F) as [A B]. split; [exact A|]. intros _. exact B.
  Qed.
  Lemma dg_rec_dyn2 r o x y v : dwf r -> Da r x -> Da r y -> num_arg_dyn o = 2 ->
    (forall l, par_args_dyn o l = l \/ par_args_dyn o l = [nth 0 l 0; nth 1 l 0]) -> dg r (rec_dyn2 tid r o x y v).
  Proof.
    intros W Dx Dy No Hp. unfold rec_dyn2.
    destruct (dg0_par_addr r x W Dx) as [A B]. destruct (par_addr tid r x) as [r1 p0]. cbn [fst snd] in *.
    destruct A as [W1 L1]. pose proof (Da_mono _ _ _ L1 Dy) as Dy1.
    destruct (dg0_par_addr r1 y W1 Dy1) as [A' B']. destruct (par_addr tid r1 y) as [r2 p1]. cbn [fst snd] in *.
    destruct A' as [W2 L2].
    destruct (dg_rec_dyn r2 o [p0; p1] v W2) as [[G1 G2] G3]; auto.
    - destruct (Hp [p0; p1]) as [-> | ->]; repeat constructor; cbn; lia.
    - split; auto. split; auto. lia.
  Qed.
  Lemma dg_same r v x t : dwf r -> Da r x -> (t = T_var \/ is_dyn x = true \/ t = a_type x) ->
    dg r (r, mkAD v (a_tid x) (a_taddr x) t).
  Proof.
    intros W D H. split; [now apply dg0_refl|]. unfold Da, Tape_Model.is_dyn in *. cbn.
    destruct (a_tid x =? tid); cbn in *; [|easy]. destruct H as [-> |[H| ->]]; cbn; auto. easy.
  Qed.
  Hypothesis tid0 : tid <> 0.
  Lemma dg_con r v k t : dwf r -> dg r (r, mkAD v 0 k t).
  Proof.
    intros W. split; [now apply dg0_refl|]. unfold Da, Tape_Model.is_dyn. cbn. destruct tid; easy.
  Qed.
  Lemma dg_step r r1 ra : dg0 r r1 -> (dwf r1 -> dg r1 ra) -> dg r ra.
  Proof. intros [W L] H. destruct (H W) as [[A B] C]. split; auto. split; auto. lia. Qed.

  Ltac dtac :=
    repeat match goal with
    | |- dg _ (if ?c then _ else _) => destruct c eqn:?
    | |- dg ?r (let '(_, _) := par_addr tid ?r ?x in _) =>
        let A := fresh in
        assert (A : dg0 r (fst (par_addr tid r x))) by (apply dg0_par_addr; auto);
        destruct (par_addr tid r x) as [? ?]; cbn [fst] in A; apply (dg_step _ _ _ A); intros ?
    | |- dg ?r (let '(_, _) := put_con_par ?r ?x in _) =>
        let A := fresh in
        assert (A : dg0 r (fst (put_con_par r x))) by (apply dg0_put_con_par; auto);
        destruct (put_con_par r x) as [? ?]; cbn [fst] in A; apply (dg_step _ _ _ A); intros ?
    | |- dg _ (rec_var _ _ _ _ _) => now apply dg_rec_var
    | |- dg _ (rec_dyn2 _ _ _ _ _ _) => apply dg_rec_dyn2; auto; fail
    | |- dg _ (_, con_ad _) => now apply dg_con
    | |- dg _ (_, make_var _ _) => apply dg_same; auto; fail
    | |- dg _ (_, make_dyn _ _) => apply dg_same; auto; fail
    | |- dg _ (_, mkAD _ 0 _ _) => now apply dg_con
    | |- dg _ (_, mkAD _ _ _ _) => apply dg_same; auto; fail
    end.

  Lemma dg_bin o r x y : dwf r -> Da r x -> Da r y -> dg r (ad_bin tid o r x y).
  Proof.
    intros W Dx Dy. destruct o; cbn [ad_bin]; unfold ad_add, ad_sub, ad_mul, ad_div, ad_azmul, ad_pow; cbv zeta;
      destruct (is_var x) eqn:?, (is_var y) eqn:?, (is_dyn x) eqn:?, (is_dyn y) eqn:?; cbn [negb andb orb]; dtac.
  Qed.
  Lemma dg_eq o r x y : dwf r -> Da r x -> Da r y -> dg r (ad_eq tid o r x y).
  Proof.
    intros W Dx Dy. destruct o; cbn [ad_eq]; unfold ad_add_eq, ad_sub_eq, ad_mul_eq, ad_div_eq; cbv zeta;
      destruct (is_var x) eqn:?, (is_var y) eqn:?, (is_dyn x) eqn:?, (is_dyn y) eqn:?; cbn [negb andb orb]; dtac.
  Qed.
  Lemma Da_on r x : Da r x -> a_tid x =? tid = true -> is_T_dyn (a_type x) = true -> a_taddr x < length (r_par r).
  Proof. unfold Da, Tape_Model.is_dyn. intros D A B. rewrite A, B in D. now apply D. Qed.
  Lemma dg_un u r x : dwf r -> Da r x -> dg r (ad_un tid u r x).
  Proof.
    intros W Dx. unfold ad_un; cbv zeta.
    destruct (a_tid x =? tid) eqn:E; cbn [negb]; [|now apply dg_con].
    destruct (is_T_dyn (a_type x)) eqn:F.
    - pose proof (Da_on _ _ Dx E F). apply dg_rec_dyn; auto; destruct u; cbn; auto.
    - destruct u; dtac.
  Qed.
  Lemma dg_dis k r x : dwf r -> Da r x -> dg r (ad_dis tid k r x).
  Proof.
    intros W Dx. unfold ad_dis; cbv zeta.
    destruct (a_tid x =? tid) eqn:E; cbn [negb]; [|now apply dg_con].
    destruct (is_T_dyn (a_type x)) eqn:F; [|now apply dg_rec_var].
    pose proof (Da_on _ _ Dx E F). apply dg_rec_dyn; auto; cbn; auto.
  Qed.
  Lemma dg_cexp_arg r x k r' a m : dwf r -> Da r x -> cexp_arg tid r x k = (r', a, m) -> k <> 0 ->
    dg0 r r' /\ (m = 0 -> a < length (r_par r')).
  Proof.
    intros W D H Hk. unfold cexp_arg in H. rewrite (constant_kind tid tid0) in H.
    destruct (negb (is_var x) && negb (is_dyn x)) eqn:E.
    - destruct (dg0_put_con_par r (a_val x) W) as [A B]. destruct (put_con_par r (a_val x)). cbn in *.
      injection H as <- <- <-. auto.
    - injection H as <- <- <-. split; [now apply dg0_refl|].
      destruct (is_T_dyn (a_type x)) eqn:F; [|easy]. intros _. apply D.
      apply andb_false_iff in E. unfold Tape_Model.is_var, Tape_Model.is_dyn in *. rewrite F in *.
      destruct (a_tid x =? tid); auto. cbn in E. now destruct E.
  Qed.
  Lemma dg_cond c r (l rt t f : AD b) : dwf r -> Da r l -> Da r rt -> Da r t -> Da r f -> dg r (ad_cond tid c r l rt t f).
  Proof.
    intros W D1 D2 D3 D4. unfold ad_cond; cbv zeta. destruct (_ && _); [now apply dg_con|].
    destruct (cexp_arg tid r l 1) as [[r1 a1] m1] eqn:E1.
    destruct (dg_cexp_arg _ _ _ _ _ _ W D1 E1) as [[W1 L1] B1]; auto.
    destruct (cexp_arg tid r1 rt 2) as [[r2 a2] m2] eqn:E2.
    destruct (dg_cexp_arg _ _ _ _ _ _ W1 (Da_mono _ _ _ L1 D2) E2) as [[W2 L2] B2]; auto.
    assert (L2' : length (r_par r) <= length (r_par r2)) by lia.
    destruct (cexp_arg tid r2 t 4) as [[r3 a3] m3] eqn:E3.
    destruct (dg_cexp_arg _ _ _ _ _ _ W2 (Da_mono _ _ _ L2' D3) E3) as [[W3 L3] B3]; auto.
    assert (L3' : length (r_par r) <= length (r_par r3)) by lia.
    destruct (cexp_arg tid r3 f 8) as [[r4 a4] m4] eqn:E4.
    destruct (dg_cexp_arg _ _ _ _ _ _ W3 (Da_mono _ _ _ L3' D4) E4) as [[W4 L4] B4]; auto.
    apply (dg_step r r4); [split; auto; lia|]. intros _.
    destruct (_ =? 0) eqn:E; [|now apply dg_rec_var]. apply Nat.eqb_eq in E.
    apply dg_rec_dyn; auto. cbn. repeat constructor; try lia.
  Qed.

  Lemma dg0_ord vv vp pv pp r x y : dwf r -> Da r x -> Da r y -> dg0 r (rec_ord tid vv vp pv pp r x y).
  Proof.
    intros W Dx Dy. unfold rec_ord.
    destruct (is_var x), (is_var y); try now apply dg0_put_op_arg.
    - destruct (dg0_par_addr r y W Dy) as [A _]. destruct (par_addr tid r y). cbn in A.
      eapply dg0_trans; [exact A|]. apply dg0_put_op_arg, A.
    - destruct (dg0_par_addr r x W Dx) as [A _]. destruct (par_addr tid r x). cbn in A.
      eapply dg0_trans; [exact A|]. apply dg0_put_op_arg, A.
    - destruct (_ || _); [|now apply dg0_refl].
      destruct (dg0_par_addr r x W Dx) as [A _]. destruct (par_addr tid r x) as [r1 ?]. cbn in A.
      destruct A as [W1 L1].
      destruct (dg0_par_addr r1 y W1 (Da_mono _ _ _ L1 Dy)) as [A _]. destruct (par_addr tid r1 y). cbn in A.
      eapply dg0_trans; [split; [exact W1|exact L1]|]. eapply dg0_trans; [exact A|]. apply dg0_put_op_arg, A.
  Qed.
  Lemma dg0_eqn vv pv pp r x y : dwf r -> Da r x -> Da r y -> dg0 r (rec_eqn tid vv pv pp r x y).
  Proof.
    intros W Dx Dy. unfold rec_eqn.
    destruct (is_var x), (is_var y); try now apply dg0_put_op_arg.
    - destruct (dg0_par_addr r y W Dy) as [A _]. destruct (par_addr tid r y). cbn in A.
      eapply dg0_trans; [exact A|]. apply dg0_put_op_arg, A.
    - destruct (dg0_par_addr r x W Dx) as [A _]. destruct (par_addr tid r x). cbn in A.
      eapply dg0_trans; [exact A|]. apply dg0_put_op_arg, A.
    - destruct (_ || _); [|now apply dg0_refl].
      destruct (dg0_par_addr r x W Dx) as [A _]. destruct (par_addr tid r x) as [r1 ?]. cbn in A.
      destruct A as [W1 L1].
      destruct (dg0_par_addr r1 y W1 (Da_mono _ _ _ L1 Dy)) as [A _]. destruct (par_addr tid r1 y). cbn in A.
      eapply dg0_trans; [split; [exact W1|exact L1]|]. eapply dg0_trans; [exact A|]. apply dg0_put_op_arg, A.
  Qed.
  Lemma dg0_cmp c r x y : dwf r -> Da r x -> Da r y -> dg0 r (fst (ad_cmp tid c r x y)).
  Proof.
    intros W Dx Dy. unfold ad_cmp. destruct (negb (r_cmp r)); [now apply dg0_refl|]. cbn [fst].
    destruct c, (b_cmp _ _ _); cbn; try apply dg0_ord; try apply dg0_eqn; auto.
  Qed.

  Lemma dg0_con_list l : forall r, dwf r -> dg0 r (fst (put_con_list r l)).
  Proof.
    induction l as [|v l IH]; intros r W; cbn; [now apply dg0_refl|].
    destruct (dg0_put_con_par r v W) as [A _]. destruct (put_con_par r v) as [r1 p].
    pose proof (IH r1 (proj1 A)). destruct (put_con_list r1 l) as [r2 ps]. cbn [fst] in *.
    eapply dg0_trans; eauto.
  Qed.
  Lemma dg0_var_vecad r t : dwf r -> dg0 r (fst (put_var_vecad r t)).
  Proof.
    intros W. unfold put_var_vecad. pose proof (dg0_put_vec_ind r (length t) W) as A.
    destruct (put_vec_ind r (length t)) as [r1 st]. cbn [fst] in *.
    eapply dg0_trans; [eauto|]. destruct A as [W1 _]. clear - W1. revert r1 W1.
    induction t as [|i t IH]; intros r1 W1; cbn [fold_left]; [now apply dg0_refl|].
    pose proof (dg0_put_vec_ind r1 i W1) as A. eapply dg0_trans; [exact A|]. apply IH, A.
  Qed.
  Lemma dg0_vec_on_tape r v : dwf r -> dg0 r (fst (vec_on_tape tid r v)).
  Proof.
    intros W. unfold vec_on_tape. pose proof (dg0_con_list (v_data v) r W) as A.
    destruct (put_con_list r (v_data v)) as [r1 ta]. pose proof (dg0_var_vecad r1 ta (proj1 A)).
    destruct (put_var_vecad r1 ta) as [r2 st]. cbn [fst] in *. eapply dg0_trans; eauto.
  Qed.
  Lemma dg0_vec_index r v i r' v' : dwf r -> vec_index tid r v i = Some (r', v') -> dg0 r r'.
  Proof.
    intros W. unfold vec_index. destruct (index_of _ _); [|discriminate].
    destruct (_ && _); [intros H; injection H as <- <-; now apply dg0_refl|].
    destruct (negb (vec_var tid v)); intros H; injection H as H.
    - pose proof (dg0_vec_on_tape r v W). now rewrite H in *.
    - subst. now apply dg0_refl.
  Qed.
  Lemma dg0_con_if r (c : bool) (v : T) (k : nat) : dwf r -> dg0 r (fst (if c then put_con_par r v else (r, k))).
  Proof. intros W. destruct c; [now apply dg0_put_con_par|now apply dg0_refl]. Qed.
  Lemma dg_vec_load r v i r' a : dwf r -> vec_load tid r v i = Some (r', a) -> dg r (r', a).
  Proof.
    intros W. unfold vec_load. destruct (index_of _ _); [|discriminate].
    destruct (_ && _). { intros H; injection H as <- <-. now apply dg_con. }
    pose proof (dg0_con_if r (negb (is_dyn i || is_var i)) (a_val i) (a_taddr i) W) as A.
    destruct (if negb (is_dyn i || is_var i) then put_con_par r (a_val i) else (r, a_taddr i)) as [r1 p].
    cbn [fst] in A. intros H. injection H as <- <-. split.
    - eapply dg0_trans; [exact A|]. destruct A as [W1 _].
      split; [eapply dwf_same; [..|exact W1]; reflexivity|auto].
    - unfold Da, Tape_Model.is_dyn. cbn. now rewrite andb_false_r.
  Qed.
  Lemma dg0_vec_store r v i x r' v' : dwf r -> vec_store tid r v i x = Some (r', v') -> dg0 r r'.
  Proof.
    intros W. unfold vec_store. destruct (index_of _ _) as [k|]; [|discriminate].
    set (v1 := mkVec _ _ _ _). destruct (_ && _). { intros H; injection H as <- <-. now apply dg0_refl. }
    assert (dg0 r (fst (if negb (vec_var tid v1) then vec_on_tape tid r v1 else (r, v1)))) as A.
    { destruct (negb _); [now apply dg0_vec_on_tape|now apply dg0_refl]. }
    destruct (if negb (vec_var tid v1) then vec_on_tape tid r v1 else (r, v1)) as [r1 v2]. cbn [fst] in A.
    pose proof (dg0_con_if r1 (negb (is_dyn i || is_var i)) (a_val i) (a_taddr i) (proj1 A)) as A2.
    destruct (if negb (is_dyn i || is_var i) then put_con_par r1 (a_val i) else (r1, a_taddr i)) as [r2 p].
    cbn [fst] in A2.
    pose proof (dg0_con_if r2 (negb (is_dyn x || is_var x)) (a_val x) (a_taddr x) (proj1 A2)) as A3.
    destruct (if negb (is_dyn x || is_var x) then put_con_par r2 (a_val x) else (r2, a_taddr x)) as [r3 q].
    cbn [fst] in A3. cbv zeta.
    intros H. apply (f_equal (option_map fst)) in H. cbn [option_map fst] in H. injection H as <-.
    eapply dg0_trans; [exact A|]. eapply dg0_trans; [exact A2|]. eapply dg0_trans; [exact A3|].
    apply dg0_put_op_arg, A3.
  Qed.

  Definition dst (s : state b) : Prop := dwf (st_rec s) /\ forall i, Da (st_rec s) (st_r s i).

  Lemma dst_set s d ra : dst s -> dg (st_rec s) ra -> dst (set_ad s d ra).
  Proof.
    intros [W D] [[A B] C]. split; auto. intros i. cbn. unfold fset. destruct (i =? d); auto.
    eapply Da_mono; eauto.
  Qed.
  Lemma dst_step i s s' : dst s -> step_rec tid i s = Some s' -> dst s'.
  Proof.
    intros S H. pose proof S as [W D].
    destruct i as [d c|d x|u d x|o d l rt|o d rt|c d l rt t f|k d x|d v i|v i x]; cbn [step_rec] in H.
    1-7: injection H as <-; apply dst_set; auto.
    - now apply dg_con.
    - split; [now apply dg0_refl|apply D].
    - apply dg_un; auto.
    - apply dg_bin; auto.
    - apply dg_eq; auto.
    - apply dg_cond; auto.
    - apply dg_dis; auto.
    - destruct (vec_index tid (st_rec s) (st_v s v) (st_r s i)) as [[r1 v1]|] eqn:E; [|discriminate].
      destruct (vec_load tid r1 v1 (st_r s i)) as [[r2 a]|] eqn:F; [|discriminate]. injection H as <-.
      destruct (dg0_vec_index _ _ _ _ _ W E) as [W1 L1].
      destruct (dg_vec_load _ _ _ _ _ W1 F) as [[W2 L2] G]. cbn in W2, L2, G.
      split; cbn; auto. intros j. unfold fset. destruct (j =? d); auto. eapply Da_mono; [|apply D]. lia.
    - destruct (vec_index tid (st_rec s) (st_v s v) (st_r s i)) as [[r1 v1]|] eqn:E; [|discriminate].
      destruct (vec_store tid r1 v1 (st_r s i) (st_r s x)) as [[r2 v2]|] eqn:F; [|discriminate]. injection H as <-.
      destruct (dg0_vec_index _ _ _ _ _ W E) as [W1 L1].
      destruct (dg0_vec_store _ _ _ _ _ _ W1 F) as [W2 L2].
      split; cbn; auto. intros j. eapply Da_mono; [|apply D]. lia.
  Qed.
  Lemma dwf_dep_loop ys : forall r, dwf r -> dwf (fst (dep_loop tid r ys)).
  Proof.
    induction ys as [|y ys IH]; intros r W; cbn [dep_loop]; auto.
    assert (dwf (fst (if is_parameter tid y then record_par_op tid r y else (r, a_taddr y)))) as A.
    { destruct (is_parameter tid y); auto. unfold record_par_op. destruct (is_dynamic tid y).
      - now apply dg0_put_op_arg.
      - destruct (dg0_put_con_par r (a_val y) W) as [[A _] _]. destruct (put_con_par r (a_val y)).
        now apply dg0_put_op_arg. }
    destruct (if is_parameter tid y then record_par_op tid r y else (r, a_taddr y)) as [r1 t].
    cbn [fst] in A. pose proof (IH r1 A). now destruct (dep_loop tid r1 ys).
  Qed.
  Lemma dwf_exec p : forall s r dep, dst s -> exec tid p s = Some (r, dep) -> dwf r.
  Proof.
    induction p as [ys|i p IH|c l rt pt IHt pf IHf]; intros s r dep S H; cbn [exec] in H.
    - pose proof (dwf_dep_loop (map (st_r s) ys) _ (proj1 S)) as A.
      destruct (dep_loop tid (st_rec s) (map (st_r s) ys)). injection H as <- <-.
      now apply (dg0_put_op r0 EndOp).
    - destruct (step_rec tid i s) eqn:E; [|discriminate]. eapply IH; [|exact H]. eapply dst_step; eauto.
    - destruct S as [W D].
      pose proof (dg0_cmp c (st_rec s) (st_r s l) (st_r s rt) W (D l) (D rt)) as [W1 L1].
      destruct (ad_cmp tid c (st_rec s) (st_r s l) (st_r s rt)) as [r1 res]. cbn [fst] in *.
      assert (dst (mkState (st_r s) (st_v s) r1)) as S1.
      { split; auto. intros i. eapply Da_mono; [|apply D]. exact L1. }
      destruct res; eauto.
  Qed.
End Dwf.
