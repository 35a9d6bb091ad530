(** Simulation between recording and replay: the AD operators. *)
From Coq Require Import ZArith List Bool Arith Lia.
From Verif Require Import Base_Spec Op_Model Tape_Spec Tape_Model Tape_Proof Tape_Proof2 Tape_Proof3.
Import ListNotations.

Section Sim.
  Context {b : base} (L : base_laws b).
  Notation T := (bt b).
  Variable tid : nat.
  Hypothesis tid0 : tid <> 0.
  Variables (ind : list T) (P : nat -> T) (cc : nat).
  Variables (V0 : nat -> T) (vec0 : nat -> nat) (l2v0 : nat -> nat).
  Notation tape_ok := (tape_ok P cc V0 vec0 l2v0).
  Variable same : Prop.
  Notation grows := (grows ind P cc V0 vec0 l2v0 same).
  Notation Pok := (Pok ind P).
  Notation is_var := (is_var tid).
  Notation is_dyn := (is_dyn tid).
  Notation rel := (rel tid P same).
  Notation opres := (opres tid ind P cc V0 vec0 l2v0 same).

  Ltac sametac :=
    let Hs := fresh in intros Hs;
    repeat match goal with
    | R : rel _ _ _ ?u ?v |- _ =>
        let F := fresh in pose proof (rel_same _ _ _ _ _ _ _ _ R Hs) as F; clear R; try subst v
    end; solve [reflexivity | now rewrite (l_addC _ L) | now rewrite (l_mulC _ L) | congruence ].
  Ltac sem2_tac := intros; intros ?; eexists; split; [reflexivity|repeat split; cbn; lia].

  (** derive what the kind of each operand tells *)
  Ltac kinds R :=
    match type of R with
    | rel ?r ?s ?a _ _ =>
      destruct (is_var a) eqn:?; destruct (is_dyn a) eqn:?;
      [ exfalso; match goal with H : is_dyn a = true |- _ => apply is_dyn_not_var in H; congruence end
      | | |
        match goal with
        | H1 : is_var a = false, H2 : is_dyn a = false |- _ =>
          let F := fresh in
          pose proof (proj2 (rel_con _ _ _ _ _ _ _ _ R H1 H2)) as F; cbn in F; try subst
        end ]
    end.

  Ltac bools :=
    repeat match goal with
    | |- opres _ _ (if ?c then _ else _) _ _ => destruct c eqn:?; cbn [negb andb orb]
    end.
  Ltac idfacts :=
    repeat match goal with
    | H : negb _ = true |- _ => apply negb_true_iff in H
    | H : negb _ = false |- _ => apply negb_false_iff in H
    | H : is0 ?x = true |- _ => let F := fresh in pose proof (l_is0 _ L _ H) as F; clear H; try subst
    | H : is1 ?x = true |- _ => let F := fresh in pose proof (l_is1 _ L _ H) as F; clear H; try subst
    end.
  Ltac laws :=
    rewrite ?(l_azmul _ L);
    repeat match goal with H : is0 ?x = ?v |- context [is0 ?x] => rewrite H end;
    rewrite ?(l_add0l _ L), ?(l_add0r _ L), ?(l_sub0r _ L), ?(l_mul0l _ L), ?(l_mul0r _ L),
      ?(l_mul1l _ L), ?(l_mul1r _ L), ?(l_div0l _ L), ?(l_div1r _ L); auto.

  Ltac leaf :=
    match goal with
    | |- opres ?r ?s (rec_var _ _ _ _ _) _ _ =>
        eapply leaf_vv; eauto; try discriminate; try reflexivity; try sametac; sem2_tac
    | |- opres ?r ?s (let '(_, _) := par_addr _ _ ?x in rec_var _ _ _ [_; a_taddr _] _) _ _ =>
        eapply (leaf_pv L tid tid0); eauto; try discriminate; try reflexivity; try sametac; sem2_tac
    | |- opres ?r ?s (let '(_, _) := par_addr _ _ ?x in rec_var _ _ _ [a_taddr _; _] _) _ _ =>
        eapply (leaf_vp L tid tid0); eauto; try discriminate; try reflexivity; try sametac; sem2_tac
    | |- opres ?r ?s (rec_dyn2 _ _ _ _ _ _) _ _ =>
        eapply (rec_dyn2_res L); eauto; try reflexivity; try sametac; intros; cbn; congruence
    | |- opres ?r ?s (_, con_ad _) _ _ => apply leaf_con; auto; idfacts; laws
    | |- opres ?r ?s (_, make_var _ _) _ _ =>
        apply leaf_same; auto; eapply rel_make_var; [eauto|eauto| |try sametac]; idfacts; laws
    | |- opres ?r ?s (_, make_dyn _ _) _ _ =>
        apply leaf_same; auto; eapply rel_make_dyn; [eauto|eauto| |try sametac]; idfacts; laws
    end.

  Ltac commute :=
    match goal with
    | |- opres _ _ _ _ (b_bin Badd ?p ?q) => rewrite (l_addC _ L p q); leaf
    | |- opres _ _ _ _ (b_bin Bmul ?p ?q) => rewrite (l_mulC _ L p q); leaf
    end.

  Lemma ad_add_res r s x y x0 x1 y0 y1 :
    tape_ok r s -> rel r s x x0 x1 -> rel r s y y0 y1 ->
    opres r s (ad_add tid r x y) (b_bin Badd x0 y0) (b_bin Badd x1 y1).
  Proof.
    intros K Rx Ry. unfold ad_add. rewrite (rel_val _ _ _ _ _ _ _ _ Rx), (rel_val _ _ _ _ _ _ _ _ Ry).
    kinds Rx; kinds Ry; cbn [negb andb orb]; bools; try leaf.
    all: commute.
  Qed.

  Lemma ad_sub_res r s x y x0 x1 y0 y1 :
    tape_ok r s -> rel r s x x0 x1 -> rel r s y y0 y1 ->
    opres r s (ad_sub tid r x y) (b_bin Bsub x0 y0) (b_bin Bsub x1 y1).
  Proof.
    intros K Rx Ry. unfold ad_sub. rewrite (rel_val _ _ _ _ _ _ _ _ Rx), (rel_val _ _ _ _ _ _ _ _ Ry).
    kinds Rx; kinds Ry; cbn [negb andb orb]; bools; leaf.
  Qed.

  Lemma ad_mul_res r s x y x0 x1 y0 y1 :
    tape_ok r s -> rel r s x x0 x1 -> rel r s y y0 y1 ->
    opres r s (ad_mul tid r x y) (b_bin Bmul x0 y0) (b_bin Bmul x1 y1).
  Proof.
    intros K Rx Ry. unfold ad_mul. rewrite (rel_val _ _ _ _ _ _ _ _ Rx), (rel_val _ _ _ _ _ _ _ _ Ry).
    kinds Rx; kinds Ry; cbn [negb andb orb]; bools; try leaf.
    all: commute.
  Qed.

  Lemma ad_div_res r s x y x0 x1 y0 y1 :
    tape_ok r s -> rel r s x x0 x1 -> rel r s y y0 y1 ->
    opres r s (ad_div tid r x y) (b_bin Bdiv x0 y0) (b_bin Bdiv x1 y1).
  Proof.
    intros K Rx Ry. unfold ad_div. rewrite (rel_val _ _ _ _ _ _ _ _ Rx), (rel_val _ _ _ _ _ _ _ _ Ry).
    kinds Rx; kinds Ry; cbn [negb andb orb]; bools; leaf.
  Qed.

  Lemma azmul0r x : b_bin Bazmul x (@b0 b) = b0.
  Proof. rewrite (l_azmul _ L). destruct (is0 x); auto. apply (l_mul0r _ L). Qed.
  Lemma azmul0l x y : is0 (x : T) = true -> b_bin Bazmul x y = b0.
  Proof. rewrite (l_azmul _ L). now intros ->. Qed.
  Lemma azmul1r x : b_bin Bazmul x (@b1 b) = x.
  Proof.
    rewrite (l_azmul _ L). destruct (is0 x) eqn:E; [|apply (l_mul1r _ L)].
    symmetry. now apply (l_is0 _ L).
  Qed.
  Lemma azmul1l (x y : T) : is1 x = true -> b_bin Bazmul x y = y.
  Proof.
    intros E. rewrite (l_azmul _ L). pose proof (l_is1 _ L _ E) as ->.
    destruct (is0 b1) eqn:F; [|apply (l_mul1l _ L)].
    apply (l_is0 _ L) in F. rewrite <- (l_mul1l _ L y). now rewrite F, (l_mul0l _ L).
  Qed.

  Lemma ad_azmul_res r s x y x0 x1 y0 y1 :
    tape_ok r s -> rel r s x x0 x1 -> rel r s y y0 y1 ->
    opres r s (ad_azmul tid r x y) (b_bin Bazmul x0 y0) (b_bin Bazmul x1 y1).
  Proof.
    intros K Rx Ry. unfold ad_azmul. rewrite (rel_val _ _ _ _ _ _ _ _ Rx), (rel_val _ _ _ _ _ _ _ _ Ry).
    kinds Rx; kinds Ry; cbn [negb andb orb]; bools;
      try solve [apply leaf_con; auto; rewrite ?(azmul0l x0) by auto; auto; idfacts;
                 rewrite ?azmul0r; auto];
      try solve [apply leaf_same; auto; eapply rel_make_var; [eauto|eauto| |try sametac]; rewrite ?(azmul1l x0) by auto;
                 auto; idfacts; rewrite ?azmul1r; auto];
      try solve [apply leaf_same; auto; eapply rel_make_dyn; [eauto|eauto| |try sametac]; rewrite ?(azmul1l x0) by auto;
                 auto; idfacts; rewrite ?azmul1r; auto]; leaf.
  Qed.

  (** zero raised to a power that is not a constant is excluded *)
  Definition pow_ok (x y : AD b) : Prop :=
    is_constant tid x = true -> is0 (a_val x) = true -> is_constant tid y = true.

  Lemma is_constant_spec (a : AD b) : is_constant tid a = negb (is_var a) && negb (is_dyn a).
  Proof.
    unfold is_constant, Tape_Model.is_var, Tape_Model.is_dyn.
    destruct (a_tid a =? tid) eqn:E; cbn.
    - apply Nat.eqb_eq in E. rewrite E. destruct tid; [easy|]. cbn. now destruct (is_T_dyn (a_type a)).
    - now rewrite orb_true_r.
  Qed.

  Lemma ad_pow_res r s x y x0 x1 y0 y1 :
    tape_ok r s -> rel r s x x0 x1 -> rel r s y y0 y1 -> pow_ok x y ->
    opres r s (ad_pow tid r x y) (b_bin Bpow x0 y0) (b_bin Bpow x1 y1).
  Proof.
    intros K Rx Ry H. unfold ad_pow. unfold pow_ok in H. rewrite !is_constant_spec in H.
    rewrite (rel_val _ _ _ _ _ _ _ _ Rx), (rel_val _ _ _ _ _ _ _ _ Ry) in *.
    kinds Rx; kinds Ry; cbn [negb andb orb]; bools; 
      repeat match goal with E : is_var _ = _ |- _ => rewrite E in H
        | E : is_dyn _ = _ |- _ => rewrite E in H end; cbn in H;
      try (specialize (H eq_refl)); try (rewrite H by auto); try discriminate (H eq_refl);
      try solve [leaf].
    all: try (exfalso; cbn in *; intuition congruence).
    all: apply leaf_con; auto; idfacts; apply (l_pow0 _ L).
  Qed.

  Lemma ad_bin_res o r s x y x0 x1 y0 y1 :
    tape_ok r s -> rel r s x x0 x1 -> rel r s y y0 y1 -> (o = Bpow -> pow_ok x y) ->
    opres r s (ad_bin tid o r x y) (b_bin o x0 y0) (b_bin o x1 y1).
  Proof.
    intros. destruct o; cbn;
    auto using ad_add_res, ad_sub_res, ad_mul_res, ad_div_res, ad_azmul_res, ad_pow_res.
  Qed.

  (** compound assignment *)
  Ltac leaf_eq :=
    match goal with
    | |- opres ?r ?s (_, mkAD _ 0 _ _) _ _ =>
        apply leaf_same; auto; apply rel_untape; auto; idfacts; laws
    | |- opres ?r ?s (_, mkAD _ (a_tid ?a) _ _) _ _ =>
        apply leaf_same; auto;
        first [ eapply rel_keep_tape; [eassumption|solve [auto]|solve [idfacts; laws]|sametac]
              | eapply rel_keep_con; [eassumption|assumption|assumption|solve [idfacts; laws]] ]
    | _ => leaf
    end.

  Lemma ad_eq_res o r s x y x0 x1 y0 y1 :
    tape_ok r s -> rel r s x x0 x1 -> rel r s y y0 y1 ->
    opres r s (ad_eq tid o r x y) (b_bin (eqop_bin o) x0 y0) (b_bin (eqop_bin o) x1 y1).
  Proof.
    intros K Rx Ry. destruct o; cbn [ad_eq eqop_bin];
    unfold ad_add_eq, ad_sub_eq, ad_mul_eq, ad_div_eq;
    rewrite (rel_val _ _ _ _ _ _ _ _ Rx), (rel_val _ _ _ _ _ _ _ _ Ry);
    kinds Rx; kinds Ry; cbn [negb andb orb]; bools; cbn [negb andb orb];
    try solve [leaf_eq]; try solve [commute].
  Qed.

  (** unary functions *)
  Lemma not_var_tid r s a v0 v1 : rel r s a v0 v1 -> negb (a_tid a =? tid) = true -> v1 = v0.
  Proof. intros (A & _ & B) H. apply negb_true_iff in H. now rewrite H in B. Qed.

  Lemma ad_un_res u r s x x0 x1 :
    tape_ok r s -> rel r s x x0 x1 ->
    opres r s (ad_un tid u r x) (b_un u x0) (b_un u x1).
  Proof.
    intros K R. unfold ad_un. rewrite (rel_val _ _ _ _ _ _ _ _ R).
    destruct (negb (a_tid x =? tid)) eqn:E.
    { rewrite (not_var_tid _ _ _ _ _ R E). now apply leaf_con. }
    apply negb_false_iff in E.
    destruct (is_T_dyn (a_type x)) eqn:D.
    { assert (is_dyn x = true) as F by (unfold Tape_Model.is_dyn; now rewrite E, D).
      destruct (rel_dyn _ _ _ _ _ _ _ _ R F) as (_ & _ & A & B).
      apply rec_dyn_res; auto; [now destruct u|now destruct u; cbn; auto| |sametac];
      destruct u; cbn; auto; intros; rewrite ?(l_abs _ L); congruence. }
    assert (is_var x = true) as F by (unfold Tape_Model.is_var; now rewrite E, D).
    destruct (rel_var _ _ _ _ _ _ _ _ R F) as (_ & _ & A & B).
    assert (forall u', match u' with Uerf | Uerfc => False | _ => True end ->
      opres r s (rec_var tid r (un_op u') [a_taddr x] (b_un u' x0)) (b_un u' x0) (b_un u' x1)) as G.
    { intros u' Hu. destruct u'; try easy; 
      (eapply rec_var_res; eauto; try discriminate; try reflexivity; cbn;
        try lia; try sametac; repeat constructor; try lia; try (intros _; rewrite ?(l_abs _ L); congruence)). }
    assert (forall u', match u' with Uerf | Uerfc => True | _ => False end ->
      opres r s (let '(r1, p) := put_con_par r b0 in
             let '(r2, q) := put_con_par r1 berf in
             rec_var tid r2 (un_op u') [a_taddr x; p; q] (b_un u' x0)) (b_un u' x0) (b_un u' x1)) as G2.
    { intros u' Hu.
      destruct (put_con_par r b0) as [r1 p] eqn:E0.
      destruct (put_con_par_grows L ind _ _ _ _ _ same _ _ _ _ _ K E0) as (G0 & B0 & N0 & _ & _).
      destruct (put_con_par r1 berf) as [r2 q] eqn:E1.
      destruct (put_con_par_grows L ind _ _ _ _ _ same _ _ _ _ _ (g_ok _ _ _ _ _ _ _ _ _ _ _ G0) E1)
        as (G1 & B1 & N1 & _ & _).
      pose proof (ext_par_len _ _ (g_ext _ _ _ _ _ _ _ _ _ _ _ G1)).
      eapply opres_step; [eapply grows_trans; eauto|].
      destruct u'; try easy; 
      (eapply rec_var_res; eauto using g_ok; try discriminate; try reflexivity; cbn;
        try lia; try sametac; repeat constructor; try lia; try (intros _; congruence)). }
    destruct u; first [apply (G Uneg I)|apply G; exact I|apply G2; exact I].
  Qed.

  Lemma ad_dis_res k r s x x0 x1 :
    tape_ok r s -> rel r s x x0 x1 ->
    opres r s (ad_dis tid k r x) (b_dis k x0) (b_dis k x1).
  Proof.
    intros K R. unfold ad_dis. rewrite (rel_val _ _ _ _ _ _ _ _ R).
    destruct (negb (a_tid x =? tid)) eqn:E.
    { rewrite (not_var_tid _ _ _ _ _ R E). now apply leaf_con. }
    apply negb_false_iff in E.
    destruct (is_T_dyn (a_type x)) eqn:D.
    { assert (is_dyn x = true) as F by (unfold Tape_Model.is_dyn; now rewrite E, D).
      destruct (rel_dyn _ _ _ _ _ _ _ _ R F) as (_ & _ & A & B).
      apply rec_dyn_res; auto; cbn; auto; [intros; congruence|sametac]. }
    assert (is_var x = true) as F by (unfold Tape_Model.is_var; now rewrite E, D).
    destruct (rel_var _ _ _ _ _ _ _ _ R F) as (_ & _ & A & B).
    eapply rec_var_res; eauto; try discriminate; try reflexivity; try sametac; cbn; auto.
    intros _. congruence.
  Qed.
End Sim.
