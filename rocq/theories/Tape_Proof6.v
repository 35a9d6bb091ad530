(** Simulation between recording and replay: conditional expressions and comparisons. *)
From Coq Require Import ZArith List Bool Arith Lia.
From Verif Require Import Base_Spec Op_Model Tape_Spec Tape_Model Tape_Proof Tape_Proof2 Tape_Proof3
  Tape_Proof4 Tape_Proof5.
Import ListNotations.

Section Sim.
  Context {b : base} (L : base_laws b).
  Notation T := (bt b).
  Variable tid : nat.
  Hypothesis tid0 : tid <> 0.
  Variables (ind : list T) (P : nat -> T) (cc : nat).
  Variables (V0 : nat -> T) (vec0 : nat -> nat) (l2v0 : nat -> nat).
  Notation tape_ok := (tape_ok P cc V0 vec0 l2v0).
  Variable same : Prop.
  Notation grows := (grows ind P cc V0 vec0 l2v0 same).
  Notation Pok := (Pok ind P).
  Notation is_var := (is_var tid).
  Notation is_dyn := (is_dyn tid).
  Notation rel := (rel tid P same).
  Notation opres := (opres tid ind P cc V0 vec0 l2v0 same).

  Lemma cond_code_spec c (l r t f : T) :
    cond_exp_code (cexp_code c) l r t f = if b_cmp (cexp_cmp c) l r then t else f.
  Proof. now destruct c. Qed.

  Lemma cexp_arg_res r s x v0 v1 bit r' p m :
    tape_ok r s -> rel r s x v0 v1 -> cexp_arg tid r x bit = (r', p, m) ->
    grows r s r' s /\
    ((m = 0 /\ p < length (r_par r') /\ (Pok r' -> P p = v1)) \/
     (m = bit /\ 0 < p < r_nvar r /\ f_V s p = v1)).
  Proof.
    intros K R E. unfold cexp_arg in E. rewrite is_constant_spec in E by auto.
    destruct (is_var x) eqn:Vx; cbn in E.
    - injection E as <- <- <-. destruct (rel_var _ _ _ _ _ _ _ _ R Vx) as (A & B & C & D).
      rewrite B. cbn. split; [now apply grows_refl|]. right. auto.
    - destruct (is_dyn x) eqn:Dx; cbn in E.
      + injection E as <- <- <-. destruct (rel_dyn _ _ _ _ _ _ _ _ R Dx) as (A & B & C & D).
        rewrite B. cbn. split; [now apply grows_refl|]. left. auto.
      + destruct (put_con_par r (a_val x)) as [r1 q] eqn:F. injection E as <- <- <-.
        destruct (put_con_par_grows L ind _ _ _ _ _ same _ _ _ _ _ K F) as (A & B & C & _ & D).
        split; auto. left. repeat split; auto. intros HP. rewrite (D HP).
        destruct (rel_con _ _ _ _ _ _ _ _ R Vx Dx) as [_ ->]. now apply rel_val in R.
  Qed.

  (** two constant operands: the selected branch must be a constant as well *)
  Definition cond_ok (c : cexpop) (l rt t f : AD b) : Prop :=
    is_constant tid l = true -> is_constant tid rt = true ->
    is_constant tid (if b_cmp (cexp_cmp c) (a_val l) (a_val rt) then t else f) = true.

  Lemma rel_constant r s a v0 v1 : rel r s a v0 v1 -> is_constant tid a = true -> v1 = v0.
  Proof.
    intros R H. rewrite is_constant_spec in H by auto.
    apply andb_true_iff in H as [A B]. apply negb_true_iff in A, B.
    now destruct (rel_con _ _ _ _ _ _ _ _ R A B).
  Qed.

  Lemma Pok_g r s r' s' : tape_ok r s -> grows r s r' s' -> Pok r' -> Pok r.
  Proof. intros K G. apply Pok_ext; [apply (t_dwf _ _ _ _ _ _ _ K)|apply (g_ext _ _ _ _ _ _ _ _ _ _ _ G)]. Qed.

  Lemma relg r s r' s' a v0 v1 : grows r s r' s' -> rel r s a v0 v1 -> rel r' s' a v0 v1.
  Proof. now apply rel_grows. Qed.
  Lemma par_addr_g r s a v0 v1 r' p :
    tape_ok r s -> rel r s a v0 v1 -> is_var a = false -> par_addr tid r a = (r', p) ->
    grows r s r' s /\ p < length (r_par r') /\ r_nvar r' = r_nvar r /\
    (Pok r' -> P p = v1).
  Proof. now apply par_addr_grows. Qed.

  Lemma ad_cond_res c r s l rt t f l0 l1 r0 r1 t0 t1 f0 f1 :
    tape_ok r s -> rel r s l l0 l1 -> rel r s rt r0 r1 -> rel r s t t0 t1 -> rel r s f f0 f1 ->
    cond_ok c l rt t f ->
    opres r s (ad_cond tid c r l rt t f)
      (if b_cmp (cexp_cmp c) l0 r0 then t0 else f0) (if b_cmp (cexp_cmp c) l1 r1 then t1 else f1).
  Proof.
    intros K Rl Rr Rt Rf H. unfold ad_cond.
    rewrite (rel_val _ _ _ _ _ _ _ _ Rl), (rel_val _ _ _ _ _ _ _ _ Rr), (rel_val _ _ _ _ _ _ _ _ Rt),
      (rel_val _ _ _ _ _ _ _ _ Rf), cond_code_spec.
    destruct (is_constant tid l && is_constant tid rt) eqn:E.
    - apply andb_true_iff in E as [E1 E2]. specialize (H E1 E2).
      rewrite (rel_val _ _ _ _ _ _ _ _ Rl), (rel_val _ _ _ _ _ _ _ _ Rr) in H.
      pose proof (rel_constant _ _ _ _ _ Rl E1) as ->. pose proof (rel_constant _ _ _ _ _ Rr E2) as ->.
      apply leaf_con; auto. destruct (b_cmp (cexp_cmp c) l0 r0).
      + now rewrite (rel_constant _ _ _ _ _ Rt H).
      + now rewrite (rel_constant _ _ _ _ _ Rf H).
    - clear E H.
      assert (same -> (if b_cmp (cexp_cmp c) l1 r1 then t1 else f1)
                      = if b_cmp (cexp_cmp c) l0 r0 then t0 else f0) as Hsm.
      { intros Hs. pose proof (rel_same _ _ _ _ _ _ _ _ Rl Hs). pose proof (rel_same _ _ _ _ _ _ _ _ Rr Hs).
        pose proof (rel_same _ _ _ _ _ _ _ _ Rt Hs). pose proof (rel_same _ _ _ _ _ _ _ _ Rf Hs). now subst. }
      destruct (cexp_arg tid r l 1) as [[ra a2] m0] eqn:E0.
      destruct (cexp_arg_res _ _ _ _ _ _ _ _ _ K Rl E0) as (G0 & A0).
      pose proof (g_ok _ _ _ _ _ _ _ _ _ _ _ G0) as K0.
      apply (relg _ _ _ _ _ _ _ G0) in Rr, Rt, Rf.
      destruct (cexp_arg tid ra rt 2) as [[rb a3] m1] eqn:E1.
      destruct (cexp_arg_res _ _ _ _ _ _ _ _ _ K0 Rr E1) as (G1 & A1).
      pose proof (g_ok _ _ _ _ _ _ _ _ _ _ _ G1) as K1.
      apply (relg _ _ _ _ _ _ _ G1) in Rt, Rf.
      destruct (cexp_arg tid rb t 4) as [[rc a4] m2] eqn:E2.
      destruct (cexp_arg_res _ _ _ _ _ _ _ _ _ K1 Rt E2) as (G2 & A2).
      pose proof (g_ok _ _ _ _ _ _ _ _ _ _ _ G2) as K2.
      apply (relg _ _ _ _ _ _ _ G2) in Rf.
      destruct (cexp_arg tid rc f 8) as [[rd a5] m3] eqn:E3.
      destruct (cexp_arg_res _ _ _ _ _ _ _ _ _ K2 Rf E3) as (G3 & A3).
      pose proof (g_ok _ _ _ _ _ _ _ _ _ _ _ G3) as K3.
      pose proof (ext_par_len _ _ (g_ext _ _ _ _ _ _ _ _ _ _ _ G3)) as LP3.
      pose proof (ext_par_len _ _ (g_ext _ _ _ _ _ _ _ _ _ _ _ G2)) as LP2.
      pose proof (ext_par_len _ _ (g_ext _ _ _ _ _ _ _ _ _ _ _ G1)) as LP1.
      pose proof (e_nv _ _ (g_ext _ _ _ _ _ _ _ _ _ _ _ G0)) as LN0.
      pose proof (e_nv _ _ (g_ext _ _ _ _ _ _ _ _ _ _ _ G1)) as LN1.
      pose proof (e_nv _ _ (g_ext _ _ _ _ _ _ _ _ _ _ _ G2)) as LN2.
      pose proof (e_nv _ _ (g_ext _ _ _ _ _ _ _ _ _ _ _ G3)) as LN3.
      eapply opres_step; [eapply grows_trans; [eauto|]; eapply grows_trans; [eauto|];
        eapply grows_trans; eauto|].
      assert (Pok rd -> Pok ra /\ Pok rb /\ Pok rc) as PP.
      { intros HP. pose proof (Pok_g _ _ _ _ K2 G3 HP) as HP2.
        pose proof (Pok_g _ _ _ _ K1 G2 HP2) as HP1.
        pose proof (Pok_g _ _ _ _ K0 G1 HP1). auto. }
      destruct A0 as [(-> & A0 & X0)|(-> & A0 & X0)], A1 as [(-> & A1 & X1)|(-> & A1 & X1)],
        A2 as [(-> & A2 & X2)|(-> & A2 & X2)], A3 as [(-> & A3 & X3)|(-> & A3 & X3)];
        cbn [Nat.add Nat.eqb];
        first [ apply rec_dyn_res; [exact K3|reflexivity|cbn; repeat constructor; lia| |exact Hsm]
              | eapply rec_var_res; [exact tid0|exact K3|reflexivity|discriminate
                  |cbn; repeat constructor; lia|cbn; repeat constructor; lia|reflexivity
                  |reflexivity|cbn; lia| |exact Hsm] ];
        (intros HP; destruct (PP HP) as (HPa & HPb & HPc); cbn -[cond_exp_code];
         unfold vp; cbn -[cond_exp_code]; rewrite cond_code_spec;
         rewrite ?X0, ?X1, ?X2, ?X3 by auto; reflexivity).
  Qed.

  (* -------------------------------------------------------------- *)
  (** ** comparisons *)
  Definition cmpres (r : rec b) (s : fst0 b) (r' : rec b) (ch : bool) : Prop :=
    exists s', ext r r' /\ tape_ok r' s' /\ r_vec r' = r_vec r /\
      f_V s' = f_V s /\ f_isv s' = f_isv s /\ f_idx s' = f_idx s /\
      (Pok r' -> cc <> 0 -> f_num s' = f_num s + if ch then 1 else 0) /\
      (same -> Pok r' -> pareq P r -> pareq P r').

  Lemma cmpres_step r s r1 ch r' : grows r s r1 s -> cmpres r1 s r' ch -> cmpres r s r' ch.
  Proof.
    intros G (s' & A & B & C & D1 & D2 & D3 & D4 & D5).
    pose proof (Pok_ext ind P _ _ (t_dwf _ _ _ _ _ _ _ (g_ok _ _ _ _ _ _ _ _ _ _ _ G)) A) as HX.
    exists s'. split; [|split; [auto|split; [|split; [auto|split; [auto|split; [auto|split; [auto|]]]]]]].
    - eapply ext_trans; [apply (g_ext _ _ _ _ _ _ _ _ _ _ _ G)|auto].
    - rewrite C. apply (g_vec _ _ _ _ _ _ _ _ _ _ _ G).
    - intros Hs HP Hq. apply D5; auto. apply (g_peq _ _ _ _ _ _ _ _ _ _ _ G); auto.
  Qed.

  Lemma cmp_op_res r s o i j ch ch' :
    tape_ok r s -> n_actual o [i; j] = 2 -> num_res o = 0 -> o <> CSkipOp ->
    Forall (fun j => 0 < j < r_nvar r) (var_args o [i; j]) ->
    Forall (fun j => j < length (r_par r)) (par_args o [i; j]) ->
    cmp_change o [i; j] P (f_V s) = Some ch' ->
    (Pok r -> ch' = ch) ->
    cmpres r s (fst (put_op (put_arg r [i; j]) o)) ch.
  Proof.
    intros K Ha Hn Hc Hv Hp Hs Hch.
    destruct (add_op_tape P cc V0 vec0 l2v0 r s (fst (put_op (put_arg r [i; j]) o)) o [i; j] K)
      as (X & W & ll & _ & _ & _ & Y); auto.
    { repeat split; cbn; lia. }
    set (s' := if (cc =? 0) || negb ch' then s else
      mkF (f_V s) (f_isv s) (f_idx s) (f_l2v s) (S (f_num s))
          (if S (f_num s) =? cc then length (r_op r) else f_opi s) (f_skip s)).
    assert (sem0 o [i; j] P (f_V s) = None) as Hsem by (destruct o; try discriminate; reflexivity).
    exists s'. split; [exact X|]. split; [apply Y|].
    - unfold step0. rewrite Hsem, Hs. subst s'. destruct ((cc =? 0) || negb ch'); reflexivity.
    - subst s'. destruct (_ || _); cbn; apply (t_skip _ _ _ _ _ _ _ K).
    - split; [reflexivity|]. subst s'.
      split; [|split; [|split; [|split; [|intros _ _ Hq; exact Hq]]]]; try (destruct (_ || _); reflexivity).
      intros HP Hcc. rewrite Hch in * by (eapply Pok_ext; eauto; apply (t_dwf _ _ _ _ _ _ _ K)).
      apply Nat.eqb_neq in Hcc. rewrite Hcc. cbn. destruct ch; cbn; lia.
  Qed.

  (** an ordering operator: [F x y] = "the comparison changed" *)
  Lemma rec_ord_res vv vp pv pp F r s x y x0 x1 y0 y1 :
    tape_ok r s -> rel r s x x0 x1 -> rel r s y y0 y1 ->
    Forall (fun o => num_res o = 0 /\ o <> CSkipOp /\ forall a, n_actual o a = 2) [vv; vp; pv; pp] ->
    (forall a, var_args vv a = [nth 0 a 0; nth 1 a 0] /\ par_args vv a = []) ->
    (forall a, var_args vp a = [nth 0 a 0] /\ par_args vp a = [nth 1 a 0]) ->
    (forall a, var_args pv a = [nth 1 a 0] /\ par_args pv a = [nth 0 a 0]) ->
    (forall a, var_args pp a = [] /\ par_args pp a = [nth 0 a 0; nth 1 a 0]) ->
    (forall i j V, cmp_change vv [i; j] P V = Some (F (V i) (V j)) /\
       cmp_change vp [i; j] P V = Some (F (V i) (P j)) /\
       cmp_change pv [i; j] P V = Some (F (P i) (V j)) /\
       cmp_change pp [i; j] P V = Some (F (P i) (P j))) ->
    F x0 y0 = false ->
    cmpres r s (rec_ord tid vv vp pv pp r x y) (F x1 y1).
  Proof.
    intros K Rx Ry Ho Hvv Hvp Hpv Hpp HF H0. unfold rec_ord.
    inversion_clear Ho as [|? ? (o1 & o2 & o3) Ho1]. inversion_clear Ho1 as [|? ? (q1 & q2 & q3) Ho2].
    inversion_clear Ho2 as [|? ? (k1 & k2 & k3) Ho3]. inversion_clear Ho3 as [|? ? (m1 & m2 & m3) _].
    destruct (is_var x) eqn:Vx, (is_var y) eqn:Vy.
    - destruct (rel_var _ _ _ _ _ _ _ _ Rx Vx) as (_ & _ & Bx & Ex).
      destruct (rel_var _ _ _ _ _ _ _ _ Ry Vy) as (_ & _ & By & Ey).
      destruct (HF (a_taddr x) (a_taddr y) (f_V s)) as (F1 & _).
      eapply cmp_op_res; eauto; try (now rewrite ?(proj1 (Hvv _)), ?(proj2 (Hvv _)); cbn; auto).
      intros _. congruence.
    - destruct (par_addr tid r y) as [r1 p] eqn:E.
      destruct (par_addr_g _ _ _ _ _ _ _ K Ry Vy E) as (G0 & B0 & N0 & P0).
      destruct (rel_var _ _ _ _ _ _ _ _ Rx Vx) as (_ & _ & Bx & Ex).
      eapply cmpres_step; eauto.
      destruct (HF (a_taddr x) p (f_V s)) as (_ & F1 & _).
      eapply cmp_op_res; eauto using g_ok; try (rewrite ?(proj1 (Hvp _)), ?(proj2 (Hvp _)); cbn; repeat constructor; lia).
      intros HP. rewrite Ex, (P0 HP). auto.
    - destruct (par_addr tid r x) as [r1 p] eqn:E.
      destruct (par_addr_g _ _ _ _ _ _ _ K Rx Vx E) as (G0 & B0 & N0 & P0).
      destruct (rel_var _ _ _ _ _ _ _ _ Ry Vy) as (_ & _ & By & Ey).
      eapply cmpres_step; eauto.
      destruct (HF p (a_taddr y) (f_V s)) as (_ & _ & F1 & _).
      eapply cmp_op_res; eauto using g_ok; try (rewrite ?(proj1 (Hpv _)), ?(proj2 (Hpv _)); cbn; repeat constructor; lia).
      intros HP. rewrite Ey, (P0 HP). auto.
    - destruct (is_dyn x || is_dyn y) eqn:D.
      + destruct (par_addr tid r x) as [r1 p] eqn:E.
        destruct (par_addr_g _ _ _ _ _ _ _ K Rx Vx E) as (G0 & B0 & N0 & P0).
        pose proof (g_ok _ _ _ _ _ _ _ _ _ _ _ G0) as K0.
        apply (relg _ _ _ _ _ _ _ G0) in Ry.
        destruct (par_addr tid r1 y) as [r2 q] eqn:E'.
        destruct (par_addr_g _ _ _ _ _ _ _ K0 Ry Vy E') as (G1 & B1 & N1 & P1).
        pose proof (ext_par_len _ _ (g_ext _ _ _ _ _ _ _ _ _ _ _ G1)) as LP1.
        eapply cmpres_step; [eapply grows_trans; eauto|].
        destruct (HF p q (f_V s)) as (_ & _ & _ & F1).
        eapply cmp_op_res; eauto using g_ok; try (rewrite ?(proj1 (Hpp _)), ?(proj2 (Hpp _)); cbn; repeat constructor; lia).
        intros HP. rewrite (P1 HP), P0; auto. eapply Pok_g; eauto.
      + apply orb_false_iff in D as [Dx Dy].
        destruct (rel_con _ _ _ _ _ _ _ _ Rx Vx Dx) as [_ ->].
        destruct (rel_con _ _ _ _ _ _ _ _ Ry Vy Dy) as [_ ->].
        exists s. rewrite H0. repeat (split; auto using ext_refl).
  Qed.

  Lemma rec_eqn_res vv pv pp F r s x y x0 x1 y0 y1 :
    tape_ok r s -> rel r s x x0 x1 -> rel r s y y0 y1 ->
    Forall (fun o => num_res o = 0 /\ o <> CSkipOp /\ forall a, n_actual o a = 2) [vv; pv; pp] ->
    (forall a, var_args vv a = [nth 0 a 0; nth 1 a 0] /\ par_args vv a = []) ->
    (forall a, var_args pv a = [nth 1 a 0] /\ par_args pv a = [nth 0 a 0]) ->
    (forall a, var_args pp a = [] /\ par_args pp a = [nth 0 a 0; nth 1 a 0]) ->
    (forall i j V, cmp_change vv [i; j] P V = Some (F (V i) (V j)) /\
       cmp_change pv [i; j] P V = Some (F (P i) (V j)) /\
       cmp_change pp [i; j] P V = Some (F (P i) (P j))) ->
    (forall u v, F u v = F v u) ->
    F x0 y0 = false ->
    cmpres r s (rec_eqn tid vv pv pp r x y) (F x1 y1).
  Proof.
    intros K Rx Ry Ho Hvv Hpv Hpp HF HC H0. unfold rec_eqn.
    inversion_clear Ho as [|? ? (o1 & o2 & o3) Ho1]. inversion_clear Ho1 as [|? ? (q1 & q2 & q3) Ho2].
    inversion_clear Ho2 as [|? ? (k1 & k2 & k3) _].
    destruct (is_var x) eqn:Vx, (is_var y) eqn:Vy.
    - destruct (rel_var _ _ _ _ _ _ _ _ Rx Vx) as (_ & _ & Bx & Ex).
      destruct (rel_var _ _ _ _ _ _ _ _ Ry Vy) as (_ & _ & By & Ey).
      destruct (HF (a_taddr x) (a_taddr y) (f_V s)) as (F1 & _).
      eapply cmp_op_res; eauto; try (now rewrite ?(proj1 (Hvv _)), ?(proj2 (Hvv _)); cbn; auto).
      intros _. congruence.
    - destruct (par_addr tid r y) as [r1 p] eqn:E.
      destruct (par_addr_g _ _ _ _ _ _ _ K Ry Vy E) as (G0 & B0 & N0 & P0).
      destruct (rel_var _ _ _ _ _ _ _ _ Rx Vx) as (_ & _ & Bx & Ex).
      eapply cmpres_step; eauto.
      destruct (HF p (a_taddr x) (f_V s)) as (_ & F1 & _).
      eapply cmp_op_res; eauto using g_ok; try (rewrite ?(proj1 (Hpv _)), ?(proj2 (Hpv _)); cbn; repeat constructor; lia).
      intros HP. rewrite Ex, (P0 HP). auto.
    - destruct (par_addr tid r x) as [r1 p] eqn:E.
      destruct (par_addr_g _ _ _ _ _ _ _ K Rx Vx E) as (G0 & B0 & N0 & P0).
      destruct (rel_var _ _ _ _ _ _ _ _ Ry Vy) as (_ & _ & By & Ey).
      eapply cmpres_step; eauto.
      destruct (HF p (a_taddr y) (f_V s)) as (_ & F1 & _).
      eapply cmp_op_res; eauto using g_ok; try (rewrite ?(proj1 (Hpv _)), ?(proj2 (Hpv _)); cbn; repeat constructor; lia).
      intros HP. rewrite Ey, (P0 HP). auto.
    - destruct (is_dyn x || is_dyn y) eqn:D.
      + destruct (par_addr tid r x) as [r1 p] eqn:E.
        destruct (par_addr_g _ _ _ _ _ _ _ K Rx Vx E) as (G0 & B0 & N0 & P0).
        pose proof (g_ok _ _ _ _ _ _ _ _ _ _ _ G0) as K0.
        apply (relg _ _ _ _ _ _ _ G0) in Ry.
        destruct (par_addr tid r1 y) as [r2 q] eqn:E'.
        destruct (par_addr_g _ _ _ _ _ _ _ K0 Ry Vy E') as (G1 & B1 & N1 & P1).
        pose proof (ext_par_len _ _ (g_ext _ _ _ _ _ _ _ _ _ _ _ G1)) as LP1.
        eapply cmpres_step; [eapply grows_trans; eauto|].
        destruct (HF p q (f_V s)) as (_ & _ & F1).
        eapply cmp_op_res; eauto using g_ok; try (rewrite ?(proj1 (Hpp _)), ?(proj2 (Hpp _)); cbn; repeat constructor; lia).
        intros HP. rewrite (P1 HP), P0; auto. eapply Pok_g; eauto.
      + apply orb_false_iff in D as [Dx Dy].
        destruct (rel_con _ _ _ _ _ _ _ _ Rx Vx Dx) as [_ ->].
        destruct (rel_con _ _ _ _ _ _ _ _ Ry Vy Dy) as [_ ->].
        exists s. rewrite H0. repeat (split; auto using ext_refl).
  Qed.

  Lemma lt_neg (x y : T) : b_cmp Cle y x = negb (b_cmp Clt x y).
  Proof. apply (l_total _ L). Qed.

  Ltac ordtac := try (repeat constructor; discriminate); try (intros; split; reflexivity);
                 try (intros; repeat split; reflexivity).

  Lemma rec_lt_res r s x y x0 x1 y0 y1 :
    tape_ok r s -> rel r s x x0 x1 -> rel r s y y0 y1 -> b_cmp Clt x0 y0 = true ->
    cmpres r s (rec_lt tid r x y) (negb (b_cmp Clt x1 y1)).
  Proof.
    intros K Rx Ry H. rewrite <- lt_neg, <- (l_gez _ L).
    apply (rec_ord_res LtvvOp LtvpOp LtpvOp LtppOp (fun u v => gez (b_bin Bsub u v)) r s x y x0 x1 y0 y1);
      auto; ordtac.
    now rewrite (l_gez _ L), lt_neg, H.
  Qed.
  Lemma rec_le_res r s x y x0 x1 y0 y1 :
    tape_ok r s -> rel r s x x0 x1 -> rel r s y y0 y1 -> b_cmp Cle x0 y0 = true ->
    cmpres r s (rec_le tid r x y) (negb (b_cmp Cle x1 y1)).
  Proof.
    intros K Rx Ry H. rewrite lt_neg in *. rewrite negb_involutive, <- (l_gtz _ L).
    apply (rec_ord_res LevvOp LevpOp LepvOp LeppOp (fun u v => gtz (b_bin Bsub u v)) r s x y x0 x1 y0 y1);
      auto; ordtac.
    rewrite (l_gtz _ L). now apply negb_true_iff in H.
  Qed.
  Lemma rec_eq_res r s x y x0 x1 y0 y1 :
    tape_ok r s -> rel r s x x0 x1 -> rel r s y y0 y1 -> b_cmp Ceq x0 y0 = true ->
    cmpres r s (rec_eq tid r x y) (negb (b_cmp Ceq x1 y1)).
  Proof.
    intros K Rx Ry H. rewrite <- (l_ne _ L).
    apply (rec_eqn_res EqvvOp EqpvOp EqppOp (fun u v => b_cmp Cne u v) r s x y x0 x1 y0 y1);
      auto; ordtac.
    - intros. rewrite !(l_ne _ L). now rewrite (l_eqC _ L).
    - now rewrite (l_ne _ L), H.
  Qed.
  Lemma rec_ne_res r s x y x0 x1 y0 y1 :
    tape_ok r s -> rel r s x x0 x1 -> rel r s y y0 y1 -> b_cmp Ceq x0 y0 = false ->
    cmpres r s (rec_ne tid r x y) (b_cmp Ceq x1 y1).
  Proof.
    intros K Rx Ry H.
    apply (rec_eqn_res NevvOp NepvOp NeppOp (fun u v => b_cmp Ceq u v) r s x y x0 x1 y0 y1);
      auto; ordtac. apply (l_eqC _ L).
  Qed.

  Lemma ad_cmp_res c r s x y x0 x1 y0 y1 r' res :
    tape_ok r s -> rel r s x x0 x1 -> rel r s y y0 y1 -> ad_cmp tid c r x y = (r', res) ->
    res = b_cmp c x0 y0 /\
    cmpres r s r' (r_cmp r && negb (Bool.eqb (b_cmp c x1 y1) res)).
  Proof.
    intros K Rx Ry. unfold ad_cmp. rewrite (rel_val _ _ _ _ _ _ _ _ Rx), (rel_val _ _ _ _ _ _ _ _ Ry).
    destruct (r_cmp r) eqn:RC; cbn [negb]; intros H; injection H as <- <-; split; auto.
    2:{ exists s. cbn. repeat (split; auto using ext_refl). }
    cbn [andb].
    destruct c; rewrite ?(l_ge _ L), ?(l_gt _ L), ?(l_ne _ L).
    - destruct (b_cmp Clt x0 y0) eqn:E.
      + replace (negb (eqb (b_cmp Clt x1 y1) true)) with (negb (b_cmp Clt x1 y1)) by (now destruct (b_cmp Clt x1 y1)).
        eapply rec_lt_res; eauto.
      + replace (negb (eqb (b_cmp Clt x1 y1) false)) with (negb (b_cmp Cle y1 x1)) by (rewrite lt_neg; now destruct (b_cmp Clt x1 y1)).
        eapply rec_le_res; eauto. now rewrite lt_neg, E.
    - destruct (b_cmp Cle x0 y0) eqn:E.
      + replace (negb (eqb (b_cmp Cle x1 y1) true)) with (negb (b_cmp Cle x1 y1)) by (now destruct (b_cmp Cle x1 y1)).
        eapply rec_le_res; eauto.
      + replace (negb (eqb (b_cmp Cle x1 y1) false)) with (negb (b_cmp Clt y1 x1)) by (rewrite lt_neg; now destruct (b_cmp Clt y1 x1)).
        eapply rec_lt_res; eauto. rewrite lt_neg in E. now apply negb_false_iff in E.
    - destruct (b_cmp Ceq x0 y0) eqn:E.
      + replace (negb (eqb (b_cmp Ceq x1 y1) true)) with (negb (b_cmp Ceq x1 y1)) by (now destruct (b_cmp Ceq x1 y1)).
        eapply rec_eq_res; eauto.
      + replace (negb (eqb (b_cmp Ceq x1 y1) false)) with (b_cmp Ceq x1 y1) by (now destruct (b_cmp Ceq x1 y1)).
        eapply rec_ne_res; eauto.
    - destruct (b_cmp Cle y0 x0) eqn:E.
      + replace (negb (eqb (b_cmp Cle y1 x1) true)) with (negb (b_cmp Cle y1 x1)) by (now destruct (b_cmp Cle y1 x1)).
        eapply rec_le_res; eauto.
      + replace (negb (eqb (b_cmp Cle y1 x1) false)) with (negb (b_cmp Clt x1 y1)) by (rewrite lt_neg; now destruct (b_cmp Clt x1 y1)).
        eapply rec_lt_res; eauto. rewrite lt_neg in E. now apply negb_false_iff in E.
    - destruct (b_cmp Clt y0 x0) eqn:E.
      + replace (negb (eqb (b_cmp Clt y1 x1) true)) with (negb (b_cmp Clt y1 x1)) by (now destruct (b_cmp Clt y1 x1)).
        eapply rec_lt_res; eauto.
      + replace (negb (eqb (b_cmp Clt y1 x1) false)) with (negb (b_cmp Cle x1 y1)) by (rewrite lt_neg; now destruct (b_cmp Clt y1 x1)).
        eapply rec_le_res; eauto. now rewrite lt_neg, E.
    - destruct (b_cmp Ceq x0 y0) eqn:E; cbn [negb].
      + replace (negb (eqb (negb (b_cmp Ceq x1 y1)) false)) with (negb (b_cmp Ceq x1 y1)) by (now destruct (b_cmp Ceq x1 y1)).
        eapply rec_eq_res; eauto.
      + replace (negb (eqb (negb (b_cmp Ceq x1 y1)) true)) with (b_cmp Ceq x1 y1) by (now destruct (b_cmp Ceq x1 y1)).
        eapply rec_ne_res; eauto.
  Qed.
End Sim.
