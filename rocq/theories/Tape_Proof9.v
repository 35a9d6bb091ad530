(** Simulation between recording and replay: whole programs. *)
From Coq Require Import ZArith List Bool Arith Lia.
From Verif Require Import Base_Spec Op_Model Tape_Spec Tape_Model Tape_Proof Tape_Proof2 Tape_Proof3
  Tape_Proof4 Tape_Proof5 Tape_Proof6 Tape_Proof7 Tape_Proof8.
Import ListNotations.

Section Sim.
  Context {b : base} (L : base_laws b).
  Notation T := (bt b).
  Variable tid : nat.
  Hypothesis tid0 : tid <> 0.
  Variables (ind : list T) (P : nat -> T) (cc : nat).
  Variables (V0 : nat -> T) (vec0 : nat -> nat) (l2v0 : nat -> nat).
  Variable same : Prop.
  Notation tape_ok := (tape_ok P cc V0 vec0 l2v0).
  Notation grows := (grows ind P cc V0 vec0 l2v0 same).
  Notation Pok := (Pok ind P).
  Notation Vok := (Vok vec0).
  Notation is_var := (is_var tid).
  Notation is_dyn := (is_dyn tid).
  Notation rel := (rel tid P same).
  Notation s_init := (s_init V0 vec0 l2v0).
  Notation dead := (dead P cc V0 vec0 l2v0).
  Notation Inv := (Inv tid P cc V0 vec0 l2v0 same).

  Lemma is_parameter_spec (a : AD b) r s v0 v1 : rel r s a v0 v1 ->
    is_parameter tid a = negb (is_var a) /\ is_dynamic tid a = is_dyn a.
  Proof.
    intros (_ & _ & H). unfold is_parameter, is_dynamic, Tape_Model.is_var, Tape_Model.is_dyn.
    destruct (a_tid a =? tid) eqn:E; cbn.
    - apply Nat.eqb_eq in E. rewrite E. destruct tid; [easy|]. cbn.
      destruct (is_T_dyn (a_type a)); auto.
    - rewrite !orb_true_r, !andb_false_r. auto.
  Qed.

  Lemma record_par_op_res r s y v0 v1 r' t :
    tape_ok r s -> rel r s y v0 v1 -> is_var y = false -> record_par_op tid r y = (r', t) ->
    exists s', grows r s r' s' /\ 0 < t < r_nvar r' /\ (Pok r' -> f_V s' t = v1).
  Proof.
    intros K R Hv. unfold record_par_op. rewrite (proj2 (is_parameter_spec _ _ _ _ _ R)).
    set (r1p := if is_dyn y then (r, a_taddr y) else put_con_par r (a_val y)).
    assert (forall r1 p, r1p = (r1, p) -> put_op (put_arg r1 [p]) ParOp = (r', t) ->
      exists s', grows r s r' s' /\ 0 < t < r_nvar r' /\ (Pok r' -> f_V s' t = v1)) as W.
    { intros r1 p E1 E2.
      destruct (par_addr_grows L tid ind P cc V0 vec0 l2v0 same _ _ _ _ _ _ _ K R Hv E1) as (G & Hp & Hn & HP).
      destruct (sem_grows ind P cc V0 vec0 l2v0 same r1 s r' ParOp [p] [] (P p)
        (g_ok _ _ _ _ _ _ _ _ _ _ _ G)) as (s' & G' & Hs & Ht); cbn; auto; try easy.
      - unfold put_op, put_arg in E2. cbn in E2. injection E2 as <- <-.
        repeat split; cbn; auto.
      - assert (t = r_nvar r' - 1) as -> by (unfold put_op, put_arg in E2; cbn in E2; injection E2 as <- <-; reflexivity).
        exists s'. split; [eapply grows_trans; eauto|]. split; [lia|].
        intros HPr. rewrite Hs. apply HP. eapply Pok_g; [|exact G'|auto]. apply (g_ok _ _ _ _ _ _ _ _ _ _ _ G). }
    subst r1p. destruct (is_dyn y).
    - intros H. eapply W; eauto.
    - destruct (put_con_par r (a_val y)) as [r1 p]. intros H. eapply W; eauto.
  Qed.

  Lemma dep_loop_res ys : forall r s vs0 vs1 r' dep,
    tape_ok r s -> length vs0 = length ys -> length vs1 = length ys ->
    (forall k y, nth_error ys k = Some y -> rel r s y (nth k vs0 b0) (nth k vs1 b0)) ->
    dep_loop tid r ys = (r', dep) -> Pok r' ->
    exists s', grows r s r' s' /\ map (f_V s') dep = vs1 /\ Forall (fun t => 0 < t < r_nvar r') dep.
  Proof.
    induction ys as [|y ys IH]; intros r s vs0 vs1 r' dep K L0 L1 R H HP; cbn [dep_loop] in H.
    - injection H as <- <-. exists s. destruct vs1; [|discriminate].
      split; [now apply grows_refl|]. split; auto.
    - destruct vs0 as [|v0 vs0]; [discriminate|]. destruct vs1 as [|v1 vs1]; [discriminate|].
      cbn in L0, L1. injection L0 as L0. injection L1 as L1.
      destruct (if is_parameter tid y then record_par_op tid r y else (r, a_taddr y)) as [r1 t] eqn:E1.
      destruct (dep_loop tid r1 ys) as [r2 ts] eqn:E2. injection H as <- <-.
      pose proof (R 0 y eq_refl) as Ry. cbn in Ry.
      assert (exists s1, grows r s r1 s1 /\ 0 < t < r_nvar r1 /\ (Pok r1 -> f_V s1 t = v1)) as (s1 & G1 & Ht & Hv).
      { rewrite (proj1 (is_parameter_spec _ _ _ _ _ Ry)) in E1. destruct (is_var y) eqn:V; cbn in E1.
        - injection E1 as <- <-. exists s. split; [now apply grows_refl|].
          destruct (rel_var _ _ _ _ _ _ _ _ Ry V) as (_ & _ & A & B). auto.
        - eapply record_par_op_res; eauto. }
      destruct (IH r1 s1 vs0 vs1 r2 ts (g_ok _ _ _ _ _ _ _ _ _ _ _ G1) L0 L1) as (s2 & G2 & M & F); auto.
      { intros k y' Hk. eapply (rel_grows tid tid0); [exact G1|]. apply (R (S k) y' Hk). }
      exists s2. split; [eapply grows_trans; eauto|].
      pose proof (e_nv _ _ (g_ext _ _ _ _ _ _ _ _ _ _ _ G2)).
      split; [|constructor; [lia|auto]].
      cbn. rewrite M. f_equal. rewrite (g_val _ _ _ _ _ _ _ _ _ _ _ G2) by lia.
      apply Hv. eapply Pok_g; [|exact G2|auto]. apply (g_ok _ _ _ _ _ _ _ _ _ _ _ G1).
  Qed.

  Lemma dead_pre r r' : lwf r -> pre r r' -> dead r ->
    forall l, decode (r_op r') (r_arg r') 0 = Some l -> sweep0 P cc l 0 s_init = None.
  Proof.
    intros W X (l & D & S) l' D'. destruct (X W) as [_ _ [o O] [a A]].
    rewrite O, A in D'. destruct (decode_prefix _ _ _ _ _ _ _ D D') as [l2 ->].
    now rewrite sweep0_app, S.
  Qed.

  Lemma pre_lwf (r r' : rec b) : lwf r -> pre r r' -> lwf r'.
  Proof. intros W X. apply (X W). Qed.

  Theorem exec_sim p : forall st e0 e1 s r dep,
    Inv st e0 e1 s -> exec tid p st = Some (r, dep) -> prog_ok tid p st -> Pok r -> Vok r ->
    (same -> pareq P (st_rec st)) ->
    match follow p e1 (decisions p e0) with
    | Some (ys, m) => exists s', tape_ok r s' /\ map (f_V s') dep = ys /\
        Forall (fun t => 0 < t < r_nvar r) dep /\
        (cc <> 0 -> f_num s' = f_num s + (if r_cmp r then m else 0)) /\
        (same -> pareq P r)
    | None => forall l, decode (r_op r) (r_arg r) 0 = Some l -> sweep0 P cc l 0 s_init = None
    end.
  Proof.
    induction p as [ys|i p IH|c l rt pt IHt pf IHf]; intros st e0 e1 s r dep I E OK HP HV Hq;
      cbn [exec] in E; cbn [eval follow decisions].
    - destruct (dep_loop tid (st_rec st) (map (st_r st) ys)) as [r1 d1] eqn:D.
      injection E as <- <-.
      assert (Pok r1) as HP1 by exact HP.
      destruct (dep_loop_res (map (st_r st) ys) (st_rec st) s (map (sr e0) ys) (map (sr e1) ys) r1 d1)
        as (s1 & G & M & F); rewrite ?map_length; auto.
      { apply (i_tape _ _ _ _ _ _ _ _ _ _ _ I). }
      { intros k y Hk. rewrite nth_error_map in Hk. destruct (nth_error ys k) as [x|] eqn:Ek; [|discriminate].
        cbn in Hk. injection Hk as <-.
        assert (forall e : nat -> T, nth k (map e ys) b0 = e x) as N.
        { intros e. apply nth_error_nth. rewrite nth_error_map, Ek. auto. }
        rewrite !N. apply (i_rel _ _ _ _ _ _ _ _ _ _ _ I). }
      pose proof (g_ok _ _ _ _ _ _ _ _ _ _ _ G) as K1.
      destruct (add_op_tape P cc V0 vec0 l2v0 r1 s1 (fst (put_op r1 EndOp)) EndOp [] K1)
        as (X & W & l & D1 & D2 & _ & D3); cbn; auto; try easy.
      { repeat split; cbn; auto. now rewrite app_nil_r. }
      exists s1. split; [|split; [auto|split]].
      + apply D3; [reflexivity|]. apply (t_skip _ _ _ _ _ _ _ K1).
      + eapply Forall_impl; [|exact F]. cbn; intros; lia.
      + split.
        * intros _. rewrite (g_cnt _ _ _ _ _ _ _ _ _ _ _ G). destruct (r_cmp _); lia.
        * intros Hs. apply (g_peq _ _ _ _ _ _ _ _ _ _ _ G); auto.
    - cbn [prog_ok] in OK. destruct OK as [OK1 OK2].
      destruct (step_rec tid i st) as [st'|] eqn:ES; [|discriminate].
      pose proof (pre_step tid _ _ _ ES) as PS. pose proof (pre_exec tid _ _ _ _ E) as PE.
      pose proof (dwf_lwf _ (t_dwf _ _ _ _ _ _ _ (i_tape _ _ _ _ _ _ _ _ _ _ _ I))) as W0.
      pose proof (pre_lwf _ _ W0 PS) as W1.
      assert (Pok (st_rec st')) as HP1 by (eapply (Pok_lext tid tid0); [exact W1|apply (PE W1)|auto]).
      assert (Vok (st_rec st')) as HV1 by (eapply Vok_ext; [apply (PE W1)|auto]).
      destruct (step_sim L tid tid0 ind P cc V0 vec0 l2v0 same i st e0 e1 s st' I ES OK1 HP1 HV1)
        as (e0' & S0 & S1).
      rewrite S0. destruct (step_spec i e1) as [e1'|] eqn:SE1.
      + destruct S1 as (s1 & I1 & N1 & Q1).
        rewrite <- N1. apply (IH st' e0' e1' s1 r dep I1 E OK2 HP HV). auto.
      + eapply dead_pre; eauto.
    - cbn [prog_ok] in OK.
      pose proof (pre_ad_cmp tid c (st_rec st) (st_r st l) (st_r st rt)) as PS.
      destruct (ad_cmp tid c (st_rec st) (st_r st l) (st_r st rt)) as [r1 res] eqn:EC.
      pose proof (pre_exec tid _ _ _ _ E) as PE. cbn [fst st_rec] in PS, PE.
      pose proof (dwf_lwf _ (t_dwf _ _ _ _ _ _ _ (i_tape _ _ _ _ _ _ _ _ _ _ _ I))) as W0.
      pose proof (pre_lwf _ _ W0 PS) as W1.
      assert (Pok r1) as HP1 by (eapply (Pok_lext tid tid0); [exact W1|apply (PE W1)|auto]).
      destruct (ad_cmp_res L tid tid0 ind P cc V0 vec0 l2v0 same c (st_rec st) s (st_r st l) (st_r st rt)
        (sr e0 l) (sr e1 l) (sr e0 rt) (sr e1 rt) r1 res
        (i_tape _ _ _ _ _ _ _ _ _ _ _ I) (i_rel _ _ _ _ _ _ _ _ _ _ _ I l) (i_rel _ _ _ _ _ _ _ _ _ _ _ I rt) EC)
        as (Er & s1 & X & K1 & Vr & F1 & F2 & F3 & F4 & F5).
      rewrite <- Er.
      assert (Inv (mkState (st_r st) (st_v st) r1) e0 e1 s1) as I1.
      { destruct I as [J1 J2 J3 J4 J5]. constructor; cbn [st_rec st_r st_v]; auto.
        - intros j. destruct (J2 j) as (A & B & C). split; [auto|split; [auto|]].
          pose proof (ext_par_len _ _ X). pose proof (e_nv _ _ X).
          destruct (a_tid (st_r st j) =? tid); auto. destruct (is_T_dyn _).
          + split; [lia|tauto].
          + rewrite F1. destruct C as (C1 & C2 & C3). split; [auto|split; [lia|auto]].
        - intros j. destruct (J3 j) as (A & B & C & D). split; [auto|split; [auto|split; [auto|]]].
          destruct (v_tid (st_v st j) =? tid); auto. destruct D as (D0 & D1 & D2 & D3 & D4).
          split; [auto|]. pose proof (ext_par_len _ _ X). pose proof (e_nv _ _ X).
          unfold on_tape. rewrite Vr. split; [auto|split; [auto|split; [now rewrite F3|]]].
          intros k Hk. destruct (D4 k Hk) as [Y Z]. unfold cell_ok, elem in *.
          rewrite F1, F2, F3. split; auto. destruct (f_isv s _); lia.
        - intros j Hj. rewrite F2, F3. apply J5. now rewrite <- Vr. }
      replace (if res then true :: decisions pt e0 else false :: decisions pf e0)
        with (res :: decisions (if res then pt else pf) e0) by (now destruct res).
      assert (forall q, (q = if res then pt else pf) ->
        (forall st e0 e1 s r dep,
          Inv st e0 e1 s -> exec tid q st = Some (r, dep) -> prog_ok tid q st -> Pok r -> Vok r ->
          (same -> pareq P (st_rec st)) ->
          match follow q e1 (decisions q e0) with
          | Some (ys, m) => exists s', tape_ok r s' /\ map (f_V s') dep = ys /\
              Forall (fun t => 0 < t < r_nvar r) dep /\
              (cc <> 0 -> f_num s' = f_num s + (if r_cmp r then m else 0)) /\
              (same -> pareq P r)
          | None => forall l, decode (r_op r) (r_arg r) 0 = Some l -> sweep0 P cc l 0 s_init = None
          end) ->
        match match follow q e1 (decisions q e0) with
              | Some (ys, n) => Some (ys, if Bool.eqb (b_cmp c (sr e1 l) (sr e1 rt)) res then n else S n)
              | None => None end with
        | Some (ys, m) => exists s', tape_ok r s' /\ map (f_V s') dep = ys /\
            Forall (fun t => 0 < t < r_nvar r) dep /\
            (cc <> 0 -> f_num s' = f_num s + (if r_cmp r then m else 0)) /\
            (same -> pareq P r)
        | None => forall l, decode (r_op r) (r_arg r) 0 = Some l -> sweep0 P cc l 0 s_init = None
        end) as W.
      { intros q Eq IH. rewrite <- Eq in *.
        specialize (IH _ _ _ _ _ _ I1 E OK HP HV).
        destruct (follow q e1 (decisions q e0)) as [[ys m]|].
        - destruct IH as (s' & A & B & C & D & F).
          { cbn. intros Hs. apply F5; auto. }
          exists s'. split; [auto|split; [auto|split; [auto|split; [|auto]]]].
          intros Hc. rewrite (D Hc), (F4 HP1 Hc).
          assert (r_cmp r = r_cmp (st_rec st)) as ->.
          { destruct (PE W1) as [Y _ _ _]. now rewrite (e_cmp _ _ Y), (e_cmp _ _ X). }
          destruct (r_cmp (st_rec st)), (Bool.eqb _ _); cbn; lia.
        - apply IH. cbn. intros Hs. apply F5; auto. }
      cbn [follow]. destruct res; apply (W _ eq_refl); auto.
  Qed.
End Sim.
