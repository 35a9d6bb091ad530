(** Simulation between recording and replay: AD operations. *)
From Coq Require Import ZArith List Bool Arith Lia.
From Verif Require Import Base_Spec Op_Model Tape_Spec Tape_Model Tape_Proof Tape_Proof2.
Import ListNotations.

Section Sim.
  Context {b : base} (L : base_laws b).
  Notation T := (bt b).
  Variable tid : nat.
  Hypothesis tid0 : tid <> 0.
  Variables (ind : list T) (P : nat -> T) (cc : nat).
  Variables (V0 : nat -> T) (vec0 : nat -> nat) (l2v0 : nat -> nat).
  Notation tape_ok := (tape_ok P cc V0 vec0 l2v0).
  Variable same : Prop.
  Notation grows := (grows ind P cc V0 vec0 l2v0 same).
  Notation Pok := (Pok ind P).
  Notation is_var := (is_var tid).
  Notation is_dyn := (is_dyn tid).

  (** object [a] has value [v0] while recording and stands for [v1] in the replay *)
  Definition rel (r : rec b) (s : fst0 b) (a : AD b) (v0 v1 : T) : Prop :=
    a_val a = v0 /\ (same -> v1 = v0) /\
    if a_tid a =? tid then
      if is_T_dyn (a_type a) then a_taddr a < length (r_par r) /\ P (a_taddr a) = v1
      else a_type a = T_var /\ 0 < a_taddr a < r_nvar r /\ f_V s (a_taddr a) = v1
    else v1 = v0.

  Lemma rel_grows r s r' s' a v0 v1 : grows r s r' s' -> rel r s a v0 v1 -> rel r' s' a v0 v1.
  Proof.
    intros G (A & S & B). split; [auto|split; [auto|]]. destruct (a_tid a =? tid); auto.
    pose proof (ext_par_len _ _ (g_ext _ _ _ _ _ _ _ _ _ _ _ G)).
    pose proof (e_nv _ _ (g_ext _ _ _ _ _ _ _ _ _ _ _ G)).
    destruct (is_T_dyn (a_type a)).
    - intuition lia.
    - destruct B as (B1 & B2 & B3). repeat split; auto; try lia.
      rewrite (g_val _ _ _ _ _ _ _ _ _ _ _ G); auto. lia.
  Qed.

  Lemma rel_var r s a v0 v1 : rel r s a v0 v1 -> is_var a = true ->
    a_tid a = tid /\ a_type a = T_var /\ 0 < a_taddr a < r_nvar r /\ f_V s (a_taddr a) = v1.
  Proof using Type.
    intros (A & _ & B) H. unfold Tape_Model.is_var in H. apply andb_true_iff in H as [H1 H2].
    rewrite H1 in B. apply Nat.eqb_eq in H1. apply negb_true_iff in H2. rewrite H2 in B.
    split; [exact H1|exact B].
  Qed.
  Lemma rel_dyn r s a v0 v1 : rel r s a v0 v1 -> is_dyn a = true ->
    a_tid a = tid /\ a_type a = T_dyn /\ a_taddr a < length (r_par r) /\ P (a_taddr a) = v1.
  Proof.
    intros (A & _ & B) H. unfold Tape_Model.is_dyn in H. apply andb_true_iff in H as [H1 H2].
    rewrite H1 in B. apply Nat.eqb_eq in H1. rewrite H2 in B. destruct (a_type a); easy.
  Qed.
  Lemma rel_con r s a v0 v1 : rel r s a v0 v1 -> is_var a = false -> is_dyn a = false ->
    a_tid a <> tid /\ v1 = v0.
  Proof.
    intros (A & _ & B) H1 H2. unfold Tape_Model.is_var, Tape_Model.is_dyn in *.
    destruct (a_tid a =? tid) eqn:E; cbn in *.
    - destruct (is_T_dyn (a_type a)); discriminate.
    - apply Nat.eqb_neq in E. auto.
  Qed.
  Lemma rel_val r s a v0 v1 : rel r s a v0 v1 -> a_val a = v0.
  Proof. now intros []. Qed.

  Lemma rel_same r s a v0 v1 : rel r s a v0 v1 -> same -> v1 = v0.
  Proof. now intros (_ & S & _). Qed.

  Lemma rel_con_ad r s v : rel r s (con_ad v) v v.
  Proof. split; [|split]; cbn; auto. destruct tid; [easy|auto]. Qed.

  (** result of an operation *)
  Definition opres (r : rec b) (s : fst0 b) (ra : rec b * AD b) (v0 v1 : T) : Prop :=
    exists s', grows r s (fst ra) s' /\ r_vec (fst ra) = r_vec r /\
      (Pok (fst ra) -> rel (fst ra) s' (snd ra) v0 v1).

  Lemma Pok_grows r s r' s' : tape_ok r s -> grows r s r' s' -> Pok r' -> Pok r.
  Proof. intros K G. apply Pok_ext; [apply (t_dwf _ _ _ _ _ _ _ K)|apply (g_ext _ _ _ _ _ _ _ _ _ _ _ G)]. Qed.

  Lemma opres_step r s r1 s1 ra v0 v1 :
    grows r s r1 s1 -> opres r1 s1 ra v0 v1 -> opres r s ra v0 v1.
  Proof.
    intros G (s' & A & B & C). exists s'. split; [|split]; auto.
    - eapply grows_trans; eauto.
    - rewrite B. apply (g_vec _ _ _ _ _ _ _ _ _ _ _ G).
  Qed.

  Lemma par_addr_grows r s a v0 v1 r' p :
    tape_ok r s -> rel r s a v0 v1 -> is_var a = false -> par_addr tid r a = (r', p) ->
    grows r s r' s /\ p < length (r_par r') /\ r_nvar r' = r_nvar r /\
    (Pok r' -> P p = v1).
  Proof.
    intros K R H E. unfold par_addr in E. destruct (is_dyn a) eqn:D.
    - injection E as <- <-. destruct (rel_dyn _ _ _ _ _ R D) as (_ & _ & A & B).
      split; auto using grows_refl.
    - destruct (put_con_par_grows L ind _ _ _ _ _ same _ _ _ _ _ K E) as (A & B & C & _ & D').
      split; [exact A|split; [exact B|split; [exact C|]]]. intros HP. rewrite (D' HP).
      destruct (rel_con _ _ _ _ _ R H D) as [_ ->]. now apply rel_val in R.
  Qed.

  (** PutArg + PutOp + variable result *)
  Lemma rec_var_res r s o a v l v1 :
    tape_ok r s -> n_actual o a = length a -> o <> CSkipOp ->
    Forall (fun j => 0 < j < r_nvar r) (var_args o a) ->
    Forall (fun j => j < length (r_par r)) (par_args o a) ->
    sem0 o a P (f_V s) = Some l -> length l = num_res o -> 0 < num_res o ->
    (Pok r -> last l b0 = v1) -> (same -> v1 = v) ->
    opres r s (rec_var tid r o a v) v v1.
  Proof.
    intros K Ha Hc Hv Hp Hs Hl H0 Hm Hsm.
    assert (l <> []) as Hne by (destruct l; cbn in *; [lia|discriminate]).
    rewrite (app_removelast_last b0 Hne) in Hs.
    destruct (sem_grows ind P cc V0 vec0 l2v0 same r s (fst (rec_var tid r o a v)) o a (removelast l) (last l b0) K)
      as (s' & G & E & I); auto.
    - repeat split.
    - rewrite <- Hl. rewrite (app_removelast_last b0 Hne) at 2. rewrite app_length. cbn. lia.
    - exists s'. split; [exact G|split; [reflexivity|]]. intros HP.
      assert (Pok r) as HP0 by (eapply Pok_grows; eauto).
      cbn in *. split; [|split]; cbn; auto. rewrite Nat.eqb_refl. repeat split; try lia.
      rewrite E. auto.
  Qed.

  Lemma rec_dyn_res r s o a v v1 :
    tape_ok r s -> length a = num_arg_dyn o -> 
    Forall (fun j => j < length (r_par r)) (par_args_dyn o a) ->
    (Pok r -> dyn_sem o a (nth (length (r_dop r)) ind b0) P = v1) -> (same -> v1 = v) ->
    opres r s (rec_dyn tid r o a v) v v1.
  Proof.
    intros K Ha Hlt Hm Hsm. unfold rec_dyn.
    destruct (put_dyn_par r v o a) as [r' p] eqn:E.
    assert (same -> Pok r -> v = dyn_sem o a (nth (length (r_dop r)) ind b0) P) as Hsm'
      by (intros Hs HP; rewrite Hm, Hsm; auto).
    destruct (put_dyn_par_grows ind P cc V0 vec0 l2v0 same _ _ _ _ _ _ _ K E Ha Hlt Hsm')
      as (G & Ep & Hp & Hn & HP).
    exists s. split; [exact G|split; [exact (g_vec _ _ _ _ _ _ _ _ _ _ _ G)|]]. intros HPk.
    cbn in *. split; [|split]; cbn; auto. rewrite Nat.eqb_refl. cbn. split; auto.
    rewrite HP by auto. apply Hm. eapply Pok_grows; eauto.
  Qed.

  Lemma rec_dyn2_res r s o x y v x0 x1 y0 y1 v1 :
    tape_ok r s -> num_arg_dyn o = 2 -> rel r s x x0 x1 -> rel r s y y0 y1 ->
    is_var x = false -> is_var y = false -> 
    (forall a, par_args_dyn o a = [nth 0 a 0; nth 1 a 0]) ->
    (forall i j w, P i = x1 -> P j = y1 -> dyn_sem o [i; j] w P = v1) -> (same -> v1 = v) ->
    opres r s (rec_dyn2 tid r o x y v) v v1.
  Proof.
    intros K Hn Rx Ry Vx Vy Ho Hs Hsm. unfold rec_dyn2.
    destruct (par_addr tid r x) as [r1 p0] eqn:E0.
    destruct (par_addr_grows _ _ _ _ _ _ _ K Rx Vx E0) as (G0 & B0 & _ & P0).
    destruct (par_addr tid r1 y) as [r2 p1] eqn:E1.
    pose proof (g_ok _ _ _ _ _ _ _ _ _ _ _ G0) as K1.
    destruct (par_addr_grows _ _ _ _ _ _ _ K1 (rel_grows _ _ _ _ _ _ _ G0 Ry) Vy E1)
      as (G1 & B1 & _ & P1).
    pose proof (g_ok _ _ _ _ _ _ _ _ _ _ _ G1) as K2.
    eapply opres_step; [eapply grows_trans; eauto|].
    pose proof (ext_par_len _ _ (g_ext _ _ _ _ _ _ _ _ _ _ _ G1)).
    apply rec_dyn_res; auto.
    - rewrite Ho. cbn. repeat constructor; lia.
    - intros HP. apply Hs; auto. apply P0. eapply Pok_grows; eauto.
  Qed.

  (** ** leaves of the binary operators *)
  Definition sem2 (o : opvar) (i j : nat) (f : (nat -> T) -> T) : Prop :=
    forall V, exists l, sem0 o [i; j] P V = Some l /\ length l = num_res o /\ 0 < num_res o /\
      last l b0 = f V.

  Lemma leaf_vv r s o x y v x0 x1 y0 y1 f :
    tape_ok r s -> n_actual o [a_taddr x; a_taddr y] = 2 -> o <> CSkipOp ->
    rel r s x x0 x1 -> rel r s y y0 y1 -> is_var x = true -> is_var y = true ->
    (forall a, var_args o a = [nth 0 a 0; nth 1 a 0]) -> (forall a, par_args o a = []) ->
    sem2 o (a_taddr x) (a_taddr y) (fun V => f (V (a_taddr x)) (V (a_taddr y))) -> (same -> f x1 y1 = v) ->
    opres r s (rec_var tid r o [a_taddr x; a_taddr y] v) v (f x1 y1).
  Proof.
    intros K N C Rx Ry Vx Vy Av Ap Hs Hsm.
    destruct (rel_var _ _ _ _ _ Rx Vx) as (_ & _ & Bx & Ex).
    destruct (rel_var _ _ _ _ _ Ry Vy) as (_ & _ & By & Ey).
    destruct (Hs (f_V s)) as (l & S1 & S2 & S3 & S4).
    eapply rec_var_res; eauto.
    - rewrite Av. cbn. auto.
    - rewrite Ap. auto.
    - intros _. rewrite S4, Ex, Ey. auto.
  Qed.

  (** parameter [x] first, variable [y] second *)
  Lemma leaf_pv r s o x y v x0 x1 y0 y1 f :
    tape_ok r s -> (forall i, n_actual o [i; a_taddr y] = 2) -> o <> CSkipOp ->
    rel r s x x0 x1 -> rel r s y y0 y1 -> is_var x = false -> is_var y = true ->
    (forall a, var_args o a = [nth 1 a 0]) -> (forall a, par_args o a = [nth 0 a 0]) ->
    (forall i, sem2 o i (a_taddr y) (fun V => f (P i) (V (a_taddr y)))) -> (same -> f x1 y1 = v) ->
    opres r s (let '(r1, p) := par_addr tid r x in rec_var tid r1 o [p; a_taddr y] v) v (f x1 y1).
  Proof.
    intros K N C Rx Ry Vx Vy Av Ap Hs Hsm.
    destruct (par_addr tid r x) as [r1 p] eqn:E.
    destruct (par_addr_grows _ _ _ _ _ _ _ K Rx Vx E) as (G0 & B0 & _ & P0).
    pose proof (rel_grows _ _ _ _ _ _ _ G0 Ry) as Ry'.
    destruct (rel_var _ _ _ _ _ Ry' Vy) as (_ & _ & By & Ey).
    eapply opres_step; eauto.
    destruct (Hs p (f_V s)) as (l & S1 & S2 & S3 & S4).
    eapply rec_var_res; eauto using g_ok.
    - rewrite Av. cbn. auto.
    - rewrite Ap. cbn. auto.
    - intros HP. rewrite S4, Ey, (P0 HP). auto.
  Qed.
  (** variable [x] first, parameter [y] second *)
  Lemma leaf_vp r s o x y v x0 x1 y0 y1 f :
    tape_ok r s -> (forall i, n_actual o [a_taddr x; i] = 2) -> o <> CSkipOp ->
    rel r s x x0 x1 -> rel r s y y0 y1 -> is_var x = true -> is_var y = false ->
    (forall a, var_args o a = [nth 0 a 0]) -> (forall a, par_args o a = [nth 1 a 0]) ->
    (forall i, sem2 o (a_taddr x) i (fun V => f (V (a_taddr x)) (P i))) -> (same -> f x1 y1 = v) ->
    opres r s (let '(r1, p) := par_addr tid r y in rec_var tid r1 o [a_taddr x; p] v) v (f x1 y1).
  Proof.
    intros K N C Rx Ry Vx Vy Av Ap Hs Hsm.
    destruct (par_addr tid r y) as [r1 p] eqn:E.
    destruct (par_addr_grows _ _ _ _ _ _ _ K Ry Vy E) as (G0 & B0 & _ & P0).
    pose proof (rel_grows _ _ _ _ _ _ _ G0 Rx) as Rx'.
    destruct (rel_var _ _ _ _ _ Rx' Vx) as (_ & _ & By & Ex).
    eapply opres_step; eauto.
    destruct (Hs p (f_V s)) as (l & S1 & S2 & S3 & S4).
    eapply rec_var_res; eauto using g_ok.
    - rewrite Av. cbn. auto.
    - rewrite Ap. cbn. auto.
    - intros HP. rewrite S4, Ex, (P0 HP). auto.
  Qed.

  Lemma leaf_same r s (a : AD b) v0 v1 : tape_ok r s -> rel r s a v0 v1 -> opres r s (r, a) v0 v1.
  Proof. intros K R. exists s. cbn. auto using grows_refl. Qed.
  Lemma leaf_con r s v v0 v1 : tape_ok r s -> v = v0 -> v1 = v0 -> opres r s (r, con_ad v) v0 v1.
  Proof. intros K -> ->. apply leaf_same; auto. apply rel_con_ad. Qed.
  Lemma rel_make_var r s a v0 v1 v v' : rel r s a v0 v1 -> is_var a = true -> v' = v1 -> (same -> v' = v) ->
    rel r s (make_var v a) v v'.
  Proof.
    intros R H -> Hsm. destruct (rel_var _ _ _ _ _ R H) as (A & B & C & D).
    split; [|split]; cbn; auto. rewrite A, Nat.eqb_refl. auto.
  Qed.
  Lemma rel_make_dyn r s a v0 v1 v v' : rel r s a v0 v1 -> is_dyn a = true -> v' = v1 -> (same -> v' = v) ->
    rel r s (make_dyn v a) v v'.
  Proof.
    intros R H -> Hsm. destruct (rel_dyn _ _ _ _ _ R H) as (A & B & C & D).
    split; [|split]; cbn; auto. rewrite A, Nat.eqb_refl. auto.
  Qed.
  (** result of op= that keeps taddr and type *)
  Lemma rel_keep_tape r s a v0 v1 v v' : rel r s a v0 v1 -> is_var a = true \/ is_dyn a = true -> v' = v1 -> (same -> v' = v) ->
    rel r s (mkAD v (a_tid a) (a_taddr a) (a_type a)) v v'.
  Proof.
    intros (A & _ & B) [H|H] -> Hsm; (split; [|split]); cbn; auto;
      unfold Tape_Model.is_var, Tape_Model.is_dyn in H; apply andb_true_iff in H as [H1 H2];
      rewrite H1 in *; auto.
  Qed.
  Lemma rel_keep_con r s a v0 v1 v v' : rel r s a v0 v1 -> is_var a = false -> is_dyn a = false -> v' = v ->
    rel r s (mkAD v (a_tid a) (a_taddr a) (a_type a)) v v'.
  Proof.
    intros R H1 H2 ->. destruct (rel_con _ _ _ _ _ R H1 H2) as [A _].
    split; [|split]; cbn; auto. apply Nat.eqb_neq in A. now rewrite A.
  Qed.
  Lemma rel_untape r s v t ty v' : v' = v -> rel r s (mkAD v 0 t ty) v v'.
  Proof.
    intros ->. split; [|split]; cbn; auto. destruct tid; [easy|auto].
  Qed.

  Lemma is_dyn_not_var (a : AD b) : is_dyn a = true -> is_var a = false.
  Proof.
    unfold Tape_Model.is_var, Tape_Model.is_dyn. destruct (a_tid a =? tid), (is_T_dyn (a_type a)); auto.
  Qed.
End Sim.
