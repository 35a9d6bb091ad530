(** Structure of a recorded operation sequence: BeginOp, the independent
    variables, then only value / comparison / VecAD operators, whose variable
    arguments are results seen by the user (never an auxiliary result); loads
    are numbered consecutively.  No assumption on values is needed. *)
From Coq Require Import ZArith List Bool Arith Lia.
From Verif Require Import Base_Spec Op_Model Tape_Spec Tape_Model Tape_Proof Tape_Proof2 Tape_Proof5 Tape_Val
  Tape_Proof10 Sweep_Model Sweep_Eqs Sweep_Eqs2 Sweep_Tape Sweep_Uniq.
Import ListNotations.

(** operators that are recorded after the independent variables *)
Definition okop (o : opvar) : bool :=
  match o with
  | BeginOp | InvOp | CSumOp | CSkipOp | AFunOp | FunapOp | FunavOp | FunrpOp | FunrvOp | PriOp => false
  | _ => true
  end.
(** the operators with two constants among their arguments *)
Definition erfop (o : opvar) : bool := match o with ErfOp | ErfcOp => true | _ => false end.
Definition seen1 (seen : list nat) (i : ins) : list nat :=
  if 0 <? num_res (i_op i) then i_var i :: seen else seen.
Fixpoint sok (seen : list nat) (nl : nat) (l : list ins) : Prop :=
  match l with
  | [] => True
  | i :: l' => okop (i_op i) = true /\ Forall (fun x => In x seen) (var_args (i_op i) (i_arg i)) /\
      (is_load (i_op i) = true -> nth 2 (i_arg i) 0 = nl) /\
      sok (seen1 seen i) (if is_load (i_op i) then S nl else nl) l'
  end.
Definition seenof (seen : list nat) (l : list ins) : list nat := fold_left seen1 l seen.

Lemma sok_app l l' : forall seen nl, sok seen nl (l ++ l') <->
  sok seen nl l /\ sok (seenof seen l) (nl + nload l) l'.
Proof.
  induction l as [|i l IH]; intros seen nl; cbn [app sok seenof fold_left nload].
  - rewrite Nat.add_0_r. tauto.
  - rewrite IH. replace (nl + ((if is_load (i_op i) then 1 else 0) + nload l)) with
      ((if is_load (i_op i) then S nl else nl) + nload l) by (destruct (is_load (i_op i)); lia).
    unfold seenof. tauto.
Qed.
Lemma nload_app l l' : nload (l ++ l') = nload l + nload l'.
Proof. induction l; cbn; lia. Qed.
Lemma seenof_app l l' seen : seenof seen (l ++ l') = seenof (seenof seen l) l'.
Proof. apply fold_left_app. Qed.
Lemma seenof_incl l : forall seen, incl seen (seenof seen l).
Proof.
  induction l as [|i l IH]; intros seen; [apply incl_refl|]. cbn. eapply incl_tran; [|apply IH].
  unfold seen1. destruct (0 <? num_res (i_op i)); [apply incl_tl|]; apply incl_refl.
Qed.

Definition head_ins (n : nat) : list ins :=
  mkIns BeginOp [0] 0 :: map (fun j => mkIns InvOp [] (S j)) (seq 0 n).

Section Swf.
  Context {b : base}.
  Notation T := (bt b).
  Variable tid : nat.
  Variable n : nat.
  Implicit Types (r : rec b) (x y : AD b).
  Notation is_var := (is_var tid).
  Notation is_dyn := (is_dyn tid).

  (** the recording, without its head *)
  Definition body r : list ins :=
    match decode (r_op r) (r_arg r) 0 with Some l => skipn (S n) l | None => [] end.
  Definition prims r : list nat := seenof (seq 1 n) (body r).
  (** parameter number [k] is a constant with value [v] *)
  Definition cpar r k (v : T) : Prop := k < length (r_par r) /\ nth k (r_isdyn r) false = false /\
    (nth k (r_par r) bnan = v \/ ideq (nth k (r_par r) bnan) v = true).
  Definition erfa r o (a : list nat) : Prop :=
    erfop o = true -> cpar r (nth 1 a 0) b0 /\ cpar r (nth 2 a 0) berf.
  Definition econ r : Prop := length (r_isdyn r) = length (r_par r) /\
    Forall (fun i => erfa r (i_op i) (i_arg i)) (body r).
  Definition swf r : Prop :=
    decode (r_op r) (r_arg r) 0 = Some (head_ins n ++ body r) /\ sok (seq 1 n) 0 (body r) /\
    r_nload r = nload (body r) /\ r_nvar r = nres (r_op r) /\ econ r.
  (** the parameters are only extended *)
  Definition ppre r r' : Prop := exists p d, r_par r' = r_par r ++ p /\ r_isdyn r' = r_isdyn r ++ d /\ length d = length p.
  Lemma ppre_eq r r' : r_par r' = r_par r -> r_isdyn r' = r_isdyn r -> ppre r r'.
  Proof. intros A B. exists [], []. now rewrite A, B, !app_nil_r. Qed.
  Lemma cpar_mono r r' k v : ppre r r' -> length (r_isdyn r) = length (r_par r) -> cpar r k v -> cpar r' k v.
  Proof.
    intros (p & d & A & B & _) E (H1 & H2 & H3). unfold cpar. rewrite A, B, app_length.
    rewrite !app_nth1 by lia. repeat split; auto; lia.
  Qed.
  Lemma econ_mono r r' : ppre r r' -> body r' = body r -> econ r -> econ r'.
  Proof.
    intros Q B (E & F). split.
    - destruct Q as (p & d & H1 & H2 & H3). rewrite H1, H2, !app_length. lia.
    - rewrite B. eapply Forall_impl; [|exact F]. intros i H K. destruct (H K). split; eapply cpar_mono; eauto.
  Qed.

  Definition Sa r (a : AD b) : Prop := is_var a = true -> In (a_taddr a) (prims r).
  Definition sg0 r r' : Prop := swf r' /\ incl (prims r) (prims r').
  Definition sg r (ra : rec b * AD b) : Prop := sg0 r (fst ra) /\ Sa (fst ra) (snd ra).

  Lemma Sa_mono r r' a : incl (prims r) (prims r') -> Sa r a -> Sa r' a.
  Proof. intros H D E. apply H, D, E. Qed.
  Lemma sg0_refl r : swf r -> sg0 r r.
  Proof. split; auto. apply incl_refl. Qed.
  Lemma sg0_trans r1 r2 r3 : sg0 r1 r2 -> sg0 r2 r3 -> sg0 r1 r3.
  Proof. intros [A B] [C D]. split; auto. eapply incl_tran; eauto. Qed.

  (** only the operator part matters *)
  Lemma sg0_same r r' : r_op r' = r_op r -> r_arg r' = r_arg r -> r_nload r' = r_nload r ->
    r_nvar r' = r_nvar r -> ppre r r' -> swf r -> sg0 r r'.
  Proof.
    intros A B C D E W.
    assert (body r' = body r) as F by (unfold body; now rewrite A, B).
    destruct W as (W1 & W2 & W3 & W4 & W5).
    unfold sg0, swf, prims. rewrite F, A, B, C, D. split; [|apply incl_refl].
    split; [auto|split; [auto|split; [auto|split; [auto|]]]]. eapply econ_mono; eauto.
  Qed.

  Lemma body_add r r' o a : swf r -> r_op r' = r_op r ++ [o] -> r_arg r' = r_arg r ++ a ->
    n_actual o a = length a ->
    body r' = body r ++ [mkIns o a (r_nvar r + num_res o - 1)] /\
    decode (r_op r') (r_arg r') 0 = Some (head_ins n ++ body r').
  Proof.
    intros (D & _ & _ & NV & _) A B H. pose proof (decode_app _ _ _ _ o a D H) as E.
    rewrite <- A, <- B, <- NV in E. cbn [Nat.add] in E.
    assert (length (head_ins n) = S n) as LH by (unfold head_ins; cbn; now rewrite map_length, seq_length).
    assert (body r' = body r ++ [mkIns o a (r_nvar r + num_res o - 1)]) as F.
    { unfold body at 1. rewrite E, <- app_assoc. rewrite skipn_app, LH, Nat.sub_diag.
      rewrite <- LH at 1. now rewrite skipn_all. }
    split; auto. rewrite E, F. now rewrite app_assoc.
  Qed.

  Lemma sg0_add r r' o a : swf r -> r_op r' = r_op r ++ [o] -> r_arg r' = r_arg r ++ a ->
    n_actual o a = length a -> okop o = true ->
    Forall (fun j => In j (prims r)) (var_args o a) ->
    (is_load o = true -> nth 2 a 0 = r_nload r) ->
    r_nload r' = r_nload r + (if is_load o then 1 else 0) -> r_nvar r' = r_nvar r + num_res o ->
    r_par r' = r_par r -> r_isdyn r' = r_isdyn r -> erfa r o a ->
    sg0 r r' /\ (0 < num_res o -> In (r_nvar r' - 1) (prims r')).
  Proof.
    intros W A B H O VA L NL NV PA PB EA. destruct (body_add r r' o a W A B H) as [F D].
    destruct W as (D0 & S0 & N0 & V0 & E0).
    assert (prims r' = seen1 (prims r) (mkIns o a (r_nvar r + num_res o - 1))) as P.
    { unfold prims. rewrite F, seenof_app. reflexivity. }
    split; [split|].
    - split; [auto|]. split; [|split; [|split]].
      + rewrite F. apply sok_app. split; auto. cbn. repeat split; auto.
        intros Q. rewrite <- N0. auto.
      + rewrite F, nload_app, NL, N0. cbn. lia.
      + rewrite A, nres_app, NV, V0. cbn. lia.
      + destruct E0 as [E1 E2]. split; [congruence|]. rewrite F. apply Forall_app. split.
        * eapply Forall_impl; [|exact E2]. intros i. unfold erfa, cpar. now rewrite PA, PB.
        * constructor; [|constructor]. unfold erfa, cpar in *. now rewrite PA, PB.
    - rewrite P. unfold seen1. destruct (0 <? _); [apply incl_tl|]; apply incl_refl.
    - intros Hr. rewrite P, NV. unfold seen1. cbn [i_op i_var].
      destruct (Nat.ltb_spec 0 (num_res o)); [now left|lia].
  Qed.

  Lemma sg0_put_con_par r v : swf r -> sg0 r (fst (put_con_par r v)).
  Proof.
    intros W. unfold put_con_par. destruct (_ && _); cbn [fst]; [now apply sg0_refl|].
    apply sg0_same; auto. exists [v], [false]. auto.
  Qed.
  (** what is returned is the index of a constant with that value *)
  Lemma cpar_put r v : swf r -> cpar (fst (put_con_par r v)) (snd (put_con_par r v)) v.
  Proof.
    intros (_ & _ & _ & _ & E & _). unfold put_con_par. destruct (_ && _) eqn:H; cbn [fst snd].
    - apply andb_true_iff in H as [H H4]. apply andb_true_iff in H as [H H3]. apply andb_true_iff in H as [H1 H2].
      apply Nat.ltb_lt in H2. apply negb_true_iff in H3. repeat split; auto.
    - unfold cpar. cbn [r_par r_isdyn]. rewrite app_length. cbn [length]. split; [lia|].
      rewrite !app_nth2 by lia. rewrite E, Nat.sub_diag. cbn. auto.
  Qed.
  Lemma ppre_put r v : ppre r (fst (put_con_par r v)).
  Proof. unfold put_con_par. destruct (_ && _); cbn [fst]; [now apply ppre_eq|]. exists [v], [false]. auto. Qed.
  Lemma sg0_put_dyn_par r (v : T) o a : swf r -> sg0 r (fst (put_dyn_par r v o a)).
  Proof. intros W. apply sg0_same; auto. exists [v], [true]. auto. Qed.
  Lemma sg0_put_vec_ind r i : swf r -> sg0 r (fst (put_vec_ind r i)).
  Proof. intros W. apply sg0_same; auto. now apply ppre_eq. Qed.
  Lemma sg0_par_addr r a : swf r -> sg0 r (fst (par_addr tid r a)).
  Proof. intros W. unfold par_addr. destruct (is_dyn a); [now apply sg0_refl|now apply sg0_put_con_par]. Qed.

  Lemma sg0_put_op_arg r l o : swf r -> n_actual o l = length l -> okop o = true -> is_load o = false -> erfop o = false ->
    Forall (fun j => In j (prims r)) (var_args o l) -> sg0 r (fst (put_op (put_arg r l) o)).
  Proof.
    intros W H O NL EO VA. eapply (sg0_add r _ o l W); auto; cbn; rewrite ?NL; auto; try discriminate.
    unfold erfa. congruence.
  Qed.
  Lemma sg_rec_var' r o l v : swf r -> n_actual o l = length l -> okop o = true -> is_load o = false ->
    0 < num_res o -> Forall (fun j => In j (prims r)) (var_args o l) -> erfa r o l -> sg r (rec_var tid r o l v).
  Proof.
    intros W H O NL NR VA EO.
    assert (r_nload r = r_nload r + (if is_load o then 1 else 0)) as E by (rewrite NL; lia).
    destruct (sg0_add r (fst (put_op (put_arg r l) o)) o l W) as [A B]; auto.
    { intros Q. congruence. }
    split; [exact A|]. intros _. apply B. auto.
  Qed.
  Lemma sg_rec_var r o l v : swf r -> n_actual o l = length l -> okop o = true -> is_load o = false -> erfop o = false ->
    0 < num_res o -> Forall (fun j => In j (prims r)) (var_args o l) -> sg r (rec_var tid r o l v).
  Proof. intros. apply sg_rec_var'; auto. unfold erfa. congruence. Qed.
  Lemma sg_rec_dyn r o l v : swf r -> sg r (rec_dyn tid r o l v).
  Proof.
    intros W. split; [now apply sg0_put_dyn_par|]. unfold Sa, Tape_Model.is_var. cbn.
    now rewrite andb_false_r.
  Qed.
  Lemma sg_step r r1 ra : sg0 r r1 -> (swf r1 -> sg r1 ra) -> sg r ra.
  Proof. intros W H. destruct (H (proj1 W)) as [A C]. split; auto. eapply sg0_trans; eauto. Qed.
  Lemma sg_rec_dyn2 r o x y v : swf r -> sg r (rec_dyn2 tid r o x y v).
  Proof.
    intros W. unfold rec_dyn2.
    pose proof (sg0_par_addr r x W) as A. destruct (par_addr tid r x) as [r1 p0]. cbn [fst] in A.
    apply (sg_step _ _ _ A). intros W1.
    pose proof (sg0_par_addr r1 y W1) as A1. destruct (par_addr tid r1 y) as [r2 p1]. cbn [fst] in A1.
    apply (sg_step _ _ _ A1). intros W2. now apply sg_rec_dyn.
  Qed.
  Lemma sg_same r v x t : swf r -> Sa r x -> (is_var x = true \/ t = T_dyn \/ t = a_type x) ->
    sg r (r, mkAD v (a_tid x) (a_taddr x) t).
  Proof.
    intros W D H. split; [now apply sg0_refl|]. unfold Sa, Tape_Model.is_var in *. cbn.
    destruct (a_tid x =? tid); cbn in *; [|easy]. destruct H as [H|[-> | ->]]; cbn; auto. easy.
  Qed.
  Hypothesis tid0 : tid <> 0.
  Lemma sg_con r v k t : swf r -> sg r (r, mkAD v 0 k t).
  Proof.
    intros W. split; [now apply sg0_refl|]. unfold Sa, Tape_Model.is_var. cbn. destruct tid; easy.
  Qed.

  Ltac stac :=
    repeat match goal with
    | |- sg _ (if ?c then _ else _) => destruct c eqn:?
    | |- sg ?r (let '(_, _) := par_addr tid ?r ?x in _) =>
        let A := fresh in
        assert (A : sg0 r (fst (par_addr tid r x))) by (apply sg0_par_addr; auto);
        destruct (par_addr tid r x) as [? ?]; cbn [fst] in A; apply (sg_step _ _ _ A); intros ?; destruct A as [_ A]
    | |- sg ?r (let '(_, _) := put_con_par ?r ?x in _) =>
        let A := fresh in
        assert (A : sg0 r (fst (put_con_par r x))) by (apply sg0_put_con_par; auto);
        destruct (put_con_par r x) as [? ?]; cbn [fst] in A; apply (sg_step _ _ _ A); intros ?; destruct A as [_ A]
    | |- sg _ (rec_var _ _ _ _ _) => apply sg_rec_var; auto; cbn; repeat constructor; auto; fail
    | |- sg _ (rec_dyn2 _ _ _ _ _ _) => apply sg_rec_dyn2; auto; fail
    | |- sg _ (_, con_ad _) => now apply sg_con
    | |- sg _ (_, make_var _ _) => apply sg_same; auto; fail
    | |- sg _ (_, make_dyn _ _) => apply sg_same; auto; fail
    | |- sg _ (_, mkAD _ 0 _ _) => now apply sg_con
    | |- sg _ (_, mkAD _ _ _ _) => apply sg_same; auto; fail
    end.
  Local Hint Resolve Sa_mono : core.

  Lemma sg_bin o r x y : swf r -> Sa r x -> Sa r y -> sg r (ad_bin tid o r x y).
  Proof.
    intros W Dx Dy. destruct o; cbn [ad_bin]; unfold ad_add, ad_sub, ad_mul, ad_div, ad_azmul, ad_pow; cbv zeta;
      unfold Sa in Dx, Dy;
      destruct (is_var x) eqn:?, (is_var y) eqn:?; cbn [negb andb orb]; try specialize (Dx eq_refl); try specialize (Dy eq_refl); stac;
      try (apply sg_same; auto; unfold Sa; congruence).
  Qed.
  Lemma sg_eq o r x y : swf r -> Sa r x -> Sa r y -> sg r (ad_eq tid o r x y).
  Proof.
    intros W Dx Dy. destruct o; cbn [ad_eq]; unfold ad_add_eq, ad_sub_eq, ad_mul_eq, ad_div_eq; cbv zeta;
      unfold Sa in Dx, Dy;
      destruct (is_var x) eqn:?, (is_var y) eqn:?; cbn [negb andb orb]; try specialize (Dx eq_refl); try specialize (Dy eq_refl); stac;
      try (apply sg_same; auto; unfold Sa; congruence).
  Qed.
  Lemma Sa_on r x : Sa r x -> a_tid x =? tid = true -> is_T_dyn (a_type x) = false -> In (a_taddr x) (prims r).
  Proof. unfold Sa, Tape_Model.is_var. intros D A B. rewrite A, B in D. now apply D. Qed.
  Lemma sg_un u r x : swf r -> Sa r x -> sg r (ad_un tid u r x).
  Proof.
    intros W Dx. unfold ad_un; cbv zeta.
    destruct (a_tid x =? tid) eqn:E; cbn [negb]; [|now apply sg_con].
    destruct (is_T_dyn (a_type x)) eqn:F; [now apply sg_rec_dyn|].
    pose proof (Sa_on _ _ Dx E F) as Q.
    assert (forall o v, erfop o = true -> sg r (let '(r1, p) := put_con_par r b0 in
      let '(r2, q) := put_con_par r1 berf in rec_var tid r2 o [a_taddr x; p; q] v)) as K.
    { intros o v Eo.
      pose proof (sg0_put_con_par r b0 W) as A1. pose proof (cpar_put r b0 W) as A2.
      destruct (put_con_par r b0) as [r1 p]. cbn [fst snd] in *. apply (sg_step _ _ _ A1). intros W1.
      pose proof (sg0_put_con_par r1 berf W1) as B1. pose proof (cpar_put r1 berf W1) as B2. pose proof (ppre_put r1 berf) as B3.
      destruct (put_con_par r1 berf) as [r2 q]. cbn [fst snd] in *. apply (sg_step _ _ _ B1). intros W2.
      assert (erfa r2 o [a_taddr x; p; q]) as EA.
      { intros _. cbn [nth]. split; auto. eapply cpar_mono; eauto. apply W1. }
      assert (Forall (fun j => In j (prims r2)) [a_taddr x]) as FA.
      { constructor; [|constructor]. apply B1, A1, Q. }
      destruct o; try discriminate; apply sg_rec_var'; auto; cbn; lia. }
    destruct u; try (apply K; reflexivity); stac.
  Qed.
  Lemma sg_dis k r x : swf r -> Sa r x -> sg r (ad_dis tid k r x).
  Proof.
    intros W Dx. unfold ad_dis; cbv zeta.
    destruct (a_tid x =? tid) eqn:E; cbn [negb]; [|now apply sg_con].
    destruct (is_T_dyn (a_type x)) eqn:F; [now apply sg_rec_dyn|].
    pose proof (Sa_on _ _ Dx E F). stac.
  Qed.
  Lemma sg_cexp_arg r x k r' a m : swf r -> Sa r x -> cexp_arg tid r x k = (r', a, m) ->
    sg0 r r' /\ (m = 0 \/ m = k /\ In a (prims r')).
  Proof.
    intros W D H. unfold cexp_arg in H. destruct (is_constant tid x) eqn:E.
    - pose proof (sg0_put_con_par r (a_val x) W) as A. destruct (put_con_par r (a_val x)). cbn in *.
      injection H as <- <- <-. auto.
    - injection H as <- <- <-. split; [now apply sg0_refl|].
      destruct (is_T_dyn (a_type x)) eqn:F; [auto|]. right. split; auto.
      apply (Sa_on _ _ D); auto. unfold is_constant in E. apply orb_false_iff in E as [_ E].
      now apply negb_false_iff in E.
  Qed.
  Lemma sg_cond c r (l rt t f : AD b) : swf r -> Sa r l -> Sa r rt -> Sa r t -> Sa r f -> sg r (ad_cond tid c r l rt t f).
  Proof.
    intros W D1 D2 D3 D4. unfold ad_cond; cbv zeta. destruct (_ && _); [now apply sg_con|].
    destruct (cexp_arg tid r l 1) as [[r1 a1] m1] eqn:E1.
    destruct (sg_cexp_arg _ _ _ _ _ _ W D1 E1) as [[W1 L1] B1]; auto.
    destruct (cexp_arg tid r1 rt 2) as [[r2 a2] m2] eqn:E2.
    destruct (sg_cexp_arg _ _ _ _ _ _ W1 (Sa_mono _ _ _ L1 D2) E2) as [[W2 L2] B2]; auto.
    assert (L2' : incl (prims r) (prims r2)) by (eapply incl_tran; eauto).
    destruct (cexp_arg tid r2 t 4) as [[r3 a3] m3] eqn:E3.
    destruct (sg_cexp_arg _ _ _ _ _ _ W2 (Sa_mono _ _ _ L2' D3) E3) as [[W3 L3] B3]; auto.
    assert (L3' : incl (prims r) (prims r3)) by (eapply incl_tran; eauto).
    destruct (cexp_arg tid r3 f 8) as [[r4 a4] m4] eqn:E4.
    destruct (sg_cexp_arg _ _ _ _ _ _ W3 (Sa_mono _ _ _ L3' D4) E4) as [[W4 L4] B4]; auto.
    apply (sg_step r r4); [split; auto; eapply incl_tran; eauto|]. intros _.
    destruct (_ =? 0) eqn:E; [now apply sg_rec_dyn|].
    assert (In a1 (prims r4) \/ m1 = 0) as C1 by (destruct B1 as [|[_ B1]]; auto).
    apply sg_rec_var; auto.
    destruct B1 as [-> |[-> B1]], B2 as [-> |[-> B2]], B3 as [-> |[-> B3]], B4 as [-> |[-> B4]]; cbn; repeat constructor; auto.
  Qed.

  Lemma sg0_ord vv vp pv pp r x y : swf r -> Sa r x -> Sa r y ->
    (forall o, In o [vv; vp; pv; pp] -> (forall p q, n_actual o [p; q] = 2) /\ okop o = true /\ is_load o = false /\ erfop o = false) ->
    (forall p q, var_args vv [p; q] = [p; q] /\ var_args vp [p; q] = [p] /\ var_args pv [p; q] = [q] /\ var_args pp [p; q] = []) ->
    sg0 r (rec_ord tid vv vp pv pp r x y).
  Proof.
    intros W Dx Dy HO HA. unfold rec_ord. unfold Sa in *.
    destruct (HO vv) as (V1 & V2 & V3 & V13); [cbn; auto|]. destruct (HO vp) as (V4 & V5 & V6 & V14); [cbn; auto|].
    destruct (HO pv) as (V7 & V8 & V9 & V15); [cbn; auto|]. destruct (HO pp) as (V10 & V11 & V12 & V16); [cbn; auto|].
    destruct (is_var x), (is_var y).
    - apply sg0_put_op_arg; auto. destruct (HA (a_taddr x) (a_taddr y)) as (-> & _). auto.
    - pose proof (sg0_par_addr r y W) as A. destruct (par_addr tid r y) as [r1 p]. cbn in A.
      eapply sg0_trans; [exact A|]. destruct A as [A1 A2]. apply sg0_put_op_arg; auto.
      destruct (HA (a_taddr x) p) as (_ & -> & _). auto.
    - pose proof (sg0_par_addr r x W) as A. destruct (par_addr tid r x) as [r1 p]. cbn in A.
      eapply sg0_trans; [exact A|]. destruct A as [A1 A2]. apply sg0_put_op_arg; auto.
      destruct (HA p (a_taddr y)) as (_ & _ & -> & _). auto.
    - destruct (_ || _); [|now apply sg0_refl].
      pose proof (sg0_par_addr r x W) as A. destruct (par_addr tid r x) as [r1 p]. cbn in A.
      eapply sg0_trans; [exact A|]. destruct A as [A1 A2].
      pose proof (sg0_par_addr r1 y A1) as B. destruct (par_addr tid r1 y) as [r2 q]. cbn in B.
      eapply sg0_trans; [exact B|]. destruct B as [B1 B2]. apply sg0_put_op_arg; auto.
      destruct (HA p q) as (_ & _ & _ & ->). auto.
  Qed.
  Lemma sg0_eqn vv pv pp r x y : swf r -> Sa r x -> Sa r y ->
    (forall o, In o [vv; pv; pp] -> (forall p q, n_actual o [p; q] = 2) /\ okop o = true /\ is_load o = false /\ erfop o = false) ->
    (forall p q, var_args vv [p; q] = [p; q] /\ var_args pv [p; q] = [q] /\ var_args pp [p; q] = []) ->
    sg0 r (rec_eqn tid vv pv pp r x y).
  Proof.
    intros W Dx Dy HO HA. unfold rec_eqn. unfold Sa in *.
    destruct (HO vv) as (V1 & V2 & V3 & V13); [cbn; auto|].
    destruct (HO pv) as (V7 & V8 & V9 & V15); [cbn; auto|]. destruct (HO pp) as (V10 & V11 & V12 & V16); [cbn; auto|].
    destruct (is_var x), (is_var y).
    - apply sg0_put_op_arg; auto. destruct (HA (a_taddr x) (a_taddr y)) as (-> & _). auto.
    - pose proof (sg0_par_addr r y W) as A. destruct (par_addr tid r y) as [r1 p]. cbn in A.
      eapply sg0_trans; [exact A|]. destruct A as [A1 A2]. apply sg0_put_op_arg; auto.
      destruct (HA p (a_taddr x)) as (_ & -> & _). auto.
    - pose proof (sg0_par_addr r x W) as A. destruct (par_addr tid r x) as [r1 p]. cbn in A.
      eapply sg0_trans; [exact A|]. destruct A as [A1 A2]. apply sg0_put_op_arg; auto.
      destruct (HA p (a_taddr y)) as (_ & -> & _). auto.
    - destruct (_ || _); [|now apply sg0_refl].
      pose proof (sg0_par_addr r x W) as A. destruct (par_addr tid r x) as [r1 p]. cbn in A.
      eapply sg0_trans; [exact A|]. destruct A as [A1 A2].
      pose proof (sg0_par_addr r1 y A1) as B. destruct (par_addr tid r1 y) as [r2 q]. cbn in B.
      eapply sg0_trans; [exact B|]. destruct B as [B1 B2]. apply sg0_put_op_arg; auto.
      destruct (HA p q) as (_ & _ & ->). auto.
  Qed.
  Lemma sg0_cmp c r x y : swf r -> Sa r x -> Sa r y -> sg0 r (fst (ad_cmp tid c r x y)).
  Proof.
    intros W Dx Dy. unfold ad_cmp. destruct (negb (r_cmp r)); [now apply sg0_refl|]. cbn [fst].
    destruct c, (b_cmp _ _ _); unfold rec_lt, rec_le, rec_eq, rec_ne; first [apply sg0_ord|apply sg0_eqn]; auto;
      cbn [In]; intros o HI; repeat (destruct HI as [<-|HI]; [auto|]); destruct HI.
  Qed.

  Lemma sg0_con_list l : forall r, swf r -> sg0 r (fst (put_con_list r l)).
  Proof.
    induction l as [|v l IH]; intros r W; cbn; [now apply sg0_refl|].
    pose proof (sg0_put_con_par r v W) as A. destruct (put_con_par r v) as [r1 p].
    pose proof (IH r1 (proj1 A)). destruct (put_con_list r1 l) as [r2 ps]. cbn [fst] in *.
    eapply sg0_trans; eauto.
  Qed.
  Lemma sg0_var_vecad r t : swf r -> sg0 r (fst (put_var_vecad r t)).
  Proof.
    intros W. unfold put_var_vecad. pose proof (sg0_put_vec_ind r (length t) W) as A.
    destruct (put_vec_ind r (length t)) as [r1 st]. cbn [fst] in *.
    eapply sg0_trans; [eauto|]. destruct A as [W1 _]. clear - W1. revert r1 W1.
    induction t as [|i t IH]; intros r1 W1; cbn [fold_left]; [now apply sg0_refl|].
    pose proof (sg0_put_vec_ind r1 i W1) as A. eapply sg0_trans; [exact A|]. apply IH, A.
  Qed.
  Lemma sg0_vec_on_tape r v : swf r -> sg0 r (fst (vec_on_tape tid r v)).
  Proof.
    intros W. unfold vec_on_tape. pose proof (sg0_con_list (v_data v) r W) as A.
    destruct (put_con_list r (v_data v)) as [r1 ta]. pose proof (sg0_var_vecad r1 ta (proj1 A)).
    destruct (put_var_vecad r1 ta) as [r2 st]. cbn [fst] in *. eapply sg0_trans; eauto.
  Qed.
  Lemma sg0_vec_index r v i r' v' : swf r -> vec_index tid r v i = Some (r', v') -> sg0 r r'.
  Proof.
    intros W. unfold vec_index. destruct (index_of _ _); [|discriminate].
    destruct (_ && _); [intros H; injection H as <- <-; now apply sg0_refl|].
    destruct (negb (vec_var tid v)); intros H; injection H as H.
    - pose proof (sg0_vec_on_tape r v W). now rewrite H in *.
    - subst. now apply sg0_refl.
  Qed.
  Lemma sg0_con_if r (c : bool) (v : T) (k : nat) : swf r -> sg0 r (fst (if c then put_con_par r v else (r, k))).
  Proof. intros W. destruct c; [now apply sg0_put_con_par|now apply sg0_refl]. Qed.

  Lemma sg_vec_load r v i r' a : swf r -> Sa r i -> vec_load tid r v i = Some (r', a) -> sg r (r', a).
  Proof.
    intros W Di. unfold vec_load. destruct (index_of _ _); [|discriminate].
    destruct (_ && _). { intros H; injection H as <- <-. now apply sg_con. }
    pose proof (sg0_con_if r (negb (is_dyn i || is_var i)) (a_val i) (a_taddr i) W) as A.
    assert (is_var i = true -> snd (if negb (is_dyn i || is_var i) then put_con_par r (a_val i) else (r, a_taddr i)) = a_taddr i) as AP
      by (intros ->; now rewrite orb_true_r).
    destruct (if negb (is_dyn i || is_var i) then put_con_par r (a_val i) else (r, a_taddr i)) as [r1 p].
    cbn [fst snd] in A, AP. intros H. injection H as <- <-.
    apply (sg_step _ _ _ A). intros W1. destruct A as [_ A].
    set (o := if is_var i then LdvOp else LdpOp).
    destruct (sg0_add r1 (fst (put_load_op (put_arg r1 [v_off v; p; r_nload r1]) o)) o [v_off v; p; r_nload r1] W1) as [G1 G2];
      try (unfold o; destruct (is_var i); reflexivity).
    { unfold o. destruct (is_var i) eqn:V; cbn; repeat constructor. rewrite AP by auto. apply A. auto. }
    { unfold o. destruct (is_var i); cbn; lia. }
    { unfold erfa, o. destruct (is_var i); discriminate. }
    split; [exact G1|]. intros _. apply G2. unfold o. destruct (is_var i); cbn; lia.
  Qed.
  Lemma sg0_vec_store r v i x r' v' : swf r -> Sa r i -> Sa r x -> vec_store tid r v i x = Some (r', v') -> sg0 r r'.
  Proof.
    intros W Di Dx. unfold vec_store. destruct (index_of _ _) as [k|]; [|discriminate].
    set (v1 := mkVec _ _ _ _). destruct (_ && _). { intros H; injection H as <- <-. now apply sg0_refl. }
    assert (sg0 r (fst (if negb (vec_var tid v1) then vec_on_tape tid r v1 else (r, v1)))) as A.
    { destruct (negb _); [now apply sg0_vec_on_tape|now apply sg0_refl]. }
    destruct (if negb (vec_var tid v1) then vec_on_tape tid r v1 else (r, v1)) as [r1 v2]. cbn [fst] in A.
    pose proof (sg0_con_if r1 (negb (is_dyn i || is_var i)) (a_val i) (a_taddr i) (proj1 A)) as A2.
    assert (is_var i = true -> snd (if negb (is_dyn i || is_var i) then put_con_par r1 (a_val i) else (r1, a_taddr i)) = a_taddr i) as AP
      by (intros ->; now rewrite orb_true_r).
    destruct (if negb (is_dyn i || is_var i) then put_con_par r1 (a_val i) else (r1, a_taddr i)) as [r2 p].
    cbn [fst snd] in A2, AP.
    pose proof (sg0_con_if r2 (negb (is_dyn x || is_var x)) (a_val x) (a_taddr x) (proj1 A2)) as A3.
    assert (is_var x = true -> snd (if negb (is_dyn x || is_var x) then put_con_par r2 (a_val x) else (r2, a_taddr x)) = a_taddr x) as AQ
      by (intros ->; now rewrite orb_true_r).
    destruct (if negb (is_dyn x || is_var x) then put_con_par r2 (a_val x) else (r2, a_taddr x)) as [r3 q].
    cbn [fst snd] in A3, AQ. cbv zeta.
    intros H. apply (f_equal (option_map fst)) in H. cbn [option_map fst] in H. injection H as <-.
    pose proof (sg0_trans _ _ _ A (sg0_trans _ _ _ A2 A3)) as [_ AA].
    eapply sg0_trans; [exact A|]. eapply sg0_trans; [exact A2|]. eapply sg0_trans; [exact A3|].
    destruct A3 as [W3 _].
    apply sg0_put_op_arg; auto; unfold Sa in *; destruct (is_var x), (is_var i); cbn; auto; repeat constructor;
      rewrite ?AP, ?AQ by auto; apply AA; auto.
  Qed.

  Definition sst (s : state b) : Prop := swf (st_rec s) /\ forall i, Sa (st_rec s) (st_r s i).

  Lemma sst_set s d ra : sst s -> sg (st_rec s) ra -> sst (set_ad s d ra).
  Proof.
    intros [W D] [[A B] C]. split; auto. intros i. cbn. unfold fset. destruct (i =? d); auto.
    eapply Sa_mono; eauto.
  Qed.
  Lemma sst_step i s s' : sst s -> step_rec tid i s = Some s' -> sst s'.
  Proof.
    intros S H. pose proof S as [W D].
    destruct i as [d c|d x|u d x|o d l rt|o d rt|c d l rt t f|k d x|d v i|v i x]; cbn [step_rec] in H.
    1-7: injection H as <-; apply sst_set; auto.
    - now apply sg_con.
    - split; [now apply sg0_refl|apply D].
    - apply sg_un; auto.
    - apply sg_bin; auto.
    - apply sg_eq; auto.
    - apply sg_cond; auto.
    - apply sg_dis; auto.
    - destruct (vec_index tid (st_rec s) (st_v s v) (st_r s i)) as [[r1 v1]|] eqn:E; [|discriminate].
      destruct (vec_load tid r1 v1 (st_r s i)) as [[r2 a]|] eqn:F; [|discriminate]. injection H as <-.
      destruct (sg0_vec_index _ _ _ _ _ W E) as [W1 L1].
      destruct (sg_vec_load _ _ _ _ _ W1 (Sa_mono _ _ _ L1 (D i)) F) as [[W2 L2] G]. cbn in W2, L2, G.
      split; cbn; auto. intros j. unfold fset. destruct (j =? d); auto. eapply Sa_mono; [|apply D].
      eapply incl_tran; eauto.
    - destruct (vec_index tid (st_rec s) (st_v s v) (st_r s i)) as [[r1 v1]|] eqn:E; [|discriminate].
      destruct (vec_store tid r1 v1 (st_r s i) (st_r s x)) as [[r2 v2]|] eqn:F; [|discriminate]. injection H as <-.
      destruct (sg0_vec_index _ _ _ _ _ W E) as [W1 L1].
      destruct (sg0_vec_store _ _ _ _ _ _ W1 (Sa_mono _ _ _ L1 (D i)) (Sa_mono _ _ _ L1 (D x)) F) as [W2 L2].
      split; cbn; auto. intros j. eapply Sa_mono; [|apply D]. eapply incl_tran; eauto.
  Qed.
  Lemma swf_dep_loop ys : forall r r' dep, swf r -> Forall (Sa r) ys -> dep_loop tid r ys = (r', dep) ->
    sg0 r r' /\ Forall (fun t => In t (prims r')) dep.
  Proof.
    induction ys as [|y ys IH]; intros r r' dep W D H; cbn [dep_loop] in H.
    - injection H as <- <-. split; [now apply sg0_refl|constructor].
    - assert (sg0 r (fst (if is_parameter tid y then record_par_op tid r y else (r, a_taddr y))) /\
        In (snd (if is_parameter tid y then record_par_op tid r y else (r, a_taddr y)))
           (prims (fst (if is_parameter tid y then record_par_op tid r y else (r, a_taddr y))))) as [A B].
      { destruct (is_parameter tid y) eqn:E.
        - unfold record_par_op. destruct (is_dynamic tid y).
          + destruct (sg0_add r (fst (put_op (put_arg r [a_taddr y]) ParOp)) ParOp [a_taddr y] W) as [A B]; auto.
            1: constructor. 1: discriminate. discriminate.
          + pose proof (sg0_put_con_par r (a_val y) W) as A. destruct (put_con_par r (a_val y)) as [r1 p]. cbn [fst] in A.
            destruct (sg0_add r1 (fst (put_op (put_arg r1 [p]) ParOp)) ParOp [p] (proj1 A)) as [A' B']; auto.
            1: constructor. 1: discriminate. 1: discriminate. split; [eapply sg0_trans; eauto|]. apply B'. cbn; lia.
        - cbn. split; [now apply sg0_refl|]. inversion D as [|? ? D1 _]; subst. apply D1.
          unfold is_parameter in E. unfold Tape_Model.is_var. apply orb_false_iff in E as [E E3].
          apply orb_false_iff in E as [E1 E2]. now rewrite E2, (proj1 (negb_false_iff _) E3). }
      destruct (if is_parameter tid y then record_par_op tid r y else (r, a_taddr y)) as [r1 t]. cbn [fst snd] in A, B.
      destruct (dep_loop tid r1 ys) as [r2 ts] eqn:F. injection H as <- <-.
      destruct (IH r1 r2 ts (proj1 A)) as [A2 B2]; auto.
      { inversion D as [|? ? _ D2]; subst. eapply Forall_impl; [|exact D2]. intros a. apply Sa_mono, A. }
      split; [eapply sg0_trans; eauto|]. constructor; auto. now apply A2.
  Qed.
  Lemma swf_exec p : forall s r dep, sst s -> exec tid p s = Some (r, dep) ->
    swf r /\ Forall (fun t => In t (prims r)) dep.
  Proof.
    induction p as [ys|i p IH|c l rt pt IHt pf IHf]; intros s r dep S H; cbn [exec] in H.
    - destruct (dep_loop tid (st_rec s) (map (st_r s) ys)) as [r1 d1] eqn:E. injection H as <- <-.
      assert (Forall (Sa (st_rec s)) (map (st_r s) ys)) as FA.
      { apply Forall_map, Forall_forall. intros; apply S. }
      destruct (swf_dep_loop _ _ _ _ (proj1 S) FA E) as [[A1 A2] B].
      destruct (sg0_add r1 (fst (put_op r1 EndOp)) EndOp [] A1) as [[C1 C2] _]; auto.
      { cbn. now rewrite app_nil_r. } { constructor. } { discriminate. } { discriminate. }
      split; auto. eapply Forall_impl; [|exact B]. intros a. apply C2.
    - destruct (step_rec tid i s) eqn:E; [|discriminate]. eapply IH; [|exact H]. eapply sst_step; eauto.
    - destruct S as [W D].
      pose proof (sg0_cmp c (st_rec s) (st_r s l) (st_r s rt) W (D l) (D rt)) as [W1 L1].
      destruct (ad_cmp tid c (st_rec s) (st_r s l) (st_r s rt)) as [r1 res]. cbn [fst] in *.
      assert (sst (mkState (st_r s) (st_v s) r1)) as S1.
      { split; auto. intros i. eapply Sa_mono; [|apply D]. exact L1. }
      destruct res; eauto.
  Qed.

  (** the initial state *)
  Lemma sst_init cmp np (e : nat -> AD b) ev : (forall i, a_tid (e i) <> tid) ->
    sst (independent tid cmp n np e ev).
  Proof.
    intros Hf. destruct (independent_spec tid cmp n np e ev) as ((h & A) & _ & C).
    set (s := independent tid cmp n np e ev) in *.
    assert (decode (BeginOp :: repeat InvOp n) [0] 0 = Some (head_ins n)) as D.
    { cbn [decode n_actual num_arg length Nat.ltb Nat.leb skipn firstn num_res Nat.add Nat.sub].
      assert (forall m nv, decode (repeat InvOp m) [] nv = Some (map (fun j => mkIns InvOp [] j) (seq nv m))) as K.
      { induction m as [|m IH]; intros nv; cbn; auto. rewrite IH. rewrite Nat.add_1_r, Nat.sub_succ, Nat.sub_0_r. reflexivity. }
      rewrite K. unfold head_ins. rewrite <- seq_shift, map_map. reflexivity. }
    assert (body (st_rec s) = []) as B.
    { unfold body. rewrite A. cbn [r_op r_arg]. rewrite D.
      replace (S n) with (length (head_ins n)) by (unfold head_ins; cbn; now rewrite map_length, seq_length).
      apply skipn_all. }
    assert (swf (st_rec s)) as W.
    { assert (econ (st_rec s)) as EC.
      { split; [|rewrite B; constructor]. rewrite A. cbn. now rewrite map_length, seq_length, repeat_length. }
      unfold swf. split; [|split; [|split; [|split; [|exact EC]]]]; clear EC; rewrite ?B, ?app_nil_r, ?A; cbn [r_op r_arg r_nload r_nvar]; auto.
      { exact I. } cbn; f_equal; clear; induction n; cbn; auto. }
    split; auto. intros i Hv. unfold prims. rewrite B. cbn. rewrite C in *.
    destruct (Nat.ltb_spec i n); [apply in_seq; cbn; lia|].
    destruct (i <? n + np); [cbn in Hv; unfold Tape_Model.is_var in Hv; cbn in Hv; now rewrite andb_false_r in Hv|].
    unfold Tape_Model.is_var in Hv. apply andb_true_iff in Hv as [Hv _]. apply Nat.eqb_eq in Hv. now apply Hf in Hv.
  Qed.
End Swf.

(** in the form used by the sweeps *)
Lemma sok_wfl np l : forall seen nv nl, 0 < nv -> sok seen nl l -> Forall (wf_ins np) l ->
  (exists ops args, decode ops args nv = Some l) -> wfl np nv nl l.
Proof.
  induction l as [|i l IH]; intros seen nv nl Hnv S W (ops & args & D); cbn; auto.
  destruct S as (O & A & L & S). inversion W as [|? ? W1 W2]; subst.
  destruct ops as [|o ops]; cbn [decode] in D; [destruct args; discriminate|].
  destruct (length args <? n_actual o args); [discriminate|].
  destruct (decode ops _ _) as [l'|] eqn:D'; [|discriminate]. injection D as <- <-. cbn [i_op i_arg i_var] in *.
  split; auto. split; auto. split.
  { intros ->. discriminate. }
  split; auto. split.
  { split; auto. intros _ ->. discriminate. }
  eapply IH; eauto. lia.
Qed.

Lemma decode_split l : forall ops args nv l', decode ops args nv = Some (l ++ l') ->
  exists ops' args', decode ops' args' (nv + tres l) = Some l'.
Proof.
  induction l as [|i l IH]; intros ops args nv l' D; cbn [tres app] in *.
  - rewrite Nat.add_0_r. eauto.
  - destruct ops as [|o ops]; cbn [decode] in D; [destruct args; discriminate|].
    destruct (length args <? n_actual o args); [discriminate|].
    destruct (decode ops _ _) as [l2|] eqn:D'; [|discriminate]. injection D as <- ->. cbn [i_op].
    apply IH in D'. now rewrite Nat.add_assoc.
Qed.

Lemma wfl_app np l l' : forall nv nl, wfl np nv nl l -> wfl np (nv + tres l) (nl + nload l) l' -> wfl np nv nl (l ++ l').
Proof.
  induction l as [|i l IH]; intros nv nl W W'; cbn [tres nload app] in *.
  - now rewrite !Nat.add_0_r in W'.
  - destruct W as (A & B & C & D & E & W). cbn [wfl].
    split; [exact A|split; [exact B|split; [exact C|split; [exact D|split; [exact E|]]]]].
    apply IH; auto. rewrite <- !Nat.add_assoc.
    replace ((if is_load (i_op i) then S nl else nl) + nload l) with (nl + ((if is_load (i_op i) then 1 else 0) + nload l)); auto.
    destruct (is_load (i_op i)); lia.
Qed.

Lemma wfl_head np n : wfl np 0 0 (head_ins n).
Proof.
  unfold head_ins. cbn [wfl i_op i_var i_arg num_res].
  repeat split; cbn; auto; try discriminate; try lia; try congruence.
  assert (forall m nv, wfl np (S nv) 0 (map (fun j => mkIns InvOp [] (S j)) (seq nv m))) as K.
  { induction m as [|m IH]; intros nv; cbn; auto. repeat split; cbn; auto; try discriminate; try lia.
    rewrite Nat.add_1_r. apply IH. }
  apply K.
Qed.

Lemma wf_head np n : Forall (wf_ins np) (head_ins n).
Proof.
  unfold head_ins. constructor; [repeat split; cbn; auto; discriminate|].
  apply Forall_forall. intros i Hi. apply in_map_iff in Hi as (j & <- & _). repeat split; cbn; auto. discriminate.
Qed.
Lemma tres_inv m : forall k, tres (map (fun j => mkIns InvOp [] (S j)) (seq k m)) = m.
Proof. induction m; intros k; cbn; auto. Qed.
Lemma nload_inv m : forall k, nload (map (fun j => mkIns InvOp [] (S j)) (seq k m)) = 0.
Proof. induction m; intros k; cbn; auto. Qed.
Lemma tres_nres ops : forall args nv l, decode ops args nv = Some l -> tres l = nres ops.
Proof.
  induction ops as [|o ops IH]; intros args nv l D; cbn [decode] in D.
  - destruct args; [|discriminate]. now injection D as <-.
  - destruct (length args <? n_actual o args); [discriminate|].
    destruct (decode ops _ _) as [l2|] eqn:D'; [|discriminate]. injection D as <-. cbn. now rewrite (IH _ _ _ D').
Qed.
