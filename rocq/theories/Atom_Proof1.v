(** C38: the recording of a call of an atomic function. *)
From Coq Require Import List Bool Arith Lia.
From Verif Require Import Base_Spec Op_Model Tape_Spec Tape_Model Tape_Proof Sweep_Uniq Abs_Proof Abs_Proof3 Opt_Proof4 Atom_Model.
Import ListNotations.

Section Rec.
  Context {b : base} (BL : base_laws b).
  Notation T := (bt b).
  Implicit Types r : rec b.

  Definition wfr r : Prop := length (r_isdyn r) = length (r_par r).
  (** constants are added, nothing else changes for the parameters *)
  Definition pext r r' : Prop := exists l, r_par r' = r_par r ++ l /\ r_isdyn r' = r_isdyn r ++ repeat false (length l).
  (** the instructions [l] are added *)
  Record added r r' (l : list ins) : Prop := {
    dd_op : r_op r' = r_op r ++ map i_op l; dd_arg : r_arg r' = r_arg r ++ concat (map i_arg l);
    dd_nv : r_nvar r' = r_nvar r + tres l; dd_num : numd (r_nvar r) l;
    dd_act : Forall (fun i => n_actual (i_op i) (i_arg i) = length (i_arg i)) l; dd_par : pext r r'; dd_dop : r_dop r' = r_dop r; dd_darg : r_darg r' = r_darg r }.
  Lemma pext_refl r r' : r_par r' = r_par r -> r_isdyn r' = r_isdyn r -> pext r r'.
  Proof. intros A B. exists []. cbn. now rewrite A, B, !app_nil_r. Qed.
  Lemma pext_trans r1 r2 r3 : pext r1 r2 -> pext r2 r3 -> pext r1 r3.
  Proof. intros (l & A & B) (l' & A' & B'). exists (l ++ l'). rewrite A', A, B', B, app_length, repeat_app, !app_assoc. auto. Qed.
  Lemma pext_wfr r r' : pext r r' -> wfr r -> wfr r'.
  Proof. intros (l & A & B) W. unfold wfr in *. rewrite A, B, !app_length, repeat_length. lia. Qed.
  Lemma pext_nth r r' i : pext r r' -> wfr r -> i < length (r_par r) ->
    i < length (r_par r') /\ nth i (r_par r') bnan = nth i (r_par r) bnan /\ nth i (r_isdyn r') false = nth i (r_isdyn r) false.
  Proof. intros (l & A & B) W H. unfold wfr in W. rewrite A, B, app_length. split; [lia|]. split; apply app_nth1; lia. Qed.
  Lemma added_refl r : added r r [].
  Proof. constructor; cbn; rewrite ?app_nil_r; auto. now apply pext_refl. Qed.
  Lemma added_trans r1 r2 r3 l l' : added r1 r2 l -> added r2 r3 l' -> added r1 r3 (l ++ l').
  Proof.
    intros [A1 A2 A3 A4 A5 A6 A7 A8] [B1 B2 B3 B4 B5 B6 B7 B8]. constructor; try congruence.
    - rewrite B1, A1, map_app, app_assoc. auto.
    - rewrite B2, A2, map_app, concat_app, app_assoc. auto.
    - rewrite B3, A3, tres_app. lia.
    - apply numd_app. split; auto. now rewrite <- A3.
    - apply Forall_app. auto.
    - eapply pext_trans; eauto.
  Qed.
  Lemma added_op r o a : n_actual o a = length a -> added r (fst (put_op (put_arg r a) o)) [mkIns o a (r_nvar r + num_res o - 1)].
  Proof. intros H. constructor; cbn; rewrite ?app_nil_r; auto; try lia; try (now apply pext_refl). Qed.
  Lemma added_op0 r o : n_actual o [] = 0 -> added r (fst (put_op r o)) [mkIns o [] (r_nvar r + num_res o - 1)].
  Proof. intros H. constructor; cbn; rewrite ?app_nil_r; auto; try lia; try (now apply pext_refl). Qed.
  Lemma added_con r v : wfr r -> let (r', i) := put_con_par r v in added r r' [] /\ i < length (r_par r') /\ nth i (r_par r') bnan = v /\ nth i (r_isdyn r') false = false.
  Proof.
    intros W. unfold wfr in W. unfold put_con_par. cbv zeta. destruct (_ && _ && _ && _) eqn:E.
    - apply andb_true_iff in E as [E E4]. apply andb_true_iff in E as [E E3]. apply andb_true_iff in E as [_ E2]. apply Nat.ltb_lt in E2. apply negb_true_iff in E3.
      split; [apply added_refl|]. split; auto. split; auto. now apply (l_ideq b BL).
    - split; [constructor; cbn; rewrite ?app_nil_r; auto; exists [v]; auto|]. cbn. rewrite app_length. cbn. split; [lia|].
      rewrite app_nth2, Nat.sub_diag by lia. rewrite app_nth2 by lia. rewrite W, Nat.sub_diag. auto.
  Qed.

  (** what an instruction stands for: the kind and value of the AD object when the call was recorded *)
  Definition par_ok r (t : kind) (x : AD b) (a : nat) : Prop :=
    a < length (r_par r) /\ if le_con t then nth a (r_isdyn r) false = false /\ nth a (r_par r) bnan = a_val x else nth a (r_isdyn r) false = true /\ a = a_taddr x.
  Definition xins r (t : kind) (x : AD b) (i : ins) : Prop :=
    match t with Kvar => i_op i = FunavOp /\ i_arg i = [a_taddr x] | _ => i_op i = FunapOp /\ exists a, i_arg i = [a] /\ par_ok r t x a end.
  Definition yins r (t : kind) (y : AD b) (i : ins) : Prop :=
    match t with Kvar => i_op i = FunrvOp /\ i_var i = a_taddr y | _ => i_op i = FunrpOp /\ exists a, i_arg i = [a] /\ par_ok r t y a end.
  (** a dynamic parameter has an address *)
  Definition dyn_ok r (t : kind) (x : AD b) : Prop := t = Kdyn -> a_taddr x < length (r_par r) /\ nth (a_taddr x) (r_isdyn r) false = true.
  Lemma par_ok_ext r r' t x a : pext r r' -> wfr r -> par_ok r t x a -> par_ok r' t x a.
  Proof. intros E W (H & K). destruct (pext_nth r r' a E W H) as (E1 & E2 & E3). split; auto. now rewrite E2, E3. Qed.
  Lemma xins_ext r r' t x i : pext r r' -> wfr r -> xins r t x i -> xins r' t x i.
  Proof. intros E W H. destruct t; auto; destruct H as (H1 & a & H2 & H3); split; auto; exists a; split; auto; eapply par_ok_ext; eauto. Qed.
  Lemma yins_ext r r' t x i : pext r r' -> wfr r -> yins r t x i -> yins r' t x i.
  Proof. intros E W H. destruct t; auto; destruct H as (H1 & a & H2 & H3); split; auto; exists a; split; auto; eapply par_ok_ext; eauto. Qed.
  Lemma dyn_ok_ext r r' t x : pext r r' -> wfr r -> dyn_ok r t x -> dyn_ok r' t x.
  Proof. intros E W H K. destruct (H K) as (H1 & H2). destruct (pext_nth r r' _ E W H1) as (E1 & E2 & E3). split; auto. now rewrite E3. Qed.

  (** the parameter of a constant or a dynamic parameter *)
  Lemma par_step r (t : kind) x : wfr r -> dyn_ok r t x -> t <> Kvar ->
    let (r1, a) := if le_con t then put_con_par r (a_val x) else (r, a_taddr x) in added r r1 [] /\ par_ok r1 t x a.
  Proof.
    intros W D NV. destruct (le_con t) eqn:L.
    - pose proof (added_con r (a_val x) W) as A. destruct (put_con_par r (a_val x)) as [r1 a]. destruct A as (A1 & A2 & A3 & A4). split; auto. split; auto. rewrite L. auto.
    - destruct t; try discriminate; [|now destruct NV]. split; [apply added_refl|]. destruct (D eq_refl). split; cbn; auto.
  Qed.
  Lemma put_x1_ok r t x : wfr r -> dyn_ok r t x -> exists i, added r (put_x1 r (t, x)) [i] /\ xins (put_x1 r (t, x)) t x i.
  Proof.
    intros W D. destruct t; cbn [put_x1]; [ | | |exists (mkIns FunavOp [a_taddr x] (r_nvar r + 0 - 1)); split; [now apply added_op|split; auto]].
    all: match goal with |- context [if le_con ?t then _ else _] => pose proof (par_step r t x W D ltac:(discriminate)) as A; destruct (if le_con t then put_con_par r (a_val x) else (r, a_taddr x)) as [r1 a] end;
      destruct A as (A1 & A2); eexists; split; [exact (added_trans _ _ _ _ _ A1 (added_op r1 FunapOp [a] eq_refl))|split; auto; exists a; split; auto].
  Qed.
  Lemma put_xs_ok l : forall r, wfr r -> Forall (fun '(t, x) => dyn_ok r t x) l ->
    let r' := fold_left put_x1 l r in exists li, added r r' li /\ Forall2 (fun '(t, x) i => xins r' t x i) l li.
  Proof.
    induction l as [|[t x] l IH]; intros r W F; cbn [fold_left]; [exists []; split; [apply added_refl|auto]|]. inversion F as [|? ? F1 F2]; subst.
    destruct (put_x1_ok r t x W F1) as (i & A1 & A2). pose proof (pext_wfr _ _ (dd_par _ _ _ A1) W) as W1.
    destruct (IH (put_x1 r (t, x)) W1) as (li & B1 & B2); [eapply Forall_impl; [|exact F2]; intros [t1 x1] H; exact (dyn_ok_ext _ _ _ _ (dd_par _ _ _ A1) W H)|].
    exists (i :: li). split; [apply (added_trans _ _ _ _ _ A1 B1)|]. constructor; auto. eapply xins_ext; eauto. apply B1.
  Qed.
  (** the AD object of a result: a new variable, the others are not changed *)
  Definition yres (tid : nat) (t : kind) (y y' : AD b) (v : nat) : Prop := match t with Kvar => y' = mkAD (a_val y) tid v T_var | _ => y' = y end.
  Lemma put_y1_ok tid r t y : wfr r -> dyn_ok r t y -> let (r', y') := put_y1 tid r t y in exists i, added r r' [i] /\ yins r' t y' i /\ yres tid t y y' (r_nvar r).
  Proof.
    intros W D. destruct t; cbn [put_y1].
    4: { cbn [put_op]. exists (mkIns FunrvOp [] (r_nvar r + num_res FunrvOp - 1)). split; [exact (added_op0 r FunrvOp eq_refl)|]. split; [split; auto|cbn; f_equal; lia]. }
    all: match goal with |- context [if le_con ?t then _ else _] => pose proof (par_step r t y W D ltac:(discriminate)) as A; destruct (if le_con t then put_con_par r (a_val y) else (r, a_taddr y)) as [r1 a] end;
      destruct A as (A1 & A2); eexists; split; [exact (added_trans _ _ _ _ _ A1 (added_op r1 FunrpOp [a] eq_refl))|split; [split; auto; exists a; split; auto|reflexivity]].
  Qed.
  Lemma put_ys_ok tid l : forall r, wfr r -> Forall (fun '(t, y) => dyn_ok r t y) l ->
    let (r', ys) := put_ys tid r l in exists li, added r r' li /\ length ys = length l /\ length li = length l /\
      (forall k, k < length l -> let t := fst (nth k l (Kcon, con_ad bnan)) in
         yins r' t (nth k ys (con_ad bnan)) (nth k li (mkIns EndOp [] 0)) /\
         yres tid t (snd (nth k l (Kcon, con_ad bnan))) (nth k ys (con_ad bnan)) (r_nvar r + tres (firstn k li))).
  Proof.
    induction l as [|[t y] l IH]; intros r W F; cbn [put_ys]; [exists []; repeat split; try apply added_refl; auto; cbn in *; lia|]. inversion F as [|? ? F1 F2]; subst.
    pose proof (put_y1_ok tid r t y W F1) as A. destruct (put_y1 tid r t y) as [r1 y1]. destruct A as (i & A1 & A2 & A3). pose proof (pext_wfr _ _ (dd_par _ _ _ A1) W) as W1.
    specialize (IH r1 W1). assert (Forall (fun '(t, y) => dyn_ok r1 t y) l) as F3 by (eapply Forall_impl; [|exact F2]; intros [t1 x1] H; exact (dyn_ok_ext _ _ _ _ (dd_par _ _ _ A1) W H)).
    specialize (IH F3). destruct (put_ys tid r1 l) as [r2 ys]. destruct IH as (li & B1 & B2 & B3 & B4). exists (i :: li). split; [apply (added_trans _ _ _ _ _ A1 B1)|]. cbn [length]. split; [lia|]. split; [lia|].
    intros [|k] Hk; cbn [nth fst snd firstn tres].
    - split; [eapply yins_ext; eauto; apply B1|]. now rewrite Nat.add_0_r.
    - specialize (B4 k ltac:(lia)). cbv zeta in B4. destruct B4 as (B4 & B5). split; auto. rewrite (dd_nv _ _ _ A1) in B5. cbn [tres] in B5. rewrite Nat.add_0_r in B5. now rewrite Nat.add_assoc.
  Qed.
  Lemma combine_nth' {A B} (l : list A) (l' : list B) k x y : length l = length l' -> nth k (combine l l') (x, y) = (nth k l x, nth k l' y).
  Proof. intros H. now rewrite combine_nth. Qed.
End Rec.
