(** What is recorded as the code of a conditional expression is one of the five codes, and what is recorded as the index of a discrete function is the index
    of a function that the program uses: for variables and dynamic parameters of every recording. *)
From Coq Require Import ZArith List Bool Arith Lia.
From Verif Require Import Base_Spec Op_Model Tape_Spec Tape_Model Tape_Proof Tape_Proof2 Tape_Swf Tape_Proof10 Tape_GenC.
Import ListNotations.

Lemma map_rep {A B} (g : A -> B) x m : map g (repeat x m) = repeat (g x) m.
Proof. induction m; cbn; congruence. Qed.
Lemma concat_rep {A} m : concat (repeat (@nil A) m) = [].
Proof. induction m; cbn; congruence. Qed.
Section Codes.
  Context {b : base}.
  Notation T := (bt b).
  Variables (tid : nat) (D : nat -> Prop).
  Implicit Types (r : rec b).
  Definition vstream r : Prop := exists L, r_op r = map fst L /\ r_arg r = concat (map snd L) /\ Forall (fun u : opvar * list nat => okc D (fst u) (snd u)) L.
  Definition dstream r : Prop := exists L, r_dop r = map fst L /\ r_darg r = concat (map snd L) /\ Forall (fun u : opdyn * list nat => okd D (fst u) (snd u)) L.
  Definition streams r : Prop := vstream r /\ dstream r.
  Lemma decode_stream L : forall nv l, Forall (fun u : opvar * list nat => okc D (fst u) (snd u)) L -> decode (map fst L) (concat (map snd L)) nv = Some l ->
    forall i, In i l -> okc D (i_op i) (i_arg i).
  Proof.
    induction L as [|[o a] L IH]; intros nv l F E i Hi; cbn [map fst snd concat decode] in E; [injection E as <-; destruct Hi|]. inversion F as [|? ? F1 F2]; subst. cbn [fst snd] in F1.
    assert (n_actual o (a ++ concat (map snd L)) = length a) as N.
    { destruct F1 as [F1 _]. destruct o; cbn [n_actual] in *; auto.
      - rewrite !app_nth1 by lia. exact F1.
      - revert F1. destruct (nth_error a 4) as [k|] eqn:A; intros F1; [|lia].
        assert (4 < length a) as L4 by (destruct (Nat.lt_ge_cases 4 (length a)) as [|Z]; [assumption|apply (proj2 (nth_error_None a 4)) in Z; congruence]). rewrite (nth_error_app1 a _ L4), A. exact F1. }
    rewrite N in E. destruct (Nat.ltb_spec (length (a ++ concat (map snd L))) (length a)); [discriminate|].
    rewrite skipn_app, Nat.sub_diag, skipn_all in E. cbn [skipn app] in E. destruct (decode _ _ _) as [l'|] eqn:E'; [|discriminate]. injection E as <-.
    destruct Hi as [<-|Hi]; [|eapply IH; eauto]. cbn [i_op i_arg]. rewrite firstn_app, Nat.sub_diag, firstn_all. cbn. now rewrite app_nil_r.
  Qed.
  Lemma dents_stream L : forall idx, Forall (fun u : opdyn * list nat => okd D (fst u) (snd u)) L -> forall k o a, In (k, o, a) (dents (map fst L) idx (concat (map snd L))) -> okd D o a.
  Proof.
    induction L as [|[o a] L IH]; intros idx F k o' a' H; [destruct idx; destruct H|]. inversion F as [|? ? F1 F2]; subst. cbn [fst snd] in F1.
    destruct idx as [|j idx]; [destruct H|]. cbn [map concat dents fst snd] in H. destruct F1 as (F0 & F1). rewrite <- F0 in H.
    rewrite skipn_app, Nat.sub_diag, skipn_all, firstn_app, Nat.sub_diag, firstn_all in H. cbn [skipn firstn app] in H. rewrite app_nil_r in H.
    destruct H as [H|H]; [injection H as -> -> ->; now split|]. eapply IH; eauto.
  Qed.
  Lemma vstream_add r r' o a : r_op r' = r_op r ++ [o] -> r_arg r' = r_arg r ++ a -> okc D o a -> vstream r -> vstream r'.
  Proof.
    intros E1 E2 K (L & A & B & F). exists (L ++ [(o, a)]). rewrite E1, E2, A, B, !map_app, concat_app. cbn. rewrite app_nil_r. do 2 (split; auto).
    apply Forall_app. split; auto.
  Qed.
  Lemma streams_exec p (s : state b) r dep : dis_in D p -> streams (st_rec s) -> exec tid p s = Some (r, dep) -> streams r.
  Proof.
    intros DI W H. assert (exists r1, streams r1 /\ r = fst (put_op r1 EndOp)) as (r1 & [Q1 Q2] & ->).
    { revert DI W H. apply (Q_exec D tid streams).
      - intros r0 a o [Q1 Q2] _ _ K. split; [|exact Q2]. eapply (vstream_add r0); eauto; reflexivity.
      - intros r0 a o [Q1 Q2] _ _ K. split; [|exact Q2]. eapply (vstream_add r0); eauto; reflexivity.
      - intros r0 i Q. exact Q.
      - intros r0 v Q. unfold put_con_par. destruct (_ && _); exact Q.
      - intros r0 v o a [Q1 (L & A & B & F)] K _. split; [exact Q1|]. exists (L ++ [(o, a)]). cbn [put_dyn_par fst r_dop r_darg]. rewrite A, B, !map_app, concat_app. cbn. rewrite app_nil_r.
        do 2 (split; auto). apply Forall_app. split; auto. }
    split; [|exact Q2]. apply (vstream_add r1 _ EndOp []); [reflexivity|cbn; now rewrite app_nil_r| |exact Q1]. split; [reflexivity|split; discriminate].
  Qed.
  Lemma streams_init cmp n np (e : nat -> AD b) ev : streams (st_rec (independent tid cmp n np e ev)).
  Proof.
    destruct (independent_spec tid cmp n np e ev) as ((hh & A) & _). rewrite A. split.
    - exists ((BeginOp, [0]) :: repeat (InvOp, []) n). cbn [r_op r_arg map fst snd concat]. rewrite !map_rep. cbn [fst snd]. split; [reflexivity|]. split.
      + cbn. now rewrite concat_rep.
      + constructor; [split; [reflexivity|split; discriminate]|]. apply Forall_forall. intros u Hu. apply repeat_spec in Hu. subst u. split; [reflexivity|split; discriminate].
    - exists (repeat (ind_dyn, []) np). cbn [r_dop r_darg]. rewrite !map_rep. cbn [fst snd]. split; [reflexivity|]. split.
      + now rewrite concat_rep.
      + apply Forall_forall. intros u Hu. apply repeat_spec in Hu. subst u. split; [reflexivity|split; discriminate].
  Qed.
  Theorem recorded_codes cmp n np (e : nat -> AD b) ev (p : prog T) V l2v f : dis_in D p -> record_fun tid cmp n np e ev p V l2v = Some f ->
    (forall l i, decode (r_op (g_rec f)) (r_arg (g_rec f)) 0 = Some l -> In i l -> (i_op i = CExpOp -> nth 0 (i_arg i) 0 < 5) /\ (i_op i = DisOp -> D (nth 0 (i_arg i) 0))) /\
    (forall d, In d (dentries (g_rec f)) -> (snd (fst d) = cond_exp_dyn -> nth 0 (snd d) 0 < 5) /\ (snd (fst d) = dis_dyn -> D (nth 0 (snd d) 0))).
  Proof.
    intros DI RF. destruct (rec_exec tid cmp n np e ev p V l2v f RF) as (EX & _).
    destruct (streams_exec p _ _ _ DI (streams_init cmp n np e ev) EX) as [(L & A & B & F) (L' & A' & B' & F')]. split.
    - intros l i E Hi. rewrite A, B in E. now destruct (decode_stream L 0 l F E i Hi).
    - intros [[k o] a] Hd. unfold dentries in Hd. rewrite A', B' in Hd. now destruct (dents_stream L' _ F' k o a Hd).
  Qed.
End Codes.
(** every program, without a condition on the discrete functions *)
Lemma dis_any {b : base} (p : prog (bt b)) : dis_in (fun _ => True) p.
Proof. induction p; cbn; auto. split; auto. now destruct i. Qed.
