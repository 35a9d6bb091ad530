(** C25: to_graph gives no sum operators for a function that has no cumulative sums; from_graph without dynamic parameters. *)
From Coq Require Import String List Bool Arith Lia.
From Verif Require Import Base_Spec Op_Model Tape_Spec Tape_Model Tape_Proof Tape_Proof2 Tape_Swf Sweep_Uniq Abs_Proof Abs_Proof3 Abs_Prop Opt_Model Opt_Proof Opt_Proof2 Opt_Proof3 Opt_Proof4 Opt_Proof5
  Graph_Spec Graph_Model Graph_Proof1 Graph_Proof2 Graph_Proof3 Graph_Proof4 Graph_Proof5.
Import ListNotations.

Section Graph.
  Context {b : base}.
  Notation T := (bt b).
  Variable reg : list string.

  Lemma cexp_nosum c i j k l u : cexp_use c i j k l = Some u -> nosum u = true.
  Proof. unfold cexp_use. destruct (cexp_gop c) as [[? ?]|]; [|discriminate]. now intros [= <-]. Qed.
  Lemma dis_nosum k i u : dis_use reg k i = Some u -> nosum u = true.
  Proof. unfold dis_use. destruct (nth_error reg k); [|discriminate]. now intros [= <-]. Qed.
  Lemma dyn_nosum p2n o a u : tg_dyn1 reg p2n o a = Some u -> nosum u = true.
  Proof. destruct o; cbn [tg_dyn1 dyn_gop]; try (now intros [= <-]); try discriminate; [apply cexp_nosum|apply dis_nosum]. Qed.
  Lemma tg_dyn_nosum ds : forall prev p2n us prev' p2n', tg_dyn reg ds prev p2n = Some (us, prev', p2n') -> forallb nosum us = true.
  Proof.
    induction ds as [|[[k o] a] ds IH]; intros prev p2n us prev' p2n' H; cbn [tg_dyn] in H; [now injection H as <- _ _|].
    destruct (tg_dyn1 reg p2n o a) eqn:E; [|discriminate]. destruct (tg_dyn reg ds _ _) as [[[us1 ?] ?]|] eqn:E1; [|discriminate]. injection H as <- _ _.
    cbn. now rewrite (dyn_nosum _ _ _ _ E), (IH _ _ _ _ _ E1).
  Qed.
  Lemma fix_nosum o u iv a : fix_gop o = Some (u, iv) -> nosum (mkUse u a) = true.
  Proof. destruct o; cbn; now intros [= <- _]. Qed.
  Lemma tg_ops_nosum p2n l : forall prev v2n us w, (forall i, In i l -> i_op i <> CSumOp) -> tg_ops reg p2n l prev v2n = Some (us, w) -> forallb nosum us = true.
  Proof.
    induction l as [|[o a iv] l IH]; intros prev v2n us w HS H; cbn [tg_ops] in H; [discriminate|]. cbv zeta in H.
    assert (forall i, In i l -> i_op i <> CSumOp) as HS' by (intros; apply HS; now right). pose proof (HS _ (or_introl eq_refl)) as HO. cbn in HO. clear HS.
    assert (forall u k z, nosum u = true -> match tg_ops reg p2n l k z with Some (us1, w1) => Some (u :: us1, w1) | None => None end = Some (us, w) -> forallb nosum us = true) as ONE.
    { intros u k z N E. destruct (tg_ops reg p2n l k z) as [[us1 w1]|] eqn:E1; [|discriminate]. injection E as <- _. cbn. now rewrite N, (IH _ _ _ _ HS' E1). }
    destruct (fix_gop o) as [[u iv']|] eqn:F; [eapply ONE; [|exact H]; eapply fix_nosum; eauto|].
    destruct (comp_gop o) as [[c iv']|] eqn:C; [eapply ONE; [|exact H]; reflexivity|].
    destruct o; try discriminate H; try (now apply (IH _ _ _ _ HS') in H).
    - destruct (cexp_use _ _ _ _ _) eqn:E; [|discriminate]. eapply ONE; [|exact H]. eapply cexp_nosum; eauto.
    - now destruct HO.
    - destruct (dis_use reg _ _) eqn:E; [|discriminate]. eapply ONE; [|exact H]. eapply dis_nosum; eauto.
    - now injection H as <- _.
  Qed.
  Lemma to_graph_nosum (f : adfun b) n nd D2 ind rest g : opt_ok f n nd D2 ind rest -> to_graph reg nd f = Some g -> forallb nosum (gr_ops g) = true.
  Proof.
    intros O H. unfold to_graph in H. rewrite (oo_dec _ _ _ _ _ _ O) in H. destruct (tg_con _ _ _ _ _) as [[? ?] ?]. destruct (tg_dyn reg _ _ _) as [[[us1 ?] ?]|] eqn:E1; [|discriminate].
    destruct (tg_ops reg _ _ _ _) as [[us2 ?]|] eqn:E2; [|discriminate]. injection H as <-. cbn [gr_ops]. rewrite forallb_app. rewrite (tg_dyn_nosum _ _ _ _ _ _ E1). cbn.
    eapply tg_ops_nosum; [|exact E2]. intros i Hi. assert (In i (head_ins n ++ rest)) as Hi' by (unfold head_ins in *; cbn [app tl] in *; now right).
    apply in_app_or in Hi' as [Hi'|Hi'].
    - unfold head_ins in Hi'. destruct Hi' as [<-|Hi']; [discriminate|]. apply in_map_iff in Hi' as (j & <- & _). discriminate.
    - apply (oo_sup _ _ _ _ _ _ O) in Hi' as [S _]. intros Z. rewrite Z in S. discriminate.
  Qed.

  (** ** from_graph without dynamic parameters *)
  Definition nody (ty : list nty) : bool := forallb (fun t => negb (is_dy t)) ty.
  Lemma con_dop (r : rec b) v : r_dop (fst (put_con_par r v)) = r_dop r.
  Proof. unfold put_con_par. destruct (_ && _); reflexivity. Qed.
  Lemma nody_nth ty k : nody ty = true -> is_dy (nth k ty Ncon) = false.
  Proof. intros H. destruct (Nat.lt_ge_cases k (length ty)) as [L|L]; [|now rewrite nth_overflow]. unfold nody in H. rewrite forallb_forall in H. apply negb_true_iff, H, nth_In, L. Qed.
  Lemma nody_exists ty : nody ty = true -> existsb is_dy ty = false.
  Proof. induction ty as [|t ty IH]; cbn; auto. intros H. apply andb_true_iff in H as [A B]. apply negb_true_iff in A. rewrite A. auto. Qed.
  Lemma fg_op_nody (r : rec b) o ty a r' i : nody ty = true -> fg_op reg r o ty a = Some (r', i) -> r_dop r' = r_dop r.
  Proof.
    intros N H. pose proof (nody_nth ty 0 N) as N0. pose proof (nody_nth ty 1 N) as N1. pose proof (nody_exists ty N) as NE.
    assert (forall v, Some (put_con_par r v) = Some (r', i) -> r_dop r' = r_dop r) as CON by (intros v E; apply some_inj in E; now rewrite <- (con_dop r v), E).
    assert (forall w o', Some (put_op (put_arg r w) o') = Some (r', i) -> r_dop r' = r_dop r) as OP by (intros w o' E; now injection E as <- _).
    destruct o as [u|o|c|c| |s].
    - destruct a as [|? [|? ?]]; try discriminate H. cbn [fg_op] in H. destruct (nth 0 ty Ncon); try discriminate N0.
      + destruct (un_dyn u); [eauto|discriminate].
      + destruct (un_var u) as [o'|]; [|discriminate]. destruct o'; eauto.
        1,2: cbn [put_op] in H; match type of H with context [put_con_par ?r1 _] => pose proof (con_dop r1 b0) as K1; destruct (put_con_par r1 b0) as [r2 p0] end;
          match type of H with context [put_con_par ?r1 ?e] => pose proof (con_dop r1 e) as K2; destruct (put_con_par r1 e) as [r3 p1] end; injection H as <- _; cbn in *; congruence.
    - destruct a as [|? [|? [|? ?]]]; try discriminate H. cbn [fg_op] in H. destruct (nth 0 ty Ncon); try discriminate N0; destruct (nth 1 ty Ncon); try discriminate N1; eauto; destruct (bin_vp _ _ _); eauto.
    - destruct a as [|? [|? [|? [|? [|? ?]]]]]; try discriminate H. cbn [fg_op] in H. rewrite NE in H. destruct (existsb is_va ty); eauto.
    - destruct a as [|? [|? [|? ?]]]; try discriminate H. cbn [fg_op] in H. destruct (_ || _); [discriminate|]. destruct (comp_rec _ _ _ _ _). eauto.
    - cbn [fg_op] in H. assert (filter (fun '(ty0, _) => is_dy ty0) (combine ty a) = []) as FE.
      { clear -N. revert a. induction ty as [|t ty IH]; intros [|y a]; cbn; auto. cbn in N. apply andb_true_iff in N as [A B]. apply negb_true_iff in A. rewrite A. auto. }
      rewrite FE in H. cbn [map fold_left] in H. match type of H with context [put_con_par r ?v] => pose proof (con_dop r v) as K; destruct (put_con_par r v) as [r1 j] end. cbn [fst] in K.
      destruct (existsb is_va ty); injection H as <- _; auto.
    - destruct a as [|? [|? ?]]; try discriminate H. cbn [fg_op] in H. destruct (discrete_index reg s); [|discriminate]. destruct (nth 0 ty Ncon); try discriminate N0; eauto.
  Qed.
  Lemma nody_map ty l : nody ty = true -> nody (map (fun k => nth k ty Ncon) l) = true.
  Proof. intros H. unfold nody. apply forallb_forall. intros t Ht. apply in_map_iff in Ht as (k & <- & _). now rewrite nody_nth. Qed.
  Lemma res_nody ty : nody ty = true -> is_dy (res_type ty) = false.
  Proof. intros H. unfold res_type. rewrite nody_exists by auto. destruct (existsb is_va ty); auto. Qed.
  Lemma nody_add ty t : nody ty = true -> is_dy t = false -> nody (ty ++ [t]) = true.
  Proof. intros A B. unfold nody in *. rewrite forallb_app, A. cbn. now rewrite B. Qed.
  Lemma fg_ops_nody us : forall (r : rec b) ty nf r' ty' nf', nody ty = true -> fg_ops reg us (r, ty, nf) = Some (r', ty', nf') -> nody ty' = true /\ r_dop r' = r_dop r.
  Proof.
    induction us as [|u us IH]; intros r ty nf r' ty' nf' N H; cbn [fg_ops] in H; [injection H as <- <- <-; auto|].
    unfold fg_use in H. destruct (forallb _ _); [|discriminate]. destruct (fg_op _ _ _ _ _) as [[r1 i]|] eqn:E; [|discriminate]. pose proof (fg_op_nody _ _ _ _ _ _ (nody_map _ _ N) E) as K.
    assert (nody (ty ++ [res_type (map (fun k => nth k ty Ncon) (gu_arg u))]) = true) as N' by (apply nody_add; auto; apply res_nody; now apply nody_map).
    destruct (gu_op u); apply IH in H as [A B]; auto; split; auto; congruence.
  Qed.
  Theorem from_graph_nody (V : nat -> T) l2v (g : graph b) dyn2var var2dyn f : from_graph reg V l2v g dyn2var var2dyn = Some f -> forallb (fun k => k) (dyn2var ++ map negb var2dyn) = true -> r_dop (g_rec f) = [].
  Proof.
    intros H A. unfold from_graph in H. destruct (_ && _); [|discriminate]. cbv zeta in H. set (kinds := dyn2var ++ map negb var2dyn) in *.
    pose proof (con_dop (rec0 false) (@bnan b)) as K0. destruct (put_con_par (rec0 false) (@bnan b)) as [r0 z]. cbn [fst] in K0. set (r1 := put_arg _ [0]) in *. assert (r_dop r1 = []) as D1 by exact K0. clearbody r1.
    assert (forall ks r ty nf, forallb (fun k => k) ks = true -> nody ty = true -> r_dop r = [] -> exists r' ty' nf', fold_left (@fg_ind1 b) ks (r, ty, nf) = (r', ty', nf') /\ nody ty' = true /\ r_dop r' = []) as IND.
    { clear. induction ks as [|k ks IH]; intros r ty nf F N D; cbn [fold_left]; [eauto 10|]. cbn in F. apply andb_true_iff in F as [-> F]. cbn [fg_ind1 put_op]. apply IH; auto. now apply nody_add. }
    destruct (IND kinds r1 [Ncon] [0] A eq_refl D1) as (r2 & ty2 & nf2 & E2 & N2 & D2). rewrite E2 in H.
    assert (forall cs r ty nf, nody ty = true -> r_dop r = [] -> exists r' ty' nf', fold_left (@fg_con1 b) cs (r, ty, nf) = (r', ty', nf') /\ nody ty' = true /\ r_dop r' = []) as CON.
    { clear. induction cs as [|c cs IH]; intros r ty nf N D; cbn [fold_left]; [eauto 10|]. cbn [fg_con1]. pose proof (con_dop r c) as K. destruct (put_con_par r c) as [r' i]. cbn [fst] in K. apply IH; [now apply nody_add|congruence]. }
    destruct (CON (gr_con g) r2 ty2 nf2 N2 D2) as (r3 & ty3 & nf3 & E3 & N3 & D3). rewrite E3 in H.
    destruct (fg_ops reg (gr_ops g) (r3, ty3, nf3)) as [[[r ty] nf]|] eqn:E4; [|discriminate]. apply fg_ops_nody in E4 as [_ D4]; auto. destruct (forallb _ (gr_dep g)); [|discriminate].
    assert (forall ks r dep, r_dop r = [] -> r_dop (fst (fold_left (@fg_dep1 b ty nf) ks (r, dep))) = []) as DEP.
    { clear. induction ks as [|k ks IH]; intros r dep D; cbn [fold_left]; auto. cbn [fg_dep1]. destruct (nth k ty Ncon); cbn [put_op]; apply IH; auto. }
    specialize (DEP (gr_dep g) r [] ltac:(congruence)). destruct (fold_left (fg_dep1 ty nf) (gr_dep g) (r, [])) as [r' dep]. injection H as <-. exact DEP.
  Qed.
  Lemma nody_pok (f : adfun b) : parok (g_rec f) (g_par f) -> r_dop (g_rec f) = [] -> Pok [] (g_par f) (g_rec f).
  Proof. intros [A _] D. split; [exact A|]. intros k i o a H. unfold dentries in H. rewrite D in H. destruct k; discriminate. Qed.
End Graph.
