(** C25: when to_graph and from_graph succeed. *)
From Coq Require Import String List Bool Arith Lia.
From Verif Require Import Base_Spec Op_Model Tape_Spec Tape_Model Tape_Proof Tape_Proof2 Tape_Swf Sweep_Uniq Abs_Proof Abs_Proof3 Abs_Prop Opt_Model Opt_Proof Opt_Proof2 Opt_Proof3 Opt_Proof4 Opt_Proof5
  Graph_Spec Graph_Model Graph_Proof1 Graph_Proof2 Graph_Proof3 Graph_Proof4 Graph_Proof5.
Import ListNotations.

(** what is asked of the operators of a graph with [nn] nodes before them: the number of arguments, arguments that are earlier nodes, registered names;
    comparisons are left out (see the refutation for constants in Graph_Prop) *)
Definition arity_ok (o : gop) (k : nat) : bool :=
  match o with Gun _ | Gdis _ => k =? 1 | Gbin _ | Gcomp _ => k =? 2 | Gcexp _ => k =? 4 | Gsum => true end.
Definition use_ok (reg : list string) (nn : nat) (u : gusage) : Prop :=
  arity_ok (gu_op u) (length (gu_arg u)) = true /\ (forall k, In k (gu_arg u) -> k < nn) /\
  match gu_op u with Gcomp _ => False | Gun Ufabs => False | Gdis s => In s reg | _ => True end.
Fixpoint uses_ok (reg : list string) (nn : nat) (us : list gusage) : Prop :=
  match us with [] => True | u :: us' => use_ok reg nn u /\ uses_ok reg (S nn) us' end.

Section Total.
  Context {b : base}.
  Notation T := (bt b).
  Variable reg : list string.
  Hypothesis ND : NoDup reg.

  Lemma filter_none {A} (f : A -> bool) l : (forall x, In x l -> f x = false) -> filter f l = [].
  Proof. induction l as [|x l IH]; cbn; auto. intros H. rewrite H by auto. auto. Qed.
  Lemma discrete_some s : In s reg -> exists k, discrete_index reg s = Some k.
  Proof.
    intros H. apply In_nth_error in H as (k & Hk). assert (k < length reg) as L by (apply nth_error_Some; congruence). exists k. unfold discrete_index.
    assert (seq 0 (length reg) = seq 0 k ++ k :: seq (S k) (length reg - S k)) as ->.
    { replace (length reg) with (k + S (length reg - S k)) at 1 by lia. rewrite seq_app. reflexivity. }
    assert (nth k reg EmptyString = s) as E by now apply nth_error_nth.
    rewrite filter_app. cbn [filter]. rewrite E, String.eqb_refl.
    assert (forall j, j < length reg -> j <> k -> String.eqb (nth j reg EmptyString) s = false) as NE.
    { intros j Hj Nj. apply String.eqb_neq. intros Q. rewrite <- E in Q. apply (proj1 (NoDup_nth reg EmptyString) ND) in Q; auto. }
    rewrite !filter_none; auto; intros j Hj; apply in_seq in Hj; apply NE; lia.
  Qed.
  Lemma fg_op_some (r : rec b) o ty a : length ty = length a -> arity_ok o (length a) = true -> match o with Gcomp _ => False | Gun Ufabs => False | Gdis s => In s reg | _ => True end ->
    exists r' i, fg_op reg r o ty a = Some (r', i).
  Proof.
    intros L A H. assert (forall z : rec b * nat, exists r' i, Some z = Some (r', i)) as K by (intros [? ?]; eauto).
    destruct o as [u|o|c|c| |s]; cbn [arity_ok] in A; try apply Nat.eqb_eq in A.
    - destruct a as [|? [|? ?]]; try discriminate A. cbn [fg_op]. destruct (nth 0 ty Ncon).
      + destruct u; try destruct H; cbn [un_dyn]; apply K.
      + destruct u; try destruct H; cbn [un_dyn]; apply K.
      + destruct u; try destruct H; cbn [un_var]; try apply K; cbn [put_op];
          match goal with |- context [put_con_par ?r1 b0] => destruct (put_con_par r1 b0) as [r2 p0] end; match goal with |- context [put_con_par ?r1 ?e] => destruct (put_con_par r1 e) as [r3 p1] end; apply K.
    - destruct a as [|? [|? [|? ?]]]; try discriminate A. cbn [fg_op]. destruct (nth 0 ty Ncon), (nth 1 ty Ncon); try apply K; destruct (bin_vp _ _ _); apply K.
    - destruct a as [|? [|? [|? [|? [|? ?]]]]]; try discriminate A. cbn [fg_op]. destruct (existsb is_va ty); [apply K|]. destruct (existsb is_dy ty); apply K.
    - destruct H.
    - cbn [fg_op]. match goal with |- context [put_con_par ?r1 ?e] => destruct (put_con_par r1 e) as [r3 p1] end. destruct (existsb is_va ty); apply K.
    - destruct a as [|? [|? ?]]; try discriminate A. cbn [fg_op]. destruct (discrete_some s H) as (k & ->). destruct (nth 0 ty Ncon); apply K.
  Qed.
  Lemma fg_ops_some us : forall (r : rec b) ty nf, uses_ok reg (length ty) us -> exists r' ty' nf', fg_ops reg us (r, ty, nf) = Some (r', ty', nf') /\ length ty' = length ty + length us.
  Proof.
    induction us as [|u us IH]; intros r ty nf H; cbn [fg_ops]; [exists r, ty, nf; cbn; auto|]. destruct H as [(A & B & C) H]. unfold fg_use.
    replace (forallb _ (gu_arg u)) with true by (symmetry; apply forallb_forall; intros k Hk; apply Nat.ltb_lt; auto).
    destruct (fg_op_some r (gu_op u) (map (fun k => nth k ty Ncon) (gu_arg u)) (map (fun k => nth k nf 0) (gu_arg u))) as (r1 & i & E); auto; [now rewrite !map_length|now rewrite map_length|].
    rewrite E. destruct (gu_op u) eqn:Z; try (now destruct C); (edestruct IH as (r' & ty' & nf' & E1 & E2); [|exists r', ty', nf'; split; [exact E1|rewrite E2, app_length; cbn; lia]]; rewrite app_length; cbn [length]; rewrite Nat.add_1_r; exact H).
  Qed.
  Theorem from_graph_some (V : nat -> T) l2v (g : graph b) dyn2var var2dyn : length dyn2var = gr_ndyn g -> length var2dyn = gr_nvar g ->
    let nn := 1 + gr_ndyn g + gr_nvar g + length (gr_con g) in uses_ok reg nn (gr_ops g) -> (forall k, In k (gr_dep g) -> k < nn + length (gr_ops g)) ->
    exists f, from_graph reg V l2v g dyn2var var2dyn = Some f.
  Proof.
    intros L1 L2 nn U D. unfold from_graph. rewrite L1, L2, !Nat.eqb_refl. cbn [andb]. cbv zeta. destruct (put_con_par (rec0 false) bnan) as [r0 z]. set (r1 := put_arg _ [0]).
    assert (forall ks (r : rec b) ty nf, exists r' ty' nf', fold_left fg_ind1 ks (r, ty, nf) = (r', ty', nf') /\ length ty' = length ty + length ks) as IND.
    { clear. induction ks as [|k ks IH]; intros r ty nf; cbn [fold_left]; [exists r, ty, nf; cbn; auto|]. cbn [fg_ind1]. destruct k; cbn [put_op put_dyn_par];
        match goal with |- context [fold_left _ ks ?s] => destruct s as [[r1 ty1] nf1] eqn:E end; injection E as <- <- <-; edestruct IH as (r' & ty' & nf' & E1 & E2); rewrite E1; exists r', ty', nf'; split; auto; rewrite E2, app_length; cbn; lia. }
    assert (forall cs (r : rec b) ty nf, exists r' ty' nf', fold_left fg_con1 cs (r, ty, nf) = (r', ty', nf') /\ length ty' = length ty + length cs) as CON.
    { clear. induction cs as [|k ks IH]; intros r ty nf; cbn [fold_left]; [exists r, ty, nf; cbn; auto|]. cbn [fg_con1]. destruct (put_con_par r k) as [r1 i].
      edestruct IH as (r' & ty' & nf' & E1 & E2); rewrite E1; exists r', ty', nf'; split; auto; rewrite E2, app_length; cbn; lia. }
    destruct (IND (dyn2var ++ map negb var2dyn) r1 [Ncon] [0]) as (r2 & ty2 & nf2 & -> & E2). destruct (CON (gr_con g) r2 ty2 nf2) as (r3 & ty3 & nf3 & -> & E3).
    assert (length ty3 = nn) as LT by (rewrite E3, E2, app_length, map_length; cbn; lia).
    destruct (fg_ops_some (gr_ops g) r3 ty3 nf3) as (r4 & ty4 & nf4 & -> & E4); [now rewrite LT|].
    replace (forallb _ (gr_dep g)) with true by (symmetry; apply forallb_forall; intros k Hk; apply Nat.ltb_lt; rewrite E4, LT; auto).
    destruct (fold_left (fg_dep1 ty4 nf4) (gr_dep g) (r4, [])) as [r5 dep]. eauto.
  Qed.

  (** ** to_graph *)
  (** the code of the comparison of a conditional expression and the index of a discrete function *)
  Definition ins_ok (i : ins) : Prop := (i_op i = CExpOp -> nth 0 (i_arg i) 0 < 5) /\ (i_op i = DisOp -> nth 0 (i_arg i) 0 < length reg).
  Definition dent_ok (e : dent) : Prop := (snd (fst e) = cond_exp_dyn -> nth 0 (snd e) 0 < 5) /\ (snd (fst e) = dis_dyn -> nth 0 (snd e) 0 < length reg).
  Lemma cexp_some c i j k l : c < 5 -> exists u, cexp_use c i j k l = Some u.
  Proof. intros H. unfold cexp_use. do 5 (destruct c as [|c]; [cbn; eauto|]). lia. Qed.
  Lemma dis_some k i : k < length reg -> exists u, dis_use reg k i = Some u.
  Proof. intros H. unfold dis_use. rewrite (nth_error_nth' _ EmptyString H). eauto. Qed.
  Lemma tg_dyn_some D : forall prev p2n, Forall (fun e : dent => snd (fst e) <> ind_dyn /\ dent_ok e) D -> exists us prev' p2n', tg_dyn reg D prev p2n = Some (us, prev', p2n').
  Proof.
    induction D as [|[[k o] a] D IH]; intros prev p2n H; cbn [tg_dyn]; [eauto|]. inversion H as [|? ? (N & C1 & C2) H']; subst. cbn [fst snd] in *.
    assert (exists u, tg_dyn1 reg p2n o a = Some u) as (u & ->).
    { destruct o; cbn [tg_dyn1 dyn_gop]; eauto; try (now destruct N); [apply cexp_some; auto|apply dis_some; auto]. }
    destruct (IH (S prev) (fset p2n k (S prev)) H') as (us & prev' & p2n' & ->). eauto.
  Qed.
  Lemma tg_ops_some p2n l : forall prev v2n, (forall i, In i l -> supp (i_op i) = true /\ i_op i <> BeginOp /\ ins_ok i) -> (exists i, In i l /\ i_op i = EndOp) -> exists us w, tg_ops reg p2n l prev v2n = Some (us, w).
  Proof.
    induction l as [|[o a iv] l IH]; intros prev v2n H (i & Hi & E); [destruct Hi|]. destruct (H _ (or_introl eq_refl)) as (S & NB & C1 & C2). cbn [i_op i_arg] in *.
    assert (o = EndOp \/ o <> EndOp) as [->|NE] by (destruct (opvar_eq_dec o EndOp); auto); [cbn; eauto|].
    assert (forall prev v2n, exists us w, tg_ops reg p2n l prev v2n = Some (us, w)) as NX.
    { intros. apply IH; [intros; apply H; now right|]. exists i. split; auto. destruct Hi as [<-|Hi]; auto. now destruct NE. }
    assert (forall u k z, exists us w, match tg_ops reg p2n l k z with Some (us, w) => Some (u :: us, w) | None => None end = Some (us, w)) as ONE by (intros u k z; destruct (NX k z) as (us & w & ->); eauto).
    cbn [tg_ops]. cbv zeta. destruct (fix_gop o) as [[u iv']|] eqn:F; [apply ONE|]. destruct (comp_gop o) as [[c iv']|] eqn:C; [apply ONE|].
    destruct o; try discriminate S; try discriminate F; try discriminate C; try (now destruct NE); try (now destruct NB); try apply NX.
    - edestruct cexp_some as (u & ->); [now apply C1|]. apply ONE.
    - edestruct dis_some as (u & ->); [now apply C2|]. apply ONE.
  Qed.
  Theorem to_graph_some (f : adfun b) n nd D2 ind rest l0 x : opt_ok f n nd D2 ind rest -> rest = l0 ++ [mkIns EndOp [] x] ->
    (forall i, In i rest -> ins_ok i) -> (forall e, In e (dentries (g_rec f)) -> dent_ok e) -> exists g, to_graph reg nd f = Some g.
  Proof.
    intros O ER H1 H2. unfold to_graph. rewrite (oo_dec _ _ _ _ _ _ O). destruct (tg_con _ _ _ _ _) as [[con prev1] p2n1]. destruct (oo_ind _ _ _ _ _ _ O) as [I1 I2 _].
    assert (skipn nd (dentries (g_rec f)) = D2) as ->.
    { rewrite I1. rewrite skipn_app, map_length, seq_length, Nat.sub_diag, skipn_all2; [reflexivity|rewrite map_length, seq_length; lia]. }
    destruct (tg_dyn_some D2 prev1 p2n1) as (us1 & prev2 & p2n & ->).
    { apply Forall_forall. intros e He. rewrite Forall_forall in I2. split; [now apply (I2 e)|]. apply H2. rewrite I1. apply in_or_app; auto. }
    unfold head_ins. cbn [app tl]. rewrite tg_inv. edestruct (tg_ops_some p2n rest) as (us2 & w & ->); [| |eauto].
    - intros i Hi. destruct (oo_sup _ _ _ _ _ _ O i Hi) as [S1 S2]. split; auto. split; auto. intros Z. rewrite Z in S2. discriminate.
    - exists (mkIns EndOp [] x). split; auto. rewrite ER. apply in_or_app. right. now left.
  Qed.
End Total.
