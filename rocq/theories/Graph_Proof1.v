(** C25, to_graph: the graph has the values of the function. *)
From Coq Require Import String List Bool Arith Lia.
From Verif Require Import Base_Spec Op_Model Tape_Spec Tape_Model Tape_Proof Tape_Proof2 Tape_Swf Abs_Proof Abs_Proof3 Opt_Model Opt_Proof Opt_Proof2 Opt_Proof3 Opt_Proof4 Opt_Proof5 Graph_Spec Graph_Model.
Import ListNotations.

Section ToGraph.
  Context {b : base} (BL : base_laws b).
  Notation T := (bt b).
  Variable reg : list string.
  Hypothesis ND : NoDup reg.

  Lemma nodes_app us us' : forall vals : list T, nodes reg (us ++ us') vals = nodes reg us' (nodes reg us vals).
  Proof. induction us as [|u us IH]; intros vals; cbn; auto. Qed.
  Lemma nodes_pre us : forall vals : list T, exists w, nodes reg us vals = vals ++ w.
  Proof.
    induction us as [|u us IH]; intros vals; cbn; [exists []; now rewrite app_nil_r|]. destruct (IH (vals ++ use_value reg vals u)) as (w & ->). exists (use_value reg vals u ++ w). now rewrite app_assoc.
  Qed.

  (** [m] sends the numbers in [S] to nodes with the values [X] *)
  Definition good (S : nat -> Prop) (m : nat -> nat) (vals : list T) (X : nat -> T) : Prop := forall k, S k -> m k < length vals /\ nth (m k) vals bnan = X k.
  Lemma good_app S m vals w X : good S m vals X -> good S m (vals ++ w) X.
  Proof. intros G k Hk. destruct (G k Hk) as [A B]. rewrite app_length. split; [lia|]. now rewrite app_nth1. Qed.
  Lemma good_sub (S S' : nat -> Prop) m vals X : (forall k, S' k -> S k) -> good S m vals X -> good S' m vals X.
  Proof. intros H G k Hk. auto. Qed.
  Lemma good_new S m vals X k v : good S m vals X -> v = X k -> good (fun i => S i \/ i = k) (fset m k (length vals)) (vals ++ [v]) X.
  Proof.
    intros G E i Hi. rewrite app_length. cbn [length]. destruct (Nat.eq_dec i k) as [->|N].
    - rewrite fset_eq. split; [lia|]. now rewrite app_nth2, Nat.sub_diag by lia.
    - rewrite fset_ne by auto. destruct Hi as [Hi|Hi]; [|easy]. destruct (G i Hi) as [A B]. split; [lia|]. now rewrite app_nth1.
  Qed.

  (** ** discrete functions and conditional expressions *)
  Lemma name_of k s : nth_error reg k = Some s -> name_index reg s = Some k.
  Proof.
    intros H. unfold name_index. assert (k < length reg) as L by (apply nth_error_Some; congruence).
    assert (nth k reg EmptyString = s) as E by (now apply nth_error_nth).
    destruct (find _ _) as [j|] eqn:F.
    - apply find_some in F as [Hj F]. apply in_seq in Hj. apply String.eqb_eq in F. f_equal. rewrite <- E in F. apply (proj1 (NoDup_nth reg EmptyString) ND); auto; lia.
    - exfalso. pose proof (find_none _ _ F k ltac:(apply in_seq; lia)) as Q. cbn in Q. rewrite E, String.eqb_refl in Q. discriminate.
  Qed.
  Lemma dis_use_ok k node u (vals : list T) : dis_use reg k node = Some u -> use_value reg vals u = [b_dis k (nth node vals bnan)] /\ (forall c, gu_op u <> Gcomp c).
  Proof.
    unfold dis_use. destruct (nth_error reg k) as [s|] eqn:E; [|discriminate]. intros [= <-]. split; [|discriminate]. unfold use_value. cbn. now rewrite (name_of k s E).
  Qed.
  Lemma cexp_use_ok cop l r t f u (vals : list T) : cexp_use cop l r t f = Some u ->
    use_value reg vals u = [cond_exp_code cop (nth l vals bnan) (nth r vals bnan) (nth t vals bnan) (nth f vals bnan)].
  Proof.
    unfold cexp_use. destruct cop as [|[|[|[|[|cop]]]]]; cbn; intros [= <-]; unfold use_value; cbn; try reflexivity.
    - rewrite (l_ge b BL), (l_total b BL). now destruct (b_cmp Clt _ _).
    - rewrite (l_gt b BL), (l_total b BL). now destruct (b_cmp Clt _ _).
  Qed.

  (** ** constants *)
  Lemma tg_con_ok (P : nat -> T) isd : forall k prev p2n c prev' p2n', tg_con P isd k prev p2n = (c, prev', p2n') ->
    prev' = prev + length c /\ (forall j, j < k -> p2n' j = p2n j) /\ (forall i, nth i isd true = true -> p2n' (k + i) = p2n (k + i)) /\
    forall B : list T, length B = S prev -> good (fun j => exists i, j = k + i /\ i < length isd /\ nth i isd true = false) p2n' (B ++ c) P.
  Proof.
    induction isd as [|d isd IH]; intros k prev p2n c prev' p2n' H; cbn [tg_con] in H.
    - injection H as <- <- <-. split; [cbn; lia|]. split; auto. split; auto. intros B _ j (i & _ & Hi & _). cbn in Hi. lia.
    - destruct d.
      + destruct (IH _ _ _ _ _ _ H) as (A1 & A2 & A3 & A4). split; auto. split; [intros; apply A2; lia|]. split.
        * intros [|i] Hi; [rewrite Nat.add_0_r; apply A2; lia|]. cbn in Hi. replace (k + S i) with (S k + i) by lia. auto.
        * intros B LB. refine (good_sub _ _ _ _ _ _ (A4 B LB)). intros j ([|i] & -> & Hi & Ei); [discriminate|]. cbn in Hi, Ei. exists i. split; [lia|]. split; [lia|auto].
      + destruct (tg_con P isd (S k) (S prev) _) as [[c1 prev1] p2n1] eqn:E. injection H as <- <- <-. destruct (IH _ _ _ _ _ _ E) as (A1 & A2 & A3 & A4).
        cbn [length]. split; [lia|]. split; [intros; rewrite A2 by lia; apply fset_ne; lia|]. split.
        * intros [|i] Hi; [discriminate|]. cbn in Hi. replace (k + S i) with (S k + i) by lia. rewrite A3 by auto. apply fset_ne. lia.
        * intros B LB j ([|i] & -> & Hi & Ei).
          -- rewrite Nat.add_0_r. rewrite A2, fset_eq by lia. rewrite app_length. cbn. split; [lia|]. rewrite app_nth2 by lia. now rewrite LB, Nat.sub_diag.
          -- cbn in Hi, Ei. destruct (A4 (B ++ [P k]) ltac:(rewrite app_length; cbn; lia) (k + S i)) as [Q1 Q2]; [exists i; split; [lia|]; split; [lia|auto]|].
             rewrite <- app_assoc in Q1, Q2. cbn in Q1, Q2. auto.
  Qed.

  (** ** dynamic parameters *)
  Lemma tg_dyn1_ok p2n o a u (vals : list T) (P : nat -> T) v : o <> ind_dyn -> length a = num_arg_dyn o -> tg_dyn1 reg p2n o a = Some u ->
    (forall j, In j (par_args_dyn o a) -> p2n j < length vals /\ nth (p2n j) vals bnan = P j) -> use_value reg vals u = [dyn_sem o a v P].
  Proof.
    intros N L H G. destruct o; try (now destruct N); cbn in L; repeat (destruct a as [|? a]; try discriminate L); cbn [tg_dyn1 dyn_gop nth map par_args_dyn skipn] in *;
      try (injection H as <-; unfold use_value; cbn [gu_op gu_arg nth dyn_sem]; rewrite ?(proj2 (G _ (or_introl eq_refl))), ?(proj2 (G _ (or_intror (or_introl eq_refl)))); rewrite ?(l_abs b BL); reflexivity).
    - apply (cexp_use_ok _ _ _ _ _ _ vals) in H. rewrite H. cbn [dyn_sem nth]. cbn in G. rewrite !(fun j Hj => proj2 (G j Hj)) by auto 10. reflexivity.
    - apply (dis_use_ok _ _ _ vals) in H as [-> _]. cbn [dyn_sem nth]. cbn in G. rewrite !(fun j Hj => proj2 (G j Hj)) by auto 10. reflexivity.
  Qed.
  Lemma tg_dyn_ok (P : nat -> T) ds : forall (S : nat -> Prop) prev p2n us prev' p2n' vals,
    tg_dyn reg ds prev p2n = Some (us, prev', p2n') -> length vals = Datatypes.S prev -> good S p2n vals P ->
    (forall k o a, In (k, o, a) ds -> o <> ind_dyn /\ length a = num_arg_dyn o /\ P k = dyn_sem o a b0 P) ->
    (forall pre k o a post, ds = pre ++ (k, o, a) :: post -> forall j, In j (par_args_dyn o a) -> S j \/ In j (map key pre)) ->
    length (nodes reg us vals) = Datatypes.S prev' /\ good (fun j => S j \/ In j (map key ds)) p2n' (nodes reg us vals) P.
  Proof.
    induction ds as [|[[k o] a] ds IH]; intros S prev p2n us prev' p2n' vals H LV G E A; cbn [tg_dyn] in H.
    - injection H as <- <- <-. cbn. split; auto. refine (good_sub _ _ _ _ _ _ G). intros j [Hj|[]]; auto.
    - destruct (tg_dyn1 reg p2n o a) as [u|] eqn:E1; [|discriminate]. destruct (tg_dyn reg ds (Datatypes.S prev) _) as [[[us1 prev1] p2n1]|] eqn:E2; [|discriminate].
      injection H as <- <- <-. cbn [nodes]. destruct (E k o a (or_introl eq_refl)) as (N & La & Ek).
      rewrite (tg_dyn1_ok p2n o a u vals P b0 N La E1) by (intros j Hj; destruct (A [] k o a ds eq_refl j Hj) as [Q|[]]; exact (G j Q)).
      rewrite <- LV in E2. destruct (IH (fun i => S i \/ i = k) _ _ _ _ _ (vals ++ [dyn_sem o a b0 P]) E2) as [B1 B2].
      + rewrite app_length. cbn. lia.
      + apply good_new; auto.
      + intros k1 o1 a1 Hk. apply E. now right.
      + intros pre k1 o1 a1 post -> j Hj. destruct (A ((k, o, a) :: pre) k1 o1 a1 post eq_refl j Hj) as [Q|[Q|Q]]; cbn in *; auto.
      + split; auto. refine (good_sub _ _ _ _ _ _ B2). intros j [Hj|[Hj|Hj]]; cbn in *; auto.
  Qed.

  (** ** operators *)
  Lemma fix_num_res o u is_var : fix_gop o = Some (u, is_var) -> 0 < num_res o /\ ishead o = false /\ forall c, u <> Gcomp c.
  Proof. destruct o; cbn; intros [= <- <-]; repeat split; try lia; discriminate. Qed.
  Lemma fix_ok p2n v2n o u is_var a (vals : list T) (P V : nat -> T) : fix_gop o = Some (u, is_var) -> length a = n_actual o a ->
    (forall j, In j (var_args o a) -> nth (v2n j) vals bnan = V j) -> (forall j, In j (par_args o a) -> nth (p2n j) vals bnan = P j) ->
    use_value reg vals (mkUse u (node_args p2n v2n is_var a)) = [semv o a P V].
  Proof.
    intros H L GV GP. assert (length a = num_arg o) as La by (destruct o; try discriminate H; exact L). clear L.
    destruct o; try discriminate H; injection H as <- <-; cbn in La; repeat (destruct a as [|? a]; try discriminate La); cbn [var_args par_args nth] in *;
      unfold use_value, semv; cbn [node_args combine map gu_op gu_arg nth sem0 last];
      rewrite ?(GV _ (or_introl eq_refl)), ?(GV _ (or_intror (or_introl eq_refl))), ?(GP _ (or_introl eq_refl)), ?(GP _ (or_intror (or_introl eq_refl))); rewrite ?(l_abs b BL); reflexivity.
  Qed.
  Lemma comp_num_res o c is_var : comp_gop o = Some (c, is_var) -> num_res o = 0 /\ fix_gop o = None.
  Proof. destruct o; cbn; intros [= <- <-]; auto. Qed.

  Lemma tg_ops_ok (P V : nat -> T) p2n (SP : nat -> Prop) l : forall (SV : nat -> Prop) prev v2n us v2n' vals,
    tg_ops reg p2n l prev v2n = Some (us, v2n') -> length vals = S prev -> good SP p2n vals P -> good SV v2n vals V ->
    (forall i, In i l -> supp (i_op i) = true /\ ishead (i_op i) = false /\ length (i_arg i) = n_actual (i_op i) (i_arg i) /\ (forall j, In j (par_args (i_op i) (i_arg i)) -> SP j)) ->
    (forall i, In i l -> 0 < num_res (i_op i) -> V (i_var i) = semv (i_op i) (i_arg i) P V) ->
    (forall pre i post, l = pre ++ i :: post -> forall j, In j (var_args (i_op i) (i_arg i)) -> SV j \/ exists i', In i' pre /\ 0 < num_res (i_op i') /\ i_var i' = j) ->
    (exists l0 e, l = l0 ++ [mkIns EndOp [] e] /\ forall i, In i l0 -> i_op i <> EndOp) ->
    good (fun j => SV j \/ exists i, In i l /\ 0 < num_res (i_op i) /\ i_var i = j) v2n' (nodes reg us vals) V.
  Proof.
    induction l as [|[o a iv] l IH]; intros SV prev v2n us v2n' vals H LV GP GV HS HE HA HZ; [discriminate H|].
    destruct HZ as (l0 & e & HZ & HN). destruct l0 as [|i0 l0].
    { injection HZ as -> -> -> ->. cbn in H. injection H as <- <-. cbn. refine (good_sub _ _ _ _ _ _ GV). intros j [Hj|(i & [<-|[]] & Hi & _)]; auto. cbn in Hi. lia. }
    injection HZ as <- ->. specialize (HN (mkIns o a iv) (or_introl eq_refl)) as NE. cbn in NE.
    assert (forall i, In i l0 -> i_op i <> EndOp) as HN' by (intros; apply HN; now right). set (l1 := l0 ++ [mkIns EndOp [] e]) in *.
    destruct (HS (mkIns o a iv) (or_introl eq_refl)) as (SU & NH & La & SPa). cbn [i_op i_arg i_var] in *.
    assert (forall j, In j (var_args o a) -> nth (v2n j) vals bnan = V j) as VA.
    { intros j Hj. destruct (HA [] (mkIns o a iv) l1 eq_refl j Hj) as [Q|(i' & [] & _)]. now apply GV. }
    assert (forall j, In j (par_args o a) -> nth (p2n j) vals bnan = P j) as PA by (intros j Hj; now apply GP, SPa).
    (* the rest of the operators *)
    assert (forall (SV1 : nat -> Prop) k w us1 vals1, tg_ops reg p2n l1 k w = Some (us1, v2n') -> length vals1 = S k -> good SP p2n vals1 P -> good SV1 w vals1 V -> (forall j, SV j -> SV1 j) -> (0 < num_res o -> SV1 iv) ->
      good (fun j => SV j \/ exists i, In i (mkIns o a iv :: l1) /\ 0 < num_res (i_op i) /\ i_var i = j) v2n' (nodes reg us1 vals1) V) as NEXT.
    { intros SV1 k w us1 vals1 H1 L1 G1 G2 I1 I2. refine (good_sub _ _ _ _ _ _ (IH SV1 k w us1 v2n' vals1 H1 L1 G1 G2 _ _ _ _)).
      - intros j [Hj|(i & [<-|Hi] & R & <-)]; [auto|cbn in R |- *; auto|right; eauto].
      - intros i Hi. apply HS. now right.
      - intros i Hi. apply HE. now right.
      - intros pre i post EQ j Hj. destruct (HA (mkIns o a iv :: pre) i post) with (j := j) as [Q|(i' & [<-|Hi'] & R & E')]; auto; [now rewrite EQ| |right; eauto]. cbn in R, E'. subst j. left. auto.
      - exists l0, e. auto. }
    assert (forall u us1 (v : T), tg_ops reg p2n l1 (S prev) (fset v2n iv (S prev)) = Some (us1, v2n') -> use_value reg vals u = [v] -> v = V iv -> 0 < num_res o ->
      good (fun j => SV j \/ exists i, In i (mkIns o a iv :: l1) /\ 0 < num_res (i_op i) /\ i_var i = j) v2n' (nodes reg (u :: us1) vals) V) as ONE.
    { intros u us1 v H1 E1 E2 R. cbn [nodes]. rewrite E1. apply (NEXT (fun j => SV j \/ j = iv) (S prev) (fset v2n iv (S prev))); auto.
      - rewrite app_length. cbn. lia.
      - now apply good_app.
      - rewrite <- LV. now apply good_new. }
    cbn [tg_ops] in H. cbv zeta in H. destruct (fix_gop o) as [[u is_var]|] eqn:F.
    - destruct (fix_num_res _ _ _ F) as (R & _ & _). destruct (tg_ops reg p2n l1 (S prev) _) as [[us1 w]|] eqn:E1; [|discriminate]. injection H as <- <-.
      apply (ONE _ _ (semv o a P V)); auto.
      + apply fix_ok; auto.
      + symmetry. exact (HE (mkIns o a iv) (or_introl eq_refl) R).
    - destruct (comp_gop o) as [[c is_var]|] eqn:C.
      + destruct (tg_ops reg p2n l1 prev v2n) as [[us1 w]|] eqn:E1; [|discriminate]. injection H as <- <-. cbn [nodes]. replace (use_value reg vals _) with (@nil T) by reflexivity. rewrite app_nil_r.
        apply (NEXT SV prev v2n); auto. rewrite (proj1 (comp_num_res _ _ _ C)). lia.
      + destruct o; try discriminate SU; try discriminate NH; try discriminate F; try discriminate C; try (now destruct NE); cbn [num_res] in *.
        * (* CExpOp *)
          destruct (cexp_use _ _ _ _ _) as [u|] eqn:E0; [|discriminate]. destruct (tg_ops reg p2n l1 (S prev) _) as [[us1 w]|] eqn:E1; [|discriminate]. injection H as <- <-.
          apply (cexp_use_ok _ _ _ _ _ _ vals) in E0. apply (ONE _ us1 _ eq_refl E0); [|lia].
          pose proof (HE (mkIns CExpOp a iv) (or_introl eq_refl) ltac:(cbn; lia)) as Q. cbn [i_op i_arg i_var] in Q. rewrite Q. unfold semv. cbn [sem0 last]. cbn [var_args par_args] in VA, PA.
          assert (forall bit j, In (bit, j) [(0, 2); (1, 3); (2, 4); (3, 5)] ->
            nth (if Nat.testbit (nth 1 a 0) bit then v2n (nth j a 0) else p2n (nth j a 0)) vals bnan = vp (nth 1 a 0) bit P V (nth j a 0)) as X.
          { intros bit j Hin. unfold vp. destruct (Nat.testbit (nth 1 a 0) bit) eqn:TB; [apply VA|apply PA]; cbn [In] in Hin;
              destruct Hin as [Hin|[Hin|[Hin|[Hin|[]]]]]; injection Hin as <- <-; rewrite TB, ?in_app_iff; cbn [In]; auto 10. }
          rewrite (X 0 2), (X 1 3), (X 2 4), (X 3 5) by (cbn; auto). reflexivity.
        * (* DisOp *)
          destruct (dis_use reg _ _) as [u|] eqn:E0; [|discriminate]. destruct (tg_ops reg p2n l1 (S prev) _) as [[us1 w]|] eqn:E1; [|discriminate]. injection H as <- <-.
          apply (dis_use_ok _ _ _ vals) in E0 as [E0 _]. apply (ONE _ us1 _ eq_refl E0); [|lia].
          pose proof (HE (mkIns DisOp a iv) (or_introl eq_refl) ltac:(cbn; lia)) as Q. cbn [i_op i_arg i_var] in Q. rewrite Q. unfold semv. cbn [sem0 last]. rewrite VA by (cbn; auto). reflexivity.
        * (* ParOp *)
          apply (NEXT (fun j => SV j \/ j = iv) prev (fset v2n iv (p2n (nth 0 a 0)))); auto. intros j Hj. destruct (Nat.eq_dec j iv) as [->|Nj].
          -- rewrite fset_eq. split; [apply GP, SPa; cbn; auto|]. rewrite PA by (cbn; auto). symmetry. exact (HE (mkIns ParOp a iv) (or_introl eq_refl) ltac:(cbn; lia)).
          -- rewrite fset_ne by auto. destruct Hj as [Hj|Hj]; [auto|easy].
  Qed.
End ToGraph.
