(** C25, from_graph: the function of a graph has the values of the graph. *)
From Coq Require Import String List Bool Arith Lia.
From Verif Require Import Base_Spec Op_Model Tape_Spec Tape_Model Tape_Proof Tape_Proof2 Tape_Swf Sweep_Uniq Abs_Proof Abs_Proof3 Abs_Prop Opt_Model Opt_Proof Opt_Proof2 Opt_Proof3 Opt_Proof4 Opt_Proof5
  Graph_Spec Graph_Model Graph_Proof3 Graph_Proof4.
Import ListNotations.

Definition nosum (u : gusage) : bool := match gu_op u with Gsum => false | _ => true end.

Lemma F2_imp {A B} (P Q : A -> B -> Prop) l l' : (forall x y, P x y -> Q x y) -> Forall2 P l l' -> Forall2 Q l l'.
Proof. intros H F. induction F; constructor; auto. Qed.

Lemma F2_length {A B} (P : A -> B -> Prop) l l' : Forall2 P l l' -> length l = length l'.
Proof. intros F. induction F; cbn; auto. Qed.

Section FromGraph.
  Context {b : base} (BL : base_laws b).
  Notation T := (bt b).
  Implicit Types r : rec b.
  Variable reg : list string.

  Section Fix.
  Variable m : nat.
  Variables (d x : list T).
  Notation st := (st m). Notation nok := (nok m d x). Notation veqs := (veqs m x). Notation isres := (isres m). Notation noks := (noks m d x).

  Record inv (lg : list ins) (s : rec b * list nty * list nat) (vals : list T) : Prop := {
    v_st : st lg (fst (fst s)); v_len : length vals = length (snd (fst s)); v_ok : noks lg (fst (fst s)) (snd (fst s)) (snd s) vals }.
  Lemma noks_ext lg lg' r r' ty nf vals : dwf r -> ext r r' -> noks lg r ty nf vals -> noks (lg ++ lg') r' ty nf vals.
  Proof. intros W X [A B]. split; auto. intros i Hi. eapply nok_ext; eauto. Qed.
  Lemma noks_add lg r ty nf vals t i v : length vals = length ty -> noks lg r ty nf vals -> nok lg r t i v -> noks lg r (ty ++ [t]) (nf ++ [i]) (vals ++ [v]).
  Proof.
    intros LV [A B] N. split; [rewrite !app_length; cbn; lia|]. intros k Hk. rewrite app_length in Hk. cbn in Hk. destruct (Nat.eq_dec k (length nf)) as [->|Nk].
    - rewrite <- A at 1. rewrite nth_middle. rewrite nth_middle. rewrite <- A, <- LV, nth_middle. exact N.
    - rewrite !app_nth1 by lia. apply B. lia.
  Qed.
  Lemma noks_map lg r ty nf vals l : length vals = length ty -> noks lg r ty nf vals -> forallb (fun k => k <? length ty) l = true ->
    noks lg r (map (fun k => nth k ty Ncon) l) (map (fun k => nth k nf 0) l) (map (fun k => nth k vals bnan) l).
  Proof.
    intros LV [A B] F. split; [now rewrite !map_length|]. intros i Hi. rewrite map_length in Hi. rewrite forallb_forall in F.
    rewrite (nth_indep _ Ncon (nth 0 ty Ncon)), (nth_indep _ 0 (nth 0 nf 0)), (nth_indep _ bnan (nth 0 vals bnan)) by (rewrite map_length; lia).
    rewrite (map_nth (fun k => nth k ty Ncon)), (map_nth (fun k => nth k nf 0)), (map_nth (fun k => nth k vals bnan)). apply B. specialize (F (nth i l 0) ltac:(now apply nth_In)). apply Nat.ltb_lt in F. lia.
  Qed.
  Lemma use_gval (vals : list T) r u ty x1 : nosum u = true -> fg_op reg r (gu_op u) ty (map (fun k => nth k x1 0) (gu_arg u)) <> None -> length ty = length (gu_arg u) ->
    use_value reg vals u = match gu_op u with Gcomp _ => [] | _ => [gval reg (gu_op u) (map (fun k => nth k vals bnan) (gu_arg u))] end.
  Proof.
    intros N H L. destruct u as [o a]. unfold use_value. cbn [gu_op gu_arg nosum] in *. destruct o; try discriminate N; try reflexivity; cbn [fg_op] in H.
    - destruct a as [|? [|? ?]]; cbn [map] in H; try (now destruct H); reflexivity.
    - destruct a as [|? [|? [|? ?]]]; cbn [map] in H; try (now destruct H); reflexivity.
    - destruct a as [|? [|? [|? [|? [|? ?]]]]]; cbn [map] in H; try (now destruct H); reflexivity.
    - destruct a as [|? [|? ?]]; cbn [map] in H; try (now destruct H); reflexivity.
  Qed.
  Lemma fg_use_ok lg s vals u s' : inv lg s vals -> nosum u = true -> fg_use reg u s = Some s' -> exists lg', inv (lg ++ lg') s' (vals ++ use_value reg vals u) /\ ext (fst (fst s)) (fst (fst s')).
  Proof.
    destruct s as [[r ty] nf]. intros [A B C] NS H. cbn [fst snd] in *. unfold fg_use in H. destruct (forallb _ _) eqn:F; [|discriminate].
    destruct (fg_op reg r (gu_op u) _ _) as [[r' i]|] eqn:E; [|discriminate].
    pose proof (noks_map _ _ _ _ _ _ B C F) as NM.
    destruct (fg_op_ok BL reg m d x lg r (gu_op u) _ _ _ r' i A NM) as (lg' & Q1 & Q2 & Q3); [destruct (gu_op u) eqn:Z; try discriminate; unfold nosum in NS; rewrite Z in NS; discriminate|exact E|].
    exists lg'. rewrite (use_gval vals r u (map (fun k => nth k ty Ncon) (gu_arg u)) nf NS); [|now rewrite E|now rewrite map_length].
    assert (noks (lg ++ lg') r' ty nf vals) as C' by (apply (noks_ext lg lg' r); auto; apply A).
    destruct (gu_op u) eqn:Z; injection H as <-; cbn [fst snd]; (split; [|exact Q2]); constructor; cbn [fst snd]; rewrite ?app_nil_r; auto; try (rewrite !app_length; cbn; lia); apply noks_add; auto; apply Q3; discriminate.
  Qed.
  Lemma fg_ops_ok us : forall lg s vals s', inv lg s vals -> forallb nosum us = true -> fg_ops reg us s = Some s' -> exists lg', inv (lg ++ lg') s' (nodes reg us vals) /\ ext (fst (fst s)) (fst (fst s')).
  Proof.
    induction us as [|u us IH]; intros lg s vals s' I N H; cbn [fg_ops nodes forallb] in *.
    - injection H as <-. exists []. rewrite app_nil_r. split; auto. apply ext_refl.
    - apply andb_true_iff in N as [N1 N2]. destruct (fg_use reg u s) as [s1|] eqn:E; [|discriminate]. destruct (fg_use_ok _ _ _ _ _ I N1 E) as (l1 & I1 & X1).
      destruct (IH _ _ _ _ I1 N2 H) as (l2 & I2 & X2). exists (l1 ++ l2). rewrite app_assoc. split; auto. eapply ext_trans; eauto.
  Qed.
  Lemma fg_con_ok cs : forall lg s vals, inv lg s vals -> inv lg (fold_left fg_con1 cs s) (vals ++ cs) /\ ext (fst (fst s)) (fst (fst (fold_left fg_con1 cs s))).
  Proof.
    induction cs as [|c cs IH]; intros lg s vals I; cbn [fold_left]; [rewrite app_nil_r; split; auto; apply ext_refl|]. destruct s as [[r ty] nf].
    destruct I as [A B C]. cbn [fst snd] in *. pose proof (con_ok BL m d x lg r c A) as K.
    assert (inv lg (fg_con1 (r, ty, nf) c) (vals ++ [c]) /\ ext r (fst (fst (fg_con1 (r, ty, nf) c)))) as [I1 X1].
    { unfold fg_con1. destruct (put_con_par r c) as [r' i]. destruct K as (K1 & K2 & K3 & _). split; auto. constructor; cbn [fst snd]; auto; [rewrite !app_length; cbn; lia|].
      apply noks_add; auto. rewrite <- (app_nil_r lg). apply (noks_ext lg [] r); auto. apply A. }
    destruct (IH _ _ _ I1) as [I2 X2]. rewrite <- app_assoc in I2. split; auto. eapply ext_trans; eauto.
  Qed.
  Lemma fg_dep_ok ty nf vals ks : forall lg r dep done, st lg r -> length vals = length ty -> noks lg r ty nf vals -> forallb (fun k => k <? length ty) ks = true ->
    Forall2 (fun v k => nok lg r Nvar v (nth k vals bnan)) dep done ->
    let '(r', dep') := fold_left (fg_dep1 ty nf) ks (r, dep) in exists lg', st (lg ++ lg') r' /\ ext r r' /\ Forall2 (fun v k => nok (lg ++ lg') r' Nvar v (nth k vals bnan)) dep' (done ++ ks).
  Proof.
    induction ks as [|k ks IH]; intros lg r dep done I LV N F D; cbn [fold_left].
    - exists []. rewrite !app_nil_r. split; auto. split; auto. apply ext_refl.
    - cbn [forallb] in F. apply andb_true_iff in F as [F1 F2]. apply Nat.ltb_lt in F1. destruct N as [N1 N2]. pose proof (N2 k ltac:(lia)) as Nk.
      assert (exists lg1 r1 w, fg_dep1 ty nf (r, dep) k = (r1, dep ++ [w]) /\ st (lg ++ lg1) r1 /\ ext r r1 /\ nok (lg ++ lg1) r1 Nvar w (nth k vals bnan)) as (lg1 & r1 & w & E1 & E2 & E3 & E4).
      { assert (nth k ty Ncon <> Nvar -> exists lg1 r1 w, (let (r', w) := put_op (put_arg r [nth k nf 0]) ParOp in (r', dep ++ [w])) = (r1, dep ++ [w]) /\ st (lg ++ lg1) r1 /\ ext r r1 /\ nok (lg ++ lg1) r1 Nvar w (nth k vals bnan)) as PAR.
        { intros Z. destruct (nok_par _ _ _ _ _ _ _ _ Nk Z) as [L P]. assert (0 < num_res ParOp -> forall P0 V, Pok d P0 r -> veqs lg P0 V -> semv ParOp [nth k nf 0] P0 V = nth k vals bnan) as SV by (intros _ P0 V HP _; unfold semv; cbn; auto).
          pose proof (var_ok m d x lg r ParOp [nth k nf 0] (nth k vals bnan) I eq_refl eq_refl eq_refl ltac:(intros ? []) SV) as K.
          destruct (put_op (put_arg r [nth k nf 0]) ParOp) as [r' w]. destruct K as (i & K1 & K2 & K3). exists [i], r', w. repeat (split; auto). }
        unfold fg_dep1. destruct (nth k ty Ncon); [apply PAR; discriminate|apply PAR; discriminate|].
        exists [], r, (nth k nf 0). rewrite app_nil_r. split; auto. split; auto. split; [apply ext_refl|auto]. }
      rewrite E1. specialize (IH (lg ++ lg1) r1 (dep ++ [w]) (done ++ [k]) E2 LV).
      assert (noks (lg ++ lg1) r1 ty nf vals) as Z1 by (apply (noks_ext lg lg1 r); auto; [apply I|now split]).
      assert (Forall2 (fun v k => nok (lg ++ lg1) r1 Nvar v (nth k vals bnan)) (dep ++ [w]) (done ++ [k])) as Z2.
      { apply Forall2_app; [|auto]. eapply F2_imp; [|exact D]. intros v j Hv. eapply nok_ext; eauto. apply I. }
      specialize (IH Z1 F2 Z2). destruct (fold_left _ ks _) as [r' dep']. destruct IH as (lg' & A & B & C). exists (lg1 ++ lg'). rewrite app_assoc, <- app_assoc in *. rewrite !app_assoc in *. cbn [app] in *.
      split; auto. split; [eapply ext_trans; eauto|]. rewrite <- (app_assoc done [k] ks) in C. exact C.
  Qed.
  End Fix.

  (** ** the independent nodes *)
  Record ind_st (nv nd : nat) r : Prop := {
    i_op' : r_op r = BeginOp :: repeat InvOp nv; i_arg' : r_arg r = [0]; i_nv' : r_nvar r = S nv; i_dwf : dwf r;
    i_den : dentries r = map (fun k => (k, ind_dyn, [])) (seq 1 nd); i_len : length (r_par r) = S nd; i_p0 : nth 0 (r_par r) bnan = bnan; i_d0 : nth 0 (r_isdyn r) true = false }.
  (** a node with type [t], index [i] and value [v] *)
  Definition iok (d x : list T) (nv nd : nat) (t : nty) (i : nat) (v : T) : Prop :=
    match t with Ncon => i = 0 /\ v = bnan | Ndyn => exists j, i = S j /\ j < nd /\ v = nth j d b0 | Nvar => exists j, i = S j /\ j < nv /\ v = nth j x b0 end.
  Lemma hd_skipn (l : list T) k : hd b0 (skipn k l) = nth k l b0.
  Proof. revert l. induction k as [|k IH]; intros [|y l]; cbn; auto. Qed.
  Lemma tl_skipn (l : list T) k : tl (skipn k l) = skipn (S k) l.
  Proof. revert l. induction k as [|k IH]; intros [|y l]; [reflexivity|reflexivity|reflexivity|]. change (tl (skipn k l) = skipn (S k) l). apply IH. Qed.
  Lemma iok_mono d x nv nd nv' nd' t i v : nv <= nv' -> nd <= nd' -> iok d x nv nd t i v -> iok d x nv' nd' t i v.
  Proof. destruct t; cbn; auto; intros A B (j & C & D & E); exists j; split; auto; split; auto; lia. Qed.
  Lemma fg_ind_ok d x ks : forall nv nd r ty nf vals, ind_st nv nd r -> length ty = length nf -> length vals = length ty ->
    (forall k, k < length ty -> iok d x nv nd (nth k ty Ncon) (nth k nf 0) (nth k vals bnan)) ->
    let nv' := nv + count_occ Bool.bool_dec ks true in let nd' := nd + count_occ Bool.bool_dec ks false in
    let '(r', ty', nf') := fold_left fg_ind1 ks (r, ty, nf) in let vals' := vals ++ indep b0 ks (skipn nd d) (skipn nv x) in
    ind_st nv' nd' r' /\ length ty' = length nf' /\ length vals' = length ty' /\ forall k, k < length ty' -> iok d x nv' nd' (nth k ty' Ncon) (nth k nf' 0) (nth k vals' bnan).
  Proof.
    induction ks as [|k ks IH]; intros nv nd r ty nf vals I L1 L2 H; cbn [fold_left indep].
    - cbn. rewrite !Nat.add_0_r, app_nil_r. auto.
    - assert (forall nv1 nd1 t i v, nv <= nv1 -> nd <= nd1 -> iok d x nv1 nd1 t i v -> forall k, k < length (ty ++ [t]) -> iok d x nv1 nd1 (nth k (ty ++ [t]) Ncon) (nth k (nf ++ [i]) 0) (nth k (vals ++ [v]) bnan)) as ADD.
      { intros nv1 nd1 t i v M1 M2 N q Hq. rewrite app_length in Hq. cbn in Hq. destruct (Nat.eq_dec q (length ty)) as [->|Nq].
        - rewrite nth_middle. rewrite L1 at 1. rewrite nth_middle. rewrite <- L2, nth_middle. exact N.
        - rewrite !app_nth1 by lia. apply (iok_mono d x nv nd); auto. apply H. lia. }
      destruct I as [J1 J2 J3 J4 J5 J6 J7 J8]. destruct k; cbn [fg_ind1].
      + cbn [put_op]. set (r1 := mkRec _ _ _ _ _ _ _ _ _ _ _).
        assert (ind_st (S nv) nd r1) as I1.
        { constructor; auto; cbn; [|lia|now apply (same_dwf r)]. rewrite J1. cbn. f_equal. clear. induction nv as [|q IH]; cbn; auto. now rewrite IH. }
        specialize (IH (S nv) nd r1 (ty ++ [Nvar]) (nf ++ [r_nvar r + num_res InvOp - 1]) (vals ++ [nth nv x b0]) I1).
        rewrite !app_length in IH. cbn [length] in IH. specialize (IH ltac:(lia) ltac:(lia)). rewrite <- app_length with (l' := [Nvar]) in IH. 
        specialize (IH (ADD (S nv) nd Nvar (r_nvar r + num_res InvOp - 1) (nth nv x b0) ltac:(lia) ltac:(lia) ltac:(exists nv; cbn; split; [lia|split; [lia|auto]]))). cbn [count_occ]. cbv zeta in IH |- *.
        destruct (Bool.bool_dec true true) as [_|N]; [|now destruct N]. destruct (Bool.bool_dec true false) as [N|_]; [discriminate|].
        rewrite Nat.add_succ_comm in IH. destruct (fold_left fg_ind1 ks _) as [[r' ty'] nf']. rewrite hd_skipn, tl_skipn. rewrite <- app_assoc in IH. exact IH.
      + pose proof (put_dyn_spec r bnan ind_dyn [] J4 eq_refl ltac:(intros ? [])) as K. destruct (put_dyn_par r bnan ind_dyn []) as [r1 i].
        destruct K as (K1 & K2 & K3 & K4 & K5 & K6 & K7 & K8 & K9 & K10 & K11).
        assert (ind_st nv (S nd) r1) as I1.
        { constructor; auto; try congruence.
          - rewrite K2, J5, seq_S, map_app. cbn. now rewrite K3, J6.
          - rewrite K4, app_length. cbn. lia.
          - rewrite K4, app_nth1 by lia. exact J7.
          - rewrite K5, app_nth1 by (rewrite (w_isd _ J4); lia). exact J8. }
        specialize (IH nv (S nd) r1 (ty ++ [Ndyn]) (nf ++ [i]) (vals ++ [nth nd d b0]) I1).
        rewrite !app_length in IH. cbn [length] in IH. specialize (IH ltac:(lia) ltac:(lia)). rewrite <- app_length with (l' := [Ndyn]) in IH. 
        specialize (IH (ADD nv (S nd) Ndyn i (nth nd d b0) ltac:(lia) ltac:(lia) ltac:(exists nd; cbn; split; [lia|split; [lia|auto]]))). cbn [count_occ]. cbv zeta in IH |- *.
        destruct (Bool.bool_dec false false) as [_|N]; [|now destruct N]. destruct (Bool.bool_dec false true) as [N|_]; [discriminate|].
        rewrite Nat.add_succ_comm in IH. destruct (fold_left fg_ind1 ks _) as [[r' ty'] nf']. rewrite hd_skipn, tl_skipn. rewrite <- app_assoc in IH. exact IH.
  Qed.

  Lemma head_op m : map i_op (head_ins m) = BeginOp :: repeat InvOp m.
  Proof. unfold head_ins. cbn. f_equal. rewrite map_map. cbn. generalize 0. induction m as [|m IH]; intros s; cbn; auto. now rewrite IH. Qed.
  Lemma head_arg m : concat (map i_arg (head_ins m)) = [0].
  Proof. unfold head_ins. cbn. f_equal. rewrite map_map. cbn. generalize 0. induction m as [|m IH]; intros s; cbn; auto. Qed.
  Lemma head_args m : argsok (head_ins m).
  Proof. intros k i Hi j Hj. exfalso. assert (k < length (head_ins m)) as Hk by (apply nth_error_Some; congruence). rewrite head_len in Hk. rewrite head_nth in Hi by lia. injection Hi as <-. destruct (k =? 0); destruct Hj. Qed.
  Lemma ind_inv d x m nd r ty nf vals : ind_st m nd r -> length ty = length nf -> length vals = length ty ->
    (forall k, k < length ty -> iok d x m nd (nth k ty Ncon) (nth k nf 0) (nth k vals bnan)) -> inv m d x [] (r, ty, nf) vals.
  Proof.
    intros [J1 J2 J3 J4 J5 J6 J7 J8] L1 L2 H. constructor; cbn [fst snd]; auto.
    - constructor; rewrite ?app_nil_r; auto.
      + now rewrite head_op.
      + now rewrite head_arg.
      + now rewrite tres_head.
      + apply (decode_numd (BeginOp :: repeat InvOp m) [0]). apply decode_head.
      + apply head_args.
      + intros i [].
    - split; auto. intros k Hk. specialize (H k ltac:(lia)). destruct (nth k ty Ncon); cbn [iok nok] in *.
      + destruct H as [-> ->]. split; [lia|]. split; auto. 
      + destruct H as (j & -> & Hj & ->). split; [lia|]. intros P [_ HP]. rewrite (HP j (S j) ind_dyn []); [reflexivity|]. rewrite J5, nth_error_map.
        rewrite (nth_error_nth' _ 0) by (rewrite seq_length; lia). rewrite seq_nth by lia. reflexivity.
      + destruct H as (j & -> & Hj & ->). split.
        * exists (mkIns InvOp [] (S j)). split; [|cbn; auto]. rewrite app_nil_r. apply (nth_error_In _ (S j)). rewrite head_nth by lia. reflexivity.
        * intros P V _ [HV _]. auto.
  Qed.

  Theorem from_graph_ok (V : nat -> T) l2v (g : graph b) dyn2var var2dyn f : forallb nosum (gr_ops g) = true -> from_graph reg V l2v g dyn2var var2dyn = Some f ->
    let kinds := dyn2var ++ map negb var2dyn in let m := count_occ Bool.bool_dec kinds true in
    g_n f = m /\ length (g_dep f) = length (gr_dep g) /\ dwf (g_rec f) /\ parok (g_rec f) (g_par f) /\
    forall d x f1, length x = m -> g_rec f1 = g_rec f -> g_dep f1 = g_dep f -> Pok d (g_par f1) (g_rec f) -> exists f2, forward0 f1 x = Some (graph_eval reg g (indep b0 kinds d x), f2).
  Proof.
    intros NS H. cbv zeta. unfold from_graph in H. destruct (_ && _) eqn:LEN; [|discriminate]. set (kinds := dyn2var ++ map negb var2dyn) in *. cbv zeta in H.
    set (m := count_occ Bool.bool_dec kinds true) in *.
    assert (ind_st 0 0 (put_arg (fst (put_op (fst (put_con_par (rec0 false) (@bnan b))) BeginOp)) [0])) as I0.
    { cbn. constructor; cbn; auto. constructor; cbn; auto. intros ? ? ? ? []. }
    destruct (put_con_par (rec0 false) (@bnan b)) as [r00 z]. cbn [fst] in I0. set (r01 := put_arg _ [0]) in *. clearbody r01. clear z r00.
    destruct (fold_left fg_ind1 kinds (r01, [Ncon], [0])) as [[r1 ty1] nf1] eqn:E1.
    assert (forall d x, inv m d x [] (r1, ty1, nf1) (bnan :: indep b0 kinds d x)) as I1.
    { intros d x. pose proof (fg_ind_ok d x kinds 0 0 r01 [Ncon] [0] [bnan] I0 eq_refl eq_refl) as K.
      rewrite E1 in K. cbn [Nat.add skipn app] in K. cbv zeta in K. destruct K as (K1 & K2 & K3 & K4).
      - intros [|k] Hk; [|cbn in Hk; lia]. cbn. auto.
      - now apply (ind_inv d x m (count_occ Bool.bool_dec kinds false)). }
    destruct (fg_ops reg (gr_ops g) (fold_left fg_con1 (gr_con g) (r1, ty1, nf1))) as [[[r ty] nf]|] eqn:E2; [|discriminate].
    destruct (forallb _ (gr_dep g)) eqn:F; [|discriminate]. destruct (fold_left (fg_dep1 ty nf) (gr_dep g) (r, [])) as [r' dep] eqn:E3. apply some_inj in H. subst f. cbn [g_n g_dep g_rec g_par].
    set (r3 := fst (put_op r' EndOp)).
    assert (forall d x, exists lg, st m lg r3 /\ Forall2 (fun v k => nok m d x lg r3 Nvar v (nth k (nodes reg (gr_ops g) ((bnan :: indep b0 kinds d x) ++ gr_con g)) bnan)) dep (gr_dep g)) as K.
    { intros d x. destruct (fg_con_ok m d x (gr_con g) [] _ _ (I1 d x)) as [I2 _]. destruct (fg_ops_ok m d x (gr_ops g) _ _ _ _ I2 NS E2) as (lg & I3 & _). cbn [app] in I3.
      destruct I3 as [A B C]. cbn [fst snd] in *. pose proof (fg_dep_ok m d x ty nf _ (gr_dep g) lg r [] [] A B C F (Forall2_nil _)) as D. rewrite E3 in D. destruct D as (lg' & D1 & D2 & D3). cbn [app] in D3.
      pose proof (var_ok m d x (lg ++ lg') r' EndOp [] bnan D1 eq_refl eq_refl eq_refl ltac:(intros ? []) ltac:(cbn; lia)) as Q.
      replace (put_arg r' []) with r' in Q by (destruct r'; unfold put_arg; cbn; now rewrite app_nil_r).
      destruct (put_op r' EndOp) as [r3' w] eqn:Z. destruct Q as (i & Q1 & Q2 & _). subst r3. cbn [fst]. exists ((lg ++ lg') ++ [i]). split; auto.
      eapply F2_imp; [|exact D3]. intros v k Hv. eapply nok_ext; eauto. apply D1. }
    assert (dwf r3) as W3 by (destruct (K [] []) as (lg & [Q1 Q2 Q3 Q4 Q5 Q6 Q7 Q8] & _); exact Q4).
    split; auto. split; [destruct (K [] []) as (lg & _ & Q); exact (F2_length _ _ _ Q)|]. split; auto. split; [apply parok0|].
    intros d x f1 Lx G1 G2 HP. destruct (K d x) as (lg & [Q1 Q2 Q3 Q4 Q5 Q6 Q7 Q8] & D).
    assert (decode (r_op r3) (r_arg r3) 0 = Some (head_ins m ++ lg)) as DEC.
    { rewrite Q1, Q2. change (head_ins m ++ lg) with ([] ++ (head_ins m ++ lg)) at 3. apply (decode_adds (head_ins m ++ lg) [] []); auto. apply Forall_app. split; auto.
      apply Forall_forall. intros i Hi. unfold head_ins in Hi. destruct Hi as [<-|Hi]; auto. apply in_map_iff in Hi as (j & <- & _). reflexivity. }
    assert (forall i, In i (head_ins m ++ lg) -> supp (i_op i) = true) as HO.
    { intros i Hi. apply in_app_or in Hi as [Hi|Hi]; [|now apply Q8]. unfold head_ins in Hi. destruct Hi as [<-|Hi]; auto. apply in_map_iff in Hi as (j & <- & _). reflexivity. }
    destruct (forward0_sv f1 (head_ins m ++ lg) x) as (f2 & E); [now rewrite G1|auto|]. exists f2. rewrite E. f_equal. f_equal. rewrite G2. unfold graph_eval.
    change (bnan :: indep b0 kinds d x ++ gr_con g) with ((bnan :: indep b0 kinds d x) ++ gr_con g).
    set (W := vsweep (g_par f1) (head_ins m ++ lg) (V0 f1 x)).
    assert (veqs m x lg (g_par f1) W) as VE.
    { split.
      - intros k Hk. unfold W. rewrite vsweep_app', vsweep_head. apply numd_app in Q5 as [_ Q5]. rewrite tres_head in Q5. cbn [Nat.add] in Q5.
        rewrite (vsweep_lt _ lg (S m)) by (auto; lia). unfold V0. rewrite (set_ind_nth x _ 0 k) by lia. reflexivity.
      - intros i Hi R. apply In_nth_error in Hi as (q & Hq). apply (sweep_eq (head_ins m ++ lg) Q5 Q7 HO _ _ (length (head_ins m) + q)); auto.
        + rewrite nth_error_app2 by lia. rewrite <- Hq. f_equal. lia.
        + apply (Q8 i). eapply nth_error_In; eauto. }
    clear -D VE HP. induction D as [|v k dep ks Hv D IH]; cbn [map]; auto. rewrite IH. f_equal. apply (proj2 Hv (g_par f1)); auto.
  Qed.
End FromGraph.
