(** C33: conditional skips do not change the dependent variables.
    F is any function object obtained from a recording without VecAD operators and any later calls of new_dynamic, Forward(0, x) and compare_change_count. *)
From Coq Require Import ZArith List Bool Arith Lia.
From Verif Require Import Base_Spec Op_Model Tape_Spec Tape_Model Tape_Proof Tape_Proof2 Tape_Swf Tape_Proof10 Tape_Hist Tape_Prop Abs_Proof Abs_Proof2 Abs_Proof3 Abs_Prop Opt_Model Opt_Proof3 Opt_Proof5 Opt_Proof6
  Tape_Codes CSkip_Model CSkip_Proof CSkip_Proof2.
Import ListNotations.

Section Fun.
  Context {b : base} (BL : base_laws b).
  Notation T := (bt b).
  Hypothesis EQ0 : forall x y : T, is0 (b_bin Bsub x y) = b_cmp Ceq x y.
  Lemma dyns_fields ds : forall f : adfun b, g_rec (dyns ds f) = g_rec f /\ g_n (dyns ds f) = g_n f /\ g_dep (dyns ds f) = g_dep f /\ g_V (dyns ds f) = g_V f /\ g_l2v (dyns ds f) = g_l2v f /\ g_cc (dyns ds f) = g_cc f.
  Proof. induction ds as [|d ds IH]; intros f; [cbn; auto 10|]. destruct (IH (new_dynamic f d)) as (A & B & C & D & E & F). change (dyns (d :: ds) f) with (dyns ds (new_dynamic f d)). rewrite A, B, C, D, E, F. cbn. auto 10. Qed.
  Lemma cond_skip_dyns cmp order ds : forall f f' : adfun b, cond_skip cmp order f = Some f' -> cond_skip cmp order (dyns ds f) = Some (dyns ds f').
  Proof.
    induction ds as [|d ds IH]; intros f f' H; auto. cbn [dyns fold_left]. apply IH. clear IH. unfold cond_skip in *. cbn [new_dynamic g_rec g_dep] in *.
    destruct (decode _ _ 0) as [l|]; [|discriminate]. cbv zeta in *. injection H as <-. reflexivity.
  Qed.
  Lemma skip_ins_ok args rest : (forall k, n_actual CSkipOp (args k) = length (args k)) -> forall plan nv, length plan = length rest -> numd nv rest -> Forall (fun i => n_actual (i_op i) (i_arg i) = length (i_arg i)) rest ->
    numd nv (skip_ins args plan nv rest) /\ Forall (fun i => n_actual (i_op i) (i_arg i) = length (i_arg i)) (skip_ins args plan nv rest).
  Proof.
    intros HK. induction rest as [|i rest IH]; intros plan nv LP N F; [destruct plan; auto|]. destruct plan as [|p plan]; [discriminate|]. destruct N as [N1 N2]. inversion F as [|? ? F1 F2]; subst.
    destruct (IH plan (nv + num_res (i_op i)) ltac:(now injection LP) N2 F2) as [A B]. cbn [skip_ins]. destruct p as [k|]; cbn [app].
    - split; [|constructor; [apply HK|now constructor]]. cbn [numd i_op i_var num_res]. rewrite Nat.add_0_r. auto.
    - split; [cbn [numd]; auto|now constructor].
  Qed.
  Theorem fun_ok (f : adfun b) cmp order n rest : decode (r_op (g_rec f)) (r_arg (g_rec f)) 0 = Some (head_ins n ++ rest) ->
    (forall k i, nth_error (head_ins n ++ rest) k = Some i -> forall j, In j (var_args (i_op i) (i_arg i)) ->
      exists kj ij, kj < k /\ nth_error (head_ins n ++ rest) kj = Some ij /\ 0 < num_res (i_op ij) /\ i_var ij = j) ->
    (forall i, In i (head_ins n ++ rest) -> supp (i_op i) = true /\ length (i_arg i) = n_actual (i_op i) (i_arg i) /\ (i_op i = CExpOp -> nth 0 (i_arg i) 0 < 5)) ->
    (forall v, In v (g_dep f) -> exists i, In i (head_ins n ++ rest) /\ 0 < num_res (i_op i) /\ i_var i = v) ->
    (forall k, In k order -> In k (cexp2op (r_op (g_rec f)))) ->
    exists f', cond_skip cmp order f = Some f' /\ forall x, exists y f1 f2, forward0 f x = Some (y, f1) /\ forward0 f' x = Some (y, f2) /\ (cmp = true -> g_num f2 = g_num f1).
  Proof.
    intros D AA AI AE AO. set (l := head_ins n ++ rest) in *. pose proof (decode_numd _ _ _ _ D) as HN.
    assert (forall i, nth_error l 0 = Some i -> 0 < num_res (i_op i)) as H0 by (intros i Hi; injection Hi as <-; cbn; lia).
    assert (forall k, In k order -> exists i, nth_error l k = Some i /\ i_op i = CExpOp) as HR.
    { intros k Hk. apply AO in Hk. unfold cexp2op in Hk. apply filter_In in Hk as [_ Hk]. rewrite <- (dec_ops _ _ _ _ D), nth_error_map in Hk.
      destruct (nth_error l k) as [i|]; cbn in Hk; [|discriminate]. exists i. split; auto. destruct (i_op i); auto; discriminate. }
    set (st := cusage l cmp (g_dep f)). set (plan := skip_plan l st order 0 l).
    destruct (plan_ok l HN AA H0 order HR st l [] order 0 eq_refl ltac:(left; auto) ltac:(auto)) as [PL _]. fold plan in PL.
    destruct (skip_ins_ok (skip_args l st plan) l) with (plan := plan) (nv := 0) as [N' A']; auto.
    { intros k. unfold skip_args. cbn [n_actual nth app length]. rewrite !app_length. cbn [length]. lia. }
    { apply Forall_forall. intros i Hi. symmetry. now apply AI. }
    unfold cond_skip. rewrite D. eexists. split; [reflexivity|]. intros x. unfold forward0. cbn [g_rec r_op r_arg r_nvar r_vec g_V g_par g_cc g_l2v g_dep]. rewrite D.
    assert (decode (map i_op (cond_skip_ins cmp order (g_dep f) l)) (concat (map i_arg (cond_skip_ins cmp order (g_dep f) l))) 0 = Some (cond_skip_ins cmp order (g_dep f) l)) as ->.
    { apply (decode_adds _ [] [] []); auto. }
    cbv zeta. set (W := set_ind _ 0 x).
    destruct (sim BL EQ0 l HN AA (fun i Hi => proj1 (AI i Hi)) (fun i Hi => proj2 (proj2 (AI i Hi))) H0 cmp (g_dep f) AE order HR (g_par f) W (g_cc f) l [] [] plan (init0 (g_rec f) W (g_l2v f)) (init0 (g_rec f) W (g_l2v f)))
      as (s' & s0' & E1 & E2 & E3); auto.
    { split; [|split; [|split; [|split; [|split]]]]; auto; [intros k i Hk; cbn in Hk; lia|intros q Hq; discriminate Hq]. }
    assert (forall i0, i0 = init0 (g_rec f) W (g_l2v f) -> sweep0 (g_par f) (g_cc f) (cond_skip_ins cmp order (g_dep f) l) 0 i0 = Some s') as E1' by (intros ? ->; exact E1).
    cbn [length] in E2. match goal with |- context [sweep0 _ _ (cond_skip_ins _ _ _ _) 0 ?i] => rewrite (E1' i eq_refl) end. rewrite E2.
    exists (map (f_V s0') (g_dep f)). eexists. eexists. split; [reflexivity|]. destruct E3 as (O & _ & _ & V0 & _ & NU). split.
    - f_equal. f_equal. apply map_ext_in. intros v Hv. destruct (AE v Hv) as (i & Hi & R & <-). apply In_nth_error in Hi as (k & Hk).
      rewrite V0, firstn_all. apply (O k i); auto; [apply nth_error_Some; congruence|]. pose proof (live_dep l cmp (g_dep f) (out l (g_par f) W) _ Hv) as L.
      rewrite (var2op_eq l 0 0 k i HN Hk R) in L. exact L.
    - cbn [g_num]. exact NU.
  Qed.
End Fun.

Section CSkipProp.
  Context {b : base} (BL : base_laws b).
  Notation T := (bt b).
  (** left - right is zero exactly when left == right: not so for two infinities of the same sign *)
  Hypothesis EQ0 : forall x y : T, is0 (b_bin Bsub x y) = b_cmp Ceq x y.
  Variables (tid : nat) (cmp : bool) (n np : nat) (e : nat -> AD b) (ev : nat -> VecAD b) (p : prog T) (V : nat -> T) (l2v : nat -> nat) (f0 f : adfun b) (h : list (call b)).
  (** Any set of conditional expressions in any order.
      Missing: the other parts of the optimization at the same time, atomic functions, orders above zero, VecAD objects. *)
  Theorem conditional_skip_preserves_partial (keep_compare : bool) (order : list nat) :
    recorded tid cmp n np e ev p V l2v f0 -> Forall (sized n np) h -> run f0 h = Some f -> forallb no_vecad (r_op (g_rec f0)) = true ->
    (forall k, In k order -> nth_error (r_op (g_rec f)) k = Some CExpOp) ->
    exists f', cond_skip keep_compare order f = Some f' /\
      forall ds x, exists y f1 f2, forward0 (dyns ds f) x = Some (y, f1) /\ forward0 (dyns ds f') x = Some (y, f2) /\ (keep_compare = true -> g_num f2 = g_num f1).
  Proof.
    intros R S H N OR. destruct (rec_opt_ok BL tid cmp n np e ev p V l2v f0 f h R S H N) as (D2 & rest & O).
    assert (g_rec f = g_rec f0) as GR.
    { destruct R as (T0 & NT & RF & HF). pose proof NT as [NE NV]. destruct (rec_exec tid cmp n np e ev p V l2v f0 RF) as (EX & _ & HP & _).
      assert (dwf (g_rec f0)) as WF by (eapply (dwf_rec tid T0); eauto). destruct (run_inv h f0 f H) as (G1 & _); [now apply w_isd|rewrite HP; apply parok0|]. exact G1. }
    assert (forall l i, decode (r_op (g_rec f)) (r_arg (g_rec f)) 0 = Some l -> In i l -> i_op i = CExpOp -> nth 0 (i_arg i) 0 < 5) as CX.
    { intros l i D Hi. rewrite GR in D. destruct R as (_ & _ & RF & _). now apply (proj1 (recorded_codes tid (fun _ => True) cmp n np e ev p V l2v f0 (dis_any p) RF) l i D Hi). }
    assert (forall ds, exists f', cond_skip keep_compare order (dyns ds f) = Some f' /\ forall x, exists y f1 f2, forward0 (dyns ds f) x = Some (y, f1) /\ forward0 f' x = Some (y, f2) /\ (keep_compare = true -> g_num f2 = g_num f1)) as K.
    { intros ds. destruct (dyns_fields ds f) as (A & _ & B & _). apply (fun_ok BL EQ0 (dyns ds f) keep_compare order n rest); rewrite ?A, ?B; auto.
      - apply (oo_dec _ _ _ _ _ _ O).
      - exact (oo_args _ _ _ _ _ _ O).
      - intros i Hi. pose proof (oo_wf _ _ _ _ _ _ O) as W. rewrite Forall_forall in W. split; [|split].
        + apply in_app_or in Hi as [Hi|Hi]; [|now apply (oo_sup _ _ _ _ _ _ O)]. destruct Hi as [<-|Hi]; auto. apply in_map_iff in Hi as (j & <- & _). reflexivity.
        + now apply W.
        + intros E. exact (CX _ i (oo_dec _ _ _ _ _ _ O) Hi E).
      - apply (oo_dep _ _ _ _ _ _ O).
      - intros k Hk. apply OR in Hk. unfold cexp2op. apply filter_In. split; [apply in_seq; split; [lia|]; apply nth_error_Some; congruence|]. now rewrite Hk. }
    destruct (K []) as (f' & Ef & _). exists f'. split; [exact Ef|]. intros ds x. destruct (K ds) as (f2 & E2 & K2). change (dyns [] f) with f in Ef.
    rewrite (cond_skip_dyns keep_compare order ds f f' Ef) in E2. injection E2 as <-. apply K2.
  Qed.
  (** Hence the function with conditional skips computes the algorithm, as long as the comparisons have the recorded outcome. *)
  Theorem conditional_skip_is_algorithm_partial (keep_compare : bool) (order : list nat) :
    recorded tid cmp n np e ev p V l2v f0 -> Forall (sized n np) h -> run f0 h = Some f -> forallb no_vecad (r_op (g_rec f0)) = true ->
    (forall k, In k order -> nth_error (r_op (g_rec f)) k = Some CExpOp) ->
    exists f', cond_skip keep_compare order f = Some f' /\
      forall ds x, length x = n -> Forall (fun d => length d = np) ds ->
        let s := start (base_values e ev) x (cur_dyn (dyn_values n np e) (h ++ map NewDynamic ds)) in
        decisions p s = decisions p (base_values e ev) -> exists y f2, eval p s = Some y /\ forward0 (dyns ds f') x = Some (y, f2).
  Proof.
    intros R S H N OR. destruct (conditional_skip_preserves_partial keep_compare order R S H N OR) as (f' & A1 & A2). exists f'. split; auto.
    intros ds x Lx LD s D. destruct (A2 ds x) as (y & f1 & f2 & B1 & B2 & _).
    assert (run f0 (h ++ map NewDynamic ds) = Some (dyns ds f)) as RD.
    { clear -H. revert f0 H. induction h as [|c h' IH]; intros f0 H; cbn [run app] in *.
      - injection H as ->. revert f. induction ds as [|d ds IH]; intros f; cbn; auto. apply IH.
      - destruct c; auto. destruct (forward0 f0 x) as [[y g]|]; [auto|discriminate]. }
    assert (Forall (sized n np) (h ++ map NewDynamic ds)) as SD.
    { apply Forall_app. split; auto. apply Forall_map. eapply Forall_impl; [|exact LD]. intros d Hd. exact Hd. }
    pose proof (forward_zero_is_algorithm BL tid cmp n np e ev p V l2v f0 R _ _ x SD RD Lx) as K. cbv zeta in K. fold s in K. specialize (K D).
    destruct (eval p s) as [y'|]; [|congruence]. destruct K as (g' & K). rewrite B1 in K. injection K as -> _. eauto.
  Qed.
End CSkipProp.

(** *** A concrete case: nested conditional expressions with branches that are used nowhere else, one that is used by both, and a comparison *)
Definition cs_p : prog Z :=
  Pstep (Ibin Bmul 3 0 0) (                 (* r3 = x0 * x0            *)
  Pstep (Ibin Bmul 4 3 1) (                 (* r4 = r3 * x1            *)
  Pstep (Ibin Badd 5 0 1) (                 (* r5 = x0 + x1            *)
  Pstep (Iun Ufabs 6 5) (                   (* r6 = |r5|               *)
  Pstep (Icond XLt 7 0 1 4 5) (             (* r7 = x0 < x1 ? r4 : r5  *)
  Pstep (Ibin Bmul 8 7 2) (                 (* r8 = r7 * dyn           *)
  Pstep (Icond XLe 9 0 5 8 6) (             (* r9 = x0 <= r5 ? r8 : r6 *)
  Pif Clt 1 0 (Pret [9; 3]) (Pret [9; 5])))))))).
Notation cs_f := (@record_fun Zbase 7 true 2 1 abs_e ex_ev cs_p (fun _ => (-5)%Z) (fun _ => 0)).
Lemma Zbase_eq0 : forall x y : bt Zbase, is0 (b_bin Bsub x y) = b_cmp Ceq x y.
Proof. intros x y. cbn. destruct (Z.eqb_spec (x - y) 0), (Z.eqb_spec x y); auto; lia. Qed.
(** the hypotheses of the theorem *)
Lemma cs_recorded : exists f, recorded 7 true 2 1 abs_e ex_ev cs_p (fun _ => (-5)%Z) (fun _ => 0) f /\ forallb no_vecad (r_op (g_rec f)) = true /\ cexp2op (r_op (g_rec f)) = [7; 9].
Proof.
  assert (match cs_f with Some f => forallb no_vecad (r_op (g_rec f)) = true /\ cexp2op (r_op (g_rec f)) = [7; 9] | None => False end) as H by (vm_compute; split; reflexivity).
  destruct cs_f as [f|] eqn:E; [|destruct H]. destruct H as (H1 & H2). exists f. split; [|split; auto].
  split; [discriminate|]. split; [split; intros i; cbv; discriminate|]. split; [exact E|]. vm_compute. repeat split; auto; intros; discriminate.
Qed.
(** the operators of the result, and that results which are not needed are not computed (the value of nan remains) *)
Lemma cs_values : match cs_f with Some f => match cond_skip true [7; 9] f with Some f' =>
    r_op (g_rec f) = [BeginOp; InvOp; InvOp; MulvvOp; MulvvOp; AddvvOp; AbsOp; CExpOp; MulpvOp; CExpOp; LtvvOp; EndOp] /\
    r_op (g_rec f') = [BeginOp; InvOp; InvOp; CSkipOp; MulvvOp; MulvvOp; AddvvOp; CSkipOp; AbsOp; CExpOp; MulpvOp; CExpOp; LtvvOp; EndOp] /\
    match forward0 f [2; 1]%Z, forward0 f' [2; 1]%Z with Some (y, f1), Some (y', f2) =>
      y = [12; 4]%Z /\ y' = y /\ map (g_V f1) (seq 3 7) = [4; 4; 3; 3; 3; 12; 12]%Z /\ map (g_V f2) (seq 3 7) = [4; -999; 3; -999; 3; 12; 12]%Z | _, _ => False end /\
    match forward0 f [2; -1]%Z, forward0 f' [2; -1]%Z with Some (y, _), Some (y', f2) => y = [1; 4]%Z /\ y' = y /\ map (g_V f2) (seq 3 7) = [4; -999; 1; 1; -999; -999; 1]%Z | _, _ => False end
  | None => False end | None => False end.
Proof. vm_compute. auto 10. Qed.

(** *** Not for VecAD objects: get_op_usage.hpp:643-679 marks what is stored as used but does not change its set of conditional expressions, so that it is skipped.
    r3 = x0 * x1; v[1] = r3; r4 = v[x0]; r5 = x0 < x1 ? r3 : x0; y = r4 + r5: at (1, 0), v[1] is not computed. *)
Definition csv_p : prog Z :=
  Pstep (Ibin Bmul 3 0 1) (Pstep (Ist 0 2 3) (Pstep (Ild 4 0 0) (Pstep (Icond XLt 5 0 1 3 0) (Pstep (Ibin Badd 6 4 5) (Pret [6]))))).
Definition csv_e : nat -> AD Zbase := fun i => @mkAD Zbase (match i with 0 => 1%Z | 1 => 2%Z | 2 => 1%Z | _ => 0%Z end) 0 0 T_con.
Theorem conditional_skip_vecad_refuted :
  match @record_fun Zbase 7 true 2 0 csv_e ex_ev csv_p (fun _ => (-5)%Z) (fun _ => 0) with
  | Some f => In LdvOp (r_op (g_rec f)) /\
    match cond_skip true (cexp2op (r_op (g_rec f))) f with
    | Some f' => match forward0 f [1; 0]%Z, forward0 f' [1; 0]%Z with Some (y, _), Some (y', _) => y = [1]%Z /\ y' = [-998]%Z | _, _ => False end
    | None => False
    end
  | None => False
  end.
Proof. vm_compute. intuition. Qed.

(** *** Not when left - right is not zero although left == right: integers where the difference of two numbers above 1000 is not a number (here 7),
    as is the difference of two infinities.  x0 == x1 ? x0 * x0 : x1 + x1 *)
Definition Ibase : base := mkBase Z 0%Z 1%Z (-999)%Z (berf (b := Zbase)) (@b_un Zbase)
  (fun o x y => match o with Bsub => if ((1000 <? x) && (1000 <? y))%Z then 7%Z else (x - y)%Z | _ => @b_bin Zbase o x y end) (@b_cmp Zbase) (@b_dis Zbase) (@b_int Zbase)
  (@is0 Zbase) (@is1 Zbase) (@ideq Zbase) (@gtz Zbase) (@gez Zbase) (@bhash Zbase).
Definition csi_p : prog Z := Pstep (Ibin Bmul 3 0 0) (Pstep (Ibin Badd 4 1 1) (Pstep (Icond XEq 5 0 1 3 4) (Pret [5]))).
Theorem conditional_skip_infinity_refuted :
  match @record_fun Ibase 7 true 2 0 (fun i => @mkAD Ibase 1%Z 0 0 T_con) (fun _ => @mkVec Ibase [] 0 0 T_con) csi_p (fun _ => (-5)%Z) (fun _ => 0) with
  | Some f =>
    match cond_skip true (cexp2op (r_op (g_rec f))) f with
    | Some f' => match forward0 f [2000; 2000]%Z, forward0 f' [2000; 2000]%Z with Some (y, _), Some (y', _) => y = [4000000]%Z /\ y' = [-999]%Z | _, _ => False end
    | None => False
    end
  | None => False
  end.
Proof. vm_compute. intuition. Qed.
