(** C25: ADFun::to_graph and ADFun::from_graph keep the function.
    F is any function object obtained from a recording without VecAD operators and any later calls of new_dynamic, Forward(0, x) and compare_change_count;
    [graph_eval] is the meaning of a graph (Graph_Spec). *)
From Coq Require Import ZArith String List Bool Arith Lia.
From Verif Require Import Base_Spec Op_Model Tape_Spec Tape_Model Tape_Proof Tape_Proof5 Tape_Proof10 Tape_Hist Tape_Prop Tape_Swf Tape_Gen Abs_Proof Abs_Proof3 Abs_Prop Opt_Model Opt_Proof Opt_Proof3 Opt_Proof4 Opt_Proof5 Opt_Proof6
  Tape_Codes Graph_Spec Graph_Model Graph_Proof1 Graph_Proof2 Graph_Proof5 Graph_Proof6 Graph_Proof7.
Import ListNotations.

Lemma map_repeat {A B} (f : A -> B) x k : map f (repeat x k) = repeat (f x) k.
Proof. induction k; cbn; congruence. Qed.

Section GraphProp.
  Context {b : base} (BL : base_laws b).
  Notation T := (bt b).
  (** the names of the discrete functions *)
  Variables (reg : list string) (NR : NoDup reg).
  Variables (tid : nat) (cmp : bool) (n np : nat) (e : nat -> AD b) (ev : nat -> VecAD b) (p : prog T) (V : nat -> T) (l2v : nat -> nat) (f0 f : adfun b) (h : list (call b)).

  Lemma rec_nan : record_fun tid cmp n np e ev p V l2v = Some f0 -> exists l, r_par (g_rec f0) = bnan :: l.
  Proof.
    intros RF. destruct (rec_exec tid cmp n np e ev p V l2v f0 RF) as (EX & _).
    assert (exists r1 : rec b, (exists l, r_par r1 = bnan :: l) /\ g_rec f0 = fst (put_op r1 EndOp)) as (r1 & (l & Q) & ->); [|exists l; exact Q].
    apply (Q_exec tid (fun r => exists l, r_par r = bnan :: l)) in EX; auto.
    - intros r v (l & Q). unfold put_con_par. destruct (_ && _); cbn [fst r_par]; [eauto|]. rewrite Q. cbn. eauto.
    - intros r v o a (l & Q) _ _. cbn. rewrite Q. cbn. eauto.
    - destruct (independent_spec tid cmp n np e ev) as ((hh & A) & _). rewrite A. cbn. eauto.
  Qed.
  Lemma rec_graph_ok : recorded tid cmp n np e ev p V l2v f0 -> Forall (sized n np) h -> run f0 h = Some f -> forallb no_vecad (r_op (g_rec f0)) = true ->
    exists D2 rest l0 x, opt_ok f n np D2 (cur_dyn (dyn_values n np e) h) rest /\ g_n f = n /\ rest = l0 ++ [mkIns EndOp [] x] /\ (forall i, In i l0 -> i_op i <> EndOp) /\
      0 < length (r_par (g_rec f)) /\ nth 0 (r_par (g_rec f)) bnan = bnan.
  Proof.
    intros R SZ RH NV. destruct (rec_opt_ok BL tid cmp n np e ev p V l2v f0 f h R SZ RH NV) as (D2 & rest & O). destruct R as (T0 & NT & RF & HF).
    destruct (rec_exec tid cmp n np e ev p V l2v f0 RF) as (EX & HN & HP & _). destruct (end_last _ _ _ _ _ _ _ _ _ EX) as (ops & E1 & E2).
    assert (dwf (g_rec f0)) as WF by (eapply (dwf_rec tid T0); eauto; apply NT).
    destruct (run_inv h f0 f RH) as (G1 & G2 & G3 & G4); [now apply w_isd|rewrite HP; apply parok0|].
    pose proof (dec_ops _ _ _ _ (oo_dec _ _ _ _ _ _ O)) as DO. rewrite G1, E1 in DO.
    assert (rest <> []) as NE.
    { intros ->. rewrite app_nil_r, head_op in DO. destruct n as [|n']; cbn in DO.
      - change [BeginOp] with ([] ++ [BeginOp]) in DO. apply app_inj_tail in DO as [_ DO]. discriminate.
      - rewrite (repeat_cons n' InvOp) in DO. apply (app_inj_tail (BeginOp :: repeat InvOp n') ops InvOp EndOp) in DO as [_ DO]. discriminate. }
    destruct (exists_last NE) as (l0 & [o a x] & ->). rewrite app_assoc, map_app in DO. cbn [map i_op] in DO. apply app_inj_tail in DO as [DO ->].
    pose proof (oo_wf _ _ _ _ _ _ O) as W. rewrite Forall_forall in W. specialize (W (mkIns EndOp a x) ltac:(rewrite app_assoc; apply in_or_app; right; now left)). destruct W as (_ & _ & La & _). cbn in La. destruct a; [|discriminate].
    destruct (rec_nan RF) as (l & El). exists D2, (l0 ++ [mkIns EndOp [] x]), l0, x. split; auto. split; [now rewrite G2|]. split; auto. split.
    - intros i Hi Z. apply E2. rewrite <- DO, <- Z. rewrite map_app. apply in_or_app. right. now apply in_map.
    - rewrite G1, El. cbn. split; [lia|auto].
  Qed.

  (** The graph of a function has the values of the function: at the current values of the dynamic parameters and after any later calls of new_dynamic.
      Missing: cumulative sums (an optimized function), VecAD, atomic functions, print operators; a base type that has nan (see the refutation below);
      that to_graph succeeds. *)
  Theorem to_graph_values_partial g : recorded tid cmp n np e ev p V l2v f0 -> Forall (sized n np) h -> run f0 h = Some f -> forallb no_vecad (r_op (g_rec f0)) = true ->
    to_graph reg np f = Some g ->
    gr_ndyn g = np /\ gr_nvar g = n /\
    (forall x, length x = n -> exists f', forward0 f x = Some (graph_eval reg g (cur_dyn (dyn_values n np e) h ++ x), f')) /\
    forall ds d x, length d = np -> length x = n -> exists f', forward0 (dyns (ds ++ [d]) f) x = Some (graph_eval reg g (d ++ x), f').
  Proof.
    intros R SZ RH NV G. destruct (rec_graph_ok R SZ RH NV) as (D2 & rest & l0 & z & O & Gn & ER & EN & P0 & PN).
    destruct (to_graph_values BL reg NR f n np D2 _ rest l0 z g O Gn ER EN P0 PN G) as (A1 & A2 & A3 & A4). split; auto. split; auto. split; auto. intros x Lx. apply A3; auto.
    assert (forall hs d0, Forall (sized n np) hs -> length d0 = np -> length (@cur_dyn b d0 hs) = np) as K.
    { clear. induction hs as [|c hs IH]; intros d0 F L; cbn; auto. inversion F as [|? ? F1 F2]; subst. destruct c; apply IH; auto. }
    apply K; auto. unfold dyn_values. now rewrite map_length, seq_length.
  Qed.
  (** Hence the graph computes the algorithm, as long as the comparisons have the recorded outcome. *)
  Theorem to_graph_is_algorithm_partial g : recorded tid cmp n np e ev p V l2v f0 -> Forall (sized n np) h -> run f0 h = Some f -> forallb no_vecad (r_op (g_rec f0)) = true ->
    to_graph reg np f = Some g ->
    forall d x, length d = np -> length x = n -> let s := start (base_values e ev) x d in
      decisions p s = decisions p (base_values e ev) -> eval p s = Some (graph_eval reg g (d ++ x)).
  Proof.
    intros R SZ RH NV G d x Ld Lx s D. destruct (to_graph_values_partial g R SZ RH NV G) as (_ & _ & _ & A4). destruct (A4 [] d x Ld Lx) as (f' & E).
    assert (run f0 (h ++ [NewDynamic d]) = Some (new_dynamic f d)) as RD.
    { clear -RH. revert f0 RH. induction h as [|c h' IH]; intros f0 H; cbn [run app] in *.
      - injection H as ->. reflexivity.
      - destruct c; auto. destruct (forward0 f0 x) as [[y g]|]; [auto|discriminate]. }
    assert (Forall (sized n np) (h ++ [NewDynamic d])) as SD by (apply Forall_app; split; auto).
    assert (forall d0, cur_dyn d0 (h ++ [NewDynamic d]) = d) as CD by (clear; induction h as [|c h' IH]; intros d0; cbn; auto; destruct c; auto).
    pose proof (forward_zero_is_algorithm BL tid cmp n np e ev p V l2v f0 R _ _ x SD RD Lx) as K. cbv zeta in K. rewrite CD in K. fold s in K. specialize (K D).
    cbn [dyns fold_left app] in E. destruct (eval p s) as [y'|]; [|rewrite K in E; discriminate]. destruct K as (g' & K). rewrite E in K. injection K as <- _. reflexivity.
  Qed.

  (** The function of a graph has the values of the graph, for any choice of the kinds of its independent nodes.
      Missing: sum operators, atomic functions, print operators; that from_graph succeeds (see the refutation below). *)
  Theorem from_graph_values_partial (V1 : nat -> T) l1 g dyn2var var2dyn f' : forallb nosum (gr_ops g) = true -> from_graph reg V1 l1 g dyn2var var2dyn = Some f' ->
    let kinds := dyn2var ++ map negb var2dyn in let m := count_occ Bool.bool_dec kinds true in
    g_n f' = m /\ length (g_dep f') = length (gr_dep g) /\
    (forall ds d x, length x = m -> exists f2, forward0 (dyns (ds ++ [d]) f') x = Some (graph_eval reg g (indep b0 kinds d x), f2)) /\
    (** without dynamic parameters, new_dynamic is not needed *)
    (forallb (fun k => k) kinds = true -> forall x, length x = m -> exists f2, forward0 f' x = Some (graph_eval reg g x, f2)).
  Proof.
    intros N H. cbv zeta. destruct (from_graph_ok BL reg V1 l1 g dyn2var var2dyn f' N H) as (A1 & A2 & A3 & A4 & A5). split; auto. split; auto. split.
    - intros ds d x Lx. destruct (dyns_inv (ds ++ [d]) f') as (F1 & F2 & F3). apply A5; auto. destruct ds as [|d1 ds].
      + now apply (dyns_pok [] d f').
      + pose proof (dyns_pok (ds ++ [d]) d1 f' A3 A4) as Q. rewrite last_last in Q. exact Q.
    - intros K x Lx. destruct (A5 [] x f' Lx eq_refl eq_refl) as (f2 & E); [apply nody_pok; auto; eapply from_graph_nody; eauto|]. exists f2. rewrite E. do 3 f_equal.
      clear -K Lx. revert x Lx. induction (dyn2var ++ map negb var2dyn) as [|k ks IH]; intros x Lx; cbn in *; [now destruct x|]. apply andb_true_iff in K as [-> K].
      destruct (Bool.bool_dec true true) as [_|Z]; [|now destruct Z]. destruct x as [|y x]; [discriminate|]. cbn [hd tl]. f_equal. apply IH; auto.
  Qed.

  (** Round trip: to_graph followed by from_graph (with the same kinds of independents) gives the same function. *)
  Theorem graph_round_trip_partial (V1 : nat -> T) l1 g f' : recorded tid cmp n np e ev p V l2v f0 -> Forall (sized n np) h -> run f0 h = Some f -> forallb no_vecad (r_op (g_rec f0)) = true ->
    to_graph reg np f = Some g -> from_graph reg V1 l1 g (repeat false np) (repeat false n) = Some f' ->
    g_n f' = g_n f /\ length (g_dep f') = length (g_dep f) /\
    (forall ds d x, length d = np -> length x = n -> exists y f1 f2, forward0 (dyns (ds ++ [d]) f) x = Some (y, f1) /\ forward0 (dyns (ds ++ [d]) f') x = Some (y, f2)) /\
    (np = 0 -> forall x, length x = n -> exists y f1 f2, forward0 f x = Some (y, f1) /\ forward0 f' x = Some (y, f2)).
  Proof.
    intros R SZ RH NV G H. destruct (rec_graph_ok R SZ RH NV) as (D2 & rest & l0 & z & O & Gn & ER & EN & P0 & PN).
    destruct (to_graph_values_partial g R SZ RH NV G) as (_ & _ & A3 & A4).
    assert (count_occ Bool.bool_dec (repeat false np ++ map negb (repeat false n)) true = n) as CO.
    { rewrite map_repeat, count_occ_app. cbn [negb]. clear. induction np as [|k IH]; cbn; auto. induction n as [|k IH]; cbn; auto. }
    assert (forall (d x : list T), length d = np -> length x = n -> indep b0 (repeat false np ++ map negb (repeat false n)) d x = d ++ x) as IN.
    { clear. intros d. rewrite map_repeat. cbn [negb]. revert d. induction np as [|k IH]; intros d x Ld Lx.
      - destruct d; [|discriminate]. cbn. revert x Lx. induction n as [|k IH]; intros [|y x] Lx; try discriminate; cbn; auto. f_equal. apply IH. cbn in Lx. lia.
      - destruct d as [|y d]; [discriminate|]. cbn. f_equal. apply IH; auto. }
    destruct (from_graph_values_partial V1 l1 g _ _ f' (to_graph_nosum reg f n np D2 _ rest g O G) H) as (B1 & B2 & B3 & B4). rewrite CO in *. split; [congruence|]. split; [|split].
    - rewrite B2. unfold to_graph in G. destruct (decode _ _ _); [|discriminate]. destruct (tg_con _ _ _ _ _) as [[? ?] ?]. destruct (tg_dyn _ _ _ _) as [[[? ?] ?]|]; [|discriminate].
      destruct (tg_ops _ _ _ _ _) as [[? ?]|]; [|discriminate]. injection G as <-. cbn. now rewrite map_length.
    - intros ds d x Ld Lx. destruct (A4 ds d x Ld Lx) as (f1 & E1). destruct (B3 ds d x Lx) as (f2 & E2). rewrite IN in E2 by auto. eauto 6.
    - intros Z x Lx. destruct (A3 x Lx) as (f1 & E1). assert (forallb (fun k => k) (repeat false np ++ map negb (repeat false n)) = true) as KT by (rewrite Z, map_repeat; cbn; clear; induction n as [|k IH]; cbn; auto). destruct (B4 KT x Lx) as (f2 & E2). exists (graph_eval reg g x), f1, f2. split; auto. rewrite E1. 
      assert (length (cur_dyn (dyn_values n np e) h) = 0) as L0.
      { assert (forall hs d0, Forall (sized n np) hs -> length d0 = np -> length (@cur_dyn b d0 hs) = np) as K.
        { clear. induction hs as [|c hs IH]; intros d0 F L; cbn; auto. inversion F as [|? ? F1 F2]; subst. destruct c; apply IH; auto. }
        rewrite K; auto. unfold dyn_values. now rewrite map_length, seq_length. }
      destruct (cur_dyn _ _); [reflexivity|discriminate].
  Qed.
  Lemma to_graph_some_codes : recorded tid cmp n np e ev p V l2v f0 -> Forall (sized n np) h -> run f0 h = Some f -> forallb no_vecad (r_op (g_rec f0)) = true ->
    (forall l i, decode (r_op (g_rec f)) (r_arg (g_rec f)) 0 = Some l -> In i l -> (i_op i = CExpOp -> nth 0 (i_arg i) 0 < 5) /\ (i_op i = DisOp -> nth 0 (i_arg i) 0 < length reg)) ->
    (forall d, In d (dentries (g_rec f)) -> (snd (fst d) = cond_exp_dyn -> nth 0 (snd d) 0 < 5) /\ (snd (fst d) = dis_dyn -> nth 0 (snd d) 0 < length reg)) ->
    exists g, to_graph reg np f = Some g.
  Proof.
    intros R SZ RH NV H1 H2. destruct (rec_graph_ok R SZ RH NV) as (D2 & rest & l0 & z & O & Gn & ER & EN & P0 & PN).
    eapply to_graph_some; eauto. intros i Hi. apply (H1 _ i (oo_dec _ _ _ _ _ _ O)). apply in_or_app. now right.
  Qed.
  (** When the conversions succeed: to_graph, if the discrete functions that the program uses are registered (every conditional expression that is recorded
      has one of the five codes); *)
  Theorem to_graph_total : recorded tid cmp n np e ev p V l2v f0 -> Forall (sized n np) h -> run f0 h = Some f -> forallb no_vecad (r_op (g_rec f0)) = true ->
    Tape_GenC.dis_in (fun k => k < length reg) p -> exists g, to_graph reg np f = Some g.
  Proof.
    intros R SZ RH NV DI.
    assert (g_rec f = g_rec f0) as GR.
    { destruct R as (T0 & NT & RF & HF). pose proof NT as [NE NVv]. destruct (rec_exec tid cmp n np e ev p V l2v f0 RF) as (EX & _ & HP & _).
      assert (dwf (g_rec f0)) as WF by (eapply (dwf_rec tid T0); eauto). destruct (run_inv h f0 f RH) as (G1 & _); [now apply w_isd|rewrite HP; apply parok0|]. exact G1. }
    assert (record_fun tid cmp n np e ev p V l2v = Some f0) as RF by apply R. destruct (recorded_codes tid _ cmp n np e ev p V l2v f0 DI RF) as [A B].
    apply to_graph_some_codes; auto; rewrite GR; auto.
  Qed.
  (** from_graph, if the operators have the right number of arguments, which are earlier nodes, the discrete functions are registered and there are no comparisons *)
  Theorem from_graph_total_partial (V1 : nat -> T) l1 (g : graph b) dyn2var var2dyn : length dyn2var = gr_ndyn g -> length var2dyn = gr_nvar g ->
    let nn := 1 + gr_ndyn g + gr_nvar g + length (gr_con g) in uses_ok reg nn (gr_ops g) -> (forall k, In k (gr_dep g) -> k < nn + length (gr_ops g)) ->
    exists f', from_graph reg V1 l1 g dyn2var var2dyn = Some f'.
  Proof. apply from_graph_some. exact NR. Qed.
End GraphProp.

(** *** A concrete case: dynamic parameters, a discrete function, a conditional expression, comparisons, constants *)
Definition gr_p : prog Z :=
  Pstep (Ibin Bmul 4 0 2) (                 (* r4 = x0 * dyn            *)
  Pstep (Ibin Bsub 5 1 3) (                 (* r5 = x1 - 10             *)
  Pstep (Iun Uneg 6 5) (
  Pstep (Idis 0 7 6) (
  Pstep (Ibin Badd 8 2 3) (                 (* r8 = dyn + 10 (dynamic)  *)
  Pstep (Icond XLt 9 0 8 7 4) (             (* r9 = x0 < r8 ? r7 : r4   *)
  Pif Clt 1 0 (Pret [9; 8; 4; 3]) (Pret [4]))))))).
Definition gr_e : nat -> AD Zbase := fun i => @mkAD Zbase (match i with 0 => 2%Z | 1 => 1%Z | 2 => 4%Z | 3 => 10%Z | _ => 0%Z end) 0 0 T_con.
Notation gr_f := (@record_fun Zbase 7 true 2 1 gr_e ex_ev gr_p (fun _ => (-5)%Z) (fun _ => 0)).
Definition gr_reg : list string := ["f"; "g"]%string.
Lemma ex_graph_recorded : exists f, recorded 7 true 2 1 gr_e ex_ev gr_p (fun _ => (-5)%Z) (fun _ => 0) f /\ forallb no_vecad (r_op (g_rec f)) = true.
Proof.
  assert (match gr_f with Some f => forallb no_vecad (r_op (g_rec f)) = true | None => False end) as H by (vm_compute; reflexivity).
  destruct gr_f as [f|] eqn:E; [|destruct H]. exists f. split; [|exact H]. split; [discriminate|]. split; [split; intros i; cbv; discriminate|]. split; [exact E|].
  vm_compute. repeat split; auto; intros; discriminate.
Qed.
Lemma ex_graph_values : match gr_f with Some f =>
    match to_graph gr_reg 1 f with
    | Some g =>
      gr_con g = [10]%Z /\ map gu_op (gr_ops g) = [Gbin Badd; Gbin Bmul; Gbin Bsub; Gun Uneg; Gdis "f"; Gcexp GLt; Gcomp HLt] /\
      match @from_graph Zbase gr_reg (fun _ => 7%Z) (fun _ => 0) g [false] [false; false] with
      | Some f' =>
        g_n f' = 2 /\
        match forward0 (@dyns Zbase [[3%Z]] f) [20; 6]%Z, forward0 (@dyns Zbase [[3%Z]] f') [20; 6]%Z with
        | Some (y, _), Some (y', _) => y = [60; 13; 60; 10]%Z /\ y' = y /\ y = graph_eval gr_reg g [3; 20; 6]%Z
        | _, _ => False
        end
      | None => False
      end
    | None => False
    end
  | None => False end.
Proof. vm_compute. auto 12. Qed.

(** *** from_graph fails for a comparison with a constant: parameter_x is empty when it is used (from_graph.hpp:458, 463); y = x0 < 10 ? x0 * x1 : x1 with an if statement *)
Definition cmpc_p : prog Z := Pif Clt 0 3 (Pstep (Ibin Bmul 4 0 1) (Pret [4])) (Pret [1]).
Theorem from_graph_compare_refuted :
  match @record_fun Zbase 7 true 2 1 gr_e ex_ev cmpc_p (fun _ => (-5)%Z) (fun _ => 0) with
  | Some f =>
    match to_graph gr_reg 1 f with
    | Some g => map gu_op (gr_ops g) = [Gcomp HLt; Gbin Bmul] /\ @from_graph Zbase gr_reg (fun _ => 7%Z) (fun _ => 0) g [false] [false; false] = None
    | None => False
    end
  | None => False
  end.
Proof. vm_compute. auto. Qed.

(** the discrete function of the program is registered, so that to_graph succeeds *)
Lemma ex_graph_total : Tape_GenC.dis_in (b := Zbase) (fun k => k < length gr_reg) gr_p /\ ~ Tape_GenC.dis_in (b := Zbase) (fun k => k < 0) gr_p.
Proof. cbn. repeat split; auto; try lia. Qed.

(** *** The laws of the base type are needed: with a nan, for which every comparison is false except "not equal", to_graph changes a conditional expression.
    CondExpGe(x0, x1, a, b) becomes cexp_lt(x0, x1, b, a); for nan the first one is b and the second one a. *)
Definition N_cmp (c : cmpop) (x y : Z) : bool :=
  if ((x =? -999) || (y =? -999))%Z then match c with Cne => true | _ => false end else Z_cmp c x y.
Definition Nbase : base := mkBase Z 0%Z 1%Z (-999)%Z 2%Z Z_un Z_bin N_cmp
  (fun k x => (x / 2 + Z.of_nat k)%Z) (fun x => x) (fun x => (x =? 0)%Z) (fun x => (x =? 1)%Z) Z.eqb (fun x => (0 <? x)%Z) (fun x => (0 <=? x)%Z) (fun x => Z.to_nat (x mod 97)).
Definition ge_p : prog Z := Pstep (Ibin Badd 3 0 1) (Pstep (Ibin Bsub 4 0 1) (Pstep (Icond XGe 5 0 1 3 4) (Pret [5]))).
Definition ge_e : nat -> AD Nbase := fun i => @mkAD Nbase (match i with 0 => 2%Z | 1 => 1%Z | _ => 0%Z end) 0 0 T_con.
Definition ge_ev : nat -> VecAD Nbase := fun _ => @mkVec Nbase [] 0 0 T_con.
Theorem to_graph_nan_refuted :
  match @record_fun Nbase 7 true 2 0 ge_e ge_ev ge_p (fun _ => (-5)%Z) (fun _ => 0) with
  | Some f =>
    match @to_graph Nbase gr_reg 0 f with
    | Some g =>
      match @forward0 Nbase f [-999; 1]%Z with
      | Some (y, _) => y = [-1000]%Z /\ @graph_eval Nbase gr_reg g [-999; 1]%Z = [-998]%Z
      | None => False
      end
    | None => False
    end
  | None => False
  end.
Proof. vm_compute. auto. Qed.
