(** C23: fold_con keeps the results of a tape without comparisons, prints and dynamic vectors. *)
From Coq Require Import List Bool Arith Lia.
From Verif Require Import VG_Model VG_Proof VG_Dead VG_Renum.
Import ListNotations.

Section VG.
  Context {A : Type} (B : vbase A) (LW : vlaws B).
  Notation nan := (v_nan B).

  (** operators that fold_con accepts (fold_con.hpp:172-175), loads left out *)
  Definition plain_op (o : vop A) : bool := match o with VComp _ _ _ | VPri _ _ _ _ | VVec _ _ | VLoad _ _ | VStore _ _ _ => false | _ => true end.
  Definition plain (l : list (vop A)) : Prop := Forall (fun o => plain_op o = true) l.
  Lemma plain_novec l : plain l -> novec l.
  Proof. apply Forall_impl. intros []; cbn; auto; discriminate. Qed.
  Lemma ev_plain n s o : plain_op o = true -> ev_op B n s o = match rds (op_vals o) (s_val s) with Some xs => match sem B o xs with Some r => Some (put_val s r) | None => None end | None => None end.
  Proof. destruct o; try discriminate; reflexivity. Qed.

  Section Sim.
    Variables (n nv : nat) (Vs Cs x : list A).
    Hypothesis LV : length Vs = nv.
    Hypothesis LC : length Cs = nv.
    Record core (s : fst_ (A := A)) (ns : vst A) : Prop := {
      c_ev : ev_ops B n (mkVS x [] 0 []) (f_ops s) = Some ns;
      c_len : length (s_val ns) = f_nval s;
      c_cf : s_cf ns = 0; c_out : s_out ns = [];
      c_nan : nth_error (s_val ns) n = Some nan;
      c_wf : exists l, f_ops s = VCon nan :: l /\ wf_ops B (n + 1) l /\ plain l /\ n + 1 + list_sum (map n_res l) = f_nval s }.
    Record mp (s : fst_ (A := A)) (vals : list A) (r : nat) : Prop := {
      m_new : length (f_new s) = r; m_con : length (f_con s) = r;
      m_val : forall v, v < r -> nth_error vals (nth v (f_new s) 0) = nth_error Vs v;
      m_cst : forall v, v < r -> nth v (f_con s) false = true -> nth_error Cs v = nth_error Vs v }.

    Lemma mp_ext s s' vals w r : mp s vals r -> r <= nv -> f_new s' = f_new s -> f_con s' = f_con s -> mp s' (vals ++ w) r.
    Proof.
      intros M Hr E1 E2. destruct M. constructor; rewrite ?E1, ?E2; auto. intros v Hv. specialize (m_val0 v Hv). rewrite <- m_val0. apply nth_error_app1. apply nth_error_Some. rewrite m_val0. apply nth_error_Some. lia.
    Qed.
    Lemma mp_push s vals r q k : mp s vals r -> nth_error vals q = nth_error Vs r -> (k = true -> nth_error Cs r = nth_error Vs r) -> mp (f_push s q k) vals (S r).
    Proof.
      intros M Hq Hk. destruct M. constructor; cbn [f_push f_new f_con]; rewrite ?app_length; cbn [length]; try lia.
      - intros v Hv. destruct (Nat.eq_dec v r) as [->|]; [rewrite app_nth2, m_new0, Nat.sub_diag by lia; auto|]. rewrite app_nth1 by lia. apply m_val0. lia.
      - intros v Hv. destruct (Nat.eq_dec v r) as [->|]; [rewrite app_nth2, m_con0, Nat.sub_diag by lia; auto|]. rewrite app_nth1 by lia. apply m_cst0. lia.
    Qed.
    Lemma core_put s ns o' ys : core s ns -> plain_op o' = true -> wf_op B (f_nval s) o' -> ev_op B n ns o' = Some (put_val ns ys) -> length ys = n_res o' ->
      core (mkF (f_ops s ++ [o']) (f_nval s + n_res o') (f_new s) (f_con s)) (put_val ns ys).
    Proof.
      intros C P W E L. destruct C. constructor; cbn [f_ops f_nval put_val s_val s_cf s_out]; auto.
      - rewrite ev_ops_app, c_ev0. cbn [ev_ops]. now rewrite E.
      - rewrite app_length. lia.
      - rewrite nth_error_app1; auto. apply nth_error_Some. congruence.
      - destruct c_wf0 as (l & L1 & L2 & L3 & L4). exists (l ++ [o']). rewrite L1. split; [reflexivity|]. split; [|split].
        + apply wf_ops_app. split; auto. cbn [wf_ops]. rewrite L4. auto.
        + unfold plain in *. apply Forall_app. auto.
        + rewrite map_app, list_sum_app. cbn. unfold list_sum in *. lia.
    Qed.
    Lemma put_con_ok s ns c v s1 r : core s ns -> mp s (s_val ns) r -> r <= nv -> f_put_con B n s c = (v, s1) ->
      exists ns1, core s1 ns1 /\ mp s1 (s_val ns1) r /\ nth_error (s_val ns1) v = Some c.
    Proof.
      intros C M Hr. unfold f_put_con. destruct (v_isnan B c) eqn:N; intros H; injection H as <- <-.
      - exists ns. split; auto. split; auto. rewrite (c_nan _ _ C). now rewrite (l_isnan B LW c N).
      - exists (put_val ns [c]). split; [|split].
        + pose proof (core_put s ns (VCon c) [c] C eq_refl) as P. cbn [n_res] in P. rewrite Nat.add_1_r in P. apply P; auto. split; [constructor|auto].
        + cbn [put_val s_val]. eapply mp_ext; eauto.
        + cbn [put_val s_val]. rewrite nth_error_app2, (c_len _ _ C), Nat.sub_diag by (rewrite (c_len _ _ C); lia). reflexivity.
    Qed.
    Lemma f_res_ok ty : forall s ns r q, core s ns -> mp s (s_val ns) r -> r + length ty <= nv ->
      (forall y, y < length ty -> nth_error (s_val ns) (q + y) = nth_error Vs (r + y)) ->
      (forall y, nth y ty false = true -> nth_error Cs (r + y) = nth_error Vs (r + y)) ->
      exists ns', core (f_res B n Cs s r q ty) ns' /\ mp (f_res B n Cs s r q ty) (s_val ns') (r + length ty).
    Proof.
      induction ty as [|b ty IH]; intros s ns r q C M Hr H1 H2; cbn [f_res length] in *; [exists ns; now rewrite Nat.add_0_r|].
      assert (forall y, nth y ty false = true -> nth_error Cs (S r + y) = nth_error Vs (S r + y)) as H2' by (intros y Hy; specialize (H2 (S y) Hy); now rewrite Nat.add_succ_r in H2).
      pose proof (H1 0 ltac:(lia)) as H10. rewrite !Nat.add_0_r in H10.
      assert (r < nv) as Hrn by lia. replace (r + S (length ty)) with (S r + length ty) by lia.
      destruct b.
      - pose proof (H2 0 eq_refl) as H20. rewrite !Nat.add_0_r in H20. destruct (f_put_con B n s (nth r Cs nan)) as [v s1] eqn:EP. destruct (put_con_ok s ns _ v s1 r C M ltac:(lia) EP) as (ns1 & C1 & M1 & N1).
        assert (exists w, s_val ns1 = s_val ns ++ w) as (w & Hw).
        { unfold f_put_con in EP. destruct (v_isnan B (nth r Cs nan)); injection EP as <- <-.
          - pose proof (c_ev _ _ C). rewrite (c_ev _ _ C1) in H. injection H as <-. exists []. now rewrite app_nil_r.
          - pose proof (c_ev _ _ C1) as E. cbn [f_ops] in E. rewrite ev_ops_app, (c_ev _ _ C) in E. cbn in E. injection E as <-. eexists. reflexivity. }
        apply (IH (f_push s1 v true) ns1 (S r) (S q)).
        + destruct C1; constructor; auto.
        + apply mp_push; auto. rewrite N1, <- H20. symmetry. apply nth_error_nth'. lia.
        + lia.
        + intros y Hy. specialize (H1 (S y) ltac:(lia)). rewrite !Nat.add_succ_r in H1. cbn [Nat.add]. rewrite <- H1, Hw. apply nth_error_app1. apply nth_error_Some. rewrite H1. apply nth_error_Some. lia.
        + auto.
      - apply (IH (f_push s q false) ns (S r) (S q)).
        + destruct C; constructor; auto.
        + apply mp_push; auto. discriminate.
        + lia.
        + intros y Hy. specialize (H1 (S y) ltac:(lia)). now rewrite !Nat.add_succ_r in H1.
        + auto.
    Qed.

    Lemma rds_cst s r vals l xs : mp s vals r -> Forall (fun v => v < r) l -> forallb (fun v => nth v (f_con s) false) l = true -> rds l Vs = Some xs -> rds l Cs = Some xs.
    Proof.
      intros M W F E. rewrite <- E. rewrite <- (map_id l) at 1. apply rds_map. intros v Hv. rewrite forallb_forall in F. rewrite Forall_forall in W. apply (m_cst _ _ _ M); auto.
    Qed.

    Lemma fc_op_ok i r o s ns : core s ns -> mp s (s_val ns) r -> r + n_res o <= nv -> wf_op B r o -> plain_op o = true -> sat B Vs r o -> sat B Cs r o ->
      exists s' ns', fc_op B n Cs s (i, r, o) = Some s' /\ core s' ns' /\ mp s' (s_val ns') (r + n_res o).
    Proof.
      intros C M Hr W P SV SC. set (g := fun v => nth v (f_new s) 0).
      assert (forall v, In v (op_vals o) -> v < r) as W1 by (destruct W as [W _]; now rewrite Forall_forall in W).
      assert (exists xs ys, rds (op_vals o) Vs = Some xs /\ sem B o xs = Some ys /\ forall k, k < n_res o -> nth_error Vs (r + k) = nth_error ys k) as (xs & ys & X & Y & Z) by (destruct o; try discriminate P; exact SV).
      assert (exists xc yc, rds (op_vals o) Cs = Some xc /\ sem B o xc = Some yc /\ forall k, k < n_res o -> nth_error Cs (r + k) = nth_error yc k) as (xc & yc & Xc & Yc & Zc) by (destruct o; try discriminate P; exact SC).
      assert (length ys = n_res o) as LY by (eapply (sem_length B True); eauto).
      (* a constant result *)
      assert (n_res o = 1 -> nth_error Cs r = nth_error Vs r -> exists s' ns', (let (v, s1) := f_put_con B n s (nth r Cs nan) in Some (f_push s1 v true)) = Some s' /\ core s' ns' /\ mp s' (s_val ns') (r + n_res o)) as PC.
      { intros N1 EC. destruct (f_put_con B n s (nth r Cs nan)) as [v s1] eqn:EP. destruct (put_con_ok s ns _ v s1 r C M ltac:(lia) EP) as (ns1 & C1 & M1 & N2).
        exists (f_push s1 v true), ns1. split; auto. split; [destruct C1; constructor; auto|]. rewrite N1, Nat.add_1_r. apply mp_push; auto. rewrite N2, <- EC. symmetry. apply nth_error_nth'. lia. }
      (* the operator *)
      set (s1 := mkF (f_ops s ++ [map_vals g o]) (f_nval s + n_res o) (f_new s) (f_con s)).
      assert (core s1 (put_val ns ys)) as C1.
      { unfold s1. rewrite <- (n_res_map g o). apply core_put; auto.
        - destruct o; try discriminate P; reflexivity.
        - split; [|destruct W as [_ W]; destruct o; try discriminate P; auto]. rewrite op_vals_map. apply Forall_forall. intros w Hw. apply in_map_iff in Hw as (v & <- & Hv).
          rewrite <- (c_len _ _ C). apply nth_error_Some. unfold g. rewrite (m_val _ _ _ M) by auto. apply nth_error_Some. specialize (W1 v Hv). lia.
        - rewrite ev_plain by (destruct o; try discriminate P; reflexivity). rewrite op_vals_map. rewrite (rds_map g (op_vals o) Vs) by (intros v Hv; apply (m_val _ _ _ M); auto). rewrite X, sem_map, Y. reflexivity.
        - now rewrite n_res_map. }
      assert (mp s1 (s_val (put_val ns ys)) r) as M1 by (cbn [put_val s_val]; eapply mp_ext; eauto; lia).
      assert (forall k, k < n_res o -> nth_error (s_val (put_val ns ys)) (f_nval s + k) = nth_error Vs (r + k)) as ZN.
      { intros k Hk. cbn [put_val s_val]. rewrite nth_error_app2 by (rewrite (c_len _ _ C); lia). rewrite (c_len _ _ C). replace (f_nval s + k - f_nval s) with k by lia. symmetry. auto. }
      assert (n_res o = 1 -> exists s' ns', Some (f_push (mkF (f_ops s ++ [map_vals g o]) (f_nval s + 1) (f_new s) (f_con s)) (f_nval s) false) = Some s' /\ core s' ns' /\ mp s' (s_val ns') (r + n_res o)) as PO.
      { intros N1. exists (f_push s1 (f_nval s) false), (put_val ns ys). split; [unfold s1; now rewrite N1|]. split; [destruct C1; constructor; auto|]. rewrite N1, Nat.add_1_r. apply mp_push; auto; [|discriminate].
        specialize (ZN 0 ltac:(lia)). now rewrite !Nat.add_0_r in ZN. }
      assert (n_res o = 1 -> forallb (fun v => nth v (f_con s) false) (op_vals o) = true -> nth_error Cs r = nth_error Vs r) as CO.
      { intros N1 F. pose proof (rds_cst s r _ _ _ M (proj1 W) F X) as Xc'. rewrite Xc in Xc'. injection Xc' as ->. rewrite Y in Yc. injection Yc as <-.
        specialize (Z 0 ltac:(lia)). specialize (Zc 0 ltac:(lia)). rewrite Nat.add_0_r in Z, Zc. congruence. }
      destruct o; try discriminate P; cbn [fc_op]; try (cbn [n_res] in *; destruct (forallb _ _) eqn:F; [apply PC; auto|apply PO; auto]; fail).
      - (* con *) apply PC; auto.
      - (* call *) cbn [n_res op_vals] in *. destruct (Nat.eqb_spec nres 1) as [->|N1]; [destruct (forallb _ _) eqn:F; [apply PC; auto|apply PO; auto]|].
        set (ty := v_ftype B atom id (map (fun v => nth v Cs nan) xs0) (map (fun v => nth v (f_con s) false) xs0) nres).
        assert (length ty = nres) as LT by apply (l_ftlen B LW).
        destruct (f_res_ok ty s1 (put_val ns ys) r (f_nval s) C1 M1) as (ns' & C2 & M2); [lia|rewrite LT; auto| |rewrite LT in M2; exists (f_res B n Cs s1 r (f_nval s) ty), ns'; auto].
        intros y Hy. destruct (Nat.lt_ge_cases y nres) as [Hyn|Hyn]; [|rewrite nth_overflow in Hy by lia; discriminate].
        cbn in Y, Yc. injection Y as <-. injection Yc as <-. rewrite Z, Zc by auto. rewrite (nth_error_nth' _ nan) by (rewrite (l_call B LW); auto). rewrite (nth_error_nth' _ nan) by (rewrite (l_call B LW); auto). f_equal.
        destruct (rds_spec B _ _ _ X) as [LX KX]. destruct (rds_spec B _ _ _ Xc) as [LXc KXc].
        assert (xc = map (fun v => nth v Cs nan) xs0) as EXc. { clear - Xc. revert xc Xc. induction xs0 as [|v l IH]; cbn; intros xc H; [now injection H|]. destruct (nth_error Cs v) eqn:E; [|discriminate]. destruct (rds l Cs); [|discriminate]. injection H as <-. f_equal; auto. symmetry. now apply nth_error_nth. }
        symmetry. apply (l_ftype B LW atom id nres xc (map (fun v => nth v (f_con s) false) xs0) xs); [lia|rewrite map_length; lia| |].
        + intros k Hk. destruct (Nat.lt_ge_cases k (length xs0)) as [Hx|Hx]; [|rewrite !nth_overflow by lia; auto].
          rewrite nth_indep with (d' := nth 0 (f_con s) false) in Hk by (rewrite map_length; auto). rewrite (map_nth (fun v => nth v (f_con s) false)) in Hk.
          specialize (KX k Hx). specialize (KXc k Hx). rewrite (m_cst _ _ _ M) in KXc; auto; [congruence|]. apply W1. now apply nth_In.
        + rewrite EXc. exact Hy.
    Qed.
    Lemma fc_ops_ok l : forall i r s ns, core s ns -> mp s (s_val ns) r -> r + list_sum (map n_res l) <= nv -> wf_ops B r l -> plain l ->
      (forall e, In e (pos i r l) -> sat B Vs (snd (fst e)) (snd e) /\ sat B Cs (snd (fst e)) (snd e)) ->
      exists s' ns', fc_ops B n Cs s (pos i r l) = Some s' /\ core s' ns' /\ mp s' (s_val ns') (r + list_sum (map n_res l)).
    Proof.
      induction l as [|o l IH]; intros i r s ns C M Hr W P S; cbn [pos fc_ops map list_sum fold_right] in *; [exists s, ns; now rewrite Nat.add_0_r|]. fold (list_sum (map n_res l)) in *.
      destruct W as [W1 W2]. pose proof (Forall_inv P) as P1. pose proof (Forall_inv_tail P) as P2. cbv beta in P1. destruct (S (i, r, o)) as [S1 S2]; [now left|]. cbn [fst snd] in S1, S2.
      destruct (fc_op_ok i r o s ns C M ltac:(lia) W1 P1 S1 S2) as (s1 & ns1 & -> & C1 & M1). rewrite Nat.add_assoc. apply (IH (Datatypes.S i) _ s1 ns1); auto; [lia|]. intros e He. apply S. now right.
    Qed.
  End Sim.

  Theorem fold_con_correct t : wf_tape B t -> plain (t_ops t) ->
    exists t', fold_con B t = Some t' /\ t_nind t' = t_nind t /\ wf_tape B t' /\ plain (t_ops t') /\
      forall x, length x = t_nind t -> exists y, result B t x = Some (y, 0, []) /\ result B t' x = Some (y, 0, []).
  Proof.
    intros WT P. pose proof (plain_novec _ P) as V. pose proof WT as (l & E & W & D). set (n := t_nind t) in *.
    assert (n_val t = n + 1 + list_sum (map n_res l)) as NV by (unfold n_val; rewrite E; cbn; unfold list_sum; fold n; lia).
    assert (plain l) as PL by (rewrite E in P; now inversion P). assert (novec l) as VL by now apply plain_novec.
    destruct (eval_ok B LW t (repeat nan n) WT V (repeat_length _ _)) as (c & EC & LC & _).
    unfold fold_con. fold n. rewrite EC, E. cbn [pos tl n_res].
    set (s0 := mkF [VCon nan] (n + 1) (seq 0 (n + 1)) (repeat false n ++ [true])).
    assert (forall x s, length x = n -> eval B t x = Some s -> forall e, In e (pos 1 (n + 1) l) -> sat B (s_val s) (snd (fst e)) (snd e)) as ST.
    { intros x s Hx ES. unfold eval in ES. rewrite E in ES. change (ev_ops B n (mkVS (x ++ [nan]) [] 0 []) l = Some s) in ES.
      assert (n + 1 = length (s_val (mkVS (x ++ [nan]) [] 0 []))) as LL by (cbn; rewrite app_length; cbn; lia). rewrite LL in *. eapply ev_sat; eauto. }
    assert (forall x s, length x = n -> eval B t x = Some s -> length (s_val s) = n_val t -> (exists r, s_val s = x ++ nan :: r) -> exists s' ns, fc_ops B n (s_val c) s0 (pos 1 (n + 1) l) = Some s' /\ core n x s' ns /\ mp (s_val s) (s_val c) s' (s_val ns) (n_val t)) as Q.
    { intros x s Hx ES LS (r & ER). rewrite NV. apply (fc_ops_ok n (n_val t) (s_val s) (s_val c) x LS LC l 1 (n + 1) s0 (mkVS (x ++ [nan]) [] 0 [])); auto; try lia.
      - unfold s0. constructor; cbn [f_ops f_nval s_val s_cf s_out]; auto.
        + rewrite app_length; cbn; lia.
        + rewrite nth_error_app2 by lia. now rewrite Hx, Nat.sub_diag.
        + exists []. split; [auto|split; [exact I|split; [constructor|cbn; lia]]].
      - unfold s0. constructor; cbn [f_new f_con s_val].
        + now rewrite seq_length.
        + rewrite app_length, repeat_length. auto.
        + intros v Hv. rewrite seq_nth by auto. cbn [Nat.add]. rewrite ER. destruct (Nat.eq_dec v n) as [->|]; [rewrite !nth_error_app2 by lia; now rewrite Hx, Nat.sub_diag|]. rewrite !nth_error_app1 by lia. auto.
        + intros v Hv Hc. destruct (Nat.eq_dec v n) as [->|].
          * rewrite ER. rewrite nth_error_app2, Hx, Nat.sub_diag by lia. cbn [nth_error].
            destruct (eval_ok B LW t (repeat nan n) WT V (repeat_length _ _)) as (c' & EC' & _ & (r' & ER') & _). rewrite EC in EC'. injection EC' as <-. rewrite ER', nth_error_app2, repeat_length, Nat.sub_diag by (rewrite repeat_length; lia). reflexivity.
          * rewrite app_nth1 in Hc by (rewrite repeat_length; lia). rewrite nth_repeat in Hc. discriminate.
      - intros e He. split; [eapply ST; eauto|]. eapply (ST (repeat nan n)); eauto. apply repeat_length. }
    destruct (eval_ok B LW t (repeat nan n) WT V (repeat_length _ _)) as (c' & EC' & LC' & RC' & _). destruct (Q (repeat nan n) c' (repeat_length _ _) EC' LC' RC') as (s' & ns & F & C & M).
    rewrite F. eexists. split; [reflexivity|]. split; [reflexivity|]. destruct (c_wf _ _ _ _ C) as (l' & L1 & L2 & L3 & L4).
    rewrite Forall_forall in D. split; [|split].
    - exists l'. cbn [t_ops t_nind t_dep]. split; auto. split; auto. apply Forall_forall. intros w Hw. apply in_map_iff in Hw as (d & <- & Hd).
      unfold n_val. cbn [t_nind t_ops]. rewrite L1. cbn [map n_res list_sum fold_right]. fold (list_sum (map n_res l')). replace (n + (1 + list_sum (map n_res l'))) with (f_nval s') by lia. rewrite <- (c_len _ _ _ _ C).
      apply nth_error_Some. rewrite (m_val _ _ _ _ _ M) by auto. apply nth_error_Some. rewrite LC'. auto.
    - cbn [t_ops]. rewrite L1. constructor; auto.
    - intros x Hx. destruct (eval_ok B LW t x WT V Hx) as (s & ES & LS & RS & _). destruct (Q x s Hx ES LS RS) as (s2 & ns2 & F2 & C2 & M2). rewrite F in F2. injection F2 as <-.
      destruct (rds_ok (t_dep t) (s_val s)) as (y & EY). { apply Forall_forall. intros d Hd. rewrite LS. auto. }
      exists y. assert (s_cf s = 0 /\ s_out s = []) as [Z1 Z2].
      { assert (forall l0 s1 s2, plain l0 -> ev_ops B n s1 l0 = Some s2 -> s_cf s2 = s_cf s1 /\ s_out s2 = s_out s1) as K.
        { clear. induction l0 as [|o l0 IH]; cbn; intros s1 s2 HP H; [injection H as <-; auto|]. inversion HP; subst. rewrite ev_plain in H by auto. destruct (rds _ _); [|discriminate]. destruct (sem _ _ _); [|discriminate]. apply IH in H; auto. }
        destruct (K (t_ops t) (mkVS x [] 0 []) s P ES) as [K1 K2]. auto. }
      unfold result. rewrite ES, EY, Z1, Z2. split; auto. unfold eval. cbn [t_nind t_ops t_dep]. rewrite (c_ev _ _ _ _ C2). rewrite (rds_map (fun d => nth d (f_new s') 0) (t_dep t) (s_val s)) by (intros v Hv; apply (m_val _ _ _ _ _ M2); auto).
      now rewrite EY, (c_cf _ _ _ _ C2), (c_out _ _ _ _ C2).
  Qed.
End VG.
