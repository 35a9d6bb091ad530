(** C23: dead_code keeps the results of a tape without dynamic vectors. *)
From Coq Require Import List Bool Arith Lia.
From Verif Require Import VG_Model VG_Proof.
Import ListNotations.

Section VG.
  Context {A : Type} (B : vbase A) (LW : vlaws B).
  Notation nan := (v_nan B).

  (** *** rev_depend of a tape *)
  Lemma upds_length (l : list nat) (k : nat) : forall u : list nat, length (fold_left (fun u d => upd d k u) l u) = length u.
  Proof. induction l as [|d l IH]; intros u; cbn; auto. now rewrite IH, upd_length. Qed.
  Lemma upds_keep (l : list nat) k v : forall u, nth v u 0 = k -> nth v (fold_left (fun u d => upd d k u) l u) 0 = k.
  Proof. induction l as [|d l IH]; intros u H; cbn; auto. apply IH. rewrite upd_nth. destruct (_ && _); auto. Qed.
  Lemma upds_in (l : list nat) k v : In v l -> forall u, v < length u -> nth v (fold_left (fun u d => upd d k u) l u) 0 = k.
  Proof.
    induction l as [|d l IH]; cbn; [easy|]. intros [->|H] u Hv.
    - apply upds_keep. now rewrite upd_nth, Nat.eqb_refl, (proj2 (Nat.ltb_lt _ _) Hv).
    - apply IH; auto. now rewrite upd_length.
  Qed.
  Lemma upds_val (l : list nat) k v : forall u, nth v (fold_left (fun u d => upd d k u) l u) 0 = nth v u 0 \/ nth v (fold_left (fun u d => upd d k u) l u) 0 = k.
  Proof. induction l as [|d l IH]; intros u; cbn; auto. destruct (IH (upd d k u)) as [H|H]; auto. rewrite H, upd_nth. destruct (_ && _); auto. Qed.
  Definition use0 (t : vtape A) : list nat := fold_left (fun u d => upd d (n_op t) u) (t_dep t) (repeat 0 (n_val t)).
  Definition live (t : vtape A) (v : nat) : Prop := exists use ll, rev_depend B t = Some (use, ll) /\ used use v = true.

  Lemma rev_depend_ok t l : t_ops t = VCon nan :: l -> wf_ops B (t_nind t + 1) l -> Forall (fun d => d < n_val t) (t_dep t) -> novec (t_ops t) ->
    exists use ll con, rev_depend B t = Some (use, ll) /\
      (use, ll) = fold_right (rd_op B (n_op t) con) (use0 t, repeat 0 (n_vec t)) (pos 1 (t_nind t + 1) l) /\
      length use = n_val t /\ (forall d, In d (t_dep t) -> used use d = true) /\
      (forall e, In e (pos 1 (t_nind t + 1) l) -> closed B use (snd (fst e)) (snd e)).
  Proof.
    intros E W D V. destruct (eval_ok B LW t (repeat nan (t_nind t))) as (s & E1 & L1 & _); [exists l; auto|auto|apply repeat_length|].
    unfold rev_depend. rewrite E1. fold (use0 t). assert (length (use0 t) = n_val t) as L0 by (unfold use0; now rewrite upds_length, repeat_length).
    assert (n_op t <> 0) as Hn by (unfold n_op; rewrite E; discriminate).
    assert (n_val t = t_nind t + 1 + list_sum (map n_res l)) as NV by (unfold n_val; rewrite E; cbn; unfold list_sum; lia).
    destruct (F_closed B (n_op t) (s_val s) (use0 t, repeat 0 (n_vec t)) Hn l 1 (t_nind t + 1)) as [C1 C2]; auto; [cbn [fst]; lia|].
    destruct (fold_right (rd_op B (n_op t) (s_val s)) (use0 t, repeat 0 (n_vec t)) (pos 1 (t_nind t + 1) l)) as [use ll] eqn:EF.
    exists use, ll, (s_val s). split.
    { f_equal. rewrite E. cbn [pos n_res fold_right]. rewrite EF. cbn. destruct (used use (t_nind t)); reflexivity. }
    split; [auto|]. cbn [fst] in *. split.
    { pose proof (F_length B (n_op t) (s_val s) (use0 t, repeat 0 (n_vec t)) (pos 1 (t_nind t + 1) l)) as FL. rewrite EF in FL. cbn [fst] in FL. congruence. }
    split; auto. intros d Hd. apply C1. unfold used. unfold use0. rewrite upds_in; auto; [destruct (Nat.eqb_spec (n_op t) 0); auto; lia|].
    rewrite repeat_length. rewrite Forall_forall in D. auto.
  Qed.

  (** *** the new tape *)
  Lemma wf_ops_app l l' : forall c, wf_ops B c (l ++ l') <-> wf_ops B c l /\ wf_ops B (c + list_sum (map n_res l)) l'.
  Proof.
    induction l as [|o l IH]; intros c; cbn [app wf_ops map list_sum fold_right]; [rewrite Nat.add_0_r; tauto|]. fold (list_sum (map n_res l)). rewrite IH.
    replace (c + n_res o + list_sum (map n_res l)) with (c + (n_res o + list_sum (map n_res l))) by lia. tauto.
  Qed.
  Lemma set_range_length k : forall i v l, length (set_range i v k l) = length l.
  Proof. induction k as [|k IH]; intros i v l; cbn; auto. now rewrite IH, upd_length. Qed.
  Lemma set_range_nth k : forall i v l w, i + k <= length l -> nth w (set_range i v k l) 0 = if (i <=? w) && (w <? i + k) then v + (w - i) else nth w l 0.
  Proof.
    induction k as [|k IH]; intros i v l w H; cbn [set_range].
    - destruct (Nat.leb_spec i w), (Nat.ltb_spec w (i + 0)); cbn; auto; lia.
    - rewrite IH by (rewrite upd_length; lia). rewrite upd_nth. destruct (Nat.leb_spec (S i) w), (Nat.ltb_spec w (S i + k)), (Nat.leb_spec i w), (Nat.ltb_spec w (i + S k)), (Nat.eqb_spec w i), (Nat.ltb_spec i (length l)); cbn [andb]; try lia.
  Qed.
  Lemma n_res_map g (o : vop A) : n_res (map_vals g o) = n_res o. Proof. destruct o; reflexivity. Qed.
  Lemma op_vals_map g (o : vop A) : op_vals (map_vals g o) = map g (op_vals o). Proof. destruct o; cbn; auto. now rewrite map_app. Qed.
  Lemma sem_map g (o : vop A) xs : sem B (map_vals g o) xs = sem B o xs. Proof. destruct o; cbn; auto. now rewrite map_length. Qed.
  Lemma is_vecop_map g (o : vop A) : is_vecop (map_vals g o) = is_vecop o. Proof. destruct o; reflexivity. Qed.

  Section Sim.
    Variables (n nv : nat) (kc kp : bool) (use lastl : list nat).
    Definition kept (v : nat) : Prop := v <= n \/ used use v = true.
    Record Inv (s : dst (A := A)) (r : nat) (os ns : vst A) (x : list A) : Prop := {
      i_ev : ev_ops B n (mkVS x [] 0 []) (d_ops s) = Some ns;
      i_len : length (s_val ns) = d_nval s;
      i_old : length (s_val os) = r;
      i_nvi : length (d_nvi s) = nv;
      i_val : forall v, v < r -> kept v -> nth_error (s_val ns) (nth v (d_nvi s) 0) = nth_error (s_val os) v;
      i_low : forall v, v <= n -> nth v (d_nvi s) 0 = v;
      i_high : forall v, v < r -> n < v -> used use v = true -> n < nth v (d_nvi s) 0;
      i_vec : s_vec ns = [];
      i_cf : s_cf ns = if kc then s_cf os else 0;
      i_out : s_out ns = if kp then s_out os else [];
      i_use : length (d_use s) = d_nval s;
      i_wf : exists l, d_ops s = VCon nan :: l /\ wf_ops B (n + 1) l /\ novec l /\ n + 1 + list_sum (map n_res l) = d_nval s }.

    (** operands of the comparisons and prints that are kept *)
    Definition side_ok (o : vop A) : Prop :=
      match o with
      | VComp c _ _ => kc = true -> c <> CNo -> forall v, In v (op_vals o) -> kept v
      | VPri _ _ f _ => kp = true -> f <> n -> forall v, In v (op_vals o) -> kept v
      | _ => True
      end.

    Lemma Inv_rds s r os ns x l : Inv s r os ns x -> Forall (fun v => v < r) l -> (forall v, In v l -> kept v) ->
      rds (map (fun v => nth v (d_nvi s) 0) l) (s_val ns) = rds l (s_val os).
    Proof. intros I W K. apply rds_map. intros v Hv. rewrite Forall_forall in W. apply (i_val _ _ _ _ _ I); auto. Qed.
    Lemma Inv_lt s r os ns x v : Inv s r os ns x -> v < r -> kept v -> nth v (d_nvi s) 0 < d_nval s.
    Proof.
      intros I Hv K. rewrite <- (i_len _ _ _ _ _ I). apply nth_error_Some. rewrite (i_val _ _ _ _ _ I) by auto. apply nth_error_Some. rewrite (i_old _ _ _ _ _ I). auto.
    Qed.
    Lemma nth_error_kept (os ns ys ys' : list A) nvi (r q k : nat) : r + k <= length nvi -> length os = r -> length ns = q -> length ys = k -> length ys' = k ->
      (forall v, v < r -> kept v -> nth_error ns (nth v nvi 0) = nth_error os v) ->
      (forall y, y < k -> used use (r + y) = true -> nth y ys' nan = nth y ys nan) -> n < r ->
      forall v, v < r + k -> kept v -> nth_error (ns ++ ys') (nth v (set_range r q k nvi) 0) = nth_error (os ++ ys) v.
    Proof.
      intros H1 H2 H3 H4 H5 H6 H7 Hn v Hv K. rewrite set_range_nth by auto. destruct (Nat.leb_spec r v); cbn [andb].
      - destruct (Nat.ltb_spec v (r + k)); [|lia]. rewrite nth_error_app2 by lia. rewrite (nth_error_app2 os) by lia. replace (q + (v - r) - length ns) with (v - r) by lia. rewrite H2.
        destruct K as [K|K]; [lia|]. rewrite (nth_error_nth' ys' nan), (nth_error_nth' ys nan) by lia. f_equal. apply H7; [lia|]. now replace (r + (v - r)) with v by lia.
      - specialize (H6 v H K). rewrite (nth_error_app1 os) by lia. rewrite <- H6. apply nth_error_app1. apply nth_error_Some. rewrite H6. apply nth_error_Some. lia.
    Qed.

    Lemma Inv_put s r os ns x i o os' : Inv s r os ns x -> wf_op B r o -> is_vecop o = false -> closed B use r o -> side_ok o -> n < r -> r + n_res o <= nv ->
      ev_op B n os o = Some os' -> need n kc kp use lastl (i, r, o) = true ->
      exists ns', Inv (put_new B n use s r o) (r + n_res o) os' ns' x.
    Proof.
      intros I W V C SO Hr Hnv E N.
      assert (match o with VCon c => v_isnan B c | _ => false end = false) as NS by (destruct o; auto; apply W).
      assert (forall v, In v (op_vals o) -> v < r) as W1 by (destruct W as [W _]; now rewrite Forall_forall in W).
      (* the invariant when an operator with results is put *)
      assert (forall o' ys ys', n_res o' = n_res o -> is_vecop o' = false -> wf_op B (d_nval s) o' -> new_op n use s o = o' -> n_res o <> 0 ->
        os' = put_val os ys -> ev_op B n ns o' = Some (put_val ns ys') -> length ys = n_res o -> length ys' = n_res o ->
        (forall y, y < n_res o -> used use (r + y) = true -> nth y ys' nan = nth y ys nan) -> exists ns', Inv (put_new B n use s r o) (r + n_res o) os' ns' x) as P.
      { intros o' ys ys' R1 R2 R3 R4 R5 R6 R7 R8 R9 R10. exists (put_val ns ys').
        unfold put_new. rewrite NS, R4. assert (match n_res o with 0 => 0 | S _ => d_nval s end = d_nval s) as Q by (destruct (n_res o); [lia|auto]). rewrite Q.
        destruct I. subst os'. constructor; cbn [d_ops d_nval d_nvi d_use put_val s_val s_cf s_out s_vec]; auto.
        - rewrite ev_ops_app, i_ev0. cbn. now rewrite R7.
        - rewrite app_length. lia.
        - rewrite app_length. lia.
        - now rewrite set_range_length.
        - apply nth_error_kept; auto; lia.
        - intros v Hv. rewrite set_range_nth by lia. destruct (Nat.leb_spec r v); [lia|]. cbn [andb]. auto.
        - intros v Hv1 Hv2 Hv3. rewrite set_range_nth by lia. destruct (Nat.leb_spec r v); cbn [andb]; auto. destruct (Nat.ltb_spec v (r + n_res o)); [|lia].
          destruct i_wf0 as (l & _ & _ & _ & L). lia.
        - rewrite app_length, map_length, seq_length. lia.
        - destruct i_wf0 as (l & L1 & L2 & L3 & L4). exists (l ++ [o']). rewrite L1. split; [reflexivity|]. split; [|split].
          + apply wf_ops_app. split; auto. cbn. rewrite L4. auto.
          + unfold novec in *. apply Forall_app. auto.
          + rewrite map_app, list_sum_app. cbn. unfold list_sum in *. lia. }
      assert (n_res o = 1 -> used use r = true -> (forall v, In v (op_vals o) -> used use v = true) ->
         new_op n use s o = map_vals (fun v => nth v (d_nvi s) 0) o ->
         (forall n' s' o', (exists g, o' = map_vals g o) -> ev_op B n' s' o' = match rds (op_vals o') (s_val s') with Some xs => match sem B o' xs with Some r => Some (put_val s' r) | None => None end | None => None end) ->
         (forall g, wf_op B (d_nval s) (map_vals g o) <-> Forall (fun v => v < d_nval s) (op_vals (map_vals g o))) ->
         exists ns', Inv (put_new B n use s r o) (r + n_res o) os' ns' x) as P1.
      { intros R1 R2 R3 R4 R5 R6. set (g := fun v => nth v (d_nvi s) 0) in *.
        assert (ev_op B n os o = match rds (op_vals o) (s_val os) with Some xs => match sem B o xs with Some r => Some (put_val os r) | None => None end | None => None end) as EO.
        { apply R5. exists (fun v => v). clear. destruct o; cbn; auto; now rewrite ?map_id. }
        rewrite EO in E. destruct (rds (op_vals o) (s_val os)) as [xs|] eqn:EX; [|discriminate]. destruct (sem B o xs) as [ys|] eqn:EY; [|discriminate]. injection E as <-.
        assert (length ys = n_res o) as LY by (eapply (sem_length B True); eauto).
        apply (P (map_vals g o) ys ys); auto; try lia.
        - apply n_res_map.
        - now rewrite is_vecop_map.
        - apply R6. rewrite op_vals_map. apply Forall_forall. intros w Hw. apply in_map_iff in Hw as (v & <- & Hv). eapply Inv_lt; eauto. right; auto.
        - rewrite R5 by eauto. rewrite op_vals_map. unfold g. rewrite (Inv_rds s r os ns x (op_vals o) I); [|now apply Forall_forall|intros v Hv; right; auto]. rewrite EX, sem_map, EY. reflexivity. }
      destruct o; try discriminate V; cbn [need n_res seq existsb] in N; rewrite ?orb_false_r in N; cbn [closed] in C;
        try (apply P1; auto; [intros n' s' o' (g & ->); reflexivity|intros g; unfold wf_op; cbn; tauto]; fail).
      - (* call *)
        cbn [n_res] in *. destruct (Nat.eq_dec nres 0) as [Z|Z]; [subst; discriminate|].
        cbn [ev_op op_vals] in E. destruct (rds xs (s_val os)) as [us|] eqn:EX; [|discriminate]. cbn in E. injection E as <-.
        set (h := fun v => if used use v then nth v (d_nvi s) 0 else n) in *.
        assert (Forall (fun w => w < d_nval s) (map h xs)) as HW.
        { apply Forall_forall. intros w Hw. apply in_map_iff in Hw as (v & <- & Hv). unfold h. destruct (used use v) eqn:HU; [eapply Inv_lt; eauto; right; auto|]. destruct (i_wf _ _ _ _ _ I) as (l & _ & _ & _ & L). lia. }
        rewrite <- (i_len _ _ _ _ _ I) in HW. destruct (rds_ok _ _ HW) as (us' & EU).
        destruct (rds_spec B _ _ _ EX) as [LU KU]. destruct (rds_spec B _ _ _ EU) as [LU' KU']. rewrite map_length in LU', KU'.
        apply (P (VCall atom id nres (map h xs)) (v_call B atom id nres us) (v_call B atom id nres us')); auto; try (apply (l_call B LW)).
        + split; auto. cbn. now rewrite <- (i_len _ _ _ _ _ I).
        + cbn [ev_op op_vals]. rewrite EU. reflexivity.
        + intros y Hy HU. destruct C as (con & ty & Lc & Lt & C). symmetry. apply (l_rdep B LW atom id nres con ty (map (used use) (seq r nres))); [lia|lia|now rewrite map_length, seq_length|lia| |].
          * intros k Hk. destruct (Nat.lt_ge_cases k (length xs)) as [Hx|Hx]; [|rewrite !nth_overflow by lia; auto].
            specialize (C k (nth k xs 0) (nth_error_nth' xs 0 Hx) Hk). specialize (KU k Hx). specialize (KU' k Hx).
            rewrite nth_indep with (d' := h 0) in KU' by (rewrite map_length; auto). rewrite map_nth in KU'. unfold h in KU'. rewrite C in KU'.
            rewrite (i_val _ _ _ _ _ I) in KU'; [congruence| |right; auto]. apply W1. cbn. apply nth_In. auto.
          * rewrite nth_indep with (d' := used use 0) by (rewrite map_length, seq_length; auto). rewrite map_nth, seq_nth by auto. auto.
      - (* comparison *)
        apply andb_prop in N as [N1 N2]. cbn [n_res] in *. rewrite Nat.add_0_r.
        set (g := fun v => nth v (d_nvi s) 0) in *.
        assert (forall v, In v [l; r0] -> kept v) as K. { apply SO; auto. intros ->. discriminate. }
        exists (if match c with CNo => true | _ => v_cmp B c (nth l (s_val os) nan) (nth r0 (s_val os) nan) end then ns else mkVS (s_val ns) (s_vec ns) (S (s_cf ns)) (s_out ns)).
        cbn [ev_op op_vals] in E. destruct (rds [l; r0] (s_val os)) as [us|] eqn:EX; [|discriminate].
        pose proof (rds_spec B _ _ _ EX) as [LU KU]. destruct us as [|u1 [|u2 [|]]]; try discriminate LU.
        pose proof (KU 0 ltac:(cbn; lia)) as K0. pose proof (KU 1 ltac:(cbn; lia)) as K1. cbn in K0, K1.
        rewrite (nth_error_nth _ _ nan K0), (nth_error_nth _ _ nan K1). injection E as <-.
        assert (rds [g l; g r0] (s_val ns) = Some [u1; u2]) as EN. { rewrite <- EX. apply (Inv_rds s r os ns x [l; r0] I); auto. now apply Forall_forall. }
        assert (ev_op B n ns (VComp c (g l) (g r0)) = Some (if match c with CNo => true | _ => v_cmp B c u1 u2 end then ns else mkVS (s_val ns) (s_vec ns) (S (s_cf ns)) (s_out ns))) as EE by (cbn [ev_op op_vals]; now rewrite EN).
        destruct I. unfold put_new. cbn [n_res set_range seq map new_op map_vals]. fold g. rewrite Nat.add_0_r, app_nil_r.
        constructor; cbn [d_ops d_nval d_nvi d_use]; auto; try (destruct (match c with CNo => true | _ => _ end); auto; fail).
        + rewrite ev_ops_app, i_ev0. cbn [ev_ops]. cbv beta delta [g] in EE. rewrite EE. auto.
        + rewrite N1 in *. destruct (match c with CNo => true | _ => _ end); cbn [s_cf]; auto.
        + destruct i_wf0 as (l' & L1 & L2 & L3 & L4). exists (l' ++ [VComp c (g l) (g r0)]). rewrite L1. split; [reflexivity|]. split; [|split].
          * apply wf_ops_app. split; auto. cbn. split; auto. split; auto. cbn. rewrite L4, <- i_len0.
            assert (forall v, In v [l; r0] -> g v < length (s_val ns)) as G. { intros v Hv. apply nth_error_Some. unfold g. rewrite i_val0 by auto. apply nth_error_Some. rewrite i_old0. auto. }
            constructor; [apply G; cbn; auto|constructor; [apply G; cbn; auto|auto]].
          * unfold novec in *. apply Forall_app. auto.
          * rewrite map_app, list_sum_app. cbn. unfold list_sum in *. lia.
      - (* print *)
        apply andb_prop in N as [N1 N2]. apply negb_true_iff, Nat.eqb_neq in N2. cbn [n_res] in *. rewrite Nat.add_0_r.
        set (g := fun v => nth v (d_nvi s) 0) in *.
        assert (forall v, In v [flag; value] -> kept v) as K. { apply SO; auto. }
        assert (g flag <> n) as GN. { destruct (Nat.le_gt_cases flag n) as [Hf|Hf]; unfold g; [rewrite (i_low _ _ _ _ _ I); auto|].
          pose proof (i_high _ _ _ _ _ I flag ltac:(apply W1; cbn; auto) Hf) as H. destruct (K flag ltac:(cbn; auto)) as [K1|K1]; [lia|]. specialize (H K1). lia. }
        cbn [ev_op op_vals] in E. destruct (Nat.eqb_spec flag n) as [|_]; [contradiction|]. destruct (rds [flag; value] (s_val os)) as [us|] eqn:EX; [|discriminate].
        pose proof (rds_spec B _ _ _ EX) as [LU KU]. destruct us as [|u1 [|u2 [|]]]; try discriminate LU. injection E as <-.
        assert (rds [g flag; g value] (s_val ns) = Some [u1; u2]) as EN. { rewrite <- EX. apply (Inv_rds s r os ns x [flag; value] I); auto. now apply Forall_forall. }
        assert (ev_op B n ns (VPri before after (g flag) (g value)) = Some (if v_cmp B CLe u1 (v_zero B) then mkVS (s_val ns) (s_vec ns) (s_cf ns) (s_out ns ++ [(before, after, u2)]) else ns)) as EE.
        { cbn [ev_op op_vals]. destruct (Nat.eqb_spec (g flag) n); [contradiction|]. now rewrite EN. }
        exists (if v_cmp B CLe u1 (v_zero B) then mkVS (s_val ns) (s_vec ns) (s_cf ns) (s_out ns ++ [(before, after, u2)]) else ns).
        destruct I. unfold put_new. cbn [n_res set_range seq map new_op map_vals]. fold g. rewrite Nat.add_0_r, app_nil_r.
        constructor; cbn [d_ops d_nval d_nvi d_use]; auto; try (destruct (v_cmp B CLe u1 (v_zero B)); auto; fail).
        + rewrite ev_ops_app, i_ev0. cbn [ev_ops]. cbv beta delta [g] in EE. rewrite EE. auto.
        + rewrite N1 in *. destruct (v_cmp B CLe u1 (v_zero B)); cbn [s_out]; auto. congruence.
        + destruct i_wf0 as (l' & L1 & L2 & L3 & L4). exists (l' ++ [VPri before after (g flag) (g value)]). rewrite L1. split; [reflexivity|]. split; [|split].
          * apply wf_ops_app. split; auto. cbn. split; auto. split; auto. cbn. rewrite L4, <- i_len0.
            assert (forall v, In v [flag; value] -> g v < length (s_val ns)) as G. { intros v Hv. apply nth_error_Some. unfold g. rewrite i_val0 by auto. apply nth_error_Some. rewrite i_old0. auto. }
            constructor; [apply G; cbn; auto|constructor; [apply G; cbn; auto|auto]].
          * unfold novec in *. apply Forall_app. auto.
          * rewrite map_app, list_sum_app. cbn. unfold list_sum in *. lia.
    Qed.

    Lemma Inv_skip s r os ns x i o os' : Inv s r os ns x -> wf_op B r o -> is_vecop o = false -> n < r -> r + n_res o <= nv ->
      ev_op B n os o = Some os' -> need n kc kp use lastl (i, r, o) = false -> Inv s (r + n_res o) os' ns x.
    Proof.
      intros I W V Hr Hnv E N. destruct (ev_ok B LW n os o) as (os1 & E1 & L1 & (ys & Y) & _); auto; [left; now rewrite (i_old _ _ _ _ _ I)|].
      rewrite E in E1. injection E1 as <-.
      assert (forall v, r <= v < r + n_res o -> used use v = false) as U.
      { intros v Hv. destruct o; cbn [need n_res] in *; try lia; try discriminate V;
        (destruct (used use v) eqn:HU; auto; rewrite <- N; symmetry; apply existsb_exists; exists v; split; auto; apply in_seq; lia). }
      assert (s_cf os' = s_cf os \/ kc = false) as CF.
      { destruct kc; auto. left. destruct o; cbn [ev_op] in E; try (destruct (rds _ _) as [us|]; [|discriminate]; destruct (sem _ _ _); [|discriminate]; injection E as <-; reflexivity); try discriminate V.
        - cbn [need] in N. destruct (rds _ _) as [us|]; [|discriminate]. destruct us as [|u1 [|u2 [|]]]; try discriminate E. destruct c; try discriminate N. injection E as <-. reflexivity.
        - destruct (flag =? n); [injection E as <-; auto|]. destruct (rds _ _) as [us|]; [|discriminate]. destruct us as [|u1 [|u2 [|]]]; try discriminate E. injection E as <-. destruct (v_cmp _ _ _ _); reflexivity. }
      assert (s_out os' = s_out os \/ kp = false) as OF.
      { destruct kp; auto. left. destruct o; cbn [ev_op] in E; try (destruct (rds _ _) as [us|]; [|discriminate]; destruct (sem _ _ _); [|discriminate]; injection E as <-; reflexivity); try discriminate V.
        - destruct (rds _ _) as [us|]; [|discriminate]. destruct us as [|u1 [|u2 [|]]]; try discriminate E. injection E as <-. destruct (match c with CNo => true | _ => _ end); reflexivity.
        - cbn [need] in N. destruct (flag =? n); [injection E as <-; auto|discriminate N]. }
      destruct I. constructor; auto.
      - lia.
      - intros v Hv K. rewrite Y. destruct (Nat.lt_ge_cases v r) as [H|H]; [rewrite nth_error_app1 by lia; auto|].
        destruct K as [K|K]; [lia|]. rewrite U in K by lia. discriminate.
      - intros v Hv H1 H2. destruct (Nat.lt_ge_cases v r) as [H|H]; auto. rewrite U in H2 by lia. discriminate.
      - rewrite i_cf0. destruct CF as [->| ->]; auto.
      - rewrite i_out0. destruct OF as [->| ->]; auto.
    Qed.

    Lemma dc_sim x l : forall i r s os ns os', Inv s r os ns x -> wf_ops B r l -> novec l -> (forall e, In e (pos i r l) -> closed B use (snd (fst e)) (snd e)) -> Forall side_ok l ->
      n < r -> r + list_sum (map n_res l) <= nv -> ev_ops B n os l = Some os' ->
      exists ns', Inv (fold_left (dc_op B n kc kp use lastl) (pos i r l) s) (r + list_sum (map n_res l)) os' ns' x.
    Proof.
      induction l as [|o l IH]; intros i r s os ns os' I W V C SO Hr Hnv E; cbn [pos fold_left map list_sum fold_right] in *.
      - injection E as <-. exists ns. now rewrite Nat.add_0_r.
      - fold (list_sum (map n_res l)) in *. destruct W as [W1 W2]. inversion V as [|? ? V1 V2]; subst. inversion SO as [|? ? S1 S2]; subst.
        cbn [ev_ops] in E. destruct (ev_op B n os o) as [os1|] eqn:E1; [|discriminate].
        rewrite Nat.add_assoc. unfold dc_op at 2. destruct (need n kc kp use lastl (i, r, o)) eqn:N.
        + destruct (Inv_put s r os ns x i o os1 I W1 V1) as (ns1 & I1); auto; [apply (C (i, r, o)); now left|lia|]. cbn [fst snd]. apply (IH (S i) (r + n_res o) _ os1 ns1); auto; try lia. intros e He; apply C; now right.
        + pose proof (Inv_skip s r os ns x i o os1 I W1 V1 Hr ltac:(lia) E1 N) as I1. apply (IH (S i) (r + n_res o) _ os1 ns); auto; try lia. intros e He; apply C; now right.
    Qed.
  End Sim.

  (** operands of the comparisons (prints) that are kept are independents or needed for a dependent *)
  Definition kept_live (kc kp : bool) (t : vtape A) : Prop :=
    forall o, In o (t_ops t) -> match o with
      | VComp c l r => kc = true -> c <> CNo -> forall v, In v [l; r] -> v <= t_nind t \/ live t v
      | VPri _ _ f v => kp = true -> f <> t_nind t -> forall w, In w [f; v] -> w <= t_nind t \/ live t w
      | _ => True end.

  Theorem dead_code_correct t kc kp : wf_tape B t -> novec (t_ops t) -> kept_live kc kp t ->
    exists t' u, dead_code B kc kp t = Some (t', u) /\ t_nind t' = t_nind t /\ wf_tape B t' /\ novec (t_ops t') /\ length u = n_val t' /\
      forall x, length x = t_nind t -> exists y cf out, result B t x = Some (y, cf, out) /\ result B t' x = Some (y, if kc then cf else 0, if kp then out else []).
  Proof.
    intros WT V KL. destruct WT as (l & E & W & D). destruct (rev_depend_ok t l E W D V) as (use & ll & con & RD & EF & LU & UD & UC).
    unfold dead_code. rewrite RD. rewrite E. cbn [pos tl n_res]. set (n := t_nind t) in *. set (nv := n_val t) in *.
    assert (nv = n + 1 + list_sum (map n_res l)) as NV by (unfold nv, n_val; rewrite E; cbn; unfold list_sum; fold n; lia).
    set (s0 := mkD [VCon nan] (n + 1) (seq 0 (n + 1) ++ repeat nv (nv - (n + 1))) (repeat (n_vec t) (n_vec t)) 0 (repeat true (n + 1))).
    set (s := fold_left (dc_op B n kc kp use ll) (pos 1 (n + 1) l) s0).
    assert (forall x, length x = n -> exists os ns, ev_ops B n (mkVS (x ++ [nan]) [] 0 []) l = Some os /\ Inv n nv kc kp use s nv os ns x) as SIM.
    { intros x Hx. destruct (ev_ops_ok B LW n l (mkVS (x ++ [nan]) [] 0 [])) as (os & EO & _); cbn [s_val]; auto.
      { rewrite app_length. cbn. now rewrite Hx. } { rewrite E in V. now inversion V. }
      assert (Inv n nv kc kp use s0 (n + 1) (mkVS (x ++ [nan]) [] 0 []) (mkVS (x ++ [nan]) [] 0 []) x) as I0.
      { unfold s0. constructor; cbn [d_ops d_nval d_nvi d_use s_val s_vec s_cf s_out]; auto.
        - rewrite app_length; cbn; lia.
        - rewrite app_length; cbn; lia.
        - rewrite app_length, seq_length, repeat_length. lia.
        - intros v Hv _. rewrite app_nth1 by (rewrite seq_length; lia). rewrite seq_nth by lia. reflexivity.
        - intros v Hv. rewrite app_nth1 by (rewrite seq_length; lia). rewrite seq_nth by lia. reflexivity.
        - intros v Hv H1. lia.
        - now destruct kc.
        - now destruct kp.
        - apply repeat_length.
        - exists []. split; [auto|split; [exact I|split; [constructor|cbn; lia]]]. }
      destruct (dc_sim n nv kc kp use ll x l 1 (n + 1) s0 _ _ os I0) as (ns & IN); auto; try lia.
      { rewrite E in V. now inversion V. }
      { apply Forall_forall. intros o Ho. specialize (KL o ltac:(rewrite E; now right)).
        assert (forall v, v <= n \/ live t v -> kept n use v) as LK.
        { intros v [H|(use' & ll' & R & H)]; [left; auto|]. rewrite RD in R. injection R as <- <-. right; auto. }
        destruct o; cbn [side_ok]; auto; intros H1 H2 w Hw; apply LK; apply KL; auto. }
      exists os, ns. split; auto. replace nv with (n + 1 + list_sum (map n_res l)) at 2 by auto. exact IN. }
    exists (mkVT n (d_ops s) (map (fun d => nth d (d_nvi s) 0) (t_dep t))), (d_use s). split; [reflexivity|].
    destruct (SIM (repeat nan n) (repeat_length _ _)) as (os & ns & EO & IN).
    destruct (i_wf _ _ _ _ _ _ _ _ _ _ IN) as (l' & L1 & L2 & L3 & L4).
    assert (n_val (mkVT n (d_ops s) (map (fun d => nth d (d_nvi s) 0) (t_dep t))) = d_nval s) as NV'.
    { unfold n_val. cbn [t_nind t_ops]. rewrite L1, <- L4. cbn. unfold list_sum. lia. }
    split; [reflexivity|]. rewrite Forall_forall in D. split; [|split; [|split]].
    - exists l'. cbn [t_ops t_nind t_dep]. split; auto. split; auto. rewrite NV'. apply Forall_forall. intros w Hw. apply in_map_iff in Hw as (d & <- & Hd).
      eapply (Inv_lt n nv kc kp use); eauto. right. auto.
    - cbn [t_ops]. rewrite L1. constructor; auto.
    - rewrite NV'. apply (i_use _ _ _ _ _ _ _ _ _ _ IN).
    - intros x Hx. destruct (SIM x Hx) as (os1 & ns1 & EO1 & IN1).
      assert (eval B t x = Some os1) as EV1 by (unfold eval; rewrite E; exact EO1).
      assert (eval B (mkVT n (d_ops s) (map (fun d => nth d (d_nvi s) 0) (t_dep t))) x = Some ns1) as EV2 by apply (i_ev _ _ _ _ _ _ _ _ _ _ IN1).
      destruct (rds_ok (t_dep t) (s_val os1)) as (y & EY). { apply Forall_forall. intros d Hd. rewrite (i_old _ _ _ _ _ _ _ _ _ _ IN1). auto. }
      exists y, (s_cf os1), (s_out os1). unfold result. rewrite EV1, EV2, EY. split; auto. cbn [t_dep].
      rewrite (Inv_rds n nv kc kp use s nv os1 ns1 x (t_dep t) IN1). 2:{ now apply Forall_forall. } 2:{ intros v Hv. right; auto. }
      rewrite EY, (i_cf _ _ _ _ _ _ _ _ _ _ IN1), (i_out _ _ _ _ _ _ _ _ _ _ IN1). reflexivity.
  Qed.
End VG.
