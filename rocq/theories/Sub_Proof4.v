(** subgraph_reverse compared with Reverse. *)
From Coq Require Import ZArith List Bool Arith Lia Sorted Permutation FunctionalExtensionality.
From Verif Require Import Base_Spec Op_Model Tape_Spec Tape_Model Tape_Proof2 Sweep_Model Sweep_Eqs Sweep_Eqs2 Sweep_Tape Sweep_Uniq Tape_Swf
  Drv_Model Rev_Zero Sub_Spec Sub_Model Sub_Proof Sub_Proof2 Sub_Proof3.
Import ListNotations.

Lemma nth_rows {A} (g : nat -> nat -> A) n q j k (z : A) : j < n -> k < q ->
  nth (j * q + k) (flat_map (fun j => map (g j) (seq 0 q)) (seq 0 n)) z = g j k.
Proof.
  intros Hj Hk. assert (forall s n j, j < n -> nth (j * q + k) (flat_map (fun j => map (g j) (seq 0 q)) (seq s n)) z = g (s + j) k) as K.
  { clear n j Hj. intros s n. revert s. induction n as [|n IH]; intros s j Hj; [lia|]. cbn [seq flat_map]. destruct j as [|j].
    - rewrite app_nth1 by (rewrite map_length, seq_length; lia). rewrite (nth_indep _ z (g s 0)) by (rewrite map_length, seq_length; lia).
      rewrite map_nth, seq_nth by lia. f_equal; lia.
    - rewrite app_nth2 by (rewrite map_length, seq_length; nia). rewrite map_length, seq_length. replace (S j * q + k - q) with (j * q + k) by nia.
      rewrite IH by lia. f_equal; lia. }
  apply (K 0); auto.
Qed.
Lemma length_rows {A} (g : nat -> nat -> A) q s : forall n, length (flat_map (fun j => map (g j) (seq 0 q)) (seq s n)) = n * q.
Proof. intros n. revert s. induction n as [|n IH]; intros s; cbn [seq flat_map]; auto. rewrite app_length, map_length, seq_length, IH. lia. Qed.

Section Main.
  Context {b : base}.
  Notation T := (bt b).
  Variable bnat : nat -> T.
  Variable junk : nat -> T.
  Variable ZL : zero_laws b bnat.
  Notation pa := (nat -> nat -> T).

  (** the partials that Reverse starts with for the unit weight *)
  Lemma padd0 v k (p : pa) : padd v k b0 p = p.
  Proof. apply (padd_id bnat ZL). reflexivity. Qed.
  Definition seed (y q : nat) : pa := fun v k => if (v =? y) && (k =? q - 1) then b1 else b0.
  Lemma seed_one y q : padd y (q - 1) b1 (fun _ _ => b0 : T) = seed y q.
  Proof.
    apply functional_extensionality; intros v. apply functional_extensionality; intros k. unfold padd, pset, seed.
    destruct (_ && _); auto. apply (z_01 _ _ ZL).
  Qed.
  Lemma uw_nth m q ell i k : i < m -> k < q -> nth (i * q + k) (unit_weight (b0 : T) b1 m q ell) b0 = if (i =? ell) && (k =? q - 1) then b1 else b0.
  Proof. intros Hi Hk. unfold unit_weight. now rewrite (nth_rows (fun i k => if (i =? ell) && (k =? q - 1) then b1 else b0)) by auto. Qed.
  Lemma fold_seed1 {A} (f : A -> nat -> A) (z0 z1 : A) ell : forall m s, s <= ell < s + m ->
    (forall i, i <> ell -> s <= i < s + m -> f z0 i = z0) -> f z0 ell = z1 -> (forall i, i <> ell -> s <= i < s + m -> f z1 i = z1) -> fold_left f (seq s m) z0 = z1.
  Proof.
    induction m as [|m IH]; intros s Hs H0 H1 H2; [lia|]. cbn [seq fold_left]. destruct (Nat.eq_dec s ell) as [->|N].
    - rewrite H1. clear IH H1 H0. assert (forall m' s, ell < s -> s + m' <= ell + S m -> fold_left f (seq s m') z1 = z1) as K.
      { induction m' as [|m' IH]; intros s Hs' Hb; cbn; auto. rewrite H2 by lia. apply IH; lia. }
      apply K; lia.
    - rewrite H0 by lia. apply IH; auto; try lia; intros; [apply H0|apply H2]; lia.
  Qed.
  Lemma reverse_seed (dep : list nat) q ell : 0 < q -> ell < length dep ->
    (fold_left (fun p i => fold_left (fun p k => padd (nth i dep 0) k (nth (i * q + k) (unit_weight b0 b1 (length dep) q ell) b0) p) (seq 0 q) p) (seq 0 (length dep)) (fun _ _ => b0 : T))
      = seed (nth ell dep 0) q.
  Proof.
    intros Hq He. apply (fold_seed1 _ _ _ ell); [lia| | |].
    - intros i N Hi. apply fold_id. intros k Hk. apply in_seq in Hk. rewrite uw_nth by lia. rewrite (proj2 (Nat.eqb_neq i ell) N). apply padd0.
    - apply (fold_seed1 _ _ _ (q - 1)); [lia| | |].
      + intros k N Hk. rewrite uw_nth by lia. rewrite (proj2 (Nat.eqb_neq k (q - 1)) N), andb_false_r. apply padd0.
      + rewrite uw_nth by lia. rewrite !Nat.eqb_refl. apply seed_one.
      + intros k N Hk. rewrite uw_nth by lia. rewrite (proj2 (Nat.eqb_neq k (q - 1)) N), andb_false_r. apply padd0.
    - intros i N Hi. apply fold_id. intros k Hk. apply in_seq in Hk. rewrite uw_nth by lia. rewrite (proj2 (Nat.eqb_neq i ell) N). apply padd0.
  Qed.

  (** Reverse with the unit weight *)
  Lemma reverse_unit (f : adq b) l q ell : decode (r_op (d_rec f)) (r_arg (d_rec f)) 0 = Some l ->
    0 < q <= d_ord f -> d_dir f = 1 -> ell < length (d_dep f) ->
    let p := sweep_rev bnat (d_par f) (view1 f) (d_l2v f) (d_skip f) (q - 1) l 0 (seed (nth ell (d_dep f) 0) q) in
    exists z, reverse bnat junk f q (unit_weight b0 b1 (length (d_dep f)) q ell) = Some (z, f) /\
      forall j k, j < d_n f -> k < q -> nth (j * q + k) z b0 = p (S j) k.
  Proof.
    intros D Hq HD He. cbn zeta. unfold reverse.
    assert (length (unit_weight (b0 : T) b1 (length (d_dep f)) q ell) = length (d_dep f) * q) as LW by apply (length_rows (fun i k => if (i =? ell) && (k =? q - 1) then b1 else b0 : T)).
    rewrite LW, Nat.eqb_refl, orb_true_r. cbn [negb]. rewrite (proj2 (Nat.ltb_lt 0 q)) by lia. rewrite (proj2 (Nat.leb_le q _)) by lia. cbn [negb].
    rewrite HD, D. change (1 <? 1) with false. rewrite andb_false_r. cbv iota. rewrite HD. cbn [Nat.eqb negb].
    destruct (Nat.eqb_spec (length (d_dep f) * q) (length (d_dep f))) as [E1|E1].
    - assert (q = 1) as -> by nia. eexists. split; [reflexivity|]. intros j k Hj Hk. rewrite (nth_rows (fun j k => sweep_rev _ _ _ _ _ _ l 0 _ (S j) (1 - 1 - k))) by auto.
      replace (1 - 1 - k) with k by lia. do 2 f_equal.
      etransitivity; [|apply (reverse_seed (d_dep f) 1 ell); lia]. apply fold_ext2. intros p i. cbn [seq fold_left]. rewrite Nat.mul_1_r, Nat.add_0_r. reflexivity.
    - eexists. split; [reflexivity|]. intros j k Hj Hk. rewrite (nth_rows (fun j k => sweep_rev _ _ _ _ _ _ l 0 _ (S j) k)) by auto.
      do 2 f_equal. apply reverse_seed; lia.
  Qed.

  Context (np : nat) (l : list ins) (f : adq b) (sel : list bool).
  Notation n := (d_n f).
  Notation dep := (d_dep f).
  Notation m := (length (d_dep f)).
  Hypothesis DEC : decode (r_op (d_rec f)) (r_arg (d_rec f)) 0 = Some l.
  Hypothesis TK : tape_ok np n l dep.
  Notation D := (Dep n l sel).

  Theorem subgraph_reverse_ok s q ell p0 dw0 : sg_ok n l dep sel s -> 0 < q <= d_ord f -> d_dir f = 1 -> ell < m -> s_proc s ell = false ->
    exists col dw s', subgraph_reverse bnat f s q ell p0 dw0 = Some (col, dw, s') /\ sg_ok n l dep sel s' /\ s_proc s' = upd_at (s_proc s) ell true /\
      StronglySorted lt col /\ (forall j, In j col <-> j < n /\ nth j sel false = true /\ uses l (nth ell dep 0) (S j)) /\
      length dw = n * q /\
      ((forall i, In i l -> is_load (i_op i) = false) -> (forall i, In i l -> pow_ins (view1 f) i) ->
       exists z, reverse bnat junk f q (unit_weight b0 b1 m q ell) = Some (z, f) /\
         forall j k, j < n -> k < q -> (In j col -> nth (j * q + k) dw b0 = nth (j * q + k) z b0) /\
                                       (nth j sel false = true -> ~ In j col -> nth (j * q + k) z b0 = b0)).
  Proof.
    intros SO Hq HD HE PR. destruct (get_rev_total np n l dep TK sel ell s HE SO PR) as (sg0 & s' & G & SO' & PR' & ND & HS).
    unfold subgraph_reverse. rewrite (proj2 (Nat.ltb_lt 0 q)), (proj2 (Nat.leb_le q _)), HD, (proj2 (Nat.ltb_lt ell m)), PR by lia. cbn [negb Nat.eqb].
    rewrite DEC, G. set (sg := sort (sg0 ++ [0; length l - 1])).
    pose proof (k_len _ _ _ _ TK) as LL.
    destruct (k_beg _ _ _ _ TK) as (ab & vb & EB). destruct (k_end _ _ _ _ TK) as (ae & ve & EE).
    assert (~ D 0) as ND0. { intros (i & j & E & N & Hj & _ & U). assert (i = mkIns BeginOp ab vb) as -> by congruence. cbn [i_var] in U.
      destruct (uses_inv _ _ _ _ TK _ _ U 0 _ EB N eq_refl) as [W|(x & [] & _)]. pose proof (ivar _ _ _ _ TK _ _ EB). cbn in H. lia. }
    assert (~ D (length l - 1)) as NDE. { intros (i & j & E & N & _). assert (i = mkIns EndOp ae ve) as -> by congruence. cbn in N. lia. }
    assert (forall k, In k sg <-> In k sg0 \/ k = 0 \/ k = length l - 1) as IS.
    { intros k. unfold sg. rewrite (Permutation_in' eq_refl (sort_perm _)), in_app_iff. cbn [In]. intuition. }
    assert (StronglySorted lt sg) as SS.
    { apply sorted_lt; [apply sort_sorted|]. apply (Permutation_NoDup (Permutation_sym (sort_perm _))).
      apply (Permutation_NoDup (Permutation_app_comm _ _)). cbn [app].
      constructor; [|constructor; auto].
      - intros [H|H]; [lia|]. apply HS in H. tauto.
      - intros H. apply HS in H. tauto. }
    assert (forall k, In k sg -> k < length l) as IB.
    { intros k Hk. apply IS in Hk as [Hk|[->| ->]]; [|lia|lia]. apply HS in Hk as [Hk _]. eapply Dep_lt; eauto. }
    destruct (zero_ops_ok np n l dep TK q sg (fun v k => if k <? q then p0 v k else b0) IB) as (p1 & -> & Z1 & Z2).
    set (p2 := pset p1 (nth ell dep 0) (q - 1) b1).
    set (sk := fun j => d_skip f j || negb (existsb (Nat.eqb j) sg)).
    rewrite (sweep_sub_rev bnat (d_par f) l (view1 f) (d_l2v f) (d_skip f) (q - 1) l [] sg sk p2); [|auto|auto|intros k Hk; split; [cbn; lia|auto]|reflexivity].
    cbn [length]. set (p' := sweep_rev bnat (d_par f) (view1 f) (d_l2v f) sk (q - 1) l 0 p2).
    set (col := map (fun iop => iop - 1) (take_ind n (tl sg))).
    eexists col, _, s'. split; [reflexivity|]. split; [auto|]. split; [auto|].
    (* the columns *)
    assert (exists t, sg = 0 :: t) as (t & Et).
    { destruct sg as [|x t] eqn:Es; [exfalso; apply (proj2 (IS 0)); auto|]. exists t. f_equal. apply StronglySorted_inv in SS as [_ F].
      assert (In 0 (x :: t)) as [H|H] by (apply IS; auto); auto. rewrite Forall_forall in F. specialize (F 0 H). lia. }
    assert (StronglySorted lt t /\ forall x, In x t -> 0 < x) as [ST PT].
    { rewrite Et in SS. apply StronglySorted_inv in SS as [ST F]. rewrite Forall_forall in F. auto. }
    assert (forall x, In x (take_ind n t) <-> x <= n /\ In x sg0) as IT.
    { intros x. rewrite take_ind_in by auto. split.
      - intros [H1 H2]. assert (In x sg) as H3 by (rewrite Et; now right). apply IS in H3 as [H3|[->| ->]]; auto; [apply PT in H1; lia|lia].
      - intros [H1 H2]. split; auto. assert (In x sg) as H3 by (apply IS; auto). rewrite Et in H3. destruct H3 as [<-|H3]; auto. apply HS in H2. tauto. }
    assert (forall j, In j col <-> j < n /\ nth j sel false = true /\ uses l (nth ell dep 0) (S j)) as IC.
    { intros j. unfold col. rewrite Et. cbn [tl]. rewrite in_map_iff. split.
      - intros (x & <- & Hx). assert (0 < x) as Px by (apply PT; apply take_ind_in in Hx; tauto). apply IT in Hx as [Ln Hx]. apply HS in Hx as [Dx (i & Ei & Ni & Ui)].
        pose proof (k_inv2 _ _ _ _ TK (x - 1) ltac:(lia)) as E2. replace (S (x - 1)) with x in * by lia.
        assert (i = mkIns InvOp [] x) as -> by congruence. cbn [i_var] in Ui. rewrite (Dep_inv _ _ _ _ TK sel _ _ Ei eq_refl) in Dx. split; [lia|auto].
      - intros (Hj & Sj & Uj). exists (S j). split; [lia|]. apply IT. split; [lia|]. apply HS.
        pose proof (k_inv2 _ _ _ _ TK j Hj) as E2. split.
        + apply (Dep_inv _ _ _ _ TK sel _ _ E2 eq_refl). cbn. now rewrite Nat.sub_0_r.
        + eexists. split; [exact E2|]. cbn. split; [lia|auto]. }
    split.
    { unfold col. rewrite Et. cbn [tl]. pose proof (take_ind_sorted n t ST) as S1. assert (forall x, In x (take_ind n t) -> 0 < x) as P1 by (intros x Hx; apply PT; apply take_ind_in in Hx; tauto).
      clear IT. revert P1. induction S1 as [|x t' S1 IH F]; intros P1; cbn [map]; constructor.
      - apply IH. intros; apply P1; now right.
      - rewrite Forall_forall in *. intros y Hy. apply in_map_iff in Hy as (x' & <- & Hx'). specialize (F x' Hx'). pose proof (P1 x (or_introl eq_refl)). lia. }
    split; [exact IC|]. split; [apply (length_rows (fun j k => if existsb (Nat.eqb j) col then p' (S j) k else nth (j * q + k) dw0 b0))|].
    (* the values *)
    intros NLD PW. destruct (reverse_unit f l q ell DEC Hq HD HE) as (z & RZ & HZ). exists z. split; [auto|].
    set (pf := sweep_rev bnat (d_par f) (view1 f) (d_l2v f) (d_skip f) (q - 1) l 0 (seed (nth ell dep 0) q)) in *.
    destruct (k_dep _ _ _ _ TK ell HE) as (ky & Vy). pose proof (isop_var2op _ _ _ _ TK _ _ Vy) as Iy.
    apply (var2op_iff _ _ _ _ TK) in Vy as (iy & Ey & Ny & Vy).
    assert (Uop l dep ell ky) as Uy by (exists iy; rewrite Vy; repeat split; auto; constructor).
    assert (forall k i x k', nth_error l k = Some i -> 0 < num_res (i_op i) -> In x (var_args (i_op i) (i_arg i)) -> isop l x k' -> var2op l 0 x = Some k') as AV.
    { intros k i x k' E N Hx Ix. destruct (k_arg _ _ _ _ TK _ _ _ E N Hx) as (k2 & _ & V2). rewrite V2. f_equal. eapply isop_inj; eauto. eapply isop_var2op; eauto. }
    destruct (sub_full bnat (d_par f) ZL np n l dep TK (view1 f) (d_l2v f) (d_skip f) (q - 1) NLD PW D (fun k => In k sg0) (fun k => s_mark s k <=? m) (fun k => existsb (Nat.eqb k) sg))
      with (suf := l) (pre := @nil ins) (p := seed (nth ell dep 0) q) (p' := p2) (sk := sk) as [A Z].
    - intros k Hk. rewrite Nat.leb_le. apply (o_dep _ _ _ _ _ SO); auto.
    - intros k i x k' E N Hx Ix Dk. destruct (opvar_eq_dec (i_op i) InvOp) as [O|O]; [rewrite O in Hx; destruct Hx|].
      apply (Dep_op _ _ _ _ TK sel _ _ E N O). exists x, k'. split; [auto|]. split; [|auto]. eapply AV; eauto.
    - intros k i x k' E Hx Ix Lk Dk. apply HS in Lk as [Dk2 (i2 & E2 & N2 & U2)]. assert (i2 = i) by congruence. subst i2. apply HS. split; [auto|].
      pose proof (AV _ _ _ _ E N2 Hx Ix) as V2. apply (var2op_iff _ _ _ _ TK) in V2 as (i3 & E3 & N3 & V3). exists i3. rewrite V3. repeat split; auto.
      eapply uses_trans; [exact U2|]. econstructor; eauto; [|constructor]. eapply nth_error_In; eauto.
    - intros k Hk. apply HS in Hk. tauto.
    - intros k Hk. apply existsb_exists. exists k. split; [apply IS; auto|apply Nat.eqb_refl].
    - intros k i E X. apply existsb_exists in X as (x & Hx & Ex). apply Nat.eqb_eq in Ex. subst x. apply IS in Hx as [Hx|[->| ->]]; [auto| |].
      + right. left. rewrite EB in E. injection E as <-. reflexivity.
      + right. right. rewrite EE in E. injection E as <-. reflexivity.
    - reflexivity.
    - intros j _. reflexivity.
    - intros v k (kv & Iv & Lv). unfold seed, p2, pset. destruct ((v =? nth ell dep 0) && (k =? q - 1)); auto.
      symmetry. destruct (Nat.lt_ge_cases k q) as [Hk|Hk].
      + destruct (Dep_res n l sel kv) as (iv & Ev & Nv); [apply HS; auto|]. apply (Z2 v k kv iv); auto; [apply IS; auto|].
        intros O. apply HS in Lv as [Dv _]. assert (kv = 0) as ->; [|auto].
        eapply (ivar_inj _ _ _ _ TK kv 0 iv (mkIns BeginOp ab vb)); eauto; try (cbn; lia).
        destruct (wfl_at np l 0 0 kv iv (k_wfl _ _ _ _ TK) Ev) as (lp & nl' & W). cbn [Nat.add] in W. pose proof W as (_ & _ & _ & _ & HB & _).
        assert (vstart l kv = 0) as V0 by (destruct (Nat.eq_dec (vstart l kv) 0); auto; exfalso; apply HB; auto; lia).
        rewrite (ivar _ _ _ _ TK _ _ Ev), (ivar _ _ _ _ TK _ _ EB), V0, O. reflexivity.
      + apply Z1. destruct (Nat.ltb_spec k q); auto; lia.
    - intros v k (kv & Iv & Dv) NLv. unfold seed. destruct (Nat.eqb_spec v (nth ell dep 0)) as [->|]; cbn [andb]; auto.
      exfalso. apply NLv. exists ky. split; auto. apply HS. split; auto. assert (kv = ky) by (eapply isop_inj; eauto). now subst.
    - cbn [length] in A, Z. fold pf in A, Z. fold p' in A.
      intros j k Hj Hk. rewrite HZ by auto. rewrite (nth_rows (fun j k => if existsb (Nat.eqb j) col then p' (S j) k else nth (j * q + k) dw0 b0)) by auto.
      pose proof (k_inv2 _ _ _ _ TK j Hj) as E2. assert (isop l (S j) (S j)) as Ij.
      { eexists. split; [exact E2|]. pose proof (ivar _ _ _ _ TK _ _ E2) as IV. cbn in IV |- *. lia. }
      assert (nth j sel false = true -> D (S j)) as DJ by (intros Sj; apply (Dep_inv _ _ _ _ TK sel _ _ E2 eq_refl); cbn; now rewrite Nat.sub_0_r).
      split.
      + intros Hc. replace (existsb (Nat.eqb j) col) with true by (symmetry; apply existsb_exists; exists j; split; auto; apply Nat.eqb_refl).
        symmetry. apply A. apply IC in Hc as (_ & Sj & Uj). exists (S j). split; auto. apply HS. split; auto. eexists. split; [exact E2|]. cbn. split; [lia|auto].
      + intros Sj NC. apply Z; [exists (S j); auto|]. intros (kv & Iv & Lv). apply NC. apply IC. split; auto. split; auto.
        assert (kv = S j) by (eapply isop_inj; eauto). subst kv. apply HS in Lv as [_ (i & Ei & Ni & Ui)]. assert (i = mkIns InvOp [] (S j)) as -> by congruence. exact Ui.
  Qed.
End Main.
