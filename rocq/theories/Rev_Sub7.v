(** Reverse mode: x^p, and one statement for all elementary loops. *)
From Coq Require Import Reals ZArith Lra Lia List Bool Arith FunctionalExtensionality.
From Coquelicot Require Import Coquelicot.
From Verif Require Import Base_Spec Op_Model Tape_Spec Tape_Model Tape_Proof Tape_Proof2 Sweep_Model Sweep_Eqs Sweep_Eqs2 Real_Base Tay_Calc Tay_Sub Rev_Calc Rev_Sub Rev_Sub2 Rev_Sub3 Rev_Sub4 Rev_Sub5 Rev_Sub6.
Import ListNotations.
Open Scope R_scope.

Section RevSub7.
  Variable dis : nat -> R -> R.
  Variable nan : R.
  Notation b := (Rbase dis nan).
  Variable P : nat -> R.
  Variable Vh : R -> nat -> nat -> R.
  Notation V := (Vh 0).
  Variable d : nat.
  Notation pset := (pset (b:=b)).
  Notation padd := (padd (b:=b)).
  Notation psub := (psub (b:=b)).
  Notation ok := (ok Vh).
  Notation dV := (dV Vh).
  Notation rev_sub := (rev_sub (b:=b) INR P).
  Notation adj := (adj dis nan P Vh d).
  Notation sats := (sats dis nan P Vh d).
  Notation argok := (argok Vh d).
  Ltac inj A O x Hx Ox := pose proof (proj1 (Forall_forall _ _) A x ltac:(cbn; auto)) as Hx; pose proof (O x ltac:(cbn; auto)) as Ox; cbn beta in Hx.

  (** the partials with row [x] taken from the work vector *)
  Definition mrg (x : nat) (p : nat -> nat -> R) (w : nat -> R) : nat -> nat -> R :=
    fun i k => if (i =? x)%nat then w k else p i k.
  Lemma mrg_w x p w k t : mrg x p (fset w k (w k + t)) = padd x k t (mrg x p w).
  Proof.
    extensionality i. extensionality q. unfold mrg, Sweep_Model.padd, Sweep_Model.pset, fset. cbn.
    destruct (Nat.eqb_spec i x) as [->|]; auto. rewrite Nat.eqb_refl. cbn. reflexivity.
  Qed.
  Lemma mrg_p x p w v k t : v <> x -> mrg x (padd v k t p) w = padd v k t (mrg x p w).
  Proof.
    intros N. extensionality i. extensionality q. unfold mrg, Sweep_Model.padd, Sweep_Model.pset. cbn.
    destruct (Nat.eqb_spec i x) as [->|].
    - destruct (Nat.eqb_spec x v) as [->|]; [contradiction|]. auto.
    - destruct (Nat.eqb_spec v x) as [->|]; [contradiction|]. auto.
  Qed.
  Lemma mrg_r x p w v k : v <> x -> mrg x p w v k = p v k.
  Proof. intros N. unfold mrg. destruct (Nat.eqb_spec v x); [contradiction|auto]. Qed.
  Lemma loop_sim {A B} (m : A -> B) lo hi g g' w : (forall k w, m (g k w) = g' k (m w)) -> m (loop lo hi g w) = loop lo hi g' (m w).
  Proof. intros H. unfold loop. revert w. generalize (seq lo (hi - lo)). induction l as [|k l IH]; intros w; cbn; auto. now rewrite IH, H. Qed.
  Lemma loop_inv {A} (I : A -> Prop) lo hi f w : I w -> (forall k w, (lo <= k < hi)%nat -> I w -> I (f k w)) -> I (loop lo hi f w).
  Proof.
    intros H0 H. unfold loop. assert (forall l w, (forall k, In k l -> (lo <= k < hi)%nat) -> I w -> I (fold_left (fun z k => f k z) l w)) as K.
    { induction l as [|k l IH]; intros w' Hl Hw; cbn; auto. apply IH; [intros; apply Hl; now right|]. apply H; auto. apply Hl. now left. }
    apply K; auto. intros k. rewrite in_seq. lia.
  Qed.

  Lemma powvp_adj r x q : (0 < r)%nat -> argok (SPowvp x q) r -> sats r (SPowvp x q) -> pow_reg (V x 0%nat) (P q) -> adj r (SPowvp x q).
  Proof.
    intros Hr [A O] S PR. inj A O x Hx Ox. pose proof (sats_1 dis nan P Vh d r (SPowvp x q) eq_refl S) as Q. clear S.
    assert (V x 0%nat <> 0) as N0 by (destruct PR; lra).
    set (y := P q) in *.
    assert (locally 0 (fun h => Vh h x 0%nat <> 0)) as L0.
    { assert (ex_derive (fun h => Vh h x 0%nat) 0) as C by (exact (Ox 0%nat ltac:(lia))). apply ex_derive_continuous in C.
      destruct (Rdichotomy _ _ N0) as [H|H].
      - assert (locally 0 (fun h => Vh h x 0%nat < 0)) as K by (exact (C _ (open_lt 0 _ H))). generalize K. apply filter_imp. intros; lra.
      - assert (locally 0 (fun h => 0 < Vh h x 0%nat)) as K by (exact (C _ (open_gt 0 _ H))). generalize K. apply filter_imp. intros; lra. }
    assert (isd (fun h => Vh h r 0%nat) (y * V r 0%nat / V x 0%nat * dV x 0)) as I0.
    { apply isd_loc with (fun h => Rpow (Vh h x 0%nat) y); [apply (Q 0%nat); lia|].
      pose proof (loc0 _ (Q 0%nat ltac:(lia))) as E. cbn in E. rewrite E.
      apply (isd_comp (fun t => Rpow t y) (fun h => Vh h x 0%nat)); [now apply der_Rpow|]. apply okd, Ox. lia. }
    assert (forall j, (1 <= j <= d)%nat -> locally 0 (fun h => Vh h r j =
       (y * Vh h r 0%nat * Vh h x j + sumR 1 j (fun k => INR k * (y * (Vh h x k * Vh h r (j - k)%nat) - Vh h r k * Vh h x (j - k)%nat)) / INR j) / Vh h x 0%nat)) as Q'.
    { intros j Hj. pose proof (Q j ltac:(lia)) as Qj. generalize (filter_and _ _ Qj L0). apply filter_imp. intros h [-> Nh]. cbn [coef nth]. destruct (Nat.eqb_spec j 0) as [->|_]; [lia|].
      unfold ceq0. cbn [b_cmp b_bin Rbase R_cmp R_bin b0 bt]. fold y.
      assert (Reqb (Vh h x 0%nat) 0 = false) as -> by (unfold Reqb; destruct (Req_EM_T (Vh h x 0%nat) 0); auto; lra).
      rewrite lp_add, Rplus_0_l. f_equal. f_equal. f_equal. apply sumR_ext. intros; ring. }
    destruct (solve1 Vh d r (fun j => if (j =? 0)%nat then y * V r 0%nat / V x 0%nat * dV x 0 else
        (y * (dV r 0 * V x j + V r 0%nat * dV x j) + sumR 1 j (fun k => INR k * (y * (dV x k * V r (j - k)%nat + V x k * dV r (j - k)%nat) - (dV r k * V x (j - k)%nat + V r k * dV x (j - k)%nat))) / INR j
          - V r j * dV x 0) / V x 0%nat)) as [OK EQ].
    { intros j Hj Or. destruct (Nat.eqb_spec j 0) as [->|Nj]; auto.
      eapply isd_loc; [apply Q'; lia|]. eapply isd_eq.
      - eapply (isd_div' (fun h => y * Vh h r 0%nat * Vh h x j + sumR 1 j (fun k => INR k * (y * (Vh h x k * Vh h r (j - k)%nat) - Vh h r k * Vh h x (j - k)%nat)) / INR j) (fun h => Vh h x 0%nat) _ _ (V r j)).
        + D.
        + D.
        + auto.
        + rewrite (loc0 _ (Q' j ltac:(lia))). auto.
      - f_equal. f_equal. f_equal. ring. }
    apply adj_1; auto. intros p.
    set (f' := fun (j : nat) (m : nat -> nat -> R) =>
       let m := padd x j (m r j * (y * V r 0%nat / V x 0%nat)) m in
       let m := loop 1 j (fun k m => padd x k (m r j * ((INR k * y - INR (j - k)) * V r (j - k)%nat / (INR j * V x 0%nat))) m) m in
       let m := loop 1 j (fun k m => padd r k (m r j * ((INR (j - k) * y - INR k) * V x (j - k)%nat / (INR j * V x 0%nat))) m) m in
       let m := psub x 0 (m r j * (V r j / V x 0%nat)) m in
       padd r 0 (m r j * (y * V x j / V x 0%nat)) m).
    transitivity (pair d r dV ((fun m => padd x 0 (m r 0%nat * (y * V r 0%nat / V x 0%nat)) m) (down1 (b:=b) d f' p))).
    { cbn [Sweep_Model.rev_sub b_bin Rbase R_bin bt]. fold y.
      match goal with |- context [fold_left ?g (rev (seq 1 d)) ?i0] => set (F := g); set (i := i0) end.
      assert (forall pw, let m := fun (pw : (nat -> nat -> R) * (nat -> R)) => mrg x (fst pw) (snd pw) in
        m (fold_left F (rev (seq 1 d)) pw) = down1 (b:=b) d f' (m pw)) as K.
      { intros pw m. unfold down1. revert pw. assert (forall j, In j (rev (seq 1 d)) -> (1 <= j)%nat) as Hl by (intros j; rewrite <- in_rev, in_seq; lia).
        revert Hl. generalize (rev (seq 1 d)). induction l as [|j l IH]; intros Hl pw; cbn [fold_left]; auto.
        rewrite IH by (intros; apply Hl; now right). f_equal. pose proof (Hl j (or_introl eq_refl)) as Hj. clear IH Hl. destruct pw as [p1 w1].
        unfold F, f'. unfold m. cbn [fst snd]. cbv zeta.
        rewrite <- mrg_w. rewrite mrg_r by lia.
        rewrite <- (loop_sim (fun w => mrg x p1 w) 1 j (fun k w => fset w k (w k + p1 r j * ((INR k * y - INR (j - k)) * V r (j - k)%nat / (INR j * V x 0%nat))))
           (fun k m => padd x k (m r j * ((INR k * y - INR (j - k)) * V r (j - k)%nat / (INR j * V x 0%nat))) m)).
        2:{ intros k w. rewrite mrg_w. now rewrite mrg_r by lia. }
        set (w2 := loop 1 j _ (fset w1 _ _)).
        rewrite <- (loop_sim (fun p => mrg x p w2) 1 j (fun k p => padd r k (p r j * ((INR (j - k) * y - INR k) * V x (j - k)%nat / (INR j * V x 0%nat))) p)
           (fun k m => padd r k (m r j * ((INR (j - k) * y - INR k) * V x (j - k)%nat / (INR j * V x 0%nat))) m)).
        2:{ intros k w. rewrite mrg_p by lia. now rewrite mrg_r by lia. }
        match goal with |- context [@loop ?A 1%nat j ?f p1] => set (p2 := @loop A 1%nat j f p1) end. rewrite psub_padd, <- mrg_w. rewrite !mrg_r by lia. rewrite mrg_p by lia. reflexivity. }
      specialize (K i). cbv beta zeta in K. assert (mrg x (fst i) (snd i) = p) as Ei.
      { extensionality u. extensionality k. unfold mrg, i. cbn. destruct (Nat.eqb_spec u x) as [->|]; auto. }
      rewrite Ei in K. clear Ei. rewrite <- K. clear K. destruct (fold_left F (rev (seq 1 d)) i) as [p1 w1]. cbn [fst snd].
      rewrite <- mrg_w. rewrite mrg_r by lia.
      set (w2 := fset w1 0 _).
      apply pair_p; auto. intros u k Hu Hk. unfold ceq0. cbn [b_cmp Rbase R_cmp b0].
      assert (Reqb (V x 0%nat) 0 = false) as -> by (unfold Reqb; destruct (Req_EM_T (V x 0%nat) 0); auto; lra).
      assert (forall n, loop 0 n (fun j p => pset p x j (w2 j)) p1 u k = if (u =? x)%nat && (k <? n)%nat then w2 k else p1 u k) as E.
      { induction n as [|n IHn]; [rewrite lp_nil by lia; now rewrite andb_false_r|]. rewrite lp_lst by lia. unfold Sweep_Model.pset at 1. rewrite IHn.
        destruct (Nat.eqb_spec u x); cbn [andb]; auto. destruct (Nat.eqb_spec k n) as [->|].
        - now rewrite (proj2 (Nat.ltb_lt n (Datatypes.S n))) by lia.
        - destruct (Nat.ltb_spec k n), (Nat.ltb_spec k (Datatypes.S n)); auto; lia. }
      change (@Sweep_Model.pset b) with pset. rewrite E. unfold mrg. destruct (Nat.eqb_spec u x); auto. destruct (Nat.ltb_spec k (Datatypes.S d)); auto; lia. }
    apply (down1_1 dis nan Vh d r f' (fun m => padd x 0 (m r 0%nat * (y * V r 0%nat / V x 0%nat)) m)); auto.
    - clear p. intros j p Hj. unfold f'. clear f'. cbv zeta. pose proof (INRne j ltac:(lia)) as Nj.
      set (p0 := padd x j _ p).
      assert (p0 r j = p r j) as R0 by (unfold p0; now rewrite padd_ne by lia).
      match goal with |- context [@loop ?A 1%nat j ?f p0] => set (p1 := @loop A 1%nat j f p0) end.
      assert (p1 r j = p r j /\ F1 Vh d r j p1 = F1 Vh d r j p0 + sumR 1 j (fun k => p r j * ((INR k * y - INR (j - k)) * V r (j - k)%nat / (INR j * V x 0%nat)) * dV x k)) as [R1 G1].
      { unfold p1. apply (loop_pair (F1 Vh d r j) 1 j _ (fun m : nat -> nat -> R => m r j = p r j)); auto.
        intros k m Hk Im. rewrite padd_ne by lia. rewrite Im. split; auto. rewrite F1_add by lia. Wv. reflexivity. }
      clearbody p1. match goal with |- context [@loop ?A 1%nat j ?f p1] => set (p2 := @loop A 1%nat j f p1) end.
      assert (p2 r j = p r j /\ F1 Vh d r j p2 = F1 Vh d r j p1 + sumR 1 j (fun k => p r j * ((INR (j - k) * y - INR k) * V x (j - k)%nat / (INR j * V x 0%nat)) * dV r k)) as [R2 G2].
      { unfold p2. apply (loop_pair (F1 Vh d r j) 1 j _ (fun m : nat -> nat -> R => m r j = p r j)); auto.
        intros k m Hk Im. rewrite padd_ne by lia. rewrite Im. split; auto. rewrite F1_add by lia. Wv. reflexivity. }
      clearbody p2. rewrite F1_add by lia. rewrite F1_sub by lia. rewrite psub_ne by lia. rewrite R2, G2, G1. unfold p0. rewrite F1_add by lia. Wv.
      rewrite (EQ j) by lia. destruct (Nat.eqb_spec j 0) as [->|_]; [lia|].
      assert (sumR 1 j (fun k => INR k * (y * (dV x k * V r (j - k)%nat + V x k * dV r (j - k)%nat) - (dV r k * V x (j - k)%nat + V r k * dV x (j - k)%nat)))
        = sumR 1 j (fun k => (INR k * y - INR (j - k)) * V r (j - k)%nat * dV x k) + sumR 1 j (fun k => (INR (j - k) * y - INR k) * V x (j - k)%nat * dV r k)) as ->.
      { rewrite (sumR_ext 1 j _ (fun k => (INR k * y * (dV x k * V r (j - k)%nat) - INR k * (dV r k * V x (j - k)%nat)) + (INR k * y * (V x k * dV r (j - k)%nat) - INR k * (V r k * dV x (j - k)%nat)))) by (intros; ring).
        rewrite sumR_plus. rewrite <- (sumR_rev j (fun k => INR k * y * (V x k * dV r (j - k)%nat) - INR k * (V r k * dV x (j - k)%nat))).
        rewrite <- !sumR_plus. apply sumR_ext. intros k Hk. replace (j - (j - k))%nat with k by lia. ring. }
      rewrite (sumR_ext 1 j _ (fun k => p r j / (INR j * V x 0%nat) * ((INR k * y - INR (j - k)) * V r (j - k)%nat * dV x k))) by (intros; unfold Rdiv; ring).
      rewrite (sumR_ext 1 j (fun k => p r j * _ * dV r k) (fun k => p r j / (INR j * V x 0%nat) * ((INR (j - k) * y - INR k) * V x (j - k)%nat * dV r k))) by (intros; unfold Rdiv; ring).
      rewrite !sumR_mul. field. auto.
    - clear p. intros p. rewrite F1_add by lia. Wv. rewrite EQ by lia. cbn [Nat.eqb]. unfold Rdiv. ring.
  Qed.

  Lemma none_adj r u x : (0 < r)%nat -> sats r (SPair u x) ->
    (forall h j, coef (b:=b) INR P (SPair u x) r (Vh h) j = [0; 0]) -> (forall p, rev_sub (SPair u x) r V d p = p) -> adj r (SPair u x).
  Proof.
    intros Hr S HC HR. pose proof (sats_2 dis nan P Vh d r u x S) as Q.
    destruct (solve2 Vh d r (Datatypes.S r) (fun _ => 0) (fun _ => 0)) as [OK EQ].
    { intros j Hj _ _. apply isd_loc with (fun _ => 0); [|apply isd_const]. generalize (Q j Hj). apply filter_imp. intros h [-> _]. now rewrite HC. }
    { intros j Hj _ _. apply isd_loc with (fun _ => 0); [|apply isd_const]. generalize (Q j Hj). apply filter_imp. intros h [_ ->]. now rewrite HC. }
    apply adj_2; [exact OK|]. intros p _. rewrite HR. rewrite !pair_last by lia.
    rewrite (sumR_zero 0 (Datatypes.S d) (fun k => p r k * dV r k)), (sumR_zero 0 (Datatypes.S d) (fun k => p (Datatypes.S r) k * dV (Datatypes.S r) k)); [ring| |];
      intros k Hk; destruct (EQ k ltac:(lia)) as [E1 E2]; rewrite ?E1, ?E2; ring.
  Qed.
  (** ** all elementary loops *)
  Theorem sub_adj r s : (0 < r)%nat -> sub_ok s -> argok s r -> sats r s ->
    sub_reg dis nan P s (fun i h => Vh h i 0%nat) -> adj r s.
  Proof.
    intros Hr OK A S HR.
    destruct s as [x y|p y|x y|p y|x p|x y|p y|x y|p y|x p|x y|p y|x p|u x|u x|p|p|c x|a|a|x y z1|x p|c x z3]; cbn [sub_reg] in HR.
    - apply (two_adj dis nan P Vh d r _ x y 1); auto; try (cbn; auto; fail).
      + intros; cbn; ring.
      + eexists. split; [intros; reflexivity|]. intros; cbn. rewrite Rmult_1_l. reflexivity.
    - apply (simple_adj dis nan P Vh d r _ y 1); auto; try (cbn; auto; fail).
      + intros j Hj. exists (if (j =? 0)%nat then P p else 0). apply all_loc. intros h. cbn. destruct (Nat.eqb_spec j 0) as [->|]; ring.
      + eexists. split; [intros; reflexivity|]. intros; cbn. rewrite Rmult_1_l. reflexivity.
    - apply (two_adj dis nan P Vh d r _ x y (-1)); auto; try (cbn; auto; fail).
      + intros; cbn; ring.
      + eexists. split; [intros; reflexivity|]. intros; cbn. rewrite psub_padd. f_equal. ring.
    - apply (simple_adj dis nan P Vh d r _ y (-1)); auto; try (cbn; auto; fail).
      + intros j Hj. exists (if (j =? 0)%nat then P p else 0). apply all_loc. intros h. cbn. destruct (Nat.eqb_spec j 0) as [->|]; ring.
      + eexists. split; [intros; reflexivity|]. intros; cbn. rewrite psub_padd. f_equal. ring.
    - apply (simple_adj dis nan P Vh d r _ x 1); auto; try (cbn; auto; fail).
      + intros j Hj. exists (if (j =? 0)%nat then - P p else 0). apply all_loc. intros h. cbn. destruct (Nat.eqb_spec j 0) as [->|]; ring.
      + eexists. split; [intros; reflexivity|]. intros; cbn. rewrite Rmult_1_l. reflexivity.
    - eapply mul_adj; eauto.
    - (* mulp *) apply (simple_adj dis nan P Vh d r _ y (pget (b:=b) P p V)); auto; try (cbn; auto; fail).
      + cbn. rewrite in_app_iff. cbn. auto.
      + intros j Hj. exists 0. destruct p as [i|i]; cbn [pget] in *.
        * apply all_loc. intros h. cbn. ring.
        * unfold frozen in HR. generalize HR. apply filter_imp. intros h E. cbn. rewrite E. ring.
      + eexists. split; [intros; reflexivity|]. intros; cbn. f_equal. ring.
    - eapply mul_adj; eauto.
    - apply (simple_adj dis nan P Vh d r _ y (P p)); auto; try (cbn; auto; fail).
      + intros j Hj. exists 0. apply all_loc. intros h. cbn. ring.
      + eexists. split; [intros; reflexivity|]. intros; cbn. f_equal. ring.
    - apply (simple_adj dis nan P Vh d r _ x (P p)); auto; try (cbn; auto; fail).
      + intros j Hj. exists 0. apply all_loc. intros h. cbn. ring.
      + eexists. split; [intros; reflexivity|]. intros; cbn. f_equal. ring.
    - apply div_adj; auto.
    - apply divp_adj; auto.
    - apply (simple_adj dis nan P Vh d r _ x (1 / P p)); auto; try (cbn; auto; fail).
      + intros j Hj. exists 0. apply all_loc. intros h. cbn. unfold Rdiv. ring.
      + eexists. split; [intros; reflexivity|]. intros; cbn. f_equal. ring.
    - destruct u.
      all: try (apply (const_adj dis nan P Vh d r); auto; intros j Hj; exists 0; apply all_loc; intros h; reflexivity).
      + now apply neg_adj.
      + now apply abs_adj.
      + (* sign *) apply (const_adj dis nan P Vh d r); auto. intros j Hj. destruct (Nat.eqb_spec j 0) as [->|].
        * exists (Rsgn (V x 0%nat)). unfold frozen in HR. generalize HR. apply filter_imp. intros h E. exact E.
        * exists 0. apply all_loc. intros h. cbn. destruct (Nat.eqb_spec j 0); [contradiction|]. reflexivity.
      + (* exp *) apply (exp0_adj dis nan P Vh d r _ x); auto; try (cbn; auto; fail).
        * apply (sats_1 dis nan P Vh d r (SUn Uexp x) eq_refl S 0%nat). lia.
        * intros j Hj. apply all_loc. intros h. destruct j; [lia|]. reflexivity.
      + now apply expm1_adj.
      + apply log_adj; auto. rewrite Rplus_0_l. exact HR.
      + apply log_adj; auto.
      + apply sqrt_adj; auto.
    - { destruct u.
      all: try (apply (sin_adj dis nan P Vh d r x _); cbn; auto; fail).
      all: try (apply (arcs_adj dis nan P Vh d r x _); cbn; auto; fail).
      all: try (apply (atns_adj dis nan P Vh d r x _); cbn; auto; congruence).
      all: try (apply (tan_adj dis nan P Vh d r x _); cbn; auto; congruence).
      all: apply (none_adj r); auto. }
    - apply (const_adj dis nan P Vh d r); auto. intros j Hj. exists (if (j =? 0)%nat then P p else 0). apply all_loc. intros h. reflexivity.
    - apply (const_adj dis nan P Vh d r); auto. intros j Hj. exists (if (j =? 0)%nat then ln (P p) else 0). apply all_loc. intros h. reflexivity.
    - apply (const_adj dis nan P Vh d r); auto. intros j Hj. destruct (Nat.eqb_spec j 0) as [->|].
      + exists (dis c (V x 0%nat)). unfold frozen in HR. generalize HR. apply filter_imp. intros h E. exact E.
      + exists 0. apply all_loc. intros h. cbn. destruct (Nat.eqb_spec j 0); [contradiction|]. reflexivity.
    - now apply cexp_adj.
    - now apply csum_adj.
    - apply (exp0_adj dis nan P Vh d r _ z1); auto; try (cbn; auto; fail).
      + cbn. rewrite in_app_iff. cbn. auto.
      + pose proof (sats_1 dis nan P Vh d r (SPowexp x y z1) eq_refl S 0%nat ltac:(lia)) as Q0. generalize (filter_and _ _ Q0 HR). apply filter_imp.
        intros h [-> [Px ->]]. cbn. assert (pget (b:=b) P x (Vh h) = pgetf P x (fun i h => Vh h i 0%nat) h) as -> by (destruct x; reflexivity).
        unfold Rpow. destruct (Rlt_dec 0 _); [|contradiction]. reflexivity.
      + intros j Hj. apply all_loc. intros h. destruct j; [lia|]. reflexivity.
    - now apply powvp_adj.
    - now apply erf_adj.
  Qed.
End RevSub7.
