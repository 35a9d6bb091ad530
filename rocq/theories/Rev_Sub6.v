(** Reverse mode: the remaining elementary loops, and one statement for all of them. *)
From Coq Require Import Reals ZArith Lra Lia List Bool Arith FunctionalExtensionality.
From Coquelicot Require Import Coquelicot.
From Verif Require Import Base_Spec Op_Model Tape_Spec Tape_Model Tape_Proof Tape_Proof2 Sweep_Model Sweep_Eqs Sweep_Eqs2 Real_Base Tay_Calc Tay_Sub Rev_Calc Rev_Sub Rev_Sub2 Rev_Sub3 Rev_Sub4 Rev_Sub5.
Import ListNotations.
Open Scope R_scope.

Section RevSub6.
  Variable dis : nat -> R -> R.
  Variable nan : R.
  Notation b := (Rbase dis nan).
  Variable P : nat -> R.
  Variable Vh : R -> nat -> nat -> R.
  Notation V := (Vh 0).
  Variable d : nat.
  Notation pset := (pset (b:=b)).
  Notation padd := (padd (b:=b)).
  Notation psub := (psub (b:=b)).
  Notation ok := (ok Vh).
  Notation dV := (dV Vh).
  Notation rev_sub := (rev_sub (b:=b) INR P).
  Notation adj := (adj dis nan P Vh d).
  Notation sats := (sats dis nan P Vh d).
  Notation argok := (argok Vh d).
  Ltac ev := cbn [Sweep_Model.rev_sub Sweep_Model.coef sub_args sub_res nth Nat.eqb b_bin b_un b0 b1 Rbase R_bin R_un bt pget] in *.
  Ltac evz := cbn [Sweep_Model.rev_sub b_bin b_un b0 b1 Rbase R_bin R_un bt pget].
  Ltac inj A O x Hx Ox := pose proof (proj1 (Forall_forall _ _) A x ltac:(cbn; auto)) as Hx; pose proof (O x ltac:(cbn; auto)) as Ox; cbn beta in Hx.
  Ltac Pv := repeat first [ rewrite pair_add by lia | rewrite pair_sub by lia ].

  Ltac rg := match goal with |- @eq _ ?a ?c => change (@eq R a c) end; ring.
  (** *** a sum over a list *)
  Definition lsum (l : list nat) (f : nat -> R) : R := fold_right (fun i s => f i + s) 0 l.
  Lemma isd_rows (f : R -> R -> R) e l j : (forall u v, f u v = u + e * v) -> (forall i, In i l -> ok i j) ->
    forall z z', isd z z' -> isd (fun h => sum_rows (b:=b) f l (Vh h) j (z h)) (z' + e * lsum l (fun i => dV i j)).
  Proof.
    intros Hf. induction l as [|i l IH]; intros Hl z z' Hz; cbn [sum_rows lsum fold_right].
    - eapply isd_eq; [exact Hz|]. ring.
    - eapply isd_eq; [apply (IH (fun i Hi => Hl i (or_intror Hi)) (fun h => f (z h) (Vh h i j)) (z' + e * dV i j))|unfold lsum; ring].
      apply isd_loc with (fun h => z h + e * Vh h i j); [apply all_loc; auto|].
      apply isd_plus; auto. apply isd_scal. apply okd. apply Hl. now left.
  Qed.
  Lemma pass_pair r e (op : nat -> nat -> R -> (nat -> nat -> R) -> nat -> nat -> R) l p :
    (forall v k x q, op v k x q = padd v k (e * x) q) -> (forall i, In i l -> (0 < i < r)%nat) ->
    (forall k, fold_left (fun p i => down0 (b:=b) d (fun k p => op i k (p r k) p) p) l p r k = p r k) /\
    pair d r dV (fold_left (fun p i => down0 (b:=b) d (fun k p => op i k (p r k) p) p) l p)
    = pair d r dV p + sumR 0 (S d) (fun k => p r k * (e * lsum l (fun i => dV i k))).
  Proof.
    intros Hop. revert p. induction l as [|i l IH]; intros p Hl; cbn [fold_left lsum fold_right].
    - split; auto. rewrite sumR_zero; [ring|intros; ring].
    - assert ((forall k, down0 (b:=b) d (fun k p => op i k (p r k) p) p r k = p r k) /\
        pair d r dV (down0 (b:=b) d (fun k p => op i k (p r k) p) p) = pair d r dV p + sumR 0 (S d) (fun k => e * p r k * dV i k)) as [I1 E1].
      { apply (down0_pair d (pair d r dV) (fun k p => op i k (p r k) p) (fun q => forall k, q r k = p r k) (fun k => e * p r k * dV i k) p); auto.
        intros k q Hk Iq. pose proof (Hl i (or_introl eq_refl)). rewrite Hop. split; [intros k'; rewrite padd_ne by lia; auto|]. rewrite pair_add by lia. now rewrite Iq. }
      match goal with |- context [fold_left _ l ?q] => destruct (IH q (fun i Hi => Hl i (or_intror Hi))) as [I2 E2] end.
      split; [intros k; rewrite I2; apply I1|]. rewrite E2, E1, Rplus_assoc. f_equal. rewrite <- sumR_plus. apply sumR_ext.
      intros k Hk. rewrite I1. unfold lsum. ring.
  Qed.
  Lemma csum_adj r a : sub_ok (SCsum a) -> (0 < r)%nat -> argok (SCsum a) r -> sats r (SCsum a) -> adj r (SCsum a).
  Proof.
    intros OKa Hr [A O] S. pose proof (sats_1 dis nan P Vh d r (SCsum a) eq_refl S) as Q.
    unfold sub_ok in OKa. cbn [sub_args var_args] in A, O.
    set (g1 := nth 1 a 0%nat) in *. set (g2 := nth 2 a 0%nat) in *.
    assert (forall i, In i (arg_range a 5 g1) -> In i (arg_range a 5 g2)) as J1 by (intros i; apply arg_range_incl; auto).
    assert (forall i, In i (arg_range a g1 g2) -> In i (arg_range a 5 g2)) as J2 by (intros i; apply arg_range_incr; auto).
    rewrite Forall_forall in A.
    apply (lin_adj dis nan P Vh d r (SCsum a) (fun k => (0 + 1 * lsum (arg_range a 5 g1) (fun i => dV i k)) + -1 * lsum (arg_range a g1 g2) (fun i => dV i k))
      (fun p k => p r k * (1 * lsum (arg_range a 5 g1) (fun i => dV i k)) + p r k * (-1 * lsum (arg_range a g1 g2) (fun i => dV i k)))); auto.
    - intros j Hj. eapply isd_loc; [apply Q; auto|]. cbn [coef nth]. fold g1 g2.
      apply (isd_rows (fun z v => z - v)).
      + intros; ring.
      + intros i Hi. apply O; auto.
      + apply (isd_rows (fun z v => z + v)).
        * intros; ring.
        * intros i Hi. apply O; auto.
        * apply isd_const.
    - intros p. cbn [Sweep_Model.rev_sub]. fold g1 g2.
      destruct (pass_pair r 1 (fun v k x q => padd v k x q) (arg_range a 5 g1) p) as [I1 E1].
      { intros. f_equal. ring. }
      { intros i Hi. apply (A i). auto. }
      match type of I1 with forall k, ?q0 _ _ = _ => destruct (pass_pair r (-1) (fun v k x q => psub v k x q) (arg_range a g1 g2) q0) as [I2 E2] end.
      { intros. rewrite psub_padd. f_equal. ring. }
      { intros i Hi. apply (A i). auto. }
      rewrite E2, E1, Rplus_assoc. f_equal. rewrite <- sumR_plus. apply sumR_ext. intros k Hk. now rewrite I1.
    - intros; ring.
  Qed.

  (** *** abs and neg: increasing order *)
  Lemma up_adj r s x (c : R) : (0 < r)%nat -> argok s r -> sats r s -> In x (sub_args s) -> sub_res s = 1%nat ->
    (forall j, (j <= d)%nat -> locally 0 (fun h => nth 0 (coef (b:=b) INR P s r (Vh h) j) 0 = c * Vh h x j)) ->
    (exists f, (forall p, rev_sub s r V d p = loop 0 (S d) f p) /\ forall j p, f j p = padd x j (c * p r j) p) -> adj r s.
  Proof.
    intros Hr [A O] S Hin E1 HC (f & Hf & Hb). rewrite Forall_forall in A. pose proof (A x Hin) as Hx. pose proof (O x Hin) as Ox.
    pose proof (sats_1 dis nan P Vh d r s E1 S) as Q.
    apply (lin_adj dis nan P Vh d r s (fun k => c * dV x k) (fun p k => c * p r k * dV x k)); auto.
    - intros j Hj. apply isd_loc with (fun h => c * Vh h x j).
      + generalize (filter_and _ _ (Q j Hj) (HC j Hj)). apply filter_imp. intros h [-> ->]. auto.
      + D.
    - intros p. rewrite Hf.
      apply (loop_pair (pair d r dV) 0 (Datatypes.S d) f (fun q => forall k, q r k = p r k)); auto.
      intros k q Hk Iq. rewrite Hb. split; [intros k'; rewrite padd_ne by lia; auto|]. rewrite pair_add by lia. now rewrite Iq.
    - intros; ring.
  Qed.
  Lemma neg_adj r x : (0 < r)%nat -> argok (SUn Uneg x) r -> sats r (SUn Uneg x) -> adj r (SUn Uneg x).
  Proof.
    intros Hr A S. apply (up_adj r _ x (-1)); auto; [cbn; auto| |].
    - intros. apply all_loc. intros h. cbn. ring.
    - eexists. split; [intros; reflexivity|]. intros; cbn. f_equal. ring.
  Qed.
  Lemma abs_adj r x : (0 < r)%nat -> argok (SUn Uabs x) r -> sats r (SUn Uabs x) -> frozen (fun h => Rsgn (Vh h x 0%nat)) -> adj r (SUn Uabs x).
  Proof.
    intros Hr A S Fr. apply (up_adj r _ x (Rsgn (V x 0%nat))); auto; [cbn; auto| |].
    - unfold frozen in Fr. intros j Hj. generalize Fr. apply filter_imp. intros h E. cbn. now rewrite E.
    - eexists. split; [intros; reflexivity|]. intros; cbn. reflexivity.
  Qed.

  (** *** conditional expression *)
  Lemma cexp_adj r a : (0 < r)%nat -> argok (SCexp a) r -> sats r (SCexp a) ->
    frozen (cexp_choice dis nan P a (fun i h => Vh h i 0%nat)) -> adj r (SCexp a).
  Proof.
    intros Hr [A O] S Fr. pose proof (sats_1 dis nan P Vh d r (SCexp a) eq_refl S) as Q.
    cbn [sub_args var_args] in A, O. set (m := nth 1 a 0%nat) in *. set (a4 := nth 4 a 0%nat) in *. set (a5 := nth 5 a 0%nat) in *.
    rewrite Forall_forall in A.
    set (ch := cexp_choice dis nan P a (fun i h => Vh h i 0%nat) 0) in *.
    set (G := fun bit i k => if Nat.testbit m bit then dV i k else 0).
    apply (lin_adj dis nan P Vh d r (SCexp a) (fun k => if ch then G 2%nat a4 k else G 3%nat a5 k)
      (fun p k => (if ch then p r k else 0) * G 2%nat a4 k + (if ch then 0 else p r k) * G 3%nat a5 k)); auto.
    - unfold frozen in Fr. intros j Hj.
      apply isd_loc with (fun h => if ch then (if Nat.testbit m 2 then Vh h a4 j else if (j =? 0)%nat then P a4 else 0)
                                   else (if Nat.testbit m 3 then Vh h a5 j else if (j =? 0)%nat then P a5 else 0)).
      + generalize (filter_and _ _ (Q j Hj) Fr). apply filter_imp. intros h [-> E]. cbn [coef nth]. rewrite cond_exp_true.
        fold m a4 a5. unfold cexp_choice in E. fold m in E. rewrite E. reflexivity.
      + unfold G. destruct ch.
        * destruct (Nat.testbit m 2) eqn:B; [|apply isd_const]. apply okd, O; auto. rewrite !in_app_iff. cbn. auto.
        * destruct (Nat.testbit m 3) eqn:B; [|apply isd_const]. apply okd, O; auto. rewrite !in_app_iff. cbn. auto.
    - intros p. cbn [Sweep_Model.rev_sub]. fold m a4 a5.
      assert (forall t f, cond_exp_code (b:=b) (nth 0 a 0%nat) (vp (b:=b) m 0 P (fun i => V i 0%nat) (nth 2 a 0%nat)) (vp (b:=b) m 1 P (fun i => V i 0%nat) (nth 3 a 0%nat)) t f = if ch then t else f) as EC.
      { intros. rewrite cond_exp_true. unfold ch, cexp_choice. reflexivity. }
      set (p1 := if Nat.testbit m 2 then _ else p).
      assert ((forall k, p1 r k = p r k) /\ pair d r dV p1 = pair d r dV p + sumR 0 (Datatypes.S d) (fun k => (if ch then p r k else 0) * G 2%nat a4 k)) as [I1 E1].
      { unfold p1, G. destruct (Nat.testbit m 2) eqn:B.
        - assert (0 < a4 < r)%nat as H4 by (apply A; rewrite !in_app_iff; cbn; auto).
          apply (down0_pair d (pair d r dV) _ (fun q => forall k, q r k = p r k)); auto.
          intros k q Hk Iq. rewrite EC. split; [intros k'; rewrite padd_ne by lia; auto|]. rewrite pair_add by lia. rewrite Iq. reflexivity.
        - split; auto. rewrite sumR_zero; [ring|intros; ring]. }
      clearbody p1. set (p2 := if Nat.testbit m 3 then _ else p1).
      assert (pair d r dV p2 = pair d r dV p1 + sumR 0 (Datatypes.S d) (fun k => (if ch then 0 else p r k) * G 3%nat a5 k)) as E2.
      { unfold p2, G. destruct (Nat.testbit m 3) eqn:B.
        - assert (0 < a5 < r)%nat as H4 by (apply A; rewrite !in_app_iff; cbn; auto).
          apply (down0_pair d (pair d r dV) _ (fun q => forall k, q r k = p r k)); auto.
          intros k q Hk Iq. rewrite EC. split; [intros k'; rewrite padd_ne by lia; auto|]. rewrite pair_add by lia. rewrite Iq. reflexivity.
        - rewrite sumR_zero; [ring|intros; ring]. }
      rewrite E2, E1, Rplus_assoc. f_equal. now rewrite <- sumR_plus.
    - intros p k Hk. destruct ch; ring.
  Qed.

  (** *** exp, expm1, last step of pow *)
  Lemma padd0 v k p x : x = 0 -> padd v k x p = p.
  Proof.
    intros ->. extensionality i. extensionality q. unfold Sweep_Model.padd, Sweep_Model.pset. cbn.
    destruct (Nat.eqb_spec i v) as [->|]; auto. destruct (Nat.eqb_spec q k) as [->|]; auto. cbn. ring.
  Qed.
  Lemma down1_ext' f f' p : (forall j q, f j q = f' j q) -> down1 (b:=b) d f p = down1 (b:=b) d f' p.
  Proof. intros H. f_equal. extensionality j. extensionality q. auto. Qed.
  Lemma expS h j r x : (1 <= j)%nat -> loop 2 (S j) (fun k z => z + INR k * Vh h x k * Vh h r (j - k)%nat) (Vh h x 1%nat * Vh h r (j - 1)%nat)
    = sumR 1 (S j) (fun k => INR k * (Vh h x k * Vh h r (j - k)%nat)).
  Proof.
    intros Hj. rewrite lp_add, (sumR_fst 1) by lia. cbn [INR]. rewrite Rmult_1_l. f_equal. apply sumR_ext. intros; ring.
  Qed.
  Lemma exp0_adj r s x : (0 < r)%nat -> argok s r -> sats r s -> In x (sub_args s) -> sub_res s = 1%nat ->
    locally 0 (fun h => Vh h r 0%nat = exp (Vh h x 0%nat)) ->
    (forall j, (1 <= j <= d)%nat -> locally 0 (fun h => nth 0 (coef (b:=b) INR P s r (Vh h) j) 0 =
       loop 2 (S j) (fun k z => z + INR k * Vh h x k * Vh h r (j - k)%nat) (Vh h x 1%nat * Vh h r (j - 1)%nat) / INR j)) ->
    (forall p, rev_sub s r V d p = if all_zero (b:=b) p r d then p else
      let p := down1 (b:=b) d (fun j p =>
                 let p := pset p r j (p r j / INR j) in
                 loop 1 (S j) (fun k p =>
                   let p := padd x k (INR k * (p r j * V r (j - k)%nat)) p in
                   padd r (j - k)%nat (INR k * (p r j * V x k)) p) p) p in
      padd x 0 (p r 0%nat * V r 0%nat) p) ->
    adj r s.
  Proof.
    intros Hr A S Hin E1 Q0 HC HR. pose proof A as [A1 A2].
    apply (exp_adj dis nan P Vh d r s x 0); auto.
    - apply isd_loc with (fun h => exp (Vh h x 0%nat)); auto.
      eapply isd_eq; [apply (isd_comp exp (fun h => Vh h x 0%nat)); [apply der_exp|apply okd, A2; auto; lia]|].
      rewrite (loc0 _ Q0). ring.
    - intros j Hj. generalize (HC j Hj). apply filter_imp. intros h ->. rewrite expS by lia. rg.
    - intros p. rewrite HR. destruct (all_zero _ _ _); auto.
      match goal with |- _ = padd x 0 (0 * ?q r 0%nat + _) _ => set (q1 := q) end.
      match goal with |- (let p := ?q in _) = _ => assert (q = q1) as -> end.
      { apply down1_ext'. intros j q. cbv zeta. rewrite padd0 by ring. reflexivity. }
      cbv zeta. f_equal. ring.
  Qed.
  Lemma expm1_adj r x : (0 < r)%nat -> argok (SUn Uexpm1 x) r -> sats r (SUn Uexpm1 x) -> adj r (SUn Uexpm1 x).
  Proof.
    intros Hr A S. pose proof A as [A1 A2]. pose proof (sats_1 dis nan P Vh d r (SUn Uexpm1 x) eq_refl S) as Q.
    apply (exp_adj dis nan P Vh d r _ x 1); auto; [cbn; auto| | |].
    - apply isd_loc with (fun h => exp (Vh h x 0%nat) - 1); [apply (Q 0%nat); lia|].
      eapply isd_eq; [apply isd_minus; [apply (isd_comp exp (fun h => Vh h x 0%nat)); [apply der_exp|apply okd, A2; [cbn; auto|lia]]|apply isd_const]|].
      pose proof (loc0 _ (Q 0%nat ltac:(lia))) as E. cbn in E. rewrite E. ring.
    - intros j Hj. apply all_loc. intros h. destruct j as [|j]; [lia|]. cbn [coef nth Nat.eqb]. cbn [b_bin Rbase R_bin bt].
      rewrite expS by lia. rg.
    - intros p. change (rev_sub (SUn Uexpm1 x) r V d p) with (if all_zero (b:=b) p r d then p else
        let p := down1 (b:=b) d (fun j p =>
                   let p := padd x j (p r j) p in
                   let p := pset p r j (p r j / INR j) in
                   loop 1 (Datatypes.S j) (fun k p =>
                     let p := padd x k (INR k * (p r j * V r (Nat.sub j k))) p in
                     padd r (Nat.sub j k) (INR k * (p r j * V x k)) p) p) p in
        padd x 0 (p r 0%nat + p r 0%nat * V r 0%nat) p). destruct (all_zero _ _ _); auto.
      match goal with |- _ = padd x 0 (1 * ?q r 0%nat + _) _ => set (q1 := q) end.
      match goal with |- (let p := ?q in _) = _ => assert (q = q1) as -> end.
      { apply down1_ext'. intros j q. cbv zeta. rewrite Rmult_1_l. reflexivity. }
      cbv zeta. f_equal. ring.
  Qed.

  (** *** erf and erfc, last loop *)
  Lemma erf_adj r c x z3 : (0 < r)%nat -> argok (SErf c x z3) r -> sats r (SErf c x z3) ->
    locally 0 (fun h => Vh h z3 0%nat = erf_c * exp (0 - Vh h x 0%nat * Vh h x 0%nat)) -> adj r (SErf c x z3).
  Proof.
    intros Hr [A O] S Z. inj A O x Hx Ox. inj A O z3 Hz Oz. pose proof (sats_1 dis nan P Vh d r (SErf c x z3) eq_refl S) as Q. clear S.
    set (e := if c then -1 else 1).
    assert (isd (fun h => Vh h r 0%nat) (e * V z3 0%nat * dV x 0)) as I0.
    { apply isd_loc with (fun h => (if c then 1 - Rerf (Vh h x 0%nat) else Rerf (Vh h x 0%nat))).
      - generalize (Q 0%nat ltac:(lia)). apply filter_imp. intros h ->. destruct c; reflexivity.
      - rewrite (loc0 _ Z). unfold e. destruct c.
        + eapply isd_eq; [apply isd_minus; [apply isd_const|apply (isd_comp Rerf (fun h => Vh h x 0%nat)); [apply der_erf|apply okd, Ox; lia]]|]. ring.
        + eapply isd_eq; [apply (isd_comp Rerf (fun h => Vh h x 0%nat)); [apply der_erf|apply okd, Ox; lia]|]. ring. }
    destruct (solve1 Vh d r (fun j => if (j =? 0)%nat then e * V z3 0%nat * dV x 0 else
       e * sumR 1 (Datatypes.S j) (fun k => INR k * (dV x k * V z3 (j - k)%nat + V x k * dV z3 (j - k)%nat)) / INR j)) as [OK EQ].
    { intros j Hj Or. destruct (Nat.eqb_spec j 0) as [->|Nj]; auto.
      apply isd_loc with (fun h => e * sumR 1 (Datatypes.S j) (fun k => INR k * (Vh h x k * Vh h z3 (j - k)%nat)) / INR j).
      - generalize (Q j Hj). apply filter_imp. intros h ->. cbn [coef nth]. destruct (Nat.eqb_spec j 0) as [->|_]; [lia|].
        cbn [b_bin b_un b1 b0 Rbase R_bin R_un bt]. rewrite lp_add, Rplus_0_l.
        unfold Rdiv. rewrite Rmult_assoc, (Rmult_comm (sumR _ _ _)), <- Rmult_assoc, <- sumR_mul. apply sumR_ext. intros k Hk.
        unfold e. destruct c; ring.
      - D. }
    apply adj_1; auto. intros p. cbn [Sweep_Model.rev_sub b_bin b_un b1 b0 Rbase R_bin R_un bt].
    assert ((if c then -(1) else 1) = e) as -> by (unfold e; destruct c; ring).
    apply (down1_1 dis nan Vh d r _ (fun q => padd x 0 (e * (q r 0%nat * V z3 0%nat)) q)); auto.
    - clear p. intros j p Hj. cbv zeta. pose proof (INRne j ltac:(lia)) as Nj.
      LP (F1 Vh d r j) (fun q : nat -> nat -> R => q r j = p r j / INR j)
       (fun k => e * (p r j / INR j) * (INR k * (dV x k * V z3 (j - k)%nat + V x k * dV z3 (j - k)%nat))).
      + now Rd.
      + intros k q Hk Iq. cbv zeta. Rd. rewrite Iq. split; auto. Fv. Wv. ring.
      + rewrite F1_set by lia. rewrite EQ by lia. destruct (Nat.eqb_spec j 0) as [->|_]; [lia|]. rewrite sumR_mul. field. auto.
    - clear p. intros p. rewrite F1_add by lia. Wv. rewrite EQ by lia. cbn [Nat.eqb]. ring.
  Qed.
End RevSub6.
