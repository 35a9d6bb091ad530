(** The reverse calculation of each elementary loop is the transpose of the
    linearised forward recurrence. *)
From Coq Require Import Reals ZArith Lra Lia List Bool Arith.
From Coquelicot Require Import Coquelicot.
From Verif Require Import Base_Spec Op_Model Tape_Spec Tape_Model Tape_Proof Tape_Proof2 Sweep_Model Sweep_Eqs Sweep_Eqs2 Real_Base Tay_Calc Tay_Sub Rev_Calc Rev_Sub.
Import ListNotations.
Open Scope R_scope.

Ltac Wv := repeat match goal with |- context [Wm ?Vh ?r ?c1 ?c2 ?i ?k] =>
  first [ rewrite (Wm_arg Vh r c1 c2 i k) by lia | rewrite (Wm_r Vh r c1 c2 k) by lia
        | rewrite (Wm_z Vh r c1 c2 k) by lia | rewrite (Wm_r0 Vh r c1 c2 k) by lia
        | rewrite (Wm_z0 Vh r c1 c2 k) by lia ] end.
Ltac Rd := repeat match goal with
  | |- context [Sweep_Model.padd ?v ?k ?x ?p ?v' ?k'] => rewrite (padd_ne _ _ p v k x v' k') by lia
  | |- context [Sweep_Model.psub ?v ?k ?x ?p ?v' ?k'] => rewrite (psub_ne _ _ p v k x v' k') by lia
  | |- context [Sweep_Model.pset ?p ?v ?k ?x ?v' ?k'] => first [rewrite (pset_eq _ _ p v k x) | rewrite (pset_ne _ _ p v k x v' k') by lia]
  end.
Ltac Fv := repeat first
  [ rewrite F1_add by lia | rewrite F1_sub by lia | rewrite F1_set by lia
  | rewrite F2_add by lia | rewrite F2_sub by lia | rewrite F2_setr by lia | rewrite F2_setz by lia ].
Ltac D1 := match goal with
  | |- isd (fun _ => ?c) _ => apply (isd_const c)
  | |- isd (fun h => _ h _ _) _ => apply okd; match goal with H : forall k, _ -> Rev_Sub.ok _ ?x k |- Rev_Sub.ok _ ?x _ => apply H; lia end
  | |- isd (fun h => sumR _ _ _) _ => apply isd_sumR; intros
  | |- isd (fun h => ?c * @?f h) _ => apply (isd_scal c f)
  | |- isd (fun h => @?f h / ?c) _ => apply (isd_divc f c)
  | |- isd (fun h => @?f h + @?g h) _ => apply (isd_plus f g)
  | |- isd (fun h => @?f h - @?g h) _ => apply (isd_minus f g)
  | |- isd (fun h => @?f h * @?g h) _ => apply (isd_mult f g)
  | |- isd (fun h => - @?f h) _ => apply (isd_opp f)
  end.
Ltac D := repeat D1.
(** the first loop of the goal *)
Ltac LP Fn I g := match goal with |- context [loop ?lo ?hi ?f ?p0] =>
  let K := fresh "K" in
  destruct (loop_pair Fn lo hi f I g p0) as [? K]; [ | |rewrite K] end.

Section RevSub2.
  Variable dis : nat -> R -> R.
  Variable nan : R.
  Notation b := (Rbase dis nan).
  Variable P : nat -> R.
  Variable Vh : R -> nat -> nat -> R.
  Notation V := (Vh 0).
  Variable d : nat.
  Notation pset := (pset (b:=b)).
  Notation padd := (padd (b:=b)).
  Notation psub := (psub (b:=b)).
  Notation ok := (ok Vh).
  Notation dV := (dV Vh).
  Notation rev_sub := (rev_sub (b:=b) INR P).
  Ltac ev := cbn [Sweep_Model.rev_sub Sweep_Model.coef sub_args sub_res nth Nat.eqb b_bin b_un b0 b1 Rbase R_bin R_un bt pget] in *.

  Definition sats (r : nat) (s : sub) : Prop := forall j, (j <= d)%nat ->
    locally 0 (fun h => sat_sub (b:=b) INR P (Vh h) r s j).
  Definition argok (s : sub) r : Prop := List.Forall (fun x => (0 < x < r)%nat) (sub_args s) /\
    forall x, In x (sub_args s) -> forall k, (k <= d)%nat -> ok x k.
  (** the claim for one loop with one result *)
  Definition adj (r : nat) (s : sub) : Prop :=
    (forall m, (m < sub_res s)%nat -> forall k, (k <= d)%nat -> ok (r + m) k) /\
    forall p, (sub_res s = 2%nat -> forall k, (k <= d)%nat -> p r k = 0) ->
      pair d r dV (rev_sub s r V d p) = pair d (r + sub_res s) dV p.

  Lemma adj_1 r s : sub_res s = 1%nat -> (forall k, (k <= d)%nat -> ok r k) ->
    (forall p, pair d r dV (rev_sub s r V d p) = pair d (S r) dV p) -> adj r s.
  Proof.
    intros E H K. split.
    - intros m Hm. rewrite E in Hm. assert (m = 0)%nat as -> by lia. now rewrite Nat.add_0_r.
    - intros p _. rewrite E, Nat.add_1_r. apply K.
  Qed.
  Lemma sats_1 r s : sub_res s = 1%nat -> sats r s ->
    forall j, (j <= d)%nat -> locally 0 (fun h => Vh h r j = nth 0 (coef (b:=b) INR P s r (Vh h) j) 0).
  Proof.
    intros E H j Hj. generalize (H j Hj). apply filter_imp. intros h K.
    specialize (K 0%nat ltac:(lia)). now rewrite Nat.add_0_r in K.
  Qed.
  Lemma INRne j : (1 <= j)%nat -> INR j <> 0.
  Proof. intros. apply not_0_INR. lia. Qed.
  Lemma loc0 (Q : R -> Prop) : locally 0 Q -> Q 0.
  Proof. apply locally_singleton. Qed.

  Lemma mul_adj r x y s : s = SMul x y \/ s = SZmul x y -> (0 < r)%nat -> argok s r -> sats r s -> adj r s.
  Proof.
    intros Es Hr [A O] S.
    assert (sub_res s = 1%nat) as E1 by (destruct Es; subst; auto).
    pose proof (sats_1 r s E1 S) as Q.
    assert (0 < x < r)%nat as Hx by (destruct Es; subst; apply Forall_cons_iff in A; tauto).
    assert (0 < y < r)%nat as Hy by (destruct Es; subst; apply Forall_cons_iff in A; destruct A as [_ A]; apply Forall_cons_iff in A; tauto).
    assert (forall k, (k <= d)%nat -> ok x k) as Ox by (destruct Es; subst; intros; apply O; cbn; auto).
    assert (forall k, (k <= d)%nat -> ok y k) as Oy by (destruct Es; subst; intros; apply O; cbn; auto).
    destruct (solve1 Vh d r (fun j => sumR 0 (Datatypes.S j) (fun k => dV x (j - k)%nat * V y k + V x (j - k)%nat * dV y k))) as [OK EQ].
    { intros j Hj Or. apply isd_loc with (fun h => sumR 0 (Datatypes.S j) (fun k => Vh h x (j - k)%nat * Vh h y k)).
      - generalize (Q j Hj). apply filter_imp. intros h ->. destruct Es; subst s; ev; rewrite lp_add; ring.
      - D. }
    apply adj_1; auto.
    assert (forall p, rev_sub s r V d p = rev_sub (SMul x y) r V d p) as Er by (destruct Es; subst s; auto).
    intros p. rewrite Er. ev. apply down0_1; auto. clear p. intros j p Hj.
    LP (F1 Vh d r j) (fun q : nat -> nat -> R => q r j = p r j)
       (fun k => p r j * V y k * dV x (j - k)%nat + p r j * V x (j - k)%nat * dV y k); auto.
    { intros k q Hk Iq. cbv zeta. Rd. rewrite Iq. split; auto. Fv. Wv. ring. }
    rewrite EQ by auto. rewrite <- sumR_mul. f_equal. apply sumR_ext. intros; ring.
  Qed.

  (** *** loops without recurrence *)
  Lemma down0_pair {A} (Fn : A -> R) (f : nat -> A -> A) (I : A -> Prop) (g : nat -> R) p : I p ->
    (forall k p, (k <= d)%nat -> I p -> I (f k p) /\ Fn (f k p) = Fn p + g k) ->
    I (fold_left (fun p j => f j p) (rev (seq 0 (S d))) p) /\
    Fn (fold_left (fun p j => f j p) (rev (seq 0 (S d))) p) = Fn p + sumR 0 (S d) g.
  Proof.
    intros H0 H.
    destruct (fold_down (fun j p => Fn p + sumR 0 j g) (fun _ => I) f 0 (S d) p) as [H1 H2]; auto.
    - intros j q Hj Iq. destruct (H j q ltac:(lia) Iq) as [K1 K2]. split; auto. rewrite K2, sumR_lst by lia. ring.
    - split; auto. rewrite (sumR_nil 0 0), Rplus_0_r in H2 by lia. exact H2.
  Qed.
  Lemma pair_last r p : (0 < r)%nat -> pair d (S r) dV p = pair d r dV p + sumR 0 (S d) (fun k => p r k * dV r k).
  Proof. intros. unfold pair. now rewrite (sumR_lst 1 r) by lia. Qed.
  Ltac Pv := repeat first [ rewrite pair_add by lia | rewrite pair_sub by lia ].
  (** one pass over the orders that adds g k to the pairing *)
  Lemma lin_adj r s E g : sub_res s = 1%nat -> (0 < r)%nat ->
    (forall j, (j <= d)%nat -> isd (fun h => Vh h r j) (E j)) ->
    (forall p, pair d r dV (rev_sub s r V d p) = pair d r dV p + sumR 0 (S d) (g p)) ->
    (forall p k, (k <= d)%nat -> g p k = p r k * E k) -> adj r s.
  Proof.
    intros E1 Hr HD HR HG. destruct (solve1 Vh d r E) as [OK EQ]; [intros; auto|].
    apply adj_1; auto. intros p. rewrite HR, pair_last by auto. f_equal. apply sumR_ext. intros k Hk.
    rewrite HG, EQ by lia. auto.
  Qed.
  Ltac arg1 A O x Hx Ox := assert (0 < x < _)%nat as Hx by (apply Forall_cons_iff in A; destruct A; eassumption);
     assert (forall k, (k <= d)%nat -> ok x k) as Ox by (intros; apply O; [cbn; auto|assumption]).

  Lemma simple_adj r s (x : nat) (c : R) : (0 < r)%nat -> argok s r -> sats r s -> In x (sub_args s) ->
    sub_res s = 1%nat ->
    (forall j, (j <= d)%nat -> exists c0, locally 0 (fun h => nth 0 (coef (b:=b) INR P s r (Vh h) j) 0 = c0 + c * Vh h x j)) ->
    (exists f, (forall p, rev_sub s r V d p = down0 (b:=b) d f p) /\ forall j p, f j p = padd x j (c * p r j) p) -> adj r s.
  Proof.
    intros Hr [A O] S Hin E1 HC (f & Hf & Hb). rewrite Forall_forall in A. pose proof (A x Hin) as Hx. pose proof (O x Hin) as Ox.
    pose proof (sats_1 r s E1 S) as Q.
    apply (lin_adj r s (fun k => c * dV x k) (fun p k => c * p r k * dV x k)); auto.
    - intros j Hj. destruct (HC j Hj) as (c0 & L). apply isd_loc with (fun h => c0 + c * Vh h x j).
      + generalize (filter_and _ _ (Q j Hj) L). apply filter_imp. intros h [-> ->]. auto.
      + eapply isd_eq; [D|]. ring.
    - intros p. rewrite Hf. unfold down0.
      apply (down0_pair (pair d r dV) f (fun q => forall k, q r k = p r k)); auto.
      intros k q Hk Iq. rewrite Hb. split; [intros k'; now Rd|]. Pv. now rewrite Iq.
    - intros; ring.
  Qed.
  Lemma two_adj r s (x y : nat) (c : R) : (0 < r)%nat -> argok s r -> sats r s -> In x (sub_args s) -> In y (sub_args s) ->
    sub_res s = 1%nat ->
    (forall j, (j <= d)%nat -> forall h, nth 0 (coef (b:=b) INR P s r (Vh h) j) 0 = Vh h x j + c * Vh h y j) ->
    (exists f, (forall p, rev_sub s r V d p = down0 (b:=b) d f p) /\
       forall j p, f j p = padd y j (c * padd x j (p r j) p r j) (padd x j (p r j) p)) -> adj r s.
  Proof.
    intros Hr [A O] S Hin Hin2 E1 HC (f & Hf & Hb). rewrite Forall_forall in A. pose proof (A x Hin) as Hx. pose proof (O x Hin) as Ox.
    pose proof (A y Hin2) as Hy. pose proof (O y Hin2) as Oy.
    pose proof (sats_1 r s E1 S) as Q.
    apply (lin_adj r s (fun k => dV x k + c * dV y k) (fun p k => p r k * dV x k + c * p r k * dV y k)); auto.
    - intros j Hj. apply isd_loc with (fun h => Vh h x j + c * Vh h y j).
      + generalize (Q j Hj). apply filter_imp. intros h ->. auto.
      + D.
    - intros p. rewrite Hf. unfold down0.
      apply (down0_pair (pair d r dV) f (fun q => forall k, q r k = p r k)); auto.
      intros k q Hk Iq. rewrite Hb. split; [intros k'; now Rd|]. Rd. Pv. rewrite Iq. ring.
    - intros; ring.
  Qed.
  (** no dependence *)
  Lemma const_adj r s : sub_res s = 1%nat -> (0 < r)%nat -> sats r s ->
    (forall j, (j <= d)%nat -> exists c0, locally 0 (fun h => nth 0 (coef (b:=b) INR P s r (Vh h) j) 0 = c0)) ->
    (forall p, rev_sub s r V d p = p) -> adj r s.
  Proof.
    intros E1 Hr S HC HR. pose proof (sats_1 r s E1 S) as Q.
    apply (lin_adj r s (fun _ => 0) (fun p k => 0)); auto.
    - intros j Hj. destruct (HC j Hj) as (c0 & L). apply isd_loc with (fun h => c0); [|apply isd_const].
      generalize (filter_and _ _ (Q j Hj) L). apply filter_imp. intros h [-> ->]. auto.
    - intros p. rewrite HR, sumR_zero by auto. ring.
    - intros; ring.
  Qed.

  (** *** exp, expm1 and the last step of pow *)
  Lemma exp_adj r s x e : (0 < r)%nat -> argok s r -> sats r s -> In x (sub_args s) -> sub_res s = 1%nat ->
    isd (fun h => Vh h r 0) ((V r 0%nat + e) * dV x 0) ->
    (forall j, (1 <= j <= d)%nat -> locally 0 (fun h => nth 0 (coef (b:=b) INR P s r (Vh h) j) 0 =
        sumR 1 (S j) (fun k => INR k * (Vh h x k * Vh h r (j - k)%nat)) / INR j + e * Vh h x j)) ->
    (forall p, rev_sub s r V d p = if all_zero (b:=b) p r d then p else
        padd x 0 (e * down1 (b:=b) d (fun j p => let p := padd x j (e * p r j) p in
                   let p := pset p r j (p r j / INR j) in
                   loop 1 (S j) (fun k p =>
                     let p := padd x k (INR k * (p r j * V r (j - k)%nat)) p in
                     padd r (j - k)%nat (INR k * (p r j * V x k)) p) p) p r 0%nat
              + down1 (b:=b) d (fun j p => let p := padd x j (e * p r j) p in
                   let p := pset p r j (p r j / INR j) in
                   loop 1 (S j) (fun k p =>
                     let p := padd x k (INR k * (p r j * V r (j - k)%nat)) p in
                     padd r (j - k)%nat (INR k * (p r j * V x k)) p) p) p r 0%nat * V r 0%nat)
          (down1 (b:=b) d (fun j p => let p := padd x j (e * p r j) p in
                   let p := pset p r j (p r j / INR j) in
                   loop 1 (S j) (fun k p =>
                     let p := padd x k (INR k * (p r j * V r (j - k)%nat)) p in
                     padd r (j - k)%nat (INR k * (p r j * V x k)) p) p) p)) ->
    adj r s.
  Proof.
    intros Hr [A O] S Hin E1 I0 HC HR. rewrite Forall_forall in A. pose proof (A x Hin) as Hx. pose proof (O x Hin) as Ox.
    pose proof (sats_1 r s E1 S) as Q.
    destruct (solve1 Vh d r (fun j => if (j =? 0)%nat then (V r 0%nat + e) * dV x 0 else
       sumR 1 (Datatypes.S j) (fun k => INR k * (dV x k * V r (j - k)%nat + V x k * dV r (j - k)%nat)) / INR j + e * dV x j)) as [OK EQ].
    { intros j Hj Or. destruct (Nat.eqb_spec j 0) as [->|Nj]; auto.
      apply isd_loc with (fun h => sumR 1 (Datatypes.S j) (fun k => INR k * (Vh h x k * Vh h r (j - k)%nat)) / INR j + e * Vh h x j).
      - generalize (filter_and _ _ (Q j Hj) (HC j ltac:(lia))). apply filter_imp. intros h [-> ->]. auto.
      - D. }
    apply adj_1; auto. intros p. rewrite HR. destruct (all_zero _ _ _) eqn:AZ.
    { rewrite pair_last by auto. rewrite sumR_zero; [ring|]. intros k Hk.
      unfold all_zero in AZ. rewrite forallb_forall in AZ. specialize (AZ k). rewrite in_seq in AZ.
      specialize (AZ ltac:(lia)). cbn in AZ. apply Reqb_eq in AZ. rewrite AZ. ring. }
    apply (down1_1 dis nan Vh d r _ (fun q => padd x 0 (e * q r 0%nat + q r 0%nat * V r 0%nat) q)); auto.
    - clear p AZ. intros j p Hj. cbv zeta.
      LP (F1 Vh d r j) (fun q : nat -> nat -> R => q r j = p r j / INR j)
       (fun k => INR k * (p r j / INR j * V r (j - k)%nat) * dV x k + INR k * (p r j / INR j * V x k) * dV r (j - k)%nat).
      + now Rd.
      + intros k q Hk Iq. cbv zeta. Rd. rewrite Iq. split; auto. Fv. Wv. ring.
      + Rd. Fv. Wv. rewrite EQ by lia. destruct (Nat.eqb_spec j 0) as [->|_]; [lia|].
        rewrite Rplus_assoc. f_equal. rewrite Rmult_plus_distr_l, Rplus_comm. f_equal; [|ring].
        unfold Rdiv. rewrite (Rmult_comm (sumR _ _ _)), <- Rmult_assoc, <- sumR_mul. apply sumR_ext. intros; ring.
    - clear p AZ. intros p. Fv. Wv. rewrite EQ by lia. cbn [Nat.eqb]. ring.
  Qed.

  Lemma isd_div' f g f' g' z : isd f f' -> isd g g' -> g 0 <> 0 -> f 0 / g 0 = z ->
    isd (fun h => f h / g h) ((f' - z * g') / g 0).
  Proof. intros H K N <-. now apply isd_div. Qed.
  Ltac evz := cbn [Sweep_Model.rev_sub b_bin b_un b0 b1 Rbase R_bin R_un bt pget].
  (** rev_sub as the orders d, ..., 1 followed by order zero *)
  Ltac dnx lem := match goal with |- pair _ _ _ ?t = _ =>
     match t with context [Sweep_Model.down1 d ?f ?p] =>
       let t' := eval pattern (Sweep_Model.down1 (b:=b) d f p) in t in
       match t' with ?g _ => apply (lem f g); auto end end end.
  Ltac dn1 r := dnx (down1_1 dis nan Vh d r).
  Ltac dn2 r := dnx (down1_2 dis nan Vh d r).
  Ltac inj A O x Hx Ox := pose proof (proj1 (Forall_forall _ _) A x ltac:(cbn; auto)) as Hx; pose proof (O x ltac:(cbn; auto)) as Ox; cbn beta in Hx.

  Lemma div_adj r x y : (0 < r)%nat -> argok (SDiv x y) r -> sats r (SDiv x y) -> V y 0%nat <> 0 -> adj r (SDiv x y).
  Proof.
    intros Hr [A O] S Ny. inj A O x Hx Ox. inj A O y Hy Oy. pose proof (sats_1 r (SDiv x y) eq_refl S) as Q. ev.
    assert (forall j, (j <= d)%nat -> locally 0 (fun h => Vh h r j =
       (Vh h x j - sumR 1 (Datatypes.S j) (fun k => Vh h r (j - k)%nat * Vh h y k)) / Vh h y 0%nat)) as Q'.
    { intros j Hj. generalize (Q j Hj). apply filter_imp. intros h ->. now rewrite lp_sub. }
    destruct (solve1 Vh d r (fun j => (dV x j - sumR 1 (Datatypes.S j) (fun k => dV r (j - k)%nat * V y k + V r (j - k)%nat * dV y k)
        - V r j * dV y 0) / V y 0%nat)) as [OK EQ].
    { intros j Hj Or.
      apply isd_loc with (fun h => (Vh h x j - sumR 1 (Datatypes.S j) (fun k => Vh h r (j - k)%nat * Vh h y k)) / Vh h y 0%nat); auto.
      apply (isd_div' (fun h => Vh h x j - sumR 1 (Datatypes.S j) (fun k => Vh h r (j - k)%nat * Vh h y k)) (fun h => Vh h y 0%nat)); auto.
      - D.
      - D.
      - rewrite (loc0 _ (Q' j Hj)). auto. }
    apply adj_1; auto. intros p. evz. apply down0_1; auto. clear p. intros j p Hj. cbv zeta.
    Fv. LP (F1 Vh d r j) (fun q : nat -> nat -> R => q r j = p r j / V y 0%nat)
       (fun k => - (p r j / V y 0%nat * V y k) * dV r (j - k)%nat - (p r j / V y 0%nat * V r (j - k)%nat) * dV y k).
    - Rd. field. auto.
    - intros k q Hk Iq. cbv zeta. Rd. rewrite Iq. split; auto. Fv. Wv. ring.
    - rewrite H. Rd. Fv. Wv. rewrite EQ by lia.
      replace (sumR 1 (Datatypes.S j) (fun k => - (p r j / V y 0%nat * V y k) * dV r (j - k)%nat - (p r j / V y 0%nat * V r (j - k)%nat) * dV y k))
       with (- (p r j / V y 0%nat) * sumR 1 (Datatypes.S j) (fun k => dV r (j - k)%nat * V y k + V r (j - k)%nat * dV y k)).
      + field. auto.
      + rewrite <- sumR_mul. apply sumR_ext. intros; ring.
  Qed.
  Lemma divp_adj r x y : (0 < r)%nat -> argok (SDivp x y) r -> sats r (SDivp x y) -> V y 0%nat <> 0 -> adj r (SDivp x y).
  Proof.
    intros Hr [A O] S Ny. inj A O y Hy Oy. pose proof (sats_1 r (SDivp x y) eq_refl S) as Q. ev.
    assert (forall j, (j <= d)%nat -> locally 0 (fun h => Vh h r j =
       ((if (j =? 0)%nat then P x else 0) - sumR 1 (Datatypes.S j) (fun k => Vh h r (j - k)%nat * Vh h y k)) / Vh h y 0%nat)) as Q'.
    { intros j Hj. generalize (Q j Hj). apply filter_imp. intros h ->. rewrite lp_sub. destruct (Nat.eqb_spec j 0) as [->|]; auto.
      rewrite sumR_nil by lia. f_equal; ring. }
    destruct (solve1 Vh d r (fun j => (- sumR 1 (Datatypes.S j) (fun k => dV r (j - k)%nat * V y k + V r (j - k)%nat * dV y k)
        - V r j * dV y 0) / V y 0%nat)) as [OK EQ].
    { intros j Hj Or.
      apply isd_loc with (fun h => ((if (j =? 0)%nat then P x else 0) - sumR 1 (Datatypes.S j) (fun k => Vh h r (j - k)%nat * Vh h y k)) / Vh h y 0%nat); auto.
      apply (isd_div' (fun h => (if (j =? 0)%nat then P x else 0) - sumR 1 (Datatypes.S j) (fun k => Vh h r (j - k)%nat * Vh h y k)) (fun h => Vh h y 0%nat)); auto.
      - eapply isd_eq; [D|]. ring.
      - D.
      - rewrite (loc0 _ (Q' j Hj)). auto. }
    apply adj_1; auto. intros p. evz. apply down0_1; auto. clear p. intros j p Hj. cbv zeta.
    Fv. LP (F1 Vh d r j) (fun q : nat -> nat -> R => q r j = p r j / V y 0%nat)
       (fun k => - (p r j / V y 0%nat * V y k) * dV r (j - k)%nat - (p r j / V y 0%nat * V r (j - k)%nat) * dV y k).
    - Rd. field. auto.
    - intros k q Hk Iq. cbv zeta. Rd. rewrite Iq. split; auto. Fv. Wv. ring.
    - rewrite H. Rd. Fv. Wv. rewrite EQ by lia.
      replace (sumR 1 (Datatypes.S j) (fun k => - (p r j / V y 0%nat * V y k) * dV r (j - k)%nat - (p r j / V y 0%nat * V r (j - k)%nat) * dV y k))
       with (- (p r j / V y 0%nat) * sumR 1 (Datatypes.S j) (fun k => dV r (j - k)%nat * V y k + V r (j - k)%nat * dV y k)).
      + field. auto.
      + rewrite <- sumR_mul. apply sumR_ext. intros; ring.
  Qed.

  Lemma log_adj r x u : u = Ulog \/ u = Ulog1p -> (0 < r)%nat -> argok (SUn u x) r -> sats r (SUn u x) ->
    0 < (match u with Ulog => 0 | _ => 1 end) + V x 0%nat -> adj r (SUn u x).
  Proof.
    intros Hu Hr [A O] S Px. inj A O x Hx Ox. pose proof (sats_1 r (SUn u x) eq_refl S) as Q.
    set (e := match u with Ulog => 0 | _ => 1 end) in *.
    assert (forall j, (1 <= j <= d)%nat -> locally 0 (fun h => Vh h r j =
       (- sumR 1 j (fun k => INR k * (Vh h r k * Vh h x (j - k)%nat)) / INR j + Vh h x j) / (e + Vh h x 0%nat))) as Q'.
    { intros j Hj. generalize (Q j ltac:(lia)). apply filter_imp. intros h ->.
      transitivity (if (j =? 1)%nat then Vh h x 1%nat / (e + Vh h x 0%nat) else
        (loop 2 j (fun k z => z - INR k * Vh h r k * Vh h x (j - k)%nat) (- Vh h r 1%nat * Vh h x (j - 1)%nat) / INR j + Vh h x j) / (e + Vh h x 0%nat)).
      { clear Q. destruct (Nat.eqb_spec j 0) as [->|_]; [lia|]. subst e.
        destruct Hu; subst u; cbn [coef nth b_bin b_un b0 b1 Rbase R_bin R_un bt]; destruct (Nat.eqb_spec j 0) as [->|_]; try lia; rewrite ?Rplus_0_l; destruct (j =? 1)%nat; auto. }
      destruct (Nat.eqb_spec j 1) as [->|Nj].
      - rewrite sumR_nil by lia. unfold Rdiv. rewrite Ropp_0, Rmult_0_l, Rplus_0_l. auto.
      - rewrite lp_sub.
        assert (- Vh h r 1%nat * Vh h x (j - 1)%nat - sumR 2 j (fun k => INR k * Vh h r k * Vh h x (j - k)%nat) = - sumR 1 j (fun k => INR k * (Vh h r k * Vh h x (j - k)%nat))) as <-; auto.
        rewrite (sumR_fst 1 j) by lia. cbn [INR].
        rewrite (sumR_ext 2 j (fun k => INR k * (Vh h r k * Vh h x (j - k)%nat)) (fun k => INR k * Vh h r k * Vh h x (j - k)%nat)) by (intros; ring). ring. }
    assert (isd (fun h => Vh h r 0%nat) (/ (e + V x 0%nat) * dV x 0)) as I0.
    { apply isd_loc with (fun h => ln (e + Vh h x 0%nat)).
      - generalize (Q 0%nat ltac:(lia)). apply filter_imp. intros h ->. clear Q Q'. subst e. destruct Hu; subst u; cbn; f_equal; ring.
      - apply (isd_comp ln (fun h => e + Vh h x 0%nat)); [now apply is_derive_ln|]. eapply isd_eq; [D|]. ring. }
    destruct (solve1 Vh d r (fun j => if (j =? 0)%nat then / (e + V x 0%nat) * dV x 0 else
        (- sumR 1 j (fun k => INR k * (dV r k * V x (j - k)%nat + V r k * dV x (j - k)%nat)) / INR j + dV x j - V r j * dV x 0) / (e + V x 0%nat))) as [OK EQ].
    { intros j Hj Or. destruct (Nat.eqb_spec j 0) as [->|Nj]; auto.
      eapply isd_loc; [apply Q'; lia|].
      apply (isd_div' (fun h => - sumR 1 j (fun k => INR k * (Vh h r k * Vh h x (j - k)%nat)) / INR j + Vh h x j) (fun h => e + Vh h x 0%nat)).
      - D.
      - eapply isd_eq; [D|]. ring.
      - lra.
      - rewrite (loc0 _ (Q' j ltac:(lia))). auto. }
    apply adj_1; auto. intros p.
    transitivity (pair d r dV (let p := down1 (b:=b) d (fun j p =>
                   let p := pset p r j (p r j * (1 / (e + V x 0%nat))) in
                   let p := psub x 0 (p r j * V r j) p in
                   let p := padd x j (p r j) p in
                   let p := pset p r j (p r j / INR j) in
                   loop 1 j (fun k p =>
                     let p := psub r k (INR k * (p r j * V x (j - k)%nat)) p in
                     psub x (j - k)%nat (INR k * (p r j * V r k)) p) p) p in
        padd x 0 (p r 0%nat * (1 / (e + V x 0%nat))) p)).
    { f_equal. subst e. destruct Hu; subst u; evz; rewrite ?Rplus_0_l; reflexivity. }
    dn1 r.
    - clear p. intros j p Hj. cbv zeta. pose proof (INRne j ltac:(lia)) as Nj.
      LP (F1 Vh d r j) (fun q : nat -> nat -> R => q r j = p r j / (e + V x 0%nat) / INR j)
       (fun k => - (INR k * (p r j / (e + V x 0%nat) / INR j * V x (j - k)%nat)) * dV r k - INR k * (p r j / (e + V x 0%nat) / INR j * V r k) * dV x (j - k)%nat).
      + Rd. field. split; auto; lra.
      + intros k q Hk Iq. cbv zeta. Rd. rewrite Iq. split; auto. Fv. Wv. ring.
      + Fv. Rd. Wv. rewrite EQ by lia. destruct (Nat.eqb_spec j 0) as [->|_]; [lia|].
        match goal with |- context [sumR 1 j (fun k => - _ * _ - _)] => idtac end.
        replace (sumR 1 j (fun k => - (INR k * (p r j / (e + V x 0%nat) / INR j * V x (j - k)%nat)) * dV r k - INR k * (p r j / (e + V x 0%nat) / INR j * V r k) * dV x (j - k)%nat))
          with (- (p r j / (e + V x 0%nat) / INR j) * sumR 1 j (fun k => INR k * (dV r k * V x (j - k)%nat + V r k * dV x (j - k)%nat))).
        * field. split; auto; lra.
        * rewrite <- sumR_mul. apply sumR_ext. intros; ring.
    - clear p. intros p. cbv zeta. Fv. Wv. rewrite EQ by lia. cbn [Nat.eqb]. field. lra.
  Qed.

  (** sqrt, also the first result of asin, acos, asinh, acosh: see below *)
  Lemma sqrt_lin (R' : nat -> R) (DR : nat -> R) j :
    sumR 1 j (fun k => INR k * (DR k * R' (j - k)%nat + R' k * DR (j - k)%nat)) = INR j * sumR 1 j (fun k => DR k * R' (j - k)%nat).
  Proof.
    rewrite (sumR_ext 1 j _ (fun k => INR k * (DR k * R' (j - k)%nat) + INR k * (R' k * DR (j - k)%nat))) by (intros; ring).
    rewrite sumR_plus, <- (sumR_rev j (fun k => INR k * (R' k * DR (j - k)%nat))), <- sumR_plus, <- sumR_mul.
    apply sumR_ext. intros k Hk. replace (j - (j - k))%nat with k by lia. rewrite minus_INR by lia. ring.
  Qed.
  Lemma sqrt_adj r x : (0 < r)%nat -> argok (SUn Usqrt x) r -> sats r (SUn Usqrt x) -> 0 < V x 0%nat -> adj r (SUn Usqrt x).
  Proof.
    intros Hr [A O] S Px. inj A O x Hx Ox. pose proof (sats_1 r (SUn Usqrt x) eq_refl S) as Q.
    assert (forall j, (1 <= j <= d)%nat -> locally 0 (fun h => Vh h r j =
       (- sumR 1 j (fun k => INR k * (Vh h r k * Vh h r (j - k)%nat)) / INR j + Vh h x j / 2) / Vh h r 0%nat)) as Q'.
    { intros j Hj. generalize (Q j ltac:(lia)). apply filter_imp. intros h ->. clear Q. ev. rewrite lp_sub.
      destruct (Nat.eqb_spec j 0) as [->|_]; [lia|]. cbn [INR].
      rewrite (sumR_ext 1 j (fun k => INR k * (Vh h r k * Vh h r (j - k)%nat)) (fun k => INR k * Vh h r k * Vh h r (j - k)%nat)) by (intros; ring).
      f_equal. f_equal. f_equal. ring. }
    assert (V r 0%nat = sqrt (V x 0%nat)) as Z0 by (rewrite (loc0 _ (Q 0%nat ltac:(lia))); reflexivity).
    pose proof (sqrt_lt_R0 _ Px) as Ps. rewrite <- Z0 in Ps.
    assert (isd (fun h => Vh h r 0%nat) (/ (2 * V r 0%nat) * dV x 0)) as I0.
    { apply isd_loc with (fun h => sqrt (Vh h x 0%nat)).
      - generalize (Q 0%nat ltac:(lia)). apply filter_imp. intros h ->. reflexivity.
      - rewrite Z0. apply (isd_comp sqrt (fun h => Vh h x 0%nat)); [now apply der_sqrt|]. D. }
    destruct (solve1 Vh d r (fun j => if (j =? 0)%nat then / (2 * V r 0%nat) * dV x 0 else
        (- sumR 1 j (fun k => INR k * (dV r k * V r (j - k)%nat + V r k * dV r (j - k)%nat)) / INR j + dV x j / 2 - V r j * dV r 0) / V r 0%nat)) as [OK EQ].
    { intros j Hj Or. destruct (Nat.eqb_spec j 0) as [->|Nj]; auto.
      eapply isd_loc; [apply Q'; lia|].
      apply (isd_div' (fun h => - sumR 1 j (fun k => INR k * (Vh h r k * Vh h r (j - k)%nat)) / INR j + Vh h x j / 2) (fun h => Vh h r 0%nat)).
      - D.
      - D.
      - lra.
      - rewrite (loc0 _ (Q' j ltac:(lia))). auto. }
    apply adj_1; auto. intros p. evz. dn1 r.
    - clear p. intros j p Hj. cbv zeta. pose proof (INRne j ltac:(lia)) as Nj.
      LP (F1 Vh d r j) (fun q : nat -> nat -> R => q r j = p r j / V r 0%nat)
       (fun k => - (p r j / V r 0%nat) * (dV r k * V r (j - k)%nat)).
      + Rd. field. lra.
      + intros k q Hk Iq. Rd. rewrite Iq. split; auto. Fv. Wv. ring.
      + Fv. Rd. Wv. rewrite (EQ j) by lia. destruct (Nat.eqb_spec j 0) as [->|_]; [lia|].
        rewrite sqrt_lin, sumR_mul. cbn [INR]. field. split; auto; lra.
    - clear p. intros p. cbv zeta. Fv. Wv. rewrite EQ by lia. cbn [Nat.eqb INR]. field. lra.
  Qed.
End RevSub2.
