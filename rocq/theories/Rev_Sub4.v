(** Reverse mode: tan, tanh, asin, acos, asinh, acosh, atan, atanh. *)
From Coq Require Import Reals ZArith Lra Lia List Bool Arith.
From Coquelicot Require Import Coquelicot.
From Verif Require Import Base_Spec Op_Model Tape_Spec Tape_Model Tape_Proof Tape_Proof2 Sweep_Model Sweep_Eqs Sweep_Eqs2 Real_Base Tay_Calc Tay_Sub Rev_Calc Rev_Sub Rev_Sub2 Rev_Sub3.
Import ListNotations.
Open Scope R_scope.

Section RevSub4.
  Variable dis : nat -> R -> R.
  Variable nan : R.
  Notation b := (Rbase dis nan).
  Variable P : nat -> R.
  Variable Vh : R -> nat -> nat -> R.
  Notation V := (Vh 0).
  Variable d : nat.
  Notation pset := (pset (b:=b)).
  Notation padd := (padd (b:=b)).
  Notation psub := (psub (b:=b)).
  Notation ok := (ok Vh).
  Notation dV := (dV Vh).
  Notation rev_sub := (rev_sub (b:=b) INR P).
  Notation adj := (adj dis nan P Vh d).
  Notation sats := (sats dis nan P Vh d).
  Notation argok := (argok Vh d).
  Ltac ev := cbn [Sweep_Model.rev_sub Sweep_Model.coef sub_args sub_res nth Nat.eqb b_bin b_un b0 b1 Rbase R_bin R_un bt pget] in *.
  Ltac evz := cbn [Sweep_Model.rev_sub b_bin b_un b0 b1 Rbase R_bin R_un bt pget].
  Ltac dnx lem := match goal with |- pair _ _ _ ?t = _ =>
     match t with context [Sweep_Model.down1 d ?f ?p] =>
       let t' := eval pattern (Sweep_Model.down1 (b:=b) d f p) in t in
       match t' with ?g _ => apply (lem f g); auto end end end.
  Ltac dn2 r := dnx (down1_2 dis nan Vh d r).
  Ltac inj A O x Hx Ox := pose proof (proj1 (Forall_forall _ _) A x ltac:(cbn; auto)) as Hx; pose proof (O x ltac:(cbn; auto)) as Ox; cbn beta in Hx.

  Lemma solve2' r z (E E2 : nat -> R) :
    (forall j, (j <= d)%nat -> (forall k, (k < j)%nat -> ok r k) -> (forall k, (k <= j)%nat -> ok z k) -> isd (fun h => Vh h r j) (E j)) ->
    (forall j, (j <= d)%nat -> (forall k, (k < j)%nat -> ok r k) -> (forall k, (k < j)%nat -> ok z k) -> isd (fun h => Vh h z j) (E2 j)) ->
    (forall j, (j <= d)%nat -> ok r j /\ ok z j) /\ (forall j, (j <= d)%nat -> dV r j = E j /\ dV z j = E2 j).
  Proof.
    intros H H2.
    assert (forall n j, (j < n)%nat -> (j <= d)%nat -> ok r j /\ ok z j) as K.
    { induction n as [|n IH]; intros j L1 L2; [lia|].
      assert (ok z j) as Oz by (refine (proj1 (isd_ok Vh _ _ _ (H2 j L2 _ _))); intros k Hk; [exact (proj1 (IH k ltac:(lia) ltac:(lia)))|exact (proj2 (IH k ltac:(lia) ltac:(lia)))]).
      split; auto.
      refine (proj1 (isd_ok Vh _ _ _ (H j L2 _ _))); intros k Hk; [exact (proj1 (IH k ltac:(lia) ltac:(lia)))|].
      destruct (Nat.eq_dec k j) as [->|]; [exact Oz|exact (proj2 (IH k ltac:(lia) ltac:(lia)))]. }
    assert (forall j, (j <= d)%nat -> ok r j /\ ok z j) as K' by (intros j Hj; exact (K (S j) j ltac:(lia) Hj)).
    split; auto. intros j Hj. split.
    - apply (isd_ok Vh _ _ _ (H j Hj (fun k Hk => proj1 (K' k ltac:(lia))) (fun k Hk => proj2 (K' k ltac:(lia))))).
    - apply (isd_ok Vh _ _ _ (H2 j Hj (fun k Hk => proj1 (K' k ltac:(lia))) (fun k Hk => proj2 (K' k ltac:(lia))))).
  Qed.

  (** *** tan, tanh *)
  Lemma tn_adj r x u e (sg : R -> R) : (forall t, sg t = e * t) -> (0 < r)%nat -> (0 < x < r)%nat -> (forall k, (k <= d)%nat -> ok x k) ->
    isd (fun h => Vh h (S r) 0%nat) ((1 + e * V r 0%nat) * dV x 0) ->
    (forall j, (1 <= j <= d)%nat -> locally 0 (fun h => Vh h (S r) j = Vh h x j + e * sumR 1 (S j) (fun k => INR k * (Vh h x k * Vh h r (j - k)%nat)) / INR j)) ->
    (forall j, (j <= d)%nat -> locally 0 (fun h => Vh h r j = sumR 0 (S j) (fun k => Vh h (S r) k * Vh h (S r) (j - k)%nat))) ->
    (forall p, rev_sub (SPair u x) r V d p =
       let z := S r in
       let p := down1 (b:=b) d (fun j p =>
                   let p := padd x j (p z j) p in
                   let p := pset p z j (p z j / INR j) in
                   let p := loop 1 (S j) (fun k p =>
                     let p := padd x k (sg (p z j * V r (j - k)%nat * INR k)) p in
                     padd r (j - k)%nat (sg (p z j * V x k * INR k)) p) p in
                   loop 0 j (fun k p =>
                     padd z k (p r (j - 1)%nat * V z (j - k - 1)%nat * INR 2) p) p) p in
       padd x 0 (p z 0%nat * (1 + sg (V r 0%nat))) p) ->
    adj r (SPair u x).
  Proof.
    intros Hsg Hr Hx Ox I0 Qz Qr HR.
    destruct (solve2' r (S r)
       (fun j => 2 * sumR 0 (Datatypes.S j) (fun k => dV (S r) k * V (S r) (j - k)%nat))
       (fun j => if (j =? 0)%nat then (1 + e * V r 0%nat) * dV x 0 else
           dV x j + e * sumR 1 (S j) (fun k => INR k * (dV x k * V r (j - k)%nat + V x k * dV r (j - k)%nat)) / INR j)) as [OK EQ].
    { intros j Hj Or Oz. eapply isd_loc; [now apply Qr|]. eapply isd_eq; [D|].
      rewrite sumR_plus, (sumR_conv (dV (S r)) (V (S r))), (sumR_conv (V (S r)) (dV (S r))), (conv_comm (V (S r)) (dV (S r))). ring. }
    { intros j Hj Or Oz. destruct (Nat.eqb_spec j 0) as [->|Nj]; auto. eapply isd_loc; [apply Qz; lia|]. D. }
    apply adj_2.
    { exact OK. }
    intros p Hp. rewrite HR. clear HR. cbv zeta.
    assert (forall q, pair d r dV (padd x 0 (q (S r) 0%nat * (1 + sg (V r 0%nat))) q) = F2 Vh d r 0 1 q) as Fin.
    { intros q. rewrite pair_add by lia. rewrite (F2_z dis nan Vh), F2_bot by lia. rewrite (proj2 (EQ 0%nat ltac:(lia))), Hsg. cbn [Nat.eqb]. ring. }
    rewrite Fin. clear Fin.
    rewrite <- F2_top by auto. rewrite (F2_r dis nan Vh) by lia. rewrite Hp by lia. rewrite Rmult_0_l, Rplus_0_r.
    change (F2 Vh d r d (S d) p) with ((fun j p => F2 Vh d r (j - 1) j p) (1 + d)%nat p) at 1 || idtac.
    transitivity (F2 Vh d r (1 + d - 1) (1 + d) p); [|f_equal; lia].
    apply (fold_down (fun j p => F2 Vh d r (j - 1) j p) (fun _ _ => True) _ 1 d p); auto.
    clear p Hp. intros j p Hj _. split; auto. pose proof (INRne j ltac:(lia)) as Nj.
    rewrite (F2_z dis nan Vh d r (S j - 1)) by lia. replace (S j - 1)%nat with j by lia.
    (* first loop *)
    match goal with |- context [loop 1 (S j) ?f ?q] => destruct (loop_pair (F2 Vh d r j j) 1 (S j) f (fun qq : nat -> nat -> R => qq (S r) j = p (S r) j / INR j)
        (fun k => e * (p (S r) j / INR j) * (INR k * (dV x k * V r (j - k)%nat + V x k * dV r (j - k)%nat))) q) as [_ K1];
        [| |set (q1 := loop 1 (S j) f q) in *] end.
    { now Rd. }
    { intros k q Hk Iq. cbv zeta. Rd. rewrite Iq. split; auto. rewrite !F2_add by lia. rewrite !Hsg. Wv. ring. }
    rewrite F2_setz, F2_add in K1 by lia. rewrite Wm_arg in K1 by lia.
    assert (F2 Vh d r j j q1 = F2 Vh d r j j p + p (S r) j * dV (S r) j) as K2.
    { rewrite K1. rewrite (proj2 (EQ j ltac:(lia))). destruct (Nat.eqb_spec j 0) as [->|_]; [lia|]. rewrite sumR_mul. field. auto. }
    rewrite <- K2. clear K1 K2. clearbody q1.
    destruct j as [|j]; [lia|]. replace (S j - 1)%nat with j by lia. rewrite (F2_r dis nan Vh d r j) by lia.
    LP (F2 Vh d r j (S j)) (fun q : nat -> nat -> R => q r j = q1 r j) (fun k => q1 r j * V (S r) (j - k)%nat * 2 * dV (S r) k); auto.
    { intros k q Hk Iq. Rd. rewrite Iq. split; auto. rewrite F2_add by lia. Wv. replace (S j - k - 1)%nat with (j - k)%nat by lia. reflexivity. }
    rewrite (proj1 (EQ j ltac:(lia))). f_equal. rewrite <- sumR_mul, <- sumR_mul. apply sumR_ext. intros; ring.
  Qed.
  Lemma tan_adj r x u : In u [Utan; Utanh] -> (0 < r)%nat -> argok (SPair u x) r -> sats r (SPair u x) ->
    (u = Utan -> cos (V x 0%nat) <> 0) -> adj r (SPair u x).
  Proof.
    intros Hu Hr [A O] S Hc. inj A O x Hx Ox. pose proof (sats_2 dis nan P Vh d r u x S) as Q. clear S.
    assert (forall j, (1 <= j <= d)%nat -> locally 0 (fun h => Vh h (Datatypes.S r) j = Vh h x j + (match u with Utan => 1 | _ => -1 end) * sumR 1 (Datatypes.S j) (fun k => INR k * (Vh h x k * Vh h r (j - k)%nat)) / INR j)) as Qz.
    { intros j Hj. generalize (Q j ltac:(lia)). apply filter_imp. intros h [_ ->]. clear Q. destruct j as [|j]; [lia|].
      pose proof (INRne (Datatypes.S j) ltac:(lia)) as Nj.
      cbn [In] in Hu. destruct Hu as [<-|[<-|[]]]; cbn [coef Nat.eqb nth b_bin Rbase R_bin bt]; rewrite ?lp_add, ?lp_sub.
      all: rewrite (sumR_ext 1 (Datatypes.S (Datatypes.S j)) _ (fun k => / INR (Datatypes.S j) * (INR k * (Vh h x k * Vh h r (Datatypes.S j - k)%nat)))) by (intros; unfold Rdiv; ring).
      all: rewrite sumR_mul; field; auto. }
    assert (forall j, (j <= d)%nat -> locally 0 (fun h => Vh h r j = sumR 0 (Datatypes.S j) (fun k => Vh h (Datatypes.S r) k * Vh h (Datatypes.S r) (j - k)%nat))) as Qr.
    { intros j Hj. generalize (Q j ltac:(lia)). apply filter_imp. intros h [E1 E2]. clear Q.
      rewrite sumR_conv. destruct j as [|j].
      - unfold conv. cbn. rewrite E1, E2. cbn [In] in Hu. destruct Hu as [<-|[<-|[]]]; cbn; ring.
      - apply (tnZ _ _ _ _ E2).
        cbn [In] in Hu. destruct Hu as [<-|[<-|[]]]; cbn [coef Nat.eqb nth b_bin Rbase R_bin bt] in E1 |- *; exact E1. }
    cbn [In] in Hu. destruct Hu as [<-|[<-|[]]].
    - apply (tn_adj r x Utan 1 (fun t => t)); auto; try (intros; ring).
      apply isd_loc with (fun h => tan (Vh h x 0%nat)); [generalize (Q 0%nat ltac:(lia)); apply filter_imp; intros h [_ ->]; reflexivity|].
      eapply isd_eq; [apply (isd_comp tan (fun h => Vh h x 0%nat)); [apply der_tan; auto|D]|]. 
      rewrite (proj1 (loc0 _ (Q 0%nat ltac:(lia)))). cbn. ring.
    - apply (tn_adj r x Utanh (-1) Ropp); auto; try (intros; ring).
      apply isd_loc with (fun h => tanh (Vh h x 0%nat)); [generalize (Q 0%nat ltac:(lia)); apply filter_imp; intros h [_ ->]; reflexivity|].
      eapply isd_eq; [apply (isd_comp tanh (fun h => Vh h x 0%nat)); [apply der_tanh; auto|D]|]. 
      rewrite (proj1 (loc0 _ (Q 0%nat ltac:(lia)))). cbn. ring.
  Qed.

  (** *** asin, acos, asinh, acosh *)
  Lemma arc_adj r x u e g (gs : R -> R) (T : R -> R -> R) (T2 : R -> R -> R -> R) :
    (forall t, gs t = g * t) -> (forall a c, T a c = e * a + g * c) -> (forall a c i, T2 a c i = (e * a + g * c) * i) ->
    (0 < r)%nat -> (0 < x < r)%nat -> (forall k, (k <= d)%nat -> ok x k) -> V r 0%nat <> 0 ->
    isd (fun h => Vh h r 0%nat) (g * V x 0%nat / V r 0%nat * dV x 0) ->
    isd (fun h => Vh h (S r) 0%nat) (e / V r 0%nat * dV x 0) ->
    (forall j, (1 <= j <= d)%nat -> locally 0 (fun h => Vh h r j =
       (- sumR 1 j (fun k => INR k * (Vh h r k * Vh h r (j - k)%nat)) / INR j + g * sumR 0 (S j) (fun k => Vh h x k * Vh h x (j - k)%nat) / 2) / Vh h r 0%nat)) ->
    (forall j, (1 <= j <= d)%nat -> locally 0 (fun h => Vh h (S r) j =
       (- sumR 1 j (fun k => INR k * (Vh h (S r) k * Vh h r (j - k)%nat)) / INR j + e * Vh h x j) / Vh h r 0%nat)) ->
    (forall p, rev_sub (SPair u x) r V d p =
        let z := S r in
        let inv := 1 / V r 0%nat in
        let p := down1 (b:=b) d (fun j p =>
                   let p := pset p r j (p r j * inv) in
                   let p := pset p z j (p z j * inv) in
                   let p := psub r 0 (p z j * V z j + p r j * V r j) p in
                   let p := padd x 0 (gs (p r j * V x j)) p in
                   let p := padd x j (T (p z j) (p r j * V x 0%nat)) p in
                   let p := pset p z j (p z j / INR j) in
                   loop 1 j (fun k p =>
                     let p := psub r (j - k)%nat (INR k * (p z j * V z k) + p r j * V r k) p in
                     let p := padd x k (gs (p r j * V x (j - k)%nat)) p in
                     psub z k (INR k * (p z j * V r (j - k)%nat)) p) p) p in
        padd x 0 (T2 (p z 0%nat) (p r 0%nat * V x 0%nat) inv) p) ->
    adj r (SPair u x).
  Proof.
    intros Hg HT HT2 Hr Hx Ox N0 Ir Iz Qr Qz HR.
    destruct (solve2 Vh d r (S r)
       (fun j => if (j =? 0)%nat then g * V x 0%nat / V r 0%nat * dV x 0 else
          (- sumR 1 j (fun k => dV r k * V r (j - k)%nat) + g * sumR 0 (S j) (fun k => dV x k * V x (j - k)%nat) - V r j * dV r 0) / V r 0%nat)
       (fun j => if (j =? 0)%nat then e / V r 0%nat * dV x 0 else
          (- sumR 1 j (fun k => INR k * (dV (S r) k * V r (j - k)%nat + V (S r) k * dV r (j - k)%nat)) / INR j + e * dV x j - V (S r) j * dV r 0) / V r 0%nat)) as [OK EQ].
    { intros j Hj Or Oz. destruct (Nat.eqb_spec j 0) as [->|Nj]; auto. pose proof (INRne j ltac:(lia)) as NJ.
      eapply isd_loc; [apply Qr; lia|].
      eapply isd_eq.
      - eapply (isd_div' (fun h => - sumR 1 j (fun k => INR k * (Vh h r k * Vh h r (j - k)%nat)) / INR j + g * sumR 0 (S j) (fun k => Vh h x k * Vh h x (j - k)%nat) / 2) (fun h => Vh h r 0%nat) _ _ (V r j)).
        + D.
        + D.
        + auto.
        + rewrite (loc0 _ (Qr j ltac:(lia))). auto.
      - f_equal. f_equal. rewrite sqrt_lin. f_equal; [field; auto|].
        rewrite sumR_plus, (sumR_conv (dV x) (V x)), (sumR_conv (V x) (dV x)), (conv_comm (V x) (dV x)). field. }
    { intros j Hj Or Oz. destruct (Nat.eqb_spec j 0) as [->|Nj]; auto. pose proof (INRne j ltac:(lia)) as NJ.
      eapply isd_loc; [apply Qz; lia|].
      apply (isd_div' (fun h => - sumR 1 j (fun k => INR k * (Vh h (S r) k * Vh h r (j - k)%nat)) / INR j + e * Vh h x j) (fun h => Vh h r 0%nat) _ _ (V (S r) j)).
      + D.
      + D.
      + auto.
      + rewrite (loc0 _ (Qz j ltac:(lia))). auto. }
    apply adj_2; [exact OK|]. intros p _. rewrite HR. clear HR. cbv zeta. dn2 r.
    - clear p. intros j p Hj. pose proof (INRne j ltac:(lia)) as Nj.
      LP (F2 Vh d r j j) (fun q : nat -> nat -> R => q r j = p r j / V r 0%nat /\ q (S r) j = p (S r) j / V r 0%nat / INR j)
         (fun k => - (p (S r) j / V r 0%nat / INR j) * (INR k * (dV (S r) k * V r (j - k)%nat + V (S r) k * dV r (j - k)%nat))
                   + (p r j / V r 0%nat) * (g * (dV x k * V x (j - k)%nat)) - (p r j / V r 0%nat) * (V r k * dV r (j - k)%nat)).
      + split; Rd; field; auto.
      + intros k q Hk [I1 I2]. cbv zeta. Rd. rewrite I1, I2. split; auto.
        rewrite F2_sub by lia. rewrite F2_add by lia. rewrite F2_sub by lia. rewrite Hg. Wv. ring.
      + rewrite F2_setz by lia. rewrite F2_add by lia. rewrite F2_add by lia. rewrite F2_sub by lia. rewrite F2_setz by lia. rewrite F2_setr by lia.
        Rd. rewrite Hg, HT. Wv.
        destruct (EQ j ltac:(lia)) as [-> ->]. destruct (Nat.eqb_spec j 0) as [->|_]; [lia|].
        rewrite sumR_minus, sumR_plus, !sumR_mul.
        rewrite (sumR_fst 0), (sumR_lst 1 j), Nat.sub_diag, Nat.sub_0_r by lia.
        assert (sumR 1 j (fun k => V r k * dV r (j - k)%nat) = sumR 1 j (fun k => dV r k * V r (j - k)%nat)) as ->.
        { rewrite <- sumR_rev. apply sumR_ext. intros k Hk. replace (j - (j - k))%nat with k by lia. ring. }
        field. auto.
    - clear p. intros p. rewrite F2_add by lia. rewrite HT2. Wv. destruct (EQ 0%nat ltac:(lia)) as [-> ->]. cbn [Nat.eqb]. field. auto.
  Qed.

  (** *** atan, atanh *)
  Lemma atn_adj r x u e (sg : R -> R) (T : R -> R -> R) :
    (forall t, sg t = e * t) -> (forall a c, T a c = a + e * c) ->
    (0 < r)%nat -> (0 < x < r)%nat -> (forall k, (k <= d)%nat -> ok x k) -> V r 0%nat <> 0 ->
    isd (fun h => Vh h (S r) 0%nat) (/ V r 0%nat * dV x 0) ->
    (forall j, (j <= d)%nat -> locally 0 (fun h => Vh h r j = (if (j =? 0)%nat then 1 else 0) + e * sumR 0 (S j) (fun k => Vh h x k * Vh h x (j - k)%nat))) ->
    (forall j, (1 <= j <= d)%nat -> locally 0 (fun h => Vh h (S r) j =
       (- sumR 1 j (fun k => INR k * (Vh h (S r) k * Vh h r (j - k)%nat)) / INR j + Vh h x j) / Vh h r 0%nat)) ->
    (forall p, rev_sub (SPair u x) r V d p =
        let z := S r in
        let inv := 1 / V r 0%nat in
        let p := down1 (b:=b) d (fun j p =>
                   let p := pset p z j (p z j * inv) in
                   let p := pset p r j (p r j * INR 2) in
                   let p := psub r 0 (p z j * V z j) p in
                   let p := padd x j (T (p z j) (p r j * V x 0%nat)) p in
                   let p := padd x 0 (sg (p r j * V x j)) p in
                   let p := pset p z j (p z j / INR j) in
                   loop 1 j (fun k p =>
                     let p := psub r (j - k)%nat (INR k * (p z j * V z k)) p in
                     let p := psub z k (INR k * (p z j * V r (j - k)%nat)) p in
                     padd x k (sg (p r j * V x (j - k)%nat)) p) p) p in
        padd x 0 (T (p z 0%nat * inv) (INR 2 * (p r 0%nat * V x 0%nat))) p) ->
    adj r (SPair u x).
  Proof.
    intros Hg HT Hr Hx Ox N0 Iz Qr Qz HR.
    destruct (solve2 Vh d r (S r)
       (fun j => 2 * e * sumR 0 (S j) (fun k => dV x k * V x (j - k)%nat))
       (fun j => if (j =? 0)%nat then / V r 0%nat * dV x 0 else
          (- sumR 1 j (fun k => INR k * (dV (S r) k * V r (j - k)%nat + V (S r) k * dV r (j - k)%nat)) / INR j + dV x j - V (S r) j * dV r 0) / V r 0%nat)) as [OK EQ].
    { intros j Hj Or Oz. eapply isd_loc; [apply Qr; lia|].
      eapply isd_eq; [D|].
      rewrite sumR_plus, (sumR_conv (dV x) (V x)), (sumR_conv (V x) (dV x)), (conv_comm (V x) (dV x)). ring. }
    { intros j Hj Or Oz. destruct (Nat.eqb_spec j 0) as [->|Nj]; auto. pose proof (INRne j ltac:(lia)) as NJ.
      eapply isd_loc; [apply Qz; lia|].
      apply (isd_div' (fun h => - sumR 1 j (fun k => INR k * (Vh h (S r) k * Vh h r (j - k)%nat)) / INR j + Vh h x j) (fun h => Vh h r 0%nat) _ _ (V (S r) j)).
      + D.
      + D.
      + auto.
      + rewrite (loc0 _ (Qz j ltac:(lia))). auto. }
    apply adj_2; [exact OK|]. intros p _. rewrite HR. clear HR. cbv zeta. dn2 r.
    - clear p. intros j p Hj. pose proof (INRne j ltac:(lia)) as Nj.
      LP (F2 Vh d r j j) (fun q : nat -> nat -> R => q r j = p r j * 2 /\ q (S r) j = p (S r) j / V r 0%nat / INR j)
         (fun k => - (p (S r) j / V r 0%nat / INR j) * (INR k * (dV (S r) k * V r (j - k)%nat + V (S r) k * dV r (j - k)%nat))
                   + (p r j * 2) * (e * (dV x k * V x (j - k)%nat))).
      + split; Rd; cbn [INR]; try field; auto.
      + intros k q Hk [I1 I2]. cbv zeta. Rd. rewrite I1, I2. split; auto.
        rewrite F2_add by lia. rewrite F2_sub by lia. rewrite F2_sub by lia. rewrite Hg. Wv. ring.
      + rewrite F2_setz by lia. rewrite F2_add by lia. rewrite F2_add by lia. rewrite F2_sub by lia. rewrite F2_setr by lia. rewrite F2_setz by lia.
        Rd. rewrite Hg, HT. Wv. cbn [INR].
        destruct (EQ j ltac:(lia)) as [-> ->]. destruct (Nat.eqb_spec j 0) as [->|_]; [lia|].
        rewrite sumR_plus, !sumR_mul.
        rewrite (sumR_fst 0), (sumR_lst 1 j), Nat.sub_diag, Nat.sub_0_r by lia.
        field. auto.
    - clear p. intros p. rewrite F2_add by lia. rewrite HT. Wv. destruct (EQ 0%nat ltac:(lia)) as [-> ->]. cbn [Nat.eqb INR].
      rewrite (sumR_lst 0 0), sumR_nil by lia. cbn [Nat.sub]. field. auto.
  Qed.
End RevSub4.
