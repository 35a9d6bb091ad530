(** Reverse mode: the remaining elementary loops. *)
From Coq Require Import Reals ZArith Lra Lia List Bool Arith.
From Coquelicot Require Import Coquelicot.
From Verif Require Import Base_Spec Op_Model Tape_Spec Tape_Model Tape_Proof Tape_Proof2 Sweep_Model Sweep_Eqs Sweep_Eqs2 Real_Base Tay_Calc Tay_Sub Rev_Calc Rev_Sub Rev_Sub2 Rev_Sub3 Rev_Sub4.
Import ListNotations.
Open Scope R_scope.

Section RevSub5.
  Variable dis : nat -> R -> R.
  Variable nan : R.
  Notation b := (Rbase dis nan).
  Variable P : nat -> R.
  Variable Vh : R -> nat -> nat -> R.
  Notation V := (Vh 0).
  Variable d : nat.
  Notation pset := (pset (b:=b)).
  Notation padd := (padd (b:=b)).
  Notation psub := (psub (b:=b)).
  Notation ok := (ok Vh).
  Notation dV := (dV Vh).
  Notation rev_sub := (rev_sub (b:=b) INR P).
  Notation adj := (adj dis nan P Vh d).
  Notation sats := (sats dis nan P Vh d).
  Notation argok := (argok Vh d).
  Ltac ev := cbn [Sweep_Model.rev_sub Sweep_Model.coef sub_args sub_res nth Nat.eqb b_bin b_un b0 b1 Rbase R_bin R_un bt pget] in *.
  Ltac evz := cbn [Sweep_Model.rev_sub b_bin b_un b0 b1 Rbase R_bin R_un bt pget].
  Ltac inj A O x Hx Ox := pose proof (proj1 (Forall_forall _ _) A x ltac:(cbn; auto)) as Hx; pose proof (O x ltac:(cbn; auto)) as Ox; cbn beta in Hx.

  Lemma isd_sqrt' x r U (c g : R) : (forall h, U h = c + g * (Vh h x 0%nat * Vh h x 0%nat)) -> 0 < U 0 ->
    (locally 0 (fun h => Vh h r 0%nat = sqrt (U h))) -> ok x 0 ->
    V r 0%nat <> 0 /\ V r 0%nat = sqrt (U 0) /\ isd (fun h => Vh h r 0%nat) (g * V x 0%nat / V r 0%nat * dV x 0).
  Proof.
    intros HU PU L Ox. pose proof (loc0 _ L) as E. pose proof (sqrt_lt_R0 _ PU) as Ps. cbn beta in E.
    assert (V r 0%nat <> 0) as N by (rewrite E; lra). split; auto. split; auto.
    apply isd_loc with (fun h => sqrt (U h)); auto.
    eapply isd_eq; [apply (isd_comp sqrt U); [now apply der_sqrt|]|].
    - apply isd_loc with (fun h => c + g * (Vh h x 0%nat * Vh h x 0%nat)); [apply all_loc; auto|].
      apply isd_plus; [apply isd_const|]. apply isd_scal. apply isd_mult; now apply okd.
    - rewrite E. field. lra.
  Qed.

  Lemma arcs_adj r x u : In u [Uasin; Uacos; Uasinh; Uacosh] -> (0 < r)%nat -> argok (SPair u x) r -> sats r (SPair u x) ->
    (match u with Uasin | Uacos => -1 < V x 0%nat < 1 | Uacosh => 1 < V x 0%nat | _ => True end) -> adj r (SPair u x).
  Proof.
    intros Hu Hr [A O] S Hc. inj A O x Hx Ox. pose proof (sats_2 dis nan P Vh d r u x S) as Q. clear S.
    set (g := match u with Uasin | Uacos => -1 | _ => 1 end). set (e := match u with Uacos => -1 | _ => 1 end).
    set (c := match u with Uacosh => -1 | _ => 1 end).
    assert (0 < c + g * (V x 0%nat * V x 0%nat)) as PU.
    { subst c g. cbn [In] in Hu. destruct Hu as [<-|[<-|[<-|[<-|[]]]]]; nra. }
    destruct (isd_sqrt' x r (fun h => c + g * (Vh h x 0%nat * Vh h x 0%nat)) c g) as (N0 & V0 & Ir); [auto|auto| |apply Ox; lia|].
    { generalize (Q 0%nat ltac:(lia)). apply filter_imp. intros h [-> _].
      subst c g. clear -Hu. cbn [In] in Hu. destruct Hu as [<-|[<-|[<-|[<-|[]]]]]; cbn; f_equal; ring. }
    assert (forall j, (1 <= j <= d)%nat -> locally 0 (fun h => Vh h r j =
       (- sumR 1 j (fun k => INR k * (Vh h r k * Vh h r (j - k)%nat)) / INR j + g * sumR 0 (Datatypes.S j) (fun k => Vh h x k * Vh h x (j - k)%nat) / 2) / Vh h r 0%nat)) as Qr.
    { intros j Hj. generalize (Q j ltac:(lia)). apply filter_imp. intros h [-> _]. clear Q. destruct j as [|j]; [lia|].
      rewrite (sumR_ext 1 (Datatypes.S j) _ (fun k => INR k * Vh h r k * Vh h r (Datatypes.S j - k)%nat)) by (intros; ring).
      subst g. clear -Hu. cbn [In] in Hu. destruct Hu as [<-|[<-|[<-|[<-|[]]]]];
      cbn [coef Nat.eqb nth b_bin Rbase R_bin bt]; rewrite ?lp_add, !lp_sub; rewrite INR_2; cbn [b0 Rbase bt]; f_equal; f_equal; unfold Rdiv; ring. }
    assert (forall j, (1 <= j <= d)%nat -> locally 0 (fun h => Vh h (Datatypes.S r) j =
       (- sumR 1 j (fun k => INR k * (Vh h (Datatypes.S r) k * Vh h r (j - k)%nat)) / INR j + e * Vh h x j) / Vh h r 0%nat)) as Qz.
    { intros j Hj. generalize (Q j ltac:(lia)). apply filter_imp. intros h [_ ->]. clear Q. destruct j as [|j]; [lia|].
      rewrite (sumR_ext 1 (Datatypes.S j) _ (fun k => INR k * Vh h (Datatypes.S r) k * Vh h r (Datatypes.S j - k)%nat)) by (intros; ring).
      subst e. clear -Hu. cbn [In] in Hu. destruct Hu as [<-|[<-|[<-|[<-|[]]]]];
      cbn [coef Nat.eqb nth b_bin Rbase R_bin bt]; rewrite !lp_sub; cbn [b0 Rbase bt]; f_equal; unfold Rdiv; ring. }
    assert (isd (fun h => Vh h (Datatypes.S r) 0%nat) (e / V r 0%nat * dV x 0)) as Iz.
    { rewrite V0. pose proof (sqrt_lt_R0 _ PU) as Ps. revert V0. 
      generalize (Q 0%nat ltac:(lia)). clear Q Qr Qz Ir. subst c g e. cbn [In] in Hu. destruct Hu as [<-|[<-|[<-|[<-|[]]]]]; intros Q V0.
      - apply isd_loc with (fun h => asin (Vh h x 0%nat)); [generalize Q; apply filter_imp; intros h [_ ->]; reflexivity|].
        eapply isd_eq; [apply (isd_comp asin (fun h => Vh h x 0%nat)); [now apply der_asin|D]|].
        replace (1 - V x 0%nat * V x 0%nat) with (1 + -1 * (V x 0%nat * V x 0%nat)) by ring. field. lra.
      - apply isd_loc with (fun h => acos (Vh h x 0%nat)); [generalize Q; apply filter_imp; intros h [_ ->]; reflexivity|].
        eapply isd_eq; [apply (isd_comp acos (fun h => Vh h x 0%nat)); [now apply der_acos|D]|].
        replace (1 - V x 0%nat * V x 0%nat) with (1 + -1 * (V x 0%nat * V x 0%nat)) by ring. field. lra.
      - apply isd_loc with (fun h => arcsinh (Vh h x 0%nat)); [generalize Q; apply filter_imp; intros h [_ ->]; reflexivity|].
        eapply isd_eq; [apply (isd_comp arcsinh (fun h => Vh h x 0%nat)); [now apply der_asinh|D]|].
        replace (1 + V x 0%nat * V x 0%nat) with (1 + 1 * (V x 0%nat * V x 0%nat)) by ring. field. lra.
      - apply isd_loc with (fun h => arccosh (Vh h x 0%nat)); [generalize Q; apply filter_imp; intros h [_ ->]; reflexivity|].
        eapply isd_eq; [apply (isd_comp arccosh (fun h => Vh h x 0%nat)); [now apply der_acosh|D]|].
        replace (V x 0%nat * V x 0%nat - 1) with (-1 + 1 * (V x 0%nat * V x 0%nat)) by ring. field. lra. }
    clear Q. subst g e c. cbn [In] in Hu. destruct Hu as [<-|[<-|[<-|[<-|[]]]]].
    - apply (arc_adj dis nan P Vh d r x Uasin 1 (-1) Ropp (fun a c => a - c) (fun a c i => (a - c) * i)); auto; intros; try reflexivity; ring.
    - apply (arc_adj dis nan P Vh d r x Uacos (-1) (-1) Ropp (fun a c => - (a + c)) (fun a c i => - ((a + c) * i))); auto; intros; try reflexivity; ring.
    - apply (arc_adj dis nan P Vh d r x Uasinh 1 1 (fun t => t) (fun a c => a + c) (fun a c i => (a + c) * i)); auto; intros; try reflexivity; ring.
    - apply (arc_adj dis nan P Vh d r x Uacosh 1 1 (fun t => t) (fun a c => a + c) (fun a c i => (a + c) * i)); auto; intros; try reflexivity; ring.
  Qed.

  Lemma atns_adj r x u : In u [Uatan; Uatanh] -> (0 < r)%nat -> argok (SPair u x) r -> sats r (SPair u x) ->
    (u = Uatanh -> -1 < V x 0%nat < 1) -> adj r (SPair u x).
  Proof.
    intros Hu Hr [A O] S Hc. inj A O x Hx Ox. pose proof (sats_2 dis nan P Vh d r u x S) as Q. clear S.
    set (e := match u with Uatan => 1 | _ => -1 end).
    assert (1 + e * (V x 0%nat * V x 0%nat) <> 0) as NU.
    { subst e. cbn [In] in Hu. destruct Hu as [<-|[<-|[]]]; [nra|]. specialize (Hc eq_refl). nra. }
    assert (forall j, (j <= d)%nat -> locally 0 (fun h => Vh h r j = (if (j =? 0)%nat then 1 else 0) + e * sumR 0 (Datatypes.S j) (fun k => Vh h x k * Vh h x (j - k)%nat))) as Qr.
    { intros j Hj. generalize (Q j Hj). apply filter_imp. intros h [-> _]. clear Q.
      destruct j as [|j].
      - rewrite (sumR_lst 0 0), sumR_nil by lia. subst e. clear -Hu. cbn [In] in Hu. destruct Hu as [<-|[<-|[]]]; cbn; ring.
      - rewrite (sumR_fst 0), (sumR_lst 1), Nat.sub_diag, Nat.sub_0_r by lia. subst e. clear -Hu. cbn [In] in Hu.
        destruct Hu as [<-|[<-|[]]]; cbn [coef Nat.eqb nth b_bin b_un Rbase R_bin R_un bt]; rewrite ?lp_add, ?lp_sub, INR_2; ring. }
    assert (V r 0%nat = 1 + e * (V x 0%nat * V x 0%nat)) as V0.
    { rewrite (loc0 _ (Qr 0%nat ltac:(lia))). rewrite (sumR_lst 0 0), sumR_nil by lia. cbn. ring. }
    assert (forall j, (1 <= j <= d)%nat -> locally 0 (fun h => Vh h (Datatypes.S r) j =
       (- sumR 1 j (fun k => INR k * (Vh h (Datatypes.S r) k * Vh h r (j - k)%nat)) / INR j + Vh h x j) / Vh h r 0%nat)) as Qz.
    { intros j Hj. generalize (Q j ltac:(lia)). apply filter_imp. intros h [_ ->]. clear Q. destruct j as [|j]; [lia|].
      rewrite (sumR_ext 1 (Datatypes.S j) _ (fun k => INR k * Vh h (Datatypes.S r) k * Vh h r (Datatypes.S j - k)%nat)) by (intros; ring).
      subst e. clear -Hu. cbn [In] in Hu. destruct Hu as [<-|[<-|[]]];
      cbn [coef Nat.eqb nth b_bin Rbase R_bin bt]; rewrite !lp_sub; cbn [b0 Rbase bt]; f_equal; unfold Rdiv; ring. }
    assert (isd (fun h => Vh h (Datatypes.S r) 0%nat) (/ V r 0%nat * dV x 0)) as Iz.
    { rewrite V0. 
      generalize (Q 0%nat ltac:(lia)). clear Q Qr Qz V0. subst e. cbn [In] in Hu. destruct Hu as [<-|[<-|[]]]; intros Q.
      - apply isd_loc with (fun h => atan (Vh h x 0%nat)); [generalize Q; apply filter_imp; intros h [_ ->]; reflexivity|].
        eapply isd_eq; [apply (isd_comp atan (fun h => Vh h x 0%nat)); [now apply der_atan|D]|].
        now replace (1 + V x 0%nat * V x 0%nat) with (1 + 1 * (V x 0%nat * V x 0%nat)) by ring.
      - apply isd_loc with (fun h => arctanh (Vh h x 0%nat)); [generalize Q; apply filter_imp; intros h [_ ->]; reflexivity|].
        eapply isd_eq; [apply (isd_comp arctanh (fun h => Vh h x 0%nat)); [apply der_atanh; auto|D]|].
        now replace (1 - V x 0%nat * V x 0%nat) with (1 + -1 * (V x 0%nat * V x 0%nat)) by ring. }
    rewrite <- V0 in NU. clear Q V0. subst e. cbn [In] in Hu. destruct Hu as [<-|[<-|[]]].
    - apply (atn_adj dis nan P Vh d r x Uatan 1 (fun t => t) (fun a c => a + c)); auto; intros; try reflexivity; ring.
    - apply (atn_adj dis nan P Vh d r x Uatanh (-1) Ropp (fun a c => a - c)); auto; intros; try reflexivity; ring.
  Qed.
End RevSub5.
