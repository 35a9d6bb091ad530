(** Reverse mode: the loops with two results. *)
From Coq Require Import Reals ZArith Lra Lia List Bool Arith.
From Coquelicot Require Import Coquelicot.
From Verif Require Import Base_Spec Op_Model Tape_Spec Tape_Model Tape_Proof Tape_Proof2 Sweep_Model Sweep_Eqs Sweep_Eqs2 Real_Base Tay_Calc Tay_Sub Rev_Calc Rev_Sub Rev_Sub2.
Import ListNotations.
Open Scope R_scope.


Section RevSub3.
  Variable dis : nat -> R -> R.
  Variable nan : R.
  Notation b := (Rbase dis nan).
  Variable P : nat -> R.
  Variable Vh : R -> nat -> nat -> R.
  Notation V := (Vh 0).
  Variable d : nat.
  Notation pset := (pset (b:=b)).
  Notation padd := (padd (b:=b)).
  Notation psub := (psub (b:=b)).
  Notation ok := (ok Vh).
  Notation dV := (dV Vh).
  Notation rev_sub := (rev_sub (b:=b) INR P).
  Notation adj := (adj dis nan P Vh d).
  Notation sats := (sats dis nan P Vh d).
  Notation argok := (argok Vh d).
  Ltac ev := cbn [Sweep_Model.rev_sub Sweep_Model.coef sub_args sub_res nth Nat.eqb b_bin b_un b0 b1 Rbase R_bin R_un bt pget] in *.
  Ltac evz := cbn [Sweep_Model.rev_sub b_bin b_un b0 b1 Rbase R_bin R_un bt pget].
  Ltac dnx lem := match goal with |- pair _ _ _ ?t = _ =>
     match t with context [Sweep_Model.down1 d ?f ?p] =>
       let t' := eval pattern (Sweep_Model.down1 (b:=b) d f p) in t in
       match t' with ?g _ => apply (lem f g); auto end end end.
  Ltac dn2 r := dnx (down1_2 dis nan Vh d r).
  Ltac inj A O x Hx Ox := pose proof (proj1 (Forall_forall _ _) A x ltac:(cbn; auto)) as Hx; pose proof (O x ltac:(cbn; auto)) as Ox; cbn beta in Hx.

  Lemma adj_2 r u x : (forall k, (k <= d)%nat -> ok r k /\ ok (S r) k) ->
    (forall p, (forall k, (k <= d)%nat -> p r k = 0) ->
       pair d r dV (rev_sub (SPair u x) r V d p) = pair d (S (S r)) dV p) -> adj r (SPair u x).
  Proof.
    intros H K. split; cbn [sub_res].
    - intros m Hm k Hk. destruct m as [|[|m]]; [rewrite Nat.add_0_r; exact (proj1 (H k Hk))|rewrite Nat.add_1_r; exact (proj2 (H k Hk))|lia].
    - intros p H0. replace (r + 2)%nat with (S (S r)) by lia. apply K. auto.
  Qed.
  Lemma sats_2 r u x : sats r (SPair u x) -> forall j, (j <= d)%nat ->
    locally 0 (fun h => Vh h r j = nth 0 (coef (b:=b) INR P (SPair u x) r (Vh h) j) 0 /\
                        Vh h (S r) j = nth 1 (coef (b:=b) INR P (SPair u x) r (Vh h) j) 0).
  Proof.
    intros H j Hj. generalize (H j Hj). apply filter_imp. intros h K. cbn [sub_res] in K. split.
    - specialize (K 0%nat ltac:(cbn; lia)). now rewrite Nat.add_0_r in K.
    - specialize (K 1%nat ltac:(cbn; lia)). now rewrite Nat.add_1_r in K.
  Qed.

  (** *** sin, cos, sinh, cosh *)
  Lemma sc_adj r x u s c e (sg : R -> R) : (forall t, sg t = e * t) -> (s = r /\ c = S r \/ s = S r /\ c = r) ->
    (0 < r)%nat -> (0 < x < r)%nat -> (forall k, (k <= d)%nat -> ok x k) ->
    isd (fun h => Vh h s 0%nat) (V c 0%nat * dV x 0) -> isd (fun h => Vh h c 0%nat) (e * V s 0%nat * dV x 0) ->
    (forall j, (1 <= j <= d)%nat -> locally 0 (fun h => Vh h s j = sumR 1 (S j) (fun k => INR k * (Vh h x k * Vh h c (j - k)%nat)) / INR j)) ->
    (forall j, (1 <= j <= d)%nat -> locally 0 (fun h => Vh h c j = e * sumR 1 (S j) (fun k => INR k * (Vh h x k * Vh h s (j - k)%nat)) / INR j)) ->
    (forall p, rev_sub (SPair u x) r V d p =
       let p := down1 (b:=b) d (fun j p =>
          let p := pset p s j (p s j / INR j) in
                   let p := pset p c j (p c j / INR j) in
                   loop 1 (S j) (fun k p =>
                     let p := padd x k (INR k * (p s j * V c (j - k)%nat)) p in
                     let p := padd x k (sg (INR k * (p c j * V s (j - k)%nat))) p in
                     let p := padd s (j - k)%nat (sg (INR k * (p c j * V x k))) p in
                     padd c (j - k)%nat (INR k * (p s j * V x k)) p) p) p in
       let p := padd x 0 (p s 0%nat * V c 0%nat) p in padd x 0 (sg (p c 0%nat * V s 0%nat)) p) ->
    adj r (SPair u x).
  Proof.
    intros Hsg Hsc Hr Hx Ox Is Ic Qs Qc HR.
    destruct (solve2 Vh d s c
       (fun j => if (j =? 0)%nat then V c 0%nat * dV x 0 else sumR 1 (Datatypes.S j) (fun k => INR k * (dV x k * V c (j - k)%nat + V x k * dV c (j - k)%nat)) / INR j)
       (fun j => if (j =? 0)%nat then e * V s 0%nat * dV x 0 else e * sumR 1 (Datatypes.S j) (fun k => INR k * (dV x k * V s (j - k)%nat + V x k * dV s (j - k)%nat)) / INR j)) as [OK EQ].
    { intros j Hj Os Oc. destruct (Nat.eqb_spec j 0) as [->|Nj]; auto. eapply isd_loc; [apply Qs; lia|]. D. }
    { intros j Hj Os Oc. destruct (Nat.eqb_spec j 0) as [->|Nj]; auto. eapply isd_loc; [apply Qc; lia|]. D. }
    apply adj_2.
    { intros k Hk. destruct (OK k Hk). destruct Hsc as [[-> ->]|[-> ->]]; auto. }
    intros p _. rewrite HR. clear HR. dn2 r.
    - clear p. intros j p Hj. pose proof (INRne j ltac:(lia)) as Nj.
      match goal with |- F2 _ _ _ _ _ ?t = _ => assert (F2 Vh d r j j t = F2 Vh d r j j p + p s j * dV s j + p c j * dV c j) as E end.
      { cbv zeta.
        assert (s <> c /\ 0 < s < S (S r) /\ 0 < c < S (S r) /\ x <> s /\ x <> c)%nat as (N1 & N2 & N3 & N4 & N5) by (destruct Hsc as [[-> ->]|[-> ->]]; lia).
        assert (forall k, (k < j)%nat -> Wm Vh r j j s k = dV s k) as Ws by (intros; destruct Hsc as [[-> ->]|[-> ->]]; [apply Wm_r|apply Wm_z]; auto).
        assert (forall k, (k < j)%nat -> Wm Vh r j j c k = dV c k) as Wc by (intros; destruct Hsc as [[-> ->]|[-> ->]]; [apply Wm_z|apply Wm_r]; auto).
        assert (forall t q, F2 Vh d r j j (pset q s j t) = F2 Vh d r j j q) as Ss by (intros; destruct Hsc as [[-> ->]|[-> ->]]; [apply F2_setr|apply F2_setz]; lia).
        assert (forall t q, F2 Vh d r j j (pset q c j t) = F2 Vh d r j j q) as Sc by (intros; destruct Hsc as [[-> ->]|[-> ->]]; [apply F2_setz|apply F2_setr]; lia).
        LP (F2 Vh d r j j) (fun q : nat -> nat -> R => q s j = p s j / INR j /\ q c j = p c j / INR j)
          (fun k => p s j / INR j * (INR k * (dV x k * V c (j - k)%nat + V x k * dV c (j - k)%nat)) +
                    e * (p c j / INR j) * (INR k * (dV x k * V s (j - k)%nat + V x k * dV s (j - k)%nat))).
        - split; now Rd.
        - intros k q Hk [I1 I2]. cbv zeta. Rd. rewrite I1, I2. split; auto. rewrite !F2_add by lia. rewrite !Hsg.
          rewrite Ws, Wc by lia. Wv. ring.
        - rewrite Sc, Ss. destruct (EQ j ltac:(lia)) as [-> ->]. destruct (Nat.eqb_spec j 0) as [->|_]; [lia|].
          rewrite sumR_plus, !sumR_mul. field. auto. }
      rewrite E. destruct Hsc as [[-> ->]|[-> ->]]; ring.
    - clear p. intros p. cbv zeta.
      assert (F2 Vh d r 0 0 (padd x 0 (sg (padd x 0 (p s 0%nat * V c 0%nat) p c 0%nat * V s 0%nat)) (padd x 0 (p s 0%nat * V c 0%nat) p))
         = F2 Vh d r 0 0 p + p s 0%nat * dV s 0 + p c 0%nat * dV c 0) as E.
      { destruct (EQ 0%nat ltac:(lia)) as [-> ->]. rewrite padd_ne by (destruct Hsc as [[-> ->]|[-> ->]]; lia). rewrite !F2_add by lia.
        Wv. rewrite Hsg. cbn [Nat.eqb]. ring. }
      rewrite E. destruct Hsc as [[-> ->]|[-> ->]]; ring.
  Qed.
  Lemma sin_adj r x u : In u [Usin; Ucos; Usinh; Ucosh] -> (0 < r)%nat -> argok (SPair u x) r -> sats r (SPair u x) -> adj r (SPair u x).
  Proof.
    intros Hu Hr [A O] S. inj A O x Hx Ox. pose proof (sats_2 r u x S) as Q. clear S.
    cbn [In] in Hu. destruct Hu as [<-|[<-|[<-|[<-|[]]]]].
    - apply (sc_adj r x Usin (Datatypes.S r) r (-1) Ropp); auto; try (intros; ring).
      + apply isd_loc with (fun h => sin (Vh h x 0%nat)); [generalize (Q 0%nat ltac:(lia)); apply filter_imp; intros h [_ ->]; reflexivity|].
        rewrite (proj1 (loc0 _ (Q 0%nat ltac:(lia)))). apply (isd_comp sin (fun h => Vh h x 0%nat)); [apply is_derive_sin|D].
      + apply isd_loc with (fun h => cos (Vh h x 0%nat)); [generalize (Q 0%nat ltac:(lia)); apply filter_imp; intros h [-> _]; reflexivity|].
        rewrite (proj2 (loc0 _ (Q 0%nat ltac:(lia)))). eapply isd_eq; [apply (isd_comp cos (fun h => Vh h x 0%nat)); [apply is_derive_cos|D]|]. cbn. ring.
      + intros j Hj. generalize (Q j ltac:(lia)). apply filter_imp. intros h [_ ->]. clear Q. ev. rewrite lp_add.
        destruct (Nat.eqb_spec j 0) as [->|_]; [lia|]. rewrite Rplus_0_l. f_equal. apply sumR_ext; intros; ring.
      + intros j Hj. generalize (Q j ltac:(lia)). apply filter_imp. intros h [-> _]. clear Q. ev. rewrite lp_sub.
        destruct (Nat.eqb_spec j 0) as [->|_]; [lia|]. rewrite (sumR_ext 1 (Datatypes.S j) _ (fun k => INR k * (Vh h x k * Vh h (Datatypes.S r) (j - k)%nat))) by (intros; ring). f_equal. ring.
    - apply (sc_adj r x Ucos r (Datatypes.S r) (-1) Ropp); auto; try (intros; ring).
      + apply isd_loc with (fun h => sin (Vh h x 0%nat)); [generalize (Q 0%nat ltac:(lia)); apply filter_imp; intros h [-> _]; reflexivity|].
        rewrite (proj2 (loc0 _ (Q 0%nat ltac:(lia)))). apply (isd_comp sin (fun h => Vh h x 0%nat)); [apply is_derive_sin|D].
      + apply isd_loc with (fun h => cos (Vh h x 0%nat)); [generalize (Q 0%nat ltac:(lia)); apply filter_imp; intros h [_ ->]; reflexivity|].
        rewrite (proj1 (loc0 _ (Q 0%nat ltac:(lia)))). eapply isd_eq; [apply (isd_comp cos (fun h => Vh h x 0%nat)); [apply is_derive_cos|D]|]. cbn. ring.
      + intros j Hj. generalize (Q j ltac:(lia)). apply filter_imp. intros h [-> _]. clear Q. ev. rewrite lp_add.
        destruct (Nat.eqb_spec j 0) as [->|_]; [lia|]. rewrite Rplus_0_l. f_equal. apply sumR_ext; intros; ring.
      + intros j Hj. generalize (Q j ltac:(lia)). apply filter_imp. intros h [_ ->]. clear Q. ev. rewrite lp_sub.
        destruct (Nat.eqb_spec j 0) as [->|_]; [lia|]. rewrite (sumR_ext 1 (Datatypes.S j) _ (fun k => INR k * (Vh h x k * Vh h r (j - k)%nat))) by (intros; ring). f_equal. ring.
    - apply (sc_adj r x Usinh (Datatypes.S r) r 1 (fun t => t)); auto; try (intros; ring).
      + apply isd_loc with (fun h => sinh (Vh h x 0%nat)); [generalize (Q 0%nat ltac:(lia)); apply filter_imp; intros h [_ ->]; reflexivity|].
        rewrite (proj1 (loc0 _ (Q 0%nat ltac:(lia)))). apply (isd_comp sinh (fun h => Vh h x 0%nat)); [apply der_sinh|D].
      + apply isd_loc with (fun h => cosh (Vh h x 0%nat)); [generalize (Q 0%nat ltac:(lia)); apply filter_imp; intros h [-> _]; reflexivity|].
        rewrite (proj2 (loc0 _ (Q 0%nat ltac:(lia)))). eapply isd_eq; [apply (isd_comp cosh (fun h => Vh h x 0%nat)); [apply der_cosh|D]|]. cbn. ring.
      + intros j Hj. generalize (Q j ltac:(lia)). apply filter_imp. intros h [_ ->]. clear Q. ev. rewrite lp_add.
        destruct (Nat.eqb_spec j 0) as [->|_]; [lia|]. rewrite Rplus_0_l. f_equal. apply sumR_ext; intros; ring.
      + intros j Hj. generalize (Q j ltac:(lia)). apply filter_imp. intros h [-> _]. clear Q. ev. rewrite lp_add.
        destruct (Nat.eqb_spec j 0) as [->|_]; [lia|]. rewrite (sumR_ext 1 (Datatypes.S j) _ (fun k => INR k * (Vh h x k * Vh h (Datatypes.S r) (j - k)%nat))) by (intros; ring). f_equal. ring.
    - apply (sc_adj r x Ucosh r (Datatypes.S r) 1 (fun t => t)); auto; try (intros; ring).
      + apply isd_loc with (fun h => sinh (Vh h x 0%nat)); [generalize (Q 0%nat ltac:(lia)); apply filter_imp; intros h [-> _]; reflexivity|].
        rewrite (proj2 (loc0 _ (Q 0%nat ltac:(lia)))). apply (isd_comp sinh (fun h => Vh h x 0%nat)); [apply der_sinh|D].
      + apply isd_loc with (fun h => cosh (Vh h x 0%nat)); [generalize (Q 0%nat ltac:(lia)); apply filter_imp; intros h [_ ->]; reflexivity|].
        rewrite (proj1 (loc0 _ (Q 0%nat ltac:(lia)))). eapply isd_eq; [apply (isd_comp cosh (fun h => Vh h x 0%nat)); [apply der_cosh|D]|]. cbn. ring.
      + intros j Hj. generalize (Q j ltac:(lia)). apply filter_imp. intros h [-> _]. clear Q. ev. rewrite lp_add.
        destruct (Nat.eqb_spec j 0) as [->|_]; [lia|]. rewrite Rplus_0_l. f_equal. apply sumR_ext; intros; ring.
      + intros j Hj. generalize (Q j ltac:(lia)). apply filter_imp. intros h [_ ->]. clear Q. ev. rewrite lp_add.
        destruct (Nat.eqb_spec j 0) as [->|_]; [lia|]. rewrite (sumR_ext 1 (Datatypes.S j) _ (fun k => INR k * (Vh h x k * Vh h r (j - k)%nat))) by (intros; ring). f_equal. ring.
  Qed.
End RevSub3.
