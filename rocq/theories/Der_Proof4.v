(** The loops of RevTwo and ForTwo *)
From Coq Require Import Reals ZArith Lra Lia List Bool Arith FunctionalExtensionality.
From Coquelicot Require Import Coquelicot.
From Verif Require Import Base_Spec Op_Model Tape_Spec Tape_Model Tape_Proof Tape_Proof2 Tape_Proof10 Tape_Hist Tape_Prop
  Sweep_Model Sweep_Eqs Sweep_Eqs2 Sweep_Tape Sweep_Uniq Sweep_Val0 Tape_Swf
  Drv_Spec Drv_Model Drv_Proof Drv_Proof2 Drv_Proof3 Drv_Proof4 Drv_Prop Drv_Link Real_Base Tay_Calc Tay_Sub Tay_Tape Tay_Prop
  Rev_Spec Rev_Calc Rev_Prop Der_Model Der_Spec Der_Proof Der_Proof2 Der_Proof3.
Import ListNotations.
Open Scope nat_scope.

Section Der.
  Variable dis : nat -> R -> R.
  Variable nan : R.
  Notation b := (Rbase dis nan).
  Variable junk : nat -> R.
  Context (tid : nat) (cmp : bool) (n np : nat) (e : nat -> AD b) (ev : nat -> VecAD b) (p : prog R)
    (V0 : nat -> R) (l0 : nat -> nat) (f : adfun b).
  Hypothesis REC : recorded tid cmp n np e ev p V0 l0 f.
  Hypothesis POS : 0 < n.
  Let f0 : adq b := drv_of (b:=b) junk f.
  Let m := length (g_dep f).
  Notation forward := (forward (b:=b) INR junk).
  Notation reverse := (reverse (b:=b) INR junk).
  Context (ds : list (list R)).
  Let a : adq b := with_dynamics f0 ds.
  Context (F : list R -> list R).
  Notation at1 := (at1 dis nan junk f ds).
  Notation at2 := (at2 dis nan junk f ds).
  Notation reg := (reg dis nan junk f ds F).

  Section At.
    Context (x : list R) (Lx : length x = n) (d : R) (Hd : (0 < d)%R).
    Notation near := (near n x d).
    Hypothesis RG : forall y, near y -> (exists z, forward a 0 y = Some (F y, z)) /\ forall u, length u = n -> smooth_at dis nan junk f a (shift y u).
    Notation dir := (dir F).
    Notation hes := (hes n F x).
    Notation u_ := (unit_vec n).
    Let NX : near x := near_x n x Lx d Hd.
    Let REGX u (Lu : length u = n) : reg x u := near_reg dis nan junk n f ds F x d RG x u NX Lu.
    Let FLD := at1_fields dis nan junk tid cmp n np e ev p V0 l0 f REC POS ds.


    Let RV2 := rev2_hes dis nan junk tid cmp n np e ev p V0 l0 f REC POS ds F x Lx d Hd RG.
    Let FW1 := fwd1_dir dis nan junk tid cmp n np e ev p V0 l0 f REC POS ds F x Lx d Hd RG.
    Let FW2 := fwd2_quad dis nan junk tid cmp n np e ev p V0 l0 f REC POS ds F x Lx d Hd RG.

    Lemma rev_two_in_ok (ii jj : list nat) j1 ls : j1 < n -> (forall l, l < length ii -> nth l ii 0 < m) ->
      forall g (done : bool) (dx w ddw : nat -> R), (if done then at2 g x (u_ j1) else at1 g x) -> (forall k, dx k = 0%R) -> (forall k, w k = 0%R) ->
      NoDup ls -> (forall l, In l ls -> l < length ii) ->
      exists ddw' dx' w' g', rev_two_in (b:=b) INR junk g ii jj j1 ls done dx w ddw = Some (ddw', dx', w', g') /\ at1 g' x /\
      (forall k, dx' k = 0%R) /\ (forall k, w' k = 0%R) /\
      forall k l, k < n -> l < length ii -> (In l ls /\ nth l jj 0 = j1 -> ddw' (k * length ii + l) = hes (nth l ii 0) k j1) /\
        (~ (In l ls /\ nth l jj 0 = j1) -> ddw' (k * length ii + l) = ddw (k * length ii + l)).
    Proof.
      intros Hj1 Hii. induction ls as [|l1 ls IH]; intros g done dx w ddw AT Zd Zw ND Hl; cbn [rev_two_in].
      - exists ddw, dx, w, g. split; auto. split; [destruct done; auto; eapply at2_at1; eauto|]. split; [exact Zd|]. split; [exact Zw|]. intros k l _ _. split; [intros [[] _]|auto].
      - apply NoDup_cons_iff in ND as [N1 N2]. assert (l1 < length ii) as Hl1 by (apply Hl; now left).
        destruct (Nat.eqb_spec (nth l1 jj 0) j1) as [Ej|Nj]; cbn [negb].
        + assert (exists g1 (dx1 : nat -> R), (if done then Some (dx, g) else
                  let dx := fset dx j1 (@b1 b) in
                  match forward g 1 (vec (b:=b) (d_n g) dx) with None => None | Some (_, f) => Some (fset dx j1 (@b0 b), f) end) = Some (dx1, g1)
               /\ at2 g1 x (u_ j1) /\ forall k, dx1 k = 0%R) as (g1 & dx1 & E1 & AT1 & Zd1).
          { destruct done; [exists g, dx; auto|]. destruct (FLD g x AT) as (Q1 & Q2 & _). rewrite Q1. cbv zeta.
            match goal with |- context [@vec ?bb n ?w] => replace (@vec bb n w) with (unit_vec n j1) by (symmetry; exact (vec_unit n dx j1 Zd)) end.
            destruct (FW1 g (u_ j1) AT (unit_length n j1)) as (v & g' & -> & AT' & _).
            exists g', (fset (fset dx j1 1%R) j1 0%R). split; [reflexivity|]. split; auto. apply fset_zero; auto. }
          match goal with |- context [match ?e with Some _ => _ | None => _ end] => change e with
             (if done then Some (dx, g) else
                  let dx := fset dx j1 (@b1 b) in
                  match forward g 1 (vec (b:=b) (d_n g) dx) with None => None | Some (_, f) => Some (fset dx j1 (@b0 b), f) end) end.
          rewrite E1.
          assert (length (d_dep g) = m) as Q2. { destruct done; [apply at2_at1 in AT|]; unfold m; f_equal; apply (FLD g x AT). }
          assert (d_n g = n) as QN. { destruct done; [apply at2_at1 in AT|]; apply (FLD g x AT). }
          rewrite Q2.
          match goal with |- context [@vec ?bb m ?w] => replace (@vec bb m w) with (unit_vec m (nth l1 ii 0)) by (symmetry; exact (vec_unit m _ (nth l1 ii 0) Zw)) end.
          destruct (RV2 g1 j1 (unit_vec m (nth l1 ii 0)) AT1 (unit_length m _)) as (z & -> & D).
          destruct (IH g1 true dx1 (fset (fset w (nth l1 ii 0) 1%R) (nth l1 ii 0) 0%R) (copy (b:=b) n (fun k => k * length ii + l1) (fun k => k * 2 + 1) z ddw) AT1 Zd1
             (fset_zero w _ 1%R Zw) N2 ltac:(intros; apply Hl; now right)) as (ddw' & dx' & w' & g' & E & A1 & A2 & A3 & K).
          exists ddw', dx', w', g'. split; [rewrite QN; exact E|]. split; auto. split; auto. split; auto.
          intros k l Hk Hl0. destruct (K k l Hk Hl0) as [K1 K2].
          assert (copy (b:=b) n (fun k => k * length ii + l1) (fun k => k * 2 + 1) z ddw (k * length ii + l) = if l =? l1 then nth (k * 2 + 1) z 0%R else ddw (k * length ii + l)) as CO.
          { unfold copy. exact (fold_col (fun k => nth (k * 2 + 1) z 0%R) (length ii) n l1 ddw Hl1 k l Hl0 Hk). }
          split.
          * intros [[<-|Hin] EJ]; [|auto]. rewrite K2 by tauto. etransitivity; [exact CO|]. rewrite Nat.eqb_refl, D by auto.
            exact (total_unit m (nth l1 ii 0) (fun i => hes i k j1) (Hii l1 Hl1)).
          * intros NI. rewrite K2 by (intros [Q Q']; apply NI; split; auto; now right). etransitivity; [exact CO|].
            destruct (Nat.eqb_spec l l1) as [->|]; auto. destruct NI. split; auto. now left.
        + destruct (IH g done dx w ddw AT Zd Zw N2 ltac:(intros; apply Hl; now right)) as (ddw' & dx' & w' & g' & E & A1 & A2 & A3 & K).
          exists ddw', dx', w', g'. split; [exact E|]. split; auto. split; auto. split; auto.
          intros k l Hk Hl0. destruct (K k l Hk Hl0) as [K1 K2]. split.
          * intros [[<-|Hin] EJ]; [congruence|auto].
          * intros NI. apply K2. intros [Q Q']. apply NI. split; auto. now right.
    Qed.
    Lemma rev_two_out_ok (ii jj : list nat) js : (forall l, l < length ii -> nth l ii 0 < m) -> forall g (dx w ddw : nat -> R), at1 g x -> (forall k, dx k = 0%R) -> (forall k, w k = 0%R) ->
      NoDup js -> (forall j, In j js -> j < n) ->
      exists ddw' g', rev_two_out (b:=b) INR junk g ii jj js dx w ddw = Some (ddw', g') /\ at1 g' x /\
      forall k l, k < n -> l < length ii -> (In (nth l jj 0) js -> ddw' (k * length ii + l) = hes (nth l ii 0) k (nth l jj 0)) /\
        (~ In (nth l jj 0) js -> ddw' (k * length ii + l) = ddw (k * length ii + l)).
    Proof.
      intros Hii. induction js as [|j1 js IH]; intros g dx w ddw AT Zd Zw ND Hj; cbn [rev_two_out].
      - exists ddw, g. split; auto. split; auto. intros k l _ _. split; [intros []|auto].
      - apply NoDup_cons_iff in ND as [N1 N2].
        destruct (rev_two_in_ok ii jj j1 (seq 0 (length ii)) ltac:(apply Hj; now left) Hii g false dx w ddw AT Zd Zw (seq_NoDup _ _)) as (d1 & dx1 & w1 & g1 & -> & A1 & A2 & A3 & K1).
        { intros l Hl. apply in_seq in Hl. lia. }
        destruct (IH g1 dx1 w1 d1 A1 A2 A3 N2 ltac:(intros; apply Hj; now right)) as (d2 & g2 & -> & B1 & K2).
        exists d2, g2. split; auto. split; auto. intros k l Hk Hl. destruct (K1 k l Hk Hl) as [C1 C2]. destruct (K2 k l Hk Hl) as [D1 D2].
        assert (In l (seq 0 (length ii))) as IL by (apply in_seq; lia).
        destruct (in_dec Nat.eq_dec (nth l jj 0) js) as [I1|I1].
        + split; [auto|]. intros NI. destruct NI. now right.
        + specialize (D2 I1). split.
          * intros [EQ|]; [|contradiction]. rewrite D2. rewrite <- EQ. apply C1. auto.
          * intros NI. rewrite D2. apply C2. intros [_ EQ]. apply NI. now left.
    Qed.

    (** ForTwo *)
    Definition diag_inv (st : (nat -> bool) * (nat -> R) * (nat -> R) * adq b) : Prop :=
      let '(c, D, dx, g) := st in at1 g x /\ (forall k, dx k = 0%R) /\
        forall j, j < n -> c j = true -> forall i, i < m -> (2 * D (i * n + j)%nat)%R = hes i j j.
    Definition flags (st : (nat -> bool) * (nat -> R) * (nat -> R) * adq b) : nat -> bool := fst (fst (fst st)).
    Lemma for_two_diag_ok st j1 : j1 < n -> diag_inv st -> exists st', for_two_diag (b:=b) INR junk st j1 = Some st' /\ diag_inv st' /\
      flags st' j1 = true /\ (forall j, flags st j = true -> flags st' j = true).
    Proof.
      intros Hj1. destruct st as [[[c D] dx] g]. intros (AT & Zd & DI). unfold for_two_diag, flags. cbn [fst snd].
      destruct (c j1) eqn:CJ; [exists (c, D, dx, g); split; [reflexivity|]; split; [split; [|split]; auto|]; auto|].
      destruct (FLD g x AT) as (Q1 & Q2 & _). rewrite Q1.
      match goal with |- context [@vec ?bb n ?w] => replace (@vec bb n w) with (unit_vec n j1) by (symmetry; exact (vec_unit n dx j1 Zd)) end.
      destruct (FW1 g (u_ j1) AT (unit_length n j1)) as (v & g' & -> & AT' & _).
      assert (exists v g'', forward g' 2 (vec (b:=b) n (fset (fset dx j1 (@b1 b)) j1 (@b0 b))) = Some (v, g'') /\ at2 g'' x (u_ j1) /\
         forall i, i < m -> (2 * nth i v 0)%R = hes i j1 j1) as (v2 & g'' & E2 & AT'' & K).
      { destruct (FW2 g' (u_ j1) (vec (b:=b) n (fset (fset dx j1 (@b1 b)) j1 (@b0 b))) AT' (unit_length n j1) (vec_length (b:=b) n _)) as (v2 & g2 & E2 & A2 & K2).
        - intros j Hj. etransitivity; [exact (vec_nth (b:=b) n _ 0%R j Hj)|]. exact (fset_zero dx j1 1%R Zd j).
        - exists v2, g2. split; auto. split; auto. intros i Hi. etransitivity; [exact (K2 i Hi)|].
          rewrite (total_unit_r n j1 (fun k => total n (fun j => hes i k j * nth j (u_ j1) 0)%R) Hj1). apply (total_unit_r n j1 (fun j => hes i j1 j) Hj1). }
      match goal with |- context [match ?e with Some _ => _ | None => _ end] => replace e with (Some (v2, g'')) by (symmetry; exact E2) end.
      rewrite Q2. fold m.
      eexists. split; [reflexivity|]. cbn [fst snd]. split; [|split].
      - split; [eapply at2_at1; eauto|]. split; [exact (fset_zero dx j1 1%R Zd)|]. intros j Hj Cj i Hi.
        assert (copy (b:=b) m (fun i => i * n + j1) (fun i => i) v2 D (i * n + j) = if j =? j1 then nth i v2 0%R else D (i * n + j)) as CO.
        { unfold copy. exact (fold_col (fun i => nth i v2 0%R) n m j1 D Hj1 i j Hj Hi). }
        etransitivity; [apply (f_equal (Rmult 2)); exact CO|]. unfold fset in Cj. destruct (Nat.eqb_spec j j1) as [->|]; auto.
      - unfold fset. now rewrite Nat.eqb_refl.
      - intros j Hj. unfold fset. destruct (j =? j1); auto.
    Qed.
    Lemma for_two_first_ok jk : forall st, List.Forall (fun q => fst q < n /\ snd q < n) jk -> diag_inv st ->
      exists st', for_two_first (b:=b) INR junk st jk = Some st' /\ diag_inv st' /\ (forall j, flags st j = true -> flags st' j = true) /\
        List.Forall (fun q => flags st' (fst q) = true /\ flags st' (snd q) = true) jk.
    Proof.
      induction jk as [|[j1 k1] jk IH]; intros st HF DI; cbn [for_two_first]; [exists st; split; auto|].
      apply Forall_cons_iff in HF as [[H1 H2] HF]. cbn [fst snd] in H1, H2.
      assert (d_n (snd st) = n) as DN. { destruct st as [[[c D] dx] g]. destruct DI as (AT & _). apply (FLD g x AT). }
      match goal with |- context [d_n ?s] => replace (d_n s) with n by (symmetry; exact DN) end.
      rewrite (proj2 (Nat.ltb_lt _ _) H1), (proj2 (Nat.ltb_lt _ _) H2). cbn [andb negb].
      destruct (for_two_diag_ok st j1 H1 DI) as (s1 & E1 & D1 & F1 & M1). rewrite E1.
      destruct (for_two_diag_ok s1 k1 H2 D1) as (s2 & E2 & D2 & F2 & M2). rewrite E2.
      destruct (IH s2 HF D2) as (s3 & E3 & D3 & M3 & F3). exists s3. split; auto. split; auto. split; [auto|]. constructor; auto.
    Qed.
    Definition mixed (i k j : nat) : R := if j =? k then hes i j j else ((hes i k j + hes i j k) / 2)%R.
    Lemma for_two_second_ok (D : nat -> R) P jk : forall g l (dx ddy : nat -> R), at1 g x -> (forall k, dx k = 0%R) ->
      List.Forall (fun q => fst q < n /\ snd q < n) jk ->
      List.Forall (fun q => (forall i, i < m -> (2 * D (i * n + fst q)%nat)%R = hes i (fst q) (fst q)) /\ (forall i, i < m -> (2 * D (i * n + snd q)%nat)%R = hes i (snd q) (snd q))) jk ->
      l + length jk <= P ->
      exists ddy' g', for_two_second (b:=b) INR junk g D P l jk dx ddy = Some (ddy', g') /\ at1 g' x /\
      forall i, i < m -> (forall t, t < length jk -> ddy' (i * P + (l + t)) = mixed i (snd (nth t jk (0, 0))) (fst (nth t jk (0, 0)))) /\
        (forall t, t < P -> ~ (l <= t < l + length jk) -> ddy' (i * P + t) = ddy (i * P + t)).
    Proof.
      induction jk as [|[j1 k1] jk IH]; intros g l dx ddy AT Zd HF HD HL; cbn [for_two_second].
      - exists ddy, g. split; auto. split; auto. intros i Hi. split; [cbn; intros; lia|auto].
      - apply Forall_cons_iff in HF as [[H1 H2] HF]. apply Forall_cons_iff in HD as [[G1 G2] HD]. cbn [fst snd] in H1, H2, G1, G2.
        destruct (FLD g x AT) as (Q1 & Q2 & _). rewrite Q1, Q2. fold m. cbn [length] in HL.
        assert (forall (val : nat -> R) g1 dx1, at1 g1 x -> (forall k, dx1 k = 0%R) -> (forall i, i < m -> val i = mixed i k1 j1) ->
          exists ddy' g', for_two_second (b:=b) INR junk g1 D P (S l) jk dx1 (fold_left (fun a i => fset a (i * P + l) (val i)) (seq 0 m) ddy) = Some (ddy', g') /\ at1 g' x /\
          forall i, i < m -> (forall t, t < length ((j1, k1) :: jk) -> ddy' (i * P + (l + t)) = mixed i (snd (nth t ((j1, k1) :: jk) (0, 0))) (fst (nth t ((j1, k1) :: jk) (0, 0)))) /\
          (forall t, t < P -> ~ (l <= t < l + length ((j1, k1) :: jk)) -> ddy' (i * P + t) = ddy (i * P + t))) as STEP.
        { intros val g1 dx1 A1 Z1 VA.
          destruct (IH g1 (S l) dx1 (fold_left (fun a i => fset a (i * P + l) (val i)) (seq 0 m) ddy) A1 Z1 HF HD ltac:(lia)) as (ddy' & g' & E & A2 & K).
          exists ddy', g'. split; auto. split; auto. intros i Hi. destruct (K i Hi) as [K1 K2]. split.
          - intros [|t] Ht.
            + rewrite Nat.add_0_r. cbn [nth fst snd]. rewrite K2 by lia.
              etransitivity; [exact (fold_col val P m l ddy ltac:(lia) i l ltac:(lia) Hi)|]. rewrite Nat.eqb_refl. auto.
            + replace (l + S t) with (S l + t) by lia. cbn [nth]. apply K1. cbn [length] in Ht. lia.
          - intros t HtP Ht. cbn [length] in Ht. rewrite K2 by lia.
            etransitivity; [exact (fold_col val P m l ddy ltac:(lia) i t HtP Hi)|]. destruct (Nat.eqb_spec t l); [lia|auto]. }
        destruct (Nat.eqb_spec j1 k1) as [->|Ne].
        + refine (STEP (fun i => (INR 2 * D (i * n + k1)%nat)%R) g dx AT Zd _). intros i Hi. unfold mixed. rewrite Nat.eqb_refl.
          replace (INR 2) with 2%R by (cbn; ring). auto.
        + set (u := fun k => (if k =? j1 then 1 else if k =? k1 then 1 else 0)%R).
          match goal with |- context [match forward g 1 ?w with _ => _ end] => assert (w = map u (seq 0 n)) as EW end.
          { apply (nth_eq 0%R).
            - etransitivity; [exact (vec_length (b:=b) n _)|]. now rewrite map_length, seq_length.
            - intros i Hi. assert (i < n) as Hi' by (erewrite <- (vec_length (b:=b) n); exact Hi).
              etransitivity; [exact (vec_nth (b:=b) n _ 0%R i Hi')|].
              symmetry. etransitivity; [exact (vec_nth (b:=b) n u 0%R i Hi')|]. unfold u, fset.
              destruct (Nat.eqb_spec i k1), (Nat.eqb_spec i j1); auto. }
          rewrite EW. clear EW.
          assert (length (map u (seq 0 n)) = n) as Lu by now rewrite map_length, seq_length.
          destruct (FW1 g (map u (seq 0 n)) AT Lu) as (v & g' & E1 & AT' & _). rewrite E1.
          assert (forall k, fset (fset (fset (fset dx j1 1%R) k1 1%R) j1 0%R) k1 0%R k = 0%R) as Zd2.
          { intros k. unfold fset. destruct (Nat.eqb_spec k k1), (Nat.eqb_spec k j1); auto. }
          match goal with |- context [match forward g' 2 ?w with _ => _ end] => destruct (FW2 g' (map u (seq 0 n)) w AT' Lu (vec_length (b:=b) n _)) as (v2 & g2 & E2 & AT2 & K2) end.
          { intros j Hj. etransitivity; [exact (vec_nth (b:=b) n _ 0%R j Hj)|]. exact (Zd2 j). }
          rewrite E2.
          refine (STEP (fun i => (nth i v2 0 - D (i * n + j1)%nat - D (i * n + k1)%nat)%R) g2 _ (at2_at1 dis nan junk f ds _ _ _ AT2) Zd2 _).
          intros i Hi. specialize (K2 i Hi). specialize (G1 i Hi). specialize (G2 i Hi).
          assert (forall G : nat -> R, total n (fun j => G j * nth j (map u (seq 0 n)) 0)%R = (G j1 + G k1)%R) as TU.
          { intros G. transitivity (total n (fun j => G j * nth j (u_ j1) 0) + total n (fun j => G j * nth j (u_ k1) 0))%R.
            - rewrite !total_sumR, <- sumR_plus. apply sumR_ext. intros j Hj.
              replace (nth j (map u (seq 0 n)) 0%R) with (nth j (u_ j1) 0 + nth j (u_ k1) 0)%R; [ring|].
              rewrite !unit_nth by lia. symmetry. etransitivity; [exact (vec_nth (b:=b) n u 0%R j ltac:(lia))|]. unfold u.
              destruct (Nat.eqb_spec j j1), (Nat.eqb_spec j k1); try lia; ring.
            - now rewrite !total_unit_r by auto. }
          rewrite (TU (fun k => total n (fun j => hes i k j * nth j (map u (seq 0 n)) 0)%R)), !(TU (fun j => hes i _ j)) in K2.
          unfold mixed. destruct (Nat.eqb_spec j1 k1); [contradiction|]. lra.
    Qed.
  End At.
End Der.
