(** C09 and C12: histories of Forward, Reverse, capacity_order, new_dynamic calls. *)
From Coq Require Import ZArith List Bool Arith Lia.
From Verif Require Import Base_Spec Op_Model Tape_Spec Tape_Model Tape_Proof Tape_Proof2 Tape_Proof10 Tape_Prop
  Sweep_Model Sweep_Eqs Sweep_Eqs2 Sweep_Tape Sweep_Uniq Tape_Swf Drv_Spec Drv_Model Drv_Proof Drv_Proof2 Drv_Proof3 Drv_Proof4.
Import ListNotations.

Section Drv.
  Context {b : base} (L : base_laws b) (TL : taylor_laws b).
  Notation T := (bt b).
  Variable bnat : nat -> T.
  Variable junk : nat -> T.

  (** execute a history; None when some call is rejected *)
  Definition dstep (f : adq b) (c : dcall T) : option (adq b) :=
    match c with
    | CFor q xq => option_map snd (forward bnat junk f q xq)
    | CForR q r xq => option_map snd (forward_r bnat junk f q r xq)
    | CRev q w => option_map snd (reverse bnat junk f q w)
    | CCap c => capacity_order junk f c
    | CDyn d => Some (new_dyn f d)
    end.
  Fixpoint drun (f : adq b) (h : list (dcall T)) : option (adq b) :=
    match h with
    | [] => Some f
    | c :: h' => match dstep f c with Some f' => drun f' h' | None => None end
    end.
  (** the object with the same dynamic parameters and no Taylor coefficient *)
  Definition with_dynamics (f : adq b) (ds : list (list T)) : adq b := fold_left new_dyn ds f.

  (** *** C09 *)
  Definition good l (g0 g : adq b) X := valid bnat l g X /\ d_rec g = d_rec g0 /\ d_n g = d_n g0 /\ d_dep g = d_dep g0 /\
     d_par g = d_par g0 /\ d_cc g = d_cc g0 /\ d_ord g0 = 0 /\ d_cap g0 = 0 /\ valid bnat l g0 X.

  Lemma given_upd n (X : nat -> list T) q (xq : list T) k : given1 b0 n X (CFor q xq) k = upd n q xq X k.
  Proof.
    unfold given1, upd. destruct (length xq =? n); auto. apply map_ext. intros j. f_equal. lia.
  Qed.
  Lemma valid_inputs l (f : adq b) X Y : (forall k, X k = Y k) -> valid bnat l f X -> valid bnat l f Y.
  Proof.
    intros E [A B C D F]. constructor; auto. intros O. destruct (F O) as [G1 G2 G3 G4]. constructor; auto.
    - destruct G1 as (V0 & l0 & t & H1 & H2 & H3). exists V0, l0, t. rewrite <- E. auto.
    - intros. rewrite <- E. auto.
  Qed.
  Lemma valid_empty l (f : adq b) X Y : d_ord f = 0 -> valid bnat l f X -> valid bnat l f Y.
  Proof. intros O [A B C D F]. constructor; auto. intros; lia. Qed.

  Lemma good_run l h : forall g0 g X gf, good l g0 g X -> one_direction h -> drun g h = Some gf ->
    good l (with_dynamics g0 (dynamics h)) gf (fold_left (given1 b0 (d_n g0)) h X).
  Proof.
    induction h as [|c h IH]; intros g0 g X gf G OD R; cbn [drun] in R.
    - injection R as <-. exact G.
    - inversion OD as [|? ? Hc OD']; subst. destruct (dstep g c) as [g1|] eqn:E; [|discriminate].
      destruct G as (G1 & G2 & G3 & G4 & G5 & G6 & G7 & G8 & G9). cbn [fold_left].
      destruct c as [q xq|q r xq|q w|c|d]; [|destruct Hc| | |]; cbn [dstep] in E; unfold dynamics; cbn [flat_map app].
      + destruct (forward bnat junk g q xq) as [[ys g']|] eqn:F; [|discriminate]. injection E as <-.
        destruct (forward_valid TL bnat junk l g X q xq ys g' G1 F) as (A1 & A2 & A3 & A4 & A5 & A6 & A7 & A8 & _).
        apply (IH g0 g' _ gf); auto. split; [|repeat (split; [congruence|])].
        * refine (valid_inputs l _ _ _ _ A1). intros k. now rewrite given_upd, <- G3.
        * exact (valid_empty l _ _ _ G7 G9).
      + destruct (reverse bnat junk g q w) as [[z g']|] eqn:F; [|discriminate]. injection E as <-. cbn [snd] in R.
        rewrite (valid_rev bnat junk l g g' X q w z G1 F) in R. apply (IH g0 g _ gf); auto. repeat (split; auto).
      + destruct (valid_cap bnat junk l g g1 X c G1 E) as (A1 & A2 & A3 & A4 & A5 & A6 & A7).
        apply (IH g0 g1 _ gf); auto. split; [auto|repeat (split; [congruence|]); apply G9].
      + injection E as <-. change (good l (with_dynamics (new_dyn g0 d) (dynamics h)) gf (fold_left (given1 b0 (d_n (new_dyn g0 d))) h X)).
        apply (IH (new_dyn g0 d) (new_dyn g d) _ gf); auto. split; [eapply valid_dyn; eauto|].
        cbn. repeat (split; [congruence|]). eapply valid_dyn; eauto.
  Qed.

  Lemma nth_map_flat (D : list nat) (V : nat -> nat -> T) q k i : i < length D -> k <= q ->
    nth (i * (q + 1) + k) (flat_map (fun a => map (fun k => V a k) (seq 0 (q + 1))) D) b0 = V (nth i D 0) k.
  Proof.
    revert i. induction D as [|a D IH]; intros i Hi Hk; cbn [length] in Hi; [lia|]. cbn [flat_map].
    destruct i as [|i].
    - rewrite app_nth1 by (rewrite map_length, seq_length; lia). cbn [Nat.mul Nat.add nth].
      rewrite (nth_indep _ b0 (V a 0)) by (rewrite map_length, seq_length; lia).
      rewrite (map_nth (fun k => V a k)), seq_nth by lia. auto.
    - rewrite app_nth2 by (rewrite map_length, seq_length; nia). rewrite map_length, seq_length.
      replace (S i * (q + 1) + k - (q + 1)) with (i * (q + 1) + k) by nia. cbn [nth]. apply IH; lia.
  Qed.
  Lemma flat_map_ext_in {A B} (f g : A -> list B) l : (forall a, In a l -> f a = g a) -> flat_map f l = flat_map g l.
  Proof. induction l as [|x l IH]; intros H; cbn; auto. rewrite H by now left. rewrite IH; auto. intros; apply H; now right. Qed.
  Lemma map_nth_seq {A B} (g : A -> B) (l : list A) d : map (fun i => g (nth i l d)) (seq 0 (length l)) = map g l.
  Proof.
    induction l as [|a l IH]; cbn; auto. f_equal. rewrite <- seq_shift, map_map. exact IH.
  Qed.
  Lemma order0 (g : nat -> T) (D : list nat) : map (fun i => nth (i * (0 + 1) + 0) (map g D) b0) (seq 0 (length D)) = map g D.
  Proof.
    transitivity (map (fun i => g (nth i D 0)) (seq 0 (length D))); [|apply map_nth_seq].
    apply map_ext_in. intros i Hi. apply in_seq in Hi. replace (i * (0 + 1) + 0) with i by lia.
    rewrite (nth_indep _ b0 (g 0)) by (rewrite map_length; lia). now rewrite (map_nth g).
  Qed.
  (** the order [k] part of what a successful call returns *)
  Lemma yout_order (f' : adq b) n q (xq : list T) k : low n q xq <= k <= q ->
    (if length xq =? n then yout f' n q xq else order_of b0 (length (d_dep f')) q k (yout f' n q xq)) =
      map (fun a => view1 f' a k) (d_dep f').
  Proof.
    intros Hk. unfold yout, low in *. destruct (length xq =? n) eqn:E.
    - rewrite Nat.eqb_refl. replace k with q by lia. auto.
    - unfold order_of. destruct (Nat.eqb_spec 0 q) as [<-|].
      + replace k with 0 by lia. apply order0.
      + rewrite <- (map_nth_seq (fun a => view1 f' a k) _ 0). apply map_ext_in.
        intros i Hi. apply in_seq in Hi. apply nth_map_flat; lia.
  Qed.

  Section Recorded.
    Context (tid : nat) (cmp : bool) (n np : nat) (e : nat -> AD b) (ev : nat -> VecAD b) (p : prog T)
      (V0 : nat -> T) (l0 : nat -> nat) (f : adfun b).
    Hypothesis REC : recorded tid cmp n np e ev p V0 l0 f.
    Hypothesis POS : 0 < n.
    Let f0 := drv_of junk f.

    Lemma good_history h g : one_direction h -> drun f0 h = Some g ->
      good (head_ins n ++ body n (g_rec f)) (with_dynamics f0 (dynamics h)) g (given b0 (g_n f) h).
    Proof.
      intros OD R. apply (good_run _ h f0 f0 (fun _ => [])); auto.
      assert (valid bnat (head_ins n ++ body n (g_rec f)) f0 (fun _ => [])).
      { apply valid_new. eapply recorded_twf; eauto. }
      repeat (split; auto).
    Qed.

    (** Whatever calls were made before, a Forward(q, xq) that is accepted returns the
        coefficients that one call with all the orders of the independent variables
        returns on an object without any Taylor coefficient. *)
    Theorem forward_history_independent : forall h g q xq ys g',
      one_direction h -> drun f0 h = Some g -> forward bnat junk g q xq = Some (ys, g') ->
      let X := given b0 (g_n f) (h ++ [CFor q xq]) in
      exists Y g1,
        forward bnat junk (with_dynamics f0 (dynamics h)) q (all_orders b0 (g_n f) q X) = Some (Y, g1) /\
        ys = (if length xq =? g_n f then order_of b0 (length (g_dep f)) q q Y else Y).
    Proof.
      intros h g q xq ys g' OD R F X. destruct (good_history h g OD R) as (G1 & G2 & G3 & G4 & G5 & G6 & G7 & G8 & G9).
      destruct (forward_valid TL bnat junk _ g _ q xq ys g' G1 F) as (A1 & A2 & A3 & A4 & A5 & A6 & A7 & A8 & A9 & _).
      set (l := head_ins n ++ body n (g_rec f)) in *. set (g0 := with_dynamics f0 (dynamics h)) in *.
      assert (d_n g = g_n f /\ d_dep g0 = g_dep f) as [Dn Dd].
      { rewrite G3. unfold g0, with_dynamics.
        assert (forall ds (f1 : adq b), d_n (fold_left new_dyn ds f1) = d_n f1 /\ d_dep (fold_left new_dyn ds f1) = d_dep f1) as K.
        { induction ds; intros f1; cbn; auto. destruct (IHds (new_dyn f1 a)) as [-> ->]. auto. }
        destruct (K (dynamics h) f0) as [-> ->]. auto. }
      assert (valid bnat l g' X) as VX.
      { refine (valid_inputs l _ _ _ _ A1). intros k. unfold X, given. rewrite fold_left_app. cbn [fold_left].
        rewrite given_upd, Dn. auto. }
      assert (0 < g_n f) as Hn.
      { rewrite <- Dn. apply (w_n _ _ _ _ (v_twf _ _ _ _ G1)). }
      destruct (forward_total TL bnat junk l g' g0 X q VX ltac:(lia) (valid_empty l _ _ _ G7 G9)) as (Y & g1 & F1); try congruence.
      replace (d_n g') with (g_n f) in F1 by congruence. exists Y, g1. split; [exact F1|].
      destruct (forward_valid TL bnat junk _ g0 _ q _ Y g1 (valid_empty l _ _ X G7 G9) F1) as (B1 & B2 & B3 & B4 & B5 & B6 & B7 & B8 & B9 & _).
      replace (d_n g0) with (g_n f) in * by congruence.
      assert (forall v k, 0 < v < r_nvar (d_rec g') -> k < q + 1 -> view1 g' v k = view1 g1 v k) as K.
      { intros v k Hv Hk. apply (valid_det bnat l g' g1 X _ (q + 1) VX B1); try congruence; try lia.
        intros k' j Hk' Hj. symmetry. apply upd_pack; auto; lia. }
      pose proof (w_dep _ _ _ _ (v_twf _ _ _ _ VX)) as WD. rewrite Forall_forall in WD.
      assert (d_dep g' = g_dep f) as ED by congruence. assert (d_dep g1 = g_dep f) as ED1 by congruence.
      pose proof (yout_order g1 (g_n f) q (pack (g_n f) q X) q) as Q.
      rewrite A3, Dn. rewrite B3. unfold yout. rewrite ED, ED1.
      rewrite low_pack by auto. unfold low. destruct (Nat.eqb_spec (length xq) (g_n f)) as [El|El].
      - rewrite Nat.eqb_refl.
        assert (map (fun a => view1 g' a q) (g_dep f) = map (fun a => view1 g1 a q) (g_dep f)) as ->.
        { apply map_ext_in. intros a Ha. apply K; [|lia]. rewrite <- ED in Ha. apply WD, Ha. }
        unfold order_of. destruct ((if g_n f * (q + 1) =? g_n f then q else 0) =? q) eqn:E0.
        + assert (q = 0) as ->.
          { destruct (Nat.eqb_spec (g_n f * (q + 1)) (g_n f)); [nia|]. apply Nat.eqb_eq in E0. auto. }
          symmetry. apply order0.
        + rewrite <- (map_nth_seq (fun a => view1 g1 a q) _ 0). apply map_ext_in.
          intros i Hi. apply in_seq in Hi. symmetry. apply nth_map_flat; lia.
      - assert (0 < q) as Hq.
        { unfold forward in F. destruct ((length xq =? d_n g) || (length xq =? d_n g * (q + 1))) eqn:EL; [|discriminate].
          rewrite Dn in EL. destruct (Nat.eqb_spec (length xq) (g_n f)); [lia|]. cbn in EL. apply Nat.eqb_eq in EL.
          destruct q; [lia|lia]. }
        destruct (Nat.eqb_spec (g_n f * (q + 1)) (g_n f)); [nia|].
        destruct (Nat.eqb_spec 0 q); [lia|].
        apply flat_map_ext_in. intros a Ha. apply map_ext_in. intros k Hk. apply in_seq in Hk. apply K; [|lia].
        rewrite <- ED in Ha. apply WD, Ha.
    Qed.

    Lemma dyn_fields ds : forall f1 : adq b, d_n (with_dynamics f1 ds) = d_n f1 /\ d_dep (with_dynamics f1 ds) = d_dep f1 /\
      d_rec (with_dynamics f1 ds) = d_rec f1 /\ d_cc (with_dynamics f1 ds) = d_cc f1.
    Proof.
      unfold with_dynamics. induction ds; intros f1; cbn; auto. destruct (IHds (new_dyn f1 a)) as (-> & -> & -> & ->). auto.
    Qed.

    (** the order [k] coefficients returned by Forward(q, xq) *)
    Definition returned (q k : nat) (xq ys : list T) : list T :=
      if length xq =? g_n f then ys else order_of b0 (length (g_dep f)) q k ys.

    (** Order [k] of the results depends only on the orders [0 .. k] of the
        independent variables: two histories (also with different splits into calls and
        different highest orders) agree on it. *)
    Theorem forward_order_dependence : forall h1 g1 q1 x1 ys1 g1' h2 g2 q2 x2 ys2 g2' k,
      one_direction h1 -> drun f0 h1 = Some g1 -> forward bnat junk g1 q1 x1 = Some (ys1, g1') ->
      one_direction h2 -> drun f0 h2 = Some g2 -> forward bnat junk g2 q2 x2 = Some (ys2, g2') ->
      dynamics h1 = dynamics h2 ->
      (forall i, i <= k -> forall j, j < g_n f ->
         nth j (given b0 (g_n f) (h1 ++ [CFor q1 x1]) i) b0 = nth j (given b0 (g_n f) (h2 ++ [CFor q2 x2]) i) b0) ->
      k <= q1 -> k <= q2 -> (length x1 = g_n f -> k = q1) -> (length x2 = g_n f -> k = q2) ->
      returned q1 k x1 ys1 = returned q2 k x2 ys2.
    Proof.
      intros h1 g1 q1 x1 ys1 g1' h2 g2 q2 x2 ys2 g2' k OD1 R1 F1 OD2 R2 F2 ED HX K1 K2 L1 L2.
      destruct (good_history h1 g1 OD1 R1) as (G1 & G2 & G3 & G4 & G5 & G6 & G7 & G8 & G9).
      destruct (good_history h2 g2 OD2 R2) as (H1 & H2 & H3 & H4 & H5 & H6 & H7 & H8 & H9).
      rewrite <- ED in *.
      destruct (forward_valid TL bnat junk _ g1 _ q1 x1 ys1 g1' G1 F1) as (A1 & A2 & A3 & A4 & A5 & A6 & A7 & A8 & A9 & _).
      destruct (forward_valid TL bnat junk _ g2 _ q2 x2 ys2 g2' H1 F2) as (B1 & B2 & B3 & B4 & B5 & B6 & B7 & B8 & B9 & _).
      destruct (dyn_fields (dynamics h1) f0) as (D1 & D2 & D3 & D4).
      set (l := head_ins n ++ body n (g_rec f)) in *. set (g0 := with_dynamics f0 (dynamics h1)) in *.
      change (d_n f0) with (g_n f) in D1. change (d_dep f0) with (g_dep f) in D2.
      assert (d_dep g1' = g_dep f) as E1 by congruence. assert (d_dep g2' = g_dep f) as E2 by congruence.
      replace (d_n g1) with (g_n f) in * by congruence. replace (d_n g2) with (g_n f) in * by congruence.
      unfold returned. rewrite A3, B3.
      assert (forall q (xq : list T), k <= q -> (length xq = g_n f -> k = q) -> low (g_n f) q xq <= k <= q) as LW.
      { intros q xq HH HH2. unfold low. destruct (Nat.eqb_spec (@length T xq) (g_n f)); [specialize (HH2 e0)|]; lia. }
      pose proof (yout_order g1' (g_n f) q1 x1 k (LW q1 x1 K1 L1)) as Y1. rewrite E1 in Y1. rewrite Y1.
      pose proof (yout_order g2' (g_n f) q2 x2 k (LW q2 x2 K2 L2)) as Y2. rewrite E2 in Y2. rewrite Y2.
      pose proof (w_dep _ _ _ _ (v_twf _ _ _ _ A1)) as WD. rewrite Forall_forall in WD.
      apply map_ext_in. intros a Ha. apply (valid_det bnat l g1' g2' _ _ (k + 1) A1 B1); try congruence; try lia.
      - intros i j Hi Hj. rewrite <- !given_upd. replace (d_n g1') with (g_n f) in Hj by congruence.
        specialize (HX i ltac:(lia) j Hj). unfold given in HX. rewrite !fold_left_app in HX. exact HX.
      - rewrite <- E1 in Ha. apply WD, Ha.
    Qed.

    (** Reverse(q, w) after any history is Reverse(q, w) after one Forward call with
        the orders 0 .. s-1, s = size_order(). *)
    Theorem reverse_history_independent : forall h g q w z g',
      one_direction h -> drun f0 h = Some g -> reverse bnat junk g q w = Some (z, g') ->
      let X := given b0 (g_n f) h in
      exists Y g1 g2,
        forward bnat junk (with_dynamics f0 (dynamics h)) (d_ord g - 1) (all_orders b0 (g_n f) (d_ord g - 1) X) = Some (Y, g1) /\
        reverse bnat junk g1 q w = Some (z, g2).
    Proof.
      intros h g q w z g' OD R F X. destruct (good_history h g OD R) as (G1 & G2 & G3 & G4 & G5 & G6 & G7 & G8 & G9).
      destruct (dyn_fields (dynamics h) f0) as (D1 & D2 & D3 & D4).
      set (l := head_ins n ++ body n (g_rec f)) in *. set (g0 := with_dynamics f0 (dynamics h)) in *.
      change (d_n f0) with (g_n f) in D1.
      assert (0 < q <= d_ord g) as Hq.
      { unfold reverse in F. destruct (negb _); [discriminate|]. destruct (Nat.ltb_spec 0 q); [|discriminate].
        cbn [negb] in F. destruct (Nat.leb_spec q (d_ord g)); [lia|discriminate]. }
      assert (0 < g_n f) as Hn.
      { replace (g_n f) with (d_n g) by congruence. apply (w_n _ _ _ _ (v_twf _ _ _ _ G1)). }
      destruct (forward_total TL bnat junk l g g0 X (d_ord g - 1) G1 ltac:(lia) G9) as (Y & g1 & F1); try congruence.
      replace (d_n g) with (g_n f) in F1 by congruence. exists Y, g1.
      destruct (forward_valid TL bnat junk _ g0 _ _ _ Y g1 G9 F1) as (B1 & B2 & B3 & B4 & B5 & B6 & B7 & B8 & B9 & _).
      pose proof (reverse_det bnat junk l g g1 _ _ q w G1 B1) as K. rewrite F in K. cbn [option_map fst] in K.
      assert (Some z = option_map fst (reverse bnat junk g1 q w)) as K'.
      { apply K; try congruence; try lia.
        intros k j Hk Hj. symmetry. replace (d_n g0) with (g_n f) by congruence.
        apply upd_pack; auto; lia. }
      destruct (reverse bnat junk g1 q w) as [[z' g2]|]; [|discriminate]. cbn in K'. injection K' as <-.
      exists g2. split; auto.
    Qed.
  End Recorded.

  (** *** C12 *)
  Definition book_inv (f : adq b) := d_ord f <= d_cap f.

  Lemma cap2_book (f f' : adq b) c r : book_inv f -> capacity2 junk f c r = Some f' ->
    d_cap f' = c /\ d_dir f' = r /\ d_ord f' = Nat.min (d_ord f) c /\ d_rec f' = d_rec f /\ book_inv f'.
  Proof.
    unfold book_inv. intros I H.
    destruct (capacity2_spec junk f f' c r H I ltac:(lia)) as (C1 & C2 & C3 & C4 & C5 & C6 & _).
    rewrite C1, C3. repeat split; auto. lia.
  Qed.

  Lemma cap2_cap (f f' : adq b) c r : capacity2 junk f c r = Some f' -> d_cap f' = c.
  Proof.
    unfold capacity2. destruct (Nat.eqb_spec c (d_cap f)) as [->|]; cbn [andb].
    - destruct (r =? d_dir f); [intros H; now injection H as <-|].
      destruct (Nat.eqb_spec (d_cap f) 0) as [->|]; [destruct (r =? 0)|destruct (negb _)]; intros H; try discriminate; now injection H as <-.
    - destruct (Nat.eqb_spec c 0) as [->|]; [destruct (r =? 0)|destruct (negb _)]; intros H; try discriminate; now injection H as <-.
  Qed.

  Lemma dstep_book (f f' : adq b) c : book_inv f -> dstep f c = Some f' ->
    book_inv f' /\ (d_ord f', d_dir f') = book (d_ord f, d_dir f) c /\ d_rec f' = d_rec f.
  Proof.
    intros I H. destruct c as [q xq|q r xq|q w|c|d]; cbn [dstep book fst snd] in *.
    - destruct (forward bnat junk f q xq) as [[ys f1]|] eqn:F; [|discriminate]. injection H as <-.
      unfold forward in F. destruct (negb _); [discriminate|].
      destruct (negb _); [discriminate|]. destruct (negb _); [discriminate|].
      set (p := q + 1 - length xq / d_n f) in *.
      destruct (if (d_cap f <=? q) || negb (d_dir f =? 1) then _ else _) as [f2|] eqn:EC; [|discriminate].
      assert (q < d_cap f2) as HC.
      { destruct ((d_cap f <=? q) || negb (d_dir f =? 1)) eqn:E.
        - rewrite (cap2_cap _ _ _ _ EC). lia.
        - injection EC as <-. apply orb_false_iff in E as [E _]. apply Nat.leb_gt in E. auto. }
      destruct (decode _ _ _); [|discriminate].
      match type of F with match ?x with _ => _ end = _ => destruct x; [|discriminate] end.
      injection F as <- <-. cbn [snd d_ord d_cap d_dir]. unfold book_inv. cbn. repeat split; auto. lia.
    - destruct (forward_r bnat junk f q r xq) as [[ys f1]|] eqn:F; [|discriminate]. injection H as <-.
      unfold forward_r in F. destruct (q =? 0); [discriminate|]. destruct (negb _); [discriminate|].
      destruct (Nat.leb_spec q (d_ord f)); [|discriminate]. cbn [negb] in F. destruct (negb _); [discriminate|].
      destruct (if (d_cap f <=? q) || negb (d_dir f =? r) then _ else _) as [f2|] eqn:EC; [|discriminate].
      assert (q < d_cap f2) as HC.
      { destruct ((d_cap f <=? q) || negb (d_dir f =? r)) eqn:E.
        - rewrite (cap2_cap _ _ _ _ EC). lia.
        - injection EC as <-. apply orb_false_iff in E as [E _]. apply Nat.leb_gt in E. auto. }
      cbn [negb] in F.
      destruct (decode _ _ _); [|discriminate]. destruct (sweep_dir _ _ _ _ _ _ _ _ _); [|discriminate].
      injection F as <- <-. unfold book_inv. cbn. repeat split; auto. lia.
    - destruct (reverse bnat junk f q w) as [[z f1]|] eqn:F; [|discriminate]. injection H as <-. cbn [snd].
      unfold reverse in F. destruct (negb _); [discriminate|]. destruct (Nat.ltb_spec 0 q); [|discriminate]. cbn [negb] in F.
      destruct (Nat.leb_spec q (d_ord f)); [|discriminate]. cbn [negb] in F.
      destruct ((q =? 1) && (1 <? d_dir f)).
      + destruct (capacity2 junk (set_ord f 1) (d_cap f) 1) as [f2|] eqn:EC; [|discriminate].
        destruct (cap2_book (set_ord f 1) f2 _ _ ltac:(unfold book_inv in *; cbn; lia) EC) as (A1 & A2 & A3 & A4 & A5).
        destruct (negb _); [discriminate|]. destruct (decode _ _ _); [|discriminate]. injection F as <- <-.
        rewrite A2, A3. cbn [set_ord d_ord set_tay]. repeat split; auto. f_equal. unfold book_inv in *. lia.
      + destruct (negb _); [discriminate|]. destruct (decode _ _ _); [|discriminate]. injection F as <- <-. auto.
    - unfold capacity_order in H. destruct (Nat.leb_spec c 1).
      + assert ((c =? 0) || (c =? 1) = true) as E by (destruct c as [|[|c]]; auto; lia). rewrite E in H.
        destruct (cap2_book f f' _ _ I H) as (A1 & A2 & A3 & A4 & A5). rewrite A2, A3. auto.
      + assert ((c =? 0) || (c =? 1) = false) as E by (destruct c as [|[|c]]; auto; lia). rewrite E in H.
        destruct (cap2_book f f' _ _ I H) as (A1 & A2 & A3 & A4 & A5). rewrite A2, A3. auto.
    - injection H as <-. unfold book_inv. cbn. repeat split; auto. lia.
  Qed.

  Lemma drun_book h : forall f g : adq b, book_inv f -> drun f h = Some g ->
    book_inv g /\ (d_ord g, d_dir g) = fold_left book h (d_ord f, d_dir f) /\ d_rec g = d_rec f.
  Proof.
    induction h as [|c h IH]; intros f g I H; cbn [drun fold_left] in *.
    - injection H as <-. auto.
    - destruct (dstep f c) as [f1|] eqn:E; [|discriminate].
      destruct (dstep_book f f1 c I E) as (A & B & C). destruct (IH f1 g A H) as (A2 & B2 & C2). rewrite <- B. repeat split; auto. congruence.
  Qed.

  Section Book.
    Context (f : adfun b) (h : list (dcall T)) (g : adq b).
    Hypothesis RUN : drun (drv_of junk f) h = Some g.

    (** size_order() and size_direction() are functions of the history of calls *)
    Theorem size_order_history : (d_ord g, d_dir g) = fold_left book h (0, 0).
    Proof. exact (proj1 (proj2 (drun_book h (drv_of junk f) g (Nat.le_refl 0) RUN))). Qed.

    (** a call that needs more orders than size_order() is rejected *)
    Theorem too_many_orders_rejected : forall q,
      fst (fold_left book h (0, 0)) < q ->
      (forall xq, 0 < length xq -> length xq = d_n g -> forward bnat junk g q xq = None) /\
      (forall r xq, forward_r bnat junk g q r xq = None) /\
      (forall w, reverse bnat junk g q w = None).
    Proof.
      intros q. rewrite <- size_order_history. cbn [fst]. intros Hq. repeat split; intros.
      - unfold forward. rewrite H0, Nat.eqb_refl. cbn [orb negb]. rewrite Nat.div_same by lia.
        replace (q + 1 - 1) with q by lia. destruct (Nat.leb_spec q (d_ord g)); [lia|].
        destruct (Nat.eqb_spec q 0); [lia|]. reflexivity.
      - unfold forward_r. destruct (q =? 0); auto. destruct (negb _); auto.
        destruct (Nat.leb_spec q (d_ord g)); [lia|]. reflexivity.
      - unfold reverse. destruct (negb _); auto. destruct (negb _); auto.
        destruct (Nat.leb_spec q (d_ord g)); [lia|]. reflexivity.
    Qed.

    (** Reverse is accepted exactly when its arguments have the right sizes and the
        orders are available *)
    Theorem reverse_accepted_iff : forall q w,
      (exists l, decode (r_op (g_rec f)) (r_arg (g_rec f)) 0 = Some l) ->
      let s := fold_left book h (0, 0) in
      (exists z g', reverse bnat junk g q w = Some (z, g')) <->
      (length w = length (d_dep g) \/ length w = length (d_dep g) * q) /\ 0 < q <= fst s /\
      (snd s = 1 \/ q = 1 /\ 1 < snd s).
    Proof.
      intros q w (l & D). cbn zeta. rewrite <- size_order_history. cbn [fst snd].
      destruct (drun_book h (drv_of junk f) g (Nat.le_refl 0) RUN) as (I & _ & RE). cbn in RE.
      unfold reverse. rewrite RE.
      destruct (Nat.eqb_spec (length w) (length (d_dep g))) as [E1|E1], (Nat.eqb_spec (length w) (length (d_dep g) * q)) as [E2|E2];
        cbn [orb negb].
      4: { split; [intros (z & g' & K); discriminate|intros ([K|K] & _); contradiction]. }
      all: destruct (Nat.ltb_spec 0 q); cbn [negb]; [|split; [intros (z & g' & K); discriminate|intros (_ & K & _); lia]].
      all: destruct (Nat.leb_spec q (d_ord g)); cbn [negb]; [|split; [intros (z & g' & K); discriminate|intros (_ & K & _); lia]].
      all: destruct (Nat.eqb_spec q 1) as [Q1|Q1], (Nat.ltb_spec 1 (d_dir g)) as [Q2|Q2]; cbn [andb].
      all: try (destruct (Nat.eqb_spec (d_dir g) 1) as [Q3|Q3]; cbn [negb];
                [rewrite D; split; [intros _; split; [tauto|]; split; [lia|]; lia|intros _; eexists; eexists; reflexivity]
                |split; [intros (z & g' & K); discriminate|intros (_ & _ & K); lia]]).
      all: unfold capacity2; cbn [set_ord set_tay d_cap d_dir d_ord]; unfold book_inv in I;
           destruct (Nat.eqb_spec 1 (d_dir g)); [lia|]; rewrite andb_false_r;
           destruct (Nat.eqb_spec (d_cap g) 0); [lia|]; cbn [orb Nat.leb negb];
           destruct (_ <? _); cbn [d_dir set_tay Nat.eqb negb]; rewrite D;
           (split; [intros _; split; [tauto|]; split; [lia|]; lia|intros _; eexists; eexists; reflexivity]).
    Qed.

    (** changing the capacity keeps the coefficients of the retained orders *)
    Theorem capacity_keeps_coefficients : forall c g', capacity_order junk g c = Some g' ->
      d_ord g' = Nat.min (fst (fold_left book h (0, 0))) c /\
      (forall i k ell, i < r_nvar (g_rec f) -> k < d_ord g' -> (k = 0 -> ell = 0) -> (0 < k -> ell < d_dir g) ->
         viewD g' i k ell = viewD g i k ell).
    Proof.
      intros c g' H. destruct (drun_book h (drv_of junk f) g (Nat.le_refl 0) RUN) as (I & _ & RE). cbn in RE.
      rewrite <- size_order_history. cbn [fst]. unfold capacity_order in H.
      destruct ((c =? 0) || (c =? 1));
        destruct (capacity2_spec junk g g' _ _ H I ltac:(unfold book_inv in I; lia)) as (C1 & C2 & C3 & C4 & _);
        rewrite RE in C4; split; auto; intros i k ell A1 A2 A3 A4; unfold viewD; rewrite C1, C2; apply C4; auto.
    Qed.
  End Book.
End Drv.

(* ------------------------------------------------------------------------ *)
(** ** a concrete case: the recording of Tape_Prop, integers as Base *)
Lemma taylor_laws_Z : taylor_laws Zbase.
Proof.
  constructor; intros x.
  - reflexivity.
  - cbn. destruct x; cbn; auto.
Qed.
Definition zjunk : nat -> Z := fun _ => (-77)%Z.
Definition ex_drv (h : list (dcall Z)) : option (adq Zbase) :=
  match @record_fun Zbase 7 true 2 1 ex_e ex_ev ex_p (fun _ => (-5)%Z) (fun _ => 0) with
  | Some f => @drun Zbase Z.of_nat zjunk (@drv_of Zbase zjunk f) h
  | None => None
  end.
Definition ex_hist : list (dcall Z) :=
  [CFor 0 [2; 1]; CFor 1 [3; 5]; CCap 4; CFor 2 [1; 1]; CRev 2 [1; 0; 0; 0; 0]; CCap 2]%Z.
Example ex_hist_runs :
  match ex_drv ex_hist with
  | Some g => (d_ord g, d_dir g, option_map fst (@forward Zbase Z.of_nat zjunk g 2 [4; 7]%Z))
  | None => (0, 0, None)
  end = (2, 1, Some [0; 62; 0; 112; 0]%Z).
Proof. vm_compute. reflexivity. Qed.
Example ex_hist_one_shot :
  match ex_drv [CFor 2 [2; 3; 4; 1; 5; 7]]%Z with Some g => d_ord g | None => 0 end = 3.
Proof. vm_compute. reflexivity. Qed.

(** compare_change_number(): after Forward(0, x) it is the number of comparisons
    whose result differs from the recording (Tape_Prop.compare_change_zero_iff and
    forward_zero_follows_recorded_path).  It is not a function of the order zero
    coefficients: forward_any.hpp:189-207, 298-338 counts again in a sweep for higher orders
    and the counter is cleared only when order zero is computed. *)
Theorem compare_change_number_counted_twice_refuted :
  exists g1 g2, ex_drv [CDyn [(-3)]%Z; CFor 0 [2; 0]%Z] = Some g1 /\
    ex_drv [CDyn [(-3)]%Z; CFor 0 [2; 0]%Z; CFor 1 [1; 1]%Z] = Some g2 /\
    d_num g1 = 1 /\ d_num g2 = 2.
Proof.
  destruct (ex_drv [CDyn [(-3)]%Z; CFor 0 [2; 0]%Z]) as [g1|] eqn:E1; [|vm_compute in E1; discriminate].
  destruct (ex_drv [CDyn [(-3)]%Z; CFor 0 [2; 0]%Z; CFor 1 [1; 1]%Z]) as [g2|] eqn:E2; [|vm_compute in E2; discriminate].
  exists g1, g2. split; auto. split; auto. split.
  - transitivity (match ex_drv [CDyn [(-3)]%Z; CFor 0 [2; 0]%Z] with Some g => d_num g | None => 0 end); [now rewrite E1|].
    vm_compute. reflexivity.
  - transitivity (match ex_drv [CDyn [(-3)]%Z; CFor 0 [2; 0]%Z; CFor 1 [1; 1]%Z] with Some g => d_num g | None => 0 end); [now rewrite E2|].
    vm_compute. reflexivity.
Qed.

(** capacity_order(1) after a multiple direction forward: documented as a way to keep
    only the zero order coefficients, but it fails an assertion
    (capacity_order.hpp:167) in a debug build *)
Theorem capacity_order_one_after_directions_refuted :
  exists g, ex_drv [CFor 0 [2; 1]%Z; CForR 1 2 [1; 0; 0; 1]%Z] = Some g /\
    (d_ord g, d_dir g) = (2, 2) /\ @capacity_order Zbase zjunk g 1 = None.
Proof.
  destruct (ex_drv [CFor 0 [2; 1]%Z; CForR 1 2 [1; 0; 0; 1]%Z]) as [g|] eqn:E; [|vm_compute in E; discriminate].
  exists g. split; auto.
  assert ((d_ord g, d_dir g) = (2, 2)) as K.
  { transitivity (match ex_drv [CFor 0 [2; 1]%Z; CForR 1 2 [1; 0; 0; 1]%Z] with Some g => (d_ord g, d_dir g) | None => (0, 0) end); [now rewrite E|].
    vm_compute. reflexivity. }
  split; auto. injection K as K1 K2. unfold capacity_order, capacity2. cbn [Nat.eqb orb].
  rewrite K2, K1. cbn. destruct (d_cap g) as [|[|c]]; reflexivity.
Qed.

Print Assumptions forward_history_independent.
Print Assumptions forward_order_dependence.
Print Assumptions reverse_history_independent.
Print Assumptions size_order_history.
Print Assumptions too_many_orders_rejected.
Print Assumptions reverse_accepted_iff.
Print Assumptions capacity_keeps_coefficients.
Print Assumptions compare_change_number_counted_twice_refuted.
