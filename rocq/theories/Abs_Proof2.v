(** C41: the copy of the operators. *)
From Coq Require Import ZArith List Bool Arith Lia.
From Verif Require Import Base_Spec Op_Model Tape_Spec Tape_Model Tape_Proof Tape_Proof2 Tape_Proof10 Tape_Hist Tape_Swf Tape_Gen Sweep_Tape Sweep_Uniq Abs_Model Abs_Proof.
Import ListNotations.

Section Abs.
  Context {b : base}.
  Notation T := (bt b).
  Implicit Types r : rec b.

  (** arguments are results of earlier operators *)
  Fixpoint below (nv : nat) (l : list ins) : Prop :=
    match l with [] => True | i :: l' => Forall (fun v => v < nv) (var_args (i_op i) (i_arg i)) /\ below (nv + num_res (i_op i)) l' end.
  Lemma abs_list_ge l : forall nv x w, numd nv l -> In (x, w) (abs_list l) -> nv <= w.
  Proof.
    induction l as [|i l IH]; intros nv x w N H; cbn in *; [easy|]. destruct N as [N1 N2].
    assert (In (x, w) (abs_list l) -> nv <= w) as K by (intros K; apply (IH _ _ _ N2) in K; lia).
    destruct (i_op i); auto. destruct H as [H|H]; auto. injection H as _ <-. cbn in N1. lia.
  Qed.
  Lemma abs_list_app l l' : abs_list (l ++ l') = abs_list l ++ abs_list l'.
  Proof. induction l as [|i l IH]; cbn [app abs_list]; auto. rewrite IH. destruct (i_op i); auto. Qed.
  Lemma abs_list_cons i l : abs_list (i :: l) = (if opvar_eq_abs (i_op i) then [(nth 0 (i_arg i) 0, i_var i)] else []) ++ abs_list l.
  Proof. cbn [abs_list]. destruct (opvar_eq_abs (i_op i)) as [->|H]; auto. destruct (i_op i); auto. now destruct H. Qed.

  (** z_k is the value of the argument of absolute value number k *)
  Lemma zsweep_args (P : nat -> T) l : forall nv u V, numd nv l -> below nv l -> snd (zsweep P l u V) = map (fst (zsweep P l u V)) (map fst (abs_list l)).
  Proof.
    induction l as [|i l IH]; intros nv u V N W; auto. destruct N as [N1 N2], W as [W1 W2]. rewrite abs_list_cons.
    destruct (opvar_eq_abs (i_op i)) as [E|E].
    - cbn [zsweep]. rewrite E in *. specialize (IH _ (tl u) (fset V (i_var i) (hd b0 u)) N2 W2).
      pose proof (zsweep_lt P l _ (tl u) (fset V (i_var i) (hd b0 u)) (nth 0 (i_arg i) 0) N2) as K.
      destruct (zsweep P l (tl u) _) as [V' z]. cbn [fst snd app map] in *. rewrite IH. f_equal. inversion W1 as [|? ? W3 _]; subst. cbn in N1.
      rewrite K by lia. symmetry. apply fset_ne. lia.
    - rewrite zsweep_other by auto. cbn [app]. eapply IH; eauto.
  Qed.
  (** the results of the absolute values of the original sweep *)
  Lemma zsweep_abs (P : nat -> T) l : forall nv V, numd nv l -> below nv l ->
    let u := map (vsweep P l V) (map snd (abs_list l)) in
    u = map (b_un Ufabs) (snd (zsweep P l u V)) /\ forall v, fst (zsweep P l u V) v = vsweep P l V v.
  Proof.
    induction l as [|i l IH]; intros nv V N W; cbv zeta; [split; auto|]. destruct N as [N1 N2], W as [W1 W2]. rewrite abs_list_cons.
    specialize (IH _ (vstep P i V) N2 W2). cbv zeta in IH. change (vsweep P (i :: l) V) with (vsweep P l (vstep P i V)).
    destruct (opvar_eq_abs (i_op i)) as [E|E].
    - cbn [zsweep app map]. rewrite E in *. cbn [num_res] in *. set (u := map (vsweep P l (vstep P i V)) (map snd (abs_list l))) in *.
      cbn [snd tl hd].
      assert (vstep P i V (i_var i) = b_un Ufabs (V (nth 0 (i_arg i) 0))) as A.
      { unfold vstep. rewrite E. cbn [sem0 length put_res]. replace (i_var i + 1 - 1) with (i_var i) by lia. apply fset_eq. }
      assert (vsweep P l (vstep P i V) (i_var i) = b_un Ufabs (V (nth 0 (i_arg i) 0))) as A2 by (rewrite (vsweep_lt P l _ _ _ N2) by lia; exact A).
      assert (fset V (i_var i) (vsweep P l (vstep P i V) (i_var i)) = vstep P i V) as A3.
      { rewrite A2. unfold vstep. rewrite E. cbn [sem0 length put_res]. now replace (i_var i + 1 - 1) with (i_var i) by lia. }
      rewrite A3. destruct (zsweep P l u (vstep P i V)) as [V' z]. cbn [fst snd map] in *. destruct IH as [I1 I2]. split; auto. rewrite <- I1, A2. reflexivity.
    - rewrite zsweep_other by auto. exact IH.
  Qed.
  (** z_k depends only on u_0, ..., u_{k-1} *)
  Lemma zsweep_tri (P : nat -> T) l : forall k u u' V, firstn k u = firstn k u' -> length u = length u' -> firstn (S k) (snd (zsweep P l u V)) = firstn (S k) (snd (zsweep P l u' V)).
  Proof.
    induction l as [|i l IH]; intros k u u' V H L; auto. destruct (opvar_eq_abs (i_op i)) as [E|E].
    - cbn [zsweep]. rewrite E. destruct k as [|k].
      + destruct (zsweep P l (tl u) _), (zsweep P l (tl u') _). reflexivity.
      + assert (hd b0 u = hd b0 u' /\ firstn k (tl u) = firstn k (tl u') /\ length (tl u) = length (tl u')) as (A & B & C).
        { destruct u, u'; try discriminate L; cbn in *; auto. injection H as -> ->. auto. }
        rewrite A. specialize (IH k (tl u) (tl u') (fset V (i_var i) (hd b0 u')) B C).
        destruct (zsweep P l (tl u) _), (zsweep P l (tl u') _). cbn [snd] in *. cbn [firstn] in *. now f_equal.
    - rewrite !zsweep_other by auto. now apply IH.
  Qed.

  (** *** one operator *)
  Lemma new_args_ok m o a : copied o = true -> o <> AbsOp -> o <> EndOp -> exists a', new_args m o a = Some a' /\ n_actual o a' = length a'.
  Proof. intros C A E. destruct o; try discriminate C; try (now destruct A); try (now destruct E); cbn; eauto. Qed.
  Lemma new_args_sem m o a a' (P P' : nat -> T) (V Vg : nat -> T) : copied o = true -> new_args m o a = Some a' ->
    (forall i, P' i = P i) -> (forall v, In v (var_args o a) -> Vg (m v) = V v) -> sem0 o a' P' Vg = sem0 o a P V.
  Proof.
    intros C E HP H. destruct o; try discriminate C; cbn [new_args] in E; try discriminate E; injection E as <-; cbn [var_args] in H; cbn [sem0 nth];
      rewrite ?HP; rewrite ?(H (nth 0 a 0)) by (cbn; auto); rewrite ?(H (nth 1 a 0)) by (cbn; auto); try reflexivity.
    assert (forall bit j, In (bit, j) [(0, 2); (1, 3); (2, 4); (3, 5)] ->
      vp (nth 1 a 0) bit P' Vg (if Nat.testbit (nth 1 a 0) bit then m (nth j a 0) else nth j a 0) = vp (nth 1 a 0) bit P V (nth j a 0)) as K.
    { intros bit j Hin. unfold vp. destruct (Nat.testbit (nth 1 a 0) bit) eqn:E; auto. apply H.
      rewrite !in_app_iff. cbn in Hin.
      repeat match goal with H : _ \/ _ |- _ => destruct H as [H|H] end; try contradiction;
        injection Hin as <- <-; rewrite E; cbn; auto. }
    pose proof (K 0 2) as K0; pose proof (K 1 3) as K1; pose proof (K 2 4) as K2; pose proof (K 3 5) as K3. cbn [Nat.testbit] in K0, K1, K2, K3.
    rewrite K0, K1, K2, K3 by (cbn; auto). reflexivity.
  Qed.
  Lemma asserted_incl o a : copied o = true -> incl (asserted o a) (var_args o a).
  Proof. intros C. destruct o; try discriminate C; cbn [asserted var_args]; try apply incl_refl; intros v []. Qed.
  Lemma copied_res o : copied o = true -> o <> EndOp -> (num_res o = 0 <-> is_cmp_or_store o = true).
  Proof. intros C E. destruct o; try discriminate C; try (now destruct E); cbn; split; intros; auto; discriminate. Qed.
  Lemma put_res_last (l : list T) (V : nat -> T) k : k < length l -> forall first, put_res V first l (first + k) = nth k l b0.
  Proof. intros. now apply put_res_at. Qed.

  (** r' is r with the operators lg added *)
  Record adds r (lg : list ins) r' : Prop := {
    ad_op : r_op r' = r_op r ++ map i_op lg; ad_arg : r_arg r' = r_arg r ++ concat (map i_arg lg); ad_nv : r_nvar r' = r_nvar r + tres lg;
    ad_num : numd (r_nvar r) lg; ad_act : Forall (fun i => n_actual (i_op i) (i_arg i) = length (i_arg i) /\ copied (i_op i) = true /\ i_op i <> AbsOp) lg;
    ad_ld : r_nload r' = r_nload r; ad_par : r_par r' = r_par r; ad_isd : r_isdyn r' = r_isdyn r; ad_dop : r_dop r' = r_dop r; ad_darg : r_darg r' = r_darg r }.
  Lemma adds_refl r : adds r [] r.
  Proof. constructor; cbn; auto; rewrite ?app_nil_r; auto. Qed.
  Lemma adds_cons r o a lg r' : n_actual o a = length a -> copied o = true -> o <> AbsOp -> adds (fst (put_op (put_arg r a) o)) lg r' ->
    adds r (mkIns o a (r_nvar r + num_res o - 1) :: lg) r'.
  Proof.
    intros A C NA [H1 H2 H3 H4 H5 H6 H7 H8 H9 H10]. cbn [put_op put_arg fst r_op r_arg r_nvar r_nload r_par r_isdyn r_dop r_darg] in *.
    constructor; cbn [map concat tres numd i_op i_arg i_var]; auto; try (rewrite ?H1, ?H2, <- app_assoc; reflexivity). lia.
  Qed.
  Lemma copy_body_other NV i l abs r m a' : copied (i_op i) = true -> i_op i <> AbsOp -> i_op i <> EndOp -> new_args m (i_op i) (i_arg i) = Some a' ->
    forallb (fun v => m v <? NV) (asserted (i_op i) (i_arg i)) = true ->
    copy_body NV (i :: l) abs r m = copy_body NV l abs (fst (put_op (put_arg r a') (i_op i)))
      (if is_cmp_or_store (i_op i) then m else fset m (i_var i) (r_nvar r + num_res (i_op i) - 1)).
  Proof.
    destruct i as [o a iv]. cbn [i_op i_arg i_var]. intros C A E N F.
    cbn [copy_body i_op]. assert (is_end o = false) as -> by (destruct o; auto; now destruct E).
    assert (copy_op NV (mkIns o a iv) abs r m = Some (abs, fst (put_op (put_arg r a') o), if is_cmp_or_store o then m else fset m iv (r_nvar r + num_res o - 1))) as ->; auto.
    unfold copy_op; cbn [i_op i_arg i_var]. rewrite N, F. destruct o; try discriminate C; try (now destruct A); try (now destruct E); reflexivity.
  Qed.
  Lemma copy_body_abs NV i l x v abs r m : i_op i = AbsOp ->
    copy_body NV (i :: l) ((x, v) :: abs) r m = if (x =? nth 0 (i_arg i) 0) && (v =? i_var i) && (0 <? m (i_var i)) then copy_body NV l abs r m else None.
  Proof. destruct i as [o a w]. cbn [i_op]. intros ->. cbn [copy_body i_op is_end]. unfold copy_op. cbn [i_op i_arg i_var]. now destruct (_ && _ && _). Qed.
  Lemma sem_some o a (P V : nat -> T) : copied o = true -> o <> EndOp -> num_res o <> 0 -> exists res, sem0 o a P V = Some res.
  Proof. intros C E N. destruct o; try discriminate C; try (now destruct E); try (now destruct N); cbn; eauto. Qed.
  Lemma abs_le_tres l : length (abs_list l) <= tres l.
  Proof.
    induction l as [|i l IH]; auto. rewrite abs_list_cons, app_length. cbn [tres]. destruct (opvar_eq_abs (i_op i)) as [->|]; cbn; lia.
  Qed.

  Lemma copy_body_sim (P P' : nat -> T) NV e : (forall i, P' i = P i) -> forall l r m u V Vg seen nvf nl,
    Forall (fun i => copied (i_op i) = true /\ i_op i <> EndOp) l -> sok seen nl l -> numd nvf l -> (forall v, In v seen -> v < nvf) ->
    (forall v, In v seen -> m v < r_nvar r /\ Vg (m v) = V v) ->
    (forall k x w, nth_error (abs_list l) k = Some (x, w) -> 0 < m w < r_nvar r /\ Vg (m w) = nth k u b0) ->
    r_nvar r + tres l = NV + length (abs_list l) ->
    exists r' m' lg, copy_body NV (l ++ [mkIns EndOp [] e]) (abs_list l) r m = Some (fst (put_op r' EndOp), m') /\ adds r lg r' /\
      length lg + length (abs_list l) = length l /\ tres lg + length (abs_list l) = tres l /\
      (forall v, v < nvf -> m' v = m v) /\ (forall x w, In (x, w) (abs_list l) -> m' w = m w) /\
      forall v, In v (seenof seen l) -> m' v < r_nvar r' /\ vsweep P' lg Vg (m' v) = fst (zsweep P l u V) v.
  Proof.
    intros HP. induction l as [|i l IH]; intros r m u V Vg seen nvf nl F S N SB R AB TN.
    - exists r, m, []. split; [reflexivity|]. split; [apply adds_refl|]. split; [reflexivity|]. split; [reflexivity|]. split; auto.
    - inversion F as [|? ? [F1 F1'] F2]; subst. destruct S as (S1 & S2 & S3 & S4), N as [N1 N2].
      pose proof (abs_le_tres l) as AT. rewrite Forall_forall in S2.
      destruct (opvar_eq_abs (i_op i)) as [E|E].
      + assert (abs_list (i :: l) = (nth 0 (i_arg i) 0, i_var i) :: abs_list l) as AL by (cbn [abs_list]; now rewrite E).
        rewrite AL in *. cbn [app tres length] in *. rewrite (copy_body_abs _ _ _ _ _ _ _ _ E). rewrite E in *. cbn [num_res is_load] in *.
        destruct (AB 0 _ _ eq_refl) as [B1 B2]. rewrite !Nat.eqb_refl. destruct (Nat.ltb_spec 0 (m (i_var i))); [|lia]. cbn [andb].
        destruct (IH r m (tl u) (fset V (i_var i) (hd b0 u)) Vg (i_var i :: seen) (nvf + 1) nl) as (r' & m' & lg & I1 & I2 & I3 & I3' & I4 & I5 & I6); auto.
        { unfold seen1 in S4. rewrite E in S4. exact S4. }
        { intros v [<-|Hv]; [lia|]. apply SB in Hv. lia. }
        { intros v [<-|Hv]; [split; [lia|]; rewrite fset_eq, B2; now destruct u|]. pose proof (SB v Hv). destruct (R v Hv). split; auto. rewrite fset_ne by lia. auto. }
        { intros k x w Hk. destruct (AB (1 + k) x w Hk) as [C1 C2]. split; auto. rewrite C2. destruct u; cbn; auto. now destruct k. }
        { lia. }
        exists r', m', lg. split; auto. split; auto. split; [lia|]. split; [lia|]. split; [intros; apply I4; lia|]. split.
        { intros x w [Hw|Hw]; [injection Hw as _ <-; apply I4; lia|eauto]. }
        intros v Hv. unfold seenof in Hv. cbn [fold_left] in Hv. unfold seen1 in Hv at 2. rewrite E in Hv. apply I6 in Hv. cbn [zsweep]. rewrite E.
        destruct (zsweep P l (tl u) _). exact Hv.
      + assert (abs_list (i :: l) = abs_list l) as AL by (rewrite abs_list_cons; now destruct (opvar_eq_abs (i_op i))).
        rewrite AL in *. cbn [app tres length] in *.
        destruct (new_args_ok m (i_op i) (i_arg i) F1 E F1') as (a' & A1 & A2).
        assert (forallb (fun v => m v <? NV) (asserted (i_op i) (i_arg i)) = true) as FA.
        { apply forallb_forall. intros v Hv. apply (asserted_incl _ _ F1) in Hv. apply S2, R in Hv. apply Nat.ltb_lt. lia. }
        rewrite (copy_body_other _ _ _ _ _ _ _ F1 E F1' A1 FA).
        set (o := i_op i) in *. set (v1 := r_nvar r + num_res o - 1). set (g := mkIns o a' v1).
        set (m1 := if is_cmp_or_store o then m else fset m (i_var i) v1).
        assert (forall v, v < nvf -> m1 v = m v) as M1.
        { intros v Hv. unfold m1. destruct (is_cmp_or_store o) eqn:IC; auto. apply fset_ne. assert (num_res o <> 0) by (intros Z; apply (copied_res _ F1 F1') in Z; congruence). lia. }
        assert (sem0 o a' P' Vg = sem0 o (i_arg i) P V) as SEM by (apply (new_args_sem m); auto; intros v Hv; now apply R, S2).
        assert (forall w, w < r_nvar r -> vstep P' g Vg w = Vg w) as VL by (intros w Hw; apply (vstep_lt P' g Vg (r_nvar r)); auto).
        assert (forall v, v < nvf -> vstep P i V v = V v) as VF by (intros v Hv; apply (vstep_lt P i V nvf); auto).
        assert (forall v, In v (seen1 seen i) -> v < nvf + num_res o) as SB'.
        { unfold seen1. fold o. destruct (Nat.ltb_spec 0 (num_res o)); [intros v [<-|Hv]; [lia|]|intros v Hv]; apply SB in Hv; lia. }
        destruct (IH (fst (put_op (put_arg r a') o)) m1 u (vstep P i V) (vstep P' g Vg) (seen1 seen i) (nvf + num_res o) (if is_load o then 1 + nl else nl))
          as (r' & m' & lg & I1 & I2 & I3 & I3' & I4 & I5 & I6); auto.
        { assert (forall v, In v seen -> m1 v < r_nvar r + num_res o /\ vstep P' g Vg (m1 v) = vstep P i V v) as RS.
          { intros v Hv. pose proof (SB v Hv). destruct (R v Hv) as [R1 R2]. rewrite M1 by auto. split; [lia|]. now rewrite VL, VF by auto. }
          cbn [put_op put_arg fst r_nvar]. unfold seen1. fold o. destruct (Nat.ltb_spec 0 (num_res o)) as [HN|HN]; auto. intros v [<-|Hv]; auto.
          assert (m1 (i_var i) = v1) as MI.
          { unfold m1. destruct (is_cmp_or_store o) eqn:IC; [apply (copied_res _ F1 F1') in IC; lia|apply fset_eq]. }
          rewrite MI. split; [unfold v1; lia|]. destruct (sem_some o (i_arg i) P V F1 F1') as (res & SR); [lia|]. pose proof (sem0_length P o _ _ _ SR) as LR.
          unfold vstep. fold o. rewrite SR. cbn [g i_op i_arg i_var]. rewrite SEM, SR.
          transitivity (nth (length res - 1) res b0).
          - replace v1 with ((v1 + 1 - length res) + (length res - 1)) at 2 by (unfold v1; lia). apply put_res_at. lia.
          - symmetry. replace (i_var i) with ((i_var i + 1 - length res) + (length res - 1)) at 2 by lia. apply put_res_at. lia. }
        { intros k x w Hk. destruct (AB k x w Hk) as [B1 B2]. apply nth_error_In in Hk. apply (abs_list_ge _ _ _ _ N2) in Hk.
          assert (m1 w = m w) as -> by (unfold m1; destruct (is_cmp_or_store o) eqn:IC; auto; apply fset_ne; assert (num_res o <> 0) by (intros Z; apply (copied_res _ F1 F1') in Z; congruence); lia).
          cbn [put_op put_arg fst r_nvar]. split; [lia|]. rewrite VL by lia. auto. }
        { cbn [put_op put_arg fst r_nvar]. lia. }
        exists r', m', (g :: lg). split; [exact I1|]. split; [now apply adds_cons|]. split; [cbn [length]; lia|]. split; [cbn [tres]; change (i_op g) with o; lia|].
        split; [intros v Hv; rewrite I4 by lia; auto|]. split.
        { intros x w Hw. rewrite (I5 _ _ Hw). unfold m1. destruct (is_cmp_or_store o) eqn:IC; auto. apply fset_ne. apply (abs_list_ge _ _ _ _ N2) in Hw.
          assert (num_res o <> 0) by (intros Z; apply (copied_res _ F1 F1') in Z; congruence). lia. }
        intros v Hv. rewrite zsweep_other by auto. apply I6. exact Hv.
  Qed.

  (** *** the head *)
  Lemma copy_head_inv m rest : forall k r f2g, match rest with i :: _ => i_op i <> BeginOp /\ i_op i <> InvOp | [] => True end -> r_nvar r = S k ->
    exists r' f2g', copy_head (map (fun j => mkIns InvOp [] (S j)) (seq k m) ++ rest) r f2g = (rest, r', f2g') /\
      r' = mkRec (r_cmp r) (r_nvar r + m) (r_nload r) (r_op r ++ repeat InvOp m) (r_arg r) (r_vec r) (r_hash r) (r_par r) (r_isdyn r) (r_dop r) (r_darg r) /\
      (forall v, k < v <= k + m -> f2g' v = v) /\ forall v, v <= k -> f2g' v = f2g v.
  Proof.
    induction m as [|m IH]; intros k r f2g HR NV; cbn [seq map app copy_head].
    - exists r, f2g. split; [destruct rest as [|i rest]; auto; cbn [copy_head]; destruct HR; destruct (i_op i); auto; congruence|].
      split; [rewrite Nat.add_0_r; cbn; rewrite app_nil_r; now destruct r|]. split; auto. lia.
    - cbn [i_op put_op]. destruct (IH (S k) (fst (put_op r InvOp)) (fset f2g (S k) (r_nvar r + 1 - 1))) as (r' & f2g' & I1 & I2 & I3 & I4); auto.
      { cbn. lia. }
      exists r', f2g'. split; [exact I1|]. split.
      { rewrite I2. cbn [put_op fst r_cmp r_nvar r_nload r_op r_arg r_vec r_hash r_par r_isdyn r_dop r_darg num_res repeat]. rewrite <- app_assoc. f_equal. lia. }
      split; intros v Hv.
      + destruct (Nat.eq_dec v (S k)) as [->|]; [|apply I3; lia]. rewrite I4 by lia. rewrite fset_eq. lia.
      + rewrite I4 by lia. apply fset_ne. lia.
  Qed.
  Lemma copy_abs_ok res : forall r f2g, NoDup res ->
    exists r' f2g', copy_abs res r f2g = (r', f2g') /\
      r' = mkRec (r_cmp r) (r_nvar r + length res) (r_nload r) (r_op r ++ repeat InvOp (length res)) (r_arg r) (r_vec r) (r_hash r) (r_par r) (r_isdyn r) (r_dop r) (r_darg r) /\
      (forall k w, nth_error res k = Some w -> f2g' w = r_nvar r + k) /\ forall v, ~ In v res -> f2g' v = f2g v.
  Proof.
    induction res as [|w res IH]; intros r f2g ND; cbn [copy_abs].
    - exists r, f2g. split; auto. split; [cbn; rewrite Nat.add_0_r, app_nil_r; now destruct r|]. split; auto. intros [|k] w; discriminate.
    - inversion ND as [|? ? ND1 ND2]; subst. cbn [put_op]. destruct (IH (fst (put_op r InvOp)) (fset f2g w (r_nvar r + num_res InvOp - 1)) ND2) as (r' & f2g' & I1 & I2 & I3 & I4).
      exists r', f2g'. split; [exact I1|]. split.
      { rewrite I2. cbn [put_op fst r_cmp r_nvar r_nload r_op r_arg r_vec r_hash r_par r_isdyn r_dop r_darg num_res length repeat]. rewrite <- app_assoc. f_equal. lia. }
      split.
      + intros [|k] w' Hk; cbn in Hk; [injection Hk as <-; rewrite I4, fset_eq by auto; cbn; lia|]. rewrite (I3 _ _ Hk). cbn. lia.
      + intros v Hv. cbn in Hv. rewrite I4 by tauto. apply fset_ne. intuition.
  Qed.
  Lemma abs_nodup l : forall nv, numd nv l -> NoDup (map snd (abs_list l)).
  Proof.
    induction l as [|i l IH]; intros nv N; [constructor|]. destruct N as [N1 N2]. rewrite abs_list_cons. destruct (opvar_eq_abs (i_op i)) as [E|E]; cbn [app map]; [|eauto].
    rewrite E in *. constructor; [|eauto]. intros H. apply in_map_iff in H as ([x w] & Hw & H). apply (abs_list_ge _ _ _ _ N2) in H. cbn in *. lia.
  Qed.
End Abs.
