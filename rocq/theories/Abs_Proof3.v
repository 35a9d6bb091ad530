(** C41: the functions g and a. *)
From Coq Require Import ZArith List Bool Arith Lia.
From Verif Require Import Base_Spec Op_Model Tape_Spec Tape_Model Tape_Proof Tape_Proof2 Tape_Proof10 Tape_Hist Tape_Swf Tape_Gen Sweep_Tape Sweep_Uniq Abs_Model Abs_Proof Abs_Proof2.
Import ListNotations.

Lemma dec_ops ops : forall args nv l, decode ops args nv = Some l -> map i_op l = ops.
Proof.
  induction ops as [|o ops IH]; intros args nv l D; cbn [decode] in D.
  - destruct args; [|discriminate]. now injection D as <-.
  - destruct (length args <? n_actual o args); [discriminate|]. destruct (decode ops _ _) as [l2|] eqn:D'; [|discriminate]. injection D as <-. cbn [map i_op]. f_equal. eauto.
Qed.
Lemma decode_adds lg : forall ops args l0, decode ops args 0 = Some l0 -> numd (nres ops) lg -> Forall (fun i => n_actual (i_op i) (i_arg i) = length (i_arg i)) lg ->
  decode (ops ++ map i_op lg) (args ++ concat (map i_arg lg)) 0 = Some (l0 ++ lg).
Proof.
  induction lg as [|i lg IH]; intros ops args l0 D N F; cbn [map concat]; [now rewrite !app_nil_r|].
  destruct N as [N1 N2]. inversion F as [|? ? F1 F2]; subst.
  pose proof (decode_app _ _ _ _ _ _ D F1) as D1. rewrite Nat.add_0_l, <- N1 in D1.
  specialize (IH _ _ _ D1). rewrite <- !app_assoc in IH. cbn [app] in IH. destruct i as [o a v]. cbn [i_op i_arg i_var] in *. apply IH; auto.
  rewrite nres_app. unfold nres at 2. cbn. now rewrite Nat.add_0_r.
Qed.
Lemma seenof_lt l : forall seen nv, numd nv l -> (forall v, In v seen -> v < nv) -> forall v, In v (seenof seen l) -> v < nv + tres l.
Proof.
  induction l as [|i l IH]; intros seen nv N H v Hv; cbn [tres]; [rewrite Nat.add_0_r; auto|]. destruct N as [N1 N2].
  rewrite Nat.add_assoc. apply (IH (seen1 seen i)); auto. unfold seen1. destruct (Nat.ltb_spec 0 (num_res (i_op i))); intros w Hw; [destruct Hw as [<-|Hw]; [lia|]|]; apply H in Hw; lia.
Qed.
Lemma abs_seen l : forall seen nl x w, sok seen nl l -> In (x, w) (abs_list l) -> In x (seenof seen l) /\ In w (seenof seen l).
Proof.
  induction l as [|i l IH]; intros seen nl x w S H; [easy|]. destruct S as (S1 & S2 & _ & S4). rewrite abs_list_cons in H. apply in_app_or in H as [H|H]; [|eapply IH; eauto].
  destruct (opvar_eq_abs (i_op i)) as [E|E]; [|easy]. destruct H as [H|[]]. injection H as <- <-.
  change (seenof seen (i :: l)) with (seenof (seen1 seen i) l). unfold seen1. rewrite E. cbn [num_res Nat.ltb Nat.leb]. rewrite E in S2. inversion S2; subst.
  split; apply seenof_incl; cbn; auto.
Qed.
Lemma head_abs n : abs_list (head_ins n) = [].
Proof. unfold head_ins. cbn [abs_list i_op]. generalize 0. induction n as [|n IH]; intros k; cbn; auto. Qed.
Lemma tres_head n : tres (head_ins n) = S n.
Proof. unfold head_ins. cbn [tres i_op num_res]. now rewrite tres_inv. Qed.
Lemma decode_head n : decode (BeginOp :: repeat InvOp n) [0] 0 = Some (head_ins n).
Proof.
  cbn [decode n_actual num_arg length Nat.ltb Nat.leb skipn firstn num_res Nat.add Nat.sub]. 
  assert (forall m nv, decode (repeat InvOp m) [] nv = Some (map (fun j => mkIns InvOp [] j) (seq nv m))) as K.
  { induction m as [|m IH]; intros nv; cbn; auto. rewrite IH. rewrite Nat.add_1_r, Nat.sub_succ, Nat.sub_0_r. reflexivity. }
  rewrite K. unfold head_ins. rewrite <- seq_shift, map_map. reflexivity.
Qed.

Section Abs.
  Context {b : base}.
  Notation T := (bt b).

  Record abs_ok (f : adfun b) (n : nat) (l0 : list ins) (e : nat) : Prop := {
    ao_dec : decode (r_op (g_rec f)) (r_arg (g_rec f)) 0 = Some (head_ins n ++ l0 ++ [mkIns EndOp [] e]);
    ao_sok : sok (seq 1 n) 0 l0;
    ao_cop : Forall (fun i => copied (i_op i) = true /\ i_op i <> EndOp) l0;
    ao_dep : Forall (fun t => In t (seenof (seq 1 n) l0)) (g_dep f);
    ao_nv : r_nvar (g_rec f) = 1 + n + tres l0; ao_nl : r_nload (g_rec f) = 0; ao_rep : replays (g_rec f); ao_n : g_n f = n; ao_par : parok (g_rec f) (g_par f) }.

  Lemma ao_numd f n l0 e : abs_ok f n l0 e -> numd (1 + n) l0.
  Proof.
    intros A. pose proof (decode_numd _ _ _ _ (ao_dec _ _ _ _ A)) as N. apply numd_app in N as [_ N]. apply numd_app in N as [N _]. now rewrite tres_head in N.
  Qed.
  Lemma vsweep_app (P : nat -> T) l l' V : vsweep P (l ++ l') V = vsweep P l' (vsweep P l V).
  Proof. apply fold_left_app. Qed.
  Lemma vsweep_head (P : nat -> T) n V : vsweep P (head_ins n) V = V.
  Proof. unfold head_ins. cbn [vsweep fold_left vstep sem0 i_op]. generalize 0. induction n as [|n IH]; intros k; cbn; auto. Qed.
  (** a zero order sweep *)
  Lemma forward0_v (f : adfun b) n l0 e x : decode (r_op (g_rec f)) (r_arg (g_rec f)) 0 = Some (head_ins n ++ l0 ++ [mkIns EndOp [] e]) -> Forall (fun i => copied (i_op i) = true) l0 ->
    exists f', forward0 f x = Some (map (vsweep (g_par f) l0 (set_ind (fun i => if i <? r_nvar (g_rec f) then bnan else g_V f i) 0 x)) (g_dep f), f').
  Proof.
    intros D F. unfold forward0. rewrite D. set (V := fun i => if i <? r_nvar (g_rec f) then bnan else g_V f i).
    destruct (sweep_v (g_par f) (g_cc f) (head_ins n ++ l0 ++ [mkIns EndOp [] e]) 0 (init0 (g_rec f) (set_ind V 0 x) (g_l2v f))) as (s' & E1 & E2).
    { auto. }
    { apply Forall_app. split; [|apply Forall_app; split].
      - unfold head_ins. constructor; [auto|]. apply Forall_forall. intros i Hi. apply in_map_iff in Hi as (j & <- & _). auto.
      - eapply Forall_impl; [|exact F]. auto.
      - repeat constructor. }
    rewrite E1. eexists. rewrite E2. cbn [init0 f_V]. rewrite !vsweep_app, vsweep_head. cbn [vsweep fold_left vstep sem0 i_op]. reflexivity.
  Qed.

  Theorem abs_struct f g0 n l0 e : abs_ok f n l0 e ->
    let s := length (abs_list l0) in
    exists g a m lg e', abs_normal_fun f g0 = Some (g, a) /\ g_n g = n + s /\ g_n a = n /\
      g_dep g = map m (g_dep f ++ map fst (abs_list l0)) /\ g_dep a = map snd (abs_list l0) /\ g_rec a = g_rec f /\ g_par a = g_par f /\ g_V a = g_V f /\
      decode (r_op (g_rec g)) (r_arg (g_rec g)) 0 = Some (head_ins (n + s) ++ lg ++ [mkIns EndOp [] e']) /\
      Forall (fun i => copied (i_op i) = true /\ i_op i <> AbsOp) lg /\
      r_isdyn (g_rec g) = r_isdyn (g_rec f) /\ r_dop (g_rec g) = r_dop (g_rec f) /\ r_darg (g_rec g) = r_darg (g_rec f) /\
      (forall i, g_par g i = g_par f i) /\
      forall (P P' : nat -> T) u V Vg, (forall i, P' i = P i) -> (forall v, 1 <= v <= n -> Vg v = V v) -> (forall k, k < s -> Vg (S n + k) = nth k u b0) ->
        forall v, In v (seenof (seq 1 n) l0) -> vsweep P' lg Vg (m v) = fst (zsweep P l0 u V) v.
  Proof.
    intros A s. pose proof (ao_numd _ _ _ _ A) as N0. destruct A as [AD AS AC ADP ANV ANL AR AN AP].
    set (rf := g_rec f) in *. set (r0 := preplay true rf (g_par f)).
    assert (copy_par (g_par f) 0 (r_isdyn rf) (r_dop rf) (r_darg rf) (rec0 true) = Some r0) as CP.
    { destruct AR as [L R]. specialize (R true (g_par f) [] [] []). rewrite !app_nil_r in R. rewrite R; [reflexivity|]. apply AP. }
    assert (abs_list (head_ins n ++ l0 ++ [mkIns EndOp [] e]) = abs_list l0) as AL by (rewrite !abs_list_app, head_abs; cbn; now rewrite app_nil_r).
    set (NV := r_nvar rf) in *.
    (* the head *)
    set (r00 := fst (put_op (put_arg r0 [0]) BeginOp)).
    destruct (copy_head_inv n (l0 ++ [mkIns EndOp [] e]) 0 r00 (fset (fun _ => NV) 0 0)) as (r1 & m1 & H1 & H2 & H3 & H4).
    { destruct l0 as [|i l0]; cbn [app]; [split; discriminate|]. inversion AC as [|? ? [C _] _]; subst. split; intros E; rewrite E in C; discriminate. }
    { reflexivity. }
    assert (copy_head (head_ins n ++ l0 ++ [mkIns EndOp [] e]) r0 (fun _ => NV) = (l0 ++ [mkIns EndOp [] e], r1, m1)) as CH by exact H1.
    assert (r_nvar r1 = S n) as N1 by (rewrite H2; reflexivity).
    assert (r_op r1 = BeginOp :: repeat InvOp n) as O1 by (rewrite H2; reflexivity).
    assert (r_arg r1 = [0]) as A1 by (rewrite H2; reflexivity).
    assert (r_nload r1 = 0 /\ r_par r1 = r_par r0 /\ r_isdyn r1 = r_isdyn rf /\ r_dop r1 = r_dop rf /\ r_darg r1 = r_darg rf) as (L1 & P1 & I1 & D1 & G1) by (rewrite H2; repeat split; reflexivity).
    clear H1 H2.
    pose proof (abs_nodup l0 _ N0) as ND.
    destruct (copy_abs_ok (map snd (abs_list l0)) r1 m1 ND) as (r2 & m2 & J1 & J2 & J3 & J4). rewrite map_length in J2. fold s in J2.
    assert (r_nvar r2 = S n + s) as N2 by (rewrite J2; cbn; now rewrite N1).
    assert (r_op r2 = BeginOp :: repeat InvOp (n + s)) as O2 by (rewrite J2; cbn; rewrite O1, repeat_app; reflexivity).
    assert (r_arg r2 = [0]) as A2 by (rewrite J2; cbn; exact A1).
    assert (r_nload r2 = 0 /\ r_par r2 = r_par r0 /\ r_isdyn r2 = r_isdyn rf /\ r_dop r2 = r_dop rf /\ r_darg r2 = r_darg rf) as (L2 & P2 & I2 & D2 & G2) by (rewrite J2; cbn; auto).
    clear J2.
    assert (forall v, 1 <= v <= n -> m2 v = v) as M2.
    { intros v Hv. rewrite J4; [apply H3; lia|]. intros Hin. apply in_map_iff in Hin as ([x w] & <- & Hin). apply (abs_list_ge _ _ _ _ N0) in Hin. cbn in Hv. lia. }
    assert (forall k x w, nth_error (abs_list l0) k = Some (x, w) -> m2 w = S n + k) as M3.
    { intros k x w Hk. rewrite <- N1. apply J3. rewrite nth_error_map, Hk. reflexivity. }
    assert (forall (P P' : nat -> T) u V Vg, (forall i, P' i = P i) -> (forall v, 1 <= v <= n -> Vg v = V v) -> (forall k, k < s -> Vg (S n + k) = nth k u b0) ->
      exists r' m' lg, copy_body NV (l0 ++ [mkIns EndOp [] e]) (abs_list l0) r2 m2 = Some (fst (put_op r' EndOp), m') /\ adds r2 lg r' /\
      length lg + length (abs_list l0) = length l0 /\ tres lg + length (abs_list l0) = tres l0 /\
      (forall v, v < S n -> m' v = m2 v) /\ (forall x w, In (x, w) (abs_list l0) -> m' w = m2 w) /\
      forall v, In v (seenof (seq 1 n) l0) -> m' v < r_nvar r' /\ vsweep P' lg Vg (m' v) = fst (zsweep P l0 u V) v) as SIM.
    { intros P P' u V Vg HP HV HU. apply (copy_body_sim P P' NV e HP l0 r2 m2 u V Vg (seq 1 n) (S n) 0); auto.
      - intros v Hv. apply in_seq in Hv. lia.
      - intros v Hv. apply in_seq in Hv. rewrite M2 by lia. split; [lia|apply HV; lia].
      - intros k x w Hk. assert (k < s) as Ks by (apply nth_error_Some; congruence). rewrite (M3 _ _ _ Hk). split; [lia|]. auto.
      - rewrite N2, ANV. fold s. lia. }
    destruct (SIM (fun _ => b0) (fun _ => b0) [] (fun _ => b0) (fun _ => b0)) as (r' & m' & lg & S1 & S2 & S3 & S4 & S5 & S6 & S7); auto.
    { intros k _. now destruct k. }
    destruct S2 as [T1 T2 T3 T4 T5 T6 T7 T8 T9 T10].
    set (r3 := fst (put_op r' EndOp)) in *.
    assert (nres (r_op r2) = r_nvar r2) as NR by (rewrite N2, O2; change (1 + nres (repeat InvOp (n + s)) = S n + s); rewrite nres_inv; lia).
    assert (exists e', decode (r_op r3) (r_arg r3) 0 = Some (head_ins (n + s) ++ lg ++ [mkIns EndOp [] e'])) as (e' & DG).
    { assert (decode (r_op r') (r_arg r') 0 = Some (head_ins (n + s) ++ lg)) as D'.
      { rewrite T1, T2. apply decode_adds; [rewrite O2, A2; apply decode_head|now rewrite NR|]. eapply Forall_impl; [|exact T5]. intros i0 (X1 & X2 & X3); exact X1. }
      eexists. unfold r3. cbn [put_op fst r_op r_arg]. rewrite (app_assoc _ lg). rewrite <- (app_nil_r (r_arg r')) at 1. apply decode_app; auto. }
    assert (forall v, In v (seenof (seq 1 n) l0) -> m' v < NV) as MB.
    { intros v Hv. apply S7 in Hv as [Hv _]. rewrite T3, N2 in Hv. rewrite ANV. fold s in S4. lia. }
    exists (mkFun r3 (n + s) (map m' (g_dep f ++ map fst (abs_list l0))) (fun i => nth i (r_par r3) bnan) (g_V g0) (g_l2v g0) (g_cc g0) (g_num g0) (g_opi g0)),
      (mkFun rf n (map snd (abs_list l0)) (g_par f) (g_V f) (g_l2v f) (g_cc f) (g_num f) (g_opi f)), m', lg, e'.
    split.
    { unfold abs_normal_fun. fold rf. rewrite AD, AL, CP. fold NV. rewrite CH, J1, S1. rewrite AN. fold s.
      assert (length (r_op r3) = length (r_op rf)) as E1.
      { unfold r3. cbn [put_op fst r_op]. rewrite app_length, T1, app_length, map_length, O2. cbn [length]. rewrite repeat_length.
        rewrite <- (dec_ops _ _ _ _ AD), map_length, !app_length. unfold head_ins. cbn [length]. rewrite map_length, seq_length. fold s in S3. lia. }
      assert (r_nvar r3 = NV) as E2 by (unfold r3; cbn [put_op fst r_nvar num_res]; rewrite T3, N2, ANV; fold s in S4; lia).
      assert (r_nload r3 = r_nload rf) as E3 by (unfold r3; cbn [put_op fst r_nload]; rewrite T6, L2, ANL; reflexivity).
      rewrite E1, E2, E3, !Nat.eqb_refl. cbn [andb].
      assert (forallb (fun j => nth j (map m' (map S (seq 0 n) ++ map snd (abs_list l0))) 0 =? S j) (seq 0 (n + s)) = true) as ->.
      { apply forallb_forall. intros j Hj. apply in_seq in Hj. apply Nat.eqb_eq. rewrite map_app. destruct (Nat.lt_ge_cases j n) as [Hn|Hn].
        - rewrite app_nth1 by (rewrite !map_length, seq_length; auto). rewrite (nth_indep _ 0 (m' (S 0))) by (rewrite !map_length, seq_length; auto).
          rewrite map_nth, map_nth, seq_nth by auto. cbn [Nat.add]. rewrite S5 by lia. apply M2. lia.
        - rewrite app_nth2 by (rewrite !map_length, seq_length; auto). rewrite !map_length, seq_length.
          assert (j - n < length (abs_list l0)) as Hk by (fold s; lia). apply nth_error_Some in Hk. destruct (nth_error (abs_list l0) (j - n)) as [[x w]|] eqn:Ew; [|congruence].
          rewrite (nth_indep _ 0 (m' (snd (0, 0)))) by (rewrite !map_length; fold s; lia). rewrite !map_nth. rewrite (nth_error_nth _ _ _ Ew). cbn [snd].
          rewrite (S6 x w) by (eapply nth_error_In; eauto). rewrite (M3 _ _ _ Ew). lia. }
      assert (forallb (fun v => v <? NV) (map m' (g_dep f ++ map fst (abs_list l0))) = true) as ->.
      { apply forallb_forall. intros v Hv. apply Nat.ltb_lt. apply in_map_iff in Hv as (t & <- & Ht). apply MB. apply in_app_or in Ht as [Ht|Ht].
        - rewrite Forall_forall in ADP. auto.
        - apply in_map_iff in Ht as ([x w] & <- & Ht). exact (proj1 (abs_seen _ _ _ _ _ AS Ht)). }
      assert (forallb (fun v => v <? NV) (map snd (abs_list l0)) = true) as ->.
      { apply forallb_forall. intros v Hv. apply Nat.ltb_lt. apply in_map_iff in Hv as ([x w] & <- & Ht). rewrite ANV. apply (seenof_lt l0 (seq 1 n)); auto.
        - intros v Hv. apply in_seq in Hv. lia.
        - exact (proj2 (abs_seen _ _ _ _ _ AS Ht)). }
      reflexivity. }
    cbn [g_n g_dep g_rec g_par g_V]. do 7 (split; [reflexivity|]). split; [exact DG|]. split; [eapply Forall_impl; [|exact T5]; intros i0 (X1 & X2 & X3); exact (conj X2 X3)|].
    split; [unfold r3; cbn; congruence|]. split; [unfold r3; cbn; congruence|]. split; [unfold r3; cbn; congruence|]. split.
    { intros i. unfold r3. cbn [put_op fst r_par]. rewrite T7, P2. unfold r0, preplay. cbn [r_par]. destruct (Nat.lt_ge_cases i (length (r_par rf))) as [Hi|Hi].
      - rewrite (nth_indep _ bnan (g_par f 0)) by (now rewrite map_length, seq_length). rewrite map_nth, seq_nth by auto. reflexivity.
      - rewrite nth_overflow by (now rewrite map_length, seq_length). symmetry. now apply AP. }
    intros P P' u V Vg HP HV HU v Hv. destruct (SIM P P' u V Vg HP HV HU) as (r'' & m'' & lg' & U1 & U2 & _ & _ & _ & _ & U7).
    rewrite S1 in U1. pose proof (f_equal (fun o => match o with Some p => snd p | None => m' end) U1) as U0. apply (f_equal (fun o => match o with Some p => fst p | None => r3 end)) in U1.
    cbn [fst snd] in U0, U1. subst m''.
    assert (lg' = lg) as ->.
    { assert (decode (r_op r'') (r_arg r'') 0 = Some (head_ins (n + s) ++ lg')) as D'.
      { destruct U2 as [W1 W2 _ W4 W5 _ _ _ _ _]. rewrite W1, W2. apply decode_adds; [rewrite O2, A2; apply decode_head|now rewrite NR|]. eapply Forall_impl; [|exact W5]. intros i0 (X1 & X2 & X3); exact X1. }
      assert (decode (r_op r') (r_arg r') 0 = Some (head_ins (n + s) ++ lg)) as D''.
      { rewrite T1, T2. apply decode_adds; [rewrite O2, A2; apply decode_head|now rewrite NR|]. eapply Forall_impl; [|exact T5]. intros i0 (X1 & X2 & X3); exact X1. }
      assert (r_op r' = r_op r'' /\ r_arg r' = r_arg r'') as [Q1 Q2].
      { pose proof (f_equal (@r_op b) U1) as Q. pose proof (f_equal (@r_arg b) U1) as Q'. unfold r3 in *. cbn [put_op fst r_op r_arg] in Q, Q'. apply app_inj_tail in Q as [Q _]. auto. }
      rewrite <- Q1, <- Q2, D'' in D'. injection D' as D'. now apply app_inv_head in D'. }
    apply U7. exact Hv.
  Qed.
End Abs.
