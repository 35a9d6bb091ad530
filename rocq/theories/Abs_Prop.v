(** C41: abs_normal_fun represents the function.
    F is any function object obtained from a recording and any later calls; G and A are the functions returned by abs_normal_fun. *)
From Coq Require Import ZArith List Bool Arith Lia.
From Verif Require Import Base_Spec Op_Model Tape_Spec Tape_Model Tape_Proof Tape_Proof2 Tape_Proof10 Tape_Hist Tape_Swf Tape_Gen Tape_Prop Sweep_Tape Sweep_Uniq
  Abs_Model Abs_Proof Abs_Proof2 Abs_Proof3.
Import ListNotations.

(** operators abs_normal_fun can handle (see the refutations below for the others) *)
Definition supported (o : opvar) : bool :=
  match o with
  | ErfOp | ErfcOp | LdpOp | LdvOp | StppOp | StpvOp | StvpOp | StvvOp | EqppOp | LeppOp | LtppOp | NeppOp => false
  | _ => true
  end.
Definition is_abs (o : opvar) : bool := match o with AbsOp => true | _ => false end.

Section AbsProp.
  Context {b : base}.
  Notation T := (bt b).
  Implicit Types f g a : adfun b.

  (** the same dynamic parameters are given to a function, several times *)
  Definition dyns (ds : list (list T)) f : adfun b := fold_left new_dynamic ds f.

  Lemma run_inv h : forall f f', run f h = Some f' -> length (r_isdyn (g_rec f)) = length (r_par (g_rec f)) -> parok (g_rec f) (g_par f) ->
    g_rec f' = g_rec f /\ g_n f' = g_n f /\ g_dep f' = g_dep f /\ parok (g_rec f) (g_par f').
  Proof.
    induction h as [|[d|x|c] h IH]; intros f f' R L P; cbn [run] in R.
    - now injection R as <-.
    - apply IH in R; auto. cbn [new_dynamic g_rec g_par]. now apply parok_dyn.
    - destruct (forward0 f x) as [[y f1]|] eqn:E; [|discriminate]. unfold forward0 in E. destruct (decode _ _ _); [|discriminate]. destruct (sweep0 _ _ _ _ _); [|discriminate].
      injection E as _ <-. apply IH in R; auto.
    - apply IH in R; auto.
  Qed.
  Lemma dyns_inv ds : forall f, g_rec (dyns ds f) = g_rec f /\ g_n (dyns ds f) = g_n f /\ g_dep (dyns ds f) = g_dep f.
  Proof. induction ds as [|d ds IH]; intros f; cbn [dyns fold_left]; auto. apply (IH (new_dynamic f d)). Qed.
  Lemma dyns_par ds : forall f g, r_isdyn (g_rec g) = r_isdyn (g_rec f) -> r_dop (g_rec g) = r_dop (g_rec f) -> r_darg (g_rec g) = r_darg (g_rec f) ->
    (forall i, g_par g i = g_par f i) -> forall i, g_par (dyns ds g) i = g_par (dyns ds f) i.
  Proof.
    induction ds as [|d ds IH]; intros f g A B C H; cbn [dyns fold_left]; auto. apply (IH (new_dynamic f d) (new_dynamic g d)); auto.
    cbn [new_dynamic g_par]. unfold dyn_sweep. rewrite A, B, C. now apply dyn_loop_ext.
  Qed.

  Lemma count_abs l : length (filter is_abs (map i_op l)) = length (abs_list l).
  Proof.
    induction l as [|i l IH]; auto. rewrite abs_list_cons, app_length, <- IH. cbn [map filter]. destruct (opvar_eq_abs (i_op i)) as [->|E]; [reflexivity|].
    destruct (i_op i); auto. now destruct E.
  Qed.
  Lemma set_ind_nth (x : list T) : forall V j k, k < length x -> set_ind V j x (S (j + k)) = nth k x (@b0 b).
  Proof.
    assert (forall (x : list T) V j i, i <= j -> set_ind V j x i = V i) as F.
    { clear. induction x as [|v x IH]; intros V j i H; cbn; auto. rewrite IH by lia. apply fset_ne. lia. }
    induction x as [|v x IH]; intros V j k H; cbn in *; [lia|]. destruct k.
    - rewrite Nat.add_0_r, F by lia. now rewrite fset_eq.
    - replace (S (j + S k)) with (S (S j + k)) by lia. apply IH. lia.
  Qed.
  Lemma dyns_V ds : forall f, g_V (dyns ds f) = g_V f.
  Proof. induction ds as [|d ds IH]; intros f; cbn [dyns fold_left]; auto. apply (IH (new_dynamic f d)). Qed.
  Lemma zsweep_len (P : nat -> T) l : forall u V, length (snd (zsweep P l u V)) = length (abs_list l).
  Proof.
    induction l as [|i l IH]; intros u V; auto. rewrite abs_list_cons. destruct (opvar_eq_abs (i_op i)) as [E|E].
    - cbn [zsweep app length]. rewrite E. specialize (IH (tl u) (fset V (i_var i) (hd b0 u))). destruct (zsweep P l _ _). cbn in *. auto.
    - rewrite zsweep_other by auto. apply IH.
  Qed.
  Lemma sok_below l : forall seen nl nv, sok seen nl l -> numd nv l -> (forall v, In v seen -> v < nv) -> below nv l.
  Proof.
    induction l as [|i l IH]; intros seen nl nv S N H; cbn; auto. destruct S as (S1 & S2 & _ & S4), N as [N1 N2]. split.
    - eapply Forall_impl; [|exact S2]. auto.
    - eapply IH; eauto. unfold seen1. destruct (Nat.ltb_spec 0 (num_res (i_op i))); intros w Hw; [destruct Hw as [<-|Hw]; [lia|]|]; apply H in Hw; lia.
  Qed.

  (** a recorded function meets the requirements *)
  Lemma rec_abs_ok tid cmp n np (e : nat -> AD b) ev p V l2v f0 h f : tid <> 0 -> not_on_tape tid e ev ->
    record_fun tid cmp n np e ev p V l2v = Some f0 -> run f0 h = Some f -> forallb supported (r_op (g_rec f)) = true ->
    exists l0 e', abs_ok f n l0 e'.
  Proof.
    intros T0 [NE NV] RF RH SU.
    destruct (rec_exec tid cmp n np e ev p V l2v f0 RF) as (EX & HN & HP & _).
    pose proof (replays_exec _ _ _ _ _ (replays_init tid cmp n np e ev) EX) as RE.
    destruct (run_inv h f0 f RH) as (G1 & G2 & G3 & G4); [apply RE|rewrite HP; apply parok0|].
    destruct (swf_exec tid n T0 p _ _ _ (sst_init tid n T0 cmp np e ev NE) EX) as [(S1 & S2 & S3 & S4 & _) S5].
    destruct (end_last _ _ _ _ _ _ _ _ _ EX) as (ops & O1 & O2).
    unfold prims in S5. set (l := body n (g_rec f0)) in *.
    pose proof (dec_ops _ _ _ _ S1) as DO. rewrite O1 in DO.
    assert (exists l0 ie, l = l0 ++ [ie]) as (l0 & ie & El).
    { destruct (exists_last (l := l)) as (l0 & ie & ->); eauto. intros El. rewrite El, app_nil_r in DO.
      assert (In EndOp (map i_op (head_ins n))) as Hin by (rewrite DO; apply in_or_app; cbn; auto).
      apply in_map_iff in Hin as (i & Hi & Hin). unfold head_ins in Hin. destruct Hin as [<-|Hin]; [discriminate|]. apply in_map_iff in Hin as (j & <- & _). discriminate. }
    rewrite El in *. rewrite app_assoc, map_app in DO. cbn [map] in DO. apply app_inj_tail in DO as [DO1 DO2].
    assert (i_arg ie = []) as AE.
    { destruct (decode_split (head_ins n ++ l0) (r_op (g_rec f0)) (r_arg (g_rec f0)) 0 [ie]) as (o' & a' & D').
      { rewrite S1. now rewrite app_assoc. }
      destruct o' as [|o [|o' o'']]; cbn [decode] in D'; [destruct a'; discriminate| |].
      - destruct (length a' <? n_actual o a'); [discriminate|]. destruct (skipn _ a'); [|discriminate]. injection D' as <-. cbn [i_op i_arg] in *. subst o. reflexivity.
      - destruct (length a' <? n_actual o a'); [discriminate|]. destruct (_ <? n_actual o' _); [discriminate|]. destruct (decode o'' _ _); discriminate. }
    destruct ie as [o a iv]. cbn [i_op i_arg] in *. subst o a.
    apply sok_app in S2 as [S2 _]. rewrite seenof_app in S5.
    assert (Forall (fun i => copied (i_op i) = true /\ i_op i <> EndOp) l0) as C0.
    { apply Forall_forall. intros i Hi. assert (In (i_op i) ops) as Hin by (rewrite <- DO1, map_app; apply in_or_app; right; now apply in_map). split; [|intros E; rewrite E in Hin; auto].
      assert (okop (i_op i) = true) as OK.
      { assert (forall l sn k, sok sn k l -> In i l -> okop (i_op i) = true) as K; [|exact (K _ _ _ S2 Hi)]. clear. induction l as [|i0 l IH]; intros sn k S Hi; [easy|]. destruct S as (S1 & _ & _ & S4). destruct Hi as [<-|Hi]; [exact S1|]. exact (IH _ _ S4 Hi). }
      rewrite G1, forallb_forall in SU. specialize (SU (i_op i)). rewrite O1 in SU. specialize (SU ltac:(apply in_or_app; auto)).
      destruct (i_op i); try discriminate SU; try discriminate OK; reflexivity. }
    assert (nload l0 = 0) as NL.
    { clear -C0. induction C0 as [|i l0 [C _] _ IH]; cbn; auto. rewrite IH. destruct (i_op i); try discriminate C; reflexivity. }
    exists l0, iv. constructor; rewrite ?G1, ?G2, ?G3; auto.
    - assert (forall l l', tres (l ++ l') = tres l + tres l') as TA by (induction l1 as [|? ? IH1]; intros; cbn; rewrite ?IH1; lia).
      rewrite S4, <- (tres_nres _ _ _ _ S1), !TA, tres_head. cbn [tres i_op num_res]. lia.
    - rewrite S3, nload_app, NL. reflexivity.
  Qed.

  (** values of g *)
  Lemma g_values f g0 n l0 e : abs_ok f n l0 e -> let s := length (abs_list l0) in
    exists g a, abs_normal_fun f g0 = Some (g, a) /\ g_n g = n + s /\ g_n a = n /\ length (g_dep g) = length (g_dep f) + s /\ length (g_dep a) = s /\ ~ In AbsOp (r_op (g_rec g)) /\
      forall ds x, length x = n -> exists V,
        (exists f1, forward0 (dyns ds f) x = Some (map (vsweep (g_par (dyns ds f)) l0 V) (g_dep f), f1)) /\
        (exists a1, forward0 (dyns ds a) x = Some (map (vsweep (g_par (dyns ds f)) l0 V) (map snd (abs_list l0)), a1)) /\
        (forall u, length u = s -> exists g1, forward0 (dyns ds g) (x ++ u) =
           Some (map (fst (zsweep (g_par (dyns ds f)) l0 u V)) (g_dep f) ++ snd (zsweep (g_par (dyns ds f)) l0 u V), g1)).
  Proof.
    intros A s. destruct (abs_struct f g0 n l0 e A) as (g & a & m & lg & e' & E1 & E2 & E3 & E4 & E5 & E6 & E7 & E8 & E9 & E10 & E11 & E12 & E13 & E14 & E15).
    fold s in E2, E9, E15. pose proof (ao_numd _ _ _ _ A) as N0. destruct A as [AD AS AC ADP ANV ANL AR AN AP].
    assert (below (1 + n) l0) as BL by (eapply sok_below; eauto; intros v Hv; apply in_seq in Hv; lia).
    exists g, a. split; auto. split; auto. split; auto. split; [rewrite E4, map_length, app_length, map_length; reflexivity|]. split; [rewrite E5, map_length; reflexivity|]. split.
    { rewrite <- (dec_ops _ _ _ _ E9). rewrite !map_app, !in_app_iff. intros [H|[H|H]].
      - apply in_map_iff in H as (i & Hi & H). unfold head_ins in H. destruct H as [<-|H]; [discriminate|]. apply in_map_iff in H as (j & <- & _). discriminate.
      - apply in_map_iff in H as (i & Hi & H). rewrite Forall_forall in E10. now apply (E10 i).
      - destruct H as [H|[]]; discriminate. }
    intros ds x Lx. destruct (dyns_inv ds f) as (F1 & F2 & F3), (dyns_inv ds g) as (H1 & H2 & H3), (dyns_inv ds a) as (J1 & J2 & J3).
    set (P := g_par (dyns ds f)). set (V := set_ind (fun i => if i <? r_nvar (g_rec f) then bnan else g_V f i) 0 x).
    assert (Forall (fun i => copied (i_op i) = true) l0) as C1 by (eapply Forall_impl; [|exact AC]; intros i0 [X1 _]; exact X1).
    exists V. split; [|split].
    - destruct (forward0_v (dyns ds f) n l0 e x) as (f1 & X); [now rewrite F1|auto|]. rewrite F1, F3, dyns_V in X. fold V P in X. eauto.
    - destruct (forward0_v (dyns ds a) n l0 e x) as (f1 & X); [now rewrite J1, E6|auto|]. rewrite J1, E6, J3, dyns_V, E8, E5 in X. fold V in X.
      assert (dyns ds a = dyns ds (mkFun (g_rec f) (g_n a) (g_dep a) (g_par f) (g_V a) (g_l2v a) (g_cc a) (g_num a) (g_opi a))) as EA by (f_equal; destruct a; cbn in *; congruence).
      assert (g_par (dyns ds a) = P) as <-; [|eauto].
      { unfold P. clear -E6 E7. revert f a E6 E7. induction ds as [|d ds IH]; intros f a E6 E7; cbn [dyns fold_left]; auto. apply (IH (new_dynamic f d) (new_dynamic a d)); auto. cbn. now rewrite E6, E7. }
    - intros u Lu. destruct (forward0_v (dyns ds g) (n + s) lg e' (x ++ u)) as (g1 & X); [now rewrite H1|eapply Forall_impl; [|exact E10]; intros i0 [X1 _]; exact X1|].
      exists g1. rewrite X. f_equal. f_equal. rewrite H3, E4, map_map. rewrite (zsweep_args P l0 (1 + n) u V N0 BL). rewrite <- map_app. apply map_ext_in. intros v Hv.
      assert (forall W k, k < n + s -> set_ind W 0 (x ++ u) (S k) = nth k (x ++ u) b0) as SI by (intros W k Hk; apply (set_ind_nth (x ++ u) W 0 k); rewrite app_length; lia).
      apply E15.
      + intros i. unfold P. apply dyns_par; auto.
      + intros w Hw. destruct w as [|w]; [lia|]. rewrite SI by lia. unfold V. rewrite (set_ind_nth x _ 0 w) by lia. apply app_nth1. lia.
      + intros k Hk. change (S n + k) with (S (n + k)). rewrite SI by lia. rewrite app_nth2 by lia. f_equal. lia.
      + apply in_app_or in Hv as [Hv|Hv]; [rewrite Forall_forall in ADP; auto|]. apply in_map_iff in Hv as ([y w] & <- & Hv). exact (proj1 (abs_seen _ _ _ _ _ AS Hv)).
  Qed.

  (** *** C41 *)
  Section Main.
    Variables (tid : nat) (cmp : bool) (n np : nat) (e : nat -> AD b) (ev : nat -> VecAD b) (p : prog T) (V : nat -> T) (l2v : nat -> nat) (f0 f : adfun b) (h : list (call b)) (g0 : adfun b).
    (** F was recorded and then used *)
    Definition obtained : Prop := tid <> 0 /\ not_on_tape tid e ev /\ record_fun tid cmp n np e ev p V l2v = Some f0 /\ run f0 h = Some f.
    (** number of absolute values in the recording *)
    Definition num_abs : nat := length (filter is_abs (r_op (g_rec f))).

    (** The sizes; G has no absolute value; A(x) are the absolute values of z(x, A(x)), and G(x, A(x)) = (F(x), z(x, A(x))), for any later value of the dynamic parameters. *)
    Theorem abs_normal_represents : obtained -> forallb supported (r_op (g_rec f)) = true ->
      exists g a, abs_normal_fun f g0 = Some (g, a) /\
        g_n g = n + num_abs /\ length (g_dep g) = length (g_dep f) + num_abs /\ g_n a = n /\ length (g_dep a) = num_abs /\ ~ In AbsOp (r_op (g_rec g)) /\
        forall ds x, length x = n -> exists y z u f1 a1 g1,
          forward0 (dyns ds f) x = Some (y, f1) /\ forward0 (dyns ds a) x = Some (u, a1) /\ forward0 (dyns ds g) (x ++ u) = Some (y ++ z, g1) /\
          length y = length (g_dep f) /\ length z = num_abs /\ u = map (b_un Ufabs) z.
    Proof.
      intros (T0 & NT & RF & RH) SU. destruct (rec_abs_ok _ _ _ _ _ _ _ _ _ _ _ _ T0 NT RF RH SU) as (l0 & e' & A).
      assert (num_abs = length (abs_list l0)) as NA.
      { unfold num_abs. rewrite <- (dec_ops _ _ _ _ (ao_dec _ _ _ _ A)), count_abs, !abs_list_app, head_abs. cbn. now rewrite app_nil_r. }
      destruct (g_values f g0 n l0 e' A) as (g & a & E1 & E2 & E3 & E4 & E5 & E6 & E7). rewrite <- NA in *. exists g, a. do 6 (split; [assumption|]).
      intros ds x Lx. destruct (E7 ds x Lx) as (W & (f1 & X1) & (a1 & X2) & X3). set (P := g_par (dyns ds f)) in *.
      pose proof (ao_numd _ _ _ _ A) as N0.
      assert (below (1 + n) l0) as BL by (eapply sok_below; [apply (ao_sok _ _ _ _ A)|exact N0|]; intros v Hv; apply in_seq in Hv; lia).
      destruct (zsweep_abs P l0 (1 + n) W N0 BL) as [Z1 Z2]. set (u := map (vsweep P l0 W) (map snd (abs_list l0))) in *.
      destruct (X3 u) as (g1 & X4); [unfold u; now rewrite !map_length|].
      exists (map (vsweep P l0 W) (g_dep f)), (snd (zsweep P l0 u W)), u, f1, a1, g1. split; auto. split; auto. split.
      { rewrite X4. f_equal. f_equal. f_equal. apply map_ext. exact Z2. }
      split; [now rewrite map_length|]. split; [now rewrite zsweep_len|exact Z1].
    Qed.

    (** G is defined at every (x, u), and component k of z(x, u) only depends on x and u_0, ..., u_{k-1} *)
    Theorem abs_normal_triangular : obtained -> forallb supported (r_op (g_rec f)) = true -> forall g a, abs_normal_fun f g0 = Some (g, a) ->
      forall ds x u u' k, length x = n -> length u = num_abs -> length u' = num_abs -> firstn k u = firstn k u' ->
      exists y z g1 y' z' g1', forward0 (dyns ds g) (x ++ u) = Some (y ++ z, g1) /\ forward0 (dyns ds g) (x ++ u') = Some (y' ++ z', g1') /\
        length y = length (g_dep f) /\ length y' = length (g_dep f) /\ length z = num_abs /\ length z' = num_abs /\ firstn (S k) z = firstn (S k) z'.
    Proof.
      intros (T0 & NT & RF & RH) SU g a Eg ds x u u' k Lx Lu Lu' F. destruct (rec_abs_ok _ _ _ _ _ _ _ _ _ _ _ _ T0 NT RF RH SU) as (l0 & e' & A).
      assert (num_abs = length (abs_list l0)) as NA.
      { unfold num_abs. rewrite <- (dec_ops _ _ _ _ (ao_dec _ _ _ _ A)), count_abs, !abs_list_app, head_abs. cbn. now rewrite app_nil_r. }
      destruct (g_values f g0 n l0 e' A) as (g' & a' & E1 & _ & _ & _ & _ & _ & E7). rewrite Eg in E1. injection E1 as <- <-. rewrite <- NA in *.
      destruct (E7 ds x Lx) as (W & _ & _ & X3). destruct (X3 u Lu) as (g1 & Y1), (X3 u' Lu') as (g1' & Y2).
      eexists _, _, g1, _, _, g1'. split; [exact Y1|]. split; [exact Y2|]. rewrite !map_length, !zsweep_len. do 4 (split; auto). apply zsweep_tri; auto. congruence.
    Qed.

    (** hence u = A(x) is the only solution of u = |z(x, u)| *)
    Theorem abs_normal_unique : obtained -> forallb supported (r_op (g_rec f)) = true -> forall g a, abs_normal_fun f g0 = Some (g, a) ->
      forall ds x u w g1, length x = n -> length u = num_abs -> forward0 (dyns ds g) (x ++ u) = Some (w, g1) -> u = map (b_un Ufabs) (skipn (length (g_dep f)) w) ->
      exists f1 a1, forward0 (dyns ds a) x = Some (u, a1) /\ forward0 (dyns ds f) x = Some (firstn (length (g_dep f)) w, f1).
    Proof.
      intros OB SU g a Eg ds x u w g1 Lx Lu FW EU.
      destruct (abs_normal_represents OB SU) as (g' & a' & E1 & _ & _ & _ & _ & _ & E7). rewrite Eg in E1. injection E1 as <- <-.
      destruct (E7 ds x Lx) as (y & z & u0 & f1 & a1 & g2 & X1 & X2 & X3 & X4 & X5 & X6).
      assert (length u0 = num_abs) as Lu0 by (rewrite X6, map_length; auto).
      assert (forall k, firstn k u = firstn k u0) as K.
      { induction k as [|k IH]; auto.
        destruct (abs_normal_triangular OB SU g a Eg ds x u u0 k Lx Lu Lu0 IH) as (y1 & z1 & h1 & y2 & z2 & h2 & Y1 & Y2 & Y3 & Y4 & Y5 & Y6 & Y7).
        rewrite FW in Y1. injection Y1 as -> _. rewrite X3 in Y2. injection Y2 as Y2 _.
        assert (z2 = z) as ->.
        { apply (f_equal (skipn (length y))) in Y2. rewrite skipn_app, skipn_all, Nat.sub_diag in Y2. rewrite X4, <- Y4, skipn_app, skipn_all, Nat.sub_diag in Y2. cbn in Y2. auto. }
        rewrite EU, X6, <- Y3, skipn_app, skipn_all, Nat.sub_diag. cbn [app skipn]. rewrite !firstn_map. now rewrite Y7. }
      assert (u = u0) as <- by (rewrite <- (firstn_all u), <- (firstn_all u0), Lu, Lu0; apply K).
      rewrite FW in X3. injection X3 as -> _. exists f1, a1. split; auto. rewrite X1. rewrite firstn_app, <- X4, firstn_all, Nat.sub_diag. cbn. now rewrite app_nil_r.
    Qed.
  End Main.
End AbsProp.

(** *** A concrete case: two independent variables, one dynamic parameter, two nested absolute values, a conditional expression and a comparison *)
Definition abs_e : nat -> AD Zbase := fun i => @mkAD Zbase (match i with 0 => 2%Z | 1 => (-5)%Z | 2 => 4%Z | _ => 0%Z end) 0 0 T_con.
Definition abs_p : prog Z :=
  Pstep (Iun Ufabs 4 1) (                   (* r4 = |x1|                *)
  Pstep (Ibin Bsub 5 0 4) (                 (* r5 = x0 - r4             *)
  Pstep (Ibin Bmul 6 5 2) (                 (* r6 = r5 * dyn            *)
  Pstep (Iun Ufabs 7 6) (                   (* r7 = |r6|                *)
  Pstep (Icond XLt 8 0 1 7 4) (             (* r8 = x0 < x1 ? r7 : r4   *)
  Pif Clt 1 0 (Pret [8; 6; 7]) (Pret [4])))))).
Notation abs_f := (@record_fun Zbase 7 true 2 1 abs_e ex_ev abs_p (fun _ => (-5)%Z) (fun _ => 0)).
Lemma ex_abs_ops : match abs_f with Some f => forallb supported (r_op (g_rec f)) = true /\ num_abs f = 2 | None => False end.
Proof. vm_compute. auto. Qed.
Lemma ex_abs_hyp : exists f, obtained 7 true 2 1 abs_e ex_ev abs_p (fun _ => (-5)%Z) (fun _ => 0) f f [] /\ forallb supported (r_op (g_rec f)) = true /\ num_abs f = 2.
Proof.
  pose proof ex_abs_ops as H. destruct abs_f as [f|] eqn:E; [|destruct H]. exists f. split; [|exact H].
  split; [discriminate|]. split; [split; intros i; cbv; discriminate|]. split; [exact E|reflexivity].
Qed.
Lemma ex_abs_values : match abs_f with Some f => match abs_normal_fun f f with Some (g, a) =>
    let val (h : adfun Zbase) (x : list Z) := option_map fst (forward0 (@dyns Zbase [[3]%Z] h) x) in
    val f [1; 6]%Z = Some [15; -15; 15]%Z /\ val a [1; 6]%Z = Some [6; 15]%Z /\ val g [1; 6; 6; 15]%Z = Some [15; -15; 15; 6; -15]%Z /\
    val g [1; 6; 0; 7]%Z = Some [7; 3; 7; 6; 3]%Z
  | None => False end | None => False end.
Proof. vm_compute. auto. Qed.

(** *** What is not supported *)
(** erf: the first argument is not put in the new recording (569-579), so that G cannot be read *)
Definition erf_p : prog Z := Pstep (Iun Uerf 4 0) (Pret [4]).
Theorem abs_normal_erf_refuted : match @record_fun Zbase 7 true 1 0 abs_e ex_ev erf_p (fun _ => 0%Z) (fun _ => 0) with
  | Some f => forward0 f [2]%Z <> None /\
      match abs_normal_fun f f with Some (g, a) => forall x, forward0 g x = None | None => False end
  | None => False end.
Proof. vm_compute. split; [discriminate|reflexivity]. Qed.
(** a VecAD element is stored and loaded: the vector is not copied, G does not have the values of F *)
Definition vec_p : prog Z := Pstep (Ist 0 0 1) (Pstep (Ild 4 0 1) (Pret [4])).
Definition vec_e : nat -> AD Zbase := fun i => @mkAD Zbase (match i with 0 => 2%Z | 1 => 1%Z | _ => 0%Z end) 0 0 T_con.
(** the store v[x0] = x1 with variable index and value is not put in the new recording (834-846): the assertions at the end fail *)
Theorem abs_normal_store_refuted : match @record_fun Zbase 7 true 2 0 vec_e ex_ev vec_p (fun _ => 0%Z) (fun _ => 0) with
  | Some f => option_map fst (forward0 f [2; 1]%Z) = Some [20]%Z /\ abs_normal_fun f f = None
  | None => False end.
Proof. vm_compute. auto. Qed.
Definition vld_p : prog Z := Pstep (Ild 4 0 0) (Pret [4]).
Theorem abs_normal_load_refuted : match @record_fun Zbase 7 true 2 0 vec_e ex_ev vld_p (fun _ => 0%Z) (fun _ => 0) with
  | Some f => option_map fst (forward0 f [2; 1]%Z) = Some [30]%Z /\
      match abs_normal_fun f f with Some (g, a) => match forward0 g [2; 1]%Z with Some (y, _) => y <> [30]%Z | None => True end | None => False end
  | None => False end.
Proof. vm_compute. split; [reflexivity|first [exact I|discriminate]]. Qed.
(** a comparison of two dynamic parameters is not expected (851-889): the call fails *)
Definition pp_p : prog Z := Pif Clt 1 2 (Pret [0]) (Pret [1]).
Theorem abs_normal_compare_refuted : match @record_fun Zbase 7 true 1 2 abs_e ex_ev pp_p (fun _ => 0%Z) (fun _ => 0) with
  | Some f => option_map fst (forward0 f [9]%Z) = Some [9]%Z /\ abs_normal_fun f f = None
  | None => False end.
Proof. vm_compute. auto. Qed.
