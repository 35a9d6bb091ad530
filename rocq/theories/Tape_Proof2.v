(** Simulation between recording and replay: tape growth lemmas. *)
From Coq Require Import ZArith List Bool Arith Lia.
From Verif Require Import Base_Spec Op_Model Tape_Spec Tape_Model Tape_Proof.
Import ListNotations.

(** variable arguments of an operator *)
Definition var_args (o : opvar) (a : list nat) : list nat :=
  let a0 := nth 0 a 0 in let a1 := nth 1 a 0 in
  let m i j := if Nat.testbit a1 i then [nth j a 0] else [] in
  match o with
  | AbsOp | AcosOp | AcoshOp | AsinOp | AsinhOp | AtanOp | AtanhOp | CosOp
  | CoshOp | ExpOp | Expm1Op | Log1pOp | LogOp | NegOp | SignOp | SinOp
  | SinhOp | SqrtOp | TanOp | TanhOp | ErfOp | ErfcOp => [a0]
  | AddvvOp | SubvvOp | MulvvOp | DivvvOp | PowvvOp | ZmulvvOp
  | EqvvOp | LevvOp | LtvvOp | NevvOp => [a0; a1]
  | AddpvOp | SubpvOp | MulpvOp | DivpvOp | PowpvOp | ZmulpvOp | DisOp
  | EqpvOp | LepvOp | LtpvOp | NepvOp => [a1]
  | SubvpOp | DivvpOp | PowvpOp | ZmulvpOp | LevpOp | LtvpOp => [a0]
  | LdvOp => [a1]
  | StvpOp => [a1]
  | StpvOp => [nth 2 a 0]
  | StvvOp => [a1; nth 2 a 0]
  | CExpOp => m 0 2 ++ m 1 3 ++ m 2 4 ++ m 3 5
  | CSkipOp => m 0 2 ++ m 1 3
  | CSumOp => arg_range a 5 (nth 2 a 0)
  | FunavOp => [a0]
  | _ => []
  end.

(** parameter arguments of an operator *)
Definition par_args (o : opvar) (a : list nat) : list nat :=
  let a0 := nth 0 a 0 in let a1 := nth 1 a 0 in
  let m i j := if Nat.testbit a1 i then [] else [nth j a 0] in
  match o with
  | AddpvOp | SubpvOp | MulpvOp | DivpvOp | PowpvOp | ZmulpvOp
  | EqpvOp | LepvOp | LtpvOp | NepvOp | ParOp => [a0]
  | EqppOp | LeppOp | LtppOp | NeppOp => [a0; a1]
  | SubvpOp | DivvpOp | PowvpOp | ZmulvpOp | LevpOp | LtvpOp => [a1]
  | ErfOp | ErfcOp => [a1; nth 2 a 0]
  | LdpOp => [a1]
  | StvpOp => [nth 2 a 0]
  | StppOp => [a1; nth 2 a 0]
  | StpvOp => [a1]
  | CExpOp => m 0 2 ++ m 1 3 ++ m 2 4 ++ m 3 5
  | CSkipOp => m 0 2 ++ m 1 3
  | CSumOp => a0 :: arg_range a (nth 2 a 0) (nth 4 a 0)
  | FunapOp => [a0]
  | _ => []
  end.

(** every index an operator uses is in range: variable arguments are results of
    earlier operators, parameters exist *)
Definition wf_ins (np : nat) (i : ins) : Prop :=
  Forall (fun j => 0 < j /\ j + num_res (i_op i) < i_var i + 1) (var_args (i_op i) (i_arg i)) /\
  Forall (fun j => j < np) (par_args (i_op i) (i_arg i)) /\
  length (i_arg i) = n_actual (i_op i) (i_arg i) /\
  i_op i <> CSkipOp.

Local Arguments dentries : simpl never.

Section Sim.
  Context {b : base} (L : base_laws b).
  Notation T := (bt b).
  Variables (ind : list T) (P : nat -> T) (cc : nat).
  Variables (V0 : nat -> T) (vec0 : nat -> nat) (l2v0 : nat -> nat).
  (** [same]: the replay is at the point where the recording was made *)
  Variable same : Prop.

  (** the recorded parameter values are those of the replay *)
  Definition pareq (r : rec b) : Prop :=
    forall i, i < length (r_par r) -> P i = nth i (r_par r) bnan.

  Definition s_init : fst0 b := mkF V0 (fun _ => false) vec0 l2v0 0 0 (fun _ => false).

  (** the recording so far, replayed, is in state [s] *)
  Record tape_ok (r : rec b) (s : fst0 b) : Prop := {
    t_dwf  : dwf r;
    t_nv   : r_nvar r = nres (r_op r);
    t_nv1  : 0 < r_nvar r;
    t_par1 : 0 < length (r_par r);
    t_dec  : exists l, decode (r_op r) (r_arg r) 0 = Some l /\
               sweep0 P cc l 0 s_init = Some s /\
               Forall (wf_ins (length (r_par r))) l;
    t_skip : forall k, f_skip s k = false
  }.

  (** growth of tape and of the state of its replay *)
  Record grows (r : rec b) (s : fst0 b) (r' : rec b) (s' : fst0 b) : Prop := {
    g_ext : ext r r';
    g_ok  : tape_ok r' s';
    g_val : forall i, i < r_nvar r -> f_V s' i = f_V s i;
    g_isv : f_isv s' = f_isv s;
    g_idx : f_idx s' = f_idx s;
    g_cnt : f_num s' = f_num s;
    g_vec : r_vec r' = r_vec r;
    g_peq : same -> Pok ind P r' -> pareq r -> pareq r'
  }.

  Lemma grows_refl r s : tape_ok r s -> grows r s r s.
  Proof. intros. constructor; auto using ext_refl. Qed.
  Lemma grows_trans r1 s1 r2 s2 r3 s3 :
    grows r1 s1 r2 s2 -> grows r2 s2 r3 s3 -> grows r1 s1 r3 s3.
  Proof.
    intros [] []. constructor; eauto using ext_trans; try congruence.
    - intros i Hi. rewrite g_val1, g_val0; auto. pose proof (e_nv _ _ g_ext0). lia.
    - intros Hs HP H. apply g_peq1; auto. apply g_peq0; auto.
      eapply Pok_ext; eauto. apply (t_dwf _ _ g_ok0).
  Qed.

  Lemma wf_ins_mono n n' i : n <= n' -> wf_ins n i -> wf_ins n' i.
  Proof.
    intros H (A & B & C & D). repeat split; auto. eapply Forall_impl; [|exact B].
    cbn; intros; lia.
  Qed.

  (* -------------------------------------------------------------- *)
  (** constants *)
  Lemma dentries_con (r r' : rec b) :
    r_dop r' = r_dop r -> r_darg r' = r_darg r -> r_isdyn r' = r_isdyn r ++ [false] ->
    dentries r' = dentries r.
  Proof.
    intros A B C. unfold dentries. rewrite A, B, C, dyn2par_app. cbn. now rewrite app_nil_r.
  Qed.

  Lemma put_con_par_grows r s v r' p :
    tape_ok r s -> put_con_par r v = (r', p) ->
    grows r s r' s /\ p < length (r_par r') /\ r_nvar r' = r_nvar r /\ r_nload r' = r_nload r /\
    (Pok ind P r' -> P p = v).
  Proof.
    intros K H. unfold put_con_par in H.
    destruct ((0 <? r_hash r (bhash v)) && (r_hash r (bhash v) <? length (r_par r))
      && negb (nth (r_hash r (bhash v)) (r_isdyn r) false)
      && ideq (nth (r_hash r (bhash v)) (r_par r) bnan) v) eqn:E.
    - injection H as <- <-. apply andb_true_iff in E as [E E4]. apply andb_true_iff in E as [E E3].
      apply andb_true_iff in E as [E1 E2]. apply Nat.ltb_lt in E2. apply negb_true_iff in E3.
      split; [now apply grows_refl|]. repeat split; auto.
      intros [Hp _]. rewrite Hp by auto. now apply (l_ideq _ L).
    - injection H as <- <-. destruct K as [W N N1 Q1 D S].
      assert (dentries (mkRec (r_cmp r) (r_nvar r) (r_nload r) (r_op r) (r_arg r) (r_vec r)
          (fset (r_hash r) (bhash v) (length (r_par r))) (r_par r ++ [v]) (r_isdyn r ++ [false])
          (r_dop r) (r_darg r)) = dentries r) as DE by (now apply dentries_con).
      split; [|cbn; repeat split; auto].
      + constructor; auto.
        * constructor; cbn; auto; try (eexists; reflexivity); exists []; rewrite ?app_nil_r; auto.
        * constructor; cbn; auto.
          -- destruct W as [w1 w2 w3 w4]. constructor; cbn; auto.
             ++ rewrite !app_length. cbn. lia.
             ++ rewrite dyn2par_app. cbn. now rewrite app_nil_r.
             ++ rewrite DE. auto.
          -- rewrite app_length. lia.
          -- destruct D as (l & D1 & D2 & D3). exists l. repeat split; auto.
             eapply Forall_impl; [|exact D3]. intros. eapply wf_ins_mono; [|eauto].
             rewrite app_length. lia.
        * intros _ [Hp _] Hq i Hi. cbn in *. rewrite app_length in Hi. cbn in Hi.
          destruct (Nat.eq_dec i (length (r_par r))) as [->|Hne].
          -- apply Hp; [rewrite app_length; cbn; lia|].
             now rewrite <- (w_isd _ W), app_nth2, Nat.sub_diag by lia.
          -- rewrite app_nth1 by lia. apply Hq. lia.
      + rewrite app_length. cbn. lia.
      + intros [Hp _]. rewrite Hp; cbn.
        * now rewrite app_nth2, Nat.sub_diag by lia.
        * rewrite app_length. cbn. lia.
        * rewrite <- (w_isd _ W), app_nth2, Nat.sub_diag by lia. auto.
  Qed.

  Lemma pre_dyn (r : rec b) v o a : length a = num_arg_dyn o -> dwf r ->
    ext r (fst (put_dyn_par r v o a)).
  Proof.
    intros La [w1 w2 w3 w4]. unfold put_dyn_par; cbn. constructor; cbn; auto; try (eexists; reflexivity).
    + unfold dentries; cbn. rewrite dyn2par_app. cbn. rewrite dents_app; auto. eexists; reflexivity.
    + exists []. now rewrite app_nil_r.
  Qed.

  (** dynamic parameters *)
  Lemma put_dyn_par_grows r s v o a r' p :
    tape_ok r s -> put_dyn_par r v o a = (r', p) ->
    length a = num_arg_dyn o ->
    Forall (fun j => j < length (r_par r)) (par_args_dyn o a) ->
    (same -> Pok ind P r -> v = dyn_sem o a (nth (length (r_dop r)) ind b0) P) ->
    grows r s r' s /\ p = length (r_par r) /\ p < length (r_par r') /\ r_nvar r' = r_nvar r /\
    (Pok ind P r' -> P p = dyn_sem o a (nth (length (r_dop r)) ind b0) P).
  Proof.
    intros K H La Hlt Hsame. pose proof (pre_dyn r v o a La (t_dwf _ _ K)) as HX.
    unfold put_dyn_par in H, HX. injection H as <- <-.
    destruct K as [W N N1 Q1 D S]. pose proof W as [w1 w2 w3 w4].
    assert (dentries (mkRec (r_cmp r) (r_nvar r) (r_nload r) (r_op r) (r_arg r) (r_vec r)
       (r_hash r) (r_par r ++ [v]) (r_isdyn r ++ [true]) (r_dop r ++ [o]) (r_darg r ++ a))
       = dentries r ++ [(length (r_par r), o, a)]) as DE.
    { unfold dentries. cbn. rewrite dyn2par_app. cbn. rewrite w1. apply dents_app; auto. }
    assert (length (dentries r) = length (r_dop r)) as LE by (now apply dents_length).
    split; [|cbn; repeat split; auto].
    - constructor; auto.
      + constructor; cbn; auto.
        * constructor; cbn.
          -- rewrite !app_length. cbn. lia.
          -- rewrite dyn2par_app, !app_length. cbn. lia.
          -- rewrite app_length, dargs_app. cbn. lia.
          -- intros i o' a' j Hin Hj. rewrite DE in Hin. apply in_app_iff in Hin.
             destruct Hin as [Hin|[Hin|[]]]; [eauto|].
             injection Hin as <- <- <-. rewrite Forall_forall in Hlt. auto.
        * rewrite app_length. lia.
        * destruct D as (l & D1 & D2 & D3). exists l. repeat split; auto.
          eapply Forall_impl; [|exact D3]. intros. eapply wf_ins_mono; [|eauto].
          rewrite app_length. lia.
      + intros Hs HP Hq i Hi. cbn in *. rewrite app_length in Hi. cbn in Hi.
        destruct (Nat.eq_dec i (length (r_par r))) as [->|Hne].
        * rewrite app_nth2, Nat.sub_diag by lia. cbn. rewrite Hsame; auto.
          2:{ eapply Pok_ext; eauto. }
          destruct HP as [_ HP]. apply (HP (length (r_dop r))). rewrite DE.
          rewrite nth_error_app2 by lia. now rewrite LE, Nat.sub_diag.
        * rewrite app_nth1 by lia. apply Hq. lia.
    - rewrite app_length. cbn. lia.
    - intros [_ Hp]. apply (Hp (length (r_dop r))). rewrite DE.
      rewrite nth_error_app2 by lia. now rewrite LE, Nat.sub_diag.
  Qed.

  (* -------------------------------------------------------------- *)
  (** one more operator on the tape *)
  Definition add_op (r r' : rec b) (o : opvar) (a : list nat) : Prop :=
    r_op r' = r_op r ++ [o] /\ r_arg r' = r_arg r ++ a /\
    r_nvar r' = r_nvar r + num_res o /\ r_cmp r' = r_cmp r /\ r_vec r' = r_vec r /\
    r_par r' = r_par r /\ r_isdyn r' = r_isdyn r /\ r_dop r' = r_dop r /\ r_darg r' = r_darg r.

  Lemma add_op_tape r s r' o a :
    tape_ok r s -> add_op r r' o a -> n_actual o a = length a -> o <> CSkipOp ->
    Forall (fun j => 0 < j < r_nvar r) (var_args o a) ->
    Forall (fun j => j < length (r_par r)) (par_args o a) ->
    ext r r' /\ dwf r' /\
    exists l, decode (r_op r') (r_arg r') 0 = Some l /\
      Forall (wf_ins (length (r_par r'))) l /\
      (step0 P cc (mkIns o a (r_nvar r' - 1)) (length (r_op r)) s = None ->
         sweep0 P cc l 0 s_init = None) /\
      (forall s', step0 P cc (mkIns o a (r_nvar r' - 1)) (length (r_op r)) s = Some s' ->
         (forall k, f_skip s' k = false) -> tape_ok r' s').
  Proof.
    intros K (A1 & A2 & A3 & A4 & A5 & A6 & A7 & A8 & A9) Ha Hcs Hv Hp.
    destruct K as [W N N1 Q1 (l & D1 & D2 & D3) S].
    assert (dentries r' = dentries r) as DE by (unfold dentries; now rewrite A7, A8, A9).
    assert (X : ext r r').
    { constructor; try congruence; try lia; exists []; rewrite app_nil_r; auto. }
    assert (W' : dwf r').
    { destruct W. constructor; rewrite ?A6, ?A7, ?A8, ?A9, ?DE; auto. }
    split; auto. split; auto.
    pose proof (decode_app _ _ _ _ _ _ D1 Ha) as DD. cbn in DD.
    replace (nres (r_op r) + num_res o - 1) with (r_nvar r' - 1) in DD by (rewrite A3, N; lia).
    exists (l ++ [mkIns o a (r_nvar r' - 1)]). rewrite A1, A2. split; auto.
    pose proof (decode_length _ _ _ _ D1) as LD.
    assert (Forall (wf_ins (length (r_par r'))) (l ++ [mkIns o a (r_nvar r' - 1)])) as WF.
    { apply Forall_app. split; [now rewrite A6|]. constructor; [|constructor].
      repeat split; cbn -[n_actual var_args par_args]; auto.
      - eapply Forall_impl; [|exact Hv]. cbn; intros; lia.
      - eapply Forall_impl; [|exact Hp]. cbn; intros. congruence. }
    assert (forall s', step0 P cc (mkIns o a (r_nvar r' - 1)) (length (r_op r)) s = s' ->
               sweep0 P cc (l ++ [mkIns o a (r_nvar r' - 1)]) 0 s_init = s') as SW.
    { intros s' Hs. rewrite sweep0_app, D2. cbn [sweep0]. rewrite S.
      cbn in LD. cbn [Nat.add]. rewrite LD, Hs. now destruct s'. }
    split; [auto|]. split; [intros; now apply SW|].
    intros s' Hs Hsk. constructor; auto; try lia.
    - rewrite A1, nres_app. cbn. lia.
    - rewrite A6. auto.
    - exists (l ++ [mkIns o a (r_nvar r' - 1)]). rewrite A1, A2. auto.
  Qed.

  (** operators that only compute values *)
  Lemma sem_grows r s r' o a l m :
    tape_ok r s -> add_op r r' o a -> n_actual o a = length a -> o <> CSkipOp ->
    Forall (fun j => 0 < j < r_nvar r) (var_args o a) ->
    Forall (fun j => j < length (r_par r)) (par_args o a) ->
    sem0 o a P (f_V s) = Some (l ++ [m]) -> length l + 1 = num_res o ->
    exists s', grows r s r' s' /\ f_V s' (r_nvar r' - 1) = m /\ 0 < r_nvar r' - 1 < r_nvar r'.
  Proof.
    intros K A Ha Hcs Hv Hp Hs Hl.
    destruct (add_op_tape _ _ _ _ _ K A Ha Hcs Hv Hp) as (X & W & ll & _ & _ & _ & Y).
    destruct A as (A1 & A2 & A3 & A4 & A5 & A6 & A7 & A8 & A9).
    pose proof (t_nv1 _ _ K) as N1.
    set (s' := mkF (put_res (f_V s) (r_nvar r' - 1 + 1 - length (l ++ [m])) (l ++ [m]))
                   (f_isv s) (f_idx s) (f_l2v s) (f_num s) (f_opi s) (f_skip s)).
    assert (Hst : step0 P cc (mkIns o a (r_nvar r' - 1)) (length (r_op r)) s = Some s').
    { unfold step0. rewrite Hs. reflexivity. }
    exists s'. split; [|split; [|lia]].
    - constructor; auto.
      + apply Y; auto. apply (t_skip _ _ K).
      + cbn. intros i Hi. apply put_res_lt. rewrite app_length; cbn. lia.
      + intros _ _ Hq i. rewrite A6. apply Hq.
    - cbn. rewrite app_length. cbn.
      replace (r_nvar r' - 1) with ((r_nvar r' - 1 + 1 - (length l + 1)) + length l) at 2 by lia.
      rewrite put_res_at by (rewrite app_length; cbn; lia).
      now rewrite app_nth2, Nat.sub_diag by lia.
  Qed.
End Sim.
