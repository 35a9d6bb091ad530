(** The forward sweep of any order, over a whole operation sequence (any Base):
    frame, equations solved, agreement of order zero with the zero order sweep. *)
From Coq Require Import ZArith List Bool Arith Lia FunctionalExtensionality.
From Verif Require Import Base_Spec Op_Model Tape_Spec Tape_Model Tape_Proof Tape_Proof2
  Sweep_Model Sweep_Eqs Sweep_Eqs2.
Import ListNotations.

Definition is_load (o : opvar) : bool := match o with LdpOp | LdvOp => true | _ => false end.

(** result indices are consecutive, loads are numbered consecutively *)
Fixpoint wfl (np nv nl : nat) (l : list ins) : Prop :=
  match l with
  | [] => True
  | i :: l' =>
    i_var i = nv + num_res (i_op i) - 1 /\ wf_ins np i /\ csum_ok (i_op i) (i_arg i) /\
    (is_load (i_op i) = true -> nth 2 (i_arg i) 0 = nl) /\ (i_op i <> BeginOp <-> 0 < nv) /\
    wfl np (nv + num_res (i_op i)) (if is_load (i_op i) then S nl else nl) l'
  end.

(** the laws used for order zero by the any-order code *)
Record taylor_laws (b : base) : Prop := {
  tl_add0 : forall x : bt b, b_bin Badd b0 x = x;
  tl_abs  : forall x : bt b, b_un Ufabs x = b_bin Bmul (b_un Usign x) x }.

Section SweepTape.
  Context {b : base} (TL : taylor_laws b).
  Notation T := (bt b).
  Variable bnat : nat -> T.
  Variable P : nat -> T.
  Notation coef := (coef bnat P).
  Notation run_sub := (run_sub bnat P).
  Notation step_any := (step_any bnat P).
  Notation sweep_any := (sweep_any bnat P).
  Notation sat_subs := (sat_subs bnat P).
  Notation sat_sub := (sat_sub bnat P).

  Lemma put_res_spec (l : list T) : forall V r v,
    put_res V r l v = if (r <=? v) && (v <? r + length l) then nth (v - r) l b0 else V v.
  Proof.
    induction l as [|c l IH]; intros V r v; cbn [put_res length].
    - destruct (Nat.leb_spec r v), (Nat.ltb_spec v (r + 0)); cbn; auto; lia.
    - rewrite IH. unfold fset.
      destruct (Nat.leb_spec (S r) v), (Nat.ltb_spec v (S r + length l)),
        (Nat.leb_spec r v), (Nat.ltb_spec v (r + S (length l))); cbn [andb]; try lia;
        destruct (Nat.eqb_spec v r); try lia; auto.
      + replace (v - r) with (S (v - S r)) by lia. auto.
      + subst. now rewrite Nat.sub_diag.
  Qed.

  (** order zero of one loop *)
  Lemma row0_run_sub up V r s : sub_ok s -> Forall (fun x => 0 < x < r) (sub_args s) ->
    row0 (run_sub 0 up V (r, s)) = put_res (row0 V) r (coef s r V 0).
  Proof.
    intros O A. destruct (run_sub_spec bnat P 0 up V r s O A) as [F E].
    apply functional_extensionality. intros v. unfold row0. rewrite put_res_spec, coef_length.
    set (W := run_sub 0 up V (r, s)) in *.
    destruct (Nat.leb_spec r v), (Nat.ltb_spec v (r + sub_res s)); cbn [andb]; try (apply F; lia).
    assert (sat_sub W r s 0) as S by (apply E; lia).
    specialize (S (v - r)). replace (r + (v - r)) with v in S by lia. rewrite S by lia.
    f_equal. apply coef_ext; [| |exact O].
    - intros x Hx k Hk. apply F. rewrite Forall_forall in A. apply A in Hx. lia.
    - intros; lia.
  Qed.

  Lemma sum_rows0 f l (V : nat -> nat -> T) : forall z,
    sum_rows f l V 0 z = fold_left (fun z i => f z (row0 V i)) l z.
  Proof. induction l as [|i l IH]; intros z; cbn; auto. Qed.

  Lemma chain_fold_row0 up l : forall V r, subs_ok l -> chain r l ->
    row0 (fold_left (run_sub 0 up) l V) =
    fold_left (fun R rs => put_res R (fst rs) (coef (snd rs) (fst rs) (fun i _ => R i) 0)) l (row0 V).
  Proof.
    induction l as [|[r' s] l IH]; intros V r O C; cbn [fold_left]; auto.
    destruct C as (-> & A & C). inversion O as [|? ? O1 O2]; subst. cbn [snd] in O1.
    rewrite (IH _ (r + sub_res s)); auto. f_equal. rewrite row0_run_sub by auto. cbn [fst snd].
    f_equal. apply coef_ext; [| |exact O1].
    - intros x Hx k Hk. unfold row0. now replace k with 0 by lia.
    - intros; lia.
  Qed.

  Local Ltac chaintac z0 :=
    match goal with W : Forall _ _ |- _ =>
      let A := fresh in let B := fresh in let A' := fresh in
      pose proof (Forall_inv W) as A; pose proof (Forall_inv_tail W) as B;
      try (pose proof (Forall_inv B) as A'; cbn beta in A'); cbn beta in A end;
    assert (z0 + 1 = S z0) as E1 by lia; assert (z0 + 2 = S (S z0)) as E2 by lia;
    assert (z0 + 3 = S (S (S z0))) as E3 by lia; assert (z0 + 4 = S (S (S (S z0)))) as E4 by lia;
    rewrite ?E1, ?E2, ?E3, ?E4; cbn [put_res pget];
    repeat (rewrite fset_eq || rewrite fset_ne by lia); reflexivity.

  Lemma subs_sem0 o a iv l np V : subs o a iv = Some l -> wf_ins np (mkIns o a iv) ->
    num_res o <= iv + 1 ->
    exists res, sem0 o a P V = Some res /\ length res = num_res o /\
    fold_left (fun R rs => put_res R (fst rs) (coef (snd rs) (fst rs) (fun i _ => R i) 0)) l V
    = put_res V (iv + 1 - num_res o) res.
  Proof.
    intros H (W & _) Hiv. cbn [i_op i_arg i_var] in W. pose proof (tl_add0 _ TL) as A0.
    assert (forall (a b c d : T), a = b -> c = d -> [a; c] = [b; d]) as P2 by (intros; congruence).
    destruct o; cbn in H; try discriminate; injection H as <-; cbn [num_res] in *;
      cbn [var_args] in W; (eexists; split; [reflexivity|split; [reflexivity|]]);
      cbn [fold_left fst snd Sweep_Model.coef Nat.eqb];
      try (replace (iv + 1 - 1) with iv by lia); try (replace (iv + 1 - 2) with (iv - 1) by lia);
      try (replace (iv + 1 - 3) with (iv - 2) by lia); try (replace (iv + 1 - 5) with (iv - 4) by lia);
      try reflexivity.
    all: unfold loop; cbn [seq Nat.sub fold_left]; rewrite ?A0; try reflexivity.
    - now rewrite (tl_abs _ TL).
    - rewrite !sum_rows0. reflexivity.
    - chaintac (iv - 4).
    - chaintac (iv - 4).
    - chaintac (iv - 2).
    - chaintac (iv - 2).
  Qed.
  (** the order [j] > 0 equation of one operator *)
  Definition ins_sat (V : nat -> nat -> T) (l2v : nat -> nat) (j : nat) (i : ins) : Prop :=
    match subs (i_op i) (i_arg i) (i_var i) with
    | Some l => sat_subs V l j
    | None => is_load (i_op i) = true ->
        V (i_var i) j = let y := l2v (nth 2 (i_arg i) 0) in if 0 <? y then V y j else b0
    end.
  Definition vec_ok (nv : nat) (isv : nat -> bool) (idx : nat -> nat) : Prop :=
    forall m, isv m = true -> 0 < idx m < nv.
  Definition ld_ok (l2v : nat -> nat) (i : ins) : Prop :=
    is_load (i_op i) = true -> l2v (nth 2 (i_arg i) 0) < i_var i.

  Lemma load_rows_spec (V : nat -> nat -> T) iv y lo up : y < iv ->
    let V' := load_rows V iv y lo up in
    (forall v k, v <> iv \/ k < lo \/ up < k -> V' v k = V v k) /\
    (forall j, lo <= j <= up -> V' iv j = if 0 <? y then V' y j else b0).
  Proof.
    intros Hy. unfold load_rows. set (f := fun j V => pset V iv j (if 0 <? y then V y j else b0)).
    assert (forall n, let V' := loop lo (lo + n) f V in
      (forall v k, v <> iv \/ k < lo \/ lo + n <= k -> V' v k = V v k) /\
      (forall j, lo <= j < lo + n -> V' iv j = if 0 <? y then V' y j else b0)) as K.
    { induction n as [|n IH]; cbn zeta.
      - rewrite Nat.add_0_r, loop_none by lia. split; auto. intros; lia.
      - replace (lo + S n) with (S (lo + n)) by lia. rewrite loop_last by lia.
        set (W := loop lo (lo + n) f V) in *. destruct IH as [F E].
        unfold f, pset. split.
        + intros v k H. destruct (Nat.eqb_spec v iv), (Nat.eqb_spec k (lo + n)); cbn [andb]; try lia; apply F; lia.
        + intros j Hj. destruct (Nat.eqb_spec y iv); [lia|]. cbn [andb]. rewrite Nat.eqb_refl.
          destruct (Nat.eqb_spec j (lo + n)); cbn [andb]; [now subst|]. apply E. lia. }
    destruct (le_lt_dec lo (S up)) as [Hle|Hlt].
    - specialize (K (S up - lo)). replace (lo + (S up - lo)) with (S up) in K by lia.
      destruct K as [F E]. split; intros; [apply F|apply E]; lia.
    - rewrite loop_none by lia. split; auto. intros; lia.
  Qed.

  Lemma row0_set0 (V : nat -> nat -> T) (r : nat -> T) : row0 (set0 V r) = r.
  Proof. reflexivity. Qed.
  Lemma set0_row0 (V : nat -> nat -> T) v k : set0 V (row0 V) v k = V v k.
  Proof. unfold set0, row0. destruct (Nat.eqb_spec k 0); subst; auto. Qed.
  Lemma to0_of0 s (t : fst0 b) : to0 (of0 s t) = t.
  Proof. destruct t. reflexivity. Qed.

  Lemma of0_same s (t : fst0 b) : f_V t = row0 (q_V s) -> q_V (of0 s t) = q_V s.
  Proof.
    intros H. cbn. rewrite H. apply functional_extensionality; intros v.
    apply functional_extensionality; intros k. apply set0_row0.
  Qed.

  Lemma step0_none_V cc i k (s t : fst0 b) : subs (i_op i) (i_arg i) (i_var i) = None ->
    is_load (i_op i) = false -> step0 P cc i k s = Some t -> f_V t = f_V s /\ f_l2v t = f_l2v s.
  Proof.
    destruct i as [o a iv]. cbn [i_op i_arg i_var]. intros H HL E.
    destruct o; cbn in H, HL; try discriminate; cbn [step0 sem0] in E; cbn [cmp_change] in E;
      repeat match type of E with
        | (if ?c then _ else _) = _ => destruct c
        | match ?c with _ => _ end = _ => destruct c
        end; try discriminate; injection E as <-; auto.
  Qed.

  Lemma wf_arg_range np o a iv x : wf_ins np (mkIns o a iv) -> In x (var_args o a) -> 0 < x < iv + 1 - num_res o.
  Proof.
    intros (W & _) H. cbn [i_op i_arg i_var] in W. rewrite Forall_forall in W. apply W in H. lia.
  Qed.

  Lemma step0_vec np nv nl l cc i k (s t : fst0 b) : wfl np nv nl (i :: l) ->
    step0 P cc i k s = Some t -> vec_ok nv (f_isv s) (f_idx s) ->
    vec_ok (nv + num_res (i_op i)) (f_isv t) (f_idx t) /\
    f_skip t = f_skip s /\
    (is_load (i_op i) = true -> f_l2v t (nth 2 (i_arg i) 0) < nv /\
       (forall m, m <> nth 2 (i_arg i) 0 -> f_l2v t m = f_l2v s m)).
  Proof.
    intros (Hiv & W & _ & _ & H0 & _) E K. destruct i as [o a iv]. cbn [i_op i_arg i_var] in *.
    assert (vec_ok (nv + num_res o) (f_isv s) (f_idx s)) as K'
      by (intros m Hm; specialize (K m Hm); lia).
    assert (forall x, In x (var_args o a) -> 0 < x < nv) as WA.
    { intros x Hx. apply (wf_arg_range np o a iv) in Hx; auto. lia. }
    pose proof W as (_ & _ & _ & NC). cbn [i_op] in NC.
    unfold step0 in E.
    destruct (sem0 o a P (f_V s)) eqn:S0.
    { injection E as <-. cbn. split; auto. split; auto. intros L; destruct o; discriminate. }
    destruct (cmp_change o a P (f_V s)) eqn:S1.
    { assert (is_load o = false) as L by (destruct o; try discriminate; auto).
      destruct ((cc =? 0) || negb _); injection E as <-; cbn; (split; [auto|split; auto]);
        rewrite L; discriminate. }
    destruct o; try discriminate; try (injection E as <-; cbn; split; [auto|split; auto]; discriminate);
      try congruence.
    - (* Ldp *) assert (0 < nv) by (apply H0; discriminate).
      destruct (index_of _ _) as [j|]; [|discriminate]. injection E as <-. cbn [f_isv f_idx f_skip f_l2v].
      split; [auto|split; auto]. intros _. rewrite fset_eq. split.
      + destruct (f_isv s (nth 0 a 0 + j)) eqn:Q; [apply K in Q; lia|auto].
      + intros m Hm. now rewrite fset_ne.
    - assert (0 < nv) by (apply H0; discriminate).
      destruct (index_of _ _) as [j|]; [|discriminate]. injection E as <-. cbn [f_isv f_idx f_skip f_l2v].
      split; [auto|split; auto]. intros _. rewrite fset_eq. split.
      + destruct (f_isv s (nth 0 a 0 + j)) eqn:Q; [apply K in Q; lia|auto].
      + intros m Hm. now rewrite fset_ne.
    - destruct (index_of _ _) as [j|]; [|discriminate]. injection E as <-. cbn [f_isv f_idx f_skip f_l2v].
      split; [|split; [auto|discriminate]]. intros m. unfold fset.
      destruct (Nat.eqb_spec m (nth 0 a 0 + j)); [discriminate|]. apply K'.
    - destruct (index_of _ _) as [j|]; [|discriminate]. injection E as <-. cbn [f_isv f_idx f_skip f_l2v].
      split; [|split; [auto|discriminate]]. intros m. unfold fset.
      destruct (Nat.eqb_spec m (nth 0 a 0 + j)); [|apply K']. intros _.
      specialize (WA (nth 2 a 0)). cbn in WA |- *. lia.
    - destruct (index_of _ _) as [j|]; [|discriminate]. injection E as <-. cbn [f_isv f_idx f_skip f_l2v].
      split; [|split; [auto|discriminate]]. intros m. unfold fset.
      destruct (Nat.eqb_spec m (nth 0 a 0 + j)); [discriminate|]. apply K'.
    - destruct (index_of _ _) as [j|]; [|discriminate]. injection E as <-. cbn [f_isv f_idx f_skip f_l2v].
      split; [|split; [auto|discriminate]]. intros m. unfold fset.
      destruct (Nat.eqb_spec m (nth 0 a 0 + j)); [|apply K']. intros _.
      specialize (WA (nth 2 a 0)). cbn in WA |- *. lia.
  Qed.
  Lemma step0_skip cc o a iv k (s t : fst0 b) : o <> CSkipOp ->
    step0 P cc (mkIns o a iv) k s = Some t -> f_skip t = f_skip s.
  Proof.
    intros NC E. unfold step0 in E.
    destruct (sem0 o a P (f_V s)); [injection E as <-; auto|].
    destruct (cmp_change o a P (f_V s)).
    - destruct ((cc =? 0) || negb _); injection E as <-; auto.
    - destruct o; try discriminate; try congruence; try (injection E as <-; auto; fail);
        destruct (index_of _ _); try discriminate; injection E as <-; auto.
  Qed.

  Lemma chain_subs np nv nl i l lp : wfl np nv nl (i :: lp) ->
    subs (i_op i) (i_arg i) (i_var i) = Some l ->
    subs_ok l /\ chain nv l /\ chain_res l = num_res (i_op i) /\ num_res (i_op i) <= i_var i + 1 /\
    i_var i + 1 - num_res (i_op i) = nv.
  Proof.
    intros (Hiv & W & C & _ & H0 & _) E. destruct i as [o a iv]. cbn [i_op i_arg i_var] in *.
    assert (0 < num_res o) by (destruct o; cbn in E; try discriminate; cbn; lia).
    destruct (subs_chain o a iv l np E W) as [A B]; [lia|].
    replace (iv + 1 - num_res o) with nv in * by lia.
    repeat split; auto; try lia.
    unfold subs_ok. destruct o; cbn in E; try discriminate; injection E as <-;
      repeat constructor; cbn; try exact I; try (apply C; auto).
  Qed.

  Lemma step_any_spec np nv nl lp cc lo up i k s s' :
    wfl np nv nl (i :: lp) ->
    (lo = 0 -> vec_ok nv (q_isv s) (q_idx s)) -> (0 < lo -> ld_ok (q_l2v s) i) ->
    step_any cc lo up i k s = Some s' ->
    (forall v j, v < nv \/ nv + num_res (i_op i) <= v \/ j < lo \/ up < j -> q_V s' v j = q_V s v j) /\
    (forall j, Nat.max lo 1 <= j <= up -> ins_sat (q_V s') (q_l2v s') j i) /\
    (forall m, m <> nl \/ 0 < lo -> q_l2v s' m = q_l2v s m) /\
    ld_ok (q_l2v s') i /\ q_skip s' = q_skip s /\
    (subs (i_op i) (i_arg i) (i_var i) = None -> is_load (i_op i) = false ->
       forall v j, q_V s' v j = q_V s v j) /\
    (lo = 0 -> vec_ok (nv + num_res (i_op i)) (q_isv s') (q_idx s') /\
               step0 P cc i k (to0 s) = Some (to0 s')).
  Proof.
    intros W VO LO E. pose proof W as (Hiv & W1 & _ & HL & H0 & _).
    destruct i as [o a iv]. unfold Sweep_Model.step_any in E. cbn [i_op i_arg i_var] in *.
    destruct (subs o a iv) as [l|] eqn:S.
    - (* loops *)
      injection E as <-. cbn [setV q_V q_l2v q_skip q_isv q_idx].
      destruct (chain_subs np nv nl (mkIns o a iv) l lp W S) as (O & C & CR & N1 & N2). cbn [i_op i_var] in *.
      destruct (run_subs_spec bnat P lo up l (q_V s) nv O C) as [F G].
      set (V' := fold_left (run_sub lo up) l (q_V s)) in *.
      assert (is_load o = false) as L by (destruct o; try discriminate; auto).
      split; [|split; [|split; [|split; [|split; [|split]]]]]; auto.
      + intros v j H. apply F. rewrite CR. lia.
      + intros j Hj. unfold ins_sat. cbn [i_op i_arg i_var]. rewrite S. apply G. lia.
      + intros H. cbn in H. congruence.
      + congruence.
      + intros ->. split.
        * intros m Hm. specialize (VO eq_refl m Hm). lia.
        * unfold to0. cbn [setV q_V q_isv q_idx q_l2v q_num q_opi q_skip]. unfold V'. rewrite (chain_fold_row0 up l (q_V s) nv O C).
          destruct (subs_sem0 o a iv l np (row0 (q_V s)) S W1 N1) as (res & E1 & E2 & E3).
          unfold step0. cbn [f_V]. rewrite E1, E2, E3. reflexivity.
    - destruct (is_load o) eqn:L.
      + (* load *)
        assert (num_res o = 1) as NR by (destruct o; try discriminate; auto). rewrite NR in *.
        assert (iv = nv) as -> by lia. specialize (HL eq_refl).
        assert (exists s1, (if lo =? 0 then option_map (of0 s) (step0 P cc (mkIns o a nv) k (to0 s)) else Some s) = Some s1 /\
          s' = setV s1 (load_rows (q_V s1) nv (q_l2v s1 (nth 2 a 0)) (Nat.max lo 1) up)) as (s1 & E1 & ->).
        { destruct o; try discriminate L;
          destruct (if lo =? 0 then _ else _) as [s1|] eqn:E1; try discriminate;
          injection E as <-; eauto. }
        clear E. cbn [setV q_V q_l2v q_skip q_isv q_idx].
        assert (q_l2v s1 (nth 2 a 0) < nv /\ (forall m, m <> nl \/ 0 < lo -> q_l2v s1 m = q_l2v s m) /\
          q_skip s1 = q_skip s /\ (forall v j, v <> nv \/ 0 < j \/ 0 < lo -> q_V s1 v j = q_V s v j) /\
          (lo = 0 -> vec_ok (nv + 1) (q_isv s1) (q_idx s1) /\ step0 P cc (mkIns o a nv) k (to0 s) = Some (to0 s1)))
          as (A & B & C & D & F).
        { destruct (Nat.eqb_spec lo 0) as [->|Hlo].
          - destruct (step0 P cc (mkIns o a nv) k (to0 s)) as [t|] eqn:E0; [|discriminate].
            injection E1 as <-.
            destruct (step0_vec np nv nl lp cc _ k _ _ W E0 (VO eq_refl)) as (V1 & V2 & V3).
            cbn [i_op i_arg] in V1, V3. rewrite NR in V1. destruct (V3 L) as [V4 V5]. rewrite HL in *.
            cbn [of0 q_l2v q_skip q_V q_isv q_idx].
            split; [auto|split; [|split; [auto|split]]].
            + intros m [H|H]; [|lia]. rewrite V5; auto.
            + intros v j H. unfold set0. destruct (Nat.eqb_spec j 0) as [->|]; auto.
              destruct H as [H|H]; [|lia].
              unfold step0 in E0. destruct o; try discriminate L; cbn in E0;
                destruct (index_of _ _); try discriminate; injection E0 as <-; cbn;
                rewrite fset_ne by auto; reflexivity.
            + intros _. split; [auto|destruct t; reflexivity].
          - injection E1 as <-. repeat split; auto; try lia. specialize (LO ltac:(lia)). apply LO; auto. }
        destruct (load_rows_spec (q_V s1) nv (q_l2v s1 (nth 2 a 0)) (Nat.max lo 1) up A) as [F1 F2].
        set (V' := load_rows (q_V s1) nv (q_l2v s1 (nth 2 a 0)) (Nat.max lo 1) up) in *.
        split; [|split; [|split; [|split; [|split; [|split]]]]]; auto.
        * intros v j H. rewrite F1 by lia. apply D. lia.
        * intros j Hj. unfold ins_sat. cbn [i_op i_arg i_var]. rewrite S. intros _. cbn [setV q_V q_l2v].
          apply F2. lia.
        * intros _. exact A.
        * discriminate.
        * intros Hz. specialize (F Hz). destruct F as [F3 F4]. split; auto. rewrite F4. f_equal.
          unfold to0. cbn [setV q_V]. f_equal. apply functional_extensionality. intros v.
          unfold row0. rewrite F1; auto. lia.
      + (* no taylor coefficient *)
        assert (step0 P cc (mkIns o a iv) k (to0 s) = Some (to0 s') /\ s' = of0 s (to0 s') \/
                s' = s /\ 0 < lo) as K.
        { destruct (step0 P cc (mkIns o a iv) k (to0 s)) as [t|] eqn:E0.
          - destruct o; try discriminate; cbn [option_map] in E;
              try (injection E as <-; left; rewrite to0_of0; auto; fail);
              destruct (Nat.eqb_spec lo 0); injection E as <-; rewrite ?to0_of0;
              (left; now split) || (right; split; [auto|lia]).
          - destruct o; try discriminate; cbn [option_map] in E; try discriminate E;
              destruct (Nat.eqb_spec lo 0); try discriminate E; injection E as <-; right; split; auto; lia. }
        assert ((forall v j, q_V s' v j = q_V s v j) /\ (forall m, q_l2v s' m = q_l2v s m) /\
          q_skip s' = q_skip s /\
          (lo = 0 -> vec_ok (nv + num_res o) (q_isv s') (q_idx s') /\
             step0 P cc (mkIns o a iv) k (to0 s) = Some (to0 s'))) as (A & B & C & D).
        { destruct K as [[K1 K2]|[-> Hlo]].
          - destruct (step0_none_V cc (mkIns o a iv) k _ _ S L K1) as [K3 K4].
            split; [|split; [|split]].
            + intros v j. transitivity (q_V (of0 s (to0 s')) v j); [now rewrite <- K2|]. rewrite of0_same; auto.
            + intros m. change (f_l2v (to0 s') m = f_l2v (to0 s) m). now rewrite K4.
            + change (f_skip (to0 s') = f_skip (to0 s)).
              pose proof W1 as (_ & _ & _ & NC). cbn in NC. eapply step0_skip; [exact NC|exact K1].
            + intros Hz. split; auto.
              apply (step0_vec np nv nl lp cc (mkIns o a iv) k _ _ W K1 (VO Hz)).
          - repeat split; auto; lia. }
        split; [|split; [|split; [|split; [|split; [|split]]]]]; auto.
        * intros j Hj. unfold ins_sat. cbn [i_op i_arg i_var]. rewrite S, L. discriminate.
        * intros H. cbn in H. congruence.
  Qed.

  Lemma ins_sat_ext np nv nl lp i V V' (l2v l2v' : nat -> nat) j : wfl np nv nl (i :: lp) ->
    ld_ok l2v i ->
    (forall v k, v < nv + num_res (i_op i) -> k <= j -> V v k = V' v k) ->
    (is_load (i_op i) = true -> l2v nl = l2v' nl) ->
    ins_sat V l2v j i -> ins_sat V' l2v' j i.
  Proof.
    intros W LO H HL S. unfold ins_sat in *. destruct (subs (i_op i) (i_arg i) (i_var i)) as [l|] eqn:E.
    - destruct (chain_subs np nv nl i l lp W E) as (O & C & CR & N1 & N2).
      eapply (sat_subs_ext bnat P V V' l nv j O C); [|exact S]. rewrite CR. exact H.
    - intros L. specialize (S L). specialize (LO L). specialize (HL L).
      pose proof W as (Hiv & _ & _ & HN & H0 & _). specialize (HN L). rewrite HN in *.
      assert (num_res (i_op i) = 1) as NR by (destruct (i_op i); try discriminate; auto).
      rewrite NR in *. rewrite <- H by lia. rewrite S. rewrite <- HL. cbn zeta.
      destruct (0 <? l2v nl); auto. apply H; lia.
  Qed.

  Lemma wfl_ge np l : forall nv nl i, wfl np nv nl l -> In i l -> 0 < num_res (i_op i) -> nv <= i_var i.
  Proof.
    induction l as [|h l IH]; intros nv nl i W []; destruct W as (Q & _ & _ & _ & _ & W2).
    - subst. lia.
    - intros Hr. eapply IH in W2; eauto. lia.
  Qed.

  (** the whole sweep *)
  Lemma sweep_any_spec np cc lo up l : forall nv nl k s s',
    wfl np nv nl l -> (forall j, q_skip s j = false) ->
    (lo = 0 -> vec_ok nv (q_isv s) (q_idx s)) -> (0 < lo -> Forall (ld_ok (q_l2v s)) l) ->
    sweep_any cc lo up l k s = Some s' ->
    (forall v j, v < nv \/ j < lo \/ up < j -> q_V s' v j = q_V s v j) /\
    (forall j, Nat.max lo 1 <= j <= up -> Forall (ins_sat (q_V s') (q_l2v s') j) l) /\
    (forall m, m < nl \/ 0 < lo -> q_l2v s' m = q_l2v s m) /\
    Forall (ld_ok (q_l2v s')) l /\
    (forall i v j, In i l -> i_op i = InvOp -> v = i_var i -> q_V s' v j = q_V s v j) /\
    (lo = 0 -> sweep0 P cc l k (to0 s) = Some (to0 s')).
  Proof.
    induction l as [|i l IH]; intros nv nl k s s' W HS VO LO E; cbn [Sweep_Model.sweep_any] in E.
    - injection E as <-. repeat split; auto; intros; destruct H.
    - rewrite HS in E. destruct (step_any cc lo up i k s) as [s1|] eqn:E1; [|discriminate].
      pose proof W as (Hiv & W1 & _ & HL & H0 & W2).
      assert (0 < lo -> ld_ok (q_l2v s) i) as LO1 by (intros H; specialize (LO H); now inversion LO).
      destruct (step_any_spec np nv nl l cc lo up i k s s1 W VO LO1 E1) as (A & B & C & D & F & G & I).
      assert (forall j, q_skip s1 j = false) as HS1 by (intros; rewrite F; auto).
      set (nl' := if is_load (i_op i) then S nl else nl) in *.
      destruct (IH _ _ (S k) s1 s' W2 HS1) as (A2 & B2 & C2 & D2 & E2 & F2); auto.
      { intros Hz. apply I; auto. }
      { intros Hz. specialize (LO Hz). inversion LO as [|? ? _ L2]; subst.
        eapply Forall_impl; [|exact L2]. intros i' Hi' Q. rewrite C by auto. apply Hi'; auto. }
      assert (is_load (i_op i) = true -> q_l2v s1 nl = q_l2v s' nl) as KL.
      { intros Q. rewrite C2; auto. unfold nl'. rewrite Q. lia. }
      assert (ld_ok (q_l2v s') i) as LF.
      { intros Q. specialize (D Q). rewrite HL in * by auto. rewrite <- KL; auto. }
      split; [|split; [|split; [|split; [|split]]]].
      + intros v j H. rewrite A2 by lia. apply A. lia.
      + intros j Hj. constructor; auto.
        apply (ins_sat_ext np nv nl l i (q_V s1) (q_V s') (q_l2v s1) (q_l2v s') j W D); auto.
        intros v k' Hv Hk'. symmetry. apply A2. lia.
      + intros m Hm. rewrite C2; [apply C|]; try lia.
        unfold nl'. destruct (is_load (i_op i)); lia.
      + constructor; auto.
      + intros i' v j [<-|Hin] Hop Hv.
        * destruct i as [o a iv]. cbn [i_op i_arg i_var] in *. subst o.
          cbn [num_res] in *. rewrite A2 by lia. apply G; auto.
        * rewrite (E2 i' v j Hin Hop Hv).
          assert (nv + num_res (i_op i) <= v) as Hge.
          { subst v. eapply wfl_ge; eauto. rewrite Hop; cbn; lia. }
          apply A. lia.
      + intros Hz. cbn [sweep0]. replace (f_skip (to0 s) k) with false by (symmetry; apply HS).
        destruct (I Hz) as [_ ->]. apply F2; auto.
  Qed.
End SweepTape.
