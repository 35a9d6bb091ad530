(** Simulation between recording and replay: start of the recording, histories
    of calls. *)
From Coq Require Import ZArith List Bool Arith Lia.
From Verif Require Import Base_Spec Op_Model Tape_Spec Tape_Model Tape_Proof Tape_Proof2 Tape_Proof3
  Tape_Proof4 Tape_Proof5 Tape_Proof6 Tape_Proof7 Tape_Proof8 Tape_Val Tape_Dwf Tape_Proof9.
Import ListNotations.

Section Init.
  Context {b : base}.
  Notation T := (bt b).
  Variable tid : nat.

  Lemma ind_loop_spec n : forall k (r : rec b) e,
    let re := ind_loop tid k n r e in
    fst re = mkRec (r_cmp r) (r_nvar r + n) (r_nload r) (r_op r ++ repeat InvOp n) (r_arg r) (r_vec r)
             (r_hash r) (r_par r) (r_isdyn r) (r_dop r) (r_darg r) /\
    (0 < r_nvar r -> forall i, snd re i = if (k <=? i) && (i <? k + n)
        then mkAD (a_val (e i)) tid (r_nvar r + (i - k)) T_var else e i).
  Proof.
    induction n as [|n IH]; intros k r e; cbn [ind_loop].
    - cbn [fst snd repeat]. rewrite app_nil_r, !Nat.add_0_r. split; [now destruct r|].
      intros _ i. destruct (Nat.leb_spec k i), (Nat.ltb_spec i k); cbn [andb]; auto; lia.
    - cbn [put_op]. cbn [num_res]. 
      set (r1 := mkRec _ _ _ _ _ _ _ _ _ _ _). specialize (IH (S k) r1).
      match goal with |- context [ind_loop tid (S k) n r1 ?f] => specialize (IH f) end.
      destruct IH as [A B]. cbn zeta. split.
      + rewrite A. subst r1. cbn. rewrite <- app_assoc. cbn. f_equal. lia.
      + intros N i. rewrite B by (subst r1; cbn; lia). subst r1. cbn [r_nvar].
        unfold fset.
        destruct (Nat.leb_spec (S k) i), (Nat.ltb_spec i (S k + n)), (Nat.leb_spec k i), (Nat.ltb_spec i (k + S n)),
          (Nat.eqb_spec i k); cbn; try lia; auto; try (subst; f_equal; lia); try (f_equal; lia).
  Qed.

  Lemma dyn_ind_loop_spec nx n : forall k (r : rec b) e,
    let re := dyn_ind_loop tid nx k n r e in
    fst re = mkRec (r_cmp r) (r_nvar r) (r_nload r) (r_op r) (r_arg r) (r_vec r)
             (r_hash r) (r_par r ++ map (fun j => a_val (e (nx + j))) (seq k n))
             (r_isdyn r ++ repeat true n) (r_dop r ++ repeat ind_dyn n) (r_darg r) /\
    (forall i, snd re i = if (nx + k <=? i) && (i <? nx + k + n)
        then mkAD (a_val (e i)) tid (S (i - nx)) T_dyn else e i).
  Proof.
    induction n as [|n IH]; intros k r e; cbn [dyn_ind_loop].
    - cbn [fst snd repeat map seq]. rewrite !app_nil_r. split; [now destruct r|].
      intros i. destruct (Nat.leb_spec (nx + k) i), (Nat.ltb_spec i (nx + k + 0)); cbn [andb]; auto; lia.
    - cbn [put_dyn_par].
      set (r1 := mkRec _ _ _ _ _ _ _ _ _ _ _). specialize (IH (S k) r1).
      match goal with |- context [dyn_ind_loop tid nx (S k) n r1 ?f] => specialize (IH f) end.
      destruct IH as [A B]. cbn zeta. split.
      + rewrite A. subst r1. cbn. rewrite <- !app_assoc. cbn. rewrite app_nil_r. f_equal.
        f_equal. f_equal. apply map_ext_in. intros j Hj. apply in_seq in Hj. unfold fset.
        destruct (Nat.eqb_spec (nx + j) (nx + k)); [lia|auto].
      + intros i. rewrite B. subst r1. unfold fset.
        destruct (Nat.leb_spec (nx + S k) i), (Nat.ltb_spec i (nx + S k + n)), (Nat.leb_spec (nx + k) i),
          (Nat.ltb_spec i (nx + k + S n)), (Nat.eqb_spec i (nx + k)); cbn; try lia; auto;
          try (subst; f_equal; lia); try (f_equal; lia).
  Qed.

  Lemma independent_spec cmp n np (e : nat -> AD b) ev :
    let s := independent tid cmp n np e ev in
    (exists h, st_rec s = mkRec cmp (1 + n) 0 (BeginOp :: repeat InvOp n) [0] [] h
       (bnan :: map (fun j => a_val (e (n + j))) (seq 0 np)) (false :: repeat true np) (repeat ind_dyn np) []) /\
    st_v s = ev /\
    (forall i, st_r s i = if i <? n then mkAD (a_val (e i)) tid (S i) T_var
       else if i <? n + np then mkAD (a_val (e i)) tid (S (i - n)) T_dyn else e i).
  Proof.
    unfold independent. set (r2 := put_arg _ _).
    destruct (ind_loop_spec n 0 r2 e) as [A B].
    destruct (ind_loop tid 0 n r2 e) as [r3 e1]. cbn [fst snd] in A, B.
    assert (put_con_par r3 bnan = (mkRec cmp (1 + n) 0 (BeginOp :: repeat InvOp n) [0] []
        (fset (r_hash r3) (bhash (@bnan b)) 0) [bnan] [false] [] [], 0)) as ->.
    { unfold put_con_par. rewrite A. reflexivity. }
    set (r4 := mkRec _ _ _ _ _ _ _ _ _ _ _).
    destruct (dyn_ind_loop_spec n np 0 r4 e1) as [C D].
    destruct (dyn_ind_loop tid n 0 np r4 e1) as [r5 e2]. cbn [fst snd] in C, D. cbn zeta. cbn [st_rec st_v st_r].
    assert (forall i, e1 i = if i <? n then mkAD (a_val (e i)) tid (S i) T_var else e i) as B'.
    { intros i. rewrite B by (cbn; lia). cbn. rewrite Nat.sub_0_r. auto. }
    split; [|split; auto].
    - exists (fset (r_hash r3) (bhash (@bnan b)) 0). rewrite C. subst r4. cbn. f_equal. f_equal. apply map_ext_in. intros j Hj. rewrite B'.
      destruct (Nat.ltb_spec (n + j) n); [lia|auto].
    - intros i. rewrite D, B'.
      destruct (Nat.ltb_spec i n), (Nat.ltb_spec i (n + np)), (Nat.leb_spec (n + 0) i),
        (Nat.ltb_spec i (n + 0 + np)); cbn; try lia; auto.
  Qed.
End Init.

Section Main.
  Context {b : base} (L : base_laws b).
  Notation T := (bt b).
  Variable tid : nat.
  Hypothesis tid0 : tid <> 0.
  Variables (cmp : bool) (n np : nat) (e : nat -> AD b) (ev : nat -> VecAD b) (p : prog T).
  Hypothesis fresh_e : forall i, a_tid (e i) <> tid.
  Hypothesis fresh_v : forall i, v_tid (ev i) <> tid.

  Let env0 : senv b := mkEnv (fun i => a_val (e i)) (fun i => v_data (ev i)).
  Let st0 := independent tid cmp n np e ev.
  Let p0 : list T := map (fun j => a_val (e (n + j))) (seq 0 np).

  Lemma vals0 : vals st0 env0.
  Proof.
    destruct (independent_spec tid cmp n np e ev) as (_ & B & C). split; intros i; unfold st0, env0; cbn [sr sv].
    - rewrite C. destruct (_ <? _); auto. destruct (_ <? _); auto.
    - now rewrite B.
  Qed.

  Lemma set_ind_at x : forall V j k, k < length x -> set_ind V j x (S (j + k)) = nth k x (@b0 b).
  Proof.
    assert (forall (x : list T) V j i, i <= j -> set_ind V j x i = V i) as F.
    { clear. induction x as [|v x IH]; intros V j i H; cbn; auto. rewrite IH by lia. apply fset_ne. lia. }
    induction x as [|v x IH]; intros V j k H; cbn in *; [lia|]. destruct k.
    - rewrite Nat.add_0_r, F by lia. now rewrite fset_eq.
    - replace (S (j + S k)) with (S (S j + k)) by lia. apply IH. lia.
  Qed.

  Lemma decode_inv m : forall nv, 0 < nv ->
    decode (repeat InvOp m) [] nv = Some (map (fun k => mkIns InvOp [] (nv + k)) (seq 0 m)).
  Proof.
    induction m as [|m IH]; intros nv H; cbn; auto.
    rewrite IH by lia. f_equal. f_equal; [f_equal; lia|].
    rewrite <- seq_shift, map_map. apply map_ext. intros k. f_equal. lia.
  Qed.

  Lemma sweep_inv (P : nat -> T) cc l : forall k s, (forall j, f_skip s j = false) ->
    Forall (fun i => i_op i = InvOp) l -> sweep0 P cc l k s = Some s.
  Proof.
    induction l as [|[o a iv] l IH]; intros k s H F; cbn [sweep0]; auto. rewrite H.
    inversion F; subst. cbn in *. subst o. cbn. apply IH; auto.
  Qed.

  Lemma nres_inv m : nres (repeat InvOp m) = m.
  Proof. induction m; cbn; auto. Qed.
  Lemma dyn2par_rep m : forall i, dyn2par (repeat true m) i = seq i m.
  Proof. induction m; intros i; cbn; auto. now rewrite IHm. Qed.
  Lemma dargs_rep m : dargs (repeat ind_dyn m) = 0.
  Proof. induction m; cbn; auto. Qed.
  Lemma dents_rep m : forall i, dents (repeat ind_dyn m) (seq i m) [] = map (fun k => (k, ind_dyn, [])) (seq i m).
  Proof. induction m; intros i; cbn; auto. now rewrite IHm. Qed.

  (** the state right after Independent *)
  Lemma init_ok (x1 p1 : list T) P cc V vec0 l2v (same : Prop) :
    length x1 = n -> length p1 = np ->
    (forall k, k < n -> V (S k) = nth k x1 b0) ->
    (forall k, k < np -> P (S k) = nth k p1 b0) ->
    (same -> (forall i, i < n -> nth i x1 b0 = a_val (e i)) /\ p1 = p0) ->
    Inv tid P cc V vec0 l2v same st0 env0 (start env0 x1 p1) (s_init V vec0 l2v).
  Proof.
    intros Lx Lp HV HP Hs.
    destruct (independent_spec tid cmp n np e ev) as ((h & A) & B & C). fold st0 in A, B, C.
    constructor.
    - rewrite A. constructor; cbn [r_nvar r_op r_arg r_par r_isdyn r_dop r_darg].
      + constructor; unfold dentries; cbn [r_nvar r_op r_arg r_par r_isdyn r_dop r_darg dyn2par].
        * cbn. rewrite map_length, seq_length, repeat_length. auto.
        * rewrite dyn2par_rep, seq_length, repeat_length. auto.
        * now rewrite dargs_rep.
        * rewrite dyn2par_rep, dents_rep. intros i o a j Hin. apply in_map_iff in Hin as (k & Hk & _).
          injection Hk as <- <- <-. easy.
      + cbn. now rewrite nres_inv.
      + lia.
      + cbn. lia.
      + exists (mkIns BeginOp [0] 0 :: map (fun k => mkIns InvOp [] (1 + k)) (seq 0 n)). split; [|split].
        * cbn [decode n_actual num_arg]. cbn. change (decode (repeat InvOp n) [] 1) with (decode (repeat InvOp n) [] 1).
          rewrite decode_inv by lia. reflexivity.
        * cbn [sweep0]. change (f_skip (s_init V vec0 l2v) 0) with false. cbn [step0 sem0 cmp_change].
          apply sweep_inv; auto. apply Forall_forall. intros i Hi. apply in_map_iff in Hi as (k & <- & _). auto.
        * constructor.
          -- split; [|split; [|split]]; cbn; auto; easy.
          -- apply Forall_forall. intros i Hi. apply in_map_iff in Hi as (k & <- & _).
             split; [|split; [|split]]; cbn; auto; easy.
      + auto.
    - intros i. rewrite C, A. unfold rel, start. cbn [sr env0 a_val r_par r_nvar].
      rewrite Lx, Lp. destruct (Nat.ltb_spec i n) as [H|H].
      + cbn. rewrite Nat.eqb_refl. split; [auto|split; [intros S; now apply Hs|]].
        split; [auto|split; [lia|]]. rewrite HV by auto. auto.
      + destruct (Nat.ltb_spec i (n + np)) as [H1|H1].
        * cbn. rewrite Nat.eqb_refl, map_length, seq_length.
          split; [auto|split].
          { intros S. destruct (Hs S) as [_ ->]. unfold p0.
            assert (nth (i - n) (map (fun j => a_val (e (n + j))) (seq 0 np)) b0 = a_val (e (n + nth (i - n) (seq 0 np) 0))) as ->.
            { rewrite (nth_indep _ _ (a_val (e (n + 0)))) by (rewrite map_length, seq_length; lia).
              now rewrite map_nth with (f := fun j => a_val (e (n + j))). }
            rewrite seq_nth by lia. do 2 f_equal. lia. }
          split; [lia|]. rewrite HP by lia. auto.
        * cbn. split; [auto|split; [auto|]].
          rewrite (proj2 (Nat.eqb_neq _ _) (fresh_e i)). auto.
    - intros i. rewrite B, A. unfold vrel, start. cbn [sv env0].
      split; [auto|split; [auto|split; [auto|]]].
      now rewrite (proj2 (Nat.eqb_neq _ _) (fresh_v i)).
    - rewrite B. intros i j _ H. exfalso. now apply (fresh_v i).
    - intros i _. cbn. auto.
  Qed.

  Lemma Pok_init P p1 (r : rec b) : length p1 = np -> pre (st_rec st0) r -> Pok p1 P r ->
    forall k, k < np -> P (S k) = nth k p1 b0.
  Proof.
    intros Lp X HP k Hk.
    destruct (independent_spec tid cmp n np e ev) as ((h & A) & _ & _). fold st0 in A.
    assert (Pok p1 P (st_rec st0)) as [_ H].
    { assert (lwf (st_rec st0)) as W.
      { rewrite A. constructor; cbn.
        - now rewrite map_length, seq_length, repeat_length.
        - now rewrite dyn2par_rep, seq_length, repeat_length.
        - now rewrite dargs_rep. }
      eapply (Pok_lext tid tid0); [exact W|apply (X W)|exact HP]. }
    specialize (H k (S k) ind_dyn []). rewrite H; auto.
    rewrite A. unfold dentries. cbn [r_isdyn r_dop r_darg dyn2par]. rewrite dyn2par_rep, dents_rep.
    rewrite nth_error_map. rewrite (nth_error_nth' _ 0) by (rewrite seq_length; auto).
    cbn. now rewrite seq_nth by auto.
  Qed.

  Variables (V00 : nat -> T) (l2v00 : nat -> nat) (f : adfun b).
  Hypothesis Hrec : record_fun tid cmp n np e ev p V00 l2v00 = Some f.
  Hypothesis Hok : prog_ok tid p st0.

  Lemma rec_exec : exec tid p st0 = Some (g_rec f, g_dep f) /\ g_n f = n /\
    g_par f = (fun i => nth i (r_par (g_rec f)) bnan) /\ g_cc f = 1 /\ g_num f = 0.
  Proof.
    unfold record_fun in Hrec. fold st0 in Hrec.
    destruct (exec tid p st0) as [[r dep]|]; [|discriminate].
    injection Hrec as <-. cbn. auto.
  Qed.

  Lemma pre_rec : pre (st_rec st0) (g_rec f).
  Proof. eapply pre_exec. apply rec_exec. Qed.

  Lemma pareq0 P (x1 : list T) cc V vec0 l2v :
    length x1 = n -> Pok p0 P (g_rec f) -> Vok vec0 (g_rec f) ->
    (forall k, k < n -> V (S k) = nth k x1 b0) ->
    (forall i, i < n -> nth i x1 b0 = a_val (e i)) ->
    exists s, tape_ok P cc V vec0 l2v (g_rec f) s /\ pareq P (g_rec f) /\
      Forall (fun t => 0 < t < r_nvar (g_rec f)) (g_dep f).
  Proof.
    intros Lx HP HVo HV Hx.
    assert (length p0 = np) as Lp by (unfold p0; now rewrite map_length, seq_length).
    pose proof (Pok_init P p0 _ Lp pre_rec HP) as HPk.
    destruct rec_exec as (EX & _).
    pose proof (exec_sim L tid tid0 p0 P cc V vec0 l2v True p st0 env0 (start env0 x1 p0) (s_init V vec0 l2v)
      (g_rec f) (g_dep f)) as S.
    specialize (S (init_ok x1 p0 P cc V vec0 l2v True Lx Lp HV HPk (fun _ => conj Hx eq_refl)) EX Hok HP HVo).
    assert (follow p (start env0 x1 p0) (decisions p env0) <> None) as NN.
    { pose proof (exec_vals L tid p st0 env0 vals0) as EV. rewrite EX in EV. destruct EV as [ys EV].
      assert (forall q (e1 e2 : senv b), (forall i, sr e1 i = sr e2 i) -> (forall i, sv e1 i = sv e2 i) ->
        eval q e1 = eval q e2 /\ (forall ds, follow q e1 ds = follow q e2 ds)) as EXT.
      { clear. intros q. induction q as [ys|i q IH|c l rt pt IHt pf IHf]; intros e1 e2 A B; cbn [eval follow].
        - assert (map (sr e1) ys = map (sr e2) ys) as -> by (now apply map_ext). auto.
        - assert (match step_spec i e1, step_spec i e2 with
                  | Some a, Some c => (forall i, sr a i = sr c i) /\ (forall i, sv a i = sv c i)
                  | None, None => True | _, _ => False end) as ST.
          { assert (forall d v, (forall j, sr (set_r e1 d v) j = sr (set_r e2 d v) j) /\
                                (forall j, sv (set_r e1 d v) j = sv (set_r e2 d v) j)) as SR.
            { intros d v. split; intros j; cbn; auto. unfold fset. now destruct (j =? d). }
            destruct i; cbn [step_spec]; rewrite ?A, ?B; auto.
            - destruct (index_of _ _); auto.
            - destruct (index_of _ _); auto. split; intros j; cbn; auto. unfold fset. now destruct (j =? v). }
          destruct (step_spec i e1), (step_spec i e2); try easy. destruct ST. auto.
        - rewrite !A. destruct (IHt e1 e2 A B) as [T1 T2], (IHf e1 e2 A B) as [F1 F2].
          split; [now rewrite T1, F1|]. intros [|d ds]; auto. destruct d; now rewrite ?T2, ?F2. }
      destruct (EXT p (start env0 x1 p0) env0) as [E1 E2].
      { intros i. cbn [start sr env0]. rewrite Lx, Lp. destruct (Nat.ltb_spec i n); [now apply Hx|].
        destruct (Nat.ltb_spec i (n + np)); auto. unfold p0.
        rewrite (nth_indep _ _ (a_val (e (n + 0)))) by (rewrite map_length, seq_length; lia).
        rewrite map_nth with (f := fun j => a_val (e (n + j))). rewrite seq_nth by lia. do 2 f_equal. lia. }
      { auto. }
      rewrite E2, (follow_self p env0 ys EV). discriminate. }
    destruct (follow p (start env0 x1 p0) (decisions p env0)) as [[ys m]|]; [|easy].
    destruct S as (s & A & B & C & D & F).
    - intros _. destruct (independent_spec tid cmp n np e ev) as ((h & A) & _ & _). fold st0 in A.
      intros i Hi. rewrite A in *. cbn [r_par] in *. destruct i as [|i].
      + destruct HP as [HP1 _]. destruct (pre_rec) as [[_ _ [q1 Q1] [q2 Q2] _ _] _ _ _].
        { rewrite A. constructor; cbn.
          - now rewrite map_length, seq_length, repeat_length.
          - now rewrite dyn2par_rep, seq_length, repeat_length.
          - now rewrite dargs_rep. }
        rewrite A in Q1, Q2. cbn [r_par r_isdyn] in Q1, Q2.
        rewrite HP1; rewrite ?Q1, ?Q2; cbn; auto. lia.
      + cbn in Hi. rewrite map_length, seq_length in Hi. rewrite HPk by lia. cbn. fold p0.
        apply nth_indep. lia.
    - exists s. auto.
  Qed.

  (** the parameters left by the recording solve the equations *)
  Lemma dwf_rec : dwf (g_rec f).
  Proof.
    destruct rec_exec as (EX & _). apply (dwf_exec tid tid0 p st0 (g_rec f) (g_dep f)); auto.
    destruct (independent_spec tid cmp n np e ev) as ((h & A) & B & C). fold st0 in A, B, C. split.
    - rewrite A. constructor; unfold dentries; cbn [r_nvar r_op r_arg r_par r_isdyn r_dop r_darg dyn2par].
      + cbn. rewrite map_length, seq_length, repeat_length. auto.
      + rewrite dyn2par_rep, seq_length, repeat_length. auto.
      + now rewrite dargs_rep.
      + rewrite dyn2par_rep, dents_rep. intros i o a j Hin. apply in_map_iff in Hin as (k & Hk & _).
        injection Hk as <- <- <-. easy.
    - intros i. unfold Da. rewrite C, A. cbn [r_par]. unfold is_dyn.
      destruct (Nat.ltb_spec i n); [cbn; rewrite andb_false_r; easy|].
      destruct (Nat.ltb_spec i (n + np)); cbn.
      + intros _. rewrite map_length, seq_length. cbn. lia.
      + rewrite (proj2 (Nat.eqb_neq _ _) (fresh_e i)). easy.
  Qed.

  Let x0 : list T := map (fun i => a_val (e i)) (seq 0 n).
  Lemma x0_nth i : i < n -> nth i x0 b0 = a_val (e i).
  Proof.
    intros Hi. unfold x0. rewrite (nth_indep _ _ (a_val (e 0))) by (rewrite map_length, seq_length; auto).
    rewrite map_nth with (f := fun i => a_val (e i)). now rewrite seq_nth by auto.
  Qed.

  Lemma Pok_rec : Pok p0 (g_par f) (g_rec f).
  Proof.
    destruct rec_exec as (_ & _ & EP & _).
    assert (Lx : length x0 = n) by (unfold x0; now rewrite map_length, seq_length).
    set (V := set_ind (fun _ => b0) 0 x0).
    assert (HV : forall k, k < n -> V (S k) = nth k x0 b0).
    { intros k Hk. apply (set_ind_at x0 (fun _ => b0) 0 k). lia. }
    set (P := dyn_sweep (g_rec f) p0 (g_par f)).
    assert (HP : Pok p0 P (g_rec f)).
    { apply dyn_sweep_ok; [apply dwf_rec|]. intros i _ _. now rewrite EP. }
    destruct (pareq0 P x0 1 V (fun i => nth i (r_vec (g_rec f)) 0) (fun _ => 0) Lx HP) as (s & _ & Q & _); auto.
    { intros i _. reflexivity. }
    { exact x0_nth. }
    assert (forall i, P i = g_par f i) as E.
    { intros i. destruct (Nat.lt_ge_cases i (length (r_par (g_rec f)))) as [H|H].
      - rewrite (Q i H), EP. auto.
      - unfold P, dyn_sweep. rewrite dyn_loop_frame; auto. intros F. apply dyn2par_ge in F.
        rewrite (w_isd _ dwf_rec) in F. lia. }
    destruct HP as [H1 H2]. split.
    - intros i Hi Hd. rewrite <- E. auto.
    - intros k i o a Hk. rewrite <- E, (H2 _ _ _ _ Hk). apply dyn_sem_ext. intros; auto.
  Qed.

  (** invariant of the calls on f *)
  Record fok (g : adfun b) (cur : list T) : Prop := {
    fo_rec : g_rec g = g_rec f;
    fo_dep : g_dep g = g_dep f;
    fo_n   : g_n g = n;
    fo_cur : length cur = np;
    fo_par : Pok cur (g_par g) (g_rec f)
  }.
  Lemma fok0 : fok f p0.
  Proof.
    destruct rec_exec as (_ & En & _). constructor; auto; try apply Pok_rec.
    unfold p0. now rewrite map_length, seq_length.
  Qed.
  Lemma fok_new_dynamic g cur d : fok g cur -> length d = np -> fok (new_dynamic g d) d.
  Proof.
    intros [A B C D E] Hd. constructor; cbn; auto. rewrite A.
    apply dyn_sweep_ok; [apply dwf_rec|]. apply E.
  Qed.
  Lemma fok_count g cur c : fok g cur -> fok (set_compare_change_count g c) cur.
  Proof. intros []. constructor; auto. Qed.

  (** the tape can always be decoded and is well formed *)
  Lemma wf_rec : exists l, decode (r_op (g_rec f)) (r_arg (g_rec f)) 0 = Some l /\
    Forall (wf_ins (length (r_par (g_rec f)))) l /\ r_nvar (g_rec f) = nres (r_op (g_rec f)) /\
    Forall (fun t => 0 < t < r_nvar (g_rec f)) (g_dep f).
  Proof.
    assert (Lx : length x0 = n) by (unfold x0; now rewrite map_length, seq_length).
    set (V := set_ind (fun _ => b0) 0 x0).
    assert (HV : forall k, k < n -> V (S k) = nth k x0 b0).
    { intros k Hk. apply (set_ind_at x0 (fun _ => b0) 0 k). lia. }
    destruct (pareq0 (g_par f) x0 1 V (fun i => nth i (r_vec (g_rec f)) 0) (fun _ => 0) Lx Pok_rec)
      as (s & K & _ & F); auto.
    { intros i _. reflexivity. }
    { exact x0_nth. }
    destruct (t_dec _ _ _ _ _ _ _ K) as (l & D1 & _ & D3). exists l. split; [auto|split; [auto|split; [|auto]]].
    apply (t_nv _ _ _ _ _ _ _ K).
  Qed.

  Lemma forward0_ok g cur x1 : fok g cur -> length x1 = n ->
    match follow p (start env0 x1 cur) (decisions p env0) with
    | Some (ys, m) => exists g', forward0 g x1 = Some (ys, g') /\ fok g' cur /\
        (g_cc g <> 0 -> g_num g' = if cmp then m else 0)
    | None => forward0 g x1 = None
    end.
  Proof.
    intros [A B C D E] Hx. destruct rec_exec as (EX & _).
    unfold forward0. rewrite A, B.
    destruct wf_rec as (l & DL & _). rewrite DL.
    set (V := set_ind (fun i => if i <? r_nvar (g_rec f) then bnan else g_V g i) 0 x1).
    assert (HV : forall k, k < n -> V (S k) = nth k x1 b0).
    { intros k Hk. apply (set_ind_at x1 _ 0 k). lia. }
    pose proof (Pok_init (g_par g) cur _ D pre_rec E) as HPk.
    set (vec0 := fun i => nth i (r_vec (g_rec f)) 0).
    assert (HVo : Vok vec0 (g_rec f)) by (intros i _; reflexivity).
    pose proof (exec_sim L tid tid0 cur (g_par g) (g_cc g) V vec0 (g_l2v g) False p st0 env0 (start env0 x1 cur)
      (s_init V vec0 (g_l2v g)) (g_rec f) (g_dep f)) as S.
    specialize (S (init_ok x1 cur (g_par g) (g_cc g) V vec0 (g_l2v g) False Hx D HV HPk (False_ind _)) EX Hok E HVo
      (False_ind _)).
    change (init0 (g_rec f) V (g_l2v g)) with (s_init V vec0 (g_l2v g)).
    destruct (follow p (start env0 x1 cur) (decisions p env0)) as [[ys m]|].
    - destruct S as (s & K & M & F & N & _).
      destruct (t_dec _ _ _ _ _ _ _ K) as (l' & D1 & D2 & D3). rewrite DL in D1. injection D1 as <-.
      rewrite D2, M. eexists; split; [reflexivity|]. split; [constructor; cbn; auto|].
      intros Hc. cbn. rewrite (N Hc). cbn.
      destruct (independent_spec tid cmp n np e ev) as ((h & Ai) & _ & _). fold st0 in Ai.
      assert (lwf (st_rec st0)) as W.
      { rewrite Ai. constructor; cbn.
        - now rewrite map_length, seq_length, repeat_length.
        - now rewrite dyn2par_rep, seq_length, repeat_length.
        - now rewrite dargs_rep. }
      destruct (pre_rec W) as [Y _ _ _]. rewrite (e_cmp _ _ Y), Ai. reflexivity.
    - now rewrite (S l DL).
  Qed.
End Main.
