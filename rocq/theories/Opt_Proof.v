(** C22, the parameters: which ones are used, which ones are merged, and what the new recording has for them. *)
From Coq Require Import List Bool Arith Lia.
From Verif Require Import Base_Spec Op_Model Tape_Spec Tape_Model Tape_Proof Tape_Proof2 Abs_Proof Opt_Model.
Import ListNotations.

Lemma marks_iff l : forall PU j, marks PU l j = true <-> PU j = true \/ In j l.
Proof.
  induction l as [|x l IH]; intros PU j; cbn [marks fold_left In]; [tauto|]. change (marks (fset PU x true) l j = true <-> PU j = true \/ x = j \/ In j l).
  rewrite IH. unfold fset. destruct (Nat.eqb_spec j x) as [->|H]; intuition congruence.
Qed.

Notation dent := (nat * opdyn * list nat)%type.
(** entries in order, with the right number of arguments, which are earlier parameters *)
Definition dok (D : list dent) : Prop :=
  incr (map key D) /\ Forall (fun e : dent => length (snd e) = num_arg_dyn (snd (fst e)) /\ forall j, In j (par_args_dyn (snd (fst e)) (snd e)) -> j < key e) D.
Lemma dok_cons e D : dok (e :: D) -> dok D /\ (forall e', In e' D -> key e < key e').
Proof.
  intros [[A B] C]. inversion C; subst. split; [split; auto|]. intros e' H. apply A. now apply in_map.
Qed.
Lemma nonpar_args o a : length a = num_arg_dyn o -> skipn (num_non_par_arg_dyn o) a = par_args_dyn o a.
Proof.
  intros H. destruct o; cbn in H; repeat (destruct a as [|? a]; try discriminate); reflexivity.
Qed.
(** get_par_usage: the arguments of a used dynamic parameter are used *)
Lemma par_dyn_keep D : forall PU j, PU j = true -> par_dyn D PU j = true.
Proof.
  induction D as [|[[k o] a] D IH]; intros PU j H; cbn [par_dyn]; auto. cbv zeta. destruct (par_dyn D PU k); auto. apply marks_iff. auto.
Qed.
Lemma par_dyn_closed D : forall PU, dok D -> forall k o a, In (k, o, a) D -> par_dyn D PU k = true -> forall j, In j (par_args_dyn o a) -> par_dyn D PU j = true.
Proof.
  induction D as [|[[k0 o0] a0] D IH]; intros PU K k o a H U j Hj; [easy|]. pose proof (dok_cons _ _ K) as [K1 K2]. destruct K as [_ K]. inversion K as [|? ? [A1 A2] _]; subst. cbn [fst snd key] in *.
  cbn [par_dyn] in *. cbv zeta in *. destruct H as [H|H].
  - injection H as <- <- <-. destruct (par_dyn D PU k0) eqn:E; [|congruence]. apply marks_iff. right. now rewrite nonpar_args.
  - assert (par_dyn D PU k = true) as U1.
    { destruct (par_dyn D PU k0) eqn:E; auto. apply marks_iff in U as [U|U]; auto. rewrite nonpar_args in U by auto. apply A2 in U. apply K2 in H. unfold key in *. cbn [fst] in *. lia. }
    pose proof (IH PU K1 k o a H U1 j Hj) as R. destruct (par_dyn D PU k0); auto. apply marks_iff. auto.
Qed.

Section Par.
  Context {b : base}.
  Notation T := (bt b).
  Implicit Types r : rec b.
  Hypothesis ideq_eq : forall x y : T, ideq x y = true -> x = y.
  Hypothesis addC : forall x y : T, b_bin Badd x y = b_bin Badd y x.
  Hypothesis mulC : forall x y : T, b_bin Bmul x y = b_bin Bmul y x.

  (** ** the entries of a recording *)
  Lemma dents_keys ops : forall idx args, length idx = length ops -> map key (dents ops idx args) = idx.
  Proof. induction ops as [|o ops IH]; intros [|i idx] args H; try discriminate; cbn; auto. f_equal. apply IH. cbn in H. lia. Qed.
  Lemma dents_len ops : forall idx args e, length args = dargs ops -> In e (dents ops idx args) -> length (snd e) = num_arg_dyn (snd (fst e)).
  Proof.
    induction ops as [|o ops IH]; intros [|i idx] args e L H; cbn in H; try easy. cbn in L. fold (dargs ops) in L. destruct H as [<-|H].
    - cbn. rewrite firstn_length. lia.
    - eapply IH; [|exact H]. rewrite skipn_length. lia.
  Qed.
  Lemma dok_rec r : dwf r -> dok (dentries r).
  Proof.
    intros [A B C D]. split.
    - unfold dentries. rewrite dents_keys by auto. apply dyn2par_incr.
    - apply Forall_forall. intros [[k o] a] H. split; [exact (dents_len _ _ _ _ C H)|]. intros j Hj. exact (D k o a j H Hj).
  Qed.
  Lemma dyn2par_in l : forall m, nth m l false = true -> forall s, In (s + m) (dyn2par l s).
  Proof.
    induction l as [|x l IH]; intros m Hm s; [destruct m; discriminate|]. destruct m; cbn in *.
    - subst x. left. lia.
    - specialize (IH _ Hm (S s)). replace (s + S m) with (S s + m) by lia. destruct x; cbn; auto.
  Qed.
  Lemma dent_of r k : dwf r -> nth k (r_isdyn r) false = true -> exists j o a, nth_error (dentries r) j = Some (k, o, a).
  Proof.
    intros W H. pose proof (dyn2par_in _ _ H 0) as F. cbn in F. rewrite <- (dents_keys (r_dop r) _ (r_darg r) (w_dop _ W)) in F. apply in_map_iff in F as ([[k' o] a] & E & F).
    cbn in E. subst k'. apply In_nth_error in F as (j & F). eauto.
  Qed.
  Lemma dent_dyn r k o a : dwf r -> In (k, o, a) (dentries r) -> nth k (r_isdyn r) false = true /\ k < length (r_par r).
  Proof. intros W H. apply dents_idx in H. cbn in H. apply dyn2par_ge in H. rewrite Nat.sub_0_r, (w_isd _ W) in H. tauto. Qed.

  (** only parameters that are not dynamic are added *)
  Definition cext r r' : Prop := exists l, r_par r' = r_par r ++ l /\ r_isdyn r' = r_isdyn r ++ repeat false (length l) /\ r_dop r' = r_dop r /\ r_darg r' = r_darg r.
  Lemma cext_refl r r' : r_par r' = r_par r -> r_isdyn r' = r_isdyn r -> r_dop r' = r_dop r -> r_darg r' = r_darg r -> cext r r'.
  Proof. intros A B C D. exists []. cbn. now rewrite A, B, C, D, !app_nil_r. Qed.
  Lemma cext_trans r1 r2 r3 : cext r1 r2 -> cext r2 r3 -> cext r1 r3.
  Proof. intros (l & A & B & C & D) (l' & A' & B' & C' & D'). exists (l ++ l'). rewrite A', A, B', B, C', D', app_length, repeat_app, !app_assoc. auto. Qed.
  Lemma dyn2par_rep_false m : forall i, dyn2par (repeat false m) i = [].
  Proof. induction m; intros i; cbn; auto. Qed.
  Lemma cext_dwf r r' : cext r r' -> dwf r -> dwf r' /\ dentries r' = dentries r.
  Proof.
    intros (l & A & B & C & D) [w1 w2 w3 w4].
    assert (dentries r' = dentries r) as E by (unfold dentries; rewrite B, C, D, dyn2par_app, dyn2par_rep_false, app_nil_r; reflexivity). split; auto.
    constructor; rewrite ?A, ?B, ?C, ?D, ?E; auto.
    - rewrite !app_length, repeat_length. lia.
    - now rewrite dyn2par_app, dyn2par_rep_false, app_nil_r.
  Qed.
  Lemma cext_nth r r' i : cext r r' -> dwf r -> i < length (r_par r) ->
    i < length (r_par r') /\ nth i (r_par r') bnan = nth i (r_par r) bnan /\ forall d, nth i (r_isdyn r') d = nth i (r_isdyn r) d.
  Proof.
    intros (l & A & B & _) W H. rewrite A, B, app_length. split; [lia|]. split; [now apply app_nth1|]. intros d. apply app_nth1. rewrite (w_isd _ W). auto.
  Qed.
  Lemma put_con_spec r v : dwf r -> let (r', i) := put_con_par r v in
    cext r r' /\ i < length (r_par r') /\ nth i (r_par r') bnan = v /\ nth i (r_isdyn r') true = false /\
    r_cmp r' = r_cmp r /\ r_nvar r' = r_nvar r /\ r_nload r' = r_nload r /\ r_op r' = r_op r /\ r_arg r' = r_arg r /\ r_vec r' = r_vec r.
  Proof.
    intros W. pose proof (w_isd _ W) as LI. unfold put_con_par. cbv zeta. destruct (_ && _ && _ && _) eqn:E.
    - apply andb_true_iff in E as [E E4]. apply andb_true_iff in E as [E E3]. apply andb_true_iff in E as [_ E2]. apply Nat.ltb_lt in E2. apply negb_true_iff in E3.
      split; [now apply cext_refl|]. split; auto. split; [now apply ideq_eq|]. split; [|repeat split]. rewrite <- E3. apply nth_indep. lia.
    - cbn. split; [exists [v]; cbn; auto|]. rewrite app_length. cbn. split; [lia|]. rewrite app_nth2, Nat.sub_diag by lia. cbn. split; auto.
      rewrite app_nth2 by lia. rewrite LI, Nat.sub_diag. auto 10.
  Qed.
  Lemma put_dyn_spec r v o a : dwf r -> length a = num_arg_dyn o -> (forall j, In j (par_args_dyn o a) -> j < length (r_par r)) -> let (r', i) := put_dyn_par r v o a in
    dwf r' /\ dentries r' = dentries r ++ [(i, o, a)] /\ i = length (r_par r) /\ r_par r' = r_par r ++ [v] /\ r_isdyn r' = r_isdyn r ++ [true] /\
    r_cmp r' = r_cmp r /\ r_nvar r' = r_nvar r /\ r_nload r' = r_nload r /\ r_op r' = r_op r /\ r_arg r' = r_arg r /\ r_vec r' = r_vec r.
  Proof.
    intros [w1 w2 w3 w4] La H. unfold put_dyn_par. set (r' := mkRec _ _ _ _ _ _ _ _ _ _ _).
    assert (dentries r' = dentries r ++ [(length (r_par r), o, a)]) as E.
    { unfold dentries, r'. cbn. rewrite dyn2par_app. cbn. rewrite dents_app; auto. now rewrite w1. }
    split; [|split; [exact E|cbn; auto 10]]. constructor.
    - cbn. rewrite !app_length. cbn. lia.
    - cbn. rewrite dyn2par_app, !app_length. cbn. lia.
    - cbn. rewrite app_length, w3, dargs_app. cbn. lia.
    - rewrite E. intros i0 o0 a0 j Hin Hj. apply in_app_or in Hin as [Hin|[Hin|[]]]; [eauto|]. injection Hin as <- <- <-. auto.
  Qed.

  (** ** semantics of the operators *)
  Lemma dyn_sem_ind o a (v v' : T) P : o <> ind_dyn -> dyn_sem o a v P = dyn_sem o a v' P.
  Proof. destruct o; try reflexivity. now intros []. Qed.
  Lemma dyn_sem_map (np : nat -> nat) o a (v : T) P P' : length a = num_arg_dyn o -> (forall j, In j (par_args_dyn o a) -> P' (np j) = P j) ->
    dyn_sem o (new_dyn_arg np o a) v P' = dyn_sem o a v P.
  Proof.
    intros L H. destruct o; cbn in L; repeat (destruct a as [|? a]; try discriminate); cbn in *; rewrite ?H by auto 10; reflexivity.
  Qed.
  Lemma dyn_sem_match (f : nat -> nat) o a (v : T) P : dyn_matched o = true -> length a = num_arg_dyn o -> (forall j, In j (par_args_dyn o a) -> P (f j) = P j) ->
    dyn_sem o (map f a) v P = dyn_sem o a v P.
  Proof.
    intros M L H. destruct o; try discriminate M; cbn in L; repeat (destruct a as [|? a]; try discriminate); cbn in *; rewrite ?H by auto 10; reflexivity.
  Qed.
  Lemma dyn_sem_swap o a (v : T) P : dyn_comm o = true -> length a = num_arg_dyn o -> dyn_sem o (rev a) v P = dyn_sem o a v P.
  Proof.
    intros M L. destruct o; try discriminate M; cbn in L; repeat (destruct a as [|? a]; try discriminate); cbn; auto.
  Qed.
  Lemma new_dyn_arg_len np o a : length a = num_arg_dyn o -> length (new_dyn_arg np o a) = num_arg_dyn o.
  Proof. intros L. destruct o; cbn in L; repeat (destruct a as [|? a]; try discriminate); reflexivity. Qed.
  Lemma new_dyn_arg_par np o a j : length a = num_arg_dyn o -> In j (par_args_dyn o (new_dyn_arg np o a)) -> exists i, In i (par_args_dyn o a) /\ j = np i.
  Proof.
    intros L H. destruct o; cbn in L; repeat (destruct a as [|? a]; try discriminate); cbn in *; intuition (subst; eauto 10).
  Qed.
  Lemma new_dyn_arg_ext np np' o a : length a = num_arg_dyn o -> (forall j, In j (par_args_dyn o a) -> np j = np' j) -> new_dyn_arg np o a = new_dyn_arg np' o a.
  Proof.
    intros L H. destruct o; cbn in L; repeat (destruct a as [|? a]; try discriminate); cbn in *; rewrite ?H by auto 10; reflexivity.
  Qed.

  (** ** get_dyn_previous *)
  Section Prev.
    Variables (dopc : opdyn -> nat) (hsize : nat) (PU : nat -> bool) (D : list dent).
    Hypothesis DK : dok D.
    (** [P] and [ind] satisfy the equations of the entries *)
    Definition deqs (P : nat -> T) (ind : list T) : Prop := forall j k o a, nth_error D j = Some (k, o, a) -> P k = dyn_sem o a (nth j ind b0) P.
    Lemma deqs_in P ind k o a : deqs P ind -> In (k, o, a) D -> o <> ind_dyn -> P k = dyn_sem o a b0 P.
    Proof. intros E H N. apply In_nth_error in H as (j & H). rewrite (E _ _ _ _ H). now apply dyn_sem_ind. Qed.

    (** what dyn_previous says *)
    Record dprev_ok (done : list dent) (pv : nat -> option nat) : Prop := {
      dp_some : forall k c, pv k = Some c -> c < k /\ PU k = true /\ PU c = true /\ pv c = None /\ (exists oc ac, In (c, oc, ac) done) /\
        (exists o a, In (k, o, a) done /\ dyn_matched o = true);
      dp_val : forall P ind, deqs P ind -> forall k c, pv k = Some c -> P k = P c }.
    Definition dtab_ok (done : list dent) (st : dst) : Prop :=
      forall code e, In e (snd st code) -> In e done /\ PU (key e) = true /\ fst st (key e) = None /\ dyn_matched (snd (fst e)) = true.

    Lemma same_dyn_eq o m (e : dent) : same_dyn o m e = true -> length m = num_arg_dyn o -> In e D -> snd (fst e) = o /\ snd e = m.
    Proof.
      destruct e as [[k oc] ac]. unfold same_dyn. intros H L I. apply andb_true_iff in H as [H1 H2].
      destruct (opdyn_eq_dec o oc); [|discriminate]. subst oc. destruct (list_eq_dec _ _ _) as [E|]; [|discriminate]. cbn. split; auto.
      destruct DK as [_ F]. rewrite Forall_forall in F. destruct (F _ I) as [F1 _]. cbn in F1. rewrite E at 1. symmetry. apply firstn_all2. lia.
    Qed.
    (** one dynamic parameter *)
    Lemma match_dyn_ok done e rest st : D = done ++ e :: rest -> dprev_ok done (fst st) -> dtab_ok done st ->
      dprev_ok (done ++ [e]) (fst (match_dyn dopc hsize PU e st)) /\ dtab_ok (done ++ [e]) (match_dyn dopc hsize PU e st).
    Proof.
      intros ED PO TO. destruct e as [[k o] a], st as [pv H]. cbn [fst snd] in *.
      assert (forall e', In e' done -> In e' (done ++ [(k, o, a)])) as IN by (intros; apply in_or_app; auto).
      assert (forall e', In e' done -> key e' < k) as LT.
      { intros e' He. destruct DK as [I _]. rewrite ED, map_app in I. clear -I He. revert I. induction done as [|d done IH]; intros I; [easy|]. cbn in I. destruct I as [I1 I2].
        destruct He as [->|He]; [|exact (IH He I2)]. apply I1. apply in_or_app. right. left. reflexivity. }
      assert (In (k, o, a) D) as IK by (rewrite ED; apply in_or_app; right; now left).
      assert (forall e', In e' done -> In e' D) as ID by (intros; rewrite ED; apply in_or_app; auto).
      assert (length a = num_arg_dyn o /\ forall j, In j (par_args_dyn o a) -> j < k) as [LA AL] by (destruct DK as [_ F]; rewrite Forall_forall in F; exact (F _ IK)).
      assert (pv k = None) as PK.
      { destruct (pv k) as [c|] eqn:E; auto. destruct (dp_some _ _ PO _ _ E) as (_ & _ & _ & _ & _ & o' & a' & Hin & _). apply LT in Hin. cbn in Hin. lia. }
      assert (dprev_ok (done ++ [(k, o, a)]) pv) as KEEP.
      { destruct PO as [P1 P2]. constructor; auto. intros k' c' E. destruct (P1 _ _ E) as (A1 & A2 & A3 & A4 & (oc & ac & A5) & o' & a' & A6 & A7). repeat (split; auto); eauto 10. }
      unfold match_dyn. destruct (PU k && dyn_matched o) eqn:G.
      2:{ cbn [fst]. split; [exact KEEP|]. intros code e' He. destruct (TO code e' He) as (A & B & C & E). auto. }
      apply andb_true_iff in G as [G1 G2]. set (m := dyn_arg_match pv a). cbv zeta.
      assert (length m = num_arg_dyn o) as LM by (unfold m, dyn_arg_match; rewrite map_length; exact LA).
      assert (forall P ind, deqs P ind -> P k = dyn_sem o m b0 P) as VM.
      { intros P ind E. rewrite (deqs_in P ind k o a E IK) by (intros ->; discriminate). symmetry. unfold m, dyn_arg_match. apply dyn_sem_match; auto.
        intros j Hj. destruct (pv j) as [c|] eqn:Ej; auto. symmetry. eapply (dp_val _ _ PO); eauto. }
      assert (forall c, In c done -> PU (key c) = true -> pv (key c) = None -> snd (fst c) = o -> (forall P ind, deqs P ind -> dyn_sem o (snd c) b0 P = dyn_sem o m b0 P) ->
        dprev_ok (done ++ [(k, o, a)]) (fset pv k (Some (key c))) /\ dtab_ok (done ++ [(k, o, a)]) (fset pv k (Some (key c)), H)) as FOUND.
      { intros [[c oc] ac] Ic Uc Pc Oc Vc. cbn [key fst snd] in *. subst oc. pose proof (LT _ Ic) as Lc. cbn in Lc. split.
        - constructor.
          + intros k' c'. unfold fset at 1. destruct (Nat.eqb_spec k' k) as [->|Nk].
            * intros E. injection E as <-. split; auto. split; auto. split; auto. rewrite fset_ne by lia. split; auto. split; eauto 10. exists o, a. split; auto. apply in_or_app. right. now left.
            * intros E. destruct (dp_some _ _ KEEP _ _ E) as (A1 & A2 & A3 & A4 & A5 & A6). split; auto. split; auto. split; auto. split; auto.
              destruct (dp_some _ _ PO _ _ E) as (_ & _ & _ & _ & (oc' & ac' & B5) & _). apply LT in B5. cbn in B5. rewrite fset_ne by lia. auto.
          + intros P ind E k' c'. unfold fset. destruct (Nat.eqb_spec k' k) as [->|Nk]; [|apply (dp_val _ _ PO P ind E)].
            intros E'. injection E' as <-. rewrite (VM P ind E), <- (Vc P ind E). symmetry. apply (deqs_in P ind c o ac E); auto. intros ->; discriminate.
        - intros code e' He. destruct (TO code e' He) as (A & B & C & F). cbn [fst] in *. split; auto. split; auto. split; auto. rewrite fset_ne; auto. pose proof (LT _ A). lia. }
      destruct (find (same_dyn o m) (H (hash_code hsize (dopc o) m))) as [c|] eqn:F1.
      { apply find_some in F1 as [F1 F2]. destruct (TO _ _ F1) as (A & B & C & E). destruct (same_dyn_eq _ _ _ F2 LM (ID _ A)) as [Q1 Q2]. cbn [fst] in C. apply FOUND; auto. now rewrite Q2. }
      destruct (if dyn_comm o then find (same_dyn o (rev m)) (H (hash_code hsize (dopc o) (rev m))) else None) as [c|] eqn:F2.
      { destruct (dyn_comm o) eqn:CO; [|discriminate]. apply find_some in F2 as [F2 F3]. destruct (TO _ _ F2) as (A & B & C & E).
        destruct (same_dyn_eq _ _ _ F3 ltac:(now rewrite rev_length) (ID _ A)) as [Q1 Q2]. cbn [fst] in C. apply FOUND; auto. intros P ind _. rewrite Q2. now apply dyn_sem_swap. }
      cbn [fst]. split; [exact KEEP|]. intros code e' He. cbn [fst snd] in *. unfold fset in He. destruct (code =? _).
      - apply in_app_or in He as [He|[<-|[]]].
        + assert (In e' (H (hash_code hsize (dopc o) m))) as He' by (destruct (length _ =? 10); [easy|exact He]). destruct (TO _ _ He') as (A & B & C & E). auto.
        + cbn. split; [apply in_or_app; right; now left|]. auto.
      - destruct (TO _ _ He) as (A & B & C & E). auto.
    Qed.
    Lemma dyn_previous_ok : dprev_ok D (dyn_previous dopc hsize PU D).
    Proof.
      assert (forall rest done st, D = done ++ rest -> dprev_ok done (fst st) -> dtab_ok done st ->
        dprev_ok D (fst (fold_left (fun st e => match_dyn dopc hsize PU e st) rest st))) as G.
      { induction rest as [|e rest IH]; intros done st E A B; cbn [fold_left].
        - rewrite app_nil_r in E. now subst done.
        - destruct (match_dyn_ok done e rest st E A B) as [A1 B1]. apply (IH (done ++ [e])); auto. now rewrite <- app_assoc. }
      apply (G D []); auto.
      - constructor; cbn; discriminate.
      - intros code e [].
    Qed.
  End Prev.
End Par.
