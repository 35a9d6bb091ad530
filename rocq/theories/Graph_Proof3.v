(** C25, from_graph: the recorder while the operators of a graph are processed. *)
From Coq Require Import String List Bool Arith Lia.
From Verif Require Import Base_Spec Op_Model Tape_Spec Tape_Model Tape_Proof Tape_Proof2 Tape_Swf Sweep_Uniq Abs_Proof Abs_Proof3 Abs_Prop Opt_Model Opt_Proof Opt_Proof2 Opt_Proof3 Opt_Proof4 Opt_Proof5
  Graph_Spec Graph_Model.
Import ListNotations.

Section FromGraph.
  Context {b : base} (BL : base_laws b).
  Notation T := (bt b).
  Implicit Types r : rec b.
  Variable reg : list string.
  Variable m : nat.
  Variables (d x : list T).

  Record st (lg : list ins) r : Prop := {
    s_op : r_op r = map i_op (head_ins m ++ lg); s_arg : r_arg r = concat (map i_arg (head_ins m ++ lg)); s_nv : r_nvar r = tres (head_ins m ++ lg);
    s_dwf : dwf r; s_numd : numd 0 (head_ins m ++ lg); s_len : Forall (fun i => n_actual (i_op i) (i_arg i) = length (i_arg i)) lg;
    s_args : argsok (head_ins m ++ lg); s_sup : forall i, In i lg -> supp (i_op i) = true /\ ishead (i_op i) = false }.
  Definition veqs (lg : list ins) (P V : nat -> T) : Prop :=
    (forall k, k < m -> V (S k) = nth k x b0) /\ forall i, In i lg -> 0 < num_res (i_op i) -> V (i_var i) = semv (i_op i) (i_arg i) P V.
  Definition isres (lg : list ins) (v : nat) : Prop := exists i, In i (head_ins m ++ lg) /\ 0 < num_res (i_op i) /\ i_var i = v.
  (** a node with type [t], index [i] and value [v] *)
  Definition nok lg r (t : nty) (i : nat) (v : T) : Prop :=
    match t with
    | Ncon => i < length (r_par r) /\ nth i (r_isdyn r) true = false /\ nth i (r_par r) bnan = v
    | Ndyn => i < length (r_par r) /\ forall P, Pok d P r -> P i = v
    | Nvar => isres lg i /\ forall P V, Pok d P r -> veqs lg P V -> V i = v
    end.
  Lemma veqs_app lg lg' P V : veqs (lg ++ lg') P V -> veqs lg P V.
  Proof. intros [A B]. split; auto. intros i Hi. apply B. apply in_or_app; auto. Qed.
  Lemma isres_app lg lg' v : isres lg v -> isres (lg ++ lg') v.
  Proof. intros (i & Hi & K). exists i. split; auto. rewrite app_assoc. apply in_or_app; auto. Qed.
  Lemma nok_ext lg lg' r r' t i v : dwf r -> ext r r' -> nok lg r t i v -> nok (lg ++ lg') r' t i v.
  Proof.
    intros W X H. destruct t; cbn [nok] in *.
    - destruct H as (A & B & C). destruct X as [_ _ [p Ep] [q Eq] _ _]. rewrite Ep, Eq, app_length. split; [lia|]. rewrite !app_nth1 by (rewrite ?(w_isd _ W); auto). auto.
    - destruct H as [A B]. split; [pose proof (ext_par_len _ _ X); lia|]. intros P HP. apply B. eapply Pok_ext; eauto.
    - destruct H as [A B]. split; [now apply isres_app|]. intros P V HP HV. apply (B P V); [eapply Pok_ext; eauto|now apply veqs_app in HV].
  Qed.
  (** the value of a parameter *)
  Lemma nok_par lg r t i v : nok lg r t i v -> t <> Nvar -> i < length (r_par r) /\ forall P, Pok d P r -> P i = v.
  Proof.
    destruct t; cbn [nok]; [|tauto|intros _ []; auto]. intros (A & B & C) _. split; auto. intros P [HP _]. rewrite HP; auto.
    rewrite <- B. destruct (Nat.lt_ge_cases i (length (r_isdyn r))) as [L|L]; [now apply nth_indep|]. rewrite (nth_overflow _ true L) in B. discriminate.
  Qed.

  Lemma cext_ext r r' : dwf r -> cext r r' -> r_cmp r' = r_cmp r -> r_nvar r <= r_nvar r' -> r_vec r' = r_vec r -> ext r r'.
  Proof.
    intros W C A B D. destruct (cext_dwf _ _ C W) as [_ E]. destruct C as (l & C1 & C2 & _). constructor; eauto.
    - exists []. now rewrite E, app_nil_r.
    - exists []. now rewrite D, app_nil_r.
  Qed.
  Lemma st_same lg r r' : st lg r -> dwf r' -> r_op r' = r_op r -> r_arg r' = r_arg r -> r_nvar r' = r_nvar r -> st lg r'.
  Proof. intros [A1 A2 A3 A4 A5 A6 A7 A8] B1 B2 B3 B4. constructor; auto; congruence. Qed.

  Lemma con_ok lg r v : st lg r -> let (r', i) := put_con_par r v in st lg r' /\ ext r r' /\ nok lg r' Ncon i v /\ r_op r' = r_op r /\ r_arg r' = r_arg r /\ r_nvar r' = r_nvar r.
  Proof.
    intros I. pose proof (s_dwf _ _ I) as W. pose proof (put_con_spec (l_ideq b BL) r v W) as H. destruct (put_con_par r v) as [r' i].
    destruct H as (A1 & A2 & A3 & A4 & A5 & A6 & A7 & A8 & A9 & A10). destruct (cext_dwf _ _ A1 W) as [W' _].
    split; [now apply (st_same lg r)|]. split; [apply cext_ext; auto; lia|]. cbn [nok]. auto.
  Qed.
  Lemma dyn_ext r r' : (exists l, r_par r' = r_par r ++ l) -> (exists l, r_isdyn r' = r_isdyn r ++ l) -> (exists l, dentries r' = dentries r ++ l) -> r_cmp r' = r_cmp r -> r_nvar r' = r_nvar r -> r_vec r' = r_vec r -> ext r r'.
  Proof. intros A B C D E F. constructor; auto; [lia|]. exists []. now rewrite F, app_nil_r. Qed.
  Lemma dyn_ok lg r w o a v : st lg r -> length a = num_arg_dyn o -> o <> ind_dyn -> (forall j, In j (par_args_dyn o a) -> j < length (r_par r)) ->
    (forall P, Pok d P r -> dyn_sem o a b0 P = v) ->
    let (r', i) := put_dyn_par r w o a in st lg r' /\ ext r r' /\ nok lg r' Ndyn i v.
  Proof.
    intros I La No HA HV. pose proof (s_dwf _ _ I) as W. pose proof (put_dyn_spec r w o a W La HA) as H. destruct (put_dyn_par r w o a) as [r' i].
    destruct H as (W' & A2 & A3 & A4 & A5 & A6 & A7 & A8 & A9 & A10 & A11). assert (ext r r') as X by (apply dyn_ext; eauto).
    split; [now apply (st_same lg r)|]. split; auto. cbn [nok]. split; [rewrite A4, app_length; cbn; lia|]. intros P HP. pose proof (Pok_ext _ _ _ _ W X HP) as HP0.
    destruct HP as [_ HP]. rewrite (HP (length (dentries r)) i o a). { rewrite (dyn_sem_ind o a _ b0 P No). auto. }
    rewrite A2, nth_error_app2, Nat.sub_diag by lia. reflexivity.
  Qed.
  Lemma op_ok lg r o a v r' : st lg r -> n_actual o a = length a -> supp o = true -> ishead o = false -> dwf r' -> ext r r' ->
    r_op r' = r_op r ++ [o] -> r_arg r' = r_arg r ++ a -> r_nvar r' = r_nvar r + num_res o ->
    (forall j, In j (var_args o a) -> isres lg j) ->
    (0 < num_res o -> forall P V, Pok d P r -> veqs lg P V -> semv o a P V = v) ->
    let i := mkIns o a (r_nvar r + num_res o - 1) in st (lg ++ [i]) r' /\ (0 < num_res o -> nok (lg ++ [i]) r' Nvar (r_nvar r + num_res o - 1) v).
  Proof.
    intros [A1 A2 A3 A4 A5 A6 A7 A8] L SU NH W X B1 B2 B3 HA HV i. split.
    - constructor; auto.
      + rewrite B1, A1, (app_assoc (head_ins m) lg), (map_app i_op (head_ins m ++ lg)). reflexivity.
      + rewrite B2, A2, (app_assoc (head_ins m) lg), (map_app i_arg (head_ins m ++ lg)), concat_app. cbn. now rewrite app_nil_r.
      + rewrite B3, A3, (app_assoc (head_ins m) lg), (tres_app (head_ins m ++ lg)). cbn. lia.
      + rewrite app_assoc. apply numd_app. split; auto. cbn. rewrite A3. auto.
      + apply Forall_app. split; auto.
      + rewrite app_assoc. apply argsok_add; auto.
      + intros i' Hi. apply in_app_or in Hi as [Hi|[<-|[]]]; auto.
    - intros R. cbn [nok]. split.
      + exists i. split; [|cbn; auto]. rewrite app_assoc. apply in_or_app. right. now left.
      + intros P V HP HE. pose proof (proj2 HE i ltac:(apply in_or_app; right; now left) R) as Q. cbn [i_var i_op i_arg i] in Q. rewrite Q. apply HV; auto; [eapply Pok_ext; eauto|now apply veqs_app in HE].
  Qed.
  Lemma same_dwf r r' : dwf r -> r_par r' = r_par r -> r_isdyn r' = r_isdyn r -> r_dop r' = r_dop r -> r_darg r' = r_darg r -> dwf r'.
  Proof. intros W A B C D. exact (proj1 (cext_dwf r r' (cext_refl _ _ A B C D) W)). Qed.
  Lemma var_ok lg r o a v : st lg r -> n_actual o a = length a -> supp o = true -> ishead o = false -> (forall j, In j (var_args o a) -> isres lg j) ->
    (0 < num_res o -> forall P V, Pok d P r -> veqs lg P V -> semv o a P V = v) ->
    let (r', w) := put_op (put_arg r a) o in exists i, st (lg ++ [i]) r' /\ ext r r' /\ (0 < num_res o -> nok (lg ++ [i]) r' Nvar w v).
  Proof.
    intros I L SU NH HA HV. cbn [put_op put_arg]. set (r' := mkRec _ _ _ _ _ _ _ _ _ _ _). pose proof (s_dwf _ _ I) as W.
    assert (ext r r') as X by (apply cext_ext; cbn; auto; [now apply cext_refl|lia]). exists (mkIns o a (r_nvar r + num_res o - 1)).
    destruct (op_ok lg r o a v r' I L SU NH) as [Q1 Q2]; auto. now apply (same_dwf r).
  Qed.
End FromGraph.
