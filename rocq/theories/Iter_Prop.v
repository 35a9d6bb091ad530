(** C35.  Iterating over the operation sequence is faithful.

    Specification: a recording is a sequence of calls (operator, its arguments).  The
    recorder stores the operators in one vector and the arguments, concatenated, in
    another (recorder.hpp PutOp, PutArg).  Every iterator must report for operator k
    its code, the place where its arguments start, and the index of its last result. *)
From Coq Require Import List Arith Bool Lia.
From Verif Require Import Op_Model Iter_Model.
Import ListNotations.

Definition call := (opvar * list nat)%type.
(** the right number of arguments; for the two variable length operators the
    format of op_code_var.hpp:94-170: the length can be found from both ends *)
Definition good_call (c : call) : Prop :=
  match fst c with
  | CSumOp => nth 4 (snd c) 0 + 1 = length (snd c) /\ 6 <= length (snd c) /\
              last (snd c) 0 = length (snd c)
  | CSkipOp => 7 + nth 4 (snd c) 0 + nth 5 (snd c) 0 = length (snd c) /\
               last (snd c) 0 = length (snd c)
  | o => length (snd c) = num_arg o
  end.
(** first the operator BeginOp, last the operator EndOp and neither elsewhere *)
Definition good_recording (s : list call) : Prop :=
  exists mid, s = (BeginOp, [0]) :: mid ++ [(EndOp, [])] /\
    Forall good_call mid /\ Forall (fun c => fst c <> BeginOp /\ fst c <> EndOp) mid.
Definition ops_of (s : list call) : list opvar := map fst s.
Definition args_of (s : list call) : list nat := concat (map snd s).
(** total number of variables of a list of calls *)
Definition nvar (s : list call) : nat := list_sum (map (fun c => num_res (fst c)) s).
(** what an iterator must say about call number k: the arguments are those of
    the calls before it, and results are numbered in order *)
Definition info (s : list call) (k : nat) : nat * opvar * nat * nat :=
  (k, fst (nth k s (EndOp, [])), length (args_of (firstn k s)), nvar (firstn (S k) s) - 1).

(** an offset reported by [info] is where the arguments of the call are *)
Lemma args_app s t : args_of (s ++ t) = args_of s ++ args_of t.
Proof. unfold args_of. rewrite map_app, concat_app. reflexivity. Qed.
Lemma nvar_app s t : nvar (s ++ t) = nvar s + nvar t.
Proof. unfold nvar. rewrite map_app, list_sum_app. reflexivity. Qed.

Theorem info_arguments s k : k < length s ->
  let '(_, _, a, _) := info s k in
  firstn (length (snd (nth k s (EndOp, [])))) (skipn a (args_of s)) = snd (nth k s (EndOp, [])).
Proof.
  intros H. cbn [info]. unfold info.
  replace (args_of s) with (args_of (firstn k s) ++ args_of (skipn k s))
    by (rewrite <- args_app, firstn_skipn; reflexivity).
  rewrite skipn_app, skipn_all, Nat.sub_diag. cbn [app skipn].
  destruct (skipn k s) as [|c t] eqn:E.
  { apply (f_equal (@length _)) in E. rewrite skipn_length in E. cbn in E. lia. }
  assert (En : nth k s (EndOp, []) = c).
  { rewrite <- (firstn_skipn k s), app_nth2; rewrite firstn_length_le by lia; [|lia].
    rewrite Nat.sub_diag, E. reflexivity. }
  rewrite En. unfold args_of. cbn. rewrite firstn_app, Nat.sub_diag, firstn_all. cbn. apply app_nil_r.
Qed.

Section Proof.
  Variable s : list call.
  Hypothesis good : good_recording s.
  Notation ops := (ops_of s).
  Notation args := (args_of s).
  Notation num_var := (nvar s).

  Definition it_of (k : nat) : itr :=
    let '(c, o, a, v) := info s k in mkItr c a v o.
  Lemma it_op_info k : op_info (it_of k) = info s k. Proof. reflexivity. Qed.

  Lemma op_at_of k : k < length s -> op_at ops k = fst (nth k s (EndOp, [])).
  Proof. intros H. unfold op_at, ops_of. exact (map_nth fst s (EndOp, []) k). Qed.
  Lemma len_ops : length ops = length s. Proof. apply map_length. Qed.
  Lemma firstn_S k : k < length s -> firstn (S k) s = firstn k s ++ [nth k s (EndOp, [])].
  Proof.
    intros H. rewrite <- (firstn_skipn k s) at 1. rewrite firstn_app.
    rewrite firstn_all2 by (rewrite firstn_length_le; lia). f_equal.
    rewrite firstn_length_le by lia. replace (S k - k) with 1 by lia.
    destruct (skipn k s) as [|c t] eqn:E.
    { apply (f_equal (@length _)) in E. rewrite skipn_length in E. cbn in E. lia. }
    rewrite <- (firstn_skipn k s), app_nth2; rewrite firstn_length_le by lia; [|lia].
    rewrite Nat.sub_diag, E. reflexivity.
  Qed.
  Lemma offs_S k : k < length s ->
    length (args_of (firstn (S k) s)) = length (args_of (firstn k s)) + length (snd (nth k s (EndOp, []))).
  Proof. intros H. rewrite firstn_S, args_app, app_length by auto. unfold args_of at 2. cbn. rewrite app_nil_r. reflexivity. Qed.
  Lemma nvar_S k : k < length s ->
    nvar (firstn (S k) s) = nvar (firstn k s) + num_res (fst (nth k s (EndOp, []))).
  Proof. intros H. rewrite firstn_S, nvar_app by auto. unfold nvar at 2. cbn. lia. Qed.

  (** reading var_arg inside the arguments of call k *)
  Lemma arg_in k j : k < length s -> j < length (snd (nth k s (EndOp, []))) ->
    arg_at args (length (args_of (firstn k s)) + j) = nth j (snd (nth k s (EndOp, []))) 0.
  Proof.
    intros Hk Hj. pose proof (info_arguments s k Hk) as H. cbn [info] in H. unfold info in H.
    rewrite <- H. unfold arg_at. rewrite <- (firstn_skipn (length (args_of (firstn k s))) args) at 1.
    assert (L : length (args_of (firstn k s)) <= length args).
    { replace args with (args_of (firstn k s) ++ args_of (skipn k s))
        by (rewrite <- args_app, firstn_skipn; reflexivity). rewrite app_length. lia. }
    rewrite app_nth2; rewrite firstn_length_le by lia; [|lia].
    replace (length (args_of (firstn k s)) + j - length (args_of (firstn k s))) with j by lia.
    rewrite <- (firstn_skipn (length (snd (nth k s (EndOp, [])))) (skipn _ args)) at 1.
    apply app_nth1. rewrite firstn_length, skipn_length.
    pose proof (offs_S k Hk).
    assert (length (args_of (firstn (S k) s)) <= length args).
    { replace args with (args_of (firstn (S k) s) ++ args_of (skipn (S k) s))
        by (rewrite <- args_app, firstn_skipn; reflexivity). rewrite app_length. lia. }
    lia.
  Qed.

  Lemma good_nth k : k < length s -> good_call (nth k s (EndOp, [])) /\
    (fst (nth k s (EndOp, [])) = BeginOp <-> k = 0) /\
    (fst (nth k s (EndOp, [])) = EndOp <-> k = length s - 1).
  Proof.
    destruct good as (mid & E & G & N). rewrite E. cbn [length]. rewrite app_length. cbn [length].
    intros H. destruct k as [|k]; cbn [nth].
    { split; [reflexivity|]. split; [tauto|]. cbn. split; [discriminate|lia]. }
    destruct (Nat.lt_ge_cases k (length mid)) as [L|L].
    - rewrite app_nth1 by auto. rewrite Forall_forall in G, N.
      assert (I : In (nth k mid (EndOp, [])) mid) by (apply nth_In; auto).
      split; [auto|]. destruct (N _ I). split; split; [tauto|lia|tauto|lia].
    - assert (k = length mid) by lia. subst.
      rewrite app_nth2, Nat.sub_diag by lia. cbn. split; [reflexivity|].
      split; split; [discriminate|lia|lia|auto].
  Qed.
  Lemma len2 : 2 <= length s.
  Proof. destruct good as (mid & E & _). rewrite E. cbn. rewrite app_length. cbn. lia. Qed.
  Lemma nvar_pos k : 0 < k -> 0 < nvar (firstn k s).
  Proof. destruct good as (mid & E & _). rewrite E. intros H. destruct k; [lia|]. cbn. unfold nvar. cbn. lia. Qed.

  Lemma begin_ok : seq_begin ops = it_of 0.
  Proof.
    unfold it_of, info, seq_begin. rewrite op_at_of by (pose proof len2; lia).
    destruct good as (mid & E & _). rewrite E. reflexivity.
  Qed.
  Lemma end_ok : seq_end ops args num_var = it_of (length s - 1).
  Proof.
    pose proof len2. unfold it_of, info, seq_end. rewrite len_ops, op_at_of by lia.
    replace (S (length s - 1)) with (length s) by lia. rewrite firstn_all. f_equal.
    pose proof (offs_S (length s - 1)) as O. replace (S (length s - 1)) with (length s) in O by lia.
    rewrite firstn_all in O. rewrite O by lia.
    destruct (good_nth (length s - 1)) as (G & _ & [_ En]); [lia|]. unfold good_call in G. rewrite En in G by auto.
    cbn in G. lia.
  Qed.

  (** the length of the arguments of call k as found going forward / backward *)
  Lemma step_fix_inc k : k < length s ->
    it_arg (if is_varlen (it_op (it_of k)) then seq_fix_inc args (it_of k) else it_of k)
      + num_arg (it_op (it_of k)) = length (args_of (firstn (S k) s)) /\
    it_cur (if is_varlen (it_op (it_of k)) then seq_fix_inc args (it_of k) else it_of k) = k /\
    it_var (if is_varlen (it_op (it_of k)) then seq_fix_inc args (it_of k) else it_of k) = it_var (it_of k) /\
    it_op (if is_varlen (it_op (it_of k)) then seq_fix_inc args (it_of k) else it_of k) = it_op (it_of k).
  Proof.
    intros H. rewrite offs_S by auto. destruct (good_nth k H) as (G & _). unfold good_call in G.
    pose proof (arg_in k 4 H) as A4. pose proof (arg_in k 5 H) as A5.
    unfold it_of, info, seq_fix_inc. cbn [it_op it_cur it_arg it_var].
    destruct (fst (nth k s (EndOp, []))) eqn:Eo; cbn [is_varlen it_op it_cur it_arg it_var];
      try (rewrite G; auto).
    - destruct G as (G1 & _). rewrite A4, A5 by lia. cbn [num_arg]. split; [lia|auto].
    - destruct G as (G1 & G2 & _). rewrite A4 by lia. cbn [num_arg]. split; [lia|auto].
  Qed.
  Lemma inc_ok k : S k < length s ->
    seq_inc ops (if is_varlen (it_op (it_of k)) then seq_fix_inc args (it_of k) else it_of k) = it_of (S k).
  Proof.
    intros H. destruct (step_fix_inc k) as (A & B & C & D); [lia|].
    unfold seq_inc. rewrite D, A, B, C. unfold it_of, info at 1. cbn [it_var]. unfold info.
    rewrite op_at_of by auto. f_equal. rewrite (nvar_S (S k)) by lia.
    pose proof (nvar_pos (S k)). lia.
  Qed.
  Lemma dec_ok k : S k < length s ->
    (let i := seq_dec ops (it_of (S k)) in if is_varlen (it_op i) then seq_fix_dec args i else i) = it_of k.
  Proof.
    intros H. destruct (good_nth k) as (G & _); [lia|]. unfold good_call in G.
    pose proof (offs_S k) as O. pose proof (nvar_S (S k) H) as Nv. pose proof (nvar_pos (S k)) as Np.
    assert (La : let a := snd (nth k s (EndOp, [])) in
                 0 < length a -> arg_at args (length (args_of (firstn k s)) + (length a - 1)) = last a 0).
    { cbv zeta. intros P. rewrite arg_in by lia.
      generalize (snd (nth k s (EndOp, []))) as l, P. clear. intros l P.
      destruct (@exists_last _ l) as (l' & x & ->). { intros ->; cbn in P; lia. }
      rewrite last_last, app_length. cbn. replace (length l' + 1 - 1) with (length l') by lia.
      rewrite app_nth2, Nat.sub_diag; [reflexivity|lia]. }
    cbv zeta in La. unfold it_of, info, seq_dec. cbn [it_op it_cur it_arg it_var].
    replace (S k - 1) with k by lia. rewrite op_at_of by lia. rewrite Nv.
    replace (nvar (firstn (S k) s) + num_res (fst (nth (S k) s (EndOp, []))) - 1
             - num_res (fst (nth (S k) s (EndOp, [])))) with (nvar (firstn (S k) s) - 1) by lia.
    rewrite O by lia. unfold seq_fix_dec. cbn [it_op it_cur it_arg it_var].
    destruct (fst (nth k s (EndOp, []))) eqn:Eo; cbn [is_varlen];
      try (f_equal; rewrite G; lia).
    - destruct G as (G1 & G2). cbn [num_arg]. f_equal.
      replace (length (args_of (firstn k s)) + length (snd (nth k s (EndOp, []))) - 0 - 1)
        with (length (args_of (firstn k s)) + (length (snd (nth k s (EndOp, []))) - 1)) by lia.
      rewrite La by lia. lia.
    - destruct G as (G1 & G2 & G3). cbn [num_arg]. f_equal.
      replace (length (args_of (firstn k s)) + length (snd (nth k s (EndOp, []))) - 0 - 1)
        with (length (args_of (firstn k s)) + (length (snd (nth k s (EndOp, []))) - 1)) by lia.
      rewrite La by lia. lia.
  Qed.

  Lemma for_from m : forall k n, k + m = length s - 1 -> m <= n -> 0 < m ->
    for_loop ops args n (if is_varlen (it_op (it_of k)) then seq_fix_inc args (it_of k) else it_of k)
    = map (info s) (seq (S k) m).
  Proof.
    induction m as [|m IH]; intros k n Hk Hn Hm; [lia|].
    destruct n as [|n]; [lia|]. cbn [for_loop]. rewrite inc_ok by lia.
    destruct (good_nth (S k)) as (_ & _ & He); [lia|].
    destruct m as [|m].
    - assert (E : it_op (it_of (S k)) = EndOp) by (cbn; apply He; lia).
      rewrite E. cbn [seq map]. rewrite it_op_info. reflexivity.
    - assert (E : it_op (it_of (S k)) <> EndOp) by (cbn; intros E; apply He in E; lia).
      specialize (IH (S k) n). cbn [seq map]. rewrite it_op_info.
      change (map (info s) (seq (S (S k)) (S m))) with (info s (S (S k)) :: map (info s) (seq (S (S (S k))) m)) in IH.
      cbn [seq map] in IH.
      rewrite <- IH by lia. destruct (it_op (it_of (S k))); try reflexivity. congruence.
  Qed.
  Lemma rev_from m : forall n, m < length s -> 0 < m -> m <= n ->
    rev_loop ops args n (it_of m) = map (info s) (rev (seq 0 m)).
  Proof.
    induction m as [|m IH]; intros n Hk Hm Hn; [lia|].
    destruct n as [|n]; [lia|]. cbn [rev_loop].
    pose proof (dec_ok m Hk) as D. cbv zeta in D. rewrite D.
    destruct (good_nth m) as (_ & Hb & _); [lia|].
    rewrite seq_S, rev_app_distr. cbn [rev app map plus].
    destruct m as [|m].
    - assert (E : it_op (it_of 0) = BeginOp) by (cbn; apply Hb; lia). rewrite E. reflexivity.
    - assert (E : it_op (it_of (S m)) <> BeginOp) by (cbn; intros E; apply Hb in E; lia).
      rewrite <- (IH n) by lia. rewrite it_op_info.
      destruct (it_op (it_of (S m))); try reflexivity. congruence.
  Qed.

  (** *** Forward: from BeginOp, each operator once and in order up to EndOp *)
  Theorem sequential_forward :
    op_info (seq_begin ops) = info s 0 /\
    for_loop ops args (length s) (seq_begin ops) = map (info s) (seq 1 (length s - 1)).
  Proof.
    rewrite begin_ok. split; [reflexivity|]. pose proof len2.
    rewrite <- (for_from (length s - 1) 0 (length s)) by lia.
    assert (E : it_op (it_of 0) = BeginOp) by (cbn; apply good_nth; lia).
    rewrite E. reflexivity.
  Qed.
  (** *** Reverse: from EndOp, the same data in exactly the reverse order *)
  Theorem sequential_reverse :
    op_info (seq_end ops args num_var) = info s (length s - 1) /\
    rev_loop ops args (length s) (seq_end ops args num_var) = map (info s) (rev (seq 0 (length s - 1))).
  Proof.
    rewrite end_ok. split; [reflexivity|]. pose proof len2. apply rev_from; lia.
  Qed.
  Theorem reverse_is_reverse_of_forward :
    op_info (seq_end ops args num_var) :: rev_loop ops args (length s) (seq_end ops args num_var)
    = rev (op_info (seq_begin ops) :: for_loop ops args (length s) (seq_begin ops)).
  Proof.
    destruct sequential_forward as [-> ->]. destruct sequential_reverse as [-> ->]. pose proof len2.
    change (info s 0 :: map (info s) (seq 1 (length s - 1))) with (map (info s) (seq 0 (S (length s - 1)))).
    rewrite <- map_rev, seq_S, rev_app_distr. cbn. reflexivity.
  Qed.

  (** *** Random access *)
  Lemma setup_ok m : forall k o2a o2v v2o, k + m = length s ->
    let '(a, v, w) := setup_loop ops args m k (length (args_of (firstn k s))) (nvar (firstn k s)) o2a o2v v2o in
    (forall j, j < k -> a j = o2a j /\ v j = o2v j) /\
    (forall x, x < nvar (firstn k s) -> w x = v2o x) /\
    (forall j, k <= j < length s ->
       a j = length (args_of (firstn j s)) /\
       (if 0 <? num_res (fst (nth j s (EndOp, []))) then
          v j = nvar (firstn (S j) s) - 1 /\ w (nvar (firstn (S j) s) - 1) = j
        else v j = o2v j)).
  Proof.
    induction m as [|m IH]; intros k o2a o2v v2o Hk; cbn [setup_loop].
    { split; [auto|]. split; [auto|]. intros; lia. }
    assert (Hlt : k < length s) by lia. rewrite op_at_of by auto. cbv zeta.
    set (o := fst (nth k s (EndOp, []))).
    assert (Ea : (match o with
             | CSkipOp => (match o with CSumOp => length (args_of (firstn k s)) + num_arg o +
                (arg_at args (length (args_of (firstn k s)) + num_arg o + 4) + 1) | _ => length (args_of (firstn k s)) + num_arg o end) +
                (7 + arg_at args ((match o with CSumOp => length (args_of (firstn k s)) + num_arg o +
                (arg_at args (length (args_of (firstn k s)) + num_arg o + 4) + 1) | _ => length (args_of (firstn k s)) + num_arg o end) + 4)
                 + arg_at args ((match o with CSumOp => length (args_of (firstn k s)) + num_arg o +
                (arg_at args (length (args_of (firstn k s)) + num_arg o + 4) + 1) | _ => length (args_of (firstn k s)) + num_arg o end) + 5))
             | _ => (match o with CSumOp => length (args_of (firstn k s)) + num_arg o +
                (arg_at args (length (args_of (firstn k s)) + num_arg o + 4) + 1) | _ => length (args_of (firstn k s)) + num_arg o end) end)
             = length (args_of (firstn (S k) s))).
    { rewrite offs_S by auto. destruct (good_nth k Hlt) as (G & _). unfold good_call in G. fold o in G.
      pose proof (arg_in k 4 Hlt) as A4. pose proof (arg_in k 5 Hlt) as A5.
      destruct o; cbn [num_arg] in *; try lia.
      - rewrite Nat.add_0_r. rewrite A4, A5; lia.
      - rewrite Nat.add_0_r. rewrite A4; lia. }
    rewrite Ea. fold o. pose proof (nvar_S k Hlt) as Nv. fold o in Nv. rewrite <- Nv.
    match goal with |- context [setup_loop ops args m (S k) _ _ ?A ?B ?C] => specialize (IH (S k) A B C) end.
    destruct (setup_loop _ _ m _ _ _ _ _ _) as [[a v] w].
    destruct IH as (H1 & H2 & H3); [lia|].
    split; [|split].
    - intros j Hj. destruct (H1 j) as [Ha Hv]; [lia|]. rewrite Ha, Hv.
      assert (N : (j =? k) = false) by (apply Nat.eqb_neq; lia). rewrite N. split; [reflexivity|].
      destruct (0 <? num_res o); [rewrite N|]; reflexivity.
    - intros x Hx. rewrite H2 by lia. destruct (0 <? num_res o) eqn:E; [|reflexivity].
      apply Nat.ltb_lt in E. assert (N : (x =? nvar (firstn (S k) s) - 1) = false) by (apply Nat.eqb_neq; lia).
      rewrite N. reflexivity.
    - intros j Hj. destruct (Nat.eq_dec j k) as [->|N].
      + destruct (H1 k) as [Ha Hv]; [lia|]. rewrite Ha, Hv, Nat.eqb_refl. split; [reflexivity|].
        fold o. destruct (0 <? num_res o) eqn:E; [|reflexivity]. rewrite Nat.eqb_refl. split; [reflexivity|].
        apply Nat.ltb_lt in E. rewrite H2 by lia. rewrite Nat.eqb_refl. reflexivity.
      + destruct (H3 j) as [Ha Hv]; [lia|]. split; [auto|].
        destruct (0 <? num_res (fst (nth j s (EndOp, [])))); [auto|]. rewrite Hv.
        destruct (0 <? num_res o); [|reflexivity].
        assert (Nj : (j =? k) = false) by (apply Nat.eqb_neq; lia). rewrite Nj. reflexivity.
  Qed.
  (** var_index of an operator without results is not defined (random_iterator.hpp:95-99) *)
  Definition same_info (x y : nat * opvar * nat * nat) : Prop :=
    let '(k, o, a, v) := x in let '(k', o', a', v') := y in
    k = k' /\ o = o' /\ a = a' /\ (0 < num_res o -> v = v').
  Theorem random_access k : k < length s ->
    exists x, r_op_info (get_random ops args num_var) k = Some x /\ same_info x (info s k).
  Proof.
    intros H. unfold get_random, random_setup. rewrite len_ops.
    pose proof (setup_ok (length s) 0 (fun _ => 0) (fun _ => num_var) (fun _ => length s) eq_refl) as Q.
    change (length (args_of (firstn 0 s))) with 0 in Q. change (nvar (firstn 0 s)) with 0 in Q.
    destruct (setup_loop _ _ _ _ _ _ _ _ _) as [[a v] w]. destruct Q as (_ & _ & Q).
    destruct (Q k) as [Ha Hv]; [lia|].
    eexists. split; [reflexivity|]. unfold info. cbn [same_info]. rewrite op_at_of by auto.
    split; [reflexivity|]. split; [reflexivity|]. split; [auto|]. intros P.
    apply Nat.ltb_lt in P. rewrite P in Hv. apply Hv.
  Qed.
  (** the operator of a variable is found from the index of the variable *)
  Theorem random_var2op k : k < length s -> 0 < num_res (fst (nth k s (EndOp, []))) ->
    let '(_, _, _, v) := info s k in r_var2op (get_random ops args num_var) v = Some k.
  Proof.
    intros H P. unfold get_random, random_setup. rewrite len_ops.
    pose proof (setup_ok (length s) 0 (fun _ => 0) (fun _ => num_var) (fun _ => length s) eq_refl) as Q.
    change (length (args_of (firstn 0 s))) with 0 in Q. change (nvar (firstn 0 s)) with 0 in Q.
    destruct (setup_loop _ _ _ _ _ _ _ _ _) as [[a v] w]. destruct Q as (_ & _ & Q).
    destruct (Q k) as [Ha Hv]; [lia|]. cbn. apply Nat.ltb_lt in P. rewrite P in Hv. f_equal. apply Hv.
  Qed.
  (** *** A subgraph is visited in its own order with the same data *)
  Theorem subgraph_visit g j k : nth_error g j = Some k -> k < length s ->
    exists x, sub_op_info (get_random ops args num_var) g j = Some x /\ same_info x (info s k).
  Proof. intros E H. unfold sub_op_info. rewrite E. apply random_access; auto. Qed.
  (** *** The operation sequence used by the models of the sweeps (Op_Model.decode)
      is the sequence that the iterators visit *)
  Lemma decode_calls t : Forall good_call t -> forall pre,
    decode (ops_of t) (args_of t) (nvar pre)
    = Some (map (fun k => mkIns (fst (nth k t (EndOp, []))) (snd (nth k t (EndOp, [])))
                                (nvar (pre ++ firstn (S k) t) - 1)) (seq 0 (length t))).
  Proof.
    induction 1 as [|[o a] t G _ IH]; intros pre; [reflexivity|].
    change (ops_of ((o, a) :: t)) with (o :: ops_of t).
    change (args_of ((o, a) :: t)) with (a ++ args_of t). cbn [decode].
    assert (En : n_actual o (a ++ args_of t) = length a).
    { unfold good_call in G. cbn [fst snd] in G. unfold n_actual. destruct o; try (symmetry; exact G).
      - destruct G as [G _]. rewrite !app_nth1 by lia. lia.
      - destruct G as (G1 & G2 & _). rewrite nth_error_app1 by lia.
        rewrite (nth_error_nth' a 0) by lia. lia. }
    rewrite En. assert (L : (length (a ++ args_of t) <? length a) = false).
    { apply Nat.ltb_ge. rewrite app_length. lia. }
    rewrite L. rewrite skipn_app, skipn_all, Nat.sub_diag, firstn_app, firstn_all, Nat.sub_diag.
    cbn [app skipn firstn]. rewrite app_nil_r.
    specialize (IH (pre ++ [(o, a)])). rewrite nvar_app in IH.
    replace (nvar [(o, a)]) with (num_res o) in IH by (unfold nvar; cbn; lia). rewrite IH.
    cbn [length seq map nth fst snd firstn]. f_equal. f_equal.
    { rewrite nvar_app. f_equal. f_equal. unfold nvar; cbn; lia. }
    rewrite <- seq_shift, map_map. apply map_ext. intros k. cbn [nth].
    f_equal. rewrite <- app_assoc. reflexivity.
  Qed.
  Theorem decode_is_iteration :
    decode ops args 0
    = Some (map (fun k => let '(_, o, _, v) := info s k in mkIns o (snd (nth k s (EndOp, []))) v)
                (seq 0 (length s))).
  Proof.
    assert (F : Forall good_call s).
    { apply Forall_forall. intros c Hc. destruct (In_nth _ _ (EndOp, []) Hc) as (k & Hk & <-).
      apply good_nth; auto. }
    exact (decode_calls s F []).
  Qed.
End Proof.

(** *** Refuted: a const_random_iterator that has been assigned gives the same
    information as the one it was assigned from (random_iterator.hpp:55-62 does not
    copy the pointer to the arguments) *)
Theorem random_iterator_assignment_refuted ops args nv k :
  r_op_info (r_assign r_default (get_random ops args nv)) k = None.
Proof. unfold get_random. destruct (random_setup ops args nv) as [[? ?] ?]. reflexivity. Qed.

(** ** Example with both variable length operators *)
Definition ex_calls : list call :=
  [ (BeginOp, [0]); (InvOp, []); (InvOp, []); (SinOp, [1]);
    (CSumOp, [0; 7; 8; 8; 8; 1; 2; 4; 9]);
    (CSkipOp, [0; 3; 1; 2; 1; 0; 6; 8]); (AddvvOp, [4; 5]); (EndOp, []) ].
Example iterate_example :
  good_recording ex_calls /\
  map (info ex_calls) (seq 0 8) =
    [(0, BeginOp, 0, 0); (1, InvOp, 1, 1); (2, InvOp, 1, 2); (3, SinOp, 1, 4);
     (4, CSumOp, 2, 5); (5, CSkipOp, 11, 5); (6, AddvvOp, 19, 6); (7, EndOp, 21, 6)].
Proof.
  split; [|reflexivity]. exists (removelast (tl ex_calls)). split; [reflexivity|].
  split; repeat constructor; cbn; try discriminate; try lia.
Qed.
