(** C41: the parameters of the abs-normal function, and the values of a sweep in which the absolute values are replaced. *)
From Coq Require Import ZArith List Bool Arith Lia.
From Verif Require Import Base_Spec Op_Model Tape_Spec Tape_Model Tape_Proof Tape_Proof2 Tape_Proof10 Tape_Hist Tape_Swf Tape_Gen Sweep_Uniq Abs_Model.
Import ListNotations.

Section Par.
  Context {b : base}.
  Notation T := (bt b).
  Implicit Types r : rec b.
  (** values of the parameters during the life of the function: constants do not change *)
  Definition parok r (P : nat -> T) : Prop :=
    (forall i, i < length (r_par r) -> nth i (r_isdyn r) false = false -> P i = nth i (r_par r) bnan) /\
    (forall i, length (r_par r) <= i -> P i = bnan).
  Definition preplay (c : bool) r (P : nat -> T) : rec b :=
    mkRec c 0 0 [] [] [] (r_hash r) (map P (seq 0 (length (r_par r)))) (r_isdyn r) (r_dop r) (r_darg r).
  Definition replays r : Prop := length (r_isdyn r) = length (r_par r) /\
    forall c P isd dop darg, (forall i, i < length (r_par r) -> nth i (r_isdyn r) false = false -> P i = nth i (r_par r) bnan) ->
    copy_par P 0 (r_isdyn r ++ isd) (r_dop r ++ dop) (r_darg r ++ darg) (rec0 c) = copy_par P (length (r_par r)) isd dop darg (preplay c r P).

  Lemma replays_same r r' : r_par r' = r_par r -> r_isdyn r' = r_isdyn r -> r_dop r' = r_dop r -> r_darg r' = r_darg r -> r_hash r' = r_hash r -> replays r -> replays r'.
  Proof. intros A B C D E (L & H). split; [now rewrite A, B|]. intros c P isd dop darg HP. unfold preplay. rewrite A, B, C, D, E. apply H. rewrite <- A, <- B. exact HP. Qed.
  Lemma replays0 c : replays (rec0 c).
  Proof. split; auto. Qed.
  Lemma replays_con r v : replays r -> replays (fst (put_con_par r v)).
  Proof.
    intros R. unfold put_con_par. match goal with |- context [if ?x then _ else _] => destruct x eqn:F end; [exact R|].
    destruct R as [L R]. cbn [fst]. split; [cbn; rewrite !app_length; cbn; lia|]. intros c P isd dop darg HP. cbn [r_par r_isdyn r_dop r_darg r_hash] in *.
    rewrite <- app_assoc. cbn [app]. rewrite R.
    2:{ intros i Hi Hd. rewrite HP; [now rewrite app_nth1 by lia|rewrite app_length; lia|now rewrite app_nth1 by lia]. }
    assert (P (length (r_par r)) = v) as Pv.
    { rewrite HP; [now rewrite app_nth2, Nat.sub_diag by lia|rewrite app_length; cbn; lia|]. now rewrite app_nth2, L, Nat.sub_diag by lia. }
    cbn [copy_par]. rewrite Pv. unfold put_con_par at 1. unfold preplay at 1 2 3 4 5. cbn [r_hash r_par r_isdyn].
    rewrite map_length, seq_length.
    match goal with |- context [if ?x then _ else _] => assert (x = false) as -> end.
    { etransitivity; [|exact F]. destruct (r_hash r (bhash v) <? length (r_par r)) eqn:B; [|rewrite ?andb_false_r; reflexivity].
      destruct (nth (r_hash r (bhash v)) (r_isdyn r) false) eqn:D; [cbn [negb]; rewrite ?andb_false_r; reflexivity|]. f_equal. f_equal. apply Nat.ltb_lt in B.
      unfold preplay; cbn [r_hash r_par]. rewrite (nth_indep (map P _) bnan (P 0)) by (now rewrite map_length, seq_length). rewrite map_nth, seq_nth by auto. cbn [Nat.add].
      rewrite HP; [now rewrite app_nth1 by lia|rewrite app_length; lia|now rewrite app_nth1 by lia]. }
    unfold preplay. cbn [r_cmp r_nvar r_nload r_op r_arg r_vec r_hash r_par r_isdyn r_dop r_darg]. rewrite ?map_length, ?seq_length, Nat.eqb_refl, app_length, seq_app, map_app. cbn [length seq map Nat.add].
    rewrite Pv, Nat.add_1_r. reflexivity.
  Qed.
  Lemma replays_dyn r v o a : replays r -> length a = num_arg_dyn o -> replays (fst (put_dyn_par r v o a)).
  Proof.
    intros [L R] La. unfold put_dyn_par. cbn [fst]. split; [cbn; rewrite !app_length; cbn; lia|]. intros c P isd dop darg HP. cbn [r_par r_isdyn r_dop r_darg r_hash] in *.
    rewrite <- !app_assoc. cbn [app]. rewrite R.
    2:{ intros i Hi Hd. rewrite HP; [now rewrite app_nth1 by lia|rewrite app_length; lia|now rewrite app_nth1 by lia]. }
    cbn [copy_par]. unfold put_dyn_par at 1. unfold preplay. cbn [r_cmp r_nvar r_nload r_op r_arg r_vec r_hash r_par r_isdyn r_dop r_darg].
    rewrite map_length, seq_length, Nat.eqb_refl, app_length, seq_app, map_app. cbn [length seq map Nat.add]. rewrite Nat.add_1_r.
    rewrite <- La, firstn_app, skipn_app, Nat.sub_diag, firstn_all, skipn_all. cbn [firstn skipn]. now rewrite app_nil_r.
  Qed.

  Lemma replays_init tid cmp n np (e : nat -> AD b) ev : replays (st_rec (independent tid cmp n np e ev)).
  Proof.
    unfold independent.
    assert (forall m k r e, replays r -> replays (fst (ind_loop tid k m r e))) as I1.
    { induction m as [|m IH]; intros k r e0 R; cbn [ind_loop]; auto. unfold put_op. cbv zeta. apply IH. eapply replays_same; [..|exact R]; reflexivity. }
    assert (forall m k r e, replays r -> replays (fst (dyn_ind_loop tid n k m r e))) as I2.
    { induction m as [|m IH]; intros k r e0 R; cbn [dyn_ind_loop]; auto. destruct (put_dyn_par r _ ind_dyn []) as [r1 v] eqn:E. apply IH.
      change r1 with (fst (r1, v)). rewrite <- E. apply replays_dyn; auto. }
    match goal with |- context [ind_loop tid 0 n ?r e] => assert (replays r) as R2 end.
    { eapply replays_same; [..|apply (replays0 cmp)]; reflexivity. }
    specialize (I1 n 0 _ e R2). destruct (ind_loop tid 0 n _ e) as [r3 e1]. cbn [fst] in I1.
    pose proof (replays_con r3 bnan I1) as R4. destruct (put_con_par r3 bnan) as [r4 k]. cbn [fst] in R4.
    specialize (I2 np 0 r4 e1 R4). destruct (dyn_ind_loop tid n 0 np r4 e1) as [r5 e2]. exact I2.
  Qed.
  Lemma replays_exec tid p (s : state b) r dep : replays (st_rec s) -> exec tid p s = Some (r, dep) -> replays r.
  Proof.
    intros R E.
    assert (exists r1, replays r1 /\ r = fst (put_op r1 EndOp)) as (r1 & R1 & ->).
    { revert E. apply (Q_exec tid replays); auto.
      - intros. now apply replays_con.
      - intros. now apply replays_dyn. }
    eapply replays_same; [..|exact R1]; reflexivity.
  Qed.
  (** EndOp is the last operator *)
  Lemma end_last tid cmp n np (e : nat -> AD b) ev p r dep : exec tid p (independent tid cmp n np e ev) = Some (r, dep) -> exists ops, r_op r = ops ++ [EndOp] /\ ~ In EndOp ops.
  Proof.
    intros E.
    assert (exists r1, ~ In EndOp (r_op r1) /\ r = fst (put_op r1 EndOp)) as (r1 & R1 & ->).
    { revert E. apply (Q_exec tid (fun r => ~ In EndOp (r_op r))); auto.
      1,2: intros r0 o H _ N Hin; cbn in Hin; apply in_app_or in Hin as [Hin|[Hin|[]]]; auto.
      - intros r0 v H. unfold put_con_par. destruct (_ && _); auto.
      - destruct (independent_spec tid cmp n np e ev) as ((h & ->) & _). cbn. intros [H|H]; [discriminate|]. apply repeat_spec in H. discriminate. }
    exists (r_op r1). auto.
  Qed.

  Lemma parok0 r : parok r (fun i => nth i (r_par r) bnan).
  Proof. split; auto. intros. now apply nth_overflow. Qed.
  Lemma parok_dyn r d P : length (r_isdyn r) = length (r_par r) -> parok r P -> parok r (dyn_sweep r d P).
  Proof.
    intros L [A B]. split; intros i Hi; [intros Hd|]; unfold dyn_sweep; rewrite dyn_loop_frame; auto.
    - intros H. apply dyn2par_ge in H. rewrite Nat.sub_0_r in H. destruct H as (_ & H & _). congruence.
    - intros H. apply dyn2par_ge in H. lia.
  Qed.
  Lemma dyn_loop_ext ops : forall idx args ind (P P' : nat -> T), (forall i, P i = P' i) -> forall i, dyn_loop ops idx args ind P i = dyn_loop ops idx args ind P' i.
  Proof.
    induction ops as [|o ops IH]; intros [|j idx] args ind P P' H i; cbn; auto. apply IH. intros k. unfold fset. destruct (k =? j); auto.
    unfold dyn_sem. cbv zeta. rewrite !H. reflexivity.
  Qed.
End Par.

Lemma opvar_eq_abs o : {o = AbsOp} + {o <> AbsOp}.
Proof. destruct o; (now left) || (now right). Defined.

Section Sweep.
  Context {b : base}.
  Notation T := (bt b).

  (** operators that abs_normal_fun copies *)
  Definition copied (o : opvar) : bool :=
    match o with
    | ErfOp | ErfcOp | LdpOp | LdvOp | StppOp | StpvOp | StvpOp | StvvOp | EqppOp | LeppOp | LtppOp | NeppOp => false
    | _ => okop o
    end.
  (** value of a sweep; only for operators above *)
  Definition vstep (P : nat -> T) (i : ins) (V : nat -> T) : nat -> T :=
    match sem0 (i_op i) (i_arg i) P V with Some l => put_res V (i_var i + 1 - length l) l | None => V end.
  Definition vsweep (P : nat -> T) (l : list ins) (V : nat -> T) : nat -> T := fold_left (fun V i => vstep P i V) l V.
  Lemma sweep_v P cc l : forall k (s : fst0 b), (forall j, f_skip s j = false) ->
    Forall (fun i => copied (i_op i) = true \/ i_op i = BeginOp \/ i_op i = InvOp) l ->
    exists s', sweep0 P cc l k s = Some s' /\ f_V s' = vsweep P l (f_V s).
  Proof.
    induction l as [|i l IH]; intros k s H F; cbn [sweep0 vsweep fold_left]; [eauto|]. rewrite H. inversion F as [|? ? F1 F2]; subst.
    assert (exists s1, step0 P cc i k s = Some s1 /\ f_V s1 = vstep P i (f_V s) /\ forall j, f_skip s1 j = false) as (s1 & E1 & E2 & E3).
    { destruct i as [o a iv]. unfold step0, vstep. cbn [i_op i_arg i_var] in *. destruct (sem0 o a P (f_V s)) eqn:S; [eexists; split; [reflexivity|]; auto|].
      destruct (cmp_change o a P (f_V s)) eqn:C.
      - destruct ((cc =? 0) || negb b0); eexists; split; try reflexivity; auto.
      - destruct F1 as [F1|[->| ->]]; [|eauto..]. destruct o; try discriminate F1; try discriminate S; try discriminate C; eauto. }
    rewrite E1. destruct (IH (S k) s1 E3 F2) as (s' & A & B). exists s'. split; auto. rewrite B, E2. reflexivity.
  Qed.

  (** the arguments of the absolute values, and the values, when the result of absolute value number k is u_k *)
  Fixpoint zsweep (P : nat -> T) (l : list ins) (u : list T) (V : nat -> T) : (nat -> T) * list T :=
    match l with
    | [] => (V, [])
    | i :: l' =>
      match i_op i with
      | AbsOp => let '(V', z) := zsweep P l' (tl u) (fset V (i_var i) (hd b0 u)) in (V', V (nth 0 (i_arg i) 0) :: z)
      | _ => zsweep P l' u (vstep P i V)
      end
    end.
  Lemma zsweep_other P i l u V : i_op i <> AbsOp -> zsweep P (i :: l) u V = zsweep P l u (vstep P i V).
  Proof. intros H. cbn [zsweep]. destruct (i_op i); try reflexivity. now destruct H. Qed.

  (** result indices: i_var = nv + NumRes - 1 *)
  Fixpoint numd (nv : nat) (l : list ins) : Prop :=
    match l with [] => True | i :: l' => i_var i = nv + num_res (i_op i) - 1 /\ numd (nv + num_res (i_op i)) l' end.
  Lemma numd_app l l' : forall nv, numd nv (l ++ l') <-> numd nv l /\ numd (nv + tres l) l'.
  Proof. induction l as [|i l IH]; intros nv; cbn [app numd tres]; [rewrite Nat.add_0_r; tauto|]. rewrite IH, Nat.add_assoc. tauto. Qed.
  Lemma decode_numd ops : forall args nv l, decode ops args nv = Some l -> numd nv l.
  Proof.
    induction ops as [|o ops IH]; intros args nv l D; cbn [decode] in D.
    - destruct args; [|discriminate]. now injection D as <-.
    - destruct (length args <? n_actual o args); [discriminate|]. destruct (decode ops _ _) as [l2|] eqn:D'; [|discriminate]. injection D as <-. cbn. eauto.
  Qed.
  Lemma vstep_lt P i V nv v : i_var i = nv + num_res (i_op i) - 1 -> v < nv -> vstep P i V v = V v.
  Proof.
    intros E H. unfold vstep. destruct (sem0 _ _ P V) as [l|] eqn:S; auto. apply sem0_length in S. apply put_res_lt. lia.
  Qed.
  Lemma vsweep_lt P l : forall nv V v, numd nv l -> v < nv -> vsweep P l V v = V v.
  Proof.
    induction l as [|i l IH]; intros nv V v N H; auto; destruct N as [N1 N2]. cbn [vsweep fold_left]. change (vsweep P l (vstep P i V) v = V v).
    rewrite (IH _ _ _ N2) by lia. eapply vstep_lt; eauto.
  Qed.
  Lemma zsweep_lt P l : forall nv u V v, numd nv l -> v < nv -> fst (zsweep P l u V) v = V v.
  Proof.
    induction l as [|i l IH]; intros nv u V v N H; auto; destruct N as [N1 N2].
    destruct (opvar_eq_abs (i_op i)) as [E|E].
    - cbn [zsweep]. rewrite E in *. specialize (IH (nv + 1) (tl u) (fset V (i_var i) (hd b0 u)) v N2 ltac:(lia)).
      destruct (zsweep P l (tl u) _) as [V' z]. cbn [fst] in *. rewrite IH. apply fset_ne. cbn in N1. lia.
    - rewrite zsweep_other by auto. rewrite (IH _ _ _ _ N2) by lia. eapply vstep_lt; eauto.
  Qed.
End Sweep.
