(** Lemmas for Tape_Prop: recording and replaying agree. *)
From Coq Require Import ZArith List Bool Arith Lia.
From Verif Require Import Base_Spec Op_Model Tape_Spec Tape_Model.
Import ListNotations.

(* ------------------------------------------------------------------ *)
(** ** decode *)

Definition nres (ops : list opvar) : nat := fold_right (fun o n => num_res o + n) 0 ops.

Lemma nres_app l l' : nres (l ++ l') = nres l + nres l'.
Proof. induction l as [|x l IHl]; [auto|]. cbn [app fold_right]. unfold nres in *; cbn in *; lia. Qed.

Lemma n_actual_le_app o a rest : n_actual o a <= length a -> n_actual o (a ++ rest) = n_actual o a.
Proof.
  destruct o; cbn -[nth_error]; auto; intros H.
  - rewrite !app_nth1; auto; lia.
  - destruct (nth_error a 4) eqn:E; [|lia].
    assert (4 < length a) by (apply nth_error_Some; congruence).
    now rewrite nth_error_app1, E by auto.
Qed.

Lemma decode_app ops : forall args nv l o a,
  decode ops args nv = Some l -> n_actual o a = length a ->
  decode (ops ++ [o]) (args ++ a) nv
    = Some (l ++ [mkIns o a (nv + nres ops + num_res o - 1)]).
Proof.
  induction ops as [|o' ops IH]; intros args nv l o a H Ha; cbn [app decode] in *.
  - destruct args; [|discriminate]. injection H as <-. cbn [app decode].
    rewrite Ha, Nat.ltb_irrefl, skipn_all, firstn_all. cbn. repeat f_equal; lia.
  - destruct (length args <? n_actual o' args) eqn:E; [discriminate|].
    apply Nat.ltb_ge in E.
    destruct (decode ops (skipn (n_actual o' args) args) (nv + num_res o')) eqn:D; [|discriminate].
    injection H as <-.
    rewrite (n_actual_le_app o' args a E).
    assert (length (args ++ a) <? n_actual o' args = false) as ->
      by (apply Nat.ltb_ge; rewrite app_length; lia).
    rewrite skipn_app, firstn_app.
    replace (n_actual o' args - length args) with 0 by lia. cbn [skipn firstn].
    rewrite (IH _ _ _ _ _ D Ha), app_nil_r. cbn [app]. do 3 f_equal.
    replace (nv + nres (o' :: ops)) with (nv + num_res o' + nres ops); [reflexivity|].
    unfold nres. cbn [fold_right]. lia.
Qed.

Lemma decode_length ops : forall args nv l, decode ops args nv = Some l -> length l = length ops.
Proof.
  induction ops as [|o ops IH]; intros args nv l H; cbn [decode] in *.
  - destruct args; [|discriminate]. now injection H as <-.
  - destruct (length args <? n_actual o args); [discriminate|].
    destruct (decode ops _ _) eqn:D; [|discriminate].
    injection H as <-. cbn. f_equal. eauto.
Qed.

Section Proof.
  Context {b : base}.
  Notation T := (bt b).

  (* ---------------------------------------------------------------- *)
  (** ** sweep0 *)

  Lemma fset_eq {A} (f : nat -> A) k a : fset f k a k = a.
  Proof. unfold fset. now rewrite Nat.eqb_refl. Qed.
  Lemma fset_ne {A} (f : nat -> A) k a i : i <> k -> fset f k a i = f i.
  Proof. unfold fset. intros. now rewrite (proj2 (Nat.eqb_neq _ _) H). Qed.

  Lemma sweep0_app P cc l : forall k l' (s : fst0 b),
    sweep0 P cc (l ++ l') k s =
    match sweep0 P cc l k s with None => None | Some s' => sweep0 P cc l' (k + length l) s' end.
  Proof.
    induction l as [|i l IH]; intros k l' s; cbn.
    - now rewrite Nat.add_0_r.
    - destruct (f_skip s k).
      + rewrite IH. destruct (sweep0 P cc l (S k) s); auto. f_equal; lia.
      + destruct (step0 P cc i k s); auto. rewrite IH.
        destruct (sweep0 P cc l (S k) f); auto. f_equal; lia.
  Qed.

  Lemma put_res_lt (l : list T) : forall V first i, i < first -> put_res V first l i = V i.
  Proof.
    induction l; intros V first i H; cbn; auto.
    rewrite IHl by lia. apply fset_ne. lia.
  Qed.
  Lemma put_res_at (l : list T) : forall V first k, k < length l ->
    put_res V first l (first + k) = nth k l b0.
  Proof.
    induction l; intros V first k H; cbn in *; [lia|].
    destruct k.
    - rewrite Nat.add_0_r, put_res_lt by lia. apply fset_eq.
    - replace (first + S k) with (S first + k) by lia. rewrite IHl by lia. auto.
  Qed.

  (* ---------------------------------------------------------------- *)
  (** ** dynamic parameters *)

  Fixpoint dents (ops : list opdyn) (idx args : list nat) : list (nat * opdyn * list nat) :=
    match ops, idx with
    | o :: ops', i :: idx' =>
      (i, o, firstn (num_arg_dyn o) args) :: dents ops' idx' (skipn (num_arg_dyn o) args)
    | _, _ => []
    end.
  Definition dentries (r : rec b) := dents (r_dop r) (dyn2par (r_isdyn r) 0) (r_darg r).
  Definition dargs (ops : list opdyn) := fold_right (fun o n => num_arg_dyn o + n) 0 ops.

  Lemma dargs_app l l' : dargs (l ++ l') = dargs l + dargs l'.
  Proof. induction l as [|x l IHl]; [auto|]. cbn [app fold_right]. unfold dargs in *; cbn in *; lia. Qed.

  Lemma dyn2par_app l : forall l' i,
    dyn2par (l ++ l') i = dyn2par l i ++ dyn2par l' (i + length l).
  Proof.
    induction l as [|[] l IH]; intros l' i; cbn.
    - now rewrite Nat.add_0_r.
    - rewrite IH. now replace (i + S (length l)) with (S i + length l) by lia.
    - rewrite IH. now replace (i + S (length l)) with (S i + length l) by lia.
  Qed.

  Lemma dents_app ops : forall idx args o i a,
    length idx = length ops -> length args = dargs ops -> length a = num_arg_dyn o ->
    dents (ops ++ [o]) (idx ++ [i]) (args ++ a) = dents ops idx args ++ [(i, o, a)].
  Proof.
    induction ops as [|o' ops IH]; intros [|i' idx] args o i a H1 H2 H3; try discriminate.
    - cbn in *. destruct args; [|discriminate]. cbn. rewrite <- H3, firstn_all. reflexivity.
    - cbn in *. rewrite firstn_app, skipn_app.
      replace (num_arg_dyn o' - length args) with 0 by lia. cbn [skipn firstn]. rewrite app_nil_r.
      f_equal. apply IH; auto. rewrite skipn_length. unfold dargs in *; lia.
  Qed.

  Lemma dents_length ops : forall idx args, length idx = length ops ->
    length (dents ops idx args) = length ops.
  Proof.
    induction ops; intros [|i idx] args H; try discriminate; cbn; auto.
  Qed.

  (** the parameter arguments of a dynamic operator *)
  Definition par_args_dyn (o : opdyn) (a : list nat) : list nat :=
    match o with
    | ind_dyn => []
    | dis_dyn => [nth 1 a 0]
    | cond_exp_dyn => [nth 1 a 0; nth 2 a 0; nth 3 a 0; nth 4 a 0]
    | add_dyn | div_dyn | mul_dyn | pow_dyn | sub_dyn | zmul_dyn => [nth 0 a 0; nth 1 a 0]
    | _ => [nth 0 a 0]
    end.

  Lemma dyn_sem_ext o a (v : T) P P' :
    (forall i, In i (par_args_dyn o a) -> P i = P' i) -> dyn_sem o a v P = dyn_sem o a v P'.
  Proof.
    intros H. destruct o; cbn in *; rewrite ?(H (nth 0 a 0)) by auto;
      rewrite ?(H (nth 1 a 0)), ?(H (nth 2 a 0)), ?(H (nth 3 a 0)), ?(H (nth 4 a 0)) by auto 10; auto.
  Qed.

  (** what the dynamic sweep must achieve *)
  Definition Pok (ind : list T) (P : nat -> T) (r : rec b) : Prop :=
    (forall i, i < length (r_par r) -> nth i (r_isdyn r) false = false ->
               P i = nth i (r_par r) bnan) /\
    (forall k i o a, nth_error (dentries r) k = Some (i, o, a) ->
               P i = dyn_sem o a (nth k ind b0) P).

  Record dwf (r : rec b) : Prop := {
    w_isd  : length (r_isdyn r) = length (r_par r);
    w_dop  : length (dyn2par (r_isdyn r) 0) = length (r_dop r);
    w_darg : length (r_darg r) = dargs (r_dop r);
    w_dlt  : forall i o a j, In (i, o, a) (dentries r) -> In j (par_args_dyn o a) -> j < i
  }.

  (** dyn_loop establishes the equations *)
  Lemma dyn2par_ge l : forall i j, In j (dyn2par l i) -> i <= j /\ nth (j - i) l false = true /\ j - i < length l.
  Proof.
    induction l as [|x l IH]; intros i j H; cbn in *; [easy|].
    assert (K : In j (dyn2par l (S i)) -> i <= j /\ match j - i with 0 => x | S m => nth m l false end = true
              /\ j - i < S (length l)).
    { intros K. destruct (IH _ _ K) as [G [E F]].
      replace (j - i) with (S (j - S i)) by lia. split; [lia|split; [auto|lia]]. }
    destruct x; cbn in *; [destruct H as [<-|H]|]; auto.
    rewrite Nat.sub_diag. repeat split; lia.
  Qed.

  Lemma dyn_loop_frame ops : forall idx args ind (P : nat -> T) i,
    ~ In i idx -> dyn_loop ops idx args ind P i = P i.
  Proof.
    induction ops as [|o ops IH]; intros [|j idx] args ind P i H; cbn in *; auto.
    rewrite IH by tauto. apply fset_ne. intuition.
  Qed.

  Fixpoint incr (l : list nat) : Prop :=
    match l with [] => True | i :: l' => (forall j, In j l' -> i < j) /\ incr l' end.

  Lemma dyn2par_incr l : forall i, incr (dyn2par l i).
  Proof.
    induction l as [|[] l IH]; intros i; cbn; auto. split; auto.
    intros j H. apply dyn2par_ge in H. lia.
  Qed.

  Lemma dents_idx ops : forall idx args e, In e (dents ops idx args) -> In (fst (fst e)) idx.
  Proof.
    induction ops as [|o ops IH]; intros [|j idx] args e H; cbn in *; try easy.
    destruct H as [<-|H]; cbn; eauto.
  Qed.

  Lemma dyn_loop_eqs ops : forall idx args ind (P : nat -> T),
    incr idx ->
    (forall i o a j, In (i, o, a) (dents ops idx args) -> In j (par_args_dyn o a) -> j < i) ->
    forall k i o a, nth_error (dents ops idx args) k = Some (i, o, a) ->
      dyn_loop ops idx args ind P i
        = dyn_sem o a (nth k ind b0) (dyn_loop ops idx args ind P).
  Proof.
    induction ops as [|o' ops IH]; intros [|i' idx] args ind P Hi Hlt k i o a H;
      cbn in H; try (destruct k; discriminate).
    cbn [dyn_loop]. cbn in Hi. destruct Hi as [Hi1 Hi2].
    destruct k; cbn in H.
    - injection H as <- <- <-.
      rewrite dyn_loop_frame by (intros F; apply Hi1 in F; lia).
      rewrite fset_eq. replace (nth 0 ind b0) with (hd b0 ind) by (now destruct ind).
      apply dyn_sem_ext. intros j Hj.
      pose proof (Hlt _ _ _ j (or_introl eq_refl) Hj).
      rewrite dyn_loop_frame by (intros F; apply Hi1 in F; lia).
      rewrite fset_ne by lia. auto.
    - replace (nth (S k) ind b0) with (nth k (tl ind) b0) by (destruct ind; cbn; auto; destruct k; auto).
      apply IH; auto. intros. apply (Hlt i0 o0 a0 j); cbn; auto.
  Qed.

  Lemma dyn_sweep_ok r ind P0 :
    dwf r ->
    (forall i, i < length (r_par r) -> nth i (r_isdyn r) false = false -> P0 i = nth i (r_par r) bnan) ->
    Pok ind (dyn_sweep r ind P0) r.
  Proof.
    intros W H. unfold dyn_sweep. split.
    - intros i Hi Hd. rewrite dyn_loop_frame; auto.
      intros F. apply dyn2par_ge in F. rewrite Nat.sub_0_r, Hd in F. easy.
    - apply dyn_loop_eqs; [apply dyn2par_incr|]. apply (w_dlt _ W).
  Qed.

  (** two solutions of the equations agree *)
  Lemma Pok_unique ind P P' r : dwf r -> Pok ind P r -> Pok ind P' r ->
    forall i, i < length (r_par r) -> P i = P' i.
  Proof.
    intros W [H1 H2] [H1' H2'] i. induction i as [i IH] using lt_wf_ind. intros Hi.
    destruct (nth i (r_isdyn r) false) eqn:E.
    2:{ rewrite H1, H1'; auto. }
    assert (In i (dyn2par (r_isdyn r) 0)) as F.
    { assert (forall l m, nth m l false = true -> forall s, In (s + m) (dyn2par l s)) as G.
      { induction l as [|x l IHl]; intros m Hm s; [destruct m; discriminate|].
        destruct m; cbn in *.
        - subst x. left. lia.
        - specialize (IHl _ Hm (S s)). replace (s + S m) with (S s + m) by lia.
          destruct x; cbn; auto. }
      apply (G _ _ E 0). }
    assert (exists k o a, nth_error (dentries r) k = Some (i, o, a)) as (k & o & a & K).
    { unfold dentries. pose proof (w_dop _ W) as L. revert L F.
      generalize (r_dop r), (r_darg r), (dyn2par (r_isdyn r) 0). clear.
      induction l as [|o l IHl]; intros args [|j idx] L F; try easy.
      cbn in L. injection L as L. destruct F as [->|F].
      - exists 0; cbn; eauto.
      - destruct (IHl (skipn (num_arg_dyn o) args) idx L F) as (k & o' & a & K). exists (S k); cbn; eauto. }
    rewrite (H2 _ _ _ _ K), (H2' _ _ _ _ K). apply dyn_sem_ext.
    intros j Hj. pose proof (w_dlt _ W _ _ _ _ (nth_error_In _ _ K) Hj). apply IH; lia.
  Qed.

  (* ---------------------------------------------------------------- *)
  (** ** growth of the recording *)

  Record ext (r r' : rec b) : Prop := {
    e_cmp : r_cmp r' = r_cmp r;
    e_nv  : r_nvar r <= r_nvar r';
    e_par : exists l, r_par r' = r_par r ++ l;
    e_isd : exists l, r_isdyn r' = r_isdyn r ++ l;
    e_den : exists l, dentries r' = dentries r ++ l;
    e_vec : exists l, r_vec r' = r_vec r ++ l
  }.

  Lemma ext_refl r : ext r r.
  Proof. constructor; auto; exists []; now rewrite app_nil_r. Qed.
  Lemma ext_trans r1 r2 r3 : ext r1 r2 -> ext r2 r3 -> ext r1 r3.
  Proof.
    intros [A1 A2 [a3 A3] [a4 A4] [a5 A5] [a6 A6]] [B1 B2 [b3 B3] [b4 B4] [b5 B5] [b6 B6]].
    constructor; try congruence; try lia.
    - exists (a3 ++ b3). now rewrite B3, A3, app_assoc.
    - exists (a4 ++ b4). now rewrite B4, A4, app_assoc.
    - exists (a5 ++ b5). now rewrite B5, A5, app_assoc.
    - exists (a6 ++ b6). now rewrite B6, A6, app_assoc.
  Qed.

  Lemma Pok_ext ind P r r' : dwf r -> ext r r' -> Pok ind P r' -> Pok ind P r.
  Proof.
    intros W [_ _ [p Hp] [d Hd] [e He] _] [H1 H2]. split.
    - intros i Hi Hb. rewrite H1.
      + rewrite Hp, app_nth1; auto.
      + rewrite Hp, app_length. lia.
      + rewrite Hd, app_nth1; auto. rewrite (w_isd _ W). auto.
    - intros k i o a K. apply H2. rewrite He, nth_error_app1; auto.
      apply nth_error_Some. congruence.
  Qed.

  Lemma ext_par_len r r' : ext r r' -> length (r_par r) <= length (r_par r').
  Proof. intros [_ _ [l H] _ _ _]. rewrite H, app_length. lia. Qed.
  Lemma ext_vec_len r r' : ext r r' -> length (r_vec r) <= length (r_vec r').
  Proof. intros [_ _ _ _ _ [l H]]. rewrite H, app_length. lia. Qed.
End Proof.
