(** C04.  For every number of threads, every interleaving of their statements and
    every history: an AD object is a variable or dynamic parameter only while the
    recording that made it is active; afterwards it is a constant for ever. *)
From Coq Require Import List Arith Bool Lia ZArith.
From Verif Require Import Base_Spec Op_Model Tape_Spec Tape_Model Link_Model.
Import ListNotations.

(** ** Specification vocabulary: which objects a statement assigns / mentions *)
Definition assigned {T} (i : instr T) : option nat :=
  match i with
  | Iconst d _ | Icopy d _ | Iun _ d _ | Ibin _ d _ _ | Ieq _ d _ | Icond _ d _ _ _ _
  | Idis _ d _ | Ild d _ _ => Some d
  | Ist _ _ _ => None
  end.
Definition mentioned {T} (i : instr T) : list nat :=
  match i with
  | Iconst d _ => [d]
  | Icopy d x | Iun _ d x | Idis _ d x | Ieq _ d x => [d; x]
  | Ibin _ d l r => [d; l; r]
  | Icond _ d l r t f => [d; l; r; t; f]
  | Ild d _ i => [d; i]
  | Ist _ i x => [i; x]
  end.
Definition vectors {T} (i : instr T) : list nat :=
  match i with Ild _ v _ | Ist v _ _ => [v] | _ => [] end.

(** event [v] assigns object [k] *)
Definition assigns {b} (v : event b) (k : nat) : Prop :=
  match v with
  | Ev_independent _ _ xs ds => In k xs \/ In k ds
  | Ev_op _ i => assigned i = Some k
  | _ => False
  end.
(** the thread that executes an event, and the objects and VecAD vectors it uses *)
Definition thread {b} (v : event b) : nat :=
  match v with
  | Ev_independent t _ _ _ | Ev_op t _ | Ev_cmp t _ _ _ | Ev_dependent t | Ev_abort t => t
  end.
Definition uses {b} (v : event b) : list nat :=
  match v with
  | Ev_independent _ _ xs ds => xs ++ ds
  | Ev_op _ i => mentioned i
  | Ev_cmp _ _ l r => [l; r]
  | _ => []
  end.
Definition uses_vec {b} (v : event b) : list nat :=
  match v with Ev_op _ i => vectors i | _ => [] end.

(** ** Results of one statement while recording *)
Section Step.
  Context {b : base}.
  Variable id : nat.

  Definition from (l : list (AD b)) (a : AD b) : Prop :=
    a_tid a = 0 \/ a_tid a = id \/ exists y, In y l /\ a_tid a = a_tid y.

  Lemma from_con l v : from l (con_ad v). Proof. left; reflexivity. Qed.
  Lemma from_var r o a v l : from l (snd (rec_var id r o a v)).
  Proof. unfold rec_var. destruct (put_op _ _). right; left; reflexivity. Qed.
  Lemma from_dyn r o a v l : from l (snd (rec_dyn id r o a v)).
  Proof. unfold rec_dyn. destruct (put_dyn_par _ _ _ _). right; left; reflexivity. Qed.
  Lemma from_dyn2 r o x y v l : from l (snd (rec_dyn2 id r o x y v)).
  Proof.
    unfold rec_dyn2. destruct (par_addr id r x) as [r1 p0].
    destruct (par_addr id r1 y) as [r2 p1]. apply from_dyn.
  Qed.
  Lemma from_mk l y v t (H : In y l) a : from l (mkAD v (a_tid y) a t).
  Proof. right; right; exists y; auto. Qed.
  Lemma from_0 l v t a : from l (mkAD v 0 a t).
  Proof. left; reflexivity. Qed.

  Ltac brk := repeat match goal with
    | |- from _ (snd (if ?c then _ else _)) => destruct c
    | |- from _ (snd (let '(_, _) := ?c in _)) => destruct c
    | |- from _ (snd (match ?u with _ => _ end)) => destruct u
    end.
  Ltac fin := first [apply from_con | apply from_var | apply from_dyn | apply from_dyn2
    | apply from_0 | apply from_mk; cbn; auto].

  Lemma from_bin o r x y : from [x; y] (snd (ad_bin id o r x y)).
  Proof.
    destruct o; cbn [ad_bin];
      unfold ad_add, ad_sub, ad_mul, ad_div, ad_azmul, ad_pow; cbv zeta; brk; fin.
  Qed.
  Lemma from_eq o r x y : from [x; y] (snd (ad_eq id o r x y)).
  Proof.
    destruct o; cbn [ad_eq];
      unfold ad_add_eq, ad_sub_eq, ad_mul_eq, ad_div_eq; cbv zeta; brk; fin.
  Qed.
  Lemma from_un u r x l : from l (snd (ad_un id u r x)).
  Proof. unfold ad_un; cbv zeta; brk; fin. Qed.
  Lemma from_dis k r x l : from l (snd (ad_dis id k r x)).
  Proof. unfold ad_dis; cbv zeta; brk; fin. Qed.
  Lemma from_cond c r x y t f l : from l (snd (ad_cond id c r x y t f)).
  Proof. unfold ad_cond; cbv zeta; brk; fin. Qed.

  Lemma vec_index_tid (r : rec b) v i r1 v1 :
    vec_index id r v i = Some (r1, v1) -> v_tid v1 = v_tid v \/ v_tid v1 = id.
  Proof.
    unfold vec_index. destruct (index_of _ _); [|discriminate].
    destruct (negb _ && negb _).
    { intros H; injection H; intros; subst; auto. }
    destruct (negb _).
    - unfold vec_on_tape. destruct (put_con_list _ _). destruct (put_var_vecad _ _).
      intros H; injection H; intros; subst; auto.
    - intros H; injection H; intros; subst; auto.
  Qed.
  Lemma vec_store_tid (r : rec b) v i x r1 v1 :
    vec_store id r v i x = Some (r1, v1) -> v_tid v1 = v_tid v \/ v_tid v1 = id.
  Proof.
    unfold vec_store. destruct (index_of _ _); [|discriminate]. cbv zeta.
    destruct (negb _ && negb _).
    { intros H; injection H; intros; subst; auto. }
    destruct (negb (vec_var id _)).
    - unfold vec_on_tape. destruct (put_con_list _ _). destruct (put_var_vecad _ _).
      destruct (if negb _ then _ else _). destruct (if negb _ then _ else _).
      intros H; injection H; intros; subst; auto.
    - destruct (if negb _ then _ else _). destruct (if negb _ then _ else _).
      intros H; injection H; intros; subst; auto.
  Qed.
  Lemma vec_load_tid (r : rec b) v i r1 a l : vec_load id r v i = Some (r1, a) -> from l a.
  Proof.
    unfold vec_load. destruct (index_of _ _); [|discriminate]. cbv zeta.
    destruct (negb _ && negb _).
    { intros H; injection H; intros; subst. apply from_con. }
    destruct (if negb _ then _ else _). destruct (put_load_op _ _).
    intros H; injection H; intros; subst. right; left; reflexivity.
  Qed.

  Lemma from_incl l l' a : incl l l' -> from l a -> from l' a.
  Proof. intros I [H|[H|(y & Hy & H)]]; [left|right;left|right;right]; auto. exists y; auto. Qed.

  Definition ad_res (i : instr (bt b)) (e e' : nat -> AD b) : Prop :=
    forall k, e' k = e k \/ (assigned i = Some k /\ from (map e (mentioned i)) (e' k)).
  Definition vec_res (i : instr (bt b)) (e e' : nat -> VecAD b) : Prop :=
    forall k, v_tid (e' k) = v_tid (e k) \/ (In k (vectors i) /\ v_tid (e' k) = id).

  Lemma ad_res_set i d e a : assigned i = Some d -> from (map e (mentioned i)) a ->
    ad_res i e (fset e d a).
  Proof.
    intros H1 H2 k. unfold fset. destruct (k =? d) eqn:E; [|auto].
    apply Nat.eqb_eq in E; subst. auto.
  Qed.
  Lemma vec_res_same i e : vec_res i e e. Proof. intros k; auto. Qed.
  Lemma vec_res_set i v e a : In v (vectors i) -> v_tid a = v_tid (e v) \/ v_tid a = id ->
    vec_res i e (fset e v a).
  Proof.
    intros H1 H2 k. unfold fset. destruct (k =? v) eqn:E; [|auto].
    apply Nat.eqb_eq in E; subst. destruct H2; auto.
  Qed.

  Lemma step_rec_tid i s s' : step_rec id i s = Some s' ->
    ad_res i (st_r s) (st_r s') /\ vec_res i (st_v s) (st_v s').
  Proof.
    destruct i; cbn [step_rec]; cbv zeta.
    1-7: intros H; injection H as <-; cbn [set_ad st_r st_v]; split; [|apply vec_res_same];
         apply ad_res_set; [reflexivity|].
    - apply from_con.
    - right; right; exists (st_r s s0); split; [cbn; auto|reflexivity].
    - apply from_un.
    - eapply from_incl; [|apply from_bin]. intros y; cbn; tauto.
    - eapply from_incl; [|apply from_eq]. intros y; cbn; tauto.
    - apply from_cond.
    - apply from_dis.
    - destruct (vec_index _ _ _ _) as [[r1 v1]|] eqn:E; [|discriminate].
      destruct (vec_load _ _ _ _) as [[r2 a]|] eqn:E2; [|discriminate].
      intros H; injection H as <-. cbn [st_r st_v]. split.
      + apply ad_res_set; [reflexivity|]. eapply vec_load_tid; eauto.
      + apply vec_res_set; [cbn; auto|]. eapply vec_index_tid; eauto.
    - destruct (vec_index _ _ _ _) as [[r1 v1]|] eqn:E; [|discriminate].
      destruct (vec_store _ _ _ _ _) as [[r2 v2]|] eqn:E2; [|discriminate].
      intros H; injection H as <-. cbn [st_r st_v]. split.
      + intros k; auto.
      + apply vec_res_set; [cbn; auto|].
        destruct (vec_index_tid _ _ _ _ _ E) as [A|A]; destruct (vec_store_tid _ _ _ _ _ _ E2) as [B|B];
          rewrite ?B, ?A; auto.
  Qed.
  Lemma step_none_tid i e ev e' ev' : step_none i e ev = Some (e', ev') ->
    ad_res i e e' /\ vec_res i ev ev'.
  Proof.
    destruct i; cbn [step_none]; cbv zeta.
    1-7: intros H; injection H as <- <-; split; [|apply vec_res_same];
         apply ad_res_set; [reflexivity|].
    - apply from_con.
    - right; right; exists (e s); split; [cbn; auto|reflexivity].
    - apply from_con.
    - apply from_con.
    - right; right; exists (e d); split; [cbn; auto|reflexivity].
    - apply from_con.
    - apply from_con.
    - destruct (index_of _ _); [|discriminate]. intros H; injection H as <- <-.
      split; [|apply vec_res_same]. apply ad_res_set; [reflexivity|apply from_con].
    - destruct (index_of _ _); [|discriminate]. intros H; injection H as <- <-.
      split; [intros k; auto|]. apply vec_res_set; cbn; auto.
  Qed.

  Lemma mark_ind_tid xs : forall (r : rec b) e k, (~ In k xs -> snd (mark_ind id r e xs) k = e k) /\
      (In k xs -> a_tid (snd (mark_ind id r e xs) k) = id /\ a_type (snd (mark_ind id r e xs) k) = T_var).
  Proof.
    induction xs as [|x xs IH]; intros r e k; cbn [mark_ind].
    - cbn. split; [auto|tauto].
    - destruct (put_op r InvOp) as [r1 a].
      destruct (IH r1 (fset e x (mkAD (a_val (e x)) id a T_var)) k) as [A B].
      split.
      + intros H. rewrite A by (cbn in H; tauto). unfold fset.
        destruct (k =? x) eqn:E; [|reflexivity]. apply Nat.eqb_eq in E; subst. cbn in H; tauto.
      + intros H. destruct (in_dec Nat.eq_dec k xs) as [I|I]; [auto|].
        rewrite A by auto. destruct H as [->|H]; [|tauto].
        unfold fset. rewrite Nat.eqb_refl. auto.
  Qed.
  Lemma mark_dyn_tid ds : forall j (r : rec b) e k, (~ In k ds -> snd (mark_dyn id j r e ds) k = e k) /\
      (In k ds -> a_tid (snd (mark_dyn id j r e ds) k) = id /\ a_type (snd (mark_dyn id j r e ds) k) = T_dyn).
  Proof.
    induction ds as [|x xs IH]; intros j r e k; cbn [mark_dyn].
    - cbn. split; [auto|tauto].
    - destruct (put_dyn_par r _ _ _) as [r1 a].
      destruct (IH (S j) r1 (fset e x (mkAD (a_val (e x)) id (S j) T_dyn)) k) as [A B].
      split.
      + intros H. rewrite A by (cbn in H; tauto). unfold fset.
        destruct (k =? x) eqn:E; [|reflexivity]. apply Nat.eqb_eq in E; subst. cbn in H; tauto.
      + intros H. destruct (in_dec Nat.eq_dec k xs) as [I|I]; [auto|].
        rewrite A by auto. destruct H as [->|H]; [|tauto].
        unfold fset. rewrite Nat.eqb_refl. auto.
  Qed.
End Step.

(** ** The invariant of the tape identifiers *)
Section World.
  Context {b : base}.
  Variables (M MAX : nat).
  Hypothesis M_pos : 0 < M.

  Definition ok_id (w : world (b:=b)) (o : nat) : Prop :=
    o = 0 \/ (o <= w_id w (o mod M) /\
              (o = w_id w (o mod M) -> exists r, w_tape w (o mod M) = Some (o, r))).
  Record inv (w : world (b:=b)) : Prop := mkInv {
    i_id : forall t, t < M -> w_id w t = 0 \/ (w_id w t mod M = t /\ M <= w_id w t);
    i_tape : forall t id r, w_tape w t = Some (id, r) -> t < M /\ id = w_id w t /\ id <> 0;
    i_ad : forall k, ok_id w (a_tid (w_ad w k));
    i_vec : forall k, ok_id w (v_tid (w_vec w k)) }.

  Lemma start_inv e ev : inv (wstart (b:=b) e ev).
  Proof.
    split; cbn; intros.
    - left; reflexivity.
    - discriminate.
    - left; reflexivity.
    - left; reflexivity.
  Qed.

  Lemma mod_lt o : o mod M < M. Proof. apply Nat.mod_upper_bound; lia. Qed.

  (** a step either leaves identifiers and the set of active tapes alone, or starts
      or ends the recording of one thread *)
  Definition same_tapes (w w' : world (b:=b)) : Prop :=
    (forall t, w_id w' t = w_id w t) /\
    (forall t, match w_tape w t, w_tape w' t with
               | None, None => True
               | Some (i, _), Some (j, _) => i = j
               | _, _ => False end).

  Lemma same_ok (w : world (b:=b)) w' o : same_tapes w w' -> ok_id w o -> ok_id w' o.
  Proof.
    intros [A B] [H|[H1 H2]]; [left; auto|right]. rewrite !A. split; [auto|].
    intros E. destruct (H2 E) as [r Hr]. specialize (B (o mod M)). rewrite Hr in B.
    destruct (w_tape w' (o mod M)) as [[j r']|]; [|contradiction]. subst. eauto.
  Qed.
  Lemma ok_cur (w : world (b:=b)) t id r : inv w -> w_tape w t = Some (id, r) -> ok_id w id.
  Proof.
    intros I H. destruct (i_tape _ I _ _ _ H) as (Ht & E & Z). right.
    destruct (i_id _ I t Ht) as [E0|[E1 E2]]; [lia|].
    assert (Em : id mod M = t) by congruence. rewrite Em. split; [lia|eauto].
  Qed.

  Lemma same_inv (w : world (b:=b)) w' t i : inv w -> same_tapes w w' ->
    (forall r, w_tape w t <> Some (i, r)) \/ (exists r, w_tape w t = Some (i, r)) ->
    (forall k, a_tid (w_ad w' k) = 0 \/ (a_tid (w_ad w' k) = i /\ exists r, w_tape w t = Some (i, r))
               \/ exists y, a_tid (w_ad w' k) = a_tid (w_ad w y)) ->
    (forall k, v_tid (w_vec w' k) = v_tid (w_vec w k) \/
               (v_tid (w_vec w' k) = i /\ exists r, w_tape w t = Some (i, r))) ->
    inv w'.
  Proof.
    intros I S _ HA HV. pose proof S as [A B]. split.
    - intros u Hu. rewrite !A. apply (i_id _ I); auto.
    - intros u id r H. specialize (B u). rewrite H in B.
      destruct (w_tape w u) as [[j r']|] eqn:E; [|contradiction]. subst.
      rewrite A. eapply i_tape; eauto.
    - intros k. apply (same_ok w); [auto|].
      destruct (HA k) as [E|[[E [r Hr]]|[y E]]].
      + left; auto.
      + rewrite E. eapply ok_cur; eauto.
      + rewrite E. apply I.
    - intros k. apply (same_ok w); [auto|].
      destruct (HV k) as [E|[E [r Hr]]]; rewrite E; [apply I|eapply ok_cur; eauto].
  Qed.

  Lemma fset_same {A} (f : nat -> A) k a : fset f k a k = a.
  Proof. unfold fset. rewrite Nat.eqb_refl. reflexivity. Qed.
  Lemma fset_other {A} (f : nat -> A) k a j : j <> k -> fset f k a j = f j.
  Proof. intros H. unfold fset. destruct (j =? k) eqn:E; [apply Nat.eqb_eq in E; congruence|reflexivity]. Qed.

  Lemma op_same (w : world (b:=b)) w' t i : wstep M MAX w (Ev_op t i) = Some w' -> t < M /\ same_tapes w w'.
  Proof.
    cbn [wstep]. destruct (t <? M) eqn:Et; [|discriminate]. apply Nat.ltb_lt in Et.
    destruct (w_tape w t) as [[id r]|] eqn:Ew.
    - destruct (step_rec _ _ _) as [s|]; [|discriminate]. intros H; injection H as <-.
      split; [auto|]. split; cbn; [auto|]. intros u.
      destruct (Nat.eq_dec u t) as [->|N].
      + rewrite fset_same, Ew. reflexivity.
      + rewrite fset_other by auto. destruct (w_tape w u) as [[? ?]|]; auto.
    - destruct (step_none _ _ _) as [[e ev]|]; [|discriminate]. intros H; injection H as <-.
      split; [auto|]. split; cbn; [auto|]. intros u. destruct (w_tape w u) as [[? ?]|]; auto.
  Qed.
  (** values of the results of a statement *)
  Lemma op_res (w : world (b:=b)) w' t i : wstep M MAX w (Ev_op t i) = Some w' ->
    (forall k, w_ad w' k = w_ad w k \/ (assigned i = Some k /\
        (a_tid (w_ad w' k) = 0 \/
         (exists id r, w_tape w t = Some (id, r) /\ a_tid (w_ad w' k) = id) \/
         exists y, In y (mentioned i) /\ a_tid (w_ad w' k) = a_tid (w_ad w y)))) /\
    (forall k, v_tid (w_vec w' k) = v_tid (w_vec w k) \/ (In k (vectors i) /\
         exists id r, w_tape w t = Some (id, r) /\ v_tid (w_vec w' k) = id)).
  Proof.
    cbn [wstep]. destruct (t <? M); [|discriminate].
    destruct (w_tape w t) as [[id r]|].
    - destruct (step_rec _ _ _) as [s|] eqn:E; [|discriminate]. intros H; injection H as <-.
      apply step_rec_tid in E. cbn in *. destruct E as [A B]. split; intros k.
      + destruct (A k) as [H|[H1 H2]]; [auto|right; split; [auto|]].
        destruct H2 as [H|[H|(y & Hy & H)]]; [auto|right;left; eauto|right;right].
        apply in_map_iff in Hy. destruct Hy as (z & <- & Hz). eauto.
      + destruct (B k) as [H|[H1 H2]]; [auto|right; eauto 6].
    - destruct (step_none _ _ _) as [[e ev]|] eqn:E; [|discriminate]. intros H; injection H as <-.
      pose proof (step_none_tid 0 _ _ _ _ _ E) as [A _].
      pose proof (step_none_tid 1 _ _ _ _ _ E) as [_ B1].
      pose proof (step_none_tid 0 _ _ _ _ _ E) as [_ B0]. cbn. split; intros k.
      + destruct (A k) as [H|[H1 H2]]; [auto|right; split; [auto|]].
        destruct H2 as [H|[H|(y & Hy & H)]]; [auto|auto|right;right].
        apply in_map_iff in Hy. destruct Hy as (z & <- & Hz). eauto.
      + destruct (B0 k) as [H|[H1 H2]]; [auto|]. destruct (B1 k) as [H3|[H3 H4]]; [auto|].
        congruence.
  Qed.

  Definition next_id (w : world (b:=b)) (t : nat) : nat := if w_id w t =? 0 then t + M else w_id w t.
  Lemma ind_spec (w : world (b:=b)) w' t cmp xs ds : wstep M MAX w (Ev_independent t cmp xs ds) = Some w' ->
    t < M /\ w_tape w t = None /\ xs <> [] /\
    w_id w' = fset (w_id w) t (next_id w t) /\
    (exists r, forall u, w_tape w' u = if u =? t then Some (next_id w t, r) else w_tape w u) /\
    w_vec w' = w_vec w /\
    (forall k, ~ In k xs -> ~ In k ds -> w_ad w' k = w_ad w k) /\
    (forall k, In k ds -> a_tid (w_ad w' k) = next_id w t /\ a_type (w_ad w' k) = T_dyn) /\
    (forall k, In k xs -> ~ In k ds -> a_tid (w_ad w' k) = next_id w t /\ a_type (w_ad w' k) = T_var).
  Proof.
    cbn [wstep]. destruct (t <? M) eqn:Et; [|discriminate]. apply Nat.ltb_lt in Et.
    unfold do_independent. destruct (w_tape w t) eqn:Ew; [discriminate|].
    destruct xs as [|x xs]; [discriminate|]. set (l := x :: xs).
    unfold tape_new. cbv zeta. fold (next_id w t). set (id := next_id w t).
    destruct ((w_id w t =? 0) && (MAX <? id)); [discriminate|]. cbn [w_id w_ad w_tape w_vec].
    rewrite fset_same.
    destruct (mark_ind id _ _ l) as [r2 e2] eqn:E2.
    destruct (put_con_par r2 bnan) as [r3 z].
    destruct (mark_dyn id 0 r3 e2 ds) as [r4 e4] eqn:E4.
    intros H; injection H as <-. cbn [w_id w_ad w_tape w_vec].
    split; [auto|]. split; [auto|]. split; [discriminate|]. split; [reflexivity|].
    split. { exists r4. intros u. unfold fset. destruct (u =? t); reflexivity. }
    split; [reflexivity|].
    pose proof (fun k => mark_ind_tid id l (put_arg (fst (put_op (rec0 cmp) BeginOp)) [0]) (w_ad w) k) as A.
    pose proof (fun k => mark_dyn_tid id ds 0 r3 e2 k) as B. rewrite E2 in A. rewrite E4 in B. cbn [snd] in A, B.
    split; [|split]; intros k.
    - intros H1 H2. rewrite (proj1 (B k) H2). apply (proj1 (A k) H1).
    - intros H. apply (proj2 (B k) H).
    - intros H1 H2. rewrite (proj1 (B k) H2). apply (proj2 (A k) H1).
  Qed.

  (** the recording of thread t is ended *)
  Definition ended (w w' : world (b:=b)) (t : nat) : Prop :=
    w_id w' = fset (w_id w) t (w_id w t + M) /\ w_tape w' = fset (w_tape w) t None /\
    w_ad w' = w_ad w /\ w_vec w' = w_vec w.
  Lemma end_spec (w : world (b:=b)) w' t v : v = Ev_dependent t \/ v = Ev_abort t -> wstep M MAX w v = Some w' ->
    t < M /\ ((w_tape w t <> None /\ ended w w' t /\ w_id w t < MAX - M) \/
              (v = Ev_abort t /\ w_tape w t = None /\ w' = w)).
  Proof.
    intros [-> | ->]; cbn [wstep]; (destruct (t <? M) eqn:Et; [|discriminate]);
      apply Nat.ltb_lt in Et; (split; [auto|]);
      destruct (w_tape w t) eqn:Ew.
    1,3: unfold tape_delete in *; destruct (w_id w t <? MAX - M) eqn:E; [|discriminate];
         apply Nat.ltb_lt in E; injection H as <-; left; split; [congruence|];
         split; [|auto]; split; auto.
    - discriminate.
    - injection H as <-. auto.
  Qed.
  Lemma cmp_spec (w : world (b:=b)) w' t c l r : wstep M MAX w (Ev_cmp t c l r) = Some w' ->
    t < M /\ same_tapes w w' /\ w_ad w' = w_ad w /\ w_vec w' = w_vec w.
  Proof.
    cbn [wstep]. destruct (t <? M) eqn:Et; [|discriminate]. apply Nat.ltb_lt in Et.
    destruct (w_tape w t) as [[id k]|] eqn:Ew; intros H; injection H as <-; cbn.
    - split; [auto|]. split; [|auto]. split; cbn; [auto|]. intros u.
      destruct (Nat.eq_dec u t) as [->|N].
      + rewrite fset_same, Ew. reflexivity.
      + rewrite fset_other by auto. destruct (w_tape w u) as [[? ?]|]; auto.
    - split; [auto|]. split; [|auto]. split; [auto|]. intros u. destruct (w_tape w u) as [[? ?]|]; auto.
  Qed.

  Lemma new_id (w : world (b:=b)) t : inv w -> t < M ->
    next_id w t mod M = t /\ M <= next_id w t /\ w_id w t <= next_id w t.
  Proof.
    intros I Ht. unfold next_id. destruct (w_id w t =? 0) eqn:E.
    - apply Nat.eqb_eq in E. rewrite E. split; [|lia].
      replace (t + M) with (t + 1 * M) by lia. rewrite Nat.mod_add by lia. apply Nat.mod_small; auto.
    - apply Nat.eqb_neq in E. destruct (i_id _ I t Ht) as [?|[? ?]]; [lia|]. split; [auto|lia].
  Qed.

  Lemma step_inv (w : world (b:=b)) v w' : inv w -> wstep M MAX w v = Some w' -> inv w'.
  Proof.
    intros I H. destruct v as [t cmp xs ds|t i|t c l r|t|t].
    - apply ind_spec in H. destruct H as (Ht & Ew & _ & Eid & [r Etp] & Ev & Eo & Ed & Ex).
      pose proof (new_id w t I Ht) as (Em & Hge & Hle).
      set (id := next_id w t) in *.
      assert (OK : forall o, ok_id w o -> ok_id w' o).
      { intros o [Z|[H1 H2]]; [left; auto|right]. rewrite Eid, Etp.
        destruct (Nat.eq_dec (o mod M) t) as [E|N].
        - rewrite E in *. rewrite fset_same, Nat.eqb_refl. split; [lia|].
          intros ->. eauto.
        - rewrite fset_other by auto. apply Nat.eqb_neq in N. rewrite N. auto. }
      assert (OKn : ok_id w' id).
      { right. rewrite Em, Eid, Etp, fset_same, Nat.eqb_refl. split; [lia|eauto]. }
      split.
      + intros u Hu. rewrite Eid. destruct (Nat.eq_dec u t) as [->|N].
        * rewrite fset_same. auto.
        * rewrite fset_other by auto. apply I; auto.
      + intros u i r' H. rewrite Etp in H. rewrite Eid.
        destruct (u =? t) eqn:E.
        * apply Nat.eqb_eq in E; subst u. injection H as E1 E2. rewrite fset_same. lia.
        * apply Nat.eqb_neq in E. rewrite fset_other by auto. eapply i_tape; eauto.
      + intros k. destruct (in_dec Nat.eq_dec k ds) as [D|D].
        { rewrite (proj1 (Ed k D)). auto. }
        destruct (in_dec Nat.eq_dec k xs) as [X|X].
        { rewrite (proj1 (Ex k X D)). auto. }
        rewrite Eo by auto. apply OK, I.
      + intros k. rewrite Ev. apply OK, I.
    - pose proof (op_same _ _ _ _ H) as [Ht S]. pose proof (op_res _ _ _ _ H) as [A B].
      destruct (w_tape w t) as [[id r]|] eqn:Ew.
      + apply (same_inv w w' t id); auto.
        * right; eauto.
        * intros k. destruct (A k) as [E|[_ [E|[(id' & r' & E1 & E)|(y & _ & E)]]]].
          { right; right. exists k. rewrite E. reflexivity. }
          { auto. }
          { injection E1 as <- <-. right; left. eauto. }
          { eauto. }
        * intros k. destruct (B k) as [E|[_ (id' & r' & E1 & E)]]; [auto|].
          injection E1 as <- <-. right. eauto.
      + apply (same_inv w w' t 0); auto.
        * left. congruence.
        * intros k. destruct (A k) as [E|[_ [E|[(id' & r' & E1 & E)|(y & _ & E)]]]].
          { right; right. exists k. rewrite E. reflexivity. }
          { auto. }
          { congruence. }
          { eauto. }
        * intros k. destruct (B k) as [E|[_ (id' & r' & E1 & E)]]; [auto|congruence].
    - pose proof (cmp_spec _ _ _ _ _ _ H) as (Ht & S & Ea & Ev).
      apply (same_inv w w' t 0); auto.
      + destruct (w_tape w t) as [[i r']|] eqn:E; [|left; congruence].
        left. intros r2 H2. injection H2 as -> _. apply (i_tape _ I) in E. lia.
      + intros k. right; right. exists k. rewrite Ea. reflexivity.
      + intros k. rewrite Ev. auto.
    - apply (end_spec _ _ t) in H; [|auto]. destruct H as (Ht & [(Hn & (Eid & Et & Ea & Ev) & _)|(? & _)]); [|discriminate].
      eapply (fun p q => conj p q) in Ht; [|exact Hn]. destruct Ht as [Hn' Ht].
      assert (OK : forall o, ok_id w o -> ok_id w' o).
      { intros o [Z|[H1 H2]]; [left; auto|right]. rewrite Eid, Et.
        destruct (Nat.eq_dec (o mod M) t) as [E|N].
        - rewrite E in *. rewrite fset_same. split; lia.
        - rewrite !fset_other by auto. auto. }
      split.
      + intros u Hu. rewrite Eid. destruct (Nat.eq_dec u t) as [->|N].
        * rewrite fset_same. destruct (w_tape w t) as [[i r]|] eqn:E; [|congruence].
          destruct (i_tape _ I _ _ _ E) as (_ & E1 & E2).
          destruct (i_id _ I t Ht) as [?|[E3 E4]]; [lia|]. right. split; [|lia].
          replace (w_id w t + M) with (w_id w t + 1 * M) by lia. rewrite Nat.mod_add by lia. auto.
        * rewrite fset_other by auto. apply I; auto.
      + intros u i r H. rewrite Et in H. rewrite Eid. destruct (Nat.eq_dec u t) as [->|N].
        * rewrite fset_same in H. discriminate.
        * rewrite fset_other in H by auto. rewrite fset_other by auto. eapply i_tape; eauto.
      + intros k. rewrite Ea. apply OK, I.
      + intros k. rewrite Ev. apply OK, I.
    - apply (end_spec _ _ t) in H; [|auto]. destruct H as (Ht & [(Hn & (Eid & Et & Ea & Ev) & _)|(_ & _ & ->)]); [|auto].
      assert (OK : forall o, ok_id w o -> ok_id w' o).
      { intros o [Z|[H1 H2]]; [left; auto|right]. rewrite Eid, Et.
        destruct (Nat.eq_dec (o mod M) t) as [E|N].
        - rewrite E in *. rewrite fset_same. split; lia.
        - rewrite !fset_other by auto. auto. }
      split.
      + intros u Hu. rewrite Eid. destruct (Nat.eq_dec u t) as [->|N].
        * rewrite fset_same. destruct (w_tape w t) as [[i r]|] eqn:E; [|congruence].
          destruct (i_tape _ I _ _ _ E) as (_ & E1 & E2).
          destruct (i_id _ I t Ht) as [?|[E3 E4]]; [lia|]. right. split; [|lia].
          replace (w_id w t + M) with (w_id w t + 1 * M) by lia. rewrite Nat.mod_add by lia. auto.
        * rewrite fset_other by auto. apply I; auto.
      + intros u i r H. rewrite Et in H. rewrite Eid. destruct (Nat.eq_dec u t) as [->|N].
        * rewrite fset_same in H. discriminate.
        * rewrite fset_other in H by auto. rewrite fset_other by auto. eapply i_tape; eauto.
      + intros k. rewrite Ea. apply OK, I.
      + intros k. rewrite Ev. apply OK, I.
  Qed.
  Lemma run_inv h : forall (w w' : world (b:=b)), inv w -> wrun M MAX w h = Some w' -> inv w'.
  Proof.
    induction h as [|v h IH]; intros w w' I; cbn [wrun].
    - intros H; injection H as <-; auto.
    - destruct (wstep M MAX w v) as [w1|] eqn:E; [|discriminate].
      apply IH. eapply step_inv; eauto.
  Qed.
  Lemma run_app h1 h2 : forall (w : world (b:=b)), wrun M MAX w (h1 ++ h2) =
    match wrun M MAX w h1 with Some w1 => wrun M MAX w1 h2 | None => None end.
  Proof.
    induction h1 as [|v h1 IH]; intros w; cbn; [reflexivity|].
    destruct (wstep M MAX w v); auto.
  Qed.

  (** identifiers never decrease *)
  Lemma step_mono (w : world (b:=b)) v w' : inv w -> wstep M MAX w v = Some w' -> forall t, w_id w t <= w_id w' t.
  Proof.
    intros I H u. destruct v as [t cmp xs ds|t i|t c l r|t|t].
    - apply ind_spec in H. destruct H as (Ht & _ & _ & E & _). rewrite E.
      destruct (Nat.eq_dec u t) as [->|N].
      + rewrite fset_same. apply (new_id w t I Ht).
      + rewrite fset_other by auto. lia.
    - apply op_same in H. destruct H as [_ [E _]]. rewrite E. lia.
    - apply cmp_spec in H. destruct H as (_ & [E _] & _). rewrite E. lia.
    - apply (end_spec _ _ t) in H; [|auto]. destruct H as (_ & [(_ & (E & _) & _)|(_ & _ & ->)]); [|lia].
      rewrite E. destruct (Nat.eq_dec u t) as [->|N]; [rewrite fset_same; lia|rewrite fset_other; auto].
    - apply (end_spec _ _ t) in H; [|auto]. destruct H as (_ & [(_ & (E & _) & _)|(_ & _ & ->)]); [|lia].
      rewrite E. destruct (Nat.eq_dec u t) as [->|N]; [rewrite fset_same; lia|rewrite fset_other; auto].
  Qed.
  Lemma step_unassigned (w : world (b:=b)) v w' k : wstep M MAX w v = Some w' -> ~ assigns v k -> w_ad w' k = w_ad w k.
  Proof.
    intros H N. destruct v as [t cmp xs ds|t i|t c l r|t|t]; cbn in N.
    - apply ind_spec in H. destruct H as (_ & _ & _ & _ & _ & _ & E & _). apply E; tauto.
    - apply op_res in H. destruct H as [A _]. destruct (A k) as [E|[E _]]; [auto|congruence].
    - apply cmp_spec in H. destruct H as (_ & _ & -> & _). reflexivity.
    - apply (end_spec _ _ t) in H; [|auto]. destruct H as (_ & [(_ & (_ & _ & -> & _) & _)|(_ & _ & ->)]); auto.
    - apply (end_spec _ _ t) in H; [|auto]. destruct H as (_ & [(_ & (_ & _ & -> & _) & _)|(_ & _ & ->)]); auto.
  Qed.

  Definition reachable (w : world (b:=b)) : Prop :=
    exists e ev h, wrun M MAX (wstart e ev) h = Some w.
  Lemma reach_inv (w : world (b:=b)) : reachable w -> inv w.
  Proof. intros (e & ev & h & H). eapply run_inv; eauto. apply start_inv. Qed.

  Lemma con_old (w : world (b:=b)) k : inv w -> (Constant_ M w (w_ad w k) = true <->
     (a_tid (w_ad w k) = 0 \/ a_tid (w_ad w k) < w_id w (a_tid (w_ad w k) mod M))).
  Proof.
    intros I. unfold Constant_. destruct (a_tid (w_ad w k) =? 0) eqn:E.
    - apply Nat.eqb_eq in E. split; auto.
    - apply Nat.eqb_neq in E. rewrite negb_true_iff, Nat.eqb_neq.
      destruct (i_ad _ I k) as [?|[? ?]]; [lia|]. lia.
  Qed.

  (** *** Once a constant, always a constant (until it is assigned again),
      whatever all threads do *)
  Theorem constant_for_ever (w : world (b:=b)) h w' k :
    reachable w -> Constant_ M w (w_ad w k) = true ->
    wrun M MAX w h = Some w' -> (forall v, In v h -> ~ assigns v k) ->
    Constant_ M w' (w_ad w' k) = true /\ a_val (w_ad w' k) = a_val (w_ad w k).
  Proof.
    intros R C H N. apply reach_inv in R. revert w R C H N.
    induction h as [|v h IH]; intros w I C; cbn [wrun].
    - intros H _; injection H as <-; auto.
    - destruct (wstep M MAX w v) as [w1|] eqn:E; [|discriminate]. intros H N.
      assert (I1 : inv w1) by (eapply step_inv; eauto).
      assert (Ek : w_ad w1 k = w_ad w k) by (eapply step_unassigned; eauto; apply N; cbn; auto).
      rewrite <- Ek. apply IH; auto.
      + apply con_old; auto. apply con_old in C; auto. rewrite Ek.
        pose proof (step_mono _ _ _ I E (a_tid (w_ad w k) mod M)). lia.
      + intros u Hu. apply N. cbn; auto.
  Qed.

  (** *** A variable or dynamic parameter is on the active tape of its thread *)
  Theorem nonconstant_is_active (w : world (b:=b)) k :
    reachable w -> Constant_ M w (w_ad w k) = false ->
    exists t r, t < M /\ w_tape w t = Some (a_tid (w_ad w k), r).
  Proof.
    intros R C. apply reach_inv in R. unfold Constant_ in C.
    destruct (a_tid (w_ad w k) =? 0) eqn:E; [discriminate|].
    apply negb_false_iff, Nat.eqb_eq in C. apply Nat.eqb_neq in E.
    destruct (i_ad _ R k) as [?|[_ H]]; [lia|]. destruct (H C) as [r Hr].
    exists (a_tid (w_ad w k) mod M), r. split; [apply mod_lt|auto].
  Qed.
  Theorem nonconstant_vec_is_active (w : world (b:=b)) k :
    reachable w -> ConstantV M w (w_vec w k) = false ->
    exists t r, t < M /\ w_tape w t = Some (v_tid (w_vec w k), r).
  Proof.
    intros R C. apply reach_inv in R. unfold ConstantV in C.
    destruct (v_tid (w_vec w k) =? 0) eqn:E; [discriminate|].
    apply negb_false_iff, Nat.eqb_eq in C. apply Nat.eqb_neq in E.
    destruct (i_vec _ R k) as [?|[_ H]]; [lia|]. destruct (H C) as [r Hr].
    exists (v_tid (w_vec w k) mod M), r. split; [apply mod_lt|auto].
  Qed.
  (** in particular, with no recording active, everything is a constant *)
  Theorem no_recording_all_constant (w : world (b:=b)) :
    reachable w -> (forall t, w_tape w t = None) ->
    (forall k, Constant_ M w (w_ad w k) = true) /\ (forall k, ConstantV M w (w_vec w k) = true).
  Proof.
    intros R N. split; intros k; [destruct (Constant_ _ _ _) eqn:E | destruct (ConstantV _ _ _) eqn:E]; auto.
    - destruct (nonconstant_is_active _ _ R E) as (t & r & _ & H). rewrite N in H. discriminate.
    - destruct (nonconstant_vec_is_active _ _ R E) as (t & r & _ & H). rewrite N in H. discriminate.
  Qed.

  (** *** At most one recording per thread *)
  Theorem second_recording_rejected (w : world (b:=b)) t cmp xs ds : reachable w -> t < M -> xs <> [] ->
    w_tape w t <> None -> wstep M MAX w (Ev_independent t cmp xs ds) = None.
  Proof.
    intros _ Ht Hx Hw. cbn [wstep]. apply Nat.ltb_lt in Ht. rewrite Ht. unfold do_independent.
    destruct (w_tape w t); [reflexivity|congruence].
  Qed.
  Theorem independent_marks (w : world (b:=b)) w' t cmp xs ds : reachable w ->
    wstep M MAX w (Ev_independent t cmp xs ds) = Some w' ->
    w_tape w t = None /\ w_tape w' t <> None /\
    (forall k, In k xs -> ~ In k ds -> Variable_ M w' (w_ad w' k) = true) /\
    (forall k, In k ds -> Dynamic_ M w' (w_ad w' k) = true) /\
    (forall k, ~ In k xs -> ~ In k ds ->
       w_ad w' k = w_ad w k /\ Constant_ M w' (w_ad w' k) = Constant_ M w (w_ad w k)).
  Proof.
    intros R H. apply reach_inv in R. assert (I' : inv w') by (eapply step_inv; eauto).
    pose proof (step_mono _ _ _ R H) as Mo. pose proof H as H0.
    apply ind_spec in H. destruct H as (Ht & Ew & _ & Eid & [r Etp] & Ev & Eo & Ed & Ex).
    pose proof (new_id w t R Ht) as (Em & Hge & Hle).
    set (id := next_id w t) in *.
    split; [auto|]. split; [rewrite Etp, Nat.eqb_refl; discriminate|].
    split; [|split]; intros k.
    - intros H1 H2. destruct (Ex k H1 H2) as [A B]. unfold Variable_. rewrite A, B, Em, Eid, fset_same.
      cbn. destruct (id =? 0) eqn:E; [apply Nat.eqb_eq in E; lia|]. apply Nat.eqb_refl.
    - intros H1. destruct (Ed k H1) as [A B]. unfold Dynamic_. rewrite A, B, Em, Eid, fset_same.
      cbn. destruct (id =? 0) eqn:E; [apply Nat.eqb_eq in E; lia|]. apply Nat.eqb_refl.
    - intros H1 H2. pose proof (Eo k H1 H2) as Ek. split; [auto|].
      apply eq_true_iff_eq. rewrite !con_old by auto. rewrite Ek.
      specialize (Mo (a_tid (w_ad w k) mod M)). split; [|intros [?|?]; [auto|right; eapply Nat.lt_le_trans; eauto]].
      intros [?|L]; [auto|].
      destruct (i_ad _ R k) as [?|[L2 L3]]; [auto|right].
      destruct (Nat.eq_dec (a_tid (w_ad w k)) (w_id w (a_tid (w_ad w k) mod M))) as [E|]; [|lia].
      destruct (L3 E) as [r' Hr]. rewrite Eid in L. 
      destruct (Nat.eq_dec (a_tid (w_ad w k) mod M) t) as [E2|N].
      + rewrite E2 in Hr. congruence.
      + rewrite fset_other in L by auto. lia.
  Qed.

  (** *** The end of a recording: nothing made by this thread stays a variable,
      and the kinds of the objects of other threads are not affected *)
  Theorem end_of_recording (w : world (b:=b)) w' t v : reachable w -> w_tape w t <> None ->
    v = Ev_dependent t \/ v = Ev_abort t -> wstep M MAX w v = Some w' ->
    w_tape w' t = None /\ (forall u, u <> t -> w_tape w' u = w_tape w u) /\
    forall k, w_ad w' k = w_ad w k /\
      match w_tape w t with
      | Some (id, _) => if a_tid (w_ad w k) =? id
                        then Constant_ M w' (w_ad w' k) = true
                        else Constant_ M w' (w_ad w' k) = Constant_ M w (w_ad w k)
      | None => False
      end.
  Proof.
    intros R Hn Hv H. apply reach_inv in R. assert (I' : inv w') by (eapply step_inv; eauto).
    apply (end_spec _ _ t) in H; [|auto]. destruct H as (Ht & [(_ & (Eid & Et & Ea & Ev) & _)|(_ & ? & _)]); [|congruence].
    rewrite Et. split; [apply fset_same|]. split; [intros; apply fset_other; auto|].
    intros k. rewrite Ea. split; [reflexivity|].
    destruct (w_tape w t) as [[id r]|] eqn:Ew; [|congruence].
    destruct (i_tape _ R _ _ _ Ew) as (_ & E1 & E2).
    destruct (i_id _ R t Ht) as [?|[E3 E4]]; [lia|].
    destruct (a_tid (w_ad w k) =? id) eqn:E.
    - apply Nat.eqb_eq in E. unfold Constant_. rewrite E.
      destruct (id =? 0) eqn:E0; [reflexivity|]. rewrite Eid. replace (id mod M) with t by congruence.
      rewrite fset_same. apply negb_true_iff, Nat.eqb_neq. lia.
    - apply Nat.eqb_neq in E. unfold Constant_. destruct (a_tid (w_ad w k) =? 0) eqn:E0; [reflexivity|].
      apply Nat.eqb_neq in E0. rewrite Eid.
      destruct (Nat.eq_dec (a_tid (w_ad w k) mod M) t) as [Em|N]; [|rewrite fset_other by auto; reflexivity].
      rewrite Em, fset_same. destruct (i_ad _ R k) as [?|[L2 L3]]; [lia|]. rewrite Em in *.
      f_equal. transitivity false; [|symmetry]; apply Nat.eqb_neq; lia.
  Qed.

  (** *** No two recordings ever get the same identifier *)
  Lemma tape_kept h : forall (w w' : world (b:=b)) t id r, inv w -> w_tape w t = Some (id, r) -> wrun M MAX w h = Some w' ->
    (exists r', w_tape w' t = Some (id, r')) \/ id < w_id w' t.
  Proof.
    induction h as [|v h IH]; intros w w' t id r I Hw; cbn [wrun].
    - intros H; injection H as <-. eauto.
    - destruct (wstep M MAX w v) as [w1|] eqn:E; [|discriminate]. intros H.
      assert (I1 : inv w1) by (eapply step_inv; eauto).
      assert (Q : (exists r', w_tape w1 t = Some (id, r')) \/ id < w_id w1 t).
      { destruct (i_tape _ I _ _ _ Hw) as (Ht & E1 & E2).
        destruct v as [u cmp xs ds|u i|u c l x|u|u].
        - apply ind_spec in E. destruct E as (_ & En & _ & _ & [r' Et] & _). left. rewrite Et.
          destruct (t =? u) eqn:Eu; [apply Nat.eqb_eq in Eu; congruence|eauto].
        - apply op_same in E. destruct E as (_ & _ & S). specialize (S t). rewrite Hw in S.
          destruct (w_tape w1 t) as [[j r']|]; [|contradiction]. subst. eauto.
        - apply cmp_spec in E. destruct E as (_ & (_ & S) & _). specialize (S t). rewrite Hw in S.
          destruct (w_tape w1 t) as [[j r']|]; [|contradiction]. subst. eauto.
        - apply (end_spec _ _ u) in E; [|auto]. destruct E as (Hu & [(_ & (Ei & Et & _) & _)|(_ & _ & ->)]); [|eauto].
          destruct (Nat.eq_dec t u) as [->|N].
          + right. rewrite Ei, fset_same. lia.
          + left. rewrite Et, fset_other; eauto.
        - apply (end_spec _ _ u) in E; [|auto]. destruct E as (Hu & [(_ & (Ei & Et & _) & _)|(_ & _ & ->)]); [|eauto].
          destruct (Nat.eq_dec t u) as [->|N].
          + right. rewrite Ei, fset_same. lia.
          + left. rewrite Et, fset_other; eauto. }
      destruct Q as [[r' Q]|Q]; [eapply IH; eauto|]. right.
      assert (Mo : forall g a c, inv a -> wrun M MAX a g = Some c -> w_id a t <= w_id c t).
      { clear - M_pos. intros g. induction g as [|v g IH]; intros a c I; cbn [wrun].
        - intros H; injection H as <-. lia.
        - destruct (wstep M MAX a v) as [a1|] eqn:E; [|discriminate]. intros H.
          pose proof (step_mono _ _ _ I E t). apply IH in H; [lia|]. eapply step_inv; eauto. }
      specialize (Mo _ _ _ I1 H). lia.
  Qed.
  Theorem recording_ids_unique (w : world (b:=b)) t cmp xs ds w1 h w2 t' cmp' xs' ds' w3 :
    reachable w ->
    wstep M MAX w (Ev_independent t cmp xs ds) = Some w1 ->
    wrun M MAX w1 h = Some w2 ->
    wstep M MAX w2 (Ev_independent t' cmp' xs' ds') = Some w3 ->
    exists id r id' r', w_tape w1 t = Some (id, r) /\ w_tape w3 t' = Some (id', r') /\
      id <> id' /\ id <> 0 /\ id' <> 0.
  Proof.
    intros R H1 H2 H3. apply reach_inv in R.
    assert (I1 : inv w1) by (eapply step_inv; eauto).
    assert (I2 : inv w2) by (eapply run_inv; eauto).
    assert (I3 : inv w3) by (eapply step_inv; eauto).
    pose proof (step_mono _ _ _ I2 H3 t) as Mo.
    apply ind_spec in H1. destruct H1 as (Ht & Ew & _ & Eid & [r Etp] & _).
    apply ind_spec in H3. destruct H3 as (Ht' & Ew' & _ & Eid' & [r' Etp'] & _).
    set (id := next_id w t) in *.
    set (id' := next_id w2 t') in *.
    specialize (Etp t). specialize (Etp' t'). rewrite Nat.eqb_refl in *.
    exists id, r, id', r'. split; [auto|]. split; [auto|].
    destruct (i_tape _ I1 _ _ _ Etp) as (_ & _ & Z). destruct (i_tape _ I3 _ _ _ Etp') as (_ & E3 & Z').
    split; [|auto].
    pose proof (new_id w t R Ht) as (Em & _). fold id in Em.
    pose proof (new_id w2 t' I2 Ht') as (Em' & _). fold id' in Em'.
    destruct (Nat.eq_dec t t') as [<-|N]; [|congruence].
    destruct (tape_kept _ _ _ _ _ _ I1 Etp H2) as [[r2 Q]|Q]; [congruence|]. lia.
  Qed.

  (** *** Programs that use each object in one thread only *)
  Definition confined (own ownv : nat -> nat) (h : list (event b)) : Prop :=
    forall v, In v h -> (forall k, In k (uses v) -> own k = thread v) /\
                        (forall k, In k (uses_vec v) -> ownv k = thread v).
  Lemma confined_inv own ownv h : forall (w w' : world (b:=b)), inv w -> confined own ownv h ->
    (forall k, a_tid (w_ad w k) = 0 \/ a_tid (w_ad w k) mod M = own k) ->
    (forall k, v_tid (w_vec w k) = 0 \/ v_tid (w_vec w k) mod M = ownv k) ->
    wrun M MAX w h = Some w' ->
    (forall k, a_tid (w_ad w' k) = 0 \/ a_tid (w_ad w' k) mod M = own k) /\
    (forall k, v_tid (w_vec w' k) = 0 \/ v_tid (w_vec w' k) mod M = ownv k).
  Proof.
    induction h as [|v h IH]; intros w w' I C A B; cbn [wrun].
    - intros H; injection H as <-; auto.
    - destruct (wstep M MAX w v) as [w1|] eqn:E; [|discriminate].
      destruct (C v (or_introl eq_refl)) as [U UV].
      assert (Q : (forall k, a_tid (w_ad w1 k) = 0 \/ a_tid (w_ad w1 k) mod M = own k) /\
                  (forall k, v_tid (w_vec w1 k) = 0 \/ v_tid (w_vec w1 k) mod M = ownv k)).
      { destruct v as [t cmp xs ds|t i|t c l x|t|t]; cbn [uses uses_vec thread] in U, UV.
        - apply ind_spec in E. destruct E as (Ht & _ & _ & _ & _ & Ev & Eo & Ed & Ex).
          pose proof (new_id w t I Ht) as (Em & _).
          split; intros k; [|rewrite Ev; auto].
          destruct (in_dec Nat.eq_dec k ds) as [D|D].
          { right. rewrite (proj1 (Ed k D)), Em. symmetry. apply U, in_or_app; auto. }
          destruct (in_dec Nat.eq_dec k xs) as [X|X].
          { right. rewrite (proj1 (Ex k X D)), Em. symmetry. apply U, in_or_app; auto. }
          rewrite Eo by auto. auto.
        - assert (Hm : forall id r, w_tape w t = Some (id, r) -> id mod M = t).
          { intros id r H. destruct (i_tape _ I _ _ _ H) as (Ht & E1 & E2).
            destruct (i_id _ I t Ht) as [?|[? ?]]; [lia|congruence]. }
          apply op_res in E. destruct E as [EA EB]. split; intros k.
          + destruct (EA k) as [E|[D [E|[(id & r & H & E)|(y & Hy & E)]]]].
            * rewrite E; auto.
            * auto.
            * right. rewrite E, (Hm _ _ H). symmetry. apply U.
              destruct i; cbn in D; inversion D; subst; cbn; auto.
            * rewrite E. destruct (A y) as [Z|Z]; [auto|right]. rewrite Z, (U y Hy). symmetry. apply U.
              destruct i; cbn in D; inversion D; subst; cbn; auto.
          + destruct (EB k) as [E|[D (id & r & H & E)]].
            * rewrite E; auto.
            * right. rewrite E, (Hm _ _ H). symmetry. apply UV. auto.
        - apply cmp_spec in E. destruct E as (_ & _ & -> & ->). auto.
        - apply (end_spec _ _ t) in E; [|auto]. destruct E as (_ & [(_ & (_ & _ & -> & ->) & _)|(_ & _ & ->)]); auto.
        - apply (end_spec _ _ t) in E; [|auto]. destruct E as (_ & [(_ & (_ & _ & -> & ->) & _)|(_ & _ & ->)]); auto. }
      intros H. destruct Q as [QA QB]. apply (IH w1 w'); auto.
      + eapply step_inv; eauto.
      + intros u Hu. apply C. cbn; auto.
  Qed.
  Theorem thread_without_recording_all_constant own ownv e ev h (w : world (b:=b)) :
    confined own ownv h -> wrun M MAX (wstart e ev) h = Some w ->
    forall t, w_tape w t = None ->
    (forall k, own k = t -> Constant_ M w (w_ad w k) = true) /\
    (forall k, ownv k = t -> ConstantV M w (w_vec w k) = true).
  Proof.
    intros C H t Ht.
    assert (R : reachable w) by (exists e, ev, h; auto).
    destruct (confined_inv own ownv h _ _ (start_inv e ev) C (fun _ => or_introl eq_refl)
                (fun _ => or_introl eq_refl) H) as [A B].
    pose proof (reach_inv _ R) as I. split; intros k Hk.
    - destruct (Constant_ M w (w_ad w k)) eqn:E; [reflexivity|]. exfalso.
      destruct (nonconstant_is_active _ _ R E) as (u & r & _ & Hu).
      destruct (i_tape _ I _ _ _ Hu) as (Hlt & E1 & E2).
      destruct (A k) as [Z|Z]; [lia|].
      destruct (i_id _ I u Hlt) as [?|[E3 _]]; [lia|]. rewrite <- E1, Z, Hk in E3. subst. congruence.
    - destruct (ConstantV M w (w_vec w k)) eqn:E; [reflexivity|]. exfalso.
      destruct (nonconstant_vec_is_active _ _ R E) as (u & r & _ & Hu).
      destruct (i_tape _ I _ _ _ Hu) as (Hlt & E1 & E2).
      destruct (B k) as [Z|Z]; [lia|].
      destruct (i_id _ I u Hlt) as [?|[E3 _]]; [lia|]. rewrite <- E1, Z, Hk in E3. subst. congruence.
  Qed.

  (** Constant, Dynamic and Variable are exclusive and exhaustive for objects
      whose type agrees with their tape *)
  Theorem kinds_partition (w : world (b:=b)) (x : AD b) :
    Parameter_ M w x = Constant_ M w x || Dynamic_ M w x /\
    (Constant_ M w x = true -> Dynamic_ M w x = false /\ Variable_ M w x = false) /\
    (Dynamic_ M w x = true -> Variable_ M w x = false).
  Proof.
    unfold Parameter_, Constant_, Dynamic_, Variable_.
    destruct (a_tid x =? 0), (a_type x), (a_tid x =? w_id w (a_tid x mod M)); cbn; auto.
  Qed.
End World.

(** ** A concrete history with two threads: thread 0 records and finishes, thread 1
    records meanwhile and is still recording, thread 0 starts again and aborts *)
Definition ex_link : list (event Zbase) :=
  [ Ev_independent 0 true [0; 1] [2];
    Ev_independent 1 true [10] [];
    Ev_op 0 (Ibin Badd 3 0 2);
    Ev_op 1 (Ibin Bmul 11 10 10);
    Ev_dependent 0;
    Ev_op 0 (Ieq Eadd 3 3);
    Ev_independent 0 true [4] [];
    Ev_op 0 (Ibin Badd 5 3 4);
    Ev_abort 0 ].
Definition ex_kinds (w : world (b:=Zbase)) (k : nat) : bool * bool * bool :=
  (Constant_ 4 w (w_ad w k), Dynamic_ 4 w (w_ad w k), Variable_ 4 w (w_ad w k)).
Example link_history :
  let start := wstart (b:=Zbase) (fun k => Z.of_nat k) (fun _ => []) in
  match wrun 4 40 start (firstn 4 ex_link) with None => False | Some w =>
     map (ex_kinds w) [0; 2; 3; 10; 11] =
       [(false, false, true); (false, true, false); (false, false, true);
        (false, false, true); (false, false, true)] end /\
  match wrun 4 40 start ex_link with None => False | Some w =>
     map (ex_kinds w) [0; 2; 3; 4; 5; 10; 11] =
       [(true, false, false); (true, false, false); (true, false, false); (true, false, false);
        (true, false, false); (false, false, true); (false, false, true)] /\
     w_tape w 0 = None /\ w_tape w 1 <> None end /\
  confined (fun k => if k <? 10 then 0 else 1) (fun _ => 0) ex_link /\
  (* a second Independent in the same thread is rejected *)
  wrun 4 40 start [Ev_independent 0 true [0] []; Ev_independent 0 true [1] []] = None /\
  (* the identifier type is exhausted: rejected *)
  wrun 4 8 start [Ev_independent 0 true [0] []; Ev_abort 0] = None.
Proof.
  cbv zeta. split; [vm_compute; reflexivity|].
  split; [vm_compute; split; [reflexivity|split; [reflexivity|discriminate]]|].
  split; [|split; vm_compute; reflexivity].
  intros v H. cbn in H.
  repeat (destruct H as [<-|H]; [split; intros k Hk; cbn in Hk; repeat (destruct Hk as [<-|Hk]; [reflexivity|]); contradiction|]).
  contradiction.
Qed.
