From Coq Require Import List Arith Bool Permutation Sorted Lia.
From Verif Require Import IndexSort_Model IndexSort_Proof SparseRc_Spec SparseRc_Model.
Import ListNotations.

(** ** generic facts *)
Section Order.
  Variable lt : nat * nat -> nat * nat -> Prop.
  Hypothesis irr : forall a, ~ lt a a.
  Hypothesis trans : forall a b c, lt a b -> lt b c -> lt a c.

  Lemma sorted_unique (l1 : list (nat * nat)) : forall l2, StronglySorted lt l1 -> StronglySorted lt l2 ->
    Permutation l1 l2 -> l1 = l2.
  Proof.
    induction l1 as [|a l1 IH]; intros l2 S1 S2 P.
    - apply Permutation_nil in P. now subst.
    - destruct l2 as [|b l2]; [symmetry in P; now apply Permutation_nil_cons in P|].
      inversion S1 as [|? ? T1 F1]; inversion S2 as [|? ? T2 F2]; subst.
      assert (a = b).
      { rewrite Forall_forall in F1, F2.
        assert (A : In a (b :: l2)) by (eapply Permutation_in; [exact P|now left]).
        assert (B : In b (a :: l1)) by (eapply Permutation_in; [symmetry; exact P|now left]).
        destruct A as [A|A]; auto. destruct B as [B|B]; auto.
        exfalso. eapply irr. eapply trans; [apply F1|apply F2]; eauto. }
      subst. f_equal. apply IH; auto. eapply Permutation_cons_inv; eauto.
  Qed.

  Lemma ss_map (f : nat -> nat * nat) l :
    StronglySorted (fun i j => lt (f i) (f j)) l <-> StronglySorted lt (map f l).
  Proof.
    induction l as [|a l IH]; cbn; [split; constructor|].
    split; intros H; inversion H as [|? ? S F]; subst; constructor.
    - now apply IH.
    - now apply Forall_map.
    - now apply IH.
    - exact (proj1 (Forall_map f (lt (f a)) l) F).
  Qed.
  Lemma ss_nodup l : StronglySorted lt l -> NoDup l.
  Proof.
    induction 1 as [|a l S IH F]; constructor; auto. rewrite Forall_forall in F.
    intros H. eapply irr; eauto.
  Qed.
End Order.

Lemma map_nth_seq {A} (d : A) ps : map (fun i => nth i ps d) (seq 0 (length ps)) = ps.
Proof.
  apply nth_ext with (d := d) (d' := d); rewrite map_length, seq_length; auto.
  intros n H. rewrite (nth_indep _ _ (nth 0 ps d)) by now rewrite map_length, seq_length.
  rewrite (map_nth (fun i => nth i ps d)), seq_nth; auto.
Qed.
Lemma sorts_perm lt ps l : sorts lt ps l -> Permutation ps (map (fun i => nth i ps (0, 0)) l).
Proof.
  intros [P _]. rewrite <- (map_nth_seq (0, 0) ps) at 1. now apply Permutation_map.
Qed.
Lemma sorts_length lt ps l : sorts lt ps l -> length l = length ps.
Proof. intros [P _]. rewrite <- (Permutation_length P). apply seq_length. Qed.
Lemma sorts_bound lt ps l k i : sorts lt ps l -> nth_error l k = Some i -> i < length ps.
Proof.
  intros [P _] H. apply nth_error_In in H. apply Permutation_sym in P.
  eapply Permutation_in in H; eauto. apply in_seq in H. lia.
Qed.

Definition rlt a b := (fst a <? fst b) || ((fst a =? fst b) && (snd a <? snd b)).
Definition clt (a b : nat * nat) := (snd a <? snd b) || ((snd a =? snd b) && (fst a <? fst b)).
Lemma rlt_spec a b : rlt a b = true <-> row_lt a b.
Proof.
  unfold rlt, row_lt. rewrite orb_true_iff, andb_true_iff, Nat.eqb_eq, !Nat.ltb_lt. tauto.
Qed.
Lemma clt_spec a b : clt a b = true <-> col_lt a b.
Proof.
  unfold clt, col_lt. rewrite orb_true_iff, andb_true_iff, Nat.eqb_eq, !Nat.ltb_lt. tauto.
Qed.
Lemma row_irr a : ~ row_lt a a. Proof. unfold row_lt. lia. Qed.
Lemma col_irr a : ~ col_lt a a. Proof. unfold col_lt. lia. Qed.
Lemma row_trans a b c : row_lt a b -> row_lt b c -> row_lt a c. Proof. unfold row_lt. lia. Qed.
Lemma col_trans a b c : col_lt a b -> col_lt b c -> col_lt a c. Proof. unfold col_lt. lia. Qed.
Lemma row_total a b : a <> b -> row_lt a b \/ row_lt b a.
Proof.
  destruct a as [a1 a2], b as [b1 b2]. unfold row_lt. cbn. intros H.
  destruct (Nat.eq_dec a1 b1), (Nat.eq_dec a2 b2); subst; try congruence; lia.
Qed.
Lemma col_total a b : a <> b -> col_lt a b \/ col_lt b a.
Proof.
  destruct a as [a1 a2], b as [b1 b2]. unfold col_lt. cbn. intros H.
  destruct (Nat.eq_dec a1 b1), (Nat.eq_dec a2 b2); subst; try congruence; lia.
Qed.

Lemma nat_sw : strict_weak Nat.ltb.
Proof.
  split; [|split].
  - intros x. apply Nat.ltb_irrefl.
  - intros x y z H1 H2. apply Nat.ltb_lt in H1, H2. apply Nat.ltb_lt. lia.
  - intros x y z H1 H2 H3 H4. apply Nat.ltb_ge in H1, H2, H3, H4. split; apply Nat.ltb_ge; lia.
Qed.

(** the sorting step, for either order *)
Section Sorting.
  Variable sort : list (nat * nat) -> list (nat * nat).
  Hypothesis Hsort : std_sort (elem_lt Nat.ltb) sort.
  Variable lt : nat * nat -> nat * nat -> Prop.
  Variable ltb : nat * nat -> nat * nat -> bool.
  Variable key : nat * nat -> nat.
  Variable ps : list (nat * nat).
  Hypothesis irr : forall a, ~ lt a a.
  Hypothesis trans : forall a b c, lt a b -> lt b c -> lt a c.
  Hypothesis total : forall a b, a <> b -> lt a b \/ lt b a.
  Hypothesis ltb_spec : forall a b, ltb a b = true <-> lt a b.
  Hypothesis key_mono : forall a b, In a ps -> In b ps -> lt a b -> key a < key b.
  Let p i := nth i ps (0, 0).

  Lemma check_ss l : check (fun i j => ltb (p i) (p j)) l = true <-> StronglySorted (fun i j => lt (p i) (p j)) l.
  Proof.
    induction l as [|a l IH]; [split; auto; constructor|].
    destruct l as [|b l].
    - split; auto. intros _. repeat constructor.
    - change (check _ (a :: b :: l)) with (ltb (p a) (p b) && check (fun i j => ltb (p i) (p j)) (b :: l)).
      rewrite andb_true_iff, ltb_spec, IH. split.
      + intros [H S]. constructor; auto. inversion S as [|? ? S' F]; subst. constructor; auto.
        rewrite Forall_forall in *. intros x Hx. eapply trans; eauto.
      + intros S. inversion S as [|? ? S' F]; subst. inversion F; subst. auto.
  Qed.

  Lemma index_sort_sorts : NoDup ps ->
    sorts lt ps (index_sort sort (map (fun k => key (p k)) (seq 0 (length ps)))).
  Proof.
    intros ND. set (keys := map (fun k => key (p k)) (seq 0 (length ps))).
    assert (Lk : length keys = length ps) by (unfold keys; rewrite map_length, seq_length; auto).
    destruct (index_sort_ok Nat.ltb sort (key (p 0)) keys nat_sw Hsort) as [P S].
    rewrite Lk in P. split; auto.
    assert (N : NoDup (index_sort sort keys)) by (eapply Permutation_NoDup; [eauto|apply seq_NoDup]).
    assert (B : Forall (fun i => i < length ps) (index_sort sort keys)).
    { apply Forall_forall. intros i Hi. eapply Permutation_in in Hi; [|symmetry; eauto].
      apply in_seq in Hi. lia. }
    assert (K : forall i, i < length ps -> nth i keys (key (p 0)) = key (p i)).
    { intros i Hi. unfold keys. rewrite (map_nth (fun k => key (p k))), seq_nth; auto. }
    revert S N B. generalize (index_sort sort keys) as l. clear P.
    induction l as [|a l IH]; intros S N B; constructor; inversion S as [|? ? S' F]; inversion N; inversion B; subst; auto.
    rewrite Forall_forall in *. intros j Hj. specialize (F j Hj).
    rewrite !K in F by auto. apply Nat.ltb_ge in F.
    destruct (total (p a) (p j)) as [T|T]; auto.
    - intros E. apply (NoDup_nth ps (0, 0)) in E; auto. subst. contradiction.
    - apply key_mono in T; [lia| |]; apply nth_In; auto.
  Qed.
End Sorting.

(** ** the invariant *)
Definition inv (x : rc) (p : pat) : Prop :=
  nr_ x = p_nr p /\ nc_ x = p_nc p /\ nnz_ x = length (p_pairs p) /\
  row_ x = map fst (p_pairs p) /\ col_ x = map snd (p_pairs p) /\
  (row_major_ x = [] \/ sorts row_lt (p_pairs p) (row_major_ x)) /\
  (col_major_ x = [] \/ sorts col_lt (p_pairs p) (col_major_ x)).

Lemma nth_row ps k : nth k (map fst ps) 0 = fst (nth k ps (0, 0)).
Proof. apply (map_nth fst ps (0, 0)). Qed.
Lemma nth_col ps k : nth k (map snd ps) 0 = snd (nth k ps (0, 0)).
Proof. apply (map_nth snd ps (0, 0)). Qed.

Section Main.
  Variable sort : list (nat * nat) -> list (nat * nat).
  Hypothesis Hsort : std_sort (elem_lt Nat.ltb) sort.

  Lemma key_row p : in_range p -> forall a b, In a (p_pairs p) -> In b (p_pairs p) ->
    row_lt a b -> fst a * p_nc p + snd a < fst b * p_nc p + snd b.
  Proof.
    unfold in_range. rewrite Forall_forall. intros R a b Ha Hb H.
    pose proof (R _ Ha). pose proof (R _ Hb). unfold row_lt in H. nia.
  Qed.
  Lemma key_col p : in_range p -> forall a b, In a (p_pairs p) -> In b (p_pairs p) ->
    col_lt a b -> snd a * p_nr p + fst a < snd b * p_nr p + fst b.
  Proof.
    unfold in_range. rewrite Forall_forall. intros R a b Ha Hb H.
    pose proof (R _ Ha). pose proof (R _ Hb). unfold col_lt in H. nia.
  Qed.

  Lemma check_ext f g l : (forall i j, f i j = g i j) -> check f l = check g l.
  Proof.
    intros E. induction l as [|a l IH]; auto. destruct l as [|b l]; auto.
    change (f a b && check f (b :: l) = g a b && check g (b :: l)). now rewrite E, IH.
  Qed.

  (** any result is a sorting permutation, and there is one iff no duplicates *)
  Lemma row_major_sound x p l : inv x p -> in_range p -> row_major sort x = Some l ->
    sorts row_lt (p_pairs p) l.
  Proof.
    intros (A & B & C & D & E & F & G) R H. unfold row_major in H.
    destruct (row_major_ x) eqn:X.
    - destruct forallb; [|discriminate]. destruct check eqn:K; [|discriminate]. injection H as <-.
      split.
      + set (keys := map _ _). pose proof (index_sort_ok Nat.ltb sort 0 keys nat_sw Hsort) as [P _].
        unfold keys in P at 1. rewrite map_length, seq_length in P. now rewrite C in P.
      + apply (check_ss row_lt rlt (p_pairs p) row_trans rlt_spec).
        rewrite <- K. apply check_ext. intros i j. unfold rlt. now rewrite D, E, !nth_row, !nth_col.
    - injection H as <-. destruct F as [F|F]; [discriminate|auto].
  Qed.
  Lemma col_major_sound x p l : inv x p -> in_range p -> col_major sort x = Some l ->
    sorts col_lt (p_pairs p) l.
  Proof.
    intros (A & B & C & D & E & F & G) R H. unfold col_major in H.
    destruct (col_major_ x) eqn:X.
    - destruct forallb; [|discriminate]. destruct check eqn:K; [|discriminate]. injection H as <-.
      split.
      + set (keys := map _ _). pose proof (index_sort_ok Nat.ltb sort 0 keys nat_sw Hsort) as [P _].
        unfold keys in P at 1. rewrite map_length, seq_length in P. now rewrite C in P.
      + apply (check_ss col_lt clt (p_pairs p) col_trans clt_spec).
        rewrite <- K. apply check_ext. intros i j. unfold clt. now rewrite D, E, !nth_row, !nth_col.
    - injection H as <-. destruct G as [G|G]; [discriminate|auto].
  Qed.
  Lemma row_major_ok x p : inv x p -> proper p ->
    exists l, row_major sort x = Some l /\ sorts row_lt (p_pairs p) l.
  Proof.
    intros I (R & N). destruct (row_major sort x) as [l|] eqn:H.
    - exists l. split; auto. eapply row_major_sound; eauto.
    - exfalso. destruct I as (A & B & C & D & E & F & G). unfold row_major in H.
      destruct (row_major_ x); [|discriminate].
      rewrite (proj2 (forallb_forall _ _)) in H.
      2:{ intros k Hk. apply in_seq in Hk. rewrite D, nth_row, A. apply Nat.ltb_lt.
          unfold in_range in R. rewrite Forall_forall in R. apply R. apply nth_In. lia. }
      destruct (index_sort_sorts sort Hsort row_lt (fun a => fst a * p_nc p + snd a) (p_pairs p)
                  row_total (key_row p R) N) as [P S].
      revert H. rewrite (check_ext _ (fun i j => rlt (nth i (p_pairs p) (0, 0)) (nth j (p_pairs p) (0, 0)))).
      2:{ intros i j. unfold rlt. now rewrite D, E, !nth_row, !nth_col. }
      erewrite map_ext. 2:{ intros k. rewrite D, E, nth_row, nth_col, B. reflexivity. }
      rewrite C. rewrite (proj2 (check_ss row_lt rlt (p_pairs p) row_trans rlt_spec _)); [discriminate|].
      exact S.
  Qed.
  Lemma col_major_ok x p : inv x p -> proper p ->
    exists l, col_major sort x = Some l /\ sorts col_lt (p_pairs p) l.
  Proof.
    intros I (R & N). destruct (col_major sort x) as [l|] eqn:H.
    - exists l. split; auto. eapply col_major_sound; eauto.
    - exfalso. destruct I as (A & B & C & D & E & F & G). unfold col_major in H.
      destruct (col_major_ x); [|discriminate].
      rewrite (proj2 (forallb_forall _ _)) in H.
      2:{ intros k Hk. apply in_seq in Hk. rewrite E, nth_col, B. apply Nat.ltb_lt.
          unfold in_range in R. rewrite Forall_forall in R. apply R. apply nth_In. lia. }
      destruct (index_sort_sorts sort Hsort col_lt (fun a => snd a * p_nr p + fst a) (p_pairs p)
                  col_total (key_col p R) N) as [P S].
      revert H. rewrite (check_ext _ (fun i j => clt (nth i (p_pairs p) (0, 0)) (nth j (p_pairs p) (0, 0)))).
      2:{ intros i j. unfold clt. now rewrite D, E, !nth_row, !nth_col. }
      erewrite map_ext. 2:{ intros k. rewrite D, E, nth_row, nth_col, A. reflexivity. }
      rewrite C. rewrite (proj2 (check_ss col_lt clt (p_pairs p) col_trans clt_spec _)); [discriminate|].
      exact S.
  Qed.
  Lemma sorts_nodup lt (irr : forall a, ~ lt a a) ps l : sorts lt ps l -> NoDup ps.
  Proof.
    intros H. pose proof (sorts_perm _ _ _ H) as P. destruct H as [_ S].
    apply ss_map in S. apply (ss_nodup lt irr) in S. eapply Permutation_NoDup; [symmetry|]; eauto.
  Qed.

  (** ** histories *)
  Lemma map_upd {A B} (f : A -> B) l k v : map f (upd l k v) = upd (map f l) k (f v).
  Proof. revert k. induction l; intros [|k]; cbn; auto. now rewrite IHl. Qed.
  Lemma upd_length {A} (l : list A) k v : length (upd l k v) = length l.
  Proof. revert k. induction l; intros [|k]; cbn; auto. Qed.

  Lemma step_sim s t a : (forall o, inv (s o) (t o)) -> pre t a ->
    exists s', step sort s a = Some s' /\ forall o, inv (s' o) (spec_step t a o).
  Proof.
    intros I H. destruct a as [o nr nc nnz fr fc|o k r c|o r c|o|o|o o2|o o2]; cbn [step spec_step pre] in *.
    - eexists. split; [reflexivity|]. intros o'. unfold put. destruct (o' =? o); auto.
      unfold inv, resize; cbn. rewrite !map_length, !seq_length, !map_map. cbn. auto 10.
    - destruct (I o) as (A & B & C & D & E & F & G). unfold set. rewrite A, B, C.
      destruct H as (H1 & H2 & H3). apply Nat.ltb_lt in H1, H2, H3. rewrite H1, H2, H3. cbn [andb].
      eexists. split; [reflexivity|]. intros o'. unfold put. destruct (o' =? o); auto.
      unfold inv; cbn. rewrite upd_length, !map_upd, D, E. cbn. auto 10.
    - destruct (I o) as (A & B & C & D & E & F & G). unfold push_back. rewrite A, B, C.
      destruct H as (H2 & H3). apply Nat.ltb_lt in H2, H3. rewrite H2, H3. cbn [andb].
      eexists. split; [reflexivity|]. intros o'. unfold put. destruct (o' =? o); auto.
      unfold inv; cbn. rewrite app_length, !map_app, D, E. cbn. rewrite Nat.add_1_r. auto 10.
    - destruct (row_major_ok _ _ (I o) H) as (l & L & S). unfold set_row_major. rewrite L.
      eexists. split; [reflexivity|]. intros o'. unfold put. destruct (Nat.eqb_spec o' o); subst; auto.
      destruct (I o) as (A & B & C & D & E & F & G). unfold inv; cbn. auto 10.
    - destruct (col_major_ok _ _ (I o) H) as (l & L & S). unfold set_col_major. rewrite L.
      eexists. split; [reflexivity|]. intros o'. unfold put. destruct (Nat.eqb_spec o' o); subst; auto.
      destruct (I o) as (A & B & C & D & E & F & G). unfold inv; cbn. auto 10.
    - eexists. split; [reflexivity|]. intros o'. unfold put. destruct (o' =? o); auto.
    - eexists. split; [reflexivity|]. intros o'. unfold put. destruct (o' =? o2), (o' =? o); auto.
  Qed.
  Lemma run_sim h : forall s t, (forall o, inv (s o) (t o)) -> pre_run t h ->
    exists s', run sort s h = Some s' /\ forall o, inv (s' o) (spec_run t h o).
  Proof.
    induction h as [|a h IH]; intros s t I H; cbn in *.
    - eauto.
    - destruct H as [H1 H2]. destruct (step_sim s t a I H1) as (s1 & E & I1). rewrite E. eauto.
  Qed.
  Lemma inv0 : inv rc0 empty.
  Proof. unfold inv, rc0, empty; cbn. auto 10. Qed.

  (** ** equality *)
  Lemma eq_loop_ok x y p q lt ox oy :
    inv x p -> inv y q -> sorts lt (p_pairs p) ox -> sorts lt (p_pairs q) oy ->
    length (p_pairs p) = length (p_pairs q) ->
    forall n k res, k + n = length (p_pairs p) ->
    exists b, eq_loop x y ox oy n k res = Some b /\
      (b = true <-> res = true /\ skipn k (map (fun i => nth i (p_pairs p) (0, 0)) ox)
                               = skipn k (map (fun i => nth i (p_pairs q) (0, 0)) oy)).
  Proof.
    intros (_ & _ & _ & Dx & Ex & _) (_ & _ & _ & Dy & Ey & _) Sx Sy Hl.
    induction n as [|n IH]; intros k res Hk; cbn [eq_loop].
    - exists res. split; auto. rewrite !skipn_all2.
      + tauto.
      + rewrite map_length, (sorts_length _ _ _ Sy). lia.
      + rewrite map_length, (sorts_length _ _ _ Sx). lia.
    - pose proof (sorts_length _ _ _ Sx) as Lx. pose proof (sorts_length _ _ _ Sy) as Ly.
      destruct (nth_error ox k) as [i|] eqn:Ei; [|apply nth_error_None in Ei; lia].
      destruct (nth_error oy k) as [j|] eqn:Ej; [|apply nth_error_None in Ej; lia].
      pose proof (sorts_bound _ _ _ _ _ Sx Ei) as Bi. pose proof (sorts_bound _ _ _ _ _ Sy Ej) as Bj.
      rewrite Dx, Ex, Dy, Ey, !nth_error_map.
      rewrite (nth_error_nth' _ (0, 0) Bi), (nth_error_nth' _ (0, 0) Bj). cbn [option_map].
      destruct (IH (S k) (res && (fst (nth i (p_pairs p) (0, 0)) =? fst (nth j (p_pairs q) (0, 0)))
         && (snd (nth i (p_pairs p) (0, 0)) =? snd (nth j (p_pairs q) (0, 0)))) ltac:(lia)) as (b & E & W).
      exists b. split; auto. rewrite W, !andb_true_iff, !Nat.eqb_eq.
      assert (SK : forall (f : nat -> nat * nat) l m, nth_error l k = Some m ->
                skipn k (map f l) = f m :: skipn (S k) (map f l)).
      { intros f. clear. induction k as [|k IH]; intros [|a l] m H; cbn in *; try discriminate.
        - now injection H as ->.
        - now apply IH. }
      rewrite (SK _ _ _ Ei), (SK _ _ _ Ej). split.
      + intros [[[H1 H2] H3] H4]. split; auto. f_equal; auto.
        destruct (nth i _ _), (nth j _ _); cbn in *; congruence.
      + intros [H1 H2]. injection H2 as H2 H3. rewrite H2. auto.
  Qed.

  Lemma sorts_eq lt (irr : forall a, ~ lt a a) (tr : forall a b c, lt a b -> lt b c -> lt a c) ps qs ox oy :
    sorts lt ps ox -> sorts lt qs oy ->
    (map (fun i => nth i ps (0, 0)) ox = map (fun i => nth i qs (0, 0)) oy <-> Permutation ps qs).
  Proof.
    intros Sx Sy. pose proof (sorts_perm _ _ _ Sx) as Px. pose proof (sorts_perm _ _ _ Sy) as Py. split.
    - intros E. rewrite Px, E. now symmetry.
    - intros P. apply (sorted_unique lt irr tr).
      + apply ss_map, Sx.
      + apply ss_map, Sy.
      + now rewrite <- Px, <- Py.
  Qed.

  Definition caches_ok (x y : rc) : Prop :=
    (row_major_ x <> [] -> row_major_ y <> []) /\
    (row_major_ x = [] -> col_major_ x <> [] -> col_major_ y <> []).

  Lemma eq_orders_ok x y p q : inv x p -> inv y q -> proper p -> proper q -> caches_ok x y ->
    exists ox oy, eq_orders sort x y = Some (ox, oy) /\
      ((sorts row_lt (p_pairs p) ox /\ sorts row_lt (p_pairs q) oy) \/
       (sorts col_lt (p_pairs p) ox /\ sorts col_lt (p_pairs q) oy)).
  Proof.
    intros I J Pp Pq [C1 C2].
    destruct (row_major_ok _ _ I Pp) as (r1 & R1 & S1).
    destruct (row_major_ok _ _ J Pq) as (r2 & R2 & S2).
    destruct (col_major_ok _ _ I Pp) as (c1 & K1 & T1).
    destruct (col_major_ok _ _ J Pq) as (c2 & K2 & T2).
    destruct I as (_ & _ & _ & _ & _ & F & G). destruct J as (_ & _ & _ & _ & _ & F' & G').
    unfold eq_orders. rewrite R1, R2, K1, K2.
    destruct (row_major_ x) as [|a lx] eqn:X; cbn [nonempty andb].
    - destruct (col_major_ x) as [|a lx] eqn:Y; cbn [nonempty andb].
      + destruct (row_major_ y) as [|a ly] eqn:Z; cbn [nonempty].
        * destruct (col_major_ y) as [|a ly] eqn:W; cbn [nonempty]; eauto 6.
          do 2 eexists. split; [reflexivity|]. right. destruct G' as [G'|G']; [discriminate|auto].
        * do 2 eexists. split; [reflexivity|]. left. destruct F' as [F'|F']; [discriminate|auto].
      + destruct G as [G|G]; [discriminate|]. destruct G' as [G'|G']; [destruct C2; auto; discriminate|].
        eauto 6.
    - destruct F as [F|F]; [discriminate|]. destruct F' as [F'|F']; [destruct C1; auto; discriminate|].
      eauto 6.
  Qed.

  Lemma eqb_ok x y p q : inv x p -> inv y q -> proper p -> proper q -> caches_ok x y ->
    exists b, eqb sort x y = Some b /\ (b = true <-> pat_eq p q).
  Proof.
    intros I J Pp Pq C. unfold eqb.
    pose proof I as (A1 & B1 & N1 & _). pose proof J as (A2 & B2 & N2 & _).
    rewrite A1, A2, B1, B2, N1, N2. unfold pat_eq.
    destruct ((p_nr p =? p_nr q) && (p_nc p =? p_nc q) && (length (p_pairs p) =? length (p_pairs q))) eqn:E;
      cbn [negb].
    - apply andb_true_iff in E as [E E3]. apply andb_true_iff in E as [E1 E2].
      apply Nat.eqb_eq in E1, E2, E3.
      destruct (eq_orders_ok x y p q I J Pp Pq C) as (ox & oy & -> & [[S1 S2]|[S1 S2]]).
      + destruct (eq_loop_ok x y p q row_lt ox oy I J S1 S2 E3 _ 0 true eq_refl) as (b & H & W).
        exists b. split; auto. rewrite W. cbn [skipn]. rewrite (sorts_eq row_lt row_irr row_trans _ _ _ _ S1 S2).
        tauto.
      + destruct (eq_loop_ok x y p q col_lt ox oy I J S1 S2 E3 _ 0 true eq_refl) as (b & H & W).
        exists b. split; auto. rewrite W. cbn [skipn]. rewrite (sorts_eq col_lt col_irr col_trans _ _ _ _ S1 S2).
        tauto.
    - exists false. split; auto. split; [discriminate|]. intros (H1 & H2 & H3).
      apply Permutation_length in H3. rewrite H1, H2, H3, !Nat.eqb_refl in E. discriminate.
  Qed.
End Main.
