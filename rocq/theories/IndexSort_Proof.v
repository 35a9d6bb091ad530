From Coq Require Import List Arith Bool Permutation Sorted Lia.
From Verif Require Import IndexSort_Model.
Import ListNotations.

Lemma strict_weak_elem {K} (lt : K -> K -> bool) : strict_weak lt -> strict_weak (elem_lt lt).
Proof.
  intros (A & B & C). unfold elem_lt. split; [|split].
  - intros; apply A.
  - intros x y z; apply B.
  - intros x y z; apply C.
Qed.

Lemma ins_perm {A} lt (x : A) l : Permutation (x :: l) (ins lt x l).
Proof.
  induction l as [|y l IH]; cbn; auto. destruct (lt y x); auto.
  rewrite perm_swap. constructor. auto.
Qed.
Lemma isort_perm {A} lt (l : list A) : Permutation l (isort lt l).
Proof.
  induction l as [|x l IH]; cbn; auto. rewrite <- ins_perm. constructor. auto.
Qed.
Lemma sw_trans {A} (lt : A -> A -> bool) : strict_weak lt ->
  forall x y z, lt y x = false -> lt z y = false -> lt z x = false.
Proof.
  intros (I & T & E) x y z H1 H2. destruct (lt z x) eqn:H; auto.
  destruct (lt x y) eqn:X.
  - assert (lt z y = true) by (eapply T; eauto). congruence.
  - destruct (lt y z) eqn:Y.
    + assert (lt y x = true) by (eapply T; eauto). congruence.
    + destruct (E x y z) as [_ K]; auto. congruence.
Qed.
Lemma ins_sorted {A} lt (x : A) l : strict_weak lt ->
  StronglySorted (fun a b => lt b a = false) l -> StronglySorted (fun a b => lt b a = false) (ins lt x l).
Proof.
  intros W. induction l as [|y l IH]; intros S; cbn.
  - repeat constructor.
  - inversion S as [|? ? S' F]; subst. destruct (lt y x) eqn:E.
    + constructor; auto. rewrite <- ins_perm. constructor; auto.
      destruct W as (I & T & _). destruct (lt x y) eqn:X; auto.
      assert (lt y y = true) by (eapply T; eauto). rewrite I in H. discriminate.
    + constructor; auto. constructor; auto.
      rewrite Forall_forall in *. intros z Hz. eapply sw_trans; eauto.
Qed.
Lemma isort_std {A} (lt : A -> A -> bool) : std_sort lt (isort lt).
Proof.
  intros W w. split; [apply isort_perm|]. induction w; cbn; [constructor|].
  now apply ins_sorted.
Qed.

Lemma combine_seq_snd {K} (l : list K) : forall n, map snd (combine l (seq n (length l))) = seq n (length l).
Proof. induction l as [|k l IH]; intros n; cbn; auto. now rewrite IH. Qed.

Lemma index_sort_ok {K} (lt : K -> K -> bool) sort d (keys : list K) :
  strict_weak lt -> std_sort (elem_lt lt) sort ->
  Permutation (seq 0 (length keys)) (index_sort sort keys) /\
  StronglySorted (fun i j => lt (nth j keys d) (nth i keys d) = false) (index_sort sort keys).
Proof.
  intros W S. unfold index_sort.
  destruct (S (strict_weak_elem _ W) (combine keys (seq 0 (length keys)))) as [P Q].
  set (w := combine keys (seq 0 (length keys))) in *.
  assert (M : map snd w = seq 0 (length keys)).
  { apply combine_seq_snd. }
  assert (F : Forall (fun p => fst p = nth (snd p) keys d) w).
  { unfold w. apply Forall_forall. intros [k i] H.
    apply In_nth with (d := (d, 0)) in H as (j & Hj & E).
    rewrite combine_length, seq_length, Nat.min_id in Hj.
    rewrite combine_nth in E by now rewrite seq_length.
    rewrite seq_nth in E by auto. injection E as <- <-. auto. }
  split; [rewrite <- M; now apply Permutation_map|].
  assert (F' : Forall (fun p => fst p = nth (snd p) keys d) (sort w)).
  { rewrite Forall_forall in *. intros x Hx. apply F. eapply Permutation_in; [symmetry; eauto|auto]. }
  revert Q F'. generalize (sort w). induction l as [|a l IH]; intros Q F'; cbn; constructor.
  - inversion Q; inversion F'; subst; auto.
  - inversion Q as [|? ? HS H]; inversion F' as [|? ? G1 G2]; subst.
    rewrite Forall_forall in *. intros i Hi. apply in_map_iff in Hi as (p & <- & Hp).
    rewrite <- G1, <- G2 by auto. now apply H.
Qed.
