(** Recovery of the requested entries from the compressed products *)
From Coq Require Import List Arith Bool Lia Permutation Sorted.
From Verif Require Import IndexSort_Model IndexSort_Proof Util_Model Color_Model Color_Spec Color_Proof.
Import ListNotations.

Lemma nat_sw : strict_weak Nat.ltb.
Proof.
  split; [intros; apply Nat.ltb_irrefl|]. split; intros; rewrite ?Nat.ltb_lt, ?Nat.ltb_ge in *; lia.
Qed.
Definition ckey (ps : list (nat * nat)) (color : nat -> nat) (k : nat) : nat := color (fst (nth k ps (0, 0))).
Lemma color_order_ok sort ps color : std_sort (elem_lt Nat.ltb) sort ->
  Permutation (seq 0 (length ps)) (color_order sort ps color) /\
  StronglySorted (fun i j => ckey ps color i <= ckey ps color j) (color_order sort ps color).
Proof.
  intros S. unfold color_order.
  destruct (index_sort_ok Nat.ltb sort (color 0) (map (fun p => color (fst p)) ps) nat_sw S) as [P Q].
  rewrite map_length in P. split; auto.
  clear P. induction Q as [|a l Q IH F]; constructor; auto.
  eapply Forall_impl; [|exact F]. cbn. intros b Hb. apply Nat.ltb_ge in Hb.
  replace (color 0) with ((fun p : nat * nat => color (fst p)) (0, 0)) in Hb by reflexivity.
  rewrite !(map_nth (fun p : nat * nat => color (fst p))) in Hb. exact Hb.
Qed.

Section NColor.
  Variables (m : nat) (color : nat -> nat).
  Lemma n_color_ge : forall l c, c <= fold_left (fun c i => if color i <? m then Nat.max c (color i + 1) else c) l c.
  Proof.
    induction l as [|i l IH]; intros c; cbn [fold_left]; auto.
    etransitivity; [|apply IH]. destruct (color i <? m); lia.
  Qed.
  Lemma n_color_bound : forall l c i, In i l -> color i < m ->
    color i < fold_left (fun c i => if color i <? m then Nat.max c (color i + 1) else c) l c.
  Proof.
    induction l as [|a l IH]; intros c i H Hc; cbn [fold_left]; [destruct H|]. destruct H as [->|H].
    - apply Nat.ltb_lt in Hc. rewrite Hc. pose proof (n_color_ge l (Nat.max c (color i + 1))). lia.
    - now apply IH.
  Qed.
  Lemma n_color_attained : forall l c,
    fold_left (fun c i => if color i <? m then Nat.max c (color i + 1) else c) l c = c \/
    exists i, In i l /\ color i < m /\ fold_left (fun c i => if color i <? m then Nat.max c (color i + 1) else c) l c = color i + 1.
  Proof.
    induction l as [|a l IH]; intros c; cbn [fold_left]; auto.
    destruct (color a <? m) eqn:E.
    - destruct (IH (Nat.max c (color a + 1))) as [H|(i & A & B & C)].
      + rewrite H. destruct (Nat.max_spec c (color a + 1)) as [[_ ->]|[_ ->]]; auto.
        right. exists a. apply Nat.ltb_lt in E. cbn. auto.
      + right. exists i. cbn. auto.
    - destruct (IH c) as [H|(i & A & B & C)]; auto. right. exists i. cbn. auto.
  Qed.
End NColor.

Section Recover.
  Context {T : Type} (zero one : T) (add mul : T -> T -> T).
  Hypothesis laws : num_laws zero one add mul.

  Lemma vsum_zero m f : (forall i, i < m -> f i = zero) -> vsum zero add m f = zero.
  Proof.
    induction m; intros H; cbn; auto. rewrite IHm by auto. rewrite H by auto. apply (add_0_l _ _ _ _ laws).
  Qed.
  Lemma vsum_single m f i0 : i0 < m -> (forall i, i < m -> i <> i0 -> f i = zero) -> vsum zero add m f = f i0.
  Proof.
    induction m; intros Hi H; cbn; [lia|].
    destruct (Nat.eq_dec i0 m) as [->|N].
    - rewrite vsum_zero; [apply (add_0_l _ _ _ _ laws)|]. intros. apply H; lia.
    - rewrite IHm, (H m); auto; try lia. apply (add_0_r _ _ _ _ laws).
  Qed.

  Variables (ps : list (nat * nat)) (color : nat -> nat) (m : nat).
  Variable M : nat -> nat -> T.             (* seed index, read index *)
  Variable sweep : (nat -> T) -> nat -> T.
  Hypothesis sweep_ok : forall w i j, In (i, j) ps -> sweep w j = vsum zero add m (fun i => mul (w i) (M i j)).
  Hypothesis Hlt : forall i j, In (i, j) ps -> i < m.
  Hypothesis Hcol : forall i, i < m -> (color i < m <-> appears ps i).
  Hypothesis Hcont : contiguous ps color.
  Hypothesis Hprop : forall i j r, In (i, j) ps -> appears ps r -> r <> i -> color r = color i -> M r j = zero.

  Definition value_ok (k : nat) (v : T) : Prop :=
    let p := nth k ps (0, 0) in v = M (fst p) (snd p).

  Lemma sweep_entry k : k < length ps ->
    value_ok k (sweep (seed zero one color (ckey ps color k)) (snd (nth k ps (0, 0)))).
  Proof.
    intros Hk. unfold value_ok, ckey. destruct (nth k ps (0, 0)) as [i j] eqn:E. cbn.
    assert (I : In (i, j) ps) by (rewrite <- E; now apply nth_In).
    rewrite (sweep_ok _ i j I).
    assert (AI : appears ps i) by (exists j; auto).
    rewrite (vsum_single m _ i).
    - unfold seed. rewrite Nat.eqb_refl. apply (mul_1_l _ _ _ _ laws).
    - now apply Hlt in I.
    - intros r Hr N. unfold seed. destruct (color r =? color i) eqn:C.
      + apply Nat.eqb_eq in C. rewrite (Hprop i j r); auto; [apply (mul_1_l _ _ _ _ laws)|].
        apply Hcol; auto. rewrite C. apply Hcol; auto. eauto.
      + apply (mul_0_l _ _ _ _ laws).
  Qed.

  Lemma take_color_ok ell : forall ord val,
    StronglySorted (fun i j => ckey ps color i <= ckey ps color j) ord ->
    (forall k, In k ord -> k < length ps /\ ell <= ckey ps color k) ->
    exists pre suf val', take_color ps color ell (sweep (seed zero one color ell)) ord val = (suf, val') /\
      ord = pre ++ suf /\ (forall k, In k pre -> ckey ps color k = ell) /\
      (forall k, In k suf -> ell < ckey ps color k) /\
      (forall k, In k pre -> value_ok k (val' k)) /\ (forall k, ~ In k pre -> val' k = val k).
  Proof.
    induction ord as [|k ord IH]; intros val S H; cbn [take_color].
    - exists [], [], val. repeat split; auto; intros ? [].
    - inversion S as [|? ? S' F]; subst. fold (ckey ps color k).
      destruct (ckey ps color k =? ell) eqn:E.
      + apply Nat.eqb_eq in E.
        edestruct (IH (fset val k (sweep (seed zero one color ell) (snd (nth k ps (0, 0)))))) as
          (pre & suf & val' & A & B & C & D & V & W); auto; [intros; apply H; cbn; auto|].
        exists (k :: pre), suf, val'. split; [exact A|]. split; [cbn; now rewrite B|].
        split; [intros x [<-|X]; auto|]. split; auto. split.
        * intros x X. destruct (in_dec Nat.eq_dec x pre) as [I|NI]; auto.
          destruct X as [<-|X]; [|contradiction]. rewrite W by auto. rewrite fset_eq.
          rewrite <- E at 1. apply sweep_entry. apply H. cbn; auto.
        * intros x X. rewrite W by (cbn in X; tauto). apply fset_ne. cbn in X. intuition.
      + apply Nat.eqb_neq in E. exists [], (k :: ord), val.
        assert (ell < ckey ps color k) by (destruct (H k); cbn; auto; lia).
        split; auto. split; auto. split; [intros ? []|]. split; [|split; [intros ? []|auto]].
        intros x [<-|X]; auto. rewrite Forall_forall in F. specialize (F x X). cbn in F. lia.
  Qed.

  (** at colour ell, [ord] is the rest of the order and all the others are done *)
  Definition rinv (ell : nat) (ord : list nat) (val : nat -> T) : Prop :=
    StronglySorted (fun i j => ckey ps color i <= ckey ps color j) ord /\
    (forall k, In k ord -> k < length ps /\ ell <= ckey ps color k) /\
    (forall k, k < length ps -> ell <= ckey ps color k -> In k ord) /\
    (forall k, k < length ps -> In k ord \/ value_ok k (val k)) /\ NoDup ord.

  Lemma rinv_step ell ord val : rinv ell ord val ->
    exists ord' val', take_color ps color ell (sweep (seed zero one color ell)) ord val = (ord', val') /\
      rinv (S ell) ord' val'.
  Proof.
    intros (S & A & B & C & ND). destruct (take_color_ok ell ord val S A) as (pre & suf & val' & E & O & P & Q & V & W).
    exists suf, val'. split; auto. subst ord. split; [|split; [|split; [|split]]].
    - clear -S. induction pre as [|x pre IH]; auto. inversion S; subst. auto.
    - intros k Hk. split; [apply A, in_or_app; auto|]. apply Q in Hk. lia.
    - intros k Hk Hl. specialize (B k Hk ltac:(lia)). apply in_app_or in B as [B|B]; auto.
      apply P in B. lia.
    - intros k Hk. destruct (in_dec Nat.eq_dec k pre) as [I|NI]; [right; now apply V|].
      destruct (C k Hk) as [X|X]; [apply in_app_or in X as [X|X]; [contradiction|auto]|].
      right. now rewrite W.
    - clear -ND. induction pre; auto. apply IHpre. now inversion ND.
  Qed.
  Lemma used ell : appears ps (fst (nth 0 ps (0,0))) -> ell < n_color m color -> exists k, k < length ps /\ ckey ps color k = ell.
  Proof.
    intros A0 H. assert (X : exists i, appears ps i /\ ell <= color i).
    { unfold n_color in H. destruct (n_color_attained m color (seq 0 m) 1) as [E|(i & I & L & E)].
      - rewrite E in H. exists (fst (nth 0 ps (0,0))). split; auto. lia.
      - rewrite E in H. exists i. split; [|lia]. apply Hcol; auto. apply in_seq in I. lia. }
    destruct X as (i & A & L).
    assert (Y : exists i, appears ps i /\ color i = ell).
    { destruct (Nat.eq_dec (color i) ell); [eauto|]. apply (Hcont i); auto. lia. }
    destruct Y as (r & [j J] & C). apply (In_nth _ _ (0,0)) in J as (k & Hk & E).
    exists k. split; auto. unfold ckey. now rewrite E.
  Qed.
  Lemma n_color_gt k : k < length ps -> ckey ps color k < n_color m color.
  Proof.
    intros Hk. unfold ckey. destruct (nth k ps (0,0)) as [i j] eqn:E.
    assert (I : In (i, j) ps) by (rewrite <- E; now apply nth_In). cbn.
    apply n_color_bound; [apply in_seq; apply Hlt in I; lia|]. apply Hcol; [now apply Hlt in I|]. exists j; auto.
  Qed.
  Lemma rinv_end ell ord val : n_color m color <= ell -> rinv ell ord val ->
    ord = [] /\ entries M ps val.
  Proof.
    intros L (S & A & B & C & _). assert (ord = []) as ->.
    { destruct ord as [|k ord]; auto. destruct (A k (or_introl eq_refl)) as [X Y].
      apply n_color_gt in X. lia. }
    split; auto. intros k i j E.
    assert (Hk : k < length ps) by (apply nth_error_Some; congruence).
    destruct (C k Hk) as [[]|V]. unfold value_ok in V.
    apply nth_error_nth with (d := (0, 0)) in E. now rewrite E in V.
  Qed.
  Lemma rev_loop_ok : appears ps (fst (nth 0 ps (0,0))) -> forall n ell ord val, ell + n = n_color m color -> rinv ell ord val ->
    exists val', rev_loop zero one sweep ps color n ell ord val = Some ([], val') /\ entries M ps val'.
  Proof.
    intros A0. induction n as [|n IH]; intros ell ord val E R; cbn [rev_loop].
    - destruct (rinv_end ell ord val ltac:(lia) R) as [-> V]. eauto.
    - destruct (used ell A0 ltac:(lia)) as (k0 & K1 & K2).
      pose proof R as (S & A & B & _). specialize (B k0 K1 ltac:(lia)).
      destruct ord as [|k ord]; [destruct B|].
      assert (ckey ps color k = ell) as EK.
      { destruct (A k (or_introl eq_refl)). destruct B as [->|B]; auto.
        inversion S as [|? ? ? F]; subst. rewrite Forall_forall in F. specialize (F _ B). cbn in F. lia. }
      fold (ckey ps color k). rewrite EK, Nat.eqb_refl.
      destruct (rinv_step ell _ val R) as (o' & v' & E' & R'). rewrite E'.
      apply IH; auto. lia.
  Qed.
  Lemma group_loop_ok : forall n ell ord val, rinv ell ord val ->
    exists ord' val', group_loop zero one sweep ps color n ell ord val = (ord', val') /\ rinv (ell + n) ord' val'.
  Proof.
    induction n as [|n IH]; intros ell ord val R; cbn [group_loop].
    - rewrite Nat.add_0_r. eauto.
    - destruct (rinv_step ell _ val R) as (o' & v' & E' & R'). rewrite E', <- plus_n_Sm. now apply IH.
  Qed.
  Lemma for_loop_ok gm : 0 < gm -> forall fuel cc ord val, rinv cc ord val -> n_color m color - cc <= fuel ->
    exists val', for_loop zero one fuel gm sweep ps color (n_color m color) cc ord val = Some val' /\ entries M ps val'.
  Proof.
    intros G. induction fuel as [|fuel IH]; intros cc ord val R F; cbn [for_loop].
    - replace (cc <? n_color m color) with false by (symmetry; apply Nat.ltb_ge; lia).
      exists val. split; auto. eapply rinv_end; [|exact R]. lia.
    - destruct (cc <? n_color m color) eqn:L.
      + apply Nat.ltb_lt in L.
        destruct (group_loop_ok (Nat.min gm (n_color m color - cc)) cc ord val R) as (o & v & E & R').
        rewrite E. apply IH; auto. lia.
      + apply Nat.ltb_ge in L. exists val. split; auto. eapply rinv_end; [|exact R]. lia.
  Qed.
  Lemma n_color_le : appears ps (fst (nth 0 ps (0,0))) -> n_color m color <= m.
  Proof.
    intros [j J]. apply Hlt in J. unfold n_color.
    destruct (n_color_attained m color (seq 0 m) 1) as [E|(i & I & L & E)]; rewrite E; lia.
  Qed.
  Lemma rinv_0 sort val : std_sort (elem_lt Nat.ltb) sort -> rinv 0 (color_order sort ps color) val.
  Proof.
    intros S. destruct (color_order_ok sort ps color S) as [P Q]. split; auto.
    split; [|split; [|split]].
    - intros k Hk. split; [|lia]. apply (Permutation_in _ (Permutation_sym P)) in Hk. apply in_seq in Hk. lia.
    - intros k Hk _. apply (Permutation_in _ P). apply in_seq. lia.
    - intros k Hk. left. apply (Permutation_in _ P). apply in_seq. lia.
    - apply (Permutation_NoDup P). apply seq_NoDup.
  Qed.
End Recover.
