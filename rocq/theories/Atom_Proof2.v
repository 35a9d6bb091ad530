(** C38: the loops of the sweeps over the operators of a call. *)
From Coq Require Import List Bool Arith Lia.
From Verif Require Import Base_Spec Op_Model Tape_Spec Tape_Model Tape_Proof Atom_Model.
Import ListNotations.

Section Loops.
  Context {W : Type} (step : nat -> ins -> W -> option W) (ok : ins -> Prop) (Q : nat -> ins -> W -> Prop) (I : nat -> W -> Prop) (d : ins).
  Lemma up_loop_ok : (forall j i w, ok i -> I j w -> exists w', step j i w = Some w' /\ I (S j) w' /\ Q j i w' /\ forall j' i', j' < j -> Q j' i' w -> Q j' i' w') ->
    forall l j w rest, Forall ok l -> I j w -> exists w', up_loop step j (length l) (l ++ rest) w = Some (w', rest) /\ I (j + length l) w' /\
      (forall t, t < length l -> Q (j + t) (nth t l d) w') /\ forall j' i', j' < j -> Q j' i' w -> Q j' i' w'.
  Proof.
    intros H. induction l as [|i l IH]; intros j w rest F Hw; cbn [up_loop length app].
    - exists w. rewrite Nat.add_0_r. repeat split; auto. intros t Ht. lia.
    - inversion F as [|? ? F1 F2]; subst. destruct (H j i w F1 Hw) as (w1 & -> & A1 & A2 & A3). destruct (IH (S j) w1 rest F2 A1) as (w2 & -> & B1 & B2 & B3).
      exists w2. split; auto. split; [now replace (j + S (length l)) with (S j + length l) by lia|]. split.
      + intros [|t] Ht; cbn [nth]; [rewrite Nat.add_0_r; apply B3; auto|]. replace (j + S t) with (S j + t) by lia. apply B2. lia.
      + intros j' i' Hj K. apply B3; [lia|]. now apply A3.
  Qed.
  Lemma down_loop_ok : (forall j i w, ok i -> I (S j) w -> exists w', step j i w = Some w' /\ I j w' /\ Q j i w' /\ forall j' i', j < j' -> Q j' i' w -> Q j' i' w') ->
    forall l w rest, Forall ok l -> I (length l) w -> exists w', down_loop step (length l) (rev l ++ rest) w = Some (w', rest) /\ I 0 w' /\
      (forall t, t < length l -> Q t (nth t l d) w') /\ forall j' i', length l <= j' -> Q j' i' w -> Q j' i' w'.
  Proof.
    intros H l. induction l as [|i l IH] using rev_ind; intros w rest F Hw.
    - exists w. cbn. repeat split; auto. intros t Ht. lia.
    - apply Forall_app in F as [F1 F2]. inversion F2 as [|? ? F3 _]; subst. rewrite app_length in *. cbn [length] in *. rewrite Nat.add_1_r in *. rewrite rev_app_distr. cbn [rev app down_loop].
      destruct (H (length l) i w F3 Hw) as (w1 & -> & A1 & A2 & A3). destruct (IH w1 rest F1 A1) as (w2 & -> & B1 & B2 & B3).
      exists w2. split; auto. split; auto. split.
      + intros t Ht. destruct (Nat.eq_dec t (length l)) as [->|N].
        * rewrite app_nth2, Nat.sub_diag by lia. cbn. apply B3; auto.
        * rewrite app_nth1 by lia. apply B2. lia.
      + intros j' i' Hj K. apply B3; [lia|]. apply A3; auto.
  Qed.
End Loops.

Lemma vec_map {A B} (f : nat -> A) (g : B -> A) (d : B) l : (forall t, t < length l -> f t = g (nth t l d)) -> vec f (length l) = map g l.
Proof.
  unfold vec. revert f. induction l as [|x l IH]; intros f H; cbn [length seq map]; auto. f_equal; [apply (H 0); cbn; lia|].
  rewrite <- seq_shift, map_map. apply IH. intros t Ht. apply (H (S t)). cbn. lia.
Qed.
Definition flat {A B} (q : nat) (g : B -> nat -> A) (l : list B) : list A := concat (map (fun x => map (g x) (seq 0 q)) l).
Lemma vec_flat {A B} (f : nat -> A) (g : B -> nat -> A) (d : B) q l : (forall t k, t < length l -> k < q -> f (t * q + k) = g (nth t l d) k) -> vec f (length l * q) = flat q g l.
Proof.
  unfold vec, flat. revert f. induction l as [|x l IH]; intros f H; cbn [length seq map concat]; auto. cbn [Nat.mul]. rewrite seq_app, map_app. f_equal.
  - apply map_ext_in. intros k Hk. apply in_seq in Hk. apply (H 0 k); cbn; lia.
  - rewrite <- (IH (fun i => f (q + i))).
    + rewrite Nat.add_0_l. rewrite <- (Nat.add_0_r q) at 1. generalize 0 as a. generalize (length l * q) as c. clear. induction c as [|c IH]; intros a; cbn [seq map]; auto. rewrite <- Nat.add_succ_r, IH. reflexivity.
    + intros t k Ht Hk. replace (q + (t * q + k)) with (S t * q + k) by lia. apply (H (S t) k); cbn; lia.
Qed.
Lemma vec_len {A} (f : nat -> A) n : length (vec f n) = n.
Proof. unfold vec. now rewrite map_length, seq_length. Qed.
Lemma vec_nth {A} (f : nat -> A) n i d : i < n -> nth i (vec f n) d = f i.
Proof. intros H. unfold vec. rewrite (nth_indep _ d (f 0)) by (rewrite map_length, seq_length; lia). rewrite map_nth, seq_nth; auto. Qed.

(** writing many elements *)
Lemma set_fold_ne {A} (pos : nat -> nat) (g : nat -> A) idx ks : forall f, (forall k, In k ks -> idx <> pos k) -> fold_left (fun f k => fset f (pos k) (g k)) ks f idx = f idx.
Proof. induction ks as [|k ks IH]; intros f H; cbn; auto. rewrite IH; [|intros; apply H; now right]. apply fset_ne. apply H. now left. Qed.
Lemma set_fold_eq {A} (pos : nat -> nat) (g : nat -> A) k ks : forall f, In k ks -> (forall k', In k' ks -> pos k' = pos k -> k' = k) -> fold_left (fun f k => fset f (pos k) (g k)) ks f (pos k) = g k.
Proof.
  induction ks as [|k1 ks IH]; intros f H N; [destruct H|]. cbn [fold_left]. destruct (in_dec Nat.eq_dec k ks) as [Hi|Hn].
  - apply IH; auto. intros; apply N; auto; now right.
  - destruct H as [->|H]; [|contradiction]. rewrite set_fold_ne; [apply fset_eq|]. intros k' Hk E. apply Hn. rewrite <- (N k'); auto. now right.
Qed.
Lemma fill_spec {b : base} (f : nat -> bt b) base lo hi g i : fill f base lo hi g i = if (base + lo <=? i) && (i <? base + hi) then g (i - base) else f i.
Proof.
  unfold fill. destruct ((base + lo <=? i) && (i <? base + hi)) eqn:E.
  - apply andb_true_iff in E as [E1 E2]. apply Nat.leb_le in E1. apply Nat.ltb_lt in E2. replace i with (base + (i - base)) at 1 by lia.
    apply (set_fold_eq (fun k => base + k)); [apply in_seq; lia|intros; lia].
  - apply (set_fold_ne (fun k => base + k)). intros k Hk Z. apply in_seq in Hk. apply andb_false_iff in E as [E|E]; [apply Nat.leb_gt in E|apply Nat.ltb_ge in E]; lia.
Qed.
(** the results of a call are stored *)
Lemma out_fold {A} (vy : nat -> bool) (pos : nat -> nat -> nat) (val : nat -> nat -> A) ks m tab :
  let out := fold_left (fun tab i => if vy i then fold_left (fun tab k => fset tab (pos i k) (val i k)) ks tab else tab) (seq 0 m) tab in
  (forall i i' k k', i < m -> i' < m -> vy i = true -> vy i' = true -> In k ks -> In k' ks -> pos i k = pos i' k' -> i = i' /\ k = k') ->
  (forall i k, i < m -> vy i = true -> In k ks -> out (pos i k) = val i k) /\ (forall idx, (forall i k, i < m -> vy i = true -> In k ks -> idx <> pos i k) -> out idx = tab idx).
Proof.
  cbv zeta. induction m as [|m IH]; intros N; [split; [intros; lia|auto]|]. rewrite seq_S, fold_left_app. cbn [Nat.add fold_left].
  destruct IH as [I1 I2]; [intros; apply N; auto|]. destruct (vy m) eqn:V; split.
  - intros i k Hi Vi Hk. destruct (Nat.eq_dec i m) as [->|Ni].
    + apply (set_fold_eq (pos m)); auto. intros k' Hk' E. apply (N m m k' k); auto.
    + rewrite set_fold_ne; [apply I1; auto; lia|]. intros k' Hk' E. apply Ni. apply (N i m k k'); auto.
  - intros idx H. rewrite set_fold_ne; [apply I2; intros; apply H; auto|]. intros k Hk. apply H; auto.
  - intros i k Hi Vi Hk. apply I1; auto. destruct (Nat.eq_dec i m) as [->|Ni]; [congruence|lia].
  - intros idx H. apply I2. intros; apply H; auto.
Qed.
