(** C38: the Hessian sparsity sweeps, in terms of the instructions of the call. *)
From Coq Require Import List Bool Arith Lia.
From Verif Require Import Base_Spec Op_Model Tape_Spec Tape_Model Tape_Proof Atom_Model Atom_Proof2 Atom_Proof3 Atom_Proof4 AtomHes_Model.
Import ListNotations.

(** ** Loops over patterns *)
Lemma jac_loop (X Y : nat -> nat) (pj : list (nat * nat)) (H : sets) v e :
  (forall i j i' j', In (i, j) pj -> In (i', j') pj -> Y i <> X j') ->
  fold_left (fun H '(i, j) => binary_union H (X j) (X j) (Y i) H) pj H v e = H v e || existsb (fun '(i, j) => (X j =? v) && H (Y i) e) pj.
Proof.
  intros D. assert (forall l H', incl l pj -> (forall i j, In (i, j) pj -> H' (Y i) e = H (Y i) e) ->
    fold_left (fun H '(i, j) => binary_union H (X j) (X j) (Y i) H) l H' v e = H' v e || existsb (fun '(i, j) => (X j =? v) && H (Y i) e) l) as K; [|apply K; [apply incl_refl|auto]].
  induction l as [|[i j] l IH]; intros H' I E; cbn [fold_left existsb]; [now rewrite orb_false_r|].
  assert (In (i, j) pj) as Hij by (apply I; now left). rewrite IH.
  - unfold binary_union. rewrite (Nat.eqb_sym v). destruct (X j =? v) eqn:Ev; cbn [andb orb]; auto. apply Nat.eqb_eq in Ev. subst v. rewrite (E i j Hij). now rewrite orb_assoc.
  - intros p Hp. apply I. now right.
  - intros i' j' Hp. unfold binary_union. destruct (Y i' =? X j) eqn:Ev; [apply Nat.eqb_eq in Ev; exfalso; exact (D i' j' i j Hp Hij Ev)|]. apply (E i' j' Hp).
Qed.
Lemma flag_loop (X : nat -> nat) (pj : list (nat * nat)) (fl : nat -> bool) v :
  fold_left (fun fl '(i, j) => fset fl (X j) true) pj fl v = fl v || existsb (fun '(i, j) => X j =? v) pj.
Proof.
  revert fl. induction pj as [|[i j] l IH]; intros fl; cbn [fold_left existsb]; [now rewrite orb_false_r|]. rewrite IH. destruct (X j =? v) eqn:E; cbn [orb].
  - apply Nat.eqb_eq in E. subst v. rewrite fset_eq. now rewrite orb_true_r.
  - apply Nat.eqb_neq in E. rewrite fset_ne by auto. auto.
Qed.
Lemma hes_loop (X : nat -> nat) (J : sets) (ph : list (nat * nat)) (H : sets) v e :
  fold_left (fun H '(r, c) => binary_union (binary_union H (X r) (X r) (X c) J) (X c) (X c) (X r) J) ph H v e =
  H v e || existsb (fun '(r, c) => ((X r =? v) && J (X c) e) || ((X c =? v) && J (X r) e)) ph.
Proof.
  revert H. induction ph as [|[r c] l IH]; intros H; cbn [fold_left existsb]; [now rewrite orb_false_r|]. rewrite IH. unfold binary_union. rewrite (Nat.eqb_sym v (X c)), (Nat.eqb_sym v (X r)).
  destruct (X c =? v) eqn:Ec; [apply Nat.eqb_eq in Ec; subst v|]; cbn [andb orb].
  - rewrite (Nat.eqb_sym (X c)). destruct (X r =? X c) eqn:Er; cbn [andb orb]; [apply Nat.eqb_eq in Er; rewrite Er|]; rewrite ?orb_assoc; auto.
  - destruct (X r =? v) eqn:Er; cbn [andb orb]; [apply Nat.eqb_eq in Er; subst v|]; rewrite ?orb_assoc, ?orb_false_r; auto.
Qed.
Lemma spread_ok np1 src other (S : sets) v e :
  spread np1 src other S v e = S v e || ((v <? np1) && S (np1 + src) v && S (np1 + other) e).
Proof.
  unfold spread. assert (forall l S', (forall u, In u l -> u < np1) -> (forall d, S' (np1 + other) d = S (np1 + other) d) ->
    fold_left (fun S' v => if S (np1 + src) v then binary_union S' v v (np1 + other) S' else S') l S' v e = S' v e || (existsb (Nat.eqb v) l && S (np1 + src) v && S (np1 + other) e)) as K.
  { induction l as [|u l IH]; intros S' L E; cbn [fold_left existsb]; [now rewrite orb_false_r|]. assert (u < np1) as Hu by (apply L; now left). rewrite IH.
    - destruct (S (np1 + src) u) eqn:Eu; unfold binary_union; destruct (v =? u) eqn:Ev; cbn [andb orb]; auto.
      + apply Nat.eqb_eq in Ev. subst u. rewrite Eu, E. cbn [andb]. rewrite andb_true_r. destruct (S' v e), (S (np1 + other) e), (existsb (Nat.eqb v) l); auto.
      + apply Nat.eqb_eq in Ev. subst u. rewrite Eu. cbn [andb]. now rewrite andb_false_r.
    - intros; apply L; now right.
    - intros d. destruct (S (np1 + src) u); auto. unfold binary_union. destruct (np1 + other =? u) eqn:Ev; auto. apply Nat.eqb_eq in Ev. lia. }
  rewrite K; [|intros u Hu; apply in_seq in Hu; lia|auto]. f_equal. f_equal. f_equal. apply eq_true_iff_eq. rewrite existsb_exists, Nat.ltb_lt. split.
  - intros (u & Hu & Eu). apply Nat.eqb_eq in Eu. subst. apply in_seq in Hu. lia.
  - intros Hv. exists v. split; [apply in_seq; lia|apply Nat.eqb_refl].
Qed.
Lemma for_hes_loop (X : nat -> nat) np1 (ph : list (nat * nat)) (S : sets) v e :
  fold_left (fun S '(r, c) => let S' := spread np1 (X r) (X c) S in if negb (c =? r) then spread np1 (X c) (X r) S' else S') ph S v e =
  S v e || ((v <? np1) && existsb (fun '(r, c) => (S (np1 + X r) v && S (np1 + X c) e) || (S (np1 + X c) v && S (np1 + X r) e)) ph).
Proof.
  assert (forall l S', (forall a d, S' (np1 + a) d = S (np1 + a) d) ->
    fold_left (fun S '(r, c) => let S' := spread np1 (X r) (X c) S in if negb (c =? r) then spread np1 (X c) (X r) S' else S') l S' v e =
    S' v e || ((v <? np1) && existsb (fun '(r, c) => (S (np1 + X r) v && S (np1 + X c) e) || (S (np1 + X c) v && S (np1 + X r) e)) l)) as K; [|now apply K].
  assert (forall src other (A : sets) a d, spread np1 src other A (np1 + a) d = A (np1 + a) d) as N.
  { intros. rewrite spread_ok. assert ((np1 + a <? np1) = false) as -> by (apply Nat.ltb_ge; lia). now rewrite orb_false_r. }
  induction l as [|[r c] l IH]; intros S' E; cbn [fold_left existsb]; [now rewrite andb_false_r, orb_false_r|]. cbv zeta. rewrite IH.
  - destruct (c =? r) eqn:Ec; cbn [negb].
    + apply Nat.eqb_eq in Ec. subst c. rewrite spread_ok, !E. destruct (S' v e), (v <? np1), (S (np1 + X r) v), (S (np1 + X r) e); cbn; auto.
    + rewrite !spread_ok, !E. assert ((np1 + X c <? np1) = false) as -> by (apply Nat.ltb_ge; lia). assert ((np1 + X r <? np1) = false) as -> by (apply Nat.ltb_ge; lia).
      cbn [andb]. rewrite ?orb_false_r. destruct (v <? np1); cbn [andb]; rewrite ?orb_false_r; auto.
      destruct (S' v e), (S (np1 + X r) v), (S (np1 + X c) e), (S (np1 + X c) v), (S (np1 + X r) e); cbn; auto.
  - intros a d. destruct (negb (c =? r)); rewrite ?N; auto.
Qed.

Section Spa.
  Context {b : base}.
  Notation T := (bt b).
  Variables (isd : nat -> bool) (P : nat -> T).
  Variable cb_jac : nat -> nat -> bool -> list T -> list kind -> list bool -> list bool -> list (nat * nat).
  Variable cb_hes : nat -> nat -> list T -> list kind -> list bool -> list bool -> list (nat * nat).
  Notation X lx := (fun j => xidx (nth j lx d0)).
  Notation Y ly := (fun i => yidx (nth i ly d0)).
  Lemma fold_ext {A B} (f g : A -> B -> A) l a : (forall x c, In c l -> f x c = g x c) -> fold_left f l a = fold_left g l a.
  Proof. revert a. induction l as [|c l IH]; intros a H; cbn; auto. rewrite H by now left. apply IH. intros; apply H; now right. Qed.
  Lemma rev_hes_ok ai cid iv iv' a' lx ly rest w0 fin (J : sets) fl (H : sets) :
    Forall isx lx -> Forall isy ly ->
    let sx := map (fun i => nonempty J fin (xidx i)) lx in let sy := map (fun i => fl (yidx i)) ly in
    let pj := cb_jac ai cid false (map (xpar P) lx) (map (xkind isd) lx) sx sy in let ph := cb_hes ai cid (map (xpar P) lx) (map (xkind isd) lx) sx sy in
    (forall i j, In (i, j) pj -> i < length ly /\ j < length lx /\ nth i sy false = true /\ nth j sx false = true) ->
    (forall r c, In (r, c) ph -> r < length lx /\ c < length lx /\ nth r sx false = true /\ nth c sx false = true) ->
    (forall i j i' j', In (i, j) pj -> In (i', j') pj -> Y ly i <> X lx j') ->
    exists fl' H', atomic_rev_hes isd P cb_jac cb_hes fin (mkIns AFunOp [ai; cid; length lx; length ly] iv :: rev ly ++ rev lx ++ mkIns AFunOp a' iv' :: rest) w0 J fl H = Some (fl', H', rest) /\
      (forall v, fl' v = fl v || existsb (fun '(i, j) => X lx j =? v) pj) /\
      forall v e, H' v e = H v e || existsb (fun '(i, j) => (X lx j =? v) && H (Y ly i) e) pj
                              || existsb (fun '(r, c) => ((X lx r =? v) && J (X lx c) e) || ((X lx c =? v) && J (X lx r) e)) ph.
  Proof.
    intros FX FY sx sy pj ph HJ HH HD. cbn [atomic_rev_hes]. destruct (spa_ys_down ly w0 (rev lx ++ mkIns AFunOp a' iv' :: rest) FY) as (w1 & -> & _ & Q2).
    destruct (spa_xs_down isd P lx w1 (mkIns AFunOp a' iv' :: rest) FX) as (w & -> & S3 & Q1). unfold three_rev_hes. cbv zeta.
    rewrite (vec_map (w_par w) (xpar P) d0 lx) by (intros t Ht; now apply Q1). rewrite (vec_map (w_type w) (xkind isd) d0 lx) by (intros t Ht; now apply Q1).
    rewrite (vec_map (fun j => nonempty J fin (w_ix w j)) (fun i => nonempty J fin (xidx i)) d0 lx) by (intros t Ht; destruct (Q1 t Ht) as (_ & _ & E); now rewrite E).
    rewrite (vec_map (fun j => fl (w_iy w j)) (fun i => fl (yidx i)) d0 ly) by (intros t Ht; now rewrite S3, (Q2 t Ht)).
    fold sx sy. fold pj ph.
    assert (forallb (in_jac sy sx) pj = true) as ->. { apply forallb_forall. intros [i j] Hi. destruct (HJ i j Hi) as (_ & _ & A & B). cbn. now rewrite A, B. }
    assert (forallb (in_hes sx) ph = true) as ->. { apply forallb_forall. intros [i j] Hi. destruct (HH i j Hi) as (_ & _ & A & B). cbn. now rewrite A, B. }
    cbn [andb].
    assert (forall j, j < length lx -> w_ix w j = X lx j) as WX by (intros j Hj; now apply Q1).
    assert (forall i, i < length ly -> w_iy w i = Y ly i) as WY by (intros i Hi; rewrite S3; now apply Q2).
    eexists _, _. split; [reflexivity|]. split.
    - intros v. rewrite flag_loop. f_equal. apply existsb_ext'. intros [i j] Hp. destruct (HJ i j Hp) as (_ & B & _). now rewrite WX.
    - intros v e. rewrite (fold_ext _ (fun H '(r, c) => binary_union (binary_union H (X lx r) (X lx r) (X lx c) J) (X lx c) (X lx c) (X lx r) J) ph).
      2:{ intros x [r c] Hp. destruct (HH r c Hp) as (A & B & _). now rewrite !WX by auto. }
      rewrite (fold_ext _ (fun H '(i, j) => binary_union H (X lx j) (X lx j) (Y ly i) H) pj).
      2:{ intros x [i j] Hp. destruct (HJ i j Hp) as (A & B & _). now rewrite WX, WY by auto. }
      rewrite (hes_loop (X lx)). rewrite (jac_loop (X lx) (Y ly)) by auto. reflexivity.
  Qed.
  Lemma for_hes_ok ai cid iv iv' a' lx ly rest w0 np1 (R S : sets) :
    Forall isx lx -> Forall isy ly ->
    let sx := map (fun i => nonempty S np1 (np1 + xidx i)) lx in let sy := map (fun i => nonempty R 1 (yidx i)) ly in
    let pj := cb_jac ai cid false (map (xpar P) lx) (map (xkind isd) lx) sx sy in let ph := cb_hes ai cid (map (xpar P) lx) (map (xkind isd) lx) sx sy in
    (forall i j, In (i, j) pj -> i < length ly /\ j < length lx /\ nth i sy false = true /\ nth j sx false = true) ->
    (forall r c, In (r, c) ph -> r < length lx /\ c < length lx /\ nth r sx false = true /\ nth c sx false = true) ->
    (forall i j, In (i, j) pj -> forall t, t < length lx -> nth t sx false = true -> Y ly i <> X lx t) ->
    exists S', atomic_for_hes isd P cb_jac cb_hes np1 (mkIns AFunOp [ai; cid; length lx; length ly] iv :: lx ++ ly ++ mkIns AFunOp a' iv' :: rest) w0 R S = Some (S', rest) /\
      (forall v e, e < np1 -> S' (np1 + v) e = S (np1 + v) e || existsb (fun '(i, j) => (Y ly i =? v) && S (np1 + X lx j) e) pj) /\
      (forall u e, u < np1 -> e < np1 -> S' u e = S u e || existsb (fun '(r, c) => (S (np1 + X lx r) u && S (np1 + X lx c) e) || (S (np1 + X lx c) u && S (np1 + X lx r) e)) ph).
  Proof.
    intros FX FY sx sy pj ph HJ HH HD. cbn [atomic_for_hes]. destruct (spa_xs_up isd P lx w0 (ly ++ mkIns AFunOp a' iv' :: rest) FX) as (w1 & -> & E1 & Q1).
    destruct (spa_ys_up ly w1 (mkIns AFunOp a' iv' :: rest) FY) as (w & -> & (S1 & S2 & S3) & Q2). unfold three_for_hes. cbv zeta.
    rewrite (vec_map (w_par w) (xpar P) d0 lx) by (intros t Ht; rewrite S1; now apply Q1). rewrite (vec_map (w_type w) (xkind isd) d0 lx) by (intros t Ht; rewrite S2; now apply Q1).
    rewrite (vec_map (fun j => nonempty S np1 (np1 + w_ix w j)) (fun i => nonempty S np1 (np1 + xidx i)) d0 lx) by (intros t Ht; destruct (Q1 t Ht) as (_ & _ & E); now rewrite S3, E).
    rewrite (vec_map (fun j => nonempty R 1 (w_iy w j)) (fun i => nonempty R 1 (yidx i)) d0 ly) by (intros t Ht; now rewrite (Q2 t Ht)).
    fold sx sy. fold pj ph.
    assert (forallb (in_jac sy sx) pj = true) as ->. { apply forallb_forall. intros [i j] Hi. destruct (HJ i j Hi) as (_ & _ & A & B). cbn. now rewrite A, B. }
    assert (forallb (in_hes sx) ph = true) as ->. { apply forallb_forall. intros [i j] Hi. destruct (HH i j Hi) as (_ & _ & A & B). cbn. now rewrite A, B. }
    cbn [andb].
    assert (forall j, j < length lx -> w_ix w j = X lx j) as WX by (intros j Hj; rewrite S3; now apply Q1).
    assert (forall i, i < length ly -> w_iy w i = Y ly i) as WY by (intros i Hi; now apply Q2).
    eexists. split; [reflexivity|].
    set (S0 := posts S np1 _).
    assert (forall v e, e < np1 -> S0 v e = S v e || existsb (fun '(i, j) => (np1 + Y ly i =? v) && S (np1 + X lx j) e) pj) as E0.
    { intros v e He. subst S0. rewrite posts_ok by auto. f_equal. clear -HJ WX WY. induction pj as [|[i j] p IH]; cbn [map existsb]; auto. destruct (HJ i j) as (A & B & _); [now left|]. rewrite IH by (intros; apply HJ; now right). now rewrite WX, WY by auto. }
    rewrite (fold_ext _ (fun S '(r, c) => let S' := spread np1 (X lx r) (X lx c) S in if negb (c =? r) then spread np1 (X lx c) (X lx r) S' else S') ph).
    2:{ intros x [r c] Hp. destruct (HH r c Hp) as (A & B & _). now rewrite !WX by auto. }
    split.
    - intros v e He. rewrite (for_hes_loop (X lx)). assert ((np1 + v <? np1) = false) as -> by (apply Nat.ltb_ge; lia). cbn [andb]. rewrite orb_false_r, E0 by auto. f_equal. apply existsb_ext'. intros [i j] _. f_equal.
      destruct (Y ly i =? v) eqn:E; [apply Nat.eqb_eq in E; apply Nat.eqb_eq; lia|apply Nat.eqb_neq in E; apply Nat.eqb_neq; lia].
    - intros u e Hu He. rewrite (for_hes_loop (X lx)). apply Nat.ltb_lt in Hu as Lu. rewrite Lu. cbn [andb]. rewrite E0 by auto.
      assert (existsb (fun '(i, j) => (np1 + Y ly i =? u) && S (np1 + X lx j) e) pj = false) as ->.
      { clear -Hu. induction pj as [|[i j] p IH]; cbn [existsb]; auto. rewrite IH. assert ((np1 + Y ly i =? u) = false) as -> by (apply Nat.eqb_neq; lia). auto. }
      rewrite orb_false_r. f_equal.
      assert (forall t d, t < length lx -> nth t sx false = true -> d < np1 -> S0 (np1 + X lx t) d = S (np1 + X lx t) d) as EX.
      { intros t d Ht Hs Hd. rewrite E0 by auto. assert (existsb (fun '(i, j) => (np1 + Y ly i =? np1 + X lx t) && S (np1 + X lx j) d) pj = false) as ->; [|now rewrite orb_false_r].
        apply not_true_iff_false. rewrite existsb_exists. intros ([i j] & Hp & Hq). apply andb_true_iff in Hq as [Hq _]. apply Nat.eqb_eq in Hq. apply (HD i j Hp t Ht Hs). lia. }
      apply existsb_ext'. intros [r c] Hp. destruct (HH r c Hp) as (A & B & C & D). now rewrite !EX by auto.
  Qed.
End Spa.
