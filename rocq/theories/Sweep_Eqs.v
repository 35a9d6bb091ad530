(** The forward sweep solves the order by order equations of the tape, for any
    Base; the equations have only one solution. *)
From Coq Require Import ZArith List Bool Arith Lia.
From Verif Require Import Base_Spec Op_Model Tape_Spec Tape_Model Tape_Proof Tape_Proof2 Sweep_Model.
Import ListNotations.

(** variables read by an elementary loop *)
Definition pref_var (p : pref) : list nat := match p with Ppar _ => [] | Pvar i => [i] end.
Definition sub_args (s : sub) : list nat :=
  match s with
  | SAdd x y | SSub x y | SMul x y | SZmul x y | SDiv x y => [x; y]
  | SAddp _ y | SSubp _ y | SZmulp _ y | SDivp _ y => [y]
  | SSubv x _ | SZmulv x _ | SDivv x _ => [x]
  | SMulp p y => pref_var p ++ [y]
  | SUn _ x | SPair _ x => [x]
  | SPar _ | SLogp _ => []
  | SDis _ x => [x]
  | SCexp a => var_args CExpOp a
  | SCsum a => var_args CSumOp a
  | SPowexp x y z1 => pref_var x ++ [y; z1]
  | SPowvp x _ => [x]
  | SErf _ x z3 => [x; z3]
  end.

(** a chain of loops: consecutive results starting at [r], arguments earlier *)
Fixpoint chain (r : nat) (l : list (nat * sub)) : Prop :=
  match l with
  | [] => True
  | (r', s) :: l' => r' = r /\ Forall (fun x => 0 < x < r) (sub_args s) /\ chain (r + sub_res s) l'
  end.
Fixpoint chain_res (l : list (nat * sub)) : nat :=
  match l with [] => 0 | (_, s) :: l' => sub_res s + chain_res l' end.

(** csum bounds: arg[1] and arg[2] are positions 5 <= arg[1] <= arg[2] *)
Definition csum_ok (o : opvar) (a : list nat) : Prop :=
  o = CSumOp -> 5 <= nth 1 a 0 <= nth 2 a 0.

Lemma arg_range_incl (a : list nat) lo mid hi i : lo <= mid <= hi ->
  In i (arg_range a lo mid) -> In i (arg_range a lo hi).
Proof.
  intros H. unfold arg_range.
  replace (hi - lo) with ((mid - lo) + (hi - mid)) by lia.
  intros K. remember (skipn lo a) as l eqn:E. clear E a. revert l K.
  generalize (mid - lo) (hi - mid). intros n m. revert m.
  induction n as [|n IH]; intros m [|x l] K; cbn in *; auto; try contradiction.
  destruct K; auto.
Qed.
Lemma skipn_add {A} n m (l : list A) : skipn n (skipn m l) = skipn (n + m) l.
Proof.
  revert l. induction m as [|m IH]; intros l; [now rewrite Nat.add_0_r|].
  destruct l as [|x l]; [now rewrite !skipn_nil|].
  replace (n + S m) with (S (n + m)) by lia. cbn. apply IH.
Qed.
Lemma arg_range_incr (a : list nat) lo mid hi i : lo <= mid <= hi ->
  In i (arg_range a mid hi) -> In i (arg_range a lo hi).
Proof.
  intros H. unfold arg_range.
  replace (skipn mid a) with (skipn (mid - lo) (skipn lo a)) by (rewrite skipn_add; f_equal; lia).
  intros K. replace (hi - lo) with ((mid - lo) + (hi - mid)) by lia.
  remember (skipn lo a) as l eqn:E. clear E a. revert l K.
  generalize (mid - lo) (hi - mid). intros n m. revert m.
  induction n as [|n IH]; intros m [|x l] K; cbn in *; auto; try contradiction.
  rewrite firstn_nil in K. destruct K.
Qed.

Lemma subs_chain o a iv l np : subs o a iv = Some l -> wf_ins np (mkIns o a iv) ->
  num_res o <= iv + 1 -> chain (iv + 1 - num_res o) l /\ chain_res l = num_res o.
Proof.
  intros H (W & _) Hiv. cbn [i_op i_arg i_var] in W.
  destruct o; cbn in H; try discriminate; injection H as <-; cbn [num_res] in *;
    cbn [var_args] in W;
    cbn [chain chain_res sub_args sub_res pref_var app fst snd].
  all: try (replace (iv + 1 - 1) with iv in * by lia).
  all: try (replace (iv + 1 - 2) with (iv - 1) in * by lia).
  all: try (replace (iv + 1 - 3) with (iv - 2) in * by lia).
  all: try (replace (iv + 1 - 5) with (iv - 4) in * by lia).
  all: repeat match goal with
       | H : Forall _ (_ :: _) |- _ =>
         let A := fresh in let B := fresh in
         pose proof (Forall_inv H) as A; pose proof (Forall_inv_tail H) as B; clear H; cbn beta in A
       end.
  all: (split; [|reflexivity]).
  all: repeat match goal with |- _ /\ _ => split end; try exact I; try lia.
  all: try (repeat (apply Forall_cons; [lia|]); apply Forall_nil).
  all: try (eapply Forall_impl; [|exact W]; cbn beta; intros; lia).
Qed.

Section Eqs.
  Context {b : base}.
  Notation T := (bt b).
  Variable bnat : nat -> T.
  Variable P : nat -> T.
  Notation coef := (coef bnat P).
  Notation run_sub := (run_sub bnat P).

  Lemma loop_ext {A} lo hi (f g : nat -> A -> A) z :
    (forall k w, lo <= k < hi -> f k w = g k w) -> loop lo hi f z = loop lo hi g z.
  Proof.
    intros H. unfold loop.
    assert (forall k, In k (seq lo (hi - lo)) -> lo <= k < hi) as Hin
      by (intros k Hk; apply in_seq in Hk; lia).
    revert z. induction (seq lo (hi - lo)) as [|k l IH]; intros z; cbn; auto.
    rewrite H by (apply Hin; now left). apply IH. intros; apply Hin; now right.
  Qed.
  Lemma loop_none {A} lo hi (f : nat -> A -> A) z : hi <= lo -> loop lo hi f z = z.
  Proof. intros H. unfold loop. now replace (hi - lo) with 0 by lia. Qed.
  Lemma loop_last {A} lo hi (f : nat -> A -> A) z : lo <= hi ->
    loop lo (S hi) f z = f hi (loop lo hi f z).
  Proof.
    intros H. unfold loop. replace (S hi - lo) with (S (hi - lo)) by lia.
    rewrite seq_S, fold_left_app. cbn. now replace (lo + (hi - lo)) with hi by lia.
  Qed.

  Lemma sum_rows_ext f l (V V' : nat -> nat -> T) j : forall z,
    (forall i, In i l -> V i j = V' i j) -> sum_rows f l V j z = sum_rows f l V' j z.
  Proof.
    induction l as [|i l IH]; intros z H; cbn; auto.
    rewrite H by now left. apply IH. intros; apply H; now right.
  Qed.

  (** the order [j] coefficients depend only on orders up to [j] of the arguments
      and on lower orders of the results *)
  Lemma coef_ext s r (V V' : nat -> nat -> T) j :
    (forall x, In x (sub_args s) -> forall k, k <= j -> V x k = V' x k) ->
    (forall n, n < sub_res s -> forall k, k < j -> V (r + n) k = V' (r + n) k) ->
    (match s with SCsum a => 5 <= nth 1 a 0 <= nth 2 a 0 | _ => True end) ->
    coef s r V j = coef s r V' j.
  Proof.
    intros HA HR HC.
    assert (forall k, k < j -> V r k = V' r k) as R0
      by (intros k Hk; specialize (HR 0); rewrite Nat.add_0_r in HR; apply HR; auto;
          destruct s; cbn; lia).
    assert (sub_res s = 2 -> forall k, k < j -> V (S r) k = V' (S r) k) as R1
      by (intros E k Hk; specialize (HR 1); rewrite Nat.add_1_r in HR; apply HR; auto; lia).
    destruct s as [x y|p y|x y|p y|x p|x y|p y|x y|p y|x p|x y|p y|x p|u x|u x|p|p|c x|a|a|x y z1|x p|c x z3];
      cbn [sub_args sub_res] in *;
      try (assert (forall k, k <= j -> V x k = V' x k) as Hx
             by (intros; apply HA; auto; now (left + (right; left) + idtac)));
      try (assert (forall k, k <= j -> V y k = V' y k) as Hy
             by (intros; apply HA; auto; try rewrite in_app_iff; cbn; auto));
      cbn [Sweep_Model.coef].
    - now rewrite Hx, Hy.
    - destruct (j =? 0); now rewrite Hy by lia.
    - now rewrite Hx, Hy.
    - destruct (j =? 0); now rewrite Hy by lia.
    - destruct (j =? 0); now rewrite Hx by lia.
    - f_equal. apply loop_ext. intros. now rewrite Hx, Hy by lia.
    - rewrite Hy by lia. destruct p; cbn; auto. rewrite (HA i) by (cbn; auto; lia). auto.
    - f_equal. apply loop_ext. intros. now rewrite Hx, Hy by lia.
    - now rewrite Hy.
    - now rewrite Hx.
    - f_equal. rewrite Hx, (Hy 0) by lia. f_equal. apply loop_ext. intros. now rewrite R0, Hy by lia.
    - destruct (Nat.eqb_spec j 0); rewrite (Hy 0) by lia; auto.
      f_equal. f_equal. apply loop_ext. intros. now rewrite R0, Hy by lia.
    - now rewrite Hx.
    - destruct u; auto; rewrite ?(Hx 0), ?(Hx j) by lia; auto;
        destruct (Nat.eqb_spec j 0); auto.
      + rewrite (Hx 1), (R0 (j - 1)) by lia. f_equal. f_equal.
        apply loop_ext. intros. now rewrite Hx, R0 by lia.
      + rewrite (Hx 1), (R0 (j - 1)) by lia. f_equal. f_equal. f_equal.
        apply loop_ext. intros. now rewrite Hx, R0 by lia.
      + destruct (Nat.eqb_spec j 1); [now rewrite Hx by lia|].
        rewrite (Hx (j - 1)), (R0 1) by lia. do 4 f_equal.
        apply loop_ext. intros. now rewrite Hx, R0 by lia.
      + destruct (Nat.eqb_spec j 1); [now rewrite Hx by lia|].
        rewrite (Hx (j - 1)), (R0 1) by lia. do 4 f_equal.
        apply loop_ext. intros. now rewrite Hx, R0 by lia.
      + rewrite (R0 0) by lia. do 4 f_equal.
        apply loop_ext. intros. now rewrite !R0 by lia.
    - specialize (R1 eq_refl).
      destruct u; auto; cbn [fst snd]; destruct (Nat.eqb_spec j 0) as [->|Hj];
        rewrite ?(Hx 0), ?(Hx j), ?(R0 0) by lia; auto;
        try match goal with |- context [if _ =? _ then ?zj else V (S r) _] =>
             match goal with |- [_; zj] = [_; ?zj'] =>
             assert (zj = zj') as -> by (apply loop_ext; intros; rewrite ?Hx, ?R0 by lia; auto); generalize zj'; intros end end.
      all: repeat match goal with
           | |- [_; _] = [_; _] => first [f_equal; [|f_equal] | f_equal]
           end.
      all: repeat match goal with
           | |- loop _ _ _ _ = loop _ _ _ _ => apply loop_ext; intros
           | |- b_bin _ _ _ = b_bin _ _ _ => f_equal
           end; rewrite ?Hx, ?R0, ?R1 by lia; auto.
      all: try (match goal with |- context [if ?x =? ?y then _ else _] => idtac end;
                repeat match goal with |- context [if ?x =? ?y then _ else _] =>
                  destruct (Nat.eqb_spec x y) end;
                rewrite ?R1 by lia; auto).
      all: try (f_equal; [f_equal|]; apply loop_ext; intros; rewrite ?Hx, ?R0, ?R1 by lia; auto).
      all: try (apply loop_ext; intros; rewrite ?Hx, ?R0, ?R1 by lia; auto).
      all: repeat match goal with |- context [if ?p =? ?q then _ else _] =>
             destruct (Nat.eqb_spec p q) end; rewrite ?R1 by lia; auto.
    - auto.
    - auto.
    - destruct (j =? 0); auto. now rewrite Hx by lia.
    - cbn [var_args] in HA. f_equal. unfold cond_exp_code, vp.
      repeat match goal with |- context [Nat.testbit ?m ?k] =>
        let E := fresh "E" in destruct (Nat.testbit m k) eqn:E end;
      repeat match goal with |- context [V ?i ?k] =>
        rewrite (HA i) by (try lia; rewrite ?E, ?E0, ?E1, ?E2; cbn; auto 10) end; auto.
    - cbn [var_args] in HA. f_equal.
      rewrite (sum_rows_ext _ _ V V').
      + f_equal. apply sum_rows_ext. intros. apply HA; auto.
        eapply arg_range_incl; [|eassumption]. lia.
      + intros. apply HA; auto. eapply arg_range_incr; [|eassumption]. lia.
    - assert (forall k, k <= j -> V z1 k = V' z1 k) as Hz
        by (intros; apply HA; auto; rewrite in_app_iff; cbn; auto).
      assert (pget P x V = pget P x V') as ->
        by (destruct x; cbn; auto; apply HA; [cbn; auto|lia]).
      destruct (Nat.eqb_spec j 0); rewrite ?(Hy 0) by lia; auto.
      rewrite (Hz 1), (R0 (j - 1)) by lia. f_equal. f_equal.
      apply loop_ext. intros. now rewrite Hz, R0 by lia.
    - destruct (Nat.eqb_spec j 0); rewrite ?(Hx 0) by lia; auto.
      rewrite (R0 0), (Hx j) by lia. do 5 f_equal.
      apply loop_ext. intros. now rewrite !Hx, !R0 by lia.
    - assert (forall k, k <= j -> V z3 k = V' z3 k) as Hz
        by (intros; apply HA; auto; cbn; auto).
      destruct (Nat.eqb_spec j 0); rewrite ?(Hx 0) by lia; auto.
      f_equal. apply loop_ext. intros. now rewrite Hx, Hz by lia.
  Qed.
End Eqs.
