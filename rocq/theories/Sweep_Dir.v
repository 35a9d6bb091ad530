(** The multiple direction code computes the same coefficient as the any order
    code, in exact arithmetic. *)
From Coq Require Import Ring Field ZArith List Bool Arith Lia.
From Verif Require Import Base_Spec Op_Model Tape_Spec Tape_Model Tape_Proof Tape_Proof2 Sweep_Model Sweep_Eqs Field_Spec.
Import ListNotations.

Section Dir.
  Context {b : base} (bnat : nat -> bt b) (FL : field_laws b bnat).
  Notation T := (bt b).
  Variable P : nat -> T.
  Notation "x + y" := (b_bin Badd x y).
  Notation "x - y" := (b_bin Bsub x y).
  Notation "x * y" := (b_bin Bmul x y).
  Notation "x / y" := (b_bin Bdiv x y).
  Notation "- x" := (b_un Uneg x).
  Notation azmul := (b_bin Bazmul).
  Notation two := (bnat 2).
  Definition inv (x : T) : T := b1 / x.
  Add Ring bring : (fl_ring b bnat FL).

  Definition sum (lo hi : nat) (f : nat -> T) : T := loop lo hi (fun k z => z + f k) b0.

  Lemma loop_nil {A} lo hi (f : nat -> A -> A) z : (hi <= lo)%nat -> loop lo hi f z = z.
  Proof. intros H. unfold loop. replace (Nat.sub hi lo) with 0%nat by lia. reflexivity. Qed.
  Lemma loop_fst {A} lo hi (f : nat -> A -> A) z : (lo < hi)%nat -> loop lo hi f z = loop (S lo) hi f (f lo z).
  Proof. intros H. unfold loop. replace (Nat.sub hi lo) with (S (Nat.sub hi (S lo)))%nat by lia. reflexivity. Qed.
  Lemma loop_lst {A} lo hi (f : nat -> A -> A) z : (lo <= hi)%nat -> loop lo (S hi) f z = f hi (loop lo hi f z).
  Proof.
    intros H. unfold loop. replace (Nat.sub (S hi) lo) with (Nat.sub hi lo + 1)%nat by lia.
    rewrite seq_app, fold_left_app. cbn. f_equal; try lia.
  Qed.
  Lemma loop_ind2 {A} lo hi (f : nat -> A -> A) (Q : nat -> A -> Prop) z :
    (lo <= hi)%nat -> Q lo z -> (forall k w, (lo <= k < hi)%nat -> Q k w -> Q (S k) (f k w)) -> Q hi (loop lo hi f z).
  Proof.
    intros H H0 HS. remember (Nat.sub hi lo) as m eqn:Em. revert hi H Em HS. induction m as [|m IH]; intros hi H Em HS.
    - replace hi with lo in * by lia. rewrite loop_nil by lia. auto.
    - destruct hi as [|hi]; [lia|]. rewrite loop_lst by lia. apply HS; [lia|]. apply IH; try lia. intros. apply HS; auto. lia.
  Qed.

  Lemma loop_add lo hi f z : loop lo hi (fun k z => z + f k) z = z + sum lo hi f.
  Proof.
    unfold sum. destruct (Nat.le_gt_cases lo hi) as [H|H]; [|rewrite !loop_nil by lia; ring].
    induction H; [rewrite !loop_nil by lia; ring|]. rewrite !loop_lst by auto. rewrite IHle. ring.
  Qed.
  Lemma loop_sub lo hi f z : loop lo hi (fun k z => z - f k) z = z - sum lo hi f.
  Proof.
    unfold sum. destruct (Nat.le_gt_cases lo hi) as [H|H]; [|rewrite !loop_nil by lia; ring].
    induction H; [rewrite !loop_nil by lia; ring|]. rewrite !loop_lst by auto. rewrite IHle. ring.
  Qed.
  Lemma sum_nil lo hi f : (hi <= lo)%nat -> sum lo hi f = b0.
  Proof. apply loop_nil. Qed.
  Lemma sum_lst lo hi f : (lo <= hi)%nat -> sum lo (S hi) f = sum lo hi f + f hi.
  Proof. intros. unfold sum. now rewrite loop_lst. Qed.
  Lemma sum_fst lo hi f : (lo < hi)%nat -> sum lo hi f = f lo + sum (S lo) hi f.
  Proof. intros. unfold sum. rewrite loop_fst by auto. rewrite loop_add. unfold sum. ring. Qed.
  Lemma sum_ext lo hi f g : (forall k, (lo <= k < hi)%nat -> f k = g k) -> sum lo hi f = sum lo hi g.
  Proof. intros H. unfold sum. apply loop_ext. intros. now rewrite H. Qed.
  Lemma sum_mul lo hi f c : sum lo hi (fun k => c * f k) = c * sum lo hi f.
  Proof.
    destruct (Nat.le_gt_cases lo hi) as [H|H]; [|rewrite !sum_nil by lia; ring].
    induction H; [rewrite !sum_nil by lia; ring|]. rewrite !sum_lst by auto. rewrite IHle. ring.
  Qed.

  Lemma nat1 : bnat 1 = b1. Proof. rewrite (fl_natS _ _ FL), (fl_nat0 _ _ FL). ring. Qed.
  Lemma divE (x y : T) : x / y = x * inv y. Proof. apply (fl_div _ _ FL). Qed.
  Lemma invm x y : inv (x * y) = inv x * inv y. Proof. apply (fl_invm _ _ FL). Qed.
  Lemma inv1 : inv b1 = b1.
  Proof. transitivity (inv b1 * b1); [ring|]. apply (fl_inv _ _ FL). rewrite <- nat1. apply (fl_char _ _ FL). Qed.
  Lemma nat_inv q : (0 < q)%nat -> inv (bnat q) * bnat q = b1.
  Proof. intros H. apply (fl_inv _ _ FL). destruct q; [lia|]. apply (fl_char _ _ FL). Qed.
  Lemma nat2 : bnat 2 = b1 + b1. Proof. rewrite (fl_natS _ _ FL), nat1. ring. Qed.

  Lemma div_scale (N X S d : T) : inv N * N = b1 -> (N * X - S) / (N * d) = (X - S / N) / d.
  Proof.
    intros H. rewrite !divE, invm.
    transitivity ((inv N * N) * X * inv d - S * inv N * inv d); [ring|rewrite H; ring].
  Qed.
  Lemma div_scale0 (N X S : T) : inv N * N = b1 -> (N * X + S) / N = X + S / N.
  Proof. intros H. rewrite !divE. transitivity ((inv N * N) * X + S * inv N); [ring|rewrite H; ring]. Qed.
  Lemma div_sub (x y z : T) : (x - y) / z = x / z - y / z. Proof. rewrite !divE. ring. Qed.
  Lemma div_add (x y z : T) : (x + y) / z = x / z + y / z. Proof. rewrite !divE. ring. Qed.
  Lemma div_opp (x z : T) : - x / z = - (x / z). Proof. rewrite !divE. ring. Qed.
  Lemma div_0 (z : T) : b0 / z = b0. Proof. rewrite !divE. ring. Qed.
  Lemma sum_div lo hi f c : sum lo hi (fun k => f k / c) = sum lo hi f / c.
  Proof.
    rewrite divE. transitivity (inv c * sum lo hi f); [|ring]. rewrite <- sum_mul. apply sum_ext. intros. rewrite divE. ring.
  Qed.

  Lemma coef_dir_eq s r V q : (0 < q)%nat -> coef_dir bnat P s r V q = coef bnat P s r V q.
  Proof.
    intros Hq. destruct q as [|q]; [lia|]. clear Hq.
    assert (inv (bnat (S q)) * bnat (S q) = b1) as NI by (apply nat_inv; lia).
    assert (forall x, inv (bnat (S q)) * (bnat (S q) * x) = x) as NI2 by (intros; transitivity ((inv (bnat (S q)) * bnat (S q)) * x); [ring|rewrite NI; ring]).
    assert (inv two * two = b1) as TI by (apply nat_inv; lia).
    destruct s as [x y|p y|x y|p y|x p|x y|p y|x y|p y|x p|x y|p y|x p|u x|u x|p|p|c x|a|a|x y z1|x p|c x z3];
      cbn [coef coef_dir Nat.eqb]; rewrite ?(fl_azmul _ _ FL); auto.
    - f_equal. rewrite !loop_add, (sum_fst 0), (sum_lst 1 (S q)) by lia. rewrite Nat.sub_diag, Nat.sub_0_r. ring.
    - f_equal. rewrite !loop_add, (sum_fst 0), (sum_lst 1 (S q)) by lia. rewrite !(fl_azmul _ _ FL), Nat.sub_diag, Nat.sub_0_r. ring.
    - f_equal. rewrite !loop_sub, (sum_lst 1 (S q)) by lia. rewrite Nat.sub_diag. f_equal. ring.
    - f_equal. rewrite !loop_sub, (sum_lst 1 (S q)) by lia. rewrite Nat.sub_diag. f_equal. ring.
    - destruct u; auto; f_equal.
      1,2: rewrite !loop_add; set (f := fun k => bnat k * V x k * V r (Nat.sub (S q) k));
           assert (f 1%nat = V x 1 * V r (Nat.sub (S q) 1)) as E1 by (unfold f; rewrite nat1; ring);
           assert (f (S q) = bnat (S q) * V x (S q) * V r 0) as E2 by (unfold f; rewrite Nat.sub_diag; ring);
           rewrite <- E1, <- E2, <- (sum_fst 1) by lia; rewrite (sum_lst 1 (S q)) by lia.
      { f_equal. ring. } { f_equal. f_equal. ring. }
      1,2: rewrite !loop_sub; set (f := fun k => bnat k * V r k * V x (Nat.sub (S q) k));
           rewrite ?(div_scale _ _ _ _ NI);
           try (replace (bnat (S q) + bnat (S q) * V x 0) with (bnat (S q) * (b1 + V x 0)) by ring; rewrite (div_scale _ _ _ _ NI));
           (destruct q as [|q]; cbn [Nat.eqb]; [rewrite sum_nil, div_0 by lia; f_equal; ring|]);
           f_equal; rewrite (sum_fst 1) by lia; unfold f at 1; rewrite nat1, !divE; ring.
    - destruct u; auto.
      all: try match goal with |- context [@loop T] => rewrite ?loop_add, ?loop_sub end.
      1-4: rewrite (sum_fst 0), (sum_lst 1 (S q)) by lia; rewrite Nat.sub_diag, Nat.sub_0_r; rewrite ?divE;
           match goal with |- context [?a + (?s + ?c)] => replace (a + (s + c)) with (two * V x (S q) * V x 0 + s) by (rewrite nat2; ring) end;
           f_equal; [|f_equal]; ring [NI TI].
      1,2: rewrite !divE, invm; f_equal; [|f_equal]; ring [NI].
      1-4: rewrite !(sum_lst 1 (S q)) by lia; rewrite Nat.sub_diag; rewrite ?divE;
           f_equal; [|f_equal]; ring [NI].
      + set (zj := V x (S q) + sum 1 (S (S q)) (fun k => bnat k * V x k * V r (Nat.sub (S q) k) / bnat (S q))).
        assert ((bnat (S q) * (V x (S q) + V x (S q) * V r 0) + sum 1 (S q) (fun k => bnat k * V x k * V r (Nat.sub (S q) k))) /
                bnat (S q) = zj) as ->.
        { unfold zj. rewrite sum_div, (sum_lst 1 (S q)) by lia. rewrite Nat.sub_diag, !divE. ring [NI]. }
        f_equal. rewrite (sum_lst 1 (S q)) by lia. rewrite Nat.eqb_refl, Nat.sub_diag. cbn [Nat.eqb].
        rewrite nat2. rewrite (sum_ext 1 (S q) (fun k => V (S r) k * V (S r) (Nat.sub (S q) k))
          (fun k => (if (k =? S q)%nat then zj else V (S r) k) * (if (Nat.sub (S q) k =? S q)%nat then zj else V (S r) (Nat.sub (S q) k)))).
        2:{ intros k Hk. destruct (Nat.eqb_spec k (S q)); [lia|]. destruct (Nat.eqb_spec (Nat.sub (S q) k) (S q)); [lia|]. auto. }
        ring.
      + set (zj := V x (S q) - sum 1 (S (S q)) (fun k => bnat k * V x k * V r (Nat.sub (S q) k) / bnat (S q))).
        assert ((bnat (S q) * (V x (S q) - V x (S q) * V r 0) - sum 1 (S q) (fun k => bnat k * V x k * V r (Nat.sub (S q) k))) /
                bnat (S q) = zj) as ->.
        { unfold zj. rewrite sum_div, (sum_lst 1 (S q)) by lia. rewrite Nat.sub_diag, !divE. ring [NI]. }
        f_equal. rewrite (sum_lst 1 (S q)) by lia. rewrite Nat.eqb_refl, Nat.sub_diag. cbn [Nat.eqb].
        rewrite nat2. rewrite (sum_ext 1 (S q) (fun k => V (S r) k * V (S r) (Nat.sub (S q) k))
          (fun k => (if (k =? S q)%nat then zj else V (S r) k) * (if (Nat.sub (S q) k =? S q)%nat then zj else V (S r) (Nat.sub (S q) k)))).
        2:{ intros k Hk. destruct (Nat.eqb_spec k (S q)); [lia|]. destruct (Nat.eqb_spec (Nat.sub (S q) k) (S q)); [lia|]. auto. }
        ring.
    - f_equal. rewrite !loop_add; set (f := fun k => bnat k * V z1 k * V r (Nat.sub (S q) k)).
      assert (f 1%nat = V z1 1 * V r (Nat.sub (S q) 1)) as E1 by (unfold f; rewrite nat1; ring).
      assert (f (S q) = bnat (S q) * V z1 (S q) * V r 0) as E2 by (unfold f; rewrite Nat.sub_diag; ring).
      rewrite <- E1, <- E2, <- (sum_fst 1) by lia; rewrite (sum_lst 1 (S q)) by lia. f_equal. ring.
    - f_equal. rewrite !loop_add, (sum_lst 1 (S q)) by lia. rewrite Nat.sub_diag, divE.
      transitivity ((if c then - b1 else b1) * (inv (bnat (S q)) * bnat (S q)) * V z3 0 * V x (S q) +
        sum 1 (S q) (fun k => (if c then - b1 else b1) * (bnat k / bnat (S q)) * V x k * V z3 (Nat.sub (S q) k))).
      + rewrite NI. ring.
      + ring.
  Qed.
End Dir.
