(** Taylor coefficients of the result of one elementary loop, over the real numbers. *)
From Coq Require Import Reals ZArith Lra Lia List Bool Arith.
From Coquelicot Require Import Coquelicot.
From Verif Require Import Base_Spec Op_Model Tape_Spec Tape_Model Tape_Proof Tape_Proof2 Sweep_Model Sweep_Eqs Sweep_Eqs2 Real_Base Tay_Calc.
Import ListNotations.
Open Scope R_scope.

(** ** loops as sums *)
Definition sumR (lo hi : nat) (f : nat -> R) : R := loop lo hi (fun k z => z + f k) 0.
Lemma lp_nil {A} lo hi (f : nat -> A -> A) z : (hi <= lo)%nat -> loop lo hi f z = z.
Proof. intros H. unfold loop. replace (Nat.sub hi lo) with 0%nat by lia. reflexivity. Qed.
Lemma lp_lst {A} lo hi (f : nat -> A -> A) z : (lo <= hi)%nat -> loop lo (S hi) f z = f hi (loop lo hi f z).
Proof.
  intros H. unfold loop. replace (Nat.sub (S hi) lo) with (Nat.sub hi lo + 1)%nat by lia.
  rewrite seq_app, fold_left_app. cbn. f_equal; try lia.
Qed.
Lemma lp_add lo hi f z : loop lo hi (fun k z => z + f k) z = z + sumR lo hi f.
Proof.
  unfold sumR. destruct (Nat.le_gt_cases lo hi) as [H|H]; [|rewrite !lp_nil by lia; ring].
  induction H; [rewrite !lp_nil by lia; ring|]. rewrite !lp_lst by auto. rewrite IHle. ring.
Qed.
Lemma lp_sub lo hi f z : loop lo hi (fun k z => z - f k) z = z - sumR lo hi f.
Proof.
  unfold sumR. destruct (Nat.le_gt_cases lo hi) as [H|H]; [|rewrite !lp_nil by lia; ring].
  induction H; [rewrite !lp_nil by lia; ring|]. rewrite !lp_lst by auto. rewrite IHle. ring.
Qed.
Lemma sumR_nil lo hi f : (hi <= lo)%nat -> sumR lo hi f = 0.
Proof. apply lp_nil. Qed.
Lemma sumR_lst lo hi f : (lo <= hi)%nat -> sumR lo (S hi) f = sumR lo hi f + f hi.
Proof. intros. unfold sumR. now rewrite lp_lst. Qed.
Lemma sumR_fst lo hi f : (lo < hi)%nat -> sumR lo hi f = f lo + sumR (S lo) hi f.
Proof.
  intros H. unfold sumR at 1. unfold loop. replace (Nat.sub hi lo) with (S (Nat.sub hi (S lo)))%nat by lia.
  change (loop (S lo) hi (fun k z => z + f k) (0 + f lo) = f lo + sumR (S lo) hi f). rewrite lp_add. ring.
Qed.
Lemma sumR_ext lo hi f g : (forall k, (lo <= k < hi)%nat -> f k = g k) -> sumR lo hi f = sumR lo hi g.
Proof. intros H. unfold sumR. apply loop_ext. intros. now rewrite H. Qed.
Lemma sumR_mul lo hi f c : sumR lo hi (fun k => c * f k) = c * sumR lo hi f.
Proof.
  destruct (Nat.le_gt_cases lo hi) as [H|H]; [|rewrite !sumR_nil by lia; ring].
  induction H; [rewrite !sumR_nil by lia; ring|]. rewrite !sumR_lst by auto. rewrite IHle. ring.
Qed.
Lemma sumR_minus lo hi f g : sumR lo hi (fun k => f k - g k) = sumR lo hi f - sumR lo hi g.
Proof.
  destruct (Nat.le_gt_cases lo hi) as [H|H]; [|rewrite !sumR_nil by lia; ring].
  induction H; [rewrite !sumR_nil by lia; ring|]. rewrite !sumR_lst by auto. rewrite IHle. ring.
Qed.
Lemma sumR_0 j f : sumR 0 (S j) f = sum_f_R0 f j.
Proof. induction j as [|j IH]; [unfold sumR; simpl; cbn; ring|]. rewrite sumR_lst by lia. now rewrite IH. Qed.
Lemma sumR_conv a c j : sumR 0 (S j) (fun k => a k * c (Nat.sub j k)) = conv a c j.
Proof. rewrite sumR_0. reflexivity. Qed.
Lemma sumR_convr a c j : sumR 0 (S j) (fun k => a (Nat.sub j k) * c k) = conv a c j.
Proof. rewrite conv_comm, <- sumR_conv. apply sumR_ext. intros; ring. Qed.
Lemma sumR_Dconv a c q : sumR 1 (S (S q)) (fun k => INR k * a k * c (Nat.sub (S q) k)) = conv (Dc a) c q.
Proof.
  transitivity (sumR 0 (S q) (fun k => Dc a k * c (Nat.sub q k))); [|apply sumR_conv].
  assert (forall p f, sumR 1 (S p) f = sumR 0 p (fun k => f (S k))) as E.
  { clear. intros p f. induction p as [|p IH]; [rewrite !sumR_nil by lia; auto|]. rewrite (sumR_lst 1 (S p)), (sumR_lst 0 p) by lia. now rewrite IH. }
  rewrite E. reflexivity.
Qed.

(** ** continuity near zero *)
Lemma D1_cont (x x' : R -> R) : D1 x x' -> continuous x 0.
Proof.
  intros H. apply (ex_derive_continuous (K:=R_AbsRing) (V:=R_NormedModule) x 0). exists (x' 0). exact (locally_singleton _ _ H).
Qed.
Lemma D1_gt x x' a : D1 x x' -> a < x 0 -> locally 0 (fun t => a < x t).
Proof. intros H L. apply (D1_cont x x' H (fun y => a < y)). now apply open_gt. Qed.
Lemma D1_lt x x' a : D1 x x' -> x 0 < a -> locally 0 (fun t => x t < a).
Proof. intros H L. apply (D1_cont x x' H (fun y => y < a)). now apply open_lt. Qed.
Lemma D1_ne x x' : D1 x x' -> x 0 <> 0 -> locally 0 (fun t => x t <> 0).
Proof. intros H L. apply loc_ne; auto. now apply D1_cont with x'. Qed.
Lemma all_loc (Q : R -> Prop) : (forall t, Q t) -> locally 0 Q.
Proof. intros H. apply filter_forall. auto. Qed.

Section Sub.
  Variable dis : nat -> R -> R.
  Variable nan : R.
  Notation b := (Rbase dis nan).
  Variable P : nat -> R.

  (** what is assumed of the arguments at zero: the function is differentiable there, and
      discontinuous choices do not change near zero *)
  Definition pgetf (p : pref) (Y : nat -> R -> R) (t : R) : R :=
    match p with Ppar i => P i | Pvar i => Y i t end.
  Definition cexp_true (c : nat) (l r : R) : bool :=
    match c with
    | 0%nat => R_cmp Clt l r | 1%nat => R_cmp Cle l r | 2%nat => R_cmp Ceq l r
    | 3%nat => R_cmp Cge l r | 4%nat => R_cmp Cgt l r | _ => true
    end.
  Lemma cond_exp_true c l r t f : cond_exp_code (b:=b) c l r t f = if cexp_true c l r then t else f.
  Proof. do 5 (destruct c as [|c]; [reflexivity|]). reflexivity. Qed.
  Definition cexp_choice (a : list nat) (Y : nat -> R -> R) (t : R) : bool :=
    let m := nth 1 a 0%nat in
    cexp_true (nth 0 a 0%nat) (vp (b:=b) m 0 P (fun i => Y i t) (nth 2 a 0%nat))
      (vp (b:=b) m 1 P (fun i => Y i t) (nth 3 a 0%nat)).
  Definition frozen {A} (f : R -> A) : Prop := locally 0 (fun t => f t = f 0).
  Definition sub_reg (s : sub) (Y : nat -> R -> R) : Prop :=
    match s with
    | SMulp (Pvar z) _ => frozen (Y z)
    | SDiv _ y | SDivp _ y => Y y 0 <> 0
    | SUn (Uabs | Usign) x => frozen (fun t => Rsgn (Y x t))
    | SUn (Ulog | Usqrt) x => 0 < Y x 0
    | SUn Ulog1p x => 0 < 1 + Y x 0
    | SPair (Uasin | Uacos | Uatanh) x => -1 < Y x 0 < 1
    | SPair Uacosh x => 1 < Y x 0
    | SPair Utan x => cos (Y x 0) <> 0
    | SDis k x => frozen (fun t => dis k (Y x t))
    | SCexp a => frozen (cexp_choice a Y)
    | SPowexp x y z1 => locally 0 (fun t => 0 < pgetf x Y t /\ Y z1 t = Y y t * ln (pgetf x Y t))
    | SPowvp x p => pow_reg (Y x 0) (P p)
    | SErf _ x z3 => locally 0 (fun t => Y z3 t = erf_c * exp (0 - Y x t * Y x t))
    | _ => True
    end.

  (** the order zero equation of result [m] along the curve *)
  Definition val_sub (Y : nat -> R -> R) (r : nat) (s : sub) (m : nat) : Prop :=
    locally 0 (fun t => Y (r + m)%nat t = nth m (coef (b:=b) INR P s r (fun i _ => Y i t) 0) 0).

  (** ** one lemma for each kind of recurrence *)
  Lemma rec_exp n x (X : nat -> R) z (Z : nat -> R) : tay n x X -> z 0 = Z 0%nat -> locally 0 (fun t => z t = exp (x t)) ->
    (forall q, (q < n)%nat -> Dc Z q = conv (Dc X) Z q) -> tay n z Z.
  Proof.
    intros TX Z0 L E. apply tay_mulode with x X z Z; auto.
    intros x' Dx. apply D1_ext with (fun t => exp (x t)) (fun t => exp (x t) * x' t).
    - generalize L. apply filter_imp. auto.
    - generalize L. apply filter_imp. intros t ->. ring.
    - apply D1_comp with (fun _ => True); auto; [now apply all_loc|intros; apply der_exp].
  Qed.
  Lemma rec_sqrt n x (X : nat -> R) z (Z : nat -> R) : tay n x X -> z 0 = Z 0%nat -> 0 < x 0 -> locally 0 (fun t => z t = sqrt (x t)) ->
    (forall q, (q < n)%nat -> conv (Dc Z) Z q = Dc X q / 2) -> tay n z Z.
  Proof.
    intros TX Z0 PX L E. apply tay_divode with x X (fun t => 2 * z t) (fun k => 2 * Z k); auto.
    - intros x' Dx. apply D1_ext with (fun t => sqrt (x t)) (fun t => / (2 * sqrt (x t)) * x' t).
      + generalize L. apply filter_imp. auto.
      + generalize L. apply filter_imp. intros t ->. unfold Rdiv. ring.
      + apply (D1_comp sqrt (fun x => / (2 * sqrt x)) x x' (fun x => 0 < x)); auto; [now apply D1_gt with x'|apply der_sqrt].
    - intros m _ TZ. now apply tay_scal.
    - intros _. rewrite <- Z0, (locally_singleton _ _ L). pose proof (sqrt_lt_R0 _ PX). lra.
    - intros k Hk. transitivity (2 * conv (Dc Z) Z k); [|rewrite E by auto; field].
      unfold conv. rewrite scal_sum. apply sum_eq. intros; ring.
  Qed.
  (** z' = x' / w *)
  Lemma rec_int n x (X : nat -> R) w (W : nat -> R) z (Z : nat -> R) (h : R -> R) (h' : R -> R) (Q : R -> Prop) :
    tay n x X -> tay n w W -> z 0 = Z 0%nat -> locally 0 (fun t => z t = h (x t)) ->
    (forall x', D1 x x' -> locally 0 (fun t => Q (x t))) -> (forall x, Q x -> is_derive h x (h' x)) ->
    locally 0 (fun t => h' (x t) = / w t) -> w 0 <> 0 ->
    (forall q, (q < n)%nat -> conv (Dc Z) W q = Dc X q) -> tay n z Z.
  Proof.
    intros TX TW Z0 L LQ DH LW NW E. apply tay_divode with x X w W; auto.
    - intros x' Dx. apply D1_ext with (fun t => h (x t)) (fun t => h' (x t) * x' t).
      + generalize L. apply filter_imp. auto.
      + generalize LW. apply filter_imp. intros t ->. unfold Rdiv. ring.
      + apply D1_comp with Q; eauto.
    - intros m Hm _. apply tay_le' with n; auto; lia.
    - intros _. now rewrite <- (tay_0 _ _ _ TW).
  Qed.
  (** z' = x' * w *)
  Lemma rec_mul n x (X : nat -> R) w (W : nat -> R) z (Z : nat -> R) (h : R -> R) (h' : R -> R) (Q : R -> Prop) :
    tay n x X -> (forall m, (m < n)%nat -> tay m z Z -> tay m w W) -> z 0 = Z 0%nat -> locally 0 (fun t => z t = h (x t)) ->
    (forall x', D1 x x' -> locally 0 (fun t => Q (x t))) -> (forall x, Q x -> is_derive h x (h' x)) ->
    locally 0 (fun t => h' (x t) = w t) ->
    (forall q, (q < n)%nat -> Dc Z q = conv (Dc X) W q) -> tay n z Z.
  Proof.
    intros TX TW Z0 L LQ DH LW E. apply tay_mulode with x X w W; auto.
    intros x' Dx. apply D1_ext with (fun t => h (x t)) (fun t => h' (x t) * x' t).
    - generalize L. apply filter_imp. auto.
    - generalize LW. apply filter_imp. intros t ->. ring.
    - apply D1_comp with Q; eauto.
  Qed.
  (** s' = x' c, c' = e x' s *)
  Lemma rec_pair n x (X : nat -> R) s (S : nat -> R) c (C : nat -> R) (e : R) (hs hc : R -> R) :
    tay n x X -> s 0 = S 0%nat -> c 0 = C 0%nat -> locally 0 (fun t => s t = hs (x t)) -> locally 0 (fun t => c t = hc (x t)) ->
    (forall x, is_derive hs x (hc x)) -> (forall x, is_derive hc x (e * hs x)) ->
    (forall q, (q < n)%nat -> Dc S q = conv (Dc X) C q) -> (forall q, (q < n)%nat -> Dc C q = e * conv (Dc X) S q) ->
    tay n s S /\ tay n c C.
  Proof.
    intros TX S0 C0 Ls Lc Ds Dcc ES EC.
    cut (forall m, (m <= n)%nat -> tay m s S /\ tay m c C); [auto|].
    induction m as [|m IH]; intros Hm; [split; split; auto|].
    destruct IH as [Ts Tc]; [lia|].
    destruct n as [|n]; [lia|]. destruct (tay_D1 _ _ _ TX) as (x' & Dx & Tx).
    assert (tay m x' (Dc X)) as Tx' by (apply tay_le' with n; auto; lia).
    split.
    - apply tay_S with (fun t => x' t * c t); auto.
      + apply (D1_ext (fun t => hs (x t)) (fun t => hc (x t) * x' t)).
        * generalize Ls. apply filter_imp. auto.
        * generalize Lc. apply filter_imp. intros t ->. ring.
        * apply (D1_comp hs hc x x' (fun _ => True)); auto; now apply all_loc.
      + apply tay_coef with (conv (Dc X) C); [intros; symmetry; apply ES; lia|now apply tay_mult].
    - apply tay_S with (fun t => e * (x' t * s t)); auto.
      + apply (D1_ext (fun t => hc (x t)) (fun t => (fun x => e * hs x) (x t) * x' t)).
        * generalize Lc. apply filter_imp. auto.
        * generalize Ls. apply filter_imp. intros t ->. ring.
        * apply (D1_comp hc (fun x => e * hs x) x x' (fun _ => True)); auto; now apply all_loc.
      + apply tay_coef with (fun k => e * conv (Dc X) S k); [intros; symmetry; apply EC; lia|now apply tay_scal, tay_mult].
  Qed.

  Ltac ev := cbn [coef nth Nat.eqb b_bin b_un b0 b1 Rbase R_bin R_un bt pget] in *.
  Lemma INR_S_ne q : INR (S q) <> 0.
  Proof. apply not_0_INR. lia. Qed.
  Hint Resolve INR_S_ne : core.
  Lemma INR_2 : INR 2 = 2.
  Proof. simpl. ring. Qed.
  Lemma loc_0 (Q : R -> Prop) : locally 0 Q -> Q 0.
  Proof. apply locally_singleton. Qed.

  (** rewriting the loops of the code into products of series *)
  Lemma expE (X Z : nat -> R) q : Z (S q) =
      loop 2 (S (S q)) (fun k z => z + INR k * X k * Z (Nat.sub (S q) k)) (X 1%nat * Z (Nat.sub (S q) 1)) / INR (S q) ->
    Dc Z q = conv (Dc X) Z q.
  Proof.
    intros H. unfold Dc at 1. rewrite H, lp_add, <- sumR_Dconv, (sumR_fst 1) by lia.
    simpl (INR 1). field. auto.
  Qed.
  Lemma logE (X Z : nat -> R) d q : d <> 0 -> Z (S q) =
      (loop 1 (S q) (fun k z => z - INR k * Z k * X (Nat.sub (S q) k)) 0 / INR (S q) + X (S q)) / d ->
    conv (Dc Z) (fun k => match k with 0%nat => d | _ => X k end) q = Dc X q.
  Proof.
    intros Hd H. rewrite <- sumR_Dconv, sumR_lst by lia. rewrite Nat.sub_diag.
    rewrite (sumR_ext 1 (S q) _ (fun k => INR k * Z k * X (Nat.sub (S q) k))).
    2:{ intros k Hk. destruct (Nat.sub (S q) k) eqn:E; [lia|auto]. }
    unfold Dc. rewrite H, lp_sub. field. auto.
  Qed.
  Lemma sqrtE (U Z : nat -> R) q : Z 0%nat <> 0 -> Z (S q) =
      (loop 1 (S q) (fun k z => z - INR k * Z k * Z (Nat.sub (S q) k)) 0 / INR (S q) + U (S q) / 2) / Z 0%nat ->
    conv (Dc Z) Z q = Dc U q / 2.
  Proof.
    intros Hd H. rewrite <- sumR_Dconv, sumR_lst by lia. rewrite Nat.sub_diag.
    unfold Dc. rewrite H. rewrite lp_sub. field. auto.
  Qed.
  Lemma conv_0r (a c d : nat -> R) q : (forall k, c k = d k) -> conv a c q = conv a d q.
  Proof. intros; apply conv_ext; auto. Qed.

  Lemma tay_lin n F C z (Z : nat -> R) : tay n F C -> locally 0 (fun t => z t = F t) -> z 0 = Z 0%nat ->
    (forall q, (q < n)%nat -> Z (S q) = C (S q)) -> tay n z Z.
  Proof.
    intros T L Z0 E. apply tay_ext with F C; auto.
    - generalize L. apply filter_imp. auto.
    - intros [|k] Hk; [|symmetry; apply E; lia]. rewrite <- Z0, (loc_0 _ L). symmetry. now apply tay_0 with n.
  Qed.
  Definition c0 (x : R) : nat -> R := fun k => match k with 0%nat => x | _ => 0 end.
  Lemma tay_c0 n x : tay n (fun _ => x) (c0 x).
  Proof. apply tay_const; auto. intros k Hk. destruct k; auto. lia. Qed.
  Lemma sum_rows_tay (f : R -> R -> R) (e : R) l Y V n : (forall u v, f u v = u + e * v) ->
    List.Forall (fun x => tay n (Y x) (V x)) l -> forall F C, tay n F C ->
    tay n (fun t => sum_rows (b:=b) f l (fun i _ => Y i t) 0 (F t)) (fun k => sum_rows (b:=b) f l V k (C k)).
  Proof.
    intros Hf. induction l as [|i l IH]; intros HA F C T; cbn [sum_rows]; auto.
    apply Forall_cons_iff in HA. destruct HA as [A1 A2].
    apply (IH A2 (fun t => f (F t) (Y i t)) (fun k => f (C k) (V i k))).
    apply tay_ext with (fun t => F t + e * Y i t) (fun k => C k + e * V i k).
    - apply all_loc. intros; auto.
    - intros; auto.
    - apply tay_plus; auto. now apply tay_scal.
  Qed.

  Lemma conv_scal_r a c e q : conv a (fun k => e * c k) q = e * conv a c q.
  Proof. unfold conv. rewrite scal_sum. apply sum_eq. intros; ring. Qed.
  Lemma arcE n x r Y V U (Uc : nat -> R) (h h' : R -> R) (Q : R -> Prop) (e : R) :
    tay n (Y x) (V x) -> tay n U Uc -> 0 < U 0 -> e * e = 1 ->
    locally 0 (fun t => Y r t = sqrt (U t)) -> locally 0 (fun t => Y (S r) t = h (Y x t)) ->
    Y r 0 = V r 0%nat -> Y (S r) 0 = V (S r) 0%nat ->
    (forall x', D1 (Y x) x' -> locally 0 (fun t => Q (Y x t))) -> (forall y, Q y -> is_derive h y (h' y)) ->
    locally 0 (fun t => h' (Y x t) = e * / sqrt (U t)) ->
    (forall q, (q < n)%nat -> V r (S q) = (loop 1 (S q) (fun k w => w - INR k * V r k * V r (S q - k)%nat) 0 / INR (S q) + Uc (S q) / 2) / V r 0%nat) ->
    (forall q, (q < n)%nat -> V (S r) (S q) = (loop 1 (S q) (fun k w => w - INR k * V (S r) k * V r (S q - k)%nat) 0 / INR (S q) + e * V x (S q)) / V r 0%nat) ->
    tay n (Y r) (V r) /\ tay n (Y (S r)) (V (S r)).
  Proof.
    intros TX TU PU He HV0 HV1 H00 H01 LQ DH LH Q0 Q1.
    assert (V r 0%nat <> 0) as NR by (rewrite <- H00, (loc_0 _ HV0); pose proof (sqrt_lt_R0 _ PU); lra).
    assert (e <> 0) as Ne by (intros ->; lra).
    assert (tay n (Y r) (V r)) as TR by (apply (rec_sqrt n U Uc); auto; intros q Hq; apply sqrtE; auto).
    split; auto.
    apply (rec_int n (Y x) (V x) (fun t => e * Y r t) (fun k => e * V r k) _ _ h h' Q); auto.
    - now apply tay_scal.
    - generalize (filter_and _ _ LH HV0). apply filter_imp. intros t [-> ->].
      rewrite Rinv_mult. f_equal. apply Rmult_eq_reg_l with e; auto. rewrite He. field. auto.
    - rewrite H00. intros K. apply Rmult_integral in K. destruct K; auto.
    - intros q Hq. rewrite conv_scal_r.
      assert (conv (Dc (V (S r))) (V r) q = e * Dc (V x) q) as ->.
      2:{ rewrite <- Rmult_assoc, He. ring. }
      rewrite <- sumR_Dconv, sumR_lst by lia. rewrite Nat.sub_diag. unfold Dc. rewrite Q1 by auto. rewrite lp_sub. field. auto.
  Qed.
  Lemma atnE n x r Y V (h h' : R -> R) (Q : R -> Prop) (e : R) :
    tay n (Y x) (V x) -> e * e = 1 -> 1 + e * (Y x 0 * Y x 0) <> 0 ->
    locally 0 (fun t => Y r t = 1 + e * (Y x t * Y x t)) -> locally 0 (fun t => Y (S r) t = h (Y x t)) ->
    Y r 0 = V r 0%nat -> Y (S r) 0 = V (S r) 0%nat ->
    (forall x', D1 (Y x) x' -> locally 0 (fun t => Q (Y x t))) -> (forall y, Q y -> is_derive h y (h' y)) ->
    (forall y, h' y = / (1 + e * (y * y))) ->
    (forall q, (q < n)%nat -> V r (S q) = e * (2 * V x 0%nat * V x (S q) + sumR 1 (S q) (fun k => V x k * V x (S q - k)%nat))) ->
    (forall q, (q < n)%nat -> V (S r) (S q) = (loop 1 (S q) (fun k w => w - INR k * V (S r) k * V r (S q - k)%nat) 0 / INR (S q) + V x (S q)) / V r 0%nat) ->
    tay n (Y r) (V r) /\ tay n (Y (S r)) (V (S r)).
  Proof.
    intros TX He NU HV0 HV1 H00 H01 LQ DH LH Q0 Q1.
    assert (V r 0%nat <> 0) as NR by (now rewrite <- H00, (loc_0 _ HV0)).
    assert (tay n (Y r) (V r)) as TR.
    { apply (tay_lin n _ _ _ _ (tay_plus n _ _ _ _ (tay_c0 n 1) (tay_scal n e _ _ (tay_mult n _ _ _ _ TX TX)))); auto.
      intros q Hq. rewrite Q0, <- sumR_conv, (sumR_fst 0), (sumR_lst 1 (S q)), Nat.sub_diag, Nat.sub_0_r by (auto; lia). cbn [c0]. ring. }
    split; auto.
    apply (rec_int n (Y x) (V x) (Y r) (V r) _ _ h h' Q); auto.
    - generalize HV0. apply filter_imp. intros t ->. apply LH.
    - now rewrite H00.
    - intros q Hq. rewrite <- sumR_Dconv, sumR_lst by lia. rewrite Nat.sub_diag. unfold Dc. rewrite Q1 by auto. rewrite lp_sub. field. auto.
  Qed.
  Lemma tnZ (Z W : nat -> R) q (zq : R) : Z (S q) = zq ->
    W (S q) = loop 1 (S (S q)) (fun k w => w + (if (k =? S q)%nat then zq else Z k) * (if (S q - k =? S q)%nat then zq else Z (S q - k)%nat)) (Z 0%nat * zq) ->
    W (S q) = conv Z Z (S q).
  Proof.
    intros E ->. rewrite lp_add, <- sumR_conv, (sumR_fst 0) by lia. rewrite Nat.sub_0_r, E. f_equal.
    apply sumR_ext. intros k Hk. f_equal.
    - destruct (k =? S q) eqn:K; auto. apply Nat.eqb_eq in K. subst. auto.
    - destruct (S q - k =? S q) eqn:K; auto. apply Nat.eqb_eq in K. lia.
  Qed.
  Lemma tnE n x r Y V (h h' : R -> R) (Q : R -> Prop) (e : R) :
    tay n (Y x) (V x) -> 
    locally 0 (fun t => Y r t = h (Y x t) * h (Y x t)) -> locally 0 (fun t => Y (S r) t = h (Y x t)) ->
    Y r 0 = V r 0%nat -> Y (S r) 0 = V (S r) 0%nat ->
    (forall x', D1 (Y x) x' -> locally 0 (fun t => Q (Y x t))) -> (forall y, Q y -> is_derive h y (h' y)) ->
    (forall y, h' y = 1 + e * (h y * h y)) ->
    (forall q, (q < n)%nat -> V r (S q) = conv (V (S r)) (V (S r)) (S q)) ->
    (forall q, (q < n)%nat -> V (S r) (S q) = V x (S q) + e * sumR 1 (S (S q)) (fun k => INR k * V x k * V r (S q - k)%nat) / INR (S q)) ->
    tay n (Y r) (V r) /\ tay n (Y (S r)) (V (S r)).
  Proof.
    intros TX HV0 HV1 H00 H01 LQ DH LH Q0 Q1.
    assert (forall m, (m <= n)%nat -> tay m (Y (S r)) (V (S r)) -> tay m (Y r) (V r)) as TR.
    { intros m Hm T. apply (tay_lin m _ _ _ _ (tay_mult m _ _ _ _ T T)); auto.
      - generalize (filter_and _ _ HV0 HV1). apply filter_imp. intros t [-> ->]. auto.
      - intros q Hq. apply Q0. lia. }
    assert (tay n (Y (S r)) (V (S r))) as TS; [|split; auto].
    apply (rec_mul n (Y x) (V x) (fun t => 1 + e * Y r t) (fun k => c0 1 k + e * V r k) _ _ h h' Q); auto.
    - intros m Hm T. apply tay_plus; [apply tay_c0|]. apply tay_scal. apply TR; auto. lia.
    - generalize HV0. apply filter_imp. intros t ->. apply LH.
    - intros q Hq. transitivity (Dc (V x) q + e * conv (Dc (V x)) (V r) q).
      + rewrite <- sumR_Dconv. unfold Dc. rewrite Q1 by auto. field. auto.
      + rewrite <- conv_scal_r. unfold conv. rewrite (sum_eq (fun k => Dc (V x) k * (c0 1 (q - k) + e * V r (q - k)%nat))
          (fun k => Dc (V x) k * c0 1 (q - k) + Dc (V x) k * (e * V r (q - k)%nat))) by (intros; ring).
        rewrite sum_plus. f_equal. destruct q as [|q]; [cbn; ring|].
        rewrite tech5, Nat.sub_diag. cbn [c0].
        rewrite (sum_eq _ (fun _ => 0)); [rewrite sum_cte; ring|]. intros k Hk.
        destruct (S q - k)%nat eqn:E; [lia|]. cbn [c0]. ring.
  Qed.

  Lemma sub_tay s r Y V n : sub_ok s ->
    List.Forall (fun x => tay n (Y x) (V x)) (sub_args s) ->
    (forall m, (m < sub_res s)%nat -> val_sub Y r s m) ->
    (forall m, (m < sub_res s)%nat -> Y (r + m)%nat 0 = V (r + m)%nat 0%nat) ->
    (forall j, (1 <= j <= n)%nat -> sat_sub (b:=b) INR P V r s j) ->
    sub_reg s Y -> forall m, (m < sub_res s)%nat -> tay n (Y (r + m)%nat) (V (r + m)%nat).
  Proof.
    intros OK HA HV H0 HS HR.
    assert (forall q, (q < n)%nat -> forall m, (m < sub_res s)%nat ->
      V (r + m)%nat (S q) = nth m (coef (b:=b) INR P s r V (S q)) 0) as HQ by (intros q Hq m Hm; apply HS; auto; lia).
    clear HS. unfold val_sub in HV.
    destruct s as [x y|p y|x y|p y|x p|x y|p y|x y|p y|x p|x y|p y|x p|u x|u x|p|p|c x|a|a|x y z1|x p|c x z3];
      cbn [sub_args sub_reg sub_res pref_var app] in *; ev.
    all: repeat match goal with H : List.Forall _ (_ :: _) |- _ => apply Forall_cons_iff in H; destruct H end.
    all: try (intros m Hm; assert (m = 0%nat) as -> by lia; specialize (HV 0%nat (le_n _)); specialize (H0 0%nat (le_n _));
              assert (forall q, (q < n)%nat -> V (r + 0)%nat (S q) = _) as HQ' by (intros q Hq; exact (HQ q Hq 0%nat (le_n _)));
              clear HQ; rename HQ' into HQ; clear Hm; cbn [nth] in *; rewrite Nat.add_0_r in *).
    - (* add *) apply (tay_lin n _ _ _ _ (tay_plus n _ _ _ _ H H1)); auto.
    - apply (tay_lin n _ _ _ _ (tay_plus n _ _ _ _ (tay_c0 n (P p)) H)); auto. intros q Hq. rewrite HQ by auto. cbn; ring.
    - apply (tay_lin n _ _ _ _ (tay_minus n _ _ _ _ H H1)); auto.
    - apply (tay_lin n _ _ _ _ (tay_minus n _ _ _ _ (tay_c0 n (P p)) H)); auto. intros q Hq. rewrite HQ by auto. cbn; ring.
    - apply (tay_lin n _ _ _ _ (tay_minus n _ _ _ _ H (tay_c0 n (P p)))); auto. intros q Hq. rewrite HQ by auto. cbn; ring.
    - (* mul *) apply (tay_lin n _ _ _ _ (tay_mult n _ _ _ _ H H1)); auto.
      + generalize HV. apply filter_imp. intros t ->. cbn. ring.
      + intros q Hq. rewrite HQ by auto. rewrite lp_add, sumR_convr. ring.
    - apply Forall_app in HA. destruct HA as [HP HA]. apply Forall_cons_iff in HA. destruct HA as [HA _].
      set (c := match p with Ppar i => P i | Pvar i => Y i 0 end).
      apply (tay_lin n _ _ _ _ (tay_scal n c _ _ HA)); auto.
      + destruct p as [i|i]; subst c; auto. generalize (filter_and _ _ HV HR). apply filter_imp. cbn.
        intros t [-> ->]. auto.
      + intros q Hq. rewrite HQ by auto. destruct p as [i|i]; subst c; cbn; auto.
        apply Forall_cons_iff in HP. now rewrite (tay_0 _ _ _ (proj1 HP)).
    - apply (tay_lin n _ _ _ _ (tay_mult n _ _ _ _ H H1)); auto.
      + generalize HV. apply filter_imp. intros t ->. cbn. ring.
      + intros q Hq. rewrite HQ by auto. rewrite lp_add, sumR_convr. ring.
    - apply (tay_lin n _ _ _ _ (tay_scal n (P p) _ _ H)); auto.
    - apply (tay_lin n _ _ _ _ (tay_scal n (P p) _ _ H)).
      + generalize HV. apply filter_imp. intros t ->. ring.
      + auto.
      + intros q Hq. rewrite HQ by auto. ring.
    - (* div *)
      apply tay_loc with (fun t => Y x t / Y y t); [generalize HV; apply filter_imp; intros t ->; cbn; auto|].
      apply (tay_div n _ _ _ _ _ H H1 HR). intros k Hk.
      assert (V y 0%nat <> 0) as Ny by (now rewrite <- (tay_0 _ _ _ H1)).
      destruct k as [|k].
      + unfold conv. cbn. rewrite <- H0, (loc_0 _ HV). cbn. rewrite (tay_0 _ _ _ H), (tay_0 _ _ _ H1). field. auto.
      + rewrite <- sumR_convr, sumR_fst by lia. rewrite Nat.sub_0_r, HQ, lp_sub by lia. field. auto.
    - apply tay_loc with (fun t => P p / Y y t); [generalize HV; apply filter_imp; intros t ->; cbn; auto|].
      apply (tay_div n _ _ _ _ _ (tay_c0 n (P p)) H HR). intros k Hk.
      assert (V y 0%nat <> 0) as Ny by (now rewrite <- (tay_0 _ _ _ H)).
      destruct k as [|k].
      + unfold conv. cbn. rewrite <- H0, (loc_0 _ HV). cbn. rewrite (tay_0 _ _ _ H). field. auto.
      + rewrite <- sumR_convr, sumR_fst by lia. rewrite Nat.sub_0_r, HQ, lp_sub by lia. cbn. field. auto.
    - apply (tay_lin n _ _ _ _ (tay_scal n (/ P p) _ _ H)).
      + generalize HV. apply filter_imp. intros t ->. unfold Rdiv; ring.
      + auto.
      + intros q Hq. rewrite HQ by auto. unfold Rdiv; ring.
    - (* one result, one argument *)
      destruct u; ev.
      all: try (apply (tay_lin n _ _ _ _ (tay_c0 n 0)); [exact HV|exact H0|intros q Hq; rewrite HQ by auto; reflexivity]).
      + (* neg *) apply (tay_lin n _ _ _ _ (tay_opp n _ _ H)); auto.
      + (* abs *) apply (tay_lin n _ _ _ _ (tay_scal n (Rsgn (Y x 0)) _ _ H)); auto.
        * generalize (filter_and _ _ HV HR). apply filter_imp. intros t [-> ->]. auto.
        * intros q Hq. rewrite HQ by auto. now rewrite (tay_0 _ _ _ H).
      + (* sign *) apply (tay_lin n _ _ _ _ (tay_c0 n (Rsgn (Y x 0)))); auto.
        generalize (filter_and _ _ HV HR). apply filter_imp. intros t [-> ->]. auto.
      + (* exp *) apply (rec_exp n (Y x) (V x)); auto. intros q Hq. apply expE. now apply HQ.
      + (* expm1 *)
        apply (rec_mul n (Y x) (V x) (fun t => Y r t + 1) (fun k => V r k + c0 1 k) _ _ (fun x => exp x - 1) exp (fun _ => True)); auto.
        * intros m Hm T. apply tay_plus; auto. apply tay_c0.
        * intros; now apply all_loc.
        * intros y _. evar_last; [apply (is_derive_minus exp (fun _ => 1)); [apply der_exp|apply is_derive_const]|]. apply minus_zero_r.
        * generalize HV. apply filter_imp. intros t ->. ring.
        * intros q Hq. specialize (HQ q Hq). rewrite lp_add in HQ.
          rewrite <- sumR_Dconv, sumR_lst, Nat.sub_diag by lia.
          rewrite (sumR_ext 1 (S q) _ (fun k => INR k * V x k * V r (Nat.sub (S q) k))).
          2:{ intros k Hk. destruct (Nat.sub (S q) k) eqn:E; [lia|]. cbn [c0]. ring. }
          assert (sumR 1 (S q) (fun k => INR k * V x k * V r (Nat.sub (S q) k)) + INR (S q) * V x (S q) * V r 0%nat =
                  V x 1%nat * V r (Nat.sub (S q) 1) + sumR 2 (S (S q)) (fun k => INR k * V x k * V r (Nat.sub (S q) k))) as E.
          { pose proof (sumR_lst 1 (S q) (fun k => INR k * V x k * V r (Nat.sub (S q) k)) ltac:(lia)) as E1.
            cbv beta in E1. rewrite Nat.sub_diag in E1. rewrite <- E1, sumR_fst by lia. simpl (INR 1). ring. }
          unfold Dc. rewrite HQ, <- E. cbn [c0]. field. auto.
      + (* log *)
        assert (V x 0%nat <> 0) as NX by (rewrite <- (tay_0 _ _ _ H); lra).
        apply (rec_int n (Y x) (V x) (Y x) (V x) _ _ ln (fun x => / x) (fun x => 0 < x)); auto; try lra.
        * intros x' Dx. now apply D1_gt with x'.
        * apply der_ln.
        * now apply all_loc.
        * intros q Hq. rewrite <- (logE (V x) (V r) (V x 0%nat) q NX).
          -- apply conv_ext; auto. intros [|k]; auto.
          -- rewrite HQ by auto. f_equal. destruct q as [|q]; cbn [Nat.eqb].
             ++ rewrite lp_nil by lia. field. auto.
             ++ rewrite !lp_sub, (sumR_fst 1) by lia. simpl (INR 1). f_equal. unfold Rdiv. ring.
      + (* log1p *)
        assert (1 + V x 0%nat <> 0) as NX by (rewrite <- (tay_0 _ _ _ H); lra).
        apply (rec_int n (Y x) (V x) (fun t => 1 + Y x t) (fun k => c0 1 k + V x k) _ _ (fun x => ln (1 + x)) (fun x => / (1 + x)) (fun x => 0 < 1 + x)); auto; try lra.
        * apply tay_plus; auto. apply tay_c0.
        * intros x' Dx. assert (-1 < Y x 0) as G by lra. generalize (D1_gt _ _ _ Dx G). apply filter_imp. intros; lra.
        * intros y Hy. evar_last; [apply (is_derive_comp ln (fun x => 1 + x)); [now apply der_ln|auto_derive; [exact I|reflexivity]]|].
          unfold scal; simpl. unfold mult; simpl. ring.
        * now apply all_loc.
        * intros q Hq. rewrite <- (logE (V x) (V r) (1 + V x 0%nat) q NX).
          -- apply conv_ext; auto. intros [|k] _; cbn; auto. ring.
          -- rewrite HQ by auto. f_equal. destruct q as [|q]; cbn [Nat.eqb].
             ++ rewrite lp_nil by lia. field. auto.
             ++ rewrite !lp_sub, (sumR_fst 1) by lia. simpl (INR 1). f_equal. unfold Rdiv. ring.
      + (* sqrt *)
        assert (V r 0%nat <> 0) as NR by (rewrite <- H0, (loc_0 _ HV); pose proof (sqrt_lt_R0 _ HR); lra).
        apply (rec_sqrt n (Y x) (V x)); auto. intros q Hq. apply sqrtE; auto.
    - (* pair *)
      cut (tay n (Y r) (V r) /\ tay n (Y (S r)) (V (S r))).
      { intros [A B] m Hm. destruct m as [|[|m]]; [now rewrite Nat.add_0_r|now rewrite Nat.add_1_r|lia]. }
      pose proof (HV 0%nat ltac:(lia)) as HV0. pose proof (HV 1%nat ltac:(lia)) as HV1. clear HV.
      pose proof (H0 0%nat ltac:(lia)) as H00. pose proof (H0 1%nat ltac:(lia)) as H01. clear H0.
      assert (forall q, (q < n)%nat -> V (r + 0)%nat (S q) = _) as Q0 by (intros q Hq; exact (HQ q Hq 0%nat ltac:(lia))).
      assert (forall q, (q < n)%nat -> V (r + 1)%nat (S q) = _) as Q1 by (intros q Hq; exact (HQ q Hq 1%nat ltac:(lia))).
      clear HQ. rewrite Nat.add_0_r in *. rewrite Nat.add_1_r in *.
      destruct u; ev.
      all: try (split; [apply (tay_lin n _ _ _ _ (tay_c0 n 0)); [exact HV0|exact H00|intros q Hq; rewrite Q0 by auto; reflexivity]
                       |apply (tay_lin n _ _ _ _ (tay_c0 n 0)); [exact HV1|exact H01|intros q Hq; rewrite Q1 by auto; reflexivity]]).
      + (* acos *)
        apply (arcE n x r Y V (fun t => 1 - Y x t * Y x t) (fun k => c0 1 k - conv (V x) (V x) k) acos (fun y => - / sqrt (1 - y * y)) (fun y => -1 < y < 1) (-1)); auto; try lra.
        * apply tay_minus; [apply tay_c0|now apply tay_mult].
        * nra.
        * intros x' Dx. apply (filter_and _ _ (D1_gt _ _ _ Dx (proj1 HR)) (D1_lt _ _ _ Dx (proj2 HR))).
        * apply der_acos.
        * apply all_loc. intros; ring.
        * intros q Hq. rewrite Q0 by auto. rewrite (lp_sub 0), sumR_conv. cbn [c0]. rewrite INR_2. f_equal.
        * intros q Hq. rewrite Q1 by auto. f_equal. ring.
      + (* acosh *)
        apply (arcE n x r Y V (fun t => Y x t * Y x t - 1) (fun k => conv (V x) (V x) k - c0 1 k) arccosh (fun y => / sqrt (y * y - 1)) (fun y => 1 < y) 1); auto; try lra.
        * apply tay_minus; [now apply tay_mult|apply tay_c0].
        * nra.
        * intros x' Dx. now apply (D1_gt _ _ _ Dx).
        * apply der_acosh.
        * apply all_loc. intros; ring.
        * intros q Hq. rewrite Q0 by auto. rewrite (lp_add 0), sumR_conv. cbn [c0]. rewrite INR_2. f_equal. f_equal. f_equal. ring.
        * intros q Hq. rewrite Q1 by auto. f_equal. ring.
      + (* asin *)
        apply (arcE n x r Y V (fun t => 1 - Y x t * Y x t) (fun k => c0 1 k - conv (V x) (V x) k) asin (fun y => / sqrt (1 - y * y)) (fun y => -1 < y < 1) 1); auto; try lra.
        * apply tay_minus; [apply tay_c0|now apply tay_mult].
        * nra.
        * intros x' Dx. apply (filter_and _ _ (D1_gt _ _ _ Dx (proj1 HR)) (D1_lt _ _ _ Dx (proj2 HR))).
        * apply der_asin.
        * apply all_loc. intros; ring.
        * intros q Hq. rewrite Q0 by auto. rewrite (lp_sub 0), sumR_conv. cbn [c0]. rewrite INR_2. f_equal.
        * intros q Hq. rewrite Q1 by auto. f_equal. ring.
      + (* asinh *)
        apply (arcE n x r Y V (fun t => 1 + Y x t * Y x t) (fun k => c0 1 k + conv (V x) (V x) k) arcsinh (fun y => / sqrt (1 + y * y)) (fun y => True) 1); auto; try lra.
        * apply tay_plus; [apply tay_c0|now apply tay_mult].
        * nra.
        * intros x' Dx. now apply all_loc.
        * intros; apply der_asinh.
        * apply all_loc. intros; ring.
        * intros q Hq. rewrite Q0 by auto. rewrite (lp_add 0), sumR_conv. cbn [c0]. rewrite INR_2. f_equal.
        * intros q Hq. rewrite Q1 by auto. f_equal. ring.
      + (* atan *)
        apply (atnE n x r Y V atan (fun y => / (1 + y * y)) (fun y => True) 1); auto; try lra.
        * nra.
        * generalize HV0. apply filter_imp. intros t ->. ring.
        * intros x' Dx. now apply all_loc.
        * intros; apply der_atan.
        * intros y. f_equal. ring.
        * intros q Hq. rewrite Q0 by auto. rewrite lp_add, INR_2. ring.
      + (* atanh *)
        apply (atnE n x r Y V arctanh (fun y => / (1 - y * y)) (fun y => -1 < y < 1) (-1)); auto; try lra.
        * nra.
        * generalize HV0. apply filter_imp. intros t ->. ring.
        * intros x' Dx. apply (filter_and _ _ (D1_gt _ _ _ Dx (proj1 HR)) (D1_lt _ _ _ Dx (proj2 HR))).
        * apply der_atanh.
        * intros y. f_equal. ring.
        * intros q Hq. rewrite Q0 by auto. rewrite lp_sub, INR_2. ring.
      + (* cos *)
        destruct (rec_pair n (Y x) (V x) (Y r) (V r) (Y (S r)) (V (S r)) (-1) sin cos) as [A B]; auto.
        * apply der_sin.
        * intros y. replace (-1 * sin y) with (- sin y) by ring. apply der_cos.
        * intros q Hq. rewrite <- sumR_Dconv. unfold Dc. rewrite Q0 by auto. rewrite lp_add. field. auto.
        * intros q Hq. rewrite <- sumR_Dconv. unfold Dc. rewrite Q1 by auto. rewrite lp_sub. field. auto.
      + (* cosh *)
        destruct (rec_pair n (Y x) (V x) (Y r) (V r) (Y (S r)) (V (S r)) 1 sinh cosh) as [A B]; auto.
        * apply der_sinh.
        * intros y. rewrite Rmult_1_l. apply der_cosh.
        * intros q Hq. rewrite <- sumR_Dconv. unfold Dc. rewrite Q0 by auto. rewrite lp_add. field. auto.
        * intros q Hq. rewrite <- sumR_Dconv. unfold Dc. rewrite Q1 by auto. rewrite lp_add. field. auto.
      + (* sin *)
        destruct (rec_pair n (Y x) (V x) (Y (S r)) (V (S r)) (Y r) (V r) (-1) sin cos) as [A B]; auto.
        * apply der_sin.
        * intros y. replace (-1 * sin y) with (- sin y) by ring. apply der_cos.
        * intros q Hq. rewrite <- sumR_Dconv. unfold Dc. rewrite Q1 by auto. rewrite lp_add. field. auto.
        * intros q Hq. rewrite <- sumR_Dconv. unfold Dc. rewrite Q0 by auto. rewrite lp_sub. field. auto.
      + (* sinh *)
        destruct (rec_pair n (Y x) (V x) (Y (S r)) (V (S r)) (Y r) (V r) 1 sinh cosh) as [A B]; auto.
        * apply der_sinh.
        * intros y. rewrite Rmult_1_l. apply der_cosh.
        * intros q Hq. rewrite <- sumR_Dconv. unfold Dc. rewrite Q1 by auto. rewrite lp_add. field. auto.
        * intros q Hq. rewrite <- sumR_Dconv. unfold Dc. rewrite Q0 by auto. rewrite lp_add. field. auto.
      + (* tan *)
        apply (tnE n x r Y V tan (fun y => 1 + tan y * tan y) (fun y => cos y <> 0) 1); auto.
        * intros x' Dx. apply (D1_ne (fun t => cos (Y x t)) (fun t => - sin (Y x t) * x' t)); auto.
          apply (D1_comp cos (fun y => - sin y) (Y x) x' (fun _ => True)); auto; [now apply all_loc|intros; apply der_cos].
        * apply der_tan.
        * intros; ring.
        * intros q Hq. apply (tnZ _ _ q _ (Q1 q Hq)). rewrite Q0 by auto. reflexivity.
        * intros q Hq. rewrite Q1 by auto. rewrite lp_add. f_equal.
          rewrite (sumR_ext 1 (S (S q)) _ (fun k => / INR (S q) * (INR k * V x k * V r (S q - k)%nat))) by (intros; unfold Rdiv; ring).
          rewrite sumR_mul. unfold Rdiv. ring.
      + (* tanh *)
        apply (tnE n x r Y V tanh (fun y => 1 - tanh y * tanh y) (fun y => True) (-1)); auto.
        * intros x' Dx. now apply all_loc.
        * intros; apply der_tanh.
        * intros; ring.
        * intros q Hq. apply (tnZ _ _ q _ (Q1 q Hq)). rewrite Q0 by auto. reflexivity.
        * intros q Hq. rewrite Q1 by auto. rewrite lp_sub. 
          rewrite (sumR_ext 1 (S (S q)) _ (fun k => / INR (S q) * (INR k * V x k * V r (S q - k)%nat))) by (intros; unfold Rdiv; ring).
          rewrite sumR_mul. unfold Rdiv. ring.
    - (* parameter *) apply (tay_lin n _ _ _ _ (tay_c0 n (P p))); auto.
    - apply (tay_lin n _ _ _ _ (tay_c0 n (ln (P p)))); auto.
    - (* discrete *) apply (tay_lin n _ _ _ _ (tay_c0 n (dis c (Y x 0)))); auto.
      generalize (filter_and _ _ HV HR). apply filter_imp. cbn. intros t [-> ->]. auto.
    - (* conditional expression *)
      unfold frozen, cexp_choice in HR. cbn [var_args] in HA.
      set (a0 := nth 0 a 0%nat) in *. set (a1 := nth 1 a 0%nat) in *. set (a2 := nth 2 a 0%nat) in *. set (a3 := nth 3 a 0%nat) in *.
      set (a4 := nth 4 a 0%nat) in *. set (a5 := nth 5 a 0%nat) in *.
      repeat rewrite Forall_app in HA. destruct HA as (A2 & A3 & A4 & A5).
      assert (forall bit i, List.Forall (fun x => tay n (Y x) (V x)) (if Nat.testbit a1 bit then [i] else []) ->
        vp (b:=b) a1 bit P (fun i => V i 0%nat) i = vp (b:=b) a1 bit P (fun i => Y i 0) i) as EV.
      { intros bit i HF. unfold vp. destruct (Nat.testbit a1 bit); auto. apply Forall_cons_iff in HF. now rewrite (tay_0 _ _ _ (proj1 HF)). }
      set (br := fun bit i t => if Nat.testbit a1 bit then Y i t else P i).
      set (bc := fun bit i k => if Nat.testbit a1 bit then V i k else c0 (P i) k).
      assert (forall bit i, List.Forall (fun x => tay n (Y x) (V x)) (if Nat.testbit a1 bit then [i] else []) -> tay n (br bit i) (bc bit i)) as TB.
      { intros bit i HF. unfold br, bc. destruct (Nat.testbit a1 bit); [now apply Forall_cons_iff in HF|apply tay_c0]. }
      set (ch := cexp_true a0 (vp (b:=b) a1 0 P (fun i => Y i 0) a2) (vp (b:=b) a1 1 P (fun i => Y i 0) a3)) in *.
      assert (tay n (fun t => if ch then br 2%nat a4 t else br 3%nat a5 t) (fun k => if ch then bc 2%nat a4 k else bc 3%nat a5 k)) as TT.
      { destruct ch; apply TB; auto. }
      apply (tay_lin n _ _ _ _ TT).
      + generalize (filter_and _ _ HV HR). apply filter_imp. intros t [-> E]. rewrite cond_exp_true, E. unfold ch, br. reflexivity.
      + auto.
      + intros q Hq. rewrite HQ by auto. rewrite cond_exp_true, EV, EV by auto. reflexivity.
    - (* cumulative sum *)
      cbn [var_args] in HA. unfold sub_ok in OK.
      set (g := fun k => nth k a 0%nat) in *. change (nth 1 a 0%nat) with (g 1%nat) in *. change (nth 2 a 0%nat) with (g 2%nat) in *.
      change (nth 0 a 0%nat) with (g 0%nat) in *. change (nth 3 a 0%nat) with (g 3%nat) in *. change (nth 4 a 0%nat) with (g 4%nat) in *.
      rewrite Forall_forall in HA.
      assert (List.Forall (fun x => tay n (Y x) (V x)) (arg_range a 5 (g 1%nat))) as A1.
      { apply Forall_forall. intros i Hi. apply HA. revert Hi. apply arg_range_incl. auto. }
      assert (List.Forall (fun x => tay n (Y x) (V x)) (arg_range a (g 1%nat) (g 2%nat))) as A2.
      { apply Forall_forall. intros i Hi. apply HA. revert Hi. apply arg_range_incr. auto. }
      match type of HV with locally 0 (fun t => _ = sum_rows _ _ _ _ (sum_rows _ _ _ _ ?z)) => set (z0 := z) in * end.
      assert (forall u v : R, u + v = u + 1 * v) as E1 by (intros; ring).
      assert (forall u v : R, u - v = u + (-1) * v) as E2 by (intros; ring).
      pose proof (sum_rows_tay (fun z v => z - v) (-1) _ Y V n E2 A2 _ _
        (sum_rows_tay (fun z v => z + v) 1 _ Y V n E1 A1 _ _ (tay_c0 n z0))) as TT.
      apply (tay_lin n _ _ _ _ TT); auto.
    - (* last step of pow *)
      apply Forall_app in HA. destruct HA as [HP HA]. apply Forall_cons_iff in HA. destruct HA as [HY HA]. apply Forall_cons_iff in HA. destruct HA as [HZ _].
      apply (rec_exp n (Y z1) (V z1)); auto.
      + generalize (filter_and _ _ HV HR). apply filter_imp. intros t [-> [PX ->]].
        assert (pget (b:=b) P x (fun i _ => Y i t) = pgetf x Y t) as -> by (destruct x; reflexivity).
        unfold Rpow. destruct (Rlt_dec 0 (pgetf x Y t)); [|lra]. reflexivity.
      + intros q Hq. apply expE. apply HQ. auto.
    - (* power with a parameter *)
      assert (V x 0%nat <> 0) as NX by (rewrite <- (tay_0 _ _ _ H); destruct HR; lra).
      destruct n as [|n]; [split; auto|]. destruct (tay_D1 _ _ _ H) as (x' & Dx & Tx).
      assert (locally 0 (fun t => pow_reg (Y x t) (P p))) as LP.
      { destruct HR as [HR|[HR HI]].
        - generalize (D1_gt _ _ _ Dx HR). apply filter_imp. left. auto.
        - generalize (D1_lt _ _ _ Dx HR). apply filter_imp. right. auto. }
      apply tay_ode with (fun t => P p * (x' t * Y r t) / Y x t); auto.
      + apply (D1_ext (fun t => Rpow (Y x t) (P p)) (fun t => (P p * Rpow (Y x t) (P p) / Y x t) * x' t)).
        * generalize HV. apply filter_imp. intros t ->. auto.
        * generalize HV. apply filter_imp. intros t ->. unfold Rdiv. ring.
        * apply (D1_comp (fun y => Rpow y (P p)) (fun y => P p * Rpow y (P p) / y) (Y x) x' (fun y => pow_reg y (P p))); auto.
          intros y Hy. now apply der_Rpow.
      + intros m Hm T.
        assert (tay m x' (Dc (V x))) as Tx' by (apply tay_le' with n; auto; lia).
        apply (tay_div m _ (Y x) (Dc (V r)) (fun k => P p * conv (Dc (V x)) (V r) k) (V x)).
        * apply tay_scal, tay_mult; auto.
        * apply tay_le' with (S n); auto; lia.
        * now rewrite (tay_0 _ _ _ H).
        * intros q Hq. rewrite <- !sumR_Dconv, !(sumR_lst 1 (S q)), Nat.sub_diag by lia.
          rewrite HQ by lia. unfold ceq0. cbn [b_cmp Rbase R_cmp b0].
          assert (Reqb (V x 0%nat) 0 = false) as -> by (unfold Reqb; destruct (Req_EM_T (V x 0%nat) 0); auto; lra).
          rewrite lp_add.
          rewrite (sumR_ext 1 (S q) (fun k => INR k * (P p * V x k * V r (S q - k)%nat - V r k * V x (S q - k)%nat))
             (fun k => P p * (INR k * V x k * V r (S q - k)%nat) - INR k * V r k * V x (S q - k)%nat)) by (intros; ring).
          rewrite sumR_minus, sumR_mul. field. auto.
    - (* erf *)
      assert (forall y, is_derive Rerf y (erf_c * exp (0 - y * y))) as DE by apply der_erf.
      set (e := if c then -1 else 1).
      apply (rec_mul n (Y x) (V x) (fun t => e * Y z3 t) (fun k => e * V z3 k) _ _ (if c then fun y => 1 - Rerf y else Rerf) (fun y => e * (erf_c * exp (0 - y * y))) (fun _ => True)); auto.
      + intros m Hm _. apply tay_scal. apply tay_le' with n; auto. lia.
      + generalize HV. apply filter_imp. intros t ->. destruct c; reflexivity.
      + intros; now apply all_loc.
      + intros y _. unfold e. destruct c; [|rewrite Rmult_1_l; auto].
        evar_last; [apply (is_derive_minus (fun _ => 1) Rerf); [apply is_derive_const|apply DE]|].
        unfold minus, plus, opp, zero; simpl. ring.
      + generalize HR. apply filter_imp. intros t ->. auto.
      + intros q Hq. unfold Dc at 1. rewrite HQ by auto. rewrite lp_add.
        rewrite conv_scal_r, <- sumR_Dconv.
        rewrite (sumR_ext 1 (S (S q)) _ (fun k => (e / INR (S q)) * (INR k * V x k * V z3 (S q - k)%nat))).
        * rewrite sumR_mul. field. auto.
        * intros k Hk. unfold e. destruct c; unfold Rdiv; ring.
  Qed.
End Sub.
