(** C37: CSumOp in forward mode (all orders, one and many directions) and in reverse mode *)
From Coq Require Import Reals Lra Lia List Bool Arith FunctionalExtensionality.
From Verif Require Import Base_Spec Op_Model Tape_Spec Tape_Model Sweep_Model Sweep_Eqs Drv_Model Real_Base Csum_Spec.
Import ListNotations.
Open Scope nat_scope.

Lemma range_at (l1 l2 l3 : list nat) lo hi : lo = length l1 -> hi = lo + length l2 -> arg_range (l1 ++ l2 ++ l3) lo hi = l2.
Proof.
  intros -> ->. unfold arg_range. replace (length l1 + length l2 - length l1) with (length l2) by lia.
  rewrite skipn_app, skipn_all, Nat.sub_diag. cbn [app skipn]. rewrite firstn_app, firstn_all, Nat.sub_diag. cbn. apply app_nil_r.
Qed.
Section Csum.
  Variable dis : nat -> R -> R.
  Variable nan : R.
  Notation b := (Rbase dis nan).
  Variable P : nat -> R.
  Context (s0 : nat) (av sv ap sp : list nat) (iv : nat).
  Notation A := (csum_arg s0 av sv ap sp).

  Lemma r_av : arg_range A 5 (nth 1 A 0) = av.
  Proof. unfold csum_arg. cbn [nth app]. apply (range_at [_; _; _; _; _]); reflexivity. Qed.
  Lemma r_sv : arg_range A (nth 1 A 0) (nth 2 A 0) = sv.
  Proof. unfold csum_arg. cbn [nth app]. apply (range_at ([_; _; _; _; _] ++ av)); rewrite ?app_length; reflexivity. Qed.
  Lemma r_ap : arg_range A (nth 2 A 0) (nth 3 A 0) = ap.
  Proof.
    unfold csum_arg. cbn [nth app]. rewrite (app_assoc av sv). apply (range_at ([_; _; _; _; _] ++ av ++ sv)); rewrite ?app_length; cbn [length]; lia.
  Qed.
  Lemma r_sp : arg_range A (nth 3 A 0) (nth 4 A 0) = sp.
  Proof.
    unfold csum_arg. cbn [nth app]. rewrite (app_assoc sv ap), (app_assoc av). apply (range_at ([_; _; _; _; _] ++ av ++ sv ++ ap)); rewrite ?app_length; cbn [length]; lia.
  Qed.

  Lemma fold_add (f : nat -> R) l : forall z, fold_left (fun z i => (z + f i)%R) l z = (z + sum_at f l)%R.
  Proof. induction l as [|i l IH]; intros z; cbn; [ring|]. rewrite IH. unfold sum_at. ring. Qed.
  Lemma fold_sub (f : nat -> R) l : forall z, fold_left (fun z i => (z - f i)%R) l z = (z - sum_at f l)%R.
  Proof. induction l as [|i l IH]; intros z; cbn; [ring|]. rewrite IH. unfold sum_at. ring. Qed.
  Lemma rows_add l (V : nat -> nat -> R) j : forall z, sum_rows (b:=b) (fun z v => (z + v)%R) l V j z = (z + sum_at (fun v => V v j) l)%R.
  Proof. induction l as [|i l IH]; intros z; cbn [sum_rows]; [unfold sum_at; cbn; symmetry; apply Rplus_0_r|]. etransitivity; [apply IH|]. unfold sum_at. cbn. apply Rplus_assoc. Qed.
  Lemma rows_sub l (V : nat -> nat -> R) j : forall z, sum_rows (b:=b) (fun z v => (z - v)%R) l V j z = (z - sum_at (fun v => V v j) l)%R.
  Proof. induction l as [|i l IH]; intros z; cbn [sum_rows]; [unfold sum_at; cbn; symmetry; apply Rminus_0_r|]. etransitivity; [apply IH|]. unfold sum_at. cbn. lra. Qed.

  Lemma csum_value r (V : nat -> nat -> R) k : coef (b:=b) INR P (SCsum A) r V k = [csum_coef P V s0 av sv ap sp k].
  Proof.
    cbn [coef]. rewrite r_av, r_sv, r_ap, r_sp. change (nth 0 A 0) with s0. f_equal.
    etransitivity; [apply rows_sub|]. etransitivity; [apply (f_equal (fun z => z - _)%R), rows_add|].
    unfold csum_coef. destruct (Nat.eqb_spec k 0) as [->|]; [|reflexivity].
    etransitivity; [apply (f_equal (fun z => z + _ - _)%R), fold_sub|]. apply (f_equal (fun z => z + _ - _)%R). rewrite fold_add. reflexivity.
  Qed.

  (** forward, orders lo..up: the coefficients lo..up of the result are those of the sum;
      nothing else changes *)
  Theorem csum_forward : forall cc lo up k (s : fstq b), Forall (fun v => v < iv) (av ++ sv) -> lo <= up ->
    exists s', step_any (b:=b) INR P cc lo up (mkIns CSumOp A iv) k s = Some s' /\
      (forall j, lo <= j <= up -> q_V s' iv j = csum_coef P (q_V s) s0 av sv ap sp j) /\
      (forall v j, v <> iv \/ j < lo \/ up < j -> q_V s' v j = q_V s v j).
  Proof.
    intros cc lo up k s B Hlu. cbn [step_any subs]. eexists. split; [reflexivity|]. cbn [fold_left setV q_V].
    unfold run_sub. cbn [fst snd].
    assert (forall n V, (forall v j, (v <> iv \/ j < lo \/ lo + n <= j) -> loop lo (lo + n) (fun j V => put_row (b:=b) V iv j (coef (b:=b) INR P (SCsum A) iv V j)) V v j = V v j) /\
      (forall j, lo <= j < lo + n -> loop lo (lo + n) (fun j V => put_row (b:=b) V iv j (coef (b:=b) INR P (SCsum A) iv V j)) V iv j = csum_coef P V s0 av sv ap sp j)) as K.
    { induction n as [|n IH]; intros V.
      - rewrite Nat.add_0_r. rewrite loop_none by lia. split; [auto|intros; lia].
      - replace (lo + S n) with (S (lo + n)) by lia. rewrite loop_last by lia. destruct (IH V) as [I1 I2].
        set (V1 := loop lo (lo + n) _ V) in *. rewrite csum_value. cbn [put_row].
        assert (csum_coef P V1 s0 av sv ap sp (lo + n) = csum_coef P V s0 av sv ap sp (lo + n)) as CE.
        { unfold csum_coef. f_equal; [f_equal|]; unfold sum_at; f_equal; apply map_ext_in; intros v Hv; apply I1; left;
            rewrite Forall_forall in B; specialize (B v ltac:(apply in_or_app; auto)); lia. }
        split.
        + intros v j H. unfold pset. destruct (Nat.eqb_spec v iv), (Nat.eqb_spec j (lo + n)); cbn [andb]; try (apply I1; lia). lia.
        + intros j H. unfold pset. rewrite Nat.eqb_refl. destruct (Nat.eqb_spec j (lo + n)) as [->|]; cbn [andb]; [exact CE|]. apply I2. lia. }
    replace (S up) with (lo + (S up - lo)) by lia. destruct (K (S up - lo) (q_V s)) as [K1 K2]. split.
    - intros j Hj. apply K2. lia.
    - intros v j H. apply K1. lia.
  Qed.

  (** zero order sweep *)
  Theorem csum_forward_zero : forall cc k (s : fst0 b),
    exists s', step0 (b:=b) P cc (mkIns CSumOp A iv) k s = Some s' /\
      f_V s' iv = csum_coef P (fun v _ => f_V s v) s0 av sv ap sp 0 /\ (forall v, v <> iv -> f_V s' v = f_V s v).
  Proof.
    intros cc k s. cbn [step0 sem0]. eexists. split; [reflexivity|]. cbn [f_V put_res length Nat.sub].
    replace (iv + 1 - 1) with iv by lia. split.
    - unfold fset. rewrite Nat.eqb_refl. unfold csum0. cbn zeta. rewrite r_av, r_sv, r_ap, r_sp. change (nth 0 A 0) with s0.
      etransitivity; [apply fold_sub|]. etransitivity; [apply (f_equal (fun z => z - _)%R), fold_add|].
      unfold csum_coef. cbn [Nat.eqb]. etransitivity; [apply (f_equal (fun z => z + _ - _)%R), fold_sub|]. apply (f_equal (fun z => z + _ - _)%R). rewrite fold_add. reflexivity.
    - intros v H. unfold fset. destruct (Nat.eqb_spec v iv); [contradiction|auto].
  Qed.

  (** forward, order q > 0, R directions *)
  Theorem csum_forward_dir : forall q R0 l2v (D : nat -> nat -> nat -> R), 0 < q ->
    exists D', step_dir (b:=b) INR P q R0 l2v (mkIns CSumOp A iv) D = Some D' /\
      (forall ell, ell < R0 -> D' iv q ell = csum_coef P (fun v k => if k =? 0 then D v 0 0 else D v k ell) s0 av sv ap sp q) /\
      (forall v k ell, v <> iv \/ k <> q \/ R0 <= ell -> D' v k ell = D v k ell).
  Proof.
    intros q R0 l2v D Hq. cbn [step_dir subs fold_left]. eexists. split; [reflexivity|]. unfold run_sub_dir. cbn [fst snd coef_dir put_row].
    rewrite r_av, r_sv. split.
    - intros ell Hl. rewrite (proj2 (Nat.ltb_lt _ _) Hl). unfold pset. rewrite !Nat.eqb_refl. cbn [andb].
      etransitivity; [apply rows_sub|]. etransitivity; [apply (f_equal (fun z => z - _)%R), rows_add|].
      unfold csum_coef. destruct (Nat.eqb_spec q 0); [lia|]. reflexivity.
    - intros v k ell H. destruct (Nat.ltb_spec ell R0); auto. unfold pset.
      destruct (Nat.eqb_spec v iv), (Nat.eqb_spec k q); cbn [andb]; try lia; destruct (Nat.eqb_spec k 0); subst; auto.
  Qed.

  (** reverse: the partials of each variable receive those of the sum once for each time it
      is added, minus once for each time it is subtracted *)
  Lemma down_col (op : R -> R -> R) d i (p : nat -> nat -> R) : i <> iv ->
    forall v k, down0 (b:=b) d (fun k p => pset (b:=b) p i k (op (p i k) (p iv k))) p v k = if (v =? i) && (k <=? d) then op (p i k) (p iv k) else p v k.
  Proof.
    intros Hi. unfold down0.
    assert (forall l, NoDup l -> forall (p : nat -> nat -> R) v k, fold_left (fun p j => pset (b:=b) p i j (op (p i j) (p iv j))) l p v k
       = if (v =? i) && existsb (Nat.eqb k) l then op (p i k) (p iv k) else p v k) as K.
    { induction l as [|j l IH]; intros ND q v k; cbn [fold_left existsb]; [now rewrite andb_false_r|].
      apply NoDup_cons_iff in ND as [N1 N2]. rewrite IH by auto. unfold pset.
      destruct (Nat.eqb_spec v i) as [->|Nv]; cbn [andb]; [|reflexivity]. rewrite Nat.eqb_refl. cbn [andb].
      destruct (Nat.eqb_spec iv i); [congruence|]. cbn [andb].
      destruct (Nat.eqb_spec k j) as [->|Nk]; cbn [orb].
      - assert (existsb (Nat.eqb j) l = false) as ->; [|reflexivity]. apply not_true_iff_false. intros E. apply existsb_exists in E as (x & Hx & Ex). apply Nat.eqb_eq in Ex. subst. auto.
      - reflexivity. }
    intros v k. etransitivity; [apply (K (rev (seq 0 (S d))) (NoDup_rev (seq_NoDup (S d) 0)))|].
    assert (existsb (Nat.eqb k) (rev (seq 0 (S d))) = (k <=? d)) as ->; [|reflexivity].
    apply eq_true_iff_eq. rewrite existsb_exists, Nat.leb_le. split.
    - intros (x & Hx & Ex). apply in_rev, in_seq in Hx. apply Nat.eqb_eq in Ex. lia.
    - intros H. exists k. rewrite <- in_rev, in_seq, Nat.eqb_refl. split; [lia|auto].
  Qed.
  Definition times (v : nat) (l : list nat) : R := INR (count_occ Nat.eq_dec l v).
  Lemma pass_spec (op : R -> R -> R) e d l : (forall u w, op u w = (u + e * w)%R) -> Forall (fun v => v < iv) l ->
    forall (p : nat -> nat -> R) v k, fold_left (fun p i => down0 (b:=b) d (fun k p => pset (b:=b) p i k (op (p i k) (p iv k))) p) l p v k
      = if k <=? d then (p v k + times v l * (e * p iv k))%R else p v k.
  Proof.
    intros Ho. induction l as [|i l IH]; intros B p v k; cbn [fold_left].
    - unfold times. cbn. destruct (k <=? d); [symmetry; rewrite Rmult_0_l; apply Rplus_0_r|reflexivity].
    - apply Forall_cons_iff in B as [B1 B2]. etransitivity; [apply (IH B2)|].
      rewrite !(down_col op) by lia. destruct (Nat.eqb_spec iv i); [lia|]. cbn [andb].
      unfold times. cbn [count_occ]. destruct (Nat.leb_spec k d); [|now rewrite andb_false_r]. rewrite andb_true_r.
      destruct (Nat.eq_dec i v) as [->|Ne].
      + rewrite Nat.eqb_refl. etransitivity; [apply (f_equal (fun z => z + _)%R), Ho|]. rewrite S_INR. lra.
      + destruct (Nat.eqb_spec v i); [congruence|]. reflexivity.
  Qed.
  Theorem csum_reverse : forall (V : nat -> nat -> R) l2v d (p : nat -> nat -> R) v k, Forall (fun v => v < iv) (av ++ sv) -> k <= d ->
    rev_step (b:=b) INR P V l2v d (mkIns CSumOp A iv) p v k = (p v k + (times v av - times v sv) * p iv k)%R.
  Proof.
    intros V l2v d p v k B Hk. apply Forall_app in B as [B1 B2]. cbn [rev_step subs rev app fold_left fst snd rev_sub]. rewrite r_av, r_sv.
    etransitivity; [apply (pass_spec Rminus (-1)%R d sv ltac:(intros; ring) B2)|]. rewrite (proj2 (Nat.leb_le _ _) Hk).
    assert (forall v, fold_left (fun p i => down0 (b:=b) d (fun k p => padd (b:=b) i k (p iv k) p) p) av p v k = (p v k + times v av * (1 * p iv k))%R) as K.
    { intros v'. etransitivity; [apply (pass_spec Rplus 1%R d av ltac:(intros; ring) B1)|]. now rewrite (proj2 (Nat.leb_le _ _) Hk). }
    rewrite !K. assert (times iv av = 0%R) as ->.
    { unfold times. rewrite (proj1 (count_occ_not_In Nat.eq_dec av iv)); [reflexivity|]. intros H. rewrite Forall_forall in B1. specialize (B1 _ H). lia. }
    lra.
  Qed.
End Csum.

(** a concrete case, variable 3 is 7 + x1 + x2 - x1 + p3 - p4: values, order one, adjoints *)
Theorem ex_csum : forall dis nan cc l2v (x1 x2 y1 y2 p3 p4 w : R) (s : fstq (Rbase dis nan)) (p : nat -> nat -> R),
  let P := fun i => nth i [7; 0; 0; p3; p4]%R 0%R in let I := mkIns CSumOp (csum_arg 0 [1; 2] [1] [3] [4]) 3 in
  q_V s 1 0 = x1 -> q_V s 2 0 = x2 -> q_V s 1 1 = y1 -> q_V s 2 1 = y2 -> (forall v, p v 1 = if v =? 3 then w else 0%R) ->
  (exists s', step_any (b:=Rbase dis nan) INR P cc 0 1 I 0 s = Some s' /\ q_V s' 3 0 = (7 + p3 - p4 + x2)%R /\ q_V s' 3 1 = y2) /\
  rev_step (b:=Rbase dis nan) INR P (q_V s) l2v 1 I p 1 1 = 0%R /\ rev_step (b:=Rbase dis nan) INR P (q_V s) l2v 1 I p 2 1 = w.
Proof.
  intros dis nan cc l2v x1 x2 y1 y2 p3 p4 w s p P I H1 H2 H3 H4 Hp.
  assert (Forall (fun v => v < 3) ([1; 2] ++ [1])) as B by (repeat constructor).
  split.
  - destruct (csum_forward dis nan P 0 [1; 2] [1] [3] [4] 3 cc 0 1 0 s B ltac:(lia)) as (s' & E & K & _). exists s'. split; [exact E|].
    split; [etransitivity; [apply (K 0); lia|]|etransitivity; [apply (K 1); lia|]]; unfold csum_coef, sum_at, P; cbn; [rewrite H1, H2|rewrite H3, H4]; lra.
  - split; (etransitivity; [apply (csum_reverse dis nan P 0 [1; 2] [1] [3] [4] 3 (q_V s) l2v 1 p _ 1 B); lia|]);
      unfold times; rewrite !Hp; cbn; lra.
Qed.
