From Coq Require Import Reals Lra Lia List Arith Bool FunctionalExtensionality.
From Coquelicot Require Import Coquelicot.
From Verif Require Import Quad_Model Quad_Spec Quad_Proof.
Import ListNotations.
Open Scope R_scope.

Section Runge.
  Variable F : R -> (nat -> R) -> nat -> R.
  Variable n : nat.
  (** if every single step is exact on X, so is Runge45 *)
  Lemma runge_steps (X : R -> nat -> R) (Q : Prop) M ti tf xi : (1 <= M)%nat -> (forall i, (i < n)%nat -> xi i = X ti i) ->
    (forall t h x, (forall i, (i < n)%nat -> x i = X t i) -> forall i, (i < n)%nat -> s_x5 (six F n t h x) i = X (t + h) i) ->
    (Q -> forall t h x, (forall i, (i < n)%nat -> x i = X t i) -> forall i, (i < n)%nat -> s_x4 (six F n t h x) i = X (t + h) i) ->
    exists xf e, runge45 F n M ti tf xi = Some (xf, e) /\ (forall i, (i < n)%nat -> xf i = X tf i) /\ (Q -> forall i, (i < n)%nat -> e i = 0).
  Proof.
    intros HM Hx H5 H4. unfold runge45. destruct (Nat.ltb_spec M 1); [lia|].
    assert (INR M <> 0) as NM by (apply not_0_INR; lia). set (h := (tf - ti) / INR M).
    assert (K : forall m, (m <= M)%nat -> exists xf e, fold_left (runge_step F n M ti tf) (seq 0 m) (xi, fun _ => 0) = (xf, e) /\
      (forall i, (i < n)%nat -> xf i = X (ti + INR m * h) i) /\ (Q -> forall i, (i < n)%nat -> e i = 0)).
    { induction m as [|m IH]; intros Hm.
      - exists xi, (fun _ => 0). split; [reflexivity|]. split; [|auto]. intros i Hi. rewrite Hx by auto. f_equal. cbn. ring.
      - destruct IH as (xf & e & E & K1 & K2); [lia|]. rewrite seq_S, fold_left_app, E. cbn [fold_left runge_step Nat.add]. fold h.
        set (t := ti * (INR (M - m) / INR M) + tf * (INR m / INR M)).
        assert (t = ti + INR m * h) as Et. { unfold t, h. rewrite minus_INR by lia. field. auto. }
        rewrite <- Et in K1. eexists _, _. split; [reflexivity|].
        assert (forall i, (i < n)%nat -> s_x5 (six F n t h xf) i = X (ti + INR (S m) * h) i) as K5.
        { intros i Hi. rewrite (H5 t h xf K1 i Hi). f_equal. rewrite Et, S_INR. ring. }
        split; [exact K5|]. intros q i Hi. rewrite (proj2 (Nat.ltb_lt i n) Hi). rewrite (K2 q i Hi), (H5 t h xf K1 i Hi), (H4 q t h xf K1 i Hi).
        rewrite Rminus_eq_0, Rabs_R0. ring. }
    destruct (K M (le_n _)) as (xf & e & E & K1 & K2). exists xf, e. split; [f_equal; exact E|]. split; [|exact K2].
    intros i Hi. rewrite (K1 i Hi). f_equal. unfold h. field. auto.
  Qed.
End Runge.

(** ** right hand side a function of t only *)
Lemma six_quad (f : nat -> R -> R) F n t h x i : (forall t x i, (i < n)%nat -> F t x i = f i t) -> (i < n)%nat ->
  s_x5 (six F n t h x) i = x i + sumn 6 (fun j => nth j rc5 0 * (f i (t + nth j ra 0 * h) * h)) /\
  s_x4 (six F n t h x) i = x i + sumn 6 (fun j => nth j rc4 0 * (f i (t + nth j ra 0 * h) * h)).
Proof.
  intros HF Hi. unfold six.
  assert (forall m s, (s_x5 (fold_left (stage F n t h x) (seq 0 m) s) i = s_x5 s i + sumn m (fun j => nth j rc5 0 * (f i (t + nth j ra 0 * h) * h))) /\
     (s_x4 (fold_left (stage F n t h x) (seq 0 m) s) i = s_x4 s i + sumn m (fun j => nth j rc4 0 * (f i (t + nth j ra 0 * h) * h)))) as K.
  { induction m as [|m IH]; intros s; [cbn; split; ring|]. rewrite seq_S, fold_left_app. cbn [fold_left Nat.add]. unfold stage at 1 3. cbn [s_x5 s_x4].
    rewrite (proj2 (Nat.ltb_lt i n) Hi). destruct (IH s) as [-> ->]. rewrite !HF by auto. cbn [sumn]. split; ring. }
  destruct (K 6%nat (mkR (fun _ _ => 0) x x)) as [-> ->]. split; reflexivity.
Qed.
Definition anti (c : nat -> R) (d : nat) (x : R) : R := sumn (S d) (fun i => c i * x ^ S i / INR (S i)).
Lemma anti_derive c d x : is_derive (anti c d) x (pval c d x).
Proof.
  apply is_derive_sumn. intros i _. assert (INR (S i) <> 0) by (apply not_0_INR; lia). auto_derive; [auto|].
  change (match i with | 0%nat => 1 | S _ => INR i + 1 end) with (INR (S i)). cbn [Init.Nat.pred]. field. auto.
Qed.
Lemma quad5 c t h : sumn 6 (fun j => nth j rc5 0 * (pval c 4 (t + nth j ra 0 * h) * h)) = anti c 4 (t + h) - anti c 4 t.
Proof. unfold pval, anti. cbn [sumn nth rc5 ra pow INR]. field. Qed.
Lemma quad4 c t h : sumn 6 (fun j => nth j rc4 0 * (pval c 3 (t + nth j ra 0 * h) * h)) = anti c 3 (t + h) - anti c 3 t.
Proof. unfold pval, anti. cbn [sumn nth rc4 ra pow INR]. field. Qed.
Lemma same_derive (f g : R -> R) d : (forall x, is_derive f x (d x)) -> (forall x, is_derive g x (d x)) -> forall x y, f x - f y = g x - g y.
Proof.
  intros Hf Hg x y. pose proof (zero_derive (fun x => f x - g x)) as Z.
  enough (f x - g x = f y - g y) by lra. apply Z. intros z. evar_last; [apply (is_derive_minus (V:=R_NormedModule)); [apply Hf|apply Hg]|].
  unfold minus, plus, opp. cbn. ring.
Qed.

(** ** linear right hand side *)
Lemma mat_vec_ext n A x y i : (forall j, (j < n)%nat -> x j = y j) -> mat_vec n A x i = mat_vec n A y i.
Proof. intros H. apply sumn_ext. intros. now rewrite H. Qed.
Lemma mat_pow_ext n A k x y : (forall j, (j < n)%nat -> x j = y j) -> forall i, (i < n)%nat -> mat_pow n A k x i = mat_pow n A k y i.
Proof. intros H. induction k; intros i Hi; cbn [mat_pow]; [auto|]. apply mat_vec_ext. auto. Qed.
Section Linear.
  Variables (n : nat) (A : nat -> nat -> R) (t h : R) (x : nat -> R).
  Hypothesis N6 : forall i, (i < n)%nat -> mat_pow n A 6 x i = 0.
  Definition mp k i := h ^ k * mat_pow n A k x i.
  Definition comb (al : nat -> R) i := sumn 6 (fun k => al k * mp k i).
  Definition sh (_ : R) (al : nat -> R) (q : nat) : R := match q with O => 0 | S q' => al q' end.
  Definition e0 (q : nat) : R := match q with O => 1 | _ => 0 end.
  Lemma comb_ext al be i : (forall q, (q < 6)%nat -> al q = be q) -> comb al i = comb be i.
  Proof. intros H. apply sumn_ext. intros. now rewrite H. Qed.
  Lemma comb_lin al be c i : comb al i + c * comb be i = comb (fun q => al q + c * be q) i.
  Proof. unfold comb. rewrite <- sumn_scal, <- sumn_plus. apply sumn_ext. intros. ring. Qed.
  Lemma comb_sh al y i : (i < n)%nat -> (forall j, (j < n)%nat -> y j = comb al j) -> mat_vec n A y i * h = comb (sh 0 al) i.
  Proof.
    intros Hi H. rewrite (mat_vec_ext n A y (comb al) i H). unfold mat_vec, comb.
    rewrite (sumn_ext n _ (fun j => sumn 6 (fun k => al k * (h ^ k * (A i j * mat_pow n A k x j))))) by (intros; rewrite <- sumn_scal; apply sumn_ext; intros; unfold mp; ring).
    rewrite sumn_swap.
    rewrite (sumn_ext 6 _ (fun k => al k * h ^ k * mat_pow n A (S k) x i)).
    2:{ intros k _. cbn [mat_pow]. unfold mat_vec. rewrite <- sumn_scal. apply sumn_ext. intros. ring. }
    cbn [sumn]. rewrite N6 by auto. unfold mp, sh. cbn [pow]. ring.
  Qed.
  Definition rel (s s' : rstep) := forall i, (i < n)%nat -> (forall k, s_fh s i k = comb (fun q => s_fh s' q k) i) /\
    s_x4 s i = comb (s_x4 s') i /\ s_x5 s i = comb (s_x5 s') i.
  Lemma stage_rel s s' j : rel s s' -> rel (stage (fun _ => mat_vec n A) n t h x s j) (stage sh 6 0 1 e0 s' j).
  Proof.
    intros HR. unfold stage.
    set (xt := fold_left _ (seq 0 j) x). set (xt' := fold_left _ (seq 0 j) e0).
    assert (forall i, (i < n)%nat -> xt i = comb xt' i) as HX.
    { unfold xt, xt'. clear xt xt'. generalize (seq 0 j). intros l.
      assert (forall y y', (forall i, (i < n)%nat -> y i = comb y' i) -> forall i, (i < n)%nat ->
        fold_left (fun xtmp k => let bjk := nth ((j - 1) * 5 + k) rb 0 in fun i => if (i <? n)%nat then xtmp i + bjk * s_fh s i k else xtmp i) l y i
        = comb (fold_left (fun xtmp k => let bjk := nth ((j - 1) * 5 + k) rb 0 in fun i => if (i <? 6)%nat then xtmp i + bjk * s_fh s' i k else xtmp i) l y') i) as G.
      { induction l as [|k l IH]; intros y y' Hy i Hi; cbn [fold_left]; [auto|]. apply IH; [|auto]. intros i' Hi'. cbn zeta.
        rewrite (proj2 (Nat.ltb_lt i' n) Hi'), (Hy i' Hi'), (proj1 (HR i' Hi') k), comb_lin. apply comb_ext. intros q Hq.
        now rewrite (proj2 (Nat.ltb_lt q 6) Hq). }
      apply G. intros i Hi. unfold comb, e0, mp. cbn [sumn mat_pow pow]. ring. }
    assert (forall i, (i < n)%nat -> mat_vec n A xt i * h = comb (fun q => sh 0 xt' q * 1) i) as HF.
    { intros i Hi. rewrite (comb_sh xt' xt i Hi HX). apply comb_ext. intros. unfold sh. destruct q; ring. }
    intros i Hi. destruct (HR i Hi) as (R1 & R2 & R3). cbn [s_fh s_x4 s_x5]. rewrite (proj2 (Nat.ltb_lt i n) Hi). cbn [andb]. rewrite (HF i Hi), R2, R3, !comb_lin. split; [|split].
    - intros k. destruct (Nat.eqb_spec k j).
      + apply comb_ext. intros q Hq. rewrite (proj2 (Nat.ltb_lt q 6) Hq). cbn [andb]. reflexivity.
      + rewrite R1. apply comb_ext. intros q Hq. now rewrite andb_false_r.
    - apply comb_ext. intros q Hq. rewrite (proj2 (Nat.ltb_lt q 6) Hq). reflexivity.
    - apply comb_ext. intros q Hq. rewrite (proj2 (Nat.ltb_lt q 6) Hq). reflexivity.
  Qed.
  Lemma six_rel : rel (six (fun _ => mat_vec n A) n t h x) (six sh 6 0 1 e0).
  Proof.
    unfold six. assert (forall l s s', rel s s' -> rel (fold_left (stage (fun _ => mat_vec n A) n t h x) l s) (fold_left (stage sh 6 0 1 e0) l s')) as G.
    { induction l as [|j l IH]; intros; cbn [fold_left]; [auto|]. apply IH, stage_rel. auto. }
    apply G. intros i Hi. cbn [s_fh s_x4 s_x5]. unfold comb, e0, mp. cbn [sumn mat_pow pow]. repeat split; intros; ring.
  Qed.
End Linear.
Lemma sh_exp : forall q, (q < 6)%nat -> s_x5 (six sh 6 0 1 e0) q = / INR (fact q).
Proof.
  intros q Hq. unfold six. cbn [seq fold_left]. unfold stage. cbn [seq fold_left s_fh s_x5 s_x4 Nat.eqb Nat.sub Nat.mul Nat.add].
  do 6 (destruct q as [|q]; [cbn -[fact]; change (fact 0) with 1%nat; change (fact 1) with 1%nat; change (fact 2) with 2%nat; change (fact 3) with 6%nat; change (fact 4) with 24%nat; change (fact 5) with 120%nat; rewrite ?INR_IZR_INZ; cbn [Z.of_nat Pos.of_succ_nat Pos.succ]; lra|]). lia.
Qed.
Lemma linear_step n A t h x i : (forall i, (i < n)%nat -> mat_pow n A 6 x i = 0) -> (i < n)%nat ->
  s_x5 (six (fun _ => mat_vec n A) n t h x) i = sumn 6 (fun k => h ^ k / INR (fact k) * mat_pow n A k x i).
Proof.
  intros N6 Hi. destruct (six_rel n A t h x N6 i Hi) as (_ & _ & E). etransitivity; [exact E|]. unfold comb. apply sumn_ext. intros k Hk.
  rewrite (sh_exp k Hk). unfold mp, Rdiv. ring.
Qed.
(** the Taylor polynomial of a solution *)
Lemma solution_taylor n A (X : R -> nat -> R) : (forall x i, (i < n)%nat -> mat_pow n A 6 x i = 0) ->
  (forall t i, (i < n)%nat -> is_derive (fun t => X t i) t (mat_vec n A (X t) i)) ->
  forall t h i, (i < n)%nat -> sumn 6 (fun k => h ^ k / INR (fact k) * mat_pow n A k (X t) i) = X (t + h) i.
Proof.
  intros N6 HD t h i Hi.
  assert (DP : forall k s j, (j < n)%nat -> is_derive (fun s => mat_pow n A k (X s) j) s (mat_pow n A (S k) (X s) j)).
  { induction k as [|k IH]; intros s j Hj; [apply HD; auto|]. cbn [mat_pow].
    evar_last; [apply is_derive_sumn; intros q Hq; apply is_derive_scal; apply IH; auto|]. reflexivity. }
  set (G s := sumn 6 (fun k => (t + h - s) ^ k / INR (fact k) * mat_pow n A k (X s) i)).
  assert (DG : forall s, is_derive G s 0).
  { intros s. unfold G. cbn [sumn].
    pose proof (DP 0%nat s i Hi) as D0. pose proof (DP 1%nat s i Hi) as D1. pose proof (DP 2%nat s i Hi) as D2.
    pose proof (DP 3%nat s i Hi) as D3. pose proof (DP 4%nat s i Hi) as D4. pose proof (DP 5%nat s i Hi) as D5. rewrite (N6 (X s) i Hi) in D5.
    set (f0 := fun s => mat_pow n A 0 (X s) i) in *. set (f1 := fun s => mat_pow n A 1 (X s) i) in *. set (f2 := fun s => mat_pow n A 2 (X s) i) in *.
    set (f3 := fun s => mat_pow n A 3 (X s) i) in *. set (f4 := fun s => mat_pow n A 4 (X s) i) in *. set (f5 := fun s => mat_pow n A 5 (X s) i) in *.
    change (mat_pow n A 1 (X s) i) with (f1 s) in D0. change (mat_pow n A 2 (X s) i) with (f2 s) in D1. change (mat_pow n A 3 (X s) i) with (f3 s) in D2.
    change (mat_pow n A 4 (X s) i) with (f4 s) in D3. change (mat_pow n A 5 (X s) i) with (f5 s) in D4.
    eapply (is_derive_ext (fun s => (t + h - s) ^ 0 / INR (fact 0) * f0 s + (t + h - s) ^ 1 / INR (fact 1) * f1 s + (t + h - s) ^ 2 / INR (fact 2) * f2 s
      + (t + h - s) ^ 3 / INR (fact 3) * f3 s + (t + h - s) ^ 4 / INR (fact 4) * f4 s + (t + h - s) ^ 5 / INR (fact 5) * f5 s)).
    { intros u. unfold f0, f1, f2, f3, f4, f5. match goal with |- ?a = ?b => change (@eq R a b) end. ring. }
    auto_derive; [repeat split; eexists; eassumption|].
    change (fun x => f0 x) with f0. change (fun x => f1 x) with f1. change (fun x => f2 x) with f2. change (fun x => f3 x) with f3. change (fun x => f4 x) with f4. change (fun x => f5 x) with f5.
    rewrite (is_derive_unique f0 s _ D0), (is_derive_unique f1 s _ D1), (is_derive_unique f2 s _ D2), (is_derive_unique f3 s _ D3), (is_derive_unique f4 s _ D4), (is_derive_unique f5 s _ D5).
    change (fact 0) with 1%nat; change (fact 1) with 1%nat; change (fact 2) with 2%nat; change (fact 3) with 6%nat; change (fact 4) with 24%nat; change (fact 5) with 120%nat.
    rewrite ?INR_IZR_INZ; cbn [Z.of_nat Pos.of_succ_nat Pos.succ Init.Nat.pred pow]. field. }
  pose proof (zero_derive G DG t (t + h)) as E. unfold G in E.
  replace (t + h - t) with h in E by ring. rewrite E. replace (t + h - (t + h)) with 0 by ring. cbn [sumn mat_pow pow].
  change (fact 0) with 1%nat. change (INR 1) with 1. unfold Rdiv. rewrite ?Rmult_0_l. field. 
Qed.
