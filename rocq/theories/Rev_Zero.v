(** Reverse mode, operator by operator: zero adjoints of the results are a no-op whatever the
    Taylor coefficients; only adjoints of arguments and results are written; only adjoints of
    the results and of the variable itself are read. *)
From Coq Require Import ZArith List Bool Arith Lia FunctionalExtensionality.
From Verif Require Import Base_Spec Op_Model Tape_Spec Tape_Model Tape_Proof Tape_Proof2 Sweep_Model Sweep_Eqs Sweep_Eqs2 Sweep_Tape Sweep_Uniq.
Import ListNotations.

(** The laws of the base type that make a zero adjoint harmless (true for IEEE arithmetic with
    nan and infinity when the two zeros are identified): azmul is an absolute zero multiply,
    adding and subtracting zero changes nothing, and products of zero with integers, signs and
    one are zero. *)
Record zero_laws (b : base) (bnat : nat -> bt b) : Prop := {
  z_az : forall y, b_bin Bazmul b0 y = b0 :> bt b;
  z_add : forall x, b_bin Badd x b0 = x :> bt b;
  z_sub : forall x, b_bin Bsub x b0 = x :> bt b;
  z_nl : forall k, b_bin Bmul (bnat k) b0 = b0;
  z_nr : forall k, b_bin Bmul b0 (bnat k) = b0;
  z_div : forall k, 1 <= k -> b_bin Bdiv b0 (bnat k) = b0;
  z_sgn : forall y, b_bin Bmul (b_un Usign y) b0 = b0 :> bt b;
  z_one : b_bin Bmul b1 b0 = b0 :> bt b;
  z_neg : b_bin Bmul (b_un Uneg b1) b0 = b0 :> bt b;
  z_01 : b_bin Badd b0 b1 = b1 :> bt b }.

Section Zero.
  Context {b : base}.
  Notation T := (bt b).
  Variable bnat : nat -> T.
  Variable P : nat -> T.
  Variable ZL : zero_laws b bnat.
  Notation pa := (nat -> nat -> T).

  Lemma pset_id (p : pa) v k t : t = p v k -> pset p v k t = p.
  Proof.
    intros ->. apply functional_extensionality; intros v'. apply functional_extensionality; intros k'. unfold pset.
    destruct (Nat.eqb_spec v' v), (Nat.eqb_spec k' k); cbn [andb]; subst; auto.
  Qed.
  Lemma padd_id (p : pa) v k t : t = b0 -> padd v k t p = p.
  Proof. intros ->. unfold padd. apply pset_id. apply (z_add _ _ ZL). Qed.
  Lemma psub_id (p : pa) v k t : t = b0 -> psub v k t p = p.
  Proof. intros ->. unfold psub. apply pset_id. apply (z_sub _ _ ZL). Qed.
  Lemma fold_id {A B} (f : A -> B -> A) l z : (forall x, In x l -> f z x = z) -> fold_left f l z = z.
  Proof. induction l as [|x l IH]; intros H; cbn [fold_left]; [auto|]. rewrite H by (left; auto). apply IH. intros; apply H; now right. Qed.
  Lemma loop_id {A} lo hi (f : nat -> A -> A) z : (forall k, lo <= k < hi -> f k z = z) -> loop lo hi f z = z.
  Proof. intros H. unfold loop. apply fold_id. intros x Hx. apply in_seq in Hx. apply H. lia. Qed.
  Lemma down0_id d (f : nat -> pa -> pa) p : (forall k, k <= d -> f k p = p) -> down0 d f p = p.
  Proof. intros H. unfold down0. apply fold_id. intros x Hx. apply in_rev, in_seq in Hx. apply H. lia. Qed.
  Lemma down1_id d (f : nat -> pa -> pa) p : (forall k, 1 <= k <= d -> f k p = p) -> down1 d f p = p.
  Proof. intros H. unfold down1. apply fold_id. intros x Hx. apply in_rev, in_seq in Hx. apply H. lia. Qed.

  (** the base of pow(variable, parameter) is not zero *)
  Definition pow_ok (V : pa) (s : sub) : Prop := match s with SPowvp x _ => b_cmp Ceq (V x 0) b0 = false | _ => True end.

  Ltac zz Z0 Z1 := repeat first
    [ rewrite Z0 by lia | rewrite Z1 by lia
    | rewrite (z_az _ _ ZL) | rewrite (z_add _ _ ZL) | rewrite (z_sub _ _ ZL) | rewrite (z_nl _ _ ZL) | rewrite (z_nr _ _ ZL)
    | rewrite (z_div _ _ ZL) by lia | rewrite (z_sgn _ _ ZL) | rewrite (z_one _ _ ZL) | rewrite (z_neg _ _ ZL) ]; try reflexivity.
  Lemma let_id (A p : pa) (B : pa -> pa) : A = p -> B p = p -> (let q := A in B q) = p.
  Proof. intros ->. auto. Qed.
  Ltac idn Z0 Z1 := cbv beta iota; first [reflexivity | lazymatch goal with
    | |- (let q := ?A in @?B q) = ?p =>
        first [refine (let_id A p B _ _); [idn Z0 Z1|idn Z0 Z1] | change (B A = p); idn Z0 Z1]
    | |- pset _ _ _ _ = _ => apply pset_id; zz Z0 Z1
    | |- padd _ _ _ _ = _ => apply padd_id; zz Z0 Z1
    | |- psub _ _ _ _ = _ => apply psub_id; zz Z0 Z1
    | |- loop _ _ _ _ = _ => apply loop_id; let k := fresh "k" in let H := fresh "H" in intros k H; idn Z0 Z1
    | |- down0 _ _ _ = _ => apply down0_id; let k := fresh "k" in let H := fresh "H" in intros k H; idn Z0 Z1
    | |- down1 _ _ _ = _ => apply down1_id; let k := fresh "k" in let H := fresh "H" in intros k H; idn Z0 Z1
    | _ => idtac
    end].

  Lemma cond_same c (x y t : T) : cond_exp_code c x y t t = t.
  Proof. unfold cond_exp_code. do 5 (destruct c as [|c]; [match goal with |- (if ?q then _ else _) = _ => destruct q; reflexivity end|]). reflexivity. Qed.
  Lemma rev_sub_zero s r (V : pa) d (p : pa) : pow_ok V s -> (forall n j, n < sub_res s -> j <= d -> p (r + n) j = b0) ->
    rev_sub bnat P s r V d p = p.
  Proof.
    intros PK HZ.
    assert (forall j, j <= d -> p r j = b0) as Z0 by (intros j Hj; specialize (HZ 0 j); rewrite Nat.add_0_r in HZ; apply HZ; auto; destruct s; cbn; lia).
    assert (sub_res s = 2 -> forall j, j <= d -> p (S r) j = b0) as Z1 by (intros E j Hj; specialize (HZ 1 j); rewrite Nat.add_1_r in HZ; apply HZ; auto; lia).
    destruct s as [x y|q y|x y|q y|x q|x y|q y|x y|q y|x q|x y|q y|x q|u x|u x|q|q|c x|a|a|x y z1|x q|c x z3]; cbn [sub_res] in *;
      try specialize (Z1 eq_refl); try (destruct u); cbv beta iota delta [rev_sub];
      repeat match goal with |- context [all_zero p r d] => destruct (all_zero p r d); [reflexivity|] end;
      try (idn Z0 Z0; fail); try (idn Z0 Z1; fail).
    - (* SCexp *)
      cbv zeta. set (sel := fun t f : T => cond_exp_code (nth 0 a 0) _ _ t f).
      assert (forall j, j <= d -> sel (p r j) b0 = b0) as S1 by (intros j Hj; rewrite Z0 by lia; apply cond_same).
      assert (forall j, j <= d -> sel b0 (p r j) = b0) as S2 by (intros j Hj; rewrite Z0 by lia; apply cond_same).
      assert ((if Nat.testbit (nth 1 a 0) 2 then down0 d (fun j p0 => padd (nth 4 a 0) j (sel (p0 r j) b0) p0) p else p) = p) as E1.
      { destruct (Nat.testbit (nth 1 a 0) 2); [|reflexivity]. apply down0_id. intros j Hj. apply padd_id. apply S1; auto. }
      unfold sel in *. cbv beta in *. rewrite E1. destruct (Nat.testbit (nth 1 a 0) 3); [|reflexivity]. apply down0_id. intros j Hj. apply padd_id. apply S2; auto.
    - (* SCsum *)
      cbv zeta. rewrite !fold_id; [reflexivity| |]; intros i Hi; try rewrite !fold_id; try (apply down0_id; intros j Hj; first [apply padd_id|apply psub_id]; apply Z0; auto);
        intros i' Hi'; apply down0_id; intros j Hj; apply padd_id; apply Z0; auto.
    - (* SPowvp *)
      cbn [pow_ok] in PK. cbv zeta. rewrite fold_id.
      2:{ intros j Hj. apply in_rev, in_seq in Hj. cbv beta iota.
          assert (forall (w : nat -> T) k t, t = b0 -> fset w k (b_bin Badd (w k) t) = w) as FA.
          { intros w k t ->. rewrite (z_add _ _ ZL). apply functional_extensionality. intros k'. unfold fset. destruct (Nat.eqb_spec k' k); subst; auto. }
          assert (forall (w : nat -> T) k t, t = b0 -> fset w k (b_bin Bsub (w k) t) = w) as FS.
          { intros w k t ->. rewrite (z_sub _ _ ZL). apply functional_extensionality. intros k'. unfold fset. destruct (Nat.eqb_spec k' k); subst; auto. }
          rewrite (loop_id 1 j (fun k p1 => padd r k _ p1) p) by (intros; apply padd_id; zz Z0 Z0).
          rewrite (padd_id p r 0) by (zz Z0 Z0).
          rewrite (FA (fun j0 => p x j0) j) by (zz Z0 Z0).
          rewrite loop_id by (intros; apply FA; zz Z0 Z0). rewrite FS by (zz Z0 Z0). reflexivity. }
      cbv beta iota. apply loop_id. intros j Hj. apply pset_id. unfold ceq0. rewrite PK. unfold fset. rewrite Z0, (z_az _ _ ZL), (z_add _ _ ZL) by lia.
      destruct (Nat.eqb_spec j 0); subst; reflexivity.
    - (* SErf *)
      destruct c; idn Z0 Z0.
  Qed.
End Zero.

Definition csum_oks (s : sub) : Prop := match s with SCsum a => 5 <= nth 1 a 0 <= nth 2 a 0 | _ => True end.
(** *** what is written *)
Section Keep.
  Context {b : base}.
  Notation T := (bt b).
  Variable bnat : nat -> T.
  Variable P : nat -> T.
  Notation pa := (nat -> nat -> T).
  Variable W : nat -> Prop.
  Definition keeps (p0 p : pa) := forall v k, W v -> p v k = p0 v k.
  Lemma keeps_refl p0 : keeps p0 p0.
  Proof. intros v k _. reflexivity. Qed.
  Lemma keeps_set p0 p v k t : ~ W v -> keeps p0 p -> keeps p0 (pset p v k t).
  Proof. intros N K v' k' H. unfold pset. destruct (Nat.eqb_spec v' v); [subst; contradiction|]. apply K; auto. Qed.
  Lemma keeps_add p0 p v k t : ~ W v -> keeps p0 p -> keeps p0 (padd v k t p).
  Proof. apply keeps_set. Qed.
  Lemma keeps_sub p0 p v k t : ~ W v -> keeps p0 p -> keeps p0 (psub v k t p).
  Proof. apply keeps_set. Qed.
  Lemma keeps_fold {B} p0 (f : pa -> B -> pa) l : (forall p x, In x l -> keeps p0 p -> keeps p0 (f p x)) -> forall p, keeps p0 p -> keeps p0 (fold_left f l p).
  Proof. induction l as [|x l IH]; intros H p K; cbn [fold_left]; [auto|]. apply IH; [intros; apply H; [right|]; auto|apply H; [left|]; auto]. Qed.
  Lemma keeps_loop p0 lo hi (f : nat -> pa -> pa) p : (forall k p, keeps p0 p -> keeps p0 (f k p)) -> keeps p0 p -> keeps p0 (loop lo hi f p).
  Proof. intros H. apply keeps_fold. auto. Qed.
  Lemma keeps_down0 p0 d (f : nat -> pa -> pa) p : (forall k p, keeps p0 p -> keeps p0 (f k p)) -> keeps p0 p -> keeps p0 (down0 d f p).
  Proof. intros H. apply keeps_fold. auto. Qed.
  Lemma keeps_down1 p0 d (f : nat -> pa -> pa) p : (forall k p, keeps p0 p -> keeps p0 (f k p)) -> keeps p0 p -> keeps p0 (down1 d f p).
  Proof. intros H. apply keeps_fold. auto. Qed.
  Lemma let_keeps p0 (A : pa) (B : pa -> pa) : keeps p0 A -> (forall q, keeps p0 q -> keeps p0 (B q)) -> keeps p0 (let q := A in B q).
  Proof. auto. Qed.
  Ltac kp := cbv beta iota; first [assumption | lazymatch goal with
    | |- keeps ?p0 (let q := ?A in @?B q) =>
        first [refine (let_keeps p0 A B _ _); [kp|let q := fresh "q" in let K := fresh "K" in intros q K; kp] | change (keeps p0 (B A)); kp]
    | |- keeps _ (pset _ _ _ _) => apply keeps_set; [auto|kp]
    | |- keeps _ (padd _ _ _ _) => apply keeps_add; [auto|kp]
    | |- keeps _ (psub _ _ _ _) => apply keeps_sub; [auto|kp]
    | |- keeps _ (loop _ _ _ _) => apply keeps_loop; [let k := fresh "k" in let q := fresh "q" in let K := fresh "K" in intros k q K; kp|kp]
    | |- keeps _ (down0 _ _ _) => apply keeps_down0; [let k := fresh "k" in let q := fresh "q" in let K := fresh "K" in intros k q K; kp|kp]
    | |- keeps _ (down1 _ _ _) => apply keeps_down1; [let k := fresh "k" in let q := fresh "q" in let K := fresh "K" in intros k q K; kp|kp]
    | |- keeps _ (if ?c then _ else _) => destruct c; kp
    | _ => idtac
    end].
  Lemma rev_sub_keeps s r (V : pa) d (p : pa) : csum_oks s -> (forall n, n < sub_res s -> ~ W (r + n)) -> (forall x, In x (sub_args s) -> ~ W x) ->
    keeps p (rev_sub bnat P s r V d p).
  Proof.
    intros CS HR HA. pose proof (keeps_refl p) as K0.
    assert (~ W r) as N0 by (specialize (HR 0); rewrite Nat.add_0_r in HR; apply HR; destruct s; cbn; lia).
    assert (sub_res s = 2 -> ~ W (S r)) as N1 by (intros E; specialize (HR 1); rewrite Nat.add_1_r in HR; apply HR; lia).
    destruct s as [x y|q y|x y|q y|x q|x y|q y|x y|q y|x q|x y|q y|x q|u x|u x|q|q|c x|a|a|x y z1|x q|c x z3]; cbn [sub_res sub_args] in *;
      try specialize (N1 eq_refl);
      try (assert (~ W x) as Nx by (apply HA; now (left + (right; left) + idtac)));
      try (assert (~ W y) as Ny by (apply HA; try rewrite in_app_iff; cbn; auto));
      try (destruct u); cbv beta iota delta [rev_sub]; try (kp; fail).
    - (* SCexp *) cbv zeta.
      assert (Nat.testbit (nth 1 a 0) 2 = true -> ~ W (nth 4 a 0)) as N4 by (intros E; apply HA; unfold var_args; rewrite !in_app_iff, E; cbn; auto 6).
      assert (Nat.testbit (nth 1 a 0) 3 = true -> ~ W (nth 5 a 0)) as N5 by (intros E; apply HA; unfold var_args; rewrite !in_app_iff, E; cbn; auto 6).
      destruct (Nat.testbit (nth 1 a 0) 2); [specialize (N4 eq_refl)|]; (destruct (Nat.testbit (nth 1 a 0) 3); [specialize (N5 eq_refl)|]); kp.
    - (* SCsum *) cbv zeta. apply keeps_fold; [|apply keeps_fold; [|assumption]]; intros q i Hi K.
      + assert (~ W i) by (apply HA; cbn [var_args]; eapply arg_range_incr; eauto). kp.
      + assert (~ W i) by (apply HA; cbn [var_args]; eapply arg_range_incl; eauto). kp.
    - (* SPowexp *) assert (~ W z1) as Nz by (apply HA; rewrite in_app_iff; cbn; auto). kp.
    - (* SPowvp *) cbv zeta.
      match goal with |- keeps p (let '(p, w) := ?a in _) => assert (keeps p (fst a)) as E end.
      { match goal with |- keeps p (fst (fold_left ?f ?l (?z, ?ww))) => enough (forall w q, keeps p q -> keeps p (fst (fold_left f l (q, w)))) as G by (apply G; auto); generalize l end.
        induction l as [|j l IH]; intros w q0 K; cbn [fold_left fst]; [auto|]. apply IH. kp. }
      match goal with |- keeps p (let '(p, w) := ?a in _) => destruct a as [p' w'] end. cbn [fst] in E. kp.
    - (* SErf *) assert (~ W z3) as Nz by (apply HA; cbn; auto). kp.
  Qed.
End Keep.

Lemma fold_ext2 {A B} (f g : A -> B -> A) l : (forall z k, f z k = g z k) -> forall z, fold_left f l z = fold_left g l z.
Proof. intros H. induction l as [|x l IH]; intros z; cbn [fold_left]; [auto|]. now rewrite H. Qed.
(** *** what is read *)
Section Local.
  Context {b : base}.
  Notation T := (bt b).
  Variable bnat : nat -> T.
  Variable P : nat -> T.
  Notation pa := (nat -> nat -> T).
  Variable W : nat -> Prop.
  Variable Wdec : forall v, {W v} + {~ W v}.
  Definition ag (p p' : pa) := forall v k, W v -> p v k = p' v k.
  Lemma ag_set p p' v k t t' : (W v -> t = t') -> ag p p' -> ag (pset p v k t) (pset p' v k t').
  Proof. intros E K v' k' H. unfold pset. destruct (Nat.eqb_spec v' v), (Nat.eqb_spec k' k); cbn [andb]; subst; auto. Qed.
  Lemma ag_add p p' v k t t' : t = t' -> ag p p' -> ag (padd v k t p) (padd v k t' p').
  Proof. intros -> K. apply ag_set; auto. intros H. f_equal. apply K; auto. Qed.
  Lemma ag_sub p p' v k t t' : t = t' -> ag p p' -> ag (psub v k t p) (psub v k t' p').
  Proof. intros -> K. apply ag_set; auto. intros H. f_equal. apply K; auto. Qed.
  Lemma ag_fold {B} (f f' : pa -> B -> pa) l : (forall p p' x, ag p p' -> ag (f p x) (f' p' x)) -> forall p p', ag p p' -> ag (fold_left f l p) (fold_left f' l p').
  Proof. intros H. induction l as [|x l IH]; intros p p' K; cbn [fold_left]; auto. Qed.
  Lemma ag_loop lo hi (f f' : nat -> pa -> pa) p p' : (forall k p p', ag p p' -> ag (f k p) (f' k p')) -> ag p p' -> ag (loop lo hi f p) (loop lo hi f' p').
  Proof. intros H. apply ag_fold. auto. Qed.
  Lemma ag_down0 d (f f' : nat -> pa -> pa) p p' : (forall k p p', ag p p' -> ag (f k p) (f' k p')) -> ag p p' -> ag (down0 d f p) (down0 d f' p').
  Proof. intros H. apply ag_fold. auto. Qed.
  Lemma ag_down1 d (f f' : nat -> pa -> pa) p p' : (forall k p p', ag p p' -> ag (f k p) (f' k p')) -> ag p p' -> ag (down1 d f p) (down1 d f' p').
  Proof. intros H. apply ag_fold. auto. Qed.
  Lemma let_ag (A A' : pa) (B B' : pa -> pa) : ag A A' -> (forall q q', ag q q' -> ag (B q) (B' q')) -> ag (let q := A in B q) (let q := A' in B' q).
  Proof. auto. Qed.
  Ltac rwA := repeat match goal with
    | K : ag ?q ?q', N : W ?v |- context [?q ?v ?k] => rewrite (K v k N)
    end; reflexivity.
  Ltac agt := cbv beta iota; first [assumption | lazymatch goal with
    | |- ag (let q := ?A in @?B q) (let q' := ?A' in @?B' q') =>
        first [refine (let_ag A A' B B' _ _); [agt|let q := fresh "q" in let q' := fresh "q" in let K := fresh "K" in intros q q' K; agt] | change (ag (B A) (B' A')); agt]
    | |- ag (pset _ _ _ _) _ => apply ag_set; [intros _; rwA|agt]
    | |- ag (padd _ _ _ _) _ => apply ag_add; [rwA|agt]
    | |- ag (psub _ _ _ _) _ => apply ag_sub; [rwA|agt]
    | |- ag (loop _ _ _ _) _ => apply ag_loop; [let k := fresh "k" in let q := fresh "q" in let q' := fresh "q" in let K := fresh "K" in intros k q q' K; agt|agt]
    | |- ag (down0 _ _ _) _ => apply ag_down0; [let k := fresh "k" in let q := fresh "q" in let q' := fresh "q" in let K := fresh "K" in intros k q q' K; agt|agt]
    | |- ag (down1 _ _ _) _ => apply ag_down1; [let k := fresh "k" in let q := fresh "q" in let q' := fresh "q" in let K := fresh "K" in intros k q q' K; agt|agt]
    | |- ag (if ?c then _ else _) (if ?c then _ else _) => destruct c; agt
    | _ => idtac
    end].
  Lemma ag_all_zero p p' r d : W r -> ag p p' -> all_zero p r d = all_zero p' r d.
  Proof. intros N K. unfold all_zero. apply eq_true_iff_eq. rewrite !forallb_forall. split; intros H x Hx; specialize (H x Hx); [rewrite <- (K r x N)|rewrite (K r x N)]; auto. Qed.
  Lemma rev_sub_local s r (V : pa) d (p p' : pa) : (forall n, n < sub_res s -> W (r + n)) ->
    ag p p' -> ag (rev_sub bnat P s r V d p) (rev_sub bnat P s r V d p').
  Proof.
    intros HR K0.
    assert (W r) as N0 by (specialize (HR 0); rewrite Nat.add_0_r in HR; apply HR; destruct s; cbn; lia).
    assert (sub_res s = 2 -> W (S r)) as N1 by (intros E; specialize (HR 1); rewrite Nat.add_1_r in HR; apply HR; lia).
    pose proof (ag_all_zero p p' r d N0 K0) as AZ.
    destruct s as [x y|q y|x y|q y|x q|x y|q y|x y|q y|x q|x y|q y|x q|u x|u x|q|q|c x|a|a|x y z1|x q|c x z3]; cbn [sub_res] in *;
      try specialize (N1 eq_refl);
      try (destruct u); cbv beta iota delta [rev_sub]; rewrite ?AZ; try (agt; fail).
    - (* SCsum *) cbv zeta. apply ag_fold; [|apply ag_fold; [|assumption]]; intros q q' i K; agt.
    - (* SPowvp *) cbv zeta.
      match goal with |- ag (let '(p, w) := ?a in _) (let '(p, w) := ?a' in _) =>
        assert (ag (fst a) (fst a') /\ (W x -> forall j, snd a j = snd a' j)) as E end.
      { match goal with |- ag (fst (fold_left ?f ?l (?z, ?ww))) (fst (fold_left ?f ?l (?z', ?ww'))) /\ _ =>
          enough (forall w w' q0 q1, ag q0 q1 -> (W x -> forall j, w j = w' j) ->
             ag (fst (fold_left f l (q0, w))) (fst (fold_left f l (q1, w'))) /\ (W x -> forall j, snd (fold_left f l (q0, w)) j = snd (fold_left f l (q1, w')) j)) as G; [apply G; auto|generalize l] end.
        induction l as [|j l IH]; intros w w' q0 q1 K EW; cbn [fold_left fst snd]; [auto|].
        assert (ag (loop 1 j (fun k p1 => padd r k (b_bin Bazmul (p1 r j) (b_bin Bdiv (b_bin Bmul (b_bin Bsub (b_bin Bmul (bnat (j - k)) (P q)) (bnat k)) (V x (j - k))) (b_bin Bmul (bnat j) (V x 0)))) p1) q0)
                   (loop 1 j (fun k p1 => padd r k (b_bin Bazmul (p1 r j) (b_bin Bdiv (b_bin Bmul (b_bin Bsub (b_bin Bmul (bnat (j - k)) (P q)) (bnat k)) (V x (j - k))) (b_bin Bmul (bnat j) (V x 0)))) p1) q1)) as KL by agt.
        apply IH; [apply ag_add; [rewrite (KL r j N0); reflexivity|exact KL]|].
        intros Hx. specialize (EW Hx).
        assert (w = w') as -> by (apply functional_extensionality; auto). intros j'.
        match goal with |- fset ?u _ (b_bin Bsub (?u _) (b_bin Bazmul ?s ?t)) _ = fset ?u' _ (b_bin Bsub (?u' _) (b_bin Bazmul ?s' ?t)) _ => assert (u = u') as -> end.
        { rewrite (K r j N0). reflexivity. }
        rewrite (KL r j N0). reflexivity. }
      match goal with |- ag (let '(p, w) := ?a in _) (let '(p, w) := ?a' in _) => destruct a as [p1 w1]; destruct a' as [p2 w2] end. cbn [fst snd] in E. destruct E as [E1 E2].
      apply ag_loop; [|exact E1]. intros k q0 q1 K. apply ag_set; [|exact K]. intros Hx. f_equal.
      assert (w1 = w2) as -> by (apply functional_extensionality; auto). rewrite (E1 r 0 N0). reflexivity.
  Qed.
End Local.

(** *** one operator *)
Section Ins.
  Context {b : base}.
  Notation T := (bt b).
  Variable bnat : nat -> T.
  Variable P : nat -> T.
  Variable ZL : zero_laws b bnat.
  Notation pa := (nat -> nat -> T).

  (** no operator other than a load reads or writes through load_op2var *)
  Definition pow_ins (V : pa) (i : ins) : Prop := i_op i = PowvpOp -> b_cmp Ceq (V (nth 0 (i_arg i) 0) 0) b0 = false.

  Lemma chain_in : forall ls nv rs, chain nv ls -> In rs ls -> nv <= fst rs /\ fst rs + sub_res (snd rs) <= nv + chain_res ls.
  Proof.
    induction ls as [|[r' s'] ls IH]; intros nv rs C []; cbn in C; destruct C as (-> & C1 & C2); cbn [chain_res].
    - subst rs. cbn [fst snd]. lia.
    - destruct (IH _ _ C2 H) as (A & B). lia.
  Qed.
  Lemma subs_pow V o a iv ls rs : pow_ins V (mkIns o a iv) -> subs o a iv = Some ls -> In rs ls -> pow_ok V (snd rs).
  Proof.
    intros PI E Hr. unfold pow_ins in PI. cbn [i_op i_arg] in PI. destruct o; cbn in E; try discriminate; injection E as <-; cbn [In] in Hr;
      repeat (destruct Hr as [<-|Hr]; [cbn [snd pow_ok]; auto|]); contradiction.
  Qed.
  Lemma subs_csum np nv nl o a iv lp ls rs : wfl np nv nl (mkIns o a iv :: lp) -> subs o a iv = Some ls -> In rs ls -> csum_oks (snd rs).
  Proof.
    intros (_ & _ & CS & _) E Hr. cbn [i_op i_arg] in CS. destruct o; cbn in E; try discriminate; injection E as <-; cbn [In] in Hr;
      repeat (destruct Hr as [<-|Hr]; [cbn [snd csum_oks]; auto|]); contradiction.
  Qed.
  Lemma subs_vargs0 o a iv ls rs x : subs o a iv = Some ls -> num_res o <= iv + 1 -> In rs ls -> In x (sub_args (snd rs)) ->
    x < iv + 1 - num_res o -> In x (var_args o a).
  Proof.
    intros E N Hr Hx L. destruct o; cbn in E; try discriminate; injection E as <-; cbn [num_res var_args In] in *;
      repeat (destruct Hr as [<-|Hr]; [cbn [snd sub_args pref_var app In] in Hx|]); try contradiction; auto;
      repeat (destruct Hx as [<-|Hx]); try contradiction; auto; try lia.
  Qed.
  Lemma chain_args : forall ls nv rs x, chain nv ls -> In rs ls -> In x (sub_args (snd rs)) -> x < fst rs.
  Proof.
    induction ls as [|[r' s'] ls IH]; intros nv rs x C [] Hx; cbn in C; destruct C as (-> & C1 & C2).
    - subst rs. cbn [fst snd] in *. rewrite Forall_forall in C1. apply C1 in Hx. lia.
    - eapply IH; eauto.
  Qed.

  Lemma rev_step_zero np nv nl i lp V l2v d (p : pa) : wfl np nv nl (i :: lp) -> is_load (i_op i) = false -> pow_ins V i ->
    (forall v j, nv <= v < nv + num_res (i_op i) -> j <= d -> p v j = b0) -> rev_step bnat P V l2v d i p = p.
  Proof.
    intros W NL PI HZ. destruct i as [o a iv]. cbn [i_op i_arg i_var] in *. unfold rev_step.
    destruct (subs o a iv) as [ls|] eqn:E.
    - destruct (chain_subs np nv nl _ ls lp W E) as (O & C & CR & N1 & N2). cbn [i_op i_var] in *.
      assert (fold_left (fun p rs => rev_sub bnat P (snd rs) (fst rs) V d p) (rev ls) p = p) as K.
      { apply fold_id. intros rs Hr. apply in_rev in Hr. destruct (chain_in _ _ _ C Hr) as [I1 I2]. apply rev_sub_zero; auto.
        - eapply subs_pow; eauto.
        - intros n j Hn Hj. apply HZ; auto. lia. }
      destruct o; auto; destruct (all_zero _ _ _); auto.
    - destruct o; auto; discriminate.
  Qed.
  Lemma rev_step_keeps (W : nat -> Prop) np nv nl i lp V l2v d (p : pa) : wfl np nv nl (i :: lp) -> is_load (i_op i) = false ->
    (forall v, nv <= v < nv + num_res (i_op i) -> ~ W v) -> (num_res (i_op i) <> 0 -> forall x, In x (var_args (i_op i) (i_arg i)) -> ~ W x) ->
    keeps W p (rev_step bnat P V l2v d i p).
  Proof.
    intros WF NL HR HA. destruct i as [o a iv]. cbn [i_op i_arg i_var] in *. unfold rev_step. pose proof (keeps_refl W p) as K0.
    destruct (subs o a iv) as [ls|] eqn:E.
    - destruct (chain_subs np nv nl _ ls lp WF E) as (O & C & CR & N1 & N2). cbn [i_op i_var] in *.
      assert (num_res o <> 0) as NR by (destruct o; cbn in E; try discriminate; cbn; lia). specialize (HA NR).
      assert (keeps W p (fold_left (fun p rs => rev_sub bnat P (snd rs) (fst rs) V d p) (rev ls) p)) as K.
      { apply keeps_fold; auto. intros p1 rs Hr K1. apply in_rev in Hr. destruct (chain_in _ _ _ C Hr) as [I1 I2].
        intros v k Hv. transitivity (p1 v k); [|apply K1; auto]. revert v k Hv. change (keeps W p1 (rev_sub bnat P (snd rs) (fst rs) V d p1)). apply rev_sub_keeps.
        - eapply subs_csum; eauto.
        - intros n Hn. apply HR. lia.
        - intros x Hx. destruct (Nat.lt_ge_cases x nv) as [Lx|Lx]; [apply HA; eapply subs_vargs0; eauto; lia|].
          apply HR. split; auto. pose proof (chain_args _ _ _ _ C Hr Hx). lia. }
      destruct o; auto; destruct (all_zero _ _ _); auto.
    - destruct o; auto; discriminate.
  Qed.
  Lemma rev_step_local (W : nat -> Prop) np nv nl i lp V l2v d (p p' : pa) : wfl np nv nl (i :: lp) -> is_load (i_op i) = false ->
    (forall v, nv <= v < nv + num_res (i_op i) -> W v) -> ag W p p' -> ag W (rev_step bnat P V l2v d i p) (rev_step bnat P V l2v d i p').
  Proof.
    intros WF NL HR K0. destruct i as [o a iv]. cbn [i_op i_arg i_var] in *. unfold rev_step.
    destruct (subs o a iv) as [ls|] eqn:E.
    - destruct (chain_subs np nv nl _ ls lp WF E) as (O & C & CR & N1 & N2). cbn [i_op i_var] in *.
      assert (forall lr p p', (forall rs, In rs lr -> In rs ls) -> ag W p p' -> ag W (fold_left (fun p rs => rev_sub bnat P (snd rs) (fst rs) V d p) lr p) (fold_left (fun p rs => rev_sub bnat P (snd rs) (fst rs) V d p) lr p')) as K.
      { induction lr as [|rs lr IH]; intros q q' Hs Kq; cbn [fold_left]; auto. apply IH; [intros; apply Hs; now right|].
        assert (In rs ls) as Hr by (apply Hs; now left). destruct (chain_in _ _ _ C Hr) as [I1 I2]. apply rev_sub_local; auto. intros n Hn. apply HR. lia. }
      specialize (K (rev ls) p p' (fun rs H => proj2 (in_rev ls rs) H) K0).
      assert (all_zero p iv d = all_zero p' iv d \/ num_res o = 0) as [AZ|NR].
      { destruct (Nat.eq_dec (num_res o) 0) as [|NR]; auto. left. apply (ag_all_zero W); auto. apply HR. lia. }
      + rewrite AZ. destruct o; try exact K; destruct (all_zero p' iv d); [exact K0|exact K|exact K0|exact K].
      + destruct o; auto; cbn in NR; lia.
    - destruct o; auto; discriminate.
  Qed.
End Ins.
