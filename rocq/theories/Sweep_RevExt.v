(** The reverse sweep reads only the coefficients of the arguments and results
    of each operator, up to the order of the sweep. *)
From Coq Require Import ZArith List Bool Arith Lia FunctionalExtensionality.
From Verif Require Import Base_Spec Op_Model Tape_Spec Tape_Model Tape_Proof Tape_Proof2 Sweep_Model Sweep_Eqs Sweep_Eqs2 Sweep_Tape Sweep_Uniq.
Import ListNotations.

Section RevExt.
  Context {b : base}.
  Notation T := (bt b).
  Variable bnat : nat -> T.
  Variable P : nat -> T.

  Lemma fold_ext {A B} (f g : A -> B -> A) (l : list B) : forall z,
    (forall a x, In x l -> f a x = g a x) -> fold_left f l z = fold_left g l z.
  Proof.
    induction l as [|x l IH]; intros z H; cbn [fold_left]; auto.
    rewrite H by (left; auto). apply IH. intros. apply H. now right.
  Qed.
  Lemma let_ext {A B} (a a' : A) (f f' : A -> B) : a = a' -> (forall p, f p = f' p) -> f a = f' a'.
  Proof. intros ->. auto. Qed.
  Lemma down1_ext d (f g : nat -> (nat -> nat -> T) -> nat -> nat -> T) p :
    (forall j p, 1 <= j <= d -> f j p = g j p) -> down1 d f p = down1 d g p.
  Proof.
    intros H. unfold down1. apply fold_ext. intros a x Hx. apply in_rev, in_seq in Hx. apply H. lia.
  Qed.
  Lemma down0_ext d (f g : nat -> (nat -> nat -> T) -> nat -> nat -> T) p :
    (forall j p, j <= d -> f j p = g j p) -> down0 d f p = down0 d g p.
  Proof.
    intros H. unfold down0. apply fold_ext. intros a x Hx. apply in_rev, in_seq in Hx. apply H. lia.
  Qed.

  Lemma rev_sub_ext s r (V V' : nat -> nat -> T) d p :
    (forall x, In x (sub_args s) -> forall k, k <= d -> V x k = V' x k) ->
    (forall n, n < sub_res s -> forall k, k <= d -> V (r + n) k = V' (r + n) k) ->
    rev_sub bnat P s r V d p = rev_sub bnat P s r V' d p.
  Proof.
    intros HA HR.
    assert (forall k, k <= d -> V r k = V' r k) as R0
      by (intros k Hk; specialize (HR 0); rewrite Nat.add_0_r in HR; apply HR; auto;
          destruct s; cbn; lia).
    assert (sub_res s = 2 -> forall k, k <= d -> V (S r) k = V' (S r) k) as R1
      by (intros E k Hk; specialize (HR 1); rewrite Nat.add_1_r in HR; apply HR; auto; lia).
    Ltac rwV V := repeat match goal with
      | H : (forall k, k <= _ -> V ?x k = _) |- context [V ?x ?k] => rewrite (H k) by lia
      end.
    Ltac syn := match goal with |- ?a = ?b => constr_eq a b; exact (eq_refl a) end.
    Ltac desc V := rwV V; first [syn | lazymatch goal with
      | |- (let p := S ?a in @?B p) = (let q := _ in @?B' q) => change (B (S a) = B' (S a)); cbv beta; desc V
      | |- (let p := ?a in @?B p) = (let q := ?a' in @?B' q) =>
        refine (let_ext a a' B B' _ _); [desc V | let p := fresh "p" in intros p; cbv beta; desc V]
      | |- loop _ _ _ _ = _ => apply loop_ext; let k := fresh "k" in let p := fresh "p" in let H := fresh "H" in
                         intros k p H; cbv beta; desc V
      | |- down1 _ _ _ = _ => apply down1_ext; let k := fresh "k" in let p := fresh "p" in let H := fresh "H" in
                         intros k p H; cbv beta; desc V
      | |- down0 _ _ _ = _ => apply down0_ext; let k := fresh "k" in let p := fresh "p" in let H := fresh "H" in
                         intros k p H; cbv beta; desc V
      | |- (if ?c then _ else _) = _ => destruct c; desc V
      | _ => idtac
      end].
    destruct s as [x y|q y|x y|q y|x q|x y|q y|x y|q y|x q|x y|q y|x q|u x|u x|q|q|c x|a|a|x y z1|x q|c x z3];
      cbn [sub_args sub_res] in *;
      try (assert (forall k, k <= d -> V x k = V' x k) as Hx
             by (intros; apply HA; auto; now (left + (right; left) + idtac)));
      try (assert (forall k, k <= d -> V y k = V' y k) as Hy
             by (intros; apply HA; auto; try rewrite in_app_iff; cbn; auto));
      try specialize (R1 eq_refl);
      try (destruct u); cbv beta iota delta [rev_sub]; try (desc V; fail).
    - apply down0_ext; intros j p' Hj. destruct q; cbn [pget]; [reflexivity|].
      rewrite (HA i) by (cbn; auto; lia). reflexivity.
    - set (g := fun V => fun t f : T => cond_exp_code (nth 0 a 0) (vp (nth 1 a 0) 0 P (fun i => V i 0) (nth 2 a 0))
              (vp (nth 1 a 0) 1 P (fun i => V i 0) (nth 3 a 0)) t f).
      assert (g V = g V') as E.
      { unfold g. do 2 (apply functional_extensionality; intros ?).
        f_equal; unfold vp; [destruct (Nat.testbit (nth 1 a 0) 0) eqn:E|destruct (Nat.testbit (nth 1 a 0) 1) eqn:E]; auto;
        apply HA; try lia; unfold var_args; rewrite !in_app_iff, E; cbn; auto. }
      change ((let sel := g V in
        let p := if Nat.testbit (nth 1 a 0) 2 then down0 d (fun j p => padd (nth 4 a 0) j (sel (p r j) b0) p) p else p in
        if Nat.testbit (nth 1 a 0) 3 then down0 d (fun j p => padd (nth 5 a 0) j (sel b0 (p r j)) p) p else p) = 
       (let sel := g V' in
        let p := if Nat.testbit (nth 1 a 0) 2 then down0 d (fun j p => padd (nth 4 a 0) j (sel (p r j) b0) p) p else p in
        if Nat.testbit (nth 1 a 0) 3 then down0 d (fun j p => padd (nth 5 a 0) j (sel b0 (p r j)) p) p else p)).
      rewrite <- E. reflexivity.
    - assert (forall k, k <= d -> V z1 k = V' z1 k) as Hz
        by (intros; apply HA; auto; rewrite in_app_iff; cbn; auto).
      desc V.
    - desc V.
      match goal with |- (let '(p, w) := ?a in _) = (let '(p, w) := ?a' in _) => assert (a = a') as E end.
      { apply fold_ext. intros [p' w'] j Hj. apply in_rev, in_seq in Hj. cbv beta iota. desc V. }
      rewrite E. match goal with |- (let '(p, w) := ?a in _) = _ => destruct a as [p' w'] end.
      desc V.
    - assert (forall k, k <= d -> V z3 k = V' z3 k) as Hz by (intros; apply HA; cbn; auto).
      desc V.
  Qed.

  Lemma rev_step_ext np nv nl lp i (V V' : nat -> nat -> T) (l2v l2v' : nat -> nat) d p :
    wfl np nv nl (i :: lp) ->
    (forall v k, 0 < v < nv + num_res (i_op i) -> k <= d -> V v k = V' v k) ->
    (is_load (i_op i) = true -> l2v nl = l2v' nl) ->
    rev_step bnat P V l2v d i p = rev_step bnat P V' l2v' d i p.
  Proof.
    intros W H HL. pose proof W as (Hiv & _ & _ & HN & H0 & _).
    destruct i as [o a iv]. unfold rev_step. cbn [i_op i_arg i_var] in *.
    destruct (subs o a iv) as [l|] eqn:E.
    - destruct (chain_subs np nv nl (mkIns o a iv) l lp W E) as (O & C & CR & N1 & N2).
      assert (forall p, fold_left (fun p rs => rev_sub bnat P (snd rs) (fst rs) V d p) (rev l) p =
                fold_left (fun p rs => rev_sub bnat P (snd rs) (fst rs) V' d p) (rev l) p) as K.
      { intros p0. apply fold_ext. intros q [r s] Hin. apply in_rev in Hin.
        assert (forall l nv', chain nv' l -> 0 < nv' -> In (r, s) l ->
           Forall (fun x => 0 < x < r) (sub_args s) /\ 0 < r /\ r + sub_res s <= nv' + chain_res l) as KC.
        { clear. induction l as [|[r' s'] l IH]; intros nv' C Hnv []; cbn in C; destruct C as (-> & C1 & C2); cbn [chain_res].
          - injection H as <- <-. split; [auto|]. lia.
          - destruct (IH _ C2 ltac:(lia) H) as (A & B & D). split; [auto|]. lia. }
        assert (0 < nv) as Hnv by (apply H0; destruct o; discriminate).
        destruct (KC l nv C Hnv Hin) as (K1 & K2 & K3).
        cbn [fst snd]. rewrite CR in K3. cbn [i_op] in K3. apply rev_sub_ext.
        - intros x Hx k Hk. rewrite Forall_forall in K1. specialize (K1 x Hx). apply H; auto.
          assert (0 < sub_res s) by (destruct s; cbn; lia). lia.
        - intros n Hn k Hk. apply H; auto. lia. }
      destruct o; auto; rewrite K; auto.
    - destruct o; auto; rewrite HN, HL by auto; reflexivity.
  Qed.

  Lemma sweep_rev_ext np l : forall nv nl k (V V' : nat -> nat -> T) (l2v l2v' : nat -> nat) sk d p,
    wfl np nv nl l ->
    (forall v k, 0 < v < nv + tres l -> k <= d -> V v k = V' v k) ->
    (forall m, nl <= m < nl + nload l -> l2v m = l2v' m) ->
    sweep_rev bnat P V l2v sk d l k p = sweep_rev bnat P V' l2v' sk d l k p.
  Proof.
    induction l as [|i l IH]; intros nv nl k V V' l2v l2v' sk d p W H HL; cbn [sweep_rev]; auto.
    cbn [tres nload] in *. pose proof W as (_ & _ & _ & _ & _ & W2).
    rewrite (IH _ _ (S k) V V' l2v l2v' sk d p W2).
    - destruct (sk k); auto. eapply rev_step_ext; eauto.
      + intros; apply H; lia.
      + intros Hl. apply HL. rewrite Hl. lia.
    - intros; apply H; lia.
    - intros m Hm. apply HL. destruct (is_load (i_op i)); lia.
  Qed.
End RevExt.
