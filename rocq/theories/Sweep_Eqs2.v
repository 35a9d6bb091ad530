(** The loops of one operator solve its equations (any Base). *)
From Coq Require Import ZArith List Bool Arith Lia.
From Verif Require Import Base_Spec Op_Model Tape_Spec Tape_Model Tape_Proof Tape_Proof2 Sweep_Model Sweep_Eqs.
Import ListNotations.

Section Eqs.
  Context {b : base}.
  Notation T := (bt b).
  Variable bnat : nat -> T.
  Variable P : nat -> T.
  Notation coef := (coef bnat P).
  Notation run_sub := (run_sub bnat P).

  Definition sub_ok (s : sub) : Prop :=
    match s with SCsum a => 5 <= nth 1 a 0 <= nth 2 a 0 | _ => True end.

  Lemma coef_length s r V j : length (coef s r V j) = sub_res s.
  Proof.
    destruct s as [| | | | | | | | | | | | |u x|u x| | | | | | | |]; cbn; auto;
      destruct u; cbn; auto; destruct (j =? 0); auto.
  Qed.

  Lemma put_row_spec (l : list T) : forall V r j v k,
    put_row V r j l v k =
    if (k =? j) && (r <=? v) && (v <? r + length l) then nth (v - r) l b0 else V v k.
  Proof.
    induction l as [|c l IH]; intros V r j v k.
    - cbn [put_row length]. rewrite Nat.add_0_r.
      destruct (Nat.leb_spec r v), (Nat.ltb_spec v r), (k =? j); cbn; auto; lia.
    - cbn [put_row length]. rewrite IH. unfold pset.
      destruct (Nat.eqb_spec k j) as [->|]; cbn [andb]; [|now rewrite andb_false_r].
      destruct (Nat.leb_spec (S r) v), (Nat.ltb_spec v (S r + length l)),
               (Nat.leb_spec r v), (Nat.ltb_spec v (r + S (length l))); cbn [andb]; try lia;
        destruct (Nat.eqb_spec v r); cbn [andb]; try lia; auto.
      + replace (v - r) with (S (v - S r)) by lia. auto.
      + subst. rewrite Nat.sub_diag. auto.
  Qed.

  Definition sat_sub (V : nat -> nat -> T) (r : nat) (s : sub) (j : nat) : Prop :=
    forall n, n < sub_res s -> V (r + n) j = nth n (coef s r V j) b0.

  Lemma sat_sub_ext V V' r s j : sub_ok s ->
    Forall (fun x => 0 < x < r) (sub_args s) ->
    (forall v k, v < r + sub_res s -> k <= j -> V v k = V' v k) ->
    sat_sub V r s j -> sat_sub V' r s j.
  Proof.
    intros Hok Ha H S n Hn. rewrite <- H by lia. rewrite S by auto. f_equal.
    apply coef_ext; auto.
    - intros x Hx k Hk. apply H; auto. rewrite Forall_forall in Ha. apply Ha in Hx. lia.
    - intros m Hm k Hk. apply H; lia.
  Qed.

  Lemma run_sub_spec lo up V r s : sub_ok s ->
    Forall (fun x => 0 < x < r) (sub_args s) ->
    let V' := run_sub lo up V (r, s) in
    (forall v k, v < r \/ r + sub_res s <= v \/ k < lo \/ up < k -> V' v k = V v k) /\
    (forall j, lo <= j <= up -> sat_sub V' r s j).
  Proof.
    intros Hok Ha. unfold Sweep_Model.run_sub. cbn [fst snd].
    set (f := fun j V => put_row V r j (coef s r V j)).
    assert (forall n, let V' := loop lo (lo + n) f V in
      (forall v k, v < r \/ r + sub_res s <= v \/ k < lo \/ lo + n <= k -> V' v k = V v k) /\
      (forall j, lo <= j < lo + n -> sat_sub V' r s j)) as K.
    { induction n as [|n IH]; cbn zeta.
      - rewrite Nat.add_0_r, loop_none by lia. split; auto. intros; lia.
      - replace (lo + S n) with (S (lo + n)) by lia. rewrite loop_last by lia.
        set (W := loop lo (lo + n) f V) in *. cbn zeta in IH. destruct IH as [F E].
        assert (forall v k, k <> lo + n \/ v < r \/ r + sub_res s <= v -> f (lo + n) W v k = W v k) as G.
        { intros v k H. unfold f. rewrite put_row_spec, coef_length.
          destruct (Nat.eqb_spec k (lo + n)), (Nat.leb_spec r v), (Nat.ltb_spec v (r + sub_res s));
            cbn; auto; lia. }
        split.
        + intros v k H. rewrite G by lia. apply F. lia.
        + intros j Hj.
          destruct (Nat.eq_dec j (lo + n)) as [->|].
          * intros m Hm. unfold f at 1. rewrite put_row_spec, coef_length, Nat.eqb_refl.
            destruct (Nat.leb_spec r (r + m)), (Nat.ltb_spec (r + m) (r + sub_res s)); try lia.
            cbn [andb]. replace (r + m - r) with m by lia. f_equal. apply coef_ext; auto.
            -- intros x Hx k Hk. rewrite G; auto. rewrite Forall_forall in Ha. apply Ha in Hx. lia.
            -- intros i Hi k Hk. rewrite G; auto. lia.
          * eapply (sat_sub_ext W); [auto|auto| |apply E; lia].
            intros v k Hv Hk. rewrite G; auto. lia. }
    destruct (le_lt_dec lo (S up)) as [Hle|Hlt].
    - specialize (K (S up - lo)). cbn zeta in K. replace (lo + (S up - lo)) with (S up) in K by lia.
      destruct K as [F E]. split.
      + intros v k H. apply F. lia.
      + intros j H. apply E. lia.
    - rewrite loop_none by lia. split; auto. intros; lia.
  Qed.

  Definition sat_subs (V : nat -> nat -> T) (l : list (nat * sub)) (j : nat) : Prop :=
    Forall (fun rs => sat_sub V (fst rs) (snd rs) j) l.

  Definition subs_ok (l : list (nat * sub)) := Forall (fun rs => sub_ok (snd rs)) l.

  Lemma chain_ge l : forall r rs, chain r l -> In rs l -> r <= fst rs /\
    fst rs + sub_res (snd rs) <= r + chain_res l /\ Forall (fun x => 0 < x < fst rs) (sub_args (snd rs)).
  Proof.
    induction l as [|[r' s] l IH]; intros r rs H [].
    - destruct H as (-> & A & B). subst. cbn. repeat split; auto; lia.
    - destruct H as (-> & A & B). destruct (IH _ _ B H0) as (C & D & E). cbn. repeat split; auto; lia.
  Qed.

  Lemma sat_subs_ext V V' l r j : subs_ok l -> chain r l ->
    (forall v k, v < r + chain_res l -> k <= j -> V v k = V' v k) ->
    sat_subs V l j -> sat_subs V' l j.
  Proof.
    unfold sat_subs, subs_ok. rewrite !Forall_forall. intros O C H S rs Hin.
    destruct (chain_ge _ _ _ C Hin) as (A & B & D).
    eapply sat_sub_ext; [apply O; auto|auto| |apply S; auto].
    intros v k Hv Hk. apply H; lia.
  Qed.

  Lemma run_subs_spec lo up l : forall V r, subs_ok l -> chain r l ->
    let V' := fold_left (run_sub lo up) l V in
    (forall v k, v < r \/ r + chain_res l <= v \/ k < lo \/ up < k -> V' v k = V v k) /\
    (forall j, lo <= j <= up -> sat_subs V' l j).
  Proof.
    induction l as [|[r' s] l IH]; intros V r O C; cbn zeta.
    - cbn. split; auto. intros; constructor.
    - destruct C as (-> & A & C). inversion O as [|? ? O1 O2]; subst. cbn [snd] in O1.
      cbn [fold_left chain_res].
      destruct (run_sub_spec lo up V r s O1 A) as [F E].
      destruct (IH (run_sub lo up V (r, s)) (r + sub_res s) O2 C) as [F' E'].
      set (W := run_sub lo up V (r, s)) in *.
      split.
      + intros v k H. rewrite F' by lia. apply F. lia.
      + intros j Hj. constructor; [|apply E'; auto]. cbn [fst snd].
        eapply sat_sub_ext; [auto|auto| |apply (E j Hj)].
        intros v k Hv Hk. rewrite F'; auto.
  Qed.

  (** the equations determine the results *)
  Lemma sat_sub_unique V V' r s q : sub_ok s ->
    Forall (fun x => 0 < x < r) (sub_args s) ->
    (forall v k, v < r -> k <= q -> V v k = V' v k) ->
    (forall j, j <= q -> sat_sub V r s j) -> (forall j, j <= q -> sat_sub V' r s j) ->
    forall v k, v < r + sub_res s -> k <= q -> V v k = V' v k.
  Proof.
    intros O A H S S' v k Hv Hk. destruct (le_lt_dec r v) as [Hr|]; [|apply H; auto].
    revert v Hv Hr. induction k as [k IH] using lt_wf_ind. intros v Hv Hr.
    replace v with (r + (v - r)) by lia.
    rewrite S, S' by lia. f_equal. apply coef_ext; auto.
    - intros x Hx i Hi. apply H; try lia. rewrite Forall_forall in A. apply A in Hx. lia.
    - intros n Hn i Hi. apply IH; lia.
  Qed.
  Lemma sat_subs_unique q l : forall V V' r, subs_ok l -> chain r l ->
    (forall v k, v < r -> k <= q -> V v k = V' v k) ->
    (forall j, j <= q -> sat_subs V l j) -> (forall j, j <= q -> sat_subs V' l j) ->
    forall v k, v < r + chain_res l -> k <= q -> V v k = V' v k.
  Proof.
    induction l as [|[r' s] l IH]; intros V V' r O C H S S' v k Hv Hk.
    - apply H; auto. cbn in Hv. lia.
    - destruct C as (-> & A & C). inversion O as [|? ? O1 O2]; subst. cbn [snd chain_res] in *.
      eapply (IH V V' (r + sub_res s)); auto; try lia.
      + intros w i Hw Hi. eapply (sat_sub_unique V V' r s q); auto.
        * intros j Hj. specialize (S j Hj). now inversion S.
        * intros j Hj. specialize (S' j Hj). now inversion S'.
      + intros j Hj. specialize (S j Hj). now inversion S.
      + intros j Hj. specialize (S' j Hj). now inversion S'.
  Qed.
End Eqs.
