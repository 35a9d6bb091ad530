From mathcomp Require Import all_ssreflect all_algebra all_fingroup.
From Verif Require Import LU_Model LU_Proof LU_Proof2.
Set Implicit Arguments.
Unset Strict Implicit.
Unset Printing Implicit Defensive.
Import Order.TTheory GRing.Theory Num.Theory.
Local Open Scope ring_scope.

Section Invert.
  Variable F : realFieldType.
  Variables (n m : nat) (ip jp : nat -> nat) (LU : nat -> F).
  Hypotheses (Pi : isperm n ip) (Pj : isperm n jp).
  Let M := view n ip jp LU.
  Implicit Types (B x : nat -> F).

  Definition col B k i : F := B (ip i * m + k)%N.
  Arguments col : simpl never.
  Local Arguments back_step : simpl never.
  (** B' differs from B in column k only *)
  Definition only k B B' : Prop := forall r k2, (k2 < m)%N -> k2 != k -> B' (r * m + k2)%N = B (r * m + k2)%N.
  Lemma only_refl k B : only k B B. Proof. by []. Qed.
  Lemma only_trans k B1 B2 B3 : only k B1 B2 -> only k B2 B3 -> only k B1 B3.
  Proof. move=> H1 H2 r k2 Hk N. by rewrite H2 ?H1. Qed.
  Lemma only_upd k B r v : (k < m)%N -> only k B (upd B (r * m + k)%N v).
  Proof. move=> Hk r' k2 Hk2 N. by rewrite /upd flat_eq // (negbTE N) andbF. Qed.
  Lemma col_upd B k i0 v i : (k < m)%N -> (i0 < n)%N -> (i < n)%N ->
    col (upd B (ip i0 * m + k)%N v) k i = if i == i0 then v else col B k i.
  Proof. move=> Hk H0 Hi. rewrite /col /upd flat_eq // eqxx andbT. by rewrite (isperm_eq Pi). Qed.

  (** the inner loops *)
  Lemma sub_loop k e p s B : (k < m)%N -> (p < n)%N -> all (fun i => (i < n)%N) s -> uniq s ->
    let B' := foldl (fun B i => upd B (ip i * m + k)%N (B (ip i * m + k)%N - e * LU (ip i * n + jp p)%N)) B s in
    only k B B' /\ forall i, (i < n)%N -> col B' k i = if i \in s then col B k i - e * M i p else col B k i.
  Proof.
    move=> Hk Hp. elim: s B => [|i0 s IH] B /=; first by [].
    case/andP=> H0 Hs /andP[Hn Hu].
    have [O C] := IH (upd B (ip i0 * m + k)%N (B (ip i0 * m + k)%N - e * LU (ip i0 * n + jp p)%N)) Hs Hu.
    split; first by apply: only_trans O; apply: only_upd.
    move=> i Hi. rewrite C // !col_upd // in_cons.
    have [->|N] := eqVneq i i0; rewrite /= ?(negbTE Hn) //.
  Qed.

  Lemma for_step_spec k p B : (k < m)%N -> (p < n)%N ->
    let B' := for_step n m k ip jp LU B p in
    only k B B' /\ forall i, (i < n)%N -> col B' k i =
      if i == p then col B k p / M p p
      else if (p < i)%N then col B k i - col B k p / M p p * M i p else col B k i.
  Proof.
    move=> Hk Hp /=. rewrite /for_step.
    have Ha : all (fun i => (i < n)%N) (iota p.+1 (n - p.+1)).
    { apply/allP => i. rewrite mem_iota subnKC //. by case/andP. }
    have [O C] := sub_loop (B (ip p * m + k)%N / LU (ip p * n + jp p)%N)
       (upd B (ip p * m + k)%N (B (ip p * m + k)%N / LU (ip p * n + jp p)%N)) Hk Hp Ha (iota_uniq _ _).
    split; first by apply: only_trans O; apply: only_upd.
    move=> i Hi. rewrite C // col_upd // mem_iota subnKC // Hi andbT -/(col B k p) -/(M p p).
    have [->|N] := eqVneq i p; first by rewrite ltnn. by [].
  Qed.

  Lemma for_loop_spec k B0 : (k < m)%N -> (forall p, (p < n)%N -> M p p != 0) ->
    forall p, (p <= n)%N -> let B := foldl (for_step n m k ip jp LU) B0 (iota 0 p) in
    only k B0 B /\ forall i, (i < n)%N ->
      col B0 k i = \sum_(q < p) Lm M i q * col B k q + (if (p <= i)%N then col B k i else 0).
  Proof.
    move=> Hk D. elim=> [|p IH] Hp; first by split=> // i Hi; rewrite big_ord0 add0r.
    have [O I] := IH (ltnW Hp). rewrite -[in iota _ _]addn1 iotaD foldl_cat add0n /=.
    set B := foldl _ _ _ in O I *.
    have [O2 C] := @for_step_spec k p B Hk Hp. split; first exact: only_trans O O2.
    move=> i Hi. rewrite I // big_ord_recr /= -addrA. congr (_ + _).
    - apply: eq_bigr => -[q Hq] _ /=. rewrite C; last exact: ltn_trans Hq Hp.
      by rewrite ltn_eqF // ltnNge (ltnW Hq).
    - rewrite !C // eqxx /Lm. case: (ltngtP p i) => Hpi.
      + by rewrite addrC mulrC subrK.
      + by rewrite mul0r addr0.
      + by rewrite -Hpi addr0 mulrC divfK // D.
  Qed.

  Lemma back_step_spec k p B x : (k < m)%N -> (p < n)%N ->
    forall B' x', back_step n m k ip jp LU (B, x) p = (B', x') ->
    [/\ only k B B', (forall i, (i < n)%N -> col B' k i = if (i < p)%N then col B k i - col B k p * M i p else col B k i) &
        forall q, (q < n)%N -> x' (jp q) = if q == p then col B k p else x (jp q)].
  Proof.
    move=> Hk Hp B' x'. rewrite /back_step => -[<- <-].
    have Ha : all (fun i => (i < n)%N) (iota 0 p).
    { apply/allP => i. rewrite mem_iota add0n => /andP[_ H]. exact: ltn_trans H Hp. }
    have [O C] := sub_loop (B (ip p * m + k)%N) B Hk Hp Ha (iota_uniq _ _).
    split=> //.
    - move=> i Hi. rewrite C // mem_iota add0n. by rewrite leq0n.
    - move=> q Hq. by rewrite /upd (isperm_eq Pj).
  Qed.

  Lemma back_loop_spec k y B1 : (k < m)%N ->
    forall p B x, (p <= n)%N -> only k B1 B ->
    (forall i, (i < n)%N -> y i = \sum_(p <= q < n) Um M i q * x (jp q) + (if (i < p)%N then col B k i else 0)) ->
    let: (B', x') := foldl (back_step n m k ip jp LU) (B, x) (rev (iota 0 p)) in
    only k B1 B' /\ forall i, (i < n)%N -> y i = \sum_(0 <= q < n) Um M i q * x' (jp q).
  Proof.
    move=> Hk. elim=> [|p IH] B x Hp O I.
    - rewrite /=. split=> // i Hi. by rewrite I // addr0.
    - rewrite -[in iota _ _]addn1 iotaD rev_cat add0n /=.
      case E: (back_step n m k ip jp LU (B, x) p) => [B' x'].
      have [O' C X] := @back_step_spec k p B x Hk Hp B' x' E.
      move: (IH B' x' (ltnW Hp) (only_trans O O')).
      case: (foldl _ (B', x') _) => B3 x3 Q. apply: Q.
      move=> i Hi. rewrite I // [in RHS]big_ltn // X // eqxx.
      have -> : \sum_(p.+1 <= q < n) Um M i q * x' (jp q) = \sum_(p.+1 <= q < n) Um M i q * x (jp q).
      { apply: eq_big_nat => q /andP[H1 H2]. by rewrite X // gtn_eqF. }
      rewrite addrAC addrC. congr (_ + _). rewrite C // ltnS.
      rewrite /Um. case: (ltngtP i p) => Hip.
      + by rewrite mulrC addrC subrK.
      + by rewrite mul0r addr0.
      + by rewrite Hip mul1r addr0.
  Qed.

  Lemma copy_loop x k s B : (k < m)%N -> let B' := foldl (fun B i => upd B (i * m + k)%N (x i)) B s in
    only k B B' /\ forall i, B' (i * m + k)%N = if i \in s then x i else B (i * m + k)%N.
  Proof.
    move=> Hk. elim: s B => [|i0 s IH] B /=; first by [].
    have [O C] := IH (upd B (i0 * m + k)%N (x i0)). split.
    - by apply: only_trans O; apply: only_upd.
    - move=> i. rewrite C in_cons /upd flat_eq // eqxx andbT.
      case: eqP => [->|] //=. by case: ifP.
  Qed.

  (** x solves L U x = b (pivoted coordinates) *)
  Definition solves (b x : nat -> F) : Prop := forall i, (i < n)%N ->
    \sum_(q < n) (\sum_(k < n) Lm M i k * Um M k q) * x (jp q) = b i.

  Lemma invert_col_ok k B : (k < m)%N -> (forall p, (p < n)%N -> M p p != 0) ->
    let B' := invert_col n m ip jp LU B k in
    only k B B' /\ solves (col B k) (fun j => B' (j * m + k)%N).
  Proof.
    move=> Hk D. rewrite /invert_col. have [O1 I1] := for_loop_spec B Hk D (leqnn n).
    set B1 := foldl _ B _ in O1 I1 *.
    have Q := @back_loop_spec k (col B1 k) B1 Hk n B1 (fun _ => 0) (leqnn n) (fun _ _ _ _ => erefl).
    move: Q. case: (foldl _ (B1, _) _) => B2 x Q.
    have [O2 I2] : only k B1 B2 /\ forall i, (i < n)%N -> col B1 k i = \sum_(0 <= q < n) Um M i q * x (jp q).
    { apply: Q => i Hi. by rewrite big_geq // add0r Hi. }
    have [O3 C] := copy_loop x (iota 0 n) B2 Hk. split.
    { apply: only_trans O1 _. exact: only_trans O2 O3. }
    move=> i Hi. transitivity (\sum_(k0 < n) Lm M i k0 * col B1 k k0); last first.
    { by rewrite I1 // leqNgt Hi /= addr0. }
    transitivity (\sum_(q < n) \sum_(k0 < n) Lm M i k0 * (Um M k0 q * x (jp q))).
    { apply: eq_bigr => q _. rewrite C mem_iota add0n leq0n (isperm_lt Pj) //= mulr_suml.
      apply: eq_bigr => k0 _. by rewrite mulrA. }
    rewrite exchange_big /=. apply: eq_bigr => k0 _. rewrite I2 // big_mkord mulr_sumr. by [].
  Qed.

  Lemma LuInvert_ok B : (forall p, (p < n)%N -> M p p != 0) ->
    let X := LuInvert n m ip jp LU B in
    forall k, (k < m)%N -> solves (col B k) (fun j => X (j * m + k)%N).
  Proof.
    move=> D. rewrite /LuInvert.
    have G : forall s B, uniq s -> all (fun k => (k < m)%N) s ->
      let X := foldl (invert_col n m ip jp LU) B s in
      (forall k, k \in s -> solves (col B k) (fun j => X (j * m + k)%N)) /\
      (forall r k, (k < m)%N -> k \notin s -> X (r * m + k)%N = B (r * m + k)%N).
    { elim=> [|k0 s IH] {}B /=; first by [].
      case/andP=> N U /andP[H0 Hs]. have [O S] := invert_col_ok B H0 D.
      have [Q1 Q2] := IH (invert_col n m ip jp LU B k0) U Hs. split.
      - move=> k. rewrite in_cons => /orP[/eqP->|Hin].
        + move=> i Hi. rewrite -(S i Hi). apply: eq_bigr => q _. by rewrite Q2.
        + have Hk : (k < m)%N by move/allP: Hs => /(_ k Hin).
          have Nk : k != k0 by apply: contraNneq N => <-.
          move=> i Hi. rewrite (Q1 k Hin i Hi) /col. exact: O.
      - move=> r k Hk. rewrite in_cons negb_or => /andP[N1 N2]. rewrite Q2 //. exact: O. }
    have [] := G (iota 0 m) B (iota_uniq _ _).
    - apply/allP => k. by rewrite mem_iota.
    - move=> Q _ k Hk. apply: Q. by rewrite mem_iota.
  Qed.
End Invert.
