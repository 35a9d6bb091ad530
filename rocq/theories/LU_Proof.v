From mathcomp Require Import all_ssreflect all_algebra all_fingroup.
From Verif Require Import LU_Model.
Set Implicit Arguments.
Unset Strict Implicit.
Unset Printing Implicit Defensive.
Import Order.TTheory GRing.Theory Num.Theory.
Local Open Scope ring_scope.

Section Proof.
  Variable F : realFieldType.
  Variable n : nat.
  Implicit Types (LU A B : nat -> F) (ip jp f : nat -> nat).

  (** permutation of 0 .. n-1 *)
  Definition isperm f := exists s : 'S_n, forall i : 'I_n, f i = s i :> nat.

  Lemma isperm_lt f i : isperm f -> (i < n)%N -> (f i < n)%N.
  Proof. case=> s Hs Hi. by rewrite (Hs (Ordinal Hi)). Qed.
  Lemma isperm_eq f i j : isperm f -> (i < n)%N -> (j < n)%N -> (f i == f j) = (i == j).
  Proof.
    case=> s Hs Hi Hj. rewrite (Hs (Ordinal Hi)) (Hs (Ordinal Hj)).
    by rewrite (inj_eq val_inj) (inj_eq perm_inj).
  Qed.

  Lemma flat_eq m a b c d : (b < m)%N -> (d < m)%N ->
    (a * m + b == c * m + d)%N = (a == c) && (b == d).
  Proof.
    move=> Hb Hd. apply/eqP/andP; last by case=> /eqP-> /eqP->.
    move=> E. have m0 : (0 < m)%N by case: m Hb {Hd E}.
    have := congr1 (fun x => x %/ m)%N E. have := congr1 (fun x => x %% m)%N E => /=.
    rewrite !modnMDl !modn_small // !divnMDl // !divn_small // !addn0. by move=> -> ->.
  Qed.

  (** the matrix in pivoted coordinates *)
  Definition view ip jp LU i j : F := LU (ip i * n + jp j)%N.
  Arguments view : simpl never.
  Lemma view_upd ip jp LU i0 j0 v i j : isperm ip -> isperm jp ->
    (i0 < n)%N -> (j0 < n)%N -> (i < n)%N -> (j < n)%N ->
    view ip jp (upd LU (ip i0 * n + jp j0)%N v) i j
    = if (i == i0) && (j == j0) then v else view ip jp LU i j.
  Proof.
    move=> Pi Pj H1 H2 H3 H4. rewrite /view /upd flat_eq ?isperm_lt //.
    by rewrite !isperm_eq.
  Qed.

  Section Elim.
    Variables (ip jp : nat -> nat).
    Hypotheses (Pi : isperm ip) (Pj : isperm jp).
    Notation V := (view ip jp).

    Lemma scale_spec p pivot s LU : (p < n)%N -> all (fun j => (p < j < n)%N) s -> uniq s ->
      forall i j, (i < n)%N -> (j < n)%N ->
      V (foldl (fun LU j => upd LU (ip p * n + jp j)%N (LU (ip p * n + jp j)%N / pivot)) LU s) i j
      = if (i == p) && (j \in s) then V LU i j / pivot else V LU i j.
    Proof.
      move=> Hp. elim: s LU => [|j0 s IH] LU /=; first by move=> _ _ i j; rewrite in_nil andbF.
      case/andP=> /andP[H0 H1] Hs /andP[Hn Hu] i j Hi Hj.
      rewrite IH // !view_upd // in_cons. rewrite -/(V LU p j0).
      have [->|Np] := eqVneq i p; rewrite ?andTb ?andFb //=.
      have [->|Nj] := eqVneq j j0; rewrite ?orTb ?orFb //=.
      by rewrite (negbTE Hn).
    Qed.
    Lemma elim_row_spec p i0 e s LU : (p < n)%N -> (p < i0 < n)%N ->
      all (fun j => (p < j < n)%N) s -> uniq s ->
      forall i j, (i < n)%N -> (j < n)%N ->
      V (foldl (fun LU j => upd LU (ip i0 * n + jp j)%N
              (LU (ip i0 * n + jp j)%N - e * LU (ip p * n + jp j)%N)) LU s) i j
      = if (i == i0) && (j \in s) then V LU i j - e * V LU p j else V LU i j.
    Proof.
      move=> Hp /andP[Hpi Hi0]. elim: s LU => [|j0 s IH] LU /=; first by move=> _ _ i j; rewrite in_nil andbF.
      case/andP=> /andP[H0 H1] Hs /andP[Hn Hu] i j Hi Hj.
      rewrite IH // !view_upd // in_cons -/(V LU i0 j0) -/(V LU p j0).
      have Npi : (p == i0) = false by rewrite ltn_eqF.
      rewrite Npi /=.
      have [->|Np] := eqVneq i i0; rewrite ?andTb ?andFb //=.
      have [->|Nj] := eqVneq j j0; rewrite ?orTb ?orFb //=.
      by rewrite (negbTE Hn).
    Qed.
    Lemma elim_spec p s LU : (p < n)%N -> all (fun j => (p < j < n)%N) s -> uniq s ->
      forall i j, (i < n)%N -> (j < n)%N ->
      V (foldl (fun LU i => elim_row n ip jp p i LU) LU s) i j
      = if (i \in s) && (p < j)%N then V LU i j - V LU i p * V LU p j else V LU i j.
    Proof.
      move=> Hp. elim: s LU => [|i0 s IH] LU /=; first by move=> _ _ i j; rewrite ?in_nil.
      case/andP=> H0 Hs /andP[Hn Hu] i j Hi Hj. have /andP[H0a H0b] := H0.
      have E : forall i j, (i < n)%N -> (j < n)%N ->
        V (elim_row n ip jp p i0 LU) i j = if (i == i0) && (p < j)%N then V LU i j - V LU i0 p * V LU p j else V LU i j.
      { move=> i' j' Hi' Hj'. rewrite /elim_row elim_row_spec ?iota_uniq //.
        - by rewrite mem_iota subnKC // Hj' andbT.
        - apply/allP => k. by rewrite mem_iota subnKC. }
      rewrite IH // !E // in_cons ltnn !andbF.
      have -> : (p == i0) = false by rewrite ltn_eqF.
      rewrite /=.
      have [->|Ni] := eqVneq i i0; rewrite ?orTb ?orFb //=.
      by rewrite (negbTE Hn).
    Qed.
    (** the matrix after one pass *)
    Lemma pass_spec p pivot LU : (p < n)%N -> forall i j, (i < n)%N -> (j < n)%N ->
      V (elim n ip jp p (scale_row n ip jp p pivot LU)) i j
      = if (p < i)%N && (p < j)%N then V LU i j - V LU i p * (V LU p j / pivot)
        else if (i == p) && (p < j)%N then V LU i j / pivot else V LU i j.
    Proof.
      move=> Hp i j Hi Hj. rewrite /elim elim_spec ?iota_uniq //;
        last by apply/allP => k; rewrite mem_iota subnKC.
      rewrite mem_iota subnKC // Hi andbT.
      have S : forall i j, (i < n)%N -> (j < n)%N -> V (scale_row n ip jp p pivot LU) i j
               = if (i == p) && (p < j)%N then V LU i j / pivot else V LU i j.
      { move=> i' j' Hi' Hj'. rewrite /scale_row scale_spec ?iota_uniq //;
          last by apply/allP => k; rewrite mem_iota subnKC.
        by rewrite mem_iota subnKC // Hj' andbT. }
      rewrite !S // ltnn eqxx !andbF !andTb.
      case: ltnP => //= Hpi. case: ltnP => //= Hpj.
      by rewrite andbT gtn_eqF.
    Qed.
  End Elim.

  (** *** the search finds an element of maximal absolute value *)
  Lemma abs_geqE (x y : F) : abs_geq x y = (`|y| <= `|x|).
  Proof.
    have E : forall z : F, (if z <= 0 then - z else z) = `|z|.
    { move=> z. case: ifP => H; first by rewrite ler0_norm.
      rewrite gtr0_norm // ltNge. by rewrite H. }
    by rewrite /abs_geq !E.
  Qed.
  Lemma search_spec ip jp LU p : (p < n)%N ->
    let: (im, jm, e) := search n ip jp LU p in
    [/\ (p <= im < n)%N, (p <= jm < n)%N, e = view ip jp LU im jm &
        forall i j, (p <= i < n)%N -> (p <= j < n)%N -> `|view ip jp LU i j| <= `|e|].
  Proof.
    move=> Hp.
    pose ok (st : nat * nat * F) :=
      ((p <= st.1.1 < n)%N /\ (p <= st.1.2 < n)%N /\ st.2 = view ip jp LU st.1.1 st.1.2).
    have row : forall s i (st : nat * nat * F), (p <= i < n)%N -> all (fun j => (p <= j < n)%N) s ->
      (st.2 = 0 /\ s != [::]) \/ ok st ->
      let st' := foldl (fun st j => let e := LU (ip i * n + jp j)%N in
                       if abs_geq e st.2 then (i, j, e) else st) st s in
      ok st' /\ `|st.2| <= `|st'.2| /\ (forall j, j \in s -> `|view ip jp LU i j| <= `|st'.2|).
    { elim=> [|j0 s IH] i st Hi /=.
      - move=> _ [[_ //]|H]; by split.
      - case/andP=> H0 Hs H. rewrite abs_geqE -/(view ip jp LU i j0).
        have H1 : ok (if `|st.2| <= `|view ip jp LU i j0| then (i, j0, view ip jp LU i j0) else st).
        { case: ifP => C; first by split.
          case: H => // -[E _]. by rewrite E normr0 normr_ge0 in C. }
        set st1 := (if _ then _ else _) in H1 *.
        have [] := IH i st1 Hi Hs (or_intror H1). move=> Q1 [Q2 Q3].
        have M1 : `|st.2| <= `|st1.2|.
        { rewrite /st1. by case: ifP. }
        have M2 : `|view ip jp LU i j0| <= `|st1.2|.
        { rewrite /st1. case: ifP => //= C. by rewrite ltW // ltNge C. }
        split=> //. split; first exact: le_trans M1 Q2.
        move=> j. rewrite in_cons => /orP[/eqP->|]; last exact: Q3.
        exact: le_trans M2 Q2. }
    have tot : forall s (st : nat * nat * F), all (fun i => (p <= i < n)%N) s ->
      (st.2 = 0 /\ s != [::]) \/ ok st ->
      let st' := foldl (fun st i => search_row n ip jp LU p i st) st s in
      ok st' /\ `|st.2| <= `|st'.2| /\
      (forall i j, i \in s -> (p <= j < n)%N -> `|view ip jp LU i j| <= `|st'.2|).
    { elim=> [|i0 s IH] st /=.
      - move=> _ [[_ //]|H]; by split.
      - case/andP=> H0 Hs H.
        have A : all (fun j => (p <= j < n)%N) (iota p (n - p)).
        { apply/allP => k. by rewrite mem_iota subnKC // ltnW. }
        have B : (st.2 = 0 /\ iota p (n - p) != [::]) \/ ok st.
        { case: H => [[E _]|]; [left|by right]. split=> //. by rewrite -size_eq0 size_iota subn_eq0 -ltnNge. }
        have [R1 [R2 R3]] := row _ i0 st H0 A B.
        rewrite -/(search_row n ip jp LU p i0 st) in R1 R2 R3.
        have [Q1 [Q2 Q3]] := IH _ Hs (or_intror R1).
        split=> //. split; first exact: le_trans R2 Q2.
        move=> i j. rewrite in_cons => /orP[/eqP->|]; last exact: Q3.
        move=> Hj. apply: le_trans (R3 j _) Q2. by rewrite mem_iota subnKC // ltnW. }
    have [] := tot (iota p (n - p)) (n, n, 0).
    - apply/allP => k. by rewrite mem_iota subnKC // ltnW.
    - left. split=> //. by rewrite -size_eq0 size_iota subn_eq0 -ltnNge.
    - rewrite -/(search n ip jp LU p). case: (search n ip jp LU p) => [[im jm] e] /= [/= H1 [H2 H3]] [_ H4].
      split=> // i j Hi Hj. apply: H4 => //. by rewrite mem_iota subnKC // ltnW.
  Qed.

  (** *** exchanges *)
  Definition tr (p q i : nat) : nat := if i == p then q else if i == q then p else i.
  Lemma exchange_tr f p q i : exchange f p q i = f (tr p q i).
  Proof.
    rewrite /exchange /upd /tr. case: eqP => [->|].
    - by case: eqP => [->|].
    - by case: eqP.
  Qed.
  Lemma isperm_exchange f p q : isperm f -> (p < n)%N -> (q < n)%N -> isperm (exchange f p q).
  Proof.
    case=> s Hs Hp Hq. exists (tperm (Ordinal Hp) (Ordinal Hq) * s)%g => i.
    rewrite permM exchange_tr -Hs. congr (f _). rewrite /tr.
    case: tpermP => [->|->|] //=; rewrite ?eqxx //.
    - by case: eqP => [->|].
    - move=> /eqP N1 /eqP N2. by rewrite -!(inj_eq val_inj) /= in N1 N2; rewrite (negbTE N1) (negbTE N2).
  Qed.

  Definition sgn (f : nat -> nat) (z : int) : Prop :=
    exists s : 'S_n, (forall i : 'I_n, f i = s i :> nat) /\ z = (-1) ^+ s.
  Lemma sgn_exchange f z p q : sgn f z -> (p < n)%N -> (q < n)%N -> q != p -> sgn (exchange f p q) (- z).
  Proof.
    case=> s [Hs ->] Hp Hq N. exists (tperm (Ordinal Hp) (Ordinal Hq) * s)%g. split.
    - move=> i. rewrite permM exchange_tr -Hs. congr (f _). rewrite /tr.
      case: tpermP => [->|->|] //=; rewrite ?eqxx //.
      + by case: eqP => [->|].
      + move=> /eqP N1 /eqP N2. by rewrite -!(inj_eq val_inj) /= in N1 N2; rewrite (negbTE N1) (negbTE N2).
    - rewrite odd_permM odd_tperm -(inj_eq val_inj) /= eq_sym N /=.
      by case: (odd_perm s); rewrite /= ?expr0 ?expr1 ?opprK.
  Qed.
End Proof.
