From mathcomp Require Import all_ssreflect all_algebra all_fingroup.
From Verif Require Import LU_Model LU_Proof.
Set Implicit Arguments.
Unset Strict Implicit.
Unset Printing Implicit Defensive.
Import Order.TTheory GRing.Theory Num.Theory.
Local Open Scope ring_scope.

Section Factor.
  Variable F : realFieldType.
  Variable n : nat.
  Variable A : nat -> F.
  Implicit Types (M : nat -> nat -> F) (s : lu F).

  Definition Lm M i k : F := if (k <= i)%N then M i k else 0.
  Definition Um M k j : F := if k == j then 1 else if (k < j)%N then M k j else 0.
  Definition vw s := view n (l_ip s) (l_jp s) (l_mat s).
  Arguments vw : simpl never.

  Definition ident (p : nat) s : Prop := forall i j, (i < n)%N -> (j < n)%N ->
    A (l_ip s i * n + l_jp s j)%N
    = \sum_(k < p) Lm (vw s) i k * Um (vw s) k j
      + (if (p <= i)%N && (p <= j)%N then vw s i j else 0).
  Definition perms s : Prop := exists zi zj : int,
    [/\ sgn n (l_ip s) zi, sgn n (l_jp s) zj & l_sign s = zi * zj].
  Record Inv (p : nat) s : Prop := mkInv {
    I_perm : perms s;
    I_id : ident p s;
    I_diag : forall k, (k < p)%N -> vw s k k != 0;
    I_max : forall k i, (k < p)%N -> (k < i < n)%N ->
      `|vw s i k| <= `|vw s k k| /\ `|vw s k i| <= 1 }.

  Lemma sgn_isperm f z : sgn n f z -> isperm n f.
  Proof. case=> s [H _]. by exists s. Qed.

  Lemma tr_fix p q i : (i < p)%N -> (p <= q)%N -> tr p q i = i.
  Proof.
    move=> H1 H2. rewrite /tr ltn_eqF // ltn_eqF //. exact: leq_trans H1 H2.
  Qed.
  Lemma tr_ge p q i : (p <= q)%N -> (p <= tr p q i)%N = (p <= i)%N.
  Proof.
    move=> H. rewrite /tr. case: eqP => [->|N1]; first by rewrite leqnn H.
    case: eqP => [->|N2] //. by rewrite leqnn H.
  Qed.
  Lemma tr_lt p q i : (p < n)%N -> (q < n)%N -> (i < n)%N -> (tr p q i < n)%N.
  Proof. move=> H1 H2 H3. rewrite /tr. case: eqP => // _. by case: eqP. Qed.

  (** exchanging rows and columns of index at least p *)
  Definition exch s p q r : lu F :=
    mkLU (exchange (l_ip s) p q) (exchange (l_jp s) p r) (l_mat s) (l_sign s).
  Lemma vw_exch s p q r sg i j :
    vw (mkLU (exchange (l_ip s) p q) (exchange (l_jp s) p r) (l_mat s) sg) i j
    = vw s (tr p q i) (tr p r j).
  Proof. by rewrite /vw /view /= !exchange_tr. Qed.
  Lemma ident_exch s p q r sg : (p <= q < n)%N -> (p <= r < n)%N -> (p < n)%N -> ident p s ->
    ident p (mkLU (exchange (l_ip s) p q) (exchange (l_jp s) p r) (l_mat s) sg).
  Proof.
    move=> /andP[Hq1 Hq2] /andP[Hr1 Hr2] Hp I i j Hi Hj.
    rewrite /= !exchange_tr I ?tr_lt // !tr_ge //. rewrite vw_exch. congr (_ + _).
    apply: eq_bigr => -[k Hk] _ /=. rewrite /Lm /Um !vw_exch (@tr_fix p q k) // (@tr_fix p r k) //.
    congr (_ * _).
    - case: (leqP p i) => Hi'.
      + have H1 : (k <= tr p q i)%N by apply: leq_trans (ltnW Hk) _; rewrite tr_ge.
        by rewrite H1 (leq_trans (ltnW Hk) Hi').
      + by rewrite !tr_fix.
    - case: (leqP p j) => Hj'.
      + have H1 : (p <= tr p r j)%N by rewrite tr_ge.
        have H2 : (k < tr p r j)%N by exact: leq_trans Hk H1.
        have H3 : (k < j)%N by exact: leq_trans Hk Hj'.
        by rewrite !ltn_eqF // H2 H3.
      + by rewrite !tr_fix.
  Qed.
  Lemma exchange_id f p : exchange f p p =1 f.
  Proof. move=> i. by rewrite exchange_tr /tr; case: eqP => [->|]. Qed.

  Lemma ident_ext p s s' : l_ip s =1 l_ip s' -> l_jp s =1 l_jp s' -> l_mat s = l_mat s' ->
    ident p s -> ident p s'.
  Proof.
    move=> Ei Ej Em I i j Hi Hj.
    have Ev : forall i j, vw s' i j = vw s i j by move=> a b; rewrite /vw /view Ei Ej Em.
    rewrite -Ei -Ej I // Ev. congr (_ + _). apply: eq_bigr => k _. by rewrite /Lm /Um !Ev.
  Qed.

  (** one pass with a non-zero pivot *)
  Lemma ident_pass p ip jp LU sg sg' : (p < n)%N -> isperm n ip -> isperm n jp ->
    ident p (mkLU ip jp LU sg) -> LU (ip p * n + jp p)%N != 0 ->
    ident p.+1 (mkLU ip jp (elim n ip jp p (scale_row n ip jp p (LU (ip p * n + jp p)%N) LU)) sg').
  Proof.
    move=> Hp Pi Pj I Hpiv i j Hi Hj. rewrite /= (I i j) //= big_ord_recr /= -addrA.
    set s' := mkLU ip jp (elim _ _ _ _ _) _. set M := vw (mkLU ip jp LU sg).
    have HM : forall i j, (i < n)%N -> (j < n)%N -> vw s' i j =
       if (p < i)%N && (p < j)%N then M i j - M i p * (M p j / M p p)
        else if (i == p) && (p < j)%N then M i j / M p p else M i j.
    { move=> a c Ha Hc. by rewrite /s' /vw /= pass_spec. }
    congr (_ + _).
    - apply: eq_bigr => -[k Hk] _ /=. have Hkn : (k < n)%N by exact: ltn_trans Hk Hp.
      have Hnk : (p < k)%N = false by rewrite ltnNge ltnW.
      rewrite /Lm /Um. congr (_ * _).
      + case: ifP => // _. by rewrite HM // Hnk !andbF.
      + case: eqP => // _. case: ifP => // _. by rewrite HM // Hnk /= ltn_eqF.
    - rewrite -/M /Lm /Um !HM // ltnn !andbF eqxx !andTb.
      have Mp : M p p != 0 by [].
      case: (ltngtP p i) => Hpi; case: (ltngtP p j) => Hpj; rewrite ?mulr0 ?mul0r ?addr0 ?add0r ?mulr1 //=.
      + by rewrite addrC subrK.
      + by rewrite Hpj.
      + by rewrite -Hpi mulrC divfK.
      + by rewrite -Hpi -Hpj.
  Qed.
  Lemma diag_pass p ip jp LU sg sg' k : (p < n)%N -> isperm n ip -> isperm n jp -> (k <= p)%N ->
    vw (mkLU ip jp (elim n ip jp p (scale_row n ip jp p (LU (ip p * n + jp p)%N) LU)) sg') k k
    = vw (mkLU ip jp LU sg) k k.
  Proof.
    move=> Hp Pi Pj Hk. have Hkn : (k < n)%N by exact: leq_ltn_trans Hk Hp.
    by rewrite /vw /= pass_spec // ltnNge Hk /= andbF.
  Qed.

  Record Fail (p : nat) s : Prop := mkFail {
    X_lt : (p < n)%N;
    X_perm : perms s;
    X_id : forall i j, (i < n)%N -> (j < n)%N ->
      A (l_ip s i * n + l_jp s j)%N = \sum_(k < p) Lm (vw s) i k * Um (vw s) k j;
    X_diag : forall k, (k < p)%N -> vw s k k != 0;
    X_zero : vw s p p = 0 }.

  Lemma lu_loop_ok k s : (k <= n)%N -> Inv (n - k) s ->
    let: (s', r) := lu_loop n k s in
    (Inv n s' /\ r = l_sign s') \/ (r = 0 /\ exists p, Fail p s').
  Proof.
    elim: k s => [|k IH] s Hk; first by rewrite subn0 => I /=; left.
    move=> I /=. set p := (n - k.+1)%N in I *.
    have Hp : (p < n)%N by rewrite /p -subSn // subSS leq_subr.
    case: I => [[zi [zj [Si Sj Es]]] Id Dg Mx].
    have := search_spec (l_ip s) (l_jp s) (l_mat s) Hp.
    case: (search n _ _ _ p) => [[im jm] e] [Him Hjm He Hmax].
    have /andP[Him1 Him2] := Him. have /andP[Hjm1 Hjm2] := Hjm.
    pose ip := if im != p then exchange (l_ip s) p im else l_ip s.
    pose s1 := if im != p then - l_sign s else l_sign s.
    pose jp := if jm != p then exchange (l_jp s) p jm else l_jp s.
    pose s2 := if jm != p then - s1 else s1.
    have -> : (if im != p then (exchange (l_ip s) p im, - l_sign s) else (l_ip s, l_sign s)) = (ip, s1).
    { rewrite /ip /s1. by case: ifP. }
    have -> : (if jm != p then (exchange (l_jp s) p jm, - s1) else (l_jp s, s1)) = (jp, s2).
    { rewrite /jp /s2. by case: ifP. }
    have Eip : exchange (l_ip s) p im =1 ip.
    { rewrite /ip. case: eqP => //= ->. exact: exchange_id. }
    have Ejp : exchange (l_jp s) p jm =1 jp.
    { rewrite /jp. case: eqP => //= ->. exact: exchange_id. }
    have Pm : perms (mkLU ip jp (l_mat s) s2).
    { exists (if im != p then - zi else zi), (if jm != p then - zj else zj). split=> /=.
      - rewrite /ip. case: eqP => //= /eqP N. exact: sgn_exchange.
      - rewrite /jp. case: eqP => //= /eqP N. exact: sgn_exchange.
      - rewrite /s2 /s1 Es. case: eqP => _ /=; case: eqP => _ /=; by rewrite ?mulNr ?mulrN ?opprK. }
    have Pi : isperm n ip by case: Pm => [? [? [H _ _]]]; exact: sgn_isperm H.
    have Pj : isperm n jp by case: Pm => [? [? [_ H _]]]; exact: sgn_isperm H.
    have Id1 : ident p (mkLU ip jp (l_mat s) s2).
    { apply: ident_ext (ident_exch s2 Him Hjm Hp Id) => //=. }
    have Vw : forall i j, vw (mkLU ip jp (l_mat s) s2) i j = vw s (tr p im i) (tr p jm j).
    { move=> i j. rewrite -(vw_exch _ _ _ _ s2) /vw /view /=. by rewrite Eip Ejp. }
    have Dg1 : forall q, (q < p)%N -> vw (mkLU ip jp (l_mat s) s2) q q != 0.
    { move=> q Hq. rewrite Vw !tr_fix //. exact: Dg. }
    have Mx1 : forall q i, (q < p)%N -> (q < i < n)%N ->
      `|vw (mkLU ip jp (l_mat s) s2) i q| <= `|vw (mkLU ip jp (l_mat s) s2) q q| /\
      `|vw (mkLU ip jp (l_mat s) s2) q i| <= 1.
    { move=> q i Hq /andP[Hi1 Hi2]. rewrite !Vw !(@tr_fix p _ q) //.
      have T : forall r, (p <= r < n)%N -> (q < tr p r i < n)%N.
      { move=> r /andP[H1 H2]. rewrite tr_lt // andbT. case: (leqP p i) => Hpi.
        - apply: leq_trans Hq _. by rewrite tr_ge.
        - by rewrite tr_fix. }
      split.
      - by have [] := Mx q _ Hq (T _ Him).
      - by have [] := Mx q _ Hq (T _ Hjm). }
    have Epp : `|vw (mkLU ip jp (l_mat s) s2) p p| = `|e|.
    { rewrite Vw /tr eqxx. by rewrite He. }
    have Mp : forall i j, (p <= i < n)%N -> (p <= j < n)%N ->
      `|vw (mkLU ip jp (l_mat s) s2) i j| <= `|vw (mkLU ip jp (l_mat s) s2) p p|.
    { move=> i j /andP[Hi1 Hi2] /andP[Hj1 Hj2]. rewrite Epp Vw.
      apply: Hmax; by rewrite tr_ge // tr_lt ?andbT. }
    case: eqP => [E0|/eqP E0].
    - right. split=> //. exists p. split=> //.
      move=> i j Hi Hj. rewrite Id1 //. rewrite -[RHS]addr0. congr (_ + _).
      case: ifP => // /andP[Hpi Hpj]. rewrite Vw.
      have Ee : e = 0.
      { rewrite He -E0 -/(view n ip jp (l_mat s) p p).
        have := Vw p p. rewrite /vw /= => ->. by rewrite /tr eqxx. }
      have := Hmax (tr p im i) (tr p jm j). rewrite !tr_ge // Hpi Hpj !tr_lt // Ee normr0 => H.
      apply/eqP. rewrite -normr_le0. exact: H.
    - apply: IH; first exact: ltnW.
      have -> : (n - k = p.+1)%N by rewrite /p -subSn // subSS.
      split.
      + exact: Pm.
      + exact: ident_pass Id1 E0.
      + move=> q. rewrite ltnS => Hq. rewrite (diag_pass _ s2) //.
        move: Hq; rewrite leq_eqVlt => /orP[/eqP->|Hq]; [exact: E0|exact: Dg1].
      + move=> q i. rewrite ltnS => Hq /andP[Hi1 Hi2].
        have Hqn : (q < n)%N by exact: ltn_trans Hi1 Hi2.
        rewrite (diag_pass _ s2) // /vw /= !pass_spec //.
        rewrite [(p < q)%N]ltnNge Hq !andbF !andFb.
        rewrite -!/(vw (mkLU ip jp (l_mat s) s2) _ _).
        move: (Hq); rewrite leq_eqVlt => /orP[/eqP E|Hq'].
        * rewrite E eqxx -E Hi1 /=. split.
          -- have := Mp i p. rewrite E. apply; rewrite ?leqnn ?Hp //. by rewrite Hi2 -E ltnW.
          -- have P0 : 0 < `|l_mat s (ip p * n + jp p)%N| by rewrite normr_gt0.
             rewrite E normrM normfV ler_pdivr_mulr // mul1r.
             have := Mp p i. apply; rewrite ?leqnn ?Hp //. by rewrite Hi2 -E ltnW.
        * rewrite (ltn_eqF Hq') /=. apply: Mx1 => //. by rewrite Hi1 Hi2.
  Qed.

  Lemma init_inv : Inv 0 (mkLU (fun i => i) (fun i => i) A 1).
  Proof.
    have S1 : sgn n (fun i => i) 1.
    { exists 1%g. split; first by move=> i; rewrite perm1. by rewrite odd_perm1 expr0. }
    split=> //.
    - exists 1, 1. by split.
    - move=> i j Hi Hj. by rewrite big_ord0 add0r.
  Qed.
  Lemma LuFactor_ok : let: (s, r) := LuFactor n A in
    (Inv n s /\ r = l_sign s) \/ (r = 0 /\ exists p, Fail p s).
  Proof. apply: lu_loop_ok => //. rewrite subnn. exact: init_inv. Qed.

  (** *** determinant *)
  Definition mat (B : nat -> F) : 'M[F]_n := \matrix_(i, j) B (i * n + j)%N.
  Lemma det_sign s zi zj (si : sgn n (l_ip s) zi) (sj : sgn n (l_jp s) zj) (P : 'M[F]_n) :
    (forall i j : 'I_n, A (l_ip s i * n + l_jp s j)%N = P i j) ->
    \det (mat A) = (zi * zj)%:~R * \det P.
  Proof.
    case: si => si [Hi ->]. case: sj => sj [Hj ->] HP.
    have -> : P = perm_mx si *m mat A *m perm_mx sj^-1.
    { apply/matrixP => i j. rewrite -row_permE -col_permE !mxE -HP. by rewrite Hi Hj. }
    rewrite !det_mulmx !det_perm odd_permV.
    have Z1 : (1 : int)%:~R = 1 :> F by [].
    have ZN : (- 1 : int)%:~R = -1 :> F by rewrite mulrN1z.
    by case: (odd_perm si); case: (odd_perm sj);
      rewrite /= ?expr0 ?expr1 ?mulN1r ?mulrN1 ?opprK ?mulr1 ?mul1r ?Z1 ?ZN ?mulN1r ?mul1r ?opprK.
  Qed.
  Lemma det_L M : \det (\matrix_(i < n, k < n) Lm M i k) = \prod_(k < n) M k k.
  Proof.
    rewrite det_trig.
    - apply: eq_bigr => k _. by rewrite mxE /Lm leqnn.
    - apply/is_trig_mxP => i j H. by rewrite mxE /Lm leqNgt H.
  Qed.
  Lemma det_U M : \det (\matrix_(k < n, j < n) Um M k j) = 1.
  Proof.
    rewrite -det_tr det_trig.
    - rewrite big1 // => k _. by rewrite !mxE /Um eqxx.
    - apply/is_trig_mxP => i j H. rewrite !mxE /Um.
      rewrite gtn_eqF //. by rewrite ltnNge ltnW.
  Qed.
  Lemma Inv_det s : Inv n s -> \det (mat A) = (l_sign s)%:~R * \prod_(k < n) vw s k k.
  Proof.
    case=> [[zi [zj [Si Sj ->]]] Id _ _].
    pose P : 'M[F]_n := (\matrix_(i < n, k < n) Lm (vw s) i k) *m (\matrix_(k < n, j < n) Um (vw s) k j).
    rewrite (det_sign Si Sj (P := P)) /P.
    - by rewrite det_mulmx det_L det_U mulr1.
    - move=> i j. rewrite Id // mxE leqNgt ltn_ord /= addr0.
      apply: eq_bigr => k _. by rewrite !mxE.
  Qed.
  Lemma Fail_det p s : Fail p s -> \det (mat A) = 0.
  Proof.
    case=> Hp [zi [zj [Si Sj _]]] Id _ _.
    pose P : 'M[F]_n := (\matrix_(i < n, k < n) (if (k < p)%N then Lm (vw s) i k else 0)) *m (\matrix_(k < n, j < n) Um (vw s) k j).
    rewrite (det_sign Si Sj (P := P)) /P.
    - rewrite det_mulmx det_trig; last first.
      { apply/is_trig_mxP => i j H. rewrite mxE /Lm. by rewrite [(j <= i)%N]leqNgt H; case: ifP. }
      rewrite (bigD1 (Ordinal Hp)) //= mxE ltnn mul0r mul0r. by rewrite mulr0.
    - move=> i j. rewrite Id // mxE.
      rewrite (big_ord_widen_cond n predT (fun k => Lm (vw s) i k * Um (vw s) k j)) /=; last exact: ltnW.
      rewrite big_mkcond /=. apply: eq_bigr => k _. rewrite !mxE.
      by case: ifP => // _; rewrite mul0r.
  Qed.
End Factor.
