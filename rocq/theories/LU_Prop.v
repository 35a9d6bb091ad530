(** C30: LuFactor, LuInvert and LuSolve over an arbitrary ordered field. *)
From mathcomp Require Import all_ssreflect all_algebra all_fingroup.
From Verif Require Import LU_Model LU_Proof LU_Proof2 LU_Proof3.
Set Implicit Arguments.
Unset Strict Implicit.
Unset Printing Implicit Defensive.
Import Order.TTheory GRing.Theory Num.Theory.
Local Open Scope ring_scope.

(** *** specification *)
(** f is a permutation of 0 .. n-1 *)
Definition permutation (n : nat) (f : nat -> nat) : Prop :=
  (forall i, (i < n)%N -> (f i < n)%N) /\
  (forall i j, (i < n)%N -> (j < n)%N -> f i = f j -> i = j).
(** the n by m matrix stored in row major order in v *)
Definition matrix_of (F : realFieldType) (n m : nat) (v : nat -> F) : 'M[F]_(n, m) :=
  \matrix_(i, j) v (i * m + j)%N.
(** the user guide's L and U (lu_factor.hpp:132-166): L is lower triangular, U is
    upper triangular with ones along its diagonal *)
Definition Lower (F : realFieldType) (n : nat) (ip jp : nat -> nat) (LU : nat -> F) : 'M[F]_n :=
  \matrix_(i, k) (if (k <= i)%N then LU (ip i * n + jp k)%N else 0).
Definition Upper (F : realFieldType) (n : nat) (ip jp : nat -> nat) (LU : nat -> F) : 'M[F]_n :=
  \matrix_(k, j) (if k == j then 1 else if (k < j)%N then LU (ip k * n + jp j)%N else 0).
(** P A Q: row i is row ip(i) of A and column j is column jp(j) of A *)
Definition permuted (F : realFieldType) (n : nat) (ip jp : nat -> nat) (A : nat -> F) : 'M[F]_n :=
  \matrix_(i, j) A (ip i * n + jp j)%N.

Section LUProp.
  Variable F : realFieldType.

  Lemma isperm_permutation n f : isperm n f -> permutation n f.
  Proof.
    move=> P. split=> [i Hi|i j Hi Hj E]; first exact: isperm_lt.
    apply/eqP. by rewrite -(isperm_eq P) // E.
  Qed.
  Lemma perms_sign n (s : lu F) : perms n s -> l_sign s = 1 \/ l_sign s = -1.
  Proof.
    case=> zi [zj [[si [_ ->]] [sj [_ ->]] ->]]. rewrite -exprD -signr_odd.
    by case: (odd _); [right|left].
  Qed.
  Lemma prod_nz n (f : nat -> F) : (forall k, (k < n)%N -> f k != 0) -> \prod_(k < n) f k != 0.
  Proof. move=> H. rewrite prodf_seq_neq0. apply/allP => -[k Hk] _ /=. exact: H. Qed.

  (** LuFactor returns permutations; its return value is zero exactly when A is singular;
      otherwise it is the sign of the permutations, P A Q = L U, no pivot is zero and
      the pivoting is complete: each pivot dominates its column of L and the entries of U
      are at most one in absolute value *)
  Theorem lu_factor n (A : nat -> F) (s : lu F) (r : int) : LuFactor n A = (s, r) ->
    permutation n (l_ip s) /\ permutation n (l_jp s) /\
    (r = 0 <-> \det (matrix_of n n A) = 0) /\
    (r <> 0 ->
      (r = 1 \/ r = -1) /\
      permuted n (l_ip s) (l_jp s) A = Lower n (l_ip s) (l_jp s) (l_mat s) *m Upper n (l_ip s) (l_jp s) (l_mat s) /\
      \det (matrix_of n n A) = r%:~R * \prod_(p < n) l_mat s (l_ip s p * n + l_jp s p)%N /\
      (forall p, (p < n)%N -> l_mat s (l_ip s p * n + l_jp s p)%N != 0) /\
      (forall p i, (p < i < n)%N ->
         `|l_mat s (l_ip s i * n + l_jp s p)%N| <= `|l_mat s (l_ip s p * n + l_jp s p)%N| /\
         `|l_mat s (l_ip s p * n + l_jp s i)%N| <= 1)).
  Proof.
    move=> E. have := LuFactor_ok n A. rewrite E. case.
    - case=> I ->. have Dt := Inv_det I. case: I => Pm Id Dg Mx. have Sg := perms_sign Pm.
      case: Pm => zi [zj [Si Sj Es]].
      split; first exact/isperm_permutation/(sgn_isperm Si).
      split; first exact/isperm_permutation/(sgn_isperm Sj).
      have Sn : l_sign s <> 0 by case: Sg => ->.
      have Dn : \det (matrix_of n n A) <> 0.
      { change (\det (mat n A) <> 0). rewrite Dt. apply/eqP. rewrite mulf_neq0 //.
        - rewrite intr_eq0. exact/eqP.
        - exact: (@prod_nz n (fun k => vw n s k k)). }
      split; first by split.
      move=> _. split=> //. split; last by split=> //; split=> // p i /andP[H1 H2];
        apply: Mx; rewrite ?H1 //; exact: ltn_trans H1 H2.
      apply/matrixP => i j. rewrite !mxE Id // leqNgt ltn_ord /= addr0.
      apply: eq_bigr => k _. by rewrite !mxE.
    - case=> -> [p Hf]. have Dt := Fail_det Hf. case: Hf => _ [zi [zj [Si Sj _]]] _ _ _.
      split; first exact/isperm_permutation/(sgn_isperm Si).
      split; first exact/isperm_permutation/(sgn_isperm Sj).
      split; by split.
  Qed.

  (** *** LuInvert *)
  Lemma sum_perm n f (g : nat -> F) : isperm n f -> \sum_(q < n) g (f q) = \sum_(j < n) g j.
  Proof.
    case=> s Hs. rewrite [RHS](reindex_inj (@perm_inj _ s)) /=. apply: eq_bigr => q _. by rewrite Hs.
  Qed.
  Lemma perm_surj n f i : isperm n f -> (i < n)%N -> exists2 q, (q < n)%N & f q = i.
  Proof.
    case=> s Hs Hi. exists ((s^-1)%g (Ordinal Hi)) => //. by rewrite Hs permKV.
  Qed.

  (** LuInvert uses the output of LuFactor to solve A X = B *)
  Theorem lu_invert n m (A B : nat -> F) (s : lu F) (r : int) : LuFactor n A = (s, r) -> r <> 0 ->
    matrix_of n n A *m matrix_of n m (LuInvert n m (l_ip s) (l_jp s) (l_mat s) B) = matrix_of n m B.
  Proof.
    move=> E Hr. have := LuFactor_ok n A. rewrite E. case; last by case=> /Hr.
    case=> [[[zi [zj [/sgn_isperm Pi /sgn_isperm Pj Es]]] Id Dg _] _].
    apply/matrixP => i k. rewrite !mxE.
    have [q Hq Eq] := perm_surj Pi (ltn_ord i).
    have S := LuInvert_ok Pi Pj B Dg (ltn_ord k) Hq.
    rewrite /col Eq in S. rewrite -S.
    pose g := (fun j => A (i * n + j)%N * LuInvert n m (l_ip s) (l_jp s) (l_mat s) B (j * m + k)%N).
    transitivity (\sum_(j < n) g j).
    { apply: eq_bigr => j _. by rewrite !mxE. }
    rewrite -(sum_perm g Pj). apply: eq_bigr => j _. rewrite /g. congr (_ * _).
    by rewrite -Eq Id // leqNgt Hq /= addr0.
  Qed.

  (** *** LuSolve *)
  Lemma det_loop_spec (log : F -> F) n ip jp (LU : nat -> F) ps ld sg :
    let piv p := LU (ip p * n + jp p)%N in
    match det_loop log n ip jp LU ps ld sg with
    | Some (ld', sg') =>
        all (fun p => piv p != 0) ps /\
        (exists neg : nat, sg' = sg * (-1) ^+ neg /\
           \prod_(p <- ps) piv p = (-1) ^+ neg * \prod_(p <- ps) `|piv p|) /\
        ld' = ld + \sum_(p <- ps) log `|piv p|
    | None => ~~ all (fun p => piv p != 0) ps
    end.
  Proof.
    move=> piv. elim: ps ld sg => [|p ps IH] ld sg /=.
    { split=> //. split; last by rewrite big_nil addr0.
      exists 0%N. by rewrite !big_nil expr0 !mulr1. }
    rewrite -/(piv p). case: eqP => [E|/eqP N]; first by [].
    case: ifP => Hs.
    - have En : `|piv p| = - piv p by rewrite ler0_norm.
      have := IH (ld + log (- piv p)) (- sg). case: (det_loop _ _ _ _ _ _ _ _) => // -[ld' sg'].
      case=> Ha [[neg [-> Ep]] ->]. split=> //. split.
      + exists neg.+1. split; first by rewrite exprS mulN1r mulNr mulrN.
        rewrite !big_cons En Ep exprS. by rewrite mulN1r !mulNr mulrN opprK mulrCA.
      + by rewrite big_cons En addrA.
    - have En : `|piv p| = piv p by rewrite gtr0_norm // ltNge Hs.
      have := IH (ld + log (piv p)) sg. case: (det_loop _ _ _ _ _ _ _ _) => // -[ld' sg'].
      case=> Ha [[neg [-> Ep]] ->]. split=> //. split.
      + exists neg. rewrite !big_cons En Ep. split=> //. by rewrite mulrCA.
      + by rewrite big_cons En addrA.
  Qed.

  (** A is singular exactly when LuSolve returns zero; otherwise the columns of X are
      the solutions for the columns of B *)
  Theorem lu_solve log n m (A B X : nat -> F) (logdet : F) (signdet : int) :
    LuSolve log n m A B = (X, logdet, signdet) ->
    (signdet = 0 <-> \det (matrix_of n n A) = 0) /\
    (signdet <> 0 -> matrix_of n n A *m matrix_of n m X = matrix_of n m B).
  Proof.
    rewrite /LuSolve. case E: (LuFactor n A) => [s r].
    have [_ [_ [Z Nz]]] := lu_factor E.
    have := det_loop_spec log n (l_ip s) (l_jp s) (l_mat s) (iota 0 n) 0 r.
    case: (det_loop _ _ _ _ _ _ _ _) => [[ld sg]|].
    - case=> _ [[neg [Es _]] _] [<- _ <-].
      have R : sg = 0 <-> r = 0.
      { rewrite Es. split=> [/eqP|->]; last by rewrite mul0r.
        rewrite mulf_eq0 expf_eq0 oppr_eq0 oner_eq0 andbF orbF. by move/eqP. }
      split; first by rewrite R.
      move=> H. apply: lu_invert E _. by rewrite -R.
    - move=> Na [_ _ <-]. split=> //. split=> // _. apply/Z.
      case: (eqVneq r 0) => // /eqP /Nz[_ [_ [_ [Hp _]]]].
      case/negP: Na. apply/allP => p. rewrite mem_iota add0n leq0n /= => H. exact: Hp.
  Qed.

  (** the determinant: for any logarithm and exponential *)
  Theorem lu_solve_determinant (log exp : F -> F) n m (A B X : nat -> F) (logdet : F) (signdet : int) :
    exp 0 = 1 -> (forall x y, exp (x + y) = exp x * exp y) -> (forall x, 0 < x -> exp (log x) = x) ->
    LuSolve log n m A B = (X, logdet, signdet) -> signdet <> 0 ->
    (signdet = 1 \/ signdet = -1) /\ \det (matrix_of n n A) = signdet%:~R * exp logdet.
  Proof.
    move=> e0 eD el. rewrite /LuSolve. case E: (LuFactor n A) => [s r].
    have [_ [_ [Z Nz]]] := lu_factor E.
    have := det_loop_spec log n (l_ip s) (l_jp s) (l_mat s) (iota 0 n) 0 r.
    case: (det_loop _ _ _ _ _ _ _ _) => [[ld sg]|]; last by move=> _ [_ _ <-].
    case=> Ha [[neg [Es Ep]] El] [_ <- <-] Hn.
    have Hr : r <> 0 by move=> H; apply: Hn; rewrite Es H mul0r.
    have [Sr [_ [Dt _]]] := Nz Hr. split.
    { rewrite Es. case: Sr => ->; rewrite -signr_odd; case: (odd neg); rewrite ?expr0 ?expr1; auto. }
    rewrite Dt El Es add0r rmorphM rmorphX rmorphN rmorph1 /= -mulrA. congr (_ * _).
    rewrite -(big_mkord xpredT (fun p => l_mat s (l_ip s p * n + l_jp s p)%N)) /index_iota subn0 Ep.
    congr (_ * _). elim: (iota 0 n) Ha => [|p ps IH] /=; first by rewrite !big_nil e0.
    case/andP=> Hp Hps. by rewrite !big_cons eD IH // el // normr_gt0.
  Qed.
End LUProp.

(** *** examples over the rational numbers *)
Definition ex_vec (l : seq rat) : nat -> rat := fun i => nth 0 l i.
Definition ex_A : nat -> rat := ex_vec [:: 0; 2%:~R; 1; 1; 0; 0; 3%:~R; 1; 4%:~R].
Example lu_factor_example : (LuFactor 3 ex_A).2 = 1 \/ (LuFactor 3 ex_A).2 = -1.
Proof. by vm_compute; auto. Qed.
Example lu_singular_example :
  (LuFactor 2 (ex_vec [:: 1; 2%:~R; 2%:~R; 4%:~R])).2 = 0.
Proof. by vm_compute. Qed.
(** the solution of A x = (1, 2, 3) computed by LuSolve *)
Example lu_solve_example :
  let: (X, _, sg) := LuSolve (fun _ => 0) 3 1 ex_A (ex_vec [:: 1; 2%:~R; 3%:~R]) in
  [/\ sg <> 0, X 0%N = 2%:~R, 2%:~R * X 1%N + X 2%N = 1 & 3%:~R * X 0%N + X 1%N + 4%:~R * X 2%N = 3%:~R].
Proof. vm_compute. split=> //; exact/eqP. Qed.
