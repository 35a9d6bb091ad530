(** Properties C18 and C19: sparse Jacobians and Hessians by colouring. *)
From Coq Require Import List Arith Bool Lia Permutation Sorted.
From Verif Require Import IndexSort_Model IndexSort_Proof Util_Model Color_Model Color_Spec Color_Proof Color_Proof2 Color_Proof3.
Import ListNotations.

Lemma nth0_appears (p : nat * nat) l : appears (p :: l) (fst (nth 0 (p :: l) (0, 0))).
Proof. cbn. exists (snd p). destruct p. cbn. auto. Qed.
Lemma in_flip i j (l : list (nat * nat)) : In (i, j) (map flip l) <-> In (j, i) l.
Proof.
  rewrite in_map_iff. split.
  - intros ([a b] & E & H). injection E as <- <-. exact H.
  - intros H. exists (j, i). auto.
Qed.
Lemma entries_flip {T} (J : nat -> nat -> T) l val :
  entries (fun c r => J r c) (map flip l) val -> entries J l val.
Proof.
  intros H k i j E. apply (H k j i). now rewrite nth_error_map, E.
Qed.

Section Jac.
  Context {T : Type} (zero one : T) (add mul : T -> T -> T).
  Hypothesis laws : num_laws zero one add mul.
  Variable sort : list (nat * nat) -> list (nat * nat).
  Hypothesis Hsort : std_sort (elem_lt Nat.ltb) sort.

  (** sparse_jac_rev.  The first call, with empty work, returns the requested
      entries; so does every later call that reuses the work (at another
      argument, where the Jacobian is J'). *)
  Theorem sparse_jac_rev_entries :
    forall (m n : nat) (J : nat -> nat -> T) (reverse1 : (nat -> T) -> nat -> T)
           (subset pattern : list (nat * nat)) (color0 : nat -> nat) (forb0 : nat -> bool) (val0 : nat -> T),
    (forall w j, j < n -> reverse1 w j = vec_mat zero add mul m J w j) ->
    subset_ok m n subset pattern ->
    covers zero m n J subset pattern ->
    exists val n_sweep w,
      sparse_jac_rev sort zero one reverse1 m n subset pattern color0 forb0 val0 None = Some (val, n_sweep, w) /\
      entries J subset val /\ n_sweep <= m /\
      forall (J' : nat -> nat -> T) (reverse1' : (nat -> T) -> nat -> T) (pattern' : list (nat * nat))
             (color0' : nat -> nat) (forb0' : nat -> bool) (val0' : nat -> T),
      (forall w j, j < n -> reverse1' w j = vec_mat zero add mul m J' w j) ->
      covers zero m n J' subset pattern ->
      exists val',
        sparse_jac_rev sort zero one reverse1' m n subset pattern' color0' forb0' val0' w = Some (val', n_sweep, w) /\
        entries J' subset val'.
  Proof.
    intros m n J reverse1 subset pattern color0 forb0 val0 Rev Sub Cov.
    destruct subset as [|p0 l0] eqn:ES.
    { cbn. exists val0, 0, None. split; auto. split; [intros [|k] i j E; discriminate|]. split; [lia|].
      intros. exists val0'. split; auto. intros [|k] i j E; discriminate. }
    rewrite <- ES in *.
    destruct (color_general_ok m n (internal_pattern false n pattern) subset) with (color0 := color0) (forb0 := forb0)
      as (color & E & C1 & C2 & C3 & C4).
    { intros i j H. apply Sub in H. lia. }
    { intros i j H. apply internal_pattern_in. apply Sub in H. tauto. }
    assert (A0 : appears subset (fst (nth 0 subset (0, 0)))) by (rewrite ES; apply nth0_appears).
    assert (Hlt : forall i j, In (i, j) subset -> i < m) by (intros i j H; apply Sub in H; lia).
    assert (Main : forall J' reverse1', (forall w j, j < n -> reverse1' w j = vec_mat zero add mul m J' w j) ->
      covers zero m n J' subset pattern ->
      exists val, rev_loop zero one reverse1' subset color (n_color m color) 0 (color_order sort subset color) (fun _ => zero) = Some ([], val) /\
        entries J' subset val).
    { intros J' reverse1' Rev' Cov'. apply (rev_loop_ok zero one add mul laws subset color m J' reverse1'); auto.
      - intros w i j H. apply Rev'. apply Sub in H. lia.
      - intros i j r H A N C. destruct A as [j' A]. apply Cov'.
        + now apply Hlt in A.
        + apply Sub in H. lia.
        + eauto.
        + eauto.
        + intros I. apply (C3 i j r); auto; [exists j'; auto|]. apply internal_pattern_in. split; auto. apply Sub in H. lia.
      - apply rinv_0; auto. }
    destruct (Main J reverse1 Rev Cov) as (val & E1 & V1).
    exists val, (n_color m color), (Some (color, color_order sort subset color, subset)).
    unfold sparse_jac_rev. rewrite E, E1. rewrite ES at 1. split; [reflexivity|]. split; auto.
    split; [eapply n_color_le; eauto|].
    intros J' reverse1' pattern' color0' forb0' val0' Rev' Cov'.
    destruct (Main J' reverse1' Rev' Cov') as (val' & E2 & V2).
    exists val'. split; [|exact V2]. rewrite E2. rewrite ES at 1. reflexivity.
  Qed.

  (** sparse_jac_for: the same, for every group_max >= 1 *)
  Theorem sparse_jac_for_entries :
    forall (m n : nat) (J : nat -> nat -> T) (forward1 : (nat -> T) -> nat -> T) (group_max : nat)
           (subset pattern : list (nat * nat)) (color0 : nat -> nat) (forb0 : nat -> bool) (val0 : nat -> T),
    0 < group_max ->
    (forall dx i, i < m -> forward1 dx i = mat_vec zero add mul n J dx i) ->
    subset_ok m n subset pattern ->
    covers zero m n J subset pattern ->
    exists val n_sweep w,
      sparse_jac_for sort zero one forward1 group_max m n subset pattern color0 forb0 val0 None = Some (val, n_sweep, w) /\
      entries J subset val /\ n_sweep <= n /\
      forall (J' : nat -> nat -> T) (forward1' : (nat -> T) -> nat -> T) (group_max' : nat) (pattern' : list (nat * nat))
             (color0' : nat -> nat) (forb0' : nat -> bool) (val0' : nat -> T),
      0 < group_max' ->
      (forall dx i, i < m -> forward1' dx i = mat_vec zero add mul n J' dx i) ->
      covers zero m n J' subset pattern ->
      exists val',
        sparse_jac_for sort zero one forward1' group_max' m n subset pattern' color0' forb0' val0' w = Some (val', n_sweep, w) /\
        entries J' subset val'.
  Proof.
    intros m n J forward1 gm subset pattern color0 forb0 val0 Gm For Sub Cov.
    destruct subset as [|p0 l0] eqn:ES.
    { cbn. exists val0, 0, None. split; auto. split; [intros [|k] i j E; discriminate|]. split; [lia|].
      intros. exists val0'. split; auto. intros [|k] i j E; discriminate. }
    rewrite <- ES in *. set (cr := map flip subset).
    assert (CR : forall c r, In (c, r) cr <-> In (r, c) subset) by (intros; apply in_flip).
    destruct (color_general_ok n m (internal_pattern true m pattern) cr) with (color0 := color0) (forb0 := forb0)
      as (color & E & C1 & C2 & C3 & C4).
    { intros i j H. apply CR in H. apply Sub in H. lia. }
    { intros i j H. apply CR in H. apply internal_pattern_in. apply Sub in H. tauto. }
    assert (A0 : appears cr (fst (nth 0 cr (0, 0)))) by (unfold cr; rewrite ES; apply nth0_appears).
    assert (Hlt : forall i j, In (i, j) cr -> i < n) by (intros i j H; apply CR in H; apply Sub in H; lia).
    assert (NL : n_color n color <= n) by (eapply n_color_le; eauto).
    assert (Main : forall J' forward1' gm', 0 < gm' -> (forall dx i, i < m -> forward1' dx i = mat_vec zero add mul n J' dx i) ->
      covers zero m n J' subset pattern ->
      exists val, for_loop zero one (S n) gm' forward1' cr color (n_color n color) 0 (color_order sort cr color) (fun _ => zero) = Some val /\
        entries J' subset val).
    { intros J' forward1' gm' Gm' For' Cov'.
      destruct (for_loop_ok zero one add mul laws cr color n (fun c r => J' r c) forward1') with (gm := gm') (fuel := S n) (cc := 0)
        (ord := color_order sort cr color) (val := fun _ : nat => zero) as (val & EV & V); auto.
      - intros w c r H. apply For'. apply CR in H. apply Sub in H. lia.
      - intros i j r H A N C. destruct A as [j' A]. apply CR in A. pose proof H as H'. apply CR in H. apply Cov'.
        + apply Sub in H. lia.
        + apply Sub in A. lia.
        + eauto.
        + eauto.
        + intros I. apply (C3 i j r); auto; [exists j'; now apply CR|]. apply internal_pattern_in. split; auto. apply Sub in H. lia.
      - apply rinv_0; auto.
      - lia.
      - exists val. split; auto. now apply entries_flip. }
    destruct (Main J forward1 gm Gm For Cov) as (val & E1 & V1).
    exists val, (n_color n color), (Some (color, color_order sort cr color, cr)).
    unfold sparse_jac_for. fold cr. rewrite E, E1. rewrite ES at 1. split; [reflexivity|]. split; auto. split; auto.
    intros J' forward1' gm' pattern' color0' forb0' val0' Gm' For' Cov'.
    destruct (Main J' forward1' gm' Gm' For' Cov') as (val' & E2 & V2).
    exists val'. split; [|exact V2]. rewrite E2. rewrite ES at 1. reflexivity.
  Qed.

  (** sparse_hes with either colouring method.  H is the Hessian; only the
      symmetric method uses its symmetry. *)
  Theorem sparse_hes_entries :
    forall (symmetric : bool) (n : nat) (H : nat -> nat -> T) (hes : (nat -> T) -> nat -> T)
           (subset pattern : list (nat * nat)) (color0 r2o0 : nat -> nat) (forb0 : nat -> bool) (val0 : nat -> T),
    (forall dx i, i < n -> hes dx i = mat_vec zero add mul n H dx i) ->
    (symmetric = true -> forall i j, H i j = H j i) ->
    subset_ok n n subset pattern ->
    (if symmetric then covers_sym zero n H subset pattern else covers zero n n H subset pattern) ->
    exists val n_sweep w,
      sparse_hes sort zero one symmetric hes n subset pattern color0 r2o0 forb0 val0 None = Some (val, n_sweep, w) /\
      entries H subset val /\ n_sweep <= n /\
      forall (H' : nat -> nat -> T) (hes' : (nat -> T) -> nat -> T) (pattern' : list (nat * nat))
             (symmetric' : bool) (color0' r2o0' : nat -> nat) (forb0' : nat -> bool) (val0' : nat -> T),
      (forall dx i, i < n -> hes' dx i = mat_vec zero add mul n H' dx i) ->
      (symmetric = true -> forall i j, H' i j = H' j i) ->
      (if symmetric then covers_sym zero n H' subset pattern else covers zero n n H' subset pattern) ->
      exists val',
        sparse_hes sort zero one symmetric' hes' n subset pattern' color0' r2o0' forb0' val0' w = Some (val', n_sweep, w) /\
        entries H' subset val'.
  Proof.
    intros symmetric n H hes subset pattern color0 r2o0 forb0 val0 Hes Sym Sub Cov.
    destruct subset as [|p0 l0] eqn:ES.
    { cbn. exists val0, 0, None. split; auto. split; [intros [|k] i j E; discriminate|]. split; [lia|].
      intros. exists val0'. split; auto. intros [|k] i j E; discriminate. }
    rewrite <- ES in *. set (cr := map flip subset).
    assert (CR : forall c r, In (c, r) cr <-> In (r, c) subset) by (intros; apply in_flip).
    (* what either method gives *)
    assert (Col : exists color cr',
      (if symmetric then
            match color_symmetric sort n (internal_pattern true n pattern) cr color0 r2o0 forb0 with
            | Some (color, cr') => Some (color, color_order sort cr' color, cr')
            | None => None
            end
          else
            match color_general n n (internal_pattern true n pattern) cr color0 forb0 with
            | Some color => Some (color, color_order sort cr color, cr)
            | None => None
            end) = Some (color, color_order sort cr' color, cr') /\
      Forall2 (fun p q => q = p \/ symmetric = true /\ q = flip p) cr cr' /\
      (forall i, i < n -> (color i < n <-> appears cr' i)) /\
      contiguous cr' color /\
      forall H', (symmetric = true -> forall i j, H' i j = H' j i) ->
        (if symmetric then covers_sym zero n H' subset pattern else covers zero n n H' subset pattern) ->
        forall i j r, In (i, j) cr' -> appears cr' r -> r <> i -> color r = color i -> H' j r = zero).
    { destruct symmetric.
      - destruct (color_symmetric_ok sort Hsort n (internal_pattern true n pattern) cr) with (color0 := color0) (r2o0 := r2o0) (forb0 := forb0)
          as (color & cr' & E & F & C1 & C3 & C4).
        { intros i j Hij. apply CR in Hij. apply Sub in Hij. lia. }
        { intros i j Hij. apply CR in Hij. apply internal_pattern_in. apply Sub in Hij. tauto. }
        { intros i j Hij. apply internal_pattern_in in Hij. tauto. }
        exists color, cr'. rewrite E. split; auto. split; [|split; [|split]]; auto.
        { clear -F. induction F as [|p q l l' HP F IH]; constructor; auto. destruct HP; auto. }
        intros H' Sym' Cov' i j r I A N C.
        assert (Mem : forall a b, In (a, b) cr' -> (In (a, b) cr \/ In (b, a) cr)).
        { clear -F. induction F as [|p q l l' HP F IH]; intros a b X; [destruct X|].
          destruct X as [->|X]; [|specialize (IH a b X); cbn; tauto].
          destruct HP as [->|X]; cbn; auto. right. left. destruct p. cbn in X. injection X as -> ->. reflexivity. }
        destruct A as [j' A].
        assert (Ir : exists k, In (r, k) subset \/ In (k, r) subset) by
          (exists j'; apply Mem in A as [A|A]; apply CR in A; auto).
        assert (Ij : exists k, In (j, k) subset \/ In (k, j) subset) by
          (exists i; apply Mem in I as [I|I]; apply CR in I; auto).
        assert (Rn : forall x, (exists k, In (x, k) subset \/ In (k, x) subset) -> x < n).
        { intros x (k & [K|K]); apply Sub in K; lia. }
        destruct (C3 i j r I (ex_intro _ j' A) N C) as [X|X]; rewrite internal_pattern_in in X.
        + rewrite Sym' by auto. apply Cov'; auto.
        + apply Cov'; auto.
      - destruct (color_general_ok n n (internal_pattern true n pattern) cr) with (color0 := color0) (forb0 := forb0)
          as (color & E & C1 & C2 & C3 & C4).
        { intros i j Hij. apply CR in Hij. apply Sub in Hij. lia. }
        { intros i j Hij. apply CR in Hij. apply internal_pattern_in. apply Sub in Hij. tauto. }
        exists color, cr. rewrite E. split; auto. split; [|split; [|split]]; auto.
        { clear. induction cr; constructor; auto. }
        intros H' _ Cov' i j r I A N C. destruct A as [j' A]. pose proof I as I'. apply CR in I. pose proof A as A'. apply CR in A.
        apply Cov'.
        + apply Sub in I. lia.
        + apply Sub in A. lia.
        + eauto.
        + eauto.
        + intros X. apply (C3 i j r); auto; [exists j'; auto|]. apply internal_pattern_in. split; auto. apply Sub in I. lia. }
    destruct Col as (color & cr' & EC & F & C1 & C4 & CM).
    assert (Mem : forall a b, In (a, b) cr' -> (In (a, b) cr \/ In (b, a) cr)).
    { clear -F. induction F as [|p q l l' HP F IH]; intros a b X; [destruct X|].
      destruct X as [->|X]; [|specialize (IH a b X); cbn; tauto].
      destruct HP as [->|[_ X]]; cbn; auto. right. left. destruct p. cbn in X. injection X as -> ->. reflexivity. }
    assert (Hlt : forall i j, In (i, j) cr' -> i < n /\ j < n).
    { intros i j I. apply Mem in I as [I|I]; apply CR in I; apply Sub in I; lia. }
    assert (A0 : appears cr' (fst (nth 0 cr' (0, 0)))).
    { unfold cr in F. rewrite ES in F. inversion F as [|? q ? l' HP F']. apply nth0_appears. }
    assert (NL : n_color n color <= n) by (eapply n_color_le; eauto; intros i j I; apply Hlt in I; lia).
    assert (Main : forall H' hes', (forall dx i, i < n -> hes' dx i = mat_vec zero add mul n H' dx i) ->
      (symmetric = true -> forall i j, H' i j = H' j i) ->
      (if symmetric then covers_sym zero n H' subset pattern else covers zero n n H' subset pattern) ->
      exists val, rev_loop zero one hes' cr' color (n_color n color) 0 (color_order sort cr' color) (fun _ => zero) = Some ([], val) /\
        entries H' subset val).
    { intros H' hes' Hes' Sym' Cov'.
      destruct (rev_loop_ok zero one add mul laws cr' color n (fun s r => H' r s) hes') with (n := n_color n color) (ell := 0)
        (ord := color_order sort cr' color) (val := fun _ : nat => zero) as (val & EV & V); auto.
      - intros w c r I. apply Hes'. apply Hlt in I. lia.
      - intros i j I. apply Hlt in I. lia.
      - intros i j r I A N C. eapply CM; eauto.
      - apply rinv_0; auto.
      - exists val. split; auto. intros k i j E.
        assert (E' : nth_error cr k = Some (j, i)) by (unfold cr; now rewrite nth_error_map, E).
        assert (Q : nth_error cr' k = Some (j, i) \/ symmetric = true /\ nth_error cr' k = Some (i, j)).
        { clear -F E'. revert k E'. induction F as [|p q l l' HP F IH]; intros k E'; [destruct k; discriminate|].
          destruct k as [|k]; cbn in E' |- *; [|now apply IH]. injection E' as ->. destruct HP as [->|[S ->]]; auto. }
        destruct Q as [Q|[S Q]]; apply V in Q; auto. cbn in Q. now rewrite Sym'. }
    destruct (Main H hes Hes Sym Cov) as (val & E1 & V1).
    exists val, (n_color n color), (Some (color, color_order sort cr' color, cr')).
    unfold sparse_hes. fold cr. rewrite EC, E1. rewrite ES at 1. split; [reflexivity|]. split; auto. split; auto.
    intros H' hes' pattern' symmetric' color0' r2o0' forb0' val0' Hes' Sym' Cov'.
    destruct (Main H' hes' Hes' Sym' Cov') as (val' & E2 & V2).
    exists val'. split; [|exact V2]. rewrite E2. rewrite ES at 1.
    assert (OK : (length cr' =? length subset) && forallb (fun q => let '((c, r), (sr, sc)) := q in
                     ((r =? sr) && (c =? sc)) || ((r =? sc) && (c =? sr))) (combine cr' subset) = true).
    { clear -F. unfold cr in F. revert cr' F. induction subset as [|[a b] l IH]; intros cr' F; inversion F as [|? q ? l' HP F' E1 E2]; subst.
      - reflexivity.
      - specialize (IH l' F'). apply andb_true_iff in IH as [I1 I2]. cbn [length combine forallb Nat.eqb].
        rewrite I1, I2, andb_true_r. cbn [andb]. destruct HP as [->|[_ ->]]; cbn; rewrite !Nat.eqb_refl; cbn; auto. apply orb_true_r. }
    rewrite OK. reflexivity.
  Qed.
End Jac.

(** ** a concrete case: the arrow matrix of order 4 over Z *)
From Coq Require Import ZArith.
Definition arrow (i j : nat) : Z :=
  if (i =? j) then Z.of_nat (10 + i) else if (i =? 0) || (j =? 0) then Z.of_nat (i + j) else 0%Z.
Definition arrow_pat : list (nat * nat) := [(0,0);(0,1);(0,2);(0,3);(1,0);(1,1);(2,0);(2,2);(3,0);(3,3)].
Definition arrow_low : list (nat * nat) := [(0,0);(1,0);(1,1);(2,0);(2,2);(3,0);(3,3)].
Example Z_laws : num_laws 0%Z 1%Z Z.add Z.mul.
Proof. split; intros; lia. Qed.
Example arrow_ok : subset_ok 4 4 arrow_low arrow_pat /\ covers_sym 0%Z 4 arrow arrow_low arrow_pat /\
                   covers 0%Z 4 4 arrow arrow_low arrow_pat /\ (forall i j, arrow i j = arrow j i).
Proof.
  assert (N : forall i j, i < 4 -> j < 4 -> ~ In (i, j) arrow_pat -> arrow i j = 0%Z).
  { intros i j Hi Hj N. destruct i as [|[|[|[|i]]]]; try lia; destruct j as [|[|[|[|j]]]]; try lia;
      try reflexivity; exfalso; apply N; cbn; tauto. }
  split; [|split; [|split]].
  - intros i j H. cbn in H. repeat (destruct H as [H|H]; [injection H as <- <-; cbn; intuition lia|]). destruct H.
  - intros i j Hi Hj _ _. auto.
  - intros i j Hi Hj _ _. auto.
  - intros i j. unfold arrow. rewrite (Nat.eqb_sym i j), (Nat.add_comm i j), (orb_comm (i =? 0)).
    destruct (j =? i) eqn:E; auto. apply Nat.eqb_eq in E. now subst.
Qed.
(** two sweeps suffice for the lower triangle *)
Example arrow_run :
  let go sym := match sparse_hes (isort (elem_lt Nat.ltb)) 0%Z 1%Z sym (mat_vec 0%Z Z.add Z.mul 4 arrow) 4 arrow_low arrow_pat
                (fun _ => 7) (fun _ => 9) (fun _ => true) (fun _ => 0%Z) None with
                | Some (val, nc, _) => Some (map val (seq 0 7), nc) | None => None end in
  go true = Some ([10; 1; 11; 2; 12; 3; 13]%Z, 2) /\ go false = Some ([10; 1; 11; 2; 12; 3; 13]%Z, 2).
Proof. vm_compute. split; reflexivity. Qed.
Print Assumptions sparse_jac_rev_entries.
Print Assumptions sparse_jac_for_entries.
Print Assumptions sparse_hes_entries.
