(** C38: the forward sweeps hand the callback what they should, in terms of the instructions of the call. *)
From Coq Require Import List Bool Arith Lia.
From Verif Require Import Base_Spec Op_Model Tape_Spec Tape_Model Tape_Proof Atom_Model Atom_Proof2.
Import ListNotations.

Section Sweeps.
  Context {b : base}.
  Notation T := (bt b).
  Variables (isd : nat -> bool) (P : nat -> T).
  Notation work := (@work b).
  Definition arg0 (i : ins) : nat := nth 0 (i_arg i) 0.
  Definition isx (i : ins) : Prop := i_op i = FunapOp \/ i_op i = FunavOp.
  Definition isy (i : ins) : Prop := i_op i = FunrpOp \/ i_op i = FunrvOp.
  Definition isvar (i : ins) : bool := match i_op i with FunavOp | FunrvOp => true | _ => false end.
  Definition xpar (i : ins) : T := if isvar i then bnan else P (arg0 i).
  Definition xkind (i : ins) : kind := if isvar i then Kvar else kind_of isd (arg0 i).
  (** the coefficients of the operand of an argument and of a result *)
  Definition pcoef (a k : nat) : T := if k =? 0 then P a else b0.
  Definition xcoef (tab : nat -> nat -> T) (i : ins) (k : nat) : T := if isvar i then tab (arg0 i) k else pcoef (arg0 i) k.
  Definition ycoef (tab : nat -> nat -> T) (i : ins) (k : nat) : T := if isvar i then tab (i_var i) k else pcoef (arg0 i) k.

  Lemma blk_ne q j j' k k' : k < q -> k' < q -> j <> j' -> j * q + k <> j' * q + k'.
  Proof. intros H H' N E. apply N. pose proof (Nat.div_unique (j * q + k) q j k H ltac:(lia)) as A. pose proof (Nat.div_unique (j' * q + k') q j' k' H' ltac:(lia)) as B. congruence. Qed.
  Lemma blk_inj q j j' k k' : k < q -> k' < q -> j * q + k = j' * q + k' -> j = j' /\ k = k'.
  Proof. intros H H' E. destruct (Nat.eq_dec j j') as [->|N]; [split; lia|]. now apply (blk_ne q j j' k k') in N. Qed.
  (** the block of a parameter *)
  Lemma fill_par f q j v k : k < q -> fill (fset f (j * q + 0) v) (j * q) 1 q (fun _ => b0) (j * q + k) = if k =? 0 then v else @b0 b.
  Proof.
    intros H. rewrite fill_spec. destruct (k =? 0) eqn:E.
    - apply Nat.eqb_eq in E as ->. replace (j * q + 1 <=? j * q + 0) with false by (symmetry; apply Nat.leb_gt; lia). cbn [andb]. apply fset_eq.
    - apply Nat.eqb_neq in E. replace (j * q + 1 <=? j * q + k) with true by (symmetry; apply Nat.leb_le; lia). replace (j * q + k <? j * q + q) with true by (symmetry; apply Nat.ltb_lt; lia). reflexivity.
  Qed.
  Lemma fill_in f q j (g : nat -> T) k : k < q -> fill f (j * q) 0 q g (j * q + k) = g k.
  Proof. intros H. rewrite fill_spec. replace (_ && _) with true by (symmetry; apply andb_true_iff; split; [apply Nat.leb_le|apply Nat.ltb_lt]; lia). f_equal. lia. Qed.
  Lemma fill_out f base lo hi (g : nat -> T) i : i < base + lo \/ base + hi <= i -> fill f base lo hi g i = f i.
  Proof. intros H. rewrite fill_spec. destruct (_ && _) eqn:E; auto. apply andb_true_iff in E as [E1 E2]. apply Nat.leb_le in E1. apply Nat.ltb_lt in E2. lia. Qed.

  Definition d0 : ins := mkIns EndOp [] 0.
  Section Fwd.
    Variables (cap low up : nat) (tab : nat -> T).
    Let q := up + 1.
    Let tb v k := tab (v * cap + k).
    (** the entries that are not changed by the other loop *)
    Definition same_y (w w' : work) : Prop := w_ty w = w_ty w' /\ w_iy w = w_iy w' /\ w_vy w = w_vy w'.
    Definition same_x (w w' : work) : Prop := w_par w = w_par w' /\ w_type w = w_type w' /\ w_tx w = w_tx w'.
    Definition Qfx (j : nat) (i : ins) (w : work) : Prop := w_par w j = xpar i /\ w_type w j = xkind i /\ forall k, k < q -> w_tx w (j * q + k) = xcoef tb i k.
    Lemma fwd_xs l w rest : Forall isx l -> exists w', up_loop (fwd_x isd P cap up tab) 0 (length l) (l ++ rest) w = Some (w', rest) /\ same_y w w' /\
      forall t, t < length l -> Qfx t (nth t l d0) w'.
    Proof.
      intros F. destruct (up_loop_ok (fwd_x isd P cap up tab) isx Qfx (fun _ w' => same_y w w') d0) with (l := l) (j := 0) (w := w) (rest := rest) as (w' & A & B & C & _); auto.
      - intros j i w1 Hi Hw. unfold fwd_x, Qfx, xpar, xkind, xcoef, isvar, pcoef. cbv zeta. fold (arg0 i). fold q. destruct Hi as [->| ->].
        + eexists. split; [reflexivity|]. split; [exact Hw|]. split; cbn [w_par w_type w_tx].
          * rewrite !fset_eq. split; auto. split; auto. intros k Hk. now apply fill_par.
          * intros j' i' Hj (H1 & H2 & H3). rewrite !fset_ne by lia. split; auto. split; auto. intros k Hk. rewrite <- H3 by auto. pose proof (blk_ne q j' j k 0 Hk ltac:(unfold q; lia) ltac:(lia)).
            rewrite fill_out by (assert (j' * q + k < j * q) by (assert (S j' * q <= j * q) by (apply Nat.mul_le_mono_r; lia); lia); lia). now apply fset_ne.
        + eexists. split; [reflexivity|]. split; [exact Hw|]. split; cbn [w_par w_type w_tx].
          * rewrite !fset_eq. split; auto. split; auto. intros k Hk. rewrite fill_in by auto. reflexivity.
          * intros j' i' Hj (H1 & H2 & H3). rewrite !fset_ne by lia. split; auto. split; auto. intros k Hk. rewrite <- H3 by auto.
            apply fill_out. left. assert (S j' * q <= j * q) by (apply Nat.mul_le_mono_r; lia). lia.
      - split; auto.
      - exists w'. auto.
    Qed.
    Definition Qfy (j : nat) (i : ins) (w : work) : Prop := w_vy w j = isvar i /\ (isvar i = true -> w_iy w j = i_var i) /\ forall k, k < low -> w_ty w (j * q + k) = ycoef tb i k.
    Lemma fwd_ys l w rest : low <= up -> Forall isy l -> exists w', up_loop (fwd_y P cap low up tab) 0 (length l) (l ++ rest) w = Some (w', rest) /\ same_x w w' /\
      forall t, t < length l -> Qfy t (nth t l d0) w'.
    Proof.
      intros LU F. destruct (up_loop_ok (fwd_y P cap low up tab) isy Qfy (fun _ w' => same_x w w') d0) with (l := l) (j := 0) (w := w) (rest := rest) as (w' & A & B & C & _); auto.
      - intros j i w1 Hi Hw. unfold fwd_y, Qfy, ycoef, isvar, pcoef. cbv zeta. fold (arg0 i). fold q. destruct Hi as [->| ->].
        + eexists. split; [reflexivity|]. split; [exact Hw|]. split; cbn [w_vy w_iy w_ty].
          * rewrite !fset_eq. split; auto. split; [discriminate|]. intros k Hk. replace (0 <? low) with true by (symmetry; apply Nat.ltb_lt; lia).
            rewrite fill_spec. destruct (k =? 0) eqn:E.
            -- apply Nat.eqb_eq in E as ->. replace (j * q + 1 <=? j * q + 0) with false by (symmetry; apply Nat.leb_gt; lia). cbn [andb]. apply fset_eq.
            -- apply Nat.eqb_neq in E. replace (j * q + 1 <=? j * q + k) with true by (symmetry; apply Nat.leb_le; lia). replace (j * q + k <? j * q + low) with true by (symmetry; apply Nat.ltb_lt; lia). reflexivity.
          * intros j' i' Hj (H1 & H2 & H3). rewrite !fset_ne by lia. split; auto. split; auto. intros k Hk. rewrite <- H3 by auto.
            assert (S j' * q <= j * q) by (apply Nat.mul_le_mono_r; lia). rewrite fill_out by (left; unfold q in *; lia). destruct (0 <? low); auto. apply fset_ne. unfold q in *. lia.
        + eexists. split; [reflexivity|]. split; [exact Hw|]. split; cbn [w_vy w_iy w_ty].
          * rewrite !fset_eq. split; auto. split; auto. intros k Hk. rewrite fill_spec. replace (_ && _) with true by (symmetry; apply andb_true_iff; split; [apply Nat.leb_le|apply Nat.ltb_lt]; lia). unfold tb. do 2 f_equal. lia.
          * intros j' i' Hj (H1 & H2 & H3). rewrite !fset_ne by lia. split; auto. split; auto. intros k Hk. rewrite <- H3 by auto.
            assert (S j' * q <= j * q) by (apply Nat.mul_le_mono_r; lia). apply fill_out. left. unfold q in *; lia.
      - repeat split; auto.
      - exists w'. auto.
    Qed.
    (** the whole call *)
    Lemma forward_any_ok cb ai cid iv iv' a' lx ly rest w0 : low <= up -> up < cap -> Forall isx lx -> Forall isy ly ->
      (forall t t', t < length ly -> t' < length ly -> isvar (nth t ly d0) = true -> isvar (nth t' ly d0) = true -> i_var (nth t ly d0) = i_var (nth t' ly d0) -> t = t') ->
      exists tab' ty, atomic_forward_any isd P cb cap low up (mkIns AFunOp [ai; cid; length lx; length ly] iv :: lx ++ ly ++ mkIns AFunOp a' iv' :: rest) w0 tab = Some (tab', rest) /\
        length ty = length ly * q /\ (forall t k, t < length ly -> k < low -> nth (t * q + k) ty bnan = ycoef tb (nth t ly d0) k) /\
        let res := cb ai cid (map xpar lx) (map xkind lx) Kvar (map isvar ly) low up (flat q (xcoef tb) lx) ty in
        (forall t k, t < length ly -> isvar (nth t ly d0) = true -> low <= k <= up -> tab' (i_var (nth t ly d0) * cap + k) = nth (t * q + k) res bnan) /\
        (forall v k, k < cap -> (forall t, t < length ly -> isvar (nth t ly d0) = true -> low <= k <= up -> v <> i_var (nth t ly d0)) -> tab' (v * cap + k) = tab (v * cap + k)).
    Proof.
      intros LU UC FX FY ND. cbn [atomic_forward_any]. destruct (fwd_xs lx w0 (ly ++ mkIns AFunOp a' iv' :: rest) FX) as (w1 & -> & _ & Q1).
      destruct (fwd_ys ly w1 (mkIns AFunOp a' iv' :: rest) LU FY) as (w & -> & (S1 & S2 & S3) & Q2).
      rewrite (vec_map (w_par w) xpar d0 lx) by (intros t Ht; rewrite <- S1; now apply Q1). rewrite (vec_map (w_type w) xkind d0 lx) by (intros t Ht; rewrite <- S2; now apply Q1).
      rewrite (vec_map (w_vy w) isvar d0 ly) by (intros t Ht; now apply Q2). fold q.
      rewrite (vec_flat (w_tx w) (xcoef tb) d0 q lx) by (intros t k Ht Hk; rewrite <- S3; apply Q1; auto).
      eexists _, (vec (w_ty w) (length ly * q)). split; [reflexivity|]. split; [apply vec_len|]. split.
      { intros t k Ht Hk. rewrite vec_nth by (assert (S t * q <= length ly * q) by (apply Nat.mul_le_mono_r; lia); unfold q in *; lia). now apply Q2. }
      set (res := cb _ _ _ _ _ _ _ _ _ _).
      destruct (out_fold (w_vy w) (fun i k => w_iy w i * cap + k) (fun i k => nth (i * q + k) res bnan) (seq low (q - low)) (length ly) tab) as [O1 O2].
      { intros i i' k k' Hi Hi' Vi Vi' Hk Hk' E. apply in_seq in Hk. apply in_seq in Hk'. unfold q in *. apply blk_inj in E as [E ->]; try lia. split; auto.
        destruct (Q2 i Hi) as (A1 & A2 & _), (Q2 i' Hi') as (B1 & B2 & _). rewrite A1 in Vi. rewrite B1 in Vi'. apply ND; auto. now rewrite <- A2, <- B2. }
      unfold fwd_out. fold q. split.
      - intros t k Ht V Hk. destruct (Q2 t Ht) as (A1 & A2 & _). rewrite <- A2 by auto. apply (O1 t k); auto; [congruence|]. apply in_seq. unfold q. lia.
      - intros v k Hk N. apply O2. intros t k' Ht V Hk' E. apply in_seq in Hk'. destruct (Q2 t Ht) as (A1 & A2 & _). unfold q in *. apply blk_inj in E as [E ->]; try lia. apply (N t); auto; [congruence|lia|]. rewrite <- A2; auto. congruence.
    Qed.
  End Fwd.

  (** *** several directions *)
  Section Dir.
    Variables (cap up ndir : nat).
    Let q := up + 1.
    (** an arbitrary layout: the code's tindex *)
    Notation ti := (tindex cap ndir).
    Definition Qdx (j : nat) (i : ins) (w : work) : Prop := w_par w j = xpar i /\ w_type w j = xkind i /\ (isvar i = true -> w_ix w j = arg0 i).
    Definition Qdy (j : nat) (i : ins) (w : work) : Prop := w_vy w j = isvar i /\ w_iy w j = if isvar i then i_var i else arg0 i.
    Lemma dir_xs l w rest : Forall isx l -> exists w', up_loop (dir_x isd P) 0 (length l) (l ++ rest) w = Some (w', rest) /\ forall t, t < length l -> Qdx t (nth t l d0) w'.
    Proof.
      intros F. destruct (up_loop_ok (dir_x isd P) isx Qdx (fun _ _ => True) d0) with (l := l) (j := 0) (w := w) (rest := rest) as (w' & A & _ & C & _); auto; [|exists w'; auto].
      intros j i w1 Hi _. unfold dir_x, Qdx, xpar, xkind, isvar. cbv zeta. fold (arg0 i). destruct Hi as [->| ->]; (eexists; split; [reflexivity|]; split; [exact Logic.I|]; cbn [w_par w_type w_ix]; rewrite !fset_eq; split; [repeat split; auto; discriminate|]);
        intros j' i' Hj (H1 & H2 & H3); rewrite !fset_ne by lia; auto.
    Qed.
    Lemma dir_ys l w rest : Forall isy l -> exists w', up_loop dir_y 0 (length l) (l ++ rest) w = Some (w', rest) /\ (w_par w' = w_par w /\ w_type w' = w_type w /\ w_ix w' = w_ix w) /\ forall t, t < length l -> Qdy t (nth t l d0) w'.
    Proof.
      intros F. destruct (up_loop_ok dir_y isy Qdy (fun _ w' => w_par w' = w_par w /\ w_type w' = w_type w /\ w_ix w' = w_ix w) d0) with (l := l) (j := 0) (w := w) (rest := rest) as (w' & A & B & C & _); auto; [|exists w'; auto].
      intros j i w1 Hi (I1 & I2 & I3). unfold dir_y, Qdy, isvar. fold (arg0 i). destruct Hi as [->| ->]; (eexists; split; [reflexivity|]; split; [cbn; auto|]; cbn [w_vy w_iy]; rewrite !fset_eq; split; [auto|]);
        intros j' i' Hj (H1 & H2); rewrite !fset_ne by lia; auto.
    Qed.
    Section One.
      Variables (w : work) (lx ly : list ins) (FX : Forall isx lx) (FY : Forall isy ly).
      Hypothesis QX : forall t, t < length lx -> Qdx t (nth t lx d0) w.
      Hypothesis QY : forall t, t < length ly -> Qdy t (nth t ly d0) w.
      Lemma dir_tx_ok tab dir tx t k : t < length lx -> k < q -> dir_tx cap up ndir w tab (length lx) dir tx (t * q + k) = xcoef (fun v k => tab (ti v k dir)) (nth t lx d0) k.
      Proof.
        unfold dir_tx. fold q. revert t k. assert (forall n, n <= length lx -> forall t k, t < n -> k < q -> 
          fold_left (fun tx j => match w_type w j with Kvar => fill tx (j * q) 0 q (fun k => tab (ti (w_ix w j) k dir)) | _ => fill (fset tx (j * q + 0) (w_par w j)) (j * q) 1 q (fun _ => b0) end) (seq 0 n) tx (t * q + k)
          = xcoef (fun v k => tab (ti v k dir)) (nth t lx d0) k) as K; [|intros t k Ht Hk; apply (K (length lx)); auto].
        induction n as [|n IH]; intros L t k Ht Hk; [lia|]. rewrite seq_S, fold_left_app. cbn [Nat.add fold_left]. destruct (QX n ltac:(lia)) as (H1 & H2 & H3).
        destruct (Nat.eq_dec t n) as [->|N].
        - assert (isx (nth n lx d0)) as X by (rewrite Forall_forall in FX; apply FX, nth_In; lia). rewrite H2. unfold xkind, xcoef, xpar, pcoef in *. destruct (isvar (nth n lx d0)) eqn:V.
          + rewrite fill_in by auto. now rewrite H3.
          + unfold kind_of. destruct (isd _); rewrite fill_par by auto; now rewrite H1.
        - assert (S t * q <= n * q) by (apply Nat.mul_le_mono_r; lia). rewrite <- (IH ltac:(lia) t k ltac:(lia) Hk). destruct (w_type w n); try (rewrite fill_out by lia; apply fset_ne; lia). apply fill_out. lia.
      Qed.
      Lemma dir_ty_ok tab dir ty t k : t < length ly -> k < up -> dir_ty P cap up ndir w tab (length ly) dir ty (t * q + k) = ycoef (fun v k => tab (ti v k dir)) (nth t ly d0) k.
      Proof.
        unfold dir_ty. fold q. revert t k. assert (forall n, n <= length ly -> forall t k, t < n -> k < up -> 
          fold_left (fun ty i => if w_vy w i then fill ty (i * q) 0 up (fun k => tab (ti (w_iy w i) k dir)) else fill (if 0 <? up then fset ty (i * q + 0) (P (w_iy w i)) else ty) (i * q) 1 up (fun _ => b0)) (seq 0 n) ty (t * q + k)
          = ycoef (fun v k => tab (ti v k dir)) (nth t ly d0) k) as K; [|intros t k Ht Hk; apply (K (length ly)); auto].
        induction n as [|n IH]; intros L t k Ht Hk; [lia|]. rewrite seq_S, fold_left_app. cbn [Nat.add fold_left]. destruct (QY n ltac:(lia)) as (H1 & H2).
        destruct (Nat.eq_dec t n) as [->|N].
        - rewrite H1. unfold ycoef, pcoef. destruct (isvar (nth n ly d0)) eqn:V.
          + rewrite fill_spec. replace (_ && _) with true by (symmetry; apply andb_true_iff; split; [apply Nat.leb_le|apply Nat.ltb_lt]; lia). rewrite H2. do 2 f_equal. lia.
          + rewrite fill_spec. replace (0 <? up) with true by (symmetry; apply Nat.ltb_lt; lia). destruct (k =? 0) eqn:E.
            * apply Nat.eqb_eq in E as ->. replace (n * q + 1 <=? n * q + 0) with false by (symmetry; apply Nat.leb_gt; lia). cbn [andb]. rewrite fset_eq. now rewrite H2.
            * apply Nat.eqb_neq in E. replace (_ && _) with true by (symmetry; apply andb_true_iff; split; [apply Nat.leb_le|apply Nat.ltb_lt]; lia). reflexivity.
        - assert (S t * q <= n * q) by (apply Nat.mul_le_mono_r; lia). rewrite <- (IH ltac:(lia) t k ltac:(lia) Hk). destruct (w_vy w n); [apply fill_out; unfold q in *; lia|].
          rewrite fill_out by (unfold q in *; lia). destruct (0 <? up); auto. apply fset_ne. unfold q in *. lia.
      Qed.
    End One.
  End Dir.

  (** *** reverse *)
  Section Rev.
    Variables (cap q : nat) (tab part : nat -> T).
    Let tb v k := tab (v * cap + k).
    (** the partials of a result *)
    Definition ypart (i : ins) (k : nat) : T := if isvar i then part (i_var i * q + k) else b0.
    Definition Qry (j : nat) (i : ins) (w : work) : Prop := forall k, k < q -> w_ty w (j * q + k) = ycoef tb i k /\ w_py w (j * q + k) = ypart i k.
    Definition Qrx (j : nat) (i : ins) (w : work) : Prop :=
      (w_par w j = xpar i /\ w_type w j = xkind i /\ forall k, k < q -> w_tx w (j * q + k) = xcoef tb i k) /\ w_vx w j = isvar i /\ w_ix w j = arg0 i.
    Lemma rev_ys l w rest : Forall isy l -> exists w', down_loop (rev_y P cap q tab part) (length l) (rev l ++ rest) w = Some (w', rest) /\ w_px w' = w_px w /\
      forall t, t < length l -> Qry t (nth t l d0) w'.
    Proof.
      intros F. destruct (down_loop_ok (rev_y P cap q tab part) isy Qry (fun _ w' => w_px w' = w_px w) d0) with (l := l) (w := w) (rest := rest) as (w' & A & B & C & _); auto; [|exists w'; auto].
      intros j i w1 Hi Hw. unfold rev_y, Qry, ycoef, ypart, isvar, pcoef. fold (arg0 i). destruct Hi as [->| ->]; (eexists; split; [reflexivity|]; split; [exact Hw|]; cbn [w_ty w_py]; split).
      - intros k Hk. rewrite !fill_par by auto. split; auto. now destruct (k =? 0).
      - intros j' i' Hj H k Hk. assert (S j * q <= j' * q) by (apply Nat.mul_le_mono_r; lia). rewrite !fill_out by lia. rewrite !fset_ne by lia. now apply H.
      - intros k Hk. rewrite !fill_in by auto. auto.
      - intros j' i' Hj H k Hk. assert (S j * q <= j' * q) by (apply Nat.mul_le_mono_r; lia). rewrite !fill_out by lia. now apply H.
    Qed.
    Lemma rev_xs l w rest : Forall isx l -> exists w', down_loop (rev_x isd P cap q tab) (length l) (rev l ++ rest) w = Some (w', rest) /\ (w_ty w' = w_ty w /\ w_px w' = w_px w /\ w_py w' = w_py w) /\
      forall t, t < length l -> Qrx t (nth t l d0) w'.
    Proof.
      intros F. destruct (down_loop_ok (rev_x isd P cap q tab) isx Qrx (fun _ w' => w_ty w' = w_ty w /\ w_px w' = w_px w /\ w_py w' = w_py w) d0) with (l := l) (w := w) (rest := rest) as (w' & A & B & C & _); auto; [|exists w'; auto].
      intros j i w1 Hi Hw. unfold rev_x, Qrx, xpar, xkind, xcoef, isvar, pcoef. cbv zeta. fold (arg0 i).
      destruct Hi as [->| ->]; (eexists; split; [reflexivity|]; split; [exact Hw|]; cbn [w_par w_type w_tx w_vx w_ix]; rewrite !fset_eq; split).
      - repeat split. intros k Hk. now apply fill_par.
      - intros j' i' Hj ((H1 & H2 & H3) & H4 & H5). rewrite !fset_ne by lia. repeat split; auto. intros k Hk. rewrite <- H3 by auto. assert (S j * q <= j' * q) by (apply Nat.mul_le_mono_r; lia). rewrite fill_out by lia. apply fset_ne. lia.
      - repeat split. intros k Hk. now rewrite fill_in.
      - intros j' i' Hj ((H1 & H2 & H3) & H4 & H5). rewrite !fset_ne by lia. repeat split; auto. intros k Hk. rewrite <- H3 by auto. assert (S j * q <= j' * q) by (apply Nat.mul_le_mono_r; lia). now rewrite fill_out by lia.
    Qed.
    (** one argument *)
    Lemma acc_fold (g : nat -> T) base : forall m f v k, k < q -> m <= q -> fold_left (fun part k => fset part (base * q + k) (b_bin Badd (part (base * q + k)) (g k))) (seq 0 m) f (v * q + k)
      = if (v =? base) && (k <? m) then b_bin Badd (f (v * q + k)) (g k) else f (v * q + k).
    Proof.
      induction m as [|m IH]; intros f v k Hk Hm; [now rewrite andb_false_r|]. rewrite seq_S, fold_left_app. cbn [Nat.add fold_left]. destruct (Nat.eq_dec (v * q + k) (base * q + m)) as [E|N].
      - apply blk_inj in E as [-> ->]; [|lia|lia]. rewrite fset_eq, IH by lia. rewrite Nat.eqb_refl, Nat.ltb_irrefl. cbn [andb]. replace (m <? S m) with true by (symmetry; apply Nat.ltb_lt; lia). reflexivity.
      - rewrite fset_ne, IH by (auto; lia). destruct (v =? base) eqn:V; auto. apply Nat.eqb_eq in V as ->. cbn [andb]. replace (k <? S m) with (k <? m); auto. destruct (k <? m) eqn:A, (k <? S m) eqn:B; auto; rewrite ?Nat.ltb_lt, ?Nat.ltb_ge in *; lia.
    Qed.
    (** the sum of the partials of the arguments that are the variable [v] *)
    Definition acc (vx : nat -> bool) (ix : nat -> nat) (px : list T) (n : nat) (p0 : T) (v k : nat) : T :=
      fold_left (fun s j => if vx j && (ix j =? v) then b_bin Badd s (nth (j * q + k) px bnan) else s) (seq 0 n) p0.
    Lemma rev_out_ok (w : work) px n v k : k < q -> rev_out q w px n part (v * q + k) = acc (w_vx w) (w_ix w) px n (part (v * q + k)) v k.
    Proof.
      intros Hk. unfold rev_out, acc. induction n as [|n IH]; auto. rewrite seq_S, !fold_left_app. cbn [Nat.add fold_left]. rewrite <- IH. clear IH.
      set (p1 := fold_left _ (seq 0 n) part). destruct (w_vx w n); cbn [andb]; auto.
      change (fun part k => let i := w_ix w n * q + k in fset part i (b_bin Badd (part i) (nth (n * q + k) px bnan))) with (fun part k => fset part (w_ix w n * q + k) (b_bin Badd (part (w_ix w n * q + k)) ((fun k => nth (n * q + k) px bnan) k))).
      rewrite acc_fold by auto. rewrite (Nat.eqb_sym (w_ix w n) v). replace (k <? q) with true by (symmetry; now apply Nat.ltb_lt). now rewrite andb_true_r.
    Qed.
    Lemma reverse_ok cb ai cid iv iv' a' lx ly rest w0 : Forall isx lx -> Forall isy ly ->
      exists part' px0, atomic_reverse isd P cb cap q (mkIns AFunOp [ai; cid; length lx; length ly] iv :: rev ly ++ rev lx ++ mkIns AFunOp a' iv' :: rest) w0 tab part = Some (part', rest) /\
        length px0 = length lx * q /\
        let px := cb ai cid (map xpar lx) (map xkind lx) (map isvar lx) (q - 1) (flat q (xcoef tb) lx) (flat q (ycoef tb) ly) px0 (flat q ypart ly) in
        forall v k, k < q -> part' (v * q + k) = acc (fun j => isvar (nth j lx d0)) (fun j => arg0 (nth j lx d0)) px (length lx) (part (v * q + k)) v k.
    Proof.
      intros FX FY. cbn [atomic_reverse]. destruct (rev_ys ly w0 (rev lx ++ mkIns AFunOp a' iv' :: rest) FY) as (w1 & -> & _ & Q1).
      destruct (rev_xs lx w1 (mkIns AFunOp a' iv' :: rest) FX) as (w & -> & (S1 & S2 & S3) & Q2).
      rewrite (vec_map (w_par w) xpar d0 lx) by (intros t Ht; now apply Q2). rewrite (vec_map (w_type w) xkind d0 lx) by (intros t Ht; now apply Q2). rewrite (vec_map (w_vx w) isvar d0 lx) by (intros t Ht; now apply Q2).
      rewrite (vec_flat (w_tx w) (xcoef tb) d0 q lx) by (intros t k Ht Hk; apply Q2; auto).
      rewrite (vec_flat (w_ty w) (ycoef tb) d0 q ly) by (intros t k Ht Hk; rewrite S1; apply (Q1 t); auto). rewrite (vec_flat (w_py w) ypart d0 q ly) by (intros t k Ht Hk; rewrite S3; apply (Q1 t); auto).
      eexists _, (vec (w_px w) (length lx * q)). split; [reflexivity|]. split; [apply vec_len|]. cbv zeta. intros v k Hk. rewrite rev_out_ok by auto. unfold acc.
      set (px := cb _ _ _ _ _ _ _ _ _ _). clearbody px.
      assert (forall l s, (forall j, In j l -> j < length lx) -> fold_left (fun s j => if w_vx w j && (w_ix w j =? v) then b_bin Badd s (nth (j * q + k) px bnan) else s) l s =
        fold_left (fun s j => if isvar (nth j lx d0) && (arg0 (nth j lx d0) =? v) then b_bin Badd s (nth (j * q + k) px bnan) else s) l s) as E.
      { induction l as [|j l IH]; intros s H; cbn; auto. destruct (Q2 j) as (_ & E1 & E2); [apply H; now left|]. rewrite E1, E2. apply IH. intros; apply H; now right. }
      apply E. intros j Hj. apply in_seq in Hj. lia.
    Qed.
  End Rev.
End Sweeps.
