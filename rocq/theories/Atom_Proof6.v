(** C38: the forward sweep with several directions. *)
From Coq Require Import List Bool Arith Lia.
From Verif Require Import Base_Spec Op_Model Tape_Spec Tape_Model Tape_Proof Atom_Model Atom_Proof2 Atom_Proof3.
Import ListNotations.

Section Dir.
  Context {b : base}.
  Notation T := (bt b).
  Variables (isd : nat -> bool) (P : nat -> T).
  Variable cb : nat -> nat -> list T -> list kind -> kind -> list bool -> nat -> nat -> list T -> list T -> list T.
  Notation work := (@work b).
  Variables (cap up ndir : nat) (U1 : 1 <= up) (UC : up < cap).
  Let q := up + 1.
  Notation ti := (tindex cap ndir).
  Lemma ti_inj v v' k k' d d' : k < cap -> k' < cap -> d < ndir -> d' < ndir -> ti v k d = ti v' k' d' -> v = v' /\ k = k' /\ (k = 0 \/ d = d').
  Proof.
    intros Hk Hk' Hd Hd' E. unfold tindex in E.
    assert (forall k d, k < cap -> d < ndir -> (if 0 <? k then (k - 1) * ndir + 1 + d else 0) < (cap - 1) * ndir + 1) as B.
    { intros k1 d1 H1 H2. destruct (0 <? k1) eqn:Z; [|rewrite Nat.add_1_r; apply Nat.lt_0_succ]. apply Nat.ltb_lt in Z. assert ((k1 - 1) * ndir + ndir <= (cap - 1) * ndir); [|lia]. replace ((k1 - 1) * ndir + ndir) with (S (k1 - 1) * ndir) by lia. apply Nat.mul_le_mono_r. lia. }
    apply blk_inj in E as [-> E]; auto. split; auto. destruct (0 <? k) eqn:Z, (0 <? k') eqn:Z'; rewrite ?Nat.ltb_lt, ?Nat.ltb_ge in *; try lia.
    assert ((k - 1) * ndir + d = (k' - 1) * ndir + d') as E' by lia. apply blk_inj in E' as [E1 ->]; auto. split; [lia|auto].
  Qed.
  Section One.
    Variables (w : work) (ai cid : nat) (lx ly : list ins).
    Hypothesis (FX : Forall isx lx) (FY : Forall isy ly).
    Hypothesis QX : forall t, t < length lx -> Qdx isd P t (nth t lx d0) w.
    Hypothesis QY : forall t, t < length ly -> Qdy t (nth t ly d0) w.
    Hypothesis ND : forall t t', t < length ly -> t' < length ly -> isvar (nth t ly d0) = true -> isvar (nth t' ly d0) = true -> i_var (nth t ly d0) = i_var (nth t' ly d0) -> t = t'.
    (** the results are new variables *)
    Hypothesis NX : forall t j, t < length ly -> j < length lx -> isvar (nth t ly d0) = true -> isvar (nth j lx d0) = true -> i_var (nth t ly d0) <> arg0 (nth j lx d0).
    Variable T0 : nat -> T.
    Let fresh (idx : nat) : Prop := forall t dir, t < length ly -> dir < ndir -> isvar (nth t ly d0) = true -> idx <> ti (i_var (nth t ly d0)) up dir.
    (** what is handed to the callback and what is stored, for one direction *)
    Definition dir_done (tab' : nat -> T) (dir : nat) : Prop :=
      exists ty, length ty = length ly * q /\ (forall t k, t < length ly -> k < up -> nth (t * q + k) ty bnan = ycoef P (fun v k => T0 (ti v k dir)) (nth t ly d0) k) /\
        let res := cb ai cid (map (xpar P) lx) (map (xkind isd) lx) Kvar (map isvar ly) up up (flat q (xcoef P (fun v k => T0 (ti v k dir))) lx) ty in
        forall t, t < length ly -> isvar (nth t ly d0) = true -> tab' (ti (i_var (nth t ly d0)) up dir) = nth (t * q + up) res bnan.
    Lemma dir_out_ok res dir tab : dir < ndir ->
      (forall t, t < length ly -> isvar (nth t ly d0) = true -> dir_out cap up ndir w res (length ly) dir tab (ti (i_var (nth t ly d0)) up dir) = nth (t * q + up) res bnan) /\
      (forall idx, (forall t, t < length ly -> isvar (nth t ly d0) = true -> idx <> ti (i_var (nth t ly d0)) up dir) -> dir_out cap up ndir w res (length ly) dir tab idx = tab idx).
    Proof.
      intros Hd. unfold dir_out. fold q.
      destruct (out_fold (w_vy w) (fun i k => ti (w_iy w i) k dir) (fun i k => nth (i * q + k) res bnan) (seq up (q - up)) (length ly) tab) as [O1 O2].
      { intros i i' k k' Hi Hi' Vi Vi' Hk Hk' E. apply in_seq in Hk. apply in_seq in Hk'. unfold q in *. apply ti_inj in E as (E & -> & _); try lia. split; auto.
        destruct (QY i Hi) as (A1 & A2), (QY i' Hi') as (B1 & B2). rewrite A1 in Vi. rewrite B1 in Vi'. rewrite Vi in A2. rewrite Vi' in B2. apply ND; auto. congruence. }
      split.
      - intros t Ht V. destruct (QY t Ht) as (A1 & A2). rewrite V in A2. rewrite <- A2. apply (O1 t up); auto; [congruence|]. apply in_seq. unfold q. lia.
      - intros idx N. apply O2. intros t k Ht V Hk E. apply in_seq in Hk. destruct (QY t Ht) as (A1 & A2). rewrite A1 in V. rewrite V in A2. assert (k = up) as -> by (unfold q in *; lia). apply (N t); auto. congruence.
    Qed.
    Lemma dir_loop_ok : forall k dir tx ty tab, dir + k = ndir -> (forall idx, fresh idx -> tab idx = T0 idx) ->
      let tab' := dir_loop P cb cap up ndir ai cid (length lx) (length ly) w k dir tx ty tab in
      (forall dir', dir <= dir' < ndir -> dir_done tab' dir') /\
      (forall idx, (forall t dir', t < length ly -> dir <= dir' < ndir -> isvar (nth t ly d0) = true -> idx <> ti (i_var (nth t ly d0)) up dir') -> tab' idx = tab idx).
    Proof.
      induction k as [|k IH]; intros dir tx ty tab E H; cbn [dir_loop]; cbv zeta; [split; [intros; lia|auto]|].
      fold q. set (tx1 := dir_tx cap up ndir w tab (length lx) dir tx). set (ty1 := dir_ty P cap up ndir w tab (length ly) dir ty). set (res := cb _ _ _ _ _ _ _ _ _ _). set (tab1 := dir_out _ _ _ _ _ _ _ _).
      destruct (dir_out_ok res dir tab ltac:(lia)) as [O1 O2]. fold tab1 in O1, O2.
      destruct (IH (S dir) tx1 (fun i => nth i res bnan) tab1 ltac:(lia)) as [I1 I2].
      { intros idx F. rewrite O2; [now apply H|]. intros t Ht V. apply F; auto. lia. }
      cbv zeta in I1, I2. split.
      - intros dir' Hd. destruct (Nat.eq_dec dir' dir) as [->|N]; [|apply I1; lia]. exists (vec ty1 (length ly * q)). split; [apply vec_len|]. split.
        + intros t k1 Ht Hk. rewrite vec_nth by (assert (S t * q <= length ly * q) by (apply Nat.mul_le_mono_r; lia); unfold q in *; lia). unfold ty1. rewrite (dir_ty_ok P cap up ndir w ly QY) by auto. unfold ycoef. destruct (isvar (nth t ly d0)) eqn:V; auto.
          apply H. intros t' dir' Ht' Hd' V' EQ. apply ti_inj in EQ; lia.
        + cbv zeta. intros t Ht V. rewrite I2, O1 by (auto; intros t' dir' Ht' Hd' V' EQ; apply ti_inj in EQ; lia). unfold res.
          rewrite (vec_map (w_par w) (xpar P) d0 lx) by (intros; now apply QX). rewrite (vec_map (w_type w) (xkind isd) d0 lx) by (intros; now apply QX). rewrite (vec_map (w_vy w) isvar d0 ly) by (intros; now apply QY).
          rewrite (vec_flat tx1 (xcoef P (fun v k => T0 (ti v k dir))) d0 q lx); auto. intros j k1 Hj Hk. unfold tx1. rewrite (dir_tx_ok isd P cap up ndir w lx FX QX) by auto. unfold xcoef. destruct (isvar (nth j lx d0)) eqn:VJ; auto.
          apply H. intros t' dir' Ht' Hd' V' EQ. apply ti_inj in EQ as (EQ & _); try (unfold q in *; lia). apply (NX t' j); auto.
      - intros idx F. rewrite I2, O2; auto. intros t Ht V. apply F; auto. lia. intros t dir' Ht Hd V. apply F; auto. lia.
    Qed.
  End One.
  Lemma forward_dir_ok ai cid iv iv' a' lx ly rest w0 tab : Forall isx lx -> Forall isy ly ->
    (forall t t', t < length ly -> t' < length ly -> isvar (nth t ly d0) = true -> isvar (nth t' ly d0) = true -> i_var (nth t ly d0) = i_var (nth t' ly d0) -> t = t') ->
    (forall t j, t < length ly -> j < length lx -> isvar (nth t ly d0) = true -> isvar (nth j lx d0) = true -> i_var (nth t ly d0) <> arg0 (nth j lx d0)) ->
    exists tab', atomic_forward_dir isd P cb cap up ndir (mkIns AFunOp [ai; cid; length lx; length ly] iv :: lx ++ ly ++ mkIns AFunOp a' iv' :: rest) w0 tab = Some (tab', rest) /\
      (forall dir, dir < ndir -> dir_done ai cid lx ly tab tab' dir) /\
      (forall idx, (forall t dir, t < length ly -> dir < ndir -> isvar (nth t ly d0) = true -> idx <> ti (i_var (nth t ly d0)) up dir) -> tab' idx = tab idx).
  Proof.
    intros FX FY ND NX. cbn [atomic_forward_dir]. destruct (dir_xs isd P up lx w0 (ly ++ mkIns AFunOp a' iv' :: rest) FX) as (w1 & -> & Q1).
    destruct (dir_ys up ly w1 (mkIns AFunOp a' iv' :: rest) FY) as (w & -> & (S1 & S2 & S3) & Q2). eexists. split; [reflexivity|].
    destruct (dir_loop_ok w) with (ai := ai) (cid := cid) (lx := lx) (ly := ly) (T0 := tab) (k := ndir) (dir := 0) (tx := w_tx w) (ty := w_ty w) (tab := tab) as [D1 D2]; auto.
    { intros t Ht. destruct (Q1 t Ht) as (A & B & C). unfold Qdx. rewrite S1, S2, S3. auto. }
    cbv zeta in D1, D2. split; [intros; apply D1; lia|]. intros idx F. apply D2. intros t dir Ht Hd V. apply F; auto. lia.
  Qed.
End Dir.
