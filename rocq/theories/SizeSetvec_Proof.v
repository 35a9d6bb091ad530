(** Proofs that the linked-list set vector refines [SetVec_Spec]. *)
From stdpp Require Import list numbers option sorting.
From Coq Require Import Lia.
From Verif Require Import SetVec_Spec SizeSetvec_Model.

(** ** counting *)
Definition ind (x y : nat) : nat := if Nat.eqb x y then 1 else 0.
Definition lt1 (x n : nat) : nat := if Nat.ltb x n then 1 else 0.
Global Arguments ind : simpl never.
Global Arguments lt1 : simpl never.
Fixpoint cnt (x : nat) (l : list nat) : nat :=
  match l with [] => 0 | y :: l' => ind x y + cnt x l' end.
Lemma ind_refl x : ind x x = 1. Proof. unfold ind. rewrite Nat.eqb_refl. reflexivity. Qed.
Lemma ind_ne x y : x <> y -> ind x y = 0. Proof. unfold ind. destruct (Nat.eqb_spec x y); congruence. Qed.
Lemma ind_le x y : ind x y <= 1. Proof. unfold ind. destruct (Nat.eqb x y); lia. Qed.
Lemma ind_pos x y : 0 < ind x y -> x = y.
Proof. unfold ind. destruct (Nat.eqb_spec x y); [auto|lia]. Qed.
Lemma lt1_lt x n : x < n -> lt1 x n = 1. Proof. unfold lt1. destruct (Nat.ltb_spec x n); lia. Qed.
Lemma lt1_ge x n : n <= x -> lt1 x n = 0. Proof. unfold lt1. destruct (Nat.ltb_spec x n); lia. Qed.
Lemma lt1_le x n : lt1 x n <= 1. Proof. unfold lt1. destruct (Nat.ltb x n); lia. Qed.
Lemma lt1_S x n : lt1 x (S n) = lt1 x n + ind x n.
Proof. unfold lt1, ind. destruct (Nat.ltb_spec x (S n)), (Nat.ltb_spec x n), (Nat.eqb_spec x n); lia. Qed.
Lemma cnt_app x a b : cnt x (a ++ b) = cnt x a + cnt x b.
Proof. induction a as [|y a IH]; cbn; [reflexivity|rewrite IH; lia]. Qed.
Lemma cnt_in x l : x ∈ l <-> 0 < cnt x l.
Proof.
  induction l as [|y l IH]; cbn; [rewrite elem_of_nil; lia|]. rewrite elem_of_cons, IH.
  unfold ind. destruct (Nat.eqb_spec x y); split; intros H; try lia; auto.
Qed.
Lemma cnt_0 x l : x ∉ l <-> cnt x l = 0.
Proof. rewrite cnt_in. lia. Qed.
Lemma cnt_insert x l i y z : l !! i = Some y -> cnt x (<[i := z]> l) + ind x y = cnt x l + ind x z.
Proof.
  revert i; induction l as [|a l IH]; intros [|i] H; try discriminate.
  - injection H as ->. change (<[0:=z]> (y::l)) with (z :: l). cbn [cnt]. lia.
  - change (<[S i:=z]> (a::l)) with (a :: <[i:=z]> l). cbn [cnt]. specialize (IH i H). lia.
Qed.
Lemma cnt_replicate_ne x y n : x <> y -> cnt x (replicate n y) = 0.
Proof. intros H. induction n; cbn; [reflexivity|rewrite IHn, ind_ne; auto]. Qed.

Lemma cnt_length l : forall N, (forall x, cnt x l <= lt1 x N) -> length l <= N.
Proof.
  intros N H. assert (NoDup l) as Hnd.
  { clear -H. induction l as [|y l IH]; constructor.
    - specialize (H y). cbn in H. rewrite ind_refl in H. apply cnt_0. pose proof (lt1_le y N). lia.
    - apply IH. intros x. specialize (H x). cbn in H. lia. }
  rewrite <- (seq_length N 0). apply submseteq_length. apply NoDup_submseteq; [exact Hnd|].
  intros x Hx. apply cnt_in in Hx. specialize (H x). apply elem_of_list_In, in_seq.
  destruct (decide (x < N)); [lia|]. rewrite lt1_ge in H; lia.
Qed.

(** ** segments of linked lists *)
Fixpoint seg (d : list (nat * nat)) (p : nat) (ns vs : list nat) (q : nat) : Prop :=
  match ns, vs with
  | [], [] => p = q
  | a :: ns', v :: vs' => p = a /\ p <> 0 /\ exists n, d !! p = Some (v, n) /\ seg d n ns' vs' q
  | _, _ => False
  end.
Notation chain d p ns vs := (seg d p ns vs 0).

Lemma seg_frame d d' : forall ns vs p q, (forall x, x ∈ ns -> d' !! x = d !! x) -> seg d p ns vs q -> seg d' p ns vs q.
Proof.
  induction ns as [|a ns IH]; intros [|v vs] p q Hf H; cbn in *; try contradiction; [exact H|].
  destruct H as (-> & Hp & n & E & H). split; [reflexivity|]. split; [exact Hp|]. exists n.
  split; [rewrite Hf by (apply elem_of_cons; auto); exact E|]. apply IH; [|exact H].
  intros x Hx. apply Hf. apply elem_of_cons; auto.
Qed.
Lemma seg_lt d : forall ns vs p q, seg d p ns vs q -> forall x, x ∈ ns -> x < length d.
Proof.
  induction ns as [|a ns IH]; intros [|v vs] p q H x Hx; cbn in *; try contradiction; [apply elem_of_nil in Hx; contradiction|].
  destruct H as (-> & Hp & n & E & H). apply elem_of_cons in Hx as [->|Hx]; [apply lookup_lt_is_Some; eauto|eapply IH; eauto].
Qed.
Lemma seg_app d : forall n1 v1 n2 v2 p q, length n1 = length v1 ->
  (seg d p (n1 ++ n2) (v1 ++ v2) q <-> exists r, seg d p n1 v1 r /\ seg d r n2 v2 q).
Proof.
  induction n1 as [|a n1 IH]; intros [|v v1] n2 v2 p q Hl; cbn in *; try discriminate.
  - split; [intros H; exists p; auto|intros (r & -> & H); exact H].
  - split.
    + intros (-> & Hp & n & E & H). apply IH in H as (r & H1 & H2); [|lia]. exists r. split; [|exact H2].
      repeat split; [exact Hp|]. exists n; auto.
    + intros (r & (-> & Hp & n & E & H1) & H2). repeat split; [exact Hp|]. exists n. split; [exact E|].
      apply IH; [lia|]. eauto.
Qed.
Lemma seg_length d : forall ns vs p q, seg d p ns vs q -> length ns = length vs.
Proof.
  induction ns as [|a ns IH]; intros [|v vs] p q H; cbn in *; try contradiction; [reflexivity|].
  destruct H as (_ & _ & n & _ & H). f_equal. eauto.
Qed.
Lemma seg_hd d ns vs p : chain d p ns vs -> p = hd 0 ns.
Proof. destruct ns, vs; cbn; try contradiction; [auto|]. intros (-> & _); reflexivity. Qed.

(** value seen at the position after a chain: first value, or the end marker *)
Lemma chain_read d e ns vs p : d !! 0 = Some (e, 0) -> chain d p ns vs ->
  fst <$> d !! p = Some (hd e vs) /\ p = hd 0 ns.
Proof.
  intros H0 H. destruct ns as [|a ns], vs as [|v vs]; cbn in *; try contradiction.
  - subst p. rewrite H0. auto.
  - destruct H as (-> & _ & n & E & _). rewrite E. auto.
Qed.

(** ** the invariant *)
Definition pair_cnt (x : nat) (pl : list (list nat * list nat)) : nat := cnt x (concat (map fst pl)).
Definition blk : Type := nat * (list nat * list nat).
Definition blk_cells (b : blk) : list nat := fst b :: fst (snd b).
Definition blk_cnt (x : nat) (bl : list blk) : nat := cnt x (concat (map blk_cells bl)).

Record Inv (e : nat) (d : list (nat * nat)) (dnu nnu : nat) (gs ps : list nat)
    (fl : list nat) (pl : list (list nat * list nat)) (bl : list blk) (own : list nat) : Prop := {
  I_lenp : length pl = length ps;
  I_zero : d !! 0 = Some (e, 0);
  I_free : exists vs, chain d dnu fl vs;
  I_nnu : nnu = length fl;
  I_post : forall i p ns vs, ps !! i = Some p -> pl !! i = Some (ns, vs) -> chain d p ns vs /\ Forall (fun v => v < e) vs;
  I_bl : forall st ns vs, (st, (ns, vs)) ∈ bl ->
      st <> 0 /\ (exists nx, d !! st = Some (cnt st gs, nx) /\ chain d nx ns vs) /\ 0 < cnt st gs /\ vs <> [] /\
      StronglySorted lt vs /\ Forall (fun v => v < e) vs;
  I_start : forall st, st ∈ gs -> st <> 0 -> exists ns vs, (st, (ns, vs)) ∈ bl;
  I_own : forall x, ind x 0 + cnt x fl + pair_cnt x pl + blk_cnt x bl + cnt x own = lt1 x (length d)
}.

Lemma pair_cnt_in x pl i ns vs : pl !! i = Some (ns, vs) -> cnt x ns <= pair_cnt x pl.
Proof.
  unfold pair_cnt. revert i; induction pl as [|[n v] pl IH]; intros [|i] H; cbn in *; try discriminate.
  - injection H as -> ->. rewrite cnt_app. lia.
  - rewrite cnt_app. specialize (IH i H). lia.
Qed.
Lemma pair_cnt_insert x pl i ns vs ns' vs' : pl !! i = Some (ns, vs) ->
  pair_cnt x (<[i := (ns', vs')]> pl : list (list nat * list nat)) + cnt x ns = pair_cnt x pl + cnt x ns'.
Proof.
  unfold pair_cnt. revert i; induction pl as [|[n v] pl IH]; intros [|i] H; try discriminate.
  - injection H as -> ->. change (<[0:=(ns',vs')]> ((ns,vs)::pl) : list (list nat * list nat)) with ((ns',vs') :: pl : list (list nat * list nat)). cbn [map concat fst]. rewrite !cnt_app. lia.
  - change (map fst (<[S i:=(ns',vs')]> ((n,v)::pl) : list (list nat * list nat))) with (n :: map fst (<[i:=(ns',vs')]> pl : list (list nat * list nat))). cbn [map concat fst]. rewrite !cnt_app. specialize (IH i H). lia.
Qed.
Lemma blk_cnt_cons x b bl : blk_cnt x (b :: bl) = ind x (fst b) + cnt x (fst (snd b)) + blk_cnt x bl.
Proof. unfold blk_cnt; cbn. rewrite cnt_app. lia. Qed.
Lemma blk_cnt_app x b1 b2 : blk_cnt x (b1 ++ b2) = blk_cnt x b1 + blk_cnt x b2.
Proof. unfold blk_cnt. rewrite map_app, concat_app, cnt_app. reflexivity. Qed.
Lemma blk_split (st : nat) (ns vs : list nat) (bl : list blk) : (st, (ns, vs)) ∈ bl -> exists b1 b2, bl = b1 ++ (st, (ns, vs)) :: b2.
Proof. apply elem_of_list_split. Qed.
Lemma blk_cnt_in x (st : nat) (ns vs : list nat) (bl : list blk) : (st, (ns, vs)) ∈ bl -> ind x st + cnt x ns <= blk_cnt x bl.
Proof. intros H. apply blk_split in H as (b1 & b2 & ->). rewrite blk_cnt_app, blk_cnt_cons. cbn. lia. Qed.

Section InvFacts.
Context {e : nat} {d : list (nat * nat)} {dnu nnu : nat} {gs ps fl : list nat}
  {pl : list (list nat * list nat)} {bl : list blk} {own : list nat}.
Hypothesis HI : Inv e d dnu nnu gs ps fl pl bl own.

Lemma own_lt x : 0 < cnt x own -> x < length d.
Proof. intros H. pose proof (I_own _ _ _ _ _ _ _ _ _ _ HI x). destruct (decide (x < length d)); [assumption|]. rewrite lt1_ge in H0; lia. Qed.
Lemma own_ne0 x : 0 < cnt x own -> x <> 0.
Proof. intros H ->. pose proof (I_own _ _ _ _ _ _ _ _ _ _ HI 0). rewrite ind_refl in H0. pose proof (lt1_le 0 (length d)). lia. Qed.
Lemma own_sep x : 0 < cnt x own -> cnt x fl = 0 /\ pair_cnt x pl = 0 /\ blk_cnt x bl = 0 /\ cnt x own = 1.
Proof. intros H. pose proof (I_own _ _ _ _ _ _ _ _ _ _ HI x). pose proof (lt1_le x (length d)). lia. Qed.
Lemma blk_unique st ns vs ns' vs' : (st, (ns, vs)) ∈ bl -> (st, (ns', vs')) ∈ bl -> ns = ns' /\ vs = vs'.
Proof.
  intros H1 H2. apply blk_split in H1 as (b1 & b2 & Hb).
  pose proof (I_own _ _ _ _ _ _ _ _ _ _ HI st) as Ho. rewrite Hb, blk_cnt_app, blk_cnt_cons in Ho. cbn in Ho. rewrite ind_refl in Ho.
  pose proof (lt1_le st (length d)).
  rewrite Hb in H2. apply elem_of_app in H2 as [H2|H2].
  - pose proof (blk_cnt_in st _ _ _ _ H2) as H3. rewrite ind_refl in H3. lia.
  - apply elem_of_cons in H2 as [H2|H2]; [injection H2 as -> ->; auto|].
    pose proof (blk_cnt_in st _ _ _ _ H2) as H3. rewrite ind_refl in H3. lia.
Qed.
Lemma blk_fuel st ns vs : (st, (ns, vs)) ∈ bl -> S (length ns) < length d.
Proof.
  intros H. change (length (0 :: st :: ns) <= length d). apply cnt_length. intros x.
  pose proof (I_own _ _ _ _ _ _ _ _ _ _ HI x). pose proof (blk_cnt_in x _ _ _ _ H). cbn. lia.
Qed.
Lemma post_fuel i ns vs : pl !! i = Some (ns, vs) -> length ns < length d.
Proof.
  intros H. change (length (0 :: ns) <= length d). apply cnt_length. intros x.
  pose proof (I_own _ _ _ _ _ _ _ _ _ _ HI x). pose proof (pair_cnt_in x _ _ _ _ H). cbn. lia.
Qed.
Lemma d_pos : 0 < length d.
Proof. apply lookup_lt_is_Some. rewrite (I_zero _ _ _ _ _ _ _ _ _ _ HI). eauto. Qed.

(** changing cells that no structure uses *)
Lemma inv_frame d' : length d' = length d ->
  (forall x, ind x 0 + cnt x fl + pair_cnt x pl + blk_cnt x bl = 0 \/ d' !! x = d !! x) ->
  Inv e d' dnu nnu gs ps fl pl bl own.
Proof.
  intros Hl Hf. destruct HI as [H1 H2 H3 H4 H5 H6 H7 H8]. constructor; try assumption.
  - destruct (Hf 0) as [H|H]; [rewrite ind_refl in H; lia|rewrite H; exact H2].
  - destruct H3 as (vs & H3). exists vs. eapply seg_frame; [|exact H3]. intros x Hx. apply cnt_in in Hx. destruct (Hf x); [lia|assumption].
  - intros i p ns vs Hp Hpl. destruct (H5 i p ns vs Hp Hpl) as (Hc & Hv). split; [|exact Hv].
    eapply seg_frame; [|exact Hc]. intros x Hx. apply cnt_in in Hx. pose proof (pair_cnt_in x _ _ _ _ Hpl). destruct (Hf x); [lia|assumption].
  - intros st ns vs Hb. destruct (H6 st ns vs Hb) as (Hst & (nx & E & Hc) & Hr). split; [exact Hst|]. split; [|exact Hr].
    exists nx. split.
    + pose proof (blk_cnt_in st _ _ _ _ Hb) as Hx. rewrite ind_refl in Hx. destruct (Hf st) as [?| -> ]; [lia|exact E].
    + eapply seg_frame; [|exact Hc]. intros x Hx. apply cnt_in in Hx. pose proof (blk_cnt_in x _ _ _ _ Hb). destruct (Hf x); [lia|assumption].
  - intros x. rewrite Hl. apply H8.
Qed.
Lemma inv_own_upd x c : 0 < cnt x own -> Inv e (<[x := c]> d) dnu nnu gs ps fl pl bl own.
Proof.
  intros Hx. apply inv_frame; [apply insert_length|]. intros y.
  destruct (decide (y = x)) as [->|Hne]; [left|right; apply list_lookup_insert_ne; congruence].
  pose proof (own_sep x Hx). rewrite ind_ne by (apply own_ne0; exact Hx). lia.
Qed.
End InvFacts.

(** ** primitive operations *)
Definition zinv (s : sz) (gs fl : list nat) pl bl own : Prop :=
  Inv (z_end s) (z_data s) (z_dnu s) (z_nnu s) gs (z_post s) fl pl bl own.
Definition same_sets (s s' : sz) : Prop :=
  z_end s' = z_end s /\ z_start s' = z_start s /\ z_post s' = z_post s.

Section Ops.
Variable junk : nat * nat.
Notation get_data_index := (get_data_index junk).
Notation push_new := (push_new junk).
Notation build := (build junk).

Lemma get_ok s gs fl pl bl own : zinv s gs fl pl bl own ->
  exists x s' fl', get_data_index s = Some (x, s') /\ same_sets s s' /\
    zinv s' gs fl' pl bl (x :: own) /\ length (z_data s) <= length (z_data s') /\
    (forall j, j < length (z_data s) -> z_data s' !! j = z_data s !! j) /\
    (forall j, cnt j fl + (ind j x) <= 1 + cnt j fl) /\ (cnt x fl = 1 \/ length (z_data s) <= x) /\
    (forall j, cnt j fl' <= cnt j fl).
Proof.
  intros HI. unfold SizeSetvec_Model.get_data_index.
  destruct (I_free _ _ _ _ _ _ _ _ _ _ HI) as (vs & Hc).
  destruct (decide (0 < z_dnu s)) as [Hd|Hd].
  - destruct fl as [|a fl], vs as [|v vs]; cbn in Hc; try contradiction; [lia|].
    destruct Hc as (Ha & Hne & n & E & Hc). unfold znext. rewrite E. cbn.
    exists (z_dnu s), (with_free s (z_nnu s - 1) n), fl. split; [reflexivity|]. split; [repeat split|].
    split.
    + destruct HI as [H1 H2 H3 H4 H5 H6 H7 H8]. constructor; cbn; try assumption.
      * eauto.
      * rewrite H4. cbn. lia.
      * intros x. specialize (H8 x). cbn in H8. rewrite Ha. lia.
    + cbn. split; [lia|]. split; [reflexivity|]. split; [intros j; pose proof (ind_le j (z_dnu s)); lia|]. split.
      * left. rewrite Ha, ind_refl. pose proof (I_own _ _ _ _ _ _ _ _ _ _ HI a) as H8. cbn in H8. rewrite ind_refl in H8. pose proof (lt1_le a (length (z_data s))). lia.
      * intros j. lia.
  - assert (Hz : z_dnu s = 0) by lia. exists (length (z_data s)), (with_data s (z_data s ++ [junk])), fl.
    split; [reflexivity|]. split; [repeat split|].
    assert (Hf : forall j, j < length (z_data s) -> (z_data s ++ [junk]) !! j = z_data s !! j).
    { intros j Hj. apply lookup_app_l. exact Hj. }
    split.
    + pose proof HI as HI'. destruct HI as [H1 H2 H3 H4 H5 H6 H7 H8]. constructor; cbn; try assumption.
      * rewrite Hf by (eapply d_pos; exact HI'). exact H2.
      * exists vs. eapply seg_frame; [|exact Hc]. intros x Hx. apply Hf. eapply seg_lt; eauto.
      * intros i p ns vs' Hp Hpl. destruct (H5 i p ns vs' Hp Hpl) as (Hcc & Hv). split; [|exact Hv].
        eapply seg_frame; [|exact Hcc]. intros x Hx. apply Hf. eapply seg_lt; eauto.
      * intros st ns vs' Hb. destruct (H6 st ns vs' Hb) as (Hst & (nx & E & Hcc) & Hr). split; [exact Hst|]. split; [|exact Hr].
        exists nx. split; [rewrite Hf; [exact E|apply lookup_lt_is_Some; eauto]|].
        eapply seg_frame; [|exact Hcc]. intros x Hx. apply Hf. eapply seg_lt; eauto.
      * intros x. rewrite app_length. cbn. rewrite Nat.add_1_r, lt1_S. specialize (H8 x). lia.
    + cbn. split; [rewrite app_length; lia|]. split; [exact Hf|]. split; [intros j; pose proof (ind_le j (length (z_data s))); lia|].
      split; [right; lia|]. intros; lia.
Qed.

Lemma set_val_ok s x v c : z_data s !! x = Some c ->
  set_val s x v = Some (with_data s (<[x := (v, snd c)]> (z_data s))).
Proof. intros E. unfold set_val. rewrite E. reflexivity. Qed.
Lemma set_next_ok s x v c : z_data s !! x = Some c ->
  set_next s x v = Some (with_data s (<[x := (fst c, v)]> (z_data s))).
Proof. intros E. unfold set_next. rewrite E. reflexivity. Qed.

(** frame of an allocation step: only free cells, fresh cells and [p] change *)
Definition fr (s s' : sz) (fl : list nat) (p : nat) : Prop :=
  length (z_data s) <= length (z_data s') /\
  forall j, j < length (z_data s) -> cnt j fl = 0 -> j <> p -> z_data s' !! j = z_data s !! j.

Lemma push_ok s gs fl pl bl own p v vp np :
  zinv s gs fl pl bl own -> 0 < cnt p own -> z_data s !! p = Some (vp, np) ->
  exists x s' fl' w, push_new s p v = Some (x, s') /\ same_sets s s' /\ zinv s' gs fl' pl bl (x :: own) /\
    z_data s' !! p = Some (vp, x) /\ z_data s' !! x = Some (v, w) /\ x <> p /\ x <> 0 /\
    fr s s' fl p /\ (forall j, cnt j fl' <= cnt j fl) /\ (cnt x fl = 1 \/ length (z_data s) <= x).
Proof.
  intros HI Hp E. unfold SizeSetvec_Model.push_new.
  destruct (get_ok s gs fl pl bl own HI) as (x & s1 & fl1 & E1 & S1 & I1 & L1 & F1 & _ & X1 & Fl1).
  rewrite E1. cbn [mbind option_bind].
  assert (Hxown : cnt x own = 0).
  { pose proof (own_sep I1 x) as H. cbn in H. rewrite ind_refl in H. lia. }
  assert (Hxp : x <> p) by (intros ->; lia).
  assert (Hplt : p < length (z_data s)) by (eapply own_lt; eauto).
  assert (Hxlt : x < length (z_data s1)).
  { eapply (own_lt I1). cbn. rewrite ind_refl. lia. }
  assert (E2 : z_data s1 !! p = Some (vp, np)) by (rewrite F1; assumption).
  rewrite (set_next_ok s1 p x _ E2). cbn [mbind option_bind fst].
  set (s2 := with_data s1 (<[p := (vp, x)]> (z_data s1))).
  destruct (lookup_lt_is_Some_2 (z_data s1) x Hxlt) as ([xv xn] & E3).
  assert (E4 : z_data s2 !! x = Some (xv, xn)) by (cbn; rewrite list_lookup_insert_ne by congruence; exact E3).
  rewrite (set_val_ok s2 x v _ E4). cbn [mbind option_bind snd].
  exists x. eexists. exists fl1, xn. split; [reflexivity|].
  split; [destruct S1 as (? & ? & ?); repeat split; assumption|].
  split.
  { assert (I2 : zinv s2 gs fl1 pl bl (x :: own)).
    { unfold zinv, s2; cbn. apply (inv_own_upd I1). cbn. lia. }
    unfold zinv; cbn. apply (inv_own_upd I2). cbn. rewrite ind_refl. lia. }
  split; [cbn; rewrite list_lookup_insert_ne by congruence; apply list_lookup_insert; lia|].
  split; [cbn; apply list_lookup_insert; rewrite insert_length; exact Hxlt|].
  split; [exact Hxp|].
  split; [eapply (own_ne0 I1); cbn; rewrite ind_refl; lia|].
  split.
  { split; [cbn; rewrite !insert_length; exact L1|]. intros j Hj Hfl Hjp. cbn.
    assert (j <> x) by (intros ->; lia).
    rewrite !list_lookup_insert_ne by congruence. apply F1; exact Hj. }
  split; [exact Fl1|exact X1].
Qed.

Lemma fr_trans s s1 s2 fl fl1 p x :
  fr s s1 fl p -> fr s1 s2 fl1 x -> (forall j, cnt j fl1 <= cnt j fl) -> (cnt x fl = 1 \/ length (z_data s) <= x) ->
  fr s s2 fl p.
Proof.
  intros (L1 & F1) (L2 & F2) Hfl Hx. split; [lia|]. intros j Hj Hc Hp.
  rewrite F2; [apply F1; assumption|lia|specialize (Hfl j); lia|intros ->; lia].
Qed.

Lemma build_ok : forall tmp s gs fl pl bl own p vp np,
  zinv s gs fl pl bl own -> 0 < cnt p own -> z_data s !! p = Some (vp, np) ->
  exists s' fl' m nx, build s p tmp = Some s' /\ same_sets s s' /\ zinv s' gs fl' pl bl (m ++ own) /\
    z_data s' !! p = Some (vp, nx) /\ chain (z_data s') nx m tmp /\ fr s s' fl p.
Proof.
  induction tmp as [|v tmp IH]; intros s gs fl pl bl own p vp np HI Hp E; cbn [SizeSetvec_Model.build].
  - rewrite (set_next_ok s p 0 _ E). eexists _, fl, [], 0. split; [reflexivity|]. split; [repeat split|].
    split; [unfold zinv; cbn; apply (inv_own_upd HI); exact Hp|].
    split; [cbn; apply list_lookup_insert; eapply own_lt; eauto|]. split; [reflexivity|].
    split; [cbn; rewrite insert_length; lia|]. intros j Hj Hc Hne. cbn. apply list_lookup_insert_ne. congruence.
  - destruct (push_ok s gs fl pl bl own p v vp np HI Hp E) as (x & s1 & fl1 & w & E1 & S1 & I1 & Ep & Ex & Hxp & Hx0 & F1 & Fl1 & X1).
    rewrite E1. cbn [mbind option_bind].
    destruct (IH s1 gs fl1 pl bl (x :: own) x v w I1) as (s2 & fl2 & m & nx & E2 & S2 & I2 & Ex2 & C2 & F2); [cbn; rewrite ind_refl; lia|exact Ex|].
    rewrite E2. exists s2, fl2, (x :: m), x. split; [reflexivity|].
    split; [destruct S1 as (? & ? & ?), S2 as (? & ? & ?); repeat split; congruence|].
    split.
    { destruct I2 as [A1 A2 A3 A4 A5 A6 A7 A8]. constructor; try assumption.
      intros y. specialize (A8 y). rewrite cnt_app in A8. cbn in *. rewrite cnt_app. lia. }
    split.
    { destruct F2 as (_ & F2). rewrite F2; [exact Ep| | |congruence].
      - destruct F1 as (L1 & _). pose proof (own_lt HI p Hp). lia.
      - pose proof (own_sep I1 p) as H. cbn in H. lia. }
    split; [cbn; repeat split; [exact Hx0|]; exists nx; auto|].
    eapply fr_trans; eauto.
Qed.

(** cells of live structures are kept by an allocation that starts at an owned cell *)
Lemma fr_live s s' gs fl pl bl own p : zinv s gs fl pl bl own -> fr s s' fl p -> 0 < cnt p own ->
  forall x, 0 < ind x 0 + pair_cnt x pl + blk_cnt x bl -> z_data s' !! x = z_data s !! x.
Proof.
  intros HI (L & F) Hp x Hx. pose proof (I_own _ _ _ _ _ _ _ _ _ _ HI x) as Ho. pose proof (lt1_le x (length (z_data s))).
  apply F; [|lia|].
  - destruct (decide (x < length (z_data s))); [assumption|]. rewrite lt1_ge in Ho; lia.
  - intros ->. lia.
Qed.

(** turning owned cells into a new set *)
Lemma inv_add_block e d dnu nnu gs ps fl pl bl own own' i st ns vs nx :
  Inv e d dnu nnu gs ps fl pl bl own' -> (forall x, cnt x own' = ind x st + cnt x ns + cnt x own) ->
  gs !! i = Some 0 -> d !! st = Some (1, nx) -> chain d nx ns vs -> vs <> [] -> StronglySorted lt vs -> Forall (fun v => v < e) vs ->
  Inv e d dnu nnu (<[i := st]> gs) ps fl pl ((st, (ns, vs)) :: bl) own.
Proof.
  intros HI Hown Hi E Hc Hne Hs Hv.
  assert (Hpos : 0 < cnt st own') by (rewrite Hown, ind_refl; lia).
  assert (Hst0 : st <> 0) by (eapply own_ne0; eauto).
  assert (Hsep := own_sep HI st Hpos).
  assert (Hgs : cnt st gs = 0).
  { apply cnt_0. intros Hin. destruct (I_start _ _ _ _ _ _ _ _ _ _ HI st Hin Hst0) as (ns' & vs' & Hb).
    pose proof (blk_cnt_in st _ _ _ _ Hb) as Hx. rewrite ind_refl in Hx. lia. }
  assert (Hcnt : forall x, cnt x (<[i := st]> gs) + ind x 0 = cnt x gs + ind x st) by (intros x; apply cnt_insert; exact Hi).
  destruct HI as [H1 H2 H3 H4 H5 H6 H7 H8]. constructor; try assumption.
  - intros st' ns' vs' Hb. apply elem_of_cons in Hb as [Hb|Hb].
    + injection Hb as -> -> ->. split; [exact Hst0|].
      assert (cnt st (<[i := st]> gs) = 1) as Hc1. { specialize (Hcnt st). rewrite ind_refl, (ind_ne st 0) in Hcnt by exact Hst0. lia. }
      rewrite Hc1. split; [exists nx; split; assumption|]. split; [lia|]. repeat split; assumption.
    + destruct (H6 st' ns' vs' Hb) as (Hs0 & (nx' & E' & Hc') & Hr & Hrest).
      assert (Hne' : st' <> st). { intros ->. pose proof (blk_cnt_in st _ _ _ _ Hb) as Hx. rewrite ind_refl in Hx. lia. }
      assert (cnt st' (<[i := st]> gs) = cnt st' gs) as ->. { specialize (Hcnt st'). rewrite (ind_ne st' st), (ind_ne st' 0) in Hcnt by assumption. lia. }
      split; [exact Hs0|]. split; [exists nx'; split; assumption|]. split; assumption.
  - intros st' Hin Hs0. destruct (decide (st' = st)) as [->|Hne'].
    + exists ns, vs. apply elem_of_cons. left; reflexivity.
    + destruct (H7 st') as (ns' & vs' & Hb); [|exact Hs0|].
      * apply cnt_in in Hin. apply cnt_in. specialize (Hcnt st'). rewrite (ind_ne st' st), (ind_ne st' 0) in Hcnt by assumption. lia.
      * exists ns', vs'. apply elem_of_cons. right; exact Hb.
  - intros x. specialize (H8 x). rewrite blk_cnt_cons. cbn. rewrite Hown in H8. lia.
Qed.

(** ** the abstract content *)
Definition Content (bl : list blk) (gs : list nat) (i : nat) (vs : list nat) : Prop :=
  (gs !! i = Some 0 /\ vs = []) \/ (exists st ns, gs !! i = Some st /\ st <> 0 /\ (st, (ns, vs)) ∈ bl).

(** [n] sets with contents [f] and posted values [g] *)
Definition Z (s : sz) (n : nat) (f g : nat -> list nat) : Prop :=
  length (z_start s) = n /\ length (z_post s) = n /\
  exists fl pl bl, zinv s (z_start s) fl pl bl [] /\
    (forall i, i < n -> Content bl (z_start s) i (f i)) /\
    (forall i, i < n -> exists ns, pl !! i = Some (ns, g i)).

Definition upd {A} (f : nat -> A) (i : nat) (v : A) : nat -> A := fun k => if Nat.eqb k i then v else f k.
Lemma upd_eq {A} (f : nat -> A) i v : upd f i v i = v. Proof. unfold upd. rewrite Nat.eqb_refl. reflexivity. Qed.
Lemma upd_ne {A} (f : nat -> A) i v k : k <> i -> upd f i v k = f k. Proof. unfold upd. destruct (Nat.eqb_spec k i); congruence. Qed.

Lemma Z_facts s n f g i : Z s n f g -> i < n ->
  StronglySorted lt (f i) /\ Forall (fun v => v < z_end s) (f i) /\ Forall (fun v => v < z_end s) (g i).
Proof.
  intros (Hn & Hp & fl & pl & bl & HI & Hc & Hg) Hi.
  assert (HA : StronglySorted lt (f i) /\ Forall (fun v => v < z_end s) (f i)).
  { destruct (Hc i Hi) as [(_ & ->)|(st & ns & E & Hne & Hb)]; [repeat constructor|].
    destruct (I_bl _ _ _ _ _ _ _ _ _ _ HI _ _ _ Hb) as (_ & _ & _ & _ & HS & HF). split; assumption. }
  destruct HA as (H1 & H2). split; [exact H1|]. split; [exact H2|].
  destruct (Hg i Hi) as (ns & E).
  destruct (lookup_lt_is_Some_2 (z_post s) i) as (p & Ep); [lia|].
  destruct (I_post _ _ _ _ _ _ _ _ _ _ HI i p ns (g i) Ep E) as (_ & H). exact H.
Qed.

(** replacing an empty set by a freshly built one *)
Lemma build_set_ok s n f g i tmp :
  Z s n f g -> i < n -> f i = [] -> tmp <> [] -> StronglySorted lt tmp -> Forall (fun v => v < z_end s) tmp ->
  exists s', build_set junk s i tmp = Some s' /\ Z s' n (upd f i tmp) g /\ z_end s' = z_end s.
Proof.
  intros (Hn & Hp & fl & pl & bl & HI & Hc & Hg) Hi Hfi Htmp Hs Hv. unfold build_set.
  assert (Hsi : z_start s !! i = Some 0).
  { destruct (Hc i Hi) as [(E & _)|(st & ns & E & Hne & Hb)]; [exact E|].
    destruct (I_bl _ _ _ _ _ _ _ _ _ _ HI _ _ _ Hb) as (_ & _ & _ & Hvs & _). congruence. }
  destruct (get_ok s _ fl pl bl [] HI) as (x & s1 & fl1 & E1 & (S1a & S1b & S1c) & I1 & L1 & F1 & _ & X1 & Fl1).
  rewrite E1. cbn [mbind option_bind]. unfold set_start. rewrite S1b, Hsi. cbn [mbind option_bind].
  assert (Hx : x < length (z_data s1)) by (eapply (own_lt I1); cbn; rewrite ind_refl; lia).
  destruct (lookup_lt_is_Some_2 (z_data s1) x Hx) as ([xv xn] & Ex).
  set (s2 := with_start s1 (<[i:=x]> (z_start s))).
  rewrite (set_val_ok s2 x 1 (xv, xn)) by exact Ex. cbn [mbind option_bind snd].
  set (s3 := with_data s2 (<[x:=(1, xn)]> (z_data s2))).
  assert (I3 : zinv s3 (z_start s) fl1 pl bl [x]).
  { unfold zinv, s3; cbn. rewrite S1c in *. unfold zinv in I1. rewrite S1c in I1. apply (inv_own_upd I1). cbn. rewrite ind_refl. lia. }
  assert (Ex3 : z_data s3 !! x = Some (1, xn)) by (cbn; apply list_lookup_insert; exact Hx).
  destruct (build_ok tmp s3 _ fl1 pl bl [x] x 1 xn I3) as (s4 & fl4 & m & nx & E4 & (S4a & S4b & S4c) & I4 & Ex4 & C4 & F4); [cbn; rewrite ind_refl; lia|exact Ex3|].
  rewrite E4. exists s4. split; [reflexivity|].
  assert (Hend : z_end s4 = z_end s) by (rewrite S4a; cbn; exact S1a).
  split; [|exact Hend].
  assert (Hst : z_start s4 = <[i := x]> (z_start s)) by (rewrite S4b; reflexivity).
  split; [rewrite Hst, insert_length; exact Hn|]. split; [rewrite S4c; cbn; congruence|].
  exists fl4, pl, ((x, (m, tmp)) :: bl). split; [|split].
  - unfold zinv. rewrite Hst. eapply inv_add_block; [exact I4| |exact Hsi|exact Ex4|exact C4|exact Htmp|exact Hs|].
    + intros y. rewrite cnt_app. cbn. lia.
    + rewrite Hend. exact Hv.
  - intros k Hk. rewrite Hst. unfold upd. destruct (Nat.eqb_spec k i) as [->|Hne].
    + right. exists x, m. split; [apply list_lookup_insert; lia|]. split; [|apply elem_of_cons; auto].
      eapply (own_ne0 I1). cbn. rewrite ind_refl. lia.
    + destruct (Hc k Hk) as [(E & HH)|(st & ns & E & Hs0 & Hb)].
      * left. rewrite list_lookup_insert_ne by congruence. auto.
      * right. exists st, ns. rewrite list_lookup_insert_ne by congruence. repeat split; [exact E|exact Hs0|apply elem_of_cons; auto].
  - exact Hg.
Qed.
End Ops.
