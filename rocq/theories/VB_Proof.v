(** Proofs for C28. *)
From Coq Require Import List Arith Bool Lia NArith.
From Verif Require Import Vec_Spec Vec_Model Vec_Proof Vec_Proof2 VB_Model.
Import ListNotations.

Section Proof.
  Variable w : nat.
  Hypothesis Hw : 0 < w.
  Variable capof : nat -> nat -> nat.
  Variable junk : nat -> nat -> N.
  Hypothesis capof_ge : forall k n, n <= capof k n.
  Notation unit_min := (unit_min w).

  Definition bit (f : nat -> N) (i : nat) : bool := N.testbit (f (i / w)) (N.of_nat (i mod w)).
  Definition bholds (f : nat -> N) (l : list (option bool)) : Prop :=
    forall i a, nth_error l i = Some (Some a) -> bit f i = a.
  Definition bgood (m : mem N) (v : vec) (l : list (option bool)) : Prop :=
    length l = len v /\ (cap v = 0 -> len v = 0) /\
    (0 < cap v -> exists f, blk m (ptr v) = Some (cap v, f) /\ len v <= cap v * w /\ bholds f l).
  Definition BOK (s : st N) (L : lists bool) : Prop :=
    (forall x, bgood (heap s) (obj s x) (L x)) /\
    (forall x y p, owner s x p -> owner s y p -> x = y) /\
    (forall p, blk (heap s) p <> None -> exists x, owner s x p) /\
    (forall p, nxt (heap s) <= p -> blk (heap s) p = None).

  Lemma BOK_start : BOK start (fun _ => []).
  Proof.
    split; [|split; [|split]]; cbn.
    - intro x. split; [reflexivity|]. split; [reflexivity|]. cbn. lia.
    - intros x y p [H _]. cbn in H. lia.
    - intros p H. now elim H.
    - reflexivity.
  Qed.
  Lemma BOK_ext s L L' : (forall x, L x = L' x) -> BOK s L -> BOK s L'.
  Proof. intros H [A B]. split; auto. intro x. rewrite <- H. apply A. Qed.

  Lemma BOK_upd s L x m' v' lx :
    BOK s L ->
    (forall y p, y <> x -> owner s y p -> blk m' p = blk (heap s) p) ->
    bgood m' v' lx ->
    (0 < cap v' -> forall y, y <> x -> ~ owner s y (ptr v')) ->
    (forall p, blk m' p <> None -> (0 < cap v' /\ p = ptr v') \/ exists y, y <> x /\ owner s y p) ->
    (forall p, nxt m' <= p -> blk m' p = None) ->
    BOK (set_obj s m' x v') (fset L x lx).
  Proof.
    intros (G & D & N & F) Hoth Hg Hown Hleak Hfr.
    unfold set_obj. split; [|split; [|split]]; cbn.
    - intro y. destruct (Nat.eq_dec y x) as [->|Hy].
      + rewrite !fset_eq. exact Hg.
      + rewrite !fset_ne by auto. destruct (G y) as (A & B & C).
        split; [auto|]. split; [auto|]. intro Hc. destruct (C Hc) as (f & E & F1 & F2).
        exists f. split; [|split; auto]. rewrite <- E. apply (Hoth y); [auto|]. split; auto.
    - intros a b p [A1 A2] [B1 B2]. cbn in *.
      destruct (Nat.eq_dec a x) as [->|Ha]; destruct (Nat.eq_dec b x) as [->|Hb]; auto;
        rewrite ?fset_eq in *; rewrite ?fset_ne in * by auto.
      + exfalso. apply (Hown A1 b Hb). split; congruence.
      + exfalso. apply (Hown B1 a Ha). split; congruence.
      + apply (D a b p); split; auto.
    - intros p Hp. destruct (Hleak p Hp) as [[A B]|(y & Hy & A & B)].
      + exists x. split; cbn; rewrite fset_eq; auto.
      + exists y. split; cbn; rewrite fset_ne by auto; auto.
    - exact Hfr.
  Qed.
  Lemma BOK_same s L x m' v' lx f' :
    BOK s L -> cap v' = cap (obj s x) -> (0 < cap (obj s x) -> ptr v' = ptr (obj s x)) ->
    length lx = len v' -> len v' <= cap v' * w ->
    (0 < cap v' -> blk m' (ptr v') = Some (cap v', f')) -> bholds f' lx ->
    (forall p, (0 < cap v' -> p <> ptr v') -> blk m' p = blk (heap s) p) -> nxt m' = nxt (heap s) ->
    BOK (set_obj s m' x v') (fset L x lx).
  Proof.
    intros HOK Ec Ep El Hle Hb Hh Hoth Hn.
    pose proof HOK as (G & D & N & F).
    apply BOK_upd; auto.
    - intros y p Hy Ho. apply Hoth. intros Hc ->. apply Hy, (D y x (ptr v')); auto.
      split; [congruence|]. symmetry. apply Ep. congruence.
    - split; [auto|]. split; [intros E0; rewrite E0 in Hle; lia|]. intro Hc. exists f'. auto.
    - intros Hc y Hy Ho. apply Hy, (D y x (ptr v')); auto. split; [congruence|]. symmetry. apply Ep. congruence.
    - intros p Hp. destruct (Nat.eq_dec (cap v') 0) as [E|E].
      + rewrite Hoth in Hp by lia. destruct (N p Hp) as (y & A & B). right. exists y. split; [|split; auto].
        intros ->. lia.
      + destruct (Nat.eq_dec p (ptr v')) as [->|Hne]; [left; split; [lia|auto]|].
        rewrite Hoth in Hp by auto. destruct (N p Hp) as (y & A & B). right. exists y. split; [|split; auto].
        intros ->. apply Hne. rewrite Ep by lia. auto.
    - intros p Hp. destruct (Nat.eq_dec (cap v') 0) as [E|E].
      + rewrite Hoth by lia. apply F. lia.
      + destruct (Nat.eq_dec p (ptr v')) as [->|Hne].
        * exfalso. destruct (G x) as (_ & _ & C). destruct C as (f & C & _); [lia|].
          rewrite <- Ep in C by lia. rewrite F in C by lia. discriminate.
        * rewrite Hoth by auto. apply F. lia.
  Qed.
  Lemma b_owner_lt s L y p : BOK s L -> owner s y p -> p < nxt (heap s).
  Proof.
    intros (G & D & N & F) [A B]. destruct (le_lt_dec (nxt (heap s)) p) as [H|H]; auto.
    destruct (G y) as (_ & _ & C). destruct (C A) as (f & E & _). rewrite B in E.
    rewrite F in E by auto. discriminate.
  Qed.
  Lemma BOK_new s L x m' v' lx f' :
    BOK s L -> ptr v' = nxt (heap s) -> 0 < cap v' ->
    length lx = len v' -> len v' <= cap v' * w ->
    blk m' (nxt (heap s)) = Some (cap v', f') -> bholds f' lx ->
    (forall p, p <> nxt (heap s) -> ~ owner s x p -> blk m' p = blk (heap s) p) ->
    (forall p, owner s x p -> blk m' p = None) -> nxt m' = S (nxt (heap s)) ->
    BOK (set_obj s m' x v') (fset L x lx).
  Proof.
    intros HOK Ep Hc El Hle Hb Hh Hoth Hold Hn.
    assert (Hlt := fun y p => b_owner_lt s L y p HOK).
    pose proof HOK as (G & D & N & F).
    apply BOK_upd; auto.
    - intros y p Hy Ho. apply Hoth; [specialize (Hlt y p Ho); lia|]. intro Hx. apply Hy, (D y x p); auto.
    - split; [auto|]. split; [lia|]. intros _. exists f'. rewrite Ep. auto.
    - intros _ y Hy Ho. apply Hlt in Ho. rewrite Ep in Ho. lia.
    - intros p Hp. rewrite Ep. destruct (Nat.eq_dec p (nxt (heap s))) as [->|Hne]; [left; auto|].
      right. destruct (blk (heap s) p) eqn:E.
      + destruct (N p) as (y & Ho); [congruence|]. exists y. split; auto. intros ->. apply Hp, Hold, Ho.
      + exfalso. apply Hp. rewrite Hoth; auto.
    - intros p Hp. rewrite Hoth; [apply F; lia|lia|]. intro Ho. apply Hlt in Ho. lia.
  Qed.
  Lemma BOK_none s L x m' v' :
    BOK s L -> cap v' = 0 -> len v' = 0 ->
    (forall p, ~ owner s x p -> blk m' p = blk (heap s) p) ->
    (forall p, owner s x p -> blk m' p = None) -> nxt m' = nxt (heap s) ->
    BOK (set_obj s m' x v') (fset L x []).
  Proof.
    intros (G & D & N & F) Ec El Hoth Hold Hn.
    apply BOK_upd; [split; [|split; [|split]]; auto|..].
    - intros y p Hy Ho. apply Hoth. intro Hx. apply Hy, (D y x p); auto.
    - split; [cbn; auto|]. split; auto. lia.
    - lia.
    - intros p Hp. right. destruct (blk (heap s) p) eqn:E.
      + destruct (N p) as (y & Ho); [congruence|]. exists y. split; auto. intros ->. apply Hp, Hold, Ho.
      + exfalso. apply Hp. rewrite Hoth; auto.
    - intros p Hp. destruct (blk m' p) eqn:E; auto.
      assert (~ owner s x p) by (intro Ho; rewrite Hold in E; [discriminate|auto]).
      rewrite Hoth in E by auto. rewrite F in E by lia. discriminate.
  Qed.
  Lemma BOK_swap s L x y : BOK s L -> BOK (b_swap s x y) (fset (fset L x (L y)) y (L x)).
  Proof.
    intros HOK. pose proof HOK as (G & D & N & F). unfold b_swap.
    destruct (Nat.eqb_spec x y) as [->|Hxy].
    { apply (BOK_ext s L); auto. intro z. unfold fset. destruct (Nat.eqb_spec z y); subst; auto. }
    set (t := fun z => if z =? y then x else if z =? x then y else z).
    assert (To : forall z, fset (fset (obj s) x (obj s y)) y (obj s x) z = obj s (t z)).
    { intro z. unfold t, fset. destruct (z =? y), (z =? x); reflexivity. }
    assert (Tl : forall z, fset (fset L x (L y)) y (L x) z = L (t z)).
    { intro z. unfold t, fset. destruct (z =? y), (z =? x); reflexivity. }
    assert (Ti : forall z, t (t z) = z).
    { intro z. unfold t. destruct (Nat.eqb_spec z y) as [->|H1].
      - destruct (Nat.eqb_spec x y); [auto|]. now rewrite Nat.eqb_refl.
      - destruct (Nat.eqb_spec z x) as [->|H2]; [now rewrite Nat.eqb_refl|].
        destruct (Nat.eqb_spec z y), (Nat.eqb_spec z x); congruence. }
    split; [|split; [|split]]; cbn; auto.
    - intro z. rewrite To, Tl. apply G.
    - intros a b p [A1 A2] [B1 B2]. cbn in *. rewrite To in *.
      rewrite <- (Ti a), <- (Ti b). f_equal. apply (D _ _ p); split; auto.
    - intros p Hp. destruct (N p Hp) as (z & A & B). exists (t z). split; cbn; rewrite To, Ti; auto.
  Qed.
  Lemma b_upd_heap s L x m' f' lx : BOK s L -> len (obj s x) <= cap (obj s x) * w -> length lx = len (obj s x) ->
    (0 < cap (obj s x) -> blk m' (ptr (obj s x)) = Some (cap (obj s x), f')) -> bholds f' lx ->
    (forall p, (0 < cap (obj s x) -> p <> ptr (obj s x)) -> blk m' p = blk (heap s) p) -> nxt m' = nxt (heap s) ->
    BOK (mkS m' (obj s)) (fset L x lx).
  Proof.
    intros HOK Hle Hl Hb Hh Ho Hn.
    pose proof (BOK_same s L x m' (obj s x) lx f' HOK eq_refl (fun _ => eq_refl) Hl Hle Hb Hh Ho Hn) as H.
    destruct H as (G & D & N & F). split; [|split; [|split]]; auto.
    - intro z. specialize (G z). cbn in G |- *. unfold fset in *.
      destruct (Nat.eqb_spec z x) as [e|]; [subst z|]; auto.
    - intros a b p [A1 A2] [B1 B2]. cbn in *. apply (D a b p); split; cbn; unfold fset.
      all: destruct (Nat.eqb_spec a x), (Nat.eqb_spec b x); subst; auto.
    - intros p Hp. destruct (N p Hp) as (z & A & B). exists z. cbn in *. unfold fset in A, B.
      destruct (Nat.eqb_spec z x); subst; split; auto.
  Qed.
  Lemma b_content s L x : BOK s L -> exists f, (0 < cap (obj s x) -> blk (heap s) (ptr (obj s x)) = Some (cap (obj s x), f)) /\
     len (obj s x) <= cap (obj s x) * w /\ length (L x) = len (obj s x) /\ bholds f (L x).
  Proof.
    intros (G & _). destruct (G x) as (A & B & C). destruct (Nat.eq_dec (cap (obj s x)) 0) as [E|E].
    - exists (junk 0). specialize (B E). split; [lia|]. split; [lia|]. split; [auto|].
      destruct (L x); [|cbn in A; lia]. intros i a H. destruct i; discriminate.
    - destruct C as (f & C1 & C2 & C3); [lia|]. exists f. auto.
  Qed.

  (** ** arithmetic of units and bits *)
  Lemma unit_min_le n : n <= unit_min n * w.
  Proof.
    unfold VB_Model.unit_min. destruct (Nat.eqb_spec n 0) as [->|H]; [lia|].
    pose proof (Nat.div_mod (n - 1) w ltac:(lia)). pose proof (Nat.mod_upper_bound (n - 1) w ltac:(lia)). nia.
  Qed.
  Lemma unit_min_least n c : n <= c * w -> unit_min n <= c.
  Proof.
    unfold VB_Model.unit_min. destruct (Nat.eqb_spec n 0) as [->|H]; [lia|]. intro Hc.
    pose proof (Nat.div_mod (n - 1) w ltac:(lia)). nia.
  Qed.
  Lemma unit_min_pos n : 0 < n -> 0 < unit_min n.
  Proof. intro H. unfold VB_Model.unit_min. destruct (Nat.eqb_spec n 0); lia. Qed.
  Lemma unit_idx i n : i < n -> i / w < unit_min n.
  Proof. intro H. apply Nat.div_lt_upper_bound; [lia|]. pose proof (unit_min_le n). lia. Qed.
  Lemma idx_cap i n c : i < n -> n <= c * w -> i / w < c.
  Proof. intros H Hc. apply Nat.div_lt_upper_bound; lia. Qed.
  Lemma mask_mod i : mask w i = N.shiftl 1 (N.of_nat (i mod w)).
  Proof. unfold mask. f_equal. f_equal. rewrite Nat.mod_eq by lia. f_equal. apply Nat.mul_comm. Qed.
  Lemma pow2_bit a k : N.testbit (N.shiftl 1 a) k = (k =? a)%N.
  Proof. rewrite N.shiftl_1_l. destruct (N.eqb_spec k a) as [->|H]; [apply N.pow2_bits_true|apply N.pow2_bits_false; congruence]. Qed.
  Lemma mask_bit u i : negb (N.land u (mask w i) =? 0)%N = N.testbit u (N.of_nat (i mod w)).
  Proof.
    rewrite mask_mod. set (k := N.of_nat (i mod w)).
    assert (E : N.land u (N.shiftl 1 k) = if N.testbit u k then N.shiftl 1 k else 0%N).
    { apply N.bits_inj. intro j. rewrite N.land_spec, pow2_bit. destruct (N.testbit u k) eqn:Eu.
      - rewrite pow2_bit. destruct (N.eqb_spec j k) as [->|]; [now rewrite Eu|now rewrite andb_false_r].
      - rewrite N.bits_0. destruct (N.eqb_spec j k) as [->|]; [now rewrite Eu|now rewrite andb_false_r]. }
    rewrite E. destruct (N.testbit u k); [|reflexivity].
    assert (Hn : (N.shiftl 1 k <> 0)%N).
    { rewrite N.shiftl_1_l. apply N.pow_nonzero. discriminate. }
    apply N.eqb_neq in Hn. now rewrite Hn.
  Qed.
  Lemma put_bits (f : nat -> N) i (b : bool) j :
    bit (fset f (i / w) (if b then N.lor (f (i / w)) (mask w i) else N.ldiff (f (i / w)) (mask w i))) j
    = if j =? i then b else bit f j.
  Proof.
    unfold bit. destruct (Nat.eq_dec (j / w) (i / w)) as [E|E].
    - rewrite E, fset_eq.
      assert (Ek : (N.of_nat (j mod w) =? N.of_nat (i mod w))%N = (j =? i)).
      { pose proof (Nat.div_mod j w ltac:(lia)). pose proof (Nat.div_mod i w ltac:(lia)).
        destruct (Nat.eqb_spec j i) as [->|H1]; [apply N.eqb_refl|]. apply N.eqb_neq. intro H2.
        apply H1. apply Nat2N.inj in H2. rewrite H, H0, E, H2. reflexivity. }
      rewrite mask_mod. destruct b.
      + rewrite N.lor_spec, pow2_bit, Ek. destruct (j =? i); [apply orb_true_r|apply orb_false_r].
      + rewrite N.ldiff_spec, pow2_bit, Ek. destruct (j =? i); [apply andb_false_r|apply andb_true_r].
    - rewrite fset_ne by auto. destruct (Nat.eqb_spec j i); [congruence|reflexivity].
  Qed.
  Lemma b_put_spec m p i b c f : blk m p = Some (c, f) -> i / w < c ->
    exists m' f', b_put w m p i b = Some m' /\ blk m' p = Some (c, f') /\
      (forall q, q <> p -> blk m' q = blk m q) /\ nxt m' = nxt m /\
      (forall j, bit f' j = if j =? i then b else bit f j).
  Proof.
    intros Hb Hc. unfold b_put, read, write. rewrite Hb. destruct (Nat.ltb_spec (i / w) c); [|lia].
    eexists _, _. split; [reflexivity|]. cbn. split; [apply fset_eq|]. split; [|split; [reflexivity|]].
    - intros q Hq. now apply fset_ne.
    - intro j. apply put_bits.
  Qed.

  (** ** lists *)
  Lemma bholds_rep f n : bholds f (repeat None n).
  Proof. intros i a H. apply nth_error_In, repeat_spec in H. discriminate. Qed.
  Lemma bholds_app f l l' : bholds f l -> (forall i a, nth_error l' i = Some (Some a) -> bit f (length l + i) = a) ->
    bholds f (l ++ l').
  Proof.
    intros H1 H2 i a E. destruct (le_lt_dec (length l) i) as [H|H].
    - rewrite nth_error_app2 in E by auto. apply H2 in E. rewrite <- E. f_equal. lia.
    - rewrite nth_error_app1 in E by auto. auto.
  Qed.
  Lemma bholds_ext f g l : bholds f l -> (forall i, i < length l -> bit g i = bit f i) -> bholds g l.
  Proof. intros H E i a Ha. rewrite E; [auto|]. apply nth_error_Some. congruence. Qed.
  Lemma bholds_pad f l n : bholds f l -> bholds f (firstn n l ++ repeat None (n - length l)).
  Proof.
    intro H. apply bholds_app.
    - intros i a E. apply H. rewrite <- (firstn_skipn n l). rewrite nth_error_app1; auto.
      apply nth_error_Some. congruence.
    - intros i a E. apply nth_error_In, repeat_spec in E. discriminate.
  Qed.
  Definition bagrees (v : option bool) (e : bool) : Prop := match v with Some a => e = a | None => True end.

  (** ** the statements *)
  Lemma b_bit_ok s L y j v : BOK s L -> nth_error (L y) j = Some v ->
    exists e, b_bit w (heap s) (obj s y) j = Some e /\ bagrees v e.
  Proof.
    intros HOK E. destruct (b_content s L y HOK) as (f & Hb & Hle & Hlen & Hh).
    assert (Hj : j < len (obj s y)) by (rewrite <- Hlen; apply nth_error_Some; congruence).
    unfold b_bit. destruct (Nat.ltb_spec j (len (obj s y))); [|lia].
    assert (Hc : j / w < cap (obj s y)) by (eapply idx_cap; eauto).
    unfold read. rewrite Hb by lia. destruct (Nat.ltb_spec (j / w) (cap (obj s y))); [|lia].
    eexists. split; [reflexivity|]. rewrite mask_bit. destruct v as [a|]; cbn; auto.
    apply (Hh j a E).
  Qed.
  Lemma b_bit_none s L y j : BOK s L -> nth_error (L y) j = None -> b_bit w (heap s) (obj s y) j = None.
  Proof.
    intros (G & _) E. apply nth_error_None in E. destruct (G y) as (A & _). unfold b_bit.
    destruct (Nat.ltb_spec j (len (obj s y))); [lia|]. reflexivity.
  Qed.
  Lemma b_src_ok s L a v : BOK s L -> src_val L a = Some v -> exists e, b_src w s a = Some e /\ bagrees v e.
  Proof.
    intros HOK E. destruct a as [b|y j]; cbn in *.
    - inversion E; subst. exists b. split; reflexivity.
    - now apply (b_bit_ok s L).
  Qed.
  Lemma b_src_none s L a : BOK s L -> src_val L a = None -> b_src w s a = None.
  Proof. intros HOK E. destruct a as [b|y j]; cbn in *; [discriminate|]. now apply (b_bit_none s L). Qed.

  Lemma b_resize_ok s L x n : BOK s L ->
    exists s', b_resize w capof junk s x n = Some s' /\
      BOK s' (fset L x (if (n <=? cap (obj s x) * w) || (n <=? length (L x)) then resized (L x) n else repeat None n)).
  Proof.
    intro HOK. destruct (b_content s L x HOK) as (f & Hb & Hle & Hlen & Hh). unfold b_resize.
    destruct (Nat.leb_spec (unit_min n) (cap (obj s x))) as [H|H].
    - assert (Hn : n <= cap (obj s x) * w) by (pose proof (unit_min_le n); nia).
      destruct (Nat.leb_spec n (cap (obj s x) * w)); [|lia]. cbn [orb].
      eexists. split; [reflexivity|]. apply BOK_same with (f' := f); auto; cbn.
      + apply firstn_pad.
      + now apply bholds_pad.
    - assert (Hn : cap (obj s x) * w < n).
      { destruct (le_lt_dec n (cap (obj s x) * w)) as [H1|H1]; auto. apply unit_min_least in H1. lia. }
      destruct (Nat.leb_spec n (cap (obj s x) * w)); [lia|]. destruct (Nat.leb_spec n (length (L x))); [lia|]. cbn [orb].
      assert (Hc := capof_ge (nxt (heap s)) (unit_min n)).
      assert (Hm := unit_min_le n).
      assert (Hnc : n <= capof (nxt (heap s)) (unit_min n) * w) by nia.
      destruct (Nat.ltb_spec 0 (cap (obj s x))) as [Hp|Hp].
      + unfold free. rewrite Hb by auto. cbn. eexists. split; [reflexivity|].
        assert (Ho : owner s x (ptr (obj s x))) by (split; auto).
        assert (Hlt := b_owner_lt s L x _ HOK Ho).
        apply BOK_new with (f' := junk (nxt (heap s))); auto; cbn; try lia.
        * apply repeat_length.
        * rewrite fset_eq. reflexivity.
        * apply bholds_rep.
        * intros p Hq Hno. rewrite !fset_ne; auto. intros ->. auto.
        * intros p [_ <-]. rewrite fset_ne by lia. apply fset_eq.
      + cbn. eexists. split; [reflexivity|].
        apply BOK_new with (f' := junk (nxt (heap s))); auto; cbn; try lia.
        * apply repeat_length.
        * rewrite fset_eq. reflexivity.
        * apply bholds_rep.
        * intros p Hq Hno. rewrite !fset_ne; auto.
        * intros p [H00 _]. lia.
  Qed.
  Lemma b_clear_ok s L x : BOK s L -> exists s', b_clear s x = Some s' /\ BOK s' (fset L x []).
  Proof.
    intro HOK. destruct (b_content s L x HOK) as (f & Hb & Hle & Hlen & Hh). unfold b_clear.
    destruct (Nat.ltb_spec 0 (cap (obj s x))) as [H|H].
    - unfold free. rewrite Hb by auto. eexists. split; [reflexivity|].
      apply BOK_none; auto; cbn.
      + intros p Hp. apply fset_ne. intros ->. apply Hp. split; auto.
      + intros p [_ <-]. apply fset_eq.
    - eexists. split; [reflexivity|]. apply BOK_none; auto. intros p [H0 _]. lia.
  Qed.
  Lemma b_set_ok s L x i a v : BOK s L -> src_val L a = Some v -> i < length (L x) ->
    exists s', b_set w s x i a = Some s' /\ BOK s' (fset L x (nth_set (L x) i v)).
  Proof.
    intros HOK Ha Hi. destruct (b_src_ok s L a v HOK Ha) as (e & He & Hv).
    destruct (b_content s L x HOK) as (f & Hb & Hle & Hlen & Hh). unfold b_set.
    destruct (Nat.ltb_spec i (len (obj s x))); [|lia]. rewrite He.
    assert (Hc : i / w < cap (obj s x)) by (eapply idx_cap; eauto).
    destruct (b_put_spec (heap s) (ptr (obj s x)) i e (cap (obj s x)) f) as (m' & f' & A & B & C & D & E); auto.
    { apply Hb. lia. }
    rewrite A. eexists. split; [reflexivity|]. apply b_upd_heap with (f' := f'); auto; cbn.
    - now rewrite nth_set_len.
    - intros k u Ek. rewrite nth_set_nth in Ek by auto. rewrite E.
      destruct (Nat.eqb_spec k i) as [->|Hk]; [|auto]. inversion Ek; subst v. exact Hv.
    - intros p Hp. apply C. apply Hp. lia.
  Qed.

  (** enlarging keeps the bits *)
  Lemma b_enlarge_ok s L x k : BOK s L ->
    exists s', b_enlarge w capof junk s x (len (obj s x) + k) = Some s' /\ BOK s' (fset L x (L x ++ repeat None k)) /\
      (forall y, y <> x -> obj s' y = obj s y) /\ len (obj s' x) = len (obj s x) + k.
  Proof.
    intro HOK. destruct (b_content s L x HOK) as (f & Hb & Hle & Hlen & Hh). unfold b_enlarge.
    set (n := len (obj s x) + k).
    assert (Hl : length (L x ++ repeat None k) = n) by (rewrite app_length, repeat_length; unfold n; lia).
    destruct (Nat.ltb_spec (cap (obj s x) * w) n) as [H|H].
    - unfold b_grow, alloc. set (m1 := mkM _ _). set (q := nxt (heap s)) in *.
      assert (Hlt := fun y p => b_owner_lt s L y p HOK).
      assert (Hc := capof_ge q (unit_min n)). assert (Hm := unit_min_le n).
      assert (Hmono : unit_min (len (obj s x)) <= unit_min n).
      { apply unit_min_least. unfold n in *. lia. }
      assert (Hold : unit_min (len (obj s x)) <= cap (obj s x)) by (now apply unit_min_least).
      assert (E1 : blk m1 q = Some (capof q (unit_min n), junk q)) by (unfold m1; cbn; apply fset_eq).
      assert (E2 : forall p, p <> q -> blk m1 p = blk (heap s) p) by (intros p Hp; unfold m1; cbn; now apply fset_ne).
      destruct (copy_spec (unit_min (len (obj s x))) m1 q 0 (ptr (obj s x)) 0 _ _ (cap (obj s x)) f E1)
        as (m2 & f2 & A & B & C & D & E & F0).
      { intro H0. split; [|lia]. assert (owner s x (ptr (obj s x))) by (split; [lia|auto]).
        rewrite E2; [apply Hb; lia|]. apply Nat.lt_neq. apply (Hlt x). auto. }
      { lia. } { intros; left; auto. }
      rewrite A.
      assert (Hh2 : bholds f2 (L x ++ repeat None k)).
      { apply bholds_app.
        - apply (bholds_ext f); auto. intros i Hi. unfold bit. rewrite E.
          + f_equal. f_equal. lia.
          + split; [lia|]. cbn. apply unit_idx. lia.
        - intros i a Ea. apply nth_error_In, repeat_spec in Ea. discriminate. }
      destruct (Nat.ltb_spec 0 (cap (obj s x))) as [Hp|Hp].
      + assert (Ho : owner s x (ptr (obj s x))) by (split; auto).
        assert (Hpq : ptr (obj s x) < q) by (apply (Hlt x); auto).
        unfold free. rewrite C, E2, Hb by lia.
        eexists. split; [reflexivity|]. split.
        * apply BOK_new with (f' := f2); auto; cbn; fold q.
          -- assert (0 < unit_min n) by (apply unit_min_pos; lia). lia.
          -- nia.
          -- rewrite fset_ne by lia. exact B.
          -- intros p Hpp Hno. rewrite fset_ne; [rewrite C, E2 by auto; reflexivity|]. intros ->. auto.
          -- intros p [_ <-]. apply fset_eq.
        * split; cbn; [intros y Hy; now apply fset_ne|]. rewrite fset_eq. reflexivity.
      + eexists. split; [reflexivity|]. split.
        * apply BOK_new with (f' := f2); auto; cbn; fold q.
          -- assert (0 < unit_min n) by (apply unit_min_pos; lia). lia.
          -- nia.
          -- intros p Hpp Hno. rewrite C, E2 by auto; reflexivity.
          -- intros p [H0 _]. lia.
        * split; cbn; [intros y Hy; now apply fset_ne|]. rewrite fset_eq. reflexivity.
    - eexists. split; [reflexivity|]. split.
      + apply BOK_same with (f' := f); auto; cbn.
        apply bholds_app; auto. intros i a Ea. apply nth_error_In, repeat_spec in Ea. discriminate.
      + split; cbn; [intros y Hy; now apply fset_ne|]. rewrite fset_eq. reflexivity.
  Qed.

  (** setting bit number [length l] when the list is l ++ None :: r *)
  Lemma b_put_next s L x l v e r : BOK s L -> L x = l ++ None :: r -> bagrees v e ->
    exists m, b_put w (heap s) (ptr (obj s x)) (length l) e = Some m /\
      BOK (mkS m (obj s)) (fset L x (l ++ v :: r)).
  Proof.
    intros HOK El Hv. destruct (b_content s L x HOK) as (f & Hb & Hle & Hlen & Hh).
    assert (Hi : length l < len (obj s x)) by (rewrite <- Hlen, El, app_length; cbn; lia).
    assert (Hc : length l / w < cap (obj s x)) by (eapply idx_cap; eauto).
    destruct (b_put_spec (heap s) (ptr (obj s x)) (length l) e (cap (obj s x)) f) as (m' & f' & A & B & C & D & E); auto.
    { apply Hb. lia. }
    exists m'. split; [exact A|]. apply b_upd_heap with (f' := f'); auto.
    - rewrite <- Hlen, El, !app_length. reflexivity.
    - intros k u Ek. rewrite E. destruct (Nat.eqb_spec k (length l)) as [->|Hk].
      + rewrite nth_error_app2, Nat.sub_diag in Ek by lia. cbn in Ek. inversion Ek; subst v. exact Hv.
      + apply Hh. rewrite El. destruct (le_lt_dec (length l) k) as [H1|H1].
        * rewrite nth_error_app2 in * by lia. destruct (k - length l) eqn:Ed; [lia|]. exact Ek.
        * rewrite nth_error_app1 in * by lia. exact Ek.
    - intros p Hp. apply C. apply Hp. lia.
  Qed.

  Lemma b_push_ok s L x a v : BOK s L -> src_val L a = Some v ->
    exists s', b_push w capof junk s x a = Some s' /\ BOK s' (fset L x (L x ++ [v])).
  Proof.
    intros HOK Ha. destruct (b_src_ok s L a v HOK Ha) as (e & He & Hv). unfold b_push. rewrite He.
    destruct (b_content s L x HOK) as (f & Hb & Hle & Hlen & Hh).
    destruct (b_enlarge_ok s L x 1 HOK) as (s1 & A & B & _ & _). rewrite A.
    destruct (b_put_next s1 _ x (L x) v e [] B) as (m & C & D); auto.
    { rewrite fset_eq. reflexivity. }
    rewrite <- Hlen, C. eexists. split; [reflexivity|].
    eapply BOK_ext; [|exact D]. intro z. unfold fset. destruct (z =? x); reflexivity.
  Qed.

  Lemma skipn_cons (l : list (option bool)) k v : nth_error l k = Some v -> skipn k l = v :: skipn (S k) l.
  Proof.
    revert k. induction l as [|a l IH]; intros [|k] E; cbn in *; try discriminate.
    - inversion E. reflexivity.
    - now apply IH.
  Qed.
  Lemma firstn_S (l : list (option bool)) k v : nth_error l k = Some v -> firstn (S k) l = firstn k l ++ [v].
  Proof.
    revert k. induction l as [|a l IH]; intros [|k] E; cbn in *; try discriminate.
    - inversion E. reflexivity.
    - f_equal. now apply IH.
  Qed.
  Lemma b_loop_ok m : forall s L x y lx ly k, BOK s L ->
    length ly = k + m ->
    L x = lx ++ firstn k ly ++ repeat None m ->
    (x <> y -> L y = ly) -> (x = y -> ly = lx) ->
    exists s', b_loop w s x y (length lx) k m = Some s' /\ BOK s' (fset L x (lx ++ ly)).
  Proof.
    induction m as [|m IH]; intros s L x y lx ly k HOK Hk Ex Hne Heq; cbn [b_loop].
    - exists s. split; auto. apply (BOK_ext s L); auto. intro z. unfold fset.
      destruct (Nat.eqb_spec z x); subst; auto. rewrite Ex. cbn. rewrite app_nil_r, firstn_all2 by lia. reflexivity.
    - destruct (nth_error ly k) as [v|] eqn:Ev; [|apply nth_error_None in Ev; lia].
      assert (Ey : nth_error (L y) k = Some v).
      { destruct (Nat.eq_dec x y) as [<-|Hxy]; [|rewrite Hne; auto].
        rewrite Ex, nth_error_app1; [rewrite <- Heq by auto; exact Ev|].
        rewrite <- Heq by auto. lia. }
      destruct (b_bit_ok s L y k v HOK Ey) as (e & Ee & Hv). rewrite Ee.
      assert (Hfl : length (firstn k ly) = k) by (apply firstn_length_le; lia).
      destruct (b_put_next s L x (lx ++ firstn k ly) v e (repeat None m) HOK) as (h & A & B); auto.
      { rewrite Ex, <- app_assoc. reflexivity. }
      rewrite app_length, Hfl in A. rewrite A.
      destruct (IH (mkS h (obj s)) _ x y lx ly (S k) B) as (s' & C & D).
      + lia.
      + rewrite fset_eq, (firstn_S ly k v Ev), <- !app_assoc. reflexivity.
      + intro Hxy. rewrite fset_ne; auto.
      + auto.
      + exists s'. split; [exact C|]. eapply BOK_ext; [|exact D]. intro z. unfold fset. destruct (z =? x); reflexivity.
  Qed.
  Lemma b_push_vec_ok s L x y : BOK s L ->
    exists s', b_push_vec w capof junk s x y = Some s' /\ BOK s' (fset L x (L x ++ L y)).
  Proof.
    intro HOK. unfold b_push_vec.
    destruct (b_content s L x HOK) as (f & _ & _ & Hlen & _).
    destruct (b_content s L y HOK) as (g & _ & _ & Hleny & _).
    destruct (b_enlarge_ok s L x (len (obj s y)) HOK) as (s1 & A & B & _ & _). rewrite A.
    destruct (b_loop_ok (len (obj s y)) s1 _ x y (L x) (L y) 0 B) as (s' & C & D).
    - lia.
    - rewrite fset_eq. reflexivity.
    - intro H. rewrite fset_ne; auto.
    - intros ->. reflexivity.
    - rewrite Hlen in C. exists s'. split; [exact C|]. eapply BOK_ext; [|exact D].
      intro z. unfold fset. destruct (z =? x); reflexivity.
  Qed.

  Lemma b_copy_ok s L x y : BOK s L -> len (obj s x) = len (obj s y) ->
    exists m, copy (heap s) (ptr (obj s x)) 0 (ptr (obj s y)) 0 (unit_min (len (obj s x))) = Some m /\
      BOK (mkS m (obj s)) (fset L x (L y)).
  Proof.
    intros HOK El.
    destruct (b_content s L x HOK) as (f & Hb & Hle & Hlen & Hh).
    destruct (b_content s L y HOK) as (g & Hby & Hley & Hleny & Hhy).
    destruct (Nat.eq_dec (len (obj s x)) 0) as [E0|E0].
    { rewrite E0. cbn. eexists. split; [reflexivity|]. apply b_upd_heap with (f' := f); auto; try lia.
      destruct (L y); [|cbn in Hleny; lia]. intros i a H. destruct i; discriminate. }
    assert (0 < unit_min (len (obj s x))) by (apply unit_min_pos; lia).
    assert (U1 := unit_min_least _ _ Hle). assert (U2 := unit_min_least _ _ Hley).
    destruct (copy_spec (unit_min (len (obj s x))) (heap s) (ptr (obj s x)) 0 (ptr (obj s y)) 0
          (cap (obj s x)) f (cap (obj s y)) g) as (m' & f' & A & B & C & D & E4 & F0); auto.
    - apply Hb. lia.
    - intros _. rewrite El in *. split; [apply Hby; lia|lia].
    - exists m'. split; [exact A|]. apply b_upd_heap with (f' := f'); auto; try lia.
      + apply (bholds_ext g); auto. intros i Hi. unfold bit. rewrite E4.
        * f_equal. f_equal. lia.
        * split; [lia|]. cbn. apply unit_idx. lia.
      + intros p Hp. apply C. apply Hp. lia.
  Qed.
  Lemma b_assign_ok s L x y : BOK s L ->
    if (length (L x) =? length (L y)) || (length (L x) =? 0) then
      exists s', b_assign w capof junk s x y = Some s' /\ BOK s' (fset L x (L y))
    else b_assign w capof junk s x y = None.
  Proof.
    intro HOK. unfold b_assign.
    destruct (b_content s L x HOK) as (f & _ & _ & Hlen & _).
    destruct (b_content s L y HOK) as (g & _ & _ & Hleny & _).
    rewrite Hlen, Hleny. destruct (Nat.eqb_spec (len (obj s x)) 0) as [E0|E0].
    - rewrite orb_true_r.
      destruct (b_resize_ok s L x (len (obj s y)) HOK) as (s1 & A & B). rewrite A.
      destruct (b_content s1 _ x B) as (f1 & _ & _ & Hlen1 & _).
      destruct (b_content s1 _ y B) as (g1 & _ & _ & Hleny1 & _).
      assert (Ex : len (obj s1 x) = len (obj s y)).
      { rewrite <- Hlen1, fset_eq. destruct (_ || _); [apply firstn_pad|apply repeat_length]. }
      assert (Ey : len (obj s1 y) = len (obj s y)).
      { destruct (Nat.eq_dec y x) as [->|H]; auto. rewrite <- Hleny1, fset_ne by auto. auto. }
      rewrite Ex, Ey, Nat.eqb_refl.
      destruct (b_copy_ok s1 _ x y B) as (m & C & D); [congruence|]. rewrite Ex in C. rewrite C.
      eexists. split; [reflexivity|]. eapply BOK_ext; [|exact D]. intro z. unfold fset.
      destruct (Nat.eqb_spec z x); auto. destruct (Nat.eqb_spec y x) as [->|]; auto.
      rewrite E0. cbn. destruct (L x); [reflexivity|cbn in Hlen; lia].
    - rewrite orb_false_r. destruct (Nat.eqb_spec (len (obj s x)) (len (obj s y))) as [E|E]; [|reflexivity].
      destruct (b_copy_ok s L x y HOK E) as (m & C & D). rewrite C. eexists. split; [reflexivity|exact D].
  Qed.
End Proof.
