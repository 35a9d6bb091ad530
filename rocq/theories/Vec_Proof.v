(** Proofs for C27: the heap invariant and its preservation. *)
From Coq Require Import List Arith Bool Lia.
From Verif Require Import Vec_Spec Vec_Model.
Import ListNotations.

Section Proof.
  Context {T : Type}.
  Variable capof : nat -> nat -> nat.
  Variable junk : nat -> nat -> T.
  Hypothesis capof_ge : forall k n, n <= capof k n.

  Definition holds (f : nat -> T) (l : list (option T)) : Prop :=
    forall i a, nth_error l i = Some (Some a) -> f i = a.
  Definition good (m : mem T) (v : vec) (l : list (option T)) : Prop :=
    length l = len v /\ (cap v = 0 -> len v = 0) /\
    (0 < cap v -> exists f, blk m (ptr v) = Some (cap v, f) /\ len v <= cap v /\ holds f l).
  Definition owner (s : st T) (x p : nat) : Prop := 0 < cap (obj s x) /\ ptr (obj s x) = p.
  Definition OK (s : st T) (L : lists T) : Prop :=
    (forall x, good (heap s) (obj s x) (L x)) /\
    (forall x y p, owner s x p -> owner s y p -> x = y) /\
    (forall p, blk (heap s) p <> None -> exists x, owner s x p) /\
    (forall p, nxt (heap s) <= p -> blk (heap s) p = None).

  Lemma fset_eq {A} (f : nat -> A) k a : fset f k a k = a.
  Proof. unfold fset. now rewrite Nat.eqb_refl. Qed.
  Lemma fset_ne {A} (f : nat -> A) k a i : i <> k -> fset f k a i = f i.
  Proof. intro H. unfold fset. destruct (Nat.eqb_spec i k); congruence. Qed.

  Lemma OK_start : OK (@start T) (fun _ => []).
  Proof.
    split; [|split; [|split]]; cbn.
    - intro x. split; [reflexivity|]. split; [reflexivity|]. cbn. lia.
    - intros x y p [H _]. cbn in H. lia.
    - intros p H. now elim H.
    - reflexivity.
  Qed.
  Lemma OK_ext s L L' : (forall x, L x = L' x) -> OK s L -> OK s L'.
  Proof. intros H [A B]. split; auto. intro x. rewrite <- H. apply A. Qed.

  Lemma OK_upd s L x m' v' lx :
    OK s L ->
    (forall y p, y <> x -> owner s y p -> blk m' p = blk (heap s) p) ->
    good m' v' lx ->
    (0 < cap v' -> forall y, y <> x -> ~ owner s y (ptr v')) ->
    (forall p, blk m' p <> None -> (0 < cap v' /\ p = ptr v') \/ exists y, y <> x /\ owner s y p) ->
    (forall p, nxt m' <= p -> blk m' p = None) ->
    OK (set_obj s m' x v') (fset L x lx).
  Proof.
    intros (G & D & N & F) Hoth Hg Hown Hleak Hfr.
    unfold set_obj. split; [|split; [|split]]; cbn.
    - intro y. destruct (Nat.eq_dec y x) as [->|Hy].
      + rewrite !fset_eq. exact Hg.
      + rewrite !fset_ne by auto. destruct (G y) as (A & B & C).
        split; [auto|]. split; [auto|]. intro Hc. destruct (C Hc) as (f & E & F1 & F2).
        exists f. split; [|split; auto]. rewrite <- E. apply (Hoth y); [auto|]. split; auto.
    - intros a b p [A1 A2] [B1 B2]. cbn in *.
      destruct (Nat.eq_dec a x) as [->|Ha]; destruct (Nat.eq_dec b x) as [->|Hb]; auto;
        rewrite ?fset_eq in *; rewrite ?fset_ne in * by auto.
      + exfalso. apply (Hown A1 b Hb). split; congruence.
      + exfalso. apply (Hown B1 a Ha). split; congruence.
      + apply (D a b p); split; auto.
    - intros p Hp. destruct (Hleak p Hp) as [[A B]|(y & Hy & A & B)].
      + exists x. split; cbn; rewrite fset_eq; auto.
      + exists y. split; cbn; rewrite fset_ne by auto; auto.
    - exact Hfr.
  Qed.

  (** the vector keeps its block *)
  Lemma OK_same s L x m' v' lx f' :
    OK s L -> cap v' = cap (obj s x) -> (0 < cap (obj s x) -> ptr v' = ptr (obj s x)) ->
    length lx = len v' -> len v' <= cap v' ->
    (0 < cap v' -> blk m' (ptr v') = Some (cap v', f')) -> holds f' lx ->
    (forall p, (0 < cap v' -> p <> ptr v') -> blk m' p = blk (heap s) p) -> nxt m' = nxt (heap s) ->
    OK (set_obj s m' x v') (fset L x lx).
  Proof.
    intros HOK Ec Ep El Hle Hb Hh Hoth Hn.
    pose proof HOK as (G & D & N & F).
    apply OK_upd; auto.
    - intros y p Hy Ho. apply Hoth. intros Hc ->. apply Hy, (D y x (ptr v')); auto.
      split; [congruence|]. symmetry. apply Ep. congruence.
    - split; [auto|]. split; [lia|]. intro Hc. exists f'. auto.
    - intros Hc y Hy Ho. apply Hy, (D y x (ptr v')); auto. split; [congruence|]. symmetry. apply Ep. congruence.
    - intros p Hp. destruct (Nat.eq_dec (cap v') 0) as [E|E].
      + rewrite Hoth in Hp by lia. destruct (N p Hp) as (y & A & B). right. exists y. split; [|split; auto].
        intros ->. lia.
      + destruct (Nat.eq_dec p (ptr v')) as [->|Hne]; [left; split; [lia|auto]|].
        rewrite Hoth in Hp by auto. destruct (N p Hp) as (y & A & B). right. exists y. split; [|split; auto].
        intros ->. apply Hne. rewrite Ep by lia. auto.
    - intros p Hp. destruct (Nat.eq_dec (cap v') 0) as [E|E].
      + rewrite Hoth by lia. apply F. lia.
      + destruct (Nat.eq_dec p (ptr v')) as [->|Hne].
        * exfalso. destruct (G x) as (_ & _ & C). destruct C as (f & C & _); [lia|].
          rewrite <- Ep in C by lia. rewrite F in C by lia. discriminate.
        * rewrite Hoth by auto. apply F. lia.
  Qed.

  (** the vector gets a new block, its old one (if any) is released *)
  Lemma OK_new s L x m' v' lx f' :
    OK s L -> ptr v' = nxt (heap s) -> 0 < cap v' ->
    length lx = len v' -> len v' <= cap v' ->
    blk m' (nxt (heap s)) = Some (cap v', f') -> holds f' lx ->
    (forall p, p <> nxt (heap s) -> ~ owner s x p -> blk m' p = blk (heap s) p) ->
    (forall p, owner s x p -> blk m' p = None) -> nxt m' = S (nxt (heap s)) ->
    OK (set_obj s m' x v') (fset L x lx).
  Proof.
    intros (G & D & N & F) Ep Hc El Hle Hb Hh Hoth Hold Hn.
    assert (HOK : OK s L) by (split; [|split; [|split]]; auto).
    assert (Hlt : forall y p, owner s y p -> p < nxt (heap s)).
    { intros y p [A B]. destruct (le_lt_dec (nxt (heap s)) p) as [H|H]; auto.
      destruct (G y) as (_ & _ & C). destruct (C A) as (f & E & _). rewrite B in E.
      rewrite F in E by auto. discriminate. }
    apply OK_upd; auto.
    - intros y p Hy Ho. apply Hoth; [specialize (Hlt y p Ho); lia|]. intro Hx. apply Hy, (D y x p); auto.
    - split; [auto|]. split; [lia|]. intros _. exists f'. rewrite Ep. auto.
    - intros _ y Hy Ho. apply Hlt in Ho. rewrite Ep in Ho. lia.
    - intros p Hp. rewrite Ep. destruct (Nat.eq_dec p (nxt (heap s))) as [->|Hne]; [left; auto|].
      right. destruct (blk (heap s) p) eqn:E.
      + destruct (N p) as (y & Ho); [congruence|]. exists y. split; auto. intros ->. apply Hp, Hold, Ho.
      + exfalso. apply Hp. rewrite Hoth; auto.
    - intros p Hp. rewrite Hoth; [apply F; lia|lia|]. intro Ho. apply Hlt in Ho. lia.
  Qed.

  (** the vector releases its block *)
  Lemma OK_none s L x m' v' :
    OK s L -> cap v' = 0 -> len v' = 0 ->
    (forall p, ~ owner s x p -> blk m' p = blk (heap s) p) ->
    (forall p, owner s x p -> blk m' p = None) -> nxt m' = nxt (heap s) ->
    OK (set_obj s m' x v') (fset L x []).
  Proof.
    intros (G & D & N & F) Ec El Hoth Hold Hn.
    apply OK_upd; [split; [|split; [|split]]; auto|..].
    - intros y p Hy Ho. apply Hoth. intro Hx. apply Hy, (D y x p); auto.
    - split; [cbn; auto|]. split; auto. lia.
    - lia.
    - intros p Hp. right. destruct (blk (heap s) p) eqn:E.
      + destruct (N p) as (y & Ho); [congruence|]. exists y. split; auto. intros ->. apply Hp, Hold, Ho.
      + exfalso. apply Hp. rewrite Hoth; auto.
    - intros p Hp. destruct (blk m' p) eqn:E; auto.
      assert (~ owner s x p) by (intro Ho; rewrite Hold in E; [discriminate|auto]).
      rewrite Hoth in E by auto. rewrite F in E by lia. discriminate.
  Qed.

  Lemma copy_spec n : forall (m : mem T) dst o sr k c f c' g,
    blk m dst = Some (c, f) -> (0 < n -> blk m sr = Some (c', g) /\ k + n <= c') ->
    o + k + n <= c -> (dst = sr -> o = 0 \/ k + n <= o + k) ->
    exists m' f', copy m dst o sr k n = Some m' /\ blk m' dst = Some (c, f') /\
      (forall p, p <> dst -> blk m' p = blk m p) /\ nxt m' = nxt m /\
      (forall i, o + k <= i < o + k + n -> f' i = g (i - o)) /\
      (forall i, ~ (o + k <= i < o + k + n) -> f' i = f i).
  Proof.
    induction n as [|n IH]; intros m dst o sr k c f c' g Hd Hs Hc Hov; cbn.
    - exists m, f. repeat split; auto; intros; lia.
    - destruct Hs as [Hs Hk]; [lia|]. unfold read. rewrite Hs.
      destruct (Nat.ltb_spec k c') as [_|]; [|lia]. unfold write. rewrite Hd.
      destruct (Nat.ltb_spec (o + k) c) as [_|]; [|lia].
      set (m1 := mkM _ _).
      assert (Hd1 : blk m1 dst = Some (c, fset f (o + k) (g k))) by (unfold m1; cbn; apply fset_eq).
      destruct (Nat.eq_dec dst sr) as [e|e].
      + subst sr. assert (Ecg : c' = c /\ g = f) by (rewrite Hd in Hs; inversion Hs; auto).
        destruct Ecg as [-> ->].
        destruct (IH m1 dst o dst (S k) c (fset f (o + k) (f k)) c (fset f (o + k) (f k)))
          as (m' & f' & A & B & C & D & E & F0); auto; [split; auto; lia | lia | lia |].
        exists m', f'. split; [exact A|]. split; [auto|]. split; [|split; [|split]].
        * intros p Hp. rewrite C by auto. unfold m1. cbn. apply fset_ne. auto.
        * rewrite D. reflexivity.
        * intros i Hi. destruct (Nat.eq_dec i (o + k)) as [->|Hne].
          -- rewrite F0 by lia. rewrite fset_eq. f_equal. lia.
          -- rewrite E by lia. destruct (Hov eq_refl) as [->|Hle].
             ++ rewrite fset_ne by lia. reflexivity.
             ++ rewrite fset_ne by lia. reflexivity.
        * intros i Hi. rewrite F0 by lia. apply fset_ne. lia.
      + destruct (IH m1 dst o sr (S k) c (fset f (o + k) (g k)) c' g)
          as (m' & f' & A & B & C & D & E & F0); auto.
        * intros _. split; [|lia]. unfold m1. cbn. rewrite fset_ne by auto. auto.
        * lia.
        * congruence.
        * exists m', f'. split; [exact A|]. split; [auto|]. split; [|split; [|split]].
          -- intros p Hp. rewrite C by auto. unfold m1. cbn. apply fset_ne. auto.
          -- rewrite D. reflexivity.
          -- intros i Hi. destruct (Nat.eq_dec i (o + k)) as [->|Hne].
             ++ rewrite F0 by lia. rewrite fset_eq. f_equal. lia.
             ++ rewrite E by lia. reflexivity.
          -- intros i Hi. rewrite F0 by lia. apply fset_ne. lia.
  Qed.

  Lemma good_read s L y j a : OK s L -> nth_error (L y) j = Some a ->
    exists f, blk (heap s) (ptr (obj s y)) = Some (cap (obj s y), f) /\ j < cap (obj s y) /\
      0 < cap (obj s y) /\ j < len (obj s y) /\ holds f (L y).
  Proof.
    intros (G & _) E. destruct (G y) as (A & B & C).
    assert (j < len (obj s y)) by (rewrite <- A; apply nth_error_Some; congruence).
    destruct (Nat.eq_dec (cap (obj s y)) 0) as [E0|E0]; [specialize (B E0); lia|].
    destruct C as (f & C1 & C2 & C3); [lia|]. exists f. repeat split; auto; lia.
  Qed.

  (** the value an argument has; [None] fits any value *)
  Definition agrees (v : option T) (e : T) : Prop := match v with Some a => e = a | None => True end.
  Lemma deref_ok s L a v : OK s L -> src_val L a = Some v ->
    chk s a = true /\ exists e, deref s (heap s) a (ptrs s) = Some e /\ agrees v e.
  Proof.
    intros HOK E. destruct a as [w|y j]; cbn in *.
    - inversion E; subst. split; auto. exists w. split; reflexivity.
    - destruct (good_read s L y j v HOK E) as (f & Hb & Hj & Hc & Hl & Hh).
      split; [apply Nat.ltb_lt; auto|]. exists (f j). unfold ptrs, read. rewrite Hb.
      destruct (Nat.ltb_spec j (cap (obj s y))); [|lia]. split; auto.
      destruct v as [w|]; cbn; auto.
  Qed.
  Lemma chk_none s L a : OK s L -> src_val L a = None -> chk s a = false.
  Proof.
    intros (G & _) E. destruct a as [w|y j]; cbn in *; [discriminate|].
    apply nth_error_None in E. destruct (G y) as (A & _). apply Nat.ltb_ge. lia.
  Qed.

  Lemma nth_set_nth {A} (l : list A) i a k : i < length l ->
    nth_error (nth_set l i a) k = if k =? i then Some a else nth_error l k.
  Proof.
    intro H. unfold nth_set. destruct (Nat.eqb_spec k i) as [->|Hk].
    - rewrite nth_error_app2; rewrite firstn_length_le by lia; [|lia]. rewrite Nat.sub_diag. reflexivity.
    - destruct (le_lt_dec i k) as [Hle|Hlt].
      + rewrite nth_error_app2; rewrite firstn_length_le by lia; [|lia].
        destruct (k - i) as [|d] eqn:Ed; [lia|]. cbn [nth_error].
        rewrite <- (firstn_skipn (S i) l) at 2. rewrite nth_error_app2; rewrite firstn_length_le by lia; [|lia].
        f_equal. lia.
      + rewrite nth_error_app1 by (rewrite firstn_length_le; lia).
        rewrite <- (firstn_skipn i l) at 2. rewrite nth_error_app1; auto. rewrite firstn_length_le; lia.
  Qed.
  Lemma nth_set_len {A} (l : list A) i a : i < length l -> length (nth_set l i a) = length l.
  Proof. intro H. unfold nth_set. rewrite app_length. cbn [length]. rewrite firstn_length_le, skipn_length by lia. lia. Qed.

  Lemma holds_rep f n : holds f (repeat None n).
  Proof. intros i a H. apply nth_error_In, repeat_spec in H. discriminate. Qed.
  Lemma holds_app f l l' : holds f l -> (forall i a, nth_error l' i = Some (Some a) -> f (length l + i) = a) ->
    holds f (l ++ l').
  Proof.
    intros H1 H2 i a E. destruct (le_lt_dec (length l) i) as [H|H].
    - rewrite nth_error_app2 in E by auto. apply H2 in E. rewrite <- E. f_equal. lia.
    - rewrite nth_error_app1 in E by auto. auto.
  Qed.
  Lemma holds_ext f g l : holds f l -> (forall i, i < length l -> g i = f i) -> holds g l.
  Proof. intros H E i a Ha. rewrite E; [auto|]. apply nth_error_Some. congruence. Qed.
  Lemma holds_firstn f l n : holds f l -> holds f (firstn n l).
  Proof.
    intros H i a E. apply H. rewrite <- (firstn_skipn n l). rewrite nth_error_app1; auto.
    apply nth_error_Some. congruence.
  Qed.
  Lemma firstn_pad (l : list (option T)) n : length (firstn n l ++ repeat None (n - length l)) = n.
  Proof. rewrite app_length, firstn_length, repeat_length. lia. Qed.
  Lemma holds_pad f l n : holds f l -> holds f (firstn n l ++ repeat None (n - length l)).
  Proof. intro H. apply holds_app; [now apply holds_firstn|]. intros i a E. apply nth_error_In, repeat_spec in E. discriminate. Qed.

  Lemma owner_dec s x p : owner s x p \/ ~ owner s x p.
  Proof. unfold owner. destruct (le_lt_dec 1 (cap (obj s x))); [|right; lia]. destruct (Nat.eq_dec (ptr (obj s x)) p); [left|right]; intuition lia. Qed.

  (** a vector x has a function with its elements *)
  Lemma content s L x : OK s L -> exists f, (0 < cap (obj s x) -> blk (heap s) (ptr (obj s x)) = Some (cap (obj s x), f)) /\
     len (obj s x) <= cap (obj s x) /\ length (L x) = len (obj s x) /\ holds f (L x).
  Proof.
    intros (G & _). destruct (G x) as (A & B & C). destruct (Nat.eq_dec (cap (obj s x)) 0) as [E|E].
    - exists (junk 0). specialize (B E). split; [lia|]. split; [lia|]. split; [auto|].
      destruct (L x); [|cbn in A; lia]. intros i a H. destruct i; discriminate.
    - destruct C as (f & C1 & C2 & C3); [lia|]. exists f. auto.
  Qed.
  Lemma owner_lt s L y p : OK s L -> owner s y p -> p < nxt (heap s).
  Proof.
    intros (G & D & N & F) [A B]. destruct (le_lt_dec (nxt (heap s)) p) as [H|H]; auto.
    destruct (G y) as (_ & _ & C). destruct (C A) as (f & E & _). rewrite B in E.
    rewrite F in E by auto. discriminate.
  Qed.

  (** growing: allocate n elements, copy the old elements, then [more] fills the
      rest of the new block, then release the old block.  v_resize, v_push,
      v_push_vec and p_extend all have this form *)
  Definition grow (s : st T) (x n : nat) (more : mem T -> nat -> option (mem T)) : option (st T) :=
    let v := obj s x in
    let '(m1, p, c) := alloc capof junk (heap s) n in
    match copy m1 p 0 (ptr v) 0 (len v) with
    | None => None
    | Some m2 =>
      match more m2 p with
      | None => None
      | Some m3 =>
        if 0 <? cap v then
          match free m3 (ptr v) with Some m4 => Some (set_obj s m4 x (mkV c n p)) | None => None end
        else Some (set_obj s m3 x (mkV c n p))
      end
    end.
  Lemma grow_ok s L x n more tail :
    OK s L -> cap (obj s x) < n -> length (L x) + length tail = n ->
    (forall m2 f2 c, blk m2 (nxt (heap s)) = Some (c, f2) -> n <= c ->
       (forall p, p <> nxt (heap s) -> blk m2 p = blk (heap s) p) -> nxt m2 = S (nxt (heap s)) ->
       exists m3 f3, more m2 (nxt (heap s)) = Some m3 /\ blk m3 (nxt (heap s)) = Some (c, f3) /\
         (forall i, i < len (obj s x) -> f3 i = f2 i) /\
         (forall i a, nth_error tail i = Some (Some a) -> f3 (len (obj s x) + i) = a) /\
         (forall p, p <> nxt (heap s) -> blk m3 p = blk m2 p) /\ nxt m3 = nxt m2) ->
    exists s', grow s x n more = Some s' /\ OK s' (fset L x (L x ++ tail)).
  Proof.
    intros HOK Hc Hl Hm. destruct (content s L x HOK) as (f & Hb & Hle & Hlen & Hh).
    unfold grow, alloc. set (m1 := mkM _ _).
    assert (Hlt := fun y p => owner_lt s L y p HOK).
    set (q := nxt (heap s)) in *.
    assert (E1 : blk m1 q = Some (capof q n, junk q)) by (unfold m1; cbn; apply fset_eq).
    assert (E2 : forall p, p <> q -> blk m1 p = blk (heap s) p) by (intros p Hp; unfold m1; cbn; now apply fset_ne).
    assert (Hcap := capof_ge q n).
    destruct (copy_spec (len (obj s x)) m1 q 0 (ptr (obj s x)) 0 _ _ (cap (obj s x)) f E1)
      as (m2 & f2 & A & B & C & D & E & F0).
    { intro H0. split; [|lia]. rewrite E2; [apply Hb; lia|]. intro Hq. specialize (Hlt x (ptr (obj s x))).
      assert (owner s x (ptr (obj s x))) by (split; [lia|auto]). specialize (Hlt H). fold q in Hlt. lia. }
    { lia. } { intros; left; auto. }
    rewrite A.
    destruct (Hm m2 f2 _ B Hcap) as (m3 & f3 & A3 & B3 & C3 & D3 & E3 & F3).
    { intros p Hp. rewrite C by auto. auto. } { rewrite D. reflexivity. }
    rewrite A3.
    assert (Hh3 : holds f3 (L x ++ tail)).
    { apply holds_app.
      - apply (holds_ext f); auto. intros i Hi. rewrite C3 by lia. rewrite E by lia. f_equal. lia.
      - intros i a Ha. rewrite Hlen. auto. }
    destruct (Nat.ltb_spec 0 (cap (obj s x))) as [Hp|Hp].
    - assert (Ho : owner s x (ptr (obj s x))) by (split; auto).
      assert (Hpq : ptr (obj s x) <> q) by (specialize (Hlt _ _ Ho); fold q in Hlt; lia).
      unfold free. rewrite E3, C, E2, Hb by auto.
      eexists. split; [reflexivity|].
      apply OK_new with (f' := f3); auto; cbn; fold q.
      + lia.
      + rewrite app_length; auto.
      + rewrite fset_ne by auto. exact B3.
      + intros p Hpp Hno. rewrite fset_ne; [rewrite E3, C, E2 by auto; reflexivity|].
        intros ->. auto.
      + intros p [_ <-]. apply fset_eq.
      + rewrite F3, D. reflexivity.
    - eexists. split; [reflexivity|].
      apply OK_new with (f' := f3); auto; cbn; fold q; try lia.
      + rewrite app_length; auto.
      + intros p Hpp Hno. rewrite E3, C, E2 by auto; reflexivity.
      + intros p [H0 _]. lia.
      + rewrite F3, D. reflexivity.
  Qed.
End Proof.
