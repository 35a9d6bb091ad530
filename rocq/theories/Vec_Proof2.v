(** Proofs for C27: each statement. *)
From Coq Require Import List Arith Bool Lia.
From Verif Require Import Vec_Spec Vec_Model Vec_Proof.
Import ListNotations.

Section Proof.
  Context {T : Type}.
  Variable capof : nat -> nat -> nat.
  Variable junk : nat -> nat -> T.
  Hypothesis capof_ge : forall k n, n <= capof k n.
  Notation OK := (@OK T).
  Notation grow := (grow capof junk).
  Notation grow_ok := (grow_ok capof junk capof_ge).
  Notation content := (content junk).

  Lemma keep_pad (l : list (option T)) n : length l <= n -> firstn n l = l.
  Proof. intro. apply firstn_all2. auto. Qed.

  Lemma set_fits s L x i f : OK s L -> blk (heap s) (ptr (obj s x)) = Some (cap (obj s x), f) ->
    forall v e, holds f (L x) -> agrees v e -> i < len (obj s x) -> length (L x) = len (obj s x) ->
    holds (fset f i e) (nth_set (L x) i v).
  Proof.
    intros HOK Hb v e Hh Hv Hi Hlen k a E. rewrite nth_set_nth in E by lia.
    destruct (Nat.eqb_spec k i) as [->|Hk].
    - rewrite fset_eq. inversion E; subst v. exact Hv.
    - rewrite fset_ne by auto. auto.
  Qed.

  Lemma resize_grow s x n : 0 < cap (obj s x) < n ->
    v_resize capof junk s x n = grow s x n (fun m _ => Some m).
  Proof.
    intros [H H0]. unfold v_resize, Vec_Proof.grow.
    destruct (Nat.ltb_spec (cap (obj s x)) n); [|lia].
    destruct (Nat.eqb_spec (cap (obj s x)) 0); [lia|].
    destruct (alloc capof junk (heap s) n) as [[m1 p] c].
    destruct (copy m1 p 0 (ptr (obj s x)) 0 (len (obj s x))); auto.
    destruct (Nat.ltb_spec 0 (cap (obj s x))); [|lia]. reflexivity.
  Qed.
  Lemma resize_grow0 s x n : cap (obj s x) = 0 -> len (obj s x) = 0 -> 0 < n ->
    v_resize capof junk s x n = grow s x n (fun m _ => Some m).
  Proof.
    intros H H1 H0. unfold v_resize, Vec_Proof.grow. rewrite H, H1.
    destruct (Nat.ltb_spec 0 n); [|lia]. cbn. reflexivity.
  Qed.
  Lemma more_none s L x k : OK s L ->
    forall m2 f2 c n, blk m2 (nxt (heap s)) = Some (c, f2) -> n <= c ->
       (forall p, p <> nxt (heap s) -> blk m2 p = blk (heap s) p) -> nxt m2 = S (nxt (heap s)) ->
       exists m3 f3, Some m2 = Some m3 /\ blk m3 (nxt (heap s)) = Some (c, f3) /\
         (forall i, i < len (obj s x) -> f3 i = f2 i) /\
         (forall i (a : T), nth_error (repeat None k) i = Some (Some a) -> f3 (len (obj s x) + i) = a) /\
         (forall p, p <> nxt (heap s) -> blk m3 p = blk m2 p) /\ nxt m3 = nxt m2.
  Proof.
    intros HOK m2 f2 c n E1 Hc E2 E3. exists m2, f2. repeat split; auto.
    intros i a H. apply nth_error_In, repeat_spec in H. discriminate.
  Qed.

  Definition resized (l : list (option T)) n := firstn n l ++ repeat None (n - length l).

  Lemma v_resize_ok s L x n : OK s L ->
    exists s', v_resize capof junk s x n = Some s' /\ OK s' (fset L x (resized (L x) n)).
  Proof.
    intro HOK. destruct (content s L x HOK) as (f & Hb & Hle & Hlen & Hh).
    destruct (le_lt_dec n (cap (obj s x))) as [H|H].
    - unfold v_resize. destruct (Nat.ltb_spec (cap (obj s x)) n); [lia|].
      eexists. split; [reflexivity|]. apply OK_same with (f' := f); auto; cbn.
      + apply firstn_pad.
      + now apply holds_pad.
    - assert (E : v_resize capof junk s x n = grow s x n (fun m _ => Some m)).
      { destruct (Nat.eq_dec (cap (obj s x)) 0); [apply resize_grow0|apply resize_grow]; lia. }
      rewrite E.
      destruct (grow_ok s L x n (fun m _ => Some m) (repeat None (n - length (L x)))) as (s' & A & B); auto.
      + rewrite repeat_length. lia.
      + intros m2 f2 c. eapply more_none; eauto.
      + exists s'. split; auto. unfold resized. rewrite keep_pad by lia. exact B.
  Qed.

  Lemma v_clear_ok s L x : OK s L -> exists s', v_clear s x = Some s' /\ OK s' (fset L x []).
  Proof.
    intro HOK. destruct (content s L x HOK) as (f & Hb & Hle & Hlen & Hh). unfold v_clear.
    destruct (Nat.ltb_spec 0 (cap (obj s x))) as [H|H].
    - unfold free. rewrite Hb by auto. eexists. split; [reflexivity|].
      apply OK_none; auto; cbn.
      + intros p Hp. apply fset_ne. intros ->. apply Hp. split; auto.
      + intros p [_ <-]. apply fset_eq.
    - eexists. split; [reflexivity|]. apply OK_none; auto. intros p [H0 _]. lia.
  Qed.
  Lemma p_clear_ok s L x : OK s L -> exists s', p_clear s x = Some s' /\ OK s' (fset L x []).
  Proof.
    intro HOK. destruct (content s L x HOK) as (f & Hb & Hle & Hlen & Hh). unfold p_clear.
    destruct (Nat.ltb_spec 0 (cap (obj s x))) as [H|H].
    - unfold free. rewrite Hb by auto. eexists. split; [reflexivity|].
      apply OK_none; auto; cbn.
      + intros p Hp. apply fset_ne. intros ->. apply Hp. split; auto.
      + intros p [_ <-]. apply fset_eq.
    - eexists. split; [reflexivity|]. apply OK_none; auto. intros p [H0 _]. lia.
  Qed.

  (** swap permutes the vectors *)
  Lemma v_swap_ok s L x y : OK s L -> OK (v_swap s x y) (fset (fset L x (L y)) y (L x)).
  Proof.
    intros (G & D & N & F). unfold v_swap.
    set (t := fun z => if z =? y then x else if z =? x then y else z).
    assert (To : forall z, fset (fset (obj s) x (obj s y)) y (obj s x) z = obj s (t z)).
    { intro z. unfold t, fset. destruct (z =? y), (z =? x); reflexivity. }
    assert (Tl : forall z, fset (fset L x (L y)) y (L x) z = L (t z)).
    { intro z. unfold t, fset. destruct (z =? y), (z =? x); reflexivity. }
    assert (Ti : forall z, t (t z) = z).
    { intro z. unfold t. destruct (Nat.eqb_spec z y) as [->|H1].
      - destruct (Nat.eqb_spec x y); [auto|]. now rewrite Nat.eqb_refl.
      - destruct (Nat.eqb_spec z x) as [->|H2]; [now rewrite Nat.eqb_refl|].
        destruct (Nat.eqb_spec z y), (Nat.eqb_spec z x); congruence. }
    split; [|split; [|split]]; cbn; auto.
    - intro z. rewrite To, Tl. apply G.
    - intros a b p [A1 A2] [B1 B2]. cbn in *. rewrite To in *.
      rewrite <- (Ti a), <- (Ti b). f_equal. apply (D _ _ p); split; auto.
    - intros p Hp. destruct (N p Hp) as (z & A & B). exists (t z). split; cbn; rewrite To, Ti; auto.
  Qed.

  Lemma set_obj_id (s : st T) m x v y : y <> x -> obj (set_obj s m x v) y = obj s y.
  Proof. intro H. unfold set_obj. cbn. now apply fset_ne. Qed.

  Lemma upd_heap s L x m' f' lx : OK s L -> len (obj s x) <= cap (obj s x) -> length lx = len (obj s x) ->
    (0 < cap (obj s x) -> blk m' (ptr (obj s x)) = Some (cap (obj s x), f')) -> holds f' lx ->
    (forall p, (0 < cap (obj s x) -> p <> ptr (obj s x)) -> blk m' p = blk (heap s) p) -> nxt m' = nxt (heap s) ->
    OK (mkS m' (obj s)) (fset L x lx).
  Proof.
    intros HOK Hle Hl Hb Hh Ho Hn.
    pose proof (OK_same s L x m' (obj s x) lx f' HOK eq_refl (fun _ => eq_refl) Hl Hle Hb Hh Ho Hn) as H.
    destruct H as (G & D & N & F). split; [|split; [|split]]; auto.
    - intro z. specialize (G z). cbn in G |- *. unfold fset in *.
      destruct (Nat.eqb_spec z x) as [e|]; [subst z|]; auto.
    - intros a b p [A1 A2] [B1 B2]. cbn in *. apply (D a b p); split; cbn; unfold fset.
      all: destruct (Nat.eqb_spec a x), (Nat.eqb_spec b x); subst; auto.
    - intros p Hp. destruct (N p Hp) as (z & A & B). exists z. cbn in *. unfold fset in A, B.
      destruct (Nat.eqb_spec z x); subst; split; auto.
  Qed.

  Lemma v_set_ok s L x i a v : OK s L -> src_val L a = Some v -> i < length (L x) ->
    exists s', v_set s x i a = Some s' /\ OK s' (fset L x (nth_set (L x) i v)).
  Proof.
    intros HOK Ha Hi. destruct (deref_ok s L a v HOK Ha) as (_ & e & He & Hv).
    destruct (content s L x HOK) as (f & Hb & Hle & Hlen & Hh). unfold v_set.
    destruct (Nat.ltb_spec i (len (obj s x))); [|lia]. rewrite He.
    unfold write. rewrite Hb by lia. destruct (Nat.ltb_spec i (cap (obj s x))); [|lia].
    eexists. split; [reflexivity|]. apply upd_heap with (f' := fset f i e); auto; cbn.
    - now rewrite nth_set_len.
    - intros _. apply fset_eq.
    - eapply set_fits; eauto. apply Hb. lia.
    - intros p Hp. apply fset_ne. apply Hp. lia.
  Qed.

  Lemma v_push_ok s L x a v : OK s L -> src_val L a = Some v ->
    exists s', v_push capof junk s x a = Some s' /\ OK s' (fset L x (L x ++ [v])).
  Proof.
    intros HOK Ha. destruct (deref_ok s L a v HOK Ha) as (_ & e & He & Hv).
    destruct (content s L x HOK) as (f & Hb & Hle & Hlen & Hh).
    assert (Htail : forall g j w, g (len (obj s x)) = e -> nth_error [v] j = Some (Some w) -> g (len (obj s x) + j) = w).
    { intros g j w Hg E. destruct j as [|j]; cbn in E; [|destruct j; discriminate].
      rewrite Nat.add_0_r, Hg. inversion E; subst v. exact Hv. }
    destruct (le_lt_dec (cap (obj s x)) (len (obj s x))) as [H|H].
    - assert (E : v_push capof junk s x a = grow s x (len (obj s x) + 1)
          (fun m p => match deref s m a (ptrs s) with Some e => write m p (len (obj s x)) e | None => None end)).
      { unfold v_push, Vec_Proof.grow. destruct (Nat.ltb_spec (len (obj s x)) (cap (obj s x))); [lia|].
        destruct (alloc capof junk (heap s) (len (obj s x) + 1)) as [[m1 p] c].
        destruct (copy m1 p 0 (ptr (obj s x)) 0 (len (obj s x))) as [m2|]; auto.
        destruct (deref s m2 a (ptrs s)) as [e0|]; auto. }
      rewrite E. apply grow_ok; auto; [lia|].
      intros m2 f2 c E1 Hc E2 E3.
      assert (Hd : deref s m2 a (ptrs s) = Some e).
      { destruct a as [w|y j]; cbn in *; auto. unfold ptrs in *. unfold read in *.
        destruct (good_read s L y j v HOK Ha) as (fy & A1 & A2 & A3 & _).
        rewrite E2; [exact He|]. apply Nat.lt_neq.
        apply (owner_lt s L y); auto. split; auto. }
      rewrite Hd. unfold write. rewrite E1. destruct (Nat.ltb_spec (len (obj s x)) c); [|lia].
      eexists _, _. split; [reflexivity|]. cbn. split; [apply fset_eq|]. split; [|split; [|split]]; auto.
      + intros i Hi. apply fset_ne. lia.
      + intros i w. apply Htail. apply fset_eq.
      + intros p Hp. now apply fset_ne.
    - unfold v_push. destruct (Nat.ltb_spec (len (obj s x)) (cap (obj s x))); [|lia]. rewrite He.
      unfold write. rewrite Hb by lia. destruct (Nat.ltb_spec (len (obj s x)) (cap (obj s x))); [|lia].
      eexists. split; [reflexivity|]. apply OK_same with (f' := fset f (len (obj s x)) e); auto; cbn.
      + rewrite app_length. cbn. lia.
      + intros _. apply fset_eq.
      + apply holds_app.
        * apply (holds_ext f); auto. intros i Hi. apply fset_ne. lia.
        * intros i w. rewrite Hlen. apply Htail. apply fset_eq.
      + intros p Hp. apply fset_ne. apply Hp. lia.
  Qed.

  Lemma v_push_vec_ok s L x y : OK s L ->
    exists s', v_push_vec capof junk s x y = Some s' /\ OK s' (fset L x (L x ++ L y)).
  Proof.
    intros HOK.
    destruct (content s L x HOK) as (f & Hb & Hle & Hlen & Hh).
    destruct (content s L y HOK) as (g & Hby & Hley & Hleny & Hhy).
    destruct (le_lt_dec (len (obj s x) + len (obj s y)) (cap (obj s x))) as [H|H].
    - unfold v_push_vec. destruct (Nat.leb_spec (len (obj s x) + len (obj s y)) (cap (obj s x))); [|lia].
      destruct (Nat.eq_dec (cap (obj s x)) 0) as [E0|E0].
      { replace (len (obj s y)) with 0 by lia. cbn. eexists. split; [reflexivity|].
        apply OK_same with (f' := f); auto; cbn; try lia.
        - rewrite app_length. lia.
        - destruct (L y); [rewrite app_nil_r; auto|cbn in Hleny; lia]. }
      destruct (copy_spec (len (obj s y)) (heap s) (ptr (obj s x)) (len (obj s x)) (ptr (obj s y)) 0
          (cap (obj s x)) f (cap (obj s y)) g) as (m' & f' & A & B & C & D & E & F0).
      + apply Hb; lia.
      + intros Hn. split; [apply Hby; lia|lia].
      + lia.
      + intro Ep. destruct (Nat.eq_dec (cap (obj s y)) 0); [right; lia|].
        assert (x = y).
        { destruct HOK as (_ & D0 & _). apply (D0 x y (ptr (obj s x))); split; auto; lia. }
        subst y. right. lia.
      + rewrite A. eexists. split; [reflexivity|]. apply OK_same with (f' := f'); auto; cbn.
        * rewrite app_length. lia.
        * apply holds_app.
          -- apply (holds_ext f); auto. intros i Hi. apply F0. lia.
          -- intros i w Ew. rewrite E; [rewrite Hlen; rewrite Nat.add_comm, Nat.add_sub; auto|].
             assert (i < length (L y)) by (apply nth_error_Some; congruence). lia.
        * intros p Hp. apply C. apply Hp. lia.
    - assert (E : v_push_vec capof junk s x y = grow s x (len (obj s x) + len (obj s y))
          (fun m p => copy m p (len (obj s x)) (ptr (obj s y)) 0 (len (obj s y)))).
      { unfold v_push_vec, Vec_Proof.grow.
        destruct (Nat.leb_spec (len (obj s x) + len (obj s y)) (cap (obj s x))); [lia|]. reflexivity. }
      rewrite E. apply grow_ok; auto; try lia.
      intros m2 f2 c E1 Hc E2 E3.
      destruct (copy_spec (len (obj s y)) m2 (nxt (heap s)) (len (obj s x)) (ptr (obj s y)) 0
          c f2 (cap (obj s y)) g) as (m' & f' & A & B & C & D & E4 & F0); auto.
      + intros Hn. split; [|lia]. rewrite E2; [apply Hby; lia|].
        apply Nat.lt_neq. apply (owner_lt s L y); auto. split; auto. lia.
      + lia.
      + intro Ep. destruct (Nat.eq_dec (len (obj s y)) 0); [right; lia|].
        assert (ptr (obj s y) < nxt (heap s)) by (apply (owner_lt s L y); auto; split; auto; lia). lia.
      + exists m', f'. repeat split; auto.
        * intros i Hi. apply F0. lia.
        * intros i w Ew. assert (i < length (L y)) by (apply nth_error_Some; congruence).
          rewrite E4 by lia. rewrite Nat.add_comm, Nat.add_sub. auto.
  Qed.

  Lemma v_get_ok s L x i v : OK s L -> nth_error (L x) i = Some v ->
    exists e, v_get s x i = Some e /\ agrees v e.
  Proof.
    intros HOK E. destruct (good_read s L x i v HOK E) as (f & Hb & Hj & Hc & Hl & Hh).
    unfold v_get, read. rewrite Hb. destruct (Nat.ltb_spec i (len (obj s x))); [|lia].
    destruct (Nat.ltb_spec i (cap (obj s x))); [|lia]. exists (f i). split; auto.
    destruct v; cbn; auto.
  Qed.

  (** copying the elements of y onto x, which has the same size *)
  Lemma copy_vec_ok s L x y : OK s L -> len (obj s x) = len (obj s y) ->
    exists m, copy (heap s) (ptr (obj s x)) 0 (ptr (obj s y)) 0 (len (obj s x)) = Some m /\
      OK (mkS m (obj s)) (fset L x (L y)).
  Proof.
    intros HOK El.
    destruct (content s L x HOK) as (f & Hb & Hle & Hlen & Hh).
    destruct (content s L y HOK) as (g & Hby & Hley & Hleny & Hhy).
    destruct (Nat.eq_dec (len (obj s x)) 0) as [E0|E0].
    { rewrite E0. cbn. eexists. split; [reflexivity|]. apply upd_heap with (f' := f); auto; try lia.
      destruct (L y); [|cbn in Hleny; lia]. intros i a H. destruct i; discriminate. }
    destruct (copy_spec (len (obj s x)) (heap s) (ptr (obj s x)) 0 (ptr (obj s y)) 0
          (cap (obj s x)) f (cap (obj s y)) g) as (m' & f' & A & B & C & D & E4 & F0); auto.
    - apply Hb. lia.
    - intros _. split; [apply Hby; lia|lia].
    - exists m'. split; [exact A|]. apply upd_heap with (f' := f'); auto; try lia.
      + apply (holds_ext g); auto. intros i Hi. rewrite E4 by lia. f_equal. lia.
      + intros p Hp. apply C. apply Hp. lia.
  Qed.

  Lemma fset_ext (L : lists T) x l l' : fset (fset L x l) x l' = fset (fset L x l) x l'.
  Proof. reflexivity. Qed.
  Lemma OK_same_list s (L L' : lists T) : OK s L -> (forall z, L z = L' z) -> OK s L'.
  Proof. intros. eapply OK_ext; eauto. Qed.

  (** vector.hpp:383-393, for two different vectors *)
  Lemma v_assign_ok s L x y : OK s L -> x <> y ->
    exists s', v_assign capof junk s x y = Some s' /\ OK s' (fset L x (L y)).
  Proof.
    intros HOK Hxy. unfold v_assign.
    destruct (v_resize_ok s L x 0 HOK) as (s1 & A1 & B1). rewrite A1.
    destruct (v_resize_ok s1 _ x (len (obj s1 y)) B1) as (s2 & A2 & B2). rewrite A2.
    destruct (content s1 _ y B1) as (g1 & _ & _ & L1 & _).
    destruct (content s2 _ y B2) as (g2 & _ & _ & L2 & _).
    destruct (content s2 _ x B2) as (g3 & _ & _ & L3 & _).
    rewrite fset_ne in L1 by auto. rewrite !fset_ne in L2 by auto. rewrite fset_eq in L3.
    assert (E : len (obj s2 x) = len (obj s2 y)).
    { rewrite <- L3, <- L2, <- L1. apply firstn_pad. }
    destruct (copy_vec_ok s2 _ x y B2 E) as (m & A3 & B3). rewrite A3.
    eexists. split; [reflexivity|]. apply (OK_same_list _ _ _ B3).
    intro z. unfold fset. destruct (Nat.eqb_spec z x); auto.
    destruct (Nat.eqb_spec y x); congruence.
  Qed.

  (** pod_vector *)
  Lemma p_extend_ok s L x n : OK s L ->
    exists s', p_extend capof junk s x n = Some s' /\ OK s' (fset L x (L x ++ repeat None n)).
  Proof.
    intros HOK. destruct (content s L x HOK) as (f & Hb & Hle & Hlen & Hh).
    destruct (le_lt_dec (len (obj s x) + n) (cap (obj s x))) as [H|H].
    - unfold p_extend. destruct (Nat.leb_spec (len (obj s x) + n) (cap (obj s x))); [|lia].
      eexists. split; [reflexivity|]. apply OK_same with (f' := f); auto; cbn.
      + rewrite app_length, repeat_length. lia.
      + apply holds_app; auto. intros i a E. apply nth_error_In, repeat_spec in E. discriminate.
    - assert (E : p_extend capof junk s x n = grow s x (len (obj s x) + n) (fun m _ => Some m)).
      { unfold p_extend, Vec_Proof.grow. destruct (Nat.leb_spec (len (obj s x) + n) (cap (obj s x))); [lia|].
        reflexivity. }
      rewrite E. apply grow_ok; auto.
      + rewrite repeat_length. lia.
      + intros m2 f2 c. eapply more_none; eauto.
  Qed.

  Lemma p_resize_ok s L x n : OK s L ->
    exists s', p_resize capof junk s x n = Some s' /\
      OK s' (fset L x (if (n <=? cap (obj s x)) || (n <=? length (L x)) then resized (L x) n else repeat None n)).
  Proof.
    intros HOK. destruct (content s L x HOK) as (f & Hb & Hle & Hlen & Hh). unfold p_resize.
    destruct (Nat.ltb_spec (cap (obj s x)) n) as [H|H].
    - destruct (Nat.leb_spec n (cap (obj s x))); [lia|]. destruct (Nat.leb_spec n (length (L x))); [lia|]. cbn [orb].
      assert (Hc := capof_ge (nxt (heap s)) n).
      destruct (Nat.ltb_spec 0 (cap (obj s x))) as [Hp|Hp].
      + unfold free. rewrite Hb by auto. cbn. eexists. split; [reflexivity|].
        assert (Ho : owner s x (ptr (obj s x))) by (split; auto).
        assert (Hlt := owner_lt s L x _ HOK Ho).
        apply OK_new with (f' := junk (nxt (heap s))); auto; cbn; try lia.
        * apply repeat_length.
        * rewrite fset_eq. reflexivity.
        * apply holds_rep.
        * intros p Hq Hno. rewrite !fset_ne; auto. intros ->. auto.
        * intros p [_ <-]. rewrite fset_ne by lia. apply fset_eq.
      + cbn. eexists. split; [reflexivity|].
        apply OK_new with (f' := junk (nxt (heap s))); auto; cbn; try lia.
        * apply repeat_length.
        * rewrite fset_eq. reflexivity.
        * apply holds_rep.
        * intros p Hq Hno. rewrite !fset_ne; auto.
        * intros p [H00 _]. lia.
    - destruct (Nat.leb_spec n (cap (obj s x))); [|lia]. cbn [orb].
      eexists. split; [reflexivity|]. apply OK_same with (f' := f); auto; cbn.
      + apply firstn_pad.
      + now apply holds_pad.
  Qed.

  Lemma p_assign_ok s L x y : OK s L ->
    exists s', p_assign capof junk s x y = Some s' /\ OK s' (fset L x (L y)).
  Proof.
    intros HOK. unfold p_assign.
    destruct (p_resize_ok s L x (len (obj s y)) HOK) as (s1 & A1 & B1). rewrite A1.
    destruct (content s _ y HOK) as (g & _ & G0 & G1 & _).
    destruct (content s1 _ y B1) as (g2 & _ & _ & L2 & _).
    destruct (content s1 _ x B1) as (g3 & _ & _ & L3 & _).
    rewrite fset_eq in L3.
    assert (E3 : len (obj s1 x) = len (obj s y)).
    { rewrite <- L3. destruct (_ || _); [apply firstn_pad|apply repeat_length]. }
    assert (E : len (obj s1 x) = len (obj s1 y)).
    { destruct (Nat.eq_dec x y) as [->|Hxy]; auto. rewrite E3, <- L2. rewrite fset_ne by auto. auto. }
    destruct (copy_vec_ok s1 _ x y B1 E) as (m & A3 & B3). rewrite A3.
    eexists. split; [reflexivity|]. apply (OK_same_list _ _ _ B3).
    intro z. unfold fset. destruct (Nat.eqb_spec z x); auto.
    destruct (Nat.eqb_spec y x) as [->|]; auto.
    destruct (Nat.leb_spec (len (obj s x)) (cap (obj s x))); [|lia]. cbn [orb].
    unfold resized. rewrite G1, firstn_all2, Nat.sub_diag by lia. cbn. apply app_nil_r.
  Qed.

  Lemma p_push_ok s L x a v : OK s L -> src_val L a = Some v ->
    (forall j, a = Ref x j -> len (obj s x) < cap (obj s x)) ->
    exists s', p_push capof junk s x a = Some s' /\ OK s' (fset L x (L x ++ [v])).
  Proof.
    intros HOK Ha Hown. destruct (deref_ok s L a v HOK Ha) as (_ & e & He & Hv).
    destruct (content s L x HOK) as (f & Hb & Hle & Hlen & Hh). unfold p_push.
    destruct (p_extend_ok s L x 1 HOK) as (s1 & A1 & B1). rewrite A1. cbn [repeat] in B1.
    assert (Hd : deref s (heap s1) a (ptrs s) = Some e).
    { destruct a as [w|y j]; cbn in *; auto. unfold ptrs in *. unfold read in *.
      destruct (good_read s L y j v HOK Ha) as (fy & C1 & C2 & C3 & _).
      enough (E : blk (heap s1) (ptr (obj s y)) = blk (heap s) (ptr (obj s y))) by (rewrite E; exact He).
      destruct (Nat.eq_dec y x) as [->|Hy].
      - specialize (Hown j eq_refl). unfold p_extend in A1.
        destruct (Nat.leb_spec (len (obj s x) + 1) (cap (obj s x))); [|lia]. inversion A1; reflexivity.
      - assert (Ho : owner s y (ptr (obj s y))) by (split; auto).
        assert (Hlt := owner_lt s L y _ HOK Ho).
        assert (Hxy : 0 < cap (obj s x) -> ptr (obj s y) <> ptr (obj s x)).
        { intros Hc Ep. apply Hy. destruct HOK as (_ & D0 & _). apply (D0 y x (ptr (obj s x))); split; auto. }
        unfold p_extend in A1.
        destruct (Nat.leb_spec (len (obj s x) + 1) (cap (obj s x))); [inversion A1; reflexivity|].
        unfold alloc in A1.
        destruct (copy_spec (len (obj s x))
            (mkM (fset (blk (heap s)) (nxt (heap s)) (Some (capof (nxt (heap s)) (len (obj s x) + 1), junk (nxt (heap s)))))
               (S (nxt (heap s)))) (nxt (heap s)) 0 (ptr (obj s x)) 0
            (capof (nxt (heap s)) (len (obj s x) + 1)) (junk (nxt (heap s))) (cap (obj s x)) f)
          as (m' & f' & P & Q & R0 & S0 & U & W).
        + cbn. apply fset_eq.
        + intro H0. split; [|lia]. cbn. rewrite fset_ne; [apply Hb; lia|].
          apply Nat.lt_neq. apply (owner_lt s L x); auto. split; auto. lia.
        + specialize (capof_ge (nxt (heap s)) (len (obj s x) + 1)). lia.
        + auto.
        + rewrite P in A1. destruct (Nat.ltb_spec 0 (cap (obj s x))).
          * unfold free in A1. destruct (blk m' (ptr (obj s x))); [|discriminate]. inversion A1. cbn.
            rewrite fset_ne by auto. rewrite R0 by lia. cbn. apply fset_ne. lia.
          * inversion A1. cbn. rewrite R0 by lia. cbn. apply fset_ne. lia. }
    rewrite Hd. unfold write.
    destruct (content s1 _ x B1) as (g & Hb1 & Hle1 & Hlen1 & Hh1).
    rewrite fset_eq in *. rewrite app_length in Hlen1. cbn in Hlen1.
    rewrite Hb1 by lia. destruct (Nat.ltb_spec (len (obj s x)) (cap (obj s1 x))); [|lia].
    eexists. split; [reflexivity|].
    eapply OK_same_list; [apply (upd_heap s1 (fset L x (L x ++ [None])) x) with (f' := fset g (len (obj s x)) e) (lx := L x ++ [v]); try exact B1; auto|].
    - rewrite app_length. cbn. lia.
    - intros _. cbn. apply fset_eq.
    - apply holds_app.
      + apply (holds_ext g); [|intros i Hi; apply fset_ne; lia].
        intros i w E. apply Hh1. rewrite nth_error_app1; auto. apply nth_error_Some. congruence.
      + intros i w E. destruct i as [|i]; cbn in E; [|destruct i; discriminate].
        rewrite Hlen, Nat.add_0_r, fset_eq. inversion E; subst v. exact Hv.
    - intros p Hp. cbn. apply fset_ne. apply Hp. lia.
    - intro z. unfold fset. destruct (z =? x); reflexivity.
  Qed.
End Proof.
