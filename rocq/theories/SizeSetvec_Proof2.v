(** Proofs about the linked-list set vector, part 2: releasing and sharing. *)
From stdpp Require Import list numbers option sorting.
From Coq Require Import Lia.
From Verif Require Import SetVec_Spec SizeSetvec_Model SizeSetvec_Proof.
Notation chain d p ns vs := (seg d p ns vs 0).
Notation llast l := (List.last l 0).

Lemma llast_in a (l : list nat) : llast (a :: l) ∈ a :: l.
Proof.
  revert a; induction l as [|b l IH]; intros a; [cbn; apply elem_of_cons; auto|].
  change (llast (a :: b :: l)) with (llast (b :: l)). apply elem_of_cons. right. apply IH.
Qed.
Lemma seg_relink d : forall n1 v1 p q, seg d p n1 v1 q -> n1 <> [] -> (forall x, cnt x n1 <= 1) ->
  exists c, d !! llast n1 = Some c /\ forall q', seg (<[llast n1 := (fst c, q')]> d) p n1 v1 q'.
Proof.
  induction n1 as [|a n1 IH]; intros [|v v1] p q H Hne Hnd; try congruence; [contradiction H|].
  destruct H as (-> & Ha & n & E & H).
  destruct n1 as [|b n1].
  - destruct v1; [|contradiction H]. cbn in H. subst q. exists (v, n). split; [exact E|]. intros q'. cbn.
    repeat split; [exact Ha|]. exists q'. split; [apply list_lookup_insert; apply lookup_lt_is_Some; eauto|reflexivity].
  - destruct (IH v1 n q H) as (c & Ec & Hc); [discriminate| |].
    { intros x. specialize (Hnd x). cbn in *. lia. }
    change (llast (a :: b :: n1)) with (llast (b :: n1)). exists c. split; [exact Ec|]. intros q'.
    assert (Hna : llast (b :: n1) <> a).
    { intros Hx. pose proof (llast_in b n1) as Hin. rewrite Hx in Hin. apply cnt_in in Hin.
      specialize (Hnd a). cbn [cnt] in *. rewrite ind_refl in Hnd. lia. }
    split; [reflexivity|]. split; [exact Ha|]. exists n. split; [|apply Hc].
    rewrite list_lookup_insert_ne by exact Hna. exact E.
Qed.
Lemma seg_join d n1 v1 n2 v2 p r q : seg d p n1 v1 r -> seg d r n2 v2 q -> seg d p (n1 ++ n2) (v1 ++ v2) q.
Proof. intros H1 H2. apply seg_app; [eapply seg_length; eauto|eauto]. Qed.
Lemma seg_split d ns v1 v2 p q : seg d p ns (v1 ++ v2) q ->
  exists n1 n2 r, ns = n1 ++ n2 /\ seg d p n1 v1 r /\ seg d r n2 v2 q /\ length n1 = length v1.
Proof.
  intros H. pose proof (seg_length _ _ _ _ _ H) as Hl. rewrite app_length in Hl.
  assert (Hlt : length (take (length v1) ns) = length v1) by (rewrite take_length; lia).
  rewrite <- (take_drop (length v1) ns) in H. apply seg_app in H as (r & H1 & H2); [|exact Hlt].
  exists (take (length v1) ns), (list.drop (length v1) ns), r. rewrite take_drop. auto.
Qed.

Lemma walk_ok s : forall ns vs f p c, chain (z_data s) p ns vs -> ns <> [] -> length ns <= f ->
  walk f s p c = Some (llast ns, c + length ns - 1).
Proof.
  induction ns as [|a ns IH]; intros [|v vs] f p c H Hne Hf; try congruence; [contradiction H|].
  destruct H as (-> & Ha & n & E & H). destruct f as [|f]; [cbn in Hf; lia|].
  cbn [walk]. unfold znext. rewrite E. cbn [fmap option_fmap option_map snd mbind option_bind].
  destruct ns as [|b ns].
  - destruct vs; [|contradiction H]. cbn in H. subst n. rewrite decide_True by reflexivity. cbn. f_equal. f_equal. lia.
  - destruct vs as [|w vs]; [contradiction H|]. assert (n <> 0) by (destruct H as (-> & ? & _); assumption).
    rewrite decide_False by assumption. rewrite (IH (w :: vs) f n (S c) H); [|discriminate|cbn in *; lia].
    change (llast (a :: b :: ns)) with (llast (b :: ns)). f_equal. f_equal. cbn. lia.
Qed.

Section Inv2.
Context {e : nat} {d : list (nat * nat)} {dnu nnu : nat} {gs ps fl : list nat}
  {pl : list (list nat * list nat)} {bl : list blk} {own : list nat}.
Hypothesis HI : Inv e d dnu nnu gs ps fl pl bl own.

Lemma sep1 x : ind x 0 + cnt x fl + pair_cnt x pl + blk_cnt x bl + cnt x own <= 1.
Proof. rewrite (I_own _ _ _ _ _ _ _ _ _ _ HI x). apply lt1_le. Qed.

Lemma blk_ne st ns vs st' ns' vs' : (st, (ns, vs)) ∈ bl -> (st', (ns', vs')) ∈ bl -> st' <> st ->
  forall x, ind x st + cnt x ns + ind x st' + cnt x ns' <= 1.
Proof.
  intros H1 H2 Hne x. pose proof (sep1 x) as Hs. apply blk_split in H1 as (b1 & b2 & Hb).
  rewrite Hb in Hs, H2. rewrite blk_cnt_app, blk_cnt_cons in Hs. cbn in Hs.
  apply elem_of_app in H2 as [H2|H2]; [pose proof (blk_cnt_in x _ _ _ _ H2); lia|].
  apply elem_of_cons in H2 as [H2|H2]; [congruence|]. pose proof (blk_cnt_in x _ _ _ _ H2). lia.
Qed.

(** only the reference counts matter *)
Lemma inv_gs gs' : (forall x, x <> 0 -> cnt x gs' = cnt x gs) -> Inv e d dnu nnu gs' ps fl pl bl own.
Proof.
  intros Hg. destruct HI as [H1 H2 H3 H4 H5 H6 H7 H8]. constructor; try assumption.
  - intros st ns vs Hb. destruct (H6 st ns vs Hb) as (Hst & Hr). rewrite (Hg st Hst). auto.
  - intros st Hin Hst. apply H7; [|exact Hst]. apply cnt_in. apply cnt_in in Hin. rewrite Hg in Hin; assumption.
Qed.

(** changing the reference count of one list *)
Lemma inv_setref gs' st ns vs c nx : (st, (ns, vs)) ∈ bl -> d !! st = Some (c, nx) ->
  (forall x, x <> 0 -> x <> st -> cnt x gs' = cnt x gs) -> 0 < cnt st gs' ->
  Inv e (<[st := (cnt st gs', nx)]> d) dnu nnu gs' ps fl pl bl own.
Proof.
  intros Hb E Hg Hpos.
  assert (Hlt : st < length d) by (apply lookup_lt_is_Some; eauto).
  pose proof (sep1 st) as Hs. pose proof (blk_cnt_in st _ _ _ _ Hb) as Hin. rewrite ind_refl in Hin.
  pose proof HI as HI'. destruct HI as [H1 H2 H3 H4 H5 H6 H7 H8].
  destruct (H6 st ns vs Hb) as (Hst0 & (nx' & E' & Hc) & Hr). rewrite E in E'. injection E' as -> <-.
  constructor; try assumption.
  - rewrite list_lookup_insert_ne by assumption. exact H2.
  - destruct H3 as (fv & H3). exists fv. eapply seg_frame; [|exact H3]. intros x Hx. apply cnt_in in Hx.
    apply list_lookup_insert_ne. intros <-. lia.
  - intros i p ns' vs' Hp Hpl. destruct (H5 i p ns' vs' Hp Hpl) as (Hcc & Hv). split; [|exact Hv].
    eapply seg_frame; [|exact Hcc]. intros x Hx. apply cnt_in in Hx. pose proof (pair_cnt_in x _ _ _ _ Hpl).
    apply list_lookup_insert_ne. intros <-. lia.
  - intros st' ns' vs' Hb'. destruct (decide (st' = st)) as [->|Hne].
    + destruct (blk_unique HI' st ns vs ns' vs' Hb Hb') as (<- & <-). split; [exact Hst0|]. split.
      * exists nx. split; [apply list_lookup_insert; exact Hlt|]. eapply seg_frame; [|exact Hc].
        intros x Hx. apply cnt_in in Hx. apply list_lookup_insert_ne. intros <-. lia.
      * split; [exact Hpos|]. apply Hr.
    + destruct (H6 st' ns' vs' Hb') as (Hst0' & (nx' & E' & Hc') & Hr'). rewrite (Hg st' Hst0' Hne). split; [exact Hst0'|].
      split; [|exact Hr'].
      exists nx'. split; [rewrite list_lookup_insert_ne by congruence; exact E'|].
      eapply seg_frame; [|exact Hc']. intros x Hx. apply cnt_in in Hx. apply list_lookup_insert_ne. intros <-.
      pose proof (blk_ne _ _ _ _ _ _ Hb Hb' Hne st) as Hx2. rewrite ind_refl in Hx2. lia.
  - intros st' Hin' Hst'. destruct (decide (st' = st)) as [->|Hne]; [eauto|].
    apply H7; [|exact Hst']. apply cnt_in. apply cnt_in in Hin'. rewrite Hg in Hin'; assumption.
  - intros x. rewrite insert_length. apply H8.
Qed.

(** giving a whole list back *)
Lemma inv_free_block gs' b1 b2 st ns vs d' :
  bl = b1 ++ (st, (ns, vs)) :: b2 -> (forall x, x <> 0 -> x <> st -> cnt x gs' = cnt x gs) -> cnt st gs' = 0 ->
  length d' = length d -> (forall x, ind x st + cnt x ns = 0 -> d' !! x = d !! x) ->
  (exists fv, chain d' st (st :: ns ++ fl) fv) ->
  Inv e d' st (nnu + S (length ns)) gs' ps (st :: ns ++ fl) pl (b1 ++ b2) own.
Proof.
  intros Hbl Hg Hst Hl Hf Hch.
  assert (Hs : forall x, ind x 0 + cnt x fl + pair_cnt x pl + (blk_cnt x b1 + (ind x st + cnt x ns + blk_cnt x b2)) + cnt x own <= 1).
  { intros x. pose proof (sep1 x) as H. rewrite Hbl, blk_cnt_app, blk_cnt_cons in H. exact H. }
  pose proof HI as HI'. destruct HI as [H1 H2 H3 H4 H5 H6 H7 H8]. constructor; try assumption.
  - rewrite Hf; [exact H2|]. specialize (Hs 0). rewrite ind_refl in Hs. lia.
  - cbn. rewrite app_length. lia.
  - intros i p ns' vs' Hp Hpl. destruct (H5 i p ns' vs' Hp Hpl) as (Hcc & Hv). split; [|exact Hv].
    eapply seg_frame; [|exact Hcc]. intros x Hx. apply cnt_in in Hx. pose proof (pair_cnt_in x _ _ _ _ Hpl).
    apply Hf. specialize (Hs x). lia.
  - intros st' ns' vs' Hb'.
    assert (Hin : (st', (ns', vs')) ∈ bl).
    { rewrite Hbl. apply elem_of_app. apply elem_of_app in Hb' as [?|?]; [auto|]. right. apply elem_of_cons; auto. }
    assert (Hx' : forall x, ind x st' + cnt x ns' <= blk_cnt x b1 + blk_cnt x b2).
    { intros x. pose proof (blk_cnt_in x _ _ _ _ Hb') as H. rewrite blk_cnt_app in H. exact H. }
    assert (Hne : st' <> st).
    { intros ->. specialize (Hx' st). specialize (Hs st). rewrite ind_refl in *. lia. }
    destruct (H6 st' ns' vs' Hin) as (Hst0' & (nx' & E' & Hc') & Hr'). rewrite (Hg st' Hst0' Hne). split; [exact Hst0'|].
    split; [|exact Hr']. exists nx'. split.
    + rewrite Hf; [exact E'|]. specialize (Hx' st'). specialize (Hs st'). rewrite ind_refl in *. lia.
    + eapply seg_frame; [|exact Hc']. intros x Hx. apply cnt_in in Hx. apply Hf. specialize (Hx' x). specialize (Hs x). lia.
  - intros st' Hin' Hst'. assert (Hne : st' <> st) by (intros ->; apply cnt_in in Hin'; lia).
    destruct (H7 st') as (ns' & vs' & Hb); [|exact Hst'|].
    { apply cnt_in. apply cnt_in in Hin'. rewrite Hg in Hin'; assumption. }
    exists ns', vs'. rewrite Hbl in Hb. apply elem_of_app. apply elem_of_app in Hb as [?|Hb]; [auto|].
    apply elem_of_cons in Hb as [Hb|Hb]; [congruence|auto].
  - intros x. specialize (H8 x). rewrite Hl. rewrite Hbl, blk_cnt_app, blk_cnt_cons in H8. cbn in *. rewrite cnt_app, blk_cnt_app. lia.
Qed.

(** giving a post list back *)
Lemma inv_free_post i p ns vs d' :
  ps !! i = Some p -> pl !! i = Some (ns, vs) ->
  length d' = length d -> (forall x, cnt x ns = 0 -> d' !! x = d !! x) ->
  (exists fv, chain d' p (ns ++ fl) fv) ->
  Inv e d' p (nnu + length ns) gs (<[i := 0]> ps) (ns ++ fl) (<[i := ([], [])]> pl) bl own.
Proof.
  intros Hp Hpl Hl Hf Hch.
  assert (Hs : forall x, cnt x ns <= pair_cnt x pl) by (intros x; eapply pair_cnt_in; eauto).
  assert (Hpi : i < length pl) by (apply lookup_lt_is_Some; eauto).
  pose proof HI as HI'. destruct HI as [H1 H2 H3 H4 H5 H6 H7 H8]. constructor; try assumption.
  - rewrite !insert_length. exact H1.
  - rewrite Hf; [exact H2|]. pose proof (sep1 0) as Hx. rewrite ind_refl in Hx. specialize (Hs 0). lia.
  - rewrite app_length. lia.
  - intros k p' ns' vs' Hp' Hpl'. destruct (decide (k = i)) as [->|Hne].
    + rewrite list_lookup_insert in Hp' by lia. rewrite list_lookup_insert in Hpl' by lia.
      injection Hp' as <-. injection Hpl' as <- <-. split; [reflexivity|constructor].
    + rewrite list_lookup_insert_ne in Hp' by congruence. rewrite list_lookup_insert_ne in Hpl' by congruence.
      destruct (H5 k p' ns' vs' Hp' Hpl') as (Hc & Hv). split; [|exact Hv]. eapply seg_frame; [|exact Hc].
      intros x Hx. apply Hf. apply cnt_in in Hx.
      assert (cnt x ns + cnt x ns' <= pair_cnt x pl).
      { pose proof (pair_cnt_insert x pl i ns vs [] [] Hpl) as Hq.
        assert (cnt x ns' <= pair_cnt x (<[i:=([], [])]> pl)) by (apply (pair_cnt_in x _ k ns' vs'); rewrite list_lookup_insert_ne by congruence; exact Hpl').
        change (cnt x []) with 0 in Hq. lia. }
      pose proof (sep1 x). lia.
  - intros st' ns' vs' Hb. destruct (H6 st' ns' vs' Hb) as (Hst0' & (nx' & E' & Hc') & Hr'). split; [exact Hst0'|].
    split; [|exact Hr']. exists nx'. split.
    + rewrite Hf; [exact E'|]. pose proof (blk_cnt_in st' _ _ _ _ Hb) as Hx. rewrite ind_refl in Hx. specialize (Hs st'). pose proof (sep1 st'). lia.
    + eapply seg_frame; [|exact Hc']. intros x Hx. apply cnt_in in Hx. apply Hf. pose proof (blk_cnt_in x _ _ _ _ Hb). specialize (Hs x). pose proof (sep1 x). lia.
  - intros x. rewrite Hl. specialize (H8 x). pose proof (pair_cnt_insert x pl i ns vs [] [] Hpl) as Hq.
    change (cnt x []) with 0 in Hq. rewrite cnt_app. lia.
Qed.
End Inv2.

(** ** sets with extra references and owned cells *)
Definition Zx (s : sz) (n : nat) (f g : nat -> list nat) (extra own : list nat) : Prop :=
  length (z_start s) = n /\ length (z_post s) = n /\
  exists fl pl bl, zinv s (z_start s ++ extra) fl pl bl own /\
    (forall i, i < n + length extra -> Content bl (z_start s ++ extra) i (f i)) /\
    (forall i, i < n -> exists ns, pl !! i = Some (ns, g i)).
Lemma Z_Zx s n f g : Z s n f g <-> Zx s n f g [] [].
Proof.
  unfold Z, Zx. rewrite app_nil_r. cbn [length]. rewrite Nat.add_0_r. tauto.
Qed.
Lemma Zx_ext s n f g f' g' ex own : Zx s n f g ex own -> (forall i, i < n + length ex -> f' i = f i) ->
  (forall i, i < n -> g' i = g i) -> Zx s n f' g' ex own.
Proof.
  intros (Hn & Hp & fl & pl & bl & HI & Hc & Hg) Hf Hgg. split; [exact Hn|]. split; [exact Hp|].
  exists fl, pl, bl. split; [exact HI|]. split; intros i Hi; [rewrite Hf by exact Hi|rewrite Hgg by exact Hi]; auto.
Qed.
Lemma Z_ext s n f g f' g' : Z s n f g -> (forall i, i < n -> f' i = f i) -> (forall i, i < n -> g' i = g i) -> Z s n f' g'.
Proof. rewrite !Z_Zx. intros H Hf Hg. eapply Zx_ext; eauto. cbn. intros i Hi. apply Hf. lia. Qed.

(** the first half of drop *)
Definition drop_post (s : sz) (i : nat) : option (nat * sz) :=
  post ← z_post s !! i;
  (if decide (post = 0) then Some (0, s)
     else
       s ← set_post s i 0;
       '(previous, n) ← walk (fuel s) s post 1;
       s ← set_next s previous (z_dnu s);
       Some (n, with_free s (z_nnu s) post)).

(** state in which [k] cells are on the free list but not yet counted *)
Definition uncount (s : sz) (k : nat) : sz := with_free s (z_nnu s + k) (z_dnu s).

Lemma drop_post_ok s n f g ex own i : Zx s n f g ex own -> i < n ->
  exists k s', drop_post s i = Some (k, s') /\ Zx (uncount s' k) n f (upd g i []) ex own /\
    z_end s' = z_end s /\ z_start s' = z_start s /\
    (forall x, 0 < cnt x own -> z_data s' !! x = z_data s !! x) /\ k = length (g i).
Proof.
  intros (Hn & Hp & fl & pl & bl & HI & Hc & Hg) Hi. unfold drop_post.
  destruct (lookup_lt_is_Some_2 (z_post s) i) as (p & Ep); [lia|]. rewrite Ep. cbn [mbind option_bind].
  destruct (Hg i Hi) as (ns & Epl). destruct (I_post _ _ _ _ _ _ _ _ _ _ HI i p ns (g i) Ep Epl) as (Hch & Hv).
  destruct ns as [|a ns].
  - destruct (g i) as [|v vs] eqn:Eg; [|contradiction Hch]. cbn in Hch. subst p. rewrite decide_True by reflexivity.
    exists 0, s. split; [reflexivity|]. split; [|auto].
    split; [exact Hn|]. split; [exact Hp|]. exists fl, pl, bl. split; [|split; [exact Hc|]].
    + unfold zinv, uncount; cbn. rewrite Nat.add_0_r. exact HI.
    + intros k Hk. unfold upd. destruct (Nat.eqb_spec k i) as [->|Hne]; [|auto]. exists []. exact Epl.
  - assert (Hp0 : p <> 0) by (destruct (g i); [contradiction Hch|]; destruct Hch as (_ & ? & _); assumption).
    rewrite decide_False by assumption. unfold set_post. rewrite Ep. cbn [mbind option_bind].
    set (s1 := with_post s (<[i:=0]> (z_post s))).
    rewrite (walk_ok s1 (a :: ns) (g i) (fuel s1) p 1 Hch); [|discriminate|].
    2:{ unfold fuel. cbn [s1 z_data with_post]. pose proof (post_fuel HI i _ _ Epl). lia. }
    cbn [mbind option_bind].
    assert (Hnd : forall x, cnt x (a :: ns) <= 1).
    { intros x. pose proof (pair_cnt_in x _ _ _ _ Epl). pose proof (sep1 HI x). lia. }
    destruct (seg_relink _ _ _ _ _ Hch ltac:(discriminate) Hnd) as (c & Ec & Hrel).
    rewrite (set_next_ok s1 _ (z_dnu s1) c Ec). cbn [mbind option_bind].
    set (d' := <[llast (a :: ns) := (fst c, z_dnu s)]> (z_data s)).
    assert (Hgl : 1 + length (a :: ns) - 1 = length (g i)) by (rewrite (seg_length _ _ _ _ _ Hch); lia).
    eexists _, _. split; [reflexivity|].
    assert (Hfr : forall x, cnt x (a :: ns) = 0 -> d' !! x = z_data s !! x).
    { intros x Hx. apply list_lookup_insert_ne. intros Heq. pose proof (llast_in a ns) as Hin. rewrite Heq in Hin. apply cnt_in in Hin. lia. }
    destruct (I_free _ _ _ _ _ _ _ _ _ _ HI) as (fv & Hfc).
    assert (HI' : Inv (z_end s) d' p (z_nnu s + length (a :: ns)) (z_start s ++ ex) (<[i:=0]> (z_post s)) ((a :: ns) ++ fl) (<[i:=([],[])]> pl) bl own).
    { eapply inv_free_post; [exact HI|exact Ep|exact Epl|apply insert_length|exact Hfr|].
      exists (g i ++ fv). eapply seg_join; [apply Hrel|]. eapply seg_frame; [|exact Hfc].
      intros x Hx. apply Hfr. apply cnt_in in Hx. pose proof (pair_cnt_in x _ _ _ _ Epl). pose proof (sep1 HI x). lia. }
    split; [|repeat split].
    + split; [exact Hn|]. split; [cbn; rewrite insert_length; exact Hp|]. exists ((a :: ns) ++ fl), (<[i:=([],[])]> pl), bl.
      split; [|split; [exact Hc|]].
      * unfold zinv, uncount; cbn -[length]. replace (1 + length (a :: ns) - 1) with (length (a :: ns)) by lia. exact HI'.
      * intros k Hk. unfold upd. destruct (Nat.eqb_spec k i) as [->|Hne].
        -- exists []. apply list_lookup_insert. destruct (lookup_lt_Some _ _ _ Epl); lia.
        -- rewrite list_lookup_insert_ne by congruence. auto.
    + intros x Hx. cbn. apply Hfr. pose proof (pair_cnt_in x _ _ _ _ Epl). pose proof (sep1 HI x). lia.
    + exact Hgl.
Qed.

Lemma content_mono bl bl' gs gs' i vs : Content bl gs i vs ->
  (forall st ns, (st, (ns, vs)) ∈ bl -> gs !! i = Some st -> (st, (ns, vs)) ∈ bl') -> gs' !! i = gs !! i -> Content bl' gs' i vs.
Proof.
  intros [(E & ->)|(st & ns & E & Hne & Hb)] H Hg; [left|right].
  - rewrite Hg. auto.
  - exists st, ns. rewrite Hg. auto.
Qed.

Lemma drop_ok s n f g ex own i : Zx s n f g ex own -> i < n ->
  exists s', drop_count s i = Some s' /\ Zx s' n (upd f i []) (upd g i []) ex own /\
    z_end s' = z_end s /\ z_start s' !! i = Some 0 /\
    (forall x, 0 < cnt x own -> z_data s' !! x = z_data s !! x).
Proof.
  intros HZ Hi. destruct (drop_post_ok s n f g ex own i HZ Hi) as (k & s1 & E1 & HZ1 & He1 & Hst1 & Hfr1 & Hk).
  assert (Hdrop : drop_count s i =
    start ← z_start s1 !! i;
    '(m, s) ← (if decide (start = 0) then Some (k, s1)
      else
        v ← zval s1 start;
        s ← set_val s1 start (v - 1);
        s ← set_start s i 0;
        if decide (0 < v - 1) then Some (k, s)
        else
          '(previous, n) ← walk (fuel s) s start (S k);
          s ← set_next s previous (z_dnu s);
          Some (n, with_free s (z_nnu s) start));
    Some (with_free s (z_nnu s + m) (z_dnu s))).
  { unfold drop_count, SizeSetvec_Model.drop. unfold drop_post in E1. destruct (z_post s !! i) as [p|]; [|discriminate].
    cbn [mbind option_bind] in E1 |- *. rewrite E1. cbn [mbind option_bind].
    destruct (z_start s1 !! i); reflexivity. }
  rewrite Hdrop. clear Hdrop E1 HZ. rewrite <- He1.
  assert (Hgoal : forall x, (0 < cnt x own -> z_data s1 !! x = z_data s !! x)) by (intros x Hx; apply Hfr1; exact Hx).
  destruct HZ1 as (Hn & Hp & fl & pl & bl & HI & Hc & Hg). cbn [uncount z_start z_post with_free] in *.
  unfold zinv in HI. cbn in HI.
  destruct (lookup_lt_is_Some_2 (z_start s1) i) as (st & Est); [lia|].
  assert (Hgsi : (z_start s1 ++ ex) !! i = Some st) by (rewrite lookup_app_l by lia; exact Est).
  rewrite Est. cbn [mbind option_bind].
  destruct (decide (st = 0)) as [->|Hst0].
  - cbn [mbind option_bind]. exists (uncount s1 k). split; [reflexivity|]. split; [|repeat split; assumption].
    split; [exact Hn|]. split; [exact Hp|]. exists fl, pl, bl. split; [exact HI|]. split; [|exact Hg].
    intros j Hj. unfold upd. destruct (Nat.eqb_spec j i) as [->|Hne]; [left; split; [exact Hgsi|reflexivity]|apply Hc; exact Hj].
  - destruct (Hc i ltac:(lia)) as [(E & _)|(st' & ns & E & _ & Hb)]; [congruence|].
    rewrite Hgsi in E. injection E as <-.
    destruct (I_bl _ _ _ _ _ _ _ _ _ _ HI _ _ _ Hb) as (_ & (nx & Ed & Hch) & Hpos & Hvs & Hrest).
    set (c := cnt st (z_start s1 ++ ex)) in *.
    assert (Hstlt : st < length (z_data s1)) by (apply lookup_lt_is_Some; eauto).
    unfold zval. rewrite Ed. cbn [fmap option_fmap option_map fst mbind option_bind].
    rewrite (set_val_ok s1 st (c - 1) _ Ed). cbn [mbind option_bind snd].
    unfold set_start. cbn [z_start with_data]. rewrite Est. cbn [mbind option_bind].
    set (gs' := <[i:=0]> (z_start s1) ++ ex).
    assert (Hgs' : gs' = <[i:=0]> (z_start s1 ++ ex)) by (unfold gs'; rewrite insert_app_l by lia; reflexivity).
    assert (Hcnt : forall x, cnt x gs' + ind x st = cnt x (z_start s1 ++ ex) + ind x 0).
    { intros x. rewrite Hgs'. apply cnt_insert. exact Hgsi. }
    assert (Hcst : cnt st gs' = c - 1). { specialize (Hcnt st). rewrite ind_refl, (ind_ne st 0) in Hcnt by exact Hst0. unfold c. lia. }
    assert (Hcne : forall x, x <> 0 -> x <> st -> cnt x gs' = cnt x (z_start s1 ++ ex)).
    { intros x H0 H1. specialize (Hcnt x). rewrite (ind_ne x st), (ind_ne x 0) in Hcnt by assumption. lia. }
    destruct (decide (0 < c - 1)) as [Hc1|Hc1].
    + cbn [mbind option_bind]. eexists. split; [reflexivity|]. split; [|repeat split].
      * split; [cbn; rewrite insert_length; exact Hn|]. split; [exact Hp|]. exists fl, pl, bl. split; [|split; [|exact Hg]].
        -- unfold zinv. cbn. fold gs'. rewrite <- Hcst. eapply inv_setref; [exact HI|exact Hb|exact Ed|exact Hcne|lia].
        -- intros j Hj. cbn [z_start with_free with_start with_data]. fold gs'. unfold upd. destruct (Nat.eqb_spec j i) as [->|Hne].
           ++ left. split; [|reflexivity]. rewrite Hgs'. apply list_lookup_insert. rewrite app_length. lia.
           ++ eapply content_mono; [apply Hc; exact Hj|auto|]. rewrite Hgs'. apply list_lookup_insert_ne. congruence.
      * cbn. apply list_lookup_insert. lia.
      * intros x Hx. cbn. rewrite list_lookup_insert_ne; [apply Hgoal; exact Hx|]. intros <-.
        pose proof (sep1 HI st). pose proof (blk_cnt_in st _ _ _ _ Hb) as Hq. rewrite ind_refl in Hq. lia.
    + assert (Hc0 : c = 1) by (unfold c in *; lia).
      set (s2 := with_start (with_data s1 (<[st:=(c - 1, nx)]> (z_data s1))) (<[i:=0]> (z_start s1))).
      assert (Hsepst : forall x, ind x st + cnt x ns + cnt x fl + pair_cnt x pl + ind x 0 + cnt x own <= 1).
      { intros x. pose proof (sep1 HI x). pose proof (blk_cnt_in x _ _ _ _ Hb). lia. }
      assert (Hch2 : chain (z_data s2) st (st :: ns) (c - 1 :: f i)).
      { split; [reflexivity|]. split; [exact Hst0|]. exists nx. split; [cbn; apply list_lookup_insert; exact Hstlt|].
        eapply seg_frame; [|exact Hch]. intros x Hx. cbn. apply list_lookup_insert_ne. intros <-. apply cnt_in in Hx.
        specialize (Hsepst st). rewrite ind_refl in Hsepst. lia. }
      pose proof (blk_fuel HI _ _ _ Hb) as Hfuel.
      rewrite (walk_ok s2 (st :: ns) _ (fuel s2) st (S k) Hch2); [|discriminate|].
      2:{ unfold fuel. cbn [s2 z_data with_start with_data]. rewrite insert_length. cbn. lia. }
      cbn [mbind option_bind].
      destruct (seg_relink _ _ _ _ _ Hch2 ltac:(discriminate)) as (cc & Ecc & Hrel).
      { intros x. specialize (Hsepst x). cbn. lia. }
      rewrite (set_next_ok s2 _ (z_dnu s2) cc Ecc). cbn [mbind option_bind].
      set (d' := <[llast (st :: ns) := (fst cc, z_dnu s2)]> (z_data s2)).
      eexists. split; [reflexivity|].
      apply blk_split in Hb as Hsplit. destruct Hsplit as (b1 & b2 & Hbl).
      assert (Hfr : forall x, ind x st + cnt x ns = 0 -> d' !! x = z_data s1 !! x).
      { intros x Hx. unfold d'. rewrite list_lookup_insert_ne.
        - cbn. apply list_lookup_insert_ne. intros <-. rewrite ind_refl in Hx. lia.
        - intros Heq. pose proof (llast_in st ns) as Hin. rewrite Heq in Hin. apply cnt_in in Hin. cbn in Hin. lia. }
      assert (HI' : Inv (z_end s1) d' st (z_nnu s1 + k + S (length ns)) gs' (z_post s1) (st :: ns ++ fl) pl (b1 ++ b2) own).
      { eapply inv_free_block; [exact HI|exact Hbl|exact Hcne|lia|unfold d'; rewrite insert_length; cbn; apply insert_length|exact Hfr|].
        destruct (I_free _ _ _ _ _ _ _ _ _ _ HI) as (fv & Hfc). exists ((c - 1 :: f i) ++ fv).
        change (st :: ns ++ fl) with ((st :: ns) ++ fl). eapply seg_join; [apply Hrel|]. eapply seg_frame; [|exact Hfc].
        intros x Hx. apply Hfr. apply cnt_in in Hx. specialize (Hsepst x). lia. }
      split; [|repeat split].
      * split; [cbn; rewrite insert_length; exact Hn|]. split; [exact Hp|]. exists (st :: ns ++ fl), pl, (b1 ++ b2).
        split; [|split; [|exact Hg]].
        -- unfold zinv. cbn -[length]. fold gs'. match goal with |- Inv _ _ _ ?m _ _ _ _ _ _ => replace m with (z_nnu s1 + k + S (length ns)) by (cbn [length]; lia) end. exact HI'.
        -- intros j Hj. cbn [z_start with_free with_start with_data s2]. fold gs'. unfold upd. destruct (Nat.eqb_spec j i) as [->|Hne].
           ++ left. split; [|reflexivity]. rewrite Hgs'. apply list_lookup_insert. rewrite app_length. lia.
           ++ assert (Hlook : gs' !! j = (z_start s1 ++ ex) !! j) by (rewrite Hgs'; apply list_lookup_insert_ne; congruence).
              eapply content_mono; [apply Hc; exact Hj| |exact Hlook].
              intros st' ns' Hb' Hg'. rewrite Hbl in Hb'. apply elem_of_app. apply elem_of_app in Hb' as [?|Hb']; [auto|].
              apply elem_of_cons in Hb' as [Hb'|?]; [|auto]. injection Hb' as -> -> ->. exfalso.
              rewrite <- Hlook in Hg'. assert (st ∈ gs') as Hin by (apply elem_of_list_lookup; eauto). apply cnt_in in Hin. lia.
      * cbn. apply list_lookup_insert. lia.
      * intros x Hx. cbn. fold d'. rewrite Hfr; [apply Hgoal; exact Hx|]. specialize (Hsepst x). lia.
Qed.

Lemma drop_Z s n f g i : Z s n f g -> i < n ->
  exists s', drop_count s i = Some s' /\ Z s' n (upd f i []) (upd g i []) /\ z_end s' = z_end s.
Proof.
  intros HZ Hi. apply Z_Zx in HZ. destruct (drop_ok _ _ _ _ _ _ _ HZ Hi) as (s' & E & HZ' & He & _).
  exists s'. rewrite Z_Zx. auto.
Qed.

(** ** reading a list *)
Section Read.
Variables (s : sz) (e : nat).
Hypothesis H0 : z_data s !! 0 = Some (e, 0).

Lemma read_next ns vs p : chain (z_data s) p ns vs -> zval s p = Some (hd e vs).
Proof. intros H. apply (proj1 (chain_read _ _ _ _ _ H0 H)). Qed.

(** common shape of the search loops *)
Lemma search_split bound : bound <= e -> forall vs ns p, chain (z_data s) p ns vs ->
  exists n1 n2 v1 v2 r, ns = n1 ++ n2 /\ vs = v1 ++ v2 /\ seg (z_data s) p n1 v1 r /\ chain (z_data s) r n2 v2 /\
    Forall (fun v => v < bound) v1 /\ bound <= hd e v2.
Proof.
  intros Hb. induction vs as [|v vs IH]; intros [|a ns] p H; cbn in H; try contradiction.
  - exists [], [], [], [], p. cbn. repeat split; auto.
  - destruct H as (-> & Ha & n & E & H). destruct (decide (v < bound)) as [Hv|Hv].
    + destruct (IH ns n H) as (n1 & n2 & v1 & v2 & r & -> & -> & Hs & Hc & Hf & Hh).
      exists (a :: n1), n2, (v :: v1), v2, r. repeat split; auto. exists n; auto.
    + exists [], (a :: ns), [], (v :: vs), a. repeat split; auto; [exists n; auto|cbn; lia].
Qed.
End Read.

Lemma find_pos_ok s e el : z_data s !! 0 = Some (e, 0) -> el <= e ->
  forall n1 v1 f prev p r n2 v2, seg (z_data s) p n1 v1 r -> chain (z_data s) r n2 v2 ->
    Forall (fun v => v < el) v1 -> el <= hd e v2 -> length n1 <= f ->
    find_pos f s el prev p (hd e (v1 ++ v2)) = Some (llast (prev :: n1), r, hd e v2).
Proof.
  intros H0 He. induction n1 as [|a n1 IH]; intros [|v v1] f prev p r n2 v2 Hs Hc Hf Hh Hl; cbn in Hs; try contradiction.
  - subst r. cbn [app]. destruct f; cbn [find_pos]; rewrite decide_False by lia; reflexivity.
  - destruct Hs as (-> & Ha & n & E & Hs). apply Forall_cons in Hf as (Hv & Hf).
    destruct f as [|f]; [cbn in Hl; lia|]. cbn [find_pos app hd]. rewrite decide_True by exact Hv.
    unfold znext. rewrite E. cbn [fmap option_fmap option_map snd mbind option_bind].
    rewrite (read_next s e H0 _ _ _ (seg_join _ _ _ _ _ _ _ _ Hs Hc)). cbn [mbind option_bind].
    rewrite (IH v1 f a n r n2 v2 Hs Hc Hf Hh) by (cbn in Hl; lia). reflexivity.
Qed.
Lemma take_below_ok s e el : z_data s !! 0 = Some (e, 0) -> el <= e ->
  forall n1 v1 f p r n2 v2, seg (z_data s) p n1 v1 r -> chain (z_data s) r n2 v2 ->
    Forall (fun v => v < el) v1 -> el <= hd e v2 -> length n1 <= f ->
    take_below f s el p (hd e (v1 ++ v2)) = Some (v1, r, hd e v2).
Proof.
  intros H0 He. induction n1 as [|a n1 IH]; intros [|v v1] f p r n2 v2 Hs Hc Hf Hh Hl; cbn in Hs; try contradiction.
  - subst r. cbn [app]. destruct f; cbn [take_below]; rewrite decide_False by lia; reflexivity.
  - destruct Hs as (-> & Ha & n & E & Hs). apply Forall_cons in Hf as (Hv & Hf).
    destruct f as [|f]; [cbn in Hl; lia|]. cbn [take_below app hd]. rewrite decide_True by exact Hv.
    unfold znext. rewrite E. cbn [fmap option_fmap option_map snd mbind option_bind].
    rewrite (read_next s e H0 _ _ _ (seg_join _ _ _ _ _ _ _ _ Hs Hc)). cbn [mbind option_bind].
    rewrite (IH v1 f n r n2 v2 Hs Hc Hf Hh) by (cbn in Hl; lia). reflexivity.
Qed.
Lemma count_list_ok s : forall ns vs f p c, chain (z_data s) p ns vs -> length ns <= f -> count_list f s p c = Some (c + length vs).
Proof.
  induction ns as [|a ns IH]; intros [|v vs] f p c H Hl; cbn in H; try contradiction.
  - subst p. destruct f; cbn [count_list]; rewrite decide_True by reflexivity; f_equal; cbn; lia.
  - destruct H as (-> & Ha & n & E & H). destruct f as [|f]; [cbn in Hl; lia|]. cbn [count_list].
    rewrite decide_False by exact Ha. unfold znext. rewrite E. cbn [fmap option_fmap option_map snd mbind option_bind].
    rewrite (IH vs f n (S c) H) by (cbn in Hl; lia). f_equal. cbn. lia.
Qed.
Lemma z_collect_ok s : z_data s !! 0 = Some (z_end s, 0) -> forall ns vs f p, chain (z_data s) p ns vs ->
  Forall (fun v => v < z_end s) vs -> length ns <= f -> forall c, z_data s !! p = Some c -> z_collect f s c = Some vs.
Proof.
  intros H0. induction ns as [|a ns IH]; intros [|v vs] f p H Hv Hl c Ec; cbn in H; try contradiction.
  - subst p. rewrite H0 in Ec. injection Ec as <-. destruct f; cbn [z_collect fst]; rewrite decide_True by reflexivity; reflexivity.
  - destruct H as (-> & Ha & n & E & H). rewrite E in Ec. injection Ec as <-. apply Forall_cons in Hv as (Hv & Hvs).
    destruct f as [|f]; [cbn in Hl; lia|]. cbn [z_collect fst]. rewrite decide_False by lia.
    unfold z_incr. cbn [snd]. destruct (chain_read _ _ _ _ _ H0 H) as (Hr & _).
    destruct (z_data s !! n) as [c|] eqn:Ec; [|discriminate Hr]. cbn [mbind option_bind].
    rewrite (IH vs f n H Hvs) with (c := c); [reflexivity|cbn in Hl; lia|exact Ec].
Qed.
Lemma post_values_ok s : forall ns vs f p, chain (z_data s) p ns vs -> ns <> [] -> length ns <= f ->
  post_values f s p = Some (vs, llast ns).
Proof.
  induction ns as [|a ns IH]; intros [|v vs] f p H Hne Hl; cbn in H; try contradiction.
  destruct H as (-> & Ha & n & E & H). destruct f as [|f]; [cbn in Hl; lia|]. cbn [post_values].
  unfold zval, znext. rewrite E. cbn [fmap option_fmap option_map fst snd mbind option_bind].
  destruct ns as [|b ns].
  - destruct vs; [|contradiction H]. cbn in H. subst n. rewrite decide_True by reflexivity. reflexivity.
  - destruct vs as [|w vs]; [contradiction H|]. assert (n <> 0) by (destruct H as (-> & ? & _); assumption).
    rewrite decide_False by assumption. rewrite (IH (w :: vs) f n H); [reflexivity|discriminate|cbn in *; lia].
Qed.
