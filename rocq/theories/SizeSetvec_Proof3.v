(** Proofs about the linked-list set vector, part 3: add_element, post_element,
    process_post, assignment. *)
From stdpp Require Import list numbers option sorting.
From Coq Require Import Lia.
From Verif Require Import SetVec_Spec SizeSetvec_Model SizeSetvec_Proof SizeSetvec_Proof2.

Lemma ss_app (v1 v2 : list nat) : StronglySorted lt (v1 ++ v2) <->
  StronglySorted lt v1 /\ StronglySorted lt v2 /\ (forall x y, x ∈ v1 -> y ∈ v2 -> x < y).
Proof.
  induction v1 as [|a v1 IH]; cbn.
  - split; [intros H; repeat split; [constructor|exact H|intros x y Hx; apply elem_of_nil in Hx; contradiction]|tauto].
  - split.
    + intros H. inversion H as [|? ? Hs Hf]; subst. apply IH in Hs as (H1 & H2 & H3). rewrite Forall_forall in Hf.
      repeat split; [constructor; [exact H1|]|exact H2|].
      * apply Forall_forall. intros x Hx. apply Hf. apply elem_of_app; auto.
      * intros x y Hx Hy. apply elem_of_cons in Hx as [->|Hx]; [|eauto]. apply Hf. apply elem_of_app; auto.
    + intros (H1 & H2 & H3). inversion H1 as [|? ? Hs Hf]; subst. constructor.
      * apply IH. split; [exact Hs|]. split; [exact H2|]. intros x y Hx Hy. apply H3; [apply elem_of_cons; auto|exact Hy].
      * rewrite Forall_forall in Hf. apply Forall_forall. intros x Hx. apply elem_of_app in Hx as [Hx|Hx]; [auto|].
        apply H3; [apply elem_of_cons; auto|exact Hx].
Qed.
Lemma ss_hd (v : list nat) e b : StronglySorted lt v -> b <= hd e v -> forall y, y ∈ v -> b <= y.
Proof.
  intros H Hb y Hy. destruct v as [|a v]; [apply elem_of_nil in Hy; contradiction|]. cbn in Hb.
  apply elem_of_cons in Hy as [->|Hy]; [exact Hb|]. inversion H as [|? ? _ Hf]; subst.
  rewrite Forall_forall in Hf. specialize (Hf y Hy). lia.
Qed.
Lemma ss_insert v1 el v2 e : StronglySorted lt (v1 ++ v2) -> Forall (fun v => v < el) v1 -> el < hd e v2 ->
  StronglySorted lt (v1 ++ el :: v2).
Proof.
  intros H Hf Hh. apply ss_app in H as (H1 & H2 & H3). rewrite Forall_forall in Hf.
  assert (Hv2 : forall y, y ∈ v2 -> el < y) by (intros y Hy; apply (ss_hd v2 e (S el) H2); [lia|exact Hy]).
  apply ss_app. split; [exact H1|]. split.
  - constructor; [exact H2|]. apply Forall_forall. exact Hv2.
  - intros x y Hx Hy. specialize (Hf x Hx). apply elem_of_cons in Hy as [->|Hy]; [exact Hf|auto].
Qed.

(** inserting one owned cell in a list *)
Lemma inv_insert e d dnu nnu gs ps fl pl b1 b2 own x st ns vs d' ns' vs' nx' :
  Inv e d dnu nnu gs ps fl pl (b1 ++ (st, (ns, vs)) :: b2) (x :: own) ->
  length d' = length d -> (forall y, ind y x + ind y st + cnt y ns = 0 -> d' !! y = d !! y) ->
  d' !! st = Some (cnt st gs, nx') -> chain d' nx' ns' vs' -> vs' <> [] -> StronglySorted lt vs' -> Forall (fun v => v < e) vs' ->
  (forall y, cnt y ns' = cnt y ns + ind y x) ->
  Inv e d' dnu nnu gs ps fl pl (b1 ++ (st, (ns', vs')) :: b2) own.
Proof.
  intros HI Hl Hf E Hc Hne Hs Hv Hcn.
  assert (Hsep : forall y, ind y 0 + cnt y fl + pair_cnt y pl + (blk_cnt y b1 + (ind y st + cnt y ns + blk_cnt y b2)) + (ind y x + cnt y own) <= 1).
  { intros y. pose proof (sep1 HI y) as H. rewrite blk_cnt_app, blk_cnt_cons in H. exact H. }
  destruct HI as [H1 H2 H3 H4 H5 H6 H7 H8]. constructor; try assumption.
  - rewrite Hf; [exact H2|]. specialize (Hsep 0). rewrite ind_refl in Hsep. lia.
  - destruct H3 as (fv & H3). exists fv. eapply seg_frame; [|exact H3]. intros y Hy. apply cnt_in in Hy. apply Hf. specialize (Hsep y). lia.
  - intros i p ns0 vs0 Hp Hpl. destruct (H5 i p ns0 vs0 Hp Hpl) as (Hcc & Hvv). split; [|exact Hvv].
    eapply seg_frame; [|exact Hcc]. intros y Hy. apply cnt_in in Hy. pose proof (pair_cnt_in y _ _ _ _ Hpl). apply Hf. specialize (Hsep y). lia.
  - intros st0 ns0 vs0 Hb.
    assert (Hcase : (st0, (ns0, vs0)) = (st, (ns', vs')) \/ (st0, (ns0, vs0)) ∈ b1 ++ b2).
    { apply elem_of_app in Hb as [?|Hb]; [right; apply elem_of_app; auto|]. apply elem_of_cons in Hb as [?|?]; [auto|right; apply elem_of_app; auto]. }
    destruct Hcase as [Heq|Hb'].
    + injection Heq as -> -> ->. destruct (H6 st ns vs) as (Hst & _ & Hpos & _); [apply elem_of_app; right; apply elem_of_cons; auto|].
      split; [exact Hst|]. split; [exists nx'; auto|]. auto.
    + assert (Hin : (st0, (ns0, vs0)) ∈ b1 ++ (st, (ns, vs)) :: b2).
      { apply elem_of_app. apply elem_of_app in Hb' as [?|?]; [auto|right; apply elem_of_cons; auto]. }
      assert (Hx' : forall y, ind y st0 + cnt y ns0 <= blk_cnt y b1 + blk_cnt y b2).
      { intros y. pose proof (blk_cnt_in y _ _ _ _ Hb') as H. rewrite blk_cnt_app in H. exact H. }
      destruct (H6 st0 ns0 vs0 Hin) as (Hst & (nx & Ex & Hcx) & Hr). split; [exact Hst|]. split; [|exact Hr].
      exists nx. split.
      * rewrite Hf; [exact Ex|]. specialize (Hx' st0). specialize (Hsep st0). rewrite (ind_refl st0) in Hx'. lia.
      * eapply seg_frame; [|exact Hcx]. intros y Hy. apply cnt_in in Hy. apply Hf. specialize (Hx' y). specialize (Hsep y). lia.
  - intros st0 Hin Hst0. destruct (H7 st0 Hin Hst0) as (ns0 & vs0 & Hb). apply elem_of_app in Hb as [Hb|Hb].
    + exists ns0, vs0. apply elem_of_app; auto.
    + apply elem_of_cons in Hb as [Hb|Hb].
      * injection Hb as -> -> ->. exists ns', vs'. apply elem_of_app. right. apply elem_of_cons; auto.
      * exists ns0, vs0. apply elem_of_app. right. apply elem_of_cons; auto.
  - intros y. specialize (H8 y). rewrite Hl, <- H8. rewrite !blk_cnt_app, !blk_cnt_cons. cbn. rewrite Hcn. lia.
Qed.

Lemma znext_ok s p v n : z_data s !! p = Some (v, n) -> znext s p = Some n.
Proof. intros E. unfold znext. rewrite E. reflexivity. Qed.
Lemma zval_ok s p v n : z_data s !! p = Some (v, n) -> zval s p = Some v.
Proof. intros E. unfold zval. rewrite E. reflexivity. Qed.

Section Ops3.
Variable junk : nat * nat.
Notation get_data_index := (get_data_index junk).
Notation push_new := (push_new junk).
Notation build := (build junk).
Notation copy_below := (copy_below junk).
Notation z_add := (z_add junk).

Fixpoint pushes (s : sz) (p : nat) (l : list nat) : option (nat * sz) :=
  match l with [] => Some (p, s) | x :: l' => '(n, s) ← push_new s p x; pushes s n l' end.
Lemma build_app : forall l r s p, build s p (l ++ r) = '(p', s') ← pushes s p l; build s' p' r.
Proof.
  induction l as [|x l IH]; intros r s p; [reflexivity|]. cbn [app pushes SizeSetvec_Model.build].
  destruct (push_new s p x) as [[n s1]|]; cbn [mbind option_bind]; [apply IH|reflexivity].
Qed.
Lemma inv_perm e d dnu nnu gs ps fl pl bl own own' : Inv e d dnu nnu gs ps fl pl bl own -> (forall x, cnt x own' = cnt x own) ->
  Inv e d dnu nnu gs ps fl pl bl own'.
Proof. intros [H1 H2 H3 H4 H5 H6 H7 H8] H. constructor; try assumption. intros x. rewrite H. apply H8. Qed.
Lemma pushes_ok : forall l s gs fl pl bl own p c,
  zinv s gs fl pl bl own -> 0 < cnt p own -> z_data s !! p = Some c ->
  exists p' s' fl' m c', pushes s p l = Some (p', s') /\ same_sets s s' /\ zinv s' gs fl' pl bl (m ++ own) /\
    0 < cnt p' (m ++ own) /\ z_data s' !! p' = Some c' /\ fr s s' fl p.
Proof.
  induction l as [|v l IH]; intros s gs fl pl bl own p [vp np] HI Hp E; cbn [pushes].
  - exists p, s, fl, [], (vp, np). split; [reflexivity|]. split; [repeat split|]. split; [exact HI|]. split; [exact Hp|]. split; [exact E|]. split; [lia|auto].
  - destruct (push_ok junk s gs fl pl bl own p v vp np HI Hp E) as (x & s1 & fl1 & w & E1 & S1 & I1 & Ep & Ex & Hxp & Hx0 & F1 & Fl1 & X1).
    rewrite E1. cbn [mbind option_bind].
    destruct (IH s1 gs fl1 pl bl (x :: own) x (v, w) I1) as (p' & s2 & fl2 & m & c' & E2 & S2 & I2 & P2 & Ex2 & F2); [cbn; rewrite ind_refl; lia|exact Ex|].
    exists p', s2, fl2, (m ++ [x]), c'. split; [exact E2|].
    split; [destruct S1 as (? & ? & ?), S2 as (? & ? & ?); repeat split; congruence|].
    rewrite <- app_assoc. cbn [app]. split; [exact I2|]. split; [exact P2|]. split; [exact Ex2|]. eapply fr_trans; eauto.
Qed.
Lemma copy_below_ok bound : forall n1 v1 f s gs fl pl bl own p c next r n2 v2,
  zinv s gs fl pl bl own -> 0 < cnt p own -> z_data s !! p = Some c -> bound <= z_end s ->
  seg (z_data s) next n1 v1 r -> chain (z_data s) r n2 v2 -> (forall x, x ∈ n1 ++ n2 -> 0 < blk_cnt x bl) ->
  Forall (fun v => v < bound) v1 -> bound <= hd (z_end s) v2 -> length n1 <= f ->
  exists p' s', pushes s p v1 = Some (p', s') /\ copy_below f s bound p next (hd (z_end s) (v1 ++ v2)) = Some (p', r, hd (z_end s) v2, s').
Proof.
  induction n1 as [|a n1 IH]; intros [|v v1] f s gs fl pl bl own p [vp np] next r n2 v2 HI Hp E Hb Hs Hc Hlive Hf Hh Hl; cbn in Hs; try contradiction.
  - subst r. exists p, s. split; [reflexivity|]. cbn [app]. destruct f; cbn [SizeSetvec_Model.copy_below]; rewrite decide_False by lia; reflexivity.
  - destruct Hs as (-> & Ha & n & Ea & Hs). apply Forall_cons in Hf as (Hv & Hf). destruct f as [|f]; [cbn in Hl; lia|].
    cbn [pushes app hd SizeSetvec_Model.copy_below]. rewrite decide_True by exact Hv.
    destruct (push_ok junk s gs fl pl bl own p v vp np HI Hp E) as (x & s1 & fl1 & w & E1 & S1 & I1 & Ep & Ex & Hxp & Hx0 & F1 & Fl1 & X1).
    rewrite E1. cbn [mbind option_bind].
    assert (Hlv : forall y, y ∈ n1 ++ n2 \/ y = a -> z_data s1 !! y = z_data s !! y).
    { intros y Hy. eapply fr_live; [exact HI|exact F1|exact Hp|].
      assert (y ∈ (a :: n1) ++ n2) as Hy' by (cbn; apply elem_of_cons; destruct Hy; auto). specialize (Hlive y Hy'). lia. }
    assert (Hs1 : seg (z_data s1) n n1 v1 r).
    { eapply seg_frame; [|exact Hs]. intros y Hy. apply Hlv. left. apply elem_of_app; auto. }
    assert (Hc1 : chain (z_data s1) r n2 v2).
    { eapply seg_frame; [|exact Hc]. intros y Hy. apply Hlv. left. apply elem_of_app; auto. }
    assert (He : z_end s1 = z_end s) by apply S1.
    unfold znext. rewrite Hlv by auto. rewrite Ea. cbn [fmap option_fmap option_map snd mbind option_bind].
    pose proof (I_zero _ _ _ _ _ _ _ _ _ _ I1) as H0.
    rewrite (read_next s1 _ H0 _ _ _ (seg_join _ _ _ _ _ _ _ _ Hs1 Hc1)). cbn [mbind option_bind]. rewrite <- He.
    eapply IH; [exact I1|cbn; rewrite ind_refl; lia|exact Ex|rewrite He; exact Hb|exact Hs1|exact Hc1| |exact Hf|rewrite He; exact Hh|cbn in Hl; lia].
    intros y Hy. apply Hlive. cbn. apply elem_of_cons; auto.
Qed.

Lemma Z_block s n f fl pl bl i : zinv s (z_start s) fl pl bl [] -> length (z_start s) = n ->
  (forall i, i < n -> Content bl (z_start s) i (f i)) -> i < n ->
  exists st, z_start s !! i = Some st /\
   ((st = 0 /\ f i = []) \/
    (st <> 0 /\ exists ns nx, (st, (ns, f i)) ∈ bl /\ z_data s !! st = Some (cnt st (z_start s), nx) /\
       chain (z_data s) nx ns (f i) /\ 0 < cnt st (z_start s) /\ f i <> [] /\ StronglySorted lt (f i) /\ Forall (fun v => v < z_end s) (f i) /\
       S (length ns) < length (z_data s))).
Proof.
  intros HI Hn Hc Hi. destruct (Hc i Hi) as [(E & H)|(st & ns & E & Hne & Hb)].
  - exists 0. split; [exact E|left; auto].
  - exists st. split; [exact E|]. right. split; [exact Hne|].
    destruct (I_bl _ _ _ _ _ _ _ _ _ _ HI _ _ _ Hb) as (_ & (nx & Ed & Hch) & Hr). exists ns, nx.
    pose proof (blk_fuel HI _ _ _ Hb). tauto.
Qed.

Lemma z_add_ok s n f g i el : Z s n f g -> i < n -> el < z_end s ->
  exists s' l, z_add s i el = Some s' /\ Z s' n (upd f i l) g /\ z_end s' = z_end s /\
    forall x, x ∈ l <-> x = el \/ x ∈ f i.
Proof.
  intros HZ Hi Hel. pose proof HZ as (Hn & Hp & fl & pl & bl & HI & Hc & Hg).
  destruct (Z_block s n f fl pl bl i HI Hn Hc Hi) as (st & Est & Hst).
  unfold SizeSetvec_Model.z_add. rewrite Est. cbn [mbind option_bind].
  destruct (decide (st = 0)) as [->|Hst0].
  - destruct Hst as [(_ & Hfi)|(? & _)]; [|congruence].
    destruct (build_set_ok junk s n f g i [el] HZ Hi Hfi) as (s' & E & HZ' & He); [discriminate|repeat constructor|repeat constructor; exact Hel|].
    exists s', [el]. split; [|split; [exact HZ'|split; [exact He|]]].
    + rewrite <- E. unfold build_set. destruct (get_data_index s) as [[x s1]|]; [|reflexivity]. cbn [mbind option_bind].
      destruct (set_start s1 i x) as [s2|]; [|reflexivity]. cbn [mbind option_bind].
      destruct (set_val s2 x 1) as [s3|]; [|reflexivity]. cbn [mbind option_bind].
      cbn [SizeSetvec_Model.build]. unfold SizeSetvec_Model.push_new. destruct (get_data_index s3) as [[y s4]|]; [|reflexivity]. cbn [mbind option_bind].
      destruct (set_next s4 x y) as [s5|]; [|reflexivity]. cbn [mbind option_bind].
      destruct (set_val s5 y el) as [s6|]; reflexivity.
    + intros x. rewrite Hfi, elem_of_list_singleton. split; [auto|]. intros [?|H]; [auto|apply elem_of_nil in H; contradiction].
  - destruct Hst as [(? & _)|(_ & ns & nx & Hb & Ed & Hch & Hpos & Hvs & Hss & Hall & Hfu)]; [congruence|].
    rewrite (znext_ok _ _ _ _ Ed). cbn [mbind option_bind].
    pose proof (I_zero _ _ _ _ _ _ _ _ _ _ HI) as H0.
    rewrite (read_next s _ H0 _ _ _ Hch). cbn [mbind option_bind].
    destruct (search_split s (z_end s) el ltac:(lia) _ _ _ Hch) as (n1 & n2 & v1 & v2 & r & Hns & Hfv & Hs1 & Hc2 & Hf1 & Hh2).
    replace (hd (z_end s) (f i)) with (hd (z_end s) (v1 ++ v2)) by (rewrite <- Hfv; reflexivity).
    rewrite (find_pos_ok s (z_end s) el H0 ltac:(lia) n1 v1 (fuel s) st nx r n2 v2 Hs1 Hc2 Hf1 Hh2).
    2:{ unfold fuel. rewrite Hns, app_length in Hfu. lia. }
    cbn [mbind option_bind].
    destruct (decide (hd (z_end s) v2 = el)) as [Heq|Hneq].
    { exists s, (f i). split; [reflexivity|]. split; [|split; [reflexivity|]].
      - eapply Z_ext; [exact HZ| |reflexivity]. intros k _. unfold upd. destruct (Nat.eqb_spec k i) as [->|]; reflexivity.
      - intros x. split; [auto|]. intros [->|H]; [|exact H]. rewrite Hfv. apply elem_of_app. right.
        destruct v2 as [|w v2]; cbn in Heq; [lia|]. rewrite Heq. apply elem_of_cons; auto. }
    assert (Hlt : el < hd (z_end s) v2) by lia.
    assert (Hssn : StronglySorted lt (v1 ++ el :: v2)) by (eapply ss_insert; [rewrite <- Hfv; exact Hss|exact Hf1|exact Hlt]).
    assert (Halln : Forall (fun v => v < z_end s) (v1 ++ el :: v2)).
    { rewrite Hfv in Hall. apply Forall_app in Hall as (? & ?). apply Forall_app. split; [assumption|constructor; assumption]. }
    assert (Hmem : forall x, x ∈ v1 ++ el :: v2 <-> x = el \/ x ∈ f i).
    { intros x. rewrite Hfv, !elem_of_app, elem_of_cons. tauto. }
    rewrite (zval_ok _ _ _ _ Ed). cbn [mbind option_bind].
    destruct (decide (cnt st (z_start s) = 1)) as [Hrc|Hrc].
    + (* in place *)
      destruct (get_ok junk s _ fl pl bl [] HI) as (x & s1 & fl1 & E1 & (S1a & S1b & S1c) & I1 & L1 & F1 & _ & X1 & Fl1).
      rewrite E1. cbn [mbind option_bind].
      assert (Hx : x < length (z_data s1)) by (eapply (own_lt I1); cbn; rewrite ind_refl; lia).
      assert (Hx0 : x <> 0) by (eapply (own_ne0 I1); cbn; rewrite ind_refl; lia).
      destruct (lookup_lt_is_Some_2 (z_data s1) x Hx) as ([xv xn] & Ex).
      rewrite (set_next_ok s1 x r _ Ex). cbn [mbind option_bind fst].
      set (s2 := with_data s1 (<[x:=(xv, r)]> (z_data s1))).
      assert (Ex2 : z_data s2 !! x = Some (xv, r)) by (cbn; apply list_lookup_insert; exact Hx).
      rewrite (set_val_ok s2 x el _ Ex2). cbn [mbind option_bind snd].
      set (s3 := with_data s2 (<[x:=(el, r)]> (z_data s2))).
      assert (Hsepx : cnt x fl1 = 0 /\ pair_cnt x pl = 0 /\ blk_cnt x bl = 0).
      { pose proof (own_sep I1 x) as H. cbn in H. rewrite ind_refl in H. lia. }
      assert (Hd3 : forall y, y <> x -> z_data s3 !! y = z_data s1 !! y).
      { intros y Hy. cbn. rewrite !list_lookup_insert_ne by congruence. reflexivity. }
      assert (Hcell : forall y, y ∈ st :: n1 ++ n2 -> z_data s3 !! y = z_data s !! y /\ y <> x).
      { intros y Hy. assert (0 < blk_cnt y bl) as Hby.
        { pose proof (blk_cnt_in y _ _ _ _ Hb) as Hq. apply cnt_in in Hy. cbn in Hy. rewrite <- Hns in Hy. lia. }
        assert (y <> x) as Hyx by (intros ->; lia). split; [|exact Hyx]. rewrite (Hd3 y Hyx). apply F1.
        pose proof (I_own _ _ _ _ _ _ _ _ _ _ HI y) as Ho. destruct (decide (y < length (z_data s))); [assumption|]. rewrite lt1_ge in Ho; lia. }
      assert (Hseg3 : seg (z_data s3) st (st :: n1) (cnt st (z_start s) :: v1) r).
      { split; [reflexivity|]. split; [exact Hst0|]. exists nx.
        split; [rewrite (proj1 (Hcell st ltac:(apply elem_of_cons; auto))); exact Ed|].
        eapply seg_frame; [|exact Hs1]. intros y Hy. apply Hcell. apply elem_of_cons. right. apply elem_of_app; auto. }
      destruct (seg_relink _ _ _ _ _ Hseg3 ltac:(discriminate)) as (cc & Ecc & Hrel).
      { intros y. pose proof (sep1 HI y). pose proof (blk_cnt_in y _ _ _ _ Hb) as Hq. rewrite Hns, cnt_app in Hq. cbn. lia. }
      pose proof (llast_in st n1) as Hlin.
      assert (Hprev : llast (st :: n1) <> x).
      { assert (Hl2 : llast (st :: n1) ∈ st :: n1 ++ n2).
        { apply elem_of_cons in Hlin as [H|H]; [rewrite H; apply elem_of_cons; auto|apply elem_of_cons; right; apply elem_of_app; auto]. }
        apply (Hcell _ Hl2). }
      rewrite (set_next_ok s3 _ x _ Ecc).
      eexists _, (v1 ++ el :: v2). split; [reflexivity|]. split; [|split; [cbn; exact S1a|exact Hmem]].
      set (d' := <[llast (st :: n1):=(fst cc, x)]> (z_data s3)).
      apply blk_split in Hb as Hsp. destruct Hsp as (b1 & b2 & Hbl).
      pose proof (Hrel x) as Hseg4. fold d' in Hseg4. destruct Hseg4 as (_ & _ & nx' & Est' & Hseg4).
      assert (Hd'x : d' !! x = Some (el, r)) by (unfold d'; rewrite list_lookup_insert_ne by congruence; cbn; apply list_lookup_insert; rewrite insert_length; exact Hx).
      assert (Hch' : chain d' nx' (n1 ++ x :: n2) (v1 ++ el :: v2)).
      { eapply seg_join; [exact Hseg4|]. split; [reflexivity|]. split; [exact Hx0|]. exists r. split; [exact Hd'x|].
        eapply seg_frame; [|exact Hc2]. intros y Hy. unfold d'. rewrite list_lookup_insert_ne.
        - apply Hcell. apply elem_of_cons. right. apply elem_of_app; auto.
        - intros Heq. rewrite Heq in Hlin. apply cnt_in in Hlin. apply cnt_in in Hy. cbn in Hlin.
          pose proof (sep1 HI y). pose proof (blk_cnt_in y _ _ _ _ Hb) as Hq. rewrite Hns, cnt_app in Hq. lia. }
      assert (HI' : Inv (z_end s) d' (z_dnu s1) (z_nnu s1) (z_start s) (z_post s) fl1 pl (b1 ++ (st, (n1 ++ x :: n2, v1 ++ el :: v2)) :: b2) []).
      { unfold zinv in I1. rewrite S1a, S1c, Hbl in I1.
        eapply inv_insert with (d' := d') (nx' := nx') (d := z_data s1); [exact I1| | |exact Est'|exact Hch'| |exact Hssn|exact Halln|].
        - unfold d'. rewrite insert_length. cbn. rewrite !insert_length. reflexivity.
        - intros y Hy. unfold d'. rewrite list_lookup_insert_ne.
          + apply Hd3. intros ->. rewrite ind_refl in Hy. lia.
          + intros Heq. rewrite Heq in Hlin. apply cnt_in in Hlin. cbn in Hlin. rewrite Hns, cnt_app in Hy. lia.
        - destruct v1; discriminate.
        - intros y. rewrite Hns, !cnt_app. cbn. lia. }
      split; [cbn; rewrite S1b; exact Hn|]. split; [cbn; rewrite S1c; exact Hp|].
      eexists fl1, pl, _. split; [|split; [|exact Hg]].
      * unfold zinv. cbn. rewrite S1a, S1b, S1c. exact HI'.
      * intros k Hk. cbn. rewrite S1b. unfold upd. destruct (Nat.eqb_spec k i) as [->|Hne].
        -- right. exists st, (n1 ++ x :: n2). split; [exact Est|]. split; [exact Hst0|]. apply elem_of_app. right. apply elem_of_cons; auto.
        -- eapply content_mono; [apply Hc; exact Hk| |reflexivity].
           intros st' ns' Hb' Hg'. rewrite Hbl in Hb'. apply elem_of_app. apply elem_of_app in Hb' as [?|Hb']; [auto|].
           right. apply elem_of_cons. apply elem_of_cons in Hb' as [Hb'|?]; [|auto]. injection Hb' as -> -> Hfk. exfalso.
           assert (Hbig : forall l k i, k <> i -> l !! k = Some st -> l !! i = Some st -> 2 <= cnt st l).
           { clear. induction l as [|a l IH]; intros [|k] [|i] Hne H1 H2; cbn in *; try discriminate; try congruence.
             - injection H1 as ->. rewrite ind_refl. assert (st ∈ l) as Hin by (apply elem_of_list_lookup; eauto). apply cnt_in in Hin. lia.
             - injection H2 as ->. rewrite ind_refl. assert (st ∈ l) as Hin by (apply elem_of_list_lookup; eauto). apply cnt_in in Hin. lia.
             - specialize (IH k i ltac:(congruence) H1 H2). lia. }
           specialize (Hbig _ k i Hne Hg' Est). lia.
    + (* copy *)
      rewrite (set_val_ok s st _ _ Ed). cbn [mbind option_bind snd].
      set (c := cnt st (z_start s)) in *.
      set (s0 := with_data s (<[st:=(c - 1, nx)]> (z_data s))).
      set (gs' := <[i:=0]> (z_start s)).
      assert (Hcnt : forall x, cnt x gs' + ind x st = cnt x (z_start s) + ind x 0) by (intros x; apply cnt_insert; exact Est).
      assert (Hcst : cnt st gs' = c - 1). { specialize (Hcnt st). rewrite ind_refl, (ind_ne st 0) in Hcnt by exact Hst0. unfold c. lia. }
      assert (I0 : zinv s0 gs' fl pl bl []).
      { unfold zinv, s0; cbn. rewrite <- Hcst. eapply inv_setref; [exact HI|exact Hb|exact Ed| |unfold c in *; lia].
        intros x Hx0 Hx1. specialize (Hcnt x). rewrite (ind_ne x st), (ind_ne x 0) in Hcnt by assumption. lia. }
      destruct (get_ok junk s0 _ fl pl bl [] I0) as (x & s1 & fl1 & E1 & (S1a & S1b & S1c) & I1 & L1 & F1 & _ & X1 & Fl1).
      rewrite E1. cbn [mbind option_bind].
      assert (Hx : x < length (z_data s1)) by (eapply (own_lt I1); cbn; rewrite ind_refl; lia).
      assert (Hx0 : x <> 0) by (eapply (own_ne0 I1); cbn; rewrite ind_refl; lia).
      destruct (lookup_lt_is_Some_2 (z_data s1) x Hx) as ([xv xn] & Ex).
      rewrite (set_val_ok s1 x 1 _ Ex). cbn [mbind option_bind snd].
      set (s2 := with_data s1 (<[x:=(1, xn)]> (z_data s1))).
      assert (I2 : zinv s2 gs' fl1 pl bl [x]).
      { unfold zinv, s2; cbn. apply (inv_own_upd I1). cbn. rewrite ind_refl. lia. }
      assert (Ex2 : z_data s2 !! x = Some (1, xn)) by (cbn; apply list_lookup_insert; exact Hx).
      assert (Hox : 0 < cnt x [x]) by (cbn; rewrite ind_refl; lia).
      destruct (I_bl _ _ _ _ _ _ _ _ _ _ I2 _ _ _ Hb) as (_ & (nx2 & Ed2 & Hch2) & _).
      assert (Hnx2 : nx2 = nx).
      { assert (z_data s2 !! st = z_data s0 !! st) as Hq.
        { cbn. rewrite list_lookup_insert_ne.
          - apply F1. cbn. rewrite insert_length. apply lookup_lt_is_Some; eauto.
          - intros ->. pose proof (sep1 I2 st) as Hq. pose proof (blk_cnt_in st _ _ _ _ Hb) as Hq2. rewrite ind_refl in Hq2. lia. }
        rewrite Ed2 in Hq. cbn in Hq. rewrite list_lookup_insert in Hq by (apply lookup_lt_is_Some; eauto). congruence. }
      subst nx2. rewrite (znext_ok _ _ _ _ Ed2). cbn [mbind option_bind].
      assert (He2 : z_end s2 = z_end s) by (cbn; rewrite S1a; reflexivity).
      pose proof (I_zero _ _ _ _ _ _ _ _ _ _ I2) as H02.
      rewrite (read_next s2 _ H02 _ _ _ Hch2). cbn [mbind option_bind]. rewrite He2.
      destruct (search_split s2 (z_end s) el ltac:(lia) _ _ _ Hch2) as (m1 & m2 & w1 & w2 & r2 & Hns2 & Hfw & Hs2 & Hc22 & Hfw1 & Hhw2).
      assert (Hlive : forall y, y ∈ m1 ++ m2 -> 0 < blk_cnt y bl).
      { intros y Hy. pose proof (blk_cnt_in y _ _ _ _ Hb) as Hq. apply cnt_in in Hy. rewrite <- Hns2 in Hy. lia. }
      assert (Hfl2 : length (z_data s2) >= length ns).
      { pose proof (blk_fuel I2 _ _ _ Hb). lia. }
      rewrite Hns2, app_length in Hfl2.
      destruct (copy_below_ok el m1 w1 (fuel s2) s2 gs' fl1 pl bl [x] x _ nx r2 m2 w2 I2 Hox Ex2) as (p3 & s3 & P3 & C3);
        [lia|exact Hs2|exact Hc22|exact Hlive|exact Hfw1|rewrite He2; exact Hhw2|unfold fuel; lia|].
      rewrite He2, <- Hfw in C3. rewrite C3. cbn [mbind option_bind].
      destruct (pushes_ok w1 s2 gs' fl1 pl bl [x] x _ I2 Hox Ex2) as (p3' & s3' & fl3 & mm & c3 & P3' & S3 & I3 & O3 & E3 & F3).
      rewrite P3 in P3'. injection P3' as <- <-.
      destruct c3 as [c3a c3b].
      destruct (push_ok junk s3 gs' fl3 pl bl _ p3 el c3a c3b I3 O3 E3) as (x4 & s4 & fl4 & w4 & E4 & S4 & I4 & Ep4 & Ex4 & _ & _ & F4 & _ & _).
      rewrite E4. cbn [mbind option_bind].
      assert (He4 : z_end s4 = z_end s) by (rewrite (proj1 S4), (proj1 S3); exact He2).
      assert (Hc24 : chain (z_data s4) r2 m2 w2).
      { eapply seg_frame; [|exact Hc22]. intros y Hy. assert (Hy' : 0 < blk_cnt y bl) by (apply Hlive; apply elem_of_app; auto).
        rewrite (fr_live s3 s4 gs' fl3 pl bl _ p3 I3 F4 O3) by lia. apply (fr_live s2 s3 gs' fl1 pl bl [x] x I2 F3 Hox). lia. }
      destruct (copy_below_ok (z_end s) m2 w2 (fuel s2) s4 gs' fl4 pl bl (x4 :: mm ++ [x]) x4 _ r2 0 [] [] I4 ltac:(cbn; rewrite ind_refl; lia) Ex4) as (p5 & s5 & P5 & C5).
      { lia. } { exact Hc24. } { reflexivity. }
      { intros y Hy. rewrite app_nil_r in Hy. apply Hlive. apply elem_of_app; auto. }
      { rewrite Hfw in Hall. apply Forall_app in Hall as (_ & ?). assumption. }
      { cbn. lia. } { unfold fuel; lia. }
      rewrite app_nil_r, He4 in C5. rewrite He4. rewrite C5. cbn [mbind option_bind].
      assert (Hfull : build s2 x (w1 ++ el :: w2) = set_next s5 p5 0).
      { rewrite build_app, P3. cbn [mbind option_bind SizeSetvec_Model.build]. rewrite E4. cbn [mbind option_bind].
        replace w2 with (w2 ++ []) by apply app_nil_r. rewrite build_app, P5. reflexivity. }
      rewrite <- Hfull.
      destruct (build_ok junk (w1 ++ el :: w2) s2 gs' fl1 pl bl [x] x 1 xn I2 Hox Ex2) as (s6 & fl6 & m6 & nx6 & E6 & (S6a & S6b & S6c) & I6 & Ex6 & C6 & F6).
      rewrite E6. cbn [mbind option_bind].
      assert (Hst6 : z_start s6 = z_start s) by (rewrite S6b; cbn; rewrite S1b; reflexivity).
      unfold set_start. rewrite Hst6, Est. cbn [mbind option_bind].
      (* the split is the same as before *)
      assert (Hsame : w1 ++ el :: w2 = v1 ++ el :: v2).
      { assert (Hu : forall a1 a2 b1 b2 : list nat, a1 ++ a2 = b1 ++ b2 -> Forall (fun v => v < el) a1 -> Forall (fun v => v < el) b1 ->
           el <= hd (z_end s) a2 -> el <= hd (z_end s) b2 -> a1 ++ el :: a2 = b1 ++ el :: b2).
        { clear. induction a1 as [|a a1 IH]; intros a2 [|b b1] b2 H Ha Hb Hha Hhb; cbn in *; subst; auto.
          - apply Forall_cons in Hb as (Hb & _). cbn in Hha. lia.
          - apply Forall_cons in Ha as (Ha & _). cbn in Hhb. lia.
          - injection H as -> H. f_equal. apply Forall_cons in Ha as (_ & Ha). apply Forall_cons in Hb as (_ & Hb). auto. }
        apply Hu; [rewrite <- Hfw; exact Hfv|exact Hfw1|exact Hf1|exact Hhw2|exact Hh2]. }
      rewrite Hsame in *.
      eexists _, (v1 ++ el :: v2). split; [reflexivity|]. cbn [z_end with_start].
      assert (He6 : z_end s6 = z_end s) by (rewrite S6a; exact He2).
      split; [|split; [exact He6|exact Hmem]].
      split; [cbn; rewrite insert_length; exact Hn|].
      split; [cbn; rewrite S6c; cbn; rewrite S1c; cbn; exact Hp|].
      exists fl6, pl, ((x, (m6, v1 ++ el :: v2)) :: bl). split; [|split; [|exact Hg]].
      * unfold zinv. cbn. replace (<[i:=x]> (z_start s)) with (<[i:=x]> gs') by (unfold gs'; apply list_insert_insert).
        eapply inv_add_block; [exact I6| |unfold gs'; apply list_lookup_insert; lia|exact Ex6|exact C6|destruct v1; discriminate|exact Hssn|rewrite He6; exact Halln].
        intros y. rewrite cnt_app. cbn. lia.
      * intros k Hk. cbn. unfold upd. destruct (Nat.eqb_spec k i) as [->|Hne].
        -- right. exists x, m6. split; [apply list_lookup_insert; lia|]. split; [exact Hx0|apply elem_of_cons; auto].
        -- eapply content_mono; [apply Hc; exact Hk| |apply list_lookup_insert_ne; congruence].
           intros. apply elem_of_cons; auto.
Qed.
End Ops3.
