(** Proofs about the linked-list set vector, part 4: post_element,
    process_post, assignment, union, intersection, queries. *)
From stdpp Require Import list numbers option sorting.
From Coq Require Import Lia.
From Verif Require Import SetVec_Spec SizeSetvec_Model SizeSetvec_Proof SizeSetvec_Proof2 SizeSetvec_Proof3.

Section Ops4.
Variable junk : nat * nat.
Notation get_data_index := (get_data_index junk).

Lemma z_post_ok s n f g i el : Z s n f g -> i < n -> el < z_end s ->
  exists s', z_post_element junk s i el = Some s' /\ Z s' n f (upd g i (el :: g i)) /\ z_end s' = z_end s.
Proof.
  intros (Hn & Hp & fl & pl & bl & HI & Hc & Hg) Hi Hel. unfold z_post_element.
  destruct (lookup_lt_is_Some_2 (z_post s) i) as (p & Ep); [lia|]. rewrite Ep. cbn [mbind option_bind].
  destruct (get_ok junk s _ fl pl bl [] HI) as (x & s1 & fl1 & E1 & (S1a & S1b & S1c) & I1 & L1 & F1 & _ & X1 & Fl1).
  rewrite E1. cbn [mbind option_bind]. unfold set_post. rewrite S1c, Ep. cbn [mbind option_bind].
  assert (Hx : x < length (z_data s1)) by (eapply (own_lt I1); cbn; rewrite ind_refl; lia).
  assert (Hx0 : x <> 0) by (eapply (own_ne0 I1); cbn; rewrite ind_refl; lia).
  destruct (lookup_lt_is_Some_2 (z_data s1) x Hx) as ([xv xn] & Ex).
  set (s2 := with_post s1 (<[i:=x]> (z_post s))).
  rewrite (set_val_ok s2 x el (xv, xn)) by exact Ex. cbn [mbind option_bind snd].
  set (s3 := with_data s2 (<[x:=(el, xn)]> (z_data s2))).
  assert (Ex3 : z_data s3 !! x = Some (el, xn)) by (cbn; apply list_lookup_insert; exact Hx).
  rewrite (set_next_ok s3 x p _ Ex3). cbn [fst]. eexists. split; [reflexivity|]. split; [|cbn; exact S1a].
  destruct (Hg i Hi) as (ns & Epl).
  set (d' := <[x:=(el, p)]> (<[x:=(el, xn)]> (z_data s1))).
  assert (Hd' : length d' = length (z_data s1)) by (unfold d'; rewrite !insert_length; reflexivity).
  assert (Hf : forall y, y <> x -> d' !! y = z_data s1 !! y) by (intros y Hy; unfold d'; rewrite !list_lookup_insert_ne by congruence; reflexivity).
  assert (Hdx : d' !! x = Some (el, p)) by (unfold d'; apply list_lookup_insert; rewrite insert_length; exact Hx).
  assert (Hpi : i < length pl) by (apply lookup_lt_is_Some; eauto).
  assert (Hsep : forall y, y = x -> cnt y fl1 = 0 /\ pair_cnt y pl = 0 /\ blk_cnt y bl = 0).
  { intros y ->. pose proof (own_sep I1 x) as H. cbn in H. rewrite ind_refl in H. lia. }
  split; [cbn; rewrite S1b; exact Hn|]. split; [cbn; rewrite insert_length; exact Hp|].
  exists fl1, (<[i := (x :: ns, el :: g i)]> pl), bl. cbn [z_start with_data with_post s3 s2].
  split; [|split].
  - unfold zinv. cbn -[upd]. fold d'. unfold zinv in I1. rewrite S1b, S1c in *.
    destruct I1 as [H1 H2 H3 H4 H5 H6 H7 H8]. constructor; try assumption.
    + rewrite !insert_length. exact H1.
    + rewrite Hf by congruence. exact H2.
    + destruct H3 as (fv & H3). exists fv. eapply seg_frame; [|exact H3]. intros y Hy. apply Hf. intros Heq. apply Hsep in Heq. apply cnt_in in Hy. lia.
    + intros k p' ns' vs' Hp' Hpl'. destruct (decide (k = i)) as [->|Hne].
      * rewrite list_lookup_insert in Hp' by lia. rewrite list_lookup_insert in Hpl' by lia.
        injection Hp' as <-. injection Hpl' as <- <-.
        destruct (H5 i p ns (g i) Ep Epl) as (Hcc & Hv). split; [|constructor; [rewrite S1a; exact Hel|exact Hv]].
        split; [reflexivity|]. split; [exact Hx0|]. exists p. split; [exact Hdx|].
        eapply seg_frame; [|exact Hcc]. intros y Hy. apply Hf. intros Heq. apply Hsep in Heq. apply cnt_in in Hy.
        pose proof (pair_cnt_in y _ _ _ _ Epl). lia.
      * rewrite list_lookup_insert_ne in Hp' by congruence. rewrite list_lookup_insert_ne in Hpl' by congruence.
        destruct (H5 k p' ns' vs' Hp' Hpl') as (Hcc & Hv). split; [|exact Hv]. eapply seg_frame; [|exact Hcc].
        intros y Hy. apply Hf. intros Heq. apply Hsep in Heq. apply cnt_in in Hy. pose proof (pair_cnt_in y _ _ _ _ Hpl'). lia.
    + intros st ns' vs' Hb. destruct (H6 st ns' vs' Hb) as (Hst & (nx & E & Hcc) & Hr). split; [exact Hst|]. split; [|exact Hr].
      exists nx. split.
      * rewrite Hf; [exact E|]. intros Heq. apply Hsep in Heq. pose proof (blk_cnt_in st _ _ _ _ Hb) as Hq. rewrite ind_refl in Hq. lia.
      * eapply seg_frame; [|exact Hcc]. intros y Hy. apply Hf. intros Heq. apply Hsep in Heq. apply cnt_in in Hy. pose proof (blk_cnt_in y _ _ _ _ Hb). lia.
    + intros y. rewrite Hd'. specialize (H8 y). pose proof (pair_cnt_insert y pl i ns (g i) (x :: ns) (el :: g i) Epl) as Hq. cbn [cnt] in *. lia.
  - intros k Hk. rewrite S1b. apply Hc. exact Hk.
  - intros k Hk. unfold upd. destruct (Nat.eqb_spec k i) as [->|Hne]; [exists (x :: ns); apply list_lookup_insert; exact Hpi|].
    rewrite list_lookup_insert_ne by congruence. auto.
Qed.

(** *** process_post *)
Lemma merge_posts_ok s : z_data s !! 0 = Some (z_end s, 0) ->
  forall posts ns vs p prev sub,
  chain (z_data s) p ns vs -> length ns <= length (z_data s) -> Forall (fun v => v < z_end s) vs -> StronglySorted lt vs ->
  StronglySorted (≤) posts -> Forall (fun v => v < z_end s) posts ->
  (prev = z_end s \/ ((forall x, x ∈ posts -> prev <= x) /\ forall x, x ∈ vs -> prev < x)) ->
  exists out r ns2 vs2 sub',
    merge_posts s posts p (hd (z_end s) vs) prev sub = Some (out, r, hd (z_end s) vs2, sub') /\
    chain (z_data s) r ns2 vs2 /\ length ns2 <= length (z_data s) /\
    StronglySorted lt (out ++ vs2) /\ (forall x, x ∈ out ++ vs2 <-> x ∈ vs \/ (x ∈ posts /\ x <> prev)) /\
    (sub' = true -> forall x, x ∈ posts -> x ∈ vs).
Proof.
  intros H0. induction posts as [|pv posts IH]; intros ns vs p prev sub Hch Hl Hv Hss Hps Hpv Hprev; cbn [merge_posts].
  - exists [], p, ns, vs, sub. split; [reflexivity|]. split; [exact Hch|]. split; [exact Hl|]. split; [exact Hss|].
    split; [|intros _ x Hx; apply elem_of_nil in Hx; contradiction]. intros x. cbn. rewrite elem_of_nil. tauto.
  - apply Forall_cons in Hpv as (Hpv & Hpvs). inversion Hps as [|? ? Hps' Hpf]; subst. rewrite Forall_forall in Hpf.
    destruct (search_split s (z_end s) pv ltac:(lia) _ _ _ Hch) as (n1 & n2 & v1 & v2 & r & -> & -> & Hs1 & Hc2 & Hf1 & Hh2).
    rewrite app_length in Hl.
    rewrite (take_below_ok s (z_end s) pv H0 ltac:(lia) n1 v1 (fuel s) p r n2 v2 Hs1 Hc2 Hf1 Hh2) by (unfold fuel; lia).
    cbn [mbind option_bind]. apply Forall_app in Hv as (_ & Hv2). apply ss_app in Hss as (Hss1 & Hss2 & Hss12). rewrite Forall_forall in Hf1.
    set (l2 := if decide (prev ≠ pv) then [pv] else []).
    assert (Hl2 : forall x, x ∈ l2 <-> x = pv /\ x <> prev).
    { intros x. unfold l2. destruct (decide (prev ≠ pv)) as [H|H]; [rewrite elem_of_list_singleton|rewrite elem_of_nil].
      - split; [intros ->; auto|tauto].
      - split; [tauto|]. intros (-> & H'). apply H. congruence. }
    assert (Hl2s : StronglySorted lt l2) by (unfold l2; destruct (decide (prev ≠ pv)); repeat constructor).
    assert (Hprev1 : forall x, x ∈ v1 ++ v2 -> x <> prev \/ prev = z_end s) by (intros x Hx; destruct Hprev as [->|(_ & H)]; [auto|left; specialize (H x Hx); lia]).
    assert (Hge : forall x, x ∈ v2 -> pv <= x) by (apply (ss_hd v2 (z_end s) pv Hss2 Hh2)).
    destruct (decide (hd (z_end s) v2 = pv)) as [Heq|Hneq].
    + destruct v2 as [|w v2]; [cbn in Heq; lia|]. cbn in Heq. subst w.
      destruct n2 as [|a n2]; [contradiction Hc2|]. destruct Hc2 as (-> & Ha & nn & Ea & Hc2).
      rewrite (znext_ok _ _ _ _ Ea). cbn [mbind option_bind]. rewrite (read_next s _ H0 _ _ _ Hc2). cbn [mbind option_bind].
      apply Forall_cons in Hv2 as (_ & Hv2). inversion Hss2 as [|? ? Hss2' Hgt]; subst. rewrite Forall_forall in Hgt.
      destruct (IH n2 v2 nn pv sub Hc2 ltac:(cbn in Hl; lia) Hv2 Hss2' Hps' Hpvs) as (out & r' & ns2 & vs2 & sub' & E & Hcr & Hlr & Hso & Hmem & Hsub).
      { right. split; [exact Hpf|exact Hgt]. }
      rewrite E. cbn [mbind option_bind]. exists (v1 ++ l2 ++ out), r', ns2, vs2, sub'. split; [reflexivity|]. split; [exact Hcr|]. split; [exact Hlr|].
      assert (Hob : forall y, y ∈ out ++ vs2 -> pv < y).
      { intros y Hy. apply Hmem in Hy as [Hy|(Hy & Hy2)]; [auto|]. specialize (Hpf y Hy). lia. }
      split; [|split].
      * rewrite <- !app_assoc. apply ss_app. split; [exact Hss1|]. split.
        -- apply ss_app. split; [exact Hl2s|]. split; [exact Hso|]. intros x y Hx Hy. apply Hl2 in Hx as (-> & _). auto.
        -- intros x y Hx Hy. specialize (Hf1 x Hx). apply elem_of_app in Hy as [Hy|Hy]; [apply Hl2 in Hy as (-> & _); lia|]. specialize (Hob y Hy). lia.
      * intros x. rewrite <- !app_assoc, !(elem_of_app v1), (elem_of_app l2), Hl2, Hmem, !elem_of_cons.
        split.
        -- intros [?|[(-> & ?)|[?|(? & ?)]]]; auto. right. split; [auto|]. intros ->. destruct Hprev as [->|(Hp1 & _)].
           ++ rewrite Forall_forall in Hpvs. specialize (Hpvs _ H). lia.
           ++ specialize (Hp1 pv ltac:(apply elem_of_cons; auto)). specialize (Hpf prev H). lia.
        -- intros [[?|[->|?]]|([->|?] & ?)]; auto.
           ++ right. left. split; [reflexivity|]. assert (Hin : pv ∈ v1 ++ pv :: v2) by (apply elem_of_app; right; apply elem_of_cons; auto). destruct (Hprev1 pv Hin) as [?|Hq]; [assumption|lia].
           ++ destruct (decide (x = pv)) as [->|]; auto.
      * intros Ht x Hx. specialize (Hsub Ht). apply elem_of_cons in Hx as [->|Hx]; apply elem_of_app; right; apply elem_of_cons; auto.
    + destruct (IH n2 v2 r pv false Hc2 ltac:(lia) Hv2 Hss2 Hps' Hpvs) as (out & r' & ns2 & vs2 & sub' & E & Hcr & Hlr & Hso & Hmem & Hsub).
      { right. split; [exact Hpf|]. apply (ss_hd v2 (z_end s) (S pv) Hss2). lia. }
      cbn [mbind option_bind]. rewrite E. cbn [mbind option_bind]. exists (v1 ++ l2 ++ out), r', ns2, vs2, sub'. split; [reflexivity|]. split; [exact Hcr|]. split; [exact Hlr|].
      assert (Hgt : forall x, x ∈ v2 -> pv < x) by (apply (ss_hd v2 (z_end s) (S pv) Hss2); lia).
      assert (Hob : forall y, y ∈ out ++ vs2 -> pv < y).
      { intros y Hy. apply Hmem in Hy as [Hy|(Hy & Hy2)]; [auto|]. specialize (Hpf y Hy). lia. }
      assert (Hsubf : forall posts n2 v2 out r' vs2' sub' p, merge_posts s posts n2 v2 p false = Some (out, r', vs2', sub') -> sub' = false).
      { clear. induction posts as [|q posts IH]; intros n2 v2 out r' vs2' sub' p E; cbn [merge_posts] in E; [congruence|].
        destruct (take_below (fuel s) s q n2 v2) as [[[l1 n] v]|]; [|discriminate]. cbn [mbind option_bind] in E.
        destruct (decide (v = q)).
        - destruct (znext s n) as [n'|]; [|discriminate]. cbn [mbind option_bind] in E. destruct (zval s n') as [v'|]; [|discriminate].
          cbn [mbind option_bind] in E. destruct (merge_posts s posts n' v' q false) as [[[[l3 n3] v3] s3]|] eqn:E3; [|discriminate].
          cbn in E. injection E as <- <- <- <-. eapply IH; exact E3.
        - cbn [mbind option_bind] in E. destruct (merge_posts s posts n v q false) as [[[[l3 n3] v3] s3]|] eqn:E3; [|discriminate].
          cbn in E. injection E as <- <- <- <-. eapply IH; exact E3. }
      apply Hsubf in E. subst sub'. split; [|split; [|discriminate]].
      * rewrite <- !app_assoc. apply ss_app. split; [exact Hss1|]. split.
        -- apply ss_app. split; [exact Hl2s|]. split; [exact Hso|]. intros x y Hx Hy. apply Hl2 in Hx as (-> & _). auto.
        -- intros x y Hx Hy. specialize (Hf1 x Hx). apply elem_of_app in Hy as [Hy|Hy]; [apply Hl2 in Hy as (-> & _); lia|]. specialize (Hob y Hy). lia.
      * intros x. rewrite <- !app_assoc, !(elem_of_app v1), (elem_of_app l2), Hl2, Hmem, !elem_of_cons.
        split.
        -- intros [?|[(-> & ?)|[?|(? & ?)]]]; auto. right. split; [auto|]. intros ->. destruct Hprev as [->|(Hp1 & _)].
           ++ rewrite Forall_forall in Hpvs. specialize (Hpvs _ H). lia.
           ++ specialize (Hp1 pv ltac:(apply elem_of_cons; auto)). specialize (Hpf prev H). lia.
        -- intros [[?|?]|([->|?] & ?)]; auto. destruct (decide (x = pv)) as [->|]; auto.
Qed.

Lemma drop_post_eq s i : forall p, z_post s !! i = Some p -> p <> 0 ->
  drop_post s i = (s ← set_post s i 0; '(previous, n) ← walk (fuel s) s p 1; s ← set_next s previous (z_dnu s); Some (n, with_free s (z_nnu s) p)).
Proof. intros p E Hp. unfold drop_post. rewrite E. cbn [mbind option_bind]. rewrite decide_False by exact Hp. reflexivity. Qed.

(** giving back the post list, lines 1036-1048 and 1058-1077 of the source *)
Lemma free_post_ok s n f g i : Z s n f g -> i < n -> g i <> [] ->
  exists p last s1 s', z_post s !! i = Some p /\ p <> 0 /\ post_values (fuel s) s p = Some (g i, last) /\
    set_post s i 0 = Some s1 /\ set_next s1 last (z_dnu s1) = Some s' /\
    Z (with_free s' (z_nnu s' + length (g i)) p) n f (upd g i []) /\ z_end s' = z_end s.
Proof.
  intros HZ Hi Hgi. pose proof HZ as (Hn & Hp & fl & pl & bl & HI & Hc & Hg).
  destruct (lookup_lt_is_Some_2 (z_post s) i) as (p & Ep); [lia|].
  destruct (Hg i Hi) as (ns & Epl). destruct (I_post _ _ _ _ _ _ _ _ _ _ HI i p ns (g i) Ep Epl) as (Hch & Hv).
  destruct ns as [|a ns]; [destruct (g i); [congruence|contradiction Hch]|].
  assert (Hp0 : p <> 0) by (destruct (g i); [contradiction Hch|]; destruct Hch as (_ & ? & _); assumption).
  pose proof HZ as HZx. apply Z_Zx in HZx. destruct (drop_post_ok s n f g [] [] i HZx Hi) as (k & s' & E & HZ' & He & Hst & _ & Hk).
  rewrite (drop_post_eq s i p Ep Hp0) in E.
  assert (Hfl : length (a :: ns) <= fuel s) by (pose proof (post_fuel HI i _ _ Epl); unfold fuel; lia).
  unfold set_post in *. rewrite Ep in *. cbn [mbind option_bind] in *.
  set (s1 := with_post s (<[i:=0]> (z_post s))) in *.
  rewrite (walk_ok s1 (a :: ns) (g i) (fuel s1) p 1 Hch ltac:(discriminate) Hfl) in E. cbn [mbind option_bind] in E.
  destruct (set_next s1 (llast (a :: ns)) (z_dnu s1)) as [s2|] eqn:E2; [|discriminate]. cbn [mbind option_bind] in E. injection E as E3 E4.
  exists p, (llast (a :: ns)), s1, s2. split; [reflexivity|]. split; [exact Hp0|].
  split; [apply (post_values_ok s (a :: ns) (g i) (fuel s) p Hch ltac:(discriminate) Hfl)|]. split; [reflexivity|]. split; [exact E2|].
  rewrite <- E4 in *. cbn in He. split; [|exact He]. apply Z_Zx. rewrite Hk in HZ'. exact HZ'.
Qed.

Lemma z_process_ok s n f g i : Z s n f g -> i < n ->
  exists s' l, z_process_post junk s i = Some s' /\ Z s' n (upd f i l) (upd g i []) /\ z_end s' = z_end s /\
    forall x, x ∈ l <-> x ∈ g i \/ x ∈ f i.
Proof.
  intros HZ Hi. unfold z_process_post. pose proof HZ as (Hn & Hp & fl & pl & bl & HI & Hc & Hg).
  destruct (Z_facts s n f g i HZ Hi) as (Hfs & Hfb & Hgb).
  destruct (decide (g i = [])) as [Hgi|Hgi].
  { destruct (Hg i Hi) as (ns & Epl). destruct (lookup_lt_is_Some_2 (z_post s) i) as (p & Ep); [lia|].
    destruct (I_post _ _ _ _ _ _ _ _ _ _ HI i p ns (g i) Ep Epl) as (Hch & Hv). rewrite Hgi in *.
    destruct ns; [|contradiction Hch]. cbn in Hch. rewrite Ep. cbn [mbind option_bind]. rewrite decide_True by exact Hch.
    exists s, (f i). split; [reflexivity|]. split; [|split; [reflexivity|]].
    - eapply Z_ext; [exact HZ| |]; intros k _; unfold upd; destruct (Nat.eqb_spec k i) as [->|]; congruence.
    - intros x. rewrite elem_of_nil. tauto. }
  destruct (free_post_ok s n f g i HZ Hi Hgi) as (p & last & s1 & s2 & Ep & Hp0 & Epv & Es1 & Es2 & HZ2 & He2).
  rewrite Ep. cbn [mbind option_bind]. rewrite decide_False by exact Hp0.
  destruct (Hg i Hi) as (ns & Epl). destruct (I_post _ _ _ _ _ _ _ _ _ _ HI i p ns (g i) Ep Epl) as (Hch & Hv).
  set (s3 := with_free s2 (z_nnu s2 + length (g i)) p) in *.
  assert (He3 : z_end s3 = z_end s) by exact He2.
  destruct (g i) as [|v [|v' vs]] eqn:Egi; [congruence| |].
  - (* one posted value *)
    destruct ns as [|a [|b ns]]; [contradiction Hch| |destruct Hch as (_ & _ & ? & _ & Hx); contradiction Hx].
    destruct Hch as (-> & _ & nn & Ea & Hnn). cbn in Hnn. subst nn.
    rewrite (znext_ok _ _ _ _ Ea). cbn [mbind option_bind]. rewrite decide_True by reflexivity.
    rewrite (zval_ok _ _ _ _ Ea). cbn [mbind option_bind].
    assert (Hlast : last = a).
    { unfold fuel in Epv. cbn [post_values] in Epv. rewrite (zval_ok _ _ _ _ Ea), (znext_ok _ _ _ _ Ea) in Epv. cbn [mbind option_bind] in Epv. rewrite decide_True in Epv by reflexivity. congruence. }
    subst last. rewrite Es1. cbn [mbind option_bind]. rewrite Es2. cbn [mbind option_bind].
    replace (with_free s2 (S (z_nnu s2)) a) with s3 by (unfold s3; cbn [length]; rewrite Nat.add_1_r; reflexivity).
    apply Forall_cons in Hgb as (Hvb & _).
    destruct (z_add_ok junk s3 n f (upd g i []) i v HZ2 Hi) as (s' & l & E & HZ' & He' & Hm); [rewrite He3; exact Hvb|].
    exists s', l. split; [exact E|]. split; [exact HZ'|]. split; [congruence|]. intros x. rewrite Hm, elem_of_list_singleton. reflexivity.
  - assert (Hnext : exists nn, znext s p = Some nn /\ nn <> 0).
    { destruct ns as [|a ns]; [contradiction Hch|]. destruct Hch as (-> & _ & nn & Ea & Hx). exists nn. split; [eapply znext_ok; exact Ea|].
      destruct ns; [contradiction Hx|]. destruct Hx as (-> & ? & _). assumption. }
    destruct Hnext as (nn & Enn & Hnn). rewrite Enn. cbn [mbind option_bind]. rewrite decide_False by exact Hnn.
    rewrite Epv. cbn [mbind option_bind]. rewrite Es1. cbn [mbind option_bind]. rewrite Es2. cbn [mbind option_bind].
    fold s3.
    set (posts := merge_sort (≤) (v :: v' :: vs)).
    assert (Hperm : Permutation posts (v :: v' :: vs)) by apply merge_sort_Permutation.
    assert (Hpin : forall x, x ∈ posts <-> x ∈ v :: v' :: vs) by (intros x; rewrite Hperm; reflexivity).
    assert (Hps : StronglySorted (≤) posts) by (apply StronglySorted_merge_sort; [intros ? ? ?; lia|apply _]).
    assert (Hpb : Forall (fun x => x < z_end s3) posts).
    { rewrite He3. rewrite Forall_forall in *. intros x Hx. apply Hgb, Hpin, Hx. }
    pose proof HZ2 as (Hn3 & Hp3 & fl3 & pl3 & bl3 & HI3 & Hc3 & Hg3).
    destruct (Z_block junk s3 n f fl3 pl3 bl3 i HI3 Hn3 Hc3 Hi) as (st & Est & Hst).
    rewrite Est. cbn [mbind option_bind].
    pose proof (I_zero _ _ _ _ _ _ _ _ _ _ HI3) as H03.
    assert (Hrd : exists q qs, (if decide (0 < st) then n ← znext s3 st; v ← zval s3 n; Some (n, v) else Some (st, z_end s3)) = Some (q, hd (z_end s3) (f i))
       /\ chain (z_data s3) q qs (f i) /\ length qs <= length (z_data s3)).
    { destruct Hst as [(-> & Hfi)|(Hst0 & ns3 & nx & Hb & Ed & Hch3 & _ & _ & _ & _ & Hfu)].
      - exists 0, []. rewrite decide_False by lia. rewrite Hfi. split; [reflexivity|]. split; [reflexivity|cbn; lia].
      - exists nx, ns3. rewrite decide_True by lia. rewrite (znext_ok _ _ _ _ Ed). cbn [mbind option_bind].
        rewrite (read_next s3 _ H03 _ _ _ Hch3). split; [reflexivity|]. split; [exact Hch3|lia]. }
    destruct Hrd as (q & qs & Erd & Hchq & Hlq). rewrite Erd. cbn [mbind option_bind].
    destruct (merge_posts_ok s3 H03 posts qs (f i) q (z_end s3) true Hchq Hlq) as (out & r & ns2 & vs2 & sub & Em & Hc2 & Hl2 & Hso & Hmem & Hsub);
      [rewrite He3; exact Hfb|exact Hfs|exact Hps|exact Hpb|auto|].
    rewrite Em. cbn [mbind option_bind].
    assert (Hmem' : forall x, x ∈ out ++ vs2 <-> x ∈ v :: v' :: vs \/ x ∈ f i).
    { intros x. rewrite Hmem, Hpin. split; [tauto|]. intros [H|H]; [|auto]. right. split; [exact H|].
      rewrite Forall_forall in Hgb. specialize (Hgb x H). lia. }
    destruct sub.
    + exists s3, (f i). split; [reflexivity|]. split; [|split; [exact He3|]].
      * eapply Z_ext; [exact HZ2| |]; intros k _; unfold upd; destruct (Nat.eqb_spec k i) as [->|]; reflexivity.
      * intros x. split; [auto|]. intros [H|H]; [|exact H]. apply Hsub; [reflexivity|]. apply Hpin. exact H.
    + assert (Hv2 : Forall (fun x => x < z_end s3) (out ++ vs2)).
      { rewrite He3. rewrite Forall_forall in *. intros x Hx. apply Hmem' in Hx as [?|?]; auto. }
      apply Forall_app in Hv2 as Hv2'. destruct Hv2' as (_ & Hv2').
      pose proof (take_below_ok s3 (z_end s3) (z_end s3) H03 ltac:(lia) ns2 vs2 (fuel s3) r 0 [] [] Hc2 eq_refl Hv2' ltac:(cbn; lia) ltac:(unfold fuel; lia)) as Et.
      rewrite app_nil_r in Et. rewrite Et. cbn [mbind option_bind].
      destruct (drop_Z s3 n f (upd g i []) i HZ2 Hi) as (s4 & E4 & HZ4 & He4). rewrite E4. cbn [mbind option_bind].
      destruct (build_set_ok junk s4 n (upd f i []) (upd (upd g i []) i []) i (out ++ vs2) HZ4 Hi (upd_eq _ _ _)) as (s5 & E5 & HZ5 & He5).
      { intros Hnil. assert (v ∈ out ++ vs2) as Hin by (apply Hmem'; left; apply elem_of_cons; auto). rewrite Hnil in Hin. apply elem_of_nil in Hin. contradiction. }
      { exact Hso. } { rewrite He4. exact Hv2. }
      exists s5, (out ++ vs2). split; [exact E5|]. split; [|split; [congruence|exact Hmem']].
      eapply Z_ext; [exact HZ5| |]; intros k _; unfold upd; destruct (Nat.eqb_spec k i) as [->|]; reflexivity.
Qed.
End Ops4.
