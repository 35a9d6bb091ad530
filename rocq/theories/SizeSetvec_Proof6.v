(** Proofs about the linked-list set vector, part 6: union, intersection,
    queries and whole histories. *)
From stdpp Require Import list numbers option sorting.
From Coq Require Import Lia.
From Verif Require Import SetVec_Spec SizeSetvec_Model SizeSetvec_Proof SizeSetvec_Proof2 SizeSetvec_Proof3 SizeSetvec_Proof4 SizeSetvec_Proof5.

Section Ops6.
Variable junk : nat * nat.

Lemma hd_end (e : nat) vs : Forall (fun v => v < e) vs -> Nat.eqb (hd e vs) e = true <-> vs = [].
Proof.
  intros H. destruct vs as [|v vs]; cbn; [rewrite Nat.eqb_refl; tauto|].
  apply Forall_cons in H as (H & _). split; [intros E; apply Nat.eqb_eq in E; lia|discriminate].
Qed.
Lemma chain_bound s e ns vs p : chain (z_data s) p ns vs -> Forall (fun v : nat => v < e) vs -> Forall (fun v => v < e) vs.
Proof. auto. Qed.

(** facts about the other argument *)
Lemma other_block s n f g other n2 f2 g2 : Z s n f g -> OtherOK s n f g other n2 f2 g2 ->
  Z (the_other s other) n2 f2 g2 /\ z_end (the_other s other) = z_end s.
Proof. intros HZ Ho. destruct other as [o|]; cbn in *; [exact Ho|]. destruct Ho as (-> & -> & ->). auto. Qed.

Lemma union_ok s n f g t l other n2 f2 g2 r : Z s n f g -> t < n -> l < n -> OtherOK s n f g other n2 f2 g2 -> r < n2 ->
  g l = [] -> g2 r = [] ->
  exists s' m, z_union junk s t l r other = Some s' /\ Z s' n (upd f t m) (upd g t []) /\ z_end s' = z_end s /\
    forall x, x ∈ m <-> x ∈ f l \/ x ∈ f2 r.
Proof.
  intros HZ Ht Hl Ho Hr Hgl Hgr. unfold z_union.
  destruct (other_block _ _ _ _ _ _ _ _ HZ Ho) as (HZo & Heo). set (o := the_other s other) in *.
  pose proof HZ as (Hn & Hp & fl & pl & bl & HI & Hc & Hg).
  pose proof HZo as (Hno & Hpo & flo & plo & blo & HIo & Hco & Hgo).
  destruct (Z_block junk s n f fl pl bl l HI Hn Hc Hl) as (sl & Esl & Hsl). rewrite Esl. cbn [mbind option_bind].
  destruct (Z_block junk o n2 f2 flo plo blo r HIo Hno Hco Hr) as (sr & Esr & Hsr). rewrite Esr. cbn [mbind option_bind].
  assert (HOs : OtherOK s n f g None n f g) by (repeat split).
  destruct (assign_ok junk s n f g t None n f g l HZ Ht HOs Hl Hgl) as (sA & EA & HZA & HeA).
  destruct (assign_ok junk s n f g t other n2 f2 g2 r HZ Ht Ho Hr Hgr) as (sB & EB & HZB & HeB).
  destruct (decide (sr = 0)) as [->|Hsr0].
  { destruct Hsr as [(_ & Hf)|(? & _)]; [|congruence]. exists sA, (f l). split; [exact EA|]. split; [exact HZA|]. split; [exact HeA|].
    intros x. rewrite Hf, elem_of_nil. tauto. }
  destruct (decide (sl = 0)) as [->|Hsl0].
  { destruct Hsl as [(_ & Hf)|(? & _)]; [|congruence]. exists sB, (f2 r). split; [exact EB|]. split; [exact HZB|]. split; [exact HeB|].
    intros x. rewrite Hf, elem_of_nil. tauto. }
  destruct Hsl as [(? & _)|(_ & lns & lnx & _ & Edl & Hchl & _ & Hlne & Hssl & Hbl & Hful)]; [congruence|].
  destruct Hsr as [(? & _)|(_ & rns & rnx & _ & Edr & Hchr & _ & Hrne & Hssr & Hbr & Hfur)]; [congruence|].
  pose proof (I_zero _ _ _ _ _ _ _ _ _ _ HI) as H0. pose proof (I_zero _ _ _ _ _ _ _ _ _ _ HIo) as H0o. rewrite Heo in H0o, Hbr.
  rewrite (znext_ok _ _ _ _ Edl). cbn [mbind option_bind]. rewrite (read_next s _ H0 _ _ _ Hchl). cbn [mbind option_bind].
  rewrite (znext_ok _ _ _ _ Edr). cbn [mbind option_bind]. rewrite (read_next o _ H0o _ _ _ Hchr). cbn [mbind option_bind].
  destruct (merge2_ok junk true s o H0 H0o (fuel s + fuel o) lns (f l) rns (f2 r) lnx rnx true true Hchl Hchr Hssl Hssr Hbl Hbr)
    as (tmp & nl' & nr' & lns' & lvs' & rns' & rvs' & ls' & rs' & E & C1 & C2 & L1 & L2 & Hor & _ & Hu & _ & _ & HL & HR & HLs & HRs).
  { unfold fuel. rewrite <- (seg_length _ _ _ _ _ Hchl), <- (seg_length _ _ _ _ _ Hchr). lia. }
  rewrite E. cbn [mbind option_bind]. destruct (Hu eq_refl) as (Hso & Hmem).
  assert (Hall : Forall (fun v => v < z_end s) (tmp ++ lvs' ++ rvs')).
  { rewrite Forall_forall in *. intros x Hx. apply Hmem in Hx as [?|?]; auto. }
  apply Forall_app in Hall as Hall'. destruct Hall' as (_ & Hlr). apply Forall_app in Hlr as (Hbl' & Hbr').
  destruct (rs' && Nat.eqb (hd (z_end s) rvs') (z_end s)) eqn:Ers.
  { apply andb_true_iff in Ers as (Ers & Ev). apply hd_end in Ev; [|exact Hbr'].
    exists sA, (f l). split; [exact EA|]. split; [exact HZA|]. split; [exact HeA|].
    destruct (HR Ers) as (_ & Hsub). intros x. split; [auto|]. intros [?|Hx]; [auto|]. destruct (Hsub x Hx) as [?|Hy]; [auto|]. rewrite Ev in Hy. apply elem_of_nil in Hy; contradiction. }
  destruct (ls' && Nat.eqb (hd (z_end s) lvs') (z_end s)) eqn:Els.
  { apply andb_true_iff in Els as (Els & Ev). apply hd_end in Ev; [|exact Hbl'].
    exists sB, (f2 r). split; [exact EB|]. split; [exact HZB|]. split; [exact HeB|].
    destruct (HL Els) as (_ & Hsub). intros x. split; [auto|]. intros [Hx|?]; [|auto]. destruct (Hsub x Hx) as [?|Hy]; [auto|]. rewrite Ev in Hy. apply elem_of_nil in Hy; contradiction. }
  pose proof (take_below_ok s (z_end s) (z_end s) H0 ltac:(lia) lns' lvs' (fuel s) nl' 0 [] [] C1 eq_refl Hbl' ltac:(cbn; lia) ltac:(unfold fuel; lia)) as Etl.
  pose proof (take_below_ok o (z_end s) (z_end s) H0o ltac:(lia) rns' rvs' (fuel o) nr' 0 [] [] C2 eq_refl Hbr' ltac:(cbn; lia) ltac:(unfold fuel; lia)) as Etr.
  rewrite app_nil_r in Etl, Etr. rewrite Etl. cbn [mbind option_bind]. rewrite Etr. cbn [mbind option_bind].
  destruct (drop_Z s n f g t HZ Ht) as (s4 & E4 & HZ4 & He4). rewrite E4. cbn [mbind option_bind].
  destruct (build_set_ok junk s4 n (upd f t []) (upd g t []) t (tmp ++ lvs' ++ rvs') HZ4 Ht (upd_eq _ _ _)) as (s5 & E5 & HZ5 & He5).
  { intros Hnil. destruct (f l) as [|w ws] eqn:Ef; [congruence|]. assert (w ∈ tmp ++ lvs' ++ rvs') as Hin by (apply Hmem; left; apply elem_of_cons; auto).
    rewrite Hnil in Hin. apply elem_of_nil in Hin. contradiction. }
  { exact Hso. } { rewrite He4. exact Hall. }
  exists s5, (tmp ++ lvs' ++ rvs'). split; [exact E5|]. split; [|split; [congruence|exact Hmem]].
  eapply Z_ext; [exact HZ5| |]; intros k _; unfold upd; destruct (Nat.eqb_spec k t) as [->|]; reflexivity.
Qed.

Lemma inter_ok s n f g t l other n2 f2 g2 r : Z s n f g -> t < n -> l < n -> OtherOK s n f g other n2 f2 g2 -> r < n2 ->
  g l = [] -> g2 r = [] ->
  exists s' m, z_inter junk s t l r other = Some s' /\ Z s' n (upd f t m) (upd g t []) /\ z_end s' = z_end s /\
    forall x, x ∈ m <-> x ∈ f l /\ x ∈ f2 r.
Proof.
  intros HZ Ht Hl Ho Hr Hgl Hgr. unfold z_inter.
  destruct (other_block _ _ _ _ _ _ _ _ HZ Ho) as (HZo & Heo). set (o := the_other s other) in *.
  pose proof HZ as (Hn & Hp & fl & pl & bl & HI & Hc & Hg).
  pose proof HZo as (Hno & Hpo & flo & plo & blo & HIo & Hco & Hgo).
  destruct (Z_block junk s n f fl pl bl l HI Hn Hc Hl) as (sl & Esl & Hsl). rewrite Esl. cbn [mbind option_bind].
  destruct (Z_block junk o n2 f2 flo plo blo r HIo Hno Hco Hr) as (sr & Esr & Hsr). rewrite Esr. cbn [mbind option_bind].
  assert (HOs : OtherOK s n f g None n f g) by (repeat split).
  destruct (assign_ok junk s n f g t None n f g l HZ Ht HOs Hl Hgl) as (sA & EA & HZA & HeA).
  destruct (assign_ok junk s n f g t other n2 f2 g2 r HZ Ht Ho Hr Hgr) as (sB & EB & HZB & HeB).
  destruct (drop_Z s n f g t HZ Ht) as (s4 & E4 & HZ4 & He4).
  destruct (decide (sl = 0 ∨ sr = 0)) as [H|Hn0].
  { unfold z_clear. exists s4, []. split; [exact E4|]. split; [exact HZ4|]. split; [exact He4|]. intros x. rewrite elem_of_nil.
    split; [tauto|]. intros (H1 & H2). destruct H as [-> | ->].
    - destruct Hsl as [(_ & Hf)|(? & _)]; [|congruence]. rewrite Hf in H1. apply elem_of_nil in H1. contradiction.
    - destruct Hsr as [(_ & Hf)|(? & _)]; [|congruence]. rewrite Hf in H2. apply elem_of_nil in H2. contradiction. }
  destruct Hsl as [(? & _)|(_ & lns & lnx & _ & Edl & Hchl & _ & Hlne & Hssl & Hbl & Hful)]; [tauto|].
  destruct Hsr as [(? & _)|(_ & rns & rnx & _ & Edr & Hchr & _ & Hrne & Hssr & Hbr & Hfur)]; [tauto|].
  pose proof (I_zero _ _ _ _ _ _ _ _ _ _ HI) as H0. pose proof (I_zero _ _ _ _ _ _ _ _ _ _ HIo) as H0o. rewrite Heo in H0o, Hbr.
  rewrite (znext_ok _ _ _ _ Edl). cbn [mbind option_bind]. rewrite (read_next s _ H0 _ _ _ Hchl). cbn [mbind option_bind].
  rewrite (znext_ok _ _ _ _ Edr). cbn [mbind option_bind]. rewrite (read_next o _ H0o _ _ _ Hchr). cbn [mbind option_bind].
  destruct (merge2_ok junk false s o H0 H0o (fuel s + fuel o) lns (f l) rns (f2 r) lnx rnx true true Hchl Hchr Hssl Hssr Hbl Hbr)
    as (tmp & nl' & nr' & lns' & lvs' & rns' & rvs' & ls' & rs' & E & C1 & C2 & L1 & L2 & Hor & Hst & _ & Hi & _ & HL & HR & HLs & HRs).
  { unfold fuel. rewrite <- (seg_length _ _ _ _ _ Hchl), <- (seg_length _ _ _ _ _ Hchr). lia. }
  rewrite E. cbn [mbind option_bind]. specialize (Hi eq_refl).
  assert (Hall : Forall (fun v => v < z_end s) tmp).
  { rewrite Forall_forall in *. intros x Hx. apply Hi in Hx as (? & ?); auto. }
  assert (Hbl' : Forall (fun v => v < z_end s) lvs') by (rewrite Forall_forall in *; auto).
  assert (Hbr' : Forall (fun v => v < z_end s) rvs') by (rewrite Forall_forall in *; auto).
  destruct (ls' && Nat.eqb (hd (z_end s) lvs') (z_end s)) eqn:Els.
  { apply andb_true_iff in Els as (Els & Ev). apply hd_end in Ev; [|exact Hbl'].
    exists sA, (f l). split; [exact EA|]. split; [exact HZA|]. split; [exact HeA|].
    destruct (HL Els) as (_ & Hsub). intros x. split; [|tauto]. intros Hx. split; [exact Hx|]. destruct (Hsub x Hx) as [?|Hy]; [auto|].
    rewrite Ev in Hy. apply elem_of_nil in Hy. contradiction. }
  destruct (rs' && Nat.eqb (hd (z_end s) rvs') (z_end s)) eqn:Ers.
  { apply andb_true_iff in Ers as (Ers & Ev). apply hd_end in Ev; [|exact Hbr'].
    exists sB, (f2 r). split; [exact EB|]. split; [exact HZB|]. split; [exact HeB|].
    destruct (HR Ers) as (_ & Hsub). intros x. split; [|tauto]. intros Hx. split; [|exact Hx]. destruct (Hsub x Hx) as [?|Hy]; [auto|].
    rewrite Ev in Hy. apply elem_of_nil in Hy. contradiction. }
  rewrite E4. cbn [mbind option_bind]. destruct (decide (length tmp = 0)) as [Hlen|Hlen].
  { exists s4, []. split; [reflexivity|]. split; [exact HZ4|]. split; [exact He4|]. destruct tmp; [|discriminate]. exact Hi. }
  destruct (build_set_ok junk s4 n (upd f t []) (upd g t []) t tmp HZ4 Ht (upd_eq _ _ _)) as (s5 & E5 & HZ5 & He5).
  { destruct tmp; [cbn in Hlen; lia|discriminate]. } { exact Hst. } { rewrite He4. exact Hall. }
  exists s5, tmp. split; [exact E5|]. split; [|split; [congruence|exact Hi]].
  eapply Z_ext; [exact HZ5| |]; intros k _; unfold upd; destruct (Nat.eqb_spec k t) as [->|]; reflexivity.
Qed.

(** queries *)
Lemma is_element_ok s n f g i el : Z s n f g -> i < n -> el < z_end s ->
  exists b, z_is_element s i el = Some b /\ (b = true <-> el ∈ f i).
Proof.
  intros HZ Hi Hel. unfold z_is_element. pose proof HZ as (Hn & Hp & fl & pl & bl & HI & Hc & Hg).
  destruct (Z_block junk s n f fl pl bl i HI Hn Hc Hi) as (st & Est & Hst). rewrite Est. cbn [mbind option_bind].
  destruct (decide (st = 0)) as [->|Hst0].
  { destruct Hst as [(_ & Hf)|(? & _)]; [|congruence]. exists false. split; [reflexivity|]. rewrite Hf, elem_of_nil. split; [discriminate|tauto]. }
  destruct Hst as [(? & _)|(_ & ns & nx & Hb & Ed & Hch & Hpos & Hvs & Hss & Hall & Hfu)]; [congruence|].
  rewrite (znext_ok _ _ _ _ Ed). cbn [mbind option_bind]. pose proof (I_zero _ _ _ _ _ _ _ _ _ _ HI) as H0.
  rewrite (read_next s _ H0 _ _ _ Hch). cbn [mbind option_bind].
  destruct (search_split s (z_end s) el ltac:(lia) _ _ _ Hch) as (n1 & n2 & v1 & v2 & r & Hns & Hfv & Hs1 & Hc2 & Hf1 & Hh2).
  rewrite Hfv in *.
  rewrite (find_pos_ok s (z_end s) el H0 ltac:(lia) n1 v1 (fuel s) st nx r n2 v2 Hs1 Hc2 Hf1 Hh2).
  2:{ unfold fuel. rewrite Hns, app_length in Hfu. lia. }
  cbn [mbind option_bind]. eexists. split; [reflexivity|]. rewrite Nat.eqb_eq, elem_of_app.
  apply ss_app in Hss as (_ & Hs2 & _). rewrite Forall_forall in Hf1. split.
  - intros E. right. destruct v2 as [|w v2]; cbn in E; [lia|]. rewrite E. apply elem_of_cons; auto.
  - intros [H|H]; [specialize (Hf1 _ H); lia|].
    destruct v2 as [|w v2]; [apply elem_of_nil in H; contradiction|]. cbn in *. apply elem_of_cons in H as [?|H]; [auto|].
    inversion Hs2 as [|? ? _ Hg2]; subst. rewrite Forall_forall in Hg2. specialize (Hg2 _ H). lia.
Qed.
Lemma number_ok s n f g i : Z s n f g -> i < n -> z_number_elements s i = Some (length (f i)).
Proof.
  intros HZ Hi. unfold z_number_elements. pose proof HZ as (Hn & Hp & fl & pl & bl & HI & Hc & Hg).
  destruct (Z_block junk s n f fl pl bl i HI Hn Hc Hi) as (st & Est & Hst). rewrite Est. cbn [mbind option_bind].
  destruct (decide (st = 0)) as [->|Hst0].
  { destruct Hst as [(_ & Hf)|(? & _)]; [|congruence]. rewrite Hf. reflexivity. }
  destruct Hst as [(? & _)|(_ & ns & nx & Hb & Ed & Hch & Hpos & Hvs & Hss & Hall & Hfu)]; [congruence|].
  rewrite (znext_ok _ _ _ _ Ed). cbn [mbind option_bind]. rewrite (count_list_ok s ns (f i) (fuel s) nx 0 Hch) by (unfold fuel; lia). reflexivity.
Qed.
Lemma iterate_ok s n f g i : Z s n f g -> i < n -> z_iterate s i = Some (f i).
Proof.
  intros HZ Hi. unfold z_iterate, z_begin. pose proof HZ as (Hn & Hp & fl & pl & bl & HI & Hc & Hg).
  destruct (Z_block junk s n f fl pl bl i HI Hn Hc Hi) as (st & Est & Hst). rewrite Est. cbn [mbind option_bind].
  pose proof (I_zero _ _ _ _ _ _ _ _ _ _ HI) as H0.
  destruct (decide (st = 0)) as [->|Hst0].
  { destruct Hst as [(_ & Hf)|(? & _)]; [|congruence]. rewrite Hf. cbn [mbind option_bind z_collect fst fuel]. rewrite decide_True by reflexivity. reflexivity. }
  destruct Hst as [(? & _)|(_ & ns & nx & Hb & Ed & Hch & Hpos & Hvs & Hss & Hall & Hfu)]; [congruence|].
  rewrite (znext_ok _ _ _ _ Ed). cbn [mbind option_bind].
  destruct (chain_read _ _ _ _ _ H0 Hch) as (Hr & _). destruct (z_data s !! nx) as [c|] eqn:Ec; [|discriminate Hr]. cbn [mbind option_bind].
  apply (z_collect_ok s H0 ns (f i) (fuel s) nx Hch Hall ltac:(unfold fuel; lia) c Ec).
Qed.
Lemma resize_ok s n e : n <> 0 -> exists s', z_resize s n e = Some s' /\ Z s' n (fun _ => []) (fun _ => []) /\ z_end s' = e.
Proof.
  intros Hn. unfold z_resize. rewrite decide_False by exact Hn. eexists. split; [reflexivity|]. split; [|reflexivity].
  split; [cbn; apply replicate_length|]. split; [cbn; apply replicate_length|].
  exists [], (replicate n ([], [])), []. split; [|split].
  - constructor; cbn.
    + rewrite !replicate_length. reflexivity.
    + reflexivity.
    + exists []. reflexivity.
    + reflexivity.
    + intros i p ns vs Hp Hpl. apply lookup_replicate in Hp as (-> & _). apply lookup_replicate in Hpl as (Hpl & _). injection Hpl as -> ->.
      split; [reflexivity|constructor].
    + intros st ns vs Hb. apply elem_of_nil in Hb. contradiction.
    + intros st Hin Hst. apply elem_of_replicate in Hin as (-> & _). congruence.
    + intros x. assert (Hr : forall m, pair_cnt x (replicate m ([], [])) = 0).
      { induction m; [reflexivity|]. unfold pair_cnt in *. cbn. exact IHm. }
      rewrite Hr. unfold blk_cnt. cbn. unfold ind, lt1. destruct x; reflexivity.
  - intros i Hi. left. split; [apply lookup_replicate_2; exact Hi|reflexivity].
  - intros i Hi. exists []. apply lookup_replicate_2. exact Hi.
Qed.

(** ** whole histories *)
Lemma ss_unique : forall l1 l2 : list nat, StronglySorted lt l1 -> StronglySorted lt l2 -> (forall x, x ∈ l1 <-> x ∈ l2) -> l1 = l2.
Proof.
  induction l1 as [|a l1 IH]; intros [|b l2] H1 H2 Hm.
  - reflexivity.
  - exfalso. assert (b ∈ ([] : list nat)) as H by (apply Hm, elem_of_cons; auto). apply elem_of_nil in H. contradiction.
  - exfalso. assert (a ∈ ([] : list nat)) as H by (apply Hm, elem_of_cons; auto). apply elem_of_nil in H. contradiction.
  - inversion H1 as [|? ? S1 F1]; inversion H2 as [|? ? S2 F2]; subst. rewrite Forall_forall in F1, F2.
    assert (a = b) as ->.
    { assert (Ha : a ∈ b :: l2) by (apply Hm, elem_of_cons; auto). assert (Hb : b ∈ a :: l1) by (apply Hm, elem_of_cons; auto).
      apply elem_of_cons in Ha as [?|Ha]; [assumption|]. apply elem_of_cons in Hb as [?|Hb]; [congruence|].
      specialize (F1 _ Hb). specialize (F2 _ Ha). lia. }
    f_equal. apply IH; [exact S1|exact S2|]. intros x. specialize (Hm x). rewrite !elem_of_cons in Hm. split; intros Hx.
    + destruct (proj1 Hm (or_intror Hx)) as [->|?]; [|assumption]. specialize (F1 _ Hx). lia.
    + destruct (proj2 Hm (or_intror Hx)) as [->|?]; [|assumption]. specialize (F2 _ Hx). lia.
Qed.
Lemma ss_filter (p : nat -> bool) : forall n a, StronglySorted lt (List.filter p (seq a n)).
Proof.
  induction n as [|n IH]; intros a; [constructor|]. cbn. destruct (p a); [|apply IH]. constructor; [apply IH|].
  apply Forall_forall. intros x Hx. apply elem_of_list_In, filter_In in Hx as (Hx & _). apply in_seq in Hx. lia.
Qed.

Definition rel (c : sz) (v : sv) : Prop :=
  (sv_n v = 0) \/
  (exists f g, Z c (sv_n v) f g /\ z_end c = sv_lim v /\
     (forall i e, i < sv_n v -> sv_mem v i e = true <-> e ∈ f i) /\
     (forall i e, i < sv_n v -> sv_pend v i e = true <-> e ∈ g i)).
Definition R (c : zstore) (s : store) : Prop := forall o, rel (c o) (s o).

Lemma elements_eq c v f g i : Z c (sv_n v) f g -> z_end c = sv_lim v -> i < sv_n v ->
  (forall e, sv_mem v i e = true <-> e ∈ f i) -> elements v i = f i.
Proof.
  intros HZ He Hi Hm. destruct (Z_facts c _ f g i HZ Hi) as (Hs & Hb & _). unfold elements. apply ss_unique; [apply ss_filter|exact Hs|].
  intros x. rewrite elem_of_list_In, filter_In, in_seq, Hm. split; [tauto|]. intros Hx. split; [|exact Hx].
  rewrite Forall_forall in Hb. specialize (Hb x Hx). lia.
Qed.
Lemma no_pend_nil (v : sv) i (l : list nat) : (forall e, sv_pend v i e = true <-> e ∈ l) -> no_pend v i -> l = [].
Proof.
  intros H Hn. destruct l as [|a l]; [reflexivity|]. specialize (Hn a). assert (sv_pend v i a = true) by (apply H, elem_of_cons; auto). congruence.
Qed.
Lemma R_put c s o z v : R c s -> rel z v -> R (zput c o z) (put s o v).
Proof. intros HR Hz k. unfold zput, put. destruct (Nat.eqb k o); auto. Qed.

Lemma rel_upd c v i f g m l p l' : Z c (sv_n v) (upd f i l) (upd g i l') -> z_end c = sv_lim v -> i < sv_n v ->
  (forall i e, i < sv_n v -> sv_mem v i e = true <-> e ∈ f i) -> (forall i e, i < sv_n v -> sv_pend v i e = true <-> e ∈ g i) ->
  (forall e, m e = true <-> e ∈ l) -> (forall e, p e = true <-> e ∈ l') ->
  rel c {| sv_n := sv_n v; sv_lim := sv_lim v; sv_mem := upd_set (sv_mem v) i m; sv_pend := upd_set (sv_pend v) i p |}.
Proof.
  intros HZ He Hi Hm Hp Hml Hpl. right. exists (upd f i l), (upd g i l'). cbn. split; [exact HZ|]. split; [exact He|].
  split; intros k e Hk; unfold upd_set, upd; destruct (Nat.eqb_spec k i) as [->|]; auto.
Qed.

Lemma z_step_sim c s a : R c s -> pre s a ->
  exists c', z_step junk c a = Some (c', snd (spec_step s a)) /\ R c' (fst (spec_step s a)).
Proof.
  intros HR Hpre. destruct a; cbn [z_step spec_step fst snd pre] in *; unfold zupd1.
  - (* Resize *) destruct Hpre as (Hz & Hnz). destruct (decide (n = 0)) as [->|Hn].
    + unfold z_resize. rewrite decide_True by reflexivity. cbn [mbind option_bind]. eexists. split; [reflexivity|].
      apply R_put; [exact HR|]. left. reflexivity.
    + destruct (resize_ok (c o) n lim Hn) as (s' & E & HZ & He). rewrite E. cbn [mbind option_bind]. eexists. split; [reflexivity|].
      apply R_put; [exact HR|]. right. exists (fun _ => []), (fun _ => []). cbn. split; [exact HZ|]. split; [exact He|].
      split; intros i e _; unfold empty_set; rewrite elem_of_nil; split; [discriminate|tauto|discriminate|tauto].
  - (* Add *) destruct Hpre as (Hi & He). destruct (HR o) as [H0|(f & g & HZ & Hend & Hm & Hp)]; [lia|].
    destruct (z_add_ok junk (c o) _ f g i e HZ Hi ltac:(lia)) as (s' & l & E & HZ' & He' & Hl). rewrite E. cbn [mbind option_bind].
    eexists. split; [reflexivity|]. apply R_put; [exact HR|]. right. exists (upd f i l), g. cbn. split; [exact HZ'|]. split; [congruence|].
    split; [|exact Hp]. intros k x Hk. unfold upd_set, upd. destruct (Nat.eqb_spec k i) as [->|]; [|auto].
    rewrite Hl, orb_true_iff, Nat.eqb_eq, Hm by exact Hi. reflexivity.
  - (* Post *) destruct Hpre as (Hi & He). destruct (HR o) as [H0|(f & g & HZ & Hend & Hm & Hp)]; [lia|].
    destruct (z_post_ok junk (c o) _ f g i e HZ Hi ltac:(lia)) as (s' & E & HZ' & He'). rewrite E. cbn [mbind option_bind].
    eexists. split; [reflexivity|]. apply R_put; [exact HR|]. right. exists f, (upd g i (e :: g i)). cbn. split; [exact HZ'|]. split; [congruence|].
    split; [exact Hm|]. intros k x Hk. unfold upd_set, upd. destruct (Nat.eqb_spec k i) as [->|]; [|auto].
    rewrite elem_of_cons, orb_true_iff, Nat.eqb_eq, Hp by exact Hi. reflexivity.
  - (* Process *) destruct (HR o) as [H0|(f & g & HZ & Hend & Hm & Hp)]; [lia|].
    destruct (z_process_ok junk (c o) _ f g i HZ Hpre) as (s' & l & E & HZ' & He' & Hl). rewrite E. cbn [mbind option_bind].
    eexists. split; [reflexivity|]. apply R_put; [exact HR|]. eapply rel_upd; [exact HZ'|congruence|exact Hpre|exact Hm|exact Hp| |].
    + intros e. rewrite Hl, orb_true_iff, Hm, Hp by exact Hpre. reflexivity.
    + intros e. unfold empty_set. rewrite elem_of_nil. split; [discriminate|tauto].
  - (* Clear *) destruct (HR o) as [H0|(f & g & HZ & Hend & Hm & Hp)]; [lia|].
    destruct (drop_Z (c o) _ f g i HZ Hpre) as (s' & E & HZ' & He'). unfold z_clear. rewrite E. cbn [mbind option_bind].
    eexists. split; [reflexivity|]. apply R_put; [exact HR|]. eapply rel_upd; [exact HZ'|congruence|exact Hpre|exact Hm|exact Hp| |];
      intros e; unfold empty_set; rewrite elem_of_nil; (split; [discriminate|tauto]).
  - (* Assign *) rename s0 into x. destruct Hpre as (Ht & Hx & Hlim & Hnp).
    destruct (HR o) as [H0|(f & g & HZ & Hend & Hm & Hp)]; [lia|].
    destruct (HR o2) as [H0|(f2 & g2 & HZ2 & Hend2 & Hm2 & Hp2)]; [lia|].
    assert (HO : exists n2 f3 g3, OtherOK (c o) (sv_n (s o)) f g (zother c o o2) n2 f3 g3 /\ x < n2 /\ g3 x = [] /\ forall e, sv_mem (s o2) x e = true <-> e ∈ f3 x).
    { unfold zother. destruct (Nat.eqb_spec o o2) as [->|Hne].
      - exists (sv_n (s o2)), f, g. split; [repeat split|]. split; [exact Hx|]. split; [eapply no_pend_nil; [|exact Hnp]; auto|auto].
      - exists (sv_n (s o2)), f2, g2. split; [split; [exact HZ2|congruence]|]. split; [exact Hx|]. split; [eapply no_pend_nil; [|exact Hnp]; auto|auto]. }
    destruct HO as (n2 & f3 & g3 & HO & Hx3 & Hg3 & Hm3).
    destruct (assign_ok junk (c o) _ f g t (zother c o o2) n2 f3 g3 x HZ Ht HO Hx3 Hg3) as (s' & E & HZ' & He'). rewrite E. cbn [mbind option_bind].
    eexists. split; [reflexivity|]. apply R_put; [exact HR|]. eapply rel_upd; [exact HZ'|congruence|exact Ht|exact Hm|exact Hp|exact Hm3|].
    intros e; unfold empty_set; rewrite elem_of_nil; (split; [discriminate|tauto]).
  - (* Union *) destruct Hpre as (Ht & Hl & Hx & Hlim & Hnl & Hnp).
    destruct (HR o) as [H0|(f & g & HZ & Hend & Hm & Hp)]; [lia|].
    destruct (HR o2) as [H0|(f2 & g2 & HZ2 & Hend2 & Hm2 & Hp2)]; [lia|].
    assert (HO : exists n2 f3 g3, OtherOK (c o) (sv_n (s o)) f g (zother c o o2) n2 f3 g3 /\ r < n2 /\ g3 r = [] /\ forall e, sv_mem (s o2) r e = true <-> e ∈ f3 r).
    { unfold zother. destruct (Nat.eqb_spec o o2) as [->|Hne].
      - exists (sv_n (s o2)), f, g. split; [repeat split|]. split; [exact Hx|]. split; [eapply no_pend_nil; [|exact Hnp]; auto|auto].
      - exists (sv_n (s o2)), f2, g2. split; [split; [exact HZ2|congruence]|]. split; [exact Hx|]. split; [eapply no_pend_nil; [|exact Hnp]; auto|auto]. }
    destruct HO as (n2 & f3 & g3 & HO & Hx3 & Hg3 & Hm3).
    assert (Hgl : g l = []) by (eapply no_pend_nil; [|exact Hnl]; auto).
    destruct (union_ok (c o) _ f g t l (zother c o o2) n2 f3 g3 r HZ Ht Hl HO Hx3 Hgl Hg3) as (s' & m & E & HZ' & He' & Hmm). rewrite E. cbn [mbind option_bind].
    eexists. split; [reflexivity|]. apply R_put; [exact HR|]. eapply rel_upd; [exact HZ'|congruence|exact Ht|exact Hm|exact Hp| |].
    + intros e. rewrite orb_true_iff, Hmm, Hm, Hm3 by exact Hl. reflexivity.
    + intros e; unfold empty_set; rewrite elem_of_nil; (split; [discriminate|tauto]).
  - (* Inter *) destruct Hpre as (Ht & Hl & Hx & Hlim & Hnl & Hnp).
    destruct (HR o) as [H0|(f & g & HZ & Hend & Hm & Hp)]; [lia|].
    destruct (HR o2) as [H0|(f2 & g2 & HZ2 & Hend2 & Hm2 & Hp2)]; [lia|].
    assert (HO : exists n2 f3 g3, OtherOK (c o) (sv_n (s o)) f g (zother c o o2) n2 f3 g3 /\ r < n2 /\ g3 r = [] /\ forall e, sv_mem (s o2) r e = true <-> e ∈ f3 r).
    { unfold zother. destruct (Nat.eqb_spec o o2) as [->|Hne].
      - exists (sv_n (s o2)), f, g. split; [repeat split|]. split; [exact Hx|]. split; [eapply no_pend_nil; [|exact Hnp]; auto|auto].
      - exists (sv_n (s o2)), f2, g2. split; [split; [exact HZ2|congruence]|]. split; [exact Hx|]. split; [eapply no_pend_nil; [|exact Hnp]; auto|auto]. }
    destruct HO as (n2 & f3 & g3 & HO & Hx3 & Hg3 & Hm3).
    assert (Hgl : g l = []) by (eapply no_pend_nil; [|exact Hnl]; auto).
    destruct (inter_ok (c o) _ f g t l (zother c o o2) n2 f3 g3 r HZ Ht Hl HO Hx3 Hgl Hg3) as (s' & m & E & HZ' & He' & Hmm). rewrite E. cbn [mbind option_bind].
    eexists. split; [reflexivity|]. apply R_put; [exact HR|]. eapply rel_upd; [exact HZ'|congruence|exact Ht|exact Hm|exact Hp| |].
    + intros e. rewrite andb_true_iff, Hmm, Hm, Hm3 by exact Hl. reflexivity.
    + intros e; unfold empty_set; rewrite elem_of_nil; (split; [discriminate|tauto]).
  - (* CopyVec *) eexists. split; [reflexivity|]. apply R_put; [exact HR|apply HR].
  - (* SwapVec *) eexists. split; [reflexivity|]. apply R_put; [apply R_put; [exact HR|apply HR]|apply HR].
  - (* IsElem *) destruct Hpre as (Hi & He & Hnp). destruct (HR o) as [H0|(f & g & HZ & Hend & Hm & Hp)]; [lia|].
    destruct (is_element_ok (c o) _ f g i e HZ Hi ltac:(lia)) as (b & E & Hb). rewrite E. cbn [mbind option_bind]. eexists. split; [|exact HR].
    f_equal. f_equal. f_equal. apply eq_true_iff_eq. rewrite Hb, Hm by exact Hi. reflexivity.
  - (* Count *) destruct Hpre as (Hi & Hnp). destruct (HR o) as [H0|(f & g & HZ & Hend & Hm & Hp)]; [lia|].
    rewrite (number_ok (c o) _ f g i HZ Hi). cbn [mbind option_bind]. eexists. split; [|exact HR].
    rewrite (elements_eq (c o) (s o) f g i HZ Hend Hi) by auto. reflexivity.
  - (* Iterate *) destruct Hpre as (Hi & Hnp). destruct (HR o) as [H0|(f & g & HZ & Hend & Hm & Hp)]; [lia|].
    rewrite (iterate_ok (c o) _ f g i HZ Hi). cbn [mbind option_bind]. eexists. split; [|exact HR].
    rewrite (elements_eq (c o) (s o) f g i HZ Hend Hi) by auto. reflexivity.
Qed.

Lemma size_refines : forall l, all_pre init_store l -> impl_run (z_step junk) z_init_store l = Some (spec_run init_store l).
Proof.
  intros l Hl. apply (run_refines (z_step junk) R (fun _ _ => True)); [|intros o; left; reflexivity|exact Hl|].
  - intros c s a HR Hp _. apply z_step_sim; assumption.
  - clear Hl. generalize init_store. induction l as [|a l IH]; intros s; [exact I|]. split; [exact I|apply IH].
Qed.
End Ops6.
