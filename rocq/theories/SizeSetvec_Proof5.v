(** Proofs about the linked-list set vector, part 5: assignment, union,
    intersection, queries and whole histories. *)
From stdpp Require Import list numbers option sorting.
From Coq Require Import Lia.
From Verif Require Import SetVec_Spec SizeSetvec_Model SizeSetvec_Proof SizeSetvec_Proof2 SizeSetvec_Proof3 SizeSetvec_Proof4.

Section Ops5.
Variable junk : nat * nat.
Notation get_data_index := (get_data_index junk).
Notation build := (build junk).

Lemma cnt_snoc x l a : cnt x (l ++ [a]) = cnt x l + ind x a.
Proof. rewrite cnt_app. cbn. lia. Qed.

Lemma content_mono_at bl gs gs' i i' vs : Content bl gs i vs -> gs' !! i' = gs !! i -> Content bl gs' i' vs.
Proof.
  intros [(E & ->)|(st & ns & E & Hne & Hb)] Hg; [left; rewrite Hg; auto|right]. exists st, ns. rewrite Hg. auto.
Qed.

Lemma assign_same_ok s n f g t src : Z s n f g -> t < n -> src < n -> g src = [] ->
  exists s', z_assignment junk s t src None = Some s' /\ Z s' n (upd f t (f src)) (upd g t []) /\ z_end s' = z_end s.
Proof.
  intros HZ Ht Hsrc Hgs. unfold z_assignment. destruct (decide (t = src)) as [->|Hne].
  { exists s. split; [reflexivity|]. split; [|reflexivity].
    eapply Z_ext; [exact HZ| |]; intros k _; unfold upd; destruct (Nat.eqb_spec k src) as [->|]; congruence. }
  pose proof HZ as (Hn & Hp & fl & pl & bl & HI & Hc & Hg).
  destruct (Z_block junk s n f fl pl bl src HI Hn Hc Hsrc) as (os & Eos & Hos). rewrite Eos. cbn [mbind option_bind].
  assert (Hinc : exists s1, (if decide (os = 0) then Some s else v ← zval s os; set_val s os (S v)) = Some s1 /\
      z_end s1 = z_end s /\ z_start s1 = z_start s /\ Zx s1 n (upd f n (f src)) g [os] []).
  { assert (Hcon : forall k, k < n + 1 -> Content bl (z_start s ++ [os]) k (upd f n (f src) k)).
    { intros k Hk. unfold upd. destruct (Nat.eqb_spec k n) as [->|Hkn].
      - destruct (Hc src Hsrc) as [(E & Hf)|(st & ns & E & Hs0 & Hb)].
        + left. split; [|exact Hf]. rewrite lookup_app_r by lia. rewrite Hn, Nat.sub_diag. cbn. congruence.
        + right. exists st, ns. split; [|auto]. rewrite lookup_app_r by lia. rewrite Hn, Nat.sub_diag. cbn. congruence.
      - eapply content_mono; [apply Hc; lia|auto|]. apply lookup_app_l. lia. }
    destruct (decide (os = 0)) as [->|Hos0].
    - exists s. split; [reflexivity|]. split; [reflexivity|]. split; [reflexivity|]. split; [exact Hn|]. split; [exact Hp|].
      exists fl, pl, bl. split; [|split; [exact Hcon|exact Hg]]. unfold zinv. eapply inv_gs; [exact HI|].
      intros x Hx. rewrite cnt_snoc, (ind_ne x 0) by exact Hx. lia.
    - destruct Hos as [(? & _)|(_ & ns & nx & Hb & Ed & Hch & Hpos & _)]; [congruence|].
      rewrite (zval_ok _ _ _ _ Ed). cbn [mbind option_bind]. rewrite (set_val_ok s os _ _ Ed). cbn [snd].
      eexists. split; [reflexivity|]. split; [reflexivity|]. split; [reflexivity|]. split; [exact Hn|]. split; [exact Hp|].
      exists fl, pl, bl. split; [|split; [exact Hcon|exact Hg]]. unfold zinv. cbn.
      assert (Hcn : cnt os (z_start s ++ [os]) = S (cnt os (z_start s))) by (rewrite cnt_snoc, ind_refl; lia).
      rewrite <- Hcn. eapply inv_setref; [exact HI|exact Hb|exact Ed| |lia].
      intros x Hx Hxo. rewrite cnt_snoc, (ind_ne x os) by exact Hxo. lia. }
  destruct Hinc as (s1 & E1 & He1 & Hs1 & HZ1). rewrite E1. cbn [mbind option_bind].
  destruct (drop_ok s1 n _ g [os] [] t HZ1 Ht) as (s2 & E2 & HZ2 & He2 & Hst2 & _). rewrite E2. cbn [mbind option_bind].
  unfold set_start. rewrite Hst2. cbn [mbind option_bind]. eexists. split; [reflexivity|]. split; [|cbn; congruence].
  destruct HZ2 as (Hn2 & Hp2 & fl2 & pl2 & bl2 & HI2 & Hc2 & Hg2).
  split; [cbn; rewrite insert_length; exact Hn2|]. split; [exact Hp2|]. exists fl2, pl2, bl2. split; [|split; [|exact Hg2]].
  - unfold zinv. cbn. eapply inv_gs; [exact HI2|]. intros x Hx. rewrite cnt_snoc.
    pose proof (cnt_insert x (z_start s2) t 0 os Hst2) as Hq. rewrite (ind_ne x 0) in Hq by exact Hx. lia.
  - intros k Hk. cbn. unfold upd. destruct (Nat.eqb_spec k t) as [->|Hkt].
    + specialize (Hc2 n ltac:(cbn; lia)). unfold upd in Hc2. rewrite Nat.eqb_refl in Hc2.
      destruct (Nat.eqb_spec n t) as [->|_]; [lia|].
      assert (Hlk : (z_start s2 ++ [os]) !! n = Some os) by (rewrite lookup_app_r, Hn2, Nat.sub_diag by lia; reflexivity).
      eapply content_mono_at; [exact Hc2|]. rewrite list_lookup_insert by lia. symmetry. exact Hlk.
    + specialize (Hc2 k ltac:(cbn; lia)). unfold upd in Hc2. destruct (Nat.eqb_spec k t); [congruence|].
      destruct (Nat.eqb_spec k n); [lia|]. eapply content_mono; [exact Hc2|auto|].
      rewrite list_lookup_insert_ne by congruence. rewrite lookup_app_l by lia. reflexivity.
Qed.

Lemma copy_list_eq o : forall r ns f s tn next v, chain (z_data o) next ns (v :: r) -> length ns <= f ->
  copy_list junk f s o tn next = s' ← set_val s tn v; build s' tn r.
Proof.
  induction r as [|w r IH]; intros ns f s tn next v Hch Hl; destruct ns as [|a ns]; try contradiction Hch;
    destruct Hch as (-> & Ha & nn & Ea & Hch); destruct f as [|f]; try (cbn in Hl; lia); cbn [copy_list];
    rewrite decide_False by exact Ha; rewrite (zval_ok _ _ _ _ Ea); cbn [mbind option_bind];
    (destruct (set_val s tn v) as [s1|]; [|reflexivity]); cbn [mbind option_bind];
    rewrite (znext_ok _ _ _ _ Ea); cbn [mbind option_bind].
  - destruct ns; [|contradiction Hch]. cbn in Hch. subst nn. rewrite decide_True by reflexivity.
    cbn [SizeSetvec_Model.build]. destruct (set_next s1 tn 0) as [s2|]; [|reflexivity]. cbn [mbind option_bind].
    destruct f; cbn [copy_list]; rewrite decide_True by reflexivity; reflexivity.
  - assert (nn <> 0) by (destruct ns; [contradiction Hch|]; destruct Hch as (-> & ? & _); assumption).
    rewrite decide_False by assumption. cbn [SizeSetvec_Model.build]. unfold SizeSetvec_Model.push_new.
    destruct (get_data_index s1) as [[x s2]|]; [|reflexivity]. cbn [mbind option_bind].
    destruct (set_next s2 tn x) as [s3|]; [|reflexivity]. cbn [mbind option_bind].
    rewrite (IH ns f s3 x nn w Hch) by (cbn in Hl; lia). destruct (set_val s3 x w); reflexivity.
Qed.

Lemma assign_other_ok s n f g t o n2 f2 g2 src : Z s n f g -> t < n -> Z o n2 f2 g2 -> src < n2 -> z_end o = z_end s ->
  exists s', z_assignment junk s t src (Some o) = Some s' /\ Z s' n (upd f t (f2 src)) (upd g t []) /\ z_end s' = z_end s.
Proof.
  intros HZ Ht HZo Hsrc Hend. unfold z_assignment.
  pose proof HZo as (Hno & Hpo & flo & plo & blo & HIo & Hco & Hgo).
  destruct (Z_block junk o n2 f2 flo plo blo src HIo Hno Hco Hsrc) as (os & Eos & Hos). rewrite Eos. cbn [mbind option_bind].
  destruct (decide (os = 0)) as [->|Hos0].
  - cbn [mbind option_bind]. destruct Hos as [(_ & Hf)|(? & _)]; [|congruence].
    apply Z_Zx in HZ. destruct (drop_ok s n f g [] [] t HZ Ht) as (s2 & E2 & HZ2 & He2 & Hst2 & _). rewrite E2. cbn [mbind option_bind].
    unfold set_start. rewrite Hst2. cbn [mbind option_bind]. eexists. split; [reflexivity|]. split; [|exact He2].
    rewrite Hf. apply Z_Zx. rewrite list_insert_id by exact Hst2. destruct s2; exact HZ2.
  - destruct Hos as [(? & _)|(_ & nso & nxo & Hbo & Edo & Hcho & _ & Hvne & Hsso & Hallo & Hfuo)]; [congruence|].
    pose proof HZ as (Hn & Hp & fl & pl & bl & HI & Hc & Hg).
    destruct (get_ok junk s _ fl pl bl [] HI) as (x1 & s1 & fl1 & E1 & (S1a & S1b & S1c) & I1 & L1 & F1 & _ & X1 & Fl1).
    rewrite E1. cbn [mbind option_bind].
    destruct (get_ok junk s1 _ fl1 pl bl [x1] I1) as (x2 & s2 & fl2 & E2 & (S2a & S2b & S2c) & I2 & L2 & F2 & _ & X2 & Fl2).
    rewrite E2. cbn [mbind option_bind].
    assert (O1 : 0 < cnt x1 [x2; x1]) by (cbn; rewrite ind_refl; lia).
    assert (O2 : 0 < cnt x2 [x2; x1]) by (cbn; rewrite ind_refl; lia).
    assert (Hx12 : x2 <> x1). { intros ->. pose proof (own_sep I2 x1 O1) as H. cbn in H. rewrite ind_refl in H. lia. }
    destruct (lookup_lt_is_Some_2 (z_data s2) x1 (own_lt I2 _ O1)) as ([v1 m1] & Ex1).
    rewrite (set_val_ok s2 x1 1 _ Ex1). cbn [mbind option_bind snd].
    set (s3 := with_data s2 (<[x1:=(1, m1)]> (z_data s2))).
    assert (I3 : zinv s3 (z_start s) fl2 pl bl [x2; x1]) by (unfold zinv, s3; cbn; apply (inv_own_upd I2); exact O1).
    assert (Ex3 : z_data s3 !! x1 = Some (1, m1)) by (cbn; apply list_lookup_insert; exact (own_lt I2 _ O1)).
    rewrite (set_next_ok s3 x1 x2 _ Ex3). cbn [mbind option_bind fst].
    set (s4 := with_data s3 (<[x1:=(1, x2)]> (z_data s3))).
    assert (I4 : zinv s4 (z_start s) fl2 pl bl [x2; x1]) by (unfold zinv, s4; cbn; apply (inv_own_upd I3); exact O1).
    assert (Ex4 : z_data s4 !! x1 = Some (1, x2)) by (cbn; apply list_lookup_insert; exact (own_lt I3 _ O1)).
    rewrite (znext_ok _ _ _ _ Edo). cbn [mbind option_bind].
    destruct (f2 src) as [|w r] eqn:Ef2; [congruence|].
    rewrite (copy_list_eq o r nso (fuel o) s4 x2 nxo w Hcho) by (unfold fuel; lia).
    destruct (lookup_lt_is_Some_2 (z_data s4) x2 (own_lt I4 _ O2)) as ([v2 m2] & Ex5).
    rewrite (set_val_ok s4 x2 w _ Ex5). cbn [mbind option_bind snd].
    set (s5 := with_data s4 (<[x2:=(w, m2)]> (z_data s4))).
    assert (I5 : zinv s5 (z_start s) fl2 pl bl [x2; x1]) by (unfold zinv, s5; cbn; apply (inv_own_upd I4); exact O2).
    assert (Ex6 : z_data s5 !! x2 = Some (w, m2)) by (cbn; apply list_lookup_insert; exact (own_lt I4 _ O2)).
    destruct (build_ok junk r s5 _ fl2 pl bl _ x2 w m2 I5 O2 Ex6) as (s6 & fl6 & m & nx & E6 & (S6a & S6b & S6c) & I6 & Ex7 & C6 & F6).
    rewrite E6. cbn [mbind option_bind].
    assert (Hst6 : z_start s6 = z_start s) by (rewrite S6b; cbn; rewrite S2b, S1b; reflexivity).
    assert (Hpo6 : z_post s6 = z_post s) by (rewrite S6c; cbn; rewrite S2c, S1c; reflexivity).
    assert (Hen6 : z_end s6 = z_end s) by (rewrite S6a; cbn; rewrite S2a, S1a; reflexivity).
    set (own := x1 :: x2 :: m).
    assert (HZ6 : Zx s6 n f g [] own).
    { split; [rewrite Hst6; exact Hn|]. split; [rewrite Hpo6; exact Hp|]. exists fl6, pl, bl. rewrite Hst6, app_nil_r. split; [|split; [|exact Hg]].
      - unfold zinv. eapply inv_perm; [exact I6|]. intros x. rewrite cnt_app. unfold own. cbn. lia.
      - intros k Hk. apply Hc. cbn in Hk. lia. }
    destruct (drop_ok s6 n f g [] own t HZ6 Ht) as (s7 & E7 & HZ7 & He7 & Hst7 & Hfr7). rewrite E7. cbn [mbind option_bind].
    unfold set_start. rewrite Hst7. cbn [mbind option_bind]. eexists. split; [reflexivity|]. split; [|cbn; congruence].
    assert (Hx1_6 : z_data s6 !! x1 = Some (1, x2)).
    { destruct F6 as (_ & F6). rewrite F6.
      - cbn. rewrite list_lookup_insert_ne by congruence. exact Ex4.
      - apply (own_lt I5 _ O1).
      - apply (own_sep I5 _ O1).
      - congruence. }
    destruct HZ7 as (Hn7 & Hp7 & fl7 & pl7 & bl7 & HI7 & Hc7 & Hg7). rewrite app_nil_r in *.
    split; [cbn; rewrite insert_length; exact Hn7|]. split; [exact Hp7|].
    exists fl7, pl7, ((x1, (x2 :: m, w :: r)) :: bl7).
    assert (Hown : forall y, y ∈ own -> z_data s7 !! y = z_data s6 !! y) by (intros y Hy; apply Hfr7, cnt_in, Hy).
    split; [|split; [|exact Hg7]].
    + unfold zinv. cbn. eapply inv_add_block; [exact HI7| |exact Hst7| | |discriminate|exact Hsso|rewrite He7, Hen6, <- Hend; exact Hallo].
      * intros y. unfold own. cbn. lia.
      * rewrite Hown by (unfold own; apply elem_of_cons; auto). exact Hx1_6.
      * split; [reflexivity|]. split; [apply (own_ne0 I5 _ O2)|]. exists nx.
        split; [rewrite Hown by (unfold own; rewrite !elem_of_cons; auto); exact Ex7|].
        eapply seg_frame; [|exact C6]. intros y Hy. apply Hown. unfold own. rewrite !elem_of_cons. auto.
    + intros k Hk. cbn. unfold upd. destruct (Nat.eqb_spec k t) as [->|Hne].
      * right. exists x1, (x2 :: m). split; [apply list_lookup_insert; lia|]. split; [apply (own_ne0 I5 _ O1)|apply elem_of_cons; auto].
      * specialize (Hc7 k ltac:(cbn; lia)). unfold upd in Hc7. destruct (Nat.eqb_spec k t); [congruence|].
        eapply content_mono; [exact Hc7| |apply list_lookup_insert_ne; congruence]. intros. apply elem_of_cons; auto.
Qed.

(** the other argument of a binary operation *)
Definition OtherOK (s : sz) (n : nat) (f g : nat -> list nat) (other : option sz) (n2 : nat) (f2 g2 : nat -> list nat) : Prop :=
  match other with
  | None => n2 = n /\ f2 = f /\ g2 = g
  | Some o => Z o n2 f2 g2 /\ z_end o = z_end s
  end.
Lemma assign_ok s n f g t other n2 f2 g2 src : Z s n f g -> t < n -> OtherOK s n f g other n2 f2 g2 -> src < n2 -> g2 src = [] ->
  exists s', z_assignment junk s t src other = Some s' /\ Z s' n (upd f t (f2 src)) (upd g t []) /\ z_end s' = z_end s.
Proof.
  intros HZ Ht Ho Hs Hg. destruct other as [o|]; cbn in Ho.
  - destruct Ho as (Ho & He). eapply assign_other_ok; eauto.
  - destruct Ho as (-> & -> & ->). eapply assign_same_ok; eauto.
Qed.

(** the merge loop of union and intersection *)
Lemma merge2_ok u s o : z_data s !! 0 = Some (z_end s, 0) -> z_data o !! 0 = Some (z_end s, 0) ->
  forall f lns lvs rns rvs nl nr ls rs,
  chain (z_data s) nl lns lvs -> chain (z_data o) nr rns rvs -> StronglySorted lt lvs -> StronglySorted lt rvs ->
  Forall (fun v => v < z_end s) lvs -> Forall (fun v => v < z_end s) rvs -> length lvs + length rvs <= f ->
  exists tmp nl' nr' lns' lvs' rns' rvs' ls' rs',
    merge2 u f s o nl (hd (z_end s) lvs) nr (hd (z_end s) rvs) ls rs = Some (tmp, nl', hd (z_end s) lvs', nr', hd (z_end s) rvs', ls', rs') /\
    chain (z_data s) nl' lns' lvs' /\ chain (z_data o) nr' rns' rvs' /\ length lns' <= length lns /\ length rns' <= length rns /\
    (lvs' = [] \/ rvs' = []) /\ StronglySorted lt tmp /\
    (u = true -> StronglySorted lt (tmp ++ lvs' ++ rvs') /\ forall x, x ∈ tmp ++ lvs' ++ rvs' <-> x ∈ lvs \/ x ∈ rvs) /\
    (u = false -> forall x, x ∈ tmp <-> x ∈ lvs /\ x ∈ rvs) /\
    (forall x, x ∈ tmp -> x ∈ lvs \/ x ∈ rvs) /\
    (ls' = true -> ls = true /\ forall x, x ∈ lvs -> x ∈ rvs \/ x ∈ lvs') /\
    (rs' = true -> rs = true /\ forall x, x ∈ rvs -> x ∈ lvs \/ x ∈ rvs') /\
    (forall x, x ∈ lvs' -> x ∈ lvs) /\ (forall x, x ∈ rvs' -> x ∈ rvs).
Proof.
  intros H0 H0o. induction f as [|f IH]; intros lns lvs rns rvs nl nr ls rs Hcl Hcr Hsl Hsr Hbl Hbr Hf.
  - destruct lvs; [|cbn in Hf; lia]. destruct rvs; [|cbn in Hf; lia]. cbn [merge2 hd]. rewrite decide_False by lia.
    exists [], nl, nr, lns, [], rns, [], ls, rs. split; [reflexivity|]. split; [exact Hcl|]. split; [exact Hcr|].
    split; [lia|]. split; [lia|]. split; [auto|]. split; [constructor|]. cbn.
    split; [intros _; split; [constructor|]; intros x; rewrite elem_of_nil; tauto|].
    split; [intros _ x; rewrite elem_of_nil; tauto|]. split; [auto|]. split; [auto|]. split; [auto|]. split; auto.
  - cbn [merge2].
    assert (Hstop : lvs = [] \/ rvs = [] -> exists tmp nl' nr' lns' lvs' rns' rvs' ls' rs',
      Some ([], nl, hd (z_end s) lvs, nr, hd (z_end s) rvs, ls, rs) = Some (tmp, nl', hd (z_end s) lvs', nr', hd (z_end s) rvs', ls', rs') /\
    chain (z_data s) nl' lns' lvs' /\ chain (z_data o) nr' rns' rvs' /\ length lns' <= length lns /\ length rns' <= length rns /\
    (lvs' = [] \/ rvs' = []) /\ StronglySorted lt tmp /\
    (u = true -> StronglySorted lt (tmp ++ lvs' ++ rvs') /\ forall x, x ∈ tmp ++ lvs' ++ rvs' <-> x ∈ lvs \/ x ∈ rvs) /\
    (u = false -> forall x, x ∈ tmp <-> x ∈ lvs /\ x ∈ rvs) /\
    (forall x, x ∈ tmp -> x ∈ lvs \/ x ∈ rvs) /\
    (ls' = true -> ls = true /\ forall x, x ∈ lvs -> x ∈ rvs \/ x ∈ lvs') /\
    (rs' = true -> rs = true /\ forall x, x ∈ rvs -> x ∈ lvs \/ x ∈ rvs') /\
    (forall x, x ∈ lvs' -> x ∈ lvs) /\ (forall x, x ∈ rvs' -> x ∈ rvs)).
    { intros Hor. exists [], nl, nr, lns, lvs, rns, rvs, ls, rs. split; [reflexivity|]. split; [exact Hcl|]. split; [exact Hcr|].
      split; [lia|]. split; [lia|]. split; [exact Hor|]. split; [constructor|]. cbn.
      split; [intros _; split|].
      - destruct Hor as [-> | ->]; [exact Hsr|rewrite app_nil_r; exact Hsl].
      - intros x. rewrite elem_of_app. tauto.
      - split; [intros _ x; rewrite elem_of_nil; destruct Hor as [-> | ->]; rewrite elem_of_nil; tauto|].
        split; [intros x Hx; apply elem_of_nil in Hx; contradiction|]. split; [auto|]. split; [auto|]. split; auto. }
    destruct lvs as [|lv lvs]; [cbn [hd]; rewrite decide_False by lia; apply Hstop; auto|].
    destruct rvs as [|rv rvs]; [cbn [hd]; rewrite decide_False by lia; apply Hstop; auto|].
    clear Hstop. apply Forall_cons in Hbl as (Hlv & Hbl'). apply Forall_cons in Hbr as (Hrv & Hbr'). cbn [hd].
    rewrite decide_True by auto.
    destruct lns as [|a lns]; [contradiction Hcl|]. destruct rns as [|b rns]; [contradiction Hcr|].
    pose proof Hcl as (Ea & Ha & an & Ean & Hcl'). pose proof Hcr as (Eb & Hb & bn & Ebn & Hcr').
    inversion Hsl as [|? ? Hsl' Hgl]; subst. inversion Hsr as [|? ? Hsr' Hgr]; subst.
    assert (Hbl : Forall (fun v => v < z_end s) (lv :: lvs)) by (constructor; assumption).
    assert (Hbr : Forall (fun v => v < z_end s) (rv :: rvs)) by (constructor; assumption).
    rewrite Forall_forall in Hgl, Hgr. cbn [length] in Hf.
    destruct (decide (lv = rv)) as [->|Hne].
    + rewrite (znext_ok _ _ _ _ Ean). cbn [mbind option_bind]. rewrite (read_next s _ H0 _ _ _ Hcl'). cbn [mbind option_bind].
      rewrite (znext_ok _ _ _ _ Ebn). cbn [mbind option_bind]. rewrite (read_next o _ H0o _ _ _ Hcr'). cbn [mbind option_bind].
      destruct (IH lns lvs rns rvs an bn ls rs Hcl' Hcr' Hsl' Hsr' Hbl' Hbr' ltac:(lia)) as (tmp & nl' & nr' & lns' & lvs' & rns' & rvs' & ls' & rs' & E & C1 & C2 & L1 & L2 & Hor & Hst & Hu & Hi & Hsub & Hl & Hr & Hls & Hrs).
      rewrite E. cbn [mbind option_bind]. exists (rv :: tmp), nl', nr', lns', lvs', rns', rvs', ls', rs'.
      split; [reflexivity|]. split; [exact C1|]. split; [exact C2|]. split; [cbn; lia|]. split; [cbn; lia|]. split; [exact Hor|].
      split; [constructor; [exact Hst|]; apply Forall_forall; intros x Hx; apply Hsub in Hx as [?|?]; auto|].
      split; [|split; [|split; [|split; [|split; [|split]]]]].
      * intros Hut. destruct (Hu Hut) as (Hs1 & Hm1). cbn [app]. split.
        -- constructor; [exact Hs1|]. apply Forall_forall. intros x Hx. apply Hm1 in Hx as [?|?]; auto.
        -- intros x. rewrite !elem_of_cons, Hm1. tauto.
      * intros Huf x. rewrite !elem_of_cons, (Hi Huf). split; [tauto|]. intros ([?|H1] & [?|H2]); auto; subst.
      * intros x. rewrite !elem_of_cons. intros [?|Hx]; [auto|]. apply Hsub in Hx. tauto.
      * intros Ht. destruct (Hl Ht) as (? & Hx). split; [assumption|]. intros x. rewrite !elem_of_cons. intros [?|?]; [auto|]. destruct (Hx x); auto.
      * intros Ht. destruct (Hr Ht) as (? & Hx). split; [assumption|]. intros x. rewrite !elem_of_cons. intros [?|?]; [auto|]. destruct (Hx x); auto.
      * intros x Hx. apply elem_of_cons. auto.
      * intros x Hx. apply elem_of_cons. auto.
    + destruct (decide (lv < rv)) as [Hlt|Hge].
      * rewrite (znext_ok _ _ _ _ Ean). cbn [mbind option_bind]. rewrite (read_next s _ H0 _ _ _ Hcl'). cbn [mbind option_bind].
        destruct (IH lns lvs (b :: rns) (rv :: rvs) an b false rs Hcl' Hcr Hsl' Hsr Hbl' Hbr ltac:(cbn; lia)) as (tmp & nl' & nr' & lns' & lvs' & rns' & rvs' & ls' & rs' & E & C1 & C2 & L1 & L2 & Hor & Hst & Hu & Hi & Hsub & Hl & Hr & Hls & Hrs).
        cbn [hd] in E. rewrite E. cbn [mbind option_bind]. exists (if u then lv :: tmp else tmp), nl', nr', lns', lvs', rns', rvs', ls', rs'.
        split; [reflexivity|]. split; [exact C1|]. split; [exact C2|]. split; [cbn; lia|]. split; [lia|]. split; [exact Hor|].
        assert (Hbig : forall x, x ∈ lvs \/ x ∈ rv :: rvs -> lv < x).
        { intros x [Hx|Hx]; [auto|]. apply elem_of_cons in Hx as [->|Hx]; [exact Hlt|]. specialize (Hgr x Hx). lia. }
        split; [destruct u; [constructor; [exact Hst|]; apply Forall_forall; intros x Hx; apply Hbig, Hsub, Hx|exact Hst]|].
        split; [|split; [|split; [|split; [|split; [|split]]]]].
        -- intros Hut. destruct (Hu Hut) as (Hs1 & Hm1). rewrite Hut. cbn [app]. split.
           ++ constructor; [exact Hs1|]. apply Forall_forall. intros x Hx. apply Hbig, Hm1, Hx.
           ++ intros x. rewrite elem_of_cons, Hm1, (elem_of_cons lvs). tauto.
        -- intros Huf x. rewrite Huf. rewrite (Hi Huf), (elem_of_cons lvs). split; [tauto|]. intros ([->|?] & H2); [|auto].
           specialize (Hbig lv (or_intror H2)). lia.
        -- intros x Hx. rewrite (elem_of_cons lvs). destruct u; [apply elem_of_cons in Hx as [?|Hx]; [auto|]|]; apply Hsub in Hx; tauto.
        -- intros Ht. destruct (Hl Ht) as (? & _). discriminate.
        -- intros Ht. destruct (Hr Ht) as (? & Hx). split; [assumption|]. intros x Hin. rewrite (elem_of_cons lvs). destruct (Hx x Hin); auto.
        -- intros x Hx. apply elem_of_cons. auto.
        -- auto.
      * rewrite (znext_ok _ _ _ _ Ebn). cbn [mbind option_bind]. rewrite (read_next o _ H0o _ _ _ Hcr'). cbn [mbind option_bind].
        destruct (IH (a :: lns) (lv :: lvs) rns rvs a bn ls false Hcl Hcr' Hsl Hsr' Hbl Hbr' ltac:(cbn; lia)) as (tmp & nl' & nr' & lns' & lvs' & rns' & rvs' & ls' & rs' & E & C1 & C2 & L1 & L2 & Hor & Hst & Hu & Hi & Hsub & Hl & Hr & Hls & Hrs).
        cbn [hd] in E. rewrite E. cbn [mbind option_bind]. exists (if u then rv :: tmp else tmp), nl', nr', lns', lvs', rns', rvs', ls', rs'.
        split; [reflexivity|]. split; [exact C1|]. split; [exact C2|]. split; [lia|]. split; [cbn; lia|]. split; [exact Hor|].
        assert (Hbig : forall x, x ∈ lv :: lvs \/ x ∈ rvs -> rv < x).
        { intros x [Hx|Hx]; [|auto]. apply elem_of_cons in Hx as [->|Hx]; [lia|]. specialize (Hgl x Hx). lia. }
        split; [destruct u; [constructor; [exact Hst|]; apply Forall_forall; intros x Hx; apply Hbig, Hsub, Hx|exact Hst]|].
        split; [|split; [|split; [|split; [|split; [|split]]]]].
        -- intros Hut. destruct (Hu Hut) as (Hs1 & Hm1). rewrite Hut. cbn [app]. split.
           ++ constructor; [exact Hs1|]. apply Forall_forall. intros x Hx. apply Hbig, Hm1, Hx.
           ++ intros x. rewrite elem_of_cons, Hm1, (elem_of_cons rvs). tauto.
        -- intros Huf x. rewrite Huf. rewrite (Hi Huf), (elem_of_cons rvs). split; [tauto|]. intros (H2 & [->|?]); [|auto].
           specialize (Hbig rv (or_introl H2)). lia.
        -- intros x Hx. rewrite (elem_of_cons rvs). destruct u; [apply elem_of_cons in Hx as [?|Hx]; [auto|]|]; apply Hsub in Hx; tauto.
        -- intros Ht. destruct (Hl Ht) as (? & Hx). split; [assumption|]. intros x Hin. rewrite (elem_of_cons rvs). destruct (Hx x Hin); auto.
        -- intros Ht. destruct (Hr Ht) as (? & _). discriminate.
        -- auto.
        -- intros x Hx. apply elem_of_cons. auto.
Qed.
End Ops5.
