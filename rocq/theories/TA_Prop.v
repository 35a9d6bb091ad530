(** C26: thread_alloc. The statements; [TA_Spec] has what they are about. *)
From Coq Require Import NArith List Bool Arith Lia.
From Verif Require Import TA_Spec TA_Model TA_Proof TA_Proof2 TA_Proof3 TA_Refine.
Import ListNotations.

(** *** the capacities *)
Lemma capacities_gt fuel half : forall cap, (0 < cap)%N -> Forall (fun c => (cap <= c < half)%N) (capacities fuel half cap).
Proof.
  induction fuel as [|fuel IH]; intros cap H; cbn [capacities]; [constructor|]. destruct (N.ltb_spec cap half) as [L|L]; [|constructor].
  constructor; [lia|]. assert (cap < 3 * ((cap + 1) / 2))%N as G.
  { pose proof (N.div_mod' (cap + 1) 2). pose proof (N.mod_lt (cap + 1) 2 ltac:(lia)). lia. }
  eapply Forall_impl; [|apply IH; lia]. cbv beta. intros; lia.
Qed.
Lemma capacities_nodup fuel half : forall cap, (0 < cap)%N -> NoDup (capacities fuel half cap).
Proof.
  induction fuel as [|fuel IH]; intros cap H; cbn [capacities]; [constructor|]. destruct (N.ltb_spec cap half) as [L|L]; [|constructor].
  assert (cap < 3 * ((cap + 1) / 2))%N as G.
  { pose proof (N.div_mod' (cap + 1) 2). pose proof (N.mod_lt (cap + 1) 2 ltac:(lia)). lia. }
  constructor; [|apply IH; lia]. intros Hin. assert (0 < 3 * ((cap + 1) / 2))%N as P0 by lia. pose proof (capacities_gt fuel half _ P0) as F.
  rewrite Forall_forall in F. apply F in Hin. lia.
Qed.
Lemma capacities_pos fuel half cap : (0 < cap)%N -> Forall (fun c => (0 < c)%N) (capacities fuel half cap).
Proof. intros H. eapply Forall_impl; [|apply capacities_gt; auto]. cbv beta. intros; lia. Qed.
Lemma find_least min fuel half : forall cap0 cap, (0 < cap0)%N -> find (fun c => (min <=? c)%N) (capacities fuel half cap0) = Some cap ->
  (min <= cap)%N /\ In cap (capacities fuel half cap0) /\ (forall c, In c (capacities fuel half cap0) -> (min <= c)%N -> (cap <= c)%N).
Proof.
  induction fuel as [|fuel IH]; intros cap0 cap H; cbn [capacities]; [discriminate|]. destruct (N.ltb_spec cap0 half) as [L|L]; [|discriminate].
  assert (cap0 < 3 * ((cap0 + 1) / 2))%N as G.
  { pose proof (N.div_mod' (cap0 + 1) 2). pose proof (N.mod_lt (cap0 + 1) 2 ltac:(lia)). lia. }
  cbn [find]. destruct (N.leb_spec min cap0) as [M|M].
  - intros E. injection E as <-. split; auto. split; [now left|]. intros c [<-|Hc] _; [lia|].
    assert (0 < 3 * ((cap0 + 1) / 2))%N as P0 by lia. pose proof (capacities_gt fuel half _ P0) as F. rewrite Forall_forall in F. apply F in Hc. lia.
  - intros E. apply IH in E as (A & B & C); [|lia]. split; auto. split; [now right|]. intros c [<-|Hc] K; [lia|]. auto.
Qed.

(** *** what is true of the blocks after every history *)
Section Inv.
  Variable caps : list N.
  Variable half : N.
  Variable maxt : nat.
  Variable HDR : N.
  Hypothesis CPOS : Forall (fun c => (0 < c)%N) caps.
  Notation step := (s_step caps half maxt HDR).

  (** address and number of bytes of a block *)
  Definition mem (k : block) : N * N := (k_ptr k, k_cap k).
  (** the memory of two blocks, with the bytes in front of each, has no byte in common *)
  Definition apart (x y : N * N) : Prop := (fst x + snd x <= fst y - HDR)%N \/ (fst y + snd y <= fst x - HDR)%N.
  Definition occ (e : event -> bool) (l : list event) : nat := length (filter e l).
  Definition is_ctor (p i : N) (e : event) : bool := match e with Ctor q j => (q =? p)%N && (j =? i)%N | _ => false end.
  Definition is_dtor (p i : N) (e : event) : bool := match e with Dtor q j => (q =? p)%N && (j =? i)%N | _ => false end.
  (** is there an array in use with address [p] and more than [i] elements *)
  Definition alive_in (l : list block) (p i : N) : bool :=
    existsb (fun k => (k_ptr k =? p)%N && match k_arr k with Some n => (i <? n)%N | None => false end) l.
  Definition alive (u : tspec) (p i : N) : bool := alive_in (u_use u) p i.

  Record good (u : tspec) : Prop := {
    g_apart : ForallOrdPairs apart (map mem (u_use u ++ u_held u));
    g_cap : forall k, In k (u_use u ++ u_held u) -> In (k_cap k) caps /\ (HDR <= k_ptr k)%N /\ k_own k < maxt;
    g_num : u_num u <= maxt;
    g_occ : forall p i, occ (is_ctor p i) (u_log u) = occ (is_dtor p i) (u_log u) + (if alive u p i then 1 else 0) }.

  Lemma apart_sym x y : apart x y -> apart y x.
  Proof. unfold apart. tauto. Qed.
  Lemma fop_app l1 l2 : ForallOrdPairs apart (l1 ++ l2) <-> ForallOrdPairs apart l1 /\ ForallOrdPairs apart l2 /\ (forall x y, In x l1 -> In y l2 -> apart x y).
  Proof.
    induction l1 as [|a l1 IH]; cbn.
    - split; [intros H; repeat split; auto; [constructor|easy]|tauto].
    - split.
      + intros H. inversion H as [|? ? A B]; subst. apply IH in B as (B1 & B2 & B3). rewrite Forall_app in A. destruct A as [A1 A2].
        split; [constructor; auto|]. split; auto. intros x y [<-|Hx] Hy; auto. rewrite Forall_forall in A2; auto.
      + intros (A & B & C). inversion A; subst. constructor.
        * apply Forall_app. split; auto. apply Forall_forall. auto.
        * apply IH. auto.
  Qed.
  Lemma fop_filter (f : block -> bool) l : ForallOrdPairs apart (map mem l) -> ForallOrdPairs apart (map mem (filter f l)).
  Proof.
    induction l as [|k l IH]; cbn; auto. intros H. inversion H as [|? ? A B]; subst. destruct (f k); auto. cbn. constructor; auto.
    rewrite Forall_forall in *. intros x Hx. apply A. apply in_map_iff in Hx as (y & E & Hy). apply filter_In in Hy as [Hy _]. subst. now apply in_map.
  Qed.
  (** the blocks can be put in another order, or some left out *)
  Lemma fop_incl l l' : NoDup l' -> incl l' l -> ForallOrdPairs apart l -> ForallOrdPairs apart l'.
  Proof.
    intros ND I F. induction ND as [|x l' N1 ND IH]; constructor.
    - apply Forall_forall. intros y Hy. destruct (In_nth l x (0,0)%N (I x (or_introl eq_refl))) as (i & Hi & Ei).
      assert (In y l) as Hyl by (apply I; now right). clear IH I. revert Hi Ei Hyl. revert i. induction F as [|a l A F IHF]; cbn; intros i Hi Ei Hyl; [lia|].
      assert (x <> y) as NE by congruence. rewrite Forall_forall in A.
      destruct i as [|i].
      + subst x. destruct Hyl as [->|Hyl]; [congruence|auto].
      + destruct Hyl as [<-|Hyl].
        * apply apart_sym. apply A. rewrite <- Ei. apply nth_In. lia.
        * apply (IHF i); auto; lia.
    - apply IH. intros y Hy. apply I. now right.
  Qed.

  Lemma good_nd u : good u -> NoDup (map k_ptr (u_use u ++ u_held u)).
  Proof.
    intros [F C _ _]. induction (u_use u ++ u_held u) as [|k l IH]; cbn in *; constructor.
    - inversion F as [|? ? A B]; subst. intros H. apply in_map_iff in H as (k' & E & Hk'). rewrite Forall_forall in A. specialize (A (mem k') (in_map mem _ _ Hk')).
      destruct (C k (or_introl eq_refl)) as (H1 & _), (C k' (or_intror Hk')) as (H2 & _). rewrite Forall_forall in CPOS. apply CPOS in H1, H2. unfold apart, mem in A. cbn in A. lia.
    - apply IH; [now inversion F|]. intros k' Hk'. apply C. now right.
  Qed.

  Lemma occ_app e l l' : occ e (l ++ l') = occ e l + occ e l'.
  Proof. unfold occ. now rewrite filter_app, app_length. Qed.
  Lemma occ_elements p i q n (f : N -> N -> event) (g : N -> N -> event -> bool) :
    (forall p q i j, g p i (f q j) = (q =? p)%N && (j =? i)%N) ->
    occ (g p i) (elements (f q) n) = if (q =? p)%N && (i <? n)%N then 1 else 0.
  Proof.
    intros H. unfold occ, elements.
    assert (forall m s, length (filter (g p i) (map (fun j => f q (N.of_nat j)) (seq s m))) = if (q =? p)%N && (N.of_nat s <=? i)%N && (i <? N.of_nat (s + m))%N then 1 else 0) as K.
    { induction m as [|m IH]; intros s; cbn [seq map filter].
      - cbn. rewrite Nat.add_0_r. destruct (q =? p)%N; auto. cbn. destruct (N.leb_spec (N.of_nat s) i), (N.ltb_spec i (N.of_nat s)); cbn; auto; lia.
      - rewrite H. specialize (IH (S s)). destruct (q =? p)%N; cbn [andb] in *.
        + destruct (N.eqb_spec (N.of_nat s) i) as [<-|NE]; cbn [length]; rewrite IH.
          * destruct (N.leb_spec (N.of_nat (S s)) (N.of_nat s)); [lia|]. cbn. destruct (N.leb_spec (N.of_nat s) (N.of_nat s)); [|lia]. destruct (N.ltb_spec (N.of_nat s) (N.of_nat (s + S m))); auto; lia.
          * replace (s + S m) with (S s + m) by lia. destruct (N.leb_spec (N.of_nat (S s)) i), (N.leb_spec (N.of_nat s) i); auto; lia.
        + exact IH. }
    rewrite K. replace (N.of_nat (0 + N.to_nat n)) with n by lia. destruct (N.leb_spec (N.of_nat 0) i); [|lia]. now rewrite andb_true_r.
  Qed.
  Lemma occ_none q n (f : N -> N -> event) (e : event -> bool) : (forall q j, e (f q j) = false) -> occ e (elements (f q) n) = 0.
  Proof. intros H. unfold occ, elements. induction (seq 0 (N.to_nat n)) as [|j l IH]; cbn; auto. now rewrite H. Qed.

  Lemma good_get u t min sys arr p cap u' : good u -> t < maxt -> s_get caps half HDR u t min sys arr = Some (p, cap, u') ->
    exists hd, incl hd (u_held u) /\ ~ In p (map k_ptr (u_use u)) /\ u' = mkTS (mkBlk p t cap (arr cap) :: u_use u) hd (u_hold u) (u_num u) (u_log u) /\
      In cap caps /\ (min <= cap)%N /\ (min < half)%N /\ (HDR <= p)%N /\
      ForallOrdPairs apart (map mem (u_use u' ++ u_held u')) /\ (forall k, In k (u_use u) -> apart (mem k) (p, cap)).
  Proof.
    intros G Ht E. unfold s_get in E. destruct (N.ltb_spec min half) as [Hm|]; [|discriminate]. cbn [negb] in E.
    destruct (find _ caps) as [cap0|] eqn:F; [|discriminate]. apply find_some in F as [Fi Fm]. apply N.leb_le in Fm.
    destruct G as [A C D O]. destruct (take t cap0 (u_held u)) as [[k r]|] eqn:TK.
    - injection E as <- <- <-. destruct (take_spec _ _ _ _ _ TK) as (l1 & l2 & El & -> & E1 & E2 & N1). exists (l1 ++ l2).
      pose proof (good_nd u ltac:(now constructor)) as ND. rewrite El in *.
      assert (In k (u_use u ++ l1 ++ k :: l2)) as Hk by (rewrite !in_app_iff; cbn; auto).
      assert (ForallOrdPairs apart (map mem (mkBlk (k_ptr k) t cap0 (arr cap0) :: u_use u ++ l1 ++ l2))) as FO.
      { assert (Permutation.Permutation (u_use u ++ l1 ++ k :: l2) (k :: u_use u ++ l1 ++ l2)) as PM.
        { rewrite !app_assoc. symmetry. apply Permutation.Permutation_middle. }
        replace (map mem (mkBlk (k_ptr k) t cap0 (arr cap0) :: u_use u ++ l1 ++ l2)) with (map mem (k :: u_use u ++ l1 ++ l2)) by (cbn; unfold mem; cbn; now rewrite E2).
        eapply fop_incl; [| |exact A].
        - apply (Permutation.Permutation_NoDup (l := map mem (u_use u ++ l1 ++ k :: l2))); [now apply Permutation.Permutation_map|].
          clear - ND. remember (u_use u ++ l1 ++ k :: l2) as l. clear Heql. induction l as [|x l IH]; cbn in *; constructor; inversion ND; subst; auto.
          intros H. apply H1. apply in_map_iff in H as (y & Ey & Hy). injection Ey as Ey _. rewrite <- Ey. now apply in_map.
        - intros x Hx. eapply Permutation.Permutation_in; [apply Permutation.Permutation_map; symmetry; exact PM|exact Hx]. }
      split. { intros x Hx. rewrite in_app_iff in *. cbn. tauto. }
      split. { rewrite map_app in ND. intros H. apply NoDup_remove_2 with (l := map k_ptr (u_use u ++ l1)) (l' := map k_ptr l2) (a := k_ptr k).
        - rewrite <- map_app in ND. replace (map k_ptr (u_use u ++ l1) ++ k_ptr k :: map k_ptr l2) with (map k_ptr (u_use u ++ l1 ++ k :: l2)); auto. rewrite !map_app. cbn. now rewrite app_assoc.
        - rewrite !map_app, !in_app_iff. auto. }
      repeat split; auto.
      + apply C; auto.
      + intros k' Hk'. cbn [map app] in FO. inversion FO as [|? ? B1 B2]; subst. rewrite Forall_forall in B1. apply apart_sym. apply B1. apply in_map. apply in_or_app. now left.
    - destruct (forallb _ _) eqn:FR; [|discriminate]. injection E as <- <- <-. exists (u_held u). rewrite forallb_forall in FR.
      assert (forall k, In k (u_use u ++ u_held u) -> apart (mem k) ((sys + HDR)%N, cap0)) as K.
      { intros k Hk. specialize (FR k Hk). unfold disjoint in FR. unfold apart, mem. cbn [fst snd]. apply orb_prop in FR as [FR|FR]; apply N.leb_le in FR; auto. }
      split; [apply incl_refl|]. split.
      { intros H. apply in_map_iff in H as (k & Ek & Hk). assert (In k (u_use u ++ u_held u)) as Hk2 by (apply in_or_app; now left).
        specialize (K k Hk2). destruct (C k Hk2) as (H1 & _). rewrite Forall_forall in CPOS. pose proof (CPOS _ H1). pose proof (CPOS _ Fi). unfold apart, mem in K. cbn in K. lia. }
      repeat split; auto.
      + lia.
      + cbn [u_use u_held app map]. constructor; auto. apply Forall_forall. intros x Hx. apply in_map_iff in Hx as (k & <- & Hk). apply apart_sym. cbn. now apply K.
      + intros k Hk. apply K. apply in_or_app. now left.
  Qed.

  Lemma alive_cons k l p i : alive_in (k :: l) p i = (k_ptr k =? p)%N && match k_arr k with Some n => (i <? n)%N | None => false end || alive_in l p i.
  Proof. reflexivity. Qed.
  Lemma alive_out l p i : ~ In p (map k_ptr l) -> alive_in l p i = false.
  Proof.
    intros H. unfold alive_in. apply Bool.not_true_is_false. intros E. apply existsb_exists in E as (k & Hk & Ek). apply andb_prop in Ek as [Ek _].
    apply N.eqb_eq in Ek. apply H. rewrite <- Ek. now apply in_map.
  Qed.
  Lemma alive_split l1 k l2 p i : ~ In (k_ptr k) (map k_ptr (l1 ++ l2)) ->
    alive_in (l1 ++ k :: l2) p i = if (k_ptr k =? p)%N then match k_arr k with Some n => (i <? n)%N | None => false end else alive_in (l1 ++ l2) p i.
  Proof.
    intros H. assert (alive_in (l1 ++ k :: l2) p i = (k_ptr k =? p)%N && match k_arr k with Some n => (i <? n)%N | None => false end || alive_in (l1 ++ l2) p i) as ->.
    { unfold alive_in. rewrite !existsb_app. cbn. destruct (existsb _ l1), (_ && _); auto. }
    destruct (N.eqb_spec (k_ptr k) p) as [<-|]; auto. cbn. rewrite (alive_out _ _ _ H). now rewrite orb_false_r.
  Qed.

  (** a block is returned, [l] are the destructor calls *)
  Lemma good_return u t par p k u' l : good u -> find (is_ptr p) (u_use u) = Some k -> s_return u t par p = Some u' ->
    l = match k_arr k with Some n => elements (Dtor p) n | None => [] end -> good (add_log u' l).
  Proof.
    intros G F R El. pose proof (good_nd u G) as ND. unfold s_return in R. rewrite F in R. destruct (_ || _); [|discriminate]. injection R as <-.
    assert (NoDup (map k_ptr (u_use u))) as ND1 by (rewrite map_app in ND; clear - ND; induction (map k_ptr (u_use u)) as [|x m IH]; constructor; inversion ND; subst; auto; intros H; apply H1; apply in_or_app; auto).
    destruct (find_split _ _ _ ND1 F) as (Ep & u1 & u2 & Eu & Ef). rewrite Ef. destruct G as [A C D O]. rewrite Eu in *.
    assert (incl (u1 ++ u2) (u1 ++ k :: u2)) as IC by (intros x; rewrite !in_app_iff; cbn; tauto).
    assert (~ In (k_ptr k) (map k_ptr (u1 ++ u2))) as NI. { rewrite !map_app in *. cbn in ND1. now apply NoDup_remove_2 in ND1. }
    assert (forall ks, NoDup (map k_ptr ks) -> incl ks ((u1 ++ k :: u2) ++ u_held u) -> ForallOrdPairs apart (map mem ks)) as K.
    { intros ks N1 I1. eapply fop_incl; [| |exact A].
      - clear - N1. induction ks as [|x ks IH]; cbn in *; constructor; inversion N1; subst; auto. intros H. apply H1. apply in_map_iff in H as (y & Ey & Hy). injection Ey as Ey _. rewrite <- Ey. now apply in_map.
      - now apply incl_map. }
    assert (NoDup (map k_ptr ((u1 ++ u2) ++ k :: u_held u))) as N2.
    { eapply Permutation.Permutation_NoDup; [|exact ND]. apply Permutation.Permutation_map.
      transitivity (k :: (u1 ++ u2) ++ u_held u); [|apply Permutation.Permutation_middle]. change (k :: (u1 ++ u2) ++ u_held u) with ((k :: u1 ++ u2) ++ u_held u).
      apply Permutation.Permutation_app_tail. symmetry. apply Permutation.Permutation_middle. }
    constructor; cbn [add_log u_use u_held u_hold u_num u_log]; auto.
    - destruct (u_hold u).
      + apply K; auto. intros x. rewrite !in_app_iff. cbn. rewrite ?in_app_iff. tauto.
      + apply K.
        * rewrite map_app in N2 |- *. cbn in N2. now apply NoDup_remove_1 in N2.
        * intros x. rewrite !in_app_iff. cbn. tauto.
    - intros x Hx. apply C. destruct (u_hold u); rewrite !in_app_iff in *; cbn in *; tauto.
    - intros q i. specialize (O q i). unfold alive in *. cbn [u_use add_log] in *. rewrite Eu in O. rewrite (alive_split _ _ _ _ _ NI), Ep in O. rewrite Ep in NI. rewrite !occ_app, O. subst l.
      destruct (k_arr k) as [n|].
      + rewrite (occ_none _ _ Dtor (is_ctor q i)) by reflexivity. rewrite (occ_elements q i p n Dtor is_dtor) by reflexivity.
        destruct (N.eqb_spec p q) as [<-|]; cbn [andb]; [rewrite (alive_out _ _ _ NI)|]; lia.
      + cbn. destruct (N.eqb_spec p q) as [<-|]; [rewrite (alive_out _ _ _ NI)|]; lia.
  Qed.
  Lemma add_nil u : add_log u [] = u.
  Proof. unfold add_log. rewrite app_nil_r. now destruct u. Qed.
  Lemma good_free u f : good u -> good (mkTS (u_use u) (filter f (u_held u)) (u_hold u) (u_num u) (u_log u)).
  Proof.
    intros [A C D O]. constructor; cbn [u_use u_held u_hold u_num u_log]; auto.
    - rewrite map_app in *. rewrite fop_app in *. destruct A as (A1 & A2 & A3). split; auto. split; [now apply fop_filter|].
      intros x y Hx Hy. apply A3; auto. apply in_map_iff in Hy as (z & <- & Hz). apply filter_In in Hz as [Hz _]. now apply in_map.
    - intros k Hk. apply C. rewrite in_app_iff in *. destruct Hk as [|Hk]; auto. apply filter_In in Hk. tauto.
  Qed.

  Lemma good_step u t par c o u' : good u -> step u t par c = Some (o, u') -> good u'.
  Proof.
    intros G H. unfold s_step in H. destruct (Nat.ltb_spec t (u_num u)) as [Ht|]; [|discriminate]. cbn [negb] in H.
    assert (t < maxt) as Hm by (pose proof (g_num _ G); lia).
    assert (forall min sys arr p cap u1, s_get caps half HDR u t min sys arr = Some (p, cap, u1) ->
      good (add_log u1 (match arr cap with Some n => elements (Ctor p) n | None => [] end))) as GET.
    { intros min sys arr p cap u1 E. destruct (good_get _ _ _ _ _ _ _ _ G Hm E) as (hd & I1 & N1 & -> & Hc & _ & _ & HH & FO & _). destruct G as [A C D O].
      constructor; cbn [add_log u_use u_held u_hold u_num u_log] in *; auto.
      - intros k [<-|Hk]; [auto|]. apply C. rewrite in_app_iff in *. destruct Hk; auto.
      - intros q i. specialize (O q i). unfold alive in *. cbn [u_use] in *. cbn [add_log u_use]. rewrite alive_cons. cbn [k_ptr k_arr]. rewrite !occ_app, O.
        destruct (arr cap) as [n|].
        + rewrite (occ_none _ _ Ctor (is_dtor q i)) by reflexivity. rewrite (occ_elements q i p n Ctor is_ctor) by reflexivity.
          destruct (N.eqb_spec p q) as [<-|]; cbn [andb orb]; [rewrite (alive_out _ _ _ N1); rewrite orb_false_r|]; lia.
        + cbn. rewrite andb_false_r. cbn. lia. }
    destruct c as [min sys|p|t'|v|sz count sys|p|n sys| |t'|t'].
    - destruct (s_get caps half HDR u t min sys (fun _ => None)) as [[[p cap] u1]|] eqn:E; [|discriminate]. injection H as <- <-. apply GET in E. cbn in E. now rewrite add_nil in E.
    - destruct (find (is_ptr p) (u_use u)) as [[kp ko kc ka]|] eqn:F; try discriminate. destruct ka; [discriminate|]. destruct (s_return u t par p) as [u1|] eqn:R; [|discriminate]. injection H as <- <-.
      rewrite <- (add_nil u1). eapply good_return; eauto.
    - destruct (_ && _); [|discriminate]. injection H as <- <-. now apply good_free.
    - injection H as <- <-. destruct G as [A C D O]. constructor; auto.
    - destruct (s_get caps half HDR u t _ sys _) as [[[p cap] u1]|] eqn:E; [|discriminate]. injection H as <- <-. apply GET in E. exact E.
    - destruct (find (is_ptr p) (u_use u)) as [[kp ko kc ka]|] eqn:F; try discriminate. destruct ka as [n|]; [|discriminate]. destruct (s_return u t par p) as [u1|] eqn:R; [|discriminate]. injection H as <- <-.
      eapply good_return; eauto.
    - destruct par; [discriminate|]. destruct (Nat.eqb_spec n 1).
      + injection H as <- <-. destruct G as [A C D O]. constructor; auto. cbn. lia.
      + destruct (Nat.leb_spec n maxt); [|discriminate]. cbn [andb negb] in *. destruct (0 <? n); [|discriminate]. cbn [negb] in H.
        destruct (s_get caps half HDR u t 0 sys (fun _ => None)) as [[[p cap] u1]|] eqn:E; [|discriminate].
        destruct (good_get _ _ _ _ _ _ _ _ G Hm E) as (hd & _ & _ & E1 & _). apply GET in E. cbn in E. rewrite add_nil in E.
        destruct (s_return u1 t false p) as [u2|] eqn:R; [|discriminate]. injection H as <- <-.
        assert (find (is_ptr p) (u_use u1) = Some (mkBlk p t cap None)) as F by (rewrite E1; cbn; unfold is_ptr; cbn; now rewrite N.eqb_refl).
        pose proof (good_return _ _ _ _ _ _ [] E F R eq_refl) as G2. rewrite add_nil in G2. apply (good_free _ (fun k => negb (k_own k =? t))) in G2.
        destruct G2 as [A C D O]. constructor; auto.
    - destruct par; [discriminate|]. injection H as <- <-. now apply good_free.
    - destruct (_ && _); [|discriminate]. injection H as <- <-. auto.
    - destruct (_ && _); [|discriminate]. injection H as <- <-. auto.
  Qed.
  Lemma good_run h : forall u os u', good u -> s_run caps half maxt HDR u h = Some (os, u') -> good u'.
  Proof.
    induction h as [|[[t par] c] h IH]; intros u os u' G H; cbn [s_run] in H.
    - now injection H as <- <-.
    - destruct (step u t par c) as [[o u1]|] eqn:S; [|discriminate]. apply good_step in S; auto.
      destruct (s_run caps half maxt HDR u1 h) as [[os1 u2]|] eqn:S2; [|discriminate]. injection H as <- <-. eauto.
  Qed.
  Lemma good_init : 1 <= maxt -> good s_init.
  Proof. intros H. constructor; cbn; auto; [constructor|easy]. Qed.
End Inv.
