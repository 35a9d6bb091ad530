(** C26: the memory of thread_alloc represents the blocks in use and held. *)
From Coq Require Import NArith List Bool Arith Lia Permutation.
From Verif Require Import TA_Spec TA_Model.
Import ListNotations.

(** *** memory *)
Lemma h_get_upd h a f a' : h_get (h_upd h a f) a' = if (a' =? a)%N then option_map f (h_get h a) else h_get h a'.
Proof.
  induction h as [|[x b] h IH]; [cbn; now destruct (_ =? _)%N|]. unfold h_upd in *. cbn [map h_get fst snd].
  destruct (N.eqb_spec x a) as [Hx|Hx]; cbn [h_get]; [subst x|].
  - destruct (N.eqb_spec a' a) as [E|E]; destruct (N.eqb_spec a a'); try congruence; cbn [option_map]; auto.
  - destruct (N.eqb_spec x a'); auto. destruct (N.eqb_spec a' a); congruence.
Qed.
Lemma h_get_del h a a' : h_get (h_del h a) a' = if (a' =? a)%N then None else h_get h a'.
Proof.
  induction h as [|[x b] h IH]; [cbn; now destruct (_ =? _)%N|]. unfold h_del in *. cbn [filter h_get fst snd].
  destruct (N.eqb_spec x a) as [Hx|Hx]; cbn [negb h_get]; [subst x|].
  - rewrite IH. destruct (N.eqb_spec a' a) as [E|E]; auto. destruct (N.eqb_spec a a'); congruence.
  - destruct (N.eqb_spec x a'); auto. destruct (N.eqb_spec a' a); congruence.
Qed.
Lemma upd_fst h a f : map fst (h_upd h a f) = map fst h.
Proof. unfold h_upd. rewrite map_map. apply map_ext. intros [x b]. cbn. destruct (_ =? _)%N; auto. Qed.
Lemma upd_in h a f x b : In (x, b) (h_upd h a f) -> exists b', In (x, b') h /\ (b = b' \/ b = f b').
Proof.
  unfold h_upd. rewrite in_map_iff. intros ([y b'] & E & H). cbn in E. destruct (y =? a)%N; injection E as <- <-; eauto.
Qed.
Lemma del_in h a x b : In (x, b) (h_del h a) <-> In (x, b) h /\ x <> a.
Proof. unfold h_del. rewrite filter_In. cbn. rewrite negb_true_iff, N.eqb_neq. tauto. Qed.
Lemma del_nodup h a : NoDup (map fst h) -> NoDup (map fst (h_del h a)).
Proof.
  induction h as [|[x b] h IH]; cbn; intros H; [constructor|]. inversion H as [|? ? H1 H2]; subst. destruct (negb _); cbn; auto.
  constructor; auto. rewrite in_map_iff. intros ([y b'] & E & H3). apply del_in in H3 as [H3 _]. cbn in E. subst. apply H1. apply in_map_iff. exists (x, b'). auto.
Qed.
Lemma get_in h a b : h_get h a = Some b -> In (a, b) h.
Proof. induction h as [|[x b'] h IH]; cbn; [discriminate|]. destruct (N.eqb_spec x a); intros H; [injection H as ->; subst; auto|auto]. Qed.

(** *** linked lists *)
Fixpoint chain (h : heap) (r : option N) (l : list N) : Prop :=
  match l with [] => r = None | a :: l' => r = Some a /\ exists b, h_get h a = Some b /\ chain h (b_next b) l' end.
Lemma chain_ext h h' l : (forall a, In a l -> option_map b_next (h_get h' a) = option_map b_next (h_get h a)) ->
  forall r, chain h r l -> chain h' r l.
Proof.
  induction l as [|a l IH]; cbn; intros E r H; auto. destruct H as (-> & b & G & C). split; auto.
  pose proof (E a (or_introl eq_refl)) as E1. rewrite G in E1. destruct (h_get h' a) as [b'|]; [|discriminate]. injection E1 as E1.
  exists b'. split; auto. rewrite E1. apply IH; auto.
Qed.
Lemma chain_app h l1 l2 : forall r, chain h r (l1 ++ l2) -> exists r2, chain h r2 l2.
Proof. induction l1 as [|a l1 IH]; cbn; intros r H; eauto. destruct H as (_ & b & _ & H). eauto. Qed.
Lemma chain_incl h l : forall r, chain h r l -> incl l (map fst h).
Proof.
  induction l as [|a l IH]; cbn; intros r H x [].
  - subst x. destruct H as (_ & b & G & _). apply in_map_iff. exists (a, b). split; auto. now apply get_in.
  - destruct H as (_ & b & _ & C). eapply IH; eauto.
Qed.
Definition lastp (prev : option N) (l : list N) : option N := match l with [] => prev | _ => Some (last l 0%N) end.
Lemma walk_in h a l2 l1 : forall fuel prev cur, chain h cur (l1 ++ a :: l2) -> ~ In a l1 -> length l1 < fuel ->
  walk fuel h a prev cur = Some (lastp prev l1).
Proof.
  induction l1 as [|x l1 IH]; intros fuel prev cur C N F; (destruct fuel as [|fuel]; [cbn in F; lia|]); cbn [walk app chain] in *.
  - destruct C as (-> & _). now rewrite N.eqb_refl.
  - destruct C as (-> & b & G & C). destruct (N.eqb_spec x a) as [->|]; [destruct N; now left|]. rewrite G.
    rewrite (IH fuel (Some x) _ C); [|intros H; apply N; now right|cbn in F; lia]. f_equal. destruct l1; reflexivity.
Qed.
Lemma walk_out h a l : forall fuel prev cur, chain h cur l -> ~ In a l -> walk fuel h a prev cur = None.
Proof.
  induction l as [|x l IH]; intros fuel prev cur C N; (destruct fuel as [|fuel]; [reflexivity|]); cbn [walk chain] in *.
  - now rewrite C.
  - destruct C as (-> & b & G & C). destruct (N.eqb_spec x a) as [->|]; [destruct N; now left|]. rewrite G.
    apply IH; auto. intros H; apply N; now right.
Qed.
(** removal of [a] *)
Lemma chain_unlink h a b l2 l1 : forall q cur, chain h cur (l1 ++ q :: a :: l2) -> NoDup (l1 ++ q :: a :: l2) -> h_get h a = Some b ->
  chain (h_upd h q (set_next (b_next b))) cur (l1 ++ q :: l2).
Proof.
  induction l1 as [|x l1 IH]; intros q cur C ND G; cbn [app chain] in *.
  - destruct C as (-> & bq & Gq & Ea & b' & G' & C). rewrite G in G'. injection G' as <-. split; auto.
    exists (set_next (b_next b) bq). rewrite h_get_upd, N.eqb_refl, Gq. split; auto. cbn.
    inversion ND as [|? ? N1 N2]; subst. inversion N2; subst.
    eapply chain_ext; [|exact C]. intros y Hy. rewrite h_get_upd. destruct (N.eqb_spec y q); auto. subst. destruct N1. right. auto.
  - destruct C as (-> & bx & Gx & C). inversion ND as [|? ? N1 N2]; subst. split; auto. exists bx.
    rewrite h_get_upd. destruct (N.eqb_spec x q); [subst; destruct N1; apply in_or_app; right; now left|]. split; auto.
Qed.

(** *** lists of blocks *)
Lemma total_cons t k l : total t (k :: l) = ((if (k_own k =? t)%nat then k_cap k else 0) + total t l)%N.
Proof. unfold total. cbn. destruct (k_own k =? t); cbn; lia. Qed.
Lemma total_app t l l' : total t (l ++ l') = (total t l + total t l')%N.
Proof. induction l as [|k l IH]; [reflexivity|]. cbn [app]. rewrite !total_cons, IH. lia. Qed.
Lemma total_mid t l1 k l2 : total t (l1 ++ k :: l2) = ((if (k_own k =? t)%nat then k_cap k else 0) + total t (l1 ++ l2))%N.
Proof. rewrite !total_app, total_cons. lia. Qed.
Lemma take_spec t cap l : forall k r, take t cap l = Some (k, r) ->
  exists l1 l2, l = l1 ++ k :: l2 /\ r = l1 ++ l2 /\ k_own k = t /\ k_cap k = cap /\ (forall x, In x l1 -> k_own x = t -> k_cap x <> cap).
Proof.
  induction l as [|x l IH]; cbn; intros k r H; [discriminate|].
  destruct (Nat.eqb_spec (k_own x) t) as [E1|E1]; cbn in H.
  - destruct (N.eqb_spec (k_cap x) cap) as [E2|E2].
    + injection H as <- <-. exists [], l. repeat split; auto.
    + destruct (take t cap l) as [[y s]|]; [|discriminate]. injection H as <- <-. destruct (IH _ _ eq_refl) as (l1 & l2 & -> & -> & A & B & C).
      exists (x :: l1), l2. repeat split; auto. intros z [<-|Hz]; auto.
  - destruct (take t cap l) as [[y s]|]; [|discriminate]. injection H as <- <-. destruct (IH _ _ eq_refl) as (l1 & l2 & -> & -> & A & B & C).
    exists (x :: l1), l2. repeat split; auto. intros z [<-|Hz]; try (intros; congruence); auto.
Qed.
Lemma take_none t cap l : take t cap l = None -> forall x, In x l -> k_own x = t -> k_cap x <> cap.
Proof.
  induction l as [|x l IH]; cbn; intros H y; [easy|].
  destruct (Nat.eqb_spec (k_own x) t) as [E1|E1], (N.eqb_spec (k_cap x) cap) as [E2|E2]; cbn in H; try discriminate;
    destruct (take t cap l) as [[? ?]|]; try discriminate; intros [<-|Hy] Hy2 E; try congruence; eapply IH; eauto.
Qed.
Lemma find_split p l k : NoDup (map k_ptr l) -> find (is_ptr p) l = Some k ->
  k_ptr k = p /\ exists l1 l2, l = l1 ++ k :: l2 /\ filter (fun x => negb (is_ptr p x)) l = l1 ++ l2.
Proof.
  induction l as [|x l IH]; cbn; intros ND H; [discriminate|]. inversion ND as [|? ? N1 N2]; subst.
  destruct (is_ptr p x) eqn:E.
  - injection H as <-. unfold is_ptr in E. apply N.eqb_eq in E. split; auto. exists [], l. split; auto. cbn.
    assert (forall l, ~ In p (map k_ptr l) -> filter (fun x => negb (is_ptr p x)) l = l) as K.
    { induction l0 as [|y l0 IH0]; cbn; auto. intros HN. unfold is_ptr at 1. destruct (N.eqb_spec (k_ptr y) p); [destruct HN; now left|]. cbn. f_equal. apply IH0. intros H; apply HN; now right. }
    apply K. congruence.
  - destruct (IH N2 H) as (A & l1 & l2 & -> & B). split; auto. exists (x :: l1), l2. split; auto. cbn. now rewrite B.
Qed.

Section Inv.
  Variable caps : list N.
  Variable HDR : N.
  Variable dbg : bool.
  Hypothesis CND : NoDup caps.
  Hypothesis CPOS : Forall (fun c => (0 < c)%N) caps.
  Notation num := (length caps).

  Definition sel (t c : nat) (l : list block) : list N :=
    map (fun k => (k_ptr k - HDR)%N) (filter (fun k => (k_own k =? t) && (k_cap k =? nth c caps 0)%N) l).
  Lemma sel_cons t c k l : sel t c (k :: l) = if (k_own k =? t) && (k_cap k =? nth c caps 0)%N then (k_ptr k - HDR)%N :: sel t c l else sel t c l.
  Proof. unfold sel. cbn. destruct (_ && _); auto. Qed.
  Lemma sel_app t c l l' : sel t c (l ++ l') = sel t c l ++ sel t c l'.
  Proof. unfold sel. now rewrite filter_app, map_app. Qed.
  Lemma sel_in t c l a : In a (sel t c l) <-> exists k, In k l /\ k_own k = t /\ k_cap k = nth c caps 0%N /\ (k_ptr k - HDR)%N = a.
  Proof.
    unfold sel. rewrite in_map_iff. split.
    - intros (k & E & H). apply filter_In in H as [H1 H2]. apply andb_prop in H2 as [A B]. apply Nat.eqb_eq in A. apply N.eqb_eq in B. eauto 10.
    - intros (k & H & A & B & E). exists k. split; auto. apply filter_In. split; auto. now rewrite A, B, Nat.eqb_refl, N.eqb_refl.
  Qed.
  Lemma sel_none t c l : (forall x, In x l -> k_own x = t -> k_cap x <> nth c caps 0%N) -> sel t c l = [].
  Proof.
    intros H. destruct (sel t c l) as [|a r] eqn:E; auto. assert (In a (sel t c l)) as K by (rewrite E; now left).
    apply sel_in in K as (k & A & B & C & _). destruct (H k A B C).
  Qed.

  Definition node_of (h : heap) (k : block) (use : bool) : Prop :=
    exists b c, h_get h (k_ptr k - HDR) = Some b /\ (HDR <= k_ptr k)%N /\ c < num /\ nth c caps 0%N = k_cap k /\
      b_tc b = k_own k * num + c /\ b_size b = (HDR + k_cap k)%N /\ (use = true -> forall n, k_arr k = Some n -> b_extra b = n).
  Record inv (h : heap) (info : nat -> tinfo) (use held : list block) : Prop := {
    v_use : forall k, In k use -> node_of h k true;
    v_held : forall k, In k held -> node_of h k false;
    v_nd : NoDup (map k_ptr (use ++ held));
    v_heap : forall a b, In (a, b) h -> exists k, In k (use ++ held) /\ k_ptr k = (a + HDR)%N /\ b_size b = (HDR + k_cap k)%N;
    v_keys : NoDup (map fst h);
    v_ra : forall t c, chain h (i_ra (info t) c) (sel t c held);
    v_ru : dbg = true -> forall t c, chain h (i_ru (info t) c) (sel t c use);
    v_cu : forall t, i_use (info t) = total t use;
    v_ca : forall t, i_av (info t) = total t held }.

  Definition updi (info : nat -> tinfo) (t : nat) (i : tinfo) : nat -> tinfo := fun t' => if t' =? t then i else info t'.

  Lemma addr_inj h l : (forall k, In k l -> node_of h k false) -> forall k k', In k l -> In k' l -> (k_ptr k - HDR)%N = (k_ptr k' - HDR)%N -> k_ptr k = k_ptr k'.
  Proof. intros H k k' A B E. destruct (H k A) as (? & ? & _ & ? & _), (H k' B) as (? & ? & _ & ? & _). lia. Qed.
  Lemma node_false h k u : node_of h k u -> node_of h k false.
  Proof. intros (b & c & A & B & C & D & E & F & G). exists b, c. repeat split; auto. discriminate. Qed.
  Lemma inv_all h info use held : inv h info use held -> forall k, In k (use ++ held) -> node_of h k false.
  Proof. intros I k H. apply in_app_or in H as [H|H]; [eapply node_false, v_use|eapply v_held]; eauto. Qed.
  Lemma ptr_nodup {l : list block} k k' : NoDup (map k_ptr l) -> In k l -> In k' l -> k_ptr k = k_ptr k' -> k = k'.
  Proof.
    induction l as [|x l IH]; cbn; intros ND [] [] E; try (now subst); inversion ND as [|? ? N1 N2]; subst; auto.
    - destruct N1. rewrite E. now apply in_map.
    - destruct N1. rewrite <- E. now apply in_map.
  Qed.
  Lemma sel_nodup h info use held t c l : inv h info use held -> (l = use \/ l = held) -> NoDup (sel t c l).
  Proof.
    intros I El. assert (incl l (use ++ held)) as IC by (destruct El; subst; [apply incl_appl|apply incl_appr]; apply incl_refl).
    assert (NoDup (map k_ptr l)) as ND.
    { pose proof (v_nd _ _ _ _ I) as ND. rewrite map_app in ND. destruct El; subst; [|apply Permutation_NoDup with (l' := map k_ptr held ++ map k_ptr use) in ND; [|apply Permutation_app_comm]].
      all: clear - ND; induction (map k_ptr _) as [|x l1 IH] in ND |- *; constructor; inversion ND; subst; auto; intros H; match goal with H : ~ In _ (_ ++ _) |- _ => apply H; apply in_or_app; now left end. }
    pose proof (inv_all _ _ _ _ I) as NA. clear - ND IC NA. induction l as [|k l IH]; [constructor|].
    rewrite sel_cons. inversion ND as [|? ? N1 N2]; subst. assert (incl l (use ++ held)) as IC2 by (intros x Hx; apply IC; now right).
    destruct (_ && _); auto. constructor; auto. intros H. apply sel_in in H as (k' & A & _ & _ & E).
    apply N1. replace (k_ptr k) with (k_ptr k'); [now apply in_map|]. eapply addr_inj; eauto. apply IC. now left.
  Qed.
  Lemma chain_len h info use held t c l r : inv h info use held -> (l = use \/ l = held) -> chain h r (sel t c l) -> length (sel t c l) <= length h.
  Proof. intros I El C. rewrite <- (map_length fst h). apply NoDup_incl_length; [eapply sel_nodup; eauto|eapply chain_incl; eauto]. Qed.
  (** a block is in only one list *)
  Lemma sel_cross h info use held t c k l : inv h info use held -> (l = use \/ l = held) -> In k (use ++ held) -> 
    In (k_ptr k - HDR)%N (sel t c l) -> In k l /\ k_own k = t /\ k_cap k = nth c caps 0%N.
  Proof.
    intros I El Hk H. apply sel_in in H as (k' & A & B & C & E).
    assert (In k' (use ++ held)) as Hk' by (destruct El; subst; apply in_or_app; auto).
    assert (k = k') as ->. { eapply ptr_nodup; eauto using v_nd. symmetry. eapply (addr_inj h (use ++ held)); eauto. apply (inv_all _ _ _ _ I). }
    auto.
  Qed.
  Lemma cap_inj c c' : c < num -> c' < num -> nth c caps 0%N = nth c' caps 0%N -> c = c'.
  Proof. intros. eapply NoDup_nth; eauto. Qed.
  Lemma c_index_spec min : forall l, c_index l min = match find (fun c => (min <=? c)%N) l with Some _ => c_index l min | None => None end /\
    forall cap, find (fun c => (min <=? c)%N) l = Some cap -> exists c, c_index l min = Some c /\ c < length l /\ nth c l 0%N = cap /\ In cap l.
  Proof.
    induction l as [|x l [IH1 IH2]]; cbn; [split; [auto|discriminate]|].
    destruct (N.leb_spec min x), (N.ltb_spec x min); try lia.
    - split; auto. intros cap E. injection E as <-. exists 0. split; auto. split; [lia|auto].
    - split. { destruct (find _ l); auto. now rewrite IH1. }
      intros cap E. destruct (IH2 cap E) as (c & -> & A & B & C). exists (S c). repeat split; auto. lia.
  Qed.
End Inv.
