(** C26: get_memory and return_memory preserve the representation. *)
From Coq Require Import NArith List Bool Arith Lia Permutation.
From Verif Require Import TA_Spec TA_Model TA_Proof.
Import ListNotations.

Section Ops.
  Variable caps : list N.
  Variable half : N.
  Variable HDR : N.
  Variable dbg : bool.
  Hypothesis CND : NoDup caps.
  Hypothesis CPOS : Forall (fun c => (0 < c)%N) caps.
  Notation num := (length caps).
  Notation inv := (inv caps HDR dbg).
  Notation sel := (sel caps HDR).
  Notation node_of := (node_of caps HDR).

  Lemma mt_eq k c t' c' : k_cap k = nth c caps 0%N -> c < num ->
    (k_own k =? t') && (k_cap k =? nth c' caps 0)%N = (t' =? k_own k) && (c' =? c).
  Proof.
    intros E H. rewrite (Nat.eqb_sym t'). f_equal. rewrite E. destruct (Nat.eqb_spec c' c) as [->|NE]; [apply N.eqb_refl|].
    apply N.eqb_neq. intros F. destruct (Nat.lt_ge_cases c' num) as [L|G].
    - apply NE. symmetry. eapply cap_inj; eauto.
    - rewrite (nth_overflow caps 0%N G) in F. rewrite Forall_forall in CPOS. specialize (CPOS _ (nth_In caps 0%N H)). lia.
  Qed.
  Lemma sel_mid t' c' l1 k l2 c : k_cap k = nth c caps 0%N -> c < num ->
    sel t' c' (l1 ++ k :: l2) = if (t' =? k_own k) && (c' =? c) then sel t' c' l1 ++ (k_ptr k - HDR)%N :: sel t' c' l2 else sel t' c' (l1 ++ l2).
  Proof. intros E H. rewrite !sel_app, sel_cons, (mt_eq k c t' c' E H). destruct (_ && _); auto. Qed.

  Lemma inv_ext h info info' use held : (forall t, info' t = info t) -> inv h info use held -> inv h info' use held.
  Proof. intros E [A B C D F G H I J]. constructor; auto; intros; rewrite ?E; auto. Qed.
  Lemma node_next h a x k u : node_of h k u -> node_of (h_upd h a (set_next x)) k u.
  Proof.
    intros (b & c & A & B & C & D & E & F & G). destruct (N.eq_dec (k_ptr k - HDR) a) as [Ea|Ea].
    - exists (set_next x b), c. rewrite h_get_upd. rewrite <- Ea, N.eqb_refl, A. repeat split; auto.
    - exists b, c. rewrite h_get_upd. destruct (N.eqb_spec (k_ptr k - HDR) a); [contradiction|]. repeat split; auto.
  Qed.
  Lemma next_ext h a x l : ~ In a l -> forall y, In y l -> option_map b_next (h_get (h_upd h a (set_next x)) y) = option_map b_next (h_get h y).
  Proof. intros H y Hy. rewrite h_get_upd. destruct (N.eqb_spec y a); auto. subst. contradiction. Qed.
  Lemma del_ext h a l : ~ In a l -> forall y, In y l -> option_map b_next (h_get (h_del h a) y) = option_map b_next (h_get h y).
  Proof. intros H y Hy. rewrite h_get_del. destruct (N.eqb_spec y a); auto. subst. contradiction. Qed.
  Lemma cons_ext h a b l : ~ In a l -> forall y, In y l -> option_map b_next (h_get ((a, b) :: h) y) = option_map b_next (h_get h y).
  Proof. intros H y Hy. cbn. destruct (N.eqb_spec a y); auto. subst. contradiction. Qed.
  Lemma disj_lists h info use held k : inv h info use held -> In k use -> In k held -> False.
  Proof.
    intros I A B. pose proof (v_nd _ _ _ _ _ _ _ I) as ND. rewrite map_app in ND.
    apply in_split in A as (u1 & u2 & ->). rewrite map_app in ND. cbn in ND. rewrite <- app_assoc in ND. cbn in ND. apply NoDup_remove_2 in ND.
    apply ND. apply in_or_app; right. apply in_or_app; right. now apply in_map.
  Qed.
  Lemma held_use h info use held k t c : inv h info use held -> In k held -> ~ In (k_ptr k - HDR)%N (sel t c use).
  Proof.
    intros I Hk H. assert (In k use) as U. { eapply (sel_cross caps HDR dbg h info use held t c k use); eauto. apply in_or_app; auto. }
    eapply disj_lists; eauto.
  Qed.
  Lemma use_held h info use held k t c : inv h info use held -> In k use -> ~ In (k_ptr k - HDR)%N (sel t c held).
  Proof.
    intros I Hk H. assert (In k held) as U. { eapply (sel_cross caps HDR dbg h info use held t c k held); eauto. apply in_or_app; auto. }
    eapply disj_lists; eauto.
  Qed.

  (** a held block is used again *)
  Lemma inv_reuse h info use l1 k l2 c b : inv h info use (l1 ++ k :: l2) -> k_cap k = nth c caps 0%N -> c < num ->
    (forall x, In x l1 -> k_own x = k_own k -> k_cap x <> k_cap k) -> h_get h (k_ptr k - HDR) = Some b ->
    let i := info (k_own k) in
    i_ra i c = Some (k_ptr k - HDR)%N /\
    inv (if dbg then h_upd h (k_ptr k - HDR) (set_next (i_ru i c)) else h)
        (updi info (k_own k) (mkInfo (i_use i + k_cap k) (i_av i - k_cap k) (put_root (i_ra i) c (b_next b)) (if dbg then put_root (i_ru i) c (Some (k_ptr k - HDR)%N) else i_ru i)))
        (mkBlk (k_ptr k) (k_own k) (k_cap k) None :: use) (l1 ++ l2).
  Proof.
    intros I Ec Hc N1 G i. set (a := (k_ptr k - HDR)%N) in *. set (held := l1 ++ k :: l2) in *.
    assert (In k held) as Hk by (apply in_or_app; right; now left).
    assert (sel (k_own k) c l1 = []) as S1 by (apply sel_none; intros; rewrite <- Ec; auto).
    pose proof (v_ra _ _ _ _ _ _ _ I (k_own k) c) as C. unfold held in C. rewrite (sel_mid _ _ _ _ _ c Ec Hc), !Nat.eqb_refl, S1 in C. cbn [andb app chain] in C.
    destruct C as (R & b' & G' & C). fold a in R, G'. rewrite G in G'. injection G' as <-. split; [exact R|].
    pose proof (sel_nodup caps HDR dbg h info use held (k_own k) c held I (or_intror eq_refl)) as ND. unfold held in ND.
    rewrite (sel_mid _ _ _ _ _ c Ec Hc), !Nat.eqb_refl, S1 in ND. cbn [andb app] in ND. fold a in ND.
    set (h' := if dbg then _ else h).
    assert (forall k u, node_of h k u -> node_of h' k u) as ND' by (intros; unfold h'; destruct dbg; auto using node_next).
    assert (forall l r, ~ In a l -> chain h r l -> chain h' r l) as CX.
    { intros l r H. apply chain_ext. intros y Hy. unfold h'. destruct dbg; auto. now rewrite (next_ext _ _ _ l). }
    constructor.
    - intros x [<-|Hx]; [|apply ND'; eapply v_use; eauto]. apply ND'. destruct (v_held _ _ _ _ _ _ _ I k Hk) as (b1 & c1 & A1 & A2 & A3 & A4 & A5 & A6 & _).
      exists b1, c1. cbn. repeat split; auto. discriminate.
    - intros x Hx. apply ND'. eapply v_held; eauto. unfold held. apply in_app_or in Hx as [Hx|Hx]; apply in_or_app; [left|right; right]; auto.
    - eapply Permutation_NoDup; [|apply (v_nd _ _ _ _ _ _ _ I)]. unfold held. cbn [app map k_ptr]. rewrite !map_app. cbn [map].
      rewrite app_assoc. symmetry. rewrite app_assoc. apply Permutation_middle.
    - intros x bx Hx. assert (exists b2, In (x, b2) h /\ b_size bx = b_size b2) as (b2 & H2 & E2).
      { unfold h' in Hx. destruct dbg; [|eauto]. apply upd_in in Hx as (b2 & H2 & [->| ->]); exists b2; auto. }
      destruct (v_heap _ _ _ _ _ _ _ I x b2 H2) as (k2 & A1 & A2 & A3). rewrite E2.
      apply in_app_or in A1 as [A1|A1]; [exists k2; split; [right; apply in_or_app; now left|auto]|].
      unfold held in A1. apply in_app_or in A1 as [A1|[A1|A1]].
      + exists k2. split; [right; apply in_or_app; right; apply in_or_app; now left|auto].
      + subst k2. exists (mkBlk (k_ptr k) (k_own k) (k_cap k) None). split; [now left|]. auto.
      + exists k2. split; [right; apply in_or_app; right; apply in_or_app; now right|auto].
    - unfold h'. destruct dbg; rewrite ?upd_fst; apply (v_keys _ _ _ _ _ _ _ I).
    - intros t' c'. pose proof (v_ra _ _ _ _ _ _ _ I t' c') as C2. unfold held in C2. rewrite (sel_mid _ _ _ _ _ c Ec Hc) in C2. unfold updi.
      assert ((t' =? k_own k) && (c' =? c) = false -> ~ In a (sel t' c' (l1 ++ l2))) as NI.
      { intros E H. rewrite <- (sel_mid t' c' l1 k l2 c Ec Hc) in C2.
        assert (In a (sel t' c' held)) as H2. { unfold held. rewrite (sel_mid _ _ _ _ _ c Ec Hc), E. exact H. }
        destruct (sel_cross caps HDR dbg h info use held t' c' k held I (or_intror eq_refl) ltac:(apply in_or_app; auto) H2) as (_ & Q1 & Q2).
        rewrite Q1, Nat.eqb_refl in E. cbn in E. apply Nat.eqb_neq in E. apply E.
        pose proof (mt_eq k c t' c' Ec Hc) as M. rewrite Q1, Q2, N.eqb_refl, ?Nat.eqb_refl in M. cbn in M. symmetry in M. now apply Nat.eqb_eq in M. }
      destruct (Nat.eqb_spec t' (k_own k)) as [Ht|Ht]; [subst t'|]; cbn [i_ra].
      + unfold put_root. destruct (Nat.eqb_spec c' c) as [Hc'|Hc']; [subst c'|].
        * cbn [andb] in C2. rewrite sel_app, S1. cbn [app]. apply CX; auto. now inversion ND.
        * cbn [andb] in C2, NI. apply CX; auto.
      + cbn [andb] in C2, NI. apply CX; auto.
    - intros D t' c'. pose proof (v_ru _ _ _ _ _ _ _ I D t' c') as C2. rewrite sel_cons. cbn [k_own k_cap k_ptr]. rewrite (mt_eq k c t' c' Ec Hc). unfold updi.
      assert (~ In a (sel t' c' use)) as NI by (eapply held_use; eauto).
      destruct (Nat.eqb_spec t' (k_own k)) as [Ht|Ht]; [subst t'|]; cbn [andb i_ru].
      + rewrite D. unfold put_root. destruct (Nat.eqb_spec c' c) as [Hc'|Hc']; [subst c'|apply CX; auto].
        cbn [chain]. split; auto. unfold h'. rewrite D. fold a. exists (set_next (i_ru i c) b). rewrite h_get_upd, N.eqb_refl, G. split; auto. cbn [b_next set_next].
        pose proof (CX (sel (k_own k) c use) (i_ru i c) NI) as K. unfold h' in K. rewrite D in K. apply K. exact C2.
      + apply CX; auto.
    - intros t'. rewrite total_cons. unfold updi. cbn [k_own k_cap]. rewrite (Nat.eqb_sym (k_own k)). destruct (Nat.eqb_spec t' (k_own k)) as [Ht|Ht]; [subst t'|]; cbn [i_use];
        rewrite ?(v_cu _ _ _ _ _ _ _ I); unfold i; rewrite ?(v_cu _ _ _ _ _ _ _ I); lia.
    - intros t'. pose proof (v_ca _ _ _ _ _ _ _ I t') as C2. unfold held in C2. rewrite total_mid in C2. unfold updi. rewrite (Nat.eqb_sym (k_own k)) in C2.
      destruct (Nat.eqb_spec t' (k_own k)) as [Ht|Ht]; [subst t'|]; cbn [i_av]; [unfold i; rewrite C2|rewrite C2]; lia.
  Qed.

  (** a new block *)
  Lemma inv_new h info use held t c sys tc ext : inv h info use held -> c < num -> tc = t * num + c -> sel t c held = [] ->
    h_free h sys (HDR + nth c caps 0%N) = true ->
    let i := info t in let cap := nth c caps 0%N in
    inv ((sys, mkNode (HDR + cap) ext tc (if dbg then i_ru i c else None)) :: h)
        (updi info t (mkInfo (i_use i + cap) (i_av i) (i_ra i) (if dbg then put_root (i_ru i) c (Some sys) else i_ru i)))
        (mkBlk (sys + HDR) t cap None :: use) held.
  Proof.
    intros I Hc -> S1 FR i cap. unfold h_free in FR. rewrite forallb_forall in FR.
    assert (0 < cap)%N as CP. { rewrite Forall_forall in CPOS. apply CPOS. now apply nth_In. }
    assert (~ In sys (map fst h)) as NK.
    { intros H. apply in_map_iff in H as ([x b] & E & H). cbn in E. subst x. destruct (v_heap _ _ _ _ _ _ _ I sys b H) as (k & A1 & A2 & A3).
      destruct (inv_all caps HDR dbg _ _ _ _ I k A1) as (b1 & c1 & _ & _ & Hc1 & E1 & _). rewrite Forall_forall in CPOS. pose proof (CPOS _ (nth_In caps 0%N Hc1)).
      specialize (FR _ H). cbn in FR. rewrite A3 in FR. apply orb_prop in FR as [F|F]; apply N.leb_le in F; fold cap in F; lia. }
    set (nd := mkNode _ _ _ _). set (h' := (sys, nd) :: h).
    assert (forall k, In k (use ++ held) -> k_ptr k - HDR <> sys)%N as NA.
    { intros k Hk E. destruct (inv_all caps HDR dbg _ _ _ _ I k Hk) as (b1 & c1 & G & _). apply NK. rewrite <- E. apply in_map_iff. exists ((k_ptr k - HDR)%N, b1). split; auto. now apply get_in. }
    assert (forall k u, In k (use ++ held) -> node_of h k u -> node_of h' k u) as ND'.
    { intros k u Hk (b & c1 & G & R). exists b, c1. split; auto. cbn. destruct (N.eqb_spec sys (k_ptr k - HDR)); auto. symmetry in e. now apply NA in e. }
    assert (forall t' c' l, (l = use \/ l = held) -> ~ In sys (sel t' c' l)) as NS.
    { intros t' c' l El H. apply sel_in in H as (k & A & _ & _ & E). apply (NA k); auto. destruct El; subst; apply in_or_app; auto. }
    constructor.
    - intros x [<-|Hx]; [|apply ND'; [apply in_or_app; auto|eapply v_use; eauto]]. exists nd, c. cbn [k_ptr k_cap k_own k_arr].
      replace (sys + HDR - HDR)%N with sys by lia. unfold h'. cbn. rewrite N.eqb_refl. repeat split; auto; try lia. intros. discriminate.
    - intros x Hx. apply ND'; [apply in_or_app; auto|eapply v_held; eauto].
    - cbn [app map k_ptr]. constructor; [|apply (v_nd _ _ _ _ _ _ _ I)]. intros H. apply in_map_iff in H as (k & E & H). apply (NA k H). lia.
    - intros x bx [E|Hx].
      + injection E as <- <-. exists (mkBlk (sys + HDR) t cap None). split; [now left|]. auto.
      + destruct (v_heap _ _ _ _ _ _ _ I x bx Hx) as (k2 & A1 & A2 & A3). exists k2. split; [now right|auto].
    - cbn. constructor; auto. apply (v_keys _ _ _ _ _ _ _ I).
    - intros t' c'. unfold updi. pose proof (v_ra _ _ _ _ _ _ _ I t' c') as C.
      assert (chain h' (i_ra (info t') c') (sel t' c' held)) as K by (eapply chain_ext; [|exact C]; apply cons_ext; auto).
      destruct (Nat.eqb_spec t' t) as [Ht|Ht]; [subst t'|]; auto.
    - intros D t' c'. pose proof (v_ru _ _ _ _ _ _ _ I D t' c') as C.
      assert (chain h' (i_ru (info t') c') (sel t' c' use)) as K by (eapply chain_ext; [|exact C]; apply cons_ext; auto).
      rewrite sel_cons. cbn [k_own k_cap k_ptr]. replace (sys + HDR - HDR)%N with sys by lia.
      pose proof (mt_eq (mkBlk (sys + HDR) t cap None) c t' c' eq_refl Hc) as M. cbn [k_own k_cap] in M. rewrite M. unfold updi.
      destruct (Nat.eqb_spec t' t) as [Ht|Ht]; [subst t'|]; cbn [andb i_ru]; auto. rewrite D. unfold put_root. destruct (Nat.eqb_spec c' c) as [Hc'|]; [subst c'|]; auto.
      cbn [chain]. split; auto. exists nd. unfold h'. cbn [h_get]. rewrite N.eqb_refl. split; auto. unfold h', nd in K |- *. cbn [b_next]. rewrite D in K |- *. exact K.
    - intros t'. rewrite total_cons. unfold updi. cbn [k_own k_cap]. rewrite (Nat.eqb_sym t). destruct (Nat.eqb_spec t' t) as [Ht|Ht]; [subst t'|]; cbn [i_use];
        unfold i; rewrite ?(v_cu _ _ _ _ _ _ _ I); lia.
    - intros t'. unfold updi. destruct (Nat.eqb_spec t' t) as [Ht|Ht]; [subst t'|]; cbn [i_av]; unfold i; apply (v_ca _ _ _ _ _ _ _ I).
  Qed.

  (** create_array writes the number of elements *)
  Lemma inv_extra h info k use held n : inv h info (k :: use) held ->
    inv (h_upd h (k_ptr k - HDR) (set_extra n)) info (mkBlk (k_ptr k) (k_own k) (k_cap k) (Some n) :: use) held.
  Proof.
    intros I. set (a := (k_ptr k - HDR)%N).
    assert (forall l r, chain h r l -> chain (h_upd h a (set_extra n)) r l) as CX.
    { intros l r. apply chain_ext. intros y _. rewrite h_get_upd. destruct (N.eqb_spec y a); auto. subst y. destruct (h_get h a); reflexivity. }
    pose proof (v_nd _ _ _ _ _ _ _ I) as ND. cbn [app map] in ND. inversion ND as [|? ? N1 N2]; subst.
    assert (forall k' u, In k' (use ++ held) -> node_of h k' u -> node_of (h_upd h a (set_extra n)) k' u) as NX.
    { intros k' u Hk (b & c & G & HL & R). exists b, c. split; auto. rewrite h_get_upd. destruct (N.eqb_spec (k_ptr k' - HDR) a) as [E|]; auto.
      exfalso. apply N1. replace (k_ptr k) with (k_ptr k'); [now apply in_map|]. destruct (v_use _ _ _ _ _ _ _ I k (or_introl eq_refl)) as (_ & _ & _ & HL2 & _). unfold a in E. lia. }
    constructor.
    - intros x [<-|Hx]; [|apply NX; [apply in_or_app; auto|eapply v_use; eauto; now right]].
      destruct (v_use _ _ _ _ _ _ _ I k (or_introl eq_refl)) as (b & c & A1 & A2 & A3 & A4 & A5 & A6 & _). exists (set_extra n b), c.
      cbn [k_ptr k_own k_cap k_arr]. rewrite h_get_upd. fold a in A1 |- *. rewrite N.eqb_refl, A1. repeat split; auto. intros _ n' E. injection E as <-. reflexivity.
    - intros x Hx. apply NX; [apply in_or_app; auto|eapply v_held; eauto].
    - exact ND.
    - intros x b Hx. apply upd_in in Hx as (b' & Hx & E). destruct (v_heap _ _ _ _ _ _ _ I x b' Hx) as (k2 & A1 & A2 & A3).
      assert (b_size b = b_size b') as -> by (destruct E; subst; auto).
      destruct A1 as [<-|A1]; [|exists k2; split; [now right|auto]]. exists (mkBlk (k_ptr k) (k_own k) (k_cap k) (Some n)). split; [now left|auto].
    - rewrite upd_fst. apply (v_keys _ _ _ _ _ _ _ I).
    - intros. apply CX, (v_ra _ _ _ _ _ _ _ I).
    - intros D t' c'. pose proof (v_ru _ _ _ _ _ _ _ I D t' c') as C. rewrite sel_cons in *. cbn [k_own k_cap k_ptr]. apply CX. exact C.
    - intros t'. pose proof (v_cu _ _ _ _ _ _ _ I t') as C. rewrite total_cons in *. exact C.
    - apply (v_ca _ _ _ _ _ _ _ I).
  Qed.
End Ops.
