(** C26: return_memory and free_available preserve the representation. *)
From Coq Require Import NArith List Bool Arith Lia Permutation.
From Verif Require Import TA_Spec TA_Model TA_Proof TA_Proof2.
Import ListNotations.

Section Ret.
  Variable caps : list N.
  Variable half : N.
  Variable HDR : N.
  Variable dbg : bool.
  Hypothesis CND : NoDup caps.
  Hypothesis CPOS : Forall (fun c => (0 < c)%N) caps.
  Notation num := (length caps).
  Notation inv := (inv caps HDR dbg).
  Notation sel := (sel caps HDR).
  Notation node_of := (node_of caps HDR).

  Lemma unlink h info u1 k u2 held c b : inv h info (u1 ++ k :: u2) held -> k_cap k = nth c caps 0%N -> c < num ->
    h_get h (k_ptr k - HDR) = Some b ->
    let i := info (k_own k) in let a := (k_ptr k - HDR)%N in
    exists h1 ru',
      (if dbg then
        match walk (S (length h)) h a None (i_ru i c) with
        | None => None
        | Some None => Some (h, put_root (i_ru i) c (b_next b))
        | Some (Some q) => Some (h_upd h q (set_next (b_next b)), i_ru i)
        end
       else Some (h, i_ru i)) = Some (h1, ru') /\
      map fst h1 = map fst h /\ (forall x b', In (x, b') h1 -> exists b2, In (x, b2) h /\ b_size b' = b_size b2) /\
      (forall k u, node_of h k u -> node_of h1 k u) /\
      (forall t' c', chain h1 (i_ra (info t') c') (sel t' c' held)) /\
      (dbg = true -> forall t' c', chain h1 (if t' =? k_own k then ru' c' else i_ru (info t') c') (sel t' c' (u1 ++ u2))).
  Proof.
    intros I Ec Hc G i a. fold a in G. set (use := u1 ++ k :: u2) in *.
    destruct dbg eqn:D.
    2: { exists h, (i_ru i). split; auto. split; auto. split; [eauto|]. split; auto. split; [apply (v_ra _ _ _ _ _ _ _ I)|discriminate]. }
    pose proof (fun t c => v_ru _ _ _ _ _ _ _ I eq_refl t c) as RU.
    pose proof (RU (k_own k) c) as C. fold i in C.
    assert (sel (k_own k) c use = sel (k_own k) c u1 ++ a :: sel (k_own k) c u2) as ES.
    { unfold use. rewrite (sel_mid caps HDR CND CPOS _ _ _ _ _ c Ec Hc), !Nat.eqb_refl. reflexivity. }
    pose proof (sel_nodup caps HDR true h info use held (k_own k) c use I (or_introl eq_refl)) as ND. rewrite ES in ND.
    assert (~ In a (sel (k_own k) c u1)) as NA. { intros H. apply NoDup_remove_2 in ND. apply ND. apply in_or_app; auto. }
    pose proof (chain_len caps HDR true _ _ _ _ _ _ _ _ I (or_introl eq_refl) C) as CL.
    assert (length (sel (k_own k) c u1) < S (length h)) as LF. { rewrite ES in CL. rewrite app_length in CL. lia. }
    rewrite ES in C. rewrite (walk_in h a (sel (k_own k) c u2) (sel (k_own k) c u1)) by auto. unfold lastp.
    assert (forall t' c', (t' =? k_own k) && (c' =? c) = false -> sel t' c' (u1 ++ u2) = sel t' c' use) as ES2.
    { intros t' c' E. unfold use. now rewrite (sel_mid caps HDR CND CPOS _ _ _ _ _ c Ec Hc), E. }
    assert (forall t' c' k', In k' use -> k_own k' = k_own k -> k_cap k' = k_cap k -> In (k_ptr k' - HDR)%N (sel t' c' use) -> t' = k_own k /\ c' = c) as CR.
    { intros t' c' k' Hk' E1 E2 H. destruct (sel_cross caps HDR true h info use held t' c' k' use I (or_introl eq_refl) ltac:(apply in_or_app; auto) H) as (_ & Q1 & Q2).
      pose proof (mt_eq caps CND CPOS k c t' c' Ec Hc) as M. rewrite <- E1, <- E2, Q1, Q2, N.eqb_refl, !Nat.eqb_refl in M. cbn in M.
      split; [congruence|]. symmetry in M. now apply Nat.eqb_eq in M. }
    destruct (sel (k_own k) c u1) as [|q0 L1] eqn:EL.
    - exists h, (put_root (i_ru i) c (b_next b)). split; auto. split; auto. split; [eauto|]. split; auto. split; [apply (v_ra _ _ _ _ _ _ _ I)|].
      intros _ t' c'. cbn [app] in C. destruct C as (R & b' & G' & C). rewrite G in G'. injection G' as <-.
      destruct (Nat.eqb_spec t' (k_own k)) as [Ht|Ht]; [subst t'|].
      + unfold put_root. destruct (Nat.eqb_spec c' c) as [Hc'|Hc']; [subst c'|].
        * rewrite sel_app, EL. exact C.
        * rewrite ES2; [apply RU|]. rewrite Nat.eqb_refl. now apply Nat.eqb_neq.
      + rewrite ES2; [apply RU|]. now rewrite (proj2 (Nat.eqb_neq _ _) Ht).
    - rewrite <- EL in C, ND, NA, LF. destruct (@exists_last _ (sel (k_own k) c u1)) as (L & q & EQ); [rewrite EL; discriminate|]. 
      assert (last (q0 :: L1) 0%N = q) as -> by (rewrite <- EL, EQ; apply last_last).
      exists (h_upd h q (set_next (b_next b))), (i_ru i). split; auto. split; [apply upd_fst|].
      split. { intros x b' H. apply upd_in in H as (b2 & H & [->| ->]); eauto. }
      split; [intros; now apply node_next|].
      assert (In q (sel (k_own k) c u1)) as Hq by (rewrite EQ; apply in_or_app; right; now left).
      apply sel_in in Hq as (kq & Q1 & Q2 & Q3 & Q4).
      assert (In kq use) as Hkq by (apply in_or_app; auto).
      split.
      { intros t' c'. eapply chain_ext; [|apply (v_ra _ _ _ _ _ _ _ I)]. apply next_ext. rewrite <- Q4. apply (use_held caps HDR true h info use held kq t' c' I Hkq). }
      intros _ t' c'. rewrite EQ, <- app_assoc in C, ND. cbn [app] in C, ND.
      assert (forall t' c', (t' =? k_own k) && (c' =? c) = false -> chain (h_upd h q (set_next (b_next b))) (i_ru (info t') c') (sel t' c' (u1 ++ u2))) as OT.
      { intros t2 c2 E. rewrite (ES2 _ _ E). eapply chain_ext; [|apply RU]. apply next_ext. rewrite <- Q4. intros H.
        destruct (CR t2 c2 kq Hkq Q2 ltac:(congruence) H) as [-> ->]. rewrite !Nat.eqb_refl in E. discriminate. }
      destruct (Nat.eqb_spec t' (k_own k)) as [Ht|Ht]; [subst t'|].
      + destruct (Nat.eqb_spec c' c) as [Hc'|Hc']; [subst c'|].
        * rewrite sel_app, EQ, <- app_assoc. cbn [app]. eapply chain_unlink; eauto.
        * apply OT. rewrite Nat.eqb_refl. now apply Nat.eqb_neq.
      + apply OT. now rewrite (proj2 (Nat.eqb_neq _ _) Ht).
  Qed.

  Lemma inv_return h info u1 k u2 held c b : inv h info (u1 ++ k :: u2) held -> k_cap k = nth c caps 0%N -> c < num ->
    h_get h (k_ptr k - HDR) = Some b ->
    let i := info (k_own k) in let a := (k_ptr k - HDR)%N in
    exists h1 ru',
      (if dbg then
        match walk (S (length h)) h a None (i_ru i c) with
        | None => None
        | Some None => Some (h, put_root (i_ru i) c (b_next b))
        | Some (Some q) => Some (h_upd h q (set_next (b_next b)), i_ru i)
        end
       else Some (h, i_ru i)) = Some (h1, ru') /\
      inv (h_del h1 a) (updi info (k_own k) (mkInfo (i_use i - k_cap k) (i_av i) (i_ra i) ru')) (u1 ++ u2) held /\
      inv (h_upd h1 a (set_next (i_ra i c))) (updi info (k_own k) (mkInfo (i_use i - k_cap k) (i_av i + k_cap k) (put_root (i_ra i) c (Some a)) ru'))
        (u1 ++ u2) (k :: held).
  Proof.
    intros I Ec Hc G i a. destruct (unlink h info u1 k u2 held c b I Ec Hc G) as (h1 & ru' & E & K1 & K2 & K3 & K4 & K5). exists h1, ru'. split; [exact E|]. clear E.
    set (use := u1 ++ k :: u2) in *. assert (In k use) as Hk by (apply in_or_app; right; now left).
    pose proof (v_nd _ _ _ _ _ _ _ I) as ND. unfold use in ND. rewrite map_app, map_app in ND. cbn [map] in ND. rewrite <- app_assoc in ND. cbn [app] in ND.
    pose proof (NoDup_remove_1 _ _ _ ND) as ND1. pose proof (NoDup_remove_2 _ _ _ ND) as ND2. rewrite app_assoc, <- map_app, <- map_app in ND1, ND2.
    assert (forall k', In k' ((u1 ++ u2) ++ held) -> In k' (use ++ held)) as IC.
    { intros k' H. unfold use. rewrite !in_app_iff in *. cbn. tauto. }
    assert (forall k', In k' ((u1 ++ u2) ++ held) -> (k_ptr k' - HDR)%N <> a) as NA.
    { intros k' Hk' E. apply ND2. replace (k_ptr k) with (k_ptr k'); [now apply in_map|].
      eapply (addr_inj caps HDR h (use ++ held)); eauto; [apply (inv_all caps HDR dbg _ _ _ _ I)|apply in_or_app; auto]. }
    assert (forall t' c' l, (l = u1 ++ u2 \/ l = held) -> ~ In a (sel t' c' l)) as NS.
    { intros t' c' l El H. apply sel_in in H as (k' & A & _ & _ & E). apply (NA k'); auto. destruct El; subst; apply in_or_app; auto. }
    destruct (K3 k true (v_use _ _ _ _ _ _ _ I k Hk)) as (b1 & c1 & G1 & HL & Hc1 & Ec1 & F1 & F2 & _). fold a in G1.
    assert (forall t', i_use (info t') = ((if (k_own k =? t')%nat then k_cap k else 0) + total t' (u1 ++ u2))%N) as CU.
    { intros t'. rewrite (v_cu _ _ _ _ _ _ _ I). unfold use. now rewrite total_mid. }
    assert (forall k', In k' (u1 ++ u2) -> In k' use) as IU by (intros k' H; unfold use; rewrite in_app_iff in *; cbn; tauto).
    split.
    - assert (forall k' u, In k' ((u1 ++ u2) ++ held) -> node_of h k' u -> node_of (h_del h1 a) k' u) as NX.
      { intros k' u Hk' Hn. destruct (K3 k' u Hn) as (b' & c' & G' & R). exists b', c'. split; auto. rewrite h_get_del. destruct (N.eqb_spec (k_ptr k' - HDR) a); auto. now apply NA in e. }
      constructor.
      + intros x Hx. apply NX; [apply in_or_app; auto|apply (v_use _ _ _ _ _ _ _ I); auto].
      + intros x Hx. apply NX; [apply in_or_app; auto|apply (v_held _ _ _ _ _ _ _ I); auto].
      + exact ND1.
      + intros x bx Hx. apply del_in in Hx as [Hx Hn]. destruct (K2 x bx Hx) as (b2 & H2 & E2). destruct (v_heap _ _ _ _ _ _ _ I x b2 H2) as (k2 & A1 & A2 & A3).
        exists k2. split; [|rewrite E2; auto]. unfold use in A1. rewrite !in_app_iff in *. cbn in A1. destruct A1 as [[A1|[A1|A1]]|A1]; auto.
        subst k2. exfalso. apply Hn. unfold a. lia.
      + apply del_nodup. rewrite K1. apply (v_keys _ _ _ _ _ _ _ I).
      + intros t' c'. assert (chain (h_del h1 a) (i_ra (info t') c') (sel t' c' held)) as Q by (eapply chain_ext; [|apply K4]; apply del_ext; auto).
        unfold updi. destruct (Nat.eqb_spec t' (k_own k)) as [Ht|Ht]; [subst t'|]; auto.
      + intros D t' c'. assert (chain (h_del h1 a) (if t' =? k_own k then ru' c' else i_ru (info t') c') (sel t' c' (u1 ++ u2))) as Q by (eapply chain_ext; [|apply (K5 D)]; apply del_ext; auto).
        unfold updi. destruct (t' =? k_own k); auto.
      + intros t'. specialize (CU t'). unfold updi. rewrite (Nat.eqb_sym (k_own k)) in CU. destruct (Nat.eqb_spec t' (k_own k)) as [Ht|Ht]; [subst t'|]; cbn [i_use]; unfold i; lia.
      + intros t'. pose proof (v_ca _ _ _ _ _ _ _ I t'). unfold updi. destruct (Nat.eqb_spec t' (k_own k)) as [Ht|Ht]; [subst t'|]; auto.
    - constructor.
      + intros x Hx. apply node_next, K3, (v_use _ _ _ _ _ _ _ I); auto.
      + intros x [<-|Hx]; apply node_next, K3; [|apply (v_held _ _ _ _ _ _ _ I); auto]. eapply node_false, (v_use _ _ _ _ _ _ _ I); auto.
      + rewrite map_app. cbn [map]. eapply Permutation_NoDup; [apply Permutation_middle|]. rewrite <- map_app. constructor; auto.
      + intros x bx Hx. apply upd_in in Hx as (b3 & Hx & E3). assert (b_size bx = b_size b3) as -> by (destruct E3; subst; auto).
        destruct (K2 x b3 Hx) as (b2 & H2 & E2). destruct (v_heap _ _ _ _ _ _ _ I x b2 H2) as (k2 & A1 & A2 & A3).
        exists k2. split; [|rewrite E2; auto]. unfold use in A1. rewrite !in_app_iff in *. cbn in *. tauto.
      + rewrite upd_fst, K1. apply (v_keys _ _ _ _ _ _ _ I).
      + intros t' c'. assert (chain (h_upd h1 a (set_next (i_ra i c))) (i_ra (info t') c') (sel t' c' held)) as Q by (eapply chain_ext; [|apply K4]; apply next_ext; auto).
        rewrite sel_cons, (mt_eq caps CND CPOS k c t' c' Ec Hc). unfold updi. destruct (Nat.eqb_spec t' (k_own k)) as [Ht|Ht]; [subst t'|]; cbn [andb i_ra]; auto.
        unfold put_root. destruct (Nat.eqb_spec c' c) as [Hc'|Hc']; [subst c'|]; auto. cbn [chain]. split; auto. fold a. exists (set_next (i_ra i c) b1).
        rewrite h_get_upd, N.eqb_refl, G1. split; auto.
      + intros D t' c'. assert (chain (h_upd h1 a (set_next (i_ra i c))) (if t' =? k_own k then ru' c' else i_ru (info t') c') (sel t' c' (u1 ++ u2))) as Q by (eapply chain_ext; [|apply (K5 D)]; apply next_ext; auto).
        unfold updi. destruct (t' =? k_own k); auto.
      + intros t'. specialize (CU t'). unfold updi. rewrite (Nat.eqb_sym (k_own k)) in CU. destruct (Nat.eqb_spec t' (k_own k)) as [Ht|Ht]; [subst t'|]; cbn [i_use]; unfold i; lia.
      + intros t'. rewrite total_cons. pose proof (v_ca _ _ _ _ _ _ _ I t'). unfold updi. rewrite (Nat.eqb_sym (k_own k)). destruct (Nat.eqb_spec t' (k_own k)) as [Ht|Ht]; [subst t'|]; cbn [i_av]; unfold i; lia.
  Qed.

  (** *** free_available *)
  Lemma release_ok cap l : forall fuel h cur av, chain h cur l -> NoDup l -> length l <= fuel ->
    release fuel h cap cur av = Some (fold_left h_del l h, av - N.of_nat (length l) * cap)%N.
  Proof.
    induction l as [|a l IH]; intros fuel h cur av C ND F; cbn [chain] in C.
    - subst cur. destruct fuel; cbn; rewrite N.sub_0_r; reflexivity.
    - destruct C as (-> & b & G & C). destruct fuel as [|fuel]; [cbn in F; lia|]. cbn [release fold_left length]. rewrite G.
      inversion ND as [|? ? N1 N2]; subst. rewrite (IH fuel (h_del h a)); auto; [|eapply chain_ext; [|exact C]; apply del_ext; auto|cbn in F; lia].
      do 2 f_equal. lia.
  Qed.
  Lemma dels_get l : forall h a, h_get (fold_left h_del l h) a = if in_dec N.eq_dec a l then None else h_get h a.
  Proof.
    induction l as [|x l IH]; intros h a; cbn [fold_left]; [destruct (in_dec _ _ _) as [[]|]; auto|]. rewrite IH, h_get_del.
    destruct (in_dec N.eq_dec a l) as [H|H], (in_dec N.eq_dec a (x :: l)) as [H'|H']; auto.
    - destruct H'. now right.
    - destruct (N.eqb_spec a x); auto. destruct H' as [->|]; congruence || contradiction.
    - destruct (N.eqb_spec a x); auto. destruct H'. now left.
  Qed.
  Lemma dels_in l : forall h a b, In (a, b) (fold_left h_del l h) <-> In (a, b) h /\ ~ In a l.
  Proof. induction l as [|x l IH]; intros h a b; cbn [fold_left In]; [tauto|]. rewrite IH, del_in. intuition congruence. Qed.
  Lemma dels_nodup l : forall h, NoDup (map fst h) -> NoDup (map fst (fold_left h_del l h)).
  Proof. induction l; cbn; auto using del_nodup. Qed.

  Definition other (t c : nat) (k : block) : bool := negb ((k_own k =? t) && (k_cap k =? nth c caps 0)%N).
  Lemma sel_other t c l : sel t c (filter (other t c) l) = [].
  Proof. apply sel_none. intros x Hx E1 E2. apply filter_In in Hx as [_ H]. unfold other in H. rewrite E1, E2, Nat.eqb_refl, N.eqb_refl in H. discriminate. Qed.
  Lemma sel_other2 t c t' c' l : ~ (t' = t /\ nth c' caps 0%N = nth c caps 0%N) -> sel t' c' (filter (other t c) l) = sel t' c' l.
  Proof.
    intros H. induction l as [|k l IH]; auto. cbn [filter]. unfold other at 1. rewrite sel_cons.
    destruct (Nat.eqb_spec (k_own k) t), (N.eqb_spec (k_cap k) (nth c caps 0%N)); cbn [andb negb]; rewrite ?sel_cons, IH; auto.
    destruct (Nat.eqb_spec (k_own k) t'), (N.eqb_spec (k_cap k) (nth c' caps 0%N)); cbn [andb]; auto. destruct H. split; congruence.
  Qed.
  Lemma total_other t c t' l : total t' l = (total t' (filter (other t c) l) + (if (t' =? t)%nat then N.of_nat (length (sel t c l)) * nth c caps 0 else 0))%N.
  Proof.
    induction l as [|k l IH]; [destruct (t' =? t); reflexivity|]. cbn [filter]. unfold other at 1. rewrite sel_cons, total_cons, IH.
    destruct (Nat.eqb_spec (k_own k) t), (N.eqb_spec (k_cap k) (nth c caps 0%N)); cbn [andb negb]; rewrite ?total_cons; try lia.
    cbn [length]. destruct (Nat.eqb_spec (k_own k) t'), (Nat.eqb_spec t' t); try congruence; lia.
  Qed.
  Lemma inv_release h info use held t c : inv h info use held -> c < num ->
    let i := info t in
    exists h' av', release (length h) h (nth c caps 0%N) (i_ra i c) (i_av i) = Some (h', av') /\
      inv h' (updi info t (mkInfo (i_use i) av' (put_root (i_ra i) c None) (i_ru i))) use (filter (other t c) held).
  Proof.
    intros I Hc i. pose proof (v_ra _ _ _ _ _ _ _ I t c) as C. fold i in C.
    pose proof (sel_nodup caps HDR dbg _ _ _ _ t c held I (or_intror eq_refl)) as ND.
    pose proof (chain_len caps HDR dbg _ _ _ _ _ _ _ _ I (or_intror eq_refl) C) as CL.
    eexists _, _. split; [apply release_ok; eauto|]. set (L := sel t c held) in *. set (h' := fold_left h_del L h).
    assert (forall k, In k use \/ In k (filter (other t c) held) -> ~ In (k_ptr k - HDR)%N L) as NL.
    { intros k Hk H. destruct Hk as [Hk|Hk]; [eapply (use_held caps HDR dbg); eauto|]. apply filter_In in Hk as [Hk Ho].
      destruct (sel_cross caps HDR dbg h info use held t c k held I (or_intror eq_refl) ltac:(apply in_or_app; auto) H) as (_ & Q1 & Q2).
      unfold other in Ho. rewrite Q1, Q2, Nat.eqb_refl, N.eqb_refl in Ho. discriminate. }
    assert (forall k u, ~ In (k_ptr k - HDR)%N L -> node_of h k u -> node_of h' k u) as NX.
    { intros k u Hn (b & c1 & G & R). exists b, c1. split; auto. unfold h'. rewrite dels_get. destruct (in_dec _ _ _); [contradiction|auto]. }
    assert (forall l r, (forall x, In x l -> ~ In x L) -> chain h r l -> chain h' r l) as CX.
    { intros l r H. apply chain_ext. intros y Hy. unfold h'. rewrite dels_get. destruct (in_dec _ _ _) as [HH|]; auto. now apply H in HH. }
    constructor.
    - intros x Hx. apply NX; auto. eapply v_use; eauto.
    - intros x Hx. apply NX; auto. apply filter_In in Hx. eapply v_held; eauto. tauto.
    - pose proof (v_nd _ _ _ _ _ _ _ I) as N. rewrite map_app in *. clear - N. induction (map k_ptr use) as [|x l IH]; cbn in *.
      + induction held as [|y l IH]; cbn in *; [constructor|]. inversion N; subst. destruct (other t c y); cbn; auto. constructor; auto.
        intros H. apply in_map_iff in H as (z & E & H). apply filter_In in H. apply H1. rewrite <- E. apply in_map. tauto.
      + inversion N as [|? ? N1 N2]; subst. constructor; auto. intros H. apply N1. rewrite in_app_iff in *. destruct H as [|H]; auto. right.
        apply in_map_iff in H as (z & E & H). apply filter_In in H. rewrite <- E. apply in_map. tauto.
    - intros x b Hx. unfold h' in Hx. apply dels_in in Hx as [Hx Hn]. destruct (v_heap _ _ _ _ _ _ _ I x b Hx) as (k & A1 & A2 & A3). exists k. split; auto.
      rewrite in_app_iff in *. destruct A1 as [A1|A1]; auto. right. apply filter_In. split; auto. unfold other. apply negb_true_iff.
      destruct (Nat.eqb_spec (k_own k) t), (N.eqb_spec (k_cap k) (nth c caps 0%N)); auto. exfalso. apply Hn. apply sel_in. exists k. repeat split; auto. lia.
    - unfold h'. apply dels_nodup, (v_keys _ _ _ _ _ _ _ I).
    - intros t' c'. unfold updi. assert (forall t' c', ~ (t' = t /\ nth c' caps 0%N = nth c caps 0%N) -> chain h' (i_ra (info t') c') (sel t' c' (filter (other t c) held))) as OT.
      { intros t2 c2 H. apply CX; [|rewrite sel_other2 by auto; apply (v_ra _ _ _ _ _ _ _ I)].
        intros x Hx. apply sel_in in Hx as (k & A & _ & _ & <-). apply NL; auto. }
      destruct (Nat.eqb_spec t' t) as [Ht|Ht]; [subst t'|apply OT; tauto]. cbn [i_ra]. unfold put_root. destruct (Nat.eqb_spec c' c) as [Hc'|Hc'].
      + subst c'. rewrite sel_other. reflexivity.
      + apply OT. intros [_ E]. destruct (Nat.lt_ge_cases c' num) as [Hl|Hl]; [apply Hc'; exact (cap_inj caps CND c' c Hl Hc E)|].
        rewrite (nth_overflow caps 0%N Hl) in E. rewrite Forall_forall in CPOS. specialize (CPOS _ (nth_In caps 0%N Hc)). lia.
    - intros D t' c'. assert (chain h' (i_ru (info t') c') (sel t' c' use)) as Q.
      { apply CX; [|apply (v_ru _ _ _ _ _ _ _ I D)]. intros x Hx. apply sel_in in Hx as (k & A & _ & _ & <-). apply NL; auto. }
      unfold updi. destruct (Nat.eqb_spec t' t) as [Ht|Ht]; [subst t'|]; auto.
    - intros t'. pose proof (v_cu _ _ _ _ _ _ _ I t'). unfold updi. destruct (Nat.eqb_spec t' t) as [Ht|Ht]; [subst t'|]; auto.
    - intros t'. pose proof (v_ca _ _ _ _ _ _ _ I t') as Q. rewrite (total_other t c) in Q. fold L in Q. unfold updi. destruct (Nat.eqb_spec t' t) as [Ht|Ht]; [subst t'|]; cbn [i_av]; unfold i in *; lia.
  Qed.

  Definition keep (t c : nat) (l : list N) (k : block) : bool := negb ((k_own k =? t) && existsb (N.eqb (k_cap k)) l).
  Lemma filter_filter {A} (f g : A -> bool) l : filter f (filter g l) = filter (fun x => g x && f x) l.
  Proof. induction l as [|x l IH]; cbn; auto. destruct (g x); cbn; [destruct (f x); cbn; now rewrite IH|auto]. Qed.
  Lemma inv_release_all l : forall c h info use held t, inv h info use held -> l = skipn c caps ->
    exists h' i', release_all l c h (info t) = Some (h', i') /\ i_use i' = i_use (info t) /\
      inv h' (updi info t i') use (filter (keep t c l) held).
  Proof.
    induction l as [|cap l IH]; intros c h info use held t I E; cbn [release_all].
    - exists h, (info t). split; auto. split; auto.
      replace (filter (keep t c []) held) with held.
      2: { clear. induction held as [|k l IH]; cbn; auto. unfold keep at 1. cbn. rewrite andb_false_r. cbn. now rewrite <- IH. }
      eapply inv_ext; [|exact I]. intros t'. unfold updi. destruct (Nat.eqb_spec t' t); subst; auto.
    - assert (c < num) as Hc. { destruct (Nat.lt_ge_cases c num); auto. rewrite skipn_all2 in E by lia. discriminate. }
      assert (cap = nth c caps 0%N /\ l = skipn (S c) caps) as [-> El].
      { clear - E Hc. revert c E Hc. induction caps as [|x cs IHc]; intros [|c] E Hc; cbn in *; try lia.
        - injection E as -> ->. auto.
        - apply IHc; auto. lia. }
      destruct (inv_release h info use held t c I Hc) as (h1 & av1 & R1 & I1). rewrite R1.
      set (i1 := mkInfo _ av1 _ _) in *.
      destruct (IH (S c) h1 (updi info t i1) use (filter (other t c) held) t I1 El) as (h2 & i2 & R2 & U2 & I2).
      assert (updi info t i1 t = i1) as EU by (unfold updi; now rewrite Nat.eqb_refl). rewrite EU in R2, U2.
      exists h2, i2. split; auto. split; [rewrite U2; reflexivity|].
      replace (filter (keep t c (nth c caps 0%N :: l)) held) with (filter (keep t (S c) l) (filter (other t c) held)).
      2: { rewrite filter_filter. apply filter_ext. intros k. unfold other, keep. cbn [existsb]. destruct (k_own k =? t), (k_cap k =? nth c caps 0)%N; reflexivity. }
      eapply inv_ext; [|exact I2]. intros t'. unfold updi. destruct (t' =? t); auto.
  Qed.
End Ret.
