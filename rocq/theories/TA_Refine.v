(** C26: every sequence of calls that respects the contract of thread_alloc: the model of the code
    gives the results of the specification. *)
From Coq Require Import NArith List Bool Arith Lia Permutation.
From Verif Require Import TA_Spec TA_Model TA_Proof TA_Proof2 TA_Proof3.
Import ListNotations.

Section Refine.
  Variable caps : list N.
  Variable half : N.
  Variable maxt : nat.
  Variable HDR : N.
  Variable dbg : bool.
  Hypothesis CND : NoDup caps.
  Hypothesis CPOS : Forall (fun c => (0 < c)%N) caps.
  Notation num := (length caps).
  Notation inv := (inv caps HDR dbg).
  Notation sel := (sel caps HDR).

  Record rel (s : tstate) (u : tspec) : Prop := {
    r_inv : inv (t_heap s) (info_of s) (u_use u) (u_held u);
    r_hold : t_hold s = u_hold u;
    r_num : t_num s = u_num u;
    r_log : t_log s = u_log u;
    r_own : forall k, In k (u_use u ++ u_held u) -> k_own k < maxt;
    r_max : u_num u <= maxt }.

  Lemma info_set s t i h t' : info_of (set_heap (set_info s t i) h) t' = updi (info_of s) t i t'.
  Proof. unfold info_of, set_heap, set_info, updi. cbn. destruct (t' =? t); auto. Qed.

  Lemma get_ok s u t min sys arr p cap u' : rel s u -> t < maxt -> s_get caps half HDR u t min sys arr = Some (p, cap, u') ->
    exists s' us hd, get_memory caps half HDR dbg s t min sys = Some (p, cap, s') /\ 
      u' = mkTS (mkBlk p t cap (arr cap) :: us) hd (u_hold u) (u_num u) (u_log u) /\
      rel s' (mkTS (mkBlk p t cap None :: us) hd (u_hold u) (u_num u) (u_log u)).
  Proof.
    intros [I HH HN HL HO HM] Ht G. unfold s_get in G. unfold get_memory. destruct (negb (min <? half)%N); [discriminate|].
    destruct (find _ caps) as [cap0|] eqn:F; [|discriminate].
    destruct (proj2 (c_index_spec min caps) cap0 F) as (c & -> & Hc & En & Hin).
    destruct (take t cap0 (u_held u)) as [[k r]|] eqn:TK.
    - injection G as <- <- <-. destruct (take_spec _ _ _ _ _ TK) as (l1 & l2 & El & -> & E1 & E2 & N1).
      rewrite El in I. assert (In k (l1 ++ k :: l2)) as Hk by (apply in_or_app; right; now left).
      destruct (v_held _ _ _ _ _ _ _ I k Hk) as (b & c1 & GB & HL1 & _). subst t.
      destruct (inv_reuse caps HDR dbg CND CPOS _ _ _ l1 k l2 c b I ltac:(congruence) Hc ltac:(intros; rewrite E2; auto) GB) as (R & I').
      rewrite R, GB. exists (set_heap (set_info s (k_own k) (mkInfo (i_use (info_of s (k_own k)) + nth c caps 0%N) (i_av (info_of s (k_own k)) - nth c caps 0%N)
        (put_root (i_ra (info_of s (k_own k))) c (b_next b)) (if dbg then put_root (i_ru (info_of s (k_own k))) c (Some (k_ptr k - HDR)%N) else i_ru (info_of s (k_own k)))))
        (if dbg then h_upd (t_heap s) (k_ptr k - HDR) (set_next (i_ru (info_of s (k_own k)) c)) else t_heap s)), (u_use u), (l1 ++ l2).
      split. { rewrite En. replace (k_ptr k - HDR + HDR)%N with (k_ptr k) by lia. reflexivity. }
      split; [auto|]. constructor; cbn [u_use u_held u_hold u_num u_log]; auto.
      + rewrite En. rewrite E2 in I'. eapply inv_ext; [|exact I']. intros t'. apply info_set.
      + intros x [<-|Hx]; [auto|]. apply HO. rewrite El. rewrite !in_app_iff in *. cbn. tauto.
    - destruct (forallb _ _) eqn:FR; [|discriminate]. injection G as <- <- <-.
      assert (sel t c (u_held u) = []) as S1. { apply sel_none. rewrite En. apply take_none; auto. }
      pose proof (v_ra _ _ _ _ _ _ _ I t c) as C. rewrite S1 in C. cbn in C. rewrite C.
      assert (h_free (t_heap s) sys (HDR + nth c caps 0%N) = true) as FH.
      { unfold h_free. apply forallb_forall. intros [a b] Hab. destruct (v_heap _ _ _ _ _ _ _ I a b Hab) as (k & A1 & A2 & A3).
        rewrite forallb_forall in FR. specialize (FR k A1). unfold disjoint in FR. cbn [fst snd]. rewrite A3, En. rewrite A2 in FR.
        apply orb_true_iff. apply orb_prop in FR as [FR|FR]; apply N.leb_le in FR; [left|right]; apply N.leb_le; lia. }
      rewrite FH. eexists _, (u_use u), (u_held u). split; [rewrite En; reflexivity|]. split; auto.
      constructor; cbn [u_use u_held u_hold u_num u_log]; auto.
      + pose proof (inv_new caps HDR dbg CND CPOS _ _ _ _ t c sys _ 0%N I Hc eq_refl S1 FH) as I'. cbv zeta in I'. rewrite En in I'.
        eapply inv_ext; [|exact I']. intros t'. apply info_set.
      + intros x [<-|Hx]; auto.
  Qed.

  Lemma return_ok s u t par p u' : rel s u -> s_return u t par p = Some u' ->
    exists s', return_memory caps HDR dbg s t par p = Some s' /\ rel s' u'.
  Proof.
    intros [I HH HN HL HO HM] G. unfold s_return in G. destruct (find (is_ptr p) (u_use u)) as [k|] eqn:F; [|discriminate].
    pose proof (v_nd _ _ _ _ _ _ _ I) as ND. rewrite map_app in ND.
    assert (NoDup (map k_ptr (u_use u))) as ND1.
    { clear - ND. induction (map k_ptr (u_use u)) as [|x l IH]; constructor; inversion ND; subst; auto. intros H. apply H1. apply in_or_app; auto. }
    destruct (find_split _ _ _ ND1 F) as (Ep & u1 & u2 & Eu & Ef). rewrite Ef in G. clear Ef ND ND1. rewrite Eu in I.
    assert (In k (u1 ++ k :: u2)) as Hk by (apply in_or_app; right; now left).
    destruct (v_use _ _ _ _ _ _ _ I k Hk) as (b & c & GB & HD & Hc & En & ET & _).
    destruct (inv_return caps HDR dbg CND CPOS _ _ _ _ _ _ c b I ltac:(auto) Hc GB) as (h1 & ru' & E & I1 & I2).
    unfold return_memory. rewrite <- Ep, GB, ET.
    assert ((k_own k * num + c) / num = k_own k) as -> by (rewrite Nat.add_comm, Nat.div_add by lia; rewrite Nat.div_small by lia; lia).
    assert ((k_own k * num + c) mod num = c) as -> by (rewrite Nat.add_comm, Nat.mod_add by lia; apply Nat.mod_small; lia).
    destruct ((k_own k =? t) || negb par); [|discriminate]. cbn [negb]. cbv zeta in E. rewrite E, HH, En.
    assert (forall x, In x ((u1 ++ u2) ++ k :: u_held u) -> k_own x < maxt) as HO2.
    { intros x Hx. apply HO. rewrite Eu. rewrite !in_app_iff in *. cbn in *. tauto. }
    injection G as <-. destruct (u_hold u) eqn:Eh; cbn [negb]; eexists; (split; [reflexivity|]); constructor; cbn [u_use u_held u_hold u_num u_log]; auto; try congruence.
    - eapply inv_ext; [|exact I2]. intros t'. apply info_set.
    - eapply inv_ext; [|exact I1]. intros t'. apply info_set.
    - intros x Hx. apply HO2. rewrite !in_app_iff in *. cbn. tauto.
  Qed.

  Lemma total_zero t l c0 : (forall k, In k l -> exists c, c < num /\ nth c caps 0%N = k_cap k) -> total t l = 0%N -> sel t c0 l = [].
  Proof.
    intros H E. apply sel_none. intros x Hx Eo _. clear c0. revert E. induction l as [|k l IH]; [destruct Hx|]. rewrite total_cons.
    destruct Hx as [<-|Hx].
    - rewrite Eo, Nat.eqb_refl. destruct (H k (or_introl eq_refl)) as (c & Hc & E). rewrite Forall_forall in CPOS. specialize (CPOS _ (nth_In caps 0%N Hc)). lia.
    - intros E. apply IH; auto. { intros k' Hk'. apply H. now right. } lia.
  Qed.
  Lemma free_ok s u t : rel s u -> exists s', free_available caps s t = Some s' /\ rel s' (s_free u t).
  Proof.
    intros [I HH HN HL HO HM]. destruct (inv_release_all caps HDR dbg CND CPOS caps 0 _ _ _ _ t I eq_refl) as (h' & i' & R & U & I').
    assert (filter (keep t 0 caps) (u_held u) = filter (fun k => negb (k_own k =? t)) (u_held u)) as EF.
    { apply filter_ext_in. intros k Hk. unfold keep. destruct (v_held _ _ _ _ _ _ _ I k Hk) as (b & c & _ & _ & Hc & En & _).
      replace (existsb (N.eqb (k_cap k)) caps) with true; [now rewrite andb_true_r|]. symmetry. apply existsb_exists. exists (k_cap k). split; [|apply N.eqb_refl].
      rewrite <- En. now apply nth_In. }
    rewrite EF in I'. unfold free_available. rewrite R.
    assert (forall t0 s', t_heap s' = h' -> t_hold s' = t_hold s -> t_num s' = t_num s -> t_log s' = t_log s -> (t0 = tt -> inv h' (info_of s') (u_use u) (u_held (s_free u t))) -> rel s' (s_free u t)) as K.
    { intros t0 s' E1 E2 E3 E4 E5. destruct t0. constructor; cbn [s_free u_use u_held u_hold u_num u_log]; try congruence; auto.
      { rewrite E1. apply E5. reflexivity. }
      intros k Hk. apply HO. rewrite in_app_iff in *. destruct Hk as [|Hk]; auto. apply filter_In in Hk. tauto. }
    eexists. split; [reflexivity|]. destruct (N.eqb_spec (i_use i') 0) as [Z|Z]; apply (K tt); auto; intros _; cbn [s_free u_held].
    - rewrite U, (v_cu _ _ _ _ _ _ _ I) in Z.
      assert (forall t', info_of (clear_info (set_heap (set_info s t i') h') t) t' = updi (updi (info_of s) t i') t zero_info t') as EI.
      { intros t'. unfold info_of, clear_info, set_heap, set_info, updi. cbn. destruct (t' =? t); auto. }
      eapply inv_ext; [exact EI|]. set (hd := filter _ _) in *.
      assert (forall c, sel t c hd = []) as SH. { intros c. apply sel_none. intros x Hx E _. apply filter_In in Hx as [_ Hx]. rewrite E, Nat.eqb_refl in Hx. discriminate. }
      assert (forall c, sel t c (u_use u) = []) as SU. { intros c. apply total_zero; auto. intros k Hk. destruct (v_use _ _ _ _ _ _ _ I k Hk) as (? & c1 & _ & _ & ? & ? & _). eauto. }
      destruct I' as [A B C D F G H J L]. constructor; auto.
      + intros t' c. specialize (G t' c). unfold updi in *. destruct (Nat.eqb_spec t' t); auto. subst. rewrite SH. reflexivity.
      + intros D' t' c. specialize (H D' t' c). unfold updi in *. destruct (Nat.eqb_spec t' t); auto. subst. rewrite SU. reflexivity.
      + intros t'. specialize (J t'). unfold updi in *. destruct (Nat.eqb_spec t' t); auto. subst. now rewrite Z.
      + intros t'. specialize (L t'). unfold updi in *. destruct (Nat.eqb_spec t' t); auto. subst. cbn. unfold hd, total. clear. induction (u_held u) as [|k l IH]; cbn; auto.
        destruct (k_own k =? t) eqn:E; cbn; auto. now rewrite E.
    - eapply inv_ext; [|exact I']. intros t'. apply info_set.
  Qed.
  Lemma free_loop_ok k : forall s u ok, rel s u -> exists s',
    free_loop caps k s ok = Some (ok && forallb (fun t => (in_use u t =? 0)%N) (seq 0 k), s') /\
    rel s' (mkTS (u_use u) (filter (fun b => negb (k_own b <? k)) (u_held u)) (u_hold u) (u_num u) (u_log u)).
  Proof.
    induction k as [|k IH]; intros s u ok R; cbn [free_loop].
    - exists s. rewrite andb_true_r. split; auto. replace (filter _ (u_held u)) with (u_held u); [destruct u; exact R|]. clear. induction (u_held u) as [|k l IH]; cbn [filter]; [auto|]. change (negb (k_own k <? 0)) with true. cbv iota. f_equal. exact IH.
    - destruct (free_ok s u k R) as (s1 & E1 & R1). rewrite E1. destruct (IH s1 (s_free u k) (ok && (i_use (info_of s k) =? 0)%N) R1) as (s2 & E2 & R2).
      exists s2. rewrite E2. split.
      + rewrite seq_S, forallb_app. cbn [forallb Nat.add]. rewrite (v_cu _ _ _ _ _ _ _ (r_inv _ _ R)). unfold in_use at 2. cbn [s_free u_use]. f_equal. f_equal.
        rewrite andb_true_r. rewrite <- andb_assoc. f_equal. apply andb_comm.
      + cbn [s_free u_use u_held u_hold u_num u_log] in R2. rewrite filter_filter in R2.
        replace (filter (fun b => negb (k_own b <? S k)) (u_held u)) with (filter (fun x => negb (k_own x =? k) && negb (k_own x <? k)) (u_held u)); auto.
        apply filter_ext. intros b. rewrite <- negb_orb. f_equal. destruct (Nat.eqb_spec (k_own b) k), (Nat.ltb_spec (k_own b) k), (Nat.ltb_spec (k_own b) (S k)); auto; lia.
  Qed.

  Lemma rel_ext s s' u : t_heap s' = t_heap s -> (forall t, info_of s' t = info_of s t) -> t_hold s' = t_hold s -> t_num s' = t_num s -> t_log s' = t_log s ->
    rel s u -> rel s' u.
  Proof. intros E1 E2 E3 E4 E5 [A B C D E F]. constructor; try congruence; auto. rewrite E1. eapply inv_ext; eauto. Qed.
  Lemma touch_ok n s u : rel s u -> rel (touch n s) u.
  Proof.
    intros R. induction n as [|n IH]; auto. cbn [touch]. eapply rel_ext; [..|exact IH]; auto. intros t. unfold set_info, info_of. cbn. destruct (Nat.eqb_spec t n); subst; auto.
  Qed.
  Lemma rel_log s u l : rel s u -> rel (log_all s l) (add_log u l).
  Proof. intros [A B C D E F]. constructor; auto. cbn. congruence. Qed.

  Theorem step_ok s u t par c o u' : rel s u -> s_step caps half maxt HDR u t par c = Some (o, u') ->
    exists s', t_step caps half maxt HDR dbg s t par c = Some (o, s') /\ rel s' u'.
  Proof.
    intros R H. unfold s_step in H. unfold t_step. rewrite (r_num _ _ R). destruct (Nat.ltb_spec t (u_num u)) as [Ht|]; [|discriminate]. cbn [negb] in *.
    assert (t < maxt) as Hm by (pose proof (r_max _ _ R); lia).
    destruct c as [min sys|p|t'|v|sz count sys|p|n sys| |t'|t'].
    - destruct (s_get caps half HDR u t min sys (fun _ => None)) as [[[p cap] u1]|] eqn:G; [|discriminate]. injection H as <- <-.
      destruct (get_ok _ _ _ _ _ _ _ _ _ R Hm G) as (s' & us & hd & -> & E & R'). exists s'. split; auto. now rewrite E.
    - destruct (find (is_ptr p) (u_use u)) as [[? ? ? [?|]]|]; try discriminate. destruct (s_return u t par p) as [u1|] eqn:G; [|discriminate]. injection H as <- <-.
      destruct (return_ok _ _ _ _ _ _ R G) as (s' & -> & R'). eauto.
    - destruct (t' <? maxt); [|discriminate]. destruct ((t' =? t) || negb par); [|discriminate]. cbn in *. injection H as <- <-.
      destruct (free_ok s u t' R) as (s' & -> & R'). eauto.
    - injection H as <- <-. eexists. split; [reflexivity|]. destruct R as [A B C D E F]. constructor; auto.
    - destruct (s_get caps half HDR u t _ sys _) as [[[p cap] u1]|] eqn:G; [|discriminate]. injection H as <- <-.
      destruct (get_ok _ _ _ _ _ _ _ _ _ R Hm G) as (s' & us & hd & -> & E & R'). eexists. split; [reflexivity|]. rewrite E. apply rel_log.
      destruct R' as [A B C D F K]. cbn [u_use u_held u_hold u_num u_log] in *. constructor; cbn [u_use u_held u_hold u_num u_log]; auto.
      + pose proof (inv_extra caps HDR dbg _ _ _ _ _ (cap / sz)%N A) as A'. cbn [k_ptr k_own k_cap] in A'. cbn [set_heap t_heap]. eapply inv_ext; [|exact A']. intros. reflexivity.
      + intros x [<-|Hx]; [exact Hm|]. apply F. now right.
    - destruct (find (is_ptr p) (u_use u)) as [[? ? ? [n|]]|] eqn:F; try discriminate. destruct (s_return u t par p) as [u1|] eqn:G; [|discriminate]. injection H as <- <-.
      pose proof F as F2. apply find_some in F2 as [Hin Hp]. unfold is_ptr in Hp. cbn in Hp. apply N.eqb_eq in Hp. subst k_ptr.
      destruct (v_use _ _ _ _ _ _ _ (r_inv _ _ R) _ Hin) as (b & c & GB & _ & _ & _ & _ & _ & EX). cbn in GB, EX. rewrite GB, (EX eq_refl n eq_refl).
      assert (s_return (add_log u (elements (Dtor p) n)) t par p = Some (add_log u1 (elements (Dtor p) n))) as G2.
      { unfold s_return, add_log in *. cbn [u_use u_held u_hold u_num u_log] in *. rewrite F in *. destruct (_ || _); [|discriminate]. injection G as <-. reflexivity. }
      destruct (return_ok _ _ _ _ _ _ (rel_log _ _ _ R) G2) as (s' & -> & R'). eauto.
    - destruct par; [discriminate|]. destruct (Nat.eqb_spec n 1).
      + injection H as <- <-. eexists. split; [reflexivity|]. destruct R as [A B C D E F]. constructor; auto. cbn. lia.
      + destruct (Nat.leb_spec n maxt); [|discriminate]. cbn [andb negb] in *. destruct (Nat.ltb_spec 0 n); [|discriminate]. cbn [negb] in H. destruct (Nat.eqb_spec n 0); [lia|].
        destruct (s_get caps half HDR u t 0 sys (fun _ => None)) as [[[p cap] u1]|] eqn:G; [|discriminate].
        destruct (get_ok _ _ _ _ _ _ _ _ _ (touch_ok n _ _ R) Hm G) as (s1 & us & hd & -> & E & R1). rewrite <- E in R1.
        destruct (s_return u1 t false p) as [u2|] eqn:G2; [|discriminate]. destruct (return_ok _ _ _ _ _ _ R1 G2) as (s2 & -> & R2).
        destruct (free_ok s2 u2 t R2) as (s3 & -> & R3). injection H as <- <-. eexists. split; [reflexivity|]. destruct R3 as [A B C D E3 F]. constructor; auto.
    - destruct par; [discriminate|]. injection H as <- <-. destruct (free_loop_ok maxt s u true R) as (s' & -> & R'). eauto.
    - destruct (_ && _); [|discriminate]. injection H as <- <-. eexists. split; [rewrite (v_cu _ _ _ _ _ _ _ (r_inv _ _ R)); reflexivity|].
      eapply rel_ext; [..|exact R]; auto. intros t2. unfold set_info, info_of. cbn. destruct (Nat.eqb_spec t2 t'); subst; auto.
    - destruct (_ && _); [|discriminate]. injection H as <- <-. eexists. split; [rewrite (v_ca _ _ _ _ _ _ _ (r_inv _ _ R)); reflexivity|].
      eapply rel_ext; [..|exact R]; auto. intros t2. unfold set_info, info_of. cbn. destruct (Nat.eqb_spec t2 t'); subst; auto.
  Qed.
  Theorem run_ok h : forall s u os u', rel s u -> s_run caps half maxt HDR u h = Some (os, u') ->
    exists s', t_run caps half maxt HDR dbg s h = Some (os, s') /\ rel s' u'.
  Proof.
    induction h as [|[[t par] c] h IH]; intros s u os u' R H; cbn [s_run t_run] in *.
    - injection H as <- <-. eauto.
    - destruct (s_step caps half maxt HDR u t par c) as [[o u1]|] eqn:S; [|discriminate]. destruct (step_ok _ _ _ _ _ _ _ R S) as (s1 & -> & R1).
      destruct (s_run caps half maxt HDR u1 h) as [[os1 u2]|] eqn:S2; [|discriminate]. injection H as <- <-. destruct (IH _ _ _ _ R1 S2) as (s2 & -> & R2). eauto.
  Qed.
  Lemma rel_init : 1 <= maxt -> rel t_init s_init.
  Proof.
    intros H. constructor; cbn; auto; try easy. constructor; cbn; try easy; constructor.
  Qed.
End Refine.
