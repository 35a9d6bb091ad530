(** C17: subgraph_reverse and subgraph_sparsity, for every recorded function and every sequence
    of calls. *)
From Coq Require Import ZArith List Bool Arith Lia Sorted Permutation.
From Verif Require Import Base_Spec Op_Model Tape_Spec Tape_Model Tape_Proof Tape_Proof2 Tape_Proof10 Tape_Hist Tape_Prop Sweep_Model Sweep_Eqs Sweep_Eqs2 Sweep_Tape Sweep_Uniq Tape_Swf
  Drv_Spec Drv_Model Drv_Proof Drv_Proof2 Drv_Proof3 Drv_Prop Rev_Zero Sub_Spec Sub_Model Sub_Proof Sub_Proof2 Sub_Proof3 Sub_Proof4 Sub_Tape
  Spar_Proof Spar_Proof3 Spar_Prop.
Import ListNotations.

(** *** sequences of calls *)
Section Hist.
  Context {b : base}.
  Notation T := (bt b).
  Variable bnat : nat -> T.
  Variable junk : nat -> T.

  Inductive scall :=
  | SSel (sel : list bool)                                         (* f.subgraph_reverse(select_domain) *)
  | SRev (q ell : nat) (p0 : nat -> nat -> T) (dw0 : list T)       (* f.subgraph_reverse(q, ell, col, dw); [p0], [dw0]: previous contents of memory *)
  | SSpar (sel range : list bool) (transpose : bool)               (* f.subgraph_sparsity(select_domain, select_range, transpose, pattern_out) *)
  | SDrv (c : dcall T).                                            (* Forward, Reverse, capacity_order, new_dynamic *)

  Definition sstep (st : adq b * option sginfo) (c : scall) : option (adq b * option sginfo) :=
    let '(g, si) := st in
    match c with
    | SSel sel => match select_domain (d_rec g) (d_n g) (d_dep g) sel with Some s => Some (g, Some s) | None => None end
    | SRev q ell p0 dw0 =>
      match si with
      | None => None
      | Some s => match subgraph_reverse bnat g s q ell p0 dw0 with Some (_, _, s') => Some (g, Some s') | None => None end
      end
    | SSpar sel range tr =>
      match subgraph_sparsity (d_rec g) (d_n g) (d_dep g) sel range tr with Some (_, s) => Some (g, Some s) | None => None end
    | SDrv c => match dstep bnat junk g c with Some g' => Some (g', si) | None => None end
    end.
  Fixpoint srun (st : adq b * option sginfo) (h : list scall) : option (adq b * option sginfo) :=
    match h with [] => Some st | c :: h' => match sstep st c with Some st' => srun st' h' | None => None end end.

  (** the independent variables selected by the last call that selects them, and the dependent
      variables used since then *)
  Definition selected1 (o : option (list bool)) (c : scall) := match c with SSel sel | SSpar sel _ _ => Some sel | _ => o end.
  Definition selected (h : list scall) : option (list bool) := fold_left selected1 h None.
  Definition used1 (u : nat -> bool) (c : scall) : nat -> bool :=
    match c with
    | SSel _ => fun _ => false
    | SSpar _ range _ => fun i => nth i range false
    | SRev _ ell _ _ => fun i => (i =? ell) || u i
    | SDrv _ => u
    end.
  Definition used (h : list scall) : nat -> bool := fold_left used1 h (fun _ => false).
End Hist.
Arguments scall : clear implicits.

Lemma NoDup_app2 {A} (l1 l2 : list A) : NoDup l1 -> NoDup l2 -> (forall x, In x l1 -> ~ In x l2) -> NoDup (l1 ++ l2).
Proof.
  induction 1 as [|x l1 H N IH]; intros N2 D; cbn [app]; auto. constructor.
  - rewrite in_app_iff. intros [K|K]; [auto|]. exact (D x (or_introl eq_refl) K).
  - apply IH; auto. intros y Hy. apply D. now right.
Qed.
Section Rows.
  Context (np n : nat) (l : list ins) (dep : list nat).
  Hypothesis TK : tape_ok np n l dep.
  Context (sel : list bool).
  Notation m := (length dep).
  Lemma sg_rows_ok : forall range i s, i + length range = m -> sg_ok n l dep sel s -> (forall k, i <= k -> s_proc s k = false) ->
    exists rc s', sg_rows l dep range i s = Some (rc, s') /\ sg_ok n l dep sel s' /\
      (forall k, s_proc s' k = s_proc s k || (i <=? k) && nth (k - i) range false) /\ NoDup rc /\
      (forall r j, In (r, j) rc <-> i <= r < m /\ nth (r - i) range false = true /\ j < n /\ nth j sel false = true /\ uses l (nth r dep 0) (S j)).
  Proof.
    induction range as [|t range IH]; intros i s Li SO PR; cbn [length] in Li; cbn [sg_rows].
    - exists [], s. split; [auto|]. split; [auto|]. split; [|split; [constructor|]].
      + intros k. replace (nth (k - i) [] false) with false by (destruct (k - i); reflexivity). now rewrite andb_false_r, orb_false_r.
      + intros r j. split; [intros []|]. intros (H & _). lia.
    - destruct t.
      + destruct (get_rev_total np n l dep TK sel i s ltac:(lia) SO (PR i (Nat.le_refl i))) as (sg & s1 & -> & SO1 & P1 & ND & HS).
        destruct (IH (S i) s1) as (rc & s2 & -> & SO2 & P2 & N2 & H2); [lia|auto| |].
        { intros k Hk. rewrite P1. unfold upd_at. destruct (Nat.eqb_spec k i); [lia|]. apply PR. lia. }
        eexists _, s2. split; [reflexivity|]. split; [auto|].
        set (row := map _ _). assert (forall r j, In (r, j) row <-> r = i /\ j < n /\ nth j sel false = true /\ uses l (nth i dep 0) (S j)) as HR.
        { intros r j. unfold row. rewrite in_map_iff. split.
          - intros (x & [= <- <-] & Hx). apply filter_In in Hx as [Hx HI]. apply HS in Hx as [Dx (ix & Ei & Ni & Ui)]. rewrite Ei in HI.
            assert (i_op ix = InvOp) as O by (destruct (i_op ix); auto; discriminate). destruct (k_inv _ _ _ _ TK _ _ Ei O) as [Hx V].
            rewrite (Dep_inv _ _ _ _ TK sel _ _ Ei O) in Dx. rewrite V in Ui. replace (S (x - 1)) with x by lia. split; [auto|]. split; [lia|auto].
          - intros (-> & Hj & Sj & Uj). exists (S j). split; [f_equal; lia|]. pose proof (k_inv2 _ _ _ _ TK j Hj) as E2. apply filter_In. rewrite E2. split; [|reflexivity].
            apply HS. split.
            + apply (Dep_inv _ _ _ _ TK sel _ _ E2 eq_refl). cbn. now rewrite Nat.sub_0_r.
            + eexists. split; [exact E2|]. cbn. split; [lia|auto]. }
        split; [|split].
        * intros k. rewrite P2, P1. unfold upd_at. destruct (Nat.eqb_spec k i) as [->|NE].
          -- rewrite Nat.sub_diag, Nat.leb_refl. cbn. now rewrite orb_true_r.
          -- destruct (Nat.leb_spec (S i) k), (Nat.leb_spec i k); cbn [andb]; try lia; auto.
             replace (k - i) with (S (k - S i)) by lia. reflexivity.
        * assert (NoDup row) as NR.
          { unfold row. assert (forall t, NoDup t -> (forall x, In x t -> 0 < x) -> NoDup (map (fun iop => (i, iop - 1)) t)) as K.
            { induction t as [|x t IHt]; intros N1 N3; cbn [map]; constructor.
              - intros Hin. apply in_map_iff in Hin as (x' & E & Hx'). injection E as E. pose proof (N3 x (or_introl eq_refl)). pose proof (N3 x' (or_intror Hx')).
                assert (x' = x) by lia. subst. inversion N1; contradiction.
              - apply IHt; [now inversion N1|]. intros; apply N3; now right. }
            apply K; [apply NoDup_filter; auto|]. intros x Hx. apply filter_In in Hx as [Hx HI]. destruct (nth_error l x) as [ix|] eqn:Ei; [|discriminate].
            assert (i_op ix = InvOp) as O by (destruct (i_op ix); auto; discriminate). destruct (k_inv _ _ _ _ TK _ _ Ei O). lia. }
          apply NoDup_app2; auto. intros [r j] I1 I2. apply HR in I1. apply H2 in I2. lia.
        * intros r j. rewrite in_app_iff, HR, H2. split.
          -- intros [(-> & H)|(H & H')]; [split; [lia|]; rewrite Nat.sub_diag; tauto|]. split; [lia|]. replace (r - i) with (S (r - S i)) by lia. exact H'.
          -- intros (H & H'). destruct (Nat.eq_dec r i) as [->|NE]; [left; tauto|right]. split; [lia|]. replace (r - i) with (S (r - S i)) in H' by lia. exact H'.
      + destruct (IH (S i) s) as (rc & s2 & -> & SO2 & P2 & N2 & H2); [lia|auto|intros; apply PR; lia|].
        eexists _, s2. split; [reflexivity|]. split; [auto|]. split; [|split; [auto|]].
        * intros k. rewrite P2. f_equal. destruct (Nat.leb_spec (S i) k), (Nat.leb_spec i k); cbn [andb]; try lia; auto.
          -- replace (k - i) with (S (k - S i)) by lia. reflexivity.
          -- replace (k - i) with 0 by lia. reflexivity.
        * intros r j. rewrite H2. split.
          -- intros (H & H'). split; [lia|]. replace (r - i) with (S (r - S i)) by lia. exact H'.
          -- intros (H & H'). destruct (Nat.eq_dec r i) as [->|NE]; [rewrite Nat.sub_diag in H'; cbn in H'; destruct H'; discriminate|]. split; [lia|]. replace (r - i) with (S (r - S i)) in H' by lia. exact H'.
  Qed.
End Rows.

Section Fields.
  Context {b : base}.
  Variable bnat : nat -> bt b.
  Variable junk : nat -> bt b.
  Lemma cap2_fields (f f' : adq b) c r : capacity2 junk f c r = Some f' -> d_n f' = d_n f /\ d_dep f' = d_dep f.
  Proof.
    unfold capacity2. intros H.
    repeat match type of H with (if ?x then _ else _) = _ => destruct x end; try discriminate; injection H as <-; auto.
  Qed.
  Lemma dstep_fields (f f' : adq b) c : dstep bnat junk f c = Some f' -> d_n f' = d_n f /\ d_dep f' = d_dep f.
  Proof.
    intros H. destruct c as [q xq|q r xq|q w|c|d]; cbn [dstep] in *.
    - destruct (forward bnat junk f q xq) as [[ys f1]|] eqn:F; [|discriminate]. injection H as <-.
      unfold forward in F. do 3 (destruct (negb _); [discriminate|]). set (p := q + 1 - length xq / d_n f) in *.
      destruct (if (d_cap f <=? q) || negb (d_dir f =? 1) then _ else _) as [f2|] eqn:EC; [|discriminate].
      destruct (decode _ _ _); [|discriminate].
      match type of F with match ?x with _ => _ end = _ => destruct x; [|discriminate] end.
      injection F as <- <-. cbn. auto.
    - destruct (forward_r bnat junk f q r xq) as [[ys f1]|] eqn:F; [|discriminate]. injection H as <-.
      unfold forward_r in F. destruct (q =? 0); [discriminate|]. do 3 (destruct (negb _); [discriminate|]).
      destruct (if (d_cap f <=? q) || negb (d_dir f =? r) then _ else _) as [f2|] eqn:EC; [|discriminate].
      destruct (decode _ _ _); [|discriminate]. destruct (sweep_dir _ _ _ _ _ _ _ _ _); [|discriminate].
      injection F as <- <-. cbn. auto.
    - destruct (reverse bnat junk f q w) as [[z f1]|] eqn:F; [|discriminate]. injection H as <-. cbn [snd].
      unfold reverse in F. do 3 (destruct (negb _); [discriminate|]).
      destruct ((q =? 1) && (1 <? d_dir f)).
      + destruct (capacity2 junk (set_ord f 1) (d_cap f) 1) as [f2|] eqn:EC; [|discriminate]. apply cap2_fields in EC.
        destruct (negb _); [discriminate|]. destruct (decode _ _ _); [|discriminate]. injection F as <- <-. exact EC.
      + destruct (negb _); [discriminate|]. destruct (decode _ _ _); [|discriminate]. injection F as <- <-. auto.
    - unfold capacity_order in H. repeat match type of H with (if ?x then _ else _) = _ => destruct x end; eapply cap2_fields; eauto.
    - injection H as <-. auto.
  Qed.
End Fields.

Section Prop17.
  Context {b : base} (L : base_laws b).
  Notation T := (bt b).
  Variable bnat : nat -> T.
  Variable junk : nat -> T.
  Variable ZL : zero_laws b bnat.
  Context (tid : nat) (cmp : bool) (n np : nat) (e : nat -> AD b) (ev : nat -> VecAD b) (p : prog T) (V0 : nat -> T) (l0 : nat -> nat) (f : adfun b).
  Hypothesis REC : recorded tid cmp n np e ev p V0 l0 f.
  Variable l : list ins.
  Hypothesis OPS : decode (r_op (g_rec f)) (r_arg (g_rec f)) 0 = Some l.

  Lemma tk : tape_ok (length (r_par (g_rec f))) (g_n f) l (g_dep f).
  Proof. destruct (recorded_tape_ok L _ _ _ _ _ _ _ _ _ _ REC) as [D K]. rewrite OPS in D. injection D as ->. exact K. Qed.

  Definition hinv (h : list (scall b)) (st : adq b * option sginfo) : Prop :=
    let g := fst st in
    d_rec g = g_rec f /\ d_n g = g_n f /\ d_dep g = g_dep f /\ book_inv g /\
    match selected h, snd st with
    | None, None => True
    | Some sel, Some s => length sel = g_n f /\ sg_ok (g_n f) l (g_dep f) sel s /\ (forall i, i < length (g_dep f) -> s_proc s i = used h i)
    | _, _ => False
    end.

  Lemma sel_ok sel : length sel = g_n f -> exists s, select_domain (g_rec f) (g_n f) (g_dep f) sel = Some s /\ sg_ok (g_n f) l (g_dep f) sel s /\ (forall i, s_proc s i = false).
  Proof.
    intros LS. unfold select_domain. rewrite LS, Nat.eqb_refl, OPS. cbn [negb].
    destruct (init_rev_ok _ _ _ _ tk sel) as (s & -> & SO & PR); eauto.
  Qed.

  Lemma sstep_ok h st c st' : hinv h st -> sstep bnat junk st c = Some st' -> hinv (h ++ [c]) st'.
  Proof.
    destruct st as [g si]. intros (E1 & E2 & E3 & BI & IV) H. cbn [fst snd] in *. unfold hinv, selected, used in *.
    rewrite !fold_left_app. cbn [fold_left]. fold (selected h) (used h) in *.
    destruct c as [sel|q ell p0 dw0|sel range tr|c]; cbn [sstep selected1 used1] in *.
    - rewrite E1, E2, E3 in H. destruct (Nat.eq_dec (length sel) (g_n f)) as [LS|NS].
      + destruct (sel_ok sel LS) as (s & Es & SO & PR). rewrite Es in H. injection H as <-. cbn [fst snd]. auto 10.
      + unfold select_domain in H. rewrite (proj2 (Nat.eqb_neq _ _) NS) in H. discriminate.
    - destruct si as [s|]; [|discriminate].
      destruct (subgraph_reverse bnat g s q ell p0 dw0) as [[[col dw] s']|] eqn:SR; [|discriminate]. injection H as <-. cbn [fst snd].
      destruct (selected h) as [sel|]; [|contradiction]. destruct IV as (LS & SO & PR). repeat (split; [assumption|]).
      unfold subgraph_reverse in SR. rewrite E1, E3, OPS in SR.
      repeat match type of SR with (if ?x then _ else _) = _ => let H := fresh "C" in destruct x eqn:H; [discriminate|] end.
      apply negb_false_iff, Nat.ltb_lt in C2.
      destruct (get_rev_total _ _ _ _ tk sel ell s C2 SO C3) as (sg0 & s1 & G & SO' & PR' & _). rewrite G in SR.
      destruct (zero_ops _ _ _ _); [|discriminate]. destruct (sweep_sub _ _ _ _ _ _ _ _ _); [|discriminate]. injection SR as <- <- <-.
      split; [assumption|]. intros i Hi. rewrite PR'. unfold upd_at. destruct (i =? ell); auto. cbn. now apply PR.
    - rewrite E1, E2, E3 in H. unfold subgraph_sparsity in H.
      destruct (Nat.eqb_spec (length sel) (g_n f)) as [LS|]; [|discriminate]. destruct (Nat.eqb_spec (length range) (length (g_dep f))) as [LR|]; [|discriminate].
      cbn [andb negb] in H. rewrite OPS in H. destruct (init_rev_ok _ _ _ _ tk sel) as (s & Es & SO & PR). rewrite Es in H.
      destruct (sg_rows_ok _ _ _ _ tk sel range 0 s LR SO ltac:(auto)) as (rc & s' & Er & SO' & PR' & _). rewrite Er in H. injection H as <-. cbn [fst snd].
      repeat (split; [assumption|]). intros i Hi. now rewrite PR', PR, Nat.sub_0_r.
    - destruct (dstep bnat junk g c) as [g'|] eqn:D; [|discriminate]. injection H as <-. cbn [fst snd].
      destruct (dstep_book bnat junk g g' c BI D) as (B1 & B2 & B3). destruct (dstep_fields bnat junk g g' c D) as (F1 & F2).
      split; [congruence|]. split; [congruence|]. split; [congruence|]. auto.
  Qed.
  Lemma srun_ok h2 : forall h st st', hinv h st -> srun bnat junk st h2 = Some st' -> hinv (h ++ h2) st'.
  Proof.
    induction h2 as [|c h2 IH]; intros h st st' I H; cbn [srun] in H.
    - injection H as <-. now rewrite app_nil_r.
    - destruct (sstep bnat junk st c) as [st1|] eqn:E; [|discriminate]. replace (h ++ c :: h2) with ((h ++ [c]) ++ h2) by (now rewrite <- app_assoc).
      eapply IH; eauto. eapply sstep_ok; eauto.
  Qed.

  (** ** The theorems: after any sequence [h] of subgraph_reverse, subgraph_sparsity, Forward,
      Reverse, capacity_order and new_dynamic calls *)
  Context (h : list (scall b)) (g : adq b) (si : option sginfo).
  Hypothesis RUN : srun bnat junk (drv_of junk f, None) h = Some (g, si).
  Lemma hist_inv : hinv h (g, si).
  Proof.
    apply (srun_ok h [] (drv_of junk f, None) (g, si)); auto. repeat split; auto. unfold book_inv. cbn. lia.
  Qed.

  (** a selection is accepted exactly when it has one element for every independent variable *)
  Theorem subgraph_select_accepted_iff : forall sel,
    (exists s, select_domain (d_rec g) (d_n g) (d_dep g) sel = Some s) <-> length sel = g_n f.
  Proof.
    intros sel. destruct hist_inv as (E1 & E2 & E3 & _). cbn [fst] in *. rewrite E1, E2, E3. split.
    - intros [s H]. unfold select_domain in H. destruct (Nat.eqb_spec (length sel) (g_n f)); auto. discriminate.
    - intros LS. destruct (sel_ok sel LS) as (s & -> & _). eauto.
  Qed.

  (** subgraph_reverse is accepted exactly when independent variables have been selected, the
      order is available, there is one direction and the component was not used since *)
  Theorem subgraph_reverse_accepted_iff : forall q ell p0 dw0,
    (exists r, sstep bnat junk (g, si) (SRev q ell p0 dw0) = Some r) <->
      (exists sel, selected h = Some sel) /\ 0 < q <= d_ord g /\ d_dir g = 1 /\ ell < length (g_dep f) /\ used h ell = false.
  Proof.
    intros q ell p0 dw0. destruct hist_inv as (E1 & E2 & E3 & BI & IV). cbn [fst snd sstep] in *. split.
    - intros [r H]. destruct si as [s|]; [|discriminate]. destruct (selected h) as [sel|]; [|contradiction]. destruct IV as (LS & SO & PR).
      destruct (subgraph_reverse bnat g s q ell p0 dw0) as [[[col dw] s']|] eqn:SR; [|discriminate].
      unfold subgraph_reverse in SR. rewrite E3 in SR.
      repeat match type of SR with (if ?x then _ else _) = _ => let H := fresh "C" in destruct x eqn:H; [discriminate|] end.
      apply negb_false_iff, Nat.ltb_lt in C. apply negb_false_iff, Nat.leb_le in C0. apply negb_false_iff, Nat.eqb_eq in C1. apply negb_false_iff, Nat.ltb_lt in C2.
      rewrite <- PR by auto. eauto 10.
    - intros ((sel & ES) & Hq & HD & HE & U). rewrite ES in IV. destruct si as [s|]; [|contradiction]. destruct IV as (LS & SO & PR).
      assert (tape_ok (length (r_par (d_rec g))) (d_n g) l (d_dep g)) as TK by (rewrite E1, E2, E3; exact tk).
      destruct (subgraph_reverse_ok bnat junk ZL _ l g sel ltac:(congruence) TK s q ell p0 dw0) as (col & dw & s' & -> & _); eauto; try congruence.
      all: rewrite ?E2, ?E3; auto.
  Qed.

  (** The columns are exactly the selected independent variables from which the component is
      computed, in increasing order; there the result is what Reverse computes with the unit
      weight, and Reverse computes zero for every selected variable that is omitted.
      [pow_ins]: no pow(variable, parameter) with zero base; no VecAD element is read. *)
  Theorem subgraph_reverse_columns : forall sel q ell p0 dw0 s col dw s', selected h = Some sel -> si = Some s ->
    subgraph_reverse bnat g s q ell p0 dw0 = Some (col, dw, s') ->
    StronglySorted lt col /\ length dw = g_n f * q /\
    (forall j, In j col <-> j < g_n f /\ nth j sel false = true /\ uses l (nth ell (g_dep f) 0) (S j)).
  Proof.
    intros sel q ell p0 dw0 s col dw s' ES Esi H. pose proof (proj1 (subgraph_reverse_accepted_iff q ell p0 dw0)) as AC.
    cbn [sstep] in AC. rewrite Esi, H in AC. destruct (AC ltac:(eauto)) as (_ & Hq & HD & HE & U). clear AC.
    destruct hist_inv as (E1 & E2 & E3 & BI & IV). cbn [fst snd] in *. rewrite ES, Esi in IV. destruct IV as (LS & SO & PR).
    assert (tape_ok (length (r_par (d_rec g))) (d_n g) l (d_dep g)) as TK by (rewrite E1, E2, E3; exact tk).
    assert (decode (r_op (d_rec g)) (r_arg (d_rec g)) 0 = Some l) as DC by congruence.
    assert (sg_ok (d_n g) l (d_dep g) sel s) as SO2 by (rewrite E2, E3; auto).
    destruct (subgraph_reverse_ok bnat junk ZL _ l g sel DC TK s q ell p0 dw0 SO2 Hq HD ltac:(congruence) ltac:(rewrite PR; auto))
      as (col1 & dw1 & s1 & H1 & _ & _ & S1 & C1 & L1 & _).
    rewrite H in H1. injection H1 as <- <- <-. rewrite E2, E3 in *. auto.
  Qed.
  Theorem subgraph_reverse_is_reverse : forall sel q ell p0 dw0 s col dw s', selected h = Some sel -> si = Some s ->
    (forall i, In i l -> is_load (i_op i) = false) -> (forall i, In i l -> pow_ins (view1 g) i) ->
    subgraph_reverse bnat g s q ell p0 dw0 = Some (col, dw, s') ->
    exists z, reverse bnat junk g q (unit_weight b0 b1 (length (g_dep f)) q ell) = Some (z, g) /\
      forall j k, j < g_n f -> k < q ->
        (In j col -> nth (j * q + k) dw b0 = nth (j * q + k) z b0) /\
        (~ In j col -> nth j sel false = true -> nth (j * q + k) z b0 = b0).
  Proof.
    intros sel q ell p0 dw0 s col dw s' ES Esi NL PW H. pose proof (proj1 (subgraph_reverse_accepted_iff q ell p0 dw0)) as AC.
    cbn [sstep] in AC. rewrite Esi, H in AC. destruct (AC ltac:(eauto)) as (_ & Hq & HD & HE & U). clear AC.
    destruct hist_inv as (E1 & E2 & E3 & BI & IV). cbn [fst snd] in *. rewrite ES, Esi in IV. destruct IV as (LS & SO & PR).
    assert (tape_ok (length (r_par (d_rec g))) (d_n g) l (d_dep g)) as TK by (rewrite E1, E2, E3; exact tk).
    assert (decode (r_op (d_rec g)) (r_arg (d_rec g)) 0 = Some l) as DC by congruence.
    assert (sg_ok (d_n g) l (d_dep g) sel s) as SO2 by (rewrite E2, E3; auto).
    destruct (subgraph_reverse_ok bnat junk ZL _ l g sel DC TK s q ell p0 dw0 SO2 Hq HD ltac:(congruence) ltac:(rewrite PR; auto))
      as (col1 & dw1 & s1 & H1 & _ & _ & S1 & C1 & L1 & K).
    rewrite H in H1. injection H1 as <- <- <-. destruct (K NL PW) as (z & R & Z). rewrite E2, E3 in *. exists z. split; auto.
    intros j k Hj Hk. destruct (Z j k Hj Hk). auto.
  Qed.

  (** subgraph_sparsity: accepted exactly when the sizes are right; the pattern has no duplicate
      and contains exactly the pairs of a selected component and a selected independent variable
      from which it is computed *)
  Theorem subgraph_sparsity_exact : forall sel range tr,
    ((exists r, subgraph_sparsity (d_rec g) (d_n g) (d_dep g) sel range tr = Some r) <-> length sel = g_n f /\ length range = length (g_dep f)) /\
    (forall pat s, subgraph_sparsity (d_rec g) (d_n g) (d_dep g) sel range tr = Some (pat, s) ->
       NoDup pat /\
       forall i j, In (if tr then (j, i) else (i, j)) pat <->
         i < length (g_dep f) /\ nth i range false = true /\ j < g_n f /\ nth j sel false = true /\ uses l (nth i (g_dep f) 0) (S j)).
  Proof.
    intros sel range tr. destruct hist_inv as (E1 & E2 & E3 & _). cbn [fst] in *. rewrite E1, E2, E3. unfold subgraph_sparsity.
    destruct (Nat.eqb_spec (length sel) (g_n f)) as [LS|NS]; cbn [andb negb].
    2: { split; [split; [intros [r H]; discriminate|intros [H _]; contradiction]|discriminate]. }
    destruct (Nat.eqb_spec (length range) (length (g_dep f))) as [LR|NR]; cbn [andb negb].
    2: { split; [split; [intros [r H]; discriminate|intros [_ H]; contradiction]|discriminate]. }
    rewrite OPS. destruct (init_rev_ok _ _ _ _ tk sel) as (s & -> & SO & PR).
    destruct (sg_rows_ok _ _ _ _ tk sel range 0 s LR SO ltac:(auto)) as (rc & s' & -> & SO' & PR' & ND & HR).
    split; [split; eauto|]. intros pat s2 H. injection H as <- <-. split.
    - destruct tr; auto. clear HR. induction ND as [|[x y] rc N ND IH]; cbn [map]; constructor; auto.
      intros H. apply in_map_iff in H as ([x' y'] & E & H). injection E as -> ->. contradiction.
    - intros i j. transitivity (In (i, j) rc).
      + destruct tr; [|tauto]. split.
        * intros H. apply in_map_iff in H as ([x' y'] & E & H). injection E as -> ->. auto.
        * intros H. apply in_map_iff. exists (i, j). auto.
      + rewrite HR, Nat.sub_0_r. intuition lia.
  Qed.
End Prop17.

(** The pattern is conservative: component [i] does not change when only independent variables
    outside its row change, whatever the calls of new_dynamic and Forward before
    (no VecAD element is read). *)
Section Cons.
  Context {b : base} (L : base_laws b).
  Notation T := (bt b).
  Context (tid : nat) (cmp : bool) (n np : nat) (e : nat -> AD b) (ev : nat -> VecAD b) (p : prog T) (V0 : nat -> T) (l0 : nat -> nat) (f : adfun b).
  Hypothesis REC : recorded tid cmp n np e ev p V0 l0 f.
  Theorem subgraph_sparsity_conservative : forall l sel range tr pat s hs g x x' y y' g1 g1' i,
    decode (r_op (g_rec f)) (r_arg (g_rec f)) 0 = Some l -> (forall i, In i l -> is_load (i_op i) = false) ->
    subgraph_sparsity (g_rec f) (g_n f) (g_dep f) sel range tr = Some (pat, s) ->
    run f hs = Some g -> length x = n -> length x' = n -> forward0 g x = Some (y, g1) -> forward0 g x' = Some (y', g1') ->
    i < length (g_dep f) -> nth i range false = true ->
    (forall j, j < n -> In (if tr then (j, i) else (i, j)) pat \/ nth j sel false = false -> nth j x b0 = nth j x' b0) ->
    nth i y b0 = nth i y' b0.
  Proof.
    intros l sel range tr pat s hs g x x' y y' g1 g1' i OPS NL SP RUN Hx Hx' F F' Hi Ri AG.
    destruct (run_fields hs f g RUN) as (E1 & E2 & E3). destruct (recorded_rtape L _ _ _ _ _ _ _ _ _ _ REC) as [RT EN].
    assert (l = head_ins n ++ body n (g_rec f)) as El by (pose proof (t_dec _ _ _ _ RT); congruence).
    destruct (forward0_sweep L _ _ _ _ _ _ _ _ _ _ REC g g1 x y E1 E3 Hx F) as (V & t & S1 & S2 & S3 & S4 & S5).
    destruct (forward0_sweep L _ _ _ _ _ _ _ _ _ _ REC g g1' x' y' E1 E3 Hx' F') as (V' & t' & S1' & S2' & S3' & S4' & S5').
    set (yi := nth i (g_dep f) 0).
    pose proof (tk L _ _ _ _ _ _ _ _ _ _ REC l OPS) as TK.
    assert (f_V t yi = f_V t' yi) as K.
    { refine (rtape_agree _ _ _ _ RT (g_par g) (g_cc g) true (uses l yi) (fun _ => False) V V' _ _ t t' _ S1 S1' _ _ yi _ _).
      - assert (forall l2, (forall i, In i l2 -> In i l) -> closed true (uses l yi) (fun _ => False) l2) as K.
        { induction l2 as [|ix l2 IH]; intros SB; cbn [closed]; auto. exists (fun _ => False). split; [|apply IH; intros; apply SB; now right].
          split; [intros ? []|]. pose proof (SB ix (or_introl eq_refl)) as Ix. pose proof (NL ix Ix) as Nx.
          assert (0 < num_res (i_op ix) -> uses l yi (i_var ix) -> Forall (uses l yi) (var_args (i_op ix) (i_arg ix))) as Q.
          { intros N U. apply Forall_forall. intros z Hz. eapply uses_trans; [exact U|]. econstructor; eauto. constructor. }
          destruct (i_op ix) eqn:O; try discriminate Nx; cbn [rel_args]; try exact Q; try (now intros []); try exact I.
          intros N U. specialize (Q N U). cbn [var_args] in Q. rewrite <- !app_assoc. rewrite <- ?app_assoc in Q. exact Q. }
        apply K. intros ix Hx2. rewrite El. apply in_or_app. now right.
      - discriminate.
      - intros j Hj U. rewrite S2, S2' by auto. apply AG; auto.
        destruct (nth j sel false) eqn:SJ; [left|now right].
        unfold subgraph_sparsity in SP. destruct (Nat.eqb_spec (length sel) (g_n f)) as [LS|NS]; [|discriminate].
        destruct (Nat.eqb_spec (length range) (length (g_dep f))) as [LR|NR]; [|discriminate]. cbn [andb negb] in SP.
        rewrite OPS in SP. destruct (init_rev_ok _ _ _ _ TK sel) as (s0 & Es & SO & PR). rewrite Es in SP.
        destruct (sg_rows_ok _ _ _ _ TK sel range 0 s0 LR SO ltac:(auto)) as (rc & s' & Er & _ & _ & _ & HR). rewrite Er in SP. injection SP as <- <-.
        assert (In (i, j) rc) as R. { apply HR. rewrite Nat.sub_0_r. repeat split; auto; try lia. }
        destruct tr; auto. apply in_map_iff. exists (i, j). auto.
      - pose proof (t_dep _ _ _ _ RT) as DP. rewrite Forall_forall in DP. apply DP. now apply nth_In.
      - constructor. }
    rewrite S3, S3'. rewrite (nth_indep _ b0 (f_V t 0)) by (rewrite map_length; auto). rewrite (map_nth (f_V t)).
    rewrite (nth_indep (map (f_V t') _) b0 (f_V t' 0)) by (rewrite map_length; auto). rewrite (map_nth (f_V t')). exact K.
  Qed.
End Cons.
