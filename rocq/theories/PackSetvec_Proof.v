(** Proofs that the packed-bit set vector refines [SetVec_Spec]. *)
From stdpp Require Import list numbers option.
From Coq Require Import Lia ZifyBool ZifyNat ZifyN.
From Verif Require Import SetVec_Spec PackSetvec_Model.
Ltac Zify.zify_post_hook ::= Z.div_mod_to_equations.

Section Proof.
Variable nbit : nat.
Hypothesis nbit_pos : 0 < nbit.
Notation shl := (shl nbit).

Definition word_ok (w : N) (f : nat -> bool) (base : nat) : Prop :=
  forall k : nat, N.testbit w (N.of_nat k) = (k <? nbit) && f (base + k).

Lemma shl_pow k : k < nbit -> shl 1 k = (2 ^ N.of_nat k)%N.
Proof.
  intros H. unfold PackSetvec_Model.shl. rewrite N.shiftl_1_l.
  apply N.mod_small. apply N.pow_lt_mono_r; lia.
Qed.
Lemma shl_next k : S k < nbit -> shl (2 ^ N.of_nat k) 1 = (2 ^ N.of_nat (S k))%N.
Proof.
  intros H. unfold PackSetvec_Model.shl. rewrite N.shiftl_mul_pow2.
  replace (2 ^ N.of_nat k * 2 ^ N.of_nat 1)%N with (2 ^ N.of_nat (S k))%N.
  - apply N.mod_small. apply N.pow_lt_mono_r; lia.
  - rewrite <- N.pow_add_r. f_equal. lia.
Qed.

Lemma land_pow w k : N.land w (2 ^ N.of_nat k) ≠ 0%N <-> N.testbit w (N.of_nat k) = true.
Proof.
  split; intros H.
  - destruct (N.testbit w (N.of_nat k)) eqn:E; [reflexivity|]. exfalso; apply H.
    apply N.bits_inj_0. intros n. rewrite N.land_spec, N.pow2_bits_eqb.
    destruct (N.eqb_spec (N.of_nat k) n) as [<-|]; [rewrite E; reflexivity|apply andb_false_r].
  - intros E. assert (N.testbit (N.land w (2 ^ N.of_nat k)) (N.of_nat k) = true) as E2.
    { rewrite N.land_spec, H, N.pow2_bits_true. reflexivity. }
    rewrite E, N.bits_0 in E2. discriminate.
Qed.

Lemma testbit_nat_ext w w' : (forall k : nat, N.testbit w (N.of_nat k) = N.testbit w' (N.of_nat k)) -> w = w'.
Proof. intros H. apply N.bits_inj. intros n. specialize (H (N.to_nat n)). rewrite N2Nat.id in H. exact H. Qed.

Definition cont (v : sv) (i e : nat) : bool := sv_mem v i e || sv_pend v i e.

(** the packed words represent [f], a vector of [n] sets of elements below [lim] *)
Definition repf (n lim : nat) (f : nat -> nat -> bool) (np : nat) (d : list N) : Prop :=
  np = 1 + (lim - 1) / nbit /\ length d = n * np /\
  (forall i j, i < n -> j < np -> exists w, d !! (i * np + j) = Some w /\ word_ok w (f i) (j * nbit)) /\
  (forall i e, i < n -> lim <= e -> f i e = false).

Definition Rep (p : pk) (v : sv) : Prop :=
  pk_n_set p = sv_n v /\ pk_end p = sv_lim v /\
  (sv_n v <> 0 -> 0 < sv_lim v /\ repf (sv_n v) (sv_lim v) (cont v) (pk_n_pack p) (pk_data p)).

Lemma idx_inj np i j i' j' : j < np -> j' < np -> i * np + j = i' * np + j' -> i = i' /\ j = j'.
Proof. intros H1 H2 E. assert (i = i') by nia. subst. split; lia. Qed.

Lemma elem_word e lim : e < lim -> e / nbit < 1 + (lim - 1) / nbit.
Proof. intros H. assert (e / nbit <= (lim - 1) / nbit) by (apply Nat.div_le_mono; lia). lia. Qed.

Lemma idx_lt np i j n : i < n -> j < np -> i * np + j < n * np.
Proof. nia. Qed.

Lemma wget_elem n lim f np d i e :
  repf n lim f np d -> i < n -> e < lim ->
  exists w, d !! (i * np + e / nbit) = Some w /\ N.testbit w (N.of_nat (e mod nbit)) = f i e
     /\ word_ok w (f i) (e / nbit * nbit).
Proof.
  intros (Hnp & Hl & Hw & Hz) Hi He.
  destruct (Hw i (e / nbit) Hi) as (w & E & W); [subst np; apply elem_word; lia|].
  exists w. split; [exact E|]. split; [|exact W]. rewrite (W (e mod nbit)).
  assert (e mod nbit < nbit) by (apply Nat.mod_upper_bound; lia).
  destruct (Nat.ltb_spec (e mod nbit) nbit) as [_|]; [|lia]. cbn [andb]. f_equal.
  pose proof (Nat.div_mod_eq e nbit). lia.
Qed.

Lemma wset_ok d i v : i < length d -> wset d i v = Some (<[i:=v]> d).
Proof. intros H. unfold wset. destruct (decide (i < length d)); [reflexivity|lia]. Qed.

(** replacing one set *)
Lemma repf_upd n lim f np d d' i g :
  repf n lim f np d -> i < n ->
  length d' = length d ->
  (forall j, j < np -> exists w, d' !! (i * np + j) = Some w /\ word_ok w g (j * nbit)) ->
  (forall k j, k < n -> k <> i -> j < np -> d' !! (k * np + j) = d !! (k * np + j)) ->
  (forall e, lim <= e -> g e = false) ->
  repf n lim (upd_set f i g) np d'.
Proof.
  intros (Hnp & Hl & Hw & Hz) Hi Hl' Hnew Hold Hg.
  repeat split; [exact Hnp|congruence| |].
  - intros k j Hk Hj. unfold upd_set. destruct (Nat.eqb_spec k i) as [->|Hne].
    + exact (Hnew j Hj).
    + rewrite Hold by assumption. exact (Hw k j Hk Hj).
  - intros k e Hk He. unfold upd_set. destruct (Nat.eqb_spec k i) as [->|Hne]; [exact (Hg e He)|exact (Hz k e Hk He)].
Qed.

Lemma repf_ext n lim f g np d : (forall i e, i < n -> f i e = g i e) -> repf n lim f np d -> repf n lim g np d.
Proof.
  intros H (Hnp & Hl & Hw & Hz). repeat split; [exact Hnp|exact Hl| |].
  - intros i j Hi Hj. destruct (Hw i j Hi Hj) as (w & E & W). exists w; split; [exact E|].
    intros k. rewrite (W k), H by exact Hi. reflexivity.
  - intros i e Hi He. rewrite <- H by exact Hi. exact (Hz i e Hi He).
Qed.

Lemma np_one n lim f d : repf n lim f (1 + (lim-1)/nbit) d -> lim = 1 -> 1 + (lim-1)/nbit = 1.
Proof. intros _ ->. cbn. rewrite Nat.div_0_l by lia. lia. Qed.

Lemma add_ok p v i e :
  Rep p v -> i < sv_n v -> e < sv_lim v ->
  exists d', pk_add nbit p i e = Some {| pk_n_set := pk_n_set p; pk_end := pk_end p; pk_n_pack := pk_n_pack p; pk_data := d' |}
   /\ repf (sv_n v) (sv_lim v) (upd_set (cont v) i (fun x => Nat.eqb x e || cont v i x)) (pk_n_pack p) d'.
Proof.
  intros (Hn & Hend & HR) Hi He.
  destruct HR as (Hlim & HR); [lia|].
  set (np := pk_n_pack p) in *.
  assert (Hsame : forall pos mask, pos = i * np + e / nbit -> mask = (2 ^ N.of_nat (e mod nbit))%N ->
     exists d', (w ← wget (pk_data p) pos; d ← wset (pk_data p) pos (N.lor w mask);
        Some {| pk_n_set := pk_n_set p; pk_end := pk_end p; pk_n_pack := pk_n_pack p; pk_data := d |})
      = Some {| pk_n_set := pk_n_set p; pk_end := pk_end p; pk_n_pack := pk_n_pack p; pk_data := d' |}
   /\ repf (sv_n v) (sv_lim v) (upd_set (cont v) i (fun x => Nat.eqb x e || cont v i x)) np d').
  { intros pos mask -> ->.
    destruct (wget_elem _ _ _ _ _ i e HR Hi He) as (w & E & B & W).
    unfold wget. rewrite E. cbn [mbind option_bind].
    assert (Hpos : i * np + e / nbit < length (pk_data p)) by (apply lookup_lt_is_Some; eauto).
    rewrite wset_ok by exact Hpos. cbn [mbind option_bind].
    eexists; split; [reflexivity|].
    assert (Hm : e mod nbit < nbit) by (apply Nat.mod_upper_bound; lia).
    pose proof (Nat.div_mod_eq e nbit) as Hdm.
    pose proof HR as (Hnp & Hl & Hw & Hz).
    assert (Hj : e / nbit < np) by (rewrite Hnp; apply elem_word; lia).
    eapply repf_upd; [exact HR|exact Hi|apply insert_length| | |].
    - intros j Hjj. destruct (decide (j = e / nbit)) as [->|Hne].
      + rewrite list_lookup_insert by exact Hpos. eexists; split; [reflexivity|].
        intros k. rewrite N.lor_spec, (W k), N.pow2_bits_eqb.
        destruct (Nat.ltb_spec k nbit) as [Hk|Hk]; cbn [andb].
        * destruct (Nat.eqb_spec (e / nbit * nbit + k) e) as [Hek|Hek].
          -- replace (N.of_nat (e mod nbit) =? N.of_nat k)%N with true by (symmetry; apply N.eqb_eq; f_equal; lia).
             apply orb_true_r.
          -- replace (N.of_nat (e mod nbit) =? N.of_nat k)%N with false by (symmetry; apply N.eqb_neq; lia).
             apply orb_false_r.
        * apply N.eqb_neq; lia.
      + rewrite list_lookup_insert_ne by lia. destruct (Hw i j Hi Hjj) as (w' & E' & W').
        exists w'; split; [exact E'|]. intros k. rewrite (W' k).
        destruct (Nat.ltb_spec k nbit) as [Hk|Hk]; cbn [andb]; [|reflexivity].
        destruct (Nat.eqb_spec (j * nbit + k) e) as [Hek|Hek]; [|reflexivity].
        exfalso; apply Hne. subst e. rewrite Nat.div_add_l, Nat.div_small by lia. lia.
    - intros k j Hk Hki Hjj. apply list_lookup_insert_ne. intros Heq.
      apply idx_inj in Heq; [|lia|lia]. lia.
    - intros x Hx. destruct (Nat.eqb_spec x e) as [->|_]; [lia|]. exact (Hz i x Hi Hx). }
  unfold pk_add. fold np. apply Hsame.
  - destruct (decide (pk_end p = 1)) as [H1|H1]; [|reflexivity].
    destruct HR as (Hnp & _). assert (e = 0) by lia. subst e.
    rewrite Nat.div_0_l by lia. assert (np = 1); [|nia].
    rewrite Hnp. rewrite <- Hend, H1. cbn. rewrite Nat.div_0_l by lia. reflexivity.
  - destruct (decide (pk_end p = 1)) as [H1|H1].
    + assert (e = 0) by lia. subst e. rewrite Nat.mod_0_l by lia. reflexivity.
    + replace (e - e / nbit * nbit) with (e mod nbit) by (pose proof (Nat.div_mod_eq e nbit); lia).
      apply shl_pow. apply Nat.mod_upper_bound; lia.
Qed.

(** the copying loops *)
Lemma loop_ok (src : list N -> nat -> option N) (d : list N) (np t : nat) :
  forall j off d0,
    length d0 = length d -> t * np + np <= length d ->
    off + j = np ->
    (forall (d1 : list N) o, off <= o < np -> length d1 = length d ->
        (forall x, x < t * np + off \/ t * np + o <= x -> d1 !! x = d0 !! x) -> 
        exists w, src d1 o = Some w /\ src d0 o = Some w) ->
    exists d', pk_loop src j (t * np + off) off d0 = Some d' /\ length d' = length d /\
      (forall o, off <= o < np -> d' !! (t * np + o) = src d0 o) /\
      (forall x, x < t * np + off \/ t * np + np <= x -> d' !! x = d0 !! x).
Proof.
  induction j as [|j IH]; intros off d0 Hl Ht Hoff Hsrc.
  - exists d0. cbn [pk_loop]. split; [reflexivity|]. split; [exact Hl|]. split; [intros o Ho; lia|reflexivity].
  - cbn [pk_loop]. destruct (Hsrc d0 off) as (w & E & _); [lia|exact Hl|reflexivity|].
    rewrite E. cbn [mbind option_bind]. rewrite wset_ok by lia. cbn [mbind option_bind].
    set (d1 := <[t * np + off:=w]> d0).
    assert (Hl1 : length d1 = length d) by (unfold d1; rewrite insert_length; exact Hl).
    destruct (IH (S off) d1 Hl1 Ht) as (d' & E' & L' & N' & O'); [lia| |].
    + intros d2 o Ho Hl2 Hd2.
      destruct (Hsrc d1 o) as (w1 & E1 & E1'); [lia|exact Hl1| |].
      { intros x Hx. unfold d1. apply list_lookup_insert_ne. lia. }
      destruct (Hsrc d2 o) as (w2 & E2 & E2'); [lia|exact Hl2| |].
      { intros x Hx. rewrite Hd2 by lia. unfold d1. apply list_lookup_insert_ne. lia. }
      exists w2. split; [exact E2|]. rewrite E1. congruence.
    + replace (S (t * np + off)) with (t * np + S off) by lia. rewrite E'.
      exists d'. split; [reflexivity|]. split; [exact L'|]. split.
      * intros o Ho. destruct (decide (o = off)) as [->|Hne].
        -- rewrite O' by lia. unfold d1. rewrite list_lookup_insert by lia. symmetry; exact E.
        -- rewrite N' by lia. destruct (Hsrc d1 o) as (w1 & E1 & E1'); [lia|exact Hl1| |congruence].
           intros x Hx. unfold d1. apply list_lookup_insert_ne. lia.
      * intros x Hx. rewrite O' by lia. unfold d1. apply list_lookup_insert_ne. lia.
Qed.

Lemma set_from_loop p v t src g :
  Rep p v -> t < sv_n v ->
  (forall d1 o, o < pk_n_pack p -> length d1 = length (pk_data p) ->
      (forall x, x < t * pk_n_pack p \/ t * pk_n_pack p + o <= x -> d1 !! x = pk_data p !! x) ->
      exists w, src d1 o = Some w /\ src (pk_data p) o = Some w) ->
  (forall o w, o < pk_n_pack p -> src (pk_data p) o = Some w -> word_ok w g (o * nbit)) ->
  (forall e, sv_lim v <= e -> g e = false) ->
  exists d', pk_loop src (pk_n_pack p) (t * pk_n_pack p) 0 (pk_data p) = Some d' /\
    repf (sv_n v) (sv_lim v) (upd_set (cont v) t g) (pk_n_pack p) d'.
Proof.
  intros (Hn & Hend & HR) Ht Hsrc Hw Hg. destruct HR as (Hlim & HR); [lia|].
  pose proof HR as (Hnp & Hl & Hold & _).
  destruct (loop_ok src (pk_data p) (pk_n_pack p) t (pk_n_pack p) 0 (pk_data p)) as (d' & E & L & N1 & O).
  - reflexivity.
  - rewrite Hl. nia.
  - lia.
  - intros d1 o Ho. rewrite Nat.add_0_r. apply Hsrc; lia.
  - rewrite Nat.add_0_r in E. exists d'. split; [exact E|].
    eapply repf_upd; [exact HR|exact Ht|exact L| | |exact Hg].
    + intros j Hj. rewrite N1 by lia.
      destruct (Hsrc (pk_data p) j Hj eq_refl) as (w & E1 & _); [reflexivity|].
      exists w. split; [exact E1|]. exact (Hw j w Hj E1).
    + intros k j Hk Hkt Hj. apply O. rewrite Nat.add_0_r. assert (k < t \/ t < k) as [?|?] by lia; nia.
Qed.

(** iteration *)
Fixpoint first_from (f : nat -> bool) (lim k : nat) (fuel : nat) : nat :=
  match fuel with
  | 0 => lim
  | S fuel' => if decide (k < lim) then (if f k then k else first_from f lim (S k) fuel') else lim
  end.

Lemma scan_ok p v i f :
  Rep p v -> f = cont v -> i < sv_n v ->
  forall fuel next bit idx,
    next < pk_end p -> pk_end p - next <= fuel -> bit = next mod nbit -> idx = i * pk_n_pack p + next / nbit ->
    exists idx', pk_scan nbit fuel (pk_data p) (pk_end p) idx next bit (2 ^ N.of_nat bit)%N
      = Some (idx', first_from (f i) (pk_end p) next fuel) /\
      (first_from (f i) (pk_end p) next fuel < pk_end p ->
         idx' = i * pk_n_pack p + first_from (f i) (pk_end p) next fuel / nbit).
Proof.
  intros HRep Hf Hi. pose proof HRep as (Hn & Hend & HR). destruct HR as (Hlim & HR); [lia|].
  induction fuel as [|fuel IH]; intros next bit idx Hnext Hfuel Hbit Hidx; [lia|].
  assert (Hmod : next mod nbit < nbit) by (apply Nat.mod_upper_bound; lia).
  cbn [pk_scan first_from]. destruct (decide (next < pk_end p)) as [_|]; [|lia].
  destruct (wget_elem _ _ _ _ _ i next HR Hi) as (w & E & B & _); [lia|].
  unfold wget. rewrite Hidx, E. cbn [mbind option_bind].
  rewrite <- Hf in B. rewrite <- Hbit in B.
  destruct (decide (N.land w (2 ^ N.of_nat bit) ≠ 0%N)) as [Hb|Hb].
  - apply land_pow in Hb. rewrite Hb in B. rewrite <- B. eexists; split; [reflexivity|]. intros _; reflexivity.
  - assert (N.testbit w (N.of_nat bit) = false) as Hb2.
    { destruct (N.testbit w (N.of_nat bit)) eqn:EE; [|reflexivity]. exfalso; apply Hb. apply land_pow; exact EE. }
    rewrite Hb2 in B. rewrite <- B.
    assert (Hdm := Nat.div_mod_eq next nbit).
    destruct (decide (S next < pk_end p)) as [Hlt|Hge].
    + destruct (decide (S bit = nbit)) as [Hsb|Hsb].
      * assert (Hdiv : S next / nbit = S (next / nbit)) by (symmetry; apply Nat.div_unique with 0; nia).
        assert (Hmd : S next mod nbit = 0) by (symmetry; apply Nat.mod_unique with (S (next / nbit)); nia).
        apply (IH (S next) 0 (S (i * pk_n_pack p + next / nbit))); [lia|lia|lia|lia].
      * assert (Hdiv : S next / nbit = next / nbit) by (symmetry; apply Nat.div_unique with (S bit); nia).
        assert (Hmd : S next mod nbit = S bit) by (symmetry; apply Nat.mod_unique with (next / nbit); nia).
        rewrite shl_next by lia.
        apply (IH (S next) (S bit) (i * pk_n_pack p + next / nbit)); [lia|lia|lia|lia].
    + assert (Hend1 : S next = pk_end p) by lia.
      assert (Hff : first_from (f i) (pk_end p) (S next) fuel = pk_end p).
      { destruct fuel; [reflexivity|]. cbn [first_from]. destruct (decide (S next < pk_end p)); [lia|reflexivity]. }
      rewrite Hff.
      destruct (decide (S bit = nbit)); destruct fuel; cbn [pk_scan];
        (destruct (decide (S next < pk_end p)); [lia|]); eexists; (split; [rewrite Hend1; reflexivity|lia]).
Qed.

Definition elems_from (f : nat -> bool) (lim k : nat) : list nat := List.filter f (seq k (lim - k)).

Lemma first_from_spec f lim : forall fuel k, lim - k <= fuel ->
  let r := first_from f lim k fuel in
  (k < lim -> elems_from f lim k = if decide (r < lim) then r :: elems_from f lim (S r) else []) /\
  (r < lim -> k <= r /\ f r = true) /\ r <= Nat.max lim r /\ (r = lim \/ r < lim).
Proof.
  induction fuel as [|fuel IH]; intros k Hk; cbn [first_from].
  - cbn. repeat split; try lia.
  - destruct (decide (k < lim)) as [Hlt|Hge].
    + assert (Hseq : elems_from f lim k = if f k then k :: elems_from f lim (S k) else elems_from f lim (S k)).
      { unfold elems_from. replace (lim - k) with (S (lim - S k)) by lia. reflexivity. }
      destruct (f k) eqn:E.
      * cbn. repeat split; try lia; [|assumption].
        intros _. rewrite Hseq. destruct (decide (k < lim)); [reflexivity|lia].
      * specialize (IH (S k) ltac:(lia)). cbn in IH |- *. destruct IH as (I1 & I2 & I3 & I4).
        split; [|split; [intros Hr; destruct (I2 Hr); split; [lia|assumption]|split; [lia|exact I4]]].
        -- intros _. rewrite Hseq. destruct (decide (S k < lim)) as [H1|H1].
           ++ exact (I1 H1).
           ++ assert (first_from f lim (S k) fuel = lim) as ->.
              { destruct fuel; [reflexivity|]. cbn [first_from]. destruct (decide (S k < lim)); [lia|reflexivity]. }
              destruct (decide (lim < lim)); [lia|]. unfold elems_from.
              replace (lim - S k) with 0 by lia. reflexivity.
    + cbn. repeat split; try lia.
Qed.

Lemma next_ok p v i e :
  Rep p v -> i < sv_n v -> e < pk_end p ->
  exists idx' r, pk_next nbit p (i * pk_n_pack p + e / nbit, e) = Some (idx', r) /\
    (r = pk_end p \/ (r < pk_end p /\ idx' = i * pk_n_pack p + r / nbit /\ e < r)) /\
    elems_from (cont v i) (pk_end p) (S e) = (if decide (r < pk_end p) then r :: elems_from (cont v i) (pk_end p) (S r) else []).
Proof.
  intros HRep Hi He. unfold pk_next.
  destruct (decide (e = pk_end p)) as [|_]; [lia|].
  destruct (decide (S e = pk_end p)) as [Hse|Hse].
  - eexists _, _. split; [reflexivity|]. split; [left; exact Hse|].
    destruct (decide (S e < pk_end p)); [lia|]. unfold elems_from. replace (pk_end p - S e) with 0 by lia. reflexivity.
  - assert (Hmod : S e mod nbit < nbit) by (apply Nat.mod_upper_bound; lia).
    rewrite shl_pow by exact Hmod.
    assert (Hdm := Nat.div_mod_eq e nbit). assert (Hdm2 := Nat.div_mod_eq (S e) nbit).
    assert (He2 : e mod nbit < nbit) by (apply Nat.mod_upper_bound; lia).
    destruct (scan_ok p v i (cont v) HRep eq_refl Hi (pk_end p) (S e) (S e mod nbit)
       (if decide (S e mod nbit = 0) then S (i * pk_n_pack p + e / nbit) else i * pk_n_pack p + e / nbit)) as (idx' & E & Hidx);
      [lia|lia|reflexivity| |].
    { assert (Hd1 : S e / nbit = if decide (S e mod nbit = 0) then S (e / nbit) else e / nbit).
      { clear - nbit_pos Hdm Hdm2 He2 Hmod.
        set (q := e / nbit) in *. set (m := e mod nbit) in *. set (q' := S e / nbit) in *. set (m' := S e mod nbit) in *.
        clearbody q m q' m'. destruct (decide (m' = 0)) as [H0|H0]; nia. }
      rewrite Hd1. destruct (decide (S e mod nbit = 0)); lia. }
    rewrite E. eexists _, _. split; [reflexivity|].
    destruct (first_from_spec (cont v i) (pk_end p) (pk_end p) (S e) ltac:(lia)) as (F1 & F2 & _ & F4).
    split; [|apply F1; lia].
    destruct F4 as [F4|F4]; [left; exact F4|right]. destruct (F2 F4). repeat split; [exact F4|exact (Hidx F4)|lia].
Qed.

Lemma collect_ok p v i : Rep p v -> i < sv_n v ->
  forall fuel e, e < pk_end p -> pk_end p - e < fuel ->
    pk_collect nbit fuel p (i * pk_n_pack p + e / nbit, e) = Some (e :: elems_from (cont v i) (pk_end p) (S e)).
Proof.
  intros HRep Hi. induction fuel as [|fuel IH]; intros e He Hf; [lia|].
  cbn [pk_collect snd]. destruct (decide (e = pk_end p)) as [|_]; [lia|].
  destruct (next_ok p v i e HRep Hi He) as (idx' & r & E & Hr & Hel).
  rewrite E. cbn [mbind option_bind]. rewrite Hel.
  destruct Hr as [->|(Hr & -> & Hlt)].
  - destruct (decide (pk_end p < pk_end p)); [lia|].
    destruct fuel; cbn [pk_collect snd]; (destruct (decide (pk_end p = pk_end p)); [reflexivity|congruence]).
  - destruct (decide (r < pk_end p)); [|lia]. rewrite IH by lia. reflexivity.
Qed.

Lemma cont_nopend v i : no_pend v i -> forall e, cont v i e = sv_mem v i e.
Proof. intros H e. unfold cont. rewrite (H e). apply orb_false_r. Qed.

Lemma iterate_ok p v i : Rep p v -> i < sv_n v -> no_pend v i -> pk_iterate nbit p i = Some (elements v i).
Proof.
  intros HRep Hi Hnp. pose proof HRep as (Hn & Hend & HR). destruct HR as (Hlim & HR); [lia|].
  assert (Hel : elements v i = elems_from (cont v i) (pk_end p) 0).
  { unfold elements, elems_from. rewrite Hend, Nat.sub_0_r. apply filter_ext. intros e. symmetry; apply cont_nopend; exact Hnp. }
  rewrite Hel. unfold pk_iterate, pk_begin.
  destruct (wget_elem _ _ _ _ _ i 0 HR Hi Hlim) as (w & E & B & _).
  rewrite Nat.div_0_l, Nat.add_0_r in E by lia. rewrite Nat.mod_0_l in B by lia.
  unfold wget. rewrite E. cbn [mbind option_bind].
  assert (H0 : elems_from (cont v i) (pk_end p) 0 = if cont v i 0 then 0 :: elems_from (cont v i) (pk_end p) 1 else elems_from (cont v i) (pk_end p) 1).
  { unfold elems_from. replace (pk_end p - 0) with (S (pk_end p - 1)) by lia. reflexivity. }
  assert (Hz : (i * pk_n_pack p, 0) = (i * pk_n_pack p + 0 / nbit, 0)) by (rewrite Nat.div_0_l by lia; f_equal; lia).
  rewrite H0. clear H0.
  destruct (decide (N.land w 1 ≠ 0%N)) as [Hb|Hb].
  - apply (land_pow w 0) in Hb. rewrite Hb in B. rewrite <- B. cbn [mbind option_bind]. rewrite Hz.
    rewrite (collect_ok p v i HRep Hi) by lia. reflexivity.
  - assert (cont v i 0 = false) as ->.
    { rewrite <- B. destruct (N.testbit w (N.of_nat 0)) eqn:EE; [|reflexivity]. exfalso; apply Hb. apply (land_pow w 0); exact EE. }
    rewrite Hz. destruct (next_ok p v i 0 HRep Hi) as (idx' & r & E1 & Hr & Hel1); [lia|].
    rewrite E1. cbn [mbind option_bind]. rewrite Hel1.
    destruct Hr as [->|(Hr & -> & Hlt)].
    + destruct (decide (pk_end p < pk_end p)); [lia|].
      cbn [pk_collect snd]. destruct (decide (pk_end p = pk_end p)); [reflexivity|congruence].
    + destruct (decide (r < pk_end p)); [|lia]. rewrite (collect_ok p v i HRep Hi) by lia. reflexivity.
Qed.

Lemma is_element_ok p v i e : Rep p v -> i < sv_n v -> e < sv_lim v -> no_pend v i ->
  pk_is_element nbit p i e = Some (sv_mem v i e).
Proof.
  intros HRep Hi He Hnp. pose proof HRep as (Hn & Hend & HR). destruct HR as (Hlim & HR); [lia|].
  destruct (wget_elem _ _ _ _ _ i e HR Hi He) as (w & E & B & W).
  rewrite cont_nopend in B by exact Hnp.
  unfold pk_is_element, wget. destruct (decide (pk_end p = 1)) as [H1|H1].
  - assert (e = 0) by lia. subst e. pose proof HR as (Hnpk & _ & _ & Hz).
    assert (Hone : pk_n_pack p = 1) by (rewrite Hnpk, <- Hend, H1; cbn; rewrite Nat.div_0_l by lia; reflexivity).
    rewrite Hone, Nat.div_0_l, Nat.mul_1_r, Nat.add_0_r in E by lia. rewrite E. cbn [mbind option_bind]. f_equal.
    rewrite <- B. rewrite Nat.mod_0_l by lia.
    destruct (N.eqb_spec w 0) as [->|Hne]; [reflexivity|]. cbn [negb]. symmetry.
    destruct (N.testbit w (N.of_nat 0)) eqn:EE; [reflexivity|]. exfalso; apply Hne.
    apply testbit_nat_ext. intros k. rewrite N.bits_0. destruct k as [|k]; [exact EE|].
    rewrite (W (S k)). rewrite Hz; [apply andb_false_r|exact Hi|].
    rewrite Nat.div_0_l by lia. lia.
  - replace (e - e / nbit * nbit) with (e mod nbit) by (pose proof (Nat.div_mod_eq e nbit); lia).
    rewrite E. cbn [mbind option_bind]. f_equal. rewrite <- B.
    assert (Hm : e mod nbit < nbit) by (apply Nat.mod_upper_bound; lia).
    rewrite shl_pow by exact Hm.
    destruct (N.eqb_spec (N.land w (2 ^ N.of_nat (e mod nbit))) 0) as [Hz|Hz].
    + cbn [negb]. destruct (N.testbit w (N.of_nat (e mod nbit))) eqn:EE; [|reflexivity].
      apply land_pow in EE. congruence.
    + cbn [negb]. symmetry; apply land_pow; exact Hz.
Qed.

(** number_elements, correct when all bits fit one word *)
Lemma count_one d pos w f (Hd : d !! pos = Some w) :
  (forall k, k < nbit -> N.testbit w (N.of_nat k) = f k) ->
  forall n b count, b + n <= nbit ->
    exists m, pk_count nbit d [pos] n (shl 1 b) count = Some (count + length (List.filter f (seq b n)), m).
Proof.
  intros Hf. induction n as [|n IH]; intros b count Hb; cbn [pk_count].
  - cbn. exists (shl 1 b). rewrite Nat.add_0_r. reflexivity.
  - cbn [mapM]. unfold wget at 1. rewrite Hd. cbn [mbind option_bind mret option_ret].
    rewrite shl_pow by lia.
    assert (Hc : length (filter (fun w0 => N.land (2 ^ N.of_nat b) w0 ≠ 0%N) [w]) = if f b then 1 else 0).
    { rewrite <- (Hf b) by lia. rewrite filter_cons, filter_nil.
      destruct (decide (N.land (2 ^ N.of_nat b) w ≠ 0%N)) as [H|H]; rewrite N.land_comm in H.
      - apply land_pow in H. rewrite H. reflexivity.
      - destruct (N.testbit w (N.of_nat b)) eqn:EE; [|reflexivity]. exfalso; apply H, land_pow; exact EE. }
    rewrite Hc. cbn [seq List.filter].
    destruct n as [|n].
    + cbn [pk_count seq List.filter]. destruct (f b); eexists; reflexivity.
    + rewrite shl_next by lia. rewrite <- shl_pow by lia.
      destruct (IH (S b) (count + (if f b then 1 else 0))) as (m & E); [lia|].
      rewrite E. exists m. destruct (f b); cbn [length]; f_equal; f_equal; lia.
Qed.

Lemma count_ok p v i : Rep p v -> i < sv_n v -> no_pend v i -> sv_lim v <= nbit ->
  pk_number_elements nbit p i = Some (length (elements v i)).
Proof.
  intros HRep Hi Hnp Hle. pose proof HRep as (Hn & Hend & HR). destruct HR as (Hlim & HR); [lia|].
  pose proof HR as (Hnpk & _ & Hw & Hz).
  assert (Hone : pk_n_pack p = 1) by (rewrite Hnpk, Nat.div_small by lia; reflexivity).
  destruct (Hw i 0 Hi ltac:(lia)) as (w & E & W). rewrite Hone, Nat.mul_1_r, Nat.add_0_r in E.
  assert (Wm : forall k, N.testbit w (N.of_nat k) = (k <? nbit) && sv_mem v i k).
  { intros k. rewrite (W k), Nat.mul_0_l, Nat.add_0_l, (cont_nopend v i Hnp). reflexivity. }
  assert (Hzm : forall e, sv_lim v <= e -> sv_mem v i e = false).
  { intros e He. rewrite <- (cont_nopend v i Hnp). apply Hz; [exact Hi|exact He]. }
  unfold pk_number_elements. destruct (decide (pk_end p = 1)) as [H1|H1].
  - unfold wget. rewrite E. cbn [fmap option_fmap option_map]. f_equal.
    unfold elements. rewrite <- Hend, H1. cbn [seq List.filter].
    assert (w = if sv_mem v i 0 then 1%N else 0%N) as ->.
    { apply testbit_nat_ext. intros k. rewrite Wm. destruct k as [|k].
      - replace (0 <? nbit) with true by lia. cbn [andb]. destruct (sv_mem v i 0); reflexivity.
      - rewrite Hzm by lia. rewrite andb_false_r. destruct (sv_mem v i 0); [|rewrite N.bits_0; reflexivity].
        change 1%N with (2 ^ N.of_nat 0)%N. rewrite N.pow2_bits_eqb. symmetry. apply N.eqb_neq. lia. }
    destruct (sv_mem v i 0); reflexivity.
  - replace ((pk_end p - 1) mod nbit + 1) with (pk_end p) by (rewrite Nat.mod_small by lia; lia).
    rewrite Hone. replace ((i + 1) * 1 - 1) with i by lia.
    destruct (count_one (pk_data p) i w (sv_mem v i) E) with (n := pk_end p) (b := 0) (count := 0) as (m & Ec).
    + intros k Hk. rewrite Wm. replace (k <? nbit) with true by lia. reflexivity.
    + lia.
    + replace (shl 1 0) with 1%N in Ec by (rewrite shl_pow by lia; reflexivity).
      rewrite Ec. cbn [mbind option_bind]. destruct (decide (1 = 1)); [|congruence].
      unfold elements. rewrite Hend. reflexivity.
Qed.

(** one step *)
Definition Rstore (c : pkstore) (s : store) : Prop := forall o, Rep (c o) (s o).
Definition count_fits (s : store) (a : op) : Prop :=
  match a with Count o i => sv_lim (s o) <= nbit | _ => True end.

Lemma Rstore_put c s o p v : Rstore c s -> Rep p v -> Rstore (pput c o p) (put s o v).
Proof. intros H Hp o'. unfold pput, put. destruct (Nat.eqb o' o); [exact Hp|apply H]. Qed.

Lemma Rep_intro n lim np d v :
  n = sv_n v -> lim = sv_lim v -> (sv_n v <> 0 -> 0 < sv_lim v) ->
  (sv_n v <> 0 -> repf (sv_n v) (sv_lim v) (cont v) np d) ->
  Rep {| pk_n_set := n; pk_end := lim; pk_n_pack := np; pk_data := d |} v.
Proof. intros H1 H2 H3 H4. split; [exact H1|]. split; [exact H2|]. intros H. split; [exact (H3 H)|exact (H4 H)]. Qed.

Lemma upd_set_app f i g k e : upd_set f i g k e = if Nat.eqb k i then g e else f k e.
Proof. unfold upd_set. destruct (Nat.eqb k i); reflexivity. Qed.

Lemma cont_replace v t m k y : cont (replace_set v t m) k y = if Nat.eqb k t then m y else cont v k y.
Proof.
  unfold cont, replace_set; cbn. rewrite !upd_set_app. destruct (Nat.eqb k t); [|reflexivity].
  unfold empty_set. apply orb_false_r.
Qed.

Lemma other_get c s o o2 (HR : Rstore c s) d1 t np i j :
  np = pk_n_pack (c o) -> sv_n (s o) <> 0 -> sv_n (s o2) <> 0 -> sv_lim (s o) = sv_lim (s o2) ->
  i < sv_n (s o2) -> t < sv_n (s o) -> j < np ->
  (forall x, x < t * np \/ t * np + j <= x -> d1 !! x = pk_data (c o) !! x) ->
  exists w, wget (other_data d1 (pother c o o2)) (i * np + j) = Some w /\
     wget (other_data (pk_data (c o)) (pother c o o2)) (i * np + j) = Some w /\ word_ok w (cont (s o2) i) (j * nbit).
Proof.
  intros Hnp Hn Hn2 Hl Hi Ht Hj Hd.
  destruct (HR o) as (_ & _ & H1). destruct (HR o2) as (_ & _ & H2).
  destruct (H1 Hn) as (_ & Hnpk & _). destruct (H2 Hn2) as (_ & Hnpk2 & _ & Hw & _).
  assert (Heq : np = pk_n_pack (c o2)) by (rewrite Hnp, Hnpk, Hnpk2, Hl; reflexivity).
  destruct (Hw i j Hi) as (w & E & W); [rewrite <- Heq; exact Hj|]. rewrite <- Heq in E.
  exists w. unfold pother, wget. destruct (Nat.eqb_spec o o2) as [->|Hne]; cbn [other_data].
  - split; [|split; [exact E|exact W]]. rewrite Hd; [exact E|].
    destruct (decide (i = t)) as [->|]; [right; lia|]. assert (i < t \/ t < i) as [|] by lia; nia.
  - repeat split; [exact E|exact E|exact W].
Qed.

Lemma step_ok c s a : Rstore c s -> pre s a -> count_fits s a ->
  exists c', pk_step nbit c a = Some (c', snd (spec_step s a)) /\ Rstore c' (fst (spec_step s a)).
Proof.
  intros HR Hpre Hcf.
  destruct a as [o n lim|o i e|o i e|o i|o i|o t o2 x|o t l o2 r|o t l o2 r|o o2|o o2|o i e|o i|o i]; cbn [pk_step spec_step fst snd].
  - (* Resize *) destruct Hpre as (P1 & P2). unfold pk_resize.
    destruct (decide (n = 0)) as [->|Hn].
    + eexists; split; [reflexivity|]. apply Rstore_put; [exact HR|].
      apply Rep_intro; cbn; [reflexivity|reflexivity|lia|lia].
    + destruct (decide (lim = 0)) as [->|Hlim]; [exfalso; apply P2; [exact Hn|reflexivity]|].
      eexists; split; [reflexivity|]. apply Rstore_put; [exact HR|].
      apply Rep_intro; cbn [sv_n sv_lim]; [reflexivity|reflexivity|lia|]. intros _.
      split; [reflexivity|]. split; [apply replicate_length|]. split; [|reflexivity].
      * intros i j Hi Hj. exists 0%N. split.
        -- apply lookup_replicate_2. nia.
        -- intros k. rewrite N.bits_0. unfold cont; cbn. rewrite andb_false_r. reflexivity.
  - (* Add *) destruct Hpre as (Hi & He).
    destruct (add_ok (c o) (s o) i e (HR o) Hi He) as (d' & E & Hd'). rewrite E.
    eexists; split; [reflexivity|]. apply Rstore_put; [exact HR|].
    destruct (HR o) as (Hn & Hend & HRo). apply Rep_intro; cbn [set_mem sv_n sv_lim]; [assumption|assumption|lia|]. intros _.
    eapply repf_ext; [|exact Hd']. intros k x Hk. unfold cont, set_mem; cbn. rewrite !upd_set_app.
    destruct (Nat.eqb_spec k i) as [->|]; [|reflexivity]. rewrite orb_assoc. reflexivity.
  - (* Post *) destruct Hpre as (Hi & He).
    destruct (add_ok (c o) (s o) i e (HR o) Hi He) as (d' & E & Hd'). rewrite E.
    eexists; split; [reflexivity|]. apply Rstore_put; [exact HR|].
    destruct (HR o) as (Hn & Hend & HRo). apply Rep_intro; cbn [sv_n sv_lim]; [assumption|assumption|lia|]. intros _.
    eapply repf_ext; [|exact Hd']. intros k x Hk. unfold cont; cbn. rewrite !upd_set_app.
    destruct (Nat.eqb_spec k i) as [->|]; [|reflexivity].
    destruct (Nat.eqb x e), (sv_mem (s o) i x), (sv_pend (s o) i x); reflexivity.
  - (* Process *) eexists; split; [reflexivity|]. intros o'. unfold put.
    destruct (Nat.eqb_spec o' o) as [->|]; [|apply HR].
    destruct (HR o) as (Hn & Hend & HRo). split; [exact Hn|]. split; [exact Hend|]. intros Hne.
    destruct (HRo Hne) as (Hl & Hd). split; [exact Hl|].
    eapply repf_ext; [|exact Hd]. intros k x Hk. unfold cont, replace_set; cbn. rewrite !upd_set_app.
    destruct (Nat.eqb_spec k i) as [->|]; [|reflexivity]. unfold empty_set. rewrite orb_false_r. apply orb_comm.
  - (* Clear *) unfold pk_clear.
    destruct (set_from_loop (c o) (s o) i (fun _ _ => Some 0%N) empty_set (HR o) Hpre) as (d' & E & Hd').
    + intros d1 j Hj Hl Hd. exists 0%N. split; reflexivity.
    + intros j w Hj [= <-]. intros k. rewrite N.bits_0. unfold empty_set. rewrite andb_false_r. reflexivity.
    + reflexivity.
    + rewrite E. eexists; split; [reflexivity|]. apply Rstore_put; [exact HR|].
      destruct (HR o) as (Hn & Hend & HRo). apply Rep_intro; cbn [replace_set sv_n sv_lim]; [exact Hn|exact Hend|intros Hne; destruct (HRo Hne); assumption|]. intros _.
      eapply repf_ext; [|exact Hd']. intros k x Hk. unfold cont, replace_set; cbn. rewrite !upd_set_app.
      destruct (Nat.eqb k i); reflexivity.
  - (* Assign *) destruct Hpre as (Ht & Hx & Hlim & Hnp). unfold pk_assignment.
    destruct (HR o2) as (_ & _ & HR2). destruct (HR2 ltac:(lia)) as (_ & _ & _ & _ & Hz2).
    match goal with |- context[pk_loop ?f _ _ _ _] => set (src := f) end.
    destruct (set_from_loop (c o) (s o) t src (cont (s o2) x) (HR o) Ht) as (d' & E & Hd').
    + intros d1 j Hj Hl Hd. destruct (other_get c s o o2 HR d1 t _ x j eq_refl ltac:(lia) ltac:(lia) Hlim Hx Ht Hj Hd) as (w & E1 & E2 & _).
      exists w. split; assumption.
    + intros j w Hj Hw. destruct (other_get c s o o2 HR (pk_data (c o)) t _ x j eq_refl ltac:(lia) ltac:(lia) Hlim Hx Ht Hj ltac:(reflexivity)) as (w' & E1 & E2 & W).
      unfold src in Hw. rewrite E2 in Hw. injection Hw as <-. exact W.
    + intros e He. apply Hz2; [exact Hx|lia].
    + rewrite E. eexists; split; [reflexivity|]. apply Rstore_put; [exact HR|].
      destruct (HR o) as (Hn & Hend & HRo). apply Rep_intro; cbn [replace_set sv_n sv_lim]; [exact Hn|exact Hend|intros Hne; destruct (HRo Hne); assumption|]. intros _.
      eapply repf_ext; [|exact Hd']. intros k y Hk. rewrite cont_replace, upd_set_app.
      destruct (Nat.eqb k t); [|reflexivity]. apply cont_nopend; exact Hnp.
  - (* Union *) destruct Hpre as (Ht & Hl & Hr & Hlim & Hpl & Hpr). unfold pk_union, pk_binary.
    destruct (HR o2) as (_ & _ & HR2). destruct (HR2 ltac:(lia)) as (_ & _ & _ & _ & Hz2).
    destruct (HR o) as (_ & _ & HR1). destruct (HR1 ltac:(lia)) as (_ & Hnpk & _ & Hw1 & Hz1).
    match goal with |- context[pk_loop ?f _ _ _ _] => set (src := f) end.
    destruct (set_from_loop (c o) (s o) t src (fun e => cont (s o) l e || cont (s o2) r e) (HR o) Ht) as (d' & E & Hd').
    + intros d1 j Hj Hld Hd. destruct (other_get c s o o2 HR d1 t _ r j eq_refl ltac:(lia) ltac:(lia) Hlim Hr Ht Hj Hd) as (w & E1 & E2 & _).
      destruct (Hw1 l j Hl Hj) as (w' & El & _).
      assert (El1 : wget d1 (l * pk_n_pack (c o) + j) = Some w').
      { unfold wget; rewrite Hd; [exact El|]. destruct (decide (l = t)) as [->|]; [right; lia|]. assert (l < t \/ t < l) as [|] by lia; nia. }
      exists (N.lor w' w). unfold src. rewrite El1. cbn [mbind option_bind]. rewrite E1.
      change (wget (pk_data (c o)) (l * pk_n_pack (c o) + j) = Some w') in El. rewrite El. cbn [mbind option_bind]. rewrite E2. split; reflexivity.
    + intros j w Hj Hw. destruct (other_get c s o o2 HR (pk_data (c o)) t _ r j eq_refl ltac:(lia) ltac:(lia) Hlim Hr Ht Hj ltac:(reflexivity)) as (w' & E1 & E2 & W).
      destruct (Hw1 l j Hl Hj) as (w2 & El & W2).
      unfold src in Hw. change (wget (pk_data (c o)) (l * pk_n_pack (c o) + j) = Some w2) in El. rewrite El in Hw. cbn [mbind option_bind] in Hw. rewrite E2 in Hw. cbn [mbind option_bind] in Hw. injection Hw as <-.
      intros k. rewrite N.lor_spec, (W k), (W2 k). destruct (k <? nbit); reflexivity.
    + intros e He. rewrite Hz1, Hz2; [reflexivity|exact Hr|lia|exact Hl|exact He].
    + rewrite E. eexists; split; [reflexivity|]. apply Rstore_put; [exact HR|].
      destruct (HR o) as (Hn & Hend & HRo). apply Rep_intro; cbn [replace_set sv_n sv_lim]; [exact Hn|exact Hend|intros Hne; destruct (HRo Hne); assumption|]. intros _.
      eapply repf_ext; [|exact Hd']. intros k y Hk. rewrite cont_replace, upd_set_app.
      destruct (Nat.eqb k t); [|reflexivity].
      rewrite (cont_nopend _ _ Hpl), (cont_nopend _ _ Hpr). reflexivity.
  - (* Inter *) destruct Hpre as (Ht & Hl & Hr & Hlim & Hpl & Hpr). unfold pk_inter, pk_binary.
    destruct (HR o2) as (_ & _ & HR2). destruct (HR2 ltac:(lia)) as (_ & _ & _ & _ & Hz2).
    destruct (HR o) as (_ & _ & HR1). destruct (HR1 ltac:(lia)) as (_ & Hnpk & _ & Hw1 & Hz1).
    match goal with |- context[pk_loop ?f _ _ _ _] => set (src := f) end.
    destruct (set_from_loop (c o) (s o) t src (fun e => cont (s o) l e && cont (s o2) r e) (HR o) Ht) as (d' & E & Hd').
    + intros d1 j Hj Hld Hd. destruct (other_get c s o o2 HR d1 t _ r j eq_refl ltac:(lia) ltac:(lia) Hlim Hr Ht Hj Hd) as (w & E1 & E2 & _).
      destruct (Hw1 l j Hl Hj) as (w' & El & _).
      assert (El1 : wget d1 (l * pk_n_pack (c o) + j) = Some w').
      { unfold wget; rewrite Hd; [exact El|]. destruct (decide (l = t)) as [->|]; [right; lia|]. assert (l < t \/ t < l) as [|] by lia; nia. }
      exists (N.land w' w). unfold src. rewrite El1. cbn [mbind option_bind]. rewrite E1.
      change (wget (pk_data (c o)) (l * pk_n_pack (c o) + j) = Some w') in El. rewrite El. cbn [mbind option_bind]. rewrite E2. split; reflexivity.
    + intros j w Hj Hw. destruct (other_get c s o o2 HR (pk_data (c o)) t _ r j eq_refl ltac:(lia) ltac:(lia) Hlim Hr Ht Hj ltac:(reflexivity)) as (w' & E1 & E2 & W).
      destruct (Hw1 l j Hl Hj) as (w2 & El & W2).
      unfold src in Hw. change (wget (pk_data (c o)) (l * pk_n_pack (c o) + j) = Some w2) in El. rewrite El in Hw. cbn [mbind option_bind] in Hw. rewrite E2 in Hw. cbn [mbind option_bind] in Hw. injection Hw as <-.
      intros k. rewrite N.land_spec, (W k), (W2 k). destruct (k <? nbit); reflexivity.
    + intros e He. rewrite Hz1; [reflexivity|exact Hl|exact He].
    + rewrite E. eexists; split; [reflexivity|]. apply Rstore_put; [exact HR|].
      destruct (HR o) as (Hn & Hend & HRo). apply Rep_intro; cbn [replace_set sv_n sv_lim]; [exact Hn|exact Hend|intros Hne; destruct (HRo Hne); assumption|]. intros _.
      eapply repf_ext; [|exact Hd']. intros k y Hk. rewrite cont_replace, upd_set_app.
      destruct (Nat.eqb k t); [|reflexivity].
      rewrite (cont_nopend _ _ Hpl), (cont_nopend _ _ Hpr). reflexivity.
  - (* Copy *) eexists; split; [reflexivity|]. apply Rstore_put; [exact HR|apply HR].
  - (* Swap *) eexists; split; [reflexivity|]. apply Rstore_put; [|apply HR]. apply Rstore_put; [exact HR|apply HR].
  - destruct Hpre as (Hi & He & Hnp). rewrite (is_element_ok _ _ _ _ (HR o) Hi He Hnp). eexists; split; [reflexivity|exact HR].
  - destruct Hpre as (Hi & Hnp). rewrite (count_ok _ _ _ (HR o) Hi Hnp Hcf). eexists; split; [reflexivity|exact HR].
  - destruct Hpre as (Hi & Hnp). rewrite (iterate_ok _ _ _ (HR o) Hi Hnp). eexists; split; [reflexivity|exact HR].
Qed.

Fixpoint all_count_fits (s : store) (l : list op) : Prop :=
  match l with
  | [] => True
  | a :: l' => count_fits s a /\ all_count_fits (fst (spec_step s a)) l'
  end.

Lemma pack_refines l : all_pre init_store l -> all_count_fits init_store l ->
  impl_run (pk_step nbit) pk_init_store l = Some (spec_run init_store l).
Proof.
  intros Hp Hc. apply run_refines with (R := Rstore) (ok := count_fits); [exact step_ok| |exact Hp|exact Hc].
  intros o. split; [reflexivity|]. split; [reflexivity|]. cbn. lia.
Qed.
End Proof.
