(** Success of single order Forward calls; gradient and Hessian of the function of the object *)
From Coq Require Import Reals ZArith Lra Lia List Bool Arith FunctionalExtensionality.
From Coquelicot Require Import Coquelicot.
From Verif Require Import Base_Spec Op_Model Tape_Spec Tape_Model Tape_Proof Tape_Proof2 Tape_Proof10 Tape_Hist Tape_Prop
  Sweep_Model Sweep_Eqs Sweep_Eqs2 Sweep_Tape Sweep_Uniq Sweep_Val0 Tape_Swf
  Drv_Spec Drv_Model Drv_Proof Drv_Proof2 Drv_Proof3 Drv_Proof4 Drv_Prop Drv_Link Real_Base Tay_Calc Tay_Sub Tay_Tape Tay_Prop
  Rev_Spec Rev_Calc Rev_Prop Der_Model Der_Spec Der_Proof.
Import ListNotations.
Open Scope nat_scope.

Section Total.
  Context {b : base} (TL : taylor_laws b).
  Notation T := (bt b).
  Variable bnat : nat -> T.
  Variable junk : nat -> T.

  Definition hi_op (o : opvar) : Prop := okop o = true \/ o = BeginOp \/ o = InvOp.
  Lemma sweep_any_hi (P : nat -> T) cc lo up l : 0 < lo -> List.Forall (fun i => hi_op (i_op i)) l ->
    forall k (s : fstq b), (forall j, q_skip s j = false) -> exists s', sweep_any bnat P cc lo up l k s = Some s'.
  Proof.
    intros Hlo. induction l as [|i l IH]; intros OK k s HS; cbn [sweep_any]; [eauto|].
    inversion OK as [|? ? O1 O2]; subst. rewrite HS.
    assert (exists s1, step_any bnat P cc lo up i k s = Some s1 /\ q_skip s1 = q_skip s) as (s1 & E1 & E2).
    { destruct i as [o a iv]. unfold step_any. destruct (subs o a iv) eqn:ES; [eexists; split; [reflexivity|reflexivity]|].
      destruct lo as [|lo]; [lia|]. cbn [Nat.eqb].
      destruct O1 as [O1|[O1|O1]]; cbn [i_op] in O1; [|subst o; eexists; split; reflexivity|subst o; eexists; split; reflexivity].
      destruct o; try discriminate O1; try discriminate ES;
        first [eexists; split; reflexivity
              |unfold step0; cbn [sem0 cmp_change option_map]; match goal with |- context [if ?c then _ else _] => destruct c end; (eexists; split; reflexivity)]. }
    rewrite E1. apply IH; auto. intros j. rewrite E2. auto.
  Qed.

  Lemma forward_hi l (g : adq b) X q (xq : list T) : valid bnat l g X -> List.Forall (fun i => hi_op (i_op i)) l ->
    0 < q <= d_ord g -> length xq = d_n g -> exists ys g', forward bnat junk g q xq = Some (ys, g').
  Proof.
    intros V OK Hq HL. pose proof (v_twf _ _ _ _ V) as W. pose proof (w_n _ _ _ _ W) as Hn.
    pose proof (v_dir _ _ _ _ V ltac:(lia)) as Hd.
    unfold forward. rewrite HL, Nat.eqb_refl. cbn [orb negb]. rewrite Nat.div_same by lia. replace (q + 1 - 1) with q by lia.
    destruct (Nat.leb_spec q (d_ord g)); [|lia]. cbn [orb negb]. rewrite Hd, Nat.eqb_refl, orb_true_r. cbn [negb].
    rewrite orb_false_r.
    assert (exists f1, (if d_cap g <=? q then capacity2 junk (set_ord g (if q =? 0 then 0 else q)) (Nat.max (q + 1) (d_cap g)) 1 else Some g) = Some f1) as (f1 & ->).
    { destruct (d_cap g <=? q); [|eauto]. unfold capacity2. cbn [set_ord set_tay d_cap d_dir d_ord d_rec]. rewrite Hd.
      destruct (_ && _); [eauto|]. destruct (Nat.eqb_spec (Nat.max (q + 1) (d_cap g)) 0); [lia|]. rewrite Nat.eqb_refl. cbn [orb negb]. eauto. }
    rewrite (w_dec _ _ _ _ W). destruct (Nat.eqb_spec q 0); [lia|].
    match goal with |- context [sweep_any bnat ?P ?cc ?lo ?up ?ll ?k ?s] =>
      destruct (sweep_any_hi P cc lo up ll ltac:(lia) OK k s) as (s' & ->) end; [|eauto].
    intros j. unfold init_any. destruct (Nat.eqb_spec q 0); [lia|]. apply (v_skip _ _ _ _ V).
  Qed.
  Lemma hi_recorded n (r : rec b) : sok (seq 1 n) 0 (body n r) -> List.Forall (fun i => hi_op (i_op i)) (head_ins n ++ body n r).
  Proof.
    intros S. apply Forall_app. split.
    - unfold head_ins. constructor; [right; left; reflexivity|]. apply Forall_forall. intros i Hi. apply in_map_iff in Hi as (j & <- & _). right; right; reflexivity.
    - assert (forall l se nl, sok se nl l -> List.Forall (fun i => hi_op (i_op i)) l) as K; [|eapply K; exact S].
      clear S. induction l as [|i l IH]; intros se nl S; constructor.
      + left. apply S.
      + eapply IH. apply S.
  Qed.
End Total.

    Lemma total_unit m i (G : nat -> R) : i < m -> total m (fun j => nth j (unit_vec m i) 0 * G j)%R = G i.
    Proof.
      intros Hi. rewrite total_sumR, (sumR_one 0 m _ i); [|lia|].
      - rewrite unit_nth, Nat.eqb_refl by auto. ring.
      - intros k Hk Nk. rewrite unit_nth by lia. destruct (Nat.eqb_spec k i); [lia|]. ring.
    Qed.
    Lemma total_unit_r n k (G : nat -> R) : k < n -> total n (fun j => G j * nth j (unit_vec n k) 0)%R = G k.
    Proof.
      intros Hi. rewrite total_sumR, (sumR_one 0 n _ k); [|lia|].
      - rewrite unit_nth, Nat.eqb_refl by auto. ring.
      - intros j Hk Nk. rewrite unit_nth by lia. destruct (Nat.eqb_spec j k); [lia|]. ring.
    Qed.
    Lemma is_derive_total k (G : nat -> R -> R) (G' : nat -> R) s : (forall j, j < k -> is_derive (G j) s (G' j)) ->
      is_derive (fun s => total k (fun j => G j s)) s (total k G').
    Proof.
      intros H. assert (forall k0 lo, (forall j, lo <= j < lo + k0 -> is_derive (G j) s (G' j)) ->
        is_derive (fun s => fold_right Rplus 0%R (map (fun j => G j s) (seq lo k0))) s (fold_right Rplus 0%R (map G' (seq lo k0)))) as K.
      { induction k0 as [|k0 IH]; intros lo HH; cbn [seq map fold_right]; [apply (is_derive_const 0%R)|].
        apply (is_derive_plus (G lo) (fun s => fold_right Rplus 0%R (map (fun j => G j s) (seq (S lo) k0)))); [apply HH; lia|apply IH; intros; apply HH; lia]. }
      apply K. intros j Hj. apply H. lia.
    Qed.
Section Der.
  Variable dis : nat -> R -> R.
  Variable nan : R.
  Notation b := (Rbase dis nan).
  Variable junk : nat -> R.
  Context (tid : nat) (cmp : bool) (n np : nat) (e : nat -> AD b) (ev : nat -> VecAD b) (p : prog R)
    (V0 : nat -> R) (l0 : nat -> nat) (f : adfun b).
  Hypothesis REC : recorded tid cmp n np e ev p V0 l0 f.
  Hypothesis POS : 0 < n.
  Let f0 : adq b := drv_of (b:=b) junk f.
  Let m := length (g_dep f).
  Notation forward := (forward (b:=b) INR junk).
  Notation reverse := (reverse (b:=b) INR junk).
  Context (ds : list (list R)).
  Let a : adq b := with_dynamics f0 ds.
  Context (F : list R -> list R).
  Notation at1 := (at1 dis nan junk f ds).
  Notation at2 := (at2 dis nan junk f ds).
  Notation reg := (reg dis nan junk f ds F).

  Lemma fwd_ok q g h u : one_direction h -> drun (b:=b) INR junk f0 h = Some g -> 0 < q <= d_ord g -> length u = n ->
    exists v g', forward g q u = Some (v, g').
  Proof.
    intros OD RUN Hq Lu.
    destruct (recorded_struct (Rbase_laws dis nan) _ _ _ _ _ _ _ _ _ _ REC) as (_ & SO & _ & _ & _ & _ & _ & EN).
    destruct (good_history (Rbase_laws dis nan) (Rtaylor_laws dis nan) INR junk _ _ _ _ _ _ _ _ _ _ REC POS h g OD RUN) as (G1 & G2 & G3 & _).
    destruct (dyn_fields (b:=b) (dynamics h) (drv_of (b:=b) junk f)) as (N1 & _).
    apply (forward_hi (b:=b) INR junk _ g _ q u G1); auto.
    - apply hi_recorded, SO.
    - exact (eq_trans Lu (eq_sym (eq_trans G3 (eq_trans N1 EN)))).
  Qed.
  Lemma fwd_ok1 g y u : at1 g y -> length u = n -> exists v g', forward g 1 u = Some (v, g').
  Proof. intros (h & A & B & C & D & E) L. apply (fwd_ok 1 g h u A C); auto; lia. Qed.
  Lemma fwd_ok2 g y u c : at2 g y u -> length c = n -> exists v g', forward g 2 c = Some (v, g').
  Proof. intros (h & A & B & C & D & E & G) L. apply (fwd_ok 2 g h c A C); auto; lia. Qed.
  Lemma rev_ok q g h w : one_direction h -> drun (b:=b) INR junk f0 h = Some g -> 0 < q <= d_ord g -> length w = m ->
    exists z g', reverse g q w = Some (z, g').
  Proof.
    intros OD RUN Hq Lw.
    destruct (recorded_struct (Rbase_laws dis nan) _ _ _ _ _ _ _ _ _ _ REC) as (DE & _).
    destruct (good_history (Rbase_laws dis nan) (Rtaylor_laws dis nan) INR junk _ _ _ _ _ _ _ _ _ _ REC POS h g OD RUN) as (G1 & G2 & G3 & G4 & _).
    destruct (dyn_fields (b:=b) (dynamics h) (drv_of (b:=b) junk f)) as (_ & N2 & _).
    pose proof (size_order_history (b:=b) INR junk f h g RUN) as SH.
    apply (reverse_accepted_iff (b:=b) INR junk f h g RUN q w); [eexists; exact DE|].
    rewrite <- SH. cbn [fst snd]. pose proof (v_dir _ _ _ _ G1 ltac:(lia)) as Hd. rewrite Hd.
    split; [left; exact (eq_trans Lw (eq_sym (f_equal (@length nat) (eq_trans G4 N2))))|]. split; auto.
  Qed.
  Lemma rev_ok1 g y w : at1 g y -> length w = m -> exists z, reverse g 1 w = Some (z, g).
  Proof.
    intros AT L. pose proof AT as (h & A & B & C & D & E). destruct (rev_ok 1 g h w A C) as (z & g' & RV); auto; try lia.
    exists z. rewrite RV. f_equal. f_equal. eapply at_rev; eauto.
  Qed.
  Lemma rev_ok2 g y u w : at2 g y u -> length w = m -> exists z, reverse g 2 w = Some (z, g).
  Proof.
    intros AT L. pose proof AT as (h & A & B & C & D & E & G). destruct (rev_ok 2 g h w A C) as (z & g' & RV); auto; try lia.
    exists z. rewrite RV. f_equal. f_equal. eapply at_rev; eauto. eapply at2_at1; eauto.
  Qed.

  (** F is what Forward(0, y) returns for the points y near x, all operations are
      differentiable there and no choice changes *)
  Definition regular (x : list R) : Prop :=
    exists d : R, (0 < d)%R /\ forall y, length y = n -> (forall j, j < n -> (Rabs (nth j y 0 - nth j x 0) < d)%R) ->
      (exists z, forward a 0 y = Some (F y, z)) /\ forall u, length u = n -> smooth_at dis nan junk f a (shift y u).

  Section At.
    Context (x : list R) (Lx : length x = n) (d : R) (Hd : (0 < d)%R).
    Definition near (y : list R) : Prop := length y = n /\ (forall j, j < n -> (Rabs (nth j y 0 - nth j x 0) < d)%R).
    Hypothesis RG : forall y, near y -> (exists z, forward a 0 y = Some (F y, z)) /\ forall u, length u = n -> smooth_at dis nan junk f a (shift y u).

    Lemma near_x : near x.
    Proof. split; auto. intros j Hj. replace (nth j x 0 - nth j x 0)%R with 0%R by ring. now rewrite Rabs_R0. Qed.
    Lemma near_loc y u : near y -> locally 0%R (fun t => near (shift y u t)).
    Proof.
      intros [L N]. clear - L N.
      assert (forall k, k <= n -> locally 0%R (fun t => forall j, j < k -> (Rabs (nth j (shift y u t) 0 - nth j x 0) < d)%R)) as K.
      { induction k as [|k IH]; intros Hk; [apply filter_forall; intros; lia|].
        assert (locally 0%R (fun t => (Rabs (nth k (shift y u t) 0 - nth k x 0) < d)%R)) as P.
        { specialize (N k ltac:(lia)). set (c := (Rabs (nth k y 0 - nth k x 0))%R) in *. set (w := (Rabs (nth k u 0) + 1)%R).
          assert (0 < w)%R as Hw by (unfold w; pose proof (Rabs_pos (nth k u 0%R)); lra).
          assert (0 < (d - c) / w)%R as He by (apply Rdiv_lt_0_compat; lra).
          exists (mkposreal _ He). intros t Ht. change (Rabs (t - 0) < (d - c) / w)%R in Ht. rewrite Rminus_0_r in Ht.
          rewrite shift_nth by lia. replace (nth k y 0 + t * nth k u 0 - nth k x 0)%R with ((nth k y 0 - nth k x 0) + t * nth k u 0)%R by ring.
          eapply Rle_lt_trans; [apply Rabs_triang|]. fold c. rewrite Rabs_mult.
          assert (Rabs t * w < d - c)%R as Q by (apply (Rmult_lt_compat_r w) in Ht; auto; unfold Rdiv in Ht; rewrite Rmult_assoc, Rinv_l, Rmult_1_r in Ht; lra).
          pose proof (Rabs_pos t). unfold w in Q. nra. }
        specialize (IH ltac:(lia)). generalize (filter_and _ _ IH P). apply filter_imp. intros t [A B] j Hj.
        destruct (Nat.eq_dec j k) as [->|]; [exact B|apply A; lia]. }
      generalize (K n (le_n n)). apply filter_imp. intros t Q. split; [now rewrite shift_length|exact Q].
    Qed.
    Lemma near_reg y u : near y -> length u = n -> reg y u.
    Proof.
      intros N L. split; [|apply RG; auto]. generalize (near_loc y u N). apply filter_imp. intros t Nt. apply RG, Nt.
    Qed.

    (** gradient of component i at y *)
    Definition dir (i : nat) (y u : list R) : R := Derive (fun t => nth i (F (shift y u t)) 0%R) 0%R.
    Lemma at_near y : near y -> exists g, at1 g y.
    Proof.
      intros N. destruct (proj1 (RG y N)) as (z & Fz). exists z.
      apply (at_fwd0 dis nan junk tid cmp n np e ev p V0 l0 f REC POS ds (map CDyn ds) a y (F y) z); auto.
      - apply one_map.
      - apply dyn_map.
      - apply run_dyn.
      - apply N.
    Qed.
    Lemma gradient i y : near y -> i < m -> exists z : nat -> R, forall u, length u = n ->
      is_derive (fun t => nth i (F (shift y u t)) 0%R) 0%R (total n (fun j => z j * nth j u 0))%R.
    Proof.
      intros N Hi. destruct (at_near y N) as (g & AT). destruct (rev_ok1 g y (unit_vec m i) AT (unit_length m i)) as (z & RV).
      exists (fun j => nth j z 0%R). intros u Lu.
      pose proof (rev1 dis nan junk tid cmp n np e ev p V0 l0 f REC POS ds F g y (unit_vec m i) z g AT (proj1 N) (unit_length m i) RV u Lu (near_reg y u N Lu)) as K.
      eapply is_derive_ext; [|exact K]. intros t. cbn beta. exact (total_unit m i (fun j => nth j (F (shift y u t)) 0%R) Hi).
    Qed.
    Lemma dir_ok i y u : near y -> i < m -> length u = n -> is_derive (fun t => nth i (F (shift y u t)) 0%R) 0%R (dir i y u).
    Proof. intros N Hi Lu. destruct (gradient i y N Hi) as (z & K). apply Derive_correct. eexists. apply (K u Lu). Qed.
    Lemma dir_lin i y u : near y -> i < m -> length u = n -> dir i y u = total n (fun j => dir i y (unit_vec n j) * nth j u 0)%R.
    Proof.
      intros N Hi Lu. destruct (gradient i y N Hi) as (z & K).
      etransitivity; [exact (is_derive_unique _ _ _ (K u Lu))|].
      apply total_ext. intros j Hj. f_equal. symmetry. etransitivity; [exact (is_derive_unique _ _ _ (K _ (unit_length n j)))|]. now apply total_unit_r.
    Qed.
    (** second derivatives at x *)
    Lemma second i u : i < m -> length u = n -> exists z : nat -> R, forall v, length v = n ->
      is_derive (fun s => dir i (shift x v s) u) 0%R (total n (fun k => z k * nth k v 0))%R.
    Proof.
      intros Hi Lu. destruct (proj1 (RG x near_x)) as (z0 & Fz).
      destruct (fwd_all dis nan junk tid cmp n np e ev p V0 l0 f REC POS ds F x u _ z0 Lx Lu Fz) as (v1 & g & F1 & AT & _).
      destruct (rev_ok2 g x u (unit_vec m i) AT (unit_length m i)) as (z & RV).
      exists (fun k => nth (k * 2 + 1) z 0%R). intros v Lv.
      pose proof (rev2 dis nan junk tid cmp n np e ev p V0 l0 f REC POS ds F g x u (unit_vec m i) z g AT Lx Lu (unit_length m i) RV v (fun s j => dir j (shift x v s) u) Lv) as K.
      eapply is_derive_ext; [|apply K].
      - intros s. exact (total_unit m i (fun j => dir j (shift x v s) u) Hi).
      - generalize (near_loc x v near_x). apply filter_imp. intros s Ns. split; [|split].
        + destruct (proj1 (RG _ Ns)) as (zz & Fzz). eauto.
        + now apply near_reg.
        + intros j Hj. now apply dir_ok.
      - apply RG; auto. apply near_x.
    Qed.
    Definition hes (i k j : nat) : R := Derive (fun s => dir i (shift x (unit_vec n k) s) (unit_vec n j)) 0%R.
    Lemma hes_ok i k j : i < m -> is_derive (fun s => dir i (shift x (unit_vec n k) s) (unit_vec n j)) 0%R (hes i k j).
    Proof.
      intros Hi. destruct (second i (unit_vec n j) Hi (unit_length n j)) as (z & K). apply Derive_correct. eexists. apply (K _ (unit_length n k)).
    Qed.
    Lemma hes_partial2 i k j : i < m -> k < n -> j < n -> is_partial2 (fun y => nth i (F y) 0%R) x k j (hes i k j).
    Proof.
      intros Hi Hk Hj. exists (fun s => dir i (shift x (unit_vec n k) s) (unit_vec n j)). rewrite Lx. split; [|now apply hes_ok].
      generalize (near_loc x (unit_vec n k) near_x). apply filter_imp. intros s Ns. unfold is_partial. rewrite shift_length, Lx.
      apply dir_ok; auto. apply unit_length.
    Qed.
    (** the second derivative along a line *)
    Lemma quad i u q : i < m -> length u = n -> is_derive_n (fun t => nth i (F (shift x u t)) 0%R) 2 0%R q ->
      q = total n (fun k => total n (fun j => hes i k j * nth j u 0) * nth k u 0)%R.
    Proof.
      intros Hi Lu D2. destruct (second i u Hi Lu) as (z & K).
      assert (is_derive (fun s => dir i (shift x u s) u) 0%R q) as K1.
      { eapply is_derive_ext_loc; [|exact D2]. generalize (near_loc x u near_x). apply filter_imp. intros s Ns.
        cbn [Derive_n]. apply is_derive_unique. pose proof (dir_ok i (shift x u s) u Ns Hi Lu) as D.
        apply is_derive_ext with (fun r => nth i (F (shift (shift x u s) u (r - s))) 0%R).
        - intros r. rewrite shift_shift. do 2 f_equal. f_equal. ring.
        - pose proof (is_derive_comp (fun t => nth i (F (shift (shift x u s) u t)) 0%R) (fun r => (r - s)%R) s (dir i (shift x u s) u) 1%R) as C.
          assert (is_derive (fun r => (r - s)%R) s 1%R) as C1 by (auto_derive; auto; ring).
          replace (dir i (shift x u s) u) with (scal 1%R (dir i (shift x u s) u)) by (unfold scal; cbn; unfold mult; cbn; ring).
          apply C; auto. replace (s - s)%R with 0%R by ring. exact D. }
      transitivity (Derive (fun s => dir i (shift x u s) u) 0%R); [symmetry; exact (is_derive_unique _ _ _ K1)|].
      etransitivity; [exact (is_derive_unique _ _ _ (K u Lu))|]. clear K1 D2.
      apply total_ext. intros k Hk. f_equal.
      transitivity (Derive (fun s => dir i (shift x (unit_vec n k) s) u) 0%R).
      - symmetry. etransitivity; [exact (is_derive_unique _ _ _ (K _ (unit_length n k)))|]. now apply total_unit_r.
      - apply is_derive_unique.
        apply is_derive_ext_loc with (fun s => total n (fun j => dir i (shift x (unit_vec n k) s) (unit_vec n j) * nth j u 0)%R).
        + generalize (near_loc x (unit_vec n k) near_x). apply filter_imp. intros s Ns. symmetry. now apply dir_lin.
        + apply (is_derive_total n (fun j s => dir i (shift x (unit_vec n k) s) (unit_vec n j) * nth j u 0)%R).
          intros j Hj. apply (is_derive_scal_l (fun s => dir i (shift x (unit_vec n k) s) (unit_vec n j)) 0%R (hes i k j) (nth j u 0%R)). now apply hes_ok.
    Qed.
  End At.
End Der.
