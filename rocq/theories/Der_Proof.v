(** The derivatives that single Forward and Reverse calls of orders one and two return *)
From Coq Require Import Reals ZArith Lra Lia List Bool Arith FunctionalExtensionality.
From Coquelicot Require Import Coquelicot.
From Verif Require Import Base_Spec Op_Model Tape_Spec Tape_Model Tape_Proof Tape_Proof2 Tape_Proof10 Tape_Hist Tape_Prop
  Sweep_Model Sweep_Eqs Sweep_Eqs2 Sweep_Tape Sweep_Uniq Sweep_Val0 Tape_Swf
  Drv_Spec Drv_Model Drv_Proof Drv_Proof2 Drv_Proof3 Drv_Proof4 Drv_Prop Drv_Link Real_Base Tay_Calc Tay_Sub Tay_Tape Tay_Prop
  Rev_Spec Rev_Calc Rev_Prop Der_Model Der_Spec.
Import ListNotations.
Open Scope nat_scope.

Lemma shift_length x u t : length (shift x u t) = length x.
Proof. unfold shift. now rewrite map_length, seq_length. Qed.
Lemma shift_nth x u t j : j < length x -> nth j (shift x u t) 0%R = (nth j x 0 + t * nth j u 0)%R.
Proof.
  intros H. unfold shift. rewrite (nth_indep _ 0%R ((fun j => (nth j x 0 + t * nth j u 0)%R) 0)) by now rewrite map_length, seq_length.
  rewrite (map_nth (fun j => (nth j x 0 + t * nth j u 0)%R)), seq_nth by auto. reflexivity.
Qed.
Lemma nth_eq {A} (d : A) l l' : length l = length l' -> (forall j, j < length l -> nth j l d = nth j l' d) -> l = l'.
Proof. intros. eapply nth_ext; eauto. Qed.
Lemma shift_0 x u : shift x u 0%R = x.
Proof. apply (nth_eq 0%R); [apply shift_length|]. intros j Hj. rewrite shift_length in Hj. rewrite shift_nth by auto. lra. Qed.
Lemma shift_shift x u s t : shift (shift x u s) u t = shift x u (s + t).
Proof.
  apply (nth_eq 0%R); [now rewrite !shift_length|]. intros j Hj. rewrite !shift_length in Hj.
  rewrite !shift_nth by (rewrite ?shift_length; auto). lra.
Qed.
Lemma unit_length n j : length (unit_vec n j) = n.
Proof. unfold unit_vec. now rewrite map_length, seq_length. Qed.
Lemma unit_nth n j i : i < n -> nth i (unit_vec n j) 0%R = if i =? j then 1%R else 0%R.
Proof.
  intros H. unfold unit_vec. rewrite (nth_indep _ 0%R ((fun i => if i =? j then 1%R else 0%R) 0)) by now rewrite map_length, seq_length.
  rewrite (map_nth (fun i => if i =? j then 1%R else 0%R)), seq_nth by auto. reflexivity.
Qed.
Lemma vec_nth {b : base} n (u : nat -> bt b) d i : i < n -> nth i (vec n u) d = u i.
Proof.
  intros H. unfold vec. rewrite (nth_indep _ d (u 0)) by now rewrite map_length, seq_length.
  rewrite (map_nth u), seq_nth by auto. reflexivity.
Qed.
Lemma vec_length {b : base} n (u : nat -> bt b) : length (vec n u) = n.
Proof. unfold vec. now rewrite map_length, seq_length. Qed.

Lemma drun_app {b : base} bnat junk h1 h2 (f : adq b) : drun bnat junk f (h1 ++ h2) =
  match drun bnat junk f h1 with Some g => drun bnat junk g h2 | None => None end.
Proof. revert f. induction h1 as [|c h1 IH]; intros f; cbn; auto. destruct (dstep bnat junk f c); auto. Qed.

  Lemma total_ext k (g1 g2 : nat -> R) : (forall i, i < k -> g1 i = g2 i) -> total k g1 = total k g2.
  Proof. intros H. rewrite !total_sumR. apply sumR_ext. intros; apply H; lia. Qed.
  Lemma total_1 (g1 : nat -> R) : total 1 g1 = g1 0.
  Proof. unfold total. cbn. lra. Qed.
  Lemma total_2 (g1 : nat -> R) : total 2 g1 = (g1 0%nat + g1 1%nat)%R.
  Proof. unfold total. cbn. lra. Qed.
  Lemma der_shift y u j : j < length y -> is_derive (fun s => nth j (shift y u s) 0%R) 0%R (nth j u 0%R).
  Proof.
    intros Hj. apply is_derive_ext with (fun s => (nth j y 0 + s * nth j u 0)%R); [intros; now rewrite shift_nth|].
    auto_derive; auto. ring.
  Qed.
Section Der.
  Variable dis : nat -> R -> R.
  Variable nan : R.
  Notation b := (Rbase dis nan).
  Variable junk : nat -> R.
  Context (tid : nat) (cmp : bool) (n np : nat) (e : nat -> AD b) (ev : nat -> VecAD b) (p : prog R)
    (V0 : nat -> R) (l0 : nat -> nat) (f : adfun b).
  Hypothesis REC : recorded tid cmp n np e ev p V0 l0 f.
  Hypothesis POS : 0 < n.
  Let f0 : adq b := drv_of (b:=b) junk f.
  Let m := length (g_dep f).
  Notation forward := (forward (b:=b) INR junk).
  Notation reverse := (reverse (b:=b) INR junk).

  (** the dynamic parameters in force *)
  Context (ds : list (list R)).
  Let a : adq b := with_dynamics f0 ds.

  (** states of the object that have the zero (and first) order coefficients *)
  Definition at1 (g : adq b) (y : list R) : Prop :=
    exists h, one_direction h /\ dynamics h = ds /\ drun (b:=b) INR junk f0 h = Some g /\
      given 0%R (g_n f) h 0 = y /\ 1 <= d_ord g.
  Definition at2 (g : adq b) (y u : list R) : Prop :=
    exists h, one_direction h /\ dynamics h = ds /\ drun (b:=b) INR junk f0 h = Some g /\
      given 0%R (g_n f) h 0 = y /\ given 0%R (g_n f) h 1 = u /\ 2 <= d_ord g.
  Lemma at2_at1 g y u : at2 g y u -> at1 g y.
  Proof. intros (h & A & B & C & D & E & G). exists h. repeat (split; [auto|]). clear - G. lia. Qed.

  Lemma gn : g_n f = n.
  Proof. destruct (recorded_struct (Rbase_laws dis nan) _ _ _ _ _ _ _ _ _ _ REC) as (_ & _ & _ & _ & _ & _ & _ & EN). auto. Qed.
  Lemma at1_fields g y : at1 g y -> d_n g = n /\ d_dep g = g_dep f /\ d_rec g = g_rec f.
  Proof.
    intros (h & A & B & C & _).
    destruct (good_history (Rbase_laws dis nan) (Rtaylor_laws dis nan) INR junk _ _ _ _ _ _ _ _ _ _ REC POS h g A C) as (G1 & G2 & G3 & G4 & _).
    destruct (dyn_fields (b:=b) (dynamics h) (drv_of (b:=b) junk f)) as (N1 & N2 & N3 & _).
    split; [exact (eq_trans G3 (eq_trans N1 gn))|]. split; [exact (eq_trans G4 N2)|exact (eq_trans G2 N3)].
  Qed.

  (** Forward of order q <= 2 after these *)
  Lemma given_snoc h q xq k : given 0%R (g_n f) (h ++ [CFor q xq]) k = if length xq =? g_n f then (if k =? q then xq else given 0%R (g_n f) h k)
     else map (fun j => nth (j * (q + 1) + k) xq 0%R) (seq 0 (g_n f)).
  Proof. unfold given. rewrite fold_left_app. cbn [fold_left given1]. destruct (length xq =? g_n f); reflexivity. Qed.
  Lemma given_n h q (xq : list R) k : length xq = n ->
    given 0%R (g_n f) (h ++ [CFor q xq]) k = if k =? q then xq else given 0%R (g_n f) h k.
  Proof. intros H. rewrite given_snoc, gn, H, Nat.eqb_refl. reflexivity. Qed.
  Lemma dyn_snoc h (q : nat) (xq : list R) : dynamics (h ++ [CFor q xq]) = dynamics h.
  Proof. unfold dynamics. rewrite flat_map_app. cbn. now rewrite app_nil_r. Qed.
  Lemma one_snoc h (q : nat) (xq : list R) : one_direction h -> one_direction (h ++ [CFor q xq]).
  Proof. intros H. apply Forall_app. split; auto. Qed.
  Lemma run_snoc h g q xq ys g' : drun (b:=b) INR junk f0 h = Some g -> forward g q xq = Some (ys, g') ->
    drun (b:=b) INR junk f0 (h ++ [CFor q xq]) = Some g'.
  Proof. intros H F. rewrite drun_app, H. cbn. now rewrite F. Qed.
  Lemma fwd_ord g q xq ys g' : forward g q xq = Some (ys, g') -> d_ord g' = q + 1.
  Proof.
    unfold Drv_Model.forward. intros F. destruct (negb _); [discriminate|]. destruct (negb _); [discriminate|]. destruct (negb _); [discriminate|].
    destruct (if (d_cap g <=? q) || negb (d_dir g =? 1) then _ else _); [|discriminate].
    destruct (decode _ _ _); [|discriminate].
    match type of F with match ?x with _ => _ end = _ => destruct x; [|discriminate] end.
    injection F as <- <-. reflexivity.
  Qed.

  Lemma at_fwd0 h g y ys g' : one_direction h -> dynamics h = ds -> drun (b:=b) INR junk f0 h = Some g -> length y = n ->
    forward g 0 y = Some (ys, g') -> at1 g' y.
  Proof.
    intros A B C L F. exists (h ++ [CFor 0 y]). split; [now apply one_snoc|]. split; [now rewrite dyn_snoc|].
    split; [eapply run_snoc; eauto|]. split.
    - exact (given_n h 0 y 0 L).
    - rewrite (fwd_ord _ _ _ _ _ F). lia.
  Qed.
  Lemma at_fwd1 g y u v g' : at1 g y -> length u = n -> forward g 1 u = Some (v, g') -> at2 g' y u.
  Proof.
    intros (h & A & B & C & D & E) L F. exists (h ++ [CFor 1 u]). split; [now apply one_snoc|]. split; [now rewrite dyn_snoc|].
    split; [eapply run_snoc; eauto|]. split; [exact (eq_trans (given_n h 1 u 0 L) D)|]. split; [exact (given_n h 1 u 1 L)|].
    rewrite (fwd_ord _ _ _ _ _ F). lia.
  Qed.
  Lemma at_fwd2 g y u c v g' : at2 g y u -> length c = n -> forward g 2 c = Some (v, g') -> at2 g' y u.
  Proof.
    intros (h & A & B & C & D & E & G) L F. exists (h ++ [CFor 2 c]). split; [now apply one_snoc|]. split; [now rewrite dyn_snoc|].
    split; [eapply run_snoc; eauto|]. split; [exact (eq_trans (given_n h 2 c 0 L) D)|]. split; [exact (eq_trans (given_n h 2 c 1 L) E)|].
    rewrite (fwd_ord _ _ _ _ _ F). lia.
  Qed.
  Lemma at_rev g y q w z g' : at1 g y -> reverse g q w = Some (z, g') -> g' = g.
  Proof.
    intros (h & A & B & C & _) F.
    destruct (good_history (Rbase_laws dis nan) (Rtaylor_laws dis nan) INR junk _ _ _ _ _ _ _ _ _ _ REC POS h g A C) as (G1 & _).
    symmetry. symmetry. eapply (valid_rev (b:=b) INR junk _ g g' _ q w z G1 F).
  Qed.

  Context (F : list R -> list R).
  (** F is the function of the object at the points y + t u, and it is smooth there *)
  Definition reg (y u : list R) : Prop :=
    locally 0%R (fun t => exists z, forward a 0 (shift y u t) = Some (F (shift y u t), z)) /\ smooth_at dis nan junk f a (shift y u).

  Lemma tay_shift q y u j : length y = n -> j < n -> forall c, c 0 = nth j y 0%R -> c 1 = nth j u 0%R -> (forall k, 1 < k -> c k = 0%R) ->
    tay q (fun t => nth j (shift y u t) 0%R) c.
  Proof.
    intros L Hj c C0 C1 C2. apply tay_ext with (poly (q + 1) c) c; auto; [|apply tay_poly; lia].
    apply filter_forall. intros t. rewrite shift_nth by lia. unfold poly.
    assert (forall k, sum_f_R0 (fun k => c k * t ^ k)%R (k + 1) = (nth j y 0 + t * nth j u 0)%R) as K.
    { induction k as [|k IH]; cbn [Nat.add sum_f_R0].
      - rewrite C0, C1. cbn. ring.
      - rewrite IH, C2 by lia. ring. }
    now rewrite K.
  Qed.

  Lemma fwd_taylor h g q xq ys g' y u : one_direction h -> dynamics h = ds -> drun (b:=b) INR junk f0 h = Some g -> forward g q xq = Some (ys, g') ->
    length y = n -> reg y u ->
    let x := given 0%R (g_n f) (h ++ [CFor q xq]) in
    (forall j, j < n -> nth j (x 0) 0%R = nth j y 0%R) -> (1 <= q -> forall j, j < n -> nth j (x 1) 0%R = nth j u 0%R) ->
    (forall k, 1 < k <= q -> forall j, j < n -> nth j (x k) 0%R = 0%R) ->
    forall i k, i < m -> k <= q -> (length xq = n -> k = q) ->
    is_derive_n (fun t => nth i (F (shift y u t)) 0%R) k 0%R (INR (fact k) * nth i (returned f q k xq ys) 0)%R.
  Proof.
    intros A B C FW L [R1 R2] x X0 X1 X2 i k Hi Hk Hkq.
    assert (a = with_dynamics (drv_of (b:=b) junk f) (dynamics h)) as EA by (unfold a, f0; now rewrite B).
    rewrite EA in R1, R2.
    refine (forward_is_taylor dis nan junk tid cmp n np e ev p V0 l0 f REC POS h g q xq ys g' A C FW (shift y u) (fun t => F (shift y u t)) _ _ R1 R2 i k Hi Hk _).
    - intros t. rewrite shift_length, gn. auto.
    - rewrite gn in *. intros j Hj. apply tay_ext with (fun t => nth j (shift y u t) 0%R)
        (fun k => match k with 0 => nth j y 0%R | 1 => nth j u 0%R | _ => 0%R end).
      + apply filter_forall. auto.
      + intros k' Hk'. rewrite <- gn in *. fold x. destruct k' as [|[|k']]; symmetry; [apply X0|apply X1|apply X2]; lia.
      + apply tay_shift; auto. intros [|[|k']]; auto; lia.
    - rewrite gn. auto.
  Qed.

  Lemma ret_n q k (xq ys : list R) : length xq = n -> returned (b:=b) f q k xq ys = ys.
  Proof. intros H. unfold returned. rewrite gn. replace (@length (bt b) xq) with n by (symmetry; exact H). now rewrite Nat.eqb_refl. Qed.
  Lemma fwd1 g y u v g' : at1 g y -> length y = n -> length u = n -> reg y u -> forward g 1 u = Some (v, g') ->
    forall i, i < m -> is_derive (fun t => nth i (F (shift y u t)) 0%R) 0%R (nth i v 0%R).
  Proof.
    intros (h & A & B & C & D & E) Ly Lu R FW i Hi.
    pose proof (fwd_taylor h g 1 u v g' y u A B C FW Ly R) as K. cbv zeta in K.
    rewrite !given_n in K by auto. cbn [Nat.eqb] in K. rewrite D in K.
    specialize (K ltac:(auto) ltac:(auto) ltac:(intros; lia) i 1 Hi ltac:(lia) ltac:(auto)).
    assert (returned f 1 1 u v = v) as RE by exact (ret_n 1 1 u v Lu).
    rewrite RE in K. cbn in K. rewrite Rmult_1_l in K. exact K.
  Qed.
  Lemma fwd2 g y u c v g' : at2 g y u -> length y = n -> length u = n -> length c = n -> (forall j, j < n -> nth j c 0%R = 0%R) ->
    reg y u -> forward g 2 c = Some (v, g') ->
    forall i, i < m -> is_derive_n (fun t => nth i (F (shift y u t)) 0%R) 2 0%R (2 * nth i v 0)%R.
  Proof.
    intros (h & A & B & C & D & E & G) Ly Lu Lc Zc R FW i Hi.
    pose proof (fwd_taylor h g 2 c v g' y u A B C FW Ly R) as K. cbv zeta in K.
    assert (forall k, given 0%R (g_n f) (h ++ [CFor 2 c]) k = if k =? 2 then c else given 0%R (g_n f) h k) as GV.
    { intros k. now apply given_n. }
    specialize (K ltac:(intros j Hj; rewrite GV; cbn [Nat.eqb]; now rewrite D) ltac:(intros _ j Hj; rewrite GV; cbn [Nat.eqb]; now rewrite E)).
    specialize (K ltac:(intros k Hk j Hj; replace k with 2 by lia; rewrite GV; cbn [Nat.eqb]; auto) i 2 Hi ltac:(lia) ltac:(auto)).
    assert (returned f 2 2 c v = v) as RE by exact (ret_n 2 2 c v Lc).
    rewrite RE in K. replace (INR (fact 2)) with 2%R in K by (cbn; ring). exact K.
  Qed.

  (** a state at any point where the function is defined *)
  Lemma run_dyn d (c : adq b) : drun (b:=b) INR junk c (map CDyn d) = Some (with_dynamics c d).
  Proof. revert c. induction d as [|d0 d IH]; intros c; [reflexivity|]. exact (IH (new_dyn c d0)). Qed.
  Lemma dyn_map (d : list (list R)) : dynamics (map CDyn d) = d.
  Proof. induction d as [|d0 d IH]; cbn; [auto|f_equal; exact IH]. Qed.
  Lemma one_map (d : list (list R)) : one_direction (map CDyn d).
  Proof. unfold one_direction; apply Forall_forall; intros c0 H0; apply in_map_iff in H0 as (d1 & <- & _); exact I. Qed.

  (** all orders at once on the object without Taylor coefficients *)
  Lemma fwd_all y u ys z : length y = n -> length u = n -> forward a 0 y = Some (ys, z) ->
    exists v c, forward a 1 (all_orders 0%R n 1 (fun k => if k =? 0 then y else u)) = Some (v, c) /\ at2 c y u /\
      (reg y u -> forall i, i < m -> is_derive (fun t => nth i (F (shift y u t)) 0%R) 0%R (nth i (returned f 1 1 (all_orders 0%R n 1 (fun k => if k =? 0 then y else u)) v) 0%R)).
  Proof.
    intros Ly Lu FW. set (X := fun k => if k =? 0 then y else u).
    pose proof (good_history (Rbase_laws dis nan) (Rtaylor_laws dis nan) INR junk _ _ _ _ _ _ _ _ _ _ REC POS (map CDyn ds) a (one_map ds) (run_dyn ds f0)) as G.
    rewrite dyn_map in G. fold f0 in G. fold a in G.
    destruct G as (G1 & G2 & G3 & G4 & G5 & G6 & G7 & G8 & G9).
    set (l := head_ins n ++ body n (g_rec f)) in *.
    destruct (dyn_fields (b:=b) ds f0) as (N1 & N2 & N3 & _). fold a in N1, N2, N3. cbn in N1, N2, N3.
    pose proof (Rtaylor_laws dis nan) as TL. rewrite gn in N1.
    destruct (forward_valid TL INR junk _ a _ _ y _ z (valid_empty (b:=b) INR l _ _ X G7 G9) FW) as (A1 & A2 & A3 & A4 & A5 & A6 & A7 & A8 & A9 & _).
    assert (valid (b:=b) INR l z X) as VC.
    { refine (valid_inputs (b:=b) INR l _ _ _ _ A1). intros k. unfold upd. rewrite N1, Ly, Nat.eqb_refl.
      destruct (Nat.eqb_spec k 0) as [->|]; auto. }
    destruct (forward_total TL INR junk l z a X 1 VC ltac:(lia) (valid_empty (b:=b) INR l _ _ X G7 G9)) as (Y1 & c1 & F1); try congruence.
    replace (d_n z) with n in F1 by congruence. exists Y1, c1.
    assert (length (all_orders 0%R n 1 X) = n * 2) as LA by (exact (pack_length (b:=b) n 1 X)).
    assert (length (all_orders 0%R n 1 X) =? n = false) as LB by (apply Nat.eqb_neq; lia).
    assert (forall k j, k <= 1 -> j < n -> nth j (given 0%R (g_n f) (map CDyn ds ++ [CFor 1 (all_orders 0%R n 1 X)]) k) 0%R = nth j (X k) 0%R) as GV.
    { intros k j Hk Hj. rewrite given_snoc, gn, LB.
      rewrite (nth_indep _ 0%R ((fun j => nth (j * (1 + 1) + k) (all_orders 0%R n 1 X) 0%R) 0)) by now rewrite map_length, seq_length.
      rewrite (map_nth (fun j => nth (j * (1 + 1) + k) (all_orders 0%R n 1 X) 0%R)), seq_nth by auto.
      etransitivity; [|exact (pack_nth (b:=b) n 1 X j k Hj Hk)]. cbn [Nat.add]. replace (j * 2 + k) with (2 * j + k) by lia. reflexivity. }
    split; [exact F1|]. split.
    - exists (map CDyn ds ++ [CFor 1 (all_orders 0%R n 1 X)]).
      split; [apply one_snoc, one_map|]. split; [rewrite dyn_snoc; apply dyn_map|].
      split; [eapply run_snoc; [apply run_dyn|exact F1]|].
      assert (forall k, length (given 0%R (g_n f) (map CDyn ds ++ [CFor 1 (all_orders 0%R n 1 X)]) k) = n) as GL.
      { intros k. rewrite given_snoc, gn, LB, map_length, seq_length. auto. }
      split; [|split].
      + apply (nth_eq 0%R); [now rewrite GL|]. rewrite GL. intros j Hj. rewrite GV by lia. reflexivity.
      + apply (nth_eq 0%R); [now rewrite GL|]. rewrite GL. intros j Hj. rewrite GV by lia. reflexivity.
      + rewrite (fwd_ord _ _ _ _ _ F1). lia.
    - intros R i Hi.
      pose proof (fwd_taylor (map CDyn ds) a 1 (all_orders 0%R n 1 X) Y1 c1 y u (one_map ds) (dyn_map ds) (run_dyn ds f0) F1 Ly R) as K. cbv zeta in K.
      specialize (K ltac:(intros; now rewrite GV by lia) ltac:(intros; now rewrite GV by lia) ltac:(intros; lia) i 1 Hi ltac:(lia) ltac:(intros; lia)).
      cbn [fact INR Nat.mul Nat.add] in K. rewrite Rmult_1_l in K. exact K.
  Qed.
  (** Reverse *)
  Lemma all_orders0 (y : list R) : length y = n -> all_orders 0%R n 0 (fun _ => y) = y.
  Proof.
    intros L. assert (length (all_orders 0%R n 0 (fun _ => y)) = n) as LA by (etransitivity; [exact (pack_length (b:=b) n 0 (fun _ => y))|lia]).
    apply (nth_eq 0%R); [congruence|]. rewrite LA. intros j Hj.
    etransitivity; [|exact (pack_nth (b:=b) n 0 (fun _ => y) j 0 Hj (le_n 0))]. cbn [Nat.add Nat.mul]. rewrite !Nat.add_0_r. reflexivity.
  Qed.

  Lemma rev1 g y w z g' : at1 g y -> length y = n -> length w = m -> reverse g 1 w = Some (z, g') ->
    forall u, length u = n -> reg y u ->
    is_derive (fun s => total m (fun i => nth i w 0 * nth i (F (shift y u s)) 0))%R 0%R (total n (fun j => nth j z 0 * nth j u 0))%R.
  Proof.
    intros (h & A & B & C & D & E) Ly Lw RV u Lu [R1 R2].
    assert (@length R w =? m = true) as LW by (apply Nat.eqb_eq; exact Lw).
    assert (a = with_dynamics (drv_of (b:=b) junk f) (dynamics h)) as EA by (unfold a, f0; now rewrite B).
    rewrite EA in R1, R2.
    pose proof (reverse_is_adjoint dis nan junk tid cmp n np e ev p V0 l0 f REC POS h g 1 w z g' A C RV (fun s _ => shift y u s) (fun s _ => F (shift y u s))) as K.
    cbv zeta in K. fold m in K. rewrite gn in K. rewrite gn in D.
    assert (forall s, all_orders 0%R n (1 - 1) (fun _ => shift y u s) = shift y u s) as AO by (intros; apply all_orders0; now rewrite shift_length).
    assert (forall i, i < n -> Derive (fun s => nth i (shift y u s) 0%R) 0%R = nth i u 0%R) as DS by (intros; apply is_derive_unique, der_shift; lia).
    match type of K with ?P1 -> ?P2 -> ?P3 -> ?P4 -> ?P5 -> _ => assert (P1) as H1; [|assert (P2) as H2; [|assert P3 as H3; [|assert P4 as H4]]] end.
    - intros. now rewrite shift_length.
    - intros j k Hj Hk. replace k with 0 by lia. rewrite shift_0. now rewrite D.
    - intros j k Hj Hk. eexists. apply der_shift. lia.
    - generalize R1. apply filter_imp. intros s (zz & Fz). exists (F (shift y u s)), zz. split.
      + replace (all_orders 0%R n (1 - 1) (fun _ => shift y u s)) with (shift y u s) by (symmetry; apply AO). exact Fz.
      + intros k Hk. symmetry. apply (ret_n (1 - 1) k). etransitivity; [exact (f_equal (@length R) (AO s))|]. now rewrite shift_length.
    - specialize (K H1 H2 H3 H4 R2).
      assert (total n (fun j => total 1 (fun k => partial_at m 1 w z j k * Derive (fun s => nth j (shift y u s) 0) 0)) = total n (fun j => nth j z 0 * nth j u 0))%R as <-.
      { apply total_ext. intros j Hj. rewrite total_1, DS by auto. f_equal. unfold partial_at. rewrite LW. replace (j * 1 + (1 - 1 - 0)) with j by lia. reflexivity. }
      eapply is_derive_ext; [|exact K]. intros s. apply total_ext. intros i Hi. cbn beta. rewrite total_1. f_equal.
      unfold weight. rewrite LW. reflexivity.
  Qed.

  Lemma rev2 g y u w z g' : at2 g y u -> length y = n -> length u = n -> length w = m -> reverse g 2 w = Some (z, g') ->
    forall v (G : R -> nat -> R), length v = n ->
    locally 0%R (fun s => (exists ys zz, forward a 0 (shift y v s) = Some (ys, zz)) /\ reg (shift y v s) u /\ forall i, i < m -> is_derive (fun t => nth i (F (shift (shift y v s) u t)) 0%R) 0%R (G s i)) ->
    smooth_at dis nan junk f a (shift y v) ->
    is_derive (fun s => total m (fun i => nth i w 0 * G s i))%R 0%R (total n (fun k => nth (k * 2 + 1) z 0 * nth k v 0))%R.
  Proof.
    intros (h & A & B & C & D & E & _) Ly Lu Lw RV v G Lv R1 R2.
    assert (@length R w =? m = true) as LW by (apply Nat.eqb_eq; exact Lw).
    assert (with_dynamics (drv_of (b:=b) junk f) (@dynamics (bt b) h) = a) as EA by (unfold a, f0; exact (f_equal (with_dynamics (drv_of (b:=b) junk f)) B)).
    set (X := fun s k => if k =? 0 then shift y v s else u).
    set (Y := fun (s : R) (k : nat) => match forward a 1 (all_orders 0%R n 1 (X s)) with Some (ys, _) => returned (b:=b) f 1 k (all_orders 0%R n 1 (X s)) ys | None => [] end).
    pose proof (reverse_is_adjoint dis nan junk tid cmp n np e ev p V0 l0 f REC POS h g 2 w z g' A C RV X Y) as K.
    cbv zeta in K. fold m in K. rewrite gn in K. rewrite gn in D, E. rewrite EA in K.
    assert (forall i, i < n -> Derive (fun s => nth i (shift y v s) 0%R) 0%R = nth i v 0%R) as DS by (intros; apply is_derive_unique, der_shift; lia).
    match type of K with ?P1 -> ?P2 -> ?P3 -> ?P4 -> ?P5 -> _ => assert (P1) as H1; [|assert (P2) as H2; [|assert P3 as H3; [|assert P4 as H4]]] end.
    - intros. cbn. now rewrite shift_length.
    - intros j k Hj Hk. unfold X. destruct k as [|[|k]]; [|cbn [Nat.eqb]; now rewrite E|lia]. cbn [Nat.eqb]. rewrite shift_0. now rewrite D.
    - intros j k Hj Hk. unfold X. destruct k as [|k]; [eexists; apply der_shift; lia|]. exact (ex_derive_const (nth j u 0%R) 0%R).
    - generalize R1. apply filter_imp. intros s ((ys & zz & Fz) & _).
      destruct (fwd_all (shift y v s) u ys zz ltac:(now rewrite shift_length) Lu Fz) as (v1 & c & F1 & _).
      exists v1, c. split; [exact F1|]. intros k Hk. unfold Y, X. rewrite F1. reflexivity.
    - specialize (K H1 H2 H3 H4 R2).
      assert (total n (fun j => total 2 (fun k => partial_at m 2 w z j k * Derive (fun s => nth j (X s k) 0) 0)) = total n (fun k => nth (k * 2 + 1) z 0 * nth k v 0))%R as <-.
      { apply total_ext. intros j Hj. rewrite total_2. unfold X. cbn [Nat.eqb]. rewrite DS by auto. rewrite Derive_const. unfold partial_at. rewrite LW.
        change (2 - 1 - 0) with 1. rewrite Rmult_0_r, Rplus_0_r. reflexivity. }
      eapply is_derive_ext_loc; [|exact K]. generalize R1. apply filter_imp. intros s ((ys & zz & Fz) & Rs & Gs).
      apply total_ext. intros i Hi. rewrite total_2.
      unfold weight. rewrite LW. cbn [Nat.sub Nat.eqb]. rewrite Rmult_0_l, Rplus_0_l. f_equal.
      destruct (fwd_all (shift y v s) u ys zz ltac:(now rewrite shift_length) Lu Fz) as (v1 & c & F1 & _ & F2).
      unfold Y, X. rewrite F1. pose proof (is_derive_unique _ _ _ (F2 Rs i Hi)) as U1. pose proof (is_derive_unique _ _ _ (Gs i Hi)) as U2. cbn [bt Rbase] in *.
      etransitivity; [symmetry; exact U1|]. exact U2.
  Qed.
End Der.
