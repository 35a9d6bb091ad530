(** C38, Hessian sparsity: at a recorded call of an atomic function the sweeps ask the callback for the patterns of exactly the arguments and results in use,
    and what they do to the sets is the chain rule for second derivatives.  The vocabulary (objects, [is_var], [addr_of], [spec_par], [call_block], [legal], [plays]) is that of Atom_Prop. *)
From Coq Require Import List Bool Arith Lia.
From Verif Require Import Base_Spec Op_Model Tape_Spec Tape_Model Tape_Proof Atom_Model Atom_Proof1 Atom_Proof2 Atom_Proof3 Atom_Proof4 Atom_Proof5 Atom_Prop AtomHes_Model AtomHes_Proof Tape_Hist Tape_Prop.
Import ListNotations.

Section Main.
  Context {b : base} (BL : base_laws b).
  Notation T := (bt b).
  Notation obj := (kind * AD b)%type.
  Variables (r : rec b) (tid ai cid : nat) (tx ty : list kind) (ax ay : list (AD b)) (r' : rec b) (ay' : list (AD b)) (blk : list ins).
  Hypothesis L : legal r tx ty ax ay.
  Hypothesis E : put_var_atomic r tid ai cid tx ty ax ay = (r', ay').
  Hypothesis B : call_block r r' blk.
  Variables (isd : nat -> bool) (P : nat -> T).
  Hypothesis PL : plays r' isd P.
  (** 0 is not a variable of the user *)
  Hypothesis N0 : 0 < r_nvar r.
  Notation xs := (combine tx ax : list obj).
  Notation ys := (combine ty ay' : list obj).
  Notation n := (length ax).
  Notation m := (length ay).
  Notation x_ j := (nth j xs no_obj).
  Notation y_ i := (nth i ys no_obj).
  Variable cb_jac : nat -> nat -> bool -> list T -> list kind -> list bool -> list bool -> list (nat * nat).
  Variable cb_hes : nat -> nat -> list T -> list kind -> list bool -> list bool -> list (nat * nat).

  Lemma facts : exists lx ly iv iv', blk = mkIns AFunOp [ai; cid; length lx; length ly] iv :: lx ++ ly ++ [mkIns AFunOp [ai; cid; length lx; length ly] iv'] /\
    length lx = n /\ length ly = m /\ Forall isx lx /\ Forall isy ly /\
    map (xpar P) lx = map (spec_par P) xs /\ map (xkind isd) lx = map spec_kind xs /\
    length ys = m /\
    (forall t, t < n -> xidx (nth t lx d0) = if is_var (x_ t) then addr_of (x_ t) else 0) /\
    (forall t, t < m -> yidx (nth t ly d0) = if is_var (y_ t) then addr_of (y_ t) else 0) /\
    (forall t, t < n -> is_var (x_ t) = true -> addr_of (x_ t) < r_nvar r) /\
    (forall t, t < m -> is_var (y_ t) = true -> r_nvar r <= addr_of (y_ t)).
  Proof.
    destruct (block_of BL _ _ _ _ _ _ _ _ _ _ _ L E B) as (lx & ly & iv & iv' & -> & L1 & L2 & L3 & FX & FY & RY). exists lx, ly, iv, iv'.
    assert (length ys = m) as LY by (rewrite combine_length, L3, (lg_y _ _ _ _ _ L); lia).
    pose proof (len_xs _ _ _ _ _ L) as LX. 
    split; auto. split; auto. split; auto.
    split. { clear -FX. induction FX as [|p i l l' H F IH]; constructor; auto. apply (xins_isx _ _ _ _ H). }
    split. { clear -FY. induction FY as [|p i l l' H F IH]; constructor; auto. apply (yins_isy _ _ _ _ H). }
    split. { apply (f2_map _ _ _ _ _ FX). intros [t x] i H. now apply (conv_x _ _ _ _ _ _ PL H). }
    split. { apply (f2_map _ _ _ _ _ FX). intros [t x] i H. now apply (conv_x _ _ _ _ _ _ PL H). }
    split; auto.
    split. { intros t Ht. pose proof (f2_nth _ _ _ no_obj d0 t FX) as H. rewrite LX in H. specialize (H Ht). destruct (x_ t) as [t1 y1]. cbn [fst snd] in H. destruct (conv_x _ _ _ _ _ _ PL H) as (_ & _ & _ & C2 & C3). unfold xidx. rewrite C2. destruct (is_var (t1, y1)); auto. }
    split. { intros t Ht. pose proof (f2_nth _ _ _ no_obj d0 t FY) as H. rewrite LY in H. specialize (H Ht). destruct (y_ t) as [t1 y1]. cbn [fst snd] in H. destruct (conv_y _ _ _ _ _ _ PL H) as (C1 & C2 & C3). unfold yidx. rewrite C2. destruct (is_var (t1, y1)); auto. }
    split.
    - intros t Ht. unfold no_obj. rewrite combine_nth' by apply L. unfold is_var, addr_of. cbn [fst snd]. destruct (nth t tx Kcon) eqn:K; try discriminate. intros _. now apply (lg_vx _ _ _ _ _ L).
    - intros t Ht. rewrite (nth_y _ _ _ _ _ _ L) by auto. specialize (RY t Ht). unfold is_var, addr_of. cbn [fst snd]. destruct (nth t ty Kcon); try discriminate. cbn [yres] in RY. rewrite RY. cbn. lia.
  Qed.
  Lemma map_nth_eq {A C} (f : A -> C) (g : ins -> C) (l : list A) (lx : list ins) d (k : nat) : length lx = k -> length l = k -> (forall t, t < k -> g (nth t lx d0) = f (nth t l d)) -> map g lx = map f l.
  Proof. intros E1 E2 H. apply (nth_ext _ _ (g d0) (f d)); rewrite !map_length; [congruence|]. intros t Ht. rewrite !map_nth. apply H. lia. Qed.
  Lemma nth_sel {A} (f : A -> bool) (l : list A) d t : t < length l -> nth t (map f l) false = f (nth t l d).
  Proof. intros H. rewrite (nth_indep _ false (f d)) by now rewrite map_length. apply map_nth. Qed.

  (** *** Reverse mode.  [J v], [H v] are the sets of the variable v (elements below [fin]), [fl v] says that the results in question depend on v.
      The selected x are the variables with a non-empty J, the selected y the variables with the flag.
      A result that has the flag passes its set to every selected argument it depends on, and each pair (row, col) of the Hessian pattern passes the J of one to the H of the other. *)
  Theorem atomic_rev_hes_ok fin w0 rest (J : nat -> nat -> bool) fl H :
    (forall e, J 0 e = false) -> fl 0 = false ->
    let sel_x := map (fun o => is_var o && has J fin (addr_of o)) xs in
    let sel_y := map (fun o => is_var o && fl (addr_of o)) ys in
    let pj := cb_jac ai cid false (map (spec_par P) xs) (map spec_kind xs) sel_x sel_y in
    let ph := cb_hes ai cid (map (spec_par P) xs) (map spec_kind xs) sel_x sel_y in
    (* the patterns are inside what was selected *)
    (forall i j, In (i, j) pj -> i < m /\ j < n /\ nth i sel_y false = true /\ nth j sel_x false = true) ->
    (forall i j, In (i, j) ph -> i < n /\ j < n /\ nth i sel_x false = true /\ nth j sel_x false = true) ->
    exists fl' H', atomic_rev_hes isd P cb_jac cb_hes fin (rev blk ++ rest) w0 J fl H = Some (fl', H', rest) /\
      (forall v, fl' v = true <-> fl v = true \/ exists i j, In (i, j) pj /\ addr_of (x_ j) = v) /\
      (forall v e, H' v e = true <->
         H v e = true \/
         (exists i j, In (i, j) pj /\ addr_of (x_ j) = v /\ H (addr_of (y_ i)) e = true) \/
         (exists i j, In (i, j) ph /\ (addr_of (x_ i) = v /\ J (addr_of (x_ j)) e = true \/ addr_of (x_ j) = v /\ J (addr_of (x_ i)) e = true))).
  Proof.
    intros J0 F0 sel_x sel_y pj ph HJ HH. destruct facts as (lx & ly & iv & iv' & -> & L1 & L2 & IX & IY & EQ1 & EQ2 & LY & CX & CY & VX & VY).
    assert (forall e, existsb (J 0) (seq 0 e) = false) as J0'. { intros e. destruct (existsb _ _) eqn:X; auto. apply existsb_exists in X as (x & _ & X). now rewrite J0 in X. }
    pose proof (len_xs _ _ _ _ _ L) as LX.
    assert (map (fun i => nonempty J fin (xidx i)) lx = sel_x) as EQ3.
    { apply (map_nth_eq _ _ _ _ no_obj n); auto. intros t Ht. rewrite CX by auto. unfold nonempty, has. destruct (is_var (x_ t)); auto. }
    assert (map (fun i => fl (yidx i)) ly = sel_y) as EQ4.
    { apply (map_nth_eq _ _ _ _ no_obj m); auto. intros t Ht. rewrite CY by auto. destruct (is_var (y_ t)); auto. }
    assert (forall t, t < n -> nth t sel_x false = true -> is_var (x_ t) = true) as SX.
    { intros t Ht. unfold sel_x. rewrite (nth_sel _ _ no_obj) by now rewrite LX. rewrite andb_true_iff. tauto. }
    assert (forall t, t < m -> nth t sel_y false = true -> is_var (y_ t) = true) as SY.
    { intros t Ht. unfold sel_y. rewrite (nth_sel _ _ no_obj) by now rewrite LY. rewrite andb_true_iff. tauto. }
    assert (forall t, t < n -> nth t sel_x false = true -> xidx (nth t lx d0) = addr_of (x_ t)) as CX'.
    { intros t Ht S. rewrite CX by auto. now rewrite (SX t Ht S). }
    assert (forall t, t < m -> nth t sel_y false = true -> yidx (nth t ly d0) = addr_of (y_ t)) as CY'.
    { intros t Ht S. rewrite CY by auto. now rewrite (SY t Ht S). }
    replace (rev (mkIns AFunOp [ai; cid; length lx; length ly] iv :: lx ++ ly ++ [mkIns AFunOp [ai; cid; length lx; length ly] iv']) ++ rest)
      with (mkIns AFunOp [ai; cid; length lx; length ly] iv' :: rev ly ++ rev lx ++ mkIns AFunOp [ai; cid; length lx; length ly] iv :: rest)
      by (cbn [rev]; rewrite !rev_app_distr; cbn [rev app]; rewrite <- !app_assoc; reflexivity).
    pose proof (rev_hes_ok isd P cb_jac cb_hes ai cid iv' iv [ai; cid; length lx; length ly] lx ly rest w0 fin J fl H IX IY) as A.
    cbv zeta in A. rewrite EQ1, EQ2, EQ3, EQ4, L1, L2 in A. fold pj ph in A. rewrite L1, L2. destruct (A HJ HH) as (fl' & H' & A1 & A2 & A3).
    { intros i j i' j' Hp Hp'. destruct (HJ i j Hp) as (H1 & H2 & H3 & H4), (HJ i' j' Hp') as (G1 & G2 & G3 & G4). rewrite CX', CY' by auto. specialize (VX j' G2 (SX j' G2 G4)). specialize (VY i H1 (SY i H1 H3)). lia. }
    exists fl', H'. split; [exact A1|]. split.
    - intros v. rewrite A2, orb_true_iff, existsb_exists. split; (intros [K|K]; [now left|right]).
      + destruct K as ([i j] & Hp & K). apply Nat.eqb_eq in K. destruct (HJ i j Hp) as (H1 & H2 & H3 & H4). rewrite CX' in K by auto. eauto.
      + destruct K as (i & j & Hp & K). exists (i, j). split; auto. destruct (HJ i j Hp) as (H1 & H2 & H3 & H4). rewrite CX' by auto. now apply Nat.eqb_eq.
    - intros v e. rewrite A3, !orb_true_iff, !existsb_exists. split.
      + intros [[K|K]|K]; [now left|right; left|right; right].
        * destruct K as ([i j] & Hp & K). destruct (HJ i j Hp) as (H1 & H2 & H3 & H4). rewrite CX', CY' in K by auto. apply andb_true_iff in K as [K1 K2]. apply Nat.eqb_eq in K1. eauto.
        * destruct K as ([i j] & Hp & K). destruct (HH i j Hp) as (H1 & H2 & H3 & H4). rewrite !CX' in K by auto. exists i, j. split; auto. apply orb_true_iff in K as [K|K]; apply andb_true_iff in K as [K1 K2]; apply Nat.eqb_eq in K1; auto.
      + intros [K|[K|K]]; [now left; left|left; right|right].
        * destruct K as (i & j & Hp & K1 & K2). exists (i, j). split; auto. destruct (HJ i j Hp) as (H1 & H2 & H3 & H4). rewrite CX', CY' by auto. rewrite K1, K2, Nat.eqb_refl. auto.
        * destruct K as (i & j & Hp & K). exists (i, j). split; auto. destruct (HH i j Hp) as (H1 & H2 & H3 & H4). rewrite !CX' by auto. destruct K as [[K1 K2]|[K1 K2]]; rewrite K1, K2, Nat.eqb_refl; cbn; auto using orb_true_r.
  Qed.

  (** *** Forward mode.  The set of number [np1 + v] says on which independent variables the variable v depends, the set of number u < np1 is the row u of the Hessian pattern;
      [R v] is not empty if the results in question depend on v.
      The selected x are the variables that depend on something, the selected y those that matter.
      A selected result depends on what its arguments depend on, and each pair (row, col) of the Hessian pattern makes every pair of what the two depend on an entry. *)
  Theorem atomic_for_hes_ok np1 w0 rest (R S : nat -> nat -> bool) :
    (forall e, S (np1 + 0) e = false) -> (forall e, R 0 e = false) ->
    let dep v e := S (np1 + v) e in
    let sel_x := map (fun o => is_var o && has dep np1 (addr_of o)) xs in
    let sel_y := map (fun o => is_var o && has R 1 (addr_of o)) ys in
    let pj := cb_jac ai cid false (map (spec_par P) xs) (map spec_kind xs) sel_x sel_y in
    let ph := cb_hes ai cid (map (spec_par P) xs) (map spec_kind xs) sel_x sel_y in
    (forall i j, In (i, j) pj -> i < m /\ j < n /\ nth i sel_y false = true /\ nth j sel_x false = true) ->
    (forall i j, In (i, j) ph -> i < n /\ j < n /\ nth i sel_x false = true /\ nth j sel_x false = true) ->
    exists S', atomic_for_hes isd P cb_jac cb_hes np1 (blk ++ rest) w0 R S = Some (S', rest) /\
      (forall v e, e < np1 -> S' (np1 + v) e = true <-> dep v e = true \/ exists i j, In (i, j) pj /\ addr_of (y_ i) = v /\ dep (addr_of (x_ j)) e = true) /\
      (forall u e, u < np1 -> e < np1 -> S' u e = true <->
         S u e = true \/ exists i j, In (i, j) ph /\ (dep (addr_of (x_ i)) u = true /\ dep (addr_of (x_ j)) e = true \/ dep (addr_of (x_ j)) u = true /\ dep (addr_of (x_ i)) e = true)).
  Proof.
    intros S0 R0 dep sel_x sel_y pj ph HJ HH. destruct facts as (lx & ly & iv & iv' & -> & L1 & L2 & IX & IY & EQ1 & EQ2 & LY & CX & CY & VX & VY).
    assert (forall e, existsb (dep 0) (seq 0 e) = false) as S0'. { intros e. destruct (existsb _ _) eqn:X; auto. apply existsb_exists in X as (x & _ & X). unfold dep in X. now rewrite S0 in X. }
    assert (forall e, existsb (R 0) (seq 0 e) = false) as R0'. { intros e. destruct (existsb _ _) eqn:X; auto. apply existsb_exists in X as (x & _ & X). now rewrite R0 in X. }
    pose proof (len_xs _ _ _ _ _ L) as LX.
    assert (map (fun i => nonempty S np1 (np1 + xidx i)) lx = sel_x) as EQ3.
    { apply (map_nth_eq _ _ _ _ no_obj n); auto. intros t Ht. rewrite CX by auto. unfold nonempty, has. destruct (is_var (x_ t)); [reflexivity|]. apply S0'. }
    assert (map (fun i => nonempty R 1 (yidx i)) ly = sel_y) as EQ4.
    { apply (map_nth_eq _ _ _ _ no_obj m); auto. intros t Ht. rewrite CY by auto. unfold nonempty, has. destruct (is_var (y_ t)); [reflexivity|]. apply R0'. }
    assert (forall t, t < n -> nth t sel_x false = true -> is_var (x_ t) = true) as SX.
    { intros t Ht. unfold sel_x. rewrite (nth_sel _ _ no_obj) by now rewrite LX. rewrite andb_true_iff. tauto. }
    assert (forall t, t < m -> nth t sel_y false = true -> is_var (y_ t) = true) as SY.
    { intros t Ht. unfold sel_y. rewrite (nth_sel _ _ no_obj) by now rewrite LY. rewrite andb_true_iff. tauto. }
    assert (forall t, t < n -> nth t sel_x false = true -> xidx (nth t lx d0) = addr_of (x_ t)) as CX'.
    { intros t Ht Q. rewrite CX by auto. now rewrite (SX t Ht Q). }
    assert (forall t, t < m -> nth t sel_y false = true -> yidx (nth t ly d0) = addr_of (y_ t)) as CY'.
    { intros t Ht Q. rewrite CY by auto. now rewrite (SY t Ht Q). }
    cbn [app]. rewrite <- app_assoc. rewrite <- app_assoc. cbn [app].
    pose proof (for_hes_ok isd P cb_jac cb_hes ai cid iv iv' [ai; cid; length lx; length ly] lx ly rest w0 np1 R S IX IY) as A.
    cbv zeta in A. rewrite EQ1, EQ2, EQ3, EQ4, L1, L2 in A. fold pj ph in A. rewrite L1, L2. destruct (A HJ HH) as (S' & A1 & A2 & A3).
    { intros i j Hp t Ht Hs. destruct (HJ i j Hp) as (H1 & H2 & H3 & H4). rewrite CX', CY' by auto. specialize (VX t Ht (SX t Ht Hs)). specialize (VY i H1 (SY i H1 H3)). lia. }
    exists S'. split; [exact A1|]. split.
    - intros v e He. rewrite A2 by auto. rewrite orb_true_iff, existsb_exists. split; (intros [K|K]; [now left|right]).
      + destruct K as ([i j] & Hp & K). destruct (HJ i j Hp) as (H1 & H2 & H3 & H4). rewrite CX', CY' in K by auto. apply andb_true_iff in K as [K1 K2]. apply Nat.eqb_eq in K1. eauto.
      + destruct K as (i & j & Hp & K1 & K2). exists (i, j). split; auto. destruct (HJ i j Hp) as (H1 & H2 & H3 & H4). rewrite CX', CY' by auto. rewrite K1, Nat.eqb_refl. exact K2.
    - intros u e Hu He. rewrite A3 by auto. rewrite orb_true_iff, existsb_exists. split; (intros [K|K]; [now left|right]).
      + destruct K as ([i j] & Hp & K). destruct (HH i j Hp) as (H1 & H2 & H3 & H4). rewrite !CX' in K by auto. exists i, j. split; auto. apply orb_true_iff in K as [K|K]; apply andb_true_iff in K as [K1 K2]; auto.
      + destruct K as (i & j & Hp & K). exists (i, j). split; auto. destruct (HH i j Hp) as (H1 & H2 & H3 & H4). rewrite !CX' by auto. unfold dep in K. destruct K as [[K1 K2]|[K1 K2]]; rewrite K1, K2; cbn; auto using orb_true_r.
  Qed.
End Main.

(** *** A concrete call: the one of Atom_Prop, its second variable is the only argument that is a variable; the callback says the first and third result depend on it and the Hessian has (x2, x2). *)
Notation hs_jac := (fun (_ _ : nat) (_ : bool) (_ : list BinInt.Z) (_ : list kind) (sx sy : list bool) => if nth 2 sx false then filter (fun '(i, j) => nth i sy false) [(0, 2); (2, 2)] else []).
Notation hs_hes := (fun (_ _ : nat) (_ : list BinInt.Z) (_ : list kind) (sx sy : list bool) => if nth 2 sx false && nth 0 sy false then [(2, 2)] else []).
Notation hs_w := (@mkW Zbase (fun _ => BinInt.Z0) (fun _ => Kcon) (fun _ => BinInt.Z0) (fun _ => BinInt.Z0) (fun _ => BinInt.Z0) (fun _ => BinInt.Z0) (fun _ => 0) (fun _ => 0) (fun _ => false) (fun _ => false)).
Example hes_call : let (r', ay') := @put_var_atomic Zbase at_r 7 13 4 at_tx at_ty at_ax at_ay in
  match decode (r_op at_r) (r_arg at_r) 0, decode (r_op r') (r_arg r') 0 with
  | Some pre, Some all =>
    let blk := skipn (length pre) all in
    (* the results in question: the first one only; variable 2 is the independent variable of column 1 *)
    match @atomic_rev_hes Zbase (fun _ => false) (fun _ => BinInt.Z0) hs_jac hs_hes 2 (rev blk) hs_w (fun v e => (v =? 2) && (e =? 1)) (fun v => v =? 3) (fun _ _ => false),
          @atomic_for_hes Zbase (fun _ => false) (fun _ => BinInt.Z0) hs_jac hs_hes 3 blk hs_w (fun v e => v =? 3) (fun v e => (v =? 3 + 2) && (e =? 1)) with
    | Some (fl', H', []), Some (S', []) => map fl' [1; 2; 3; 4] = [false; true; true; false] /\ H' 2 1 = true /\ H' 1 1 = false /\ S' (3 + 3) 1 = true /\ S' (3 + 4) 1 = false /\ S' 1 1 = true /\ S' 1 2 = false
    | _, _ => False
    end
  | _, _ => False
  end.
Proof. vm_compute. repeat split. Qed.
