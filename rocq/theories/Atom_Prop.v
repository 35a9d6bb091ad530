(** C38: a call of an atomic function is recorded so that the sweeps hand the callbacks exactly the coefficients and weights of the arguments and store the results
    at the right variables; constants and dynamic parameters are passed as such.
    The specification (first section) only speaks about the kinds and AD objects of the arguments and results. *)
From Coq Require Import List Bool Arith Lia.
From Verif Require Import Base_Spec Op_Model Tape_Spec Tape_Model Tape_Proof Sweep_Uniq Abs_Proof Abs_Proof3 Opt_Proof4 Atom_Model Atom_Proof1 Atom_Proof2 Atom_Proof3 Atom_Proof4 Atom_Proof5 Atom_Proof6 Tape_Hist Tape_Prop.
Import ListNotations.

(** *** Specification *)
Section Spec.
  Context {b : base}.
  Notation T := (bt b).
  (** an AD object and what it is *)
  Notation obj := (kind * AD b)%type.
  (** the parameter values of the function object *)
  Variable P : nat -> T.
  Definition is_var (o : obj) : bool := match fst o with Kvar => true | _ => false end.
  Definition addr_of (o : obj) : nat := a_taddr (snd o).
  (** what the callback gets as value of the parameter: the constant, the current value of the dynamic parameter, nan for a variable *)
  Definition spec_par (o : obj) : T := match fst o with Kvar => bnan | Kdyn => P (addr_of o) | _ => a_val (snd o) end.
  (** and as its type *)
  Definition spec_kind (o : obj) : kind := match fst o with Kzero => Kcon | t => t end.
  (** the Taylor coefficient of order k, [tab v k] are those of the variables; a parameter is constant *)
  Definition spec_coef (tab : nat -> nat -> T) (o : obj) (k : nat) : T :=
    match fst o with Kvar => tab (addr_of o) k | _ => match k with 0 => spec_par o | S _ => b0 end end.
  (** the partial w.r.t. the coefficient of order k of a result *)
  Definition spec_part (part : nat -> nat -> T) (o : obj) (k : nat) : T := if is_var o then part (addr_of o) k else b0.
  (** q coefficients per object, the objects one after the other *)
  Definition vector (q : nat) (f : obj -> nat -> T) (l : list obj) : list T := concat (map (fun o => map (f o) (seq 0 q)) l).
  (** the partial of the variable [v] gets those of the arguments that are this variable *)
  Definition add_partials (q : nat) (l : list obj) (px : list T) (v k : nat) (p0 : T) : T :=
    fold_left (fun s j => if is_var (nth j l (Kcon, con_ad bnan)) && (addr_of (nth j l (Kcon, con_ad bnan)) =? v) then b_bin Badd s (nth (j * q + k) px bnan) else s) (seq 0 (length l)) p0.
  (** the number of variables *)
  Definition count_var (l : list kind) : nat := length (filter (fun t => match t with Kvar => true | _ => false end) l).
  Definition no_obj : obj := (Kcon, con_ad bnan).
End Spec.

Section Main.
  Context {b : base} (BL : base_laws b).
  Notation T := (bt b).
  Notation obj := (kind * AD b)%type.
  (** A call: the tape it is recorded on, the kinds and objects of the arguments and the results (their values are those of the zero order forward call). *)
  Record legal (r : rec b) (tx ty : list kind) (ax ay : list (AD b)) : Prop := {
    lg_par : length (r_isdyn r) = length (r_par r);
    lg_x : length tx = length ax; lg_y : length ty = length ay;
    (** variables and dynamic parameters are on the tape *)
    lg_vx : forall j, j < length ax -> nth j tx Kcon = Kvar -> a_taddr (nth j ax (con_ad bnan)) < r_nvar r;
    lg_dx : forall j, j < length ax -> nth j tx Kcon = Kdyn -> a_taddr (nth j ax (con_ad bnan)) < length (r_par r) /\ nth (a_taddr (nth j ax (con_ad bnan))) (r_isdyn r) false = true;
    lg_dy : forall j, j < length ay -> nth j ty Kcon = Kdyn -> a_taddr (nth j ay (con_ad bnan)) < length (r_par r) /\ nth (a_taddr (nth j ay (con_ad bnan))) (r_isdyn r) false = true }.
  (** A player of a recording that goes on after [r]: it knows the constants and which parameters are dynamic; the values of the dynamic parameters are any. *)
  Definition plays (r : rec b) (isd : nat -> bool) (P : nat -> T) : Prop :=
    forall a, a < length (r_par r) -> isd a = nth a (r_isdyn r) false /\ (isd a = false -> P a = nth a (r_par r) bnan).

  Lemma legal_dyn r tx ty ax ay : legal r tx ty ax ay -> Forall (fun '(t, x) => dyn_ok r t x) (combine tx ax) /\ Forall (fun '(t, y) => dyn_ok r t y) (combine ty ay).
  Proof.
    intros [H1 H2 H3 _ H4 H5]. split; apply Forall_forall; intros [t x] H; apply (In_nth _ _ (Kcon, con_ad bnan)) in H as (k & Hk & E); rewrite combine_length in Hk; rewrite combine_nth' in E by auto; injection E as <- <-; intros E; [apply H4|apply H5]; auto; lia.
  Qed.
  (** the instructions stand for the objects *)
  Lemma conv_x r isd P t x i : plays r isd P -> xins r t x i ->
    xpar P i = spec_par P (t, x) /\ xkind isd i = spec_kind (t, x) /\ (forall tab k, xcoef P tab i k = spec_coef P tab (t, x) k) /\ isvar i = is_var (t, x) /\ (is_var (t, x) = true -> arg0 i = addr_of (t, x)).
  Proof.
    intros PL H. unfold xpar, xkind, xcoef, isvar, pcoef, arg0, spec_par, spec_kind, spec_coef, is_var, addr_of, spec_par, kind_of. cbn [fst snd].
    destruct t; destruct H as [-> H]; try (destruct H as (a & -> & Ha & H); cbn [le_con] in H; destruct (PL a Ha) as [E1 E2]; cbn [nth]; destruct H as [H H']; rewrite H in E1; rewrite ?E1; try (rewrite E2 by congruence)).
    - rewrite H'. repeat split; auto; try discriminate. intros tab [|k]; auto.
    - rewrite H'. repeat split; auto; try discriminate. intros tab [|k]; auto.
    - subst a. repeat split; auto; try discriminate. intros tab [|k]; auto.
    - rewrite H. repeat split; auto.
  Qed.
  Lemma conv_y r isd P t x i : plays r isd P -> yins r t x i ->
    (forall tab k, ycoef P tab i k = spec_coef P tab (t, x) k) /\ isvar i = is_var (t, x) /\ (is_var (t, x) = true -> i_var i = addr_of (t, x)).
  Proof.
    intros PL H. unfold ycoef, isvar, pcoef, arg0, spec_par, spec_coef, is_var, addr_of, spec_par. cbn [fst snd].
    destruct t; destruct H as [-> H]; try (destruct H as (a & -> & Ha & H); cbn [le_con] in H; destruct (PL a Ha) as [E1 E2]; cbn [nth]; destruct H as [H H']; rewrite H in E1; try (rewrite E2 by congruence)).
    - rewrite H'. repeat split; auto; try discriminate. intros tab [|k]; auto.
    - rewrite H'. repeat split; auto; try discriminate. intros tab [|k]; auto.
    - subst a. repeat split; auto; try discriminate. intros tab [|k]; auto.
    - repeat split; auto.
  Qed.
  Lemma flat_map_eq {A B C} (q : nat) (f : A -> nat -> C) (g : B -> nat -> C) (R : A -> B -> Prop) l l' : Forall2 R l l' -> (forall x y, R x y -> forall k, g y k = f x k) ->
    flat q g l' = concat (map (fun o => map (f o) (seq 0 q)) l).
  Proof. intros F H. unfold flat. induction F; cbn; auto. rewrite IHF. f_equal. apply map_ext. intros k. now apply H. Qed.
  Lemma count_lt l t t' : t < t' -> t' <= length l -> kvar (nth t l Kcon) = true -> count_var (firstn t l) < count_var (firstn t' l).
  Proof.
    unfold count_var. revert t t'. induction l as [|x l IH]; intros t t' H H' K; cbn in *; [lia|]. destruct t' as [|t']; [lia|]. destruct t as [|t]; cbn [firstn filter length].
    - unfold kvar in K. destruct x; try discriminate. cbn. lia.
    - specialize (IH t t' ltac:(lia) ltac:(lia) K). destruct x; cbn; lia.
  Qed.

  (** What is known about the block of instructions *)
  Section Block.
    Variables (r : rec b) (tid ai cid : nat) (tx ty : list kind) (ax ay : list (AD b)) (r' : rec b) (ay' : list (AD b)).
    Hypothesis L : legal r tx ty ax ay.
    Hypothesis E : put_var_atomic r tid ai cid tx ty ax ay = (r', ay').
    Variables (pre blk : list ins).
    Hypothesis D : decode (r_op r) (r_arg r) 0 = Some pre.
    Hypothesis NV : r_nvar r = nres (r_op r).
    Let xs : list obj := combine tx ax.
    Let ys : list obj := combine ty ay'.

    Lemma block : exists lx ly iv iv',
      decode (r_op r') (r_arg r') 0 = Some (pre ++ mkIns AFunOp [ai; cid; length ax; length ay] iv :: lx ++ ly ++ [mkIns AFunOp [ai; cid; length ax; length ay] iv']) /\
      length lx = length ax /\ length ly = length ay /\ length ay' = length ay /\
      Forall2 (fun p i => xins r' (fst p) (snd p) i) xs lx /\ Forall2 (fun p i => yins r' (fst p) (snd p) i) ys ly /\
      r_nvar r' = r_nvar r + count_var ty /\
      forall k, k < length ay -> yres tid (nth k ty Kcon) (nth k ay (con_ad bnan)) (nth k ay' (con_ad bnan)) (r_nvar r + count_var (firstn k ty)).
    Proof.
      destruct (legal_dyn _ _ _ _ _ L) as [DX DY]. destruct L as [H1 H2 H3 _ _ _].
      destruct (shape BL r tid ai cid tx ty ax ay r' ay' H1 H2 H3 DX DY E) as (lx & ly & iv & iv' & A & _ & B1 & B2 & B3 & B4 & B5 & B6 & B7).
      exists lx, ly, iv, iv'. split; [|repeat split; auto]. rewrite (dd_op _ _ _ A), (dd_arg _ _ _ A). apply decode_adds; auto; [rewrite <- NV|]; apply A.
    Qed.
  End Block.

  (** The block that a call adds to the recording. *)
  Definition call_block (r r' : rec b) (blk : list ins) : Prop :=
    r_nvar r = nres (r_op r) /\ exists pre, decode (r_op r) (r_arg r) 0 = Some pre /\ decode (r_op r') (r_arg r') 0 = Some (pre ++ blk).

  Lemma block_of r tid ai cid tx ty ax ay r' ay' blk : legal r tx ty ax ay -> put_var_atomic r tid ai cid tx ty ax ay = (r', ay') -> call_block r r' blk ->
    exists lx ly iv iv', blk = mkIns AFunOp [ai; cid; length lx; length ly] iv :: lx ++ ly ++ [mkIns AFunOp [ai; cid; length lx; length ly] iv'] /\
      length lx = length ax /\ length ly = length ay /\ length ay' = length ay /\
      Forall2 (fun p i => xins r' (fst p) (snd p) i) (combine tx ax) lx /\ Forall2 (fun p i => yins r' (fst p) (snd p) i) (combine ty ay') ly /\
      forall k, k < length ay -> yres tid (nth k ty Kcon) (nth k ay (con_ad bnan)) (nth k ay' (con_ad bnan)) (r_nvar r + count_var (firstn k ty)).
  Proof.
    intros L E (NV & pre & D & D'). destruct (block r tid ai cid tx ty ax ay r' ay' L E pre D NV) as (lx & ly & iv & iv' & A & B1 & B2 & B3 & B4 & B5 & _ & B6).
    exists lx, ly, iv, iv'. rewrite D' in A. injection A as A. apply app_inv_head in A. rewrite B1, B2. repeat split; auto.
  Qed.

  (** *** The recording: the call adds one block; the results that are variables are the new variables, in order; all the others are not changed *)
  Theorem atomic_recorded r tid ai cid tx ty ax ay r' ay' pre :
    legal r tx ty ax ay -> put_var_atomic r tid ai cid tx ty ax ay = (r', ay') -> decode (r_op r) (r_arg r) 0 = Some pre -> r_nvar r = nres (r_op r) ->
    (exists blk, call_block r r' blk) /\ r_nvar r' = nres (r_op r') /\ r_nvar r' = r_nvar r + count_var ty /\ length ay' = length ay /\
    (forall a, a < length (r_par r) -> nth a (r_par r') bnan = nth a (r_par r) bnan /\ nth a (r_isdyn r') false = nth a (r_isdyn r) false) /\
    (forall k, k < length ay -> nth k ay' (con_ad bnan) =
       match nth k ty Kcon with Kvar => mkAD (a_val (nth k ay (con_ad bnan))) tid (r_nvar r + count_var (firstn k ty)) T_var | _ => nth k ay (con_ad bnan) end).
  Proof.
    intros L E D NV. destruct (legal_dyn _ _ _ _ _ L) as [DX DY]. pose proof (lg_par _ _ _ _ _ L) as H1. pose proof (lg_x _ _ _ _ _ L) as H2. pose proof (lg_y _ _ _ _ _ L) as H3.
    destruct (shape BL r tid ai cid tx ty ax ay r' ay' H1 H2 H3 DX DY E) as (lx & ly & iv & iv' & A & W' & B1 & B2 & B3 & B4 & B5 & B6 & B7).
    set (blk := mkIns AFunOp [ai; cid; length ax; length ay] iv :: lx ++ ly ++ [mkIns AFunOp [ai; cid; length ax; length ay] iv']) in *.
    assert (decode (r_op r') (r_arg r') 0 = Some (pre ++ blk)) as D'. { rewrite (dd_op _ _ _ A), (dd_arg _ _ _ A). apply decode_adds; auto; [rewrite <- NV|]; apply A. }
    split; [exists blk; split; auto; exists pre; auto|]. split.
    { rewrite (dd_nv _ _ _ A), (dd_op _ _ _ A), nres_app, NV. f_equal. clear. induction blk as [|i l IH]; cbn; auto. }
    split; auto. split; auto. split.
    { intros a Ha. now apply (pext_nth r r' a (dd_par _ _ _ A) H1 Ha). }
    intros k Hk. specialize (B7 k Hk). unfold yres in B7. destruct (nth k ty Kcon); auto.
  Qed.

  Section Players.
    Variables (r : rec b) (tid ai cid : nat) (tx ty : list kind) (ax ay : list (AD b)) (r' : rec b) (ay' : list (AD b)) (blk : list ins).
    Hypothesis L : legal r tx ty ax ay.
    Hypothesis E : put_var_atomic r tid ai cid tx ty ax ay = (r', ay').
    Hypothesis B : call_block r r' blk.
    Variables (isd : nat -> bool) (P : nat -> T).
    Hypothesis PL : plays r' isd P.
    Notation xs := (combine tx ax : list obj).
    Notation ys := (combine ty ay' : list obj).
    Notation n := (length ax).
    Notation m := (length ay).

    Lemma len_xs : length xs = n. Proof. rewrite combine_length, (lg_x _ _ _ _ _ L). lia. Qed.
    Lemma nth_y t : length ay' = m -> nth t ys no_obj = (nth t ty Kcon, nth t ay' (con_ad bnan)).
    Proof. intros H. unfold no_obj. apply combine_nth'. rewrite H. apply L. Qed.

    (** *** Forward, orders low .. up (one direction): the callback gets exactly this, and what it returns is stored at the results that are variables, and nowhere else *)
    Theorem atomic_forward_ok cb cap low up w0 rest tab :
      low <= up -> up < cap ->
      exists tab' taylor_y,
        atomic_forward_any isd P cb cap low up (blk ++ rest) w0 tab = Some (tab', rest) /\
        length taylor_y = m * (up + 1) /\
        (forall i k, i < m -> k < low -> nth (i * (up + 1) + k) taylor_y bnan = spec_coef P (fun v k => tab (v * cap + k)) (nth i ys no_obj) k) /\
        let res := cb ai cid (map (spec_par P) xs) (map spec_kind xs) Kvar (map is_var ys) low up (vector (up + 1) (spec_coef P (fun v k => tab (v * cap + k))) xs) taylor_y in
        (forall i k, i < m -> is_var (nth i ys no_obj) = true -> low <= k <= up -> tab' (addr_of (nth i ys no_obj) * cap + k) = nth (i * (up + 1) + k) res bnan) /\
        (forall v k, k < cap -> (k < low \/ up < k \/ forall i, i < m -> is_var (nth i ys no_obj) = true -> v <> addr_of (nth i ys no_obj)) -> tab' (v * cap + k) = tab (v * cap + k)).
    Proof.
      intros LU UC. destruct (block_of _ _ _ _ _ _ _ _ _ _ _ L E B) as (lx & ly & iv & iv' & -> & L1 & L2 & L3 & FX & FY & RY).
      assert (forall t, t < m -> isvar (nth t ly d0) = is_var (nth t ys no_obj) /\ (is_var (nth t ys no_obj) = true -> i_var (nth t ly d0) = addr_of (nth t ys no_obj)) /\ forall tab k, ycoef P tab (nth t ly d0) k = spec_coef P tab (nth t ys no_obj) k) as CY.
      { intros t Ht. pose proof (f2_nth _ _ _ no_obj d0 t FY) as H. rewrite combine_length, L3, (lg_y _ _ _ _ _ L), Nat.min_id in H. specialize (H Ht). destruct (nth t ys no_obj) as [t1 y1]. cbn [fst snd] in H. destruct (conv_y _ _ _ _ _ _ PL H) as (C1 & C2 & C3). auto. }
      cbn [app]. rewrite <- app_assoc. rewrite <- app_assoc. cbn [app].
      destruct (forward_any_ok isd P cap low up tab cb ai cid iv iv' [ai; cid; length lx; length ly] lx ly rest w0 LU UC) as (tab' & taylor_y & A1 & A2 & A3 & A4).
      { clear -FX. induction FX as [|p i l l' H F IH]; constructor; auto. apply (xins_isx _ _ _ _ H). }
      { clear -FY. induction FY as [|p i l l' H F IH]; constructor; auto. apply (yins_isy _ _ _ _ H). }
      { intros t t' Ht Ht' V V' EQ. rewrite L2 in Ht, Ht'. destruct (CY t Ht) as (C1 & C2 & _), (CY t' Ht') as (C1' & C2' & _). rewrite C1 in V. rewrite C1' in V'. rewrite C2, C2' in EQ by auto.
        rewrite !nth_y in * by auto. unfold is_var, addr_of in *. cbn [fst snd] in *. pose proof (RY t Ht) as R1. pose proof (RY t' Ht') as R2.
        destruct (nth t ty Kcon) eqn:K; try discriminate. destruct (nth t' ty Kcon) eqn:K'; try discriminate. cbn [yres] in R1, R2. rewrite R1, R2 in EQ. cbn [a_taddr] in EQ.
        pose proof (lg_y _ _ _ _ _ L) as LY. destruct (lt_eq_lt_dec t t') as [[H| ->]|H]; auto; exfalso.
        - pose proof (count_lt ty t t' H ltac:(lia)) as C. rewrite K in C. specialize (C eq_refl). lia.
        - pose proof (count_lt ty t' t H ltac:(lia)) as C. rewrite K' in C. specialize (C eq_refl). lia. }
      exists tab', taylor_y. split; [exact A1|]. split; [congruence|]. split.
      { intros i k Hi Hk. rewrite A3 by (auto; lia). now apply CY. }
      assert (map (xpar P) lx = map (spec_par P) xs) as EQ. { apply (f2_map _ _ _ _ _ FX). intros [t x] i H. now apply (conv_x _ _ _ _ _ _ PL H). } rewrite EQ in A4; clear EQ.
      assert (map (xkind isd) lx = map spec_kind xs) as EQ. { apply (f2_map _ _ _ _ _ FX). intros [t x] i H. now apply (conv_x _ _ _ _ _ _ PL H). } rewrite EQ in A4; clear EQ.
      assert (map isvar ly = map is_var ys) as EQ. { apply (f2_map _ _ _ _ _ FY). intros [t x] i H. now apply (conv_y _ _ _ _ _ _ PL H). } rewrite EQ in A4; clear EQ.
      rewrite (flat_map_eq _ (spec_coef P (fun v k => tab (v * cap + k))) _ _ _ _ FX) in A4 by (intros [t x] i H k; now apply (conv_x _ _ _ _ _ _ PL H)).
      cbv zeta in A4 |- *. unfold vector. destruct A4 as [A4 A5]. rewrite L2 in *. split.
      - intros i k Hi V Hk. destruct (CY i Hi) as (C1 & C2 & _). rewrite <- C2 by auto. apply A4; auto. congruence.
      - intros v k Hk N. apply A5; auto. intros t Ht V Hk'. destruct (CY t Ht) as (C1 & C2 & _). rewrite C1 in V. rewrite C2 by auto. destruct N as [N|[N|N]]; try lia. now apply N.
    Qed.

    (** *** Forward, order up, several directions: [position v k dir] is where the coefficient is in the table (order zero is common to all directions).
        For each direction the callback gets exactly the coefficients of this direction; the coefficients of order up that it returns are stored at the results that are variables. *)
    Definition position (cap ndir v k dir : nat) : nat := v * ((cap - 1) * ndir + 1) + match k with 0 => 0 | S k' => k' * ndir + 1 + dir end.
    Theorem atomic_forward_dir_ok cb cap up ndir w0 rest tab :
      1 <= up -> up < cap ->
      exists tab',
        atomic_forward_dir isd P cb cap up ndir (blk ++ rest) w0 tab = Some (tab', rest) /\
        (forall dir, dir < ndir -> exists taylor_y,
          let coef := spec_coef P (fun v k => tab (position cap ndir v k dir)) in
          length taylor_y = m * (up + 1) /\
          (forall i k, i < m -> k < up -> nth (i * (up + 1) + k) taylor_y bnan = coef (nth i ys no_obj) k) /\
          let res := cb ai cid (map (spec_par P) xs) (map spec_kind xs) Kvar (map is_var ys) up up (vector (up + 1) coef xs) taylor_y in
          forall i, i < m -> is_var (nth i ys no_obj) = true -> tab' (position cap ndir (addr_of (nth i ys no_obj)) up dir) = nth (i * (up + 1) + up) res bnan) /\
        (forall a, (forall i dir, i < m -> dir < ndir -> is_var (nth i ys no_obj) = true -> a <> position cap ndir (addr_of (nth i ys no_obj)) up dir) -> tab' a = tab a).
    Proof.
      intros U1 UC. destruct (block_of _ _ _ _ _ _ _ _ _ _ _ L E B) as (lx & ly & iv & iv' & -> & L1 & L2 & L3 & FX & FY & RY).
      assert (forall v k dir, tindex cap ndir v k dir = position cap ndir v k dir) as TP. { intros v [|k] dir; unfold tindex, position; cbn; auto. now rewrite Nat.sub_0_r. }
      assert (forall t, t < m -> isvar (nth t ly d0) = is_var (nth t ys no_obj) /\ (is_var (nth t ys no_obj) = true -> i_var (nth t ly d0) = addr_of (nth t ys no_obj)) /\ forall tab k, ycoef P tab (nth t ly d0) k = spec_coef P tab (nth t ys no_obj) k) as CY.
      { intros t Ht. pose proof (f2_nth _ _ _ no_obj d0 t FY) as H. rewrite combine_length, L3, (lg_y _ _ _ _ _ L), Nat.min_id in H. specialize (H Ht). destruct (nth t ys no_obj) as [t1 y1]. cbn [fst snd] in H. destruct (conv_y _ _ _ _ _ _ PL H) as (C1 & C2 & C3). auto. }
      assert (forall t, t < m -> is_var (nth t ys no_obj) = true -> kvar (nth t ty Kcon) = true /\ addr_of (nth t ys no_obj) = r_nvar r + count_var (firstn t ty)) as VY.
      { intros t Ht. rewrite nth_y by auto. pose proof (RY t Ht) as R. unfold is_var, addr_of. cbn [fst snd]. destruct (nth t ty Kcon) eqn:K; try discriminate. cbn [yres] in R. now rewrite R. }
      cbn [app]. rewrite <- app_assoc. rewrite <- app_assoc. cbn [app].
      destruct (forward_dir_ok isd P cb cap up ndir U1 UC ai cid iv iv' [ai; cid; length lx; length ly] lx ly rest w0 tab) as (tab' & A1 & A2 & A3).
      { clear -FX. induction FX as [|p i l l' H F IH]; constructor; auto. apply (xins_isx _ _ _ _ H). }
      { clear -FY. induction FY as [|p i l l' H F IH]; constructor; auto. apply (yins_isy _ _ _ _ H). }
      { intros t t' Ht Ht' V V' EQ. rewrite L2 in Ht, Ht'. destruct (CY t Ht) as (C1 & C2 & _), (CY t' Ht') as (C1' & C2' & _). rewrite C1 in V. rewrite C1' in V'. rewrite C2, C2' in EQ by auto.
        destruct (VY t Ht V) as (K & K1), (VY t' Ht' V') as (K' & K1'). rewrite K1, K1' in EQ. pose proof (lg_y _ _ _ _ _ L) as LY. destruct (lt_eq_lt_dec t t') as [[H| ->]|H]; auto; exfalso.
        - pose proof (count_lt ty t t' H ltac:(lia) K). lia.
        - pose proof (count_lt ty t' t H ltac:(lia) K'). lia. }
      { intros t j Ht Hj V V'. rewrite L2 in Ht. destruct (CY t Ht) as (C1 & C2 & _). rewrite C1 in V. rewrite C2 by auto. destruct (VY t Ht V) as (_ & ->).
        pose proof (f2_nth _ _ _ no_obj d0 j FX) as H. rewrite len_xs, <- L1 in H. specialize (H Hj). unfold no_obj in H. rewrite combine_nth' in H by apply L. cbn [fst snd] in H. destruct (conv_x _ _ _ _ _ _ PL H) as (_ & _ & _ & D1 & D2). rewrite D1 in V'. rewrite D2 by auto. unfold addr_of. cbn [snd].
        pose proof (lg_vx _ _ _ _ _ L j ltac:(lia)) as N. unfold is_var in V'. cbn [fst] in V'. destruct (nth j tx Kcon); try discriminate. specialize (N eq_refl). lia. }
      exists tab'. split; [exact A1|]. split.
      - intros dir Hd. destruct (A2 dir Hd) as (taylor_y & B1 & B2 & B3). exists taylor_y. cbv zeta in B3 |- *. split; [congruence|]. rewrite L2 in B2, B3.
        assert (forall f o k, (forall v k, f v k = tab (position cap ndir v k dir)) -> spec_coef P f o k = spec_coef P (fun v k => tab (position cap ndir v k dir)) o k) as SC. { intros f o k H. unfold spec_coef. destruct (fst o); auto. }
        split; [intros i k Hi Hk; rewrite B2 by auto; destruct (CY i Hi) as (_ & _ & ->); apply SC; intros; now rewrite TP|].
        assert (map (xpar P) lx = map (spec_par P) xs) as EQ. { apply (f2_map _ _ _ _ _ FX). intros [t x] i H. now apply (conv_x _ _ _ _ _ _ PL H). } rewrite EQ in B3; clear EQ.
        assert (map (xkind isd) lx = map spec_kind xs) as EQ. { apply (f2_map _ _ _ _ _ FX). intros [t x] i H. now apply (conv_x _ _ _ _ _ _ PL H). } rewrite EQ in B3; clear EQ.
        assert (map isvar ly = map is_var ys) as EQ. { apply (f2_map _ _ _ _ _ FY). intros [t x] i H. now apply (conv_y _ _ _ _ _ _ PL H). } rewrite EQ in B3; clear EQ.
        rewrite (flat_map_eq _ (spec_coef P (fun v k => tab (position cap ndir v k dir))) _ _ _ _ FX) in B3 by (intros [t x] i H k; destruct (conv_x _ _ _ _ _ _ PL H) as (_ & _ & C & _); rewrite C; apply SC; intros; now rewrite TP).
        intros i Hi V. destruct (CY i Hi) as (C1 & C2 & _). rewrite <- TP, <- C2 by auto. unfold vector. apply B3; auto. congruence.
      - intros a F. apply A3. intros t dir Ht Hd V. rewrite L2 in Ht. destruct (CY t Ht) as (C1 & C2 & _). rewrite C1 in V. rewrite C2, TP by auto. now apply F.
    Qed.

    (** *** Reverse, q = order_up + 1 orders (the iterator goes backwards): the callback gets exactly this, and the partials it returns are added to those of the arguments that are variables *)
    Theorem atomic_reverse_ok cb cap q w0 rest tab part :
      exists part' partial_x0,
        atomic_reverse isd P cb cap q (rev blk ++ rest) w0 tab part = Some (part', rest) /\ length partial_x0 = n * q /\
        let coef := spec_coef P (fun v k => tab (v * cap + k)) in
        let px := cb ai cid (map (spec_par P) xs) (map spec_kind xs) (map is_var xs) (q - 1) (vector q coef xs) (vector q coef ys) partial_x0 (vector q (spec_part (fun v k => part (v * q + k))) ys) in
        forall v k, k < q -> part' (v * q + k) = add_partials q xs px v k (part (v * q + k)).
    Proof.
      destruct (block_of _ _ _ _ _ _ _ _ _ _ _ L E B) as (lx & ly & iv & iv' & -> & L1 & L2 & L3 & FX & FY & _).
      replace (rev (mkIns AFunOp [ai; cid; length lx; length ly] iv :: lx ++ ly ++ [mkIns AFunOp [ai; cid; length lx; length ly] iv']) ++ rest)
        with (mkIns AFunOp [ai; cid; length lx; length ly] iv' :: rev ly ++ rev lx ++ mkIns AFunOp [ai; cid; length lx; length ly] iv :: rest)
        by (cbn [rev]; rewrite !rev_app_distr; cbn [rev app]; rewrite <- !app_assoc; reflexivity).
      destruct (reverse_ok isd P cap q tab part cb ai cid iv' iv [ai; cid; length lx; length ly] lx ly rest w0) as (part' & px0 & A1 & A2 & A3).
      { clear -FX. induction FX as [|p i l l' H F IH]; constructor; auto. apply (xins_isx _ _ _ _ H). }
      { clear -FY. induction FY as [|p i l l' H F IH]; constructor; auto. apply (yins_isy _ _ _ _ H). }
      exists part', px0. split; [exact A1|]. split; [congruence|].
      assert (map (xpar P) lx = map (spec_par P) xs) as EQ. { apply (f2_map _ _ _ _ _ FX). intros [t x] i H. now apply (conv_x _ _ _ _ _ _ PL H). } rewrite EQ in A3; clear EQ.
      assert (map (xkind isd) lx = map spec_kind xs) as EQ. { apply (f2_map _ _ _ _ _ FX). intros [t x] i H. now apply (conv_x _ _ _ _ _ _ PL H). } rewrite EQ in A3; clear EQ.
      assert (map isvar lx = map is_var xs) as EQ. { apply (f2_map _ _ _ _ _ FX). intros [t x] i H. now apply (conv_x _ _ _ _ _ _ PL H). } rewrite EQ in A3; clear EQ.
      rewrite (flat_map_eq q (spec_coef P (fun v k => tab (v * cap + k))) _ _ _ _ FX) in A3 by (intros [t x] i H k; now apply (conv_x _ _ _ _ _ _ PL H)).
      rewrite (flat_map_eq q (spec_coef P (fun v k => tab (v * cap + k))) _ _ _ _ FY) in A3 by (intros [t x] i H k; now apply (conv_y _ _ _ _ _ _ PL H)).
      rewrite (flat_map_eq q (spec_part (fun v k => part (v * q + k))) _ _ _ _ FY) in A3 by (intros [t x] i H k; destruct (conv_y _ _ _ _ _ _ PL H) as (_ & C1 & C2); unfold ypart, spec_part; cbn [fst snd] in C1, C2; rewrite C1; cbn [fst snd]; revert C2; destruct (is_var (t, x)); intros C2; auto; now rewrite C2).
      cbv zeta in A3 |- *. unfold vector. intros v k Hk. rewrite A3 by auto. unfold acc, add_partials. rewrite len_xs, <- L1.
      match goal with |- fold_left _ _ ?p = _ => generalize p as s end. match goal with |- context [nth _ ?p bnan] => generalize p as px end. intros px s.
      assert (forall l s, (forall j, In j l -> j < length lx) -> fold_left (fun s j => if isvar (nth j lx d0) && (arg0 (nth j lx d0) =? v) then b_bin Badd s (nth (j * q + k) px bnan) else s) l s =
        fold_left (fun s j => if is_var (nth j xs (Kcon, con_ad bnan)) && (addr_of (nth j xs (Kcon, con_ad bnan)) =? v) then b_bin Badd s (nth (j * q + k) px bnan) else s) l s) as K.
      { induction l as [|j l IH]; intros s1 H; cbn [fold_left]; auto. pose proof (f2_nth _ _ _ (Kcon, con_ad bnan) d0 j FX) as G. rewrite len_xs, <- L1 in G. specialize (G (H j (or_introl eq_refl))).
        destruct (nth j xs (Kcon, con_ad bnan)) as [t1 x1]. cbn [fst snd] in G. destruct (conv_x _ _ _ _ _ _ PL G) as (_ & _ & _ & C1 & C2). rewrite C1. destruct (is_var (t1, x1)) eqn:V; [rewrite C2 by auto|cbn [andb]]; apply IH; intros; apply H; now right. }
      apply K. intros j Hj. apply in_seq in Hj. lia.
    Qed.

    (** *** Jacobian sparsity: [S v e]: e is in the set of the variable v; 0 is not a variable of the user, its set is empty *)
    Definition has (S : nat -> nat -> bool) (fin v : nat) : bool := existsb (S v) (seq 0 fin).
    (** forward: the selected x are those with a non-empty set, the selected y the variables; the sets of the results get those of the arguments they depend on *)
    Theorem atomic_for_jac_ok cb dep fin w0 rest (S : nat -> nat -> bool) :
      0 < r_nvar r -> (forall e, S 0 e = false) ->
      let pat := cb ai cid dep (map (spec_par P) xs) (map spec_kind xs) (map (fun o => is_var o && has S fin (addr_of o)) xs) (map is_var ys) in
      (forall i j, In (i, j) pat -> i < m /\ j < n /\ is_var (nth i ys no_obj) = true /\ is_var (nth j xs no_obj) && has S fin (addr_of (nth j xs no_obj)) = true) ->
      exists S', atomic_for_jac isd P cb dep fin (blk ++ rest) w0 S = Some (S', rest) /\
        forall v e, e < fin -> S' v e = true <-> S v e = true \/ exists i j, In (i, j) pat /\ addr_of (nth i ys no_obj) = v /\ S (addr_of (nth j xs no_obj)) e = true.
    Proof.
      intros N0 S0 pat HP. destruct (block_of _ _ _ _ _ _ _ _ _ _ _ L E B) as (lx & ly & iv & iv' & -> & L1 & L2 & L3 & FX & FY & RY).
      assert (forall e, existsb (S 0) (seq 0 e) = false) as S0'. { intros e. destruct (existsb _ _) eqn:X; auto. apply existsb_exists in X as (x & _ & X). now rewrite S0 in X. }
      assert (forall t, t < m -> yidx (nth t ly d0) = if is_var (nth t ys no_obj) then addr_of (nth t ys no_obj) else 0) as CY.
      { intros t Ht. pose proof (f2_nth _ _ _ no_obj d0 t FY) as H. rewrite combine_length, L3, (lg_y _ _ _ _ _ L), Nat.min_id in H. specialize (H Ht). destruct (nth t ys no_obj) as [t1 y1]. cbn [fst snd] in H. destruct (conv_y _ _ _ _ _ _ PL H) as (C1 & C2 & C3). unfold yidx. rewrite C2. destruct (is_var (t1, y1)); auto. }
      assert (forall t, t < m -> is_var (nth t ys no_obj) = true -> 0 < addr_of (nth t ys no_obj)) as PY.
      { intros t Ht. rewrite nth_y by auto. pose proof (RY t Ht) as R. unfold is_var, addr_of. cbn [fst snd]. destruct (nth t ty Kcon); try discriminate. cbn [yres] in R. rewrite R. cbn. lia. }
      assert (forall t, t < n -> xidx (nth t lx d0) = if is_var (nth t xs no_obj) then addr_of (nth t xs no_obj) else 0) as CX.
      { intros t Ht. pose proof (f2_nth _ _ _ no_obj d0 t FX) as H. rewrite len_xs in H. specialize (H Ht). destruct (nth t xs no_obj) as [t1 y1]. cbn [fst snd] in H. destruct (conv_x _ _ _ _ _ _ PL H) as (_ & _ & _ & C2 & C3). unfold xidx. rewrite C2. destruct (is_var (t1, y1)); auto. }
      cbn [app]. rewrite <- app_assoc. rewrite <- app_assoc. cbn [app].
      pose proof (for_jac_ok isd P cb ai cid iv iv' [ai; cid; length lx; length ly] lx ly rest w0 dep fin S) as A.
      assert (map (xpar P) lx = map (spec_par P) xs) as EQ1. { apply (f2_map _ _ _ _ _ FX). intros [t x] i H. now apply (conv_x _ _ _ _ _ _ PL H). }
      assert (map (xkind isd) lx = map spec_kind xs) as EQ2. { apply (f2_map _ _ _ _ _ FX). intros [t x] i H. now apply (conv_x _ _ _ _ _ _ PL H). }
      assert (map (fun i => nonempty S fin (xidx i)) lx = map (fun o => is_var o && has S fin (addr_of o)) xs) as EQ3.
      { apply (f2_map _ _ _ _ _ FX). intros [t x] i H. cbn [fst snd] in H. destruct (conv_x _ _ _ _ _ _ PL H) as (_ & _ & _ & C2 & C3). unfold xidx, nonempty, has. rewrite C2. destruct (is_var (t, x)); [now rewrite C3|]. apply S0'. }
      assert (map (fun i => negb (yidx i =? 0)) ly = map is_var ys) as EQ4.
      { apply (nth_ext _ _ (negb (yidx d0 =? 0)) (is_var (no_obj (b:=b)))); rewrite !map_length; [rewrite combine_length, L2, L3, (lg_y _ _ _ _ _ L); lia|]. intros t Ht. rewrite L2 in Ht. rewrite (map_nth (fun i => negb (yidx i =? 0))), map_nth. rewrite CY by auto.
        specialize (PY t Ht). destruct (is_var (nth t ys no_obj)); auto. specialize (PY eq_refl). apply negb_true_iff, Nat.eqb_neq. lia. }
      cbv zeta in A. rewrite EQ1, EQ2, EQ3, EQ4 in A. fold pat in A. destruct A as (S' & A1 & A2).
      { clear -FX. induction FX as [|p i l l' H F IH]; constructor; auto. apply (xins_isx _ _ _ _ H). }
      { clear -FY. induction FY as [|p i l l' H F IH]; constructor; auto. apply (yins_isy _ _ _ _ H). }
      { intros i j H. destruct (HP i j H) as (H1 & H2 & H3 & H4). rewrite L1, L2, CY, CX by auto. apply andb_true_iff in H4 as [H4 H5]. rewrite H3, H4. repeat split; auto. specialize (PY i H1 H3). lia. }
      exists S'. split; [exact A1|]. intros v e He. rewrite A2 by auto. rewrite orb_true_iff, existsb_exists. split; (intros [H|H]; [now left|right]).
      - destruct H as ([i j] & H & K). apply andb_true_iff in K as [K1 K2]. apply Nat.eqb_eq in K1. destruct (HP i j H) as (H1 & H2 & H3 & H4). rewrite CY, H3 in K1 by auto. rewrite CX in K2 by auto. apply andb_true_iff in H4 as [H4 _]. rewrite H4 in K2. exists i, j. auto.
      - destruct H as (i & j & H & K1 & K2). exists (i, j). split; auto. destruct (HP i j H) as (H1 & H2 & H3 & H4). rewrite CY, H3, CX by auto. apply andb_true_iff in H4 as [-> _]. rewrite K1, K2, Nat.eqb_refl. auto.
    Qed.
    (** reverse: the selected y are those with a non-empty set, all x are selected; the sets of the arguments get those of the results that depend on them *)
    Theorem atomic_rev_jac_ok cb dep fin w0 rest (S : nat -> nat -> bool) :
      (forall e, S 0 e = false) ->
      let pat := cb ai cid dep (map (spec_par P) xs) (map spec_kind xs) (map (fun _ => true) xs) (map (fun o => is_var o && has S fin (addr_of o)) ys) in
      (forall i j, In (i, j) pat -> i < m /\ j < n /\ is_var (nth i ys no_obj) && has S fin (addr_of (nth i ys no_obj)) = true) ->
      exists S', atomic_rev_jac isd P cb dep fin (rev blk ++ rest) w0 S = Some (S', rest) /\
        forall v e, 0 < v -> e < fin -> S' v e = true <-> S v e = true \/ exists i j, In (i, j) pat /\ is_var (nth j xs no_obj) = true /\ addr_of (nth j xs no_obj) = v /\ S (addr_of (nth i ys no_obj)) e = true.
    Proof.
      intros S0 pat HP. destruct (block_of _ _ _ _ _ _ _ _ _ _ _ L E B) as (lx & ly & iv & iv' & -> & L1 & L2 & L3 & FX & FY & RY).
      assert (forall e, existsb (S 0) (seq 0 e) = false) as S0'. { intros e. destruct (existsb _ _) eqn:X; auto. apply existsb_exists in X as (x & _ & X). now rewrite S0 in X. }
      assert (forall t, t < m -> yidx (nth t ly d0) = if is_var (nth t ys no_obj) then addr_of (nth t ys no_obj) else 0) as CY.
      { intros t Ht. pose proof (f2_nth _ _ _ no_obj d0 t FY) as H. rewrite combine_length, L3, (lg_y _ _ _ _ _ L), Nat.min_id in H. specialize (H Ht). destruct (nth t ys no_obj) as [t1 y1]. cbn [fst snd] in H. destruct (conv_y _ _ _ _ _ _ PL H) as (C1 & C2 & C3). unfold yidx. rewrite C2. destruct (is_var (t1, y1)); auto. }
      assert (forall t, t < n -> xidx (nth t lx d0) = if is_var (nth t xs no_obj) then addr_of (nth t xs no_obj) else 0) as CX.
      { intros t Ht. pose proof (f2_nth _ _ _ no_obj d0 t FX) as H. rewrite len_xs in H. specialize (H Ht). destruct (nth t xs no_obj) as [t1 y1]. cbn [fst snd] in H. destruct (conv_x _ _ _ _ _ _ PL H) as (_ & _ & _ & C2 & C3). unfold xidx. rewrite C2. destruct (is_var (t1, y1)); auto. }
      replace (rev (mkIns AFunOp [ai; cid; length lx; length ly] iv :: lx ++ ly ++ [mkIns AFunOp [ai; cid; length lx; length ly] iv']) ++ rest)
        with (mkIns AFunOp [ai; cid; length lx; length ly] iv' :: rev ly ++ rev lx ++ mkIns AFunOp [ai; cid; length lx; length ly] iv :: rest)
        by (cbn [rev]; rewrite !rev_app_distr; cbn [rev app]; rewrite <- !app_assoc; reflexivity).
      pose proof (rev_jac_ok isd P cb ai cid iv' iv [ai; cid; length lx; length ly] lx ly rest w0 dep fin S) as A.
      assert (map (xpar P) lx = map (spec_par P) xs) as EQ1. { apply (f2_map _ _ _ _ _ FX). intros [t x] i H. now apply (conv_x _ _ _ _ _ _ PL H). }
      assert (map (xkind isd) lx = map spec_kind xs) as EQ2. { apply (f2_map _ _ _ _ _ FX). intros [t x] i H. now apply (conv_x _ _ _ _ _ _ PL H). }
      assert (map (fun _ => true) lx = map (fun _ => true) xs) as EQ3 by (apply (f2_map _ _ _ _ _ FX); auto).
      assert (map (fun i => nonempty S fin (yidx i)) ly = map (fun o => is_var o && has S fin (addr_of o)) ys) as EQ4.
      { apply (f2_map _ _ _ _ _ FY). intros [t x] i H. cbn [fst snd] in H. destruct (conv_y _ _ _ _ _ _ PL H) as (_ & C2 & C3). unfold yidx, nonempty, has. rewrite C2. destruct (is_var (t, x)); [now rewrite C3|]. apply S0'. }
      cbv zeta in A. rewrite EQ1, EQ2, EQ3, EQ4 in A. fold pat in A. destruct A as (S' & A1 & A2).
      { clear -FX. induction FX as [|p i l l' H F IH]; constructor; auto. apply (xins_isx _ _ _ _ H). }
      { clear -FY. induction FY as [|p i l l' H F IH]; constructor; auto. apply (yins_isy _ _ _ _ H). }
      { intros i j H. destruct (HP i j H) as (H1 & H2 & H3). rewrite L1, L2, CY by auto. apply andb_true_iff in H3 as [H3 H4]. rewrite H3. auto. }
      exists S'. split; [exact A1|]. intros v e Hv He. rewrite A2 by auto. rewrite orb_true_iff, existsb_exists. split; (intros [H|H]; [now left|right]).
      - destruct H as ([i j] & H & K). apply andb_true_iff in K as [K1 K2]. apply Nat.eqb_eq in K1. destruct (HP i j H) as (H1 & H2 & H3). rewrite CX in K1 by auto. rewrite CY in K2 by auto. apply andb_true_iff in H3 as [H3 _]. rewrite H3 in K2.
        destruct (is_var (nth j xs no_obj)) eqn:V; [|lia]. exists i, j. auto.
      - destruct H as (i & j & H & K0 & K1 & K2). exists (i, j). split; auto. destruct (HP i j H) as (H1 & H2 & H3). rewrite CX, K0, CY by auto. apply andb_true_iff in H3 as [-> _]. rewrite K1, K2, Nat.eqb_refl. auto.
    Qed.
  End Players.
End Main.

(** *** A concrete call: two variables and a dynamic parameter are independent; x = (5, the dynamic parameter, the second variable, 0); y = (variable, constant 6, variable).
    The callback for order 0 returns (x0 + x1 + x2, anything, 3 x2). *)
Import ZArith.
Notation at_s := (@independent Zbase 7 true 2 1 ex_e ex_ev).
Notation at_r := (@st_rec Zbase at_s).
Notation at_tx := [Kcon; Kdyn; Kvar; Kzero].
Notation at_ty := [Kvar; Kcon; Kvar].
Notation at_ax := [@con_ad Zbase 5%Z; @st_r Zbase at_s 2; @st_r Zbase at_s 1; @con_ad Zbase 0%Z].
Notation at_ay := [@con_ad Zbase 10%Z; @con_ad Zbase 6%Z; @con_ad Zbase 3%Z].
Example atom_legal : @legal Zbase at_r at_tx at_ty at_ax at_ay.
Proof.
  constructor; try reflexivity.
  - intros [|[|[|[|j]]]] Hj; cbn in Hj |- *; try lia; intros; try discriminate.
  - intros [|[|[|[|j]]]] Hj; cbn in Hj |- *; try lia; intros; try discriminate.
  - intros [|[|[|j]]] Hj; cbn in Hj |- *; try lia; intros; discriminate.
Qed.
Definition at_cb (_ _ : nat) (px : list Z) (tx : list kind) (_ : kind) (_ : list bool) (_ _ : nat) (x y : list Z) : list Z := [nth 0 x 0 + nth 1 x 0 + nth 2 x 0; 77; 3 * nth 2 x 0]%Z.
Example atom_call : let (r', ay') := @put_var_atomic Zbase at_r 7 13 4 at_tx at_ty at_ax at_ay in
  match decode (r_op at_r) (r_arg at_r) 0, decode (r_op r') (r_arg r') 0 with
  | Some pre, Some all =>
    map a_taddr ay' = [3; 0; 4] /\ r_nvar at_r = nres (r_op at_r) /\ firstn (length pre) all = pre /\
    (* the value of the dynamic parameter is now 100, the second variable is 20 *)
    match @atomic_forward_any Zbase (fun a => nth a (r_isdyn r') false) (fun a => if nth a (r_isdyn r') false then 100%Z else nth a (r_par r') 0%Z) at_cb 1 0 0 (skipn (length pre) all)
      (@mkW Zbase (fun _ => 0%Z) (fun _ => Kcon) (fun _ => 0%Z) (fun _ => 0%Z) (fun _ => 0%Z) (fun _ => 0%Z) (fun _ => 0) (fun _ => 0) (fun _ => false) (fun _ => false)) (fun v => if v =? 2 then 20%Z else 1%Z) with
    | Some (tab, []) => map tab [0; 1; 2; 3; 4; 5] = [1; 1; 20; 125; 60; 1]%Z
    | _ => False
    end
  | _, _ => False
  end.
Proof. vm_compute. repeat split. Qed.
