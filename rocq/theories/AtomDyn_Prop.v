(** C38: atomic functions with dynamic parameters as results: the sweep of the dynamic parameters hands the callback exactly the constants and the current values of the dynamic
    parameters, and stores the results at the right parameters. *)
From Coq Require Import List Bool Arith Lia.
From Verif Require Import Base_Spec Op_Model Tape_Spec Tape_Model Tape_Proof Tape_Hist Tape_Prop Atom_Model Atom_Proof1 Atom_Proof2 Atom_Proof3 Atom_Proof4 Atom_Proof5 Atom_Prop AtomDyn_Model AtomDyn_Proof.
Import ListNotations.

Section Main.
  Context {b : base} (BL : base_laws b).
  Notation T := (bt b).
  Notation obj := (kind * AD b)%type.
  Notation drec := (@drec b).
  (** A recorder between two operations: parameter 0 is nan (put by Independent), one operator per dynamic parameter, the arguments belong to the operators. *)
  Record good (d : drec) : Prop := {
    gd_par : length (r_isdyn (fst d)) = length (r_par (fst d)); gd_nan : 0 < length (r_par (fst d)) /\ nth 0 (r_par (fst d)) b0 = bnan /\ nth 0 (r_isdyn (fst d)) false = false;
    gd_op : length (dyn2par (r_isdyn (fst d)) 0) = length (snd d); gd_arg : wfd (length (r_par (fst d))) (snd d) (r_darg (fst d)) }.
  Definition isdyn_of (d : drec) (a : nat) : bool := nth a (r_isdyn (fst d)) false.
  Definition is_dynamic (t : kind) : bool := match t with Kdyn => true | _ => false end.
  Definition count_dyn (l : list kind) : nat := length (filter is_dynamic l).

  (** Recordings without atomic functions are good, and the operations of the recorder keep this *)
  Theorem good_recording (r : rec b) : dwf r -> 0 < length (r_par r) -> nth 0 (r_par r) b0 = bnan -> nth 0 (r_isdyn r) false = false -> good (r, map Dplain (r_dop r)).
  Proof.
    intros [W1 W2 W3 _] N E1 E2. constructor; cbn [fst snd]; auto; [now rewrite map_length|].
    clear -W3. revert W3. generalize (r_darg r) as args. generalize (length (r_par r)) as np. intros np. induction (r_dop r) as [|o l IH]; intros args H; cbn in H |- *; [destruct args; [constructor|discriminate]|].
    rewrite <- (firstn_skipn (num_arg_dyn o) args). constructor; [apply firstn_length_le; unfold dargs in H; lia|]. apply IH. rewrite skipn_length. unfold dargs in *. lia.
  Qed.
  Theorem good_sweep (r : rec b) cb junk isd ind P : length (dyn2par (r_isdyn r) 0) = length (r_dop r) -> dsweep_all isd cb junk (r, map Dplain (r_dop r)) ind P = dyn_sweep r ind P.
  Proof.
    unfold dsweep_all, dyn_sweep. cbn [fst snd]. rewrite map_length. generalize (r_darg r) as args. generalize (dyn2par (r_isdyn r) 0) as idx. revert ind P.
    induction (r_dop r) as [|o l IH]; intros ind P [|i idx] args H; try discriminate; auto. cbn [length map dsweep dyn_loop]. apply IH. cbn in H. lia.
  Qed.
  Lemma good_plain (r : rec b) ops v o a : good (r, ops) -> length a = num_arg_dyn o -> good (fst (put_dyn_par r v o a), ops ++ [Dplain o]).
  Proof.
    intros [W1 W2 W3 W4] H. cbn [fst snd] in *. destruct W2 as (W2 & W5 & W6). constructor; cbn [fst snd put_dyn_par r_isdyn r_par r_darg].
    - rewrite !app_length. cbn. lia.
    - rewrite app_length, !app_nth1 by lia. repeat split; auto. lia.
    - rewrite dyn2par_app, !app_length, W3. cbn. lia.
    - apply wfd_app; [eapply wfd_mono; [|exact W4]; rewrite app_length; lia|]. rewrite <- (app_nil_r a). constructor; auto. constructor.
  Qed.
  Lemma dyn2par_false k : forall i, dyn2par (repeat false k) i = [].
  Proof. induction k; cbn; auto. Qed.
  Lemma dyn2par_true k : forall i, dyn2par (repeat true k) i = seq i k.
  Proof. induction k; intros i; cbn; auto. now rewrite IHk. Qed.
  Lemma good_con (r : rec b) ops v : good (r, ops) -> good (fst (put_con_par r v), ops).
  Proof.
    intros [W1 W2 W3 W4]. cbn [fst snd] in *. pose proof (added_con BL r v W1) as A. destruct (put_con_par r v) as [r1 a]. destruct A as ([_ _ _ _ _ (l & E1 & E2) E3 E4] & _). constructor; cbn [fst snd].
    - rewrite E1, E2, !app_length, repeat_length. lia.
    - destruct W2 as (W2 & W5 & W6). rewrite E1, E2, app_length, !app_nth1 by lia. repeat split; auto. lia.
    - rewrite E2, dyn2par_app, dyn2par_false, app_nil_r. auto.
    - rewrite E4. eapply wfd_mono; [|exact W4]. rewrite E1, app_length. lia.
  Qed.

  Theorem atomic_dynamic_ok d tid ai cid tx ty ax ay d' ay' :
    good d -> length tx = length ax -> length ty = length ay -> 0 < count_dyn ty ->
    (forall j, j < length ax -> nth j tx Kcon = Kdyn -> a_taddr (nth j ax (con_ad bnan)) < length (r_par (fst d)) /\ isdyn_of d (a_taddr (nth j ax (con_ad bnan))) = true) ->
    put_dyn_atomic d tid ai cid tx ty ax ay = (d', ay') ->
    (* the recording: the results are new dynamic parameters, in order *)
    good d' /\ (exists base, length (r_par (fst d)) <= base /\ length (r_par (fst d')) = base + count_dyn ty /\ length ay' = length ay /\
      forall k, k < length ay -> nth k ay' (con_ad bnan) = if is_dynamic (nth k ty Kcon) then mkAD (a_val (nth k ay (con_ad bnan))) tid (base + count_dyn (firstn k ty)) T_dyn else nth k ay (con_ad bnan)) /\
    (forall a, a < length (r_par (fst d)) -> nth a (r_par (fst d')) bnan = nth a (r_par (fst d)) bnan /\ isdyn_of d' a = isdyn_of d a) /\
    (* the sweep: for any values of the independent dynamic parameters *)
    forall cb junk ind P, (forall a, a < length (r_par (fst d')) -> isdyn_of d' a = false -> P a = nth a (r_par (fst d')) b0) ->
      let P1 := dsweep_all (isdyn_of d) cb junk d ind P in
      let P2 := dsweep_all (isdyn_of d') cb junk d' ind P in
      let x := map (spec_par P1) (combine tx ax) in
      let res := cb ai cid x (map spec_kind (combine tx ax)) Kdyn (map is_dynamic ty) 0 0 x (map junk (seq 0 (length ay))) in
      (forall i, i < length ay -> nth i ty Kcon = Kdyn -> P2 (a_taddr (nth i ay' (con_ad bnan))) = nth i res bnan) /\
      (forall a, (forall i, i < length ay -> nth i ty Kcon = Kdyn -> a <> a_taddr (nth i ay' (con_ad bnan))) -> P2 a = P1 a).
  Proof.
    intros G LX LY ND DX E. destruct d as [r ops]. destruct G as [G1 G2 G3 G4]. unfold isdyn_of in DX. cbn [fst snd] in *. destruct G2 as (G2 & G5 & G6).
    unfold put_dyn_atomic in E. cbv zeta in E. set (z := 6 + length ax + length ay) in E. clearbody z. cbn [fst snd] in E. change (filter kdyn ty) with (filter is_dynamic ty) in E. fold (count_dyn ty) in E.
    set (r1 := push_darg r _) in E. assert (pext r r1) as X1 by now apply pext_refl.
    destruct (dput_xs_ok BL (combine tx ax) r1 G1 G2) as (xa & A1 & A2 & A3).
    { apply Forall_forall. intros [t x] H. apply (In_nth _ _ (Kcon, con_ad bnan)) in H as (k & Hk & H). rewrite combine_length in Hk. rewrite combine_nth' in H by auto. injection H as <- <-. intros K. apply DX; auto. lia. }
    set (r2 := fold_left dput_x1 (combine tx ax) r1) in *. pose proof (pext_trans _ _ _ X1 A2) as X2. pose proof (pext_wfr _ _ X2 G1) as W2. unfold wfr in W2.
    pose proof (dput_ys_ok tid (combine ty ay) true r2 ops) as B. destruct (dput_ys tid true (r2, ops) (combine ty ay)) as [d3 ys]. cbv zeta in B.
    assert (map fst (combine ty ay) = ty) as MF. { clear -LY. revert ay LY. induction ty as [|t l IH]; intros [|y ay] H; cbn in *; auto; try discriminate. f_equal. apply IH. lia. }
    rewrite MF in B. change (ndyn ty) with (count_dyn ty) in B. destruct B as (ya & vs & B1 & B2 & B3 & B4 & B5 & B6 & B7 & B8). rewrite combine_length, LY, Nat.min_id in B6, B7, B8.
    injection E as <- <-. destruct d3 as [r3 ops3]. cbn [fst snd] in *. destruct (count_dyn ty) as [|nd] eqn:CD; [lia|]. cbn [res_ops] in B2.
    assert (length xa = length ax) as Lxa by (rewrite <- (f2_len _ _ _ A3), combine_length; lia).
    assert (forall k, k < length ay -> if is_dynamic (nth k ty Kcon) then nth k ya 0 = length (r_par r2) + count_dyn (firstn k ty) /\ nth k ys (con_ad bnan) = mkAD (a_val (nth k ay (con_ad bnan))) tid (length (r_par r2) + count_dyn (firstn k ty)) T_dyn
      else nth k ya 0 = 0 /\ nth k ys (con_ad bnan) = nth k ay (con_ad bnan)) as RY.
    { intros k Hk. specialize (B8 k Hk). rewrite combine_nth' in B8 by auto. exact B8. }
    clear B8.
    (* parameters *)
    destruct X2 as (l & E1 & E2). set (np := length (r_par r)) in *.
    assert (r_isdyn r3 = r_isdyn r ++ repeat false (length l) ++ repeat true (S nd)) as I3 by (rewrite B5, E2, <- app_assoc; auto).
    assert (length (r_par r3) = length (r_par r2) + S nd) as P3 by (rewrite B4, app_length; lia). assert (length (r_par r2) = np + length l) as P2 by (rewrite E1, app_length; auto).
    assert (r_darg r3 ++ [z] = r_darg r ++ [ai; cid; length xa; length ya; S nd] ++ xa ++ ya ++ [z]) as D3. { rewrite B1, A1. cbn [r1 push_darg r_darg]. rewrite Lxa, B6, <- !app_assoc. reflexivity. }
    assert (Forall (fun a => a < length (r_par r3)) xa) as FXA.
    { apply Forall_forall. intros a Ha. apply (In_nth _ _ 0) in Ha as (k & Hk & <-). pose proof (f2_nth _ _ _ (no_obj (b:=b)) 0 k A3) as H. rewrite combine_length, LX, Nat.min_id, <- Lxa in H. specialize (H Hk). unfold xaddr in H. destruct (fst _); lia. }
    assert (forall k, k <= length ty -> count_dyn (firstn k ty) <= S nd) as CF. { intros k Hk. rewrite <- CD. rewrite <- (firstn_skipn k ty) at 2. unfold count_dyn. rewrite filter_app, app_length. lia. }
    assert (forall k, k < length ty -> is_dynamic (nth k ty Kcon) = true -> count_dyn (firstn k ty) < S nd) as CF'.
    { intros k Hk K. rewrite <- CD. clear -Hk K. unfold count_dyn. revert k Hk K. induction ty as [|t l IH]; intros [|k] Hk K; cbn in Hk; try lia; cbn [nth firstn filter] in *; [rewrite K; cbn; lia|]. specialize (IH k ltac:(lia) K). destruct (is_dynamic t); cbn; lia. }
    assert (Forall (fun a => a < length (r_par r3)) ya) as FYA.
    { apply Forall_forall. intros a Ha. apply (In_nth _ _ 0) in Ha as (k & Hk & <-). rewrite B6 in Hk. specialize (RY k Hk). destruct (is_dynamic _) eqn:K; destruct RY as [-> _]; [|lia]. specialize (CF' k ltac:(lia) K). lia. }
    split; [|split; [|split]].
    - constructor; cbn [fst snd push_darg r_isdyn r_par r_darg].
      + rewrite I3, P3, !app_length, !repeat_length. lia.
      + rewrite I3, B4, E1, !app_length, !app_nth1 by (rewrite ?app_length; lia). repeat split; auto. lia.
      + rewrite I3, B2, !dyn2par_app, dyn2par_false, dyn2par_true, !app_length, seq_length. cbn [length]. rewrite repeat_length. lia.
      + change (wfd (length (r_par r3)) ops3 (r_darg r3 ++ [z])). rewrite B2, D3. apply wfd_app; [eapply wfd_mono; [|exact G4]; lia|]. rewrite <- (app_nil_r (repeat Dresult nd)). rewrite <- (app_nil_r [z]). constructor; auto. constructor.
    - exists (length (r_par r2)). cbn [push_darg r_par]. split; [lia|]. split; auto. split; auto. intros k Hk. specialize (RY k Hk). destruct (is_dynamic _); apply RY.
    - intros a Ha. unfold isdyn_of. cbn [fst snd push_darg r_par r_isdyn]. rewrite I3, B4, E1. rewrite !app_nth1 by (rewrite ?app_length; lia). auto.
    - intros cb junk ind P HP. change (forall a, a < length (r_par r3) -> nth a (r_isdyn r3) false = false -> P a = nth a (r_par r3) b0) in HP. cbn [fst snd]. cbv zeta.
      set (isd := fun a => nth a (r_isdyn r) false). set (isd' := fun a => nth a (r_isdyn r3) false). change (isdyn_of (r, ops)) with isd. change (isdyn_of (push_darg r3 [z], ops3)) with isd'.
      set (P1 := dsweep_all isd cb junk (r, ops) ind P). 
      assert (forall a, a < np -> isd a = isd' a) as IE. { intros a Ha. unfold isd, isd'. rewrite I3, app_nth1 by lia. auto. }
      assert (dsweep_all isd' cb junk (push_darg r3 [z], ops3) ind P = atom_blk cb junk isd' ai cid xa ya P1) as ->.
      { unfold dsweep_all, P1, dsweep_all. cbn [fst snd]. change (r_isdyn (push_darg r3 [z])) with (r_isdyn r3). change (r_darg (push_darg r3 [z])) with (r_darg r3 ++ [z]). rewrite I3, !dyn2par_app, dyn2par_false, dyn2par_true. cbn [app]. rewrite D3, B2.
        apply (dsweep_end cb junk isd isd' np); auto; [now rewrite seq_length|]. rewrite app_length. cbn. lia. }
      (* what is not dynamic *)
      assert (forall a, a < np + length l -> isd' a = false -> P1 a = nth a (r_par r3) b0) as PC.
      { intros a Ha K. unfold P1, dsweep_all. cbn [fst snd]. rewrite (dsweep_ne cb junk isd np ops (r_darg r) G4).
        - apply HP; auto. lia.
        - apply Forall_forall. intros i Hi. apply dyn2par_ge in Hi as (_ & K1 & _). rewrite Nat.sub_0_r in K1. exact K1.
        - destruct (lt_dec a np); [rewrite IE; auto|]. unfold isd. apply nth_overflow. lia. }
      assert (isd' 0 = false) as I0. { rewrite <- IE by lia. auto. }
      assert (P1 0 = bnan) as PN. { rewrite PC by (auto; lia). rewrite B4, E1, <- app_assoc, app_nth1 by lia. auto. }
      assert (forall a, a < np + length l -> isd' a = nth a (r_isdyn r2) false) as I2. { intros a Ha. unfold isd'. rewrite B5, app_nth1; auto. rewrite E2, app_length, repeat_length. lia. }
      unfold atom_blk. replace (map P1 xa) with (map (spec_par P1) (combine tx ax)).
      2: { symmetry. apply (f2_map _ _ _ _ _ A3). intros [t x] a H. cbn [fst snd] in H. unfold spec_par, xaddr, addr_of in *. cbn [fst snd]. destruct t.
        - destruct H as (H1 & H2 & H3). rewrite PC; [|lia|rewrite I2; auto; lia]. rewrite B4, app_nth1 by lia. rewrite <- H3. apply nth_indep. lia.
        - destruct H as (H1 & H2 & H3). rewrite PC; [|lia|rewrite I2; auto; lia]. rewrite B4, app_nth1 by lia. rewrite <- H3. apply nth_indep. lia.
        - destruct H as (-> & _). auto.
        - now subst a. }
      replace (map (dkind isd') xa) with (map spec_kind (combine tx ax)).
      2: { symmetry. apply (f2_map _ _ _ _ _ A3). intros [t x] a H. cbn [fst snd] in H. unfold spec_kind, xaddr, dkind in *. cbn [fst snd]. destruct t.
        - destruct H as (H1 & H2 & H3). replace (a =? 0) with false by (symmetry; apply Nat.eqb_neq; lia). rewrite I2, H2 by lia. auto.
        - destruct H as (H1 & H2 & H3). replace (a =? 0) with false by (symmetry; apply Nat.eqb_neq; lia). rewrite I2, H2 by lia. auto.
        - destruct H as (_ & H2 & H3). destruct (a =? 0) eqn:Z; [apply Nat.eqb_eq in Z as ->; rewrite <- I2 in H3 by lia; congruence|]. rewrite I2, H3 by lia. auto.
        - now subst a. }
      assert (forall k, k < length ay -> isd' (nth k ya 0) = is_dynamic (nth k ty Kcon)) as IY.
      { intros k Hk. specialize (RY k Hk). destruct (is_dynamic (nth k ty Kcon)) eqn:K; destruct RY as [-> _]; auto. specialize (CF' k ltac:(lia) K). unfold isd'. rewrite B5, app_nth2 by lia. rewrite W2. replace (_ - _) with (count_dyn (firstn k ty)) by lia.
        assert (forall c n, c < n -> nth c (repeat true n) false = true) as NR by (clear; induction c as [|c IH]; intros [|n] H; try lia; cbn; auto; apply IH; lia). now apply NR. }
      replace (map isd' ya) with (map is_dynamic ty).
      2: { apply (nth_ext _ _ (is_dynamic Kcon) (isd' 0)); rewrite !map_length; [lia|]. intros k Hk. rewrite !map_nth. symmetry. apply IY. lia. }
      rewrite B6. set (res := cb _ _ _ _ _ _ _ _ _ _). clearbody res.
      assert (forall i i', i < length ay -> i' < length ay -> is_dynamic (nth i ty Kcon) = true -> is_dynamic (nth i' ty Kcon) = true -> nth i ya 0 = nth i' ya 0 -> i = i') as INJ.
      { intros i i' Hi Hi' K K' Q. pose proof (RY i Hi) as R. pose proof (RY i' Hi') as R'. rewrite K in R. rewrite K' in R'. destruct R as [R _], R' as [R' _]. assert (count_dyn (firstn i ty) = count_dyn (firstn i' ty)) as Q' by lia.
        assert (forall t t', t < t' -> t' <= length ty -> is_dynamic (nth t ty Kcon) = true -> count_dyn (firstn t ty) < count_dyn (firstn t' ty)) as M.
        { clear. unfold count_dyn. induction ty as [|x l IH]; intros t t' H H' K; cbn in *; [lia|]. destruct t' as [|t']; [lia|]. destruct t as [|t]; cbn [firstn filter length]; [rewrite K; cbn; lia|]. specialize (IH t t' ltac:(lia) ltac:(lia) K). destruct (is_dynamic x); cbn; lia. }
        destruct (lt_eq_lt_dec i i') as [[H| ->]|H]; auto; exfalso; [specialize (M i i' H ltac:(lia) K)|specialize (M i' i H ltac:(lia) K')]; lia. }
      assert (forall n, n <= length ay -> let Q := fold_left (fun (P : nat -> T) i => let p := nth i ya 0 in if isd' p then fset P p (nth i res bnan) else P) (seq 0 n) P1 in
        (forall i, i < n -> is_dynamic (nth i ty Kcon) = true -> Q (nth i ya 0) = nth i res bnan) /\ (forall a, (forall i, i < n -> is_dynamic (nth i ty Kcon) = true -> a <> nth i ya 0) -> Q a = P1 a)) as F.
      { induction n as [|n IH]; intros Hn; [split; [intros; lia|auto]|]. rewrite seq_S, fold_left_app. cbn [Nat.add fold_left]. cbv zeta. destruct (IH ltac:(lia)) as [F1 F2]. cbv zeta in F1, F2. rewrite IY by lia. destruct (is_dynamic (nth n ty Kcon)) eqn:K.
        - split.
          + intros i Hi Ki. destruct (Nat.eq_dec i n) as [->|Ne]; [apply fset_eq|]. rewrite fset_ne; [apply F1; auto; lia|]. intros Q. apply Ne. apply INJ; auto; lia.
          + intros a Ha. rewrite fset_ne by (apply Ha; auto). apply F2. intros. apply Ha; auto.
        - split; [intros i Hi Ki; destruct (Nat.eq_dec i n) as [->|Ne]; [congruence|apply F1; auto; lia]|]. intros a Ha. apply F2. intros; apply Ha; auto. }
      destruct (F (length ay) ltac:(lia)) as [F1 F2]. cbv zeta in F1, F2.
      assert (forall i, i < length ay -> nth i ty Kcon = Kdyn -> nth i ya 0 = a_taddr (nth i ys (con_ad bnan))) as AE. { intros i Hi K. pose proof (RY i Hi) as R. rewrite K in R. cbn [is_dynamic] in R. destruct R as [-> ->]. auto. }
      split.
      + intros i Hi K. rewrite <- AE by auto. apply F1; auto. now rewrite K.
      + intros a Ha. apply F2. intros i Hi K. assert (nth i ty Kcon = Kdyn) as K' by (destruct (nth i ty Kcon); try discriminate; auto). rewrite AE by auto. now apply Ha.
  Qed.
End Main.

(** *** A concrete call: x = (5, the dynamic parameter, a variable), y = (constant, dynamic, variable, dynamic) *)
Import ZArith.
Notation dy_r := (@st_rec Zbase at_s).
Definition dy_cb (_ _ : nat) (px : list Z) (tx : list kind) (_ : kind) (_ : list bool) (_ _ : nat) (x y : list Z) : list Z := [0; nth 0 x 0 + nth 1 x 0; 77; 2 * nth 1 x 0]%Z.
Example dyn_good : @good Zbase (dy_r, map Dplain (r_dop dy_r)).
Proof.
  constructor; cbn; try reflexivity; [repeat split; auto; lia|]. change (@nil nat) with (@nil nat ++ @nil nat). repeat constructor.
Qed.
Example dyn_call : let (d', ay') := @put_dyn_atomic Zbase (dy_r, map Dplain (r_dop dy_r)) 7 13 4 [Kcon; Kdyn; Kvar] [Kcon; Kdyn; Kvar; Kdyn]
    [@con_ad Zbase 5%Z; @st_r Zbase at_s 2; @st_r Zbase at_s 1] [@con_ad Zbase 0%Z; @con_ad Zbase 9%Z; @con_ad Zbase 77%Z; @con_ad Zbase 8%Z] in
  map (fun y => (a_taddr y, a_type y)) ay' = [(0, T_con); (3, T_dyn); (0, T_con); (4, T_dyn)] /\
  map (@dsweep_all Zbase (fun a => nth a (r_isdyn (fst d')) false) dy_cb (fun _ => 0%Z) d' [100%Z] (fun a => nth a (r_par (fst d')) 0%Z)) [1; 2; 3; 4] = [100; 5; 105; 200]%Z.
Proof. vm_compute. repeat split. Qed.
