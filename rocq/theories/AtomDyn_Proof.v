(** C38: atomic functions with dynamic parameters as results. *)
From Coq Require Import List Bool Arith Lia.
From Verif Require Import Base_Spec Op_Model Tape_Spec Tape_Model Tape_Proof Atom_Model Atom_Proof1 Atom_Proof2 AtomDyn_Model.
Import ListNotations.

Section Sweep.
  Context {b : base}.
  Notation T := (bt b).
  Variable cb : nat -> nat -> list T -> list kind -> kind -> list bool -> nat -> nat -> list T -> list T -> list T.
  Variable junk : nat -> T.
  (** the operators and arguments of a recorder whose parameter addresses are less than [np] *)
  Inductive wfd (np : nat) : list dop -> list nat -> Prop :=
  | wfd_nil : wfd np [] []
  | wfd_plain o a ops args : length a = num_arg_dyn o -> wfd np ops args -> wfd np (Dplain o :: ops) (a ++ args)
  | wfd_atom ai cid xa ya nd z ops args : Forall (fun a => a < np) xa -> Forall (fun a => a < np) ya -> wfd np ops args ->
      wfd np (Datom :: repeat Dresult nd ++ ops) ([ai; cid; length xa; length ya; S nd] ++ xa ++ ya ++ [z] ++ args).
  Lemma wfd_mono np np' ops args : np <= np' -> wfd np ops args -> wfd np' ops args.
  Proof. intros H W. induction W; constructor; auto; (eapply Forall_impl; [|eassumption]; cbn; intros; lia). Qed.
  Lemma wfd_app np ops args ops' args' : wfd np ops args -> wfd np ops' args' -> wfd np (ops ++ ops') (args ++ args').
  Proof.
    intros W W'. induction W; cbn [app]; auto; [rewrite <- app_assoc; constructor; auto|].
    rewrite <- (app_assoc (repeat _ _)). rewrite <- (app_assoc xa), <- (app_assoc ya). cbn [app]. change (ai :: cid :: length xa :: length ya :: S nd :: xa ++ ya ++ z :: args ++ args') with ([ai; cid; length xa; length ya; S nd] ++ xa ++ ya ++ [z] ++ (args ++ args')). now constructor.
  Qed.
  Definition dkind (isd : nat -> bool) (a : nat) : kind := if a =? 0 then Kvar else if isd a then Kdyn else Kcon.
  Definition atom_blk (isd : nat -> bool) (ai cid : nat) (xa ya : list nat) (P : nat -> T) : nat -> T :=
    let res := cb ai cid (map P xa) (map (dkind isd) xa) Kdyn (map isd ya) 0 0 (map P xa) (map junk (seq 0 (length ya))) in
    fold_left (fun P i => let p := nth i ya 0 in if isd p then fset P p (nth i res bnan) else P) (seq 0 (length ya)) P.
  Lemma firstn_len {A} (l l' : list A) : firstn (length l) (l ++ l') = l.
  Proof. rewrite firstn_app, Nat.sub_diag, firstn_all, firstn_O. apply app_nil_r. Qed.
  Lemma skipn_len {A} (l l' : list A) : skipn (length l) (l ++ l') = l'.
  Proof. rewrite skipn_app, Nat.sub_diag, skipn_all. reflexivity. Qed.
  Lemma skipn_len2 {A} n (l l' : list A) : n = length l -> skipn n (l ++ l') = l'.
  Proof. intros ->. apply skipn_len. Qed.
  Lemma atom_step_blk isd ai cid xa ya nd rest P : atom_step isd cb junk ([ai; cid; length xa; length ya; nd] ++ xa ++ ya ++ rest) P = atom_blk isd ai cid xa ya P.
  Proof.
    unfold atom_step, atom_blk. cbn [app nth skipn Nat.add]. rewrite firstn_len. rewrite skipn_len. rewrite firstn_len. reflexivity.
  Qed.
  Lemma fold_ext_in {A B} (f g : A -> B -> A) l : (forall a x, In x l -> f a x = g a x) -> forall a, fold_left f l a = fold_left g l a.
  Proof. induction l as [|x l IH]; intros H a; cbn; auto. rewrite H by now left. apply IH. intros; apply H; now right. Qed.
  Lemma atom_blk_ext isd isd' np ai cid xa ya P : (forall a, a < np -> isd a = isd' a) -> Forall (fun a => a < np) xa -> Forall (fun a => a < np) ya -> atom_blk isd ai cid xa ya P = atom_blk isd' ai cid xa ya P.
  Proof.
    intros E FX FY. rewrite Forall_forall in FX, FY. unfold atom_blk. replace (map (dkind isd') xa) with (map (dkind isd) xa) by (apply map_ext_in; intros a Ha; unfold dkind; now rewrite E by auto).
    replace (map isd' ya) with (map isd ya) by (apply map_ext_in; auto). apply fold_ext_in. intros Q i Hi. apply in_seq in Hi. rewrite E; auto. apply FY, nth_In. lia.
  Qed.
  (** the sweep of a tape that ends with the block of a call *)
  Lemma dsweep_end isd isd' np ai cid xa ya nd z idx2 ops args : (forall a, a < np -> isd a = isd' a) -> length idx2 = S nd -> wfd np ops args ->
    forall f f' idx ind P, length idx = length ops -> length ops <= f -> length ops < f' ->
    dsweep isd' cb junk f' (ops ++ Datom :: repeat Dresult nd) (idx ++ idx2) (args ++ [ai; cid; length xa; length ya; S nd] ++ xa ++ ya ++ [z]) ind P
    = atom_blk isd' ai cid xa ya (dsweep isd cb junk f ops idx args ind P).
  Proof.
    intros E L2 W. induction W as [|o a ops args La W IH|ai1 cid1 xa1 ya1 nd1 z1 ops args FX FY W IH]; intros f f' idx ind P LI F F'.
    - destruct idx; [|discriminate]. destruct f' as [|f']; [lia|]. destruct idx2 as [|i2 idx2]; [discriminate|]. cbn [app]. 
      assert (dsweep isd cb junk f [] [] [] ind P = P) as -> by (destruct f; auto). cbn [dsweep nth].
      change (ai :: cid :: length xa :: length ya :: S nd :: xa ++ ya ++ [z]) with ([ai; cid; length xa; length ya; S nd] ++ xa ++ ya ++ [z]). rewrite atom_step_blk.
      rewrite skipn_all2 by (cbn; rewrite repeat_length; lia). destruct f'; reflexivity.
    - destruct idx as [|i idx]; [discriminate|]. cbn in LI, F, F'. destruct f as [|f]; [lia|]. destruct f' as [|f']; [lia|]. cbn [app dsweep]. rewrite <- app_assoc. rewrite <- La. rewrite !firstn_len, !skipn_len. apply IH; lia.
    - cbn [length] in LI, F, F'. rewrite app_length, repeat_length in LI, F, F'. destruct idx as [|i idx]; [discriminate|]. cbn in LI. destruct f as [|f]; [lia|]. destruct f' as [|f']; [lia|].
      set (blk := [ai; cid; length xa; length ya; S nd] ++ xa ++ ya ++ [z]) in *.
      replace (([ai1; cid1; length xa1; length ya1; S nd1] ++ xa1 ++ ya1 ++ [z1] ++ args) ++ blk) with ([ai1; cid1; length xa1; length ya1; S nd1] ++ xa1 ++ ya1 ++ [z1] ++ (args ++ blk)) by (rewrite <- !app_assoc; auto).
      replace ((Datom :: repeat Dresult nd1 ++ ops) ++ Datom :: repeat Dresult nd) with (Datom :: repeat Dresult nd1 ++ (ops ++ Datom :: repeat Dresult nd)) by (cbn [app]; now rewrite <- app_assoc).
      cbn [dsweep]. cbn [app nth]. fold (@app nat [ai1; cid1; length xa1; length ya1; S nd1] (xa1 ++ ya1 ++ z1 :: args ++ blk)).
      change (ai1 :: cid1 :: length xa1 :: length ya1 :: S nd1 :: xa1 ++ ya1 ++ z1 :: args ++ blk) with ([ai1; cid1; length xa1; length ya1; S nd1] ++ xa1 ++ ya1 ++ [z1] ++ args ++ blk).
      change (ai1 :: cid1 :: length xa1 :: length ya1 :: S nd1 :: xa1 ++ ya1 ++ z1 :: args) with ([ai1; cid1; length xa1; length ya1; S nd1] ++ xa1 ++ ya1 ++ [z1] ++ args).
      change (i :: idx ++ idx2) with ((i :: idx) ++ idx2). rewrite !atom_step_blk. rewrite <- (atom_blk_ext isd isd' np) by auto.
      assert (forall l, skipn (6 + length xa1 + length ya1) ([ai1; cid1; length xa1; length ya1; S nd1] ++ xa1 ++ ya1 ++ [z1] ++ l) = l) as SK.
      { intros l. replace ([ai1; cid1; length xa1; length ya1; S nd1] ++ xa1 ++ ya1 ++ [z1] ++ l) with (([ai1; cid1; length xa1; length ya1; S nd1] ++ xa1 ++ ya1 ++ [z1]) ++ l) by (rewrite <- !app_assoc; auto). apply skipn_len2. cbn. rewrite !app_length. cbn. lia. }
      cbn [app] in SK |- *. rewrite !SK. cbn [skipn app]. rewrite (skipn_len2 nd1 (repeat Dresult nd1)) by now rewrite repeat_length. rewrite (skipn_len2 nd1 (repeat Dresult nd1) ops) by now rewrite repeat_length.
      replace (skipn nd1 (idx ++ idx2)) with (skipn nd1 idx ++ idx2) by (rewrite skipn_app; replace (nd1 - length idx) with 0 by lia; reflexivity). apply IH; rewrite ?skipn_length; lia.
  Qed.
  (** parameters that are not dynamic are not changed *)
  Lemma atom_blk_ne isd ai cid xa ya P a : isd a = false -> atom_blk isd ai cid xa ya P a = P a.
  Proof.
    intros H. unfold atom_blk. set (res := cb _ _ _ _ _ _ _ _ _ _). clearbody res. generalize (seq 0 (length ya)) as l. intros l. revert P. induction l as [|i l IH]; intros P; cbn [fold_left]; auto. rewrite IH. cbv zeta. destruct (isd (nth i ya 0)) eqn:E; auto. apply fset_ne. congruence.
  Qed.
  Lemma dsweep_ne isd np ops args : wfd np ops args -> forall f idx ind P a, Forall (fun i => isd i = true) idx -> isd a = false -> dsweep isd cb junk f ops idx args ind P a = P a.
  Proof.
    intros W. induction W as [|o ar ops args La W IH|ai1 cid1 xa1 ya1 nd1 z1 ops args FX FY W IH]; intros f idx ind P a FI Ha; destruct f as [|f]; auto; cbn [dsweep]; destruct idx as [|i idx]; auto; inversion FI as [|? ? F1 F2]; subst.
    - rewrite <- La, skipn_len. rewrite IH by auto. apply fset_ne. congruence.
    - cbn [app nth].
      change (ai1 :: cid1 :: length xa1 :: length ya1 :: S nd1 :: xa1 ++ ya1 ++ z1 :: args) with ([ai1; cid1; length xa1; length ya1; S nd1] ++ xa1 ++ ya1 ++ [z1] ++ args). rewrite atom_step_blk.
      replace ([ai1; cid1; length xa1; length ya1; S nd1] ++ xa1 ++ ya1 ++ [z1] ++ args) with (([ai1; cid1; length xa1; length ya1; S nd1] ++ xa1 ++ ya1 ++ [z1]) ++ args) by (rewrite <- !app_assoc; auto).
      rewrite skipn_len2 by (cbn; rewrite !app_length; cbn; lia). cbn [skipn]. rewrite (skipn_len2 nd1 (repeat Dresult nd1)) by now rewrite repeat_length.
      rewrite IH; auto; [now apply atom_blk_ne|]. rewrite Forall_forall in *. intros x Hx. apply F2. rewrite <- (firstn_skipn nd1 idx). apply in_or_app. now right.
  Qed.
End Sweep.

Section Rec.
  Context {b : base} (BL : base_laws b).
  Notation T := (bt b).
  Implicit Types r : rec b.
  Definition xaddr r (t : kind) (x : AD b) (a : nat) : Prop :=
    match t with
    | Kvar => a = 0
    | Kdyn => a = a_taddr x /\ a < length (r_par r) /\ nth a (r_isdyn r) false = true
    | _ => 0 < a < length (r_par r) /\ nth a (r_isdyn r) false = false /\ nth a (r_par r) bnan = a_val x
    end.
  Lemma xaddr_ext r r' t x a : pext r r' -> wfr r -> xaddr r t x a -> xaddr r' t x a.
  Proof.
    intros E W H. destruct t; cbn [xaddr] in *; auto.
    - destruct H as (H1 & H2 & H3). destruct (pext_nth r r' a E W ltac:(lia)) as (E1 & E2 & E3). rewrite E2, E3. repeat split; auto; lia.
    - destruct H as (H1 & H2 & H3). destruct (pext_nth r r' a E W ltac:(lia)) as (E1 & E2 & E3). rewrite E2, E3. repeat split; auto; lia.
    - destruct H as (H1 & H2 & H3). destruct (pext_nth r r' a E W ltac:(lia)) as (E1 & E2 & E3). rewrite E3. repeat split; auto; lia.
  Qed.
  Lemma con_pos r v : 0 < length (r_par r) -> 0 < snd (put_con_par r v).
  Proof. intros H. unfold put_con_par. cbv zeta. destruct (_ && _ && _ && _) eqn:E; cbn; auto. apply andb_true_iff in E as [E _]. apply andb_true_iff in E as [E _]. apply andb_true_iff in E as [E _]. now apply Nat.ltb_lt. Qed.
  Lemma dput_x1_ok r t x : wfr r -> 0 < length (r_par r) -> dyn_ok r t x -> exists a, r_darg (dput_x1 r (t, x)) = r_darg r ++ [a] /\ pext r (dput_x1 r (t, x)) /\ xaddr (dput_x1 r (t, x)) t x a.
  Proof.
    intros W N D. unfold dput_x1. destruct (le_con t) eqn:Lc.
    - pose proof (added_con BL r (a_val x) W) as A. pose proof (con_pos r (a_val x) N) as A0. destruct (put_con_par r (a_val x)) as [r1 a]. destruct A as (A1 & A2 & A3 & A4). exists a. cbn. rewrite (dd_darg _ _ _ A1). split; auto. split; [exact (dd_par _ _ _ A1)|].
      destruct t; try discriminate; cbn in *; repeat split; auto.
    - destruct t; try discriminate.
      + exists (a_taddr x). cbn. destruct (D eq_refl). split; auto. split; auto. now apply pext_refl.
      + exists 0. cbn. split; auto. split; auto. now apply pext_refl.
  Qed.
  Lemma dput_xs_ok l : forall r, wfr r -> 0 < length (r_par r) -> Forall (fun '(t, x) => dyn_ok r t x) l ->
    let r' := fold_left dput_x1 l r in exists xa, r_darg r' = r_darg r ++ xa /\ pext r r' /\ Forall2 (fun p a => xaddr r' (fst p) (snd p) a) l xa.
  Proof.
    induction l as [|[t x] l IH]; intros r W N F; cbn [fold_left]; [exists []; rewrite app_nil_r; split; auto; split; auto; now apply pext_refl|]. inversion F as [|? ? F1 F2]; subst.
    destruct (dput_x1_ok r t x W N F1) as (a & A1 & A2 & A3). pose proof (pext_wfr _ _ A2 W) as W1.
    destruct (IH (dput_x1 r (t, x)) W1) as (xa & B1 & B2 & B3); [destruct A2 as (l0 & E & _); rewrite E, app_length; lia|eapply Forall_impl; [|exact F2]; intros [t1 x1] H; exact (dyn_ok_ext _ _ _ _ A2 W H)|].
    exists (a :: xa). rewrite B1, A1, <- app_assoc. split; auto. split; [eapply pext_trans; eauto|]. constructor; auto. cbn [fst snd]. eapply xaddr_ext; eauto.
  Qed.
  Definition ndyn (l : list kind) : nat := length (filter kdyn l).
  Definition res_ops (first : bool) (c : nat) : list dop := match c with 0 => [] | S c' => (if first then Datom else Dresult) :: repeat Dresult c' end.
  Lemma dput_ys_ok tid l : forall first r ops,
    let '(d', ys) := dput_ys tid first (r, ops) l in
    let c := ndyn (map fst l) in
    exists ya vs, r_darg (fst d') = r_darg r ++ ya /\ snd d' = ops ++ res_ops first c /\ length vs = c /\ r_par (fst d') = r_par r ++ vs /\ r_isdyn (fst d') = r_isdyn r ++ repeat true c /\
      length ya = length l /\ length ys = length l /\ forall k, k < length l ->
        let t := fst (nth k l (Kcon, con_ad bnan)) in let y := snd (nth k l (Kcon, con_ad bnan)) in let a := length (r_par r) + ndyn (firstn k (map fst l)) in
        if kdyn t then nth k ya 0 = a /\ nth k ys (con_ad bnan) = mkAD (a_val y) tid a T_dyn else nth k ya 0 = 0 /\ nth k ys (con_ad bnan) = y.
  Proof.
    induction l as [|[t y] l IH]; intros first r ops; [cbn; exists [], []; rewrite !app_nil_r; repeat split; auto; intros; lia|]. cbn [dput_ys]. destruct (kdyn t) eqn:K.
    - destruct t; try discriminate. cbn [push_dpar fst snd]. match goal with |- context [dput_ys tid false ?d l] => specialize (IH false (fst d) (snd d)); cbn [fst snd] in IH; destruct (dput_ys tid false d l) as [d2 ys] end.
      cbv zeta in IH |- *. cbn in IH. destruct IH as (ya & vs & A1 & A2 & A3 & A4 & A5 & A6 & A7 & A8). exists (length (r_par r) :: ya), (a_val y :: vs). cbn [map fst]. change (ndyn (Kdyn :: map fst l)) with (S (ndyn (map fst l))). cbn [length repeat].
      rewrite A1, A2, A4, A5, <- !app_assoc. cbn [app]. split; auto. split; [f_equal; cbn [res_ops]; f_equal; destruct (ndyn (map fst l)); auto|]. split; [lia|]. split; auto. split; auto. split; [lia|]. split; [lia|].
      intros [|k] Hk; cbn [nth fst snd firstn kdyn]; [change (ndyn []) with 0; rewrite Nat.add_0_r; auto|].
      specialize (A8 k ltac:(lia)). rewrite app_length in A8. cbn [length] in A8. change (ndyn (Kdyn :: firstn k (map fst l))) with (S (ndyn (firstn k (map fst l)))). rewrite <- Nat.add_assoc in A8. exact A8.
    - assert (forall l, ndyn (t :: l) = ndyn l) as NT by (intros l1; unfold ndyn; cbn; now rewrite K).
      destruct t; try discriminate K;
      (cbn [fst snd]; match goal with |- context [dput_ys tid first ?d l] => specialize (IH first (fst d) (snd d)); cbn [fst snd] in IH; destruct (dput_ys tid first d l) as [d2 ys] end;
      cbv zeta in IH |- *; cbn in IH; destruct IH as (ya & vs & A1 & A2 & A3 & A4 & A5 & A6 & A7 & A8); exists (0 :: ya), vs; cbn [map fst]; rewrite NT; cbn [length]; rewrite A1, <- !app_assoc; repeat split; auto;
      intros [|k] Hk; cbn [nth fst snd firstn]; [rewrite ?K; auto|]; rewrite ?NT; apply A8; lia).
  Qed.
End Rec.
