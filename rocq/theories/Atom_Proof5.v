(** C38: the recording of a call gives a block of instructions that stands for the AD objects. *)
From Coq Require Import List Bool Arith Lia.
From Verif Require Import Base_Spec Op_Model Tape_Spec Tape_Model Tape_Proof Sweep_Uniq Abs_Proof Abs_Proof3 Opt_Proof4 Atom_Model Atom_Proof1 Atom_Proof2 Atom_Proof3 Atom_Proof4.
Import ListNotations.

Section Shape.
  Context {b : base} (BL : base_laws b).
  Notation T := (bt b).
  Implicit Types r : rec b.
  Definition kvar (t : kind) : bool := match t with Kvar => true | _ => false end.
  Definition nvar (l : list kind) : nat := length (filter kvar l).
  Lemma f2_of_nth {A B} (R : A -> B -> Prop) l l' da db : length l = length l' -> (forall k, k < length l -> R (nth k l da) (nth k l' db)) -> Forall2 R l l'.
  Proof.
    revert l'. induction l as [|a l IH]; intros [|a' l'] E H; cbn in E; try discriminate; constructor; [apply (H 0); cbn; lia|]. apply IH; [lia|]. intros k Hk. apply (H (S k)). cbn. lia.
  Qed.
  Lemma f2_nth {A B} (R : A -> B -> Prop) l l' da db k : Forall2 R l l' -> k < length l -> R (nth k l da) (nth k l' db).
  Proof. intros F. revert k. induction F; intros [|k] H1; cbn in *; auto; try lia. apply IHF. lia. Qed.
  Lemma f2_len {A B} (R : A -> B -> Prop) l l' : Forall2 R l l' -> length l = length l'.
  Proof. intros F. induction F; cbn; auto. Qed.
  Lemma f2_map {A B C} (R : A -> B -> Prop) (f : A -> C) (g : B -> C) l l' : Forall2 R l l' -> (forall x y, R x y -> g y = f x) -> map g l' = map f l.
  Proof. intros F H. induction F; cbn; auto. rewrite IHF. f_equal. now apply H. Qed.
  Lemma xins_isx r t x i : xins r t x i -> isx i /\ isvar i = kvar t.
  Proof. unfold isx, isvar. intros H. destruct t; destruct H as [-> H]; auto. Qed.
  Lemma yins_isy r t x i : yins r t x i -> isy i /\ isvar i = kvar t /\ num_res (i_op i) = if kvar t then 1 else 0.
  Proof. unfold isy, isvar. intros H. destruct t; destruct H as [-> H]; auto. Qed.
  Lemma xres0 r t x i : xins r t x i -> num_res (i_op i) = 0.
  Proof. intros H. destruct t; destruct H as [-> H]; auto. Qed.

  Lemma shape r tid ai cid tx ty ax ay r' ay' :
    wfr r -> length tx = length ax -> length ty = length ay -> Forall (fun '(t, x) => dyn_ok r t x) (combine tx ax) -> Forall (fun '(t, y) => dyn_ok r t y) (combine ty ay) ->
    put_var_atomic r tid ai cid tx ty ax ay = (r', ay') ->
    exists lx ly iv iv',
      added r r' (mkIns AFunOp [ai; cid; length ax; length ay] iv :: lx ++ ly ++ [mkIns AFunOp [ai; cid; length ax; length ay] iv']) /\ wfr r' /\
      length lx = length ax /\ length ly = length ay /\ length ay' = length ay /\
      Forall2 (fun p i => xins r' (fst p) (snd p) i) (combine tx ax) lx /\ Forall2 (fun p i => yins r' (fst p) (snd p) i) (combine ty ay') ly /\
      r_nvar r' = r_nvar r + nvar ty /\
      forall k, k < length ay -> yres tid (nth k ty Kcon) (nth k ay (con_ad bnan)) (nth k ay' (con_ad bnan)) (r_nvar r + nvar (firstn k ty)).
  Proof.
    intros W LX LY DX DY E. unfold put_var_atomic in E. cbv zeta in E. set (a := [ai; cid; length ax; length ay]) in *.
    set (r1 := fst (put_op (put_arg r a) AFunOp)) in *. pose proof (added_op r AFunOp a eq_refl) as A1. fold r1 in A1. pose proof (pext_wfr _ _ (dd_par _ _ _ A1) W) as W1.
    destruct (put_xs_ok BL (combine tx ax) r1 W1) as (lx & A2 & F2); [eapply Forall_impl; [|exact DX]; intros [t x] H; exact (dyn_ok_ext _ _ _ _ (dd_par _ _ _ A1) W H)|].
    set (r2 := fold_left put_x1 (combine tx ax) r1) in *. pose proof (added_trans _ _ _ _ _ A1 A2) as A12. pose proof (pext_wfr _ _ (dd_par _ _ _ A2) W1) as W2.
    pose proof (put_ys_ok BL tid (combine ty ay) r2 W2) as A3. destruct (put_ys tid r2 (combine ty ay)) as [r3 ys]. destruct A3 as (ly & A3 & B1 & B2 & B3); [eapply Forall_impl; [|exact DY]; intros [t x] H; exact (dyn_ok_ext _ _ _ _ (dd_par _ _ _ A12) W H)|].
    injection E as <- <-. pose proof (added_op r3 AFunOp a eq_refl) as A4. set (r' := fst (put_op (put_arg r3 a) AFunOp)) in *. rewrite combine_length, LY, Nat.min_id in B1, B2, B3. pose proof (pext_wfr _ _ (dd_par _ _ _ A3) W2) as W3.
    assert (length lx = length ax) as Llx by (rewrite <- (f2_len _ _ _ F2), combine_length; lia).
    assert (forall k, k < length ay -> yins r3 (nth k ty Kcon) (nth k ys (con_ad bnan)) (nth k ly (mkIns EndOp [] 0)) /\ yres tid (nth k ty Kcon) (nth k ay (con_ad bnan)) (nth k ys (con_ad bnan)) (r_nvar r2 + tres (firstn k ly))) as B4.
    { intros k Hk. specialize (B3 k Hk). cbv zeta in B3. rewrite combine_nth' in B3 by auto. exact B3. }
    assert (tres lx = 0) as T0. { clearbody r2. clear -F2. induction F2 as [|[t x] i l l' H F IH]; cbn; auto. rewrite (xres0 _ _ _ _ H), IH. auto. }
    assert (forall k, k <= length ay -> tres (firstn k ly) = nvar (firstn k ty)) as TK.
    { assert (forall m (ys : list (AD b)) ty ly, (forall k, k < m -> yins r3 (nth k ty Kcon) (nth k ys (con_ad bnan)) (nth k ly (mkIns EndOp [] 0))) -> length ty = m -> length ly = m -> forall k, k <= m -> tres (firstn k ly) = nvar (firstn k ty)) as K.
      { clear. induction m as [|m IH]; intros ys [|t ty] [|i ly] H E1 E2 k Hk; cbn in E1, E2; try lia; [destruct k; auto|]. destruct k as [|k]; auto. cbn [firstn tres]. rewrite (IH (tl ys) ty ly); try lia.
        - destruct (yins_isy _ _ _ _ (H 0 ltac:(lia))) as (_ & _ & E). cbn [nth] in E. rewrite E. unfold nvar. cbn [filter]. destruct (kvar t); auto.
        - intros k' Hk'. specialize (H (S k') ltac:(lia)). destruct ys; cbn in *; auto. destruct k'; auto. }
      intros k Hk. apply (K (length ay) ys); auto. intros; now apply B4. }
    exists lx, ly, (r_nvar r + num_res AFunOp - 1), (r_nvar r3 + num_res AFunOp - 1). split.
    { change (mkIns AFunOp a (r_nvar r + num_res AFunOp - 1) :: lx ++ ly ++ [mkIns AFunOp a (r_nvar r3 + num_res AFunOp - 1)]) with ([mkIns AFunOp a (r_nvar r + num_res AFunOp - 1)] ++ lx ++ ly ++ [mkIns AFunOp a (r_nvar r3 + num_res AFunOp - 1)]).
      eapply added_trans; [exact A1|]. eapply added_trans; [exact A2|]. eapply added_trans; [exact A3|]. exact A4. }
    split; [exact (pext_wfr _ _ (dd_par _ _ _ A4) W3)|]. split; auto. split; auto. split; auto.
    assert (r_nvar r2 = r_nvar r) as N2. { rewrite (dd_nv _ _ _ A12), tres_app, T0. cbn. lia. }
    split.
    { clearbody r2. clear -F2 A3 A4 W2 W3. induction F2 as [|[t x] i l l' H F IH]; constructor; auto. cbn [fst snd]. eapply xins_ext; [exact (dd_par _ _ _ A4)| exact W3|]. eapply xins_ext; [exact (dd_par _ _ _ A3)| exact W2|exact H]. }
    split.
    { apply (f2_of_nth _ _ _ (Kcon, con_ad bnan) (mkIns EndOp [] 0)); rewrite combine_length, B1, LY, Nat.min_id; auto. intros k Hk. rewrite combine_nth' by congruence. cbn [fst snd]. eapply yins_ext; [exact (dd_par _ _ _ A4)|exact W3|]. now apply B4. }
    split.
    { change (r_nvar r' = r_nvar r + nvar ty). rewrite (dd_nv _ _ _ A4), (dd_nv _ _ _ A3), N2. cbn. specialize (TK (length ay) ltac:(lia)). rewrite firstn_all2 in TK by lia. rewrite firstn_all2 in TK by lia. rewrite TK. lia. }
    intros k Hk. rewrite <- (TK k) by lia. rewrite <- N2. now apply B4.
  Qed.
End Shape.
