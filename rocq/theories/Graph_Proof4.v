(** C25, from_graph: one operator of a graph. *)
From Coq Require Import String List Bool Arith Lia.
From Verif Require Import Base_Spec Op_Model Tape_Spec Tape_Model Tape_Proof Tape_Proof2 Tape_Swf Sweep_Uniq Abs_Proof Abs_Proof3 Abs_Prop Opt_Model Opt_Proof Opt_Proof2 Opt_Proof3 Opt_Proof4 Opt_Proof5
  Graph_Spec Graph_Model Graph_Proof3.
Import ListNotations.

Lemma some_inj {A} (x y : A) : Some x = Some y -> x = y.
Proof. congruence. Qed.

Section FromGraph.
  Context {b : base} (BL : base_laws b).
  Notation T := (bt b).
  Implicit Types r : rec b.
  Variable reg : list string.
  Variable m : nat.
  Variables (d x : list T).
  Notation st := (st m). Notation nok := (nok m d x). Notation veqs := (veqs m x). Notation isres := (isres m).

  Definition gval (o : gop) (vs : list T) : T :=
    let y i := nth i vs bnan in
    match o with
    | Gun u => b_un u (y 0) | Gbin o => b_bin o (y 0) (y 1) | Gcexp c => if b_cmp (gcexp_cmp c) (y 0) (y 1) then y 2 else y 3
    | Gdis s => match name_index reg s with Some k => b_dis k (y 0) | None => bnan end
    | Gcomp _ | Gsum => bnan
    end.
  Lemma find_filter (f : nat -> bool) l : find f l = hd_error (filter f l).
  Proof. induction l as [|k l IH]; cbn; auto. destruct (f k); auto. Qed.
  Lemma discrete_name s k : discrete_index reg s = Some k -> name_index reg s = Some k.
  Proof. unfold discrete_index, name_index. rewrite find_filter. destruct (filter _ _) as [|k' [|? ?]]; try discriminate. auto. Qed.

  Lemma un_var_ok u o' v P V : un_var u = Some o' -> supp o' = true /\ ishead o' = false /\ 0 < num_res o' /\ forall ex, var_args o' ([v] ++ ex) = [v] /\ @semv b o' ([v] ++ ex) P V = b_un u (V v).
  Proof. destruct u; cbn [un_var]; intros [= <-]; cbn; repeat split; try lia; unfold semv; cbn; now rewrite ?(l_abs b BL). Qed.
  Lemma un_dyn_ok u o' i (v : T) P : un_dyn u = Some o' -> num_arg_dyn o' = 1 /\ o' <> ind_dyn /\ par_args_dyn o' [i] = [i] /\ dyn_sem o' [i] v P = b_un u (P i).
  Proof. destruct u; cbn [un_dyn]; intros [= <-]; cbn; repeat split; try discriminate; now rewrite ?(l_abs b BL). Qed.
  Lemma bin_vv_ok o v w P V : let o' := bin_vv o in supp o' = true /\ ishead o' = false /\ n_actual o' [v; w] = 2 /\ 0 < num_res o' /\ var_args o' [v; w] = [v; w] /\ @semv b o' [v; w] P V = b_bin o (V v) (V w).
  Proof. destruct o; cbn; repeat split; lia. Qed.
  Lemma bin_pv_ok o v w P V : let o' := bin_pv o in supp o' = true /\ ishead o' = false /\ n_actual o' [v; w] = 2 /\ 0 < num_res o' /\ var_args o' [v; w] = [w] /\ @semv b o' [v; w] P V = b_bin o (P v) (V w).
  Proof. destruct o; cbn; repeat split; lia. Qed.
  Lemma bin_vp_ok o v w P V : let (o', a') := bin_vp o v w in supp o' = true /\ ishead o' = false /\ n_actual o' a' = length a' /\ 0 < num_res o' /\ var_args o' a' = [v] /\ @semv b o' a' P V = b_bin o (V v) (P w).
  Proof. destruct o; cbn; repeat split; try lia; unfold semv; cbn; rewrite ?(l_addC b BL (V v)), ?(l_mulC b BL (V v)); reflexivity. Qed.
  Lemma bin_dyn_ok o v w (z : T) P : let o' := bin_dyn o in num_arg_dyn o' = 2 /\ o' <> ind_dyn /\ par_args_dyn o' [v; w] = [v; w] /\ dyn_sem o' [v; w] z P = b_bin o (P v) (P w).
  Proof. destruct o; cbn; repeat split; discriminate. Qed.
  Lemma comp_rec_ok c vl vr v w : (vl || vr = true \/ vl || vr = false) -> let (o', a') := comp_rec c vl vr v w in supp o' = true /\ ishead o' = false /\ n_actual o' a' = length a' /\ num_res o' = 0 /\
    forall j, In j (var_args o' a') -> (vl = true /\ j = v) \/ (vr = true /\ j = w).
  Proof. intros _. destruct c, vl, vr; cbn; repeat split; auto; intros j Hj; intuition. Qed.

  Definition noks lg r (ty : list nty) (a : list nat) (vs : list T) : Prop := length ty = length a /\ forall i, i < length a -> nok lg r (nth i ty Ncon) (nth i a 0) (nth i vs bnan).
  Notation done lg r r' t i v := (exists lg', st (lg ++ lg') r' /\ ext r r' /\ nok (lg ++ lg') r' t i v).

  Lemma done_con lg r v r' i : st lg r -> put_con_par r v = (r', i) -> done lg r r' Ncon i v.
  Proof. intros I E. pose proof (con_ok BL m d x lg r v I) as H. rewrite E in H. exists []. rewrite app_nil_r. tauto. Qed.
  Lemma done_dyn lg r w o a v r' i : st lg r -> put_dyn_par r w o a = (r', i) -> length a = num_arg_dyn o -> o <> ind_dyn -> (forall j, In j (par_args_dyn o a) -> j < length (r_par r)) ->
    (forall P, Pok d P r -> dyn_sem o a b0 P = v) -> done lg r r' Ndyn i v.
  Proof. intros I E La No HA HV. pose proof (dyn_ok m d x lg r w o a v I La No HA HV) as H. rewrite E in H. exists []. rewrite app_nil_r. tauto. Qed.
  Lemma done_var lg r o a v r' i : st lg r -> put_op (put_arg r a) o = (r', i) -> n_actual o a = length a -> supp o = true -> ishead o = false -> 0 < num_res o -> (forall j, In j (var_args o a) -> isres lg j) ->
    (forall P V, Pok d P r -> veqs lg P V -> semv o a P V = v) -> done lg r r' Nvar i v.
  Proof. intros I E L SU NH R HA HV. pose proof (var_ok m d x lg r o a v I L SU NH HA (fun _ => HV)) as H. rewrite E in H. destruct H as (i0 & A & B & C). exists [i0]. auto. Qed.

  (** the value of a variable or parameter operand *)
  Lemma nok_var lg r i v : nok lg r Nvar i v -> isres lg i /\ forall P V, Pok d P r -> veqs lg P V -> V i = v.
  Proof. auto. Qed.

  Lemma fg_un lg r u t i v r' k : st lg r -> nok lg r t i v -> fg_op reg r (Gun u) [t] [i] = Some (r', k) -> done lg r r' t k (b_un u v).
  Proof.
    intros I N H. cbn [fg_op nth] in H. destruct t.
    - destruct (un_dyn u); [|discriminate]. apply some_inj in H. cbn [Graph_Proof3.nok] in N. destruct N as (_ & _ & N). rewrite N in H. now apply done_con.
    - destruct (un_dyn u) as [o'|] eqn:U; [|discriminate]. apply some_inj in H. destruct (nok_par _ _ _ _ _ _ _ _ N ltac:(discriminate)) as [L HP].
      destruct (un_dyn_ok u o' i b0 (fun _ => b0) U) as (A & B & C & _). apply (done_dyn lg r bnan o' [i]); auto; try (cbn; lia).
      + intros j. rewrite C. intros [<-|[]]. auto.
      + intros P K. destruct (un_dyn_ok u o' i b0 P U) as (_ & _ & _ & ->). now rewrite HP.
    - destruct (un_var u) as [o'|] eqn:U; [|discriminate]. destruct N as [N1 N2].
      assert (forall P V, supp o' = true /\ ishead o' = false /\ 0 < num_res o' /\ forall ex, var_args o' ([i] ++ ex) = [i] /\ @semv b o' ([i] ++ ex) P V = b_un u (V i)) as F by (intros; now apply un_var_ok).
      destruct (F (fun _ => b0) (fun _ => b0)) as (A & B & C & D).
      assert (o' <> ErfOp -> o' <> ErfcOp -> put_op (put_arg r [i]) o' = (r', k) -> done lg r r' Nvar k (b_un u v)) as PLAIN.
      { intros N3 N4 E. apply (done_var lg r o' [i]); auto.
        - destruct u; cbn in U; try discriminate U; injection U as <-; try reflexivity; [now destruct N3|now destruct N4].
        - intros j. pose proof (proj1 (D [])) as Q. cbn [app] in Q. rewrite Q. intros [<-|[]]. auto.
        - intros P V K1 K2. destruct (F P V) as (_ & _ & _ & G). pose proof (proj2 (G [])) as Q. cbn [app] in Q. rewrite Q. now rewrite (N2 P V). }
      assert ((o' = ErfOp \/ o' = ErfcOp) -> (let (r1, w) := put_op (put_arg r [i]) o' in let (r2, p0) := put_con_par r1 b0 in let (r3, p1) := put_con_par (put_arg r2 [p0]) berf in Some (put_arg r3 [p1], w)) = Some (r', k) ->
        done lg r r' Nvar k (b_un u v)) as ERF.
      { intros E3. cbn [put_op put_arg]. set (r1 := mkRec _ _ _ _ _ _ _ _ _ _ _). pose proof (s_dwf _ _ _ I) as W.
        assert (dwf r1) as W1 by now apply (same_dwf r). pose proof (put_con_spec (l_ideq b BL) r1 b0 W1) as S1. destruct (put_con_par r1 b0) as [r2 p0].
        destruct S1 as (A1 & A2 & A3 & A4 & A5 & A6 & A7 & A8 & A9 & A10). destruct (cext_dwf _ _ A1 W1) as [W2 _].
        set (r2' := put_arg r2 [p0]). assert (dwf r2') as W2' by now apply (same_dwf r2). pose proof (put_con_spec (l_ideq b BL) r2' berf W2') as S2. destruct (put_con_par r2' berf) as [r3 p1].
        destruct S2 as (B1 & B2 & B3 & B4 & B5 & B6 & B7 & B8 & B9 & B10). destruct (cext_dwf _ _ B1 W2') as [W3 _]. intros H'. injection H' as <- <-.
        assert (cext r (put_arg r3 [p1])) as CX.
        { eapply cext_trans; [now apply (cext_refl r r1)|]. eapply cext_trans; [exact A1|]. eapply cext_trans; [now apply (cext_refl r2 r2')|]. eapply cext_trans; [exact B1|]. now apply cext_refl. }
        assert (ext r (put_arg r3 [p1])) as X.
        { apply cext_ext; auto; cbn.
          - rewrite B5. exact A5.
          - rewrite B6. cbn. rewrite A6. cbn. lia.
          - rewrite B10. exact A10. }
        destruct (op_ok m d x lg r o' ([i] ++ [p0; p1]) (b_un u v) (put_arg r3 [p1]) I) as [Q1 Q2]; auto.
        - destruct E3 as [-> | ->]; reflexivity.
        - now apply (same_dwf r3).
        - cbn. rewrite B8. cbn. now rewrite A8.
        - cbn. rewrite B9. cbn. rewrite A9. cbn. now rewrite <- !app_assoc.
        - cbn. rewrite B6. cbn. now rewrite A6.
        - intros j. rewrite (proj1 (D [p0; p1])). intros [<-|[]]. auto.
        - intros _ P V K1 K2. destruct (F P V) as (_ & _ & _ & G). rewrite (proj2 (G [p0; p1])). now rewrite (N2 P V).
        - eexists. split; [exact Q1|]. split; [exact X|]. now apply Q2. }
      clear F A B C D. destruct o'; try (apply PLAIN; [discriminate|discriminate|now apply some_inj in H]); apply ERF; auto.
  Qed.
  Lemma fg_bin lg r o t0 t1 i j v w r' k : st lg r -> nok lg r t0 i v -> nok lg r t1 j w -> fg_op reg r (Gbin o) [t0; t1] [i; j] = Some (r', k) -> done lg r r' (res_type [t0; t1]) k (b_bin o v w).
  Proof.
    intros I N0 N1 H. cbn [fg_op nth] in H.
    assert (t0 <> Nvar -> t1 <> Nvar -> (put_dyn_par r bnan (bin_dyn o) [i; j]) = (r', k) -> done lg r r' Ndyn k (b_bin o v w)) as DYN.
    { intros Z0 Z1 E. destruct (nok_par _ _ _ _ _ _ _ _ N0 Z0) as [L0 P0]. destruct (nok_par _ _ _ _ _ _ _ _ N1 Z1) as [L1 P1].
      destruct (bin_dyn_ok o i j b0 (fun _ => b0)) as (A & B & C & _). apply (done_dyn lg r bnan (bin_dyn o) [i; j]); auto; try (cbn; lia).
      - intros q. rewrite C. intros [<-|[<-|[]]]; auto.
      - intros P K. destruct (bin_dyn_ok o i j b0 P) as (_ & _ & _ & ->). now rewrite P0, P1. }
    assert (t0 = Nvar -> t1 <> Nvar -> (let (o', a') := bin_vp o i j in Some (put_op (put_arg r a') o')) = Some (r', k) -> done lg r r' Nvar k (b_bin o v w)) as VP.
    { intros -> Z1 E. destruct N0 as [R0 V0]. destruct (nok_par _ _ _ _ _ _ _ _ N1 Z1) as [L1 P1].
      pose proof (fun P V => bin_vp_ok o i j P V) as F. destruct (bin_vp o i j) as [o' a']. apply some_inj in E. destruct (F (fun _ => b0) (fun _ => b0)) as (A & B & C & D & G & _). apply (done_var lg r o' a'); auto.
      - intros q. rewrite G. intros [<-|[]]; auto.
      - intros P V K1 K2. destruct (F P V) as (_ & _ & _ & _ & _ & ->). now rewrite (V0 P V), P1. }
    assert (t0 <> Nvar -> t1 = Nvar -> (put_op (put_arg r [i; j]) (bin_pv o)) = (r', k) -> done lg r r' Nvar k (b_bin o v w)) as PV.
    { intros Z0 -> E. destruct N1 as [R1 V1]. destruct (nok_par _ _ _ _ _ _ _ _ N0 Z0) as [L0 P0].
      destruct (bin_pv_ok o i j (fun _ => b0) (fun _ => b0)) as (A & B & C & D & G & _). apply (done_var lg r (bin_pv o) [i; j]); auto.
      - intros q. rewrite G. intros [<-|[]]; auto.
      - intros P V K1 K2. destruct (bin_pv_ok o i j P V) as (_ & _ & _ & _ & _ & ->). now rewrite (V1 P V), P0. }
    destruct t0, t1; cbn [res_type existsb is_va is_dy orb];
      try (apply DYN; [discriminate|discriminate|now apply some_inj in H]); try (apply VP; [reflexivity|discriminate|exact H]); try (apply PV; [discriminate|reflexivity|now apply some_inj in H]).
    - apply some_inj in H. destruct N0 as (_ & _ & N0), N1 as (_ & _ & N1). rewrite N0, N1 in H. now apply done_con.
    - apply some_inj in H. destruct N0 as [R0 V0], N1 as [R1 V1]. destruct (bin_vv_ok o i j (fun _ => b0) (fun _ => b0)) as (A & B & C & D & G & _). apply (done_var lg r (bin_vv o) [i; j]); auto.
      + intros q. rewrite G. intros [<-|[<-|[]]]; auto.
      + intros P V K1 K2. destruct (bin_vv_ok o i j P V) as (_ & _ & _ & _ & _ & ->). now rewrite (V0 P V), (V1 P V).
  Qed.
  Lemma fg_dis lg r s t i v r' k : st lg r -> nok lg r t i v -> fg_op reg r (Gdis s) [t] [i] = Some (r', k) -> done lg r r' t k (gval (Gdis s) [v]).
  Proof.
    intros I N H. cbn [fg_op nth] in H. destruct (discrete_index reg s) as [q|] eqn:E; [|discriminate]. cbn [gval nth]. rewrite (discrete_name _ _ E). destruct t; apply some_inj in H.
    - destruct N as (_ & _ & N). rewrite N in H. now apply done_con.
    - destruct (nok_par _ _ _ _ _ _ _ _ N ltac:(discriminate)) as [L HP]. apply (done_dyn lg r bnan dis_dyn [q; i]); auto; try discriminate.
      + intros j [<-|[]]. auto.
      + intros P K. cbn. now rewrite HP.
    - destruct N as [N1 N2]. apply (done_var lg r DisOp [q; i]); auto; try (cbn; lia).
      + intros j [<-|[]]. auto.
      + intros P V K1 K2. unfold semv. cbn. now rewrite (N2 P V).
  Qed.
  Lemma cexp_code c (v w y z : T) : cond_exp_code (cexp_cop c) v w y z = if b_cmp (gcexp_cmp c) v w then y else z.
  Proof. destruct c; reflexivity. Qed.
  Lemma fg_cexp lg r c t0 t1 t2 t3 i0 i1 i2 i3 v0 v1 v2 v3 r' k : st lg r -> nok lg r t0 i0 v0 -> nok lg r t1 i1 v1 -> nok lg r t2 i2 v2 -> nok lg r t3 i3 v3 ->
    fg_op reg r (Gcexp c) [t0; t1; t2; t3] [i0; i1; i2; i3] = Some (r', k) -> done lg r r' (res_type [t0; t1; t2; t3]) k (if b_cmp (gcexp_cmp c) v0 v1 then v2 else v3).
  Proof.
    intros I N0 N1 N2 N3 H. unfold fg_op in H. cbn [nth] in H. unfold res_type. destruct (existsb is_va [t0; t1; t2; t3]) eqn:EV.
    - cbn [app] in H. set (w := _ + _ + _ + _) in H. apply some_inj in H.
      assert (forall bit, nth bit [true; true; true; true] false = true -> Nat.testbit w bit = is_va (nth bit [t0; t1; t2; t3] Ncon)) as TB.
      { intros bit Hb. unfold w. do 4 (destruct bit as [|bit]; [destruct t0, t1, t2, t3; reflexivity|]). destruct bit; discriminate. }
      assert (forall t i v bit, nok lg r t i v -> Nat.testbit w bit = is_va t -> (forall P V, Pok d P r -> veqs lg P V -> vp w bit P V i = v) /\ (Nat.testbit w bit = true -> isres lg i)) as X.
      { intros t i v bit N E. split.
        - intros P V K1 K2. unfold vp. rewrite E. destruct t; cbn [is_va]; [apply (nok_par _ _ _ _ _ _ _ _ N ltac:(discriminate)); auto|apply (nok_par _ _ _ _ _ _ _ _ N ltac:(discriminate)); auto|exact (proj2 N P V K1 K2)].
        - rewrite E. destruct t; try discriminate. intros _. apply N. }
      destruct (X _ _ _ 0 N0 (TB 0 eq_refl)) as [A0 B0], (X _ _ _ 1 N1 (TB 1 eq_refl)) as [A1 B1], (X _ _ _ 2 N2 (TB 2 eq_refl)) as [A2 B2], (X _ _ _ 3 N3 (TB 3 eq_refl)) as [A3 B3].
      apply (done_var lg r CExpOp [cexp_cop c; w; i0; i1; i2; i3]); auto; try (cbn; lia).
      + intros j. cbn [var_args nth]. rewrite !in_app_iff.
        assert (forall bit i, (Nat.testbit w bit = true -> isres lg i) -> In j (if Nat.testbit w bit then [i] else []) -> isres lg j) as Y.
        { intros bit i Q. destruct (Nat.testbit w bit); [intros [<-|[]]; auto|intros []]. }
        intros [Q|[Q|[Q|Q]]]; revert Q; now apply Y.
      + intros P V K1 K2. unfold semv. cbn [sem0 nth last]. rewrite A0, A1, A2, A3 by auto. apply cexp_code.
    - assert (t0 <> Nvar /\ t1 <> Nvar /\ t2 <> Nvar /\ t3 <> Nvar) as (Z0 & Z1 & Z2 & Z3).
      { cbn in EV. destruct t0, t1, t2, t3; try discriminate EV; repeat split; discriminate. }
      destruct (existsb is_dy [t0; t1; t2; t3]) eqn:ED; apply some_inj in H.
      + destruct (nok_par _ _ _ _ _ _ _ _ N0 Z0) as [L0 P0], (nok_par _ _ _ _ _ _ _ _ N1 Z1) as [L1 P1], (nok_par _ _ _ _ _ _ _ _ N2 Z2) as [L2 P2], (nok_par _ _ _ _ _ _ _ _ N3 Z3) as [L3 P3].
        apply (done_dyn lg r bnan cond_exp_dyn [cexp_cop c; i0; i1; i2; i3]); auto; try discriminate.
        * intros j. cbn. intros [<-|[<-|[<-|[<-|[]]]]]; auto.
        * intros P K. cbn [dyn_sem nth]. rewrite P0, P1, P2, P3 by auto. apply cexp_code.
      + assert (t0 = Ncon /\ t1 = Ncon /\ t2 = Ncon /\ t3 = Ncon) as (-> & -> & -> & ->).
        { cbn in EV, ED. destruct t0, t1, t2, t3; try discriminate EV; try discriminate ED; auto. }
        destruct N0 as (_ & _ & N0), N1 as (_ & _ & N1), N2 as (_ & _ & N2), N3 as (_ & _ & N3). rewrite N0, N1, N2, N3, cexp_code in H. now apply done_con.
  Qed.

  Theorem fg_op_ok lg r o ty a vs r' k : st lg r -> noks lg r ty a vs -> o <> Gsum -> fg_op reg r o ty a = Some (r', k) ->
    exists lg', st (lg ++ lg') r' /\ ext r r' /\ ((forall c, o <> Gcomp c) -> nok (lg ++ lg') r' (res_type ty) k (gval o vs)).
  Proof.
    intros I [La HN] NS H.
    assert (forall t v, (forall c, o <> Gcomp c) -> done lg r r' t k v -> t = res_type ty -> v = gval o vs -> exists lg', st (lg ++ lg') r' /\ ext r r' /\ ((forall c, o <> Gcomp c) -> nok (lg ++ lg') r' (res_type ty) k (gval o vs))) as D.
    { intros t v _ (lg' & A & B & C) -> ->. exists lg'. auto. }
    pose proof (HN 0) as H0. pose proof (HN 1) as H1. pose proof (HN 2) as H2. pose proof (HN 3) as H3. clear HN.
    destruct o as [u|o|c|c| |s]; try now destruct NS.
    - destruct a as [|i0 [|? ?]]; try discriminate H. destruct ty as [|t0 [|? ?]]; try discriminate La. cbn in H0. apply (D t0 (b_un u (nth 0 vs bnan))); try discriminate; auto.
      + eapply fg_un; eauto.
      + destruct t0; reflexivity.
    - destruct a as [|i0 [|i1 [|? ?]]]; try discriminate H. destruct ty as [|t0 [|t1 [|? ?]]]; try discriminate La. cbn in H0, H1. apply (D (res_type [t0; t1]) (b_bin o (nth 0 vs bnan) (nth 1 vs bnan))); try discriminate; auto.
      eapply fg_bin; eauto.
    - destruct a as [|i0 [|i1 [|i2 [|i3 [|? ?]]]]]; try discriminate H. destruct ty as [|t0 [|t1 [|t2 [|t3 [|? ?]]]]]; try discriminate La. cbn in H0, H1, H2, H3.
      apply (D (res_type [t0; t1; t2; t3]) (gval (Gcexp c) vs)); try discriminate; auto. specialize (H0 ltac:(lia)). specialize (H1 ltac:(lia)). specialize (H2 ltac:(lia)). specialize (H3 ltac:(lia)). eapply fg_cexp; eauto.
    - destruct a as [|i0 [|i1 [|? ?]]]; try discriminate H. destruct ty as [|t0 [|t1 [|? ?]]]; try discriminate La. cbn in H0, H1. cbn [fg_op nth] in H.
      destruct (is_con t0 || is_con t1); [discriminate|]. pose proof (comp_rec_ok c (is_va t0) (is_va t1) i0 i1) as F. destruct (comp_rec _ _ _ _ _) as [o' a']. apply some_inj in H.
      destruct F as (A & B & C & R & G); [destruct (_ || _); auto|]. pose proof (var_ok m d x lg r o' a' bnan I C A B) as Q. rewrite H in Q. destruct Q as (q & Q1 & Q2 & _).
      + intros j Hj. destruct (G j Hj) as [[Z ->]|[Z ->]]; [destruct t0|destruct t1]; try discriminate Z; [apply H0|apply H1]; lia.
      + lia.
      + exists [q]. split; auto. split; auto. intros Z. now destruct (Z c).
    - destruct a as [|i0 [|? ?]]; try discriminate H. destruct ty as [|t0 [|? ?]]; try discriminate La. cbn in H0. apply (D t0 (gval (Gdis s) [nth 0 vs bnan])); try discriminate; auto.
      + eapply fg_dis; eauto.
      + destruct t0; reflexivity.
  Qed.
End FromGraph.
