(** Two runs of the zero order sweep agree on every variable of a set that is closed under the
    dependencies of the operation sequence (any Base). *)
From Coq Require Import ZArith List Bool Arith Lia.
From Verif Require Import Base_Spec Op_Model Tape_Spec Tape_Model Tape_Proof Tape_Proof2 Tape_Proof7
  Sweep_Model Sweep_Eqs Sweep_Eqs2 Sweep_Tape Sweep_Uniq Tape_Swf Tape_Vec Rev_Prim.
Import ListNotations.

(** the variables whose sets are combined for the result of an operator that is not a load *)
Definition rel_args (dep : bool) (o : opvar) (a : list nat) : list nat :=
  let m i j := if Nat.testbit (nth 1 a 0) i then [nth j a 0] else [] in
  match o with
  | SignOp | DisOp => if dep then var_args o a else []
  | CExpOp => (if dep then m 0 2 ++ m 1 3 else []) ++ m 2 4 ++ m 3 5
  | _ => var_args o a
  end.
(** [G]: variables, [H], [H']: VecAD vectors (by position of their length) before and after *)
Definition cl_ins (dep : bool) (G H H' : nat -> Prop) (i : ins) : Prop :=
  let a := i_arg i in
  let h := nth 0 a 0 - 1 in let a1 := nth 1 a 0 in let a2 := nth 2 a 0 in
  (forall h, H' h -> H h) /\
  match i_op i with
  | LdpOp => G (i_var i) -> H h
  | LdvOp => G (i_var i) -> H h /\ (dep = true -> G a1)
  | StppOp => True
  | StpvOp => H' h -> G a2
  | StvpOp => H' h -> dep = true -> G a1
  | StvvOp => H' h -> G a2 /\ (dep = true -> G a1)
  | o => 0 < num_res o -> G (i_var i) -> Forall G (rel_args dep o a)
  end.
Fixpoint closed (dep : bool) (G H : nat -> Prop) (l : list ins) : Prop :=
  match l with
  | [] => True
  | i :: l' => exists H', cl_ins dep G H H' i /\ closed dep G H' l'
  end.

Section Sel.
  Context {b : base}.
  Notation T := (bt b).
  (** which branch of a conditional expression is taken *)
  Definition cexp_sel (c : nat) (l r : T) : bool :=
    match c with
    | 0 => b_cmp Clt l r | 1 => b_cmp Cle l r | 2 => b_cmp Ceq l r
    | 3 => b_cmp Cge l r | 4 => b_cmp Cgt l r | _ => true
    end.
  Lemma cexp_sel_code c (l r t f : T) : cond_exp_code c l r t f = if cexp_sel c l r then t else f.
  Proof. do 5 (destruct c as [|c]; [reflexivity|]). reflexivity. Qed.
  Definition cexp_sel_at (P V : nat -> T) (a : list nat) : bool :=
    let m := nth 1 a 0 in
    cexp_sel (nth 0 a 0) (vp m 0 P V (nth 2 a 0)) (vp m 1 P V (nth 3 a 0)).
  (** two evaluations take the same branch, the same value of sign or of a discrete
      function, and load the same variable (or both a parameter of the same value) *)
  Definition same_choice (P V V' : nat -> T) (L L' : nat -> nat) (i : ins) : Prop :=
    match i_op i with
    | SignOp | DisOp => V (i_var i) = V' (i_var i)
    | CExpOp => cexp_sel_at P V (i_arg i) = cexp_sel_at P V' (i_arg i)
    | LdpOp | LdvOp => let m := nth 2 (i_arg i) 0 in
        L m = L' m /\ (L m = 0 -> V (i_var i) = V' (i_var i))
    | _ => True
    end.
End Sel.

Section Core.
  Context {b : base}.
  Notation T := (bt b).
  Variable P : nat -> T.

  Definition ldx (o : opvar) (a : list nat) (V : nat -> T) : T :=
    match o with LdpOp | StppOp | StpvOp => P (nth 1 a 0) | _ => V (nth 1 a 0) end.
  Definition st_isv (o : opvar) : bool := match o with StpvOp | StvvOp => true | _ => false end.
  Definition is_store (o : opvar) : bool := match o with StppOp | StpvOp | StvpOp | StvvOp => true | _ => false end.

  Lemma step0_cases cc o a iv k (s t : fst0 b) : okop o = true -> step0 P cc (mkIns o a iv) k s = Some t ->
    f_skip t = f_skip s /\
    ((exists res, is_vec o = false /\ sem0 o a P (f_V s) = Some res /\ f_V t = put_res (f_V s) (iv + 1 - length res) res /\
        f_isv t = f_isv s /\ f_idx t = f_idx s /\ f_l2v t = f_l2v s) \/
     (is_load o = true /\ exists j, index_of (b_int (ldx o a (f_V s))) (f_idx s (nth 0 a 0 - 1)) = Some j /\
        let p := nth 0 a 0 + j in
        f_V t = fset (f_V s) iv (if f_isv s p then f_V s (f_idx s p) else P (f_idx s p)) /\
        f_l2v t = fset (f_l2v s) (nth 2 a 0) (if f_isv s p then f_idx s p else 0) /\
        f_isv t = f_isv s /\ f_idx t = f_idx s) \/
     (is_store o = true /\ exists j, index_of (b_int (ldx o a (f_V s))) (f_idx s (nth 0 a 0 - 1)) = Some j /\
        let p := nth 0 a 0 + j in
        f_V t = f_V s /\ f_l2v t = f_l2v s /\ f_isv t = fset (f_isv s) p (st_isv o) /\ f_idx t = fset (f_idx s) p (nth 2 a 0)) \/
     (is_vec o = false /\ num_res o = 0 /\ f_V t = f_V s /\ f_isv t = f_isv s /\ f_idx t = f_idx s /\ f_l2v t = f_l2v s)).
  Proof.
    intros OK H. unfold step0 in H.
    destruct (sem0 o a P (f_V s)) as [res|] eqn:S0.
    { injection H as <-. cbn. split; auto. left. exists res. repeat split; auto. destruct o; try reflexivity; discriminate. }
    destruct (cmp_change o a P (f_V s)) as [ch|] eqn:C0.
    { assert (is_vec o = false /\ num_res o = 0) as [? ?] by (destruct o; try discriminate; auto).
      destruct ((cc =? 0) || negb ch); injection H as <-; cbn; split; auto; right; right; right; auto 10. }
    destruct o; try discriminate;
      try (injection H as <-; split; auto; right; right; right; cbn; auto 10; fail);
      (destruct (index_of _ _) as [j|] eqn:I; [|discriminate]); injection H as <-; cbn; split; auto; right.
    1,2: left; split; auto; exists j; cbn; auto.
    all: right; left; split; auto; exists j; cbn; auto.
  Qed.

  Section Two.
  Variables (dep : bool) (G : nat -> Prop) (vec hd : list nat).
  Hypothesis BL : blocks vec hd.

  Record Rel (seen : list nat) (H : nat -> Prop) (s s' : fst0 b) : Prop := {
    r_V : forall v, In v seen -> G v -> f_V s v = f_V s' v;
    r_h : forall h, In h hd -> f_idx s h = nth h vec 0 /\ f_idx s' h = nth h vec 0;
    r_b : forall h, In h hd -> H h -> forall j, j < nth h vec 0 -> let p := S h + j in
      (f_isv s p = true -> In (f_idx s p) seen /\ G (f_idx s p)) /\
      (dep = true -> f_isv s p = f_isv s' p /\ f_idx s p = f_idx s' p) }.

  (** values and loads are written once *)
  Lemma step0_frame np nv nl l cc i k (s t : fst0 b) : wfl np nv nl (i :: l) -> okop (i_op i) = true ->
    step0 P cc i k s = Some t ->
    (forall v, v < nv -> f_V t v = f_V s v) /\ (forall m, m < nl -> f_l2v t m = f_l2v s m).
  Proof.
    intros (Hiv & W1 & HC & HL & HB & W2) OK E. destruct i as [o a iv]. cbn [i_op i_arg i_var] in *.
    destruct (step0_cases cc o a iv k s t OK E) as (_ & [C|[C|[C|C]]]).
    - destruct C as (res & NV & S0 & -> & _ & _ & ->). pose proof (sem0_length P o a _ _ S0) as LR. split; auto.
      intros v Hv. rewrite put_res_spec. destruct (Nat.leb_spec (iv + 1 - length res) v); cbn [andb]; auto. lia.
    - destruct C as (Ld & j & _ & -> & -> & _ & _). rewrite (HL Ld).
      assert (num_res o = 1) by (destruct o; try discriminate; auto).
      split; intros v Hv; rewrite fset_ne by lia; auto.
    - destruct C as (_ & j & _ & -> & -> & _). auto.
    - destruct C as (_ & _ & -> & _ & _ & ->). auto.
  Qed.
  Lemma sweep0_frame np cc l : forall nv nl k seen (s t : fst0 b), wfl np nv nl l -> sok seen nl l -> (forall j, f_skip s j = false) ->
    sweep0 P cc l k s = Some t ->
    (forall v, v < nv -> f_V t v = f_V s v) /\ (forall m, m < nl -> f_l2v t m = f_l2v s m).
  Proof.
    induction l as [|i l IH]; intros nv nl k seen s t W SO HS H; cbn [sweep0] in H.
    - injection H as <-. auto.
    - rewrite HS in H. destruct (step0 P cc i k s) as [s1|] eqn:S1; [|discriminate].
      destruct SO as (OK & _ & _ & SO).
      destruct (step0_frame np nv nl l cc i k s s1 W OK S1) as [A1 A2].
      pose proof W as (_ & _ & _ & _ & _ & W2).
      assert (f_skip s1 = f_skip s) as K by (destruct i; apply (step0_cases cc _ _ _ k s s1 OK S1)).
      destruct (IH _ _ (S k) _ s1 t W2 SO ltac:(intros; now rewrite K) H) as [B1 B2].
      split; intros v Hv; [rewrite B1 by lia; auto|]. rewrite B2; auto. destruct (is_load (i_op i)); lia.
  Qed.

  Lemma ldx_eq o a (V V' : nat -> T) : (match o with LdpOp | StppOp | StpvOp => True | _ => V (nth 1 a 0) = V' (nth 1 a 0) end) ->
    ldx o a V = ldx o a V'.
  Proof. destruct o; cbn; auto. Qed.

  Lemma sweep0_agree np cc l : forall nv nl seen k H (s s' t t' : fst0 b),
    wfl np nv nl l -> sok seen nl l -> (forall v, In v seen -> v < nv) -> Forall (vec_at hd) l -> closed dep G H l ->
    Rel seen H s s' -> (forall j, f_skip s j = false) -> (forall j, f_skip s' j = false) ->
    sweep0 P cc l k s = Some t -> sweep0 P cc l k s' = Some t' ->
    (dep = false -> Forall (same_choice P (f_V t) (f_V t') (f_l2v t) (f_l2v t')) l) ->
    forall v, In v (seenof seen l) -> G v -> f_V t v = f_V t' v.
  Proof.
    induction l as [|i l IH]; intros nv nl seen k H s s' t t' W SO SL VA CL R HS HS' E E' SC v Hv Gv; cbn [sweep0] in E, E'.
    { injection E as <-. injection E' as <-. now apply (r_V _ _ _ _ R). }
    rewrite HS in E. rewrite HS' in E'.
    destruct (step0 P cc i k s) as [s1|] eqn:S1; [|discriminate].
    destruct (step0 P cc i k s') as [s1'|] eqn:S1'; [|discriminate].
    pose proof SO as (OK & SA & _ & SO2). pose proof W as (Hiv & W1 & HC & HL & HB & W2).
    destruct CL as (H' & [CH CI] & CL2). apply Forall_cons_iff in VA as [VA1 VA2].
    assert (forall j, f_skip s1 j = false) as HS1.
    { assert (f_skip s1 = f_skip s) as -> by (destruct i; apply (step0_cases cc _ _ _ k s s1 OK S1)). auto. }
    assert (forall j, f_skip s1' j = false) as HS1'.
    { assert (f_skip s1' = f_skip s') as -> by (destruct i; apply (step0_cases cc _ _ _ k s' s1' OK S1')). auto. }
    assert (forall v, In v (seen1 seen i) -> v < nv + num_res (i_op i)) as SL1.
    { intros w Hw. unfold seen1 in Hw. destruct (Nat.ltb_spec 0 (num_res (i_op i))); [destruct Hw as [<-|Hw]|]; try apply SL in Hw; lia. }
    destruct (sweep0_frame np cc l _ _ (S k) _ s1 t W2 SO2 HS1 E) as [F1 F2].
    destruct (sweep0_frame np cc l _ _ (S k) _ s1' t' W2 SO2 HS1' E') as [F1' F2'].
    destruct (step0_frame np nv nl l cc i k s s1 W OK S1) as [G1 G2].
    destruct (step0_frame np nv nl l cc i k s' s1' W OK S1') as [G1' G2'].
    assert (dep = false -> same_choice P (f_V s1) (f_V s1') (f_l2v s1) (f_l2v s1') i /\
      Forall (same_choice P (f_V t) (f_V t') (f_l2v t) (f_l2v t')) l) as SC1.
    { intros D. specialize (SC D). apply Forall_cons_iff in SC as [C1 C2]. split; auto.
      unfold same_choice in *.
      assert (0 < num_res (i_op i) -> f_V t (i_var i) = f_V s1 (i_var i) /\ f_V t' (i_var i) = f_V s1' (i_var i)) as K1.
      { intros. rewrite F1, F1' by lia. auto. }
      assert (is_load (i_op i) = true -> f_l2v t (nth 2 (i_arg i) 0) = f_l2v s1 (nth 2 (i_arg i) 0) /\
        f_l2v t' (nth 2 (i_arg i) 0) = f_l2v s1' (nth 2 (i_arg i) 0)) as K2.
      { intros Ld. rewrite (HL Ld), F2, F2' by (rewrite Ld; lia). auto. }
      assert (forall x, In x (var_args (i_op i) (i_arg i)) -> f_V t x = f_V s1 x /\ f_V t' x = f_V s1' x) as K3.
      { intros x Hx. rewrite Forall_forall in SA. apply SA, SL in Hx. rewrite F1, F1' by lia. auto. }
      destruct (i_op i); auto; try (destruct (K1 ltac:(cbn; lia)) as [<- <-]; auto; fail).
      - replace (cexp_sel_at P (f_V s1) (i_arg i)) with (cexp_sel_at P (f_V t) (i_arg i)).
        replace (cexp_sel_at P (f_V s1') (i_arg i)) with (cexp_sel_at P (f_V t') (i_arg i)). exact C1.
        all: unfold cexp_sel_at, vp; cbn [var_args] in K3;
          destruct (Nat.testbit (nth 1 (i_arg i) 0) 0), (Nat.testbit (nth 1 (i_arg i) 0) 1); auto;
          rewrite ?(proj1 (K3 (nth 2 (i_arg i) 0) ltac:(cbn; auto))), ?(proj1 (K3 (nth 3 (i_arg i) 0) ltac:(cbn; auto))); auto;
          rewrite ?(proj2 (K3 (nth 2 (i_arg i) 0) ltac:(cbn; auto))), ?(proj2 (K3 (nth 3 (i_arg i) 0) ltac:(cbn; auto))); auto.
      - destruct (K1 ltac:(cbn; lia)) as [<- <-]. destruct (K2 eq_refl) as [<- <-]. auto.
      - destruct (K1 ltac:(cbn; lia)) as [<- <-]. destruct (K2 eq_refl) as [<- <-]. auto. }
    cut (Rel (seen1 seen i) H' s1 s1').
    { intros R1. refine (IH _ _ (seen1 seen i) (S k) H' s1 s1' t t' W2 SO2 SL1 VA2 CL2 R1 HS1 HS1' E E' _ v Hv Gv).
      intros D. now apply SC1. }
    assert (dep = false -> same_choice P (f_V s1) (f_V s1') (f_l2v s1) (f_l2v s1') i) as SC2 by (intros D; now apply SC1).
    clear SC1 SC IH CL2 F1 F2 F1' F2' E E' v Hv Gv W2 SO2 VA2 SL1 HS HS' HS1 HS1' G2 G2' t t'.
    (* one operator *)
    assert (forall x, In x (var_args (i_op i) (i_arg i)) -> In x seen) as SA' by (now rewrite Forall_forall in SA).
    destruct R as [RV RH RB].
    assert (forall h, In h hd -> H' h -> forall j, j < nth h vec 0 -> let p := S h + j in
      (f_isv s p = true -> In (f_idx s p) (seen1 seen i) /\ G (f_idx s p)) /\
      (dep = true -> f_isv s p = f_isv s' p /\ f_idx s p = f_idx s' p)) as RB'.
    { intros h Hh Hg j Hj p. destruct (RB h Hh (CH h Hg) j Hj) as [B1 B2]. split; auto. intros Q. destruct (B1 Q) as [B3 B4].
      split; auto. unfold seen1. destruct (_ <? _); auto. now right. }
    assert ((0 < num_res (i_op i) -> G (i_var i) -> f_V s1 (i_var i) = f_V s1' (i_var i)) ->
      forall v, In v (seen1 seen i) -> G v -> f_V s1 v = f_V s1' v) as RV1.
    { intros K w Hw Gw. unfold seen1 in Hw. destruct (Nat.ltb_spec 0 (num_res (i_op i))).
      - destruct Hw as [<-|Hw]; auto. rewrite G1, G1' by (apply SL; auto). auto.
      - rewrite G1, G1' by (apply SL; auto). auto. }
    destruct i as [o a iv]. cbn [i_op i_arg i_var] in *.
    destruct (step0_cases cc o a iv k s s1 OK S1) as (_ & C). destruct (step0_cases cc o a iv k s' s1' OK S1') as (_ & C').
    destruct (is_vec o) eqn:IV.
    - (* load or store *)
      destruct (VA1 IV) as (h & Hh & Ha0). cbn [i_arg] in Ha0.
      destruct (RH h Hh) as [RH1 RH2].
      replace (nth 0 a 0 - 1) with h in * by lia.
      destruct (is_load o) eqn:LD.
      + destruct C as [C|[C|[C|C]]]; [now destruct C| |destruct o; now destruct C|now destruct C].
        destruct C' as [C'|[C'|[C'|C']]]; [now destruct C'| |destruct o; now destruct C'|now destruct C'].
        destruct C as (_ & j & J1 & Q1 & Q2 & Q3 & Q4). destruct C' as (_ & j' & J1' & Q1' & Q2' & Q3' & Q4').
        rewrite Ha0 in *. rewrite RH1 in J1. rewrite RH2 in J1'.
        pose proof (index_of_some _ _ _ J1) as Hj. pose proof (index_of_some _ _ _ J1') as Hj'.
        constructor.
        2:{ rewrite Q4, Q4'. auto. }
        2:{ rewrite Q3, Q3', Q4, Q4'. auto. }
        apply RV1. intros _ Gz. rewrite Q1, Q1', !fset_eq.
        destruct dep eqn:D.
        * assert (ldx o a (f_V s) = ldx o a (f_V s') /\ H h) as [Ex Hgd].
          { unfold ldx. destruct o; try discriminate; auto. destruct (CI Gz) as [CI1 CI2].
            specialize (CI2 eq_refl). split; auto. apply RV; auto. apply SA'. cbn. auto. }
          rewrite Ex in J1. rewrite J1 in J1'. injection J1' as <-.
          destruct (RB h Hh Hgd j Hj) as [B1 B2]. destruct (B2 eq_refl) as [B3 B4].
          rewrite <- B3, <- B4. cbn [Nat.add] in *. destruct (f_isv s (S (h + j))) eqn:IS; auto. destruct (B1 eq_refl). now apply RV.
        * assert (H h) as Hgd by (destruct o; try discriminate; now apply CI).
          destruct (RB h Hh Hgd j Hj) as [B1 _].
          assert (f_l2v s1 (nth 2 a 0) = f_l2v s1' (nth 2 a 0) /\
            (f_l2v s1 (nth 2 a 0) = 0 -> f_V s1 iv = f_V s1' iv)) as [SC3 SC4].
          { specialize (SC2 eq_refl). unfold same_choice in SC2. destruct o; try discriminate; exact SC2. }
          rewrite Q2, Q2', !fset_eq in SC3. rewrite Q2, fset_eq in SC4. rewrite Q1, Q1', !fset_eq in SC4. cbn [Nat.add] in *.
          destruct (f_isv s (S (h + j))) eqn:IS; [|auto].
          destruct (Nat.eq_dec (f_idx s (S (h + j))) 0) as [Z|Z]; [auto|].
          destruct (f_isv s' (S (h + j'))) eqn:IS'; [|lia]. rewrite <- SC3. destruct (B1 eq_refl). now apply RV.
      + assert (is_store o = true) as ST by (destruct o; try discriminate; auto).
        destruct C as [C|[C|[C|C]]]; [now destruct C|destruct o; now destruct C| |now destruct C].
        destruct C' as [C'|[C'|[C'|C']]]; [now destruct C'|destruct o; now destruct C'| |now destruct C'].
        destruct C as (_ & j & J1 & Q1 & Q2 & Q3 & Q4). destruct C' as (_ & j' & J1' & Q1' & Q2' & Q3' & Q4').
        rewrite Ha0 in *. rewrite RH1 in J1. rewrite RH2 in J1'.
        pose proof (index_of_some _ _ _ J1) as Hj. pose proof (index_of_some _ _ _ J1') as Hj'.
        destruct BL as [BL1 BL2].
        assert (forall h1, In h1 hd -> forall q j, q <= nth h1 vec 0 -> j < nth h vec 0 -> h1 <> h \/ q = 0 -> h1 + q <> S h + j) as NE.
        { intros h1 H1 q j1 Hq Hj1 [Hn| ->]; [|destruct (Nat.eq_dec h1 h) as [->|Hn]; [lia|]];
          (destruct (lt_dec h1 h) as [Lt|Lt]; [pose proof (BL2 h1 h H1 Hh Lt)|pose proof (BL2 h h1 Hh H1 ltac:(lia))]; lia). }
        constructor.
        * apply RV1. intros N. destruct o; discriminate || (cbn in N; lia).
        * intros h1 H1. destruct (RH h1 H1) as [A1 A2]. rewrite Q4, Q4'.
          pose proof (NE h1 H1 0 j ltac:(lia) Hj ltac:(auto)). pose proof (NE h1 H1 0 j' ltac:(lia) Hj' ltac:(auto)).
          rewrite !fset_ne by lia. auto.
        * intros h1 H1 Hg q Hq p. destruct (RB' h1 H1 Hg q Hq) as [B1 B2]. fold p in B1, B2. rewrite Q3, Q3', Q4, Q4'.
          destruct (Nat.eq_dec h1 h) as [->|Hn].
          -- assert (st_isv o = true -> In (nth 2 a 0) seen /\ G (nth 2 a 0)) as GV.
             { intros Q. destruct o; try discriminate; (split; [apply SA'; cbn; auto|]); [exact (CI Hg)|exact (proj1 (CI Hg))]. }
             assert (dep = true -> ldx o a (f_V s) = ldx o a (f_V s')) as GX.
             { intros D. unfold ldx. destruct o; try discriminate; auto; apply RV; try (apply SA'; cbn; now auto).
               - exact (CI Hg D).
               - now apply CI. }
             assert (seen1 seen (mkIns o a iv) = seen) as ES by (unfold seen1; destruct o; try discriminate; auto).
             rewrite ES in *. split.
             ++ unfold fset. destruct (p =? S h + j); auto.
             ++ intros D. rewrite (GX D), J1' in J1. injection J1 as ->. unfold fset. destruct (p =? S h + j); auto.
          -- pose proof (NE h1 H1 (S q) j ltac:(lia) Hj ltac:(auto)). pose proof (NE h1 H1 (S q) j' ltac:(lia) Hj' ltac:(auto)).
             rewrite !fset_ne by (unfold p; lia). auto.
    - (* the other operators *)
      assert (f_isv s1 = f_isv s /\ f_idx s1 = f_idx s) as [I1 I2].
      { destruct C as [C|[C|[C|C]]]; [destruct C as (? & ? & ? & ? & ? & ? & ?); auto|destruct o; now destruct C|destruct o; now destruct C|].
        destruct C as (? & ? & ? & ? & ? & ?); auto. }
      assert (f_isv s1' = f_isv s' /\ f_idx s1' = f_idx s') as [I1' I2'].
      { destruct C' as [C'|[C'|[C'|C']]]; [destruct C' as (? & ? & ? & ? & ? & ? & ?); auto|destruct o; now destruct C'|destruct o; now destruct C'|].
        destruct C' as (? & ? & ? & ? & ? & ?); auto. }
      constructor.
      2:{ rewrite I2, I2'. auto. }
      2:{ rewrite I1, I1', I2, I2'. auto. }
      apply RV1. intros NR Gz.
      destruct C as [C|[C|[C|C]]]; [|destruct o; now destruct C|destruct o; now destruct C|destruct C as (? & ? & _); lia].
      destruct C' as [C'|[C'|[C'|C']]]; [|destruct o; now destruct C'|destruct o; now destruct C'|destruct C' as (? & ? & _); lia].
      destruct C as (res & _ & S0 & Q1 & _). destruct C' as (res' & _ & S0' & Q1' & _).
      assert (Forall G (rel_args dep o a)) as CA by (destruct o; try discriminate; apply CI; auto).
      assert ((forall x, In x (var_args o a) -> G x) -> f_V s1 iv = f_V s1' iv) as FIN.
      { intros K. rewrite (sem0_ext P o a (f_V s) (f_V s') HC) in S0 by (intros; apply RV; auto). rewrite S0 in S0'. injection S0' as <-.
        rewrite Q1, Q1', !put_res_spec. pose proof (sem0_length P o a _ _ S0) as LR.
        destruct (Nat.leb_spec (iv + 1 - length res) iv), (Nat.ltb_spec iv (iv + 1 - length res + length res)); try lia. auto. }
      rewrite Forall_forall in CA.
      destruct dep eqn:D.
      { apply FIN. intros x Hx. apply CA. unfold rel_args. destruct o; auto.
        cbn [var_args] in Hx. now rewrite <- app_assoc. }
      specialize (SC2 eq_refl). unfold same_choice in SC2. cbn [i_op i_arg i_var] in SC2.
      destruct o; try discriminate; try (apply FIN; exact CA); try exact SC2.
      (* CExp *)
      cbn [sem0] in S0, S0'. injection S0 as <-. injection S0' as <-.
      cbn [length] in *. cbn [rel_args] in CA.
      rewrite Q1, Q1'. cbn [put_res]. replace (iv + 1 - 1) with iv by lia. rewrite !fset_eq.
      rewrite !cexp_sel_code. fold (cexp_sel_at P (f_V s) a) (cexp_sel_at P (f_V s') a).
      assert (cexp_sel_at P (f_V s) a = cexp_sel_at P (f_V s') a) as ->.
      { etransitivity; [|etransitivity; [exact SC2|]]; unfold cexp_sel_at, vp; cbn [var_args] in SA';
          destruct (Nat.testbit (nth 1 a 0) 0), (Nat.testbit (nth 1 a 0) 1); auto;
          rewrite ?(G1 (nth 2 a 0)) by (apply SL, SA'; cbn; auto);
          rewrite ?(G1 (nth 3 a 0)) by (apply SL, SA'; cbn; auto);
          rewrite ?(G1' (nth 2 a 0)) by (apply SL, SA'; cbn; auto);
          rewrite ?(G1' (nth 3 a 0)) by (apply SL, SA'; cbn; auto); auto. }
      assert (forall bit j, In (bit, j) [(2, 4); (3, 5)] -> vp (nth 1 a 0) bit P (f_V s) (nth j a 0) = vp (nth 1 a 0) bit P (f_V s') (nth j a 0)) as K.
      { intros bit j Hin. unfold vp. destruct (Nat.testbit (nth 1 a 0) bit) eqn:TB; auto.
        cbn in Hin. destruct Hin as [Hin|[Hin|Hin]]; [| |now destruct Hin]; injection Hin as <- <-; apply RV;
          try (apply SA'; cbn [var_args]; rewrite TB, !in_app_iff; cbn; tauto);
          apply CA; rewrite TB, !in_app_iff; cbn; tauto. }
      rewrite !K by (cbn; auto). reflexivity.
  Qed.
  End Two.
End Core.
