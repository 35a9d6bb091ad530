(** Mixed differences: four evaluations of a tape at x, x + ds, x + dt, x + ds + dt that make the
    same choices, over the real numbers. *)
From Coq Require Import Reals ZArith Lra Lia List Bool Arith.
From Verif Require Import Base_Spec Op_Model Tape_Spec Tape_Model Tape_Proof Tape_Proof2 Tape_Proof7
  Sweep_Model Sweep_Eqs Sweep_Eqs2 Sweep_Tape Sweep_Uniq Sweep_Val0 Tape_Swf Tape_Vec Rev_Prim Real_Base Spar_Proof.
Import ListNotations.
Open Scope nat_scope.

(** every variable read by a load whose result is in [G] is in [G] and was seen before *)
Fixpoint srcs (G : nat -> Prop) (L : nat -> nat) (seen : list nat) (l : list ins) : Prop :=
  match l with
  | [] => True
  | i :: l' =>
    (is_load (i_op i) = true -> G (i_var i) -> let y := L (nth 2 (i_arg i) 0) in 0 < y -> In y seen /\ G y) /\
    srcs G L (seen1 seen i) l'
  end.

Section Src.
  Context {b : base}.
  Notation T := (bt b).
  Variable P : nat -> T.
  Variables (G : nat -> Prop) (vec hd : list nat).
  Hypothesis BL : blocks vec hd.

  Record Rel1 (seen : list nat) (H : nat -> Prop) (s : fst0 b) : Prop := {
    r1_h : forall h, In h hd -> f_idx s h = nth h vec 0;
    r1_b : forall h, In h hd -> H h -> forall j, j < nth h vec 0 ->
      f_isv s (S h + j) = true -> In (f_idx s (S h + j)) seen /\ G (f_idx s (S h + j)) }.

  (** what a variable of the tape is, in terms of the final values *)
  Definition is_val (V : nat -> T) (L : nat -> nat) (i : ins) : Prop :=
    (is_load (i_op i) = true -> let y := L (nth 2 (i_arg i) 0) in 0 < y -> V (i_var i) = V y) /\
    (is_load (i_op i) = false -> 0 < num_res (i_op i) -> exists res, sem0 (i_op i) (i_arg i) P V = Some res /\
       V (i_var i) = nth (num_res (i_op i) - 1) res b0).

  Lemma sweep0_srcs np cc l : forall nv nl seen k H (s t : fst0 b),
    wfl np nv nl l -> sok seen nl l -> (forall v, In v seen -> v < nv) -> Forall (vec_at hd) l -> closed false G H l ->
    Rel1 seen H s -> (forall m, f_isv s m = true -> f_idx s m < nv) -> (forall j, f_skip s j = false) ->
    sweep0 P cc l k s = Some t ->
    srcs G (f_l2v t) seen l /\ Forall (is_val (f_V t) (f_l2v t)) l.
  Proof.
    induction l as [|i l IH]; intros nv nl seen k H s t W SO SL VA CL R VO HS E; cbn [sweep0] in E; [cbn; auto|].
    rewrite HS in E. destruct (step0 P cc i k s) as [s1|] eqn:S1; [|discriminate].
    pose proof SO as (OK & SA & _ & SO2). pose proof W as (Hiv & W1 & HC & HL & HB & W2).
    destruct CL as (H' & [CH CI] & CL2). apply Forall_cons_iff in VA as [VA1 VA2].
    assert (forall j, f_skip s1 j = false) as HS1.
    { assert (f_skip s1 = f_skip s) as -> by (destruct i; apply (step0_cases P cc _ _ _ k s s1 OK S1)). auto. }
    assert (forall v, In v (seen1 seen i) -> v < nv + num_res (i_op i)) as SL1.
    { intros w Hw. unfold seen1 in Hw. destruct (Nat.ltb_spec 0 (num_res (i_op i))); [destruct Hw as [<-|Hw]|]; try apply SL in Hw; lia. }
    destruct (sweep0_frame P np cc l _ _ (S k) _ s1 t W2 SO2 HS1 E) as [F1 F2].
    destruct (step0_frame P np nv nl l cc i k s s1 W OK S1) as [G1 G2].
    rewrite Forall_forall in SA. destruct R as [RH RB].
    assert ((is_load (i_op i) = true -> G (i_var i) -> let y := f_l2v t (nth 2 (i_arg i) 0) in 0 < y -> In y seen /\ G y) /\
      is_val (f_V t) (f_l2v t) i /\ Rel1 (seen1 seen i) H' s1 /\ (forall m, f_isv s1 m = true -> f_idx s1 m < nv + num_res (i_op i))) as (K1 & K2 & K3 & K4).
    2:{ destruct (IH _ _ (seen1 seen i) (S k) H' s1 t W2 SO2 SL1 VA2 CL2 K3 K4 HS1 E) as [B1 B2].
        split; [split; auto|constructor; auto]. }
    clear IH CL2 W2 SO2 VA2 HS HS1 E.
    assert (forall x, In x (var_args (i_op i) (i_arg i)) -> f_V t x = f_V s x) as VX.
    { intros x Hx. apply SA, SL in Hx. rewrite F1 by lia. apply G1; auto. }
    destruct i as [o a iv]. cbn [i_op i_arg i_var] in *.
    destruct (step0_cases P cc o a iv k s s1 OK S1) as (_ & C).
    assert (forall h, In h hd -> H' h -> forall j, j < nth h vec 0 -> f_isv s (S h + j) = true ->
      In (f_idx s (S h + j)) (seen1 seen (mkIns o a iv)) /\ G (f_idx s (S h + j))) as RB'.
    { intros h Hh Hg j Hj Q. destruct (RB h Hh (CH h Hg) j Hj Q) as [B3 B4]. split; auto. unfold seen1. destruct (_ <? _); auto. now right. }
    destruct (is_vec o) eqn:IV.
    - destruct (VA1 IV) as (h & Hh & Ha0). cbn [i_arg] in Ha0.
      pose proof (RH h Hh) as RH1.
      replace (nth 0 a 0 - 1) with h in * by lia.
      destruct (is_load o) eqn:LD.
      + destruct C as [C|[C|[C|C]]]; [now destruct C| |destruct o; now destruct C|now destruct C].
        destruct C as (_ & j & J1 & Q1 & Q2 & Q3 & Q4). rewrite Ha0 in *. rewrite RH1 in J1.
        pose proof (index_of_some _ _ _ J1) as Hj. cbn [Nat.add] in *.
        assert (num_res o = 1) as NR by (destruct o; try discriminate; auto).
        assert (f_l2v t (nth 2 a 0) = (if f_isv s (S (h + j)) then f_idx s (S (h + j)) else 0)) as LE.
        { rewrite (HL eq_refl). rewrite F2 by lia. rewrite <- (HL eq_refl). now rewrite Q2, fset_eq. }
        split; [|split; [|split]].
        * intros _ Gz Hy. rewrite LE in *. destruct (f_isv s (S (h + j))) eqn:IS; [|lia].
          assert (H h) as Hgd by (destruct o; try discriminate; now apply CI). apply (RB h Hh Hgd j Hj IS).
        * split; cbn [i_op i_arg i_var]; [|congruence]. intros _ Hy. cbv zeta in *. rewrite LE in *.
          destruct (f_isv s (S (h + j))) eqn:IS; [|lia]. specialize (VO _ IS).
          rewrite (F1 iv) by lia. rewrite (F1 (f_idx s _)) by lia. rewrite (G1 _ VO). now rewrite Q1, fset_eq.
        * constructor; [intros; rewrite Q4; auto|]. rewrite Q3, Q4. cbn [Nat.add] in *. auto.
        * rewrite Q3, Q4. intros m Hm. specialize (VO m Hm). lia.
      + assert (is_store o = true) as ST by (destruct o; try discriminate; auto).
        destruct C as [C|[C|[C|C]]]; [now destruct C|destruct o; now destruct C| |now destruct C].
        destruct C as (_ & j & J1 & Q1 & Q2 & Q3 & Q4). rewrite Ha0 in *. rewrite RH1 in J1.
        pose proof (index_of_some _ _ _ J1) as Hj. destruct BL as [BL1 BL2].
        assert (num_res o = 0) as NR by (destruct o; try discriminate; auto).
        assert (forall h1, In h1 hd -> forall q j, q <= nth h1 vec 0 -> j < nth h vec 0 -> h1 <> h \/ q = 0 -> h1 + q <> S h + j) as NE.
        { intros h1 H1 q j1 Hq Hj1 [Hn| ->]; [|destruct (Nat.eq_dec h1 h) as [->|Hn]; [lia|]];
          (destruct (lt_dec h1 h) as [Lt|Lt]; [pose proof (BL2 h1 h H1 Hh Lt)|pose proof (BL2 h h1 Hh H1 ltac:(lia))]; lia). }
        split; [discriminate|split; [|split]].
        * split; cbn [i_op i_arg i_var]; [congruence|lia].
        * constructor.
          -- intros h1 H1. rewrite Q4. pose proof (NE h1 H1 0 j ltac:(lia) Hj ltac:(auto)). rewrite fset_ne by lia. auto.
          -- intros h1 H1 Hg q Hq. rewrite Q3, Q4. destruct (Nat.eq_dec h1 h) as [->|Hn].
             ++ assert (st_isv o = true -> In (nth 2 a 0) seen /\ G (nth 2 a 0)) as GV.
                { intros Q. destruct o; try discriminate; (split; [apply SA; cbn; auto|]); [exact (CI Hg)|exact (proj1 (CI Hg))]. }
                assert (seen1 seen (mkIns o a iv) = seen) as ES by (unfold seen1; cbn [i_op]; now rewrite NR).
                rewrite ES in *. unfold fset. destruct (Nat.eqb_spec (S h + q) (S h + j)); auto.
             ++ pose proof (NE h1 H1 (S q) j ltac:(lia) Hj ltac:(auto)). rewrite !fset_ne by lia. auto.
        * rewrite Q3, Q4. intros m Hm. unfold fset in *. destruct (m =? S h + j).
          -- assert (In (nth 2 a 0) (var_args o a)) as In2 by (destruct o; try discriminate; cbn; auto). apply SA, SL in In2. lia.
          -- specialize (VO m Hm). lia.
    - assert (f_isv s1 = f_isv s /\ f_idx s1 = f_idx s) as [I1 I2].
      { destruct C as [C|[C|[C|C]]]; [destruct C as (? & ? & ? & ? & ? & ? & ?); auto|destruct o; now destruct C|destruct o; now destruct C|].
        destruct C as (? & ? & ? & ? & ? & ?); auto. }
      split; [destruct o; discriminate|split; [|split]].
      + split; cbn [i_op i_arg i_var]; [destruct o; discriminate|]. intros _ NR.
        destruct C as [C|[C|[C|C]]]; [|destruct o; now destruct C|destruct o; now destruct C|destruct C as (? & ? & _); lia].
        destruct C as (res & _ & S0 & Q1 & _). exists res. split.
        * rewrite (sem0_ext P o a (f_V t) (f_V s) HC) by auto. auto.
        * pose proof (sem0_length P o a _ _ S0) as LR. rewrite F1 by lia. rewrite Q1, put_res_spec.
          destruct (Nat.leb_spec (iv + 1 - length res) iv), (Nat.ltb_spec iv (iv + 1 - length res + length res)); try lia.
          cbn [andb]. f_equal. lia.
      + constructor; [intros; rewrite I2; auto|]. rewrite I1, I2. auto.
      + rewrite I1, I2. intros m Hm. specialize (VO m Hm). lia.
  Qed.
End Src.
