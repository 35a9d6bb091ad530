(** C23: the optimizer of the value operator graph: what it preserves, and where it does not. *)
From Coq Require Import List Bool Arith Lia ZArith.
From Verif Require Import VG_Model VG_Proof VG_Dead VG_Renum VG_Fold VG_Sum.
Import ListNotations.

Section VG.
  Context {A : Type} (B : vbase A) (LW : vlaws B).
  (** val_optimize with the options keep_compare and keep_print false: same dependents, and no comparison and no print is left *)
  Theorem val_optimize_preserves (cum : bool) {G} (GR : vgroup B G) t : wf_tape B t -> novec (t_ops t) ->
    exists t' u, val_optimize B cum false false t = Some (t', u) /\ t_nind t' = t_nind t /\ wf_tape B t' /\ novec (t_ops t') /\ length u = n_val t' /\
      forall x, length x = t_nind t -> (cum = true -> sums_num B GR t x) ->
        exists y cf out, result B t x = Some (y, cf, out) /\ result B t' x = Some (y, 0, []).
  Proof.
    intros WT V. destruct (renumber_correct B LW t WT V) as (t1 & R & N1 & W1 & V1 & NV1 & NO1 & E1).
    unfold val_optimize. rewrite R.
    assert (exists t2, (if cum then summation B t1 else Some t1) = Some t2 /\ t_nind t2 = t_nind t1 /\ wf_tape B t2 /\ novec (t_ops t2) /\ t_dep t2 = t_dep t1 /\
      forall x, length x = t_nind t1 -> (cum = true -> sums_num B GR t1 x) -> eval B t2 x = eval B t1 x) as (t2 & S & N2 & W2 & V2 & D2 & E2).
    { destruct cum; [|exists t1; auto 8]. destruct (summation_correct B LW GR t1 W1 V1) as (t2 & S & P1 & P2 & P3 & P4 & P5 & P6 & P7). exists t2. repeat split; auto. }
    rewrite S. destruct (dead_code_correct B LW t2 false false W2 V2) as (t' & u & DC & N3 & W3 & V3 & LU & E3).
    { intros o _. destruct o; auto; discriminate. }
    exists t', u. split; [exact DC|]. split; [congruence|]. split; auto. split; auto. split; auto.
    intros x Hx NS. destruct (E1 x Hx) as (s & s1 & y & P1 & P2 & P3 & _ & _ & _ & P4 & P5 & P6).
    exists y, (s_cf s), (s_out s). split; [unfold result; now rewrite P1, P4|].
    destruct (E3 x ltac:(congruence)) as (y2 & cf2 & out2 & Q1 & Q2). rewrite Q2. f_equal. f_equal. f_equal.
    unfold result in Q1. rewrite E2, P2, D2, P5 in Q1; [injection Q1; auto|congruence|].
    intros C. destruct (NS C) as (s' & F1 & F2). rewrite P1 in F1. injection F1 as <-. exists s1. split; auto. intros o1 Ho HS v1 Hv1. rewrite P3.
    destruct (P6 o1 Ho HS) as (o & Hoo & HSo & HV). destruct (HV v1 Hv1) as (v & Hv & EV). specialize (F2 o Hoo HSo v Hv).
    assert (nth v1 (s_val s) (v_nan B) = nth v (s_val s) (v_nan B)) as ->; auto.
    destruct (nth_error (s_val s) v) eqn:EE.
    - now rewrite (nth_error_nth _ _ _ EV), (nth_error_nth _ _ _ EE).
    - apply nth_error_None in EE. apply nth_error_None in EV. now rewrite !nth_overflow by lia.
  Qed.

  (** renumber, then dead_code, with comparisons kept: a comparison is false after if and only if one is false before *)
  Theorem val_optimize_compare_partial (kp : bool) t t1 : wf_tape B t -> novec (t_ops t) -> renumber B t = Some t1 -> kept_live B true kp t1 ->
    exists t' u, val_optimize B false true kp t = Some (t', u) /\
      forall x, length x = t_nind t -> exists y cf out cf' out', result B t x = Some (y, cf, out) /\ result B t' x = Some (y, cf', out') /\ (cf' = 0 <-> cf = 0) /\
        (kp = true -> incl out out' /\ incl out' out).
  Proof.
    intros WT V R KL. destruct (renumber_correct B LW t WT V) as (t1' & R' & N1 & W1 & V1 & NV1 & NO1 & E1). rewrite R in R'. injection R' as <-.
    destruct (dead_code_correct B LW t1 true kp W1 V1 KL) as (t' & u & DC & N3 & W3 & V3 & LU & E3).
    exists t', u. split; [unfold val_optimize; rewrite R; exact DC|]. intros x Hx. destruct (E1 x Hx) as (s & s1 & y & P1 & P2 & P3 & P4 & P5 & P6 & P7 & P8 & _).
    destruct (E3 x ltac:(congruence)) as (y2 & cf2 & out2 & Q1 & Q2). unfold result in Q1. rewrite P2, P8 in Q1. injection Q1 as <- <- <-.
    exists y, (s_cf s), (s_out s), (s_cf s1), (if kp then s_out s1 else []). split; [unfold result; now rewrite P1, P7|]. split; [exact Q2|]. split; [auto|]. intros ->. auto.
  Qed.
End VG.

(** *** a concrete type of values: integers and nan *)
Definition oz2 (f : Z -> Z -> Z) (a b : option Z) : option Z := match a, b with Some x, Some y => Some (f x y) | _, _ => None end.
Definition oz_sum (xs : list (option Z)) : option Z := fold_right (oz2 Z.add) (Some 0%Z) xs.
Definition OZ : vbase (option Z) := mkVB _
  None (fun a => match a with None => true | _ => false end) (Some 0%Z)
  (fun u a => match u with UNeg => option_map Z.opp a | UFun _ => option_map (fun x => (x * x)%Z) a end)
  (fun b => oz2 match b with BAdd => Z.add | BSub => Z.sub | BMul => Z.mul | BDiv => Z.div | BPow => Z.pow end)
  (fun _ => option_map Z.abs)
  (fun c a b => match a, b with
     | Some x, Some y => match c with CEq => Z.eqb x y | CNe => negb (Z.eqb x y) | CLt => Z.ltb x y | CLe => Z.leb x y | CNo => true end
     | _, _ => match c with CNe => true | _ => false end end)
  (fun a => match a with Some x => Z.to_nat x | None => 0 end)
  (fun a b => match a, b with Some x, Some y => Z.eqb x y | None, None => true | _, _ => false end)
  (fun a => match a with Some x => Z.to_nat x | None => 0 end)
  (fun _ _ n xs => map (fun k => oz2 Z.add (Some (Z.of_nat k)) (oz_sum xs)) (seq 0 n))
  (fun _ _ con _ dy => map (fun _ => existsb (fun b => b) dy) con)
  (fun _ _ _ ty n => repeat (forallb (fun b => b) ty) n).

Lemma nth_ext' {X} (d : X) xs xs' : length xs' = length xs -> (forall k, nth k xs d = nth k xs' d) -> xs = xs'.
Proof. intros L H. apply (nth_ext _ _ d d); auto. Qed.
Lemma OZ_laws : vlaws OZ.
Proof.
  constructor.
  - reflexivity.
  - intros [z|]; [discriminate|auto].
  - intros [a|] [b|]; cbn; try discriminate; auto. intros H. apply Z.eqb_eq in H. now subst.
  - intros [a|] [b|]; cbn; auto. f_equal. lia.
  - intros [a|] [b|]; cbn; auto. f_equal. lia.
  - intros. cbn. now rewrite map_length, seq_length.
  - intros a i n con ty dy xs xs' Lc Lt Ld L H y Hy. cbn in *.
    assert (xs = xs') as ->; auto. apply (nth_ext' None); auto. intros k. destruct (Nat.lt_ge_cases k (length xs)) as [Hk|Hk]; [|rewrite !nth_overflow by lia; auto].
    apply H. assert (existsb (fun b => b) dy = true) as E.
    { apply existsb_exists. exists true. split; auto. rewrite <- Hy. apply nth_In. destruct (Nat.lt_ge_cases y (length dy)); auto. rewrite nth_overflow in Hy by auto. discriminate. }
    rewrite E. assert (k < length con) as Hc by lia. clear - Hc. revert k Hc. induction con as [|c con IH]; intros [|k] Hc; cbn in *; auto; try lia. apply IH. lia.
  - intros a i n con ty xs L Lt H y Hy. cbn in *.
    assert (xs = con) as ->; auto. apply (nth_ext' None); auto. intros k. destruct (Nat.lt_ge_cases k (length xs)) as [Hk|Hk]; [|rewrite !nth_overflow by lia; auto].
    apply H. destruct (Nat.lt_ge_cases y n) as [Hn|Hn]; [|rewrite nth_overflow in Hy by (rewrite repeat_length; lia); discriminate]. rewrite nth_indep with (d' := forallb (fun b => b) ty) in Hy by (now rewrite repeat_length). rewrite nth_repeat in Hy.
    rewrite forallb_forall in Hy. apply Hy. apply nth_In. lia.
  - intros. apply repeat_length.
Qed.
Definition OZ_group : vgroup OZ Z.
Proof.
  refine {| g_in := Some; g_out := fun a => a; g_0 := 0%Z; g_add := Z.add; g_neg := Z.opp |}; try reflexivity; try (intros; lia).
  intros a g H. exact H.
Defined.

(** hypotheses hold for: x0, x1 | nan | x0+x1, 3, (x0+x1)+3, x1+x0, ((x0+x1)+3)-(x1+x0), call, cexp, comparison, print *)
Notation ex_ops := [VCon None; VBin BAdd 0 1; VCon (Some 3%Z); VBin BAdd 3 4; VBin BAdd 1 0; VBin BSub 5 6; VCall 0 0 2 [7; 1]; VCexp CLt 0 1 8 9; VComp CLe 7 1; VPri 0 0 0 7].
Notation ex_t := (mkVT 2 ex_ops [10; 7]).
Lemma ex_wf : wf_tape OZ ex_t /\ novec ex_ops.
Proof. split; [|repeat constructor]. exists (tl ex_ops). split; [reflexivity|]. split; [cbn; unfold wf_op; cbn; repeat split; repeat (constructor; try lia)|repeat (constructor; [cbn; lia|]); constructor]. Qed.
Lemma ex_sums : sums_num OZ OZ_group ex_t [Some 4%Z; Some 5%Z].
Proof.
  eexists. split; [vm_compute; reflexivity|]. intros o Ho HS v Hv. cbn in Ho. repeat (destruct Ho as [<-|Ho]; [try discriminate HS; cbn in Hv; repeat (destruct Hv as [<-|Hv]; [cbn; discriminate|]); easy|]). easy.
Qed.
(** 3 operators of 10 are left out, the subtraction is a cumulative sum *)
Lemma ex_opt : exists u, val_optimize OZ true false false ex_t =
  Some (mkVT 2 [VCon None; VBin BAdd 0 1; VCon (Some 3%Z); VCsum [3; 4] [3]; VCall 0 0 2 [5; 1]; VCexp CLt 0 1 6 7] [8; 5], u).
Proof. eexists. vm_compute. reflexivity. Qed.

Notation cz z := (VCon (Some z%Z)).
Notation NN := (VCon (@None Z)).
(** a comparison of values that are used: hypotheses of val_optimize_compare_partial *)
Notation ex_k := (mkVT 1 [NN; VBin BAdd 0 0; VBin BAdd 0 0; VComp CLt 2 0; VComp CLt 3 0; VPri 0 0 0 3] [2; 3]).
Lemma ex_kept : wf_tape OZ ex_k /\ novec (t_ops ex_k) /\ exists t1, renumber OZ ex_k = Some t1 /\ kept_live OZ true true t1 /\
  result OZ ex_k [Some (-3)%Z] = Some ([Some (-6)%Z; Some (-6)%Z], 0, [(0, 0, Some (-6)%Z)]) /\ result OZ ex_k [Some 3%Z] = Some ([Some 6%Z; Some 6%Z], 2, []) /\ result OZ t1 [Some 3%Z] = Some ([Some 6%Z; Some 6%Z], 1, []).
Proof.
  split; [exists (tl (t_ops ex_k)); split; [reflexivity|]; split; [cbn; unfold wf_op; cbn; repeat split; repeat (constructor; try lia)|repeat (constructor; [cbn; lia|]); constructor]|].
  split; [repeat constructor|]. eexists. split; [vm_compute; reflexivity|]. split; [|repeat split; vm_compute; reflexivity].
  assert (live OZ (mkVT 1 [NN; VBin BAdd 0 0; VBin BAdd 0 0; VComp CLt 2 0; VComp CNo 2 0; VPri 0 0 0 2] [2; 2]) 2) as LV by (eexists _, _; split; vm_compute; reflexivity).
  intros o Ho. cbn [t_ops In] in Ho. repeat (destruct Ho as [<-|Ho]; [auto; intros _ _ v [<-|[<-|[]]]; (left; cbn; lia) || right; exact LV|]). easy.
Qed.
(** fold_con: 3 * 4 becomes a constant *)
Lemma ex_fold : plain (t_ops (mkVT 1 [NN; cz 3; cz 4; VBin BMul 2 3; VBin BAdd 4 0] [5])) /\
  fold_con OZ (mkVT 1 [NN; cz 3; cz 4; VBin BMul 2 3; VBin BAdd 4 0] [5]) = Some (mkVT 1 [NN; cz 3; cz 4; cz 12; VBin BAdd 4 0] [5]).
Proof. split; [repeat constructor|reflexivity]. Qed.

(** *** Where the code does not preserve the function (each a tape that eval accepts, on integers with nan) *)
(** rev_depend.hpp:144-160 passes over the operators without results, so the operands of a comparison that is kept are not kept:
    with the option keep_compare the comparison x0 + x0 < x0 uses a value that is not there *)
Notation t_cmp := (mkVT 1 [NN; VBin BAdd 0 0; VComp CLt 2 0] [0]).
Theorem dead_code_compare_not_preserved : wf_tape OZ t_cmp /\ novec (t_ops t_cmp) /\
  result OZ t_cmp [Some 3%Z] = Some ([Some 3%Z], 1, []) /\
  exists t' u, dead_code OZ true false t_cmp = Some (t', u) /\ result OZ t' [Some 3%Z] = None.
Proof.
  split; [exists (tl (t_ops t_cmp)); split; [reflexivity|]; split; [cbn; unfold wf_op; cbn; repeat split; repeat (constructor; try lia)|repeat (constructor; [cbn; lia|]); constructor]|].
  split; [repeat constructor|]. split; [reflexivity|]. eexists _, _. split; vm_compute; reflexivity.
Qed.
(** record_new.hpp:181-189: the initial elements of a dynamic vector are neither kept nor renumbered *)
Notation t_ini := (mkVT 1 [NN; cz 7; VVec 0 [2]; cz 0; VLoad 0 3] [4]).
Theorem dead_code_vector_not_preserved :
  result OZ t_ini [Some 3%Z] = Some ([Some 7%Z], 0, []) /\
  exists t' u, dead_code OZ false false t_ini = Some (t', u) /\ result OZ t' [Some 3%Z] = None.
Proof. split; [reflexivity|]. eexists _, _. split; vm_compute; reflexivity. Qed.
(** op_hash_table.hpp:210-293: two loads with a store between them are the same operator for renumber *)
Notation t_ldst := (mkVT 1 [NN; cz 0; VVec 0 [0]; VLoad 0 2; cz 9; VStore 0 2 4; VLoad 0 2] [5; 3]).
Theorem renumber_vector_not_preserved :
  result OZ t_ldst [Some 3%Z] = Some ([Some 9%Z; Some 3%Z], 0, []) /\
  exists t', renumber OZ t_ldst = Some t' /\ result OZ t' [Some 3%Z] = Some ([Some 3%Z; Some 3%Z], 0, []).
Proof. split; [reflexivity|]. eexists. split; vm_compute; reflexivity. Qed.
(** renumber.hpp:130: two equal stores fail the assertion *)
Notation t_st2 := (mkVT 1 [NN; cz 0; VVec 0 [0]; VStore 0 2 0; VStore 0 2 0; VLoad 0 2] [3]).
Theorem renumber_equal_stores_assert : result OZ t_st2 [Some 3%Z] = Some ([Some 3%Z], 0, []) /\ renumber OZ t_st2 = None.
Proof. split; vm_compute; reflexivity. Qed.
(** compress.hpp:186-188: the old index of the operator that matches, not its new index *)
Notation t_cpr := (mkVT 1 [NN; cz 5; VBin BAdd 0 0; VBin BAdd 0 0; VBin BMul 3 4] [5]).
Theorem compress_not_preserved : wf_tape OZ t_cpr /\ novec (t_ops t_cpr) /\
  result OZ t_cpr [Some 3%Z] = Some ([Some 36%Z], 0, []) /\
  exists t', compress OZ true true t_cpr = Some t' /\ result OZ t' [Some 3%Z] = None.
Proof.
  split; [exists (tl (t_ops t_cpr)); split; [reflexivity|]; split; [cbn; unfold wf_op; cbn; repeat split; repeat (constructor; try lia)|repeat (constructor; [cbn; lia|]); constructor]|].
  split; [repeat constructor|]. split; [reflexivity|]. eexists. split; vm_compute; reflexivity.
Qed.
(** renumber.hpp:126-127: of two equal prints one is left *)
Notation t_pri := (mkVT 1 [NN; VPri 0 0 0 0; VPri 0 0 0 0] [0]).
Theorem renumber_print_once :
  result OZ t_pri [Some (-3)%Z] = Some ([Some (-3)%Z], 0, [(0, 0, Some (-3)%Z); (0, 0, Some (-3)%Z)]) /\
  exists t', renumber OZ t_pri = Some t' /\ result OZ t' [Some (-3)%Z] = Some ([Some (-3)%Z], 0, [(0, 0, Some (-3)%Z)]).
Proof. split; [reflexivity|]. eexists. split; vm_compute; reflexivity. Qed.
