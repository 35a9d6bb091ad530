(** C22: optimize keeps the function (options no_conditional_skip no_cumulative_sum_op, with or without no_compare_op, any collision_limit).
    F is any function object obtained from a recording without VecAD operators and any later calls of new_dynamic, Forward(0, x) and compare_change_count. *)
From Coq Require Import ZArith List Bool Arith Lia.
From Verif Require Import Base_Spec Op_Model Tape_Spec Tape_Model Tape_Proof Tape_Hist Tape_Prop Abs_Prop Opt_Model Opt_Proof6 Opt_Proof5.
Import ListNotations.

Section OptProp.
  Context {b : base} (BL : base_laws b).
  Notation T := (bt b).
  (** enum values of the operators, size of the hash table, collision_limit, and the value that is used for the index of an unused parameter: all arbitrary *)
  Variables (opc : opvar -> nat) (dopc : opdyn -> nat) (hsize limit amax : nat).
  Variables (tid : nat) (cmp : bool) (n np : nat) (e : nat -> AD b) (ev : nat -> VecAD b) (p : prog T) (V : nat -> T) (l2v : nat -> nat) (f0 f : adfun b) (h : list (call b)).

  (** Missing in the partial theorem: conditional skip, cumulative sums, VecAD objects (see the refutation below), atomic functions. *)
  Theorem optimize_preserves_partial (keep_compare : bool) :
    recorded tid cmp n np e ev p V l2v f0 -> Forall (sized n np) h -> run f0 h = Some f -> forallb no_vecad (r_op (g_rec f0)) = true ->
    exists f', optimize opc dopc hsize limit amax np keep_compare f = Some f' /\
      g_n f' = g_n f /\ length (g_dep f') = length (g_dep f) /\
      forall ds x, length x = n -> exists y f1 f2, forward0 (dyns ds f) x = Some (y, f1) /\ forward0 (dyns ds f') x = Some (y, f2).
  Proof.
    intros R S H N. destruct (rec_opt_ok BL tid cmp n np e ev p V l2v f0 f h R S H N) as (D2 & rest & O).
    destruct (optimize_ok BL opc dopc hsize limit amax f n np D2 _ rest keep_compare O) as (f' & A). eauto.
  Qed.

  (** Hence the optimized function computes the algorithm, as long as the comparisons have the recorded outcome. *)
  Theorem optimize_is_algorithm_partial (keep_compare : bool) :
    recorded tid cmp n np e ev p V l2v f0 -> Forall (sized n np) h -> run f0 h = Some f -> forallb no_vecad (r_op (g_rec f0)) = true ->
    exists f', optimize opc dopc hsize limit amax np keep_compare f = Some f' /\
      forall ds x, length x = n -> Forall (fun d => length d = np) ds ->
        let s := start (base_values e ev) x (cur_dyn (dyn_values n np e) (h ++ map NewDynamic ds)) in
        decisions p s = decisions p (base_values e ev) -> exists y f2, eval p s = Some y /\ forward0 (dyns ds f') x = Some (y, f2).
  Proof.
    intros R S H N. destruct (optimize_preserves_partial keep_compare R S H N) as (f' & A1 & _ & _ & A2). exists f'. split; auto.
    intros ds x Lx LD s D. destruct (A2 ds x Lx) as (y & f1 & f2 & B1 & B2).
    assert (run f0 (h ++ map NewDynamic ds) = Some (dyns ds f)) as RD.
    { clear -H. revert f0 H. induction h as [|c h' IH]; intros f0 H; cbn [run app] in *.
      - injection H as ->. revert f. induction ds as [|d ds IH]; intros f; cbn; auto. apply IH.
      - destruct c; auto. destruct (forward0 f0 x) as [[y g]|]; [auto|discriminate]. }
    assert (Forall (sized n np) (h ++ map NewDynamic ds)) as SD.
    { apply Forall_app. split; auto. apply Forall_map. eapply Forall_impl; [|exact LD]. intros d Hd. exact Hd. }
    pose proof (forward_zero_is_algorithm BL tid cmp n np e ev p V l2v f0 R _ _ x SD RD Lx) as K. cbv zeta in K. fold s in K. specialize (K D).
    destruct (eval p s) as [y'|]; [|congruence]. destruct K as (g' & K). rewrite B1 in K. injection K as -> _. eauto.
  Qed.
End OptProp.

(** *** A concrete case: a product and a dynamic parameter that occur twice, a sum that occurs again with its arguments exchanged, an operator that is not used and a comparison *)
Definition opt_p : prog Z :=
  Pstep (Ibin Bmul 3 0 2) (                 (* r3 = x0 * dyn            *)
  Pstep (Ibin Bmul 4 2 0) (                 (* r4 = dyn * x0 : again r3 *)
  Pstep (Ibin Badd 5 0 1) (                 (* r5 = x0 + x1             *)
  Pstep (Ibin Badd 6 1 0) (                 (* r6 = x1 + x0 : again r5  *)
  Pstep (Ibin Badd 7 2 2) (                 (* r7 = dyn + dyn (dynamic) *)
  Pstep (Ibin Bmul 8 2 7) (                 (* r8 = dyn * r7  (dynamic) *)
  Pstep (Ibin Bmul 9 7 2) (                 (* r9 = r7 * dyn : again r8 *)
  Pstep (Iun Ufabs 10 5) (                  (* r10 = |r5| : not used    *)
  Pstep (Ibin Bmul 11 3 5) (
  Pstep (Ibin Bmul 12 4 6) (                (* again r11                *)
  Pstep (Icond XLt 13 0 1 8 11) (           (* r13 = x0 < x1 ? r8 : r11 *)
  Pstep (Ibin Bmul 14 9 12) (
  Pif Clt 1 0 (Pret [14; 13; 12; 9; 3; 1]) (Pret [4]))))))))))))).
Notation opt_f := (@record_fun Zbase 7 true 2 1 abs_e ex_ev opt_p (fun _ => (-5)%Z) (fun _ => 0)).
Definition opt1 (keep : bool) (f : adfun Zbase) := optimize (fun _ => 1) (fun _ => 2) 5 3 1000 1 keep f.
Lemma ex_opt_rec : match opt_f with Some f => forallb no_vecad (r_op (g_rec f)) = true /\ length (r_op (g_rec f)) = 15 | None => False end.
Proof. vm_compute. auto. Qed.
Lemma ex_opt_recorded : exists f, recorded 7 true 2 1 abs_e ex_ev opt_p (fun _ => (-5)%Z) (fun _ => 0) f.
Proof.
  pose proof ex_opt_rec as H. destruct opt_f as [f|] eqn:E; [|destruct H]. exists f. split; [discriminate|]. split; [split; intros i; cbv; discriminate|]. split; [exact E|].
  vm_compute. repeat split; auto; intros; discriminate.
Qed.
(** operators of the result, with and without the comparison, and values *)
Lemma ex_opt_values : match opt_f with Some f =>
    match opt1 true f, opt1 false f with
    | Some f1, Some f2 =>
      r_op (g_rec f1) = [BeginOp; InvOp; InvOp; MulpvOp; AddvvOp; MulvvOp; CExpOp; MulpvOp; LtvvOp; ParOp; EndOp] /\
      r_op (g_rec f2) = [BeginOp; InvOp; InvOp; MulpvOp; AddvvOp; MulvvOp; CExpOp; MulpvOp; ParOp; EndOp] /\
      length (r_dop (g_rec f)) = 4 /\ length (r_dop (g_rec f1)) = 3 /\
      match forward0 (@dyns Zbase [[3%Z]] f) [2; 1]%Z, forward0 (@dyns Zbase [[3%Z]] f1) [2; 1]%Z, forward0 (@dyns Zbase [[3%Z]] f2) [2; 1]%Z with
      | Some (y, _), Some (y1, _), Some (y2, _) => y = [324; 18; 18; 18; 6; 1]%Z /\ y1 = y /\ y2 = y
      | _, _, _ => False
      end
    | _, _ => False
    end
  | None => False end.
Proof. vm_compute. auto 10. Qed.

(** *** Not for VecAD objects: get_op_usage has no case for StvpOp and StppOp, so that (in a release build) the store of a parameter is removed
    and a load that follows it has the value before the store.  v = (10, 20, 30); v[x0] = 100; y = v[x1]. *)
Definition stvp_p : prog Z := Pstep (Ist 0 0 3) (Pstep (Ild 4 0 1) (Pret [4])).
Definition stvp_e : nat -> AD Zbase := fun i => @mkAD Zbase (match i with 0 => 2%Z | 1 => 1%Z | 2 => 4%Z | 3 => 100%Z | _ => 0%Z end) 0 0 T_con.
Notation stvp_f := (@record_fun Zbase 7 true 2 1 stvp_e ex_ev stvp_p (fun _ => (-5)%Z) (fun _ => 0)).
Theorem optimize_vecad_refuted :
  match stvp_f with
  | Some f => In StvpOp (r_op (g_rec f)) /\ match opt1 true f with
    | Some f' => match forward0 f [1; 1]%Z, forward0 f' [1; 1]%Z with Some (y, _), Some (y', _) => y = [100]%Z /\ y' = [20]%Z | _, _ => False end
    | None => False
    end
  | None => False
  end.
Proof. vm_compute. intuition. Qed.
(** v[x0] = x1; v[dyn] = 100; y = v[x1], with dyn = 1: StppOp *)
Definition stpp_p : prog Z := Pstep (Ist 0 0 1) (Pstep (Ist 0 2 3) (Pstep (Ild 4 0 1) (Pret [4]))).
Definition stpp_e : nat -> AD Zbase := fun i => @mkAD Zbase (match i with 0 => 2%Z | 1 => 1%Z | 2 => 1%Z | 3 => 100%Z | _ => 0%Z end) 0 0 T_con.
Theorem optimize_vecad_refuted' :
  match @record_fun Zbase 7 true 2 1 stpp_e ex_ev stpp_p (fun _ => (-5)%Z) (fun _ => 0) with
  | Some f => In StppOp (r_op (g_rec f)) /\
    match opt1 true f with
    | Some f' => match forward0 f [0; 1]%Z, forward0 f' [0; 1]%Z with Some (y, _), Some (y', _) => y = [100]%Z /\ y' = [20]%Z | _, _ => False end
    | None => False
    end
  | None => False
  end.
Proof. vm_compute. intuition. Qed.
