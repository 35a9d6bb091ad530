(** Properties C01, C02, C03, C05, C06, C07, C32, C36: recording an algorithm
    and replaying it with new_dynamic / Forward(0, x).

    Reading guide.  [Tape_Spec] says what the user's algorithm means in plain
    Base arithmetic ([eval], [follow], [decisions]); [Tape_Model] is the model of
    CppAD.  [record_fun tid cmp n np e ev p V l2v] is Independent( registers
    0..n-1 ; dynamic parameters n..n+np-1 ), execution of [p] in AD<Base>, and
    ADFun f(x, y).  [run f h] performs the history [h] of new_dynamic, Forward
    and compare_change_count calls on [f].  [hazard_free] (prog_ok) excludes two
    kinds of statement for which the claim is refuted at the end of this file. *)
From Coq Require Import ZArith List Bool Arith Lia.
From Verif Require Import Base_Spec Op_Model Tape_Spec Tape_Model Tape_Proof Tape_Proof2 Tape_Proof4
  Tape_Proof5 Tape_Proof6 Tape_Proof8 Tape_Val Tape_Proof10 Tape_Hist.
Import ListNotations.

(** No executed statement is pow(x, y) with x a constant that is identically
    zero and y not a constant, and no executed statement is a conditional
    expression comparing two constants whose selected branch is not a constant. *)
Definition hazard_free {b : base} := @prog_ok b.

Section Statements.
  Context {b : base} (L : base_laws b).
  Variables (tid : nat) (cmp : bool) (n np : nat)
            (e : nat -> AD b) (ev : nat -> VecAD b) (p : prog (bt b))
            (V : nat -> bt b) (l2v : nat -> nat) (f : adfun b).

  (** "f is the result of recording p with no object left over from tape tid" *)
  Definition recorded : Prop :=
    tid <> 0 /\ not_on_tape tid e ev /\
    record_fun tid cmp n np e ev p V l2v = Some f /\
    hazard_free tid p (independent tid cmp n np e ev).

  (** ** Main theorem: every zero order sweep, after every history, computes the
      values of the recorded path at the given x and the current dynamic
      parameters; it fails exactly when that path indexes a VecAD object out of
      range; and it counts exactly the comparisons whose outcome differs. *)
  Theorem forward_zero_follows_recorded_path :
    recorded -> forall h g x, Forall (sized n np) h -> run f h = Some g -> length x = n ->
    match follow p (start (base_values e ev) x (cur_dyn (dyn_values n np e) h))
                   (decisions p (base_values e ev)) with
    | Some (ys, m) => exists g', forward0 g x = Some (ys, g') /\
        (cur_cc 1 h <> 0 -> g_num g' = if cmp then m else 0)
    | None => forward0 g x = None
    end.
  Proof. intros (A & B & C & D). intros. eapply history_replay; eauto. Qed.

  (** ** C01, C02, C06, C07, C32: if the comparisons have the recorded outcomes
      then Forward(0, x) is the value of the algorithm at x and the current
      dynamic parameters. *)
  Theorem forward_zero_is_algorithm :
    recorded -> forall h g x, Forall (sized n np) h -> run f h = Some g -> length x = n ->
    let s := start (base_values e ev) x (cur_dyn (dyn_values n np e) h) in
    decisions p s = decisions p (base_values e ev) ->
    match eval p s with
    | Some ys => exists g', forward0 g x = Some (ys, g')
    | None => forward0 g x = None
    end.
  Proof.
    intros R h g x S H Hx s D.
    pose proof (forward_zero_follows_recorded_path R h g x S H Hx) as K. fold s in K.
    rewrite <- D, follow_eval in K. destruct (eval p s); auto.
    destruct K as (g' & K & _). eauto.
  Qed.

  (** ** C05: compare_change_number is 0 exactly when all comparisons have the
      recorded outcome, and then the value is the value of the algorithm. *)
  Theorem compare_change_zero_iff :
    recorded -> forall h g x ys g', Forall (sized n np) h -> run f h = Some g -> length x = n ->
    cmp = true -> cur_cc 1 h <> 0 -> forward0 g x = Some (ys, g') ->
    let s := start (base_values e ev) x (cur_dyn (dyn_values n np e) h) in
    (g_num g' = 0 <-> decisions p s = decisions p (base_values e ev)) /\
    (g_num g' = 0 -> eval p s = Some ys).
  Proof.
    intros R h g x ys g' S H Hx Hcmp Hc F s.
    pose proof (forward_zero_follows_recorded_path R h g x S H Hx) as K. fold s in K.
    destruct (follow p s (decisions p (base_values e ev))) as [[zs m]|] eqn:E.
    - destruct K as (g2 & K & N). rewrite F in K. injection K as <- <-. rewrite (N Hc), Hcmp.
      split; [eapply follow_zero; eauto|]. intros ->. eapply follow_same; eauto.
    - rewrite F in K. discriminate.
  Qed.

  (** ** Well-formed recording: it decodes, every index is in range (variables
      used are results of earlier operators, parameters exist), dependents are
      variables of the tape. *)
  Theorem recording_is_well_formed :
    recorded -> exists l, decode (r_op (g_rec f)) (r_arg (g_rec f)) 0 = Some l /\
      Forall (wf_ins (length (r_par (g_rec f)))) l /\
      r_nvar (g_rec f) = nres (r_op (g_rec f)) /\
      Forall (fun t => 0 < t < r_nvar (g_rec f)) (g_dep f).
  Proof. intros (A & B & C & D). eapply (wf_rec L tid A); eauto; apply B. Qed.
End Statements.

(** Algorithms without pow and conditional expressions need no side condition. *)
Theorem forward_zero_simple :
  forall (b : base), base_laws b ->
  forall tid cmp n np (e : nat -> AD b) ev p V l2v f, tid <> 0 -> not_on_tape tid e ev ->
  record_fun tid cmp n np e ev p V l2v = Some f -> simple p = true ->
  forall h g x, Forall (sized n np) h -> run f h = Some g -> length x = n ->
  let s := start (base_values e ev) x (cur_dyn (dyn_values n np e) h) in
  decisions p s = decisions p (base_values e ev) ->
  match eval p s with
  | Some ys => exists g', forward0 g x = Some (ys, g')
  | None => forward0 g x = None
  end.
Proof.
  intros b L tid cmp n np e ev p V l2v f Ht Hn Hr Hs h g x S Hrun Hx s D.
  refine (forward_zero_is_algorithm L tid cmp n np e ev p V l2v f _ h g x S Hrun Hx D).
  split; [exact Ht|split; [exact Hn|split; [exact Hr|]]]. exact (simple_ok tid p _ Hs).
Qed.

(** Recording itself meets a failure exactly when the algorithm in Base
    arithmetic does, at the recording point. *)
Theorem recording_fails_iff_algorithm_fails :
  forall (b : base), base_laws b ->
  forall tid cmp n np (e : nat -> AD b) ev p V l2v,
  record_fun tid cmp n np e ev p V l2v = None <-> eval p (base_values e ev) = None.
Proof.
  intros b L tid cmp n np e ev p V l2v. unfold record_fun.
  pose proof (exec_vals L tid p _ _ (vals0 tid cmp n np e ev)) as H.
  unfold base_values. destruct (exec _ _ _) as [[r dep]|].
  - destruct H as [ys H]. rewrite H. split; discriminate.
  - split; auto.
Qed.

(** ** C03: value and kind of the result of an operation *)
Theorem ad_result_value :
  forall (b : base), base_laws b -> forall tid (r : rec b),
  (forall o x y, a_val (snd (ad_bin tid o r x y)) = b_bin o (a_val x) (a_val y)) /\
  (forall o x y, a_val (snd (ad_eq tid o r x y)) = b_bin (eqop_bin o) (a_val x) (a_val y)) /\
  (forall u x, a_val (snd (ad_un tid u r x)) = b_un u (a_val x)) /\
  (forall k x, a_val (snd (ad_dis tid k r x)) = b_dis k (a_val x)) /\
  (forall c l rt t f, a_val (snd (ad_cond tid c r l rt t f))
      = if b_cmp (cexp_cmp c) (a_val l) (a_val rt) then a_val t else a_val f) /\
  (forall c x y, snd (ad_cmp tid c r x y) = b_cmp c (a_val x) (a_val y)).
Proof.
  intros b L tid r.
  split; [intros; now apply ad_bin_val|split; [intros; now apply ad_eq_val|split; [intros; now apply ad_un_val|
  split; [intros; now apply ad_dis_val|split; [intros; now apply ad_cond_val|intros; now apply ad_cmp_val]]]]].
Qed.

(** variable only if an operand is a variable; dynamic only if no operand is a
    variable and one is dynamic *)
Theorem ad_result_kind :
  forall (b : base) tid (r : rec b), tid <> 0 ->
  (forall o x y, kind_le tid (snd (ad_bin tid o r x y)) [x; y]) /\
  (forall o x y, kind_le tid (snd (ad_eq tid o r x y)) [x; y]) /\
  (forall u x, kind_le tid (snd (ad_un tid u r x)) [x]) /\
  (forall k x, kind_le tid (snd (ad_dis tid k r x)) [x]) /\
  (forall c l rt t f, kind_le tid (snd (ad_cond tid c r l rt t f)) [l; rt; t; f]) /\
  (forall o x y, is_var tid x = false -> is_dyn tid x = false -> is_var tid y = false -> is_dyn tid y = false ->
     ad_bin tid o r x y = (r, con_ad (b_bin o (a_val x) (a_val y)))).
Proof.
  intros b tid r H.
  split; [intros; now apply ad_bin_kind|split; [intros; now apply ad_eq_kind|split; [intros; now apply ad_un_kind|
  split; [intros; now apply ad_dis_kind|split; [intros; now apply ad_cond_kind|intros; now apply ad_bin_const]]]]].
Qed.

(** ** C36: constant parameters *)
Theorem put_con_par_contract :
  forall (b : base) (r r' : rec b) v i, length (r_isdyn r) = length (r_par r) ->
  put_con_par r v = (r', i) ->
  (exists w, nth_error (r_par r') i = Some w /\ (w = v \/ ideq w v = true)) /\
  nth i (r_isdyn r') true = false /\
  (forall j, j < length (r_par r) -> nth_error (r_par r') j = nth_error (r_par r) j /\
                                     nth_error (r_isdyn r') j = nth_error (r_isdyn r) j) /\
  length (r_isdyn r') = length (r_par r') /\ length (r_par r') <= S (length (r_par r)).
Proof.
  intros b r r' v i Hl H. unfold put_con_par in H.
  destruct ((0 <? r_hash r (bhash v)) && (r_hash r (bhash v) <? length (r_par r))
    && negb (nth (r_hash r (bhash v)) (r_isdyn r) false)
    && ideq (nth (r_hash r (bhash v)) (r_par r) bnan) v) eqn:E; injection H as <- <-.
  - apply andb_true_iff in E as [E E4]. apply andb_true_iff in E as [E E3].
    apply andb_true_iff in E as [E1 E2]. apply Nat.ltb_lt in E2. apply negb_true_iff in E3.
    split; [|split; [|split; [auto|split; [auto|lia]]]].
    + eexists. split; [apply (nth_error_nth' _ bnan); auto|auto].
    + rewrite (nth_indep _ _ false) by lia. auto.
  - cbn. split; [|split; [|split; [|split]]].
    + exists v. split; auto. rewrite nth_error_app2, Nat.sub_diag by lia. auto.
    + rewrite <- Hl, app_nth2, Nat.sub_diag by lia. auto.
    + intros j Hj. rewrite !nth_error_app1 by lia. auto.
    + rewrite !app_length. cbn. lia.
    + rewrite app_length. cbn. lia.
Qed.

(* ------------------------------------------------------------------------ *)
(** ** Non-vacuity: a concrete recording in exact integer arithmetic with two
    independent variables, a dynamic parameter, a VecAD object indexed by a
    variable, a conditional expression, pow, azmul and a comparison. *)
Definition ex_e : nat -> AD Zbase := fun i =>
  @mkAD Zbase (match i with 0 => 2%Z | 1 => 1%Z | 2 => 4%Z | 3 => 3%Z | _ => 0%Z end) 0 0 T_con.
Definition ex_ev : nat -> VecAD Zbase := fun _ => @mkVec Zbase [10; 20; 30]%Z 0 0 T_con.
Definition ex_p : prog Z :=
  Pstep (Ibin Bmul 4 0 2) (                 (* r4 = x0 * dyn            *)
  Pstep (Ibin Badd 5 2 3) (                 (* r5 = dyn + 3   (dynamic) *)
  Pstep (Ist 0 1 4) (                       (* v[x1] = r4               *)
  Pstep (Ild 6 0 0) (                       (* r6 = v[x0]               *)
  Pstep (Ibin Bpow 7 0 1) (                 (* r7 = pow(x0, x1)         *)
  Pstep (Icond XLt 8 0 1 4 6) (             (* r8 = x0 < x1 ? r4 : r6   *)
  Pstep (Ibin Bazmul 9 4 5) (               (* r9 = azmul(r4, r5)       *)
  Pif Clt 1 4                               (* if( x1 < r4 )            *)
    (Pret [6; 7; 8; 9; 5])
    (Pret [4])))))))).

Definition ex_run (h : list (call Zbase)) (x : list Z) : option (list Z * nat) :=
  match @record_fun Zbase 7 true 2 1 ex_e ex_ev ex_p (fun _ => (-5)%Z) (fun _ => 0) with
  | Some f => match run f h with
              | Some g => match forward0 g x with
                          | Some (ys, g') => Some (ys, g_num g')
                          | None => None
                          end
              | None => None
              end
  | None => None
  end.
Example ex_same : ex_run [] [2; 1]%Z = Some ([30; 2; 30; 56; 7]%Z, 0).
Proof. vm_compute. reflexivity. Qed.
(** the load now meets the stored element, the other branch is selected and
    the dynamic parameters have changed *)
Example ex_new : ex_run [@Forward0 Zbase [1; 0]%Z; @NewDynamic Zbase [9]%Z] [1; 1]%Z = Some ([9; 1; 9; 108; 12]%Z, 0).
Proof. vm_compute. reflexivity. Qed.
Example ex_new_alg :
  @eval Zbase ex_p (start (base_values ex_e ex_ev) [1; 1]%Z [9]%Z) = Some [9; 1; 9; 108; 12]%Z.
Proof. vm_compute. reflexivity. Qed.
(** a comparison changes: the recorded path is followed and the change counted *)
Example ex_change : ex_run [@NewDynamic Zbase [(-3)]%Z] [2; 0]%Z = Some ([30; 1; 30; 0; 0]%Z, 1).
Proof. vm_compute. reflexivity. Qed.
(** out of range index in the replay *)
Example ex_range : ex_run [] [3; 1]%Z = None.
Proof. vm_compute. reflexivity. Qed.
Example ex_recorded : exists f, recorded 7 true 2 1 ex_e ex_ev ex_p (fun _ => (-5)%Z) (fun _ => 0) f.
Proof.
  destruct (@record_fun Zbase 7 true 2 1 ex_e ex_ev ex_p (fun _ => (-5)%Z) (fun _ => 0)) as [f|] eqn:E.
  - exists f. split; [discriminate|split; [split; intros i; cbv; discriminate|split; [exact E|]]].
    vm_compute. repeat (split; [first [exact I|discriminate]|]). first [exact I|discriminate].
  - vm_compute in E. discriminate.
Qed.

(* ------------------------------------------------------------------------ *)
(** ** The two exclusions are necessary. *)

(** pow(x, y) with x an identically zero constant and y a variable is recorded
    as a constant (core/pow.hpp:181-185): replay at y = 0 returns 0, the
    algorithm has value 0^0 = 1. *)
Definition pow_p : prog Z := Pstep (Ibin Bpow 2 1 0) (Pret [2]).
Definition pow_e : nat -> AD Zbase := fun i => @mkAD Zbase (match i with 0 => 3%Z | _ => 0%Z end) 0 0 T_con.
Theorem pow_constant_zero_refuted :
  exists (f : adfun Zbase) g', @record_fun Zbase 7 true 1 0 pow_e ex_ev pow_p (fun _ => 0%Z) (fun _ => 0) = Some f /\
    forward0 f [0]%Z = Some ([0]%Z, g') /\
    @eval Zbase pow_p (start (base_values pow_e ex_ev) [0]%Z []) = Some [1]%Z.
Proof.
  destruct (@record_fun Zbase 7 true 1 0 pow_e ex_ev pow_p (fun _ => 0%Z) (fun _ => 0)) as [f|] eqn:E;
    [|vm_compute in E; discriminate].
  exists f. injection E as <-. eexists. split; [reflexivity|]. split; [vm_compute; reflexivity|].
  vm_compute. reflexivity.
Qed.

(** CondExpLt(left, right, if_true, if_false) with constant left and right is a
    constant even when the selected branch is a variable
    (core/cond_exp.hpp:175-180): the result does not depend on x. *)
Definition cond_p : prog Z := Pstep (Icond XLt 3 1 2 0 1) (Pret [3]).
Definition cond_e : nat -> AD Zbase := fun i => @mkAD Zbase (match i with 0 => 3%Z | 1 => 0%Z | _ => 1%Z end) 0 0 T_con.
Theorem cond_exp_constant_refuted :
  exists (f : adfun Zbase) g', @record_fun Zbase 7 true 1 0 cond_e ex_ev cond_p (fun _ => 0%Z) (fun _ => 0) = Some f /\
    forward0 f [5]%Z = Some ([3]%Z, g') /\
    @eval Zbase cond_p (start (base_values cond_e ex_ev) [5]%Z []) = Some [5]%Z.
Proof.
  destruct (@record_fun Zbase 7 true 1 0 cond_e ex_ev cond_p (fun _ => 0%Z) (fun _ => 0)) as [f|] eqn:E;
    [|vm_compute in E; discriminate].
  exists f. injection E as <-. eexists. split; [reflexivity|]. split; [vm_compute; reflexivity|].
  vm_compute. reflexivity.
Qed.

Print Assumptions forward_zero_follows_recorded_path.
Print Assumptions forward_zero_is_algorithm.
Print Assumptions compare_change_zero_iff.
Print Assumptions recording_is_well_formed.
Print Assumptions forward_zero_simple.
Print Assumptions recording_fails_iff_algorithm_fails.
Print Assumptions ad_result_value.
Print Assumptions ad_result_kind.
Print Assumptions put_con_par_contract.
Print Assumptions pow_constant_zero_refuted.
Print Assumptions cond_exp_constant_refuted.
