(** Property C05: compare_change_op_index reports the count-th changed comparison.
    The relation recorded by each comparison operator is stated here directly, in terms of the Base comparisons, not of the code that detects the change. *)
From Coq Require Import ZArith List Bool Arith Lia.
From Verif Require Import Base_Spec Op_Model Tape_Spec Tape_Model Tape_Proof Tape_Proof2 Tape_Swf Tape_Proof10 Tape_Hist Tape_Prop Sweep_Tape Sweep_Uniq Spar_Proof Spar_Proof2 Spar_Proof3 Rev_Prim Abs_Proof Abs_Proof3 Abs_Prop Opt_Proof6.
Import ListNotations.

(** *** Specification *)
Section Spec.
  Context {b : base}.
  Notation T := (bt b).
  (** The relation between parameters [P] and variables [V] that the comparison operator asserts (op_code_var.hpp, comp_op.hpp: every recorded comparison is a true relation); None for another operator. *)
  Definition relation (P V : nat -> T) (i : ins) : option bool :=
    let l := nth 0 (i_arg i) 0 in
    let r := nth 1 (i_arg i) 0 in
    match i_op i with
    | EqppOp => Some (b_cmp Ceq (P l) (P r)) | EqpvOp => Some (b_cmp Ceq (P l) (V r)) | EqvvOp => Some (b_cmp Ceq (V l) (V r))
    | NeppOp => Some (b_cmp Cne (P l) (P r)) | NepvOp => Some (b_cmp Cne (P l) (V r)) | NevvOp => Some (b_cmp Cne (V l) (V r))
    | LtppOp => Some (b_cmp Clt (P l) (P r)) | LtpvOp => Some (b_cmp Clt (P l) (V r)) | LtvpOp => Some (b_cmp Clt (V l) (P r)) | LtvvOp => Some (b_cmp Clt (V l) (V r))
    | LeppOp => Some (b_cmp Cle (P l) (P r)) | LepvOp => Some (b_cmp Cle (P l) (V r)) | LevpOp => Some (b_cmp Cle (V l) (P r)) | LevvOp => Some (b_cmp Cle (V l) (V r))
    | _ => None
    end.
  (** the positions, from [k], of the relations that do not hold, in the order of the operation sequence *)
  Fixpoint changed (P V : nat -> T) (k : nat) (l : list ins) : list nat :=
    match l with
    | [] => []
    | i :: l' => match relation P V i with Some false => [k] | _ => [] end ++ changed P V (S k) l'
    end.
  Lemma changed_spec P V l : forall k j, In j (changed P V k l) <-> exists i, k <= j /\ nth_error l (j - k) = Some i /\ relation P V i = Some false.
  Proof.
    induction l as [|i l IH]; intros k j; cbn [changed].
    - split; [easy|]. intros (i & _ & E & _). destruct (j - k); discriminate.
    - rewrite in_app_iff, IH. split.
      + intros [H|(i' & A & B & C)].
        * destruct (relation P V i) as [[|]|] eqn:E; cbn in H; try easy. destruct H as [<-|[]]. exists i. rewrite Nat.sub_diag. cbn. auto.
        * exists i'. split; [lia|]. replace (j - k) with (S (j - S k)) by lia. auto.
      + intros (i' & A & B & C). destruct (Nat.eq_dec j k) as [->|N].
        * rewrite Nat.sub_diag in B. injection B as <-. rewrite C. cbn. auto.
        * right. exists i'. split; [lia|]. replace (j - k) with (S (j - S k)) in B by lia. auto.
  Qed.
End Spec.

Section CmpIdx.
  Context {b : base} (L : base_laws b).
  Notation T := (bt b).
  Lemma change_relation (P V : nat -> T) i : cmp_change (i_op i) (i_arg i) P V = option_map negb (relation P V i).
  Proof.
    unfold relation. destruct i as [o a iv]. cbn [i_op i_arg]. destruct o; try reflexivity; cbn [cmp_change option_map]; f_equal;
      rewrite ?(l_gtz b L), ?(l_gez b L), ?(l_ne b L), ?(l_total b L), ?negb_involutive; reflexivity.
  Qed.
  Lemma step0_opi (P : nat -> T) cc i k (s t : fst0 b) : okop (i_op i) = true -> step0 P cc i k s = Some t ->
    match relation P (f_V s) i with
    | Some false => cc <> 0 -> f_num t = S (f_num s) /\ f_opi t = (if S (f_num s) =? cc then k else f_opi s)
    | _ => f_num t = f_num s /\ f_opi t = f_opi s
    end.
  Proof.
    intros OK H. pose proof (change_relation P (f_V s) i) as R. destruct i as [o a iv]. cbn [i_op i_arg] in *. unfold step0 in H. cbn zeta in H.
    destruct (sem0 o a P (f_V s)) as [res|] eqn:S0.
    { assert (cmp_change o a P (f_V s) = None) as E by (destruct o; try reflexivity; discriminate). rewrite E in R. destruct (relation _ _ _); [discriminate|]. injection H as <-. cbn. auto. }
    rewrite R in H. destruct (relation P (f_V s) _) as [[|]|]; cbn [option_map negb] in H.
    - rewrite orb_true_r in H. injection H as <-. auto.
    - intros C. apply Nat.eqb_neq in C. rewrite C in H. cbn [orb] in H. injection H as <-. cbn. auto.
    - destruct o; try discriminate; try (injection H as <-; cbn; auto; fail); (destruct (index_of _ _) as [j|]; [|discriminate]); injection H as <-; cbn; auto.
  Qed.
  Lemma sweep0_opi (P : nat -> T) np cc l : cc <> 0 -> forall nv nl k seen (s t : fst0 b), wfl np nv nl l -> sok seen nl l -> (forall j, f_skip s j = false) ->
    sweep0 P cc l k s = Some t ->
    let ch := changed P (f_V t) k l in
    f_num t = f_num s + length ch /\
    f_opi t = (if (f_num s <? cc) && (cc <=? f_num s + length ch) then nth (cc - 1 - f_num s) ch 0 else f_opi s).
  Proof.
    intros C0. induction l as [|i l IH]; intros nv nl k seen s t W SO HS H; cbn [sweep0] in H; cbv zeta.
    - injection H as <-. cbn [changed length]. rewrite Nat.add_0_r. split; auto. destruct (Nat.ltb_spec (f_num s) cc), (Nat.leb_spec cc (f_num s)); cbn [andb]; auto; lia.
    - pose proof H as H0. rewrite HS in H. destruct (step0 P cc i k s) as [s1|] eqn:S1; [|discriminate].
      pose proof SO as (OK & _ & _ & SO2). pose proof W as (Hiv & W1 & _ & _ & _ & W2).
      assert (f_skip s1 = f_skip s) as K by (destruct i; apply (step0_cases P cc _ _ _ k s s1 OK S1)).
      destruct (IH _ _ (S k) _ s1 t W2 SO2 ltac:(intros; now rewrite K) H) as [N O]. cbv zeta in N, O.
      assert (relation P (f_V t) i = relation P (f_V s) i) as E.
      { destruct (sweep0_frame P np cc (i :: l) _ _ k _ s t W SO HS ltac:(cbn [sweep0]; rewrite HS, S1; exact H)) as [F _].
        pose proof (cmp_change_ext P (i_op i) (i_arg i) (f_V t) (f_V s)) as X. rewrite !change_relation in X.
        assert (option_map negb (relation P (f_V t) i) = option_map negb (relation P (f_V s) i)) as Y.
        { apply X. intros v Hv. apply F. destruct W1 as (A & _). rewrite Forall_forall in A. specialize (A v Hv). lia. }
        destruct (relation P (f_V t) i) as [[|]|], (relation P (f_V s) i) as [[|]|]; cbn in Y; congruence. }
      pose proof (step0_opi P cc i k s s1 OK S1) as D. cbn [changed]. rewrite E. destruct (relation P (f_V s) i) as [[|]|].
      1, 3: destruct D as [D1 D2]; rewrite D1, D2 in *; cbn [app]; auto.
      destruct (D C0) as [D1 D2]. rewrite D1, D2 in *. cbn [app length]. split; [lia|]. rewrite O. clear -C0.
      set (m := length _). set (c := changed _ _ _ _).
      destruct (Nat.eqb_spec (S (f_num s)) cc) as [Q|Q].
      + subst cc. replace (S (f_num s) - 1 - f_num s) with 0 by lia. cbn [nth].
        destruct (Nat.ltb_spec (S (f_num s)) (S (f_num s))), (Nat.ltb_spec (f_num s) (S (f_num s))), (Nat.leb_spec (S (f_num s)) (f_num s + S m)); cbn [andb]; auto; lia.
      + destruct (Nat.ltb_spec (S (f_num s)) cc), (Nat.ltb_spec (f_num s) cc), (Nat.leb_spec cc (S (f_num s) + m)), (Nat.leb_spec cc (f_num s + S m)); cbn [andb]; auto; try lia.
        replace (cc - 1 - f_num s) with (S (cc - 1 - S (f_num s))) by lia. reflexivity.
  Qed.

  Variables (tid : nat) (cmp : bool) (n np : nat) (e : nat -> AD b) (ev : nat -> VecAD b) (p : prog T) (V : nat -> T) (l2v : nat -> nat) (f0 f : adfun b) (h : list (call b)).
  (** After every history of calls and every Forward(0, x): compare_change_number is the number of recorded relations that do not hold for the new values of the variables and the current dynamic parameters,
      and compare_change_op_index is the position in the operation sequence of the count-th of them, 0 when there are fewer. *)
  Theorem compare_change_op_index_is x y f' : recorded tid cmp n np e ev p V l2v f0 -> run f0 h = Some f -> cur_cc 1 h <> 0 -> forward0 f x = Some (y, f') ->
    exists l, decode (r_op (g_rec f0)) (r_arg (g_rec f0)) 0 = Some l /\ map i_op l = r_op (g_rec f0) /\
      let ch := changed (g_par f') (g_V f') 0 l in
      g_num f' = length ch /\ g_opi f' = nth (cur_cc 1 h - 1) ch 0.
  Proof.
    intros R H C F. destruct (recorded_rtape L _ _ _ _ _ _ _ _ _ _ R) as [[D Wf SO _ _ _ _] _]. set (l := body n (g_rec f0)) in *.
    exists (head_ins n ++ l). split; [exact D|]. split; [exact (dec_ops _ _ _ _ D)|]. cbv zeta.
    destruct R as (T0 & NT & RF & HF). pose proof NT as [NE NV]. destruct (rec_exec tid cmp n np e ev p V l2v f0 RF) as (EX & _ & HP & CC & _).
    assert (g_rec f = g_rec f0) as GR.
    { assert (dwf (g_rec f0)) as WF by (eapply (dwf_rec tid T0); eauto). destruct (run_inv h f0 f H) as (G1 & _); [now apply w_isd|rewrite HP; apply parok0|]. exact G1. }
    pose proof (run_cc h f0 f H) as RC. rewrite CC in RC.
    unfold forward0 in F. rewrite GR, D in F. cbv zeta in F.
    destruct (sweep0 _ _ _ _ _) as [t|] eqn:S; [|discriminate]. injection F as <- <-. cbn [g_par g_V g_num g_opi]. rewrite RC in S.
    rewrite sweep0_app, sweep0_head in S by (intros; reflexivity). rewrite ?Nat.add_0_l in S.
    match type of S with sweep0 _ _ _ _ ?i = _ => pose proof (sweep0_opi (g_par f) (length (r_par (g_rec f0))) (cur_cc 1 h) l C (Datatypes.S n) 0 (length (head_ins n)) (seq 1 n) i t Wf SO (fun _ => eq_refl) S) as [N O] end.
    cbn [init0 f_num f_opi Nat.add] in N, O.
    assert (changed (g_par f) (f_V t) 0 (head_ins n ++ l) = changed (g_par f) (f_V t) (length (head_ins n)) l) as E.
    { assert (forall A B k, Forall (fun i => relation (g_par f) (f_V t) i = None) A -> changed (g_par f) (f_V t) k (A ++ B) = changed (g_par f) (f_V t) (k + length A) B) as X.
      { clear. induction A as [|i A IH]; intros B k Q; cbn [app length changed]; [now rewrite Nat.add_0_r|]. inversion Q as [|? ? Q1 Q2]; subst. rewrite Q1, IH by auto. cbn [app]. f_equal. lia. }
      rewrite X; [reflexivity|]. unfold head_ins. constructor; [reflexivity|]. apply Forall_map, Forall_forall. reflexivity. }
    rewrite E. split; [exact N|]. rewrite O. destruct (Nat.ltb_spec 0 (cur_cc 1 h)) as [_|]; [|lia]. cbn [andb].
    destruct (Nat.leb_spec (cur_cc 1 h) (length (changed (g_par f) (f_V t) (length (head_ins n)) l))) as [LE|LT]; [now rewrite Nat.sub_0_r|].
    symmetry. apply nth_overflow. lia.
  Qed.
  (** ... and the list has as many elements as the algorithm takes comparisons with another outcome. *)
  Theorem compare_change_op_index_count x y f' : recorded tid cmp n np e ev p V l2v f0 -> Forall (sized n np) h -> run f0 h = Some f -> length x = n -> cmp = true -> cur_cc 1 h <> 0 -> forward0 f x = Some (y, f') ->
    exists l m, decode (r_op (g_rec f0)) (r_arg (g_rec f0)) 0 = Some l /\
      follow p (start (base_values e ev) x (cur_dyn (dyn_values n np e) h)) (decisions p (base_values e ev)) = Some (y, m) /\
      length (changed (g_par f') (g_V f') 0 l) = m /\
      g_opi f' = nth (cur_cc 1 h - 1) (changed (g_par f') (g_V f') 0 l) 0.
  Proof.
    intros R S H Hx Hc C F. destruct (compare_change_op_index_is x y f' R H C F) as (l & D & _ & N & O).
    pose proof (forward_zero_follows_recorded_path L _ _ _ _ _ _ _ _ _ _ R h f x S H Hx) as K.
    destruct (follow _ _ _) as [[zs m]|]; [|congruence]. destruct K as (g2 & K & M). rewrite F in K. injection K as <- <-.
    exists l, m. rewrite <- N, (M C), Hc. auto.
  Qed.
End CmpIdx.

(** *** A concrete case: x0 < x1, x0 <= dyn, not x1 == x0, dyn < x0, recorded at x = (2, 3), dyn = 2: positions 3, 4, 5, 6 of the operation sequence *)
Definition ci_p : prog Z :=
  Pif Clt 0 1 (Pif Cle 0 2 (Pif Ceq 1 0 (Pret [0]) (Pif Clt 2 0 (Pret [1]) (Pret [0; 1; 2]))) (Pret [1])) (Pret [1]).
Definition ci_e (i : nat) : AD Zbase := @mkAD Zbase (match i with 0 => 2%Z | 1 => 3%Z | 2 => 2%Z | _ => 0%Z end) 0 0 T_con.
Definition ci_run (h : list (call Zbase)) (x : list Z) : option (list Z * nat * nat) :=
  match @record_fun Zbase 7 true 2 1 ci_e (fun _ => @mkVec Zbase [] 0 0 T_con) ci_p (fun _ => (-5)%Z) (fun _ => 0) with
  | Some f => match run f h with
              | Some g => match forward0 g x with Some (ys, g') => Some (ys, g_num g', g_opi g') | None => None end
              | None => None end
  | None => None end.
Lemma ci_ops : match @record_fun Zbase 7 true 2 1 ci_e (fun _ => @mkVec Zbase [] 0 0 T_con) ci_p (fun _ => (-5)%Z) (fun _ => 0) with
  | Some f => r_op (g_rec f) = [BeginOp; InvOp; InvOp; LtvvOp; LevpOp; NevvOp; LevpOp; ParOp; EndOp] | None => False end.
Proof. vm_compute. reflexivity. Qed.
Lemma ci_values :
  ci_run [] [2; 3]%Z = Some ([2; 3; 2]%Z, 0, 0) /\
  ci_run [] [3; 3]%Z = Some ([3; 3; 2]%Z, 4, 3) /\
  ci_run [CompareCount 2] [3; 3]%Z = Some ([3; 3; 2]%Z, 4, 4) /\
  ci_run [CompareCount 3] [3; 3]%Z = Some ([3; 3; 2]%Z, 4, 5) /\
  ci_run [CompareCount 5] [3; 3]%Z = Some ([3; 3; 2]%Z, 4, 0) /\
  ci_run [@NewDynamic Zbase [1]%Z; CompareCount 2] [0; 0]%Z = Some ([0; 0; 1]%Z, 2, 5).
Proof. repeat split; vm_compute; reflexivity. Qed.
Lemma ci_recorded : exists f, recorded 7 true 2 1 ci_e (fun _ => @mkVec Zbase [] 0 0 T_con) ci_p (fun _ => (-5)%Z) (fun _ => 0) f.
Proof. eexists. split; [discriminate|]. split; [split; intros i; cbn; discriminate|]. split; [vm_compute; reflexivity|]. vm_compute. auto. Qed.
Print Assumptions compare_change_op_index_is.
Print Assumptions compare_change_op_index_count.
