(** C17, C32: concrete recordings that meet the hypotheses of Sub_Prop and Zero_Prop, and the
    failure of the subgraph calculations for functions that read VecAD elements. *)
From Coq Require Import ZArith List Bool Arith Lia Sorted.
From Verif Require Import Base_Spec Op_Model Tape_Spec Tape_Model Tape_Proof Tape_Proof2 Tape_Hist Tape_Prop Sweep_Model Sweep_Eqs Sweep_Tape
  Drv_Spec Drv_Model Drv_Prop Rev_Zero Sub_Spec Sub_Model Sub_Prop Zero_Prop.
Import ListNotations.

Lemma zero_laws_Z : zero_laws Zbase Z.of_nat.
Proof.
  split; intros; cbn; try lia; auto.
Qed.

(** y0 = (x0 * x1) * (x0 * x1), y1 = x1 + x2, y2 = x2 *)
Definition sb_e : nat -> AD Zbase := fun i => @mkAD Zbase (match i with 0 => 2%Z | 1 => 3%Z | 2 => 5%Z | _ => 7%Z end) 0 0 T_con.
Definition sb_p : prog Z :=
  Pstep (Ibin Bmul 4 0 1) (Pstep (Ibin Bmul 5 4 4) (Pstep (Ibin Badd 6 1 2) (Pret [5; 6; 2]))).
Notation sb_f := (@record_fun Zbase 7 true 3 0 sb_e ex_ev sb_p (fun _ => 0%Z) (fun _ => 0)).
Example sb_recorded : exists f, sb_f = Some f /\ recorded 7 true 3 0 sb_e ex_ev sb_p (fun _ => 0%Z) (fun _ => 0) f.
Proof.
  destruct sb_f as [f|] eqn:E.
  - exists f. split; auto. split; [discriminate|split; [split; intros i; cbv; discriminate|split; [|]]]; [exact E|].
    vm_compute. repeat (split; [first [exact I|discriminate]|]). first [exact I|discriminate].
  - vm_compute in E. discriminate.
Qed.
Notation sb_run h :=
  (match sb_f with Some f => @srun Zbase Z.of_nat zjunk (@drv_of Zbase zjunk f, None) h | None => None end) (only parsing).
Definition sb_rev (h : list (scall Zbase)) (q ell : nat) : option (list nat * list Z) :=
  match sb_run h with
  | Some (g, Some s) => match @subgraph_reverse Zbase Z.of_nat g s q ell (fun _ _ => (-99)%Z) (repeat (-55)%Z (3 * q)) with
                        | Some (col, dw, _) => Some (col, dw) | None => None end
  | _ => None
  end.
Definition sb_h : list (scall Zbase) := [@SDrv Zbase (CFor 0 [2; 3; 5]%Z); @SSel Zbase [true; true; true]].
Example sb_rev0 : sb_rev sb_h 1 0 = Some ([0; 1], [36; 24; -55]%Z).
Proof. vm_compute. reflexivity. Qed.
Example sb_rev1 : sb_rev (sb_h ++ [@SRev Zbase 1 0 (fun _ _ => 3%Z) []]) 1 1 = Some ([1; 2], [-55; 1; 1]%Z).
Proof. vm_compute. reflexivity. Qed.
(** a component is used only once *)
Example sb_rev_twice : sb_rev (sb_h ++ [@SRev Zbase 1 0 (fun _ _ => 3%Z) []]) 1 0 = None.
Proof. vm_compute. reflexivity. Qed.
(** only the selected variables *)
Example sb_rev_sel : sb_rev (sb_h ++ [@SSel Zbase [false; true; true]]) 1 0 = Some ([1], [-55; 24; -55]%Z).
Proof. vm_compute. reflexivity. Qed.
(** second order *)
Example sb_rev2 : sb_rev (sb_h ++ [@SDrv Zbase (CFor 1 [1; 0; 0]%Z)]) 2 0 = Some ([0; 1], [18; 36; 24; 24; -55; -55]%Z).
Proof. vm_compute. reflexivity. Qed.
Example sb_spar : match sb_f with Some f => option_map fst (@subgraph_sparsity Zbase (g_rec f) (g_n f) (g_dep f) [true; true; true] [true; false; true] false) | None => None end
  = Some [(0, 0); (0, 1); (2, 2)].
Proof. vm_compute. reflexivity. Qed.

Definition sb_good (f : adfun Zbase) (g : adq Zbase) : bool :=
  match decode (r_op (g_rec f)) (r_arg (g_rec f)) 0 with
  | Some l => forallb (fun i => negb (is_load (i_op i)) && match i_op i with PowvpOp => false | _ => true end) l
  | None => false
  end.
Lemma sb_good_ok f g l : decode (r_op (g_rec f)) (r_arg (g_rec f)) 0 = Some l -> sb_good f g = true ->
  (forall i, In i l -> is_load (i_op i) = false) /\ (forall V i, In i l -> @pow_ins Zbase V i).
Proof.
  intros D H. unfold sb_good in H. rewrite D in H. rewrite forallb_forall in H. split.
  - intros i Hi. specialize (H i Hi). destruct (is_load (i_op i)); auto.
  - intros V i Hi. specialize (H i Hi). intros O. rewrite O in H. discriminate H.
Qed.

(** the hypotheses of [subgraph_reverse_is_reverse] are met, with a non-trivial result *)
Example sb_hypotheses : exists f l g s col dw s',
  recorded 7 true 3 0 sb_e ex_ev sb_p (fun _ => 0%Z) (fun _ => 0) f /\
  decode (r_op (g_rec f)) (r_arg (g_rec f)) 0 = Some l /\
  @srun Zbase Z.of_nat zjunk (@drv_of Zbase zjunk f, None) sb_h = Some (g, Some s) /\
  selected sb_h = Some [true; true; true] /\
  (forall i, In i l -> is_load (i_op i) = false) /\ (forall i, In i l -> pow_ins (view1 g) i) /\
  @subgraph_reverse Zbase Z.of_nat g s 1 0 (fun _ _ => (-99)%Z) [] = Some (col, dw, s') /\ col = [0; 1].
Proof.
  destruct sb_recorded as (f & E & R).
  destruct (decode (r_op (g_rec f)) (r_arg (g_rec f)) 0) as [l|] eqn:D.
  2: { exfalso. assert (match sb_f with Some f => decode (r_op (g_rec f)) (r_arg (g_rec f)) 0 | None => None end = None) as K by (now rewrite E). vm_compute in K. discriminate. }
  destruct (sb_run sb_h) as [[g [s|]]|] eqn:RR.
  2, 3: exfalso; assert (match sb_run sb_h with Some (_, Some _) => true | _ => false end = false) as K by (now rewrite RR); vm_compute in K; discriminate.
  assert (match sb_run sb_h with Some (g, Some s) => match @subgraph_reverse Zbase Z.of_nat g s 1 0 (fun _ _ => (-99)%Z) [] with Some (col, dw, _) => Some col | _ => None end | _ => None end = Some [0; 1]) as K by (vm_compute; reflexivity).
  rewrite RR in K. destruct (@subgraph_reverse Zbase Z.of_nat g s 1 0 (fun _ _ => (-99)%Z) []) as [[[col dw] s']|] eqn:SR; [|discriminate].
  injection K as ->. exists f, l, g, s, [0; 1], dw, s'. split; auto. split; auto.
  assert (sb_good f g = true) as G.
  { assert (match sb_f with Some f => sb_good f g | None => false end = true) as K by (vm_compute; reflexivity). now rewrite E in K. }
  destruct (sb_good_ok _ _ _ D G) as [G1 G2].
  split. { now rewrite E in RR. }
  split; [reflexivity|]. auto 10.
Qed.

(** Function with a VecAD element: v[0] = x0; y0 = v[x1].  The subgraph calculations do not
    follow the element: the pattern of y0 omits x0 and subgraph_reverse does not return column 0,
    although y0 depends on x0 and Reverse computes derivative one. *)
Definition sv_e : nat -> AD Zbase := fun i => @mkAD Zbase (match i with 0 => 2%Z | _ => 0%Z end) 0 0 T_con.
Definition sv_p : prog Z := Pstep (Ist 0 2 0) (Pstep (Ild 4 0 1) (Pret [4])).
Notation sv_f := (@record_fun Zbase 7 true 2 0 sv_e ex_ev sv_p (fun _ => 0%Z) (fun _ => 0)).
Definition sv_spar : option (list (nat * nat)) :=
  match sv_f with Some f => option_map fst (@subgraph_sparsity Zbase (g_rec f) (g_n f) (g_dep f) [true; true] [true] false) | None => None end.
Definition sv_rev : option (list nat) :=
  match sv_f with
  | Some f => match @srun Zbase Z.of_nat zjunk (@drv_of Zbase zjunk f, None) [@SDrv Zbase (CFor 0 [2; 0]%Z); @SSel Zbase [true; true]] with
    | Some (g, Some s) => match @subgraph_reverse Zbase Z.of_nat g s 1 0 (fun _ _ => 0%Z) [] with Some (col, _, _) => Some col | None => None end
    | _ => None end
  | None => None
  end.
Definition sv_reverse : option (list Z) :=
  match sv_f with
  | Some f => match @drun Zbase Z.of_nat zjunk (@drv_of Zbase zjunk f) [CFor 0 [2; 0]%Z] with
    | Some g => option_map fst (@reverse Zbase Z.of_nat zjunk g 1 [1]%Z) | None => None end
  | None => None
  end.
Theorem subgraph_vecad_refuted :
  (exists f, recorded 7 true 2 0 sv_e ex_ev sv_p (fun _ => 0%Z) (fun _ => 0) f) /\
  sv_rev = Some [1] /\ sv_reverse = Some [1; 0]%Z /\
  (exists p, sv_spar = Some p /\ ~ In (0, 0) p) /\
  @eval Zbase sv_p (start (base_values sv_e ex_ev) [2; 0]%Z []) = Some [2]%Z /\
  @eval Zbase sv_p (start (base_values sv_e ex_ev) [3; 0]%Z []) = Some [3]%Z.
Proof.
  split.
  { destruct sv_f as [f|] eqn:E; [|vm_compute in E; discriminate].
    exists f. split; [discriminate|split; [split; intros i; cbv; discriminate|split; [|]]]; [exact E|].
    vm_compute. repeat (split; [first [exact I|discriminate]|]). first [exact I|discriminate]. }
  split; [vm_compute; reflexivity|]. split; [vm_compute; reflexivity|].
  split. { eexists. split; [vm_compute; reflexivity|]. intros H; cbn in H; intuition discriminate. }
  split; vm_compute; reflexivity.
Qed.

Notation go x := (match sb_f with Some f => @drun Zbase Z.of_nat zjunk (@drv_of Zbase zjunk f) [CFor 0 x] | None => None end) (only parsing).
(** *** the hypotheses of [zero_weights_give_zero] and [reverse_ignores_zero_weight]: two
    histories that differ at x2 only, weight on component 0 only *)
Definition sz_rev (h : list (dcall Z)) (w : list Z) : option (list Z) :=
  match sb_f with
  | Some f => match @drun Zbase Z.of_nat zjunk (@drv_of Zbase zjunk f) h with
    | Some g => option_map fst (@reverse Zbase Z.of_nat zjunk g 1 w) | None => None end
  | None => None
  end.
Example sz_zero : sz_rev [CFor 0 [2; 3; 5]%Z; CFor 1 [1; 4; 8]%Z] [0; 0; 0]%Z = Some [0; 0; 0]%Z.
Proof. vm_compute. reflexivity. Qed.
Example sz_ignore1 : sz_rev [CFor 0 [2; 3; 5]%Z] [1; 0; 0]%Z = Some [36; 24; 0]%Z.
Proof. vm_compute. reflexivity. Qed.
Example sz_ignore2 : sz_rev [CFor 0 [2; 3; -70]%Z] [1; 0; 0]%Z = Some [36; 24; 0]%Z.
Proof. vm_compute. reflexivity. Qed.
Definition in_test (v : nat) : bool := existsb (Nat.eqb v) [1; 2; 4; 5].
Definition closed_test (l : list ins) : bool :=
  forallb (fun i => (num_res (i_op i) =? 0) || negb (in_test (i_var i)) || forallb in_test (var_args (i_op i) (i_arg i))) l.
Lemma closed_test_ok l v w : closed_test l = true -> uses l v w -> in_test v = true -> in_test w = true.
Proof.
  intros C U. induction U as [|i x w Hi N Hx U IH]; auto. intros T. apply IH. unfold closed_test in C. rewrite forallb_forall in C. specialize (C i Hi).
  rewrite T in C. destruct (Nat.eqb_spec (num_res (i_op i)) 0); [lia|]. cbn [negb orb] in C. rewrite forallb_forall in C. auto.
Qed.
Example sz_hypotheses : exists f l g1 g2,
  recorded 7 true 3 0 sb_e ex_ev sb_p (fun _ => 0%Z) (fun _ => 0) f /\
  decode (r_op (g_rec f)) (r_arg (g_rec f)) 0 = Some l /\
  (forall i, In i l -> is_load (i_op i) = false) /\
  @drun Zbase Z.of_nat zjunk (@drv_of Zbase zjunk f) [CFor 0 [2; 3; 5]%Z] = Some g1 /\
  @drun Zbase Z.of_nat zjunk (@drv_of Zbase zjunk f) [CFor 0 [2; 3; -70]%Z] = Some g2 /\
  (forall i, In i l -> pow_ins (view1 g1) i) /\ (forall i, In i l -> pow_ins (view1 g2) i) /\ 1 <= d_ord g2 /\
  ~ uses l (nth 0 (g_dep f) 0) 3.
Proof.
  destruct sb_recorded as (f & E & R).
  destruct (decode (r_op (g_rec f)) (r_arg (g_rec f)) 0) as [l|] eqn:D.
  2: { exfalso. assert (match sb_f with Some f => decode (r_op (g_rec f)) (r_arg (g_rec f)) 0 | None => None end = None) as K by (now rewrite E). vm_compute in K. discriminate. }
  destruct (go [2; 3; 5]%Z) as [g1|] eqn:G1.
  2: { exfalso. assert (match go [2; 3; 5]%Z with Some _ => true | _ => false end = false) as K by (now rewrite G1). vm_compute in K. discriminate. }
  destruct (go [2; 3; -70]%Z) as [g2|] eqn:G2.
  2: { exfalso. assert (match go [2; 3; -70]%Z with Some _ => true | _ => false end = false) as K by (now rewrite G2). vm_compute in K. discriminate. }
  assert (match go [2; 3; -70]%Z with Some g => d_ord g | _ => 0 end = 1) as K by (vm_compute; reflexivity). rewrite G2 in K.
  rewrite E in G1, G2. exists f, l, g1, g2. split; auto. split; auto.
  assert (sb_good f g1 = true) as G.
  { assert (match sb_f with Some f => sb_good f g1 | None => false end = true) as K2 by (vm_compute; reflexivity). now rewrite E in K2. }
  destruct (sb_good_ok _ _ _ D G) as [P1 P2]. split; auto. split; auto. split; auto. split; auto. split; auto. split; [lia|].
  assert (match sb_f with Some f => match decode (r_op (g_rec f)) (r_arg (g_rec f)) 0 with
    Some l => closed_test l && in_test (nth 0 (g_dep f) 0) | None => false end | None => false end = true) as K2 by (vm_compute; reflexivity).
  rewrite E, D in K2. apply andb_prop in K2 as [K2 K3]. intros U. pose proof (closed_test_ok _ _ _ K2 U K3) as K4. discriminate K4.
Qed.

Print Assumptions subgraph_select_accepted_iff.
Print Assumptions subgraph_reverse_accepted_iff.
Print Assumptions subgraph_reverse_columns.
Print Assumptions subgraph_reverse_is_reverse.
Print Assumptions subgraph_sparsity_exact.
Print Assumptions subgraph_sparsity_conservative.
Print Assumptions subgraph_vecad_refuted.
Print Assumptions zero_weights_give_zero.
Print Assumptions reverse_ignores_zero_weight.
