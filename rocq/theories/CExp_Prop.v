(** C06: every order of a conditional expression is that of the selected branch: forward mode (zero order, all orders, many directions) and reverse mode,
    for every combination of kinds of the four arguments, also where left is equal to right *)
From Coq Require Import ZArith Lia List Bool Arith FunctionalExtensionality.
From Verif Require Import Base_Spec Op_Model Tape_Spec Tape_Model Sweep_Model Sweep_Eqs Drv_Model CExp_Spec.
Import ListNotations.
Open Scope nat_scope.

Section CExp.
  Context {b : base}.
  Notation T := (bt b).
  Variable bnat : nat -> T.
  Variable P : nat -> T.
  Context (c : cexpop) (L R0 TT FF : operand) (iv : nat).
  Notation A := (cond_exp_arg c L R0 TT FF).

  Lemma bits : Nat.testbit (nth 1 A 0) 0 = match L with OVar _ => true | _ => false end /\ Nat.testbit (nth 1 A 0) 1 = match R0 with OVar _ => true | _ => false end /\
    Nat.testbit (nth 1 A 0) 2 = match TT with OVar _ => true | _ => false end /\ Nat.testbit (nth 1 A 0) 3 = match FF with OVar _ => true | _ => false end.
  Proof. destruct L, R0, TT, FF; repeat split; reflexivity. Qed.
  Lemma code_sel (l r t f : T) : cond_exp_code (nth 0 A 0) l r t f = if b_cmp (cexp_cmp c) l r then t else f.
  Proof. destruct c; reflexivity. Qed.
  Lemma vp_left (V : nat -> T) : vp (nth 1 A 0) 0 P V (nth 2 A 0) = opd_coef P (fun v _ => V v) L 0.
  Proof. unfold vp. destruct bits as (-> & _). destruct L; reflexivity. Qed.
  Lemma vp_right (V : nat -> T) : vp (nth 1 A 0) 1 P V (nth 3 A 0) = opd_coef P (fun v _ => V v) R0 0.
  Proof. unfold vp. destruct bits as (_ & -> & _). destruct R0; reflexivity. Qed.
  Lemma coef0 (V : nat -> nat -> T) o : opd_coef P (fun v _ => V v 0) o 0 = opd_coef P V o 0.
  Proof. destruct o; reflexivity. Qed.

  Lemma cexp_value r (V : nat -> nat -> T) k : coef bnat P (SCexp A) r V k = [opd_coef P V (selected c P V L R0 TT FF) k].
  Proof.
    cbn [coef]. rewrite vp_left, vp_right, code_sel, !coef0. destruct bits as (_ & _ & -> & ->). unfold selected.
    destruct (b_cmp _ _ _); [destruct TT|destruct FF]; cbn; destruct k; reflexivity.
  Qed.

  (** forward, orders lo..up: the coefficients lo..up of the result are those of the branch that is selected by the order zero coefficients; nothing else changes *)
  Theorem cond_exp_forward : forall cc lo up k (s : fstq b), Forall (opd_below iv) [L; R0; TT; FF] -> lo <= up ->
    exists s', step_any bnat P cc lo up (mkIns CExpOp A iv) k s = Some s' /\
      (forall j, lo <= j <= up -> q_V s' iv j = opd_coef P (q_V s) (selected c P (q_V s) L R0 TT FF) j) /\
      (forall v j, v <> iv \/ j < lo \/ up < j -> q_V s' v j = q_V s v j).
  Proof.
    intros cc lo up k s B Hlu. cbn [step_any subs]. eexists. split; [reflexivity|]. cbn [fold_left setV q_V].
    unfold run_sub. cbn [fst snd].
    assert (forall V V' o j, opd_below iv o -> (forall v j, v <> iv -> V' v j = V v j) -> opd_coef P V' o j = opd_coef P V o j) as CE.
    { intros V V' [v|q] j Ho H; cbn in *; auto. apply H. lia. }
    assert (opd_below iv L /\ opd_below iv R0 /\ opd_below iv TT /\ opd_below iv FF) as (BL & BR & BT & BF) by (rewrite Forall_forall in B; repeat split; apply B; cbn; auto).
    assert (forall n V, (forall v j, (v <> iv \/ j < lo \/ lo + n <= j) -> loop lo (lo + n) (fun j V => put_row V iv j (coef bnat P (SCexp A) iv V j)) V v j = V v j) /\
      (forall j, lo <= j < lo + n -> loop lo (lo + n) (fun j V => put_row V iv j (coef bnat P (SCexp A) iv V j)) V iv j = opd_coef P V (selected c P V L R0 TT FF) j)) as K.
    { induction n as [|n IH]; intros V.
      - rewrite Nat.add_0_r. rewrite loop_none by lia. split; [auto|intros; lia].
      - replace (lo + S n) with (S (lo + n)) by lia. rewrite loop_last by lia. destruct (IH V) as [I1 I2].
        set (V1 := loop lo (lo + n) _ V) in *. rewrite cexp_value. cbn [put_row].
        assert (selected c P V1 L R0 TT FF = selected c P V L R0 TT FF) as SE by (unfold selected; rewrite !(CE V V1) by (auto; intros; apply I1; auto); reflexivity).
        assert (opd_below iv (selected c P V L R0 TT FF)) as SB by (unfold selected; destruct (b_cmp _ _ _); auto).
        rewrite SE, (CE V V1) by (auto; intros; apply I1; auto). split.
        + intros v j H. unfold pset. destruct (Nat.eqb_spec v iv), (Nat.eqb_spec j (lo + n)); cbn [andb]; try (apply I1; lia). lia.
        + intros j H. unfold pset. rewrite Nat.eqb_refl. destruct (Nat.eqb_spec j (lo + n)) as [->|]; cbn [andb]; [reflexivity|]. apply I2. lia. }
    replace (S up) with (lo + (S up - lo)) by lia. destruct (K (S up - lo) (q_V s)) as [K1 K2]. split.
    - intros j Hj. apply K2. lia.
    - intros v j H. apply K1. lia.
  Qed.

  (** zero order sweep *)
  Theorem cond_exp_forward_zero : forall cc k (s : fst0 b),
    exists s', step0 P cc (mkIns CExpOp A iv) k s = Some s' /\
      f_V s' iv = opd_coef P (fun v _ => f_V s v) (selected c P (fun v _ => f_V s v) L R0 TT FF) 0 /\ (forall v, v <> iv -> f_V s' v = f_V s v).
  Proof.
    intros cc k s. cbn [step0 sem0]. eexists. split; [reflexivity|]. cbn [f_V put_res length Nat.sub].
    replace (iv + 1 - 1) with iv by lia. split.
    - unfold fset. rewrite Nat.eqb_refl. etransitivity; [apply code_sel|]. rewrite vp_left, vp_right. unfold selected, vp.
      destruct bits as (_ & _ & -> & ->). destruct (b_cmp _ _ _); [destruct TT|destruct FF]; reflexivity.
    - intros v H. unfold fset. destruct (Nat.eqb_spec v iv); [contradiction|auto].
  Qed.

  (** forward, order q > 0, r directions: D v k ell is the order k coefficient of variable v in direction ell (order zero is the same for all directions) *)
  Theorem cond_exp_forward_dir : forall q r l2v (D : nat -> nat -> nat -> T), 0 < q ->
    exists D', step_dir bnat P q r l2v (mkIns CExpOp A iv) D = Some D' /\
      (forall ell, ell < r -> D' iv q ell = opd_coef P (fun v k => D v k ell) (selected c P (fun v k => D v k ell) L R0 TT FF) q) /\
      (forall v k ell, v <> iv \/ k <> q \/ r <= ell -> D' v k ell = D v k ell).
  Proof.
    intros q r l2v D Hq. cbn [step_dir subs fold_left]. eexists. split; [reflexivity|]. unfold run_sub_dir. cbn [fst snd coef_dir put_row]. destruct bits as (_ & _ & E2 & E3). split.
    - intros ell Hl. rewrite (proj2 (Nat.ltb_lt _ _) Hl). unfold pset. rewrite !Nat.eqb_refl. cbn [andb].
      etransitivity; [apply code_sel|]. rewrite vp_left, vp_right. rewrite E2, E3. unfold selected.
      destruct q as [|q]; [lia|]. rewrite (coef0 (fun v k => D v k ell) L), (coef0 (fun v k => D v k ell) R0).
      destruct (b_cmp _ _ _); [destruct TT|destruct FF]; reflexivity.
    - intros v k ell H. destruct (Nat.ltb_spec ell r); auto. unfold pset.
      destruct (Nat.eqb_spec v iv), (Nat.eqb_spec k q); cbn [andb]; try lia; destruct (Nat.eqb_spec k 0); subst; auto.
  Qed.

  (** reverse: the selected branch, when it is a variable, receives the partials of the result; nothing else changes *)
  Hypothesis add0 : forall x : T, b_bin Badd x b0 = x.
  Lemma down_add (g : T -> T) d i (p : nat -> nat -> T) : i <> iv ->
    forall v k, down0 d (fun k p => padd i k (g (p iv k)) p) p v k = if (v =? i) && (k <=? d) then b_bin Badd (p i k) (g (p iv k)) else p v k.
  Proof.
    intros Hi. unfold down0.
    assert (forall l, NoDup l -> forall (p : nat -> nat -> T) v k, fold_left (fun p j => padd i j (g (p iv j)) p) l p v k
       = if (v =? i) && existsb (Nat.eqb k) l then b_bin Badd (p i k) (g (p iv k)) else p v k) as K.
    { induction l as [|j l IH]; intros ND q v k; cbn [fold_left existsb]; [now rewrite andb_false_r|].
      apply NoDup_cons_iff in ND as [N1 N2]. rewrite IH by auto. unfold padd, pset.
      destruct (Nat.eqb_spec v i) as [->|Nv]; cbn [andb]; [|reflexivity]. rewrite Nat.eqb_refl. cbn [andb].
      destruct (Nat.eqb_spec iv i); [congruence|]. cbn [andb].
      destruct (Nat.eqb_spec k j) as [->|Nk]; cbn [orb].
      - assert (existsb (Nat.eqb j) l = false) as ->; [|reflexivity]. apply not_true_iff_false. intros E. apply existsb_exists in E as (x & Hx & Ex). apply Nat.eqb_eq in Ex. subst. auto.
      - reflexivity. }
    intros v k. etransitivity; [apply (K (rev (seq 0 (S d))) (NoDup_rev (seq_NoDup (S d) 0)))|].
    assert (existsb (Nat.eqb k) (rev (seq 0 (S d))) = (k <=? d)) as ->; [|reflexivity].
    apply eq_true_iff_eq. rewrite existsb_exists, Nat.leb_le. split.
    - intros (x & Hx & Ex). apply in_rev, in_seq in Hx. apply Nat.eqb_eq in Ex. lia.
    - intros H. exists k. rewrite <- in_rev, in_seq, Nat.eqb_refl. split; [lia|auto].
  Qed.
  Theorem cond_exp_reverse : forall (V : nat -> nat -> T) l2v d (p : nat -> nat -> T) v k, opd_below iv TT -> opd_below iv FF ->
    rev_step bnat P V l2v d (mkIns CExpOp A iv) p v k =
      match selected c P V L R0 TT FF with
      | OVar u => if (v =? u) && (k <=? d) then b_bin Badd (p u k) (p iv k) else p v k
      | OPar _ => p v k
      end.
  Proof.
    intros V l2v d p v k BT BF. cbn [rev_step subs rev app fold_left fst snd rev_sub]. destruct bits as (_ & _ & -> & ->). rewrite !vp_left, !vp_right, !coef0.
    unfold selected. set (s := b_cmp (cexp_cmp c) (opd_coef P V L 0) (opd_coef P V R0 0)).
    assert (forall x y : T, cond_exp_code (nth 0 A 0) (opd_coef P V L 0) (opd_coef P V R0 0) x y = if s then x else y) as E by (intros; apply code_sel).
    assert (forall i (p : nat -> nat -> T), i <> iv -> forall v k, down0 d (fun j p => padd i j (cond_exp_code (nth 0 A 0) (opd_coef P V L 0) (opd_coef P V R0 0) (p iv j) b0) p) p v k
       = if s && ((v =? i) && (k <=? d)) then b_bin Badd (p i k) (p iv k) else p v k) as D1.
    { intros i q Hi v' k'. rewrite (down_add (fun x => cond_exp_code (nth 0 A 0) (opd_coef P V L 0) (opd_coef P V R0 0) x b0) d i q Hi). rewrite E.
      destruct (Nat.eqb_spec v' i) as [->|], (k' <=? d), s; cbn [andb]; auto. }
    assert (forall i (p : nat -> nat -> T), i <> iv -> forall v k, down0 d (fun j p => padd i j (cond_exp_code (nth 0 A 0) (opd_coef P V L 0) (opd_coef P V R0 0) b0 (p iv j)) p) p v k
       = if negb s && ((v =? i) && (k <=? d)) then b_bin Badd (p i k) (p iv k) else p v k) as D2.
    { intros i q Hi v' k'. rewrite (down_add (fun x => cond_exp_code (nth 0 A 0) (opd_coef P V L 0) (opd_coef P V R0 0) b0 x) d i q Hi). rewrite E.
      destruct (Nat.eqb_spec v' i) as [->|], (k' <=? d), s; cbn [andb negb]; auto. }
    clearbody s. destruct TT as [t|t], FF as [f|f]; cbn in BT, BF; change (nth 4 (cond_exp_arg c L R0 ?x ?y) 0) with (opd_index x); change (nth 5 (cond_exp_arg c L R0 ?x ?y) 0) with (opd_index y); cbn [opd_index].
    - etransitivity; [apply D2; lia|]. rewrite !D1 by lia. destruct s; cbn [andb negb]; [reflexivity|]. reflexivity.
    - etransitivity; [apply D1; lia|]. destruct s; reflexivity.
    - etransitivity; [apply D2; lia|]. destruct s; reflexivity.
    - destruct s; reflexivity.
  Qed.
End CExp.

(** *** What is recorded: the operator has the four operands, a constant becomes a parameter with its value *)
Section Rec.
  Context {b : base}.
  Variable tid : nat.
  (** [o] stands for the AD object [x] in recording [r] *)
  Definition stands_for (r : rec b) (x : AD b) (o : operand) : Prop :=
    match o with
    | OVar v => is_constant tid x = false /\ is_T_dyn (a_type x) = false /\ v = a_taddr x
    | OPar p => (is_constant tid x = false /\ is_T_dyn (a_type x) = true /\ p = a_taddr x) \/
        (is_constant tid x = true /\ p < length (r_par r) /\ nth p (r_isdyn r) true = false /\ (nth p (r_par r) bnan = a_val x \/ ideq (nth p (r_par r) bnan) (a_val x) = true))
    end.
  Definition longer (r r' : rec b) : Prop := (exists l ld, r_par r' = r_par r ++ l /\ r_isdyn r' = r_isdyn r ++ ld /\ length l = length ld) /\ r_op r' = r_op r /\ r_arg r' = r_arg r /\ r_nvar r' = r_nvar r.
  Lemma stands_longer r r' x o : longer r r' -> stands_for r x o -> stands_for r' x o.
  Proof.
    intros ((l & ld & E & E' & EL) & _) H. destruct o as [v|p]; auto. cbn in *. destruct H as [H|(H1 & H2 & H3 & H4)]; auto. right. rewrite E, E', app_length, (app_nth1 _ _ _ H2).
    split; auto. split; [lia|]. split; auto. destruct (Nat.lt_ge_cases p (length (r_isdyn r))) as [Z|Z]; [now rewrite (app_nth1 _ _ _ Z)|]. rewrite (nth_overflow _ _ Z) in H3. discriminate.
  Qed.
  Lemma longer_trans r1 r2 r3 : longer r1 r2 -> longer r2 r3 -> longer r1 r3.
  Proof. intros ((l & ld & A & I & Z) & B & C & D) ((l' & ld' & A' & I' & Z') & B' & C' & D'). split; [exists (l ++ l'), (ld ++ ld'); rewrite A', A, I', I, !app_length; split; [now rewrite app_assoc|split; [now rewrite app_assoc|lia]]|]. repeat split; congruence. Qed.
  Lemma cexp_arg_ok r x k r' a m : length (r_isdyn r) = length (r_par r) -> cexp_arg tid r x k = (r', a, m) -> longer r r' /\ exists o, stands_for r' x o /\ a = opd_index o /\ m = opd_bit o k.
  Proof.
    intros LE. unfold cexp_arg. destruct (is_constant tid x) eqn:C.
    - destruct (put_con_par r (a_val x)) as [r1 q] eqn:E. intros H. injection H as <- <- <-. revert E. unfold put_con_par. destruct (_ && _ && _ && _) eqn:F; intros E; injection E as <- <-.
      + split; [split; [exists [], []; rewrite !app_nil_r; auto|auto]|]. exists (OPar (r_hash r (bhash (a_val x)))). cbn. rewrite !andb_true_iff in F. destruct F as (((_ & F) & I) & G). apply Nat.ltb_lt in F. apply negb_true_iff in I. split; auto. right. split; auto. split; auto. split; auto. rewrite (nth_indep _ true false); [auto|lia].
      + split; [split; [exists [a_val x], [false]; auto|auto]|]. exists (OPar (length (r_par r))). cbn. split; auto. right. split; auto. rewrite app_length, nth_middle, <- LE, nth_middle. cbn. split; [lia|auto].
    - intros H. injection H as <- <- <-. split; [split; [exists [], []; rewrite !app_nil_r; auto|auto]|]. destruct (is_T_dyn (a_type x)) eqn:D; [exists (OPar (a_taddr x))|exists (OVar (a_taddr x))]; cbn; auto.
  Qed.
  (** with left and right not both constants, and a variable among the four arguments *)
  Theorem cond_exp_recorded c (r : rec b) (l rt t f : AD b) : length (r_isdyn r) = length (r_par r) -> is_constant tid l && is_constant tid rt = false ->
    (exists x, In x [l; rt; t; f] /\ is_constant tid x = false /\ is_T_dyn (a_type x) = false) ->
    exists r' o1 o2 o3 o4, ad_cond tid c r l rt t f = (r', mkAD (if b_cmp (cexp_cmp c) (a_val l) (a_val rt) then a_val t else a_val f) tid (r_nvar r' - 1) T_var) /\
      r_op r' = r_op r ++ [CExpOp] /\ r_arg r' = r_arg r ++ cond_exp_arg c o1 o2 o3 o4 /\ r_nvar r' = r_nvar r + 1 /\
      stands_for r' l o1 /\ stands_for r' rt o2 /\ stands_for r' t o3 /\ stands_for r' f o4.
  Proof.
    intros LE NC (x & Hx & X1 & X2). unfold ad_cond. rewrite NC. cbv zeta.
    destruct (cexp_arg tid r l 1) as [[r1 a1] m1] eqn:E1. destruct (cexp_arg tid r1 rt 2) as [[r2 a2] m2] eqn:E2.
    destruct (cexp_arg tid r2 t 4) as [[r3 a3] m3] eqn:E3. destruct (cexp_arg tid r3 f 8) as [[r4 a4] m4] eqn:E4.
    assert (forall r r' : rec b, longer r r' -> length (r_isdyn r) = length (r_par r) -> length (r_isdyn r') = length (r_par r')) as LL by (intros q q' ((? & ? & A & B & C) & _) Z; rewrite A, B, !app_length; lia).
    apply cexp_arg_ok in E1 as (G1 & o1 & S1 & -> & ->); auto. pose proof (LL _ _ G1 LE) as LE1.
    apply cexp_arg_ok in E2 as (G2 & o2 & S2 & -> & ->); auto. pose proof (LL _ _ G2 LE1) as LE2.
    apply cexp_arg_ok in E3 as (G3 & o3 & S3 & -> & ->); auto. pose proof (LL _ _ G3 LE2) as LE3.
    apply cexp_arg_ok in E4 as (G4 & o4 & S4 & -> & ->); auto.
    assert (forall k o, stands_for r4 x o -> 0 < k -> 0 < opd_bit o k) as V.
    { intros k [v|q] S K; cbn in *; auto. destruct S as [(_ & S & _)|(S & _)]; congruence. }
    pose proof (stands_longer _ _ _ _ (longer_trans _ _ _ G2 (longer_trans _ _ _ G3 G4)) S1) as T1. pose proof (stands_longer _ _ _ _ (longer_trans _ _ _ G3 G4) S2) as T2.
    pose proof (stands_longer _ _ _ _ G4 S3) as T3.
    assert (0 < opd_bit o1 1 + opd_bit o2 2 + opd_bit o3 4 + opd_bit o4 8) as M.
    { cbn [In] in Hx. destruct Hx as [<-|[<-|[<-|[<-|[]]]]]; [specialize (V 1 _ T1)|specialize (V 2 _ T2)|specialize (V 4 _ T3)|specialize (V 8 _ S4)]; lia. }
    destruct (Nat.eqb_spec (opd_bit o1 1 + opd_bit o2 2 + opd_bit o3 4 + opd_bit o4 8) 0); [lia|].
    destruct G1 as (_ & A1 & B1 & C1), G2 as (_ & A2 & B2 & C2), G3 as (_ & A3 & B3 & C3), G4 as (G4 & A4 & B4 & C4).
    eexists _, o1, o2, o3, o4. split.
    - unfold rec_var. cbn. f_equal. f_equal. destruct c; reflexivity.
    - cbn. rewrite A4, A3, A2, A1, B4, B3, B2, B1, C4, C3, C2, C1. split; auto. split; [f_equal; destruct c; reflexivity|]. auto.
  Qed.
End Rec.

(** *** Concrete cases: x0 == x1 ? x2 : p5 at x0 = x1 (where the value of the conditional expression is not continuous), orders 0 to 2 and reverse; a recording *)
From Verif Require Import Tape_Prop.
Lemma ex_cond_exp : forall cc, exists s',
  let V : nat -> nat -> bt Zbase := fun v k => match v, k with 1, 0 | 2, 0 => 7%Z | 3, 0 => 4%Z | 3, 1 => 5%Z | 3, 2 => 6%Z | 1, 1 => 1%Z | _, _ => 0%Z end in
  step_any (b := Zbase) Z.of_nat (fun k => Z.of_nat k) cc 0 2 (mkIns CExpOp (cond_exp_arg XEq (OVar 1) (OVar 2) (OVar 3) (OPar 5)) 4) 9 (@mkQ Zbase V (fun _ => false) (fun _ => 0) (fun _ => 0) 0 0 (fun _ => false)) = Some s' /\
  map (q_V s' 4) [0; 1; 2] = [4; 5; 6]%Z.
Proof. intros cc. eexists. cbn zeta. split; reflexivity. Qed.
Lemma ex_cond_exp_reverse :
  let V : nat -> nat -> bt Zbase := fun v k => match v, k with 1, 0 | 2, 0 => 7%Z | 3, 0 => 4%Z | 3, 1 => 5%Z | _, _ => 0%Z end in
  let p' := rev_step (b := Zbase) Z.of_nat (fun k => Z.of_nat k) V (fun _ => 0) 1 (mkIns CExpOp (cond_exp_arg XEq (OVar 1) (OVar 2) (OVar 3) (OVar 1)) 4) (fun v k => match v, k with 4, 0 => 10%Z | 4, 1 => 20%Z | 3, 0 => 1%Z | _, _ => 0%Z end) in
  p' 3 0 = 11%Z /\ p' 3 1 = 20%Z /\ p' 1 0 = 0%Z /\ p' 1 1 = 0%Z.
Proof. cbn. auto. Qed.
(** a variable, a dynamic parameter and two constants *)
Lemma ex_cond_exp_recorded :
  let r := @mkRec Zbase true 3 0 [BeginOp; InvOp; InvOp] [0] [] (fun _ => 0) [-999; 2]%Z [false; true] [ind_dyn] [] in
  let x v t a k := @mkAD Zbase v t a k in
  exists r', ad_cond (b := Zbase) 7 XLt r (x 3%Z 7 1 T_var) (x 2%Z 7 1 T_dyn) (x 8%Z 0 0 T_con) (x 9%Z 0 0 T_con) = (r', x 9%Z 7 3 T_var) /\
    r_op r' = [BeginOp; InvOp; InvOp; CExpOp] /\ r_arg r' = 0 :: cond_exp_arg XLt (OVar 1) (OPar 1) (OPar 2) (OPar 3) /\ r_par r' = [-999; 2; 8; 9]%Z.
Proof. cbn. eexists. split; [reflexivity|]. vm_compute. auto. Qed.
