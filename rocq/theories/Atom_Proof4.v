(** C38: the sparsity sweeps, in terms of the instructions of the call. *)
From Coq Require Import List Bool Arith Lia.
From Verif Require Import Base_Spec Op_Model Tape_Spec Tape_Model Tape_Proof Atom_Model Atom_Proof2 Atom_Proof3.
Import ListNotations.

Section Spa.
  Context {b : base}.
  Notation T := (bt b).
  Variables (isd : nat -> bool) (P : nat -> T).
  Notation work := (@work b).
  Lemma posts_ok (S : sets) fin l v e : e < fin -> posts S fin l v e = S v e || existsb (fun '(dst, src) => (dst =? v) && S src e) l.
  Proof.
    intros He. unfold posts. assert (forall D, fold_left (fun D '(dst, src) => fun v e => if v =? dst then D v e || ((e <? fin) && S src e) else D v e) l D v e = D v e || existsb (fun '(dst, src) => (dst =? v) && S src e) l) as K; [|apply K].
    induction l as [|[dst src] l IH]; intros D; cbn [fold_left existsb]; [now rewrite orb_false_r|]. rewrite IH. rewrite (Nat.eqb_sym v dst). apply Nat.ltb_lt in He. rewrite He. cbn [andb]. destruct (dst =? v); cbn [andb orb]; auto. now rewrite orb_assoc.
  Qed.
  Definition xidx (i : ins) : nat := if isvar i then arg0 i else 0.
  Definition yidx (i : ins) : nat := if isvar i then i_var i else 0.
  Definition Qsx (j : nat) (i : ins) (w : work) : Prop := w_par w j = xpar P i /\ w_type w j = xkind isd i /\ w_ix w j = xidx i.
  Definition Qsy (j : nat) (i : ins) (w : work) : Prop := w_iy w j = yidx i.
  Lemma spa_x_step j i (w : work) : isx i -> exists w', spa_x isd P j i w = Some w' /\ w_iy w' = w_iy w /\ Qsx j i w' /\ forall j' i', j' <> j -> Qsx j' i' w -> Qsx j' i' w'.
  Proof.
    intros Hi. unfold spa_x, Qsx, xidx, xpar, xkind, isvar. cbv zeta. fold (arg0 i). destruct Hi as [->| ->]; (eexists; split; [reflexivity|]; cbn [w_iy w_par w_type w_ix]; rewrite !fset_eq; repeat split; auto);
      destruct H0 as (H1 & H2 & H3); rewrite fset_ne by lia; auto.
  Qed.
  Lemma spa_y_step j i (w : work) : isy i -> exists w', spa_y j i w = Some w' /\ (w_par w' = w_par w /\ w_type w' = w_type w /\ w_ix w' = w_ix w) /\ Qsy j i w' /\ forall j' i', j' <> j -> Qsy j' i' w -> Qsy j' i' w'.
  Proof.
    intros Hi. unfold spa_y, Qsy, yidx, isvar. destruct Hi as [->| ->]; (eexists; split; [reflexivity|]; cbn [w_iy w_par w_type w_ix]; rewrite !fset_eq; repeat split; auto);
      intros j' i' Hj H; rewrite fset_ne by lia; auto.
  Qed.
  Section Up.
    Lemma spa_xs_up l w rest : Forall isx l -> exists w', up_loop (spa_x isd P) 0 (length l) (l ++ rest) w = Some (w', rest) /\ w_iy w' = w_iy w /\ forall t, t < length l -> Qsx t (nth t l d0) w'.
    Proof.
      intros F. destruct (up_loop_ok (spa_x isd P) isx Qsx (fun _ w' => w_iy w' = w_iy w) d0) with (l := l) (j := 0) (w := w) (rest := rest) as (w' & A & B & C & _); auto; [|exists w'; auto].
      intros j i w1 Hi Hw. destruct (spa_x_step j i w1 Hi) as (w2 & A & B & C & D). exists w2. repeat split; try apply C; auto; [congruence|..]; apply D; auto; lia.
    Qed.
    Lemma spa_ys_up l w rest : Forall isy l -> exists w', up_loop spa_y 0 (length l) (l ++ rest) w = Some (w', rest) /\ (w_par w' = w_par w /\ w_type w' = w_type w /\ w_ix w' = w_ix w) /\ forall t, t < length l -> Qsy t (nth t l d0) w'.
    Proof.
      intros F. destruct (up_loop_ok spa_y isy Qsy (fun _ w' => w_par w' = w_par w /\ w_type w' = w_type w /\ w_ix w' = w_ix w) d0) with (l := l) (j := 0) (w := w) (rest := rest) as (w' & A & B & C & _); auto; [|exists w'; auto].
      intros j i w1 Hi (H1 & H2 & H3). destruct (spa_y_step j i w1 Hi) as (w2 & A & (B1 & B2 & B3) & C & D). exists w2. split; auto. split; [repeat split; congruence|]. split; auto. intros. apply D; auto. lia.
    Qed.
    Lemma spa_xs_down l w rest : Forall isx l -> exists w', down_loop (spa_x isd P) (length l) (rev l ++ rest) w = Some (w', rest) /\ w_iy w' = w_iy w /\ forall t, t < length l -> Qsx t (nth t l d0) w'.
    Proof.
      intros F. destruct (down_loop_ok (spa_x isd P) isx Qsx (fun _ w' => w_iy w' = w_iy w) d0) with (l := l) (w := w) (rest := rest) as (w' & A & B & C & _); auto; [|exists w'; auto].
      intros j i w1 Hi Hw. destruct (spa_x_step j i w1 Hi) as (w2 & A & B & C & D). exists w2. repeat split; try apply C; auto; [congruence|..]; apply D; auto; lia.
    Qed.
    Lemma spa_ys_down l w rest : Forall isy l -> exists w', down_loop spa_y (length l) (rev l ++ rest) w = Some (w', rest) /\ (w_par w' = w_par w /\ w_type w' = w_type w /\ w_ix w' = w_ix w) /\ forall t, t < length l -> Qsy t (nth t l d0) w'.
    Proof.
      intros F. destruct (down_loop_ok spa_y isy Qsy (fun _ w' => w_par w' = w_par w /\ w_type w' = w_type w /\ w_ix w' = w_ix w) d0) with (l := l) (w := w) (rest := rest) as (w' & A & B & C & _); auto; [|exists w'; auto].
      intros j i w1 Hi (H1 & H2 & H3). destruct (spa_y_step j i w1 Hi) as (w2 & A & (B1 & B2 & B3) & C & D). exists w2. split; auto. split; [repeat split; congruence|]. split; auto. intros. apply D; auto. lia.
    Qed.
  End Up.
  Notation in_range m n pat := (Forall (fun '(i, j) => i < m /\ j < n) pat).
  Lemma in_sel sy sx m n pat : (forall i j, In (i, j) pat -> i < m /\ j < n /\ nth i sy false = true /\ nth j sx false = true) -> forallb (fun '(i, j) => nth i sy false && nth j sx false) pat = true.
  Proof. intros H. apply forallb_forall. intros [i j] Hi. destruct (H i j Hi) as (_ & _ & -> & ->). auto. Qed.
  Lemma vec_map' {A B} (f : nat -> A) (g : B -> A) (d : B) l m : m = length l -> (forall t, t < length l -> f t = g (nth t l d)) -> vec f m = map g l.
  Proof. intros ->. apply vec_map. Qed.
  Lemma existsb_ext' {A} (f g : A -> bool) l : (forall x, In x l -> f x = g x) -> existsb f l = existsb g l.
  Proof. induction l as [|x l IH]; intros H; cbn; auto. rewrite H, IH; auto; [|now left]. intros; apply H; now right. Qed.
  Lemma for_jac_ok cb ai cid iv iv' a' lx ly rest w0 dep fin (S : sets) :
    Forall isx lx -> Forall isy ly ->
    let pat := cb ai cid dep (map (xpar P) lx) (map (xkind isd) lx) (map (fun i => nonempty S fin (xidx i)) lx) (map (fun i => negb (yidx i =? 0)) ly) in
    (forall i j, In (i, j) pat -> i < length ly /\ j < length lx /\ yidx (nth i ly d0) <> 0 /\ nonempty S fin (xidx (nth j lx d0)) = true) ->
    exists S', atomic_for_jac isd P cb dep fin (mkIns AFunOp [ai; cid; length lx; length ly] iv :: lx ++ ly ++ mkIns AFunOp a' iv' :: rest) w0 S = Some (S', rest) /\
      forall v e, e < fin -> S' v e = S v e || existsb (fun '(i, j) => (yidx (nth i ly d0) =? v) && S (xidx (nth j lx d0)) e) pat.
  Proof.
    intros FX FY pat HP. cbn [atomic_for_jac]. destruct (spa_xs_up lx w0 (ly ++ mkIns AFunOp a' iv' :: rest) FX) as (w1 & -> & E1 & Q1).
    destruct (spa_ys_up ly w1 (mkIns AFunOp a' iv' :: rest) FY) as (w & -> & (S1 & S2 & S3) & Q2). unfold three_for_jac. cbv zeta.
    rewrite (vec_map (w_par w) (xpar P) d0 lx) by (intros t Ht; rewrite S1; now apply Q1). rewrite (vec_map (w_type w) (xkind isd) d0 lx) by (intros t Ht; rewrite S2; now apply Q1).
    rewrite (vec_map (fun j => nonempty S fin (w_ix w j)) (fun i => nonempty S fin (xidx i)) d0 lx) by (intros t Ht; destruct (Q1 t Ht) as (_ & _ & E); rewrite S3, E; auto).
    rewrite (vec_map (fun j => negb (w_iy w j =? 0)) (fun i => negb (yidx i =? 0)) d0 ly) by (intros t Ht; now rewrite (Q2 t Ht)).
    fold pat. rewrite (in_sel _ _ (length ly) (length lx)).
    - eexists. split; [reflexivity|]. intros v e He. rewrite posts_ok by auto. f_equal. clear -HP Q1 Q2 S3. induction pat as [|[i j] p IH]; cbn; auto. destruct (HP i j) as (A & B & _); [now left|]. rewrite IH by (intros; apply HP; now right). rewrite (Q2 i A), S3. destruct (Q1 j B) as (_ & _ & ->). auto.
    - intros i j H. destruct (HP i j H) as (A & B & C & D). split; auto. split; auto. rewrite (nth_indep _ false (negb (yidx d0 =? 0))), (nth_indep (map _ lx) false (nonempty S fin (xidx d0))) by (rewrite map_length; auto).
      rewrite (map_nth (fun i => negb (yidx i =? 0))), (map_nth (fun i => nonempty S fin (xidx i))). split; auto. apply negb_true_iff. now apply Nat.eqb_neq.
  Qed.
  Lemma rev_jac_ok cb ai cid iv iv' a' lx ly rest w0 dep fin (S : sets) :
    Forall isx lx -> Forall isy ly ->
    let pat := cb ai cid dep (map (xpar P) lx) (map (xkind isd) lx) (map (fun _ => true) lx) (map (fun i => nonempty S fin (yidx i)) ly) in
    (forall i j, In (i, j) pat -> i < length ly /\ j < length lx /\ nonempty S fin (yidx (nth i ly d0)) = true) ->
    exists S', atomic_rev_jac isd P cb dep fin (mkIns AFunOp [ai; cid; length lx; length ly] iv :: rev ly ++ rev lx ++ mkIns AFunOp a' iv' :: rest) w0 S = Some (S', rest) /\
      forall v e, e < fin -> S' v e = S v e || existsb (fun '(i, j) => (xidx (nth j lx d0) =? v) && S (yidx (nth i ly d0)) e) pat.
  Proof.
    intros FX FY pat HP. cbn [atomic_rev_jac]. destruct (spa_ys_down ly w0 (rev lx ++ mkIns AFunOp a' iv' :: rest) FY) as (w1 & -> & _ & Q2).
    destruct (spa_xs_down lx w1 (mkIns AFunOp a' iv' :: rest) FX) as (w & -> & S3 & Q1). unfold three_rev_jac. cbv zeta.
    rewrite (vec_map (w_par w) (xpar P) d0 lx) by (intros t Ht; now apply Q1). rewrite (vec_map (w_type w) (xkind isd) d0 lx) by (intros t Ht; now apply Q1).
    rewrite (vec_map (fun _ : nat => true) (fun _ : ins => true) d0 lx) by auto.
    rewrite (vec_map (fun j => nonempty S fin (w_iy w j)) (fun i => nonempty S fin (yidx i)) d0 ly) by (intros t Ht; rewrite S3; now rewrite (Q2 t Ht)).
    fold pat. rewrite (in_sel _ _ (length ly) (length lx)).
    - eexists. split; [reflexivity|]. intros v e He. rewrite posts_ok by auto. f_equal. clear -HP Q1 Q2 S3. induction pat as [|[i j] p IH]; cbn; auto. destruct (HP i j) as (A & B & _); [now left|]. rewrite IH by (intros; apply HP; now right). rewrite S3, (Q2 i A). destruct (Q1 j B) as (_ & _ & ->). auto.
    - intros i j H. destruct (HP i j H) as (A & B & D). split; auto. split; auto. rewrite (nth_indep _ false (nonempty S fin (yidx d0))), (nth_indep (map _ lx) false true) by (rewrite map_length; auto).
      rewrite (map_nth (fun i => nonempty S fin (yidx i))). rewrite (map_nth (fun _ : ins => true) _ d0). auto.
  Qed.
End Spa.
