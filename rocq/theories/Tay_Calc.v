(** Taylor coefficients of functions of one real variable at zero. *)
From Coq Require Import Reals Lra Lia Arith.
From Coquelicot Require Import Coquelicot.
Open Scope R_scope.

(** [tay n f c]: f has derivatives up to order n (order k+1 wherever order k is needed
    near zero) and the numbers c 0, ..., c n are its Taylor coefficients at zero *)
Definition Dc (c : nat -> R) : nat -> R := fun k => INR (S k) * c (S k).
Fixpoint tay (n : nat) (f : R -> R) (c : nat -> R) : Prop :=
  f 0 = c 0%nat /\
  match n with
  | O => True
  | S m => exists g, locally 0 (fun t => is_derive f t (g t)) /\ tay m g (Dc c)
  end.

Lemma tay_0 n f c : tay n f c -> f 0 = c 0%nat.
Proof. destruct n; intros H; apply H. Qed.
Lemma tay_ext n : forall f g c d, locally 0 (fun t => f t = g t) -> (forall k, (k <= n)%nat -> c k = d k) ->
  tay n f c -> tay n g d.
Proof.
  induction n as [|n IH]; intros f g c d HL HC [H0 H]; (split; [rewrite <- HC by lia; rewrite <- H0; symmetry; exact (locally_singleton _ _ HL)|auto]).
  destruct H as (f' & H1 & H2). exists f'. split.
  - apply locally_locally in HL. generalize (filter_and _ _ HL H1). apply filter_imp. intros t [A B].
    apply is_derive_ext_loc with f; auto.
  - apply (IH f' f' (Dc c) (Dc d)); auto.
    + apply filter_forall. auto.
    + intros k Hk. unfold Dc. rewrite HC by lia. auto.
Qed.
Lemma tay_coef n f c d : (forall k, (k <= n)%nat -> c k = d k) -> tay n f c -> tay n f d.
Proof. intros H. apply tay_ext; auto. apply filter_forall. auto. Qed.
Lemma tay_loc n f g c : locally 0 (fun t => f t = g t) -> tay n f c -> tay n g c.
Proof. intros H. apply tay_ext; auto. Qed.
Lemma tay_le n : forall f c, tay (S n) f c -> tay n f c.
Proof.
  induction n as [|n IH]; intros f c [H0 (g & H1 & H2)]; split; auto.
  exists g. split; auto.
Qed.
Lemma tay_le' m n f c : (m <= n)%nat -> tay n f c -> tay m f c.
Proof. induction 1; auto. intros. apply IHle, tay_le; auto. Qed.
Lemma tay_deriv n f g c : locally 0 (fun t => is_derive f t (g t)) -> tay (S n) f c -> tay n g (Dc c).
Proof.
  intros H [_ (h & H1 & H2)]. apply tay_loc with h; auto.
  generalize (filter_and _ _ H H1). apply filter_imp. intros t [A B].
  now rewrite <- (is_derive_unique _ _ _ A), <- (is_derive_unique _ _ _ B).
Qed.
Lemma tay_S n f g c : f 0 = c 0%nat -> locally 0 (fun t => is_derive f t (g t)) -> tay n g (Dc c) -> tay (S n) f c.
Proof. intros. split; auto. exists g. auto. Qed.

Lemma tay_const n x c : c 0%nat = x -> (forall k, (0 < k <= n)%nat -> c k = 0) -> tay n (fun _ => x) c.
Proof.
  revert x c. induction n as [|n IH]; intros x c H0 H; split; auto.
  exists (fun _ => 0). split; [apply filter_forall; intros; apply (is_derive_const x)|].
  apply IH; unfold Dc; [rewrite H by lia; ring|]. intros k Hk. rewrite H by lia. ring.
Qed.
Lemma tay_plus n : forall f g a b, tay n f a -> tay n g b -> tay n (fun t => f t + g t) (fun k => a k + b k).
Proof.
  induction n as [|n IH]; intros f g a b [A0 A] [B0 B]; (split; [now rewrite A0, B0|auto]).
  destruct A as (f' & A1 & A2), B as (g' & B1 & B2). exists (fun t => f' t + g' t). split.
  - generalize (filter_and _ _ A1 B1). apply filter_imp. intros t [X Y]. apply (is_derive_plus f g t _ _ X Y).
  - apply tay_coef with (fun k => Dc a k + Dc b k); [intros; unfold Dc; ring|auto].
Qed.
Lemma tay_scal n x : forall f a, tay n f a -> tay n (fun t => x * f t) (fun k => x * a k).
Proof.
  induction n as [|n IH]; intros f a [A0 A]; (split; [now rewrite A0|auto]).
  destruct A as (f' & A1 & A2). exists (fun t => x * f' t). split.
  - generalize A1. apply filter_imp. intros t X. apply (is_derive_scal f t x _ X).
  - apply tay_coef with (fun k => x * Dc a k); [intros; unfold Dc; ring|auto].
Qed.
Lemma tay_minus n f g a b : tay n f a -> tay n g b -> tay n (fun t => f t - g t) (fun k => a k - b k).
Proof.
  intros A B. apply tay_ext with (fun t => f t + (-1) * g t) (fun k => a k + (-1) * b k).
  - apply filter_forall. intros; ring.
  - intros; ring.
  - apply tay_plus; auto. now apply tay_scal.
Qed.
Lemma tay_opp n f a : tay n f a -> tay n (fun t => - f t) (fun k => - a k).
Proof.
  intros A. apply tay_ext with (fun t => (-1) * f t) (fun k => (-1) * a k).
  - apply filter_forall. intros; ring.
  - intros; ring.
  - now apply tay_scal.
Qed.

(** ** products *)
Definition conv (a b : nat -> R) (n : nat) : R := sum_f_R0 (fun k => a k * b (n - k)%nat) n.
Lemma sum_shift (u : nat -> R) n : sum_f_R0 u (S n) = u 0%nat + sum_f_R0 (fun k => u (S k)) n.
Proof. induction n as [|n IH]; [simpl; ring|]. rewrite tech5, IH. simpl. ring. Qed.
Lemma sum_eq u v n : (forall k, (k <= n)%nat -> u k = v k) -> sum_f_R0 u n = sum_f_R0 v n.
Proof. apply sum_eq. Qed.
Lemma conv_ext a a' b b' n : (forall k, (k <= n)%nat -> a k = a' k) -> (forall k, (k <= n)%nat -> b k = b' k) ->
  conv a b n = conv a' b' n.
Proof. intros A B. apply sum_eq. intros k Hk. rewrite A, B by lia. auto. Qed.
Lemma conv_D a b n : INR (S n) * conv a b (S n) = conv (Dc a) b n + conv a (Dc b) n.
Proof.
  unfold conv. rewrite scal_sum.
  rewrite (sum_eq _ (fun k => INR k * a k * b (S n - k)%nat + a k * (INR (S n - k) * b (S n - k)%nat)) (S n)).
  2:{ intros k Hk. rewrite minus_INR by lia. ring. }
  rewrite sum_plus. f_equal.
  - rewrite sum_shift. simpl (INR 0). rewrite !Rmult_0_l, Rplus_0_l. apply sum_eq. intros k Hk. reflexivity.
  - rewrite tech5. rewrite Nat.sub_diag. simpl (INR 0). rewrite Rmult_0_l, Rmult_0_r, Rplus_0_r. apply sum_eq. intros k Hk.
    unfold Dc. replace (S n - k)%nat with (S (n - k)) by lia. reflexivity.
Qed.
Lemma tay_mult n : forall f g a b, tay n f a -> tay n g b -> tay n (fun t => f t * g t) (conv a b).
Proof.
  induction n as [|n IH]; intros f g a b A B.
  - split; auto. unfold conv. simpl. now rewrite (tay_0 _ _ _ A), (tay_0 _ _ _ B).
  - pose proof (tay_le _ _ _ A) as A'. pose proof (tay_le _ _ _ B) as B'.
    destruct A as [A0 (f' & A1 & A2)], B as [B0 (g' & B1 & B2)].
    apply tay_S with (fun t => f' t * g t + f t * g' t).
    + unfold conv. simpl. now rewrite A0, B0.
    + generalize (filter_and _ _ A1 B1). apply filter_imp. intros t [X Y].
      apply (is_derive_mult f g t _ _ X Y). intros; apply Rmult_comm.
    + apply tay_coef with (fun k => conv (Dc a) b k + conv a (Dc b) k).
      * intros k Hk. unfold Dc at 3. now rewrite conv_D.
      * apply tay_plus; auto.
Qed.

(** ** quotients: the quotient is determined by the product *)
Lemma tay_cont (f : R -> R) c : tay 1 f c -> continuous f 0.
Proof. intros [_ (g & H & _)]. apply (ex_derive_continuous (K:=R_AbsRing) (V:=R_NormedModule) f 0). exists (g 0). exact (locally_singleton _ _ H). Qed.
Lemma loc_ne f : continuous f 0 -> f 0 <> 0 -> locally 0 (fun t => f t <> 0).
Proof.
  intros C H. apply (C (fun y => y <> 0)). apply (open_neq 0). auto.
Qed.
Lemma tay_div n : forall w y c a b, tay n w a -> tay n y b -> y 0 <> 0 ->
  (forall k, (k <= n)%nat -> conv c b k = a k) -> tay n (fun t => w t / y t) c.
Proof.
  induction n as [|n IH]; intros w y c a b A B N H.
  - split; auto. specialize (H 0%nat (Nat.le_refl _)). unfold conv in H. simpl in H.
    rewrite (tay_0 _ _ _ A), <- H, (tay_0 _ _ _ B). rewrite (tay_0 _ _ _ B) in N. field. auto.
  - pose proof (tay_le _ _ _ A) as A'. pose proof (tay_le _ _ _ B) as B'.
    pose proof (IH w y c a b A' B' N ltac:(intros; apply H; lia)) as Q.
    pose proof (loc_ne y (tay_cont y b (tay_le' 1 (S n) _ _ ltac:(lia) B)) N) as LN.
    destruct A as [A0 (w' & A1 & A2)], B as [B0 (y' & B1 & B2)].
    apply tay_S with (fun t => (w' t - w t / y t * y' t) / y t).
    + exact (tay_0 _ _ _ Q).
    + generalize (filter_and _ _ LN (filter_and _ _ A1 B1)). apply filter_imp. intros t (X & Y & Z).
      evar_last; [apply (is_derive_div w y t _ _ Y Z X)|]. unfold Rdiv. simpl. field. auto.
    + apply (IH _ y (Dc c) (fun k => Dc a k - conv c (Dc b) k) b); auto.
      * apply tay_minus; auto. apply tay_mult; auto.
      * intros k Hk. unfold Dc at 2. rewrite <- H by lia. rewrite conv_D. ring.
Qed.

(** f' in terms of f: closed under n -> n + 1 *)
Lemma tay_ode n f g c : f 0 = c 0%nat -> locally 0 (fun t => is_derive f t (g t)) ->
  (forall m, (m < n)%nat -> tay m f c -> tay m g (Dc c)) -> tay n f c.
Proof.
  intros H0 HD. induction n as [|n IH]; intros H; [split; auto|].
  apply tay_S with g; auto. apply H; auto.
Qed.

(** what it means *)
Lemma tay_Derive_n n : forall f c, tay n f c -> forall k, (k <= n)%nat -> is_derive_n f k 0 (INR (fact k) * c k).
Proof.
  induction n as [|n IH]; intros f c H k Hk.
  - replace k with 0%nat by lia. simpl. rewrite (tay_0 _ _ _ H). ring.
  - destruct k as [|k].
    + simpl. rewrite (tay_0 _ _ _ H). ring.
    + destruct H as [H0 (g & H1 & H2)]. specialize (IH g (Dc c) H2 k ltac:(lia)).
      assert (locally 0 (fun t => Derive f t = g t)) as HG by (generalize H1; apply filter_imp; intros t; apply is_derive_unique).
      replace (INR (fact (S k)) * c (S k)) with (INR (fact k) * Dc c k).
      2:{ unfold Dc. rewrite fact_simpl, mult_INR. ring. }
      destruct k as [|k].
      * simpl in IH |- *. rewrite <- IH. exact (locally_singleton _ _ H1).
      * change (is_derive (Derive_n f (S k)) 0 (INR (fact (S k)) * Dc c (S k))).
        change (is_derive (Derive_n g k) 0 (INR (fact (S k)) * Dc c (S k))) in IH.
        apply is_derive_ext_loc with (Derive_n g k); auto.
        apply locally_locally in HG. generalize HG. apply filter_imp. intros t Ht.
        symmetry. transitivity (Derive_n (Derive f) k t).
        -- change (Derive f) with (Derive_n f 1). rewrite Derive_n_comp. f_equal. lia.
        -- apply Derive_n_ext_loc. generalize Ht. apply filter_imp. auto.
Qed.

(** ** elementary functions.  [D1 f f']: f' is the derivative of f near zero *)
Definition D1 (f f' : R -> R) : Prop := locally 0 (fun t => is_derive f t (f' t)).
Lemma tay_D1 n f c : tay (S n) f c -> exists f', D1 f f' /\ tay n f' (Dc c).
Proof. intros [_ H]. exact H. Qed.
Lemma tay_val_loc n f c (Q : R -> Prop) : tay (S n) f c -> (exists eps : posreal, forall y, Rabs (y - c 0%nat) < eps -> Q y) -> locally 0 (fun t => Q (f t)).
Proof.
  intros H [eps HQ]. pose proof (tay_cont f c (tay_le' 1 (S n) _ _ ltac:(lia) H)) as C.
  apply (C Q). exists eps. intros y Hy. apply HQ. rewrite <- (tay_0 _ _ _ H). exact Hy.
Qed.
Lemma loc_gt n f c a : tay (S n) f c -> a < c 0%nat -> locally 0 (fun t => a < f t).
Proof.
  intros H L. apply (tay_val_loc n f c (fun y => a < y) H). exists (mkposreal (c 0%nat - a) ltac:(lra)). simpl.
  intros y Hy. apply Rabs_def2 in Hy. lra.
Qed.
Lemma loc_lt n f c a : tay (S n) f c -> c 0%nat < a -> locally 0 (fun t => f t < a).
Proof.
  intros H L. apply (tay_val_loc n f c (fun y => y < a) H). exists (mkposreal (a - c 0%nat) ltac:(lra)). simpl.
  intros y Hy. apply Rabs_def2 in Hy. lra.
Qed.
Lemma loc_ne0 n f c : tay (S n) f c -> c 0%nat <> 0 -> locally 0 (fun t => f t <> 0).
Proof.
  intros H N. apply loc_ne; [apply (tay_cont f c (tay_le' 1 (S n) _ _ ltac:(lia) H))|]. now rewrite (tay_0 _ _ _ H).
Qed.
(** chain rule near zero *)
Lemma D1_comp (h h' : R -> R) f f' (Q : R -> Prop) :
  D1 f f' -> locally 0 (fun t => Q (f t)) -> (forall x, Q x -> is_derive h x (h' x)) ->
  D1 (fun t => h (f t)) (fun t => h' (f t) * f' t).
Proof.
  intros H L D. unfold D1 in *. generalize (filter_and _ _ H L). apply filter_imp. intros t [A B].
  evar_last; [apply (is_derive_comp h f t _ _ (D _ B) A)|]. unfold scal; simpl. unfold mult; simpl. ring.
Qed.
Lemma D1_ext f f' g g' : locally 0 (fun t => f t = g t) -> locally 0 (fun t => f' t = g' t) -> D1 f f' -> D1 g g'.
Proof.
  intros H H' D. unfold D1 in *. apply locally_locally in H. generalize (filter_and _ _ H (filter_and _ _ H' D)). apply filter_imp.
  intros t (A & B & C). rewrite <- B. apply is_derive_ext_loc with f; auto.
Qed.

(** z = h(x) where z' = x' * w : the coefficients are determined by those of w *)
Lemma tay_mulode n x a z c w (e : nat -> R) : tay n x a -> z 0 = c 0%nat ->
  (forall x', D1 x x' -> D1 z (fun t => x' t * w t)) ->
  (forall m, (m < n)%nat -> tay m z c -> tay m w e) ->
  (forall k, (k < n)%nat -> Dc c k = conv (Dc a) e k) -> tay n z c.
Proof.
  intros X Z D W E. destruct n as [|n]; [split; auto|].
  destruct (tay_D1 _ _ _ X) as (x' & Dx & Tx).
  apply tay_ode with (fun t => x' t * w t); auto; [now apply D|].
  intros m Hm Hz. apply tay_coef with (conv (Dc a) e); [intros k Hk; symmetry; apply E; lia|].
  apply tay_mult; [apply tay_le' with n; auto; lia|apply W; auto].
Qed.
(** z' = x' / w *)
Lemma tay_divode n x a z c w (e : nat -> R) : tay n x a -> z 0 = c 0%nat ->
  (forall x', D1 x x' -> D1 z (fun t => x' t / w t)) ->
  (forall m, (m < n)%nat -> tay m z c -> tay m w e) -> ((0 < n)%nat -> e 0%nat <> 0) ->
  (forall k, (k < n)%nat -> conv (Dc c) e k = Dc a k) -> tay n z c.
Proof.
  intros X Z D W N E. destruct n as [|n]; [split; auto|].
  destruct (tay_D1 _ _ _ X) as (x' & Dx & Tx).
  apply tay_ode with (fun t => x' t / w t); auto; [now apply D|].
  intros m Hm Hz. pose proof (W m Hm Hz) as Tw.
  apply (tay_div m x' w (Dc c) (Dc a) e); auto.
  - apply tay_le' with n; auto; lia.
  - rewrite (tay_0 _ _ _ Tw). apply N. lia.
  - intros k Hk. apply E. lia.
Qed.
Lemma conv_comm a b n : conv a b n = conv b a n.
Proof.
  unfold conv.
  revert a b. assert (forall (u : nat -> R) n, sum_f_R0 u n = sum_f_R0 (fun k => u (n - k)%nat) n) as R.
  { clear. intros u n. revert u. induction n as [|n IH]; intros u; [reflexivity|].
    rewrite (sum_shift (fun k => u (S n - k)%nat)). rewrite tech5, (IH u). rewrite Rplus_comm. f_equal.
    }
  intros a b. rewrite R. apply sum_eq. intros k Hk. replace (n - (n - k))%nat with k by lia. ring.
Qed.
