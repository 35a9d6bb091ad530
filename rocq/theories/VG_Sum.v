(** C23: summation keeps every value of a tape without dynamic vectors, when addition is that of an abelian group. *)
From Coq Require Import List Bool Arith Lia.
From Verif Require Import VG_Model VG_Proof VG_Dead VG_Renum VG_Fold.
Import ListNotations.

(** the values that are numbers are those of an abelian group *)
Record vgroup {A : Type} (B : vbase A) (G : Type) := {
  g_in : G -> A; g_out : A -> option G; g_0 : G; g_add : G -> G -> G; g_neg : G -> G;
  g_io : forall g, g_out (g_in g) = Some g;
  g_oi : forall a g, g_out a = Some g -> a = g_in g;
  g_zero : v_zero B = g_in g_0;
  g_vadd : forall a b, v_bin B BAdd (g_in a) (g_in b) = g_in (g_add a b);
  g_vsub : forall a b, v_bin B BSub (g_in a) (g_in b) = g_in (g_add a (g_neg b));
  g_vneg : forall a, v_un B UNeg (g_in a) = g_in (g_neg a);
  g_assoc : forall a b c, g_add a (g_add b c) = g_add (g_add a b) c;
  g_comm : forall a b, g_add a b = g_add b a;
  g_unit : forall a, g_add g_0 a = a;
  g_inv : forall a, g_add a (g_neg a) = g_0 }.
Arguments g_in {A B G}. Arguments g_out {A B G}. Arguments g_0 {A B G}. Arguments g_add {A B G}. Arguments g_neg {A B G}.

Section VG.
  Context {A : Type} (B : vbase A) (LW : vlaws B) {G : Type} (GR : vgroup B G).
  Notation nan := (v_nan B).
  Infix "+'" := (g_add GR) (at level 50, left associativity).
  Notation "-' a" := (g_neg GR a) (at level 35).
  Notation O' := (g_0 GR).
  Let asc := g_assoc B G GR. Let com := g_comm B G GR. Let uni := g_unit B G GR. Let inv := g_inv B G GR.

  Lemma unir a : a +' O' = a. Proof. now rewrite com, uni. Qed.
  Lemma lc a b c : a +' (b +' c) = b +' (a +' c). Proof. now rewrite !asc, (com a b). Qed.
  Lemma cancel a b c : a +' b = a +' c -> b = c.
  Proof. intros H. rewrite <- (uni b), <- (uni c), <- (inv a), (com a (-' a)), <- !asc, H. auto. Qed.
  Lemma neg_add a b : -' (a +' b) = -' a +' -' b.
  Proof. apply (cancel (a +' b)). rewrite inv. rewrite <- asc, (lc b (-' a)), (inv b), unir, inv. auto. Qed.
  Lemma neg_neg a : -' (-' a) = a.
  Proof. apply (cancel (-' a)). rewrite inv, com, inv. auto. Qed.
  Lemma neg_0 : -' O' = O'. Proof. apply (cancel O'). now rewrite inv, uni. Qed.
  Ltac pull a := lazymatch goal with |- a = _ => symmetry; apply unir | |- a +' _ = _ => reflexivity | |- ?b +' ?R = _ => etransitivity; [apply (f_equal (g_add GR b)); pull a|apply lc] end.
  Ltac ab1 := lazymatch goal with |- ?a +' ?r = ?R => etransitivity; [|symmetry; pull a]; apply (f_equal (g_add GR a)); rewrite ?unir end.
  Ltac ab := rewrite ?neg_add, ?neg_neg, ?neg_0, ?unir, ?uni, <- ?asc; try reflexivity; do 8 (try (ab1; try reflexivity)).
  (** the two sums of a csum operator *)
  Lemma id_add a s b t : (a +' b) +' -' (s +' t) = (a +' -' s) +' (b +' -' t).
  Proof. rewrite neg_add, <- !asc. f_equal. apply lc. Qed.
  Lemma id_sub a s b t : (a +' t) +' -' (s +' b) = (a +' -' s) +' -' (b +' -' t).
  Proof. rewrite !neg_add, neg_neg, <- !asc. f_equal. rewrite (lc t). f_equal. apply com. Qed.

    Lemma pos_nth i r o : forall (l0 : list (vop A)) i0 r0, In (i, r, o) (pos i0 r0 l0) -> nth_error l0 (i - i0) = Some o /\ i0 <= i.
    Proof.
      induction l0 as [|o0 l0 IH]; cbn; intros i0 r0 H; [easy|]. destruct H as [H|H]; [injection H as <- _ <-; now rewrite Nat.sub_diag|].
      pose proof (pos_ge _ _ _ _ _ _ H) as [_ Hi]. apply IH in H as [H _]. replace (i - i0) with (S (i - S i0)) by lia. cbn. split; auto. lia.
    Qed.
    Lemma pos_mono i r o j rj oj : forall (l0 : list (vop A)) i0 r0, In (i, r, o) (pos i0 r0 l0) -> In (j, rj, oj) (pos i0 r0 l0) -> j < i -> rj + n_res oj <= r.
    Proof.
      induction l0 as [|o0 l0 IH]; cbn; intros i0 r0 H Hj Hlt; [easy|]. destruct Hj as [Hj|Hj].
      - injection Hj as <- <- <-. destruct H as [H|H]; [injection H; intros; subst; lia|]. apply pos_ge in H. lia.
      - destruct H as [H|H]; [injection H as <- _ _; apply pos_ge in Hj; lia|]. eapply IH; eauto.
    Qed.
    Lemma pos_inj i r o rj oj : forall (l0 : list (vop A)) i0 r0, In (i, r, o) (pos i0 r0 l0) -> In (i, rj, oj) (pos i0 r0 l0) -> r = rj /\ o = oj.
    Proof.
      induction l0 as [|o0 l0 IH]; cbn; intros i0 r0 H Hj; [easy|]. destruct H as [H|H], Hj as [Hj|Hj].
      - injection H as <- <- <-. injection Hj as <- <-. auto.
      - injection H as <- <- <-. apply pos_ge in Hj. lia.
      - injection Hj as <- <- <-. apply pos_ge in H. lia.
      - eauto.
    Qed.
    Lemma pos_wf i r o l0 : forall i0 r0, wf_ops B r0 l0 -> In (i, r, o) (pos i0 r0 l0) -> wf_op B r o /\ r + n_res o <= r0 + list_sum (map n_res l0) /\ In o l0.
    Proof.
      induction l0 as [|o0 l0 IH]; cbn [pos]; intros i0 r0 W H; [easy|]. destruct W as [W1 W2]. cbn [map list_sum fold_right]. fold (list_sum (map n_res l0)). destruct H as [H|H]; [injection H as <- <- <-; split; [auto|]; split; [lia|now left]|].
      destruct (IH _ _ W2 H) as (H1 & H2 & H3). split; auto. split; [lia|now right].
    Qed.
  Section Run.
    Variables (n nop : nat) (Vs : list A) (l : list (vop A)) (use : list nat).
    Definition gv (v : nat) : G := match g_out GR (nth v Vs nan) with Some g => g | None => O' end.
    Definition num (v : nat) : Prop := v < length Vs /\ g_out GR (nth v Vs nan) <> None.
    Fixpoint sm (t : list nat) : G := match t with [] => O' | v :: t' => gv v +' sm t' end.
    Lemma sm_app t t' : sm (t ++ t') = sm t +' sm t'.
    Proof. induction t as [|v t IH]; cbn; [now rewrite uni|]. now rewrite IH, asc. Qed.
    Definition dv (c : csum) : G := sm (c_add c) +' -' (sm (c_sub c)).
    Lemma num_in v : num v -> nth_error Vs v = Some (g_in GR (gv v)).
    Proof. intros [H1 H2]. unfold gv. rewrite (nth_error_nth' Vs nan H1). destruct (g_out GR (nth v Vs nan)) eqn:E; [|congruence]. f_equal. now apply (g_oi B G GR). Qed.
    Lemma num_nth v : num v -> nth v Vs nan = g_in GR (gv v).
    Proof. intros H. apply num_in in H. now apply nth_error_nth. Qed.
    Lemma rds_num t : Forall num t -> rds t Vs = Some (map (fun v => g_in GR (gv v)) t).
    Proof. induction t as [|v t IH]; intros H; cbn; auto. inversion H; subst. rewrite num_in, IH by auto. auto. Qed.
    Lemma vsum_sm t : forall s, vsum B (map (fun v => g_in GR (gv v)) t) (g_in GR s) = g_in GR (s +' sm t).
    Proof. induction t as [|v t IH]; intros s; cbn; [now rewrite unir|]. unfold vsum in IH. rewrite (g_vadd B G GR), IH. f_equal. now rewrite asc. Qed.
    Lemma vsub_sm t : forall s, vsub B (map (fun v => g_in GR (gv v)) t) (g_in GR s) = g_in GR (s +' -' (sm t)).
    Proof. induction t as [|v t IH]; intros s; cbn; [now rewrite neg_0, unir|]. unfold vsub in IH. rewrite (g_vsub B G GR), IH. f_equal. now rewrite neg_add, asc. Qed.
    Lemma csum_val a s : Forall num a -> Forall num s -> exists xs, rds (a ++ s) Vs = Some xs /\ sem B (VCsum a s) xs = Some [g_in GR (sm a +' -' (sm s))].
    Proof.
      intros Ha Hs. exists (map (fun v => g_in GR (gv v)) a ++ map (fun v => g_in GR (gv v)) s). split.
      - rewrite rds_app2, !rds_num by auto. auto.
      - cbn [sem]. rewrite firstn_app, skipn_app. replace (length a) with (length (map (fun v => g_in GR (gv v)) a)) by apply map_length.
        rewrite Nat.sub_diag, firstn_all, skipn_all. cbn [firstn skipn]. rewrite app_nil_r. cbn [app]. rewrite (g_zero B G GR), vsum_sm, vsub_sm, uni. auto.
    Qed.

    Hypothesis SAT : forall e, In e (pos 1 (n + 1) l) -> sat B Vs (snd (fst e)) (snd e).
    Hypothesis LV : length Vs = n + 1 + list_sum (map n_res l).
    Hypothesis WF : wf_ops B (n + 1) l.
    Hypothesis NUM : forall o, In o l -> is_sum o = true -> forall v, In v (op_vals o) -> g_out GR (nth v Vs nan) <> None.
    Hypothesis USE : forall r j, nth r use 0 = j -> j <> 0 -> j <> nop -> exists rj oj, In (j, rj, oj) (pos 1 (n + 1) l) /\ In r (op_vals oj).

    Lemma sum_num i r o : In (i, r, o) (pos 1 (n + 1) l) -> is_sum o = true -> forall v, In v (op_vals o) -> num v /\ v < r.
    Proof.
      intros H HS v Hv. destruct (pos_wf _ _ _ _ _ _ WF H) as (W & Hr & Hl). destruct W as [W _]. rewrite Forall_forall in W. specialize (W v Hv).
      split; auto. split; [lia|]. eapply NUM; eauto.
    Qed.
    (** the value of a sum operator *)
    Definition ovl (o : vop A) : G :=
      match o with VUn _ x => -' (gv x) | VBin BAdd x y => gv x +' gv y | VBin _ x y => gv x +' -' (gv y) | _ => O' end.
    Lemma sum_val i r o : In (i, r, o) (pos 1 (n + 1) l) -> is_sum o = true -> num r /\ gv r = ovl o.
    Proof.
      intros H HS. pose proof (SAT _ H) as S. cbn [fst snd] in S. pose proof (sum_num i r o H HS) as N.
      destruct (pos_wf _ _ _ _ _ _ WF H) as (_ & Hr & _).
      assert (nth_error Vs r = Some (g_in GR (ovl o))) as E.
      { destruct o; try discriminate HS; [destruct u; try discriminate HS|destruct b; try discriminate HS]; cbn [sat op_vals n_res] in *; destruct S as (xs & ys & X & Y & Z); specialize (Z 0 ltac:(lia)); rewrite Nat.add_0_r in Z; rewrite Z.
        - rewrite rds_num in X by (constructor; [apply N; cbn; auto|constructor]). injection X as <-. cbn in Y. injection Y as <-. cbn. now rewrite (g_vneg B G GR).
        - rewrite rds_num in X by (constructor; [apply N; cbn; auto|constructor; [apply N; cbn; auto|constructor]]). injection X as <-. cbn in Y. injection Y as <-. cbn. now rewrite (g_vadd B G GR).
        - rewrite rds_num in X by (constructor; [apply N; cbn; auto|constructor; [apply N; cbn; auto|constructor]]). injection X as <-. cbn in Y. injection Y as <-. cbn. now rewrite (g_vsub B G GR). }
      assert (r < length Vs) as Hlt by (apply nth_error_Some; congruence). split; [split; auto|].
      - rewrite (nth_error_nth _ _ nan E), (g_io B G GR). discriminate.
      - unfold gv. now rewrite (nth_error_nth _ _ nan E), (g_io B G GR).
    Qed.

    (** what is known about the csum of operator [oj], result [rj], when the operator with result [r] is next *)
    Definition cinv (r rj : nat) (oj : vop A) (c : csum) : Prop :=
      (forall v, In v (c_add c ++ c_sub c) -> num v /\ v < rj) /\
      match oj with
      | VUn _ x => x < r /\ dv c = ovl oj
      | VBin b x y => (c_fd c = true -> x < r) /\ (c_sd c = true -> y < r) /\
          dv c +' (if c_fd c then O' else gv x) +' (if c_sd c then O' else match b with BAdd => gv y | _ => -' (gv y) end) = ovl oj
      | _ => False
      end.
    Lemma cinv_mono r r' rj oj c : r <= r' -> cinv r rj oj c -> cinv r' rj oj c.
    Proof. intros H (C1 & C2). split; auto. destruct oj; auto; [destruct C2; split; auto; lia|]. destruct C2 as (C2 & C3 & C4). split; [intros F; specialize (C2 F); lia|]. split; [intros F; specialize (C3 F); lia|auto]. Qed.
    Lemma finish_ok i r o c : In (i, r, o) (pos 1 (n + 1) l) -> is_sum o = true -> cinv r r o c ->
      (forall v, In v (c_add (finish o c) ++ c_sub (finish o c)) -> num v /\ v < r) /\ dv (finish o c) = ovl o.
    Proof.
      intros H HS (C1 & C2). pose proof (sum_num i r o H HS) as N. setoid_rewrite in_app_iff. setoid_rewrite in_app_iff in C1.
      destruct o; try discriminate HS; [destruct u; try discriminate HS|destruct b; try discriminate HS]; cbn [finish c_add c_sub op_vals] in *.
      - destruct C2 as [_ C2]. split; auto.
      - destruct C2 as (_ & _ & C2). split.
        + intros v. rewrite !in_app_iff. intros [[Hv|[Hv|Hv]]|Hv]; auto; [destruct (c_fd c)|destruct (c_sd c)]; try easy; destruct Hv as [<-|[]]; apply N; cbn; auto.
        + rewrite <- C2. unfold dv. cbn [c_add c_sub]. rewrite !sm_app. destruct (c_fd c), (c_sd c); cbn [sm]; rewrite ?unir; auto.
          all: ab.
      - destruct C2 as (_ & _ & C2). split.
        + intros v. rewrite !in_app_iff. intros [[Hv|Hv]|[Hv|Hv]]; auto; [destruct (c_fd c)|destruct (c_sd c)]; try easy; destruct Hv as [<-|[]]; apply N; cbn; auto.
        + rewrite <- C2. unfold dv. cbn [c_add c_sub]. rewrite !sm_app. destruct (c_fd c), (c_sd c); cbn [sm]; rewrite ?unir; auto.
          all: ab.
    Qed.
    Lemma start_ok i r o : In (i, r, o) (pos 1 (n + 1) l) -> is_sum o = true ->
      (forall v, In v (c_add (start o) ++ c_sub (start o)) -> num v /\ v < r) /\ dv (start o) = ovl o.
    Proof.
      intros H HS. pose proof (sum_num i r o H HS) as N. unfold dv.
      destruct o; try discriminate HS; [destruct u; try discriminate HS|destruct b; try discriminate HS]; cbn [start c_add c_sub op_vals app] in *.
      - split; [intros v [<-|[]]; apply N; cbn; auto|]. cbn. now rewrite uni, unir.
      - split; [intros v Hv; apply N; auto|]. cbn. rewrite neg_0, !unir. auto.
      - destruct (Nat.eqb_spec x y) as [<-|]; cbn [csum0 c_add c_sub app]; [split; [easy|]; cbn; now rewrite neg_0, uni, inv|].
        split; [intros v Hv; apply N; cbn in *; tauto|]. cbn. now rewrite !unir.
    Qed.
    Lemma splice_ok i r o j rj oj ci cj : In (i, r, o) (pos 1 (n + 1) l) -> is_sum o = true -> In (j, rj, oj) (pos 1 (n + 1) l) -> is_sum oj = true -> In r (op_vals oj) ->
      (forall v, In v (c_add ci ++ c_sub ci) -> num v /\ v < r) -> dv ci = ovl o -> cj = csum0 \/ cinv r rj oj cj -> cinv (S r) rj oj (splice r ci oj cj).
    Proof.
      intros H HS Hj HSj Hin Ci Di Cj. destruct (sum_val i r o H HS) as [Nr Vr]. rewrite <- Vr in Di. destruct (sum_num j rj oj Hj HSj r Hin) as [_ Hlt].
      assert (forall v, In v (c_add cj ++ c_sub cj) -> num v /\ v < rj) as Cj1 by (destruct Cj as [->|[Cj _]]; [easy|auto]).
      assert (dv csum0 = O') as D0 by (unfold dv; cbn; now rewrite neg_0, uni).
      setoid_rewrite in_app_iff in Ci. setoid_rewrite in_app_iff in Cj1.
      assert (forall v, (In v (c_add ci) \/ In v (c_sub ci)) -> num v /\ v < rj) as Ci' by (intros v Hv; destruct (Ci v Hv); split; auto; lia).
      unfold cinv. setoid_rewrite in_app_iff.
      destruct oj; try discriminate HSj; [destruct u; try discriminate HSj|destruct b; try discriminate HSj]; cbn [op_vals] in *; unfold splice.
      - destruct Hin as [<-|[]]. destruct Cj as [->|(_ & Cj & _)]; [|lia]. cbn [csum0 c_add c_sub app]. split.
        { intros v Hv. apply Ci'. cbn in Hv. tauto. } split; [lia|]. unfold dv in *. cbn [c_add c_sub ovl]. rewrite <- Di, neg_add, neg_neg. apply com.
      - assert (dv cj +' (if c_fd cj then O' else gv x) +' (if c_sd cj then O' else gv y) = gv x +' gv y /\ (c_fd cj = true -> x < r) /\ (c_sd cj = true -> y < r)) as (E & F1 & F2).
        { destruct Cj as [->|(_ & C2 & C3 & C4)]; [rewrite D0; cbn; split; [now rewrite uni|split; discriminate]|auto]. }
        cbn [andb]. unfold dv in *. cbn [ovl]. destruct (Nat.eqb_spec y x) as [<-|Nxy].
        + assert (y = r) by (destruct Hin as [Hx|[Hx|[]]]; auto). subst y. assert (c_fd cj = false /\ c_sd cj = false) as [X1 X2].
          { split; [destruct (c_fd cj)|destruct (c_sd cj)]; auto; exfalso; [specialize (F1 eq_refl)|specialize (F2 eq_refl)]; lia. } rewrite X1, X2 in E.
          cbn [c_add c_sub c_fd c_sd]. split; [intros v; rewrite !in_app_iff; intros [[Hv|[Hv|Hv]]|[Hv|[Hv|Hv]]]; auto|]. split; [lia|]. split; [lia|].
          rewrite !unir, !sm_app. rewrite !id_add, !Di. etransitivity; [|exact E]. ab.
        + destruct (Nat.eqb_spec y r) as [->|Nyr].
          * assert (c_sd cj = false) as X2 by (destruct (c_sd cj); auto; specialize (F2 eq_refl); lia). rewrite X2 in E.
            cbn [c_add c_sub c_fd c_sd]. split; [intros v; rewrite !in_app_iff; intros [[Hv|Hv]|[Hv|Hv]]; auto|]. split; [intros Hf; specialize (F1 Hf); lia|]. split; [lia|].
            rewrite !unir, !sm_app. rewrite id_add, Di. etransitivity; [|exact E]. ab.
          * assert (x = r) by (destruct Hin as [Hx|[Hx|[]]]; auto; contradiction). subst x.
            assert (c_fd cj = false) as X1 by (destruct (c_fd cj); auto; specialize (F1 eq_refl); lia). rewrite X1 in E.
            cbn [c_add c_sub c_fd c_sd]. split; [intros v; rewrite !in_app_iff; intros [[Hv|Hv]|[Hv|Hv]]; auto|]. split; [lia|]. split; [intros Hf; specialize (F2 Hf); lia|].
            rewrite !unir, !sm_app. rewrite id_add. rewrite Di. exact E.
      - assert (dv cj +' (if c_fd cj then O' else gv x) +' (if c_sd cj then O' else -' (gv y)) = gv x +' -' (gv y) /\ (c_fd cj = true -> x < r) /\ (c_sd cj = true -> y < r)) as (E & F1 & F2).
        { destruct Cj as [->|(_ & C2 & C3 & C4)]; [rewrite D0; cbn; split; [now rewrite uni|split; discriminate]|auto]. }
        cbn [andb]. unfold dv in *. cbn [ovl]. destruct (Nat.eqb_spec y x) as [<-|Nxy].
        + assert (y = r) by (destruct Hin as [Hx|[Hx|[]]]; auto). subst y. assert (c_fd cj = false /\ c_sd cj = false) as [X1 X2].
          { split; [destruct (c_fd cj)|destruct (c_sd cj)]; auto; exfalso; [specialize (F1 eq_refl)|specialize (F2 eq_refl)]; lia. } rewrite X1, X2 in E.
          rewrite Nat.eqb_refl. cbn [c_add c_sub c_fd c_sd]. split; [intros v; intros [Hv|Hv]; auto|]. split; [lia|]. split; [lia|].
          rewrite !unir. rewrite inv in *. rewrite <- asc, inv, unir in E. exact E.
        + destruct (Nat.eqb_spec y r) as [->|Nyr].
          * assert (c_sd cj = false) as X2 by (destruct (c_sd cj); auto; specialize (F2 eq_refl); lia). rewrite X2 in E.
            cbn [c_add c_sub c_fd c_sd]. split; [intros v; rewrite !in_app_iff; intros [[Hv|Hv]|[Hv|Hv]]; auto|]. split; [intros Hf; specialize (F1 Hf); lia|]. split; [lia|].
            rewrite !unir, !sm_app. rewrite id_sub. rewrite Di. etransitivity; [|exact E]. ab.
          * assert (x = r) by (destruct Hin as [Hx|[Hx|[]]]; auto; contradiction). subst x.
            assert (c_fd cj = false) as X1 by (destruct (c_fd cj); auto; specialize (F1 eq_refl); lia). rewrite X1 in E.
            cbn [c_add c_sub c_fd c_sd]. split; [intros v; rewrite !in_app_iff; intros [[Hv|Hv]|[Hv|Hv]]; auto|]. split; [lia|]. split; [intros Hf; specialize (F2 Hf); lia|].
            rewrite !unir, !sm_app. rewrite id_add. rewrite Di. exact E.
    Qed.

    (** *** the pass *)
    (** an operator of the new tape: the old one, or a csum with the same value *)
    Definition repl (r : nat) (o o' : vop A) : Prop :=
      o' = o \/ exists a s, o' = VCsum a s /\ is_sum o = true /\ (forall v, In v (a ++ s) -> num v /\ v < r) /\ num r /\ sm a +' -' (sm s) = gv r.
    Definition ops_ok (c0 : vop A) (i : nat) (ops : list (vop A)) : Prop :=
      length ops = S (length l) /\ nth_error ops 0 = Some c0 /\
      forall e, In e (pos 1 (n + 1) l) -> exists o', nth_error ops (fst (fst e)) = Some o' /\ repl (snd (fst e)) (snd e) o' /\ (i <= fst (fst e) -> o' = snd e).
    Definition m_ok (i r : nat) (m : cmap) : Prop :=
      forall j c, i <= j -> m j = Some c -> exists rj oj, In (j, rj, oj) (pos 1 (n + 1) l) /\ is_sum oj = true /\ cinv r rj oj c.

    Lemma sm_step c0 i r o ops m : In (i, r, o) (pos 1 (n + 1) l) -> ops_ok c0 i ops -> m_ok i r m ->
      ops_ok c0 (S i) (fst (sm_op B nop use (ops, m) (i, r, o))) /\ m_ok (S i) (r + n_res o) (snd (sm_op B nop use (ops, m) (i, r, o))).
    Proof.
      intros H (O1 & O2 & O3) M.
      assert (ops_ok c0 (S i) ops) as OK' by (split; [auto|]; split; [auto|]; intros e He; destruct (O3 e He) as (o' & Q1 & Q2 & Q3); exists o'; repeat split; auto; intros; apply Q3; lia).
      assert (forall m', (forall j, S i <= j -> m' j = m j) -> m_ok (S i) (r + n_res o) m') as MK.
      { intros m' Hm j c Hj HM. rewrite Hm in HM by auto. destruct (M j c ltac:(lia) HM) as (rj & oj & Q1 & Q2 & Q3). exists rj, oj. split; auto. split; auto. eapply cinv_mono; [|exact Q3]. lia. }
      unfold sm_op. destruct (is_sum o && used use r) eqn:EB; [|split; auto]. apply andb_prop in EB as [HS HU].
      assert (n_res o = 1) as NR by (destruct o; try discriminate HS; auto).
      set (mi := match m i with Some c => Some (finish o c) | None => None end).
      assert (forall c, mi = Some c -> (forall v, In v (c_add c ++ c_sub c) -> num v /\ v < r) /\ dv c = ovl o) as MI.
      { intros c Hc. unfold mi in Hc. destruct (m i) as [c1|] eqn:E; [|discriminate]. injection Hc as <-. destruct (M i c1 ltac:(lia) E) as (rj & oj & Q1 & Q2 & Q3). destruct (pos_inj _ _ _ _ _ _ _ _ H Q1) as [<- <-]. apply (finish_ok i); auto. }
      destruct (sum_val i r o H HS) as [Nr Vr].
      set (m1 := cset m i mi).
      assert (forall j, S i <= j -> m1 j = m j) as M1 by (intros j Hj; unfold m1, cset; destruct (Nat.eqb_spec j i); auto; lia).
      set (rep := match mi with Some c => (upd i (VCsum (c_add c) (c_sub c)) ops, cset m1 i None) | None => (ops, m1) end).
      assert (ops_ok c0 (S i) (fst rep) /\ m_ok (S i) (r + n_res o) (snd rep)) as REP.
      { unfold rep. destruct mi as [c|] eqn:EM; cbn [fst snd]; [|split; auto]. split.
        - destruct OK' as (P1 & P2 & P3). split; [now rewrite upd_length|]. pose proof (pos_ge _ _ _ _ _ _ H) as [_ Hi1]. split.
          { rewrite nth_error_upd. destruct (Nat.eqb_spec 0 i); [lia|]. auto. }
          intros e He. destruct (P3 e He) as (o' & Q1 & Q2 & Q3). rewrite nth_error_upd. destruct (Nat.eqb_spec (fst (fst e)) i) as [Ei|Ei]; cbn [andb].
          + destruct e as [[i' r'] o1]. cbn [fst snd] in *. subst i'. destruct (pos_inj _ _ _ _ _ _ _ _ H He) as [<- <-].
            assert (i < length ops) as Hlen by (apply nth_error_Some; congruence). apply Nat.ltb_lt in Hlen. rewrite Hlen. eexists. split; [reflexivity|].
            destruct (MI c eq_refl) as [C1 C2]. split; [|lia]. right. exists (c_add c), (c_sub c). split; auto. split; auto. split; auto. split; auto. rewrite Vr. exact C2.
          + exists o'. auto.
        - apply MK. intros j Hj. unfold cset at 1. destruct (Nat.eqb_spec j i); [lia|]. auto. }
      destruct (Nat.eqb_spec (nth r use 0) nop) as [Ej|Ej]; [exact REP|]. set (j := nth r use 0) in *.
      destruct (is_sum (nth j ops (VCon (v_zero B)))) eqn:ES; [|exact REP].
      assert (j <> 0) as J0. { unfold used in HU. intros Z. fold j in HU. rewrite Z in HU. discriminate. }
      destruct (USE r j eq_refl J0 Ej) as (rj & oj & Hj & Hin).
      destruct (pos_wf _ _ _ _ _ _ WF Hj) as ([Wj _] & _ & _). rewrite Forall_forall in Wj. specialize (Wj r Hin).
      assert (i < j) as Hij. { destruct (Nat.lt_trichotomy i j) as [|[E|E]]; auto; exfalso; [rewrite <- E in Hj; destruct (pos_inj _ _ _ _ _ _ _ _ H Hj); lia|]. pose proof (pos_mono _ _ _ _ _ _ _ _ _ H Hj E). lia. }
      destruct (O3 _ Hj) as (o' & Q1 & _ & Q3). cbn [fst snd] in Q1, Q3. rewrite (Q3 ltac:(lia)) in Q1. rewrite (nth_error_nth _ _ (VCon (v_zero B)) Q1) in *.
      cbn [fst snd]. split; [exact OK'|]. intros k c Hk HM. unfold cset at 1 in HM. destruct (Nat.eqb_spec k j) as [Ekj|Ekj].
      - injection HM as <-. subst k. exists rj, oj. split; auto. split; auto. rewrite NR, Nat.add_1_r. apply (splice_ok i r o j); auto.
        + destruct mi as [c|] eqn:EM; [apply MI; auto|apply (start_ok i r o H HS)].
        + destruct mi as [c|] eqn:EM; [apply MI; auto|apply (start_ok i r o H HS)].
        + rewrite M1 by lia. destruct (m j) as [cj|] eqn:EMj; [|auto]. right. destruct (M j cj ltac:(lia) EMj) as (rj' & oj' & P1 & P2 & P3). destruct (pos_inj _ _ _ _ _ _ _ _ Hj P1) as [<- <-]. auto.
      - unfold cset in HM. destruct (Nat.eqb_spec k i); [lia|]. rewrite M1 in HM by auto. destruct (M k c ltac:(lia) HM) as (rk & ok & P1 & P2 & P3). exists rk, ok. split; auto. split; auto. eapply cinv_mono; [|exact P3]. lia.
    Qed.
    Lemma sm_run c0 l0 : forall i r ops m, (forall e, In e (pos i r l0) -> In e (pos 1 (n + 1) l)) -> ops_ok c0 i ops -> m_ok i r m ->
      ops_ok c0 (i + length l0) (fst (fold_left (sm_op B nop use) (pos i r l0) (ops, m))).
    Proof.
      induction l0 as [|o l0 IH]; intros i r ops m H O M; cbn [pos fold_left length]; [now rewrite Nat.add_0_r|].
      destruct (sm_step c0 i r o ops m (H (i, r, o) (or_introl eq_refl)) O M) as [O1 M1]. destruct (sm_op B nop use (ops, m) (i, r, o)) as [ops1 m1]. cbn [fst snd] in O1, M1.
      replace (i + S (length l0)) with (S i + length l0) by lia. apply IH; auto. intros e He. apply H. now right.
    Qed.
  End Run.

  (** *** rev_depend: the operator that uses a value once *)
  Lemma F_named nop con s l : forall i r v, let z := nth v (fst (fold_right (rd_op B nop con) s (pos i r l))) 0 in
    z = nth v (fst s) 0 \/ z = nop \/ exists rj oj, In (z, rj, oj) (pos i r l) /\ In v (op_vals oj).
  Proof.
    induction l as [|o l IH]; intros i r v; cbn [pos fold_right]; cbv zeta; auto. rewrite rd_kds.
    match goal with |- context [fold_left _ ?k ?u] => destruct (fold_inc_val nop i k u v) as [H|[H|[H1 H2]]]; cbv zeta in * end.
    - rewrite H. destruct (IH (S i) (r + n_res o) v) as [E|[E|(rj & oj & E1 & E2)]]; cbv zeta in *; auto. right; right. exists rj, oj. split; auto. now right.
    - auto.
    - right; right. rewrite H1. apply in_map_iff in H2 as (k & <- & Hk). apply kds_in in Hk. exists r, o. split; auto. now left.
  Qed.

  (** operands of sums are numbers when the independents are [x] *)
  Definition sums_num (t : vtape A) (x : list A) : Prop :=
    exists s, eval B t x = Some s /\ forall o, In o (t_ops t) -> is_sum o = true -> forall v, In v (op_vals o) -> g_out GR (nth v (s_val s) nan) <> None.

  Lemma ops_eval n Vs : forall l l' c i0, length l' = length l -> (forall e, In e (pos i0 c l) -> exists o', nth_error l' (fst (fst e) - i0) = Some o' /\ repl Vs (snd (fst e)) (snd e) o') ->
    wf_ops B c l -> novec l -> forall s s', length (s_val s) = c -> ev_ops B n s l = Some s' -> s_val s' = Vs -> ev_ops B n s l' = Some s'.
  Proof.
    induction l as [|o l IH]; intros [|o' l'] c i0 L H W V s s' Hc E EV; try discriminate L; auto. cbn [ev_ops] in *. destruct W as [W1 W2]. inversion V as [|? ? V1 V2]; subst x l0.
    destruct (ev_op B n s o) as [s1|] eqn:E1; [|discriminate].
    destruct (ev_ok B LW n s o) as (s2 & E2 & L2 & _); [left; now rewrite Hc|auto|]. rewrite E1 in E2. injection E2 as <-.
    assert (ev_op B n s o' = Some s1) as ->.
    { destruct (H (i0, c, o)) as (o1 & Q1 & Q2); [now left|]. cbn [fst snd] in *. rewrite Nat.sub_diag in Q1. injection Q1 as <-. destruct Q2 as [->|(a & sb & -> & HS & HT & NC & HV)]; auto.
      cbn [ev_op op_vals]. destruct (ev_ext B n l V2 s1 s' E) as (w & Hw). rewrite EV in Hw.
      assert (exists z, s1 = put_val s [z] /\ nth_error Vs c = Some z) as (z & -> & Hz).
      { destruct o; try discriminate HS; cbn [ev_op op_vals] in E1; match type of E1 with context [rds ?a ?b] => destruct (rds a b) as [xs|]; [|discriminate] end;
        match type of E1 with context [sem ?a ?b ?c] => destruct (sem a b c) as [ys|] eqn:EY; [|discriminate] end; injection E1 as <-; pose proof (sem_length B True _ _ _ Logic.I (fun _ => LW) EY) as LY; cbn in LY;
        destruct ys as [|z [|]]; try discriminate LY; exists z; split; auto; rewrite Hw; cbn [put_val s_val]; rewrite <- app_assoc, nth_error_app2 by lia; rewrite Hc, Nat.sub_diag; reflexivity. }
      destruct (csum_val Vs a sb) as (xs & X & Y).
      { apply Forall_forall. intros v Hv. apply HT. apply in_app_iff; auto. } { apply Forall_forall. intros v Hv. apply HT. apply in_app_iff; auto. }
      assert (rds (a ++ sb) (s_val s) = Some xs) as ->.
      { rewrite <- X. rewrite <- (map_id (a ++ sb)) at 1. apply rds_map. intros v Hv. rewrite Hw. cbn [put_val s_val]. rewrite <- app_assoc. symmetry. apply nth_error_app1. rewrite Hc. apply HT. auto. }
      rewrite Y. f_equal. f_equal. f_equal. rewrite HV.
      pose proof (num_in Vs c NC) as E3. congruence. }
    apply (IH l' (c + n_res o) (S i0)); auto; [|lia]. intros [[i r] oo] He. destruct (H (i, r, oo)) as (o1 & Q1 & Q2); [now right|]. exists o1. cbn [fst snd] in *.
    apply pos_ge in He as [_ He]. replace (i - i0) with (S (i - S i0)) in Q1 by lia. auto.
  Qed.

  (** *** the new tape is well formed *)
  Lemma finish_in (o : vop A) c v : In v (c_add (finish o c) ++ c_sub (finish o c)) -> In v (c_add c ++ c_sub c) \/ In v (op_vals o).
  Proof.
    rewrite !in_app_iff. destruct o as [|u x|b x y| | | | | | | | |]; cbn; auto. destruct b; cbn; auto; rewrite ?in_app_iff; destruct (c_fd c), (c_sd c); cbn; tauto.
  Qed.
  Lemma start_in (o : vop A) v : In v (c_add (start o) ++ c_sub (start o)) -> In v (op_vals o).
  Proof. destruct o as [|u x|b x y| | | | | | | | |]; cbn; try easy; [destruct u; cbn; tauto|]. destruct b; cbn; try easy. destruct (x =? y); cbn; tauto. Qed.
  Lemma splice_in r ci (oj : vop A) cj v : In v (c_add (splice r ci oj cj) ++ c_sub (splice r ci oj cj)) -> In v (c_add cj ++ c_sub cj) \/ In v (c_add ci ++ c_sub ci).
  Proof.
    rewrite !in_app_iff. unfold splice. destruct oj as [|u x|b x y| | | | | | | | |]; cbn [andb c_add c_sub]; auto.
    - destruct u; cbn [c_add c_sub]; rewrite ?in_app_iff; tauto.
    - destruct b; cbn [c_add c_sub]; try tauto; destruct (y =? r), (y =? x); cbn [c_add c_sub]; rewrite ?in_app_iff; tauto.
  Qed.
  Section Wf.
    Variables (n nop : nat) (l : list (vop A)) (use : list nat).
    Hypothesis WF : wf_ops B (n + 1) l.
    Hypothesis USE : forall r j, nth r use 0 = j -> j <> 0 -> j <> nop -> exists rj oj, In (j, rj, oj) (pos 1 (n + 1) l) /\ In r (op_vals oj).
    Definition wrepl (r : nat) (o o' : vop A) : Prop := o' = o \/ exists a s, o' = VCsum a s /\ is_sum o = true /\ forall v, In v (a ++ s) -> v < r.
    Definition wops (c0 : vop A) (i : nat) (ops : list (vop A)) : Prop :=
      length ops = S (length l) /\ nth_error ops 0 = Some c0 /\
      forall e, In e (pos 1 (n + 1) l) -> exists o', nth_error ops (fst (fst e)) = Some o' /\ wrepl (snd (fst e)) (snd e) o' /\ (i <= fst (fst e) -> o' = snd e).
    Definition wm (i : nat) (m : cmap) : Prop := forall j c, i <= j -> m j = Some c -> exists rj oj, In (j, rj, oj) (pos 1 (n + 1) l) /\ forall v, In v (c_add c ++ c_sub c) -> v < rj.
    Lemma w_step c0 i r o ops m : In (i, r, o) (pos 1 (n + 1) l) -> wops c0 i ops -> wm i m ->
      wops c0 (S i) (fst (sm_op B nop use (ops, m) (i, r, o))) /\ wm (S i) (snd (sm_op B nop use (ops, m) (i, r, o))).
    Proof.
      intros H (O1 & O2 & O3) M.
      assert (wops c0 (S i) ops) as OK' by (split; [auto|]; split; [auto|]; intros e He; destruct (O3 e He) as (o' & Q1 & Q2 & Q3); exists o'; repeat split; auto; intros; apply Q3; lia).
      assert (forall m', (forall j, S i <= j -> m' j = m j) -> wm (S i) m') as MK by (intros m' Hm j c Hj HM; rewrite Hm in HM by auto; apply M; auto; lia).
      unfold sm_op. destruct (is_sum o && used use r) eqn:EB; [|split; auto]. apply andb_prop in EB as [HS HU].
      destruct (pos_wf i r o l 1 (n + 1) WF H) as ([W _] & _ & _). rewrite Forall_forall in W.
      set (mi := match m i with Some c => Some (finish o c) | None => None end).
      assert (forall c, mi = Some c -> forall v, In v (c_add c ++ c_sub c) -> v < r) as MI.
      { intros c Hc v Hv. unfold mi in Hc. destruct (m i) as [c1|] eqn:E; [|discriminate]. injection Hc as <-. destruct (M i c1 ltac:(lia) E) as (rj & oj & Q1 & Q2). destruct (pos_inj _ _ _ _ _ _ _ _ H Q1) as [<- <-]. apply finish_in in Hv as [Hv|Hv]; auto. }
      set (m1 := cset m i mi).
      assert (forall j, S i <= j -> m1 j = m j) as M1 by (intros j Hj; unfold m1, cset; destruct (Nat.eqb_spec j i); auto; lia).
      set (rep := match mi with Some c => (upd i (VCsum (c_add c) (c_sub c)) ops, cset m1 i None) | None => (ops, m1) end).
      assert (wops c0 (S i) (fst rep) /\ wm (S i) (snd rep)) as REP.
      { unfold rep. destruct mi as [c|] eqn:EM; cbn [fst snd]; [|split; auto]. split.
        - destruct OK' as (P1 & P2 & P3). split; [now rewrite upd_length|]. pose proof (pos_ge _ _ _ _ _ _ H) as [_ Hi1]. split.
          { rewrite nth_error_upd. destruct (Nat.eqb_spec 0 i); [lia|]. auto. }
          intros e He. destruct (P3 e He) as (o' & Q1 & Q2 & Q3). rewrite nth_error_upd. destruct (Nat.eqb_spec (fst (fst e)) i) as [Ei|Ei]; cbn [andb].
          + destruct e as [[i' r'] o1]. cbn [fst snd] in *. subst i'. destruct (pos_inj _ _ _ _ _ _ _ _ H He) as [<- <-].
            assert (i < length ops) as Hlen by (apply nth_error_Some; congruence). apply Nat.ltb_lt in Hlen. rewrite Hlen. eexists. split; [reflexivity|].
            split; [|lia]. right. exists (c_add c), (c_sub c). split; [auto|]. split; [auto|]. exact (MI c eq_refl).
          + exists o'. auto.
        - apply MK. intros j Hj. unfold cset at 1. destruct (Nat.eqb_spec j i); [lia|]. auto. }
      destruct (Nat.eqb_spec (nth r use 0) nop) as [Ej|Ej]; [exact REP|]. set (j := nth r use 0) in *.
      destruct (is_sum (nth j ops (VCon (v_zero B)))) eqn:ES; [|exact REP].
      assert (j <> 0) as J0. { unfold used in HU. intros Z. fold j in HU. rewrite Z in HU. discriminate. }
      destruct (USE r j eq_refl J0 Ej) as (rj & oj & Hj & Hin).
      destruct (pos_wf j rj oj l 1 (n + 1) WF Hj) as ([Wj _] & _ & _). rewrite Forall_forall in Wj. specialize (Wj r Hin).
      assert (i < j) as Hij. { destruct (Nat.lt_trichotomy i j) as [|[E|E]]; auto; exfalso; [rewrite <- E in Hj; destruct (pos_inj _ _ _ _ _ _ _ _ H Hj); lia|]. pose proof (pos_mono _ _ _ _ _ _ _ _ _ H Hj E). lia. }
      cbn [fst snd]. split; [exact OK'|]. intros k c Hk HM. unfold cset at 1 in HM. destruct (Nat.eqb_spec k j) as [Ekj|Ekj].
      - injection HM as <-. subst k. exists rj, oj. split; auto. intros v Hv. apply splice_in in Hv as [Hv|Hv].
        + rewrite M1 in Hv by lia. destruct (m j) as [cj|] eqn:EMj; [|easy]. destruct (M j cj ltac:(lia) EMj) as (rj' & oj' & P1 & P2). destruct (pos_inj _ _ _ _ _ _ _ _ Hj P1) as [<- <-]. auto.
        + assert (v < r); [|lia]. destruct mi as [c|] eqn:EM; [eapply MI; eauto|]. apply W. now apply start_in.
      - unfold cset in HM. destruct (Nat.eqb_spec k i); [lia|]. rewrite M1 in HM by auto. apply M; auto. lia.
    Qed.
    Lemma w_run c0 l0 : forall i r ops m, (forall e, In e (pos i r l0) -> In e (pos 1 (n + 1) l)) -> wops c0 i ops -> wm i m ->
      wops c0 (i + length l0) (fst (fold_left (sm_op B nop use) (pos i r l0) (ops, m))).
    Proof.
      induction l0 as [|o l0 IH]; intros i r ops m H O M; cbn [pos fold_left length]; [now rewrite Nat.add_0_r|].
      destruct (w_step c0 i r o ops m (H (i, r, o) (or_introl eq_refl)) O M) as [O1 M1]. destruct (sm_op B nop use (ops, m) (i, r, o)) as [ops1 m1]. cbn [fst snd] in O1, M1.
      replace (i + S (length l0)) with (S i + length l0) by lia. apply IH; auto. intros e He. apply H. now right.
    Qed.
  End Wf.
  Lemma wrepl_wf : forall l l' c i0, length l' = length l -> (forall e, In e (pos i0 c l) -> exists o', nth_error l' (fst (fst e) - i0) = Some o' /\ wrepl (snd (fst e)) (snd e) o') ->
    wf_ops B c l -> novec l -> wf_ops B c l' /\ novec l' /\ map n_res l' = map n_res l.
  Proof.
    induction l as [|o l IH]; intros [|o' l'] c i0 L H W V; try discriminate L; [repeat split; auto|]. destruct W as [W1 W2]. inversion V as [|? ? V1 V2]; subst.
    destruct (H (i0, c, o)) as (o1 & Q1 & Q2); [now left|]. cbn [fst snd] in *. rewrite Nat.sub_diag in Q1. injection Q1 as <-.
    assert (n_res o' = n_res o) as NR by (destruct Q2 as [->|(a & sb & -> & HS & _)]; auto; destruct o; try discriminate HS; auto).
    destruct (IH l' (c + n_res o) (S i0)) as (I1 & I2 & I3); auto.
    { intros [[i r] oo] He. destruct (H (i, r, oo)) as (o1 & Q1' & Q2'); [now right|]. exists o1. cbn [fst snd] in *. apply pos_ge in He as [_ He]. replace (i - i0) with (S (i - S i0)) in Q1' by lia. auto. }
    cbn [wf_ops map]. rewrite NR, I3. split; [split; auto|split; [|auto]].
    - destruct Q2 as [->|(a & sb & -> & HS & HT)]; auto. split; auto. cbn. now apply Forall_forall.
    - constructor; auto. destruct Q2 as [->|(a & sb & -> & _)]; auto.
  Qed.

  Theorem summation_correct t : wf_tape B t -> novec (t_ops t) ->
    exists t', summation B t = Some t' /\ t_nind t' = t_nind t /\ t_dep t' = t_dep t /\ n_op t' = n_op t /\ n_val t' = n_val t /\ wf_tape B t' /\ novec (t_ops t') /\
      forall x, length x = t_nind t -> sums_num t x -> eval B t' x = eval B t x.
  Proof.
    intros WT V. pose proof WT as (l & E & W & D). destruct (rev_depend_ok B LW t l E W D V) as (use & ll & con & RD & EF & LU & UD & UC).
    unfold summation. rewrite RD, E. cbn [pos tl n_res]. set (n := t_nind t) in *. eexists. split; [reflexivity|]. split; [reflexivity|]. split; [reflexivity|].
    assert (novec l) as VL by (rewrite E in V; now inversion V).
    assert (n_val t = n + 1 + list_sum (map n_res l)) as NV by (unfold n_val; rewrite E; cbn; unfold list_sum; fold n; lia).
    assert (forall r j, nth r use 0 = j -> j <> 0 -> j <> n_op t -> exists rj oj, In (j, rj, oj) (pos 1 (n + 1) l) /\ In r (op_vals oj)) as USE.
    { intros r j Hj J0 Jn. pose proof (F_named (n_op t) con (use0 t, repeat 0 (n_vec t)) l 1 (n + 1) r) as Q. cbv zeta in Q. fold n in EF. rewrite <- EF in Q. cbn [fst] in Q. rewrite Hj in Q. destruct Q as [Q|[Q|Q]]; auto; [|contradiction].
      exfalso. unfold use0 in Q. destruct (upds_val (t_dep t) (n_op t) r (repeat 0 (n_val t))) as [Z|Z]; rewrite Z in Q; [|congruence]. rewrite nth_repeat in Q. congruence. }
    assert (forall e : nat * nat * vop A, In e (pos 1 (n + 1) l) -> exists o', nth_error (VCon nan :: l) (fst (fst e)) = Some o' /\ o' = snd e) as NTH.
    { intros [[i r] o] He. exists o. cbn [fst snd]. split; auto. apply pos_nth in He as [He Hi]. destruct i; [lia|]. cbn. now replace i with (S i - 1) by lia. }
    destruct (w_run n (n_op t) l use W USE (VCon nan) l 1 (n + 1) (VCon nan :: l) (fun _ => None)) as (X1 & X2 & X3); auto.
    { split; [reflexivity|]. split; [reflexivity|]. intros e He. destruct (NTH e He) as (o' & N1 & ->). eexists. split; [exact N1|]. split; [now left|auto]. }
    { intros j c _ H. discriminate. }
    assert (forall ops, fst (fold_left (sm_op B (n_op t) use) (pos 1 (n + 1) l) (@pair (list (vop A)) cmap (VCon nan :: l) (fun _ => None))) = ops -> exists ops', ops = VCon nan :: ops' /\ length ops' = length l /\
      wf_ops B (n + 1) ops' /\ novec ops' /\ map n_res ops' = map n_res l) as OPS.
    { intros ops Hops. subst ops. revert X1 X2 X3. generalize (fst (fold_left (sm_op B (n_op t) use) (pos 1 (n + 1) l) (@pair (list (vop A)) cmap (VCon nan :: l) (fun _ => None)))). intros ops X1 X2 X3. destruct ops as [|c0 ops]; [discriminate|]. cbn in X2. injection X2 as ->. exists ops. split; auto. cbn in X1. split; [lia|].
      apply (wrepl_wf l ops (n + 1) 1); auto. intros [[i r] o] He. destruct (X3 _ He) as (o' & Q1 & Q2 & _). exists o'. cbn [fst snd] in *. apply pos_ge in He as [_ He]. destruct i; [lia|]. cbn in Q1. replace (S i - 1) with i by lia. auto. }
    destruct (OPS _ eq_refl) as (ops & OE & OL & OW & OV & ON).
    assert (n_val (mkVT n (fst (fold_left (sm_op B (n_op t) use) (pos 1 (n + 1) l) (@pair (list (vop A)) cmap (VCon nan :: l) (fun _ => None)))) (t_dep t)) = n_val t) as NVE.
    { rewrite NV. unfold n_val. cbn [t_nind t_ops]. rewrite OE. cbn [map n_res]. rewrite ON. cbn. unfold list_sum. lia. }
    split; [rewrite OE; unfold n_op; cbn [t_ops]; rewrite E; cbn; now rewrite OL|]. split; [exact NVE|].
    split. { exists ops. cbn [t_ops t_nind t_dep]. split; auto. split; auto. now rewrite NVE. }
    split. { cbn [t_ops]. rewrite OE. constructor; auto. }
    intros x Hx (s & ES & NUM). destruct (eval_ok B LW t x WT V Hx) as (s' & ES' & LS & _). rewrite ES in ES'. injection ES' as <-. rewrite ES.
    pose proof ES as ES2. unfold eval in ES2. rewrite E in ES2. change (ev_ops B n (mkVS (x ++ [nan]) [] 0 []) l = Some s) in ES2.
    assert (forall e, In e (pos 1 (n + 1) l) -> sat B (s_val s) (snd (fst e)) (snd e)) as ST.
    { assert (n + 1 = length (s_val (mkVS (x ++ [nan]) [] 0 []))) as LL by (cbn; rewrite app_length; cbn; lia). rewrite LL in *. eapply (ev_sat B LW); eauto. }
    rewrite E in NUM.
    pose proof (sm_run n (n_op t) (s_val s) l use ST ltac:(congruence) W (fun o H => NUM o (or_intror H)) USE (VCon nan) l 1 (n + 1) (VCon nan :: l) (fun _ => None)) as R.
    destruct R as (R1 & R2 & R3); auto.
    { split; [reflexivity|]. split; [reflexivity|]. intros e He. destruct (NTH e He) as (o' & N1 & ->). eexists. split; [exact N1|]. split; [now left|auto]. }
    { intros j c _ H. discriminate. }
    unfold eval. cbn [t_nind t_ops]. rewrite OE in *.
    change (ev_ops B n (mkVS (x ++ [nan]) [] 0 []) ops = Some s). apply (ops_eval n (s_val s) l ops (n + 1) 1); auto.
    - intros [[i r] o] He. destruct (R3 _ He) as (o' & Q1 & Q2 & _). exists o'. cbn [fst snd] in *. apply pos_ge in He as [_ He]. destruct i; [lia|]. cbn in Q1. replace (S i - 1) with i by lia. auto.
    - cbn. rewrite app_length, Hx. auto.
  Qed.
End VG.
