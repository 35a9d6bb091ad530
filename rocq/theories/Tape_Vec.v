(** Structure of the VecAD part of a recording: each vector occupies a block of
    var_vecad_ind_ (its length, then its elements), the blocks are disjoint, and each
    load and store refers to one of them.  No assumption on values is needed. *)
From Coq Require Import ZArith List Bool Arith Lia.
From Verif Require Import Base_Spec Op_Model Tape_Spec Tape_Model Tape_Proof Tape_Proof2 Tape_Proof3 Tape_Proof7 Tape_Proof10.
Import ListNotations.

Definition is_vec (o : opvar) : bool :=
  match o with LdpOp | LdvOp | StppOp | StpvOp | StvpOp | StvvOp => true | _ => false end.
(** blocks of [vec] that start at the positions in [hd] *)
Definition blocks (vec : list nat) (hd : list nat) : Prop :=
  (forall h, In h hd -> h + nth h vec 0 < length vec) /\
  (forall h h', In h hd -> In h' hd -> h < h' -> h + nth h vec 0 < h').
Definition vec_at (hd : list nat) (i : ins) : Prop :=
  is_vec (i_op i) = true -> exists h, In h hd /\ nth 0 (i_arg i) 0 = S h.

Section Vec.
  Context {b : base}.
  Notation T := (bt b).
  Variable tid : nat.
  Implicit Types r : rec b.

  Definition vops (hd : list nat) r : Prop :=
    exists l, decode (r_op r) (r_arg r) 0 = Some l /\ Forall (vec_at hd) l.
  (** nothing about VecAD was recorded *)
  Definition vg r r' : Prop := r_vec r' = r_vec r /\ forall hd, vops hd r -> vops hd r'.

  Lemma vg_refl r : vg r r.
  Proof. split; auto. Qed.
  Lemma vg_trans r1 r2 r3 : vg r1 r2 -> vg r2 r3 -> vg r1 r3.
  Proof. intros [A B] [C D]. split; [congruence|auto]. Qed.
  Lemma vg_same r r' : r_vec r' = r_vec r -> r_op r' = r_op r -> r_arg r' = r_arg r -> vg r r'.
  Proof. intros A B C. split; auto. intros hd. unfold vops. now rewrite B, C. Qed.
  Lemma vops_add hd r r' o a : r_op r' = r_op r ++ [o] -> r_arg r' = r_arg r ++ a -> n_actual o a = length a ->
    (is_vec o = true -> exists h, In h hd /\ nth 0 a 0 = S h) -> vops hd r -> vops hd r'.
  Proof.
    intros A B C D (l & E & F). unfold vops. rewrite A, B. eexists. split; [apply decode_app; eauto|].
    apply Forall_app. split; auto.
  Qed.
  Lemma vg_put_op_arg r a o : n_actual o a = length a -> is_vec o = false -> vg r (fst (put_op (put_arg r a) o)).
  Proof. intros A B. split; [reflexivity|]. intros hd. apply (vops_add hd r _ o a); auto. rewrite B. discriminate. Qed.
  Lemma vg_put_con_par r v : vg r (fst (put_con_par r v)).
  Proof. unfold put_con_par. destruct (_ && _); [apply vg_refl|]. now apply vg_same. Qed.
  Lemma vg_rec_var r o a v : n_actual o a = length a -> is_vec o = false -> vg r (fst (rec_var tid r o a v)).
  Proof. apply vg_put_op_arg. Qed.
  Lemma vg_rec_dyn r o a v : vg r (fst (rec_dyn tid r o a v)).
  Proof. now apply vg_same. Qed.
  Lemma vg_par_addr r a : vg r (fst (par_addr tid r a)).
  Proof. unfold par_addr. destruct (is_dyn tid a); [apply vg_refl|apply vg_put_con_par]. Qed.
  Lemma vg_rec_dyn2 r o x y v : vg r (fst (rec_dyn2 tid r o x y v)).
  Proof.
    unfold rec_dyn2.
    pose proof (vg_par_addr r x). destruct (par_addr tid r x) as [r1 p0].
    pose proof (vg_par_addr r1 y). destruct (par_addr tid r1 y) as [r2 p1]. cbn [fst] in *.
    eapply vg_trans; [eauto|]. eapply vg_trans; [eauto|]. apply vg_rec_dyn.
  Qed.
  Lemma vg_cexp_arg r x k : vg r (fst (fst (cexp_arg tid r x k))).
  Proof.
    unfold cexp_arg. destruct (is_constant tid x); [|apply vg_refl].
    pose proof (vg_put_con_par r (a_val x)). now destruct (put_con_par r (a_val x)).
  Qed.
  Ltac vgtac :=
    match goal with
    | |- vg ?r ?r => apply vg_refl
    | |- vg ?r (fst (rec_var _ _ _ _ _)) => apply vg_rec_var; reflexivity
    | |- vg ?r (fst (rec_dyn _ _ _ _ _)) => apply vg_rec_dyn
    | |- vg ?r (fst (rec_dyn2 _ _ _ _ _ _)) => apply vg_rec_dyn2
    | |- vg ?r (fst (?r, _)) => apply vg_refl
    | |- vg ?r (fst (if ?c then _ else _)) => destruct c; vgtac
    | |- vg ?r (fst (let '(_, _) := par_addr tid ?r ?a in _)) =>
        let H := fresh in pose proof (vg_par_addr r a) as H; destruct (par_addr tid r a) as [? ?];
        cbn [fst] in H; eapply vg_trans; [exact H|]; vgtac
    | |- vg ?r (fst (let '(_, _) := put_con_par ?r ?a in _)) =>
        let H := fresh in pose proof (vg_put_con_par r a) as H; destruct (put_con_par r a) as [? ?];
        cbn [fst] in H; eapply vg_trans; [exact H|]; vgtac
    end.
  Lemma vg_ad_bin o r x y : vg r (fst (ad_bin tid o r x y)).
  Proof. destruct o; cbn [ad_bin]; unfold ad_add, ad_sub, ad_mul, ad_div, ad_azmul, ad_pow; vgtac. Qed.
  Lemma vg_ad_eq o r x y : vg r (fst (ad_eq tid o r x y)).
  Proof. destruct o; cbn [ad_eq]; unfold ad_add_eq, ad_sub_eq, ad_mul_eq, ad_div_eq; vgtac. Qed.
  Lemma vg_ad_un u r x : vg r (fst (ad_un tid u r x)).
  Proof. unfold ad_un. destruct u; cbn [un_op un_dyn]; vgtac. Qed.
  Lemma vg_ad_dis k r x : vg r (fst (ad_dis tid k r x)).
  Proof. unfold ad_dis. vgtac. Qed.
  Lemma vg_ad_cond c r l rt t f : vg r (fst (ad_cond tid c r l rt t f)).
  Proof.
    unfold ad_cond. destruct (_ && _); [apply vg_refl|].
    pose proof (vg_cexp_arg r l 1). destruct (cexp_arg tid r l 1) as [[r1 a2] m0].
    pose proof (vg_cexp_arg r1 rt 2). destruct (cexp_arg tid r1 rt 2) as [[r2 a3] m1].
    pose proof (vg_cexp_arg r2 t 4). destruct (cexp_arg tid r2 t 4) as [[r3 a4] m2].
    pose proof (vg_cexp_arg r3 f 8). destruct (cexp_arg tid r3 f 8) as [[r4 a5] m3].
    cbn [fst] in *.
    eapply vg_trans; [eauto|]. eapply vg_trans; [eauto|]. eapply vg_trans; [eauto|].
    eapply vg_trans; [eauto|]. vgtac.
  Qed.
  Definition cmpo (o : opvar) : Prop := (forall p q, n_actual o [p; q] = 2) /\ is_vec o = false.
  Lemma vg_rec_ord vv vp pv pp r x y : cmpo vv -> cmpo vp -> cmpo pv -> cmpo pp -> vg r (rec_ord tid vv vp pv pp r x y).
  Proof.
    intros [A1 A2] [B1 B2] [C1 C2] [D1 D2].
    unfold rec_ord. destruct (is_var tid x), (is_var tid y); try (apply vg_put_op_arg; auto; fail).
    - pose proof (vg_par_addr r y). destruct (par_addr tid r y). cbn [fst] in *.
      eapply vg_trans; [eauto|]. apply vg_put_op_arg; auto.
    - pose proof (vg_par_addr r x). destruct (par_addr tid r x). cbn [fst] in *.
      eapply vg_trans; [eauto|]. apply vg_put_op_arg; auto.
    - destruct (_ || _); [|apply vg_refl].
      pose proof (vg_par_addr r x). destruct (par_addr tid r x) as [r1 p0].
      pose proof (vg_par_addr r1 y). destruct (par_addr tid r1 y) as [r2 p1]. cbn [fst] in *.
      eapply vg_trans; [eauto|]. eapply vg_trans; [eauto|]. apply vg_put_op_arg; auto.
  Qed.
  Lemma vg_rec_eqn vv pv pp r x y : cmpo vv -> cmpo pv -> cmpo pp -> vg r (rec_eqn tid vv pv pp r x y).
  Proof.
    intros [A1 A2] [C1 C2] [D1 D2].
    unfold rec_eqn. destruct (is_var tid x), (is_var tid y); try (apply vg_put_op_arg; auto; fail).
    - pose proof (vg_par_addr r y). destruct (par_addr tid r y). cbn [fst] in *.
      eapply vg_trans; [eauto|]. apply vg_put_op_arg; auto.
    - pose proof (vg_par_addr r x). destruct (par_addr tid r x). cbn [fst] in *.
      eapply vg_trans; [eauto|]. apply vg_put_op_arg; auto.
    - destruct (_ || _); [|apply vg_refl].
      pose proof (vg_par_addr r x). destruct (par_addr tid r x) as [r1 p0].
      pose proof (vg_par_addr r1 y). destruct (par_addr tid r1 y) as [r2 p1]. cbn [fst] in *.
      eapply vg_trans; [eauto|]. eapply vg_trans; [eauto|]. apply vg_put_op_arg; auto.
  Qed.
  Lemma vg_ad_cmp c r x y : vg r (fst (ad_cmp tid c r x y)).
  Proof.
    unfold ad_cmp. destruct (negb (r_cmp r)); [apply vg_refl|]. cbn [fst].
    destruct c, (b_cmp _ _ _); unfold rec_lt, rec_le, rec_eq, rec_ne; first [apply vg_rec_ord|apply vg_rec_eqn]; split; reflexivity.
  Qed.
  Lemma vg_con_list l : forall r, vg r (fst (put_con_list r l)).
  Proof.
    induction l as [|v l IH]; intros r; cbn; [apply vg_refl|].
    pose proof (vg_put_con_par r v). destruct (put_con_par r v) as [r1 p].
    pose proof (IH r1). destruct (put_con_list r1 l) as [r2 ps]. cbn [fst] in *.
    eapply vg_trans; eauto.
  Qed.

  (** the recording and the VecAD objects *)
  Definition vwf (hd : list nat) r : Prop := blocks (r_vec r) hd /\ vops hd r.
  Definition voff (hd : list nat) (v : VecAD b) : Prop := vec_var tid v = true -> exists h, In h hd /\ v_off v = S h.
  Lemma vwf_vg hd r r' : vg r r' -> vwf hd r -> vwf hd r'.
  Proof. intros [A B] [C D]. split; [now rewrite A|auto]. Qed.
  Lemma vec_at_incl hd hd' i : incl hd hd' -> vec_at hd i -> vec_at hd' i.
  Proof. intros I H V. destruct (H V) as (h & A & B). eauto. Qed.
  Lemma voff_incl hd hd' v : incl hd hd' -> voff hd v -> voff hd' v.
  Proof. intros I H V. destruct (H V) as (h & A & B). eauto. Qed.

  Lemma vwf_on_tape hd r v r' v' : vwf hd r -> vec_on_tape tid r v = (r', v') ->
    exists hd', incl hd hd' /\ vwf hd' r' /\ voff hd' v'.
  Proof.
    unfold vec_on_tape. intros W. pose proof (vg_con_list (v_data v) r) as A.
    destruct (put_con_list r (v_data v)) as [r1 ta]. cbn [fst] in A. apply (vwf_vg hd) in A as [[B1 B2] C]; auto.
    rewrite put_var_vecad_eq. intros H. injection H as <- <-. exists (length (r_vec r1) :: hd).
    split; [now apply incl_tl, incl_refl|]. split; [split|].
    - cbn [r_vec put_vec]. assert (nth (length (r_vec r1)) (r_vec r1 ++ length ta :: ta) 0 = length ta) as N
        by (rewrite app_nth2, Nat.sub_diag; auto).
      assert (forall h, In h hd -> h < length (r_vec r1)) as HL by (intros h Hh; specialize (B1 h Hh); lia).
      split.
      + intros h [<-|Hh]; rewrite app_length; cbn; [lia|]. specialize (B1 h Hh). rewrite app_nth1 by auto. lia.
      + intros h h' [<-|Hh] [<-|Hh'] L; [lia|apply HL in Hh'; lia| |].
        * rewrite app_nth1 by auto. auto.
        * rewrite app_nth1 by auto. auto.
    - destruct C as (l & E & F). exists l. split; [exact E|]. eapply Forall_impl; [|exact F]. intros i. apply vec_at_incl. now apply incl_tl, incl_refl.
    - intros _. exists (length (r_vec r1)). split; [now left|reflexivity].
  Qed.
  Lemma vwf_index hd r v i r' v' : vwf hd r -> voff hd v -> vec_index tid r v i = Some (r', v') ->
    exists hd', incl hd hd' /\ vwf hd' r' /\ voff hd' v'.
  Proof.
    intros W O. unfold vec_index. destruct (index_of _ _); [|discriminate].
    destruct (_ && _); [|destruct (negb (vec_var tid v))]; intros H; injection H as H; try (injection H as <- <-); subst;
      try (exists hd; auto using incl_refl; fail).
    eapply vwf_on_tape; eauto.
  Qed.
  Lemma vec_index_var r v i r' v' : vec_index tid r v i = Some (r', v') -> vec_var tid v' = true \/ negb (is_dyn tid i || is_var tid i) = true.
  Proof.
    unfold vec_index. destruct (index_of _ _); [|discriminate]. destruct (vec_var tid v) eqn:E; cbn [negb andb].
    - intros H. injection H as <- <-. auto.
    - destruct (negb (is_dyn tid i || is_var tid i)) eqn:F; [auto|]. unfold vec_on_tape.
      destruct (put_con_list r (v_data v)). destruct (put_var_vecad _ _). intros H. injection H as <- <-. left. unfold vec_var. cbn. now rewrite Nat.eqb_refl.
  Qed.
  Lemma vwf_load hd r v i r' a : vwf hd r -> voff hd v -> (vec_var tid v = true \/ negb (is_dyn tid i || is_var tid i) = true) ->
    vec_load tid r v i = Some (r', a) -> vwf hd r'.
  Proof.
    intros W O VI. unfold vec_load. destruct (index_of _ _); [|discriminate].
    destruct (negb (vec_var tid v) && _) eqn:NV. { intros H; injection H as <- <-. auto. }
    assert (vec_var tid v = true) as VV.
    { destruct VI as [VI|VI]; auto. rewrite VI in NV. rewrite andb_true_r in NV. now apply negb_false_iff in NV. }
    assert (vg r (fst (if negb (is_dyn tid i || is_var tid i) then put_con_par r (a_val i)
       else (r, a_taddr i)))) as A by (destruct (negb _); [apply vg_put_con_par|apply vg_refl]).
    destruct (if negb _ then _ else _) as [r1 p]. cbn [fst] in *.
    intros H. injection H as H _. subst r'. apply (vwf_vg hd) in A as [A1 A2]; auto. split; [exact A1|].
    refine (vops_add hd r1 _ (if is_var tid i then LdvOp else LdpOp) [v_off v; p; r_nload r1] _ _ _ _ A2); [reflexivity|reflexivity| |].
    - destruct (is_var tid i); reflexivity.
    - intros _. apply O. auto.
  Qed.
  Lemma vwf_store hd r v i x r' v' : vwf hd r -> voff hd v ->
    vec_store tid r v i x = Some (r', v') -> exists hd', incl hd hd' /\ vwf hd' r' /\ voff hd' v'.
  Proof.
    intros W O. unfold vec_store. destruct (index_of _ _) as [k|]; [|discriminate].
    set (v1 := mkVec _ _ _ _). assert (voff hd v1) as O1 by exact O.
    destruct (negb (vec_var tid v1) && _). { intros H; injection H as <- <-. exists hd. auto using incl_refl. }
    assert (exists hd', incl hd hd' /\ vwf hd' (fst (if negb (vec_var tid v1) then vec_on_tape tid r v1 else (r, v1))) /\
      voff hd' (snd (if negb (vec_var tid v1) then vec_on_tape tid r v1 else (r, v1))) /\
      vec_var tid (snd (if negb (vec_var tid v1) then vec_on_tape tid r v1 else (r, v1))) = true) as (hd' & I & W1 & O2 & V2).
    { destruct (vec_var tid v1) eqn:E; cbn [negb fst snd]; [exists hd; auto using incl_refl|].
      destruct (vec_on_tape tid r v1) as [r1 v2] eqn:F. destruct (vwf_on_tape hd r v1 r1 v2 W F) as (hd' & A & B & C). exists hd'.
      split; [auto|split; [auto|split; [auto|]]]. unfold vec_on_tape in F. destruct (put_con_list r (v_data v1)). destruct (put_var_vecad _ _).
      injection F as <- <-. unfold vec_var. cbn. now rewrite Nat.eqb_refl. }
    destruct (if negb (vec_var tid v1) then _ else _) as [r1 v2]. cbn [fst snd] in W1, O2, V2.
    assert (vg r1 (fst (if negb (is_dyn tid i || is_var tid i) then put_con_par r1 (a_val i)
       else (r1, a_taddr i)))) as B by (destruct (negb _); [apply vg_put_con_par|apply vg_refl]).
    destruct (if negb (is_dyn tid i || is_var tid i) then _ else _) as [r2 p]. cbn [fst] in B.
    assert (vg r2 (fst (if negb (is_dyn tid x || is_var tid x) then put_con_par r2 (a_val x)
       else (r2, a_taddr x)))) as C by (destruct (negb _); [apply vg_put_con_par|apply vg_refl]).
    destruct (if negb (is_dyn tid x || is_var tid x) then _ else _) as [r3 q]. cbn [fst] in C.
    intros H. injection H as H E. subst r' v'. exists hd'. split; [auto|]. split; [|auto].
    apply (vwf_vg hd') in B; auto. apply (vwf_vg hd') in C as [C1 C2]; auto. split; [exact C1|].
    refine (vops_add hd' r3 _ (if is_var tid x then (if is_var tid i then StvvOp else StpvOp) else (if is_var tid i then StvpOp else StppOp)) [v_off v2; p; q] _ _ _ _ C2); [reflexivity|reflexivity| |].
    - destruct (is_var tid x), (is_var tid i); reflexivity.
    - intros _. apply O2. auto.
  Qed.

  Definition vst (s : state b) : Prop := exists hd, vwf hd (st_rec s) /\ forall v, voff hd (st_v s v).
  Lemma vst_step i s s' : vst s -> step_rec tid i s = Some s' -> vst s'.
  Proof.
    intros (hd & W & O) H.
    destruct i as [d c|d x|u d x|o d l rt|o d rt|c d l rt t f|k d x|d v i|v i x]; cbn [step_rec] in H.
    1-7: injection H as <-; exists hd; cbn [set_ad st_rec st_v]; split; [|exact O].
    - auto.
    - auto.
    - eapply vwf_vg; [apply vg_ad_un|auto].
    - eapply vwf_vg; [apply vg_ad_bin|auto].
    - eapply vwf_vg; [apply vg_ad_eq|auto].
    - eapply vwf_vg; [apply vg_ad_cond|auto].
    - eapply vwf_vg; [apply vg_ad_dis|auto].
    - destruct (vec_index tid (st_rec s) (st_v s v) (st_r s i)) as [[r1 v1]|] eqn:E; [|discriminate].
      destruct (vec_load tid r1 v1 (st_r s i)) as [[r2 a]|] eqn:F; [|discriminate]. injection H as <-.
      destruct (vwf_index _ _ _ _ _ _ W (O v) E) as (hd1 & I1 & W1 & O1).
      pose proof (vwf_load _ _ _ _ _ _ W1 O1 (vec_index_var _ _ _ _ _ E) F) as W2.
      exists hd1. split; [exact W2|]. intros j. cbn [st_v]. unfold fset. destruct (j =? v); auto. eapply voff_incl; eauto.
    - destruct (vec_index tid (st_rec s) (st_v s v) (st_r s i)) as [[r1 v1]|] eqn:E; [|discriminate].
      destruct (vec_store tid r1 v1 (st_r s i) (st_r s x)) as [[r2 v2]|] eqn:F; [|discriminate]. injection H as <-.
      destruct (vwf_index _ _ _ _ _ _ W (O v) E) as (hd1 & I1 & W1 & O1).
      destruct (vwf_store _ _ _ _ _ _ _ W1 O1 F) as (hd2 & I2 & W2 & O2).
      exists hd2. split; [exact W2|]. intros j. cbn [st_v]. unfold fset. destruct (j =? v); auto.
      eapply voff_incl; [|apply O]. eapply incl_tran; eauto.
  Qed.
  Lemma vg_dep_loop ys : forall r, vg r (fst (dep_loop tid r ys)).
  Proof.
    induction ys as [|y ys IH]; intros r; cbn [dep_loop]; [apply vg_refl|].
    assert (vg r (fst (if is_parameter tid y then record_par_op tid r y else (r, a_taddr y)))) as A.
    { destruct (is_parameter tid y); [|apply vg_refl]. unfold record_par_op. destruct (is_dynamic tid y); [now apply vg_put_op_arg|].
      pose proof (vg_put_con_par r (a_val y)). destruct (put_con_par r (a_val y)) as [r1 p]. cbn [fst] in *.
      eapply vg_trans; [eauto|]. now apply vg_put_op_arg. }
    destruct (if is_parameter tid y then _ else _) as [r1 t].
    pose proof (IH r1). destruct (dep_loop tid r1 ys) as [r2 ts]. cbn [fst] in *. eapply vg_trans; eauto.
  Qed.
  Lemma vwf_exec p : forall s r dep, vst s -> exec tid p s = Some (r, dep) -> exists hd, vwf hd r.
  Proof.
    induction p as [ys|i p IH|c l rt pt IHt pf IHf]; intros s r dep S H; cbn [exec] in H.
    - destruct S as (hd & W & O). pose proof (vg_dep_loop (map (st_r s) ys) (st_rec s)) as A.
      destruct (dep_loop tid (st_rec s) (map (st_r s) ys)) as [r1 d1]. injection H as <- <-. cbn [fst] in A.
      exists hd. apply (vwf_vg hd) in A as [A1 A2]; auto. split; [exact A1|].
      refine (vops_add hd r1 _ EndOp [] _ _ _ _ A2); [reflexivity|cbn; now rewrite app_nil_r|reflexivity|discriminate].
    - destruct (step_rec tid i s) eqn:E; [|discriminate]. eapply IH; [|exact H]. eapply vst_step; eauto.
    - destruct S as (hd & W & O). pose proof (vg_ad_cmp c (st_rec s) (st_r s l) (st_r s rt)) as A.
      destruct (ad_cmp tid c (st_rec s) (st_r s l) (st_r s rt)) as [r1 res]. cbn [fst] in A.
      assert (vst (mkState (st_r s) (st_v s) r1)) as S1 by (exists hd; split; [eapply vwf_vg; eauto|auto]).
      destruct res; eauto.
  Qed.
  Lemma vst_init cmp n np (e : nat -> AD b) ev : (forall v, v_tid (ev v) <> tid) ->
    vst (independent tid cmp n np e ev).
  Proof.
    intros Hf. destruct (independent_spec tid cmp n np e ev) as ((h & A) & B & C). exists [].
    split; [split|].
    - split; [intros ? []|intros h1 h2 []].
    - rewrite A. cbn [r_op r_arg].
      assert (forall m nv, decode (repeat InvOp m) [] nv = Some (map (fun j => mkIns InvOp [] j) (seq nv m))) as K.
      { induction m as [|m IH]; intros nv; cbn; auto. rewrite IH. rewrite Nat.add_1_r, Nat.sub_succ, Nat.sub_0_r. reflexivity. }
      unfold vops. cbn [r_op r_arg]. cbn [decode n_actual num_arg length Nat.ltb Nat.leb skipn firstn num_res Nat.add Nat.sub]. rewrite K.
      eexists. split; [reflexivity|]. constructor; [intros H; discriminate|]. apply Forall_forall. intros i Hi. apply in_map_iff in Hi as (j & <- & _). intros H; discriminate.
    - intros v Hv. rewrite B in Hv. unfold vec_var in Hv. apply andb_true_iff in Hv as [Hv _]. apply Nat.eqb_eq in Hv. now apply Hf in Hv.
  Qed.
End Vec.

(** the form used for the sweeps *)
Lemma recorded_vec {b : base} tid cmp n np (e : nat -> AD b) ev p V0 l2v (f : adfun b) :
  (forall v, v_tid (ev v) <> tid) -> record_fun tid cmp n np e ev p V0 l2v = Some f ->
  exists hd, vwf hd (g_rec f).
Proof.
  intros Hf. unfold record_fun. destruct (exec _ _ _) as [[r dep]|] eqn:E; [|discriminate]. intros H. injection H as <-.
  eapply vwf_exec; [|exact E]. now apply vst_init.
Qed.
