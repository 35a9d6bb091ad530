(** Call histories on a recorded function (used by Tape_Prop). *)
From Coq Require Import ZArith List Bool Arith Lia.
From Verif Require Import Base_Spec Op_Model Tape_Spec Tape_Model Tape_Proof Tape_Proof2 Tape_Proof5
  Tape_Proof8 Tape_Val Tape_Proof10.
Import ListNotations.

Section Hist.
  Context {b : base}.
  Notation T := (bt b).

  (** what a user may do with an ADFun object between two zero order sweeps *)
  Inductive call :=
  | NewDynamic (d : list T)            (* f.new_dynamic(d)          *)
  | Forward0 (x : list T)              (* f.Forward(0, x)           *)
  | CompareCount (c : nat).            (* f.compare_change_count(c) *)

  Fixpoint run (f : adfun b) (h : list call) : option (adfun b) :=
    match h with
    | [] => Some f
    | NewDynamic d :: h' => run (new_dynamic f d) h'
    | Forward0 x :: h' => match forward0 f x with Some (_, f') => run f' h' | None => None end
    | CompareCount c :: h' => run (set_compare_change_count f c) h'
    end.

  (** arguments have the sizes the API demands *)
  Definition sized (n np : nat) (c : call) : Prop :=
    match c with NewDynamic d => length d = np | Forward0 x => length x = n | CompareCount _ => True end.

  (** value of the independent dynamic parameters, of compare_change_count,
      after a history *)
  Fixpoint cur_dyn (d0 : list T) (h : list call) : list T :=
    match h with [] => d0 | NewDynamic d :: h' => cur_dyn d h' | _ :: h' => cur_dyn d0 h' end.
  Fixpoint cur_cc (c0 : nat) (h : list call) : nat :=
    match h with [] => c0 | CompareCount c :: h' => cur_cc c h' | _ :: h' => cur_cc c0 h' end.

  Lemma forward0_cc (f : adfun b) x ys f' : forward0 f x = Some (ys, f') -> g_cc f' = g_cc f.
  Proof.
    unfold forward0. destruct (decode _ _ _); [|discriminate].
    destruct (sweep0 _ _ _ _ _); [|discriminate]. intros H. injection H as <- <-. auto.
  Qed.
  Lemma run_cc h : forall (f g : adfun b), run f h = Some g -> g_cc g = cur_cc (g_cc f) h.
  Proof.
    induction h as [|[d|x|c] h IH]; intros f g H; cbn in *.
    - now injection H as <-.
    - now apply IH in H.
    - destruct (forward0 f x) as [[ys f']|] eqn:E; [|discriminate].
      apply IH in H. now rewrite (forward0_cc _ _ _ _ E) in H.
    - now apply IH in H.
  Qed.

  (** follow and eval *)
  Lemma follow_eval (p : prog T) : forall s,
    follow p s (decisions p s) = match eval p s with Some ys => Some (ys, 0) | None => None end.
  Proof.
    induction p as [zs|i p IH|c l r pt IHt pf IHf]; intros s; cbn; auto.
    - destruct (step_spec i s); auto.
    - destruct (b_cmp c (sr s l) (sr s r)) eqn:D; cbn; rewrite ?IHt, ?IHf; destruct (eval _ s); auto.
  Qed.

  (** the recorded path is followed with no change iff it is the path of the new values *)
  Lemma follow_zero (p : prog T) : forall s ds ys m, follow p s ds = Some (ys, m) ->
    (forall s0, ds = decisions p s0 -> (m = 0 <-> decisions p s = ds)).
  Proof.
    induction p as [zs|i p IH|c l r pt IHt pf IHf]; intros s ds ys m H s0 E; cbn in *.
    - subst ds. injection H as <- <-. split; auto.
    - destruct (step_spec i s) as [s'|]; [|discriminate].
      destruct (step_spec i s0) as [s0'|] eqn:E0; [eapply IH; eauto|].
      (* the recorded run failed here *)
      subst ds. clear - H.
      revert s' ys m H. induction p as [zs|i p IH|c l r pt IHt pf IHf]; intros s' ys m H; cbn in *.
      + injection H as <- <-. tauto.
      + destruct (step_spec i s'); [|discriminate]. eauto.
      + discriminate.
    - destruct ds as [|d ds]; [discriminate|].
      destruct (follow (if d then pt else pf) s ds) as [[zs k]|] eqn:F; [|discriminate].
      injection H as <- <-.
      destruct (b_cmp c (sr s0 l) (sr s0 r)); injection E as -> E; cbn in *.
      + specialize (IHt _ _ _ _ F _ E).
        destruct (b_cmp c (sr s l) (sr s r)); cbn.
        * rewrite IHt. split; [now intros ->|]. intros H; now injection H.
        * split; discriminate.
      + specialize (IHf _ _ _ _ F _ E).
        destruct (b_cmp c (sr s l) (sr s r)); cbn.
        * split; discriminate.
        * rewrite IHf. split; [now intros ->|]. intros H; now injection H.
  Qed.

  (** programs without pow and conditional expressions *)
  Fixpoint simple (p : prog T) : bool :=
    match p with
    | Pret _ => true
    | Pstep (Ibin Bpow _ _ _) _ => false
    | Pstep (Icond _ _ _ _ _ _) _ => false
    | Pstep _ p' => simple p'
    | Pif _ _ _ pt pf => simple pt && simple pf
    end.
  Lemma simple_ok tid p : forall s, simple p = true -> prog_ok tid p s.
  Proof.
    induction p as [zs|i p IH|c l r pt IHt pf IHf]; intros s H; cbn [prog_ok]; auto.
    - assert (simple p = true /\ instr_ok tid i s) as [H1 H2].
      { destruct i; cbn in *; try (split; [auto|exact I]); try discriminate.
        destruct o; try (split; [auto|exact I]); try discriminate. }
      split; auto. destruct (step_rec tid i s); auto.
    - cbn in H. apply andb_true_iff in H as [A B].
      destruct (ad_cmp tid c (st_rec s) (st_r s l) (st_r s r)) as [rc res]. destruct res; auto.
  Qed.

  (** the objects before Independent belong to no recording numbered [tid] *)
  Definition not_on_tape (tid : nat) (e : nat -> AD b) (ev : nat -> VecAD b) : Prop :=
    (forall i, a_tid (e i) <> tid) /\ (forall i, v_tid (ev i) <> tid).
  (** their Base values *)
  Definition base_values (e : nat -> AD b) (ev : nat -> VecAD b) : senv b :=
    mkEnv (fun i => a_val (e i)) (fun i => v_data (ev i)).
  Definition dyn_values (n np : nat) (e : nat -> AD b) : list T :=
    map (fun j => a_val (e (n + j))) (seq 0 np).

  Section Main.
    Hypothesis L : base_laws b.
    Variables (tid : nat) (cmp : bool) (n np : nat) (e : nat -> AD b) (ev : nat -> VecAD b) (p : prog T).
    Variables (V0 : nat -> T) (l2v : nat -> nat) (f : adfun b).
    Hypothesis tid0 : tid <> 0.
    Hypothesis fresh : not_on_tape tid e ev.
    Hypothesis Hrec : record_fun tid cmp n np e ev p V0 l2v = Some f.
    Hypothesis Hok : prog_ok tid p (independent tid cmp n np e ev).

    Lemma fok_run h : forall f0 cur, fok n np f f0 cur -> Forall (sized n np) h ->
      forall g, run f0 h = Some g -> fok n np f g (cur_dyn cur h).
    Proof.
      induction h as [|[d|x|c] h IH]; intros f0 cur F S g H; cbn in *; inversion S; subst.
      - now injection H as <-.
      - apply (IH (new_dynamic f0 d) d); auto. eapply fok_new_dynamic; eauto. apply fresh.
      - destruct (forward0 f0 x) as [[ys f']|] eqn:E; [|discriminate]. apply (IH f' cur); auto.
        pose proof (forward0_ok L tid tid0 cmp n np e ev p (proj1 fresh) (proj2 fresh) V0 l2v f Hrec Hok _ _ x F) as K.
        cbn in H2. specialize (K H2). destruct (follow _ _ _) as [[zs m]|].
        + destruct K as (g' & K1 & K2 & _). rewrite E in K1. injection K1 as _ <-. exact K2.
        + rewrite E in K. discriminate.
      - apply (IH (set_compare_change_count f0 c) cur); auto. now apply fok_count.
    Qed.

    Theorem history_replay h g x :
      Forall (sized n np) h -> run f h = Some g -> length x = n ->
      match follow p (start (base_values e ev) x (cur_dyn (dyn_values n np e) h))
                     (decisions p (base_values e ev)) with
      | Some (ys, m) => exists g', forward0 g x = Some (ys, g') /\
          (cur_cc 1 h <> 0 -> g_num g' = if cmp then m else 0)
      | None => forward0 g x = None
      end.
    Proof.
      intros S R Hx.
      assert (fok n np f g (cur_dyn (dyn_values n np e) h)) as F.
      { eapply fok_run; eauto. eapply (fok0 L tid tid0); eauto; apply fresh. }
      pose proof (forward0_ok L tid tid0 cmp n np e ev p (proj1 fresh) (proj2 fresh) V0 l2v f Hrec Hok _ _ x F Hx) as K.
      unfold base_values. destruct (follow _ _ _) as [[ys m]|]; auto.
      destruct K as (g' & K1 & _ & K3). exists g'. split; auto. intros Hc. apply K3.
      rewrite (run_cc _ _ _ R).
      unfold record_fun in Hrec. destruct (exec _ _ _) as [[r dep]|]; [|discriminate].
      injection Hrec as <-. exact Hc.
    Qed.
  End Main.
End Hist.
Arguments call : clear implicits.
