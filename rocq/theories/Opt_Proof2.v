(** C22, the parameters of the new recording. *)
From Coq Require Import List Bool Arith Lia.
From Verif Require Import Base_Spec Op_Model Tape_Spec Tape_Model Tape_Proof Tape_Proof2 Abs_Proof Opt_Model Opt_Proof.
Import ListNotations.

Notation dent := (nat * opdyn * list nat)%type.

Section Par.
  Context {b : base}.
  Notation T := (bt b).
  Implicit Types r : rec b.
  Hypothesis ideq_eq : forall x y : T, ideq x y = true -> x = y.

  (** the form of the dynamic parameters of a recording: the independent ones come first *)
  Record indform (nd : nat) r (D2 : list dent) : Prop := {
    if_ent : dentries r = map (fun k => (k, ind_dyn, [])) (seq 1 nd) ++ D2;
    if_dep : Forall (fun e : dent => snd (fst e) <> ind_dyn /\ nd < key e) D2;
    if_isd : exists isd, r_isdyn r = false :: repeat true nd ++ isd }.

  Section New.
    Variables (rf : rec b) (P : nat -> T) (nd : nat) (D2 : list dent) (PU : nat -> bool) (pv : nat -> option nat).
    Hypothesis WF : dwf rf.
    Hypothesis IFM : indform nd rf D2.
    Hypothesis UCL : forall k o a, In (k, o, a) (dentries rf) -> PU k = true -> forall j, In j (par_args_dyn o a) -> PU j = true.
    Hypothesis PV1 : forall k c, pv k = Some c -> c < k /\ PU c = true /\ (exists oc ac, In (c, oc, ac) (dentries rf)) /\ P k = P c /\ exists o a, In (k, o, a) (dentries rf) /\ dyn_matched o = true.

    Record J (S : nat -> Prop) r (np : nat -> nat) : Prop := {
      j_dwf : dwf r;
      j_val : forall k, S k -> np k < length (r_par r) /\ nth (np k) (r_par r) bnan = P k;
      j_con : forall k, S k -> nth k (r_isdyn rf) false = false -> nth (np k) (r_isdyn r) false = false;
      j_dyn : forall j k o a, nth_error (dentries rf) j = Some (k, o, a) -> S k ->
        match pv k with
        | Some c => S c /\ np k = np c
        | None => (forall i, In i (par_args_dyn o a) -> S i) /\ exists j', nth_error (dentries r) j' = Some (np k, o, new_dyn_arg np o a) /\ (o = ind_dyn -> j' = j)
        end }.
    Definition plus (S : nat -> Prop) (k : nat) : nat -> Prop := fun i => S i \/ i = k.
    Lemma J_iff S S' r np : (forall i, S i <-> S' i) -> J S r np -> J S' r np.
    Proof.
      intros H [A B C D]. constructor; auto; try (intros k Hk; apply H in Hk; auto).
      intros j k o a E Hk. apply H in Hk. specialize (D j k o a E Hk). destruct (pv k).
      - destruct D. split; auto. now apply H.
      - destruct D as [D1 D2']. split; auto. intros i Hi. apply H. auto.
    Qed.
    Lemma J_ext S r np r' : cext r r' -> J S r np -> J S r' np.
    Proof.
      intros X [A B C D]. destruct (cext_dwf _ _ X A) as [A' ED]. constructor; auto.
      - intros k Hk. destruct (B k Hk) as [B1 B2]. destruct (cext_nth _ _ _ X A B1) as (X1 & X2 & X3). rewrite X2. auto.
      - intros k Hk E. destruct (B k Hk) as [B1 B2]. destruct (cext_nth _ _ _ X A B1) as (X1 & X2 & X3). rewrite X3. auto.
      - intros j k o a E Hk. rewrite ED. exact (D j k o a E Hk).
    Qed.
    Lemma dlen k o a : In (k, o, a) (dentries rf) -> length a = num_arg_dyn o.
    Proof. intros H. destruct (dok_rec _ WF) as [_ F]. rewrite Forall_forall in F. apply F in H. apply H. Qed.
    (** a new index that is not in S *)
    Lemma J_fset S r np k w : J S r np -> ~ S k -> J S r (fset np k w).
    Proof.
      intros [A B C D] N. assert (forall i, S i -> fset np k w i = np i) as E by (intros i Hi; apply fset_ne; intros ->; auto). constructor; auto.
      - intros i Hi. rewrite E; auto.
      - intros i Hi. rewrite E; auto.
      - intros j i o a H Hi. specialize (D j i o a H Hi). destruct (pv i) as [c|].
        + destruct D as [D1 D2']. rewrite !E; auto.
        + destruct D as [D1 (j' & D3 & D4)]. split; auto. exists j'. rewrite E by auto. split; auto. rewrite D3. f_equal. f_equal.
          apply new_dyn_arg_ext; [apply dlen with i; eapply nth_error_In; eauto|]. intros x Hx. symmetry. auto.
    Qed.
    Lemma no_dent k : nth k (r_isdyn rf) false = false -> forall j o a, nth_error (dentries rf) j = Some (k, o, a) -> False.
    Proof. intros H j o a E. apply nth_error_In in E. apply dent_dyn in E as [E _]; auto. congruence. Qed.
    Lemma J_con S r np k : J S r np -> ~ S k -> nth k (r_isdyn rf) false = false ->
      let (r1, i) := put_con_par r (P k) in J (plus S k) r1 (fset np k i) /\ cext r r1.
    Proof.
      intros H N E. pose proof (put_con_spec ideq_eq r (P k) (j_dwf _ _ _ H)) as K. destruct (put_con_par r (P k)) as [r1 i]. destruct K as (X & X1 & X2 & X3 & _).
      split; auto. apply (J_ext _ _ _ _ X) in H. apply (J_fset _ _ _ k i) in H; auto. destruct H as [A B C D]. constructor; auto.
      - intros j [Hj| ->]; auto. rewrite fset_eq. auto.
      - intros j [Hj| ->] F; auto. rewrite fset_eq. rewrite <- X3. apply nth_indep. rewrite (w_isd _ A). auto.
      - intros j k' o a F [Hk| ->].
        + specialize (D j k' o a F Hk). destruct (pv k'); [destruct D; split; auto; now left|]. destruct D as [D1 D3]. split; auto. intros; left; auto.
        + exfalso. eapply no_dent; eauto.
    Qed.
    Lemma J_dyn S r np j k o a : J S r np -> ~ S k -> nth_error (dentries rf) j = Some (k, o, a) -> pv k = None -> (forall i, In i (par_args_dyn o a) -> S i) -> (o = ind_dyn -> j = length (dentries r)) ->
      let (r1, i) := put_dyn_par r (P k) o (new_dyn_arg np o a) in J (plus S k) r1 (fset np k i) /\ length (dentries r1) = Datatypes.S (length (dentries r)).
    Proof.
      intros H N E PK AS OI. pose proof H as [A0 B0 _ _]. pose proof (nth_error_In _ _ E) as IE. pose proof (dlen _ _ _ IE) as LA.
      assert (forall x, In x (par_args_dyn o (new_dyn_arg np o a)) -> x < length (r_par r)) as HA.
      { intros x Hx. apply new_dyn_arg_par in Hx as (y & Hy & ->); auto. now apply B0, AS. }
      pose proof (put_dyn_spec r (P k) o (new_dyn_arg np o a) A0 (new_dyn_arg_len np o a LA) HA) as K.
      destruct (put_dyn_par r (P k) o (new_dyn_arg np o a)) as [r1 i]. destruct K as (X1 & X2 & X3 & X4 & X5 & _).
      split; [|rewrite X2, app_length; cbn; lia]. subst i. apply (J_fset _ _ _ k (length (r_par r))) in H; auto. set (np' := fset np k (length (r_par r))) in *. destruct H as [A B C D].
      assert (np' k = length (r_par r)) as NK by apply fset_eq. constructor; auto.
      - intros x [Hx| ->].
        + destruct (B x Hx) as [B1 B2]. rewrite X4, app_length, app_nth1 by auto. split; [lia|auto].
        + rewrite NK, X4, app_length, app_nth2, Nat.sub_diag by lia. cbn. split; [lia|auto].
      - intros x [Hx| ->] F.
        + rewrite X5, app_nth1; auto. rewrite (w_isd _ A0). now apply B.
        + apply dent_dyn in IE as [IE _]; auto. congruence.
      - intros j' k' o' a' F [Hk| ->].
        + specialize (D j' k' o' a' F Hk). destruct (pv k'); [destruct D; split; auto; now left|]. destruct D as [D1 (j2 & D3 & D4)]. split; [intros; left; auto|].
          exists j2. split; auto. rewrite X2, nth_error_app1; auto. apply nth_error_Some. congruence.
        + rewrite PK. assert (j' = j /\ o' = o /\ a' = a) as (-> & -> & ->).
          { assert (forall l, incr (map key l) -> forall j j' (e e' : dent), nth_error l j = Some e -> nth_error l j' = Some e' -> key e = key e' -> j = j') as UQ.
            { clear. induction l as [|x l IH]; intros I j j' e e' H H' K; [now destruct j|]. cbn in I. destruct I as [I1 I2].
              destruct j, j'; auto; cbn in *.
              - injection H as ->. apply nth_error_In in H'. apply (in_map key), I1 in H'. lia.
              - injection H' as ->. apply nth_error_In in H. apply (in_map key), I1 in H. lia.
              - f_equal. eapply IH; eauto. }
            assert (j' = j) as -> by (eapply UQ; [apply (dok_rec rf WF)|exact F|exact E|reflexivity]). rewrite E in F. injection F as <- <-. auto. }
          split; [intros; left; auto|]. exists (length (dentries r)). rewrite X2, nth_error_app2, Nat.sub_diag by lia. cbn. rewrite NK. split; [|intros Ho; symmetry; auto].
          f_equal. f_equal. apply new_dyn_arg_ext; auto. intros x Hx. unfold np'. symmetry. apply fset_ne. intros ->. apply N. auto.
    Qed.
    Lemma J_prev S r np k c : J S r np -> ~ S k -> S c -> pv k = Some c -> nth k (r_isdyn rf) false = true -> J (plus S k) r (fset np k (np c)).
    Proof.
      intros H N Sc PK E. assert (fset np k (np c) c = np c) as NC by (apply fset_ne; intros ->; auto).
      apply (J_fset _ _ _ k (np c)) in H; auto. destruct H as [A B C D]. destruct (PV1 _ _ PK) as (_ & _ & _ & PP & _). constructor; auto.
      - intros x [Hx| ->]; auto. rewrite fset_eq, PP. specialize (B c Sc). rewrite NC in B. exact B.
      - intros x [Hx| ->] F; auto. congruence.
      - intros j' k' o' a' F [Hk| ->].
        + specialize (D j' k' o' a' F Hk). destruct (pv k'); [destruct D; split; auto; now left|]. destruct D as [D1 D3]. split; auto. intros; left; auto.
        + rewrite PK. split; [now left|]. rewrite fset_eq. auto.
    Qed.

    Lemma new_ind_ok m : forall k r np S, J S r np -> (forall i, S i -> i < k) -> 1 <= k -> length (dentries r) = k - 1 ->
      (forall i, k <= i < k + m -> nth_error (dentries rf) (i - 1) = Some (i, ind_dyn, [])) ->
      let (r', np') := new_ind P k m r np in exists S', J S' r' np' /\ forall i, S' i <-> S i \/ k <= i < k + m.
    Proof.
      induction m as [|m IH]; intros k r np S H L K1 LD HE; cbn [new_ind].
      - exists S. split; auto. intros i. split; [auto|intros [?|?]; [auto|lia]].
      - assert (pv k = None) as PK.
        { destruct (pv k) as [c|] eqn:E; auto. destruct (PV1 _ _ E) as (_ & _ & _ & _ & o & a & Hin & M). apply In_nth_error in Hin as (j & Hj).
          specialize (HE k ltac:(lia)). destruct (dok_rec _ WF) as [I _].
          assert (In (k, o, a) (dentries rf)) as I1 by (eapply nth_error_In; eauto). assert (In (k, ind_dyn, []) (dentries rf)) as I2 by (eapply nth_error_In; eauto).
          clear -I I1 I2 M. induction (dentries rf) as [|x l IHl]; [easy|]. cbn in I. destruct I as [J1 J2]. destruct I1 as [->|I1], I2 as [I2|I2]; auto.
          - injection I2 as -> _. discriminate.
          - apply (in_map key), J1 in I2. cbn in I2. lia.
          - subst x. apply (in_map key), J1 in I1. cbn in I1. lia. }
        pose proof (J_dyn S r np (k - 1) k ind_dyn [] H ltac:(intros Q; apply L in Q; lia) (HE k ltac:(lia)) PK ltac:(intros i []) ltac:(intros _; lia)) as X.
        cbn [new_dyn_arg map] in X. destruct (put_dyn_par r (P k) ind_dyn []) as [r1 i]. destruct X as [X1 X2].
        specialize (IH (Datatypes.S k) r1 (fset np k i) (plus S k) X1). 
        assert (let (r', np') := new_ind P (Datatypes.S k) m r1 (fset np k i) in exists S', J S' r' np' /\ (forall i, S' i <-> plus S k i \/ Datatypes.S k <= i < Datatypes.S k + m)) as Y.
        { apply IH; try lia. { intros x [Hx| ->]; [apply L in Hx; lia|lia]. } intros x Hx. apply HE. lia. }
        destruct (new_ind P (Datatypes.S k) m r1 (fset np k i)) as [r' np']. destruct Y as (S' & Y1 & Y2). exists S'. split; auto. intros x. rewrite Y2. unfold plus.
        split; [intros [[?|?]|?]; auto; right; lia|intros [?|?]; auto]. destruct (Nat.eq_dec x k); [auto|right; lia].
    Qed.
    Lemma new_con_ok isd : forall k r np S, J S r np -> (forall i, S i -> i < k) -> (forall i, i < length isd -> nth (k + i) (r_isdyn rf) false = nth i isd false) ->
      let (r', np') := new_con P PU k isd r np in exists S', J S' r' np' /\ forall i, S' i <-> S i \/ (k <= i < k + length isd /\ nth i (r_isdyn rf) false = false /\ PU i = true).
    Proof.
      induction isd as [|d isd IH]; intros k r np S H L HE; cbn [new_con].
      - exists S. split; auto. intros i. cbn. split; [auto|intros [?|?]; [auto|lia]].
      - pose proof (HE 0 ltac:(cbn; lia)) as D0. rewrite Nat.add_0_r in D0. cbn in D0.
        assert (forall i, i < length isd -> nth (Datatypes.S k + i) (r_isdyn rf) false = nth i isd false) as HE'.
        { intros i Hi. specialize (HE (Datatypes.S i) ltac:(cbn; lia)). cbn [nth] in HE. rewrite <- HE. f_equal. lia. }
        destruct (negb d && PU k) eqn:C.
        + apply andb_true_iff in C as [C1 C2]. apply negb_true_iff in C1. rewrite C1 in D0.
          pose proof (J_con S r np k H ltac:(intros Q; apply L in Q; lia) D0) as X. destruct (put_con_par r (P k)) as [r1 i]. destruct X as [X _].
          assert (forall x, plus S k x -> x < Datatypes.S k) as L' by (intros x [Hx| ->]; [apply L in Hx; lia|lia]).
          specialize (IH (Datatypes.S k) r1 (fset np k i) (plus S k) X L' HE').
          destruct (new_con P PU (Datatypes.S k) isd r1 (fset np k i)) as [r' np']. destruct IH as (S' & Y1 & Y2). exists S'. split; auto. intros x. rewrite Y2. unfold plus. cbn [length].
          split.
          * intros [[?| ->]|(? & ? & ?)]; auto; right; (split; [lia|auto]).
          * intros [?|(? & ? & ?)]; auto. destruct (Nat.eq_dec x k); [auto|right; (split; [lia|auto])].
        + assert (forall x, S x -> x < Datatypes.S k) as L' by (intros x Hx; apply L in Hx; lia).
          specialize (IH (Datatypes.S k) r np S H L' HE').
          destruct (new_con P PU (Datatypes.S k) isd r np) as [r' np']. destruct IH as (S' & Y1 & Y2). exists S'. split; auto. intros x. rewrite Y2. cbn [length]. split.
          * intros [?|(? & ? & ?)]; auto; right; (split; [lia|auto]).
          * intros [?|(? & F1 & F2)]; auto. destruct (Nat.eq_dec x k) as [->|]; [|right; (split; [lia|auto])]. exfalso. rewrite D0 in F1. rewrite F1, F2 in C. discriminate.
    Qed.
    Lemma new_dyn_ok D : forall pre r np S, dentries rf = pre ++ D -> Forall (fun e : dent => snd (fst e) <> ind_dyn) D -> J S r np ->
      (forall i, S i -> nth i (r_isdyn rf) false = true -> exists e, In e pre /\ key e = i) ->
      (forall i, i < length (r_par rf) -> PU i = true -> nth i (r_isdyn rf) false = false -> S i) ->
      (forall e, In e pre -> PU (key e) = true -> S (key e)) ->
      let (r', np') := new_dyn P PU pv D r np in exists S', J S' r' np' /\ (forall i, S i -> S' i) /\ forall i, i < length (r_par rf) -> PU i = true -> S' i.
    Proof.
      induction D as [|[[k o] a] D IH]; intros pre r np S ED FO H H1 H2 H3; cbn [new_dyn].
      - exists S. split; auto. split; auto. intros i Hi Hu. destruct (nth i (r_isdyn rf) false) eqn:E; auto.
        destruct (dent_of _ _ WF E) as (j & o & a & Hj). apply nth_error_In in Hj. rewrite ED, app_nil_r in Hj. apply (H3 _ Hj). exact Hu.
      - assert (In (k, o, a) (dentries rf)) as IK by (rewrite ED; apply in_or_app; right; now left). inversion FO as [|? ? FO1 FO2]; subst. cbn [fst snd] in FO1.
        destruct (dent_dyn _ _ _ _ WF IK) as [DK LK].
        assert (forall e, In e pre -> key e < k) as LT.
        { intros e He. destruct (dok_rec _ WF) as [I _]. rewrite ED, map_app in I. clear -I He. induction pre as [|d pre IHp]; [easy|]. cbn in I. destruct I as [I1 I2]. destruct He as [->|He]; auto.
          apply I1. apply in_or_app. right. now left. }
        assert (forall e, In e D -> k < key e) as GT.
        { intros e He. destruct (dok_rec _ WF) as [I _]. rewrite ED, map_app in I. clear -I He. induction pre as [|d pre IHp]; [cbn in I; apply I; now apply in_map|]. cbn in I. apply IHp. apply I. }
        assert (~ S k) as NK by (intros Q; apply H1 in Q as (e & He & Ek); auto; apply LT in He; lia).
        assert (forall j, j < k -> PU j = true -> S j) as BEF.
        { intros j Hj Hu. destruct (nth j (r_isdyn rf) false) eqn:E; [|apply H2; auto; lia]. destruct (dent_of _ _ WF E) as (x & o' & a' & Hx). apply nth_error_In in Hx. rewrite ED in Hx.
          apply in_app_or in Hx as [Hx|[Hx|Hx]]; [apply (H3 _ Hx); exact Hu|injection Hx as -> _ _; lia|apply GT in Hx; cbn in Hx; lia]. }
        assert (dentries rf = (pre ++ [(k, o, a)]) ++ D) as ED' by (rewrite <- app_assoc; exact ED).
        assert (forall r1 np1, PU k = true -> J (plus S k) r1 np1 -> let (r', np') := new_dyn P PU pv D r1 np1 in exists S', J S' r' np' /\ (forall i, S i -> S' i) /\ (forall i, i < length (r_par rf) -> PU i = true -> S' i)) as GO.
        { intros r1 np1 U J1. specialize (IH (pre ++ [(k, o, a)]) r1 np1 (plus S k) ED' FO2 J1).
          assert (let (r', np') := new_dyn P PU pv D r1 np1 in exists S', J S' r' np' /\ (forall i, plus S k i -> S' i) /\ (forall i, i < length (r_par rf) -> PU i = true -> S' i)) as Y.
          { apply IH.
            - intros i [Hi| ->] E; [destruct (H1 i Hi E) as (e & He & Ee); exists e; split; auto; apply in_or_app; auto|]. exists (k, o, a). split; auto. apply in_or_app. right. now left.
            - intros; left; auto.
            - intros e He Hu. apply in_app_or in He as [He|[<-|[]]]; [left; auto|right; reflexivity]. }
          destruct (new_dyn P PU pv D r1 np1) as [r' np']. destruct Y as (S' & Y1 & Y2 & Y3). exists S'. split; auto. split; auto. intros; apply Y2; now left. }
        destruct (PU k) eqn:U.
        + destruct (pv k) as [c|] eqn:PK.
          * destruct (PV1 _ _ PK) as (C1 & C2 & _). apply GO; auto. apply J_prev; auto.
          * assert (exists j, nth_error (dentries rf) j = Some (k, o, a)) as (j & Hj) by (now apply In_nth_error).
            pose proof (J_dyn S r np j k o a H NK Hj PK) as X.
            assert (forall i, In i (par_args_dyn o a) -> S i) as AS.
            { intros i Hi. apply BEF; [eapply (w_dlt _ WF); eauto|eapply UCL; eauto]. }
            specialize (X AS ltac:(intros Q; now destruct FO1)). destruct (put_dyn_par r (P k) o (new_dyn_arg np o a)) as [r1 i]. destruct X as [X _]. apply GO; auto.
        + apply (IH (pre ++ [(k, o, a)])); auto.
          * intros i Hi E. destruct (H1 i Hi E) as (e & He & Ee). exists e. split; auto. apply in_or_app; auto.
          * intros e He Hu. apply in_app_or in He as [He|[<-|[]]]; auto. cbn in Hu. congruence.
    Qed.

    Hypothesis PUnd : forall i, i <= nd -> PU i = true.
    Lemma new_pars_ok amax cmp : let (r, np) := new_pars amax rf P nd PU pv cmp in exists S, J S r np /\ (forall i, i < length (r_par rf) -> PU i = true -> S i) /\
      r_op r = [] /\ r_arg r = [] /\ r_vec r = [] /\ r_nvar r = 0 /\ r_nload r = 0.
    Proof.
      unfold new_pars. destruct IFM as [E1 E2 (isd & E3)].
      assert (length (r_par rf) = Datatypes.S nd + length isd) as LP by (rewrite <- (w_isd _ WF), E3; cbn; rewrite app_length, repeat_length; lia).
      assert (dwf (@rec0 b cmp)) as W0 by (constructor; cbn; auto; intros i o a j []).
      assert (J (fun _ => False) (rec0 cmp) (fun _ => amax)) as J0 by (constructor; auto; intros; tauto).
      assert (nth 0 (r_isdyn rf) false = false) as D0 by (rewrite E3; reflexivity).
      assert (forall r v, let (r', i) := @put_con_par b r v in r_op r' = r_op r /\ r_arg r' = r_arg r /\ r_vec r' = r_vec r /\ r_nvar r' = r_nvar r /\ r_nload r' = r_nload r) as EC.
      { intros r v. unfold put_con_par. destruct (_ && _); cbn; auto 10. }
      assert (forall r v o a, let (r', i) := @put_dyn_par b r v o a in r_op r' = r_op r /\ r_arg r' = r_arg r /\ r_vec r' = r_vec r /\ r_nvar r' = r_nvar r /\ r_nload r' = r_nload r) as EDP by (intros; cbn; auto 10).
      set (emp := fun r : rec b => r_op r = [] /\ r_arg r = [] /\ r_vec r = [] /\ r_nvar r = 0 /\ r_nload r = 0).
      assert (forall r v, emp r -> emp (fst (put_con_par r v))) as M1.
      { intros r v (A & B & C & D & E). specialize (EC r v). destruct (put_con_par r v). cbn [fst]. destruct EC as (K1 & K2 & K3 & K4 & K5). unfold emp. now rewrite K1, K2, K3, K4, K5. }
      pose proof (J_con _ _ _ 0 J0 ltac:(tauto) D0) as X. pose proof (M1 (rec0 cmp) (P 0) ltac:(repeat split)) as X0.
      pose proof (put_con_spec ideq_eq (rec0 cmp) (P 0) W0) as X9.
      assert (exists h, put_con_par (@rec0 b cmp) (P 0) = (h, 0)) as (h & EH) by (eexists; reflexivity).
      destruct (put_con_par (rec0 cmp) (P 0)) as [r1 i0] eqn:EP1. injection EH as -> ->. destruct X as [X X'], X9 as (X9 & _). cbn [fst] in X0.
      destruct (cext_dwf _ _ X9 W0) as [_ DE]. 
      assert (forall m k r np, emp r -> emp (fst (new_ind P k m r np))) as M2.
      { induction m as [|m IH]; intros k r np E; cbn [new_ind]; auto. specialize (EDP r (P k) ind_dyn []). destruct (put_dyn_par r (P k) ind_dyn []) as [r' i]. apply IH.
        destruct E as (A & B & C & D & E). destruct EDP as (K1 & K2 & K3 & K4 & K5). unfold emp. now rewrite K1, K2, K3, K4, K5. }
      pose proof (new_ind_ok nd 1 h (fset (fun _ => amax) 0 0) (plus (fun _ => False) 0) X) as Y. specialize (M2 nd 1 h (fset (fun _ => amax) 0 0) X0).
      assert (let (r', np') := new_ind P 1 nd h (fset (fun _ => amax) 0 0) in exists S', J S' r' np' /\ forall i, S' i <-> plus (fun _ => False) 0 i \/ 1 <= i < 1 + nd) as Y'.
      { apply Y; auto. { intros i [[]| ->]. lia. } { rewrite DE. reflexivity. }
        intros i Hi. rewrite E1, nth_error_app1 by (rewrite map_length, seq_length; lia). rewrite nth_error_map.
        assert (nth_error (seq 1 nd) (i - 1) = Some i) as ->; [|reflexivity]. rewrite (nth_error_nth' _ 0) by (rewrite seq_length; lia). rewrite seq_nth by lia. f_equal. lia. }
      destruct (new_ind P 1 nd h (fset (fun _ => amax) 0 0)) as [r2 np2]. cbn [fst] in M2. destruct Y' as (S2 & J2 & HS2).
      assert (forall l k r np, emp r -> emp (fst (new_con P PU k l r np))) as M3.
      { induction l as [|d l IH]; intros k r np E; cbn [new_con]; auto. destruct (_ && _); auto. specialize (M1 r (P k) E). destruct (put_con_par r (P k)). now apply IH. }
      specialize (M3 (skipn (Datatypes.S nd) (r_isdyn rf)) (Datatypes.S nd) r2 np2 M2).
      assert (skipn (Datatypes.S nd) (r_isdyn rf) = isd) as SK.
      { rewrite E3. cbn [skipn]. rewrite skipn_app, repeat_length, Nat.sub_diag. rewrite skipn_all2 by (rewrite repeat_length; lia). reflexivity. }
      pose proof (new_con_ok (skipn (Datatypes.S nd) (r_isdyn rf)) (Datatypes.S nd) r2 np2 S2 J2) as Z. rewrite SK in *.
      assert (let (r', np') := new_con P PU (Datatypes.S nd) isd r2 np2 in exists S', J S' r' np' /\ forall i, S' i <-> S2 i \/ (Datatypes.S nd <= i < Datatypes.S nd + length isd /\ nth i (r_isdyn rf) false = false /\ PU i = true)) as Z'.
      { apply Z.
        - intros i Hi. apply HS2 in Hi as [[[]| ->]|Hi]; lia.
        - intros i Hi. rewrite E3. cbn [Nat.add nth]. rewrite app_nth2 by (rewrite repeat_length; lia). rewrite repeat_length. f_equal. lia. }
      destruct (new_con P PU (Datatypes.S nd) isd r2 np2) as [r3 np3]. cbn [fst] in M3. destruct Z' as (S3 & J3 & HS3).
      pose proof (put_con_spec ideq_eq r3 b0 (j_dwf _ _ _ J3)) as X4. pose proof (M1 r3 b0 M3) as M4. destruct (put_con_par r3 b0) as [r4 i4]. destruct X4 as (X4 & _). cbn [fst] in M4.
      apply (J_ext _ _ _ _ X4) in J3.
      assert (skipn nd (dentries rf) = D2) as SD.
      { rewrite E1, skipn_app, map_length, seq_length, Nat.sub_diag. rewrite skipn_all2 by (rewrite map_length, seq_length; lia). reflexivity. }
      rewrite SD.
      assert (forall D r np, emp r -> emp (fst (new_dyn P PU pv D r np))) as M5.
      { induction D as [|[[k o] a] D IH]; intros r np E; cbn [new_dyn]; auto. destruct (PU k); auto. destruct (pv k); auto.
        specialize (EDP r (P k) o (new_dyn_arg np o a)). destruct (put_dyn_par r (P k) o (new_dyn_arg np o a)) as [r' i]. apply IH.
        destruct E as (A & B & C & D' & E). destruct EDP as (K1 & K2 & K3 & K4 & K5). unfold emp. now rewrite K1, K2, K3, K4, K5. }
      specialize (M5 D2 r4 np3 M4).
      assert (let (r', np') := new_dyn P PU pv D2 r4 np3 in exists S', J S' r' np' /\ (forall i, S3 i -> S' i) /\ (forall i, i < length (r_par rf) -> PU i = true -> S' i)) as V.
      { apply (new_dyn_ok D2 (map (fun k => (k, ind_dyn, [])) (seq 1 nd))); auto.
        - eapply Forall_impl; [|exact E2]. intros e He. apply He.
        - intros i Hi E. apply HS3 in Hi as [Hi|(_ & Hi & _)]; [|congruence]. apply HS2 in Hi as [[[]| ->]|Hi]; [congruence|].
          exists (i, ind_dyn, []). split; auto. apply in_map_iff. exists i. split; auto. apply in_seq. lia.
        - intros i Hi Hu Hd. apply HS3. destruct (Nat.lt_ge_cases nd i); [right; split; [lia|auto]|left; apply HS2]. destruct (Nat.eq_dec i 0); [left; right; auto|right; lia].
        - intros e He _. apply in_map_iff in He as (k & <- & Hk). apply in_seq in Hk. cbn. apply HS3. left. apply HS2. right. lia. }
      destruct (new_dyn P PU pv D2 r4 np3) as [r' np']. cbn [fst] in M5. destruct V as (S' & V1 & V2 & V3). exists S'. split; auto.
    Qed.
  End New.

  (** for all values of the independent dynamic parameters, the new parameters have the values of the original ones *)
  Lemma new_par_value (rf : rec b) P0 nd D2 PU pv S r np : dwf rf -> indform nd rf D2 ->
    (forall k c, pv k = Some c -> c < k /\ PU c = true) ->
    J rf P0 pv S r np -> parok rf P0 -> forall ind P P', Pok ind P rf -> Pok ind P' r -> (forall k c, pv k = Some c -> P k = P c) ->
    (forall k, S k -> k < length (r_par rf)) -> forall k, S k -> P' (np k) = P k.
  Proof.
    intros WF IFM PV [A B C D] [PA _] ind P P' [K1 K2] [K1' K2'] PP SL k. induction k as [k IH] using lt_wf_ind. intros Sk. destruct (B k Sk) as [B1 B2]. pose proof (SL k Sk) as Lk.
    destruct (nth k (r_isdyn rf) false) eqn:E.
    - destruct (dent_of _ _ WF E) as (j & o & a & Hj). specialize (D j k o a Hj Sk). destruct (pv k) as [c|] eqn:PK.
      + destruct D as [D1 D3]. rewrite D3, (PP _ _ PK). apply IH; auto. now apply (PV _ _ PK).
      + destruct D as [D1 (j' & D3 & D4)]. rewrite (K2' _ _ _ _ D3), (K2 _ _ _ _ Hj). pose proof (nth_error_In _ _ Hj) as Hin.
        assert (nth j' ind b0 = nth j ind b0 \/ o <> ind_dyn) as [->|No] by (destruct (opdyn_eq_dec o ind_dyn) as [Q|Q]; [left; rewrite D4; auto|auto]).
        * apply dyn_sem_map; [destruct (dok_rec _ WF) as [_ F]; rewrite Forall_forall in F; apply F in Hin; apply Hin|]. intros i Hi. apply IH; auto. eapply (w_dlt _ WF); eauto.
        * rewrite (dyn_sem_ind o a (nth j ind b0) (nth j' ind b0)) by auto.
          apply dyn_sem_map; [destruct (dok_rec _ WF) as [_ F]; rewrite Forall_forall in F; apply F in Hin; apply Hin|]. intros i Hi. apply IH; auto. eapply (w_dlt _ WF); eauto.
    - rewrite (K1 k Lk E), <- (PA k Lk E), <- B2. apply K1'; auto.
  Qed.
End Par.
