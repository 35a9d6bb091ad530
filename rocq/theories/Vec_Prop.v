(** C27.  Every program that uses CppAD::vector (pod_vector) observes what the
    same program observes on lists, never uses memory it does not own, and never
    loses a block. *)
From Coq Require Import List Arith Bool Lia.
From Verif Require Import Vec_Spec Vec_Model Vec_Proof Vec_Proof2.
Import ListNotations.

Section Run.
  Context {T : Type}.
  (** a program: its statements in order *)
  Fixpoint exec (step : op T -> st T -> option (st T * list (obs T))) (os : list (op T)) (s : st T)
      : option (st T * list (list (obs T))) :=
    match os with
    | [] => Some (s, [])
    | o :: os' =>
      match step o s with
      | None => None
      | Some (s1, r) => match exec step os' s1 with Some (s2, rs) => Some (s2, r :: rs) | None => None end
      end
    end.
  Fixpoint spec_exec (keep : nat -> nat -> bool) (os : list (op T)) (L : lists T) : option (lists T * list (expect T)) :=
    match os with
    | [] => Some (L, [])
    | o :: os' =>
      match spec_step keep o L with
      | None => None
      | Some (L1, r) => match spec_exec keep os' L1 with Some (L2, rs) => Some (L2, r :: rs) | None => None end
      end
    end.
End Run.

(** every block in use is the data of exactly one vector, and no two vectors share one *)
Definition no_leak {T} (s : st T) : Prop :=
  (forall p, blk (heap s) p <> None -> exists x, 0 < cap (obj s x) /\ ptr (obj s x) = p) /\
  (forall x y, 0 < cap (obj s x) -> 0 < cap (obj s y) -> ptr (obj s x) = ptr (obj s y) -> x = y).
(** members of CppAD::vector, except the assignment of a vector to itself *)
Definition vector_op {T} (o : op T) : Prop :=
  match o with Extend _ _ => False | Assign x y => x <> y | _ => True end.
(** members of pod_vector, except push_back of one of its own elements *)
Definition pod_op {T} (o : op T) : Prop :=
  match o with Move _ _ | PushVec _ _ => False | Push x (Ref y _) => x <> y | _ => True end.

Section Prop_.
  Context {T : Type}.
  Variable capof : nat -> nat -> nat.
  Variable junk : nat -> nat -> T.

  Lemma v_step_ok (capof_ge : forall k n, n <= capof k n) o s L : OK s L -> vector_op o ->
    match spec_step (fun _ _ => true) o L with
    | Some (L', e) => exists s' r, v_step capof junk o s = Some (s', r) /\ fits e r /\ OK s' L'
    | None => v_step capof junk o s = None
    end.
  Proof.
    intros HOK Ho. pose proof HOK as (G & _).
    destruct o as [x n|x|x y|x y|x y|x i a|x a|x y|x n|x i|x]; cbn [spec_step v_step].
    - cbn [orb]. destruct (v_resize_ok capof junk capof_ge s L x n HOK) as (s' & A & B). rewrite A. eexists _, _. split; [reflexivity|]. split; [reflexivity|exact B].
    - destruct (v_clear_ok junk s L x HOK) as (s' & A & B). rewrite A. eexists _, _. split; [reflexivity|]. split; [reflexivity|exact B].
    - eexists _, _. split; [reflexivity|]. split; [reflexivity|]. now apply v_swap_ok.
    - destruct (v_assign_ok capof junk capof_ge s L x y HOK Ho) as (s' & A & B). rewrite A. eexists _, _. split; [reflexivity|]. split; [reflexivity|exact B].
    - eexists _, _. split; [reflexivity|]. split; [reflexivity|]. now apply v_swap_ok.
    - destruct (src_val L a) as [v|] eqn:Ea.
      + destruct (deref_ok s L a v HOK Ea) as (Hc & _). rewrite Hc.
        destruct (Nat.ltb_spec i (length (L x))) as [H|H].
        * destruct (v_set_ok junk s L x i a v HOK Ea H) as (s' & A & B). rewrite A. eexists _, _. split; [reflexivity|]. split; [reflexivity|exact B].
        * unfold v_set. destruct (G x) as (E & _). destruct (Nat.ltb_spec i (len (obj s x))); [lia|]. reflexivity.
      + rewrite (chk_none s L a HOK Ea). reflexivity.
    - destruct (src_val L a) as [v|] eqn:Ea.
      + destruct (deref_ok s L a v HOK Ea) as (Hc & _). rewrite Hc.
        destruct (v_push_ok capof junk capof_ge s L x a v HOK Ea) as (s' & A & B). rewrite A. eexists _, _. split; [reflexivity|]. split; [reflexivity|exact B].
      + rewrite (chk_none s L a HOK Ea). reflexivity.
    - destruct (v_push_vec_ok capof junk capof_ge s L x y HOK) as (s' & A & B). rewrite A. eexists _, _. split; [reflexivity|]. split; [reflexivity|exact B].
    - destruct Ho.
    - destruct (nth_error (L x) i) as [v|] eqn:E.
      + destruct (v_get_ok s L x i v HOK E) as (e & A & B). rewrite A. eexists _, _. split; [reflexivity|]. split; [|exact HOK].
        destruct v; cbn in *; [congruence|]. eexists; reflexivity.
      + apply nth_error_None in E. unfold v_get. destruct (G x) as (E0 & _).
        destruct (Nat.ltb_spec i (len (obj s x))); [lia|]. reflexivity.
    - destruct (G x) as (E0 & _). eexists _, _. split; [reflexivity|]. split; [|exact HOK]. cbn. congruence.
  Qed.

  Lemma p_step_ok (capof_ge : forall k n, n <= capof k n) o s L : OK s L ->
    match o with
    | Move _ _ | PushVec _ _ => False
    | Push x (Ref y _) => x = y -> len (obj s x) < cap (obj s x)
    | _ => True
    end ->
    match spec_step (fun x n => n <=? cap (obj s x)) o L with
    | Some (L', e) => exists s' r, p_step capof junk o s = Some (s', r) /\ fits e r /\ OK s' L'
    | None => p_step capof junk o s = None
    end.
  Proof.
    intros HOK Ho. pose proof HOK as (G & _).
    destruct o as [x n|x|x y|x y|x y|x i a|x a|x y|x n|x i|x]; cbn [spec_step p_step].
    - destruct (p_resize_ok capof junk capof_ge s L x n HOK) as (s' & A & B). rewrite A. eexists _, _. split; [reflexivity|]. split; [reflexivity|exact B].
    - destruct (p_clear_ok junk s L x HOK) as (s' & A & B). rewrite A. eexists _, _. split; [reflexivity|]. split; [reflexivity|exact B].
    - eexists _, _. split; [reflexivity|]. split; [reflexivity|]. now apply v_swap_ok.
    - destruct (p_assign_ok capof junk capof_ge s L x y HOK) as (s' & A & B). rewrite A. eexists _, _. split; [reflexivity|]. split; [reflexivity|exact B].
    - destruct Ho.
    - destruct (src_val L a) as [v|] eqn:Ea.
      + destruct (deref_ok s L a v HOK Ea) as (Hc & _). rewrite Hc.
        destruct (Nat.ltb_spec i (length (L x))) as [H|H].
        * destruct (v_set_ok junk s L x i a v HOK Ea H) as (s' & A & B). rewrite A. eexists _, _. split; [reflexivity|]. split; [reflexivity|exact B].
        * unfold v_set. destruct (G x) as (E & _). destruct (Nat.ltb_spec i (len (obj s x))); [lia|]. reflexivity.
      + rewrite (chk_none s L a HOK Ea). reflexivity.
    - destruct (src_val L a) as [v|] eqn:Ea.
      + destruct (deref_ok s L a v HOK Ea) as (Hc & _). rewrite Hc.
        destruct (p_push_ok capof junk capof_ge s L x a v HOK Ea) as (s' & A & B).
        { intros j ->. apply Ho. reflexivity. }
        rewrite A. eexists _, _. split; [reflexivity|]. split; [reflexivity|exact B].
      + rewrite (chk_none s L a HOK Ea). reflexivity.
    - destruct Ho.
    - destruct (p_extend_ok capof junk capof_ge s L x n HOK) as (s' & A & B). rewrite A. eexists _, _. split; [reflexivity|]. split; [|exact B].
      cbn. destruct (G x) as (E & _). congruence.
    - destruct (nth_error (L x) i) as [v|] eqn:E.
      + destruct (v_get_ok s L x i v HOK E) as (e & A & B). rewrite A. eexists _, _. split; [reflexivity|]. split; [|exact HOK].
        destruct v; cbn in *; [congruence|]. eexists; reflexivity.
      + apply nth_error_None in E. unfold v_get. destruct (G x) as (E0 & _).
        destruct (Nat.ltb_spec i (len (obj s x))); [lia|]. reflexivity.
    - destruct (G x) as (E0 & _). eexists _, _. split; [reflexivity|]. split; [|exact HOK]. cbn. congruence.
  Qed.

  Lemma OK_no_leak (s : st T) L : OK s L -> no_leak s.
  Proof.
    intros (G & D & N & F). split; auto. intros x y A B E. apply (D x y (ptr (obj s x))); split; auto.
  Qed.

  Lemma v_exec_ok (capof_ge : forall k n, n <= capof k n) os : forall s L, OK s L -> Forall vector_op os ->
    match spec_exec (fun _ _ => true) os L with
    | Some (L', es) => exists s' rs, exec (v_step capof junk) os s = Some (s', rs) /\ Forall2 fits es rs /\ OK s' L'
    | None => exec (v_step capof junk) os s = None
    end.
  Proof.
    induction os as [|o os IH]; intros s L HOK Hos; cbn [spec_exec exec].
    - exists s, []. auto.
    - apply Forall_cons_iff in Hos. destruct Hos as [Ho Hos].
      pose proof (v_step_ok capof_ge o s L HOK Ho) as H. destruct (spec_step _ o L) as [[L1 e]|]; [|rewrite H; reflexivity].
      destruct H as (s1 & r & A & B & C). rewrite A. specialize (IH s1 L1 C Hos).
      destruct (spec_exec _ os L1) as [[L2 es]|]; [|rewrite IH; reflexivity].
      destruct IH as (s2 & rs & A2 & B2 & C2). rewrite A2. exists s2, (r :: rs). auto.
  Qed.

  (** lists with fewer specified elements *)
  Definition weaker (l' l : list (option T)) : Prop := Forall2 (fun a b => a = None \/ a = b) l' l.
  Lemma weaker_refl l : weaker l l.
  Proof. induction l; constructor; auto. Qed.
  Lemma OK_weaker s L L' : OK s L -> (forall x, weaker (L' x) (L x)) -> @OK T s L'.
  Proof.
    intros (G & R) H. split; auto. intro x. destruct (G x) as (A & B & C). specialize (H x).
    assert (El : length (L' x) = length (L x)) by (clear -H; induction H; cbn; congruence).
    split; [congruence|]. split; auto. intro Hc. destruct (C Hc) as (f & C1 & C2 & C3).
    exists f. split; auto. split; auto. intros i a E. apply C3.
    clear -H E. revert i E. unfold weaker in H. induction H as [|u w l' l Huw H IH]; intros i E; [destruct i; discriminate|].
    destruct i; cbn in *; auto. destruct Huw; congruence.
  Qed.
  Lemma weaker_rep l n : length l = n -> weaker (repeat None n) l.
  Proof. intros <-. induction l; cbn; constructor; auto. Qed.

  Lemma p_exec_ok (capof_ge : forall k n, n <= capof k n) os : forall s L, OK s L -> Forall pod_op os ->
    match spec_exec (fun _ _ => false) os L with
    | Some (L', es) => exists s' rs, exec (p_step capof junk) os s = Some (s', rs) /\ Forall2 fits es rs /\ OK s' L'
    | None => exec (p_step capof junk) os s = None
    end.
  Proof.
    induction os as [|o os IH]; intros s L HOK Hos; cbn [spec_exec exec].
    - exists s, []. auto.
    - apply Forall_cons_iff in Hos. destruct Hos as [Ho Hos].
      assert (H : match spec_step (fun _ _ => false) o L with
        | Some (L', e) => exists s' r, p_step capof junk o s = Some (s', r) /\ fits e r /\ OK s' L'
        | None => p_step capof junk o s = None
        end).
      { pose proof (p_step_ok capof_ge o s L HOK) as H.
        destruct o as [x n|x|x y|x y|x y|x i a|x a|x y|x n|x i|x]; cbn [spec_step] in H |- *;
          try (apply H; exact I); try (destruct Ho).
        - destruct (H I) as (s' & r & A & B & C). exists s', r. split; auto. split; auto.
          eapply OK_weaker; [exact C|]. intro z. unfold fset. destruct (Nat.eqb_spec z x); [|apply weaker_refl].
          cbn [orb]. destruct (n <=? cap (obj s x)), (n <=? length (L x)); cbn [orb]; try apply weaker_refl.
          apply weaker_rep. apply firstn_pad.
        - apply H. destruct a; auto. cbn in Ho. congruence. }
      destruct (spec_step _ o L) as [[L1 e]|]; [|rewrite H; reflexivity].
      destruct H as (s1 & r & A & B & C). rewrite A. specialize (IH s1 L1 C Hos).
      destruct (spec_exec _ os L1) as [[L2 es]|]; [|rewrite IH; reflexivity].
      destruct IH as (s2 & rs & A2 & B2 & C2). rewrite A2. exists s2, (r :: rs). auto.
  Qed.

  (** CppAD::vector: whatever the allocator gives (at least the requested number of
      elements, with any content), the observations are those of lists where resize
      keeps the first elements; an index out of range is detected exactly when it is
      out of range of the list *)
  Theorem vector_is_list : forall (capof_ge : forall k n, n <= capof k n) (os : list (op T)),
    Forall vector_op os ->
    match spec_exec (fun _ _ => true) os (fun _ => []) with
    | Some (L, es) => exists s rs, exec (v_step capof junk) os start = Some (s, rs) /\ Forall2 fits es rs /\
                        (forall x, len (obj s x) = length (L x)) /\ (forall x, len (obj s x) <= cap (obj s x)) /\ no_leak s
    | None => exec (v_step capof junk) os start = None
    end.
  Proof.
    intros capof_ge os Hos. pose proof (v_exec_ok capof_ge os start (fun _ => []) OK_start Hos) as H.
    destruct (spec_exec _ os _) as [[L es]|]; [|exact H]. destruct H as (s & rs & A & B & C).
    exists s, rs. split; auto. split; auto. pose proof C as (G & _). split; [|split].
    - intro x. destruct (G x). auto.
    - intro x. destruct (content junk s L x C) as (f & _ & H & _). exact H.
    - eapply OK_no_leak; eauto.
  Qed.
  (** pod_vector: the same, except that the elements are not specified after a resize
      that increases the size *)
  Theorem pod_vector_is_list : forall (capof_ge : forall k n, n <= capof k n) (os : list (op T)),
    Forall pod_op os ->
    match spec_exec (fun _ _ => false) os (fun _ => []) with
    | Some (L, es) => exists s rs, exec (p_step capof junk) os start = Some (s, rs) /\ Forall2 fits es rs /\
                        (forall x, len (obj s x) = length (L x)) /\ (forall x, len (obj s x) <= cap (obj s x)) /\ no_leak s
    | None => exec (p_step capof junk) os start = None
    end.
  Proof.
    intros capof_ge os Hos. pose proof (p_exec_ok capof_ge os start (fun _ => []) OK_start Hos) as H.
    destruct (spec_exec _ os _) as [[L es]|]; [|exact H]. destruct H as (s & rs & A & B & C).
    exists s, rs. split; auto. split; auto. pose proof C as (G & _). split; [|split].
    - intro x. destruct (G x). auto.
    - intro x. destruct (content junk s L x C) as (f & _ & H & _). exact H.
    - eapply OK_no_leak; eauto.
  Qed.
  (** and a resize within the capacity preserves them *)
  Theorem pod_resize_in_capacity : forall s x i v n,
    v_get s x i = Some v -> n <= cap (obj s x) -> i < n ->
    exists s', p_step capof junk (Resize x n) s = Some (s', []) /\ v_get s' x i = Some v.
  Proof.
    intros s x i v n Hg Hn Hi. cbn. unfold p_resize.
    destruct (Nat.ltb_spec (cap (obj s x)) n); [lia|]. eexists. split; [reflexivity|].
    unfold v_get, set_obj in *. cbn [obj heap ptr len]. rewrite fset_eq. cbn [obj heap ptr len]. destruct (i <? len (obj s x)); [|discriminate].
    destruct (Nat.ltb_spec i n); [|lia]. exact Hg.
  Qed.

  (** FINDING: x = x empties a CppAD::vector: after it, reading x[0] gives whatever is in
      memory only because resize kept the block -- the size is 0 *)
  Theorem vector_self_assign_refuted : forall (v : T), (forall k n, n <= capof k n) ->
    exists s rs, exec (v_step capof junk) [Push 0 (Val v); Assign 0 0; Size 0] start = Some (s, rs) /\
      nth_error rs 2 = Some [Num 0] /\
      spec_exec (fun _ _ => true) [Push 0 (Val v); Assign 0 0; Size 0] (fun _ => [])
        = Some (fset (fset (fun _ => []) 0 [Some v]) 0 [Some v], [Nothing; Nothing; ANum 1]).
  Proof.
    intros v capof_ge. cbn [exec v_step chk]. unfold v_push. cbn [start obj len cap heap ptr alloc blk nxt].
    cbn [Nat.ltb Nat.leb]. cbn [alloc start nxt blk heap copy deref Nat.add]. unfold write. cbn [blk].
    rewrite fset_eq. pose proof (capof_ge 1 1) as Hc.
    destruct (Nat.ltb_spec 0 (capof 1 1)); [|lia]. cbn [ret].
    unfold v_assign, v_resize. cbn [set_obj obj heap]. rewrite !fset_eq. cbn [cap len ptr].
    destruct (Nat.ltb_spec (capof 1 1) 0); [lia|]. cbn [set_obj obj heap]. rewrite !fset_eq. cbn [cap len ptr].
    destruct (Nat.ltb_spec (capof 1 1) 0); [lia|]. cbn [set_obj obj heap]. rewrite !fset_eq. cbn [cap len ptr copy ret].
    eexists _, _. split; [reflexivity|]. split; [|reflexivity].
    reflexivity.
  Qed.
  (** FINDING: x.push_back(x[j]) on a pod_vector with size equal to capacity reads
      memory after it is released (None: not a block in use), though on lists it is x ++ [x[j]] *)
  Theorem pod_push_own_element_refuted : forall (s : st T) x j,
    0 < cap (obj s x) -> len (obj s x) = cap (obj s x) -> p_step capof junk (Push x (Ref x j)) s = None.
  Proof.
    intros s x j Hc Hl. cbn [p_step]. destruct (chk s (Ref x j)); auto.
    unfold p_push, p_extend. destruct (Nat.leb_spec (len (obj s x) + 1) (cap (obj s x))); [lia|].
    destruct (alloc capof junk (heap s) (len (obj s x) + 1)) as [[m1 p] c].
    destruct (copy m1 p 0 (ptr (obj s x)) 0 (len (obj s x))) as [m2|]; auto.
    destruct (Nat.ltb_spec 0 (cap (obj s x))); [|lia].
    unfold free. destruct (blk m2 (ptr (obj s x))); auto.
    cbn [deref]. unfold read, set_obj, ptrs. cbn [heap blk]. rewrite fset_eq. reflexivity.
  Qed.
End Prop_.

(** non-trivial case: capacities rounded up to a multiple of 4, two vectors, growth with a
    reference to the vector's own element, push_vector of a vector onto itself *)
Definition ex_prog : list (op nat) :=
  [Push 0 (Val 7); Push 0 (Ref 0 0); Resize 0 4; Set_ 0 2 (Val 9); Push 0 (Ref 0 2); PushVec 0 0; Assign 1 0;
   Set_ 1 9 (Val 3); Get 1 9; Get 1 7; Get 0 9; Move 0 1; Size 0; Get 0 9; Clear 0; Size 0; Size 1].
Example ex_prog_ok : Forall vector_op ex_prog.
Proof. repeat constructor; cbn; auto. Qed.
Example ex_prog_runs :
  option_map snd (exec (v_step (fun _ n => 4 * ((n + 3) / 4)) (fun _ i => 100 + i)) ex_prog start) =
  Some [[]; []; []; []; []; []; []; []; [Elem 3]; [Elem 9]; [Elem 9]; []; [Num 10]; [Elem 3]; []; [Num 0]; [Num 10]].
Proof. vm_compute. reflexivity. Qed.
Example ex_pod_runs :
  option_map snd (exec (p_step (fun _ n => n) (fun _ i => 100 + i))
    [Extend 0 2; Set_ 0 0 (Val 1); Set_ 0 1 (Val 2); Assign 0 0; Resize 1 3; Swap 0 1; Push 1 (Ref 0 1); Get 1 0; Resize 1 5; Get 1 0] start) =
  Some [[Num 0]; []; []; []; []; []; []; [Elem 1]; []; [Elem 100]].
Proof. vm_compute. reflexivity. Qed.
(** the state with size = capacity is reached, and the list program has no error *)
Example ex_pod_full :
  option_map snd (exec (p_step (fun _ n => n) (fun _ i => 100 + i)) [Push 0 (Val 1); Push 0 (Val 5)] start) = Some [[]; []] /\
  exec (p_step (fun _ n => n) (fun _ i => 100 + i)) [Push 0 (Val 1); Push 0 (Val 5); Push 0 (Ref 0 1)] start = None /\
  option_map (fun r => fst r 0) (spec_exec (fun _ _ => false) [Push 0 (Val 1); Push 0 (Val 5); Push 0 (Ref 0 1)] (fun _ => []))
    = Some [Some 1; Some 5; Some 5].
Proof. vm_compute. auto. Qed.
