(** C28.  Every program that uses vectorBool observes what the same program observes
    on lists of bool. *)
From Coq Require Import List Arith Bool Lia NArith.
From Verif Require Import Vec_Spec Vec_Model Vec_Proof Vec_Proof2 Vec_Prop VB_Model VB_Proof.
Import ListNotations.

(** lists of bool, with the documented requirement that an assignment is between
    vectors of the same size unless the destination is empty *)
Definition bool_step (keep : nat -> nat -> bool) (o : op bool) (s : lists bool) : option (lists bool * expect bool) :=
  match o with
  | Assign x y | Move x y =>
      if (length (s x) =? length (s y)) || (length (s x) =? 0) then spec_step keep o s else None
  | _ => spec_step keep o s
  end.
Fixpoint bool_exec (os : list (op bool)) (L : lists bool) : option (lists bool * list (expect bool)) :=
  match os with
  | [] => Some (L, [])
  | o :: os' =>
    match bool_step (fun _ _ => false) o L with
    | None => None
    | Some (L1, r) => match bool_exec os' L1 with Some (L2, rs) => Some (L2, r :: rs) | None => None end
    end
  end.
(** run of the model *)
Fixpoint b_exec (w : nat) capof junk (os : list (op bool)) (s : st N) : option (st N * list (list (obs bool))) :=
  match os with
  | [] => Some (s, [])
  | o :: os' =>
    match b_step w capof junk o s with
    | None => None
    | Some (s1, r) => match b_exec w capof junk os' s1 with Some (s2, rs) => Some (s2, r :: rs) | None => None end
    end
  end.
(** members of vectorBool *)
Definition bool_op (o : op bool) : Prop := match o with Extend _ _ => False | _ => True end.

Section Prop_.
  Variables (w : nat) (capof : nat -> nat -> nat) (junk : nat -> nat -> N).
  Hypothesis Hw : 0 < w.
  Hypothesis capof_ge : forall k n, n <= capof k n.

  Lemma b_step_ok o s L : BOK w s L -> bool_op o ->
    match bool_step (fun x n => n <=? cap (obj s x) * w) o L with
    | Some (L', e) => exists s' r, b_step w capof junk o s = Some (s', r) /\ fits e r /\ BOK w s' L'
    | None => b_step w capof junk o s = None
    end.
  Proof.
    intros HOK Ho. pose proof HOK as (G & _).
    destruct o as [x n|x|x y|x y|x y|x i a|x a|x y|x n|x i|x]; cbn [bool_step spec_step b_step].
    - destruct (b_resize_ok w Hw capof junk capof_ge s L x n HOK) as (s' & A & B). rewrite A. eexists _, _. split; [reflexivity|]. split; [reflexivity|exact B].
    - destruct (b_clear_ok w Hw junk s L x HOK) as (s' & A & B). rewrite A. eexists _, _. split; [reflexivity|]. split; [reflexivity|exact B].
    - eexists _, _. split; [reflexivity|]. split; [reflexivity|]. now apply BOK_swap.
    - pose proof (b_assign_ok w Hw capof junk capof_ge s L x y HOK) as H.
      destruct (_ || _); [|rewrite H; reflexivity]. destruct H as (s' & A & B). rewrite A. eexists _, _. split; [reflexivity|]. split; [reflexivity|exact B].
    - unfold b_move. destruct (G x) as (E1 & _). destruct (G y) as (E2 & _). rewrite E1, E2.
      destruct (_ || _); [|reflexivity]. eexists _, _. split; [reflexivity|]. split; [reflexivity|]. now apply BOK_swap.
    - destruct (src_val L a) as [v|] eqn:Ea.
      + destruct (Nat.ltb_spec i (length (L x))) as [H|H].
        * destruct (b_set_ok w Hw junk s L x i a v HOK Ea H) as (s' & A & B). rewrite A. eexists _, _. split; [reflexivity|]. split; [reflexivity|exact B].
        * unfold b_set. destruct (G x) as (E & _). destruct (Nat.ltb_spec i (len (obj s x))); [lia|]. reflexivity.
      + unfold b_set. rewrite (b_src_none w Hw s L a HOK Ea). destruct (i <? len (obj s x)); reflexivity.
    - destruct (src_val L a) as [v|] eqn:Ea.
      + destruct (b_push_ok w Hw capof junk capof_ge s L x a v HOK Ea) as (s' & A & B). rewrite A. eexists _, _. split; [reflexivity|]. split; [reflexivity|exact B].
      + unfold b_push. rewrite (b_src_none w Hw s L a HOK Ea). reflexivity.
    - destruct (b_push_vec_ok w Hw capof junk capof_ge s L x y HOK) as (s' & A & B). rewrite A. eexists _, _. split; [reflexivity|]. split; [reflexivity|exact B].
    - destruct Ho.
    - destruct (nth_error (L x) i) as [v|] eqn:E.
      + destruct (b_bit_ok w Hw junk s L x i v HOK E) as (e & A & B). rewrite A. eexists _, _. split; [reflexivity|]. split; [|exact HOK].
        destruct v; cbn in *; [congruence|]. eexists; reflexivity.
      + rewrite (b_bit_none w Hw s L x i HOK E). reflexivity.
    - destruct (G x) as (E0 & _). eexists _, _. split; [reflexivity|]. split; [|exact HOK]. cbn. congruence.
  Qed.

  Lemma BOK_weaker s L L' : BOK w s L -> (forall x, weaker (L' x) (L x)) -> BOK w s L'.
  Proof.
    intros (G & R) H. split; auto. intro x. destruct (G x) as (A & B & C). specialize (H x).
    assert (El : length (L' x) = length (L x)) by (clear -H; induction H; cbn; congruence).
    split; [congruence|]. split; auto. intro Hc. destruct (C Hc) as (f & C1 & C2 & C3).
    exists f. split; auto. split; auto. intros i a E. apply C3.
    clear -H E. revert i E. unfold weaker in H. induction H as [|u v l' l Huw H IH]; intros i E; [destruct i; discriminate|].
    destruct i; cbn in *; auto. destruct Huw; congruence.
  Qed.
  Lemma b_step_ok0 o s L : BOK w s L -> bool_op o ->
    match bool_step (fun _ _ => false) o L with
    | Some (L', e) => exists s' r, b_step w capof junk o s = Some (s', r) /\ fits e r /\ BOK w s' L'
    | None => b_step w capof junk o s = None
    end.
  Proof.
    intros HOK Ho. pose proof (b_step_ok o s L HOK Ho) as H.
    destruct o as [x n|x|x y|x y|x y|x i a|x a|x y|x n|x i|x]; try exact H.
    cbn [bool_step spec_step] in H |- *. destruct H as (s' & r & A & B & C). exists s', r. split; auto. split; auto.
    eapply BOK_weaker; [exact C|]. intro z. unfold fset. destruct (Nat.eqb_spec z x); [|apply weaker_refl].
    cbn [orb]. destruct (n <=? cap (obj s x) * w), (n <=? length (L x)); cbn [orb]; try apply weaker_refl.
    apply weaker_rep. apply firstn_pad.
  Qed.
  Lemma b_exec_ok os : forall s L, BOK w s L -> Forall bool_op os ->
    match bool_exec os L with
    | Some (L', es) => exists s' rs, b_exec w capof junk os s = Some (s', rs) /\ Forall2 fits es rs /\ BOK w s' L'
    | None => b_exec w capof junk os s = None
    end.
  Proof.
    induction os as [|o os IH]; intros s L HOK Hos; cbn [bool_exec b_exec].
    - exists s, []. auto.
    - apply Forall_cons_iff in Hos. destruct Hos as [Ho Hos].
      pose proof (b_step_ok0 o s L HOK Ho) as H. destruct (bool_step _ o L) as [[L1 e]|]; [|rewrite H; reflexivity].
      destruct H as (s1 & r & A & B & C). rewrite A. specialize (IH s1 L1 C Hos).
      destruct (bool_exec os L1) as [[L2 es]|]; [|rewrite IH; reflexivity].
      destruct IH as (s2 & rs & A2 & B2 & C2). rewrite A2. exists s2, (r :: rs). auto.
  Qed.
End Prop_.

(** for every number of bits per unit, allocator and program: same observations as on
    lists (elements unspecified after a resize that increases the size), an index or an
    assignment is rejected exactly when it is invalid for the lists, no block is lost,
    used after it is released, or released twice *)
Theorem vectorBool_is_list : forall w capof junk (os : list (op bool)),
  0 < w -> (forall k n, n <= capof k n) -> Forall bool_op os ->
  match bool_exec os (fun _ => []) with
  | Some (L, es) => exists s rs, b_exec w capof junk os start = Some (s, rs) /\ Forall2 fits es rs /\
                      (forall x, len (obj s x) = length (L x)) /\ (forall x, len (obj s x) <= cap (obj s x) * w) /\ no_leak s
  | None => b_exec w capof junk os start = None
  end.
Proof.
  intros w capof junk os Hw Hc Hos.
  pose proof (b_exec_ok w capof junk Hw Hc os start (fun _ => []) (BOK_start w Hw) Hos) as H.
  destruct (bool_exec os _) as [[L es]|]; [|exact H]. destruct H as (s & rs & A & B & C).
  exists s, rs. split; auto. split; auto. pose proof C as (G & D & N & F). split; [|split; [|split]].
  - intro x. destruct (G x). auto.
  - intro x. destruct (b_content w Hw junk s L x C) as (f & _ & H & _). exact H.
  - exact N.
  - intros x y P Q E. apply (D x y (ptr (obj s x))); split; auto.
Qed.
(** a resize within the capacity() preserves the elements *)
Theorem vectorBool_resize_in_capacity : forall w capof junk (s : st N) x i b n,
  0 < w -> b_bit w (heap s) (obj s x) i = Some b -> n <= cap (obj s x) * w -> i < n ->
  exists s', b_step w capof junk (Resize x n) s = Some (s', []) /\ b_bit w (heap s') (obj s' x) i = Some b.
Proof.
  intros w capof junk s x i b n Hw Hg Hn Hi. cbn. unfold b_resize.
  pose proof (unit_min_least w Hw n (cap (obj s x)) Hn).
  destruct (Nat.leb_spec (unit_min w n) (cap (obj s x))); [|lia]. eexists. split; [reflexivity|].
  unfold b_bit, set_obj in *. cbn [obj heap]. rewrite fset_eq. cbn [len ptr]. destruct (i <? len (obj s x)); [|discriminate].
  destruct (Nat.ltb_spec i n); [|lia]. exact Hg.
Qed.

Definition ex_bprog : list (op bool) :=
  [Push 0 (Val true); Push 0 (Val false); Push 0 (Ref 0 0); Resize 0 3; PushVec 0 0; PushVec 0 0; Get 0 11; Get 0 10; Get 0 6;
   Set_ 0 10 (Ref 0 0); Get 0 10; Get 0 9; Assign 1 0; Set_ 1 0 (Val false); Get 0 0; Get 1 11; Size 1; Clear 0; Move 0 1; Get 0 11; Size 1].
Example ex_bprog_ok : Forall bool_op ex_bprog.
Proof. repeat constructor. Qed.
Example ex_bprog_runs : option_map snd (b_exec 4 (fun _ n => n) (fun _ _ => 11%N) ex_bprog start) =
  Some [[]; []; []; []; []; []; [Elem true]; [Elem false]; [Elem true]; []; [Elem true]; [Elem true]; []; []; [Elem true]; [Elem true];
        [Num 12]; []; []; [Elem true]; [Num 0]].
Proof. vm_compute. reflexivity. Qed.
