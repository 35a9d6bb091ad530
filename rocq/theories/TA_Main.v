(** C26: the theorems on thread_alloc. [capacities fuel half cap0] are the block sizes, [maxt] the largest number of threads,
    [HDR] the bytes in front of a block, [dbg]: debug build. A history is a list of calls, each with its thread and whether
    execution is parallel, and with the address that operator new returns. [s_run] ([TA_Spec]) accepts a history if its calls
    respect the contract. *)
From Coq Require Import NArith List Bool Arith Lia.
From Verif Require Import TA_Spec TA_Model TA_Proof TA_Proof2 TA_Proof3 TA_Refine TA_Prop.
Import ListNotations.

Lemma s_run_app caps half maxt HDR h h' : forall u, s_run caps half maxt HDR u (h ++ h') =
  match s_run caps half maxt HDR u h with
  | Some (os, u1) => match s_run caps half maxt HDR u1 h' with Some (os', u2) => Some (os ++ os', u2) | None => None end
  | None => None
  end.
Proof.
  induction h as [|[[t par] c] h IH]; intros u; cbn [s_run app].
  - destruct (s_run caps half maxt HDR u h') as [[? ?]|]; auto.
  - destruct (s_step caps half maxt HDR u t par c) as [[o u1]|]; auto. rewrite IH. destruct (s_run caps half maxt HDR u1 h) as [[os u2]|]; auto.
    destruct (s_run caps half maxt HDR u2 h') as [[? ?]|]; auto.
Qed.

Lemma nd_app_l {A} (l l' : list A) : NoDup (l ++ l') -> NoDup l.
Proof. induction l as [|x l IH]; cbn; intros H; constructor; inversion H; subst; auto. rewrite in_app_iff in *. tauto. Qed.

Section Main.
  Variables (fuel : nat) (half cap0 : N) (maxt : nat) (HDR : N) (dbg : bool).
  Hypothesis P0 : (0 < cap0)%N.
  Hypothesis PM : 1 <= maxt.
  Notation caps := (capacities fuel half cap0).
  Notation srun := (s_run caps half maxt HDR s_init).
  Notation trun := (t_run caps half maxt HDR dbg t_init).
  Notation sstep := (s_step caps half maxt HDR).

  (** The code gives the results of the specification, and the memory that it has from the system is exactly that of the blocks in use and held. *)
  Theorem thread_alloc_refines h os u : srun h = Some (os, u) ->
    exists s, trun h = Some (os, s) /\ t_log s = u_log u /\ NoDup (map fst (t_heap s)) /\
      (forall a n, (exists b, In (a, b) (t_heap s) /\ b_size b = n) <->
         exists k, In k (u_use u ++ u_held u) /\ k_ptr k = (a + HDR)%N /\ n = (HDR + k_cap k)%N).
  Proof.
    intros H. destruct (run_ok caps half maxt HDR dbg (capacities_nodup fuel half cap0 P0) (capacities_pos fuel half cap0 P0) h _ _ _ _ (rel_init caps maxt HDR dbg PM) H) as (s & E & R).
    exists s. split; auto. split; [apply (r_log _ _ _ _ _ _ R)|]. pose proof (r_inv _ _ _ _ _ _ R) as I. split; [eapply v_keys; eauto|]. intros a n. split.
    - intros (b & Hb & <-). destruct (v_heap _ _ _ _ _ _ _ I a b Hb) as (k & A & B & C). eauto.
    - intros (k & Hk & Ep & ->). destruct (inv_all _ _ _ _ _ _ _ I k Hk) as (b & c & GB & _ & _ & _ & _ & SZ & _). exists b. split; auto.
      replace (k_ptr k - HDR)%N with a in GB by lia. clear - GB. induction (t_heap s) as [|[a' b'] h IH]; cbn in *; [discriminate|].
      destruct (N.eqb_spec a' a) as [->|]; [left; congruence|right; auto].
  Qed.

  (** inuse(thread) and available(thread) at any time: the sums over the blocks *)
  Theorem inuse_is_sum h os u t par t' : srun h = Some (os, u) -> t < u_num u -> t' < maxt -> (t' = t \/ par = false) ->
    (exists s, trun (h ++ [(t, par, TInuse t')]) = Some (os ++ [ONum (total t' (u_use u))], s)) /\
    (exists s, trun (h ++ [(t, par, TAvailable t')]) = Some (os ++ [ONum (total t' (u_held u))], s)).
  Proof.
    intros H Ht Ht' Hp.
    assert ((t' <? maxt) && ((t' =? t) || negb par) = true) as B.
    { apply andb_true_intro. split; [now apply Nat.ltb_lt|]. destruct Hp as [->| ->]; [now rewrite Nat.eqb_refl|now rewrite orb_true_r]. }
    assert (forall c o, sstep u t par c = Some (o, u) -> exists s, trun (h ++ [(t, par, c)]) = Some (os ++ [o], s)) as K.
    { intros c o E. assert (srun (h ++ [(t, par, c)]) = Some (os ++ [o], u)) as E2 by (rewrite s_run_app, H; cbn [s_run]; now rewrite E).
      destruct (thread_alloc_refines _ _ _ E2) as (s & E3 & _). eauto. }
    split; apply K; unfold s_step; (destruct (Nat.ltb_spec t (u_num u)); [|lia]); cbn [negb]; rewrite B; reflexivity.
  Qed.

  (** after every history, the memory of the blocks does not overlap; for each element of an array: one constructor call more than destructor
      calls while the array exists, as many otherwise *)
  Theorem blocks_disjoint h os u : srun h = Some (os, u) ->
    ForallOrdPairs (apart HDR) (map mem (u_use u ++ u_held u)) /\
    (forall k, In k (u_use u ++ u_held u) -> In (k_cap k) caps /\ (HDR <= k_ptr k)%N /\ k_own k < maxt) /\
    forall p i, occ (is_ctor p i) (u_log u) = occ (is_dtor p i) (u_log u) + (if alive u p i then 1 else 0).
  Proof.
    intros H. destruct (good_run caps half maxt HDR (capacities_pos fuel half cap0 P0) h _ _ _ (good_init caps maxt HDR PM) H) as [A B C D]. auto.
  Qed.

  Lemma good_h h os u : srun h = Some (os, u) -> good caps maxt HDR u.
  Proof. intros H. exact (good_run caps half maxt HDR (capacities_pos fuel half cap0 P0) h _ _ _ (good_init caps maxt HDR PM) H). Qed.

  Lemma total_cons' t k l : total t (k :: l) = ((if (k_own k =? t)%nat then k_cap k else 0) + total t l)%N.
  Proof. apply total_cons. Qed.

  (** get_memory: the smallest block size that is large enough, memory apart from every block in use, counted for the calling thread *)
  Theorem get_memory_block h os u t par min sys p cap u' : srun h = Some (os, u) -> sstep u t par (TGet min sys) = Some (OPtr p cap, u') ->
    (min <= cap)%N /\ In cap caps /\ (forall c, In c caps -> (min <= c)%N -> (cap <= c)%N) /\
    (forall k, In k (u_use u) -> apart HDR (mem k) (p, cap)) /\
    u_use u' = mkBlk p t cap None :: u_use u /\
    (forall t', in_use u' t' = (in_use u t' + if (t' =? t)%nat then cap else 0)%N) /\
    (forall t', t' <> t -> available u' t' = available u t') /\
    (** a held block of this size is used again; otherwise the memory is from operator new *)
    ((available u' t + cap = available u t)%N \/ ((forall k, In k (u_held u) -> k_own k = t -> k_cap k <> cap) /\ p = (sys + HDR)%N /\ u_held u' = u_held u)).
  Proof.
    intros H E. pose proof (good_h _ _ _ H) as G. unfold s_step in E. destruct (Nat.ltb_spec t (u_num u)) as [Ht|]; [|discriminate]. cbn [negb] in E.
    destruct (s_get caps half HDR u t min sys (fun _ => None)) as [[[q c] u1]|] eqn:S; [|discriminate]. injection E as -> -> ->.
    assert (t < maxt) as Hm by (pose proof (g_num _ _ _ _ G); lia).
    destruct (good_get caps half maxt HDR (capacities_pos fuel half cap0 P0) _ _ _ _ _ _ _ _ G Hm S) as (hd & I1 & N1 & Eu & Hc & M1 & M2 & HH & FO & AP).
    pose proof S as S0. unfold s_get in S0. destruct (negb (min <? half)%N); [discriminate|]. destruct (find _ caps) as [cap1|] eqn:F; [|discriminate].
    apply (find_least min fuel half cap0 cap1 P0) in F as (_ & _ & LE).
    assert (cap1 = cap) as -> by (destruct (take t cap1 (u_held u)) as [[? ?]|]; [|destruct (forallb _ _); [|discriminate]]; injection S0; auto).
    repeat split; auto.
    - now rewrite Eu.
    - intros t'. rewrite Eu. unfold in_use. cbn [u_use]. rewrite total_cons'. cbn [k_own k_cap]. rewrite (Nat.eqb_sym t t'). destruct (t' =? t); lia.
    - intros t' Hne. unfold available. destruct (take t cap (u_held u)) as [[k r]|] eqn:TK.
      + injection S0 as _ <-. cbn [u_held]. destruct (take_spec _ _ _ _ _ TK) as (l1 & l2 & El & -> & E1 & E2 & _). rewrite El.
        clear - E1 Hne. induction l1 as [|x l1 IH]; cbn [app]; rewrite ?total_cons'; [|now rewrite IH]. rewrite E1. destruct (Nat.eqb_spec t t'); [congruence|lia].
      + destruct (forallb _ _); [|discriminate]. now injection S0 as _ <-.
    - destruct (take t cap (u_held u)) as [[k r]|] eqn:TK.
      + left. injection S0 as _ <-. unfold available. cbn [u_held]. destruct (take_spec _ _ _ _ _ TK) as (l1 & l2 & El & -> & E1 & E2 & _). rewrite El.
        clear - E1 E2. induction l1 as [|x l1 IH]; cbn [app]; rewrite ?total_cons'; [rewrite E1, E2, Nat.eqb_refl; lia|]. lia.
      + right. destruct (forallb _ _); [|discriminate]. injection S0 as <- <-. split; [apply take_none; auto|auto].
  Qed.

  (** return_memory: with hold_memory(true) the bytes become available for the thread that allocated the block, otherwise the system gets the memory *)
  Theorem return_memory_block h os u t par p u' : srun h = Some (os, u) -> sstep u t par (TReturn p) = Some (ONone, u') ->
    exists k, In k (u_use u) /\ k_ptr k = p /\ (forall x, In x (u_use u') <-> In x (u_use u) /\ x <> k) /\
      (u_held u' = if u_hold u then k :: u_held u else u_held u) /\
      (forall t', in_use u t' = in_use u' t' + if (t' =? k_own k)%nat then k_cap k else 0)%N /\
      (forall t', available u' t' = available u t' + if u_hold u && (t' =? k_own k)%nat then k_cap k else 0)%N.
  Proof.
    intros H E. pose proof (good_h _ _ _ H) as G. unfold s_step in E. destruct (Nat.ltb_spec t (u_num u)) as [Ht|]; [|discriminate]. cbn [negb] in E.
    destruct (find (is_ptr p) (u_use u)) as [k|] eqn:F; [|discriminate].
    assert (s_return u t par p = Some u') as R by (destruct k as [? ? ? [?|]]; [discriminate|]; destruct (s_return u t par p); [|discriminate]; now injection E as ->). clear E.
    unfold s_return in R. rewrite F in R. destruct (_ || _); [|discriminate]. injection R as <-. exists k.
    pose proof (good_nd _ _ _ (capacities_pos fuel half cap0 P0) u G) as ND. rewrite map_app in ND. apply nd_app_l in ND.
    destruct (find_split _ _ _ ND F) as (Ep & l1 & l2 & Eu & Ef). rewrite Ef, Eu. cbn [u_use u_held]. split; [apply in_or_app; right; now left|]. split; auto. split.
    { intros x. rewrite Eu, map_app in ND. cbn in ND. pose proof (NoDup_remove_2 _ _ _ ND) as N2. rewrite !in_app_iff. cbn. split.
      - intros Hx. split; [tauto|]. intros ->. apply N2. rewrite in_app_iff. destruct Hx; [left|right]; now apply in_map.
      - intros [[|[|]] ?]; auto. congruence. }
    split; auto. split.
    - intros t'. unfold in_use. cbn [u_use]. rewrite Eu. clear. induction l1 as [|x l1 IH]; cbn [app]; rewrite !total_cons'; [rewrite (Nat.eqb_sym (k_own k) t'); destruct (t' =? k_own k); lia|]. lia.
    - intros t'. unfold available. cbn [u_held]. destruct (u_hold u); cbn [andb]; [|lia]. rewrite total_cons', (Nat.eqb_sym (k_own k) t'). destruct (t' =? k_own k); lia.
  Qed.

  (** free_available(t'): nothing is available for [t'] afterwards, the rest is as before *)
  Theorem free_available_zero u t par t' u' : sstep u t par (TFree t') = Some (ONone, u') ->
    available u' t' = 0%N /\ u_use u' = u_use u /\ (forall k, In k (u_held u') <-> In k (u_held u) /\ k_own k <> t') /\
    (forall t2, t2 <> t' -> available u' t2 = available u t2).
  Proof.
    intros E. unfold s_step in E. destruct (t <? u_num u); [|discriminate]. cbn [negb] in E. destruct (_ && _); [|discriminate]. injection E as <-. unfold s_free, available. cbn [u_use u_held].
    split; [|split; [auto|split]].
    - induction (u_held u) as [|k l IH]; cbn [filter]; auto. destruct (Nat.eqb_spec (k_own k) t'); cbn [negb]; auto. rewrite total_cons'. destruct (Nat.eqb_spec (k_own k) t'); [congruence|]. lia.
    - intros k. rewrite filter_In. destruct (Nat.eqb_spec (k_own k) t'); cbn; intuition congruence.
    - intros t2 Hne. induction (u_held u) as [|k l IH]; cbn [filter]; auto. destruct (Nat.eqb_spec (k_own k) t') as [Ek|Ek]; cbn [negb]; rewrite !total_cons', ?IH; auto.
      destruct (Nat.eqb_spec (k_own k) t2); [congruence|]. lia.
  Qed.

  (** create_array: room for all elements, and at least [count] elements unless count * sizeof(Type) is too large for size_t *)
  Theorem create_array_block h os u t par sz count sys p n u' : srun h = Some (os, u) -> sstep u t par (TCreate sz count sys) = Some (OArr p n, u') ->
    exists cap, In (mkBlk p t cap (Some n)) (u_use u') /\ (forall k, In k (u_use u) -> apart HDR (mem k) (p, cap)) /\ (n * sz <= cap)%N /\
      ((0 < sz)%N -> (count * sz < 2 * half + 2)%N -> (count <= n)%N) /\
      u_log u' = u_log u ++ map (fun i => Ctor p (N.of_nat i)) (seq 0 (N.to_nat n)).
  Proof.
    intros H E. pose proof (good_h _ _ _ H) as G. unfold s_step in E. destruct (Nat.ltb_spec t (u_num u)) as [Ht|]; [|discriminate]. cbn [negb] in E.
    destruct (s_get caps half HDR u t _ sys _) as [[[q c] u1]|] eqn:S; [|discriminate]. injection E as -> <- <-.
    assert (t < maxt) as Hm by (pose proof (g_num _ _ _ _ G); lia).
    destruct (good_get caps half maxt HDR (capacities_pos fuel half cap0 P0) _ _ _ _ _ _ _ _ G Hm S) as (hd & I1 & N1 & -> & Hc & M1 & M2 & HH & FO & AP).
    exists c. split; [now left|]. split; auto. split; [|split; auto].
    - destruct (N.eq_dec sz 0) as [->|]; [lia|]. rewrite N.mul_comm. now apply N.mul_div_le.
    - intros Hs Hc2. rewrite N.mod_small in M1 by auto. apply N.div_le_lower_bound; lia.
  Qed.
  Theorem delete_array_block u t par p u' : sstep u t par (TDelete p) = Some (ONone, u') ->
    exists k n, In k (u_use u) /\ k_ptr k = p /\ k_arr k = Some n /\ u_log u' = u_log u ++ map (fun i => Dtor p (N.of_nat i)) (seq 0 (N.to_nat n)) /\
      (forall x, In x (u_use u') <-> In x (u_use u) /\ k_ptr x <> p).
  Proof.
    intros E. unfold s_step in E. destruct (t <? u_num u); [|discriminate]. cbn [negb] in E. destruct (find (is_ptr p) (u_use u)) as [k|] eqn:F; [|discriminate]. exists k.
    pose proof F as F2. apply find_some in F2 as [Hin Hp]. apply N.eqb_eq in Hp. destruct k as [kp ko kc [n|]]; [|discriminate]. exists n.
    destruct (s_return u t par p) as [u1|] eqn:R; [|discriminate]. injection E as <-. unfold s_return in R. rewrite F in R. destruct (_ || _); [|discriminate]. injection R as <-.
    cbn. repeat split; auto; try apply (proj1 (proj1 (filter_In _ _ _) H)).
    all: apply filter_In in H || (intros [Hx Hn]; apply filter_In). 
    - destruct H as [_ Hx]. unfold is_ptr in Hx. destruct (N.eqb_spec (k_ptr x) p); [discriminate|auto].
    - split; auto. unfold is_ptr. destruct (N.eqb_spec (k_ptr x) p); [congruence|auto].
  Qed.

  (** debug build: returning a block that is held (so it was returned before), or memory that thread_alloc does not have, is detected, in every state *)
  Theorem return_twice_detected h os u s t par p : dbg = true -> srun h = Some (os, u) -> trun h = Some (os, s) ->
    ~ In p (map k_ptr (u_use u)) -> (HDR <= p)%N -> t_step caps half maxt HDR dbg s t par (TReturn p) = None /\ t_step caps half maxt HDR dbg s t par (TDelete p) = None.
  Proof.
    intros D H HT N1 HP.
    destruct (run_ok caps half maxt HDR dbg (capacities_nodup fuel half cap0 P0) (capacities_pos fuel half cap0 P0) h _ _ _ _ (rel_init caps maxt HDR dbg PM) H) as (s' & E & R).
    assert (s' = s) as -> by congruence. pose proof (r_inv _ _ _ _ _ _ R) as I.
    assert (forall l, return_memory caps HDR dbg (log_all s l) t par p = None) as K.
    { intros l. unfold return_memory. cbn [log_all t_heap t_info t_hold]. destruct (h_get (t_heap s) (p - HDR)) as [b|] eqn:GB; auto. destruct (negb _); auto. rewrite D.
      rewrite (walk_out _ _ (sel caps HDR (b_tc b / length caps) (b_tc b mod length caps) (u_use u))); auto.
      - exact (v_ru _ _ _ _ _ _ _ I D _ _).
      - intros Hin. apply sel_in in Hin as (k & Hk & _ & _ & E2). apply N1. destruct (v_use _ _ _ _ _ _ _ I k Hk) as (? & ? & _ & HH & _). replace p with (k_ptr k) by lia. now apply in_map. }
    unfold t_step. destruct (negb _); auto. split.
    - pose proof (K []) as K0. replace (log_all s []) with s in K0 by (unfold log_all; rewrite app_nil_r; now destruct s). now rewrite K0.
    - destruct (h_get (t_heap s) (p - HDR)) as [b|]; auto. now rewrite K.
  Qed.
End Main.

(** *** 64 bit size_t: the values in the code *)
Notation half64 := 9223372036854775807%N.
Notation caps64 := (capacities 100 half64 128).
(** the array of capacities is large enough (thread_alloc.hpp:95) *)
Theorem capacities_fit : length caps64 = 96 /\ capacities 101 half64 128 = caps64.
Proof. vm_compute. auto. Qed.
(** C26 refuted for large requests: min_bytes is less than max / 2, as required, but larger than all capacities, so the search for the capacity leaves the
    array (thread_alloc.hpp:770) in every state *)
Theorem get_memory_large_refuted maxt HDR dbg : exists min, (min < half64)%N /\
  forall s t par sys, t_step caps64 half64 maxt HDR dbg s t par (TGet min sys) = None.
Proof.
  exists (half64 - 1)%N. split; [reflexivity|]. intros s t par sys. unfold t_step. destruct (negb (t <? t_num s)); [reflexivity|]. unfold get_memory.
  destruct (negb (half64 - 1 <? half64)%N); [reflexivity|]. replace (c_index caps64 (half64 - 1)) with (@None nat) by (vm_compute; reflexivity). reflexivity.
Qed.

(** a history with two threads: allocation, return with and without hold, an array, reuse of its block, free_all *)
Notation ex_hist := [(0, false, TSetup 2 1000%N); (0, false, THold true); (0, true, TGet 100 2000%N); (1, true, TGet 129 4000%N);
  (1, true, TCreate 8 3 6000%N); (1, true, TDelete 6048%N); (1, true, TCreate 4 40 7000%N); (1, true, TGet 1 9000%N); (0, true, TReturn 2048%N); (1, false, TInuse 1);
  (1, false, TAvailable 0); (1, false, TFree 0); (0, false, TAvailable 0); (0, false, TReturn 4048%N); (0, false, TFreeAll)].
Lemma ex_thread_alloc : exists u s,
  s_run caps64 half64 48 48 s_init ex_hist = Some ([ONone; ONone; OPtr 2048 128; OPtr 4048 192; OArr 6048 16; ONone; OArr 7048 48; OPtr 6048 128; ONone; ONum 512;
    ONum 128; ONone; ONum 0; ONone; OBool false], u) /\
  t_run caps64 half64 48 48 true t_init ex_hist = Some ([ONone; ONone; OPtr 2048 128; OPtr 4048 192; OArr 6048 16; ONone; OArr 7048 48; OPtr 6048 128; ONone; ONum 512;
    ONum 128; ONone; ONum 0; ONone; OBool false], s) /\ map k_ptr (u_use u) = [6048; 7048]%N /\ u_held u = [] /\ length (u_log u) = 80.
Proof. eexists _, _. vm_compute. auto 10. Qed.
(** C26 refuted for create_array: count * sizeof(Type) wraps around and the array has less than [count] elements (thread_alloc.hpp:1355) *)
Theorem create_array_wrap_refuted : exists s,
  t_run caps64 half64 48 48 true t_init [(0, false, TCreate 8 2305843009213693952 2000)] = Some ([OArr 2048 16], s) /\ (16 < 2305843009213693952)%N.
Proof. eexists. vm_compute. auto. Qed.

Print Assumptions thread_alloc_refines.
Print Assumptions inuse_is_sum.
Print Assumptions blocks_disjoint.
Print Assumptions get_memory_block.
Print Assumptions return_memory_block.
Print Assumptions free_available_zero.
Print Assumptions create_array_block.
Print Assumptions delete_array_block.
Print Assumptions return_twice_detected.
Print Assumptions get_memory_large_refuted.
