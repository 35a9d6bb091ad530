(** Simulation between recording and replay: VecAD objects. *)
From Coq Require Import ZArith List Bool Arith Lia.
From Verif Require Import Base_Spec Op_Model Tape_Spec Tape_Model Tape_Proof Tape_Proof2 Tape_Proof3
  Tape_Proof4 Tape_Proof5 Tape_Proof6.
Import ListNotations.

Lemma lset_length {A} (l : list A) : forall i x, length (lset l i x) = length l.
Proof. induction l; intros [|i] x; cbn; auto. Qed.
Lemma nth_lset {A} (l : list A) : forall i x k d, k < length l ->
  nth k (lset l i x) d = if k =? i then x else nth k l d.
Proof.
  induction l; intros [|i] x [|k] d H; cbn in *; auto; try lia. apply IHl. lia.
Qed.
Lemma index_of_some z n k : index_of z n = Some k -> k < n.
Proof.
  unfold index_of. destruct ((0 <=? z)%Z && (z <? Z.of_nat n)%Z) eqn:E; [|discriminate].
  apply andb_true_iff in E as [E1 E2]. apply Z.leb_le in E1. apply Z.ltb_lt in E2.
  intros H. injection H as <-. lia.
Qed.

Section Sim.
  Context {b : base} (L : base_laws b).
  Notation T := (bt b).
  Variable tid : nat.
  Variables (ind : list T) (P : nat -> T) (cc : nat).
  Variables (V0 : nat -> T) (vec0 : nat -> nat) (l2v0 : nat -> nat).
  Variable same : Prop.
  Notation tape_ok := (tape_ok P cc V0 vec0 l2v0).
  Notation grows := (grows ind P cc V0 vec0 l2v0 same).
  Notation Pok := (Pok ind P).
  Notation is_var := (is_var tid).
  Notation is_dyn := (is_dyn tid).
  Notation rel := (rel tid P same).
  Notation opres := (opres tid ind P cc V0 vec0 l2v0 same).
  Notation s_init := (s_init V0 vec0 l2v0).

  (** growth that may add vectors *)
  Record grow0 (r : rec b) (s : fst0 b) (r' : rec b) (s' : fst0 b) : Prop := {
    h_ext : ext r r';
    h_ok  : tape_ok r' s';
    h_val : forall i, i < r_nvar r -> f_V s' i = f_V s i;
    h_isv : f_isv s' = f_isv s;
    h_idx : f_idx s' = f_idx s;
    h_cnt : f_num s' = f_num s;
    h_peq : same -> Pok r' -> pareq P r -> pareq P r'
  }.
  Lemma grows_grow0 r s r' s' : grows r s r' s' -> grow0 r s r' s'.
  Proof. intros []. constructor; auto. Qed.
  Lemma grow0_refl r s : tape_ok r s -> grow0 r s r s.
  Proof. intros. constructor; auto using ext_refl. Qed.
  Lemma grow0_trans r1 s1 r2 s2 r3 s3 :
    grow0 r1 s1 r2 s2 -> grow0 r2 s2 r3 s3 -> grow0 r1 s1 r3 s3.
  Proof.
    intros [] []. constructor; eauto using ext_trans; try congruence.
    - intros i Hi. rewrite h_val1, h_val0; auto. pose proof (e_nv _ _ h_ext0). lia.
    - intros Hs HP H. apply h_peq1; auto. apply h_peq0; auto.
      eapply Pok_ext; eauto. apply (t_dwf _ _ _ _ _ _ _ h_ok0).
  Qed.
  Lemma rel_grow0 r s r' s' a v0 v1 : grow0 r s r' s' -> rel r s a v0 v1 -> rel r' s' a v0 v1.
  Proof.
    intros G (A & S & B). split; [auto|split; [auto|]]. destruct (a_tid a =? tid); auto.
    pose proof (ext_par_len _ _ (h_ext _ _ _ _ G)).
    pose proof (e_nv _ _ (h_ext _ _ _ _ G)).
    destruct (is_T_dyn (a_type a)).
    - intuition lia.
    - destruct B as (B1 & B2 & B3). repeat split; auto; try lia.
      rewrite (h_val _ _ _ _ G); auto. lia.
  Qed.

  (** vectors *)
  Definition elem (s : fst0 b) (j : nat) : T :=
    if f_isv s j then f_V s (f_idx s j) else P (f_idx s j).
  Definition cell_ok (r : rec b) (s : fst0 b) (j : nat) : Prop :=
    if f_isv s j then 0 < f_idx s j < r_nvar r else f_idx s j < length (r_par r).

  Definition on_tape (r : rec b) (s : fst0 b) (off : nat) (d1 : list T) : Prop :=
    1 <= off /\ off + length d1 <= length (r_vec r) /\ f_idx s (off - 1) = length d1 /\
    forall k, k < length d1 -> cell_ok r s (off + k) /\ elem s (off + k) = nth k d1 b0.

  Definition vrel (r : rec b) (s : fst0 b) (v : VecAD b) (d0 d1 : list T) : Prop :=
    v_data v = d0 /\ length d1 = length d0 /\ (same -> d1 = d0) /\
    if v_tid v =? tid then v_type v = T_var /\ on_tape r s (v_off v) d1 else d1 = d0.

  Definition Vok (r : rec b) : Prop :=
    forall i, i < length (r_vec r) -> vec0 i = nth i (r_vec r) 0.
  Lemma Vok_ext r r' : ext r r' -> Vok r' -> Vok r.
  Proof.
    intros [_ _ _ _ _ [l H]] V i Hi. rewrite V, H, app_nth1; auto. rewrite H, app_length. lia.
  Qed.
  Definition vfresh (r : rec b) (s : fst0 b) : Prop :=
    forall i, length (r_vec r) <= i -> f_isv s i = false /\ f_idx s i = vec0 i.
  Definition vdisj (ev : nat -> VecAD b) : Prop :=
    forall i j, i <> j -> v_tid (ev i) = tid -> v_tid (ev j) = tid ->
      v_off (ev i) + length (v_data (ev i)) < v_off (ev j) \/
      v_off (ev j) + length (v_data (ev j)) < v_off (ev i).

  Lemma on_tape_grow0 r s r' s' off d : grow0 r s r' s' -> on_tape r s off d -> on_tape r' s' off d.
  Proof.
    intros G (A & B & C & D).
    pose proof (ext_vec_len _ _ (h_ext _ _ _ _ G)). pose proof (ext_par_len _ _ (h_ext _ _ _ _ G)).
    pose proof (e_nv _ _ (h_ext _ _ _ _ G)).
    split; [auto|split; [lia|split; [now rewrite (h_idx _ _ _ _ G)|]]].
    intros k Hk. destruct (D k Hk) as [E F]. unfold cell_ok, elem in *.
    rewrite (h_isv _ _ _ _ G), (h_idx _ _ _ _ G). destruct (f_isv s (off + k)).
    - split; [lia|]. rewrite (h_val _ _ _ _ G); auto. lia.
    - split; [lia|auto].
  Qed.
  Lemma vrel_grow0 r s r' s' v d0 d1 : grow0 r s r' s' -> vrel r s v d0 d1 -> vrel r' s' v d0 d1.
  Proof.
    intros G (A & B & S & C). split; [auto|split; [auto|split; [auto|]]].
    destruct (v_tid v =? tid); auto. destruct C as [C D]. split; auto.
    eapply on_tape_grow0; eauto.
  Qed.

  (** ** putting a vector on the tape *)
  Lemma put_con_list_res l : forall r s r' ps,
    tape_ok r s -> put_con_list r l = (r', ps) ->
    grows r s r' s /\ length ps = length l /\ r_nvar r' = r_nvar r /\
    (forall k, k < length l -> nth k ps 0 < length (r_par r')) /\
    (Pok r' -> forall k, k < length l -> P (nth k ps 0) = nth k l b0).
  Proof.
    induction l as [|v l IH]; intros r s r' ps K H; cbn in H.
    - injection H as <- <-. split; [now apply grows_refl|]. cbn. repeat split; auto; intros; lia.
    - destruct (put_con_par r v) as [r1 p] eqn:E.
      destruct (put_con_list r1 l) as [r2 qs] eqn:F. injection H as <- <-.
      destruct (put_con_par_grows L ind _ _ _ _ _ same _ _ _ _ _ K E) as (A & B & C & _ & D).
      pose proof (g_ok _ _ _ _ _ _ _ _ _ _ _ A) as K1.
      destruct (IH _ _ _ _ K1 F) as (A' & B' & C' & D' & E').
      pose proof (ext_par_len _ _ (g_ext _ _ _ _ _ _ _ _ _ _ _ A')) as LP.
      split; [eapply grows_trans; eauto|]. split; [cbn; congruence|]. split; [congruence|].
      split.
      + intros [|k] Hk; cbn in *; [lia|]. apply D'. lia.
      + intros HP [|k] Hk; cbn in *.
        * apply D. eapply Pok_g; eauto.
        * apply E'; auto. lia.
  Qed.

  Definition put_vec (r : rec b) (l : list nat) : rec b :=
    mkRec (r_cmp r) (r_nvar r) (r_nload r) (r_op r) (r_arg r) (r_vec r ++ l)
          (r_hash r) (r_par r) (r_isdyn r) (r_dop r) (r_darg r).
  Lemma put_var_vecad_eq r t : put_var_vecad r t = (put_vec r (length t :: t), length (r_vec r)).
  Proof.
    unfold put_var_vecad. cbn. f_equal.
    assert (forall t r l, fold_left (fun r i => fst (put_vec_ind r i)) t (put_vec r l) = put_vec r (l ++ t)) as G.
    { clear. induction t as [|i t IH]; intros r l; cbn [fold_left]; [now rewrite app_nil_r|].
      replace (fst (put_vec_ind (put_vec r l) i)) with (put_vec r (l ++ [i])).
      - rewrite IH, <- app_assoc. reflexivity.
      - unfold put_vec; cbn. now rewrite app_assoc. }
    apply (G t r [length t]).
  Qed.
  Lemma put_vec_grow0 r s l : tape_ok r s -> grow0 r s (put_vec r l) s.
  Proof.
    intros K. constructor; auto.
    - constructor; cbn; auto; try (exists []; now rewrite app_nil_r). eexists; reflexivity.
    - destruct K as [W N N1 Q1 D S]. constructor; auto. destruct W. constructor; auto.
  Qed.

  Lemma vec_on_tape_res r s v r' v' :
    tape_ok r s -> vfresh r s -> vec_on_tape tid r v = (r', v') ->
    grow0 r s r' s /\ vfresh r' s /\ v_data v' = v_data v /\ v_tid v' = tid /\ v_type v' = T_var /\
    length (r_vec r) < v_off v' /\
    (Pok r' -> Vok r' -> on_tape r' s (v_off v') (v_data v)).
  Proof.
    intros K F H. unfold vec_on_tape in H.
    destruct (put_con_list r (v_data v)) as [r1 ta] eqn:E.
    destruct (put_con_list_res _ _ _ _ _ K E) as (A & B & C & D & G).
    rewrite put_var_vecad_eq in H. injection H as <- <-. cbn [v_data v_tid v_type v_off].
    pose proof (g_ok _ _ _ _ _ _ _ _ _ _ _ A) as K1.
    pose proof (g_vec _ _ _ _ _ _ _ _ _ _ _ A) as EV.
    pose proof (put_vec_grow0 r1 s (length ta :: ta) K1) as G1.
    split; [eapply grow0_trans; [apply grows_grow0; eauto|auto]|].
    split.
    { intros i Hi. apply F. cbn in Hi. rewrite app_length, EV in Hi. lia. }
    repeat (split; [reflexivity|]). split; [rewrite EV; lia|].
    intros HP HV. assert (Pok r1) as HP1 by (eapply Pok_ext; [apply (t_dwf _ _ _ _ _ _ _ K1)|apply G1|auto]).
    unfold Vok in HV. cbn in HV. rewrite EV, !app_length in *. cbn in *.
    unfold on_tape. cbn. rewrite EV, !app_length. cbn.
    replace (length (r_vec r) - 0) with (length (r_vec r)) by lia.
    split; [lia|split; [lia|split]].
    - destruct (F (length (r_vec r)) (le_n _)) as [_ ->]. rewrite HV by lia.
      rewrite app_nth2, Nat.sub_diag by lia. cbn. auto.
    - intros k Hk. destruct (F (S (length (r_vec r) + k)) ltac:(lia)) as [F1 F2].
      assert (f_idx s (S (length (r_vec r) + k)) = nth k ta 0) as F3.
      { rewrite F2, HV by lia. rewrite app_nth2 by lia.
        replace (S (length (r_vec r) + k) - length (r_vec r)) with (S k) by lia. reflexivity. }
      unfold cell_ok, elem. rewrite F1, F3. cbn. split; [apply D; auto|apply G; auto].
  Qed.

  (** ** load and store *)
  Definition dead (r : rec b) : Prop :=
    exists l, decode (r_op r) (r_arg r) 0 = Some l /\ sweep0 P cc l 0 s_init = None.

  Lemma load_res r s off d1 o p nl i1 :
    tape_ok r s -> on_tape r s off d1 ->
    (o = LdvOp /\ 0 < p < r_nvar r /\ f_V s p = i1) \/ (o = LdpOp /\ p < length (r_par r) /\ P p = i1) ->
    match index_of (b_int i1) (length d1) with
    | None => dead (fst (put_load_op (put_arg r [off; p; nl]) o))
    | Some k => exists s', grow0 r s (fst (put_load_op (put_arg r [off; p; nl]) o)) s' /\
                  f_V s' (r_nvar r) = nth k d1 b0
    end.
  Proof.
    intros K (A & B & C & D) Ho.
    set (r' := fst (put_load_op (put_arg r [off; p; nl]) o)).
    assert (n_actual o [off; p; nl] = 3 /\ o <> CSkipOp /\ num_res o = 1) as (O1 & O2 & O3)
      by (destruct Ho as [(-> & _)|(-> & _)]; repeat split; discriminate).
    destruct (add_op_tape P cc V0 vec0 l2v0 r s r' o [off; p; nl] K) as (X & W & l & Dl & _ & Z & Y); auto.
    { repeat split. }
    { destruct Ho as [(-> & Hp & _)|(-> & Hp & _)]; cbn; auto. }
    { destruct Ho as [(-> & Hp & _)|(-> & Hp & _)]; cbn; auto. }
    assert (Hst : step0 P cc (mkIns o [off; p; nl] (r_nvar r' - 1)) (length (r_op r)) s =
      match index_of (b_int i1) (length d1) with
      | None => None
      | Some k => Some (mkF (fset (f_V s) (r_nvar r' - 1) (elem s (off + k))) (f_isv s) (f_idx s)
          (fset (f_l2v s) nl (if f_isv s (off + k) then f_idx s (off + k) else 0))
          (f_num s) (f_opi s) (f_skip s))
      end).
    { destruct Ho as [(-> & _ & Hp)|(-> & _ & Hp)]; cbn -[index_of]; rewrite C, Hp;
        destruct (index_of (b_int i1) (length d1)); auto. }
    destruct (index_of (b_int i1) (length d1)) as [k|] eqn:E.
    - apply index_of_some in E. destruct (D k E) as [D1 D2].
      replace (r_nvar r' - 1) with (r_nvar r) in * by (subst r'; cbn; lia).
      set (s' := mkF _ _ _ _ _ _ _) in Hst. exists s'. split.
      + constructor; auto.
        * apply (Y _ Hst). cbn. apply (t_skip _ _ _ _ _ _ _ K).
        * intros i Hi. cbn. apply fset_ne. lia.
      + cbn. now rewrite fset_eq.
    - exists l. split; auto.
  Qed.

  (** state after a store of cell [q] (variable or parameter) *)
  Definition stored (s s' : fst0 b) (j : nat) (isv : bool) (q : nat) : Prop :=
    f_V s' = f_V s /\ f_isv s' = fset (f_isv s) j isv /\ f_idx s' = fset (f_idx s) j q /\
    f_num s' = f_num s.

  Lemma store_res r s off d1 o p q i1 (iv rv : bool) :
    tape_ok r s -> on_tape r s off d1 ->
    o = (if rv then if iv then StvvOp else StpvOp else if iv then StvpOp else StppOp) ->
    (if iv then 0 < p < r_nvar r /\ f_V s p = i1 else p < length (r_par r) /\ P p = i1) ->
    (if rv then 0 < q < r_nvar r else q < length (r_par r)) ->
    match index_of (b_int i1) (length d1) with
    | None => dead (fst (put_op (put_arg r [off; p; q]) o))
    | Some k => exists s', tape_ok (fst (put_op (put_arg r [off; p; q]) o)) s' /\
                  stored s s' (off + k) rv q
    end.
  Proof.
    intros K (A & B & C & D) Ho Hi Hq.
    set (r' := fst (put_op (put_arg r [off; p; q]) o)).
    assert (n_actual o [off; p; q] = 3 /\ o <> CSkipOp /\ num_res o = 0) as (O1 & O2 & O3)
      by (subst o; destruct rv, iv; repeat split; discriminate).
    destruct (add_op_tape P cc V0 vec0 l2v0 r s r' o [off; p; q] K) as (X & W & l & Dl & _ & Z & Y); auto.
    { repeat split. }
    { subst o. destruct rv, iv; cbn; repeat constructor; lia. }
    { subst o. destruct rv, iv; cbn; repeat constructor; lia. }
    assert (Hst : step0 P cc (mkIns o [off; p; q] (r_nvar r' - 1)) (length (r_op r)) s =
      match index_of (b_int i1) (length d1) with
      | None => None
      | Some k => Some (mkF (f_V s) (fset (f_isv s) (off + k) rv) (fset (f_idx s) (off + k) q)
          (f_l2v s) (f_num s) (f_opi s) (f_skip s))
      end).
    { subst o. destruct rv, iv; destruct Hi as [_ Hi]; cbn -[index_of]; rewrite C, Hi;
        destruct (index_of (b_int i1) (length d1)); auto. }
    destruct (index_of (b_int i1) (length d1)) as [k|] eqn:E.
    - eexists. split; [apply (Y _ Hst)|].
      + cbn. apply (t_skip _ _ _ _ _ _ _ K).
      + repeat split.
    - exists l. split; auto.
  Qed.
End Sim.
