(** Model of core/tape_link.hpp and of the user functions that start and end a
    recording, for several threads whose statements are interleaved arbitrarily.
    The statements executed while recording are those of Tape_Model.step_rec. *)
From Coq Require Import List Arith Bool Lia ZArith.
From Verif Require Import Base_Spec Op_Model Tape_Spec Tape_Model.
Import ListNotations.

Section Link.
  Context {b : base}.
  Notation T := (bt b).
  (** CPPAD_MAX_NUM_THREADS and numeric_limits<tape_id_t>::max() *)
  Variables (M MAX : nat).

  (** what a user's program can do, each by one thread *)
  Inductive event :=
  | Ev_independent (t : nat) (cmp : bool) (xs ds : list nat) (* Independent(x, 0, cmp, dynamic) *)
  | Ev_op (t : nat) (i : instr T)                            (* a statement with AD objects *)
  | Ev_cmp (t : nat) (c : cmpop) (l r : nat)                 (* l c r *)
  | Ev_dependent (t : nat)                                   (* ADFun f(x,y), or f.Dependent(y) *)
  | Ev_abort (t : nat).                                      (* AD<Base>::abort_recording() *)

  (** core/tape_link.hpp:34-45 the static tape_id_table; 65-73 the static
      tape_table (with ADTape::id_ and ADTape::Rec_); all the AD<Base> and
      VecAD<Base> objects of the program *)
  Record world := mkW {
    w_id : nat -> nat;
    w_tape : nat -> option (nat * rec b);
    w_ad : nat -> AD b;
    w_vec : nat -> VecAD b }.

  (** core/con_dyn_var.hpp:92-100, 113-121, 134-142, 155-163 *)
  Definition Constant_ (w : world) (x : AD b) : bool :=
    if a_tid x =? 0 then true else negb (a_tid x =? w_id w (a_tid x mod M)).
  Definition Dynamic_ (w : world) (x : AD b) : bool :=
    if (a_tid x =? 0) || negb (is_T_dyn (a_type x)) then false
    else a_tid x =? w_id w (a_tid x mod M).
  Definition Parameter_ (w : world) (x : AD b) : bool :=
    if (a_tid x =? 0) || is_T_dyn (a_type x) then true
    else negb (a_tid x =? w_id w (a_tid x mod M)).
  Definition Variable_ (w : world) (x : AD b) : bool :=
    if (a_tid x =? 0) || negb (is_T_var (a_type x)) then false
    else a_tid x =? w_id w (a_tid x mod M).
  (** con_dyn_var.hpp:102-110, VecAD case *)
  Definition ConstantV (w : world) (x : VecAD b) : bool :=
    if v_tid x =? 0 then true else negb (v_tid x =? w_id w (v_tid x mod M)).

  (** core/tape_link.hpp:183-207 tape_manage(new_tape_manage), the caller
      having checked that there is no tape; None is the "known" assertion *)
  Definition tape_new (w : world) (t : nat) (cmp : bool) : option world :=
    let id := if w_id w t =? 0 then t + M else w_id w t in
    if (w_id w t =? 0) && (MAX <? id) then None
    else Some (mkW (fset (w_id w) t id) (fset (w_tape w) t (Some (id, rec0 cmp)))
                   (w_ad w) (w_vec w)).

  (** core/tape_link.hpp:210-224 tape_manage(delete_tape_manage) *)
  Definition tape_delete (w : world) (t : nat) : option world :=
    if w_id w t <? MAX - M then
      Some (mkW (fset (w_id w) t (w_id w t + M)) (fset (w_tape w) t None) (w_ad w) (w_vec w))
    else None.

  (** local/independent.hpp:67-75 *)
  Fixpoint mark_ind (id : nat) (r : rec b) (e : nat -> AD b) (xs : list nat) : rec b * (nat -> AD b) :=
    match xs with
    | [] => (r, e)
    | x :: xs' =>
      let '(r1, a) := put_op r InvOp in
      mark_ind id r1 (fset e x (mkAD (a_val (e x)) id a T_var)) xs'
    end.
  (** local/independent.hpp:92-109 *)
  Fixpoint mark_dyn (id : nat) (j : nat) (r : rec b) (e : nat -> AD b) (ds : list nat) : rec b * (nat -> AD b) :=
    match ds with
    | [] => (r, e)
    | x :: ds' =>
      let '(r1, _) := put_dyn_par r (a_val (e x)) ind_dyn [] in
      mark_dyn id (S j) r1 (fset e x (mkAD (a_val (e x)) id (S j) T_dyn)) ds'
    end.
  (** core/independent/independent.hpp:60-81 with local/independent.hpp:34-110
      (abort_op_index = 0).  [x] must not be empty. *)
  Definition do_independent (w : world) (t : nat) (cmp : bool) (xs ds : list nat) : option world :=
    match w_tape w t, xs with
    | Some _, _ => None                      (* "a previous tape is still active" *)
    | None, [] => None                       (* "the argument vector x has zero size" *)
    | None, _ =>
      match tape_new w t cmp with
      | None => None
      | Some w1 =>
        let id := w_id w1 t in
        let r1 := put_arg (fst (put_op (rec0 cmp) BeginOp)) [0] in
        let '(r2, e2) := mark_ind id r1 (w_ad w1) xs in
        let '(r3, _) := put_con_par r2 bnan in
        let '(r4, e4) := mark_dyn id 0 r3 e2 ds in
        Some (mkW (w_id w1) (fset (w_tape w1) t (Some (id, r4))) e4 (w_vec w1))
      end
    end.

  (** a statement executed while this thread has no tape: every operator begins
      with "tape_ptr() == nullptr" or finds no operand on a tape, e.g.
      core/add.hpp:20-24; the compound assignments only change value_, e.g.
      add_eq.hpp:21-26; vec_ad.hpp:187-205, 440-454, 508-530 *)
  Definition step_none (i : instr T) (e : nat -> AD b) (ev : nat -> VecAD b)
    : option ((nat -> AD b) * (nat -> VecAD b)) :=
    match i with
    | Iconst d c => Some (fset e d (con_ad c), ev)
    | Icopy d x => Some (fset e d (e x), ev)
    | Iun u d x => Some (fset e d (con_ad (b_un u (a_val (e x)))), ev)
    | Ibin o d l r => Some (fset e d (con_ad (b_bin o (a_val (e l)) (a_val (e r)))), ev)
    | Ieq o d r =>
        let f := match o with Eadd => Badd | Esub => Bsub | Emul => Bmul | Ediv => Bdiv end in
        Some (fset e d (mkAD (b_bin f (a_val (e d)) (a_val (e r)))
                             (a_tid (e d)) (a_taddr (e d)) (a_type (e d))), ev)
    | Icond c d l r t f =>
        Some (fset e d (con_ad (cond_exp_code (cexp_code c) (a_val (e l)) (a_val (e r))
                                              (a_val (e t)) (a_val (e f)))), ev)
    | Idis k d x => Some (fset e d (con_ad (b_dis k (a_val (e x)))), ev)
    | Ild d v i =>
        match index_of (b_int (a_val (e i))) (length (v_data (ev v))) with
        | None => None
        | Some j => Some (fset e d (con_ad (nth j (v_data (ev v)) b0)), ev)
        end
    | Ist v i x =>
        match index_of (b_int (a_val (e i))) (length (v_data (ev v))) with
        | None => None
        | Some j => Some (e, fset ev v (mkVec (lset (v_data (ev v)) j (a_val (e x)))
                                              (v_tid (ev v)) (v_off (ev v)) (v_type (ev v))))
        end
    end.

  (** one step of the program; None: rejected by an assertion.
      tape_ptr() (tape_link.hpp:91-95) is the tape of the executing thread. *)
  Definition wstep (w : world) (v : event) : option world :=
    match v with
    | Ev_independent t cmp xs ds => if t <? M then do_independent w t cmp xs ds else None
    | Ev_op t i =>
        if t <? M then
          match w_tape w t with
          | None =>
              match step_none i (w_ad w) (w_vec w) with
              | None => None
              | Some (e, ev) => Some (mkW (w_id w) (w_tape w) e ev)
              end
          | Some (id, r) =>
              match step_rec id i (mkState (w_ad w) (w_vec w) r) with
              | None => None
              | Some s => Some (mkW (w_id w) (fset (w_tape w) t (Some (id, st_rec s))) (st_r s) (st_v s))
              end
          end
        else None
    | Ev_cmp t c l r =>
        if t <? M then
          match w_tape w t with
          | None => Some w
          | Some (id, k) =>
              Some (mkW (w_id w)
                        (fset (w_tape w) t (Some (id, fst (ad_cmp id c k (w_ad w l) (w_ad w r)))))
                        (w_ad w) (w_vec w))
          end
        else None
    | Ev_dependent t =>                       (* dependent.hpp:232-328 *)
        if t <? M then
          match w_tape w t with None => None | Some _ => tape_delete w t end
        else None
    | Ev_abort t =>                           (* abort_recording.hpp:44-48 *)
        if t <? M then
          match w_tape w t with None => Some w | Some _ => tape_delete w t end
        else None
    end.

  Fixpoint wrun (w : world) (h : list event) : option world :=
    match h with
    | [] => Some w
    | v :: h' => match wstep w v with Some w' => wrun w' h' | None => None end
    end.

  (** program start: the static tables are zero; objects are constants
      (core/ad_ctor.hpp: tape_id_ = 0) with arbitrary values *)
  Definition wstart (e : nat -> T) (ev : nat -> list T) : world :=
    mkW (fun _ => 0) (fun _ => None) (fun k => con_ad (e k)) (fun k => mkVec (ev k) 0 0 T_con).
End Link.
Arguments event : clear implicits.
