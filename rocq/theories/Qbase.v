(** Exact rational arithmetic as Base: a computable instance of every law record. *)
From Coq Require Import ZArith QArith Qcanon Ring Field List Bool Lia.
From Verif Require Import Base_Spec Op_Model Tape_Spec Tape_Model Tape_Proof Sweep_Model Sweep_Eqs Sweep_Eqs2 Sweep_Tape Field_Spec.
Import ListNotations.

Definition Qc_leb (x y : Qc) : bool := if Qclt_le_dec y x then false else true.
Definition Qc_ltb (x y : Qc) : bool := if Qclt_le_dec x y then true else false.
Definition Qc_eqb (x y : Qc) : bool := if Qc_eq_dec x y then true else false.
Definition Qcsgn (x : Qc) : Qc := if Qc_eq_dec x 0%Qc then 0%Qc else if Qclt_le_dec x 0%Qc then (-(1))%Qc else 1%Qc.
Definition Qc_un (u : unop) (x : Qc) : Qc :=
  match u with
  | Uneg => - x | Uabs | Ufabs => Qcsgn x * x | Usign => Qcsgn x
  | Uexp => x * x + 1 | Usin => x * x - x
  | _ => x + 1
  end%Qc.
Definition Qc_bin (o : binop) (x y : Qc) : Qc :=
  match o with
  | Badd => x + y | Bsub => x - y | Bmul | Bazmul => x * y | Bdiv => x * / y
  | Bpow => if Qc_eq_dec y 0 then 1 else x * y
  end%Qc.
Definition Qc_cmp (c : cmpop) (x y : Qc) : bool :=
  match c with
  | Clt => Qc_ltb x y | Cle => Qc_leb x y | Ceq => Qc_eqb x y
  | Cge => Qc_leb y x | Cgt => Qc_ltb y x | Cne => negb (Qc_eqb x y)
  end.
Definition Qbase : base := mkBase Qc 0%Qc 1%Qc (Q2Qc (-999 # 7)) 1%Qc Qc_un Qc_bin Qc_cmp
  (fun k x => (x * x)%Qc) (fun x => Qnum (this x))
  (fun x => Qc_eqb x 0%Qc) (fun x => Qc_eqb x 1%Qc) Qc_eqb
  (fun x => Qc_ltb 0%Qc x) (fun x => Qc_leb 0%Qc x) (fun x => Z.to_nat (Qnum (this x) mod 97)).
Definition Qnat (k : nat) : Qc := Q2Qc (inject_Z (Z.of_nat k)).

Lemma Qc_eqb_eq x y : Qc_eqb x y = true <-> x = y.
Proof. unfold Qc_eqb. destruct (Qc_eq_dec x y); split; auto; discriminate. Qed.
Lemma Qbase_laws : base_laws Qbase.
Proof.
  constructor; cbn; intros; try (now apply Qc_eqb_eq); try ring; auto.
  - change (/ 1)%Qc with 1%Qc. ring.
  - unfold Qc_eqb. destruct (Qc_eq_dec x 0%Qc) as [->|]; auto. ring.
  - unfold Qc_eqb. destruct (Qc_eq_dec x y), (Qc_eq_dec y x); auto; congruence.
  - unfold Qc_leb, Qc_ltb. destruct (Qclt_le_dec y x); auto.
  - unfold Qc_ltb. destruct (Qclt_le_dec 0 (x - y)), (Qclt_le_dec y x); auto; exfalso.
    + apply (Qclt_not_le _ _ q). apply (Qcplus_le_compat _ _ (-y) (-y)) in q0; [|apply Qcle_refl].
      replace (y + - y)%Qc with 0%Qc in q0 by ring. exact q0.
    + apply (Qclt_not_le _ _ q0). apply (Qcplus_le_compat _ _ y y) in q; [|apply Qcle_refl].
      replace (x - y + y)%Qc with x in q by ring. replace (0 + y)%Qc with y in q by ring. exact q.
  - unfold Qc_leb. destruct (Qclt_le_dec (x - y) 0), (Qclt_le_dec x y); auto; exfalso.
    + apply (Qclt_not_le _ _ q). apply (Qcplus_le_compat _ _ (-y) (-y)) in q0; [|apply Qcle_refl].
      replace (y + - y)%Qc with 0%Qc in q0 by ring. exact q0.
    + apply (Qclt_not_le _ _ q0). apply (Qcplus_le_compat _ _ y y) in q; [|apply Qcle_refl].
      replace (x - y + y)%Qc with x in q by ring. replace (0 + y)%Qc with y in q by ring. exact q.
Qed.
Lemma Qtaylor_laws : taylor_laws Qbase.
Proof. constructor; cbn; intros; auto. ring. Qed.
Lemma Qnat_S k : Qnat (S k) = (1 + Qnat k)%Qc.
Proof.
  unfold Qnat. rewrite Nat2Z.inj_succ. apply Qc_is_canon. unfold Qcplus. cbn [this Q2Qc]. rewrite !Qred_correct.
  unfold Z.succ. rewrite inject_Z_plus. rewrite Qplus_comm. reflexivity.
Qed.
Lemma Qfield_laws : field_laws Qbase Qnat.
Proof.
  constructor; cbn; auto; try (intros; ring).
  - constructor; intros; cbn; try ring.
  - intros x H. replace (1 * / x * x)%Qc with (/ x * x)%Qc by ring. now apply Qcmult_inv_l.
  - intros x y. rewrite Qcinv_mult_distr. ring.
  - apply Qnat_S.
  - intros k H. unfold Qnat in H. apply (f_equal this) in H. cbn [this Q2Qc] in H.
    assert (inject_Z (Z.of_nat (S k)) == 0)%Q as E by (rewrite <- (Qred_correct (inject_Z (Z.of_nat (S k)))), H; reflexivity).
    unfold Qeq in E. cbn in E. lia.
Qed.
