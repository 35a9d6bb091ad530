(** Exact arithmetic: a Base whose operations are those of a field of
    characteristic zero (rational, real, complex numbers), where division by zero
    gives some value with 1/(xy) = (1/x)(1/y) (Coq's R has 1/0 = 0). *)
From Coq Require Import Ring Field List Arith Lia.
From Verif Require Import Base_Spec.

Record field_laws (b : base) (bnat : nat -> bt b) : Prop := {
  fl_ring : ring_theory (@b0 b) b1 (b_bin Badd) (b_bin Bmul) (b_bin Bsub) (b_un Uneg) eq;
  fl_div  : forall x y : bt b, b_bin Bdiv x y = b_bin Bmul x (b_bin Bdiv b1 y);
  fl_inv  : forall x : bt b, x <> b0 -> b_bin Bmul (b_bin Bdiv b1 x) x = b1;
  fl_invm : forall x y : bt b, b_bin Bdiv b1 (b_bin Bmul x y) = b_bin Bmul (b_bin Bdiv b1 x) (b_bin Bdiv b1 y);
  fl_nat0 : bnat 0 = b0;
  fl_natS : forall k, bnat (S k) = b_bin Badd b1 (bnat k);
  fl_char : forall k, bnat (S k) <> b0;
  fl_azmul : forall x y : bt b, b_bin Bazmul x y = b_bin Bmul x y }.
