(** * Property theorems for the packed-bit vector of sets (C20). *)
From Coq Require Import List Arith NArith Lia.
From Verif Require Import SetVec_Spec PackSetvec_Model PackSetvec_Proof.
Import ListNotations.

(** Every history of calls that respects the documented preconditions gives
    exactly the outputs of a vector of finite sets, without undefined
    behaviour, for every word size -- provided number_elements is only
    called when [end] fits one word (see the refutation below). *)
Theorem pack_setvec_refines_sets_partial :
  forall (nbit : nat), 0 < nbit ->
  forall (history : list op),
    all_pre init_store history ->
    all_count_fits nbit init_store history ->
    impl_run (pk_step nbit) pk_init_store history = Some (spec_run init_store history).
Proof. exact pack_refines. Qed.
Print Assumptions pack_setvec_refines_sets_partial.

(** number_elements is wrong as soon as the sets need two words: with a 64
    bit word, end = 65 and the set {0}, the code returns 0, not 1
    (pack_setvec.hpp:420-429: mask is not reset to one_ and word 0 is never
    visited). *)
Theorem pack_number_elements_refuted :
  exists history : list op,
    all_pre init_store history /\
    impl_run (pk_step 64) pk_init_store history = Some [ONone; ONone; ONat 0] /\
    spec_run init_store history = [ONone; ONone; ONat 1].
Proof.
  exists [Resize 0 1 65; Add 0 0 0; Count 0 0].
  split; [|split; vm_compute; reflexivity].
  apply all_preb_ok; [exact init_bounded|vm_compute; reflexivity].
Qed.
Print Assumptions pack_number_elements_refuted.

(** The hypotheses are met by a non trivial history (two containers, three
    words per set, posting, union, intersection, iteration). *)
Definition pack_demo : list op :=
  [Resize 0 3 130; Resize 1 2 130; Post 0 0 129; Post 0 0 3; Process 0 0; Add 1 1 64; Add 1 1 3;
   Union 0 1 0 1 1; Inter 0 2 0 1 1; Iterate 0 1; Iterate 0 2; IsElem 0 1 64; Clear 0 1; Iterate 0 1;
   Resize 2 1 8; Add 2 0 7; Count 2 0].
Example pack_demo_meets_hypotheses :
  all_pre init_store pack_demo /\ all_count_fits 64 init_store pack_demo.
Proof.
  split; [apply all_preb_ok; [exact init_bounded|vm_compute; reflexivity]|].
  unfold pack_demo. cbn [all_count_fits count_fits]. repeat (split; [exact I|]). split; [|exact I]. vm_compute. lia.
Qed.
Example pack_demo_value :
  spec_run init_store pack_demo =
   [ONone;ONone;ONone;ONone;ONone;ONone;ONone;ONone;ONone; OList [3;64;129]; OList [3]; OBool true; ONone; OList [];
    ONone; ONone; ONat 1].
Proof. vm_compute. reflexivity. Qed.
