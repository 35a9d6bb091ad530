(** * Property theorem for the linked-list vector of sets (C20). *)
From Coq Require Import List Arith Lia.
From Verif Require Import SetVec_Spec SizeSetvec_Model SizeSetvec_Proof6.
Import ListNotations.

(** Every history of calls that respects the documented preconditions (any
    number of containers, including operations of a container with itself)
    gives exactly the outputs of a vector of finite sets; no call reads
    outside the array or loops.  [junk] is the content of freshly extended
    memory. *)
Theorem size_setvec_refines_sets :
  forall (junk : nat * nat) (history : list op),
    all_pre init_store history ->
    impl_run (z_step junk) z_init_store history = Some (spec_run init_store history).
Proof. exact size_refines. Qed.
Print Assumptions size_setvec_refines_sets.

(** The hypothesis is met by a non trivial history: sharing, copy on write,
    posting with duplicates, union and intersection between containers. *)
Definition size_demo : list op :=
  [Resize 0 3 10; Resize 1 2 10; Post 0 0 9; Post 0 0 3; Post 0 0 9; Process 0 0; Add 1 1 4; Add 1 1 3;
   Assign 0 1 0 0; Add 0 1 5; Iterate 0 0; Iterate 0 1; Union 0 2 1 1 1; Iterate 0 2; Inter 0 2 2 0 0; Iterate 0 2;
   Clear 0 0; Iterate 0 1; Count 0 1; CopyVec 2 0; Add 2 1 0; Iterate 0 1; IsElem 2 1 0; SwapVec 1 2; Iterate 1 1].
Example size_demo_meets_hypotheses : all_pre init_store size_demo.
Proof. apply all_preb_ok; [exact init_bounded|]. vm_compute. reflexivity. Qed.
Example size_demo_value :
  spec_run init_store size_demo =
  [ONone;ONone;ONone;ONone;ONone;ONone;ONone;ONone;ONone;ONone; OList [3;9]; OList [3;5;9]; ONone; OList [3;4;5;9];
   ONone; OList [3;9]; ONone; OList [3;5;9]; ONat 3; ONone; ONone; OList [3;5;9]; OBool true; ONone; OList [0;3;5;9]].
Proof. vm_compute. reflexivity. Qed.
