# Formal model of CppAD in Rocq (Coq 8.16.1)

## 1. Layout
* `properties.jsonl`  English properties (C01 ...). Generated by `tools/gen_properties.py`.
* `MANIFEST.json`     property -> theorems, status, exact restrictions. Generated by `tools/gen_manifest.py`.
* `rocq/theories/*_Spec.v`   small independent specifications (no reference to the model's helpers).
* `rocq/theories/*_Model.v`  the model; every definition cites file:lines in /repo.
* `rocq/theories/*_Proof*.v` and other files without suffix: lemmas.
* `rocq/theories/*_Prop.v`   property theorems (`exact lemma.` + `Print Assumptions`) and non-vacuity `Example`s
  (the larger real-number examples are in `*_Ex.v`).
* `seeded/LOG.jsonl`  log of seeded-bug experiments; `tools/mutate.py` runs a batch of them in a scratch copy.

## 2. What is modelled and how each property is proved

| id | modelled code | statement and proof method | status |
|---|---|---|---|
| C01 C02 C07 | every AD operator file in core/ (recording rules incl. the zero/one shortcuts, parameter/dynamic/variable cases, VecAD), local/recorder, op_code tables, dynamic-parameter sweep, zero order sweep of local/sweep + var_op | for every straight-line program over any Base with the laws of `Base_Spec`, any history of new_dynamic / Forward(0) / compare_change_count: the result is what the user's algorithm gives on the values in force. Simulation: induction over the program (recording) and the tape (replay) | proved; two hazards refuted |
| C03 | same | kind and value of the AD result, per operator | proved |
| C04 | tape_manage, Independent, abort_recording, AD kinds, several threads | state machine; invariant over all histories and interleavings | proved |
| C05 | comparison recording and comparison operators in the zero order sweep | same simulation; CmpIdx_Prop: values are written once, so the relation tested during the sweep is the relation of the final values, induction over the sweep for number and op_index | proved for Forward(0); double counting by a separate Forward(1) refuted |
| C06 | conditional expression recording/replay, values; CExp_Spec: operands of the operator and its meaning order by order; derivatives of recordings through C08/C11 | same simulation; per operator (CExp_Prop): recorded operands, forward_any, forward_dir, zero order and reverse | proved; both of left and right constant: refuted |
| C08 | forward_any of every variable operator (Taylor recurrences), real numbers | induction over order and tape; `Derive_n` / `is_derive` of Coquelicot | proved |
| C09 C10 C12 | ADFun driver state (taylor_, cap_order_taylor_, num_order_taylor_, num_direction_taylor_, capacity_order, Forward, ForwardDir, Reverse argument checks) | state invariant over all call histories; uniqueness of the coefficients solving the operators' equations | proved |
| C11 | reverse sweep of every operator | adjoint identity, induction over the reversed tape; then Coquelicot derivative | proved |
| C13 C14 C16 | for_jac / rev_jac sweeps, set_internal / get_internal pattern, for_jac_sparsity, rev_jac_sparsity | non-interference: the set of variables outside the pattern is closed; two replays agree on it | proved |
| C15 | rev_hes / for_hes sweeps and drivers | mixed second difference of four replays vanishes outside the pattern | rev: full but one refuted case, for: partial (two refuted cases) |
| C17 | subgraph/init_rev, get_rev, sparsity, arg_variable, core/subgraph_reverse, core/subgraph_sparsity, the subgraph iterator of the reverse sweep | the marks carried over between calls are an invariant of every call history; breadth first search computes exactly the operators from which the component is computed; operators outside have zero adjoint in the full sweep | partial: VecAD elements refuted |
| C32 | azmul recording/replay (C01), zero adjoints in the reverse sweep | every reverse rule maps zero adjoints to zero adjoints; the adjoint of a variable that no weighted component uses stays zero | partial: pow(variable, 0-base) |
| C18 C19 | color_general, color_symmetric, sparse_jac, sparse_hes recovery | loop invariants | proved |
| C20 | pack_setvec, list(size)_setvec on concrete memory | refinement to finite sets, every history | partial |
| C21 C29 | sparse_rc, index_sort | refinement, permutation | partial / proved |
| C26 | thread_alloc.hpp: memory with block headers, linked lists (available, in use), counters, create_array, parallel_setup, free_all | refinement to lists of blocks, every history of calls of every thread, debug and release | proved (two refuted corner cases) |
| C43 | track_new_del | invariant over all histories and all behaviours of the system allocator | proved |
| C27 C28 | CppAD::vector, pod_vector, vectorBool on a heap | refinement to lists, every program | proved |
| C30 C31 C40 | LuFactor/LuInvert/LuSolve, Poly, pow_int | algebra over an arbitrary exact field/ring | see manifest |
| C42 | RombergOne, RombergMul, Runge45 over the reals | Euler-Maclaurin expansion of monomials by induction on the degree, Richardson invariant; simulation of linear ODEs in coefficient space | proved |
| C35 C36 | player iterators, recorder parameter table | induction over the recording | proved |
| C39 | set_union, NearEqual | algebra | partial |
| C34 | Jacobian, Hessian, ForOne, RevOne, ForTwo, RevTwo drivers | C08-C12 plus loop invariants | proved |
| C37 | csum operator: forward, forward_dir, reverse | induction over the argument lists | proved (operator level) |
| C23 | VG_Model: tape of vop operators, eval, rev_depend, dead_code, renumber, op_hash_table, compress, fold_con, summation (val_graph/*.hpp) | simulation of eval on the old and the new tape, pass by pass (VG_Dead, VG_Renum, VG_Fold, VG_Sum), composed in VG_Main; refutations by computed witnesses | partial: dynamic vectors excluded (refuted) |
| C41 | Abs_Model: abs_normal_fun (all of core/abs_normal_fun.hpp, debug assertions give None) | parameters: copying replays put_con_par/put_dyn_par (Abs_Proof); operators: simulation of the sweeps of F and g, abs results read from u (Abs_Proof2, 3); Abs_Prop |
| C22 | Opt_Model: optimize/get_op_usage, get_par_usage, get_op_previous + match_op + hash_code, get_dyn_previous, optimize_run (without cskip / csum) | usage is closed under arguments and previous representatives; invariant of the re-recording: new variable / parameter has the value of the old one in every sweep (Opt_Proof..6) | partial: VecAD refuted, no cskip, no csum, values only |
| C25 | Graph_Model: ADFun::to_graph (core/graph/to_graph.hpp) and ADFun::from_graph (core/graph/from_graph.hpp) on the recorder and the player of Tape_Model; Graph_Spec: meaning of a graph, a list of values of nodes. Not modelled: JSON lexer, parser and writer, atomic functions, PriOp, sum operators | to_graph: simulation of the dynamic parameter loop and of the sweep by the node values (Graph_Proof1, 2); from_graph: node to recording invariant "value of the address = value of the node in every sweep", one case per operator and operand kinds (Graph_Proof3..5); success (Graph_Proof7, Tape_Codes) | partial: no JSON text, sums, VecAD, atomics |
| C38 | Atom_Model (put_var_atomic; the cases AFunOp, FunapOp, FunavOp, FunrpOp, FunrvOp of the sweeps in var_op/atomic_op.hpp; atomic_three forward / reverse / sparsity glue), AtomDyn_Model (put_dyn_atomic, sweep/dynamic.hpp), AtomHes_Model (Hessian sparsity) | decode of the recorded block gives one instruction per argument and result (Atom_Proof1); invariants of the argument and result loops in either direction (Proof2, 3, 6), sparsity loops (Proof4, AtomHes_Proof); all restated over the kinds and AD objects of the call | Atom_Prop, AtomDyn_Prop, AtomHes_Prop |
| C33 | CSkip_Model (op_usage and cexp_set of get_op_usage.hpp, get_cexp_info.hpp, the place, the operator indices and the arguments of CSkipOp in optimize_run.hpp; the run time part, cskip_op.hpp, is in Tape_Model) | what is live (needed, given the outcomes of the comparisons) is never in a list that is skipped: invariant of the backward pass (CSkip_Proof); the sweeps with and without CSkipOp agree on live results (CSkip_Proof2), any set of conditional expressions in any order of insertion | partial: operators are not merged, removed or summed at the same time; order zero; no atomic functions; false for VecAD objects and infinities (5.) |
| C24 | fun2val for recordings without VecAD and without operators of dynamic parameters (F2V_Model) | invariant of the loop over the operators: every index that is set has the value of its parameter or variable, for the parameters of the evaluation (F2V_Prop) | partial: val2fun not modelled; comparison with an unused constant refuted |

The exact status is in `MANIFEST.json`; the note there lists every restriction.

## 3. Trusted base
1. Coq 8.16.1's kernel and `coqc`.
2. Axioms printed by `Print Assumptions` beside each theorem. Only axioms of Coq's standard library occur:
   * theorems about recording, replay, containers, allocators, sorting, LU, Poly, pow_int, colouring: *closed under the
     global context*, or `functional_extensionality_dep` (Coq.Logic.FunctionalExtensionality);
   * theorems over the real numbers (C08, C11, C13-C15 derivative forms, examples in `*_Ex.v`): the axioms of Coq's
     `Reals` as of 8.16 — `ClassicalDedekindReals.sig_forall_dec`, `ClassicalDedekindReals.sig_not_dec`,
     `functional_extensionality_dep`, — and `Classical_Prop.classic` / `Eqdep.Eq_rect_eq.eq_rect_eq` where listed
     (both from the standard library).
   Coquelicot (and mathcomp, which it imports) is used as a library of *definitions and proved theorems*
   (`is_derive`, `Derive_n`, `locally`, `RInt`); it adds no axiom of its own to any theorem.
3. The hand translation of C++ to Gallina, cited line by line in the comments of the `*_Model.v` files.
4. Contracts assumed of code that is outside of CppAD, always as explicit hypotheses or parameters of the theorem:
   * `std::sort` returns a sorted permutation (C29);
   * the system allocator returns some address that is not currently allocated — an arbitrary oracle, universally
     quantified (C27, C28, C43);
   * in C18/C19 a first (second) order sweep multiplies by the Jacobian (Hessian); for C18 this is what C08/C11 prove.

## 4. Modelling decisions
* **Base type.** An abstract record `base` of carrier, constants, operations, comparisons, `bidentical` tests; `Base_Spec`
  states the laws used (e.g. identically zero times anything may be replaced by zero only where the code does so).
  Instances: integers mod nothing (`Zbase`, for computed examples), rationals, and the reals (`Rbase`).
  IEEE rounding is *not* modelled: where a theorem needs exact arithmetic (C10, C30, C11 ...) its hypothesis says so
  (`field_laws`, `taylor_laws`, or the base `Rbase`). C01-C07, C09, C12, C16 do not assume it.
* **addr_t / size_t** are `nat`, without overflow, except where overflow is the point (Poly factor, pow_int, pack_setvec words).
* **Assertions** (`CPPAD_ASSERT_KNOWN`) are `None`/error results; the theorems say when they occur.
  `CPPAD_ASSERT_UNKNOWN` in release mode: no effect.
* **hazard_free** (C01, C02, C07, C08 ...): excludes pow(identically zero constant, non-constant) and CondExp comparing two
  constants with a non-constant selected branch. Both are real defects of the code, refuted by witnesses.
* **smooth_at / steady_at / steady2 / corners** (C08, C11, C13-C15): every operator is differentiable at the argument and no
  branch, sign, discrete value or VecAD element choice changes in a neighbourhood. Each is shown satisfiable by the examples in
  `Tay_Ex`, `Rev_Ex`, `Spar_Ex`, `Hes_Ex`.
* **VecAD** is modelled with the recorded index vector (`r_vec`) and `load_op2var`.
* **Set vectors** in the sparsity sweeps are functions `nat -> nat -> bool`; C20 proves that the containers refine this.

### Not modelled
IEEE rounding and special values except where stated; compilers, OS threads and data races (C04 and C26 model interleavings of
whole calls); C++ object construction/destruction of element types; atomic functions inside recorded tapes (AFunOp and friends), except as stated
for C38; csum/cskip operators produced by the optimiser inside the C01/C08/C11 simulations (CSkipOp: see C33) (recorders never produce
them before optimisation); colpack, Eigen, ipopt, llvm and other external packages; printing (`PrintFor` output text);
checkpoint functions; base2ad; the deprecated interfaces.

## 5. Findings (claims that are false of the code, each with a witness theorem unless marked "note")
| where | finding | theorem |
|---|---|---|
| core/pow.hpp | pow(constant 0, variable) is recorded as the constant 0 | `pow_constant_zero_refuted` |
| core/cond_exp.hpp | comparing two constants records the selected branch's *value* as constant even if it is a variable | `cond_exp_constant_refuted` |
| core/forward | compare_change_number doubled by a separate Forward(1) | `compare_change_number_counted_twice_refuted` |
| core/capacity_order.hpp | capacity_order(1) after several directions violates an internal assertion | `capacity_order_one_after_directions_refuted` |
| var_op/pow_op.hpp reverse | powvp_reverse at x = 0 overwrites the adjoint of x | `pow_reverse_discards` |
| core/rev_hes_sparsity.hpp | select_range of a repeated dependent variable is overwritten | `rev_hes_repeated_dependent` |
| sweep/for_hes.hpp | CExpOp is ignored | `for_hes_conditional_expression` |
| sweep/for_hes.hpp | ZmulpvOp missing | `for_hes_azmul` |
| local/pack_setvec.hpp | number_elements wrong when end > word size | `pack_number_elements_refuted` |
| utility/sparse_rc.hpp | operator== tests the left operand's flag twice | `sparse_rc_equality_refuted` |
| utility/near_equal.hpp | infinite y accepted | `near_equal_infinite_y_refuted` |
| utility/poly.hpp | size_t factor wraps | `poly_overflow_refuted` |
| core/pow_int | INT_MIN | `pow_int_min_refuted` |
| utility/vector.hpp | self assignment empties the vector | `vector_self_assign_refuted` |
| local/pod_vector.hpp | push_back of an own element when full reads released memory | `pod_push_own_element_refuted` |
| utility/track_new_del.hpp | stale pointer accepted by TrackExtend | `track_extend_stale_refuted` |
| play/random_iterator.hpp | operator= drops var_arg_ | `random_iterator_assignment_refuted` |
| core/fun_construct.hpp | ADFun::swap does not swap subgraph_partial_ | note |
| var_op/pow_op.hpp forward | powvp at x = 0 returns 0 for all orders >= 1 | note |
| local/subgraph | VecAD elements are not followed: subgraph_sparsity and subgraph_reverse omit independents the component depends on | `subgraph_vecad_refuted` |
| core/subgraph_jac_rev.hpp:257-262 | reads `dw_col[c]` with c == dw_col.size() when a requested entry is beyond every column of the subgraph | note |
| core/subgraph_reverse.hpp:452 | the nan check reads elements of dw that were never set | note |
| utility/thread_alloc.hpp:770 | get_memory with min_bytes above the largest capacity (6.86e18) and below max/2 leaves the capacity array | `get_memory_large_refuted` |
| utility/thread_alloc.hpp:1355 | create_array: size_min * sizeof(Type) wraps, array smaller than size_min | `create_array_wrap_refuted` |
| val_graph/rev_depend.hpp:144 | operands of kept comparisons and prints are not marked as used | `dead_code_compare_not_preserved` |
| val_graph/record_new.hpp:181 | initial elements of a dynamic vector are neither kept nor renumbered | `dead_code_vector_not_preserved` |
| val_graph/op_hash_table.hpp | loads are merged across a store | `renumber_vector_not_preserved` |
| val_graph/renumber.hpp:130 | two equal stores: assertion | `renumber_equal_stores_assert` |
| val_graph/compress.hpp:186 | uses the old index of the matching operator | `compress_not_preserved` |
| val_graph/renumber.hpp:126 | equal prints become one | `renumber_print_once` |
| val_graph/rev_depend.hpp | a value that is a number when the independents are nan (conditional expression) is passed as a constant to the atomic callbacks | note |
| core/graph/from_graph.hpp:458,463 | a comparison with a constant operand reads element 0 or 1 of parameter_x, which is empty or belongs to another operator | `from_graph_compare_refuted` |
| core/graph/to_graph.hpp:413-444, 1158-1189 | CondExpGe and CondExpGt become cexp_lt and cexp_le with the branches swapped: other branch when an operand is nan | `to_graph_nan_refuted` |
| core/graph/to_graph.hpp:1056 | PriOp: the kind of the value is tested with bit 1 (that of notpos) instead of bit 2 | note |
| core/abs_normal_fun.hpp:569-579 | erf: argument 0 is not put in the recording of g, g cannot be evaluated | `abs_normal_erf_refuted` |
| core/abs_normal_fun.hpp:834-846 | store with variable index and value: no PutOp | `abs_normal_store_refuted` |
| core/abs_normal_fun.hpp | VecAD vectors are not copied to g | `abs_normal_load_refuted` |
| core/abs_normal_fun.hpp:887 | comparison of two dynamic parameters hits the default assertion | `abs_normal_compare_refuted` |
| local/optimize/get_op_usage.hpp:658-679 | no case for StppOp / StvpOp (store of a parameter): a release build drops the store, a debug build stops at the default assertion | `optimize_vecad_refuted`, `optimize_vecad_refuted'` |
| local/optimize/get_op_usage.hpp:643-679 | VecAD operators mark what they use without changing its cexp_set: a stored variable that is also a branch of a conditional expression is skipped | `conditional_skip_vecad_refuted` |
| local/var_op/cskip_op.hpp | left - right compared with zero, the conditional expression compares with ==: the needed branch is skipped for two equal infinities | `conditional_skip_infinity_refuted` |
| core/abs_normal_fun.hpp | a.dep_parameter_ keeps the size of f; g.load_op2var_ and compare_change_count_ are not set | note |
| core/subgraph_sparsity.hpp | silently replaces the selection made for subgraph_reverse | note (the model's `selected`) |
