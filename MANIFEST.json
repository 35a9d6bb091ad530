{"claims": [
 {"property": "C01", "status": "proved", "theorems": ["forward_zero_follows_recorded_path", "forward_zero_is_algorithm", "forward_zero_simple", "recording_fails_iff_algorithm_fails", "pow_constant_zero_refuted", "cond_exp_constant_refuted"], "note": "All AD operators except atomic/load-skip; any Base with the stated laws (Base_Spec). Hypothesis hazard_free excludes pow(identically-zero constant, non constant) and conditional expressions comparing two constants with a non-constant selected branch: for those the claim is false of the code and refuted by witnesses. forward_zero_simple has no such hypothesis."},
 {"property": "C02", "status": "proved", "theorems": ["forward_zero_follows_recorded_path", "forward_zero_is_algorithm"], "note": "Every history of new_dynamic / Forward(0) / compare_change_count calls; see C01 for hazard_free."},
 {"property": "C03", "status": "proved", "theorems": ["ad_result_value", "ad_result_kind"], "note": "Every operator, every operand kind; atomic functions not modelled."},
 {"property": "C04", "status": "proved", "theorems": ["constant_for_ever", "end_of_recording", "nonconstant_is_active", "nonconstant_vec_is_active", "no_recording_all_constant", "thread_without_recording_all_constant", "second_recording_rejected", "independent_marks", "recording_ids_unique", "kinds_partition"], "note": "any number of threads, any interleaving and history of Independent / statements / comparisons / ADFun construction / abort_recording; ids below the identifier type's maximum (else the code's assertion rejects)"},
 {"property": "C05", "status": "proved", "theorems": ["forward_zero_follows_recorded_path", "compare_change_zero_iff", "compare_change_op_index_is", "compare_change_op_index_count", "ci_recorded", "ci_ops", "ci_values", "compare_change_number_counted_twice_refuted"], "note": "After Forward(0,x), for every history of new_dynamic / Forward(0) / compare_change_count: the count is the number of recorded comparisons whose outcome differs, zero exactly when all agree; compare_change_op_index is the position of the count-th recorded relation that does not hold, zero when there are fewer. Exact under the Base comparison laws (no nan, no inf-inf); see C01 for hazard_free. After a separate Forward(1) the count is doubled: refuted by witness (outside the statement, which is about Forward(0))."},
 {"property": "C06", "status": "proved", "theorems": ["forward_zero_is_algorithm", "cond_exp_recorded", "cond_exp_forward_zero", "cond_exp_forward", "cond_exp_forward_dir", "cond_exp_reverse", "forward_is_taylor_of_algorithm", "reverse_is_derivative_of_algorithm", "ex_cond_exp", "ex_cond_exp_reverse", "ex_cond_exp_recorded", "cond_exp_constant_refuted"], "note": "What is recorded for each combination of kinds; values on replay of whole recordings; each order of forward mode (one and many directions) and reverse mode of the operator are those of the selected branch, for any base and also where left equals right; derivatives of whole recordings (Base = the reals) where the choices are locally constant. Excluded and refuted: left and right both constants while the selected branch is not (cond_exp.hpp:175-180 returns a constant)."},
 {"property": "C07", "status": "proved", "theorems": ["forward_zero_follows_recorded_path", "forward_zero_is_algorithm"], "note": "Loads and stores with variable, dynamic or constant indices and elements, out of range index = None."},
 {"property": "C08", "status": "proved", "theorems": ["forward_is_taylor", "forward_is_taylor_of_algorithm", "ex_log_times"], "note": "Base = the real numbers (Coq Reals; exp, log, sin, erf, pow ... are the mathematical functions, each derivative proved); every recorded tape without atomic functions, every call history in one direction, every order; hypothesis smooth_at: every operator on the tape is differentiable at its arguments and no conditional / sign / discrete / VecAD choice changes near t = 0. Axioms: those of Coq Reals (sig_forall_dec, sig_not_dec), classic, functional extensionality."},
 {"property": "C09", "status": "proved", "theorems": ["forward_history_independent", "forward_order_dependence", "reverse_history_independent"], "note": "Every recorded tape (no atomic functions), every Base with 0+x=x and |x|=sign(x)x, every history of one-direction Forward, Reverse, capacity_order, new_dynamic calls: the result is that of one call with all orders on a fresh object, including what Reverse later sees. axiom: functional extensionality."},
 {"property": "C10", "status": "proved", "theorems": ["forward_directions_independent", "forward_after_directions", "reverse_after_directions"], "note": "Every recorded tape (no atomic functions), every history mixing one-direction and multiple-direction calls; exact arithmetic (field_laws: any field of characteristic zero, instance: rationals), because forward_dir adds terms in another order than forward_any. axiom: functional extensionality."},
 {"property": "C11", "status": "proved", "theorems": ["reverse_is_adjoint", "reverse_is_partial_derivative", "reverse_is_derivative_of_algorithm", "ex_reverse_log_times", "pow_reverse_discards"], "note": "Base = the real numbers (exact arithmetic), recorded tapes without atomic functions, every one-direction history. The hypothesis smooth_at asks that the recorded operations are differentiable near the argument; it excludes e.g. pow(x,p) at x=0, where Reverse overwrites the adjoint of x (pow_reverse_discards is the witness)."},
 {"property": "C12", "status": "proved", "theorems": ["size_order_history", "too_many_orders_rejected", "reverse_accepted_iff", "capacity_keeps_coefficients", "reverse_history_independent", "capacity_order_one_after_directions_refuted"], "note": "Every history of Forward (one and several directions), Reverse, capacity_order, new_dynamic. optimize and Dependent (which start a new object) are not calls of the history. capacity_order(1) after several directions violates an internal assertion of the code: refuted by witness."},
 {"property": "C13", "status": "proved", "theorems": ["for_jac_derivative", "for_jac_contains_forward", "for_jac_same_choices", "sparsity_accepted"], "note": "for_jac_sparsity of a recorded function (all operators, CondExp, VecAD, discrete functions; not atomic calls): with (i,c) absent, F_i is constant along curves moving only x_j with (j,c) in the input pattern, so (F'(x)R)_{ic} = 0 and Forward returns zero; at arguments where the recorded choices (sign, discrete, branches, VecAD elements) are locally constant. Examples: Spar_Ex (sf_patterns, ex_for_jac)."},
 {"property": "C14", "status": "proved", "theorems": ["rev_jac_derivative", "rev_jac_contains_reverse", "rev_jac_same_choices", "sparsity_accepted"], "note": "as C13 for rev_jac_sparsity: the components selected by row c of the input pattern are constant along curves that fix the x_j with (c,j) in the result; Reverse(1,w) returns zero there."},
 {"property": "C15", "status": "partial", "theorems": ["rev_hes_mixed", "rev_hes_derivative", "for_hes_mixed_partial", "for_hes_derivative_partial", "hes_accepted", "rev_hes_repeated_dependent", "for_hes_conditional_expression", "for_hes_azmul"], "note": "over the reals, every recorded function (all operators, VecAD, CondExp; no atomic calls) at arguments where the recorded choices are locally constant: with (j,c) absent from the pattern of rev_hes_sparsity the mixed differences, and the mixed second derivative, of every selected component along column c of the input pattern and x_j vanish. Full for rev_hes_sparsity except when a selected and a deselected component are the same variable, where the claim is false (rev_hes_repeated_dependent). for_hes_sparsity: only tapes without CondExp and azmul(parameter, variable); with them the claim is false (for_hes_conditional_expression, for_hes_azmul)."},
 {"property": "C16", "status": "proved", "theorems": ["for_jac_dependency", "rev_jac_dependency", "for_jac_dependency_of_algorithm"], "note": "dependency=true: values (not only derivatives), through sign, discrete functions, VecAD indices and CondExp comparisons, any Base; also for the user's algorithm. Example: Spar_Ex.ex_dependency."},
 {"property": "C17", "status": "partial", "theorems": ["subgraph_select_accepted_iff", "subgraph_reverse_accepted_iff", "subgraph_reverse_columns", "subgraph_reverse_is_reverse", "subgraph_sparsity_exact", "subgraph_sparsity_conservative", "subgraph_vecad_refuted"], "note": "For every recorded function and every sequence of subgraph_reverse, subgraph_sparsity, Forward, Reverse, capacity_order and new_dynamic calls. The claim is false when a VecAD element is read (subgraph_vecad_refuted), so the value theorems exclude loads, and pow(variable, parameter) with zero base."},
 {"property": "C18", "status": "proved", "theorems": ["sparse_jac_rev_entries", "sparse_jac_for_entries"], "note": "coloring = cppad (colpack is an external library, not modelled). The first order sweeps are taken as multiplying by the Jacobian; weak hypothesis: the pattern need only contain the non-zeros in rows and columns that appear in the subset. Work reuse included."},
 {"property": "C19", "status": "proved", "theorems": ["sparse_hes_entries"], "note": "cppad.general and cppad.symmetric (colpack not modelled). Second order sweeps are taken as multiplying by the Hessian. Work reuse included."},
 {"property": "C20", "status": "partial", "theorems": ["size_setvec_refines_sets", "pack_setvec_refines_sets_partial", "pack_number_elements_refuted"], "note": "linked lists: full; packed representation: all histories, except that number_elements is restricted to end <= word size, where a real bug is refuted by a witness; svec_setvec not modelled yet"},
 {"property": "C21", "status": "partial", "theorems": ["sparse_rc_refines_pairs", "sparse_rc_equality_partial", "sparse_rc_equality_refuted"], "note": "All histories over any number of objects; == is restricted to states where the code does not read an empty stored order (real bug, refuted by witness). size_t overflow of nr*nc not modelled."},
 {"property": "C22", "status": "partial", "theorems": ["optimize_preserves_partial", "optimize_is_algorithm_partial", "optimize_vecad_refuted", "optimize_vecad_refuted'", "ex_opt_rec", "ex_opt_recorded", "ex_opt_values"], "note": "The passes get_par_usage, get_op_previous / match_op, get_dyn_previous and the re-recording of optimize_run, for the options no_conditional_skip no_cumulative_sum_op, with and without no_compare_op, any collision_limit and any hash. Every recorded function without VecAD operators, every history of calls before optimize, every later sequence of new_dynamic calls, every argument: optimize succeeds and Forward(0,x) is unchanged, hence is the user's algorithm while the comparisons keep their outcome. Missing: conditional skip, cumulative sums, atomic functions, derivatives. VecAD: refuted by two witnesses (get_op_usage has no case for the stores of parameters StppOp and StvpOp; a release build removes them)."},
 {"property": "C23", "status": "partial", "theorems": ["val_optimize_preserves", "val_optimize_compare_partial", "dead_code_correct", "renumber_correct", "fold_con_correct", "summation_correct", "ex_wf", "ex_sums", "ex_opt", "ex_kept", "ex_fold", "dead_code_compare_not_preserved", "dead_code_vector_not_preserved", "renumber_vector_not_preserved", "renumber_equal_stores_assert", "compress_not_preserved", "renumber_print_once"], "note": "Every well formed tape without dynamic vectors, any value type with nan, every atomic function whose rev_depend and for_type callbacks are right: dependents preserved by renumber, dead_code, fold_con, summation (the last over any commutative group inside the value type, when no sum uses nan) and by val_optimize. Refuted, with witness tapes: dynamic vectors (dead_code drops initial elements, renumber merges loads across a store, equal stores fail an assertion), keep_compare and keep_print when the operands are not used elsewhere, compress. op_iterator, val_graph <-> ADFun conversion not modelled here."},
 {"property": "C24", "status": "partial", "theorems": ["fun2val_values_partial", "fun2val_compare_refuted", "fun2val_compare_used", "fv_recorded", "fv_values"], "note": "fun2val: for every recorded function without VecAD operators and without operators of dynamic parameters, after any history of calls, a returned value operator graph has exactly the zero order values of the function, for every argument and every later sequence of new_dynamic calls (unary, binary, comparison, conditional expression, discrete and ParOp operators; the order in which constants are created), and while comparison counting is on its number of false comparisons is the compare_change_number of the same Forward call. Missing: operators of dynamic parameters, VecAD, print, sums, atomic functions, val2fun, success. Refuted: a comparison with a constant (or constant index) that no earlier operator uses reads an index that is not set."},
 {"property": "C25", "status": "partial", "theorems": ["to_graph_values_partial", "to_graph_is_algorithm_partial", "to_graph_total", "from_graph_values_partial", "from_graph_total_partial", "graph_round_trip_partial", "from_graph_compare_refuted", "to_graph_nan_refuted", "ex_graph_total", "ex_graph_recorded", "ex_graph_values"], "note": "to_graph: for every recorded function without VecAD operators, after any history of calls, a returned graph has exactly the values of the function for all later new_dynamic and Forward(0,x), hence of the algorithm while comparisons keep their outcome. from_graph: for every graph without sum operators and every choice of which independents are dynamic parameters or variables, a returned function has the values of the graph. Round trip: composition. to_graph succeeds for every recorded function whose program uses registered discrete functions only (to_graph_total); from_graph under explicit conditions (no comparisons, see the refutation). Missing: JSON text (lexer, parser, writer), sum operators, VecAD (to_graph rejects it), atomic functions, print operators. Refuted: from_graph reads an empty vector for a comparison with a constant; without the order laws of the base type (nan) to_graph changes conditional expressions."},
 {"property": "C26", "status": "proved", "theorems": ["thread_alloc_refines", "inuse_is_sum", "blocks_disjoint", "get_memory_block", "return_memory_block", "free_available_zero", "create_array_block", "delete_array_block", "return_twice_detected", "capacities_fit", "get_memory_large_refuted", "create_array_wrap_refuted", "ex_thread_alloc"], "note": "Every history of get_memory, return_memory, free_available, hold_memory, create_array, delete_array, parallel_setup, free_all, inuse, available, by any number of threads (calls are atomic; data races are not modelled), every behaviour of operator new, debug and release build. Refuted: requests larger than the largest capacity but less than max/2 leave the capacity array; create_array whose byte count wraps."},
 {"property": "C27", "status": "proved", "theorems": ["vector_is_list", "pod_vector_is_list", "pod_resize_in_capacity", "vector_self_assign_refuted", "pod_push_own_element_refuted"], "note": "Heap model; for every program and every allocator. Excluded (and refuted as findings): CppAD::vector self assignment empties the vector; pod_vector push_back of an own element when size equals capacity reads released memory. Element constructors and destructors are not modelled."},
 {"property": "C28", "status": "proved", "theorems": ["vectorBool_is_list", "vectorBool_resize_in_capacity"], "note": "Heap model with units of w bits; every program, allocator and w > 0. Size mismatch in an assignment is an error (assertion)."},
 {"property": "C29", "status": "proved", "theorems": ["index_sort_is_sorting_permutation"], "note": "For every strict weak order and every std::sort meeting its standard contract."},
 {"property": "C30", "status": "proved", "theorems": ["lu_factor", "lu_invert", "lu_solve", "lu_solve_determinant"], "note": "over every ordered field (exact arithmetic); all sizes n, m; complete pivoting is stated through the dominance of the pivots"},
 {"property": "C31", "status": "partial", "theorems": ["poly_is_kth_derivative_partial", "poly_overflow_refuted"], "note": "Proved when d!/(d-k)! < 2^64; beyond that the size_t factor wraps and the claim is refuted. Exact arithmetic in any commutative ring."},
 {"property": "C32", "status": "partial", "theorems": ["forward_zero_is_algorithm", "zero_weights_give_zero", "reverse_ignores_zero_weight"], "note": "Recording and replay of azmul for all operand kinds; zero weights give zero partials and components with zero weight do not influence Reverse, for any call history. Missing: pow(variable, parameter) with zero base is excluded (there it is false: pow_reverse_discards), VecAD loads are excluded in the second theorem."},
 {"property": "C33", "status": "partial", "theorems": ["conditional_skip_preserves_partial", "conditional_skip_is_algorithm_partial", "conditional_skip_vecad_refuted", "conditional_skip_infinity_refuted", "cs_recorded", "cs_values"], "note": "The marking pass of get_op_usage (use and set of conditional expressions of every operator), get_cexp_info, the place and the arguments of CSkipOp, and its run time part. Every recorded function without VecAD operators, every keep_compare, every list of conditional expressions in any order: same dependents, and same comparison change count when keep_compare, for every later new_dynamic and Forward(0,x). Missing: the other passes of optimize (merging, removal, sums) at the same time, atomic functions, orders above zero, multiple directions. Refuted: VecAD objects, and infinities (left - right == 0 is not left == right)."},
 {"property": "C34", "status": "proved", "theorems": ["jacobian_is_partials", "for_one_is_partials", "rev_one_is_partials", "hessian_is_second_partials", "hessian_of_component", "rev_two_is_second_partials", "for_two_is_second_partials", "drivers_reject", "regular_of_algorithm", "ex_jacobian", "ex_hessian"], "note": "Base = the real numbers, recorded tapes without atomic functions, every one-direction history of calls before. Success of every driver is part of the theorems. ForTwo is shown to return the mean of the two mixed partial derivatives (d/dx_k d/dx_j and d/dx_j d/dx_k), both of which exist; they coincide where Schwarz's theorem applies (not proved here)."},
 {"property": "C35", "status": "proved", "theorems": ["sequential_forward", "sequential_reverse", "reverse_is_reverse_of_forward", "random_access", "random_var2op", "subgraph_visit", "info_arguments", "decode_is_iteration", "random_iterator_assignment_refuted"], "note": "every recording of well formed calls (fixed length operators, CSumOp, CSkipOp; atomic calls are sequences of fixed length operators); finding: const_random_iterator::operator= does not copy var_arg_"},
 {"property": "C36", "status": "proved", "theorems": ["put_con_par_contract"], "note": "Any recorder state (parameter table and dynamic flags of equal length)."},
 {"property": "C37", "status": "proved", "theorems": ["csum_forward", "csum_forward_zero", "csum_forward_dir", "csum_reverse", "ex_csum"], "note": "Base = the real numbers; stated for one CSumOp instruction with arbitrary argument lists in the layout of op_code_var.hpp (only optimize records this operator; record_csum itself is not modelled). Forward any orders, zero order sweep, multiple directions, and reverse; the sparsity of the operator is covered by C13-C16."},
 {"property": "C38", "status": "proved", "theorems": ["atomic_recorded", "atomic_forward_ok", "atomic_forward_dir_ok", "atomic_reverse_ok", "atomic_for_jac_ok", "atomic_rev_jac_ok", "atomic_rev_hes_ok", "atomic_for_hes_ok", "atomic_dynamic_ok", "good_recording", "good_sweep", "good_plain", "good_con"], "note": "Stated per call: the block of instructions that a call with any mix of constant, dynamic and variable arguments and results adds to any recording, played by each sweep from any table / sets and followed by any instructions. The callbacks are arbitrary functions of what they are handed. For dynamic parameters the whole zero order sweep of the recording is covered. Not modelled: the dispatch from the surrounding sweeps (each sweep is the loop over this block), the atomic_one / two / four wrappers, rev_depend."},
 {"property": "C39", "status": "partial", "theorems": ["near_equal_finite", "near_equal_nan_partial", "near_equal_infinite_y_refuted", "set_union_is_union"], "note": "NearEqual over exact extended rationals; the documented result for infinite y is refuted."},
 {"property": "C40", "status": "proved", "theorems": ["pow_int_is_power", "pow_int_min_refuted"], "note": "Every int exponent except INT_MIN, whose negation overflows (undefined behaviour); any associative multiplication with unit."},
 {"property": "C41", "status": "proved", "theorems": ["abs_normal_represents", "abs_normal_triangular", "abs_normal_unique", "ex_abs_hyp", "ex_abs_values", "abs_normal_erf_refuted", "abs_normal_store_refuted", "abs_normal_load_refuted", "abs_normal_compare_refuted"], "note": "Every recording (no laws on Base), every later history of new_dynamic / Forward / compare_change_count before the call, every previous object g, every later sequence of new_dynamic calls. Operators that the code cannot handle are excluded by a condition on the operation sequence and refuted by witnesses: erf (argument 0 is not put in the recording), VecAD (store without PutOp; the vectors are not copied), comparisons of two dynamic parameters. Atomic functions and PriOp are not recorded in this model. Zero order values; higher orders follow from C08-C11 for the recording of g only as far as its recording is well formed."},
 {"property": "C42", "status": "proved", "theorems": ["romberg_one_trapezoid", "romberg_one_exact", "romberg_one_rejects", "romberg_mul_exact", "runge45_quadrature", "runge45_linear", "runge45_exponential", "runge45_rejects", "ex_romberg", "ex_runge"], "note": "Exact real arithmetic. RombergOne: any function for p = 0 (trapezoidal rule), polynomials of degree <= 2 min(p,n-1)+1 integrated exactly (RInt of Coquelicot), error estimate zero one level earlier. RombergMul: sums of products of such polynomials in any number of variables (its error estimate is not modelled). Runge45: exact on right hand sides polynomial of degree <= 4 in t and on linear systems with A^6 = 0; error estimate zero up to degree 3; the stability polynomial on x' = u x. The general order 5 theory for nonlinear right hand sides is not proved."},
 {"property": "C43", "status": "proved", "theorems": ["track_exact", "track_rejects_delete", "track_counts", "track_extend_stale_refuted"], "note": "Debug build (NDEBUG not defined); every program and every allocator (addresses may be reused). Finding (refuted theorem): TrackExtend with a deleted oldptr is accepted when the allocator reuses its address for the new vector, which is then deleted."}
]}
