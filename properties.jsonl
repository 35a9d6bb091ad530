{"id": "C01", "title": "Recorded function replays the user's algorithm", "statement": "For an algorithm written with AD<Base> operators (+,-,*,/, compound assignments, unary functions, pow, azmul, conditional expressions, discrete functions) and recorded between Independent(x) and ADFun f(x,y), f.Forward(0,x') returns, for every x', exactly the value the same algorithm computes on Base at x' - including where the recorder drops an operation because an operand is identically zero or one.", "quantifier": "every straight-line AD program, every value used while recording, every later argument x'", "why_tests_cant": "the recorder specialises on operand kinds and on identical zero/one values, so agreement must hold for every program/argument combination, not the sampled ones", "anchors": ["include/cppad/core/add.hpp:operator+", "include/cppad/core/sub.hpp", "include/cppad/core/mul.hpp", "include/cppad/core/div.hpp", "include/cppad/core/add_eq.hpp", "include/cppad/core/pow.hpp", "include/cppad/core/azmul.hpp", "include/cppad/local/record/recorder.hpp", "include/cppad/local/sweep/forward_0.hpp"]}
{"id": "C02", "title": "new_dynamic re-evaluates every dynamic parameter", "statement": "After f.new_dynamic(p'), f.Forward(0,x') equals the value the recorded algorithm has with its independent dynamic parameters equal to p' (all dependent dynamic parameters are recomputed, constants are untouched, order of dependence is respected).", "quantifier": "every recording with dynamic parameters, every p' and x', any sequence of new_dynamic calls", "why_tests_cant": "dependence chains between dynamic parameters and mixes with constants/variables are unbounded", "anchors": ["include/cppad/core/new_dynamic.hpp", "include/cppad/local/sweep/dynamic.hpp", "include/cppad/local/record/dyn_recorder.hpp", "include/cppad/local/op_code_dyn.hpp"]}
{"id": "C03", "title": "Kind and value of an AD result", "statement": "The Base value held by the result of an AD operation is the Base operation applied to the operand values, and the result is a variable only if some operand is a variable on the active tape, and a dynamic parameter only if no operand is a variable and some operand is dynamic; with no active tape the result is a constant.", "quantifier": "all operand kinds (constant, dynamic, variable, left over from another tape), all values", "why_tests_cant": "the kind analysis is a case split per operator repeated in a dozen files; a single missed case corrupts the tape for some input", "anchors": ["include/cppad/core/add.hpp", "include/cppad/core/mul.hpp", "include/cppad/core/div.hpp", "include/cppad/core/con_dyn_var.hpp", "include/cppad/core/ad.hpp:make_variable"]}
{"id": "C04", "title": "Objects from a finished or aborted recording are constants", "statement": "At most one recording per thread and Base type is active; after Dependent/ADFun construction or abort_recording every AD object created under that recording is seen as Constant, and stays so for every later recording in any thread (tape identifiers are never reused while they fit the identifier type).", "quantifier": "every history of Independent / abort_recording / Dependent / operator calls over all threads", "why_tests_cant": "requires uniqueness of tape identifiers across unbounded histories and threads", "anchors": ["include/cppad/core/tape_link.hpp:tape_manage", "include/cppad/core/con_dyn_var.hpp", "include/cppad/core/abort_recording.hpp", "include/cppad/core/independent/independent.hpp", "include/cppad/core/dependent.hpp"]}
{"id": "C05", "title": "compare_change counts exactly the changed comparisons", "statement": "With comparisons recorded, f.compare_change_number() after f.Forward(0,x') is the number of AD comparisons involving a variable (or dynamic) operand whose truth value at x' differs from the recorded one, and is 0 iff all agree; compare_change_op_index reports the count-th change.", "quantifier": "all recordings with comparisons, all arguments, all compare_change_count settings", "why_tests_cant": "each of six comparison operators is normalised to one of a few op-codes by outcome and operand kind; every combination must be inverted correctly", "anchors": ["include/cppad/core/compare.hpp", "include/cppad/local/record/comp_op.hpp", "include/cppad/local/var_op/compare_op.hpp", "include/cppad/local/sweep/forward_0.hpp"]}
{"id": "C06", "title": "Conditional expressions follow the replay values", "statement": "CondExpXX(left,right,if_true,if_false) recorded with any mix of constant, dynamic and variable arguments evaluates, on replay at every x', to the branch selected by comparing left and right at x'; its derivatives of every order are those of the selected branch.", "quantifier": "all 16 operand-kind combinations, all compare operators, all replay values, all orders", "why_tests_cant": "branch choice depends on replay data which differs from the recording data", "anchors": ["include/cppad/core/cond_exp.hpp", "include/cppad/local/record/cond_exp.hpp", "include/cppad/local/var_op/cexp_op.hpp"]}
{"id": "C07", "title": "VecAD elements behave as arrays with AD indices", "statement": "A load from a VecAD vector during replay returns the value last stored at the (replay-time) index, whether elements are parameters or variables and whether indices are parameters or variables; elements never stored keep their recorded value.", "quantifier": "every sequence of loads and stores, every replay-time index within bounds", "why_tests_cant": "the identity of the last store depends on replay-time index values", "anchors": ["include/cppad/core/vec_ad/vec_ad.hpp", "include/cppad/local/var_op/load_op.hpp", "include/cppad/local/var_op/store_op.hpp", "include/cppad/local/record/put_var_vecad.hpp"]}
{"id": "C08", "title": "Forward mode returns Taylor coefficients", "statement": "If x^(0..q) are the Taylor coefficients of a smooth curve X(t) and F is differentiable at X(0), f.Forward(k, x^(k)) for k=0..q returns y^(k) = (1/k!) d^k/dt^k F(X(t)) at t=0.", "quantifier": "all recorded functions over the supported operators, all points where every operation is differentiable, all orders", "why_tests_cant": "a recurrence error at some order and operator is only visible for particular tapes/orders/values", "anchors": ["include/cppad/core/forward/forward.hpp", "include/cppad/local/sweep/forward_any.hpp", "include/cppad/local/var_op/mul_op.hpp", "include/cppad/local/var_op/div_op.hpp", "include/cppad/local/var_op/exp_op.hpp", "include/cppad/local/var_op/sin_op.hpp", "include/cppad/local/var_op/pow_op.hpp"]}
{"id": "C09", "title": "Orders may be computed one at a time or several at once", "statement": "Forward(q,xq) computing orders p..q in one call yields the same coefficients as computing each order in a separate call, leaves lower orders unchanged, and depends only on coefficients of order <= k for order k.", "quantifier": "all tapes, all splits of 0..q into consecutive calls", "why_tests_cant": "the sweep is rerun on stored state from previous calls; any history of calls must agree", "anchors": ["include/cppad/core/forward/forward.hpp", "include/cppad/local/sweep/forward_any.hpp", "include/cppad/core/capacity_order.hpp"]}
{"id": "C10", "title": "Multiple-direction forward equals one direction at a time", "statement": "Forward(q, r, xq) returns for each direction ell the same order-q coefficient as the one-direction Forward(q, .) with that direction's coefficients.", "quantifier": "all tapes, numbers of directions, orders and values", "why_tests_cant": "per-operator code is duplicated with a different memory layout", "anchors": ["include/cppad/core/forward/forward.hpp", "include/cppad/local/sweep/forward_dir.hpp", "include/cppad/local/var_op/mul_op.hpp:forward_mulvv_op_dir"]}
{"id": "C11", "title": "Reverse mode returns the partial derivatives of any order", "statement": "After q forward orders, f.Reverse(q,w) returns for every j,k the partial derivative with respect to x_j^(k) of W = sum_i sum_k w_i^(k) y_i^(k), where y^(k) is regarded as a function of all input Taylor coefficients.", "quantifier": "all tapes, all weights, all orders, all points where every operation is differentiable", "why_tests_cant": "adjoint of every recurrence must be exact for every order; errors cancel in sampled tests", "anchors": ["include/cppad/core/reverse.hpp", "include/cppad/local/sweep/reverse.hpp", "include/cppad/local/var_op/mul_op.hpp:reverse_mulvv_op", "include/cppad/local/var_op/div_op.hpp"]}
{"id": "C12", "title": "Order bookkeeping of an ADFun object", "statement": "size_order() is the number of valid Taylor orders: it is set to q+1 by Forward(q), reduced by capacity_order(c) to at most c, reset by new_dynamic / optimize / Dependent as documented, and a derivative call requiring more orders than size_order() is rejected; stored coefficients of retained orders are unchanged by capacity changes.", "quantifier": "every history of Forward, capacity_order, Reverse, new_dynamic calls", "why_tests_cant": "correctness depends on arbitrary call histories", "anchors": ["include/cppad/core/capacity_order.hpp", "include/cppad/core/forward/forward.hpp", "include/cppad/core/ad_fun.hpp:size_order"]}
{"id": "C13", "title": "Forward Jacobian sparsity is conservative", "statement": "If (i,j) is absent from the pattern returned by for_jac_sparsity (pattern_in = identity), y_i does not depend on x_j through differentiable operations: dF_i/dx_j = 0 at every argument; with a general pattern R the result contains the pattern of F'(x)R.", "quantifier": "all tapes, all patterns, all arguments; sets or bool representation", "why_tests_cant": "must hold for every tape and argument", "anchors": ["include/cppad/core/for_jac_sparsity.hpp", "include/cppad/local/sweep/for_jac.hpp", "include/cppad/local/var_op/two_var.hpp"]}
{"id": "C14", "title": "Reverse Jacobian sparsity is conservative", "statement": "If (i,j) is absent from the pattern returned by rev_jac_sparsity then dF_i/dx_j = 0 at every argument; with a general pattern R the result contains the pattern of R F'(x).", "quantifier": "all tapes, all patterns, all arguments", "why_tests_cant": "must hold for every tape and argument", "anchors": ["include/cppad/core/rev_jac_sparsity.hpp", "include/cppad/local/sweep/rev_jac.hpp"]}
{"id": "C15", "title": "Hessian sparsity is conservative", "statement": "If (i,j) is absent from the pattern returned by rev_hes_sparsity / for_hes_sparsity for the selected components, the Hessian of the selected sum has a zero (i,j) entry at every argument.", "quantifier": "all tapes, selections and arguments", "why_tests_cant": "second-order dependence arises through arbitrarily long operator chains", "anchors": ["include/cppad/core/rev_hes_sparsity.hpp", "include/cppad/core/for_hes_sparsity.hpp", "include/cppad/local/sweep/rev_hes.hpp", "include/cppad/local/sweep/for_hes.hpp"]}
{"id": "C16", "title": "Dependency patterns contain every functional dependence", "statement": "With dependency=true, if (i,j) is absent from the returned pattern then the value F_i(x) (not only its derivative) is independent of x_j, including through sign, discrete functions, VecAD indices and conditional-expression comparisons.", "quantifier": "all tapes, pairs of arguments differing in component j", "why_tests_cant": "is a non-interference property over pairs of runs", "anchors": ["include/cppad/core/for_jac_sparsity.hpp", "include/cppad/local/sweep/for_jac.hpp", "include/cppad/local/var_op/cexp_op.hpp"]}
{"id": "C17", "title": "Subgraph reverse equals full reverse", "statement": "subgraph_reverse restricted to selected independents returns the same derivatives as Reverse(q,w) with w the elementary vector, at the columns it reports, and the columns it omits have zero derivative or were not selected; subgraph_sparsity is conservative.", "quantifier": "all tapes, selections, component indices, sequences of subgraph calls after one selection", "why_tests_cant": "incremental subgraph state carries over between calls for different dependents", "anchors": ["include/cppad/core/subgraph_reverse.hpp", "include/cppad/core/subgraph_sparsity.hpp", "include/cppad/local/subgraph/get_rev.hpp", "include/cppad/local/subgraph/info.hpp", "include/cppad/local/subgraph/init_rev.hpp"]}
{"id": "C18", "title": "Sparse Jacobian by colouring recovers every requested entry", "statement": "sparse_jac_for / sparse_jac_rev return in subset.val() exactly the Jacobian entries at the requested (row, col) pairs whenever the given pattern contains the true sparsity pattern.", "quantifier": "all patterns, all subsets (with possible duplicates, any order), all Jacobian values consistent with the pattern", "why_tests_cant": "depends on a greedy colouring heuristic being a valid colouring for every pattern", "anchors": ["include/cppad/core/sparse_jac.hpp", "include/cppad/local/color_general.hpp"]}
{"id": "C19", "title": "Sparse Hessian by (symmetric) colouring recovers every requested entry", "statement": "sparse_hes returns exactly the Hessian entries at the requested (row, col) pairs whenever the given pattern contains the true pattern, for both the general and symmetric colouring methods.", "quantifier": "all symmetric patterns, all subsets, all Hessian values consistent with the pattern", "why_tests_cant": "symmetric recovery relies on a subtle property of the colouring for every pattern", "anchors": ["include/cppad/core/sparse_hes.hpp", "include/cppad/local/color_symmetric.hpp", "include/cppad/local/color_general.hpp"]}
{"id": "C20", "title": "Vector-of-sets containers behave like vectors of finite sets", "statement": "Any sequence of resize, add_element, post_element/process_post, clear, assignment, binary_union, binary_intersection and swap on the set-vector containers, followed by is_element, number_elements or iteration, is observationally a vector of finite sets of numbers below end; iteration is increasing and terminates at end.", "quantifier": "every operation history, every number of sets and every end, for the packed-bit, linked-list and sorted-vector implementations", "why_tests_cant": "copy-on-write sharing, free lists and garbage collection make behaviour depend on the whole history", "anchors": ["include/cppad/local/sparse/pack_setvec.hpp", "include/cppad/local/sparse/size_setvec.hpp", "include/cppad/local/sparse/svec_setvec.hpp", "include/cppad/local/sparse/list_setvec.hpp"]}
{"id": "C21", "title": "Sparsity pattern class sparse_rc", "statement": "sparse_rc::set/resize/row/col behave as an array of (row,col) pairs; row_major() and col_major() return permutations of the indices that sort the pairs in row-major / column-major order; equality of patterns ignores order; set_row_col conversions agree.", "quantifier": "all patterns and operation histories", "why_tests_cant": "universally quantified ordering property", "anchors": ["include/cppad/utility/sparse_rc.hpp", "include/cppad/utility/sparse_rcv.hpp", "include/cppad/utility/index_sort.hpp"]}
{"id": "C22", "title": "optimize preserves the function", "statement": "f.optimize() changes neither the domain/range nor the value of f.Forward(0,x) at any x (nor, hence, its derivatives where defined): dead operations are removed, identical operations are merged, sums are grouped and conditional skips never skip a needed operation.", "quantifier": "all tapes, all option strings, all arguments", "why_tests_cant": "an optimiser is a compiler: correctness is per program", "anchors": ["include/cppad/core/optimize.hpp", "include/cppad/local/optimize/optimize_run.hpp", "include/cppad/local/optimize/get_op_usage.hpp", "include/cppad/local/optimize/match_op.hpp", "include/cppad/local/optimize/record_csum.hpp"]}
{"id": "C23", "title": "Value-operator graph passes preserve the function", "statement": "Each val_graph pass (fold_con, renumber, compress, dead_code, summation, rev_depend) maps a tape to one with the same number of independents and dependents and the same eval result for every independent vector; dead_code keeps comparisons when asked; summation agrees over exact arithmetic.", "quantifier": "all value-graph tapes and all independent vectors", "why_tests_cant": "per-program correctness of a rewriting system", "anchors": ["include/cppad/local/val_graph/tape.hpp", "include/cppad/local/val_graph/fold_con.hpp", "include/cppad/local/val_graph/renumber.hpp", "include/cppad/local/val_graph/compress.hpp", "include/cppad/local/val_graph/dead_code.hpp", "include/cppad/local/val_graph/summation.hpp"]}
{"id": "C24", "title": "Conversion to and from the value-operator graph preserves the function", "statement": "fun2val followed by val2fun yields an ADFun with the same domain, range and zero-order values at every argument and dynamic parameter.", "quantifier": "all recordings in the supported operator set", "why_tests_cant": "per-program correctness", "anchors": ["include/cppad/local/val_graph/fun2val.hpp", "include/cppad/local/val_graph/val2fun.hpp"]}
{"id": "C25", "title": "AD graph / JSON round trip", "statement": "f.from_graph(g) after f.to_graph(g) and from_json after to_json yield a function with the same values at every argument and dynamic parameter vector; lexing accepts exactly the tokens written.", "quantifier": "all functions in the supported operator set", "why_tests_cant": "round trip must hold for every graph", "anchors": ["include/cppad/core/graph/to_graph.hpp", "include/cppad/core/graph/from_graph.hpp", "include/cppad/core/graph/cpp_graph.hpp", "cppad_lib/json_parser.cpp", "cppad_lib/json_writer.cpp", "cppad_lib/json_lexer.cpp"]}
{"id": "C26", "title": "thread_alloc memory contract", "statement": "get_memory(min), for min up to the largest block size, returns a block of at least min bytes not overlapping any other block in use, for the current thread; inuse(thread) and available(thread) are always the sums over blocks in use / held; return_memory moves a block to available (or frees it); free_available makes available zero; create_array (byte count within size_t) / delete_array construct and destroy each element exactly once.", "quantifier": "every history of calls over all threads and sizes", "why_tests_cant": "history-dependent allocator state", "anchors": ["include/cppad/utility/thread_alloc.hpp"]}
{"id": "C27", "title": "Simple vectors behave like lists", "statement": "CppAD::vector and pod_vector: push_back, push_vector, resize, extend, assignment, swap and element update preserve prefix elements, sizes and capacities exactly as a mathematical list (with elements of a fresh resize unspecified), for every history.", "quantifier": "every operation history", "why_tests_cant": "growth/reallocation depends on history", "anchors": ["include/cppad/utility/vector.hpp", "include/cppad/local/pod_vector.hpp"]}
{"id": "C28", "title": "vectorBool behaves like a list of booleans", "statement": "vectorBool stores packed bits so that every sequence of resize, push_back, element assignment, clear, swap and assignment observably equals the same sequence on a list of bool.", "quantifier": "every operation history and length", "why_tests_cant": "bit packing at every word boundary", "anchors": ["include/cppad/utility/vector_bool.hpp", "include/cppad/local/utility/vector_bool.hpp"]}
{"id": "C29", "title": "index_sort is a sorting permutation", "statement": "index_sort(keys, ind) returns ind, a permutation of 0..n-1, with keys[ind[i]] <= keys[ind[i+1]].", "quantifier": "all key vectors including ties", "why_tests_cant": "universally quantified", "anchors": ["include/cppad/utility/index_sort.hpp"]}
{"id": "C30", "title": "LU factorisation solves the linear system", "statement": "LuFactor computes, with complete pivoting, ip, jp and LU with L U = P A Q; LuInvert solves using them; LuSolve returns X with A X = B and the (sign of the) determinant when A is non-singular, returning 0 iff no non-zero pivot is found.", "quantifier": "all sizes, all matrices over an exact field", "why_tests_cant": "algebraic identity over all matrices", "anchors": ["include/cppad/utility/lu_factor.hpp", "include/cppad/utility/lu_invert.hpp", "include/cppad/utility/lu_solve.hpp"]}
{"id": "C31", "title": "Poly evaluates the k-th derivative of a polynomial", "statement": "Poly(k,a,z) equals the k-th derivative at z of sum a_i z^i, for every k, including k larger than the degree.", "quantifier": "all coefficient vectors, k, z", "why_tests_cant": "algebraic identity for all degrees", "anchors": ["include/cppad/utility/poly.hpp"]}
{"id": "C32", "title": "azmul is an absolute zero multiply", "statement": "azmul(x,y) is x*y unless x is zero, when it is zero whatever y is; recording and replay of azmul agree with it for all operand kinds, and a zero reverse weight never contaminates derivatives.", "quantifier": "all operands, kinds and replay values", "why_tests_cant": "involves non-finite values on replay", "anchors": ["include/cppad/core/azmul.hpp", "include/cppad/local/var_op/zmul_op.hpp", "include/cppad/core/base_double.hpp"]}
{"id": "C33", "title": "Conditional skip never changes a needed value", "statement": "In an optimised function with conditional skips, Forward and Reverse return the same results as without skipping, at every argument.", "quantifier": "all tapes, all replay-time comparison outcomes", "why_tests_cant": "skip decisions are taken at replay time", "anchors": ["include/cppad/local/var_op/cskip_op.hpp", "include/cppad/local/optimize/get_cexp_info.hpp", "include/cppad/local/optimize/optimize_run.hpp"]}
{"id": "C34", "title": "Jacobian, Hessian and one-direction drivers", "statement": "Jacobian(x) (by either forward or reverse), ForOne, RevOne, Hessian(x,w), RevTwo and ForTwo return the first and second partial derivatives in the documented row-major layout.", "quantifier": "all functions, arguments, n and m", "why_tests_cant": "layout and mode selection depend on n, m", "anchors": ["include/cppad/core/jacobian.hpp", "include/cppad/core/hessian.hpp", "include/cppad/core/for_one.hpp", "include/cppad/core/rev_one.hpp", "include/cppad/core/for_two.hpp", "include/cppad/core/rev_two.hpp"]}
{"id": "C35", "title": "Iterating over the operation sequence is faithful", "statement": "Forward iteration over a recording visits each operator with its own arguments and result index in order, reverse iteration visits them in exactly reverse order with the same data, also for variable-length operators (cumulative sums, conditional skips, atomic calls); random access agrees with both.", "quantifier": "all recordings", "why_tests_cant": "variable-length operator encodings are parsed from both ends", "anchors": ["include/cppad/local/play/sequential_iterator.hpp", "include/cppad/local/play/random_iterator.hpp", "include/cppad/local/play/random_setup.hpp", "include/cppad/local/play/subgraph_iterator.hpp"]}
{"id": "C36", "title": "Constant parameters are stored once and retrievable", "statement": "put_con_par returns an index whose stored value is identically equal to the argument, never alters previously stored parameters, and never returns the index of a dynamic parameter.", "quantifier": "every history of put_con_par / put_dyn_par calls", "why_tests_cant": "hash collisions and index reuse depend on the whole history", "anchors": ["include/cppad/local/record/dyn_recorder.hpp:put_con_par", "include/cppad/local/hash_code.hpp"]}
{"id": "C37", "title": "Cumulative summation operator", "statement": "The cumulative-sum operator evaluates to initial + sum of added variables/parameters - sum of subtracted ones, with derivatives of all orders and directions to match.", "quantifier": "all argument lists and orders", "why_tests_cant": "argument lists are of arbitrary length", "anchors": ["include/cppad/local/var_op/csum_op.hpp", "include/cppad/local/optimize/record_csum.hpp"]}
{"id": "C38", "title": "Atomic functions are spliced correctly", "statement": "A call to an atomic function is recorded so that forward, reverse and sparsity sweeps hand the callback exactly the Taylor coefficients / weights of its arguments and store its results at the right variables; constant and dynamic arguments are passed as such.", "quantifier": "all argument-kind combinations and all callbacks meeting their contract", "why_tests_cant": "user code is arbitrary", "anchors": ["include/cppad/local/record/put_var_atomic.hpp", "include/cppad/local/record/put_dyn_atomic.hpp", "include/cppad/local/sweep/call_atomic.hpp", "include/cppad/local/play/atom_op_info.hpp"]}
{"id": "C39", "title": "set_union and near_equal utilities", "statement": "set_union returns the union; NearEqual(x,y,r,a) is true exactly when |x-y|<=a or |x-y| <= r(|x|+|y|) (finite values) and false with nan.", "quantifier": "all sets / all values", "why_tests_cant": "universally quantified", "anchors": ["include/cppad/utility/set_union.hpp", "include/cppad/utility/near_equal.hpp"]}
{"id": "C40", "title": "pow with integer exponent", "statement": "pow(x,n) with int n computed by repeated multiplication equals x^n for n>=0 and 1/x^{-n} for n<0.", "quantifier": "all x and n", "why_tests_cant": "all exponents", "anchors": ["include/cppad/utility/pow_int.hpp"]}
{"id": "C41", "title": "Abs-normal representation reproduces the function", "statement": "For a function F without erf, VecAD operations, atomic functions and comparisons of two dynamic parameters, abs_normal_fun returns g and a with g(x, a(x)) = (F(x), z(x, a(x))), a(x) = |z(x, a(x))| where a collects the absolute values in order, g records no absolute value, component k of z(x, u) only depends on x and the first k components of u (so a(x) is the only solution of u = |z(x,u)|), and this stays so when the same new_dynamic calls are made for F, g and a.", "quantifier": "all tapes and arguments", "why_tests_cant": "per-program correctness", "anchors": ["include/cppad/core/abs_normal_fun.hpp"]}
{"id": "C42", "title": "ODE and quadrature step formulas", "statement": "Runge45 and RombergOne/RombergMul satisfy their algebraic defining formulas: e.g. RombergOne integrates polynomials of degree < 2p exactly and the Runge-Kutta step is exact on polynomial right hand sides of the stated order.", "quantifier": "all step counts and sizes over an exact field", "why_tests_cant": "for all n, p", "anchors": ["include/cppad/utility/runge_45.hpp", "include/cppad/utility/romberg_one.hpp", "include/cppad/utility/romberg_mul.hpp"]}
{"id": "C43", "title": "Memory tracking of track_new_del", "statement": "TrackNewVec/TrackDelVec/TrackExtend/TrackCount keep exactly the multiset of live allocations, and reject a delete of a pointer never allocated or already deleted.", "quantifier": "every call history", "why_tests_cant": "history dependent", "anchors": ["include/cppad/utility/track_new_del.hpp"]}
