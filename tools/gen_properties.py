#!/usr/bin/env python3
"""Writes /verif/properties.jsonl (one JSON object per line)."""
import json, os
P=[]
def p(title, statement, quantifier, why, anchors):
    P.append(dict(id="C%02d"%(len(P)+1), title=title, statement=statement,
                  quantifier=quantifier, why_tests_cant=why, anchors=anchors))
I="include/cppad/"
p("Recorded function replays the user's algorithm",
  "For an algorithm written with AD<Base> operators (+,-,*,/, compound assignments, unary functions, pow, azmul, conditional expressions, discrete functions) and recorded between Independent(x) and ADFun f(x,y), f.Forward(0,x') returns, for every x', exactly the value the same algorithm computes on Base at x' - including where the recorder drops an operation because an operand is identically zero or one.",
  "every straight-line AD program, every value used while recording, every later argument x'",
  "the recorder specialises on operand kinds and on identical zero/one values, so agreement must hold for every program/argument combination, not the sampled ones",
  [I+"core/add.hpp:operator+",I+"core/sub.hpp",I+"core/mul.hpp",I+"core/div.hpp",I+"core/add_eq.hpp",I+"core/pow.hpp",I+"core/azmul.hpp",I+"local/record/recorder.hpp",I+"local/sweep/forward_0.hpp"])
p("new_dynamic re-evaluates every dynamic parameter",
  "After f.new_dynamic(p'), f.Forward(0,x') equals the value the recorded algorithm has with its independent dynamic parameters equal to p' (all dependent dynamic parameters are recomputed, constants are untouched, order of dependence is respected).",
  "every recording with dynamic parameters, every p' and x', any sequence of new_dynamic calls",
  "dependence chains between dynamic parameters and mixes with constants/variables are unbounded",
  [I+"core/new_dynamic.hpp",I+"local/sweep/dynamic.hpp",I+"local/record/dyn_recorder.hpp",I+"local/op_code_dyn.hpp"])
p("Kind and value of an AD result",
  "The Base value held by the result of an AD operation is the Base operation applied to the operand values, and the result is a variable only if some operand is a variable on the active tape, and a dynamic parameter only if no operand is a variable and some operand is dynamic; with no active tape the result is a constant.",
  "all operand kinds (constant, dynamic, variable, left over from another tape), all values",
  "the kind analysis is a case split per operator repeated in a dozen files; a single missed case corrupts the tape for some input",
  [I+"core/add.hpp",I+"core/mul.hpp",I+"core/div.hpp",I+"core/con_dyn_var.hpp",I+"core/ad.hpp:make_variable"])
p("Objects from a finished or aborted recording are constants",
  "At most one recording per thread and Base type is active; after Dependent/ADFun construction or abort_recording every AD object created under that recording is seen as Constant, and stays so for every later recording in any thread (tape identifiers are never reused while they fit the identifier type).",
  "every history of Independent / abort_recording / Dependent / operator calls over all threads",
  "requires uniqueness of tape identifiers across unbounded histories and threads",
  [I+"core/tape_link.hpp:tape_manage",I+"core/con_dyn_var.hpp",I+"core/abort_recording.hpp",I+"core/independent/independent.hpp",I+"core/dependent.hpp"])
p("compare_change counts exactly the changed comparisons",
  "With comparisons recorded, f.compare_change_number() after f.Forward(0,x') is the number of AD comparisons involving a variable (or dynamic) operand whose truth value at x' differs from the recorded one, and is 0 iff all agree; compare_change_op_index reports the count-th change.",
  "all recordings with comparisons, all arguments, all compare_change_count settings",
  "each of six comparison operators is normalised to one of a few op-codes by outcome and operand kind; every combination must be inverted correctly",
  [I+"core/compare.hpp",I+"local/record/comp_op.hpp",I+"local/var_op/compare_op.hpp",I+"local/sweep/forward_0.hpp"])
p("Conditional expressions follow the replay values",
  "CondExpXX(left,right,if_true,if_false) recorded with any mix of constant, dynamic and variable arguments evaluates, on replay at every x', to the branch selected by comparing left and right at x'; its derivatives of every order are those of the selected branch.",
  "all 16 operand-kind combinations, all compare operators, all replay values, all orders",
  "branch choice depends on replay data which differs from the recording data",
  [I+"core/cond_exp.hpp",I+"local/record/cond_exp.hpp",I+"local/var_op/cexp_op.hpp"])
p("VecAD elements behave as arrays with AD indices",
  "A load from a VecAD vector during replay returns the value last stored at the (replay-time) index, whether elements are parameters or variables and whether indices are parameters or variables; elements never stored keep their recorded value.",
  "every sequence of loads and stores, every replay-time index within bounds",
  "the identity of the last store depends on replay-time index values",
  [I+"core/vec_ad/vec_ad.hpp",I+"local/var_op/load_op.hpp",I+"local/var_op/store_op.hpp",I+"local/record/put_var_vecad.hpp"])
p("Forward mode returns Taylor coefficients",
  "If x^(0..q) are the Taylor coefficients of a smooth curve X(t) and F is differentiable at X(0), f.Forward(k, x^(k)) for k=0..q returns y^(k) = (1/k!) d^k/dt^k F(X(t)) at t=0.",
  "all recorded functions over the supported operators, all points where every operation is differentiable, all orders",
  "a recurrence error at some order and operator is only visible for particular tapes/orders/values",
  [I+"core/forward/forward.hpp",I+"local/sweep/forward_any.hpp",I+"local/var_op/mul_op.hpp",I+"local/var_op/div_op.hpp",I+"local/var_op/exp_op.hpp",I+"local/var_op/sin_op.hpp",I+"local/var_op/pow_op.hpp"])
p("Orders may be computed one at a time or several at once",
  "Forward(q,xq) computing orders p..q in one call yields the same coefficients as computing each order in a separate call, leaves lower orders unchanged, and depends only on coefficients of order <= k for order k.",
  "all tapes, all splits of 0..q into consecutive calls",
  "the sweep is rerun on stored state from previous calls; any history of calls must agree",
  [I+"core/forward/forward.hpp",I+"local/sweep/forward_any.hpp",I+"core/capacity_order.hpp"])
p("Multiple-direction forward equals one direction at a time",
  "Forward(q, r, xq) returns for each direction ell the same order-q coefficient as the one-direction Forward(q, .) with that direction's coefficients.",
  "all tapes, numbers of directions, orders and values",
  "per-operator code is duplicated with a different memory layout",
  [I+"core/forward/forward.hpp",I+"local/sweep/forward_dir.hpp",I+"local/var_op/mul_op.hpp:forward_mulvv_op_dir"])
p("Reverse mode returns the partial derivatives of any order",
  "After q forward orders, f.Reverse(q,w) returns for every j,k the partial derivative with respect to x_j^(k) of W = sum_i sum_k w_i^(k) y_i^(k), where y^(k) is regarded as a function of all input Taylor coefficients.",
  "all tapes, all weights, all orders, all points where every operation is differentiable",
  "adjoint of every recurrence must be exact for every order; errors cancel in sampled tests",
  [I+"core/reverse.hpp",I+"local/sweep/reverse.hpp",I+"local/var_op/mul_op.hpp:reverse_mulvv_op",I+"local/var_op/div_op.hpp"])
p("Order bookkeeping of an ADFun object",
  "size_order() is the number of valid Taylor orders: it is set to q+1 by Forward(q), reduced by capacity_order(c) to at most c, reset by new_dynamic / optimize / Dependent as documented, and a derivative call requiring more orders than size_order() is rejected; stored coefficients of retained orders are unchanged by capacity changes.",
  "every history of Forward, capacity_order, Reverse, new_dynamic calls",
  "correctness depends on arbitrary call histories",
  [I+"core/capacity_order.hpp",I+"core/forward/forward.hpp",I+"core/ad_fun.hpp:size_order"])
p("Forward Jacobian sparsity is conservative",
  "If (i,j) is absent from the pattern returned by for_jac_sparsity (pattern_in = identity), y_i does not depend on x_j through differentiable operations: dF_i/dx_j = 0 at every argument; with a general pattern R the result contains the pattern of F'(x)R.",
  "all tapes, all patterns, all arguments; sets or bool representation",
  "must hold for every tape and argument",
  [I+"core/for_jac_sparsity.hpp",I+"local/sweep/for_jac.hpp",I+"local/var_op/two_var.hpp"])
p("Reverse Jacobian sparsity is conservative",
  "If (i,j) is absent from the pattern returned by rev_jac_sparsity then dF_i/dx_j = 0 at every argument; with a general pattern R the result contains the pattern of R F'(x).",
  "all tapes, all patterns, all arguments",
  "must hold for every tape and argument",
  [I+"core/rev_jac_sparsity.hpp",I+"local/sweep/rev_jac.hpp"])
p("Hessian sparsity is conservative",
  "If (i,j) is absent from the pattern returned by rev_hes_sparsity / for_hes_sparsity for the selected components, the Hessian of the selected sum has a zero (i,j) entry at every argument.",
  "all tapes, selections and arguments",
  "second-order dependence arises through arbitrarily long operator chains",
  [I+"core/rev_hes_sparsity.hpp",I+"core/for_hes_sparsity.hpp",I+"local/sweep/rev_hes.hpp",I+"local/sweep/for_hes.hpp"])
p("Dependency patterns contain every functional dependence",
  "With dependency=true, if (i,j) is absent from the returned pattern then the value F_i(x) (not only its derivative) is independent of x_j, including through sign, discrete functions, VecAD indices and conditional-expression comparisons.",
  "all tapes, pairs of arguments differing in component j",
  "is a non-interference property over pairs of runs",
  [I+"core/for_jac_sparsity.hpp",I+"local/sweep/for_jac.hpp",I+"local/var_op/cexp_op.hpp"])
p("Subgraph reverse equals full reverse",
  "subgraph_reverse restricted to selected independents returns the same derivatives as Reverse(q,w) with w the elementary vector, at the columns it reports, and the columns it omits have zero derivative or were not selected; subgraph_sparsity is conservative.",
  "all tapes, selections, component indices, sequences of subgraph calls after one selection",
  "incremental subgraph state carries over between calls for different dependents",
  [I+"core/subgraph_reverse.hpp",I+"core/subgraph_sparsity.hpp",I+"local/subgraph/get_rev.hpp",I+"local/subgraph/info.hpp",I+"local/subgraph/init_rev.hpp"])
p("Sparse Jacobian by colouring recovers every requested entry",
  "sparse_jac_for / sparse_jac_rev return in subset.val() exactly the Jacobian entries at the requested (row, col) pairs whenever the given pattern contains the true sparsity pattern.",
  "all patterns, all subsets (with possible duplicates, any order), all Jacobian values consistent with the pattern",
  "depends on a greedy colouring heuristic being a valid colouring for every pattern",
  [I+"core/sparse_jac.hpp",I+"local/color_general.hpp"])
p("Sparse Hessian by (symmetric) colouring recovers every requested entry",
  "sparse_hes returns exactly the Hessian entries at the requested (row, col) pairs whenever the given pattern contains the true pattern, for both the general and symmetric colouring methods.",
  "all symmetric patterns, all subsets, all Hessian values consistent with the pattern",
  "symmetric recovery relies on a subtle property of the colouring for every pattern",
  [I+"core/sparse_hes.hpp",I+"local/color_symmetric.hpp",I+"local/color_general.hpp"])
p("Vector-of-sets containers behave like vectors of finite sets",
  "Any sequence of resize, add_element, post_element/process_post, clear, assignment, binary_union, binary_intersection and swap on the set-vector containers, followed by is_element, number_elements or iteration, is observationally a vector of finite sets of numbers below end; iteration is increasing and terminates at end.",
  "every operation history, every number of sets and every end, for the packed-bit, linked-list and sorted-vector implementations",
  "copy-on-write sharing, free lists and garbage collection make behaviour depend on the whole history",
  [I+"local/sparse/pack_setvec.hpp",I+"local/sparse/size_setvec.hpp",I+"local/sparse/svec_setvec.hpp",I+"local/sparse/list_setvec.hpp"])
p("Sparsity pattern class sparse_rc",
  "sparse_rc::set/resize/row/col behave as an array of (row,col) pairs; row_major() and col_major() return permutations of the indices that sort the pairs in row-major / column-major order; equality of patterns ignores order; set_row_col conversions agree.",
  "all patterns and operation histories",
  "universally quantified ordering property",
  [I+"utility/sparse_rc.hpp",I+"utility/sparse_rcv.hpp",I+"utility/index_sort.hpp"])
p("optimize preserves the function",
  "f.optimize() changes neither the domain/range nor the value of f.Forward(0,x) at any x (nor, hence, its derivatives where defined): dead operations are removed, identical operations are merged, sums are grouped and conditional skips never skip a needed operation.",
  "all tapes, all option strings, all arguments",
  "an optimiser is a compiler: correctness is per program",
  [I+"core/optimize.hpp",I+"local/optimize/optimize_run.hpp",I+"local/optimize/get_op_usage.hpp",I+"local/optimize/match_op.hpp",I+"local/optimize/record_csum.hpp"])
p("Value-operator graph passes preserve the function",
  "Each val_graph pass (fold_con, renumber, compress, dead_code, summation, rev_depend) maps a tape to one with the same number of independents and dependents and the same eval result for every independent vector; dead_code keeps comparisons when asked; summation agrees over exact arithmetic.",
  "all value-graph tapes and all independent vectors",
  "per-program correctness of a rewriting system",
  [I+"local/val_graph/tape.hpp",I+"local/val_graph/fold_con.hpp",I+"local/val_graph/renumber.hpp",I+"local/val_graph/compress.hpp",I+"local/val_graph/dead_code.hpp",I+"local/val_graph/summation.hpp"])
p("Conversion to and from the value-operator graph preserves the function",
  "fun2val followed by val2fun yields an ADFun with the same domain, range and zero-order values at every argument and dynamic parameter.",
  "all recordings in the supported operator set",
  "per-program correctness",
  [I+"local/val_graph/fun2val.hpp",I+"local/val_graph/val2fun.hpp"])
p("AD graph / JSON round trip",
  "f.from_graph(g) after f.to_graph(g) and from_json after to_json yield a function with the same values at every argument and dynamic parameter vector; lexing accepts exactly the tokens written.",
  "all functions in the supported operator set",
  "round trip must hold for every graph",
  [I+"core/graph/to_graph.hpp",I+"core/graph/from_graph.hpp",I+"core/graph/cpp_graph.hpp","cppad_lib/json_parser.cpp","cppad_lib/json_writer.cpp","cppad_lib/json_lexer.cpp"])
p("thread_alloc memory contract",
  "get_memory(min), for min up to the largest block size, returns a block of at least min bytes not overlapping any other block in use, for the current thread; inuse(thread) and available(thread) are always the sums over blocks in use / held; return_memory moves a block to available (or frees it); free_available makes available zero; create_array (byte count within size_t) / delete_array construct and destroy each element exactly once.",
  "every history of calls over all threads and sizes",
  "history-dependent allocator state",
  [I+"utility/thread_alloc.hpp"])
p("Simple vectors behave like lists",
  "CppAD::vector and pod_vector: push_back, push_vector, resize, extend, assignment, swap and element update preserve prefix elements, sizes and capacities exactly as a mathematical list (with elements of a fresh resize unspecified), for every history.",
  "every operation history",
  "growth/reallocation depends on history",
  [I+"utility/vector.hpp",I+"local/pod_vector.hpp"])
p("vectorBool behaves like a list of booleans",
  "vectorBool stores packed bits so that every sequence of resize, push_back, element assignment, clear, swap and assignment observably equals the same sequence on a list of bool.",
  "every operation history and length",
  "bit packing at every word boundary",
  [I+"utility/vector_bool.hpp",I+"local/utility/vector_bool.hpp"])
p("index_sort is a sorting permutation",
  "index_sort(keys, ind) returns ind, a permutation of 0..n-1, with keys[ind[i]] <= keys[ind[i+1]].",
  "all key vectors including ties",
  "universally quantified",
  [I+"utility/index_sort.hpp"])
p("LU factorisation solves the linear system",
  "LuFactor computes, with complete pivoting, ip, jp and LU with L U = P A Q; LuInvert solves using them; LuSolve returns X with A X = B and the (sign of the) determinant when A is non-singular, returning 0 iff no non-zero pivot is found.",
  "all sizes, all matrices over an exact field",
  "algebraic identity over all matrices",
  [I+"utility/lu_factor.hpp",I+"utility/lu_invert.hpp",I+"utility/lu_solve.hpp"])
p("Poly evaluates the k-th derivative of a polynomial",
  "Poly(k,a,z) equals the k-th derivative at z of sum a_i z^i, for every k, including k larger than the degree.",
  "all coefficient vectors, k, z",
  "algebraic identity for all degrees",
  [I+"utility/poly.hpp"])
p("azmul is an absolute zero multiply",
  "azmul(x,y) is x*y unless x is zero, when it is zero whatever y is; recording and replay of azmul agree with it for all operand kinds, and a zero reverse weight never contaminates derivatives.",
  "all operands, kinds and replay values",
  "involves non-finite values on replay",
  [I+"core/azmul.hpp",I+"local/var_op/zmul_op.hpp",I+"core/base_double.hpp"])
p("Conditional skip never changes a needed value",
  "In an optimised function with conditional skips, Forward and Reverse return the same results as without skipping, at every argument.",
  "all tapes, all replay-time comparison outcomes",
  "skip decisions are taken at replay time",
  [I+"local/var_op/cskip_op.hpp",I+"local/optimize/get_cexp_info.hpp",I+"local/optimize/optimize_run.hpp"])
p("Jacobian, Hessian and one-direction drivers",
  "Jacobian(x) (by either forward or reverse), ForOne, RevOne, Hessian(x,w), RevTwo and ForTwo return the first and second partial derivatives in the documented row-major layout.",
  "all functions, arguments, n and m",
  "layout and mode selection depend on n, m",
  [I+"core/jacobian.hpp",I+"core/hessian.hpp",I+"core/for_one.hpp",I+"core/rev_one.hpp",I+"core/for_two.hpp",I+"core/rev_two.hpp"])
p("Iterating over the operation sequence is faithful",
  "Forward iteration over a recording visits each operator with its own arguments and result index in order, reverse iteration visits them in exactly reverse order with the same data, also for variable-length operators (cumulative sums, conditional skips, atomic calls); random access agrees with both.",
  "all recordings",
  "variable-length operator encodings are parsed from both ends",
  [I+"local/play/sequential_iterator.hpp",I+"local/play/random_iterator.hpp",I+"local/play/random_setup.hpp",I+"local/play/subgraph_iterator.hpp"])
p("Constant parameters are stored once and retrievable",
  "put_con_par returns an index whose stored value is identically equal to the argument, never alters previously stored parameters, and never returns the index of a dynamic parameter.",
  "every history of put_con_par / put_dyn_par calls",
  "hash collisions and index reuse depend on the whole history",
  [I+"local/record/dyn_recorder.hpp:put_con_par",I+"local/hash_code.hpp"])
p("Cumulative summation operator",
  "The cumulative-sum operator evaluates to initial + sum of added variables/parameters - sum of subtracted ones, with derivatives of all orders and directions to match.",
  "all argument lists and orders",
  "argument lists are of arbitrary length",
  [I+"local/var_op/csum_op.hpp",I+"local/optimize/record_csum.hpp"])
p("Atomic functions are spliced correctly",
  "A call to an atomic function is recorded so that forward, reverse and sparsity sweeps hand the callback exactly the Taylor coefficients / weights of its arguments and store its results at the right variables; constant and dynamic arguments are passed as such.",
  "all argument-kind combinations and all callbacks meeting their contract",
  "user code is arbitrary",
  [I+"local/record/put_var_atomic.hpp",I+"local/record/put_dyn_atomic.hpp",I+"local/sweep/call_atomic.hpp",I+"local/play/atom_op_info.hpp"])
p("set_union and near_equal utilities",
  "set_union returns the union; NearEqual(x,y,r,a) is true exactly when |x-y|<=a or |x-y| <= r(|x|+|y|) (finite values) and false with nan.",
  "all sets / all values",
  "universally quantified",
  [I+"utility/set_union.hpp",I+"utility/near_equal.hpp"])
p("pow with integer exponent",
  "pow(x,n) with int n computed by repeated multiplication equals x^n for n>=0 and 1/x^{-n} for n<0.",
  "all x and n",
  "all exponents",
  [I+"utility/pow_int.hpp"])
p("Abs-normal representation reproduces the function",
  "For a function F without erf, VecAD operations, atomic functions and comparisons of two dynamic parameters, abs_normal_fun returns g and a with g(x, a(x)) = (F(x), z(x, a(x))), a(x) = |z(x, a(x))| where a collects the absolute values in order, g records no absolute value, component k of z(x, u) only depends on x and the first k components of u (so a(x) is the only solution of u = |z(x,u)|), and this stays so when the same new_dynamic calls are made for F, g and a.",
  "all tapes and arguments",
  "per-program correctness",
  [I+"core/abs_normal_fun.hpp"])
p("ODE and quadrature step formulas",
  "Runge45 and RombergOne/RombergMul satisfy their algebraic defining formulas: e.g. RombergOne integrates polynomials of degree < 2p exactly and the Runge-Kutta step is exact on polynomial right hand sides of the stated order.",
  "all step counts and sizes over an exact field",
  "for all n, p",
  [I+"utility/runge_45.hpp",I+"utility/romberg_one.hpp",I+"utility/romberg_mul.hpp"])
p("Memory tracking of track_new_del",
  "TrackNewVec/TrackDelVec/TrackExtend/TrackCount keep exactly the multiset of live allocations, and reject a delete of a pointer never allocated or already deleted.",
  "every call history",
  "history dependent",
  [I+"utility/track_new_del.hpp"])
with open(os.path.join(os.path.dirname(__file__),"..","properties.jsonl"),"w") as f:
    for x in P: f.write(json.dumps(x)+"\n")
print(len(P))
