{"id": "C01", "title": "Expression builders preserve values", "statement": "Building an expression with +, -, *, /, unary minus, sum(), prod(), pow() or sqrt() yields an expression whose value, for every assignment of variables and parameters at which the requested arithmetic is defined, equals that arithmetic applied to the values of the operands, whatever constant folding or term removal the builder performs.", "quantifier": "all operand expressions (any number of terms, any mix of numbers, parameters, variables and function calls), all variable and parameter assignments", "why_tests_cant": "The builders branch on the number, the position and the value of numeric operands; operand lists are unbounded and constants range over a continuum.", "anchors": ["src/math/sum.cpp: sum", "src/math/prod.cpp: prod", "src/math/pow.cpp: pow", "src/expression_ops.cpp: operator+,-,*,/"]}
{"id": "C02", "title": "Substitution means environment update", "statement": "Evaluating subs(e, m) gives the value of e in the environment where every substituted variable has the value of its replacement; rename_variables is the special case of variable replacements; copying an expression does not change its value.", "quantifier": "all expressions, all substitution maps, all environments", "why_tests_cant": "Expressions are unbounded trees; substitution rebuilds functions and can trigger simplification at any level.", "anchors": ["src/expression_basic.cpp: subs, rename_variables, copy", "src/detail/ex_traversal.cpp: ex_traverse_transform_nodes"]}
{"id": "C03", "title": "Sharing never changes results", "statement": "Every traversal-based operation (transformation, variable/parameter collection, node counting, decomposition, differentiation) returns for an expression with shared subexpressions the same result it returns for the fully unshared copy.", "quantifier": "all expression DAGs with consistent sharing (function nodes or argument sets shared at arbitrary places), all transformations", "why_tests_cant": "The implementations are explicit-stack machines with pointer-keyed caches; errors would appear only for particular sharing patterns.", "anchors": ["src/detail/ex_traversal.cpp: ex_traverse_transform_nodes, ex_traverse_visit_leaves, ex_traverse_test_any", "src/expression_basic.cpp: get_n_nodes, hash"]}
{"id": "C04", "title": "get_variables / get_param_size are exact", "statement": "get_variables(e) returns exactly the names of the variables occurring in e, sorted and without repetitions, get_param_size(e) returns one plus the largest parameter index occurring in e (0 if none), and the value of e is unaffected by changing any other variable or parameter.", "quantifier": "all expressions and environments", "why_tests_cant": "Quantifies over all expressions and all pairs of environments.", "anchors": ["src/expression_basic.cpp: get_variables, get_params, get_param_size"]}
{"id": "C05", "title": "Expression equality, hashing and ordering are coherent", "statement": "Equality of expressions is an equivalence, equal expressions have equal hashes, and the ordering used for sorted containers of expressions is a strict weak order whose incomparable elements are exactly the equal expressions.", "quantifier": "all pairs and triples of expressions (including NaN constants)", "why_tests_cant": "A comparator that is not a strict weak order corrupts std::map only for particular triples; testing cannot cover all of them.", "anchors": ["src/expression_basic.cpp: ex_less_than, operator==, hash", "src/number.cpp: operator==, operator<, hash"]}
{"id": "C06", "title": "Symbolic derivative is the derivative", "statement": "diff(e, x) evaluates, at every point where e's elementary functions are differentiable, to the partial derivative of the value of e with respect to x (x a variable or a parameter); diff with respect to anything else is rejected.", "quantifier": "all expressions over the supported elementary functions, all variables/parameters x, all points in the domain", "why_tests_cant": "Needs the chain rule for unboundedly nested compositions and a continuum of evaluation points.", "anchors": ["src/expression_diff.cpp: diff, diff_impl", "src/math/*.cpp: gradient"]}
{"id": "C07", "title": "Forward and reverse mode derivative tensors agree with diff", "statement": "Each first-order derivative computed by diff_tensors, by the forward-mode or by the reverse-mode algorithm, evaluates to the derivative of the corresponding output with respect to the corresponding argument; in particular the mode selection (outputs versus arguments) is unobservable. At points where the functions involved are infinitely differentiable, every entry of every order is the derivative of any entry with one derivative less, whatever the order of differentiation, and both modes give the same values at all orders.", "quantifier": "all decomposed systems of outputs, all arguments, any number of outputs and inputs", "why_tests_cant": "Mode selection and the dependency-limited accumulation depend on the shape of the computation graph, which is unbounded.", "anchors": ["src/expression_diff.cpp: diff_make_adj_dep, diff_tensors_forward_impl, diff_tensors_reverse_impl, diff_tensors_impl"]}
{"id": "C08", "title": "Derivative tensor indices are totally ordered and retrievable", "statement": "The order in which dtens stores multiindices is a strict total order graded first by total derivative order and then by output component; looking up any stored multiindex, in sparse or dense form, finds its entry and looking up any absent one fails; get_derivatives(order) and get_derivatives(component, order) return exactly the entries of that order (and component).", "quantifier": "all multiindices over any number of arguments and all orders", "why_tests_cant": "Binary search correctness depends on the comparator being a strict weak order over an unbounded index space.", "anchors": ["src/dtens.cpp: dtens_sv_idx_cmp_impl, dtens_ss_idx_cmp_impl, find, get_derivatives, get_nouts, get_order"]}
{"id": "C09", "title": "Decomposition computes the original functions", "statement": "The decomposition of a system of expressions into elementary subexpressions evaluates, output by output, to the original expressions, and each elementary subexpression refers only to inputs or to earlier subexpressions.", "quantifier": "all lists of expressions, all environments", "why_tests_cant": "Unbounded expression nesting and sharing.", "anchors": ["src/expression_decompose.cpp: expression_decompose_impl, decompose", "src/expression_cfunc.cpp: function_decompose", "src/taylor_01.cpp: taylor_decompose_sys"]}
{"id": "C10", "title": "Common subexpression elimination is transparent", "statement": "Removing duplicate elementary subexpressions from a decomposition leaves the value of every output unchanged, leaves no two equal elementary subexpressions, and keeps all references pointing backwards.", "quantifier": "all well-formed decompositions, all environments", "why_tests_cant": "Index renaming is cumulative along an unbounded list.", "anchors": ["src/taylor_01.cpp: taylor_decompose_cse", "src/expression_cfunc.cpp: function_decompose_cse"]}
{"id": "C11", "title": "Topological sorting is a value-preserving permutation", "statement": "Reordering a decomposition by breadth-first topological sort always terminates with every elementary subexpression present exactly once, keeps the inputs first in their original order, keeps all references pointing backwards, and leaves the value of every output unchanged.", "quantifier": "all well-formed decompositions, all environments", "why_tests_cant": "Graph shapes are unbounded.", "anchors": ["src/taylor_01.cpp: taylor_sort_dc", "src/expression_cfunc.cpp: function_sort_dc"]}
{"id": "C12", "title": "Compact-mode segments can be evaluated in any order", "statement": "Splitting a decomposition into segments puts every elementary subexpression in exactly one segment, in order, and no subexpression reads another one of its own segment; hence evaluating the subexpressions of a segment in any order, grouped by function or concurrently, gives the same values as sequential evaluation.", "quantifier": "all well-formed decompositions, all interleavings of the evaluations within a segment, all environments", "why_tests_cant": "The number of schedules is exponential and the decompositions unbounded; data races do not show up in deterministic tests.", "anchors": ["src/taylor_02.cpp: taylor_segment_dc, taylor_cm_codegen_segment_diff", "src/expression_cfunc.cpp: function_segment_dc", "src/taylor_01.cpp: heyoka_taylor_cm_par_segment"]}
{"id": "C13", "title": "Rewriting passes preserve values", "statement": "Splitting long sums and products into nested short ones, turning sums into subtractions or sums of squares, products with reciprocals into divisions leaves the value of the expression unchanged at every point of its domain, and turning powers with a symbolic exponent into exp/log leaves it unchanged wherever the base of such powers is positive.", "quantifier": "all expressions, all split sizes of at least two, all environments in the domain", "why_tests_cant": "Unbounded operand lists and arbitrary nesting.", "anchors": ["include/heyoka/detail/udf_split.hpp", "src/math/sum.cpp: sum_to_sub, sums_to_sum_sqs", "src/math/prod.cpp: prod_to_div_taylor_diff, prod_to_div_llvm_eval", "src/taylor_01.cpp: pow_to_explog"]}
{"id": "C14", "title": "Taylor recurrences give the Taylor coefficients", "statement": "For each elementary function f of the library, the order-n normalised derivative computed by automatic differentiation from the normalised derivatives of the argument (and, where used, of the auxiliary function and of the lower-order results) equals the n-th Taylor coefficient of f composed with the argument.", "quantifier": "all orders n, all argument functions with enough derivatives, all points in the domain of the recurrence", "why_tests_cant": "Recurrences hold at every order and for every argument function; tests check a few orders of a few functions.", "anchors": ["src/math/{sin,cos,tan,exp,log,pow,asin,acos,atan,sinh,cosh,tanh,asinh,acosh,atanh,erf,sigmoid,sum,prod}.cpp: taylor_diff"]}
{"id": "C15", "title": "The computed jet is the Taylor expansion of the ODE solution", "statement": "Running the order-by-order computation on the decomposition of an ODE system, starting from a state, yields for every state variable and order the Taylor coefficient of the solution of the ODE through that state.", "quantifier": "all decomposed ODE systems over the supported functions, all orders, all initial states in the domain", "why_tests_cant": "Combines unboundedly many recurrences at unbounded order.", "anchors": ["src/taylor_02.cpp: taylor_compute_jet, taylor_compute_sv_diff, taylor_compute_jet_multi", "src/taylor_01.cpp: taylor_decompose_sys"]}
{"id": "C16", "title": "Auxiliary functions never create a same-order cycle", "statement": "In the computation of the jet, every value read while computing a quantity at a given order has already been computed, although auxiliary dependencies are ignored when the decomposition is sorted and segmented.", "quantifier": "all decompositions produced from any system, all orders", "why_tests_cant": "The read sets depend on the function and the order; the claim is about all decompositions and schedules.", "anchors": ["src/taylor_01.cpp: taylor_sort_dc, verify_taylor_dec", "src/taylor_02.cpp: taylor_segment_dc, taylor_compute_jet", "src/math/*.cpp: taylor_diff, taylor_decompose"]}
{"id": "C17", "title": "Default and compact mode agree", "statement": "The jet computed in compact mode is, in exact arithmetic, identical to that computed in default mode, whatever the initial contents of the memory and the order in which the operations of a segment are executed.", "quantifier": "all decompositions, orders and states", "why_tests_cant": "Two independent code generators must agree for every input.", "anchors": ["src/taylor_02.cpp: taylor_compute_jet (default mode, compact mode), taylor_compute_jet_multi, taylor_compute_jet_compact_mode", "src/math/*.cpp: taylor_diff, taylor_c_diff_func"]}
{"id": "C18", "title": "Timestep selection respects the user's bound", "statement": "The timestep taken by a single step never exceeds in magnitude the maximum requested by the user, has its sign, and is otherwise the deduced stepsize; a finite bound is taken exactly when the deduced step is larger.", "quantifier": "all jets of coefficients, all bounds of either sign", "why_tests_cant": "Ranges over a continuum of coefficients, including zero and non-finite ones.", "anchors": ["src/taylor_00.cpp: taylor_determine_h"]}
{"id": "C19", "title": "Dense output is the Taylor polynomial", "statement": "update_d_output evaluates, by Horner's scheme or by compensated summation, exactly the polynomial with the recorded Taylor coefficients at the requested time (in exact arithmetic), so that dense output at the end of the step reproduces the state of the integrator.", "quantifier": "all coefficients, all orders, all evaluation times", "why_tests_cant": "Unbounded order; both evaluation algorithms must agree at all points.", "anchors": ["src/taylor_01.cpp: taylor_add_d_out_function", "src/taylor_00.cpp: taylor_run_multihorner, taylor_run_ceval"]}
{"id": "C20", "title": "Double-length time is error-free", "statement": "If there is no overflow: the error-free transformations used for the integration time reproduce the exact sum; the double-length time is kept normalised by every way of setting and advancing it; the error of an addition is at most 2^(5 - 2p) relative to the exact result, where p is the precision, and the error on the time after n steps is at most n times as much; and the comparison operators implement the numerical order of the represented values.", "quantifier": "all binary64 (and generally any-precision) floating-point operands without overflow", "why_tests_cant": "The floating-point input space cannot be enumerated.", "anchors": ["include/heyoka/detail/dfloat.hpp: eft_add_knuth, eft_add_dekker, operator+, operator<"]}
{"id": "C21", "title": "A step reports its outcome truthfully", "statement": "After a step without events the time has advanced by exactly the reported timestep, and the outcome is success, time_limit or err_nf_state according to whether the timestep is below the requested one, equal to it, or the new state or time is not finite.", "quantifier": "all integrator states, all numerical steppers, all bounds", "why_tests_cant": "The stepper is arbitrary numerical code; the outcome logic must hold for all its results.", "anchors": ["src/taylor_adaptive.cpp: step_impl, step"]}
{"id": "C22", "title": "propagate_until stops exactly at the requested time", "statement": "If propagate_until returns time_limit the last step ended at the requested time, in the direction of the requested time no step ever exceeds the remaining time or max_delta_t, and the outcome is time_limit, step_limit, cb_stop, a stopping terminal event or err_nf_state under exactly the documented conditions.", "quantifier": "all steppers, all start and end times in either direction, all max_delta_t, all callbacks, all histories of steps", "why_tests_cant": "The loop runs an unbounded number of iterations over arbitrary steps.", "anchors": ["src/taylor_adaptive.cpp: propagate_until_impl"]}
{"id": "C23", "title": "Step accounting of the propagate functions", "statement": "The step counter returned by propagate_until counts exactly the steps with a nonzero timestep, the minimum and maximum timestep are those of the steps that returned success, and with a nonzero max_steps no more than max_steps iterations are performed.", "quantifier": "all histories of steps, callbacks and limits", "why_tests_cant": "Depends on unbounded histories.", "anchors": ["src/taylor_adaptive.cpp: propagate_until_impl, propagate_grid_impl"]}
{"id": "C24", "title": "Step callbacks are run once per step and cannot move time", "statement": "In propagate_until the callback is invoked exactly once after each step that did not fail, in order, propagation ends with cb_stop at the first callback returning false, and a callback that changes the time makes propagation fail.", "quantifier": "all callbacks (arbitrary state transformers), all histories", "why_tests_cant": "Quantifies over arbitrary user callbacks and histories.", "anchors": ["src/taylor_adaptive.cpp: propagate_until_impl", "src/step_callback.cpp: step_callback_set_impl"]}
{"id": "C25", "title": "propagate_grid returns one row per reached grid point", "statement": "propagate_grid returns, in order, one state row for each grid point reached before an interruption, each computed by dense output of a step whose time range contains the grid point; if not interrupted a row is returned for each grid point.", "quantifier": "all strictly monotone grids in either direction, all steppers, all interruptions", "why_tests_cant": "Several grid points per step or several steps per grid point occur in unbounded combinations.", "anchors": ["src/taylor_adaptive.cpp: propagate_grid_impl"]}
{"id": "C26", "title": "Events within a step are delivered in time order up to the first terminal one", "statement": "When events trigger within a step, non-terminal callbacks are invoked in order of time, only for events preceding the first terminal event, the step is truncated exactly at the first terminal event, and the outcome encodes that event and whether its callback asked to stop.", "quantifier": "all lists of detected events with arbitrary times, both time directions", "why_tests_cant": "Arbitrary numbers of simultaneous events and orders.", "anchors": ["src/taylor_adaptive.cpp: step_impl"]}
{"id": "C27", "title": "Terminal event cooldown", "statement": "After a terminal event has triggered it does not trigger again until the time accumulated since the trigger has reached its cooldown in magnitude, and once the cooldown has elapsed its zeros are detected again, regardless of how the elapsed time is divided in steps.", "quantifier": "all step sequences in either direction, all cooldown values", "why_tests_cant": "Depends on step histories.", "anchors": ["src/taylor_adaptive.cpp: step_impl", "src/detail/event_detection.cpp: detect_events"]}
{"id": "C28", "title": "Root isolation misses no event", "statement": "In exact arithmetic: every event that is reported is a zero of the event equation's Taylor polynomial in the step, with the right sign of the derivative, allowed by the direction and not in the cooldown; every zero of a polynomial that is not identically zero, that is allowed by the direction and follows the cooldown, is reported, unless the algorithm reports failure for that event or another zero lies at a point of bisection of the step; it is reported once if no zero lies at a point of bisection; and detection ends if the polynomials have no multiple zeros.", "quantifier": "all polynomials of any order, all step sizes", "why_tests_cant": "Polynomials and root configurations form a continuum; bisection depth is unbounded.", "anchors": ["src/detail/event_detection.cpp: detect_events, llvm_add_poly_rtscc, add_poly_translator_1", "src/detail/llvm_helpers_ed.cpp: llvm_add_csc"]}
{"id": "C29", "title": "Fast event exclusion is safe", "statement": "Whenever the fast exclusion check discards an event for a step, the event equation's Taylor polynomial has (in exact arithmetic) no zero in the whole step.", "quantifier": "all polynomials, all steps in either direction", "why_tests_cant": "Continuum of polynomials and intervals.", "anchors": ["src/detail/llvm_helpers_ed.cpp: llvm_penc_interval, llvm_penc_cargo_shisha", "src/detail/event_detection.cpp: llvm_add_fex_check"]}
{"id": "C30", "title": "In-memory code cache returns what was compiled", "statement": "A lookup in the in-memory cache returns a value only if that same value was inserted under exactly the same source code and compilation flags, the total size never exceeds the limit in force when the entries were inserted, and the least recently used entries are evicted first.", "quantifier": "all sequences of lookups, insertions, limit changes and clears", "why_tests_cant": "Histories are unbounded.", "anchors": ["src/llvm_state_cache.cpp: llvm_state_mem_cache_lookup, llvm_state_mem_cache_try_insert, set_memcache_limit"]}
{"id": "C31", "title": "On-disk code cache is safe under collisions and crashes", "statement": "The on-disk cache never returns a value that was not stored for exactly the same key even if hashes collide, its recorded total size equals the sum of the sizes of its entries after every committed operation, it respects its limit on insertion, and an operation interrupted at any point leaves the cache as before or as after the operation.", "quantifier": "all operation histories, all hash functions (including colliding ones), all crash points", "why_tests_cant": "Hash collisions and crashes at each statement cannot be tested exhaustively.", "anchors": ["src/llvm_state_cache.cpp: disk cache lookup/insert/clear/set_limit"]}
{"id": "C32", "title": "Cache key encoding is injective", "statement": "Serialising a list of code modules to a blob and reading it back yields the same list, and a written blob matches a list of modules if and only if it is that list's encoding.", "quantifier": "all lists of byte strings, all blobs written by the library", "why_tests_cant": "Unbounded lists and lengths.", "anchors": ["src/llvm_state_cache.cpp: serialize_vec_str, vec_str_matches_blob, deserialize_vec_str"]}
{"id": "C33", "title": "Initial state and parameter validation", "statement": "Constructing an integrator succeeds only if the sizes of state, parameters and the system agree, the tolerance is finite and not negative (zero standing for the default one), and parallel mode is requested only with compact mode; empty state or parameters are replaced by zeros of the right length.", "quantifier": "all constructor arguments", "why_tests_cant": "Cartesian product of argument shapes, including variational systems.", "anchors": ["src/taylor_adaptive.cpp: finalise_ctor_impl", "src/detail/validate_ode_sys.cpp"]}
{"id": "C34", "title": "Continuous output covers the propagation and selects the right step", "statement": "A continuous output covers exactly the time range of its recorded steps; evaluating it within the range uses the Taylor polynomial of a step containing the time, for either direction of integration, and at the step boundaries reproduces the recorded states.", "quantifier": "all monotone sequences of step times in either direction, all evaluation times", "why_tests_cant": "Binary search over an unbounded monotone sequence.", "anchors": ["src/continuous_output.cpp: add_c_out_function, operator()"]}
{"id": "C35", "title": "Ensemble propagation is order-independent", "statement": "An ensemble propagation returns at position i the result of propagating the i-th generated integrator, whatever the scheduling of the iterations.", "quantifier": "all ensemble sizes, generators and schedules", "why_tests_cant": "Schedules of a parallel loop are not controllable by tests.", "anchors": ["src/ensemble_propagate.cpp"]}
{"id": "C36", "title": "Variational equations and initial conditions", "statement": "The variational system contains the original equations followed by the equations of the requested partial derivatives, in which the right-hand side of each derivative is the corresponding derivative of the original right-hand side along the flow, and the automatic initial conditions are the derivatives of the initial state.", "quantifier": "all systems, all sets of variational arguments and orders", "why_tests_cant": "Unbounded systems and orders.", "anchors": ["src/var_ode_sys.cpp", "src/detail/setup_variational_ics.cpp"]}
{"id": "C37", "title": "A callback set runs all of its callbacks", "statement": "Invoking a set of step callbacks runs every callback of the set in order, also after one of them has returned false, returns true exactly if all of them did, and stops at the first exception; the pre-hooks are all run in order.", "quantifier": "all sets of arbitrary callbacks, all integrator states", "why_tests_cant": "The callbacks are arbitrary user code and the set has any size.", "anchors": ["src/step_callback.cpp: step_callback_set_impl"]}
{"id": "C38", "title": "Batch elements are independent", "statement": "In a batch integration every element of the batch evolves exactly as if it were integrated alone: its state, timestep, Taylor coefficients and dense output after a step are those of a scalar integrator with the same state, parameters, time and bound, in the same floating-point arithmetic.", "quantifier": "all systems, batch sizes, orders, modes, contents of the memory, arithmetics", "why_tests_cant": "Cross-talk between lanes depends on index arithmetic for every batch size, number of equations and order.", "anchors": ["src/taylor_00.cpp: taylor_add_adaptive_step, taylor_add_adaptive_step_with_events, taylor_determine_h, taylor_write_tc", "src/taylor_01.cpp: taylor_add_d_out_function"]}
{"id": "C39", "title": "Compiled functions compute the expressions", "statement": "Evaluating a compiled function on one or many points writes, for every output and every point, the value of the expression at that point, and nothing else: whatever the mode (default or compact), the batch size, the number of points, the use of threads and the previous contents of the working memory, and the results are the same in all these cases. Invalid expressions or variables, and arrays of the wrong shape, are refused.", "quantifier": "all lists of expressions, floating-point arithmetics, modes, batch sizes, numbers of points, thread schedules", "why_tests_cant": "Decomposition, inlining, segmentation, name mangling, strided memory and remainders interact for every expression and every size.", "anchors": ["src/cfunc_class.cpp: cfunc::cfunc, single_eval, multi_eval, multi_eval_st, multi_eval_mt", "src/expression_cfunc.cpp: function_dc_inline, function_segment_dc, add_cfunc_nc_mode, multi_cfunc_evaluate_segments, cfunc_c_write_outputs", "src/detail/composite_function.cpp", "src/math/pow.cpp: get_pow_eval_algo, pow_ebs", "src/math/prod.cpp: prod_impl::llvm_evaluate"]}
{"id": "C40", "title": "Hamilton's equations", "statement": "hamiltonian(H, qs, ps) returns the equations dq/dt = dH/dp and dp/dt = -dH/dq, in the order of the coordinates followed by the momenta. Along every motion which follows the returned equations the value of H changes at the rate of its explicit dependence on the time only: it is constant if H does not contain the time. Lists of different or zero length, duplicate or reserved names, things which are not variables, and variables in H which are not in the lists are refused.", "quantifier": "all Hamiltonians, all lists of coordinates and momenta, all motions, all times", "why_tests_cant": "Conservation holds for every Hamiltonian and along every trajectory.", "anchors": ["src/hamiltonian.cpp: hamiltonian, hamiltonian_impl_sanity_checks"]}
{"id": "C41", "title": "The equations of Lagrange", "statement": "lagrangian(L, qs, qdots, D) returns, in the order of the coordinates followed by the velocities, equations such that along every motion which follows them each coordinate's derivative is its velocity and d/dt (dL/dqdot) = dL/dq - dD/dqdot for every coordinate. Where the mass matrix (the second derivatives of L with respect to the velocities) is positive definite the right-hand sides are defined and are the accelerations which solve the linear system. Lists of different or zero length, duplicate or reserved names, things which are not variables, variables of L outside of the lists and variables of D which are not velocities are refused.", "quantifier": "all Lagrangians, dissipation functions, lists of coordinates and velocities, all motions, all times", "why_tests_cant": "The elimination is symbolic and must be right for every number of coordinates and every Lagrangian.", "anchors": ["src/lagrangian.cpp: lagrangian, lagrangian_impl_sanity_checks, build_linmat, solve_linmat"]}
{"id": "C42", "title": "The elements of a batch are integrated independently", "statement": "step(), propagate_until() and propagate_for() of the batch integrator give each element of the batch the state, time, outcome, step count and smallest and largest timestep which the scalar integrator would give it, whatever the other elements do, as long as event callbacks act on their own element only. A propagation ends with all the elements at their final times, or when some element fails or is stopped by an event (the others are then where their own propagations would be after the same number of iterations), or with the limit on the number of steps, or when the step callback returns false (all the outcomes are then cb_stop). If every element would reach its final time alone, all of them do, with outcome time_limit. Elements which finish first are not disturbed by the others. Exceptions are thrown only for wrong arguments, in which case nothing changes, or if an element's own propagation would throw.", "quantifier": "all batch sizes, integrators, events, final times, maximal timesteps, limits on the number of steps, numbers of iterations", "why_tests_cant": "The interleavings of elements which finish, fail or stop at different iterations are unbounded.", "anchors": ["src/taylor_adaptive_batch.cpp: step_impl, step, step_backward, propagate_until_impl, propagate_for_impl"]}
{"id": "C43", "title": "The ready-made N-body problems obey Newton's law of gravitation and conserve their energy", "statement": "model::nbody() returns equations in which every body has the acceleration which Newton's law gives it: the sum, over the other bodies with a mass, of G m d / |d|^3. model::nbody_potential() and nbody_energy() are the gravitational and the total energy, and the energy is constant along every motion without collisions which follows the equations. model::np1body() is the same problem seen from the zeroth body: the relative motion of a motion of the N-body problem follows its equations, np1body_potential() and np1body_energy() are the energies in the frame of the centre of mass, and the energy is constant. Fewer than 2 bodies, or more masses than bodies, are rejected by all these functions.", "quantifier": "all numbers of bodies, gravitational constants, lists of masses (numbers, parameters or expressions, zero or not, shorter than the list of bodies or not), states without collisions, motions", "why_tests_cant": "The generated equations depend on the number of bodies, on which masses are given and on whether they are numbers (the code shares factors between pairs of bodies only then); tests compare a few systems with reference values.", "anchors": ["src/model/nbody.cpp: nbody_impl, nbody_potential_impl, nbody_energy_impl, np1body_impl, np1body_potential_impl, np1body_energy_impl"]}
{"id": "C44", "title": "The ready-made models of one particle have the equations and the conserved energy of the physical system", "statement": "model::fixed_centres() gives the particle the sum of the attractions of the given masses at the given places; model::rotating() the centrifugal and Coriolis accelerations of a frame with the given angular velocity (none if it is empty); model::mascon() the sum of both; model::cr3bp() the motion, in the rotating frame, of a particle attracted by masses 1 - mu and mu at (mu, 0, 0) and (mu - 1, 0, 0); model::pendulum() the angular acceleration -g/l sin(x). The corresponding potential and energy functions (cr3bp_jacobi() for cr3bp()) return the potential and the energy, and the energy is constant along every motion which follows the equations. Positions which are not three coordinates per mass, angular velocities with a number of components other than 0 and 3, and numbers mu outside (0, 1/2) are rejected.", "quantifier": "all constants, masses, positions, angular velocities, mass ratios, states away from the attracting masses, motions", "why_tests_cant": "The identities between the expressions and the physical laws must hold at every state, and the conservation along every trajectory; tests sample a few.", "anchors": ["src/model/fixed_centres.cpp: fixed_centres_impl, fixed_centres_potential_impl, fixed_centres_energy_impl", "src/model/rotating.cpp: rotating_impl, rotating_potential_impl, rotating_energy_impl", "src/model/mascon.cpp: mascon_impl, mascon_energy_impl, mascon_potential_impl", "src/model/cr3bp.cpp: cr3bp_impl, cr3bp_jacobi_impl", "src/model/pendulum.cpp: pendulum_impl, pendulum_energy_impl"]}
{"id": "C45", "title": "Earth orientation and space weather quantities are interpolated in the table they were built with", "statement": "eop_data and sw_data can be constructed exactly from the tables with at least two rows, finite values (non-negative for space weather) and strictly increasing dates, with a timestamp and an identifier which are not empty and contain no '.' or '-' and (for user data) an identifier without a reserved prefix. The quantities pm_x, pm_y, dX, dY, Ap_avg, f107, f107a_center81 computed by compiled code at a date are the linear interpolation between the two rows around the date, their derivatives the slope; at dates before the first row, at or after the last row, or NaN both are NaN; no memory outside of the table is read. In batch mode each date gets its scalar result. The Taylor coefficients of a quantity of a smooth function of the time are those of the composition. Whatever the sequence of quantities, data sets, types and batch sizes requested of a module, each is answered from its own data set and column, and the names of the quantities distinguish them.", "quantifier": "all tables, dates (also NaN and infinite), batch sizes, orders, histories of requests on a module", "why_tests_cant": "The bisection must be right for every size of the table and every date, and the names by which data and functions are shared must not collide for any identifiers and history; tests use a few tables and dates.", "anchors": ["src/eop_data.cpp: validate_eop_data_table, eop_data", "src/sw_data.cpp: validate_sw_data_table, sw_data", "src/detail/eop_sw_helpers.cpp: llvm_get_eop_sw_data, llvm_eop_sw_data_locate_date, eop_sw_check_ts_id, llvm_get_eop_sw_func", "src/detail/llvm_helpers_algo.cpp: llvm_upper_bound", "src/detail/eop_sw_impl.cpp: eop_sw_impl::taylor_diff, eop_sw_p_impl::taylor_diff", "src/model/eop.cpp", "src/model/sw.cpp"]}
{"id": "C46", "title": "Neural networks built from layer sizes compute the network", "statement": "model::ffnn succeeds exactly when there is one activation per layer and none is empty, there is at least one input and one output, no hidden layer is empty, and the number of weights and biases supplied is exactly the number which the layers need (fewer than 2^32); otherwise it throws, also when the sizes overflow 32 bits, and never reads outside of its arguments. The n_out expressions returned compute the feed-forward network: each layer applies its activation to the matrix of its weights times the previous layer plus its biases, with all weights first in the parameters, layer by layer and row by row, then all biases.", "quantifier": "all numbers of layers, sizes, inputs, activations, weights and biases, values", "why_tests_cant": "The bookkeeping of the two counters into a flat list of parameters and the overflow checks have to be right for every list of sizes; tests compare a handful of small networks.", "anchors": ["src/model/ffnn.cpp: compute_layer, ffnn_impl", "include/heyoka/model/ffnn.hpp"]}
{"id": "C47", "title": "Transformations of reference frames are the rotations they stand for", "statement": "rot_itrs_teme and rot_teme_itrs return the product of the elementary rotations by gmst82, pm_x and pm_y, preserve lengths and are inverse to each other. rot_itrs_icrs and rot_icrs_itrs return the products of the rotations by pm_y, pm_x, s', era, the corrected locator s and the matrix of precession and nutation with its series for a; going there and back changes a vector by at most r^6/8 + r^8/64 of its length, where r is the distance of the celestial pole from the z axis (never zero if r > 0: the two are not exact inverses), and the results are within 3/8 r^6 of the exact rotation of the IERS conventions. rot_fk5j2000_icrs and rot_icrs_fk5j2000 are within 10^-15 of the rotation by the published angles, and going there and back is wrong by at most 2 10^-16.", "quantifier": "all vectors, all values of the orientation parameters of the Earth", "why_tests_cant": "Tests compare a few vectors and dates; whether the matrices are rotations (and how far from rotations) is a statement about all angles.", "anchors": ["src/model/frame_transformations.cpp: rot_fk5j2000_icrs, rot_icrs_fk5j2000, rot_itrs_icrs_impl, rot_icrs_itrs_impl, rot_itrs_teme_impl, rot_teme_itrs_impl, build_rot_itrs_tirs, build_cirs_icrs_pn, build_rot_itrs_teme"]}
{"id": "C48", "title": "The Lagrange propagator solves the two-body problem", "statement": "If the energy of the initial state is negative and position and velocity are not aligned, the expressions returned by lagrange_prop for the initial state, the gravitational parameter and a time t are defined for every t, positive or negative and over any number of revolutions, and are the position and velocity at t of the solution of r'' = -mu r/|r|^3 which starts from the initial state: the initial state at t = 0, the velocity is the derivative of the position, the radius is never zero. Energy and angular momentum are those of the initial state.", "quantifier": "all elliptic initial states, gravitational parameters and times; arbitrary expressions as arguments", "why_tests_cant": "Tests compare a few random orbits with a numerical integration; that the closed formulas solve the differential equation is a statement about all orbits and times.", "anchors": ["src/model/lagrange_prop.cpp: lagrange_prop"]}
{"id": "C49", "title": "RSW frames: components along the axes of the moving frame, inverse transformations, true velocities", "statement": "For a reference state whose position and velocity are not aligned, there is exactly one right-handed orthonormal triad with the first axis along the position and the velocity in the half plane of the first two on the side of the second. state_to_rsw and state_to_rsw_inertial return the components along it of the relative position, and of the relative velocity minus the velocity of the rotating frame (the velocity, for the inertial variant). Transforming there and back, in both orders and for both variants, returns the state. If the reference state moves on a Keplerian orbit (or in any central field), the velocities returned by state_to_rsw and state_from_rsw are the time derivatives of the positions they return.", "quantifier": "all states, reference states and times; arbitrary expressions as arguments", "why_tests_cant": "Tests check a few random states; orthogonality, uniqueness and the derivative are statements about all states and motions.", "anchors": ["src/model/frame_transformations_rsw.cpp: to_rsw_rotation_matrix, rsw_keplerian_omega, state_to_rsw, state_to_rsw_inertial, state_from_rsw, state_from_rsw_inertial"]}
{"id": "C50", "title": "Geodetic coordinates: geo2cart is exact, cart2geo converges geometrically", "statement": "geo2cart and cart2geo throw exactly when the squared eccentricity is not finite or negative, the equatorial radius is not finite or not positive, or (cart2geo) the number of iterations is zero. For squared eccentricity e < 1 the result of geo2cart is the point at the given altitude along the outward normal of the ellipsoid whose direction is given by latitude and longitude. For e < 1/3 and every point not below the ellipsoid and not on its axis, cart2geo with n iterations is defined and returns the exact longitude in (-pi, pi], the latitude with an error of at most q^n e/(2(1-e)^2) and the altitude with an error of at most q^(n-1) (e/(1-e)^2 |z| + R_eq e^2/(4(1-e)^4)), where q = e/(1-2e): less than 1/140 for the Earth.", "quantifier": "all points, ellipsoids, numbers of iterations; arbitrary expressions as arguments", "why_tests_cant": "Tests compare a few points after a fixed number of iterations; that the iteration converges, how fast, and that it does so also next to the poles is a statement about all points and all n.", "anchors": ["src/model/cart2geo.cpp: common_cart2geo_checks, cart2geo_impl, geo2cart_impl", "include/heyoka/model/cart2geo.hpp"]}
{"id": "C51", "title": "Spherical harmonics gravity: layout of the coefficients, range of degrees and orders, values, acceleration = gradient of the potential", "statement": "The custom spherical harmonics models accept a list of coefficients exactly if its length is 1 + 2 + ... + (d + 1) for some degree d (and 8 length + 1 < 2^32); then positions in the list and pairs of a degree n <= d and an order m <= n correspond one to one by n (n + 1) / 2 + m. They throw exactly if the list is not of this kind, an order is given without a degree, the degree exceeds d or the order exceeds the degree. Otherwise the sums of potential and acceleration have one term for every pair of degree and order within the limits asked for, with the coefficients at the position of the pair and with the harmonics defined by the recursion (of the next degree for the acceleration): no lookup fails or reads outside the list. The integer square root used for this is exact for all 32-bit numbers. The value of the potential is mu / a times the sum of the fully normalised solid harmonics of the textbook with these coefficients, and the acceleration is the gradient of the potential at every point other than the origin, for every degree, order and list of coefficients.", "quantifier": "all lists of coefficients, all optional maximum degrees and orders, all points", "why_tests_cant": "Tests use a few short lists; that no length is wrongly accepted, no index is out of range and no entry of the table is missing is a statement about all lengths, degrees and orders.", "anchors": ["src/model/sh_gravity.cpp: isqrt, sh_gravity_cs_getter_from_list, sh_gravity_resolve_n_m, sh_gravity_impl_common_checks, sh_gravity_impl_make_rec_map, sh_gravity_pot_impl, sh_gravity_acc_impl", "include/heyoka/model/sh_gravity.hpp"]}
