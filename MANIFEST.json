{"claims": [
 {"property": "C01", "status": "proved", "theorems": ["sum_value", "prod_value", "arithmetic_value", "pow_value", "sqrt_value", "function_value", "kepler_value"], "note": "Constant folding is exact in the model (rounding of folded constants is not modelled); values are real numbers with explicit domains."},
 {"property": "C02", "status": "proved", "theorems": ["subs_value", "rename_value", "rename_is_subs", "copy_same", "subs_map_value"], "note": "Both overloads of subs(); sharing is C03."},
 {"property": "C03", "status": "proved", "theorems": ["sharing_transform", "sharing_rename", "sharing_subs", "sharing_copy", "sharing_subs_map", "sharing_diff", "sharing_hash", "sharing_get_variables", "sharing_get_params", "sharing_get_param_size", "sharing_test_any", "sharing_n_nodes"], "note": "Explicit-stack traversals with address-keyed caches; the results are compared as trees (the addresses of the nodes created are not modelled)."},
 {"property": "C04", "status": "proved", "theorems": ["get_variables_exact", "get_params_exact", "get_param_size_exact", "value_depends_on_occurring", "is_time_dependent_sound"], "note": "Parameter indices are unbounded naturals (the checked 32-bit overflow is not modelled)."},
 {"property": "C05", "status": "proved", "theorems": ["equality_is_equivalence", "equal_expressions_equal_hashes", "order_is_strict_weak", "number_equality"], "note": "Function names, the hash of strings, of integers and of floating-point values are arbitrary (std::hash has to give equal hashes to equal values)."},
 {"property": "C06", "status": "proved", "theorems": ["diff_is_derivative", "diff_succeeds", "diff_rejects_others", "diff_absent_zero"], "note": "All elementary functions of the library, dfun and user-defined functions with a correct gradient; sharing is C03. At x = 0 the derivative of x**0 and of relu, at branch points of atan2 and at switching points of select/comparisons the function is not differentiable or the node is excluded by the smoothness condition."},
 {"property": "C07", "status": "proved", "theorems": ["diff_tensors_correct", "diff_tensors_first_order", "diff_tensors_modes_agree", "diff_tensors_total", "diff_tensors_rejects", "diff_tensors_mixed", "diff_tensors_modes_agree_all"], "note": "All orders, all expressions, both modes and any other choice between them. Real arithmetic (numbers meeting nlaws); gradients of user-defined functions assumed correct where the functions are differentiable, and their availability to depend on the function and the number of arguments only. The casts of sizes to 32-bit integers are not modelled; the order is assumed to fit. Entries of higher order are derivatives of entries of one order less; at regular points (S_Reg: inside the region where every function is infinitely differentiable; select, logical operators and user-defined functions left out there) the order of differentiation does not matter and the two modes agree at all orders. The parallel loops are modelled sequentially."},
 {"property": "C08", "status": "proved", "theorems": ["dtens_cmp_is_documented_order", "dtens_order_strict_total", "dtens_lookup_sparse", "dtens_lookup_dense", "dtens_shape", "dtens_get_derivatives_order", "dtens_get_derivatives_component", "dtens_jacobian_row_major", "dtens_hessian_upper_triangle"], "note": "comparator, flat-map binary search, dense/sparse lookup, range queries, Jacobian and Hessian layout, for complete tensors of any shape"},
 {"property": "C09", "status": "proved", "theorems": ["function_decomposition_correct", "function_decomposition_rejects", "function_decomposition_reals", "taylor_decomposition_correct", "taylor_decomposition_rejects", "taylor_decomposition_reals", "taylor_decomposition_kepler_refuted"], "note": "For every interpretation of numbers and functions in which == means equal meanings. kepE/kepF applied to the literal 1 are excluded, since the decomposition is then malformed (taylor_decomposition_kepler_refuted)."},
 {"property": "C10", "status": "proved", "theorems": ["function_cse_transparent", "taylor_cse_transparent", "cse_signed_zero_refuted"], "note": "Expressions which compare equal must have the same meaning; +0 and -0 compare equal, and cse_signed_zero_refuted shows that merging them changes atan2()."},
 {"property": "C11", "status": "proved", "theorems": ["function_sort_correct", "taylor_sort_correct"], "note": ""},
 {"property": "C12", "status": "proved", "theorems": ["segments_correct", "segments_any_order"], "note": "Workers are modelled at the granularity of loads of arguments and stores of results, interleaved arbitrarily within a segment; segments are separated by barriers."},
 {"property": "C13", "status": "proved", "theorems": ["passes_preserve_values", "splits_are_short", "taylor_passes_preserve_values", "pow_to_explog_domain_refuted"], "note": "pow_to_explog_domain_refuted: x**par[0] loses its value for a negative base, which is why positivity of such bases is required."},
 {"property": "C14", "status": "proved", "theorems": ["taylor_recurrence"], "note": "One theorem for all the functions with a Taylor derivative, in both modes, at every order; real arithmetic. The hypothesis 'regular' describes the domain of each recurrence (taylor_pow_at_zero_refuted shows a smooth function outside of it). Not covered: the eop/sw data functions, model functions such as dfun of user-defined functions, dayfrac-type functions."},
 {"property": "C15", "status": "proved", "theorems": ["jet_is_taylor_expansion", "taylor_pow_at_zero_refuted"], "note": "From the system of equations to the jet, through the decomposition, in both modes and for every execution of the compact mode. Hypotheses: all the elements are defined and regular along the solution. The refuted theorem shows that regularity is necessary: x^3 at x = 0 has no jet although it is smooth."},
 {"property": "C16", "status": "proved", "theorems": ["decompositions_are_ready", "jet_reads_computed_values", "step_is_safe", "event_step_is_safe"], "note": "The first theorem shows that the decomposition of every valid system made of supported functions meets the hypothesis of the second, which quantifies over every interpretation of the arithmetic, every schedule and every initial memory."},
 {"property": "C17", "status": "proved", "theorems": ["compact_mode_agrees", "step_modes_agree"], "note": "Real arithmetic; any interpretation of the functions; every compact-mode execution."},
 {"property": "C18", "status": "proved", "theorems": ["timestep_respects_bound", "event_timestep_respects_bound", "ieee_timestep_respects_bound", "ieee_event_timestep_respects_bound", "deduced_timestep", "event_deduced_timestep"], "note": "The bound theorems hold for any arithmetic with exact comparisons and signs (rounding, overflow, NaN included), and in particular for IEEE arithmetic (ieee_*: pow() and exp() are any functions whose results have no minus sign); the deduced step is compared with Jorba's formula in exact arithmetic with infinities."},
 {"property": "C19", "status": "proved", "theorems": ["dense_output_is_polynomial", "dense_output_reproduces_state", "dense_output_time", "step_follows_taylor_polynomial"], "note": "dense_output_reproduces_state holds bit for bit in any arithmetic; the others are in exact arithmetic."},
 {"property": "C20", "status": "proved", "theorems": ["knuth_is_error_free", "dekker_is_error_free", "time_is_normalised", "double_length_error", "time_error", "comparisons_are_numerical", "set_dtime_is_finite_refuted"], "note": "IEEE arithmetic (Flocq's binary_float), any precision of at least 4 bits and any exponent range, rounding to nearest even, gradual underflow included; absence of overflow is stated as finiteness of the result. The refuted theorem: set_dtime() accepts finite components whose sum overflows."},
 {"property": "C21", "status": "proved", "theorems": ["step_outcome_truthful", "unbounded_step_no_time_limit", "outcomes_distinct"], "note": "For every stepper whose timestep lies within the requested bound; times as in exact arithmetic (rounding of the double-length time is C20)."},
 {"property": "C22", "status": "proved", "theorems": ["propagate_until_ends_at_target", "propagate_until_outcome", "propagate_until_complete", "propagate_until_rejects", "propagate_for_ends_at_target"], "note": "Control flow for any arithmetic; the statements about times assume exact addition of times (C20 covers rounding)."},
 {"property": "C23", "status": "proved", "theorems": ["propagate_until_accounting", "propagate_until_terminates", "propagate_grid_rows", "propagate_grid_terminates"], "note": "The unsigned step counter is unbounded in the model."},
 {"property": "C24", "status": "proved", "theorems": ["propagate_until_callbacks", "propagate_until_complete", "callback_cannot_move_time"], "note": "Callbacks are arbitrary functions on the integrator and an environment, and may throw."},
 {"property": "C25", "status": "proved", "theorems": ["propagate_grid_rows", "propagate_grid_complete", "propagate_grid_terminates", "propagate_grid_rejects", "grid_accepts_duplicates_refuted"], "note": "Assumes callbacks that do not alter the last timestep or the Taylor coefficients (they may change state, parameters and environment), and exact addition of times. The documented requirement of strict monotonicity is not enforced for descending grids: grid_accepts_duplicates_refuted."},
 {"property": "C26", "status": "proved", "theorems": ["step_events_delivery", "event_time_exact", "outcome_decoding"], "note": "std::sort is any function returning a sorted permutation; detection itself is C28."},
 {"property": "C27", "status": "proved", "theorems": ["cooldown_is_respected", "event_is_detected_after_cooldown"], "note": "Exact arithmetic, any sequence of steps of the modelled step function with the modelled detector, callbacks that do not reset the cooldowns; deduced cooldowns are any finite non-negative values."},
 {"property": "C28", "status": "proved", "theorems": ["detected_events_are_zeros", "zeros_are_detected", "zeros_are_detected_once", "detection_is_safe", "detection_ends", "detected_times_in_step", "ieee_detected_times_in_step", "zeros_are_detected_without_proviso_refuted", "zeros_after_cooldown_are_detected_refuted"], "note": "Exact arithmetic; the root finder is any function that returns a zero of a polynomial with a sign change. The refuted theorems show that a zero at a point of bisection can hide other zeros or be reported twice. detected_times_in_step holds in any arithmetic with correct comparisons and discharges the hypothesis on the detector of C21-C26."},
 {"property": "C29", "status": "proved", "theorems": ["fast_exclusion_is_safe"], "note": "Exact arithmetic; both enclosures (interval Horner, Cargo-Shisha)."},
 {"property": "C30", "status": "proved", "theorems": ["cache_no_ub", "cache_lookup_sound", "memcache_size_exact", "memcache_insert_lru", "memcache_hit_lru", "memcache_insert_then_hit"], "note": "size_t overflow checks are not modelled."},
 {"property": "C31", "status": "proved", "theorems": ["cache_no_ub", "cache_lookup_sound", "diskcache_size_exact", "diskcache_crash_atomic", "diskcache_insert_lru", "diskcache_insert_then_lookup"], "note": "SQLite's transaction atomicity is trusted; I/O errors of SQLite are not modelled."},
 {"property": "C32", "status": "proved", "theorems": ["blob_roundtrip", "blob_match_iff", "blob_injective", "blob_accepts_iff"], "note": "Malformed blobs violate the reader's assertions and are modelled as undefined behaviour; on blobs written by the encoder this is unreachable."},
 {"property": "C33", "status": "proved", "theorems": ["constructor_validates", "constructor_accepts", "constructor_total", "batch_constructor_validates", "batch_constructor_accepts", "batch_constructor_total"], "note": "Scalar and batch integrators, plain and variational systems. A tolerance of zero stands for the default one. Decomposition and code generation, run by the constructor, are an arbitrary predicate here; the overflow checks on sizes and the precision of mppp::real are not modelled. The statement on the data includes the automatic initial conditions of variational systems (used in C36)."},
 {"property": "C34", "status": "proved", "theorems": ["continuous_output_selects_step", "continuous_output_extrapolates", "continuous_output_rejects", "continuous_output_covers_propagation", "continuous_output_of_propagation"], "note": "Scalar integrator. The first four hold in any arithmetic with exact comparisons (IEEE included); the last one (values of the polynomials, states at the boundaries of the steps) is in exact arithmetic."},
 {"property": "C35", "status": "proved", "theorems": ["ensemble_result", "ensemble_is_deterministic", "ensemble_ends", "ensemble_scalar_result", "ensemble_scalar_failures", "splat_grid_correct"], "note": "Every division of the range into chunks and every interleaving of their statements, exceptions and cancellation included. Generator and callbacks are functions of their arguments: iterations which communicate through shared memory are excluded. ensemble_scalar_result connects the three scalar functions with the model of the propagation; the propagation of batch integrators is an arbitrary function."},
 {"property": "C36", "status": "proved", "theorems": ["variational_correct", "variational_first_order", "along_value", "variational_total", "variational_rejects", "variational_integrable", "variational_initial_values"], "note": "All orders, all arguments (enum and lists), any choice between forward and reverse mode. Real arithmetic for the derivatives; derivative_of requires differentiability at the point, as in C07. The original right-hand sides contain no dfun(). The initial values of the derivatives are those of the constructors of the integrators (C33); with the initial time among the arguments only first derivatives are set automatically, as in the code."},
 {"property": "C37", "status": "proved", "theorems": ["callback_set_runs_all", "callback_set_prepares_all", "callback_set_exception"], "note": ""},
 {"property": "C38", "status": "proved", "theorems": ["batch_lanes_are_independent", "event_batch_lanes_are_independent", "dense_output_lanes_are_independent"], "note": "Any arithmetic, any interpretation of the functions, both modes."},
 {"property": "C39", "status": "proved", "theorems": ["cfunc_created", "cfunc_attributes", "cfunc_rejects", "cfunc_single_eval", "cfunc_multi_eval", "cfunc_eval_rejects", "cfunc_modes_agree", "cfunc_reals", "cfunc_fresh_names", "cfunc_compact_kept_names_refuted"], "note": "Any arithmetic; cfunc_reals relates it to the mathematical value of the original expressions. The llvm names of the functions must differ for different functions and algorithms in compact mode: true of newly created functions (cfunc_fresh_names), but not after a substitution of the arguments (cfunc_compact_kept_names_refuted: a product created as z*x keeps the name prod after z is replaced by -1, and the code of the first product is used for the second one). The arrays do not overlap. Machine code generation, tape alignment, integer ranges and mppp::real are not modelled."},
 {"property": "C40", "status": "proved", "theorems": ["hamiltonian_rejects", "hamiltonian_total", "hamiltonian_equations", "hamiltonian_energy", "hamiltonian_conserved"], "note": "All Hamiltonians, numbers of coordinates and choices between forward and reverse mode. Real arithmetic. The equations are right wherever the Hamiltonian is differentiable (smooth, as in C06); conservation is proved at the regular points of C07 (S_Reg), which leave out select(), the logical operators and user-defined functions. Motions are arbitrary: the existence of a solution is not claimed."},
 {"property": "C41", "status": "proved", "theorems": ["lagrangian_rejects", "lagrangian_total", "lagrangian_defined", "lagrangian_accelerations", "lagrangian_equations", "lagrangian_positive", "lagrangian_nonsingular_refuted"], "note": "All Lagrangians, dissipation functions, numbers of coordinates and choices between forward and reverse mode. Real arithmetic, at the regular points of C07 (S_Reg), which leave out select(), the logical operators and user-defined functions. The leading blocks of the mass matrix must not be singular, which holds if it is positive definite (lagrangian_positive). lagrangian_nonsingular_refuted: a mass matrix which is only nonsingular does not suffice, since rows are exchanged only for entries which are zero as expressions. Motions are arbitrary: the existence of a solution is not claimed."},
 {"property": "C42", "status": "proved", "theorems": ["batch_step_elementwise", "batch_step_variants", "batch_until_elementwise", "batch_until_succeeds", "batch_until_other", "batch_until_times", "batch_until_rejects", "batch_until_callbacks", "batch_for_until", "batch_for_rejects"], "note": "Any arithmetic (batch_until_times: exact arithmetic), any batch size, any number of iterations. The compiled stepper and the detection of events are functions on one element (T_Stepper proves this of the compiled stepper). Two hypotheses are met by the code: the callbacks of the events of an element act on that element (local_callbacks; the API allows others) and steps of zero length do nothing (calm), on which the code relies for the elements which finish first; X_Batch proves both for a concrete integrator with events. The last timestep and the Taylor coefficients of an element which has finished first are those of its zero-length steps (S_Batch.like). propagate_until with a step callback is covered by batch_until_callbacks only. The contents of the batch continuous output and propagate_grid of the batch integrator are not covered."},
 {"property": "C43", "status": "proved", "theorems": ["nbody_accepts", "nbody_rejects", "nbody_equations", "nbody_energies", "nbody_conserved", "np1body_equations", "np1body_relative", "np1body_energies", "np1body_conserved"], "note": "Any number of bodies and any masses. Real arithmetic; the equations are evaluated at states without collisions between a body and one with a mass (np1body: nor with the zeroth body), and G and the masses are constant along the motion for the conservation. np1body_conserved: the total mass is not zero, or no masses are given. Motions are arbitrary: the existence of a solution is not claimed."},
 {"property": "C44", "status": "proved", "theorems": ["models_guarded", "fixed_centres_equations", "fixed_centres_energies", "fixed_centres_conserved", "rotating_equations", "rotating_energies", "rotating_conserved", "mascon_equations", "mascon_energies", "mascon_conserved", "cr3bp_equations", "cr3bp_motion", "cr3bp_energy", "cr3bp_conserved", "pendulum_equations", "pendulum_energy_value", "pendulum_conserved"], "note": "Any number of masses, at any places. Real arithmetic (infinite and NaN values of mu are not modelled); the state is not at the place of a mass, the parameters are constant along the motion, and the length of the pendulum is not 0."},
 {"property": "C45", "status": "proved", "theorems": ["eop_data_accepts", "sw_data_accepts", "eop_lookup_safe", "eop_lookup_interpolates", "eop_batch_lookup", "eop_piecewise_linear", "eop_taylor_coefficients", "eop_expression_names", "eop_requests_answered", "eop_quantities"], "note": "Any arithmetic with ordered numbers and propagating NaN (proved of every IEEE format); exact reals for eop_piecewise_linear and eop_taylor_coefficients, inside an interval. The conversion UTC-TT of the dates (ERFA) is a given function which may fail and, in eop_quantities, is monotonic; the creation of constants is monotonic. Data sets of the same kind, size, timestamp and identifier hold the same table (the code uses these to identify the data). Not modelled: downloading and parsing, builtin tables, era and gmst82 (double-length interpolation)."},
 {"property": "C46", "status": "proved", "theorems": ["ffnn_accepts", "ffnn_values"], "note": "Any number of layers and sizes. Activations are arbitrary functions on expressions which act as real functions on the values; real arithmetic for the values."},
 {"property": "C47", "status": "proved", "theorems": ["frames_values", "teme_rotations", "icrs_round_trip", "icrs_round_trip_inexact", "icrs_close_to_iers", "fk5_rotations"], "note": "Real arithmetic. The orientation parameters (polar motion, Earth rotation angle, sidereal time, pole, locator) are arbitrary expressions, so nothing is said about the theory of precession and nutation or the tables. The constant 47 10^-6 and the matrix of FK5 are decimal literals without rounding."},
 {"property": "C48", "status": "proved", "theorems": ["lagrange_prop_solves", "kepler_conserves"], "note": "Real arithmetic. kepDE is the exact root of Kepler's equation in the eccentric anomaly difference (the numerical solver is not part of the model). Hyperbolic, parabolic and radial orbits are outside of the domain of the formulas and of the theorem."},
 {"property": "C49", "status": "proved", "theorems": ["rsw_frame_unique", "to_rsw_values", "rsw_round_trips", "rsw_velocities", "kepler_frames"], "note": "Real arithmetic. Aligned position and velocity (where the code divides by zero) are excluded."},
 {"property": "C50", "status": "proved", "theorems": ["geo2cart_values", "geodetic_point", "cart2geo_throws", "cart2geo_accuracy"], "note": "Real arithmetic. The points of the axis (where the code divides by zero), points below the ellipsoid and e >= 1/3 are outside of the domain of the convergence theorem; the code accepts them."},
 {"property": "C51", "status": "proved", "theorems": ["isqrt_exact", "sh_layout", "sh_table", "sh_pot_exact", "sh_acc_exact", "sh_pot_value", "sh_acc_gradient"], "note": "sh_table, sh_pot_exact and sh_acc_exact hold for any formulas of the recursion (parameters); sh_pot_value and sh_acc_gradient are about the formulas of the code, in real arithmetic (the code computes the factors in double precision)."}
]}
