# Formal model of heyoka in Rocq: design

Source under study: `/repo` (bluescarni/heyoka, C++).  It is read as text only.
Model and proofs: `/verif/rocq/theories` (logical name `Verif`), Coq 8.16.1.

## Method

* Code is modelled function by function as total Gallina functions; every
  definition cites the file and lines it models and says what is simplified.
* Model files (`M_*.v`) contain definitions only.  Proofs are in `P_*.v`.
  The theorems that the manifest lists are in `T_*.v`, stated with a small
  separate specification, closed by `exact`, followed by
  `Print Assumptions` and by a concrete non-trivial instance (`Example`).
* User code (steppers, callbacks, hash functions, functions) is universally
  quantified: sections are closed, so each theorem is stated for all of them.
* Exceptions are explicit outcomes (`option` / `result` types).
* Floating point: where rounding is the subject (double-length time, C20) the
  model uses Flocq's generic formats with rounding to nearest.  Everywhere
  else the model computes with exact reals or with an abstract ordered type,
  and the theorem's comment says so.
* If the code violates a natural property the model proves the violation as a
  `..._refuted` theorem with a concrete witness.

## Trusted base

* Coq's kernel (8.16.1) and `vm_compute` where used in examples.
* Axioms: only those of the standard library reals (`ClassicalDedekindReals.sig_forall_dec`,
  `ClassicalDedekindReals.sig_not_dec`, `FunctionalExtensionality.functional_extensionality_dep`)
  and classical logic (`Classical_Prop.classic`) as imported by Reals/Coquelicot/Flocq.
  Modules about data structures (caches, ordering, decomposition, loops) use none.
  The list per theorem is in section "Assumptions".
* The correspondence between the Gallina definitions and the C++ text is by
  reading; it is not machine checked.
* Not modelled: LLVM code generation and JIT, the C++ type system and memory
  model, floating-point rounding outside C20, SQLite internals
  (a transaction is atomic), the file system, downloading of data files,
  string formatting, the extended-precision number types, the big numerical tables.

## Plan per property

| id | model | proof |
|----|-------|-------|
| C01 | `sum`, `prod`, `pow`, operators on an expression type, real semantics | induction on operand lists |
| C02 | `subs`, `rename_variables`, recursion on expressions | structural induction |
| C03 | explicit-stack machine with pointer-keyed caches over expressions whose function nodes carry addresses | invariant of the machine: refinement to plain recursion |
| C04 | collection functions | induction |
| C05 | comparator, equality and hash on expressions with NaN-aware numbers | induction; lexicographic orders |
| C06 | `diff_impl` recursion and all gradients | chain rule with Coquelicot `is_derive` |
| C07 | M_Adj: `diff_decompose`, adjoint tables, dependency walks, forward and reverse accumulation, index bookkeeping, the loop over the orders | accumulation over triangular systems equals the chain rule for each output; a free algebra transports facts between an expression and its decomposition; induction on the order; totality by closure of 'all functions have gradients' under builders and gradients; regular points (S_Reg) are closed under everything the code builds, are open, have a chain rule and Schwarz's theorem (P_Reg1-P_Reg5), hence every entry equals the iterated derivative in any order and both modes agree at all orders (P_Reg6, T_Reg) |
| C08 | comparators, binary search, slices | lexicographic order lemmas, lower_bound correctness |
| C09 | `expression_decompose_impl` | invariant on the growing list |
| C10 | `taylor_decompose_cse` | invariant on renaming map |
| C11 | Kahn's algorithm as in `taylor_sort_dc` | worklist invariant; acyclicity by index order |
| C12 | `taylor_segment_dc`, interleavings of a segment | independence implies permutation invariance |
| C13 | the rewriting passes | induction |
| C14 | the recurrences as in the code | Leibniz rule on `Derive_n` / formal power series |
| C15 | the jet computation on a decomposition | induction on order and index; uniqueness of the recursion |
| C16 | the read sets of the recurrences | induction on schedule |
| C17 | both modes | equality of loops in exact arithmetic |
| C18 | `taylor_determine_h` | case analysis on reals extended with non-finite values |
| C19 | Horner / compensated evaluation | induction on order |
| C20 | dfloat.hpp | Flocq |
| C21-C24 | step / propagate loops over an abstract stepper | loop invariants, fuel-free inductive executions |
| C25 | `propagate_grid_impl` | invariant on emitted rows |
| C26-C27 | event delivery, cooldown | sorting lemmas, history invariants |
| C28 | root isolation over exact reals | Descartes' rule for 0 and 1 sign variations, bisection invariant |
| C29 | interval Horner, Bernstein coefficients | induction on order |
| C30 | LRU cache | invariant and refinement to an abstract map |
| C31 | disk cache as table + transactions | invariant over operation histories and crash points |
| C32 | blob codec | round trip by induction |
| C33 | M_Ctor: finalise_ctor of scalar and batch integrators, validate_ode_sys, setup_variational_ics | equivalence of success with an independent description of valid arguments, and description of the resulting data; loop invariants for the initial conditions |
| C34 | time search and polynomial selection | sortedness, upper_bound |
| C35 | parallel loop as arbitrary permutation of iterations | commutation |
| C36 | M_Var: arguments (enum, lists), checks, replacement of state variables by functions of the arguments, derivative tensors of C07, replacement of the derivatives by new variables; the automatic initial conditions are in M_Ctor | the derivatives of C07 are derivatives of the original right-hand sides along the flow; an invariant ('built') on what the tensors contain shows that every dfun() is replaced by a variable; names of the new variables are injective; induction on the order for the initial values |
| C37 | callback sets | induction on the list of callbacks |
| C38 | steppers with vectors as values, memories as arrays | lane projection is a homomorphism |
| C39 | M_Cfunc: make_cfunc in both modes, inlining into composite functions, name mangling, calls by segment, strided loads and stores, single_eval, multi_eval with threads | loop invariants for inlining and execution relate every u variable to its value; injectivity of the mangled names on template skeletons; disjointness of the stores; refinement to the values of the expressions |
| C40 | M_Mech: hamiltonian with its checks, on top of the tensors of M_Adj | the tensor theorems of C07 give the right-hand sides; the chain rule along a motion (P_Mech4, from the chain rule of P_Reg3) gives the rate of change of H, in which the products cancel in pairs; mean value theorem |
| C41 | M_Mech: lagrangian, build_linmat and solve_linmat (symbolic Gaussian elimination with row exchanges) | the elimination is proved to solve linear systems with nonsingular leading blocks (P_Mech1-3); the tensor theorems of C07 give the entries, and the chain rule along a motion gives d/dt (dL/dv), from which the equations follow; the time is treated as one more variable (P_Mech5) |
| C42 | M_Batch: step_impl with and without events, the loop of propagate_until, propagate_for, step callbacks of the batch integrator | every element of a step is the scalar step (P_Batch1, P_Batch2: the loop over the elements changes one element at a time); the propagation is simulated element by element by the scalar loop of M_Prop, elements at their final times being idle (P_Batch3), from which the results of whole runs (P_Batch4) |
| C43 | M_Model: nbody, np1body and their potentials and energies, with the lists of accelerations which the code fills pair by pair | an invariant of the loops over pairs says which interactions have been added to which body (P_Model1); the specification (S_Model) is Newton's law as a sum over bodies; conservation by differentiating the energy, with the antisymmetry of the interactions (P_Model3) |
| C44 | M_Model: fixed_centres, rotating, mascon, cr3bp, pendulum | the values of the expressions are compared with the specification of attractions and of inertial accelerations (P_Model4); one lemma on a particle in the field of fixed masses in a rotating frame gives all the conservation theorems |
| C45 | M_Eop: validation, bisection, interpolation, names, module with globals and functions looked up by name | invariant of the bisection over table indices with 32-bit wrap-around; invariant on the module: what is stored under a name is what the name says; injectivity of names; calculus with Coquelicot for the Taylor coefficients |
| C46 | M_Net: ffnn_impl with checked 32-bit counters and out-of-range reads as undefined behaviour | induction over the layers, the neurons and the inputs with the positions in the list of parameters; a separate definition of networks on real numbers |
| C47 | M_Frame: the six transformations as expressions of the orientation quantities | evaluation of the expressions to products of elementary rotations; algebra for the defect of the precession-nutation matrix; bounds on sine, cosine and pi (Machin) for the FK5 matrix |
| C48 | M_Kepler: lagrange_prop as expressions | the derivative of the exact root of Kepler's equation with respect to time; derivatives of the F and G functions; evaluation of the expressions |
| C49 | M_Rsw: the four transformations as expressions | evaluation to components along a triad; uniqueness of the triad; columns of an orthogonal matrix; derivatives of the axes in a central field |
| C50 | M_Geo: checks, geo2cart and the fixed-point iteration of cart2geo as expressions | evaluation; a separate definition of geodetic coordinates (normal to the ellipsoid); contraction of the iteration on z / tan(latitude) and induction over the iterations; mean value theorem for the angle |
| C51 | M_Sh: integer square root with wrapping arithmetic, list checks, index, degree and order, table and loops | invariant of the bisection; triangular numbers; invariants of both loops over the domain of the table; enumeration of the pairs; M_Sh2: values of the formulas; normalisation by induction, gradients of the columns by induction with two identities between neighbouring columns |

## What is modelled and what is not

Line ranges are in the comments of the definitions; this is the summary per source file.

| source | modelled in | left out |
|--------|-------------|----------|
| `src/expression_basic.cpp`, `src/expression_ops.cpp`, `src/func.cpp`, `src/number.cpp`, `src/variable.cpp`, `src/param.cpp` | M_Expr (trees), M_Dag (sharing, traversals), M_Cmp (==, <, hashes) | printing, serialisation, `func` type erasure (a function is an identifier and its arguments), dispatch over the number types (numbers are a record of operations) |
| `src/math/*.cpp`: builders, simplifications, gradients | M_Expr | — (`dayfrac`: not modelled) |
| `src/math/*.cpp`, `src/detail/{sub,div,sum_sq,num_identity}.cpp`: Taylor derivatives, both modes | M_Taylor | numerical accuracy; the generated code is modelled by the operations it performs, LLVM itself is not; cached auxiliary functions of the Kepler functions are values of an arbitrary solver |
| `src/expression_diff.cpp` | M_Expr (diff), M_Adj (tensors), M_Dtens | timing and logging; 32-bit casts of sizes |
| `src/dtens.cpp` | M_Dtens | printing, serialisation, const iterators |
| `src/expression_decompose.cpp`, `src/expression_cfunc.cpp` (decomposition part), `src/taylor_01.cpp` (decomposition part), `src/detail/{split,sincos_combine}*.cpp` | M_Dec | checks compiled in debug mode only |
| `src/cfunc_class.cpp`, `src/expression_cfunc.cpp` (compilation part), `src/detail/composite_function.cpp`, `src/detail/cm_utils.cpp` | M_Cfunc | machine code; tape alignment and cache; precision checks of mppp::real; high-accuracy mode; copy, printing, serialisation |
| `src/taylor_00.cpp`, `src/taylor_01.cpp`, `src/taylor_02.cpp` | M_Stepper, M_Taylor, M_Dec | names of LLVM functions, memory attributes, the parallel compact-mode driver is a schedule of the calls of a segment |
| `include/heyoka/detail/dfloat.hpp` | M_Float, M_Dfloat | — |
| `src/taylor_adaptive.cpp` | M_Ctor (constructor), M_Step (step), M_Prop (propagate), M_Stepper, M_Cout (make_c_out) | getters, copy/move, printing, serialisation, logging |
| `src/taylor_adaptive_batch.cpp` | M_Ctor (constructor), M_Batch (step, propagate_until, propagate_for; the compiled batch stepper is in M_Stepper) | propagate_grid of the batch integrator; the vectorised detection of events |
| `src/detail/event_detection.cpp`, `src/detail/llvm_helpers_ed.cpp` | M_Event, for batch size 1 | batch detection loop; the TOMS 748 root finder of Boost (any function that returns a zero of a polynomial with a sign change) |
| `src/continuous_output.cpp` | M_Cout, scalar | batch continuous output |
| `src/step_callback.cpp` | M_Prop | type erasure |
| `src/ensemble_propagate.cpp` | M_Ens | TBB (a transition system which allows every schedule) |
| `src/llvm_state_cache.cpp` | M_Blob, M_Cache | SQLite (atomic transactions), logging |
| `src/var_ode_sys.cpp`, `src/math/dfun.cpp`, `src/detail/setup_variational_ics.cpp`, `src/detail/validate_ode_sys.cpp` | M_Var, M_Ctor, M_Dag | `transform_dfun_sargs` (changes the sharing only) |
| `src/hamiltonian.cpp`, `src/lagrangian.cpp` | M_Mech | overflow checks on sizes |
| `src/model/{nbody,fixed_centres,rotating,mascon,cr3bp,pendulum}.cpp` | M_Model | overflow checks on sizes; NaN and infinite mu |
| `src/{eop,sw}_data.cpp`, `src/detail/eop_sw_{helpers,impl}.cpp`, `src/model/{eop,sw}.cpp`, `llvm_upper_bound` | M_Eop | downloading and parsing, builtin tables, ERFA (a given function), era and gmst82 (double-length), `mppp::real`, compact-mode Taylor functions |
| `src/model/ffnn.cpp` | M_Net | default parameters (the wrapper which fills in `par[i]`) |
| `src/model/frame_transformations.cpp` | M_Frame | the orientation quantities themselves (arbitrary expressions), rounding |
| `src/model/frame_transformations_rsw.cpp` | M_Rsw | rounding |
| `src/model/cart2geo.cpp` | M_Geo | the parsing of the keyword arguments, rounding |
| `src/model/sh_gravity.cpp` | M_Sh, M_Sh2 | the construction of the expressions (M_Sh2 has their values), rounding |
| `src/model/lagrange_prop.cpp` | M_Kepler | the numerical solution of Kepler's equation (the exact root), rounding |

Not modelled at all: `src/llvm_state.cpp`, `src/detail/llvm_helpers*.cpp` except where listed,
`src/detail/real_helpers.cpp`, `src/detail/http_download.cpp`, `src/s11n*`, `src/logging.cpp`,
`src/{eop,sw}_data_*.cpp`, and the other models (`src/model/{elp2000,vsop2013,egm2008,sgp4,
nrlmsise00_tn,jb08_tn,iau2006,dayfrac,eo_dynamics,
time_conversions}*`).

## Assumptions

What `Print Assumptions` lists for each theorem of the manifest (generated from the build output):

* No axioms (117 theorems): `batch_for_rejects`, `batch_for_until`, `batch_lanes_are_independent`, `batch_step_elementwise`, `batch_step_variants`, `batch_until_callbacks`, `batch_until_rejects`, `blob_accepts_iff`, `blob_injective`, `blob_match_iff`, `blob_roundtrip`, `cache_lookup_sound`, `cache_no_ub`, `callback_cannot_move_time`, `callback_set_exception`, `callback_set_prepares_all`, `callback_set_runs_all`, `cfunc_attributes`, `cfunc_compact_kept_names_refuted`, `cfunc_created`, `cfunc_eval_rejects`, `cfunc_fresh_names`, `cfunc_modes_agree`, `cfunc_multi_eval`, `cfunc_rejects`, `cfunc_single_eval`, `continuous_output_covers_propagation`, `continuous_output_rejects`, `copy_same`, `cse_signed_zero_refuted`, `decompositions_are_ready`, `dense_output_lanes_are_independent`, `dense_output_reproduces_state`, `diff_rejects_others`, `diff_succeeds`, `diff_tensors_rejects`, `diskcache_crash_atomic`, `diskcache_insert_lru`, `diskcache_insert_then_lookup`, `diskcache_size_exact`, `dtens_cmp_is_documented_order`, `dtens_get_derivatives_component`, `dtens_get_derivatives_order`, `dtens_hessian_upper_triangle`, `dtens_jacobian_row_major`, `dtens_lookup_dense`, `dtens_lookup_sparse`, `dtens_order_strict_total`, `dtens_shape`, `ensemble_ends`, `ensemble_is_deterministic`, `ensemble_result`, `ensemble_scalar_failures`, `ensemble_scalar_result`, `eop_batch_lookup`, `eop_expression_names`, `eop_lookup_interpolates`, `eop_lookup_safe`, `equal_expressions_equal_hashes`, `equality_is_equivalence`, `event_batch_lanes_are_independent`, `event_step_is_safe`, `function_cse_transparent`, `function_decomposition_correct`, `function_decomposition_rejects`, `function_sort_correct`, `get_param_size_exact`, `get_params_exact`, `get_variables_exact`, `grid_accepts_duplicates_refuted`, `hamiltonian_rejects`, `isqrt_exact`, `jet_reads_computed_values`, `lagrangian_rejects`, `memcache_hit_lru`, `memcache_insert_lru`, `memcache_insert_then_hit`, `memcache_size_exact`, `nbody_accepts`, `nbody_rejects`, `number_equality`, `order_is_strict_weak`, `outcome_decoding`, `outcomes_distinct`, `propagate_grid_terminates`, `propagate_until_complete`, `propagate_until_outcome`, `propagate_until_rejects`, `propagate_until_terminates`, `rename_is_subs`, `segments_any_order`, `segments_correct`, `sh_acc_exact`, `sh_layout`, `sh_pot_exact`, `sh_table`, `sharing_copy`, `sharing_diff`, `sharing_get_param_size`, `sharing_get_params`, `sharing_get_variables`, `sharing_hash`, `sharing_n_nodes`, `sharing_rename`, `sharing_subs`, `sharing_subs_map`, `sharing_test_any`, `sharing_transform`, `splat_grid_correct`, `splits_are_short`, `step_is_safe`, `taylor_cse_transparent`, `taylor_decomposition_correct`, `taylor_decomposition_kepler_refuted`, `taylor_decomposition_rejects`, `taylor_sort_correct`, `variational_rejects`.
* `functional_extensionality_dep`, `sig_forall_dec` (39 theorems): `batch_constructor_accepts`, `batch_constructor_total`, `batch_constructor_validates`, `batch_until_elementwise`, `batch_until_other`, `batch_until_succeeds`, `batch_until_times`, `constructor_accepts`, `constructor_total`, `constructor_validates`, `continuous_output_extrapolates`, `continuous_output_of_propagation`, `continuous_output_selects_step`, `cooldown_is_respected`, `dense_output_time`, `detected_times_in_step`, `detection_is_safe`, `eop_data_accepts`, `eop_piecewise_linear`, `eop_quantities`, `eop_requests_answered`, `event_time_exact`, `event_timestep_respects_bound`, `fast_exclusion_is_safe`, `propagate_for_ends_at_target`, `propagate_grid_complete`, `propagate_grid_rejects`, `propagate_grid_rows`, `propagate_until_accounting`, `propagate_until_callbacks`, `propagate_until_ends_at_target`, `step_events_delivery`, `step_outcome_truthful`, `sw_data_accepts`, `timestep_respects_bound`, `unbounded_step_no_time_limit`, `variational_initial_values`, `zeros_after_cooldown_are_detected_refuted`, `zeros_are_detected_without_proviso_refuted`.
* `functional_extensionality_dep`, `sig_forall_dec`, `sig_not_dec` (10 theorems): `compact_mode_agrees`, `dense_output_is_polynomial`, `detected_events_are_zeros`, `event_is_detected_after_cooldown`, `geodetic_point`, `rsw_frame_unique`, `sh_pot_value`, `step_modes_agree`, `zeros_are_detected`, `zeros_are_detected_once`.
* `classic`, `functional_extensionality_dep`, `sig_forall_dec`, `sig_not_dec` (101 theorems): `along_value`, `arithmetic_value`, `cart2geo_accuracy`, `cart2geo_throws`, `cfunc_reals`, `comparisons_are_numerical`, `cr3bp_conserved`, `cr3bp_energy`, `cr3bp_equations`, `cr3bp_motion`, `deduced_timestep`, `dekker_is_error_free`, `detection_ends`, `diff_absent_zero`, `diff_is_derivative`, `diff_tensors_correct`, `diff_tensors_first_order`, `diff_tensors_mixed`, `diff_tensors_modes_agree`, `diff_tensors_modes_agree_all`, `diff_tensors_total`, `double_length_error`, `eop_taylor_coefficients`, `event_deduced_timestep`, `ffnn_accepts`, `ffnn_values`, `fixed_centres_conserved`, `fixed_centres_energies`, `fixed_centres_equations`, `fk5_rotations`, `frames_values`, `function_decomposition_reals`, `function_value`, `geo2cart_values`, `hamiltonian_conserved`, `hamiltonian_energy`, `hamiltonian_equations`, `hamiltonian_total`, `icrs_close_to_iers`, `icrs_round_trip`, `icrs_round_trip_inexact`, `ieee_detected_times_in_step`, `ieee_event_timestep_respects_bound`, `ieee_timestep_respects_bound`, `is_time_dependent_sound`, `jet_is_taylor_expansion`, `kepler_conserves`, `kepler_frames`, `kepler_value`, `knuth_is_error_free`, `lagrange_prop_solves`, `lagrangian_accelerations`, `lagrangian_defined`, `lagrangian_equations`, `lagrangian_nonsingular_refuted`, `lagrangian_positive`, `lagrangian_total`, `mascon_conserved`, `mascon_energies`, `mascon_equations`, `models_guarded`, `nbody_conserved`, `nbody_energies`, `nbody_equations`, `np1body_conserved`, `np1body_energies`, `np1body_equations`, `np1body_relative`, `passes_preserve_values`, `pendulum_conserved`, `pendulum_energy_value`, `pendulum_equations`, `pow_to_explog_domain_refuted`, `pow_value`, `prod_value`, `rename_value`, `rotating_conserved`, `rotating_energies`, `rotating_equations`, `rsw_round_trips`, `rsw_velocities`, `set_dtime_is_finite_refuted`, `sh_acc_gradient`, `sqrt_value`, `step_follows_taylor_polynomial`, `subs_map_value`, `subs_value`, `sum_value`, `taylor_decomposition_reals`, `taylor_passes_preserve_values`, `taylor_pow_at_zero_refuted`, `taylor_recurrence`, `teme_rotations`, `time_error`, `time_is_normalised`, `to_rsw_values`, `value_depends_on_occurring`, `variational_correct`, `variational_first_order`, `variational_integrable`, `variational_total`.
