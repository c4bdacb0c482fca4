{
 "claims": [
  {
   "property": "C01",
   "status": "proved",
   "theorems": [
    "C01_update_clamps"
   ],
   "note": ""
  },
  {
   "property": "C02",
   "status": "proved",
   "theorems": [
    "C02_update_preserves",
    "C02_update_idempotent",
    "C02_presets_verbatim"
   ],
   "note": ""
  },
  {
   "property": "C03",
   "status": "proved",
   "theorems": [
    "C03_update_never_throws"
   ],
   "note": ""
  },
  {
   "property": "C04",
   "status": "partial",
   "theorems": [
    "C04_nan_survives",
    "C04_nan_rejected_refuted"
   ],
   "note": "REFUTED: a NaN option passes through UpdateOptions unchanged."
  },
  {
   "property": "C05",
   "status": "proved",
   "theorems": [
    "C05_clamp_exception",
    "C05_no_clamp_exception",
    "C05_accepted_options_throw_refuted",
    "C05_ordered_tolerances_throw_refuted"
   ],
   "note": "exact guard proved; the unguarded claim is refuted by two runs."
  },
  {
   "property": "C06",
   "status": "proved",
   "theorems": [
    "C06_iteration_limits",
    "C06_budget_before_each_step"
   ],
   "note": ""
  },
  {
   "property": "C07",
   "status": "proved",
   "theorems": [
    "C07_exit_flags"
   ],
   "note": ""
  },
  {
   "property": "C08",
   "status": "proved",
   "theorems": [
    "C08_success_residual"
   ],
   "note": ""
  },
  {
   "property": "C09",
   "status": "partial",
   "theorems": [
    "C09_success_tolerance_refuted",
    "C08_success_residual",
    "C29_success_tolerance",
    "C54_stalled_success"
   ],
   "note": "REFUTED: stall_tol >= sqrt(nz+nl+nv) gives SUCCESS at once; C08 and C29_success_tolerance are the statements that hold, and C54 bounds the residual of a stalled SUCCESS."
  },
  {
   "property": "C10",
   "status": "partial",
   "theorems": [
    "C10_maxiter_residual",
    "C10_maxiter_residual_refuted"
   ],
   "note": "REFUTED on the proximal-limit exit, proved on the Newton-limit exit."
  },
  {
   "property": "C11",
   "status": "proved",
   "theorems": [
    "C11_certificate"
   ],
   "note": ""
  },
  {
   "property": "C12",
   "status": "proved",
   "theorems": [
    "C12_dense_exception_safety",
    "C12_mpc_exception_safety"
   ],
   "note": ""
  },
  {
   "property": "C13",
   "status": "proved",
   "theorems": [
    "C13_mpc_history_independence",
    "C13_dense_history_no_check",
    "C13_dense_history_exact"
   ],
   "note": ""
  },
  {
   "property": "C14",
   "status": "partial",
   "theorems": [
    "C14_uninitialised_memory_refuted",
    "C14_history_refuted",
    "C14_finite_history",
    "C14_finite_memory",
    "C14_doubles_finite_history",
    "C14_doubles_finite_memory",
    "C14_work_vectors_finite",
    "C14_calm_finite",
    "C14_calm_history",
    "C13_dense_history_no_check"
   ],
   "note": "REFUTED: 0.0 * NaN workspace. Proved on doubles (any factorisation) whenever the three work vectors of the feasibility check hold finite numbers, and always with check_feasibility off. The work vectors stay finite over any history whose checks had finite data and wrote numbers below 2^1022 (calm; C14_calm_finite), so two such histories with the same options give the same answers (C14_calm_history). C14_example, C14_calm_example meet the hypotheses."
  },
  {
   "property": "C15",
   "status": "proved",
   "theorems": [
    "C15_output_margin",
    "C13_mpc_history_independence",
    "C13_dense_history_exact"
   ],
   "note": "output: C15_output_margin; input y ignored: the history theorems, whose two calls may have different y."
  },
  {
   "property": "C16",
   "status": "proved",
   "theorems": [
    "C16_off_silent",
    "C16_final_summary",
    "C16_iter_lines",
    "C16_printed_lines",
    "C13_mpc_history_independence",
    "C13_dense_history_exact",
    "C13_dense_history_no_check"
   ],
   "note": ""
  },
  {
   "property": "C17",
   "status": "proved",
   "theorems": [
    "C17_dense_ctor",
    "C17_dense_size_validation"
   ],
   "note": ""
  },
  {
   "property": "C18",
   "status": "partial",
   "theorems": [
    "C18_wrong_y_rejected_refuted",
    "C18_dense_mapped_y",
    "C18_dense_y_ignored",
    "C20_dense_no_ub",
    "C17_dense_size_validation"
   ],
   "note": "REFUTED: undefined behaviour with mapped variables. C18_dense_mapped_y says exactly when: a mapped y of the wrong size is written out of bounds by every call that would have returned normally, and makes no difference to a call that throws. C18_dense_y_ignored: with owned variables, or a mapped y of the right size, the value y has on entry (and, if owned, its length) changes nothing, and on return it has nv entries. C20_dense_no_ub: no undefined behaviour in those cases."
  },
  {
   "property": "C19",
   "status": "partial",
   "theorems": [
    "C19_mpc_ctor",
    "C19_mpc_size_validation",
    "C19_columns_rejected_refuted"
   ],
   "note": "REFUTED for the column counts of q,r,c,d; everything else proved."
  },
  {
   "property": "C20",
   "status": "proved",
   "theorems": [
    "C20_dense_no_ub",
    "C20_mpc_no_ub"
   ],
   "note": ""
  },
  {
   "property": "C21",
   "status": "proved",
   "theorems": [
    "C21_addresses_distinct",
    "C21_owned_entry",
    "C21_view_entry",
    "C21_index_check",
    "C21_write",
    "C21_owned_ctor",
    "C21_view_ctor"
   ],
   "note": ""
  },
  {
   "property": "C22",
   "status": "proved",
   "theorems": [
    "C22_view_entries",
    "C22_owned_mapped"
   ],
   "note": ""
  },
  {
   "property": "C23",
   "status": "proved",
   "theorems": [
    "C23_mpc_products"
   ],
   "note": ""
  },
  {
   "property": "C24",
   "status": "partial",
   "theorems": [
    "C24_gemvGT_exact",
    "C24_gemvGT_any_scaling_refuted"
   ],
   "note": "REFUTED for scalings other than 1, -1, 0; exact formula of what gemvGT computes proved."
  },
  {
   "property": "C25",
   "status": "proved",
   "theorems": [
    "C25_every_z_is_a_trajectory",
    "C25_feasible_iff_trajectory",
    "C25_objective_is_cost",
    "C25_convex",
    "C25_convex_iff",
    "C25_minimiser_iff_optimal"
   ],
   "note": ""
  },
  {
   "property": "C26",
   "status": "proved",
   "theorems": [
    "C26_dense_forcing_norm",
    "C26_mpc_forcing_norm"
   ],
   "note": ""
  },
  {
   "property": "C27",
   "status": "proved",
   "theorems": [
    "C27_pfb_zero_iff",
    "C27_zero_residual_iff_kkt",
    "C27_zero_natural_residual_iff_kkt"
   ],
   "note": ""
  },
  {
   "property": "C28",
   "status": "proved",
   "theorems": [
    "C28_kkt_minimiser",
    "C28_zero_residual_optimal",
    "C28_zero_residual_global_optimum"
   ],
   "note": ""
  },
  {
   "property": "C29",
   "status": "proved",
   "theorems": [
    "C29_approximate_kkt",
    "C29_objective_gap",
    "C29_solve_bounds",
    "C29_solve_objective",
    "C29_success_tolerance"
   ],
   "note": ""
  },
  {
   "property": "C30",
   "status": "proved",
   "theorems": [
    "C30_zero_sub_residual_iff_proximal",
    "C30_proximal_unique"
   ],
   "note": ""
  },
  {
   "property": "C31",
   "status": "proved",
   "theorems": [
    "C31_C32_test_exact",
    "C31_certificate_bound",
    "C31_certificate_sound",
    "C31_exact_certificate",
    "C31_solve_primal_infeasible",
    "C31_sign_needed_refuted"
   ],
   "note": "with v >= 0; C31_certificate_bound covers any sign; without it the claim is refuted."
  },
  {
   "property": "C32",
   "status": "proved",
   "theorems": [
    "C31_C32_test_exact",
    "C32_certificate_sound",
    "C32_ray_descent",
    "C32_exact_ray",
    "C32_solve_dual_infeasible"
   ],
   "note": ""
  },
  {
   "property": "C39",
   "status": "proved",
   "theorems": [
    "C39_warm_start",
    "C39_reversed_tolerances",
    "C39_converged_guess"
   ],
   "note": "for inner_tol_min <= inner_tol_max; otherwise every Solve throws (C39_reversed_tolerances)."
  },
  {
   "property": "C33",
   "status": "proved",
   "theorems": [
    "C33_weight_pair",
    "C33_weights",
    "C33_gradient"
   ],
   "note": "exact arithmetic; C33_gradient adds that the weights are the partial derivatives of the residual function wherever it is differentiable and outside the 1e-13 ball."
  },
  {
   "property": "C34",
   "status": "proved",
   "theorems": [
    "C34_dense_newton_step",
    "C34_convex_init",
    "C34_convex_step",
    "C34_newton_unique"
   ],
   "note": "exact arithmetic; Eigen LDLT enters through the laws of LALaws.v, satisfied by the textbook factorisation (inst_laws)."
  },
  {
   "property": "C35",
   "status": "proved",
   "theorems": [
    "C35_ready",
    "C35_riccati_newton_step",
    "C35_convex_init",
    "C35_convex_step"
   ],
   "note": "exact arithmetic; Eigen LLT and triangular solves enter through LALaws.v, satisfied by the textbook algorithms (inst_laws)."
  },
  {
   "property": "C36",
   "status": "proved",
   "theorems": [
    "C36_convex_never_throws",
    "C36_by_options",
    "C36_presets"
   ],
   "note": "exact arithmetic, for inner_tol_min <= inner_tol_max and inner_tol_min <= the convergence tolerance (which is >= abs_tol)."
  },
  {
   "property": "C40",
   "status": "proved",
   "theorems": [
    "C40_same_result",
    "C40_mpc_is_dense"
   ],
   "note": "exact arithmetic; C40_same_result also covers two different exact linear algebras and two histories."
  },
  {
   "property": "C50",
   "status": "proved",
   "theorems": [
    "C50_newton_descent"
   ],
   "note": "exact arithmetic, at iterates whose complementarity pairs are zero or at least 1e-13 from the origin (inside that ball the code replaces the derivative by a fixed vector, so nothing is claimed)."
  },
  {
   "property": "C37",
   "status": "proved",
   "theorems": [
    "C37_line_search"
   ],
   "note": ""
  },
  {
   "property": "C38",
   "status": "proved",
   "theorems": [
    "C38_duals_nonnegative"
   ],
   "note": ""
  },
  {
   "property": "C41",
   "status": "proved",
   "theorems": [
    "C41_tolerance_schedule",
    "C41_previous_tolerance"
   ],
   "note": ""
  },
  {
   "property": "C42",
   "status": "partial",
   "theorems": [
    "C42_large_bounds_refuted",
    "C63_doubles_tolerance",
    "C63_doubles_certificate",
    "C29_success_tolerance"
   ],
   "note": "REFUTED: b = 1e200 makes the tolerance infinite. True on doubles whenever the tolerance is finite (C63_doubles_tolerance with C63_doubles_certificate) and in exact arithmetic (C29_success_tolerance)."
  },
  {
   "property": "C43",
   "status": "partial",
   "theorems": [
    "C43_false_infeasibility_refuted",
    "C31_solve_primal_infeasible",
    "C31_certificate_sound"
   ],
   "note": "REFUTED: warm-started feasible QP reported PRIMAL_INFEASIBLE with infeas_tol = 1e-3; C31_solve_primal_infeasible says how far every feasible point must then be."
  },
  {
   "property": "C44",
   "status": "proved",
   "theorems": [
    "C44_initial_residual"
   ],
   "note": ""
  },
  {
   "property": "C45",
   "status": "partial",
   "theorems": [
    "C45_newton_limit_choice",
    "C45_better_point_partial",
    "C45_better_point_refuted"
   ],
   "note": "REFUTED: the returned point can be worse than the guess."
  },
  {
   "property": "C46",
   "status": "partial",
   "theorems": [
    "C46_component_ctors",
    "C46_new_objects",
    "C46_unlinked_throws",
    "C46_dense_initialize",
    "C46_dense_solve_sizes",
    "C46_riccati_initialize",
    "C46_riccati_solve",
    "C46_mpc_products_check_sizes",
    "C46_copy",
    "C46_inner_residual_sigma_refuted",
    "C46_residual_sizes_refuted",
    "C46_feasibility_sizes_refuted",
    "C46_dense_solve_unlinked_refuted",
    "C46_null_arguments_refuted"
   ],
   "note": "REFUTED for the five listed situations, proved for the others."
  },
  {
   "property": "C47",
   "status": "proved",
   "theorems": [
    "C47_printed_tolerance",
    "C08_success_residual"
   ],
   "note": ""
  },
  {
   "property": "C48",
   "status": "proved",
   "theorems": [
    "C48_solve_exceptions"
   ],
   "note": ""
  },
  {
   "property": "C49",
   "status": "proved",
   "theorems": [
    "C49_struct_defaults"
   ],
   "note": ""
  },
  {
   "property": "C51",
   "status": "proved",
   "theorems": [
    "C51_run_shape",
    "C51_run_grammar",
    "C51_newton_steps"
   ],
   "note": ""
  },
  {
   "property": "C52",
   "status": "proved",
   "theorems": [
    "C52_proximal_step",
    "C52_iterates_bounded",
    "C52_error_budget"
   ],
   "note": "Exact arithmetic. The constants are explicit in ProxSpec.v."
  },
  {
   "property": "C53",
   "status": "proved",
   "theorems": [
    "C53_square_summable",
    "C53_prox_limit"
   ],
   "note": "Exact arithmetic."
  },
  {
   "property": "C54",
   "status": "proved",
   "theorems": [
    "C54_stalled_success"
   ],
   "note": "Exact arithmetic."
  },
  {
   "property": "C55",
   "status": "proved",
   "theorems": [
    "C55_inner_progress"
   ],
   "note": "Exact arithmetic."
  },
  {
   "property": "C56",
   "status": "proved",
   "theorems": [
    "C56_step_residual",
    "C56_subproblems"
   ],
   "note": "Exact arithmetic. The constants are explicit in ProxSpec.v and PropsConverge.v."
  },
  {
   "property": "C57",
   "status": "proved",
   "theorems": [
    "C57_convergence"
   ],
   "note": "Exact arithmetic. That the line searches succeed and the limits leave room are hypotheses; the bounds are explicit."
  },
  {
   "property": "C58",
   "status": "proved",
   "theorems": [
    "C58_line_searches_succeed",
    "C58_convergence"
   ],
   "note": "Exact arithmetic. Sizes of the limits are explicit in PropsLineSearch.v and PropsConverge.v; accuracy of the dense factorisations is the LALaws assumption; witness_convergence (WitnessConverge.v) meets every hypothesis with limits in the range of int."
  },
  {
   "property": "C59",
   "status": "proved",
   "theorems": [
    "C59_bad_horizon",
    "C59_no_problem",
    "C59_generated",
    "C59_simulation",
    "C59_accepted",
    "C59_constructible",
    "C59_convex_feasible",
    "C59_double_integrator",
    "C59_servo_motor",
    "C59_spacecraft",
    "C59_copolymerization",
    "C59_outputs",
    "C59_solve_returns",
    "C59_default_run"
   ],
   "note": "Any arithmetic for the data and acceptance theorems; convexity, feasibility and C59_solve_returns in exact arithmetic under LALaws. pow(a,3) is modelled as a*a*a; sin is arbitrary. horizon_fits_all: every horizon up to five million meets the hypotheses."
  },
  {
   "property": "C60",
   "status": "proved",
   "theorems": [
    "C60_event_complete",
    "C60_iter_table",
    "C60_text_complete",
    "C60_table_aligned"
   ],
   "note": "The conversions %d, %e, %f of snprintf are modelled for binary64 in Text.v; C60_witness is the complete text of a run."
  },
  {
   "property": "C61",
   "status": "proved",
   "theorems": [
    "C61_dense_memory",
    "C61_mpc_memory",
    "C61_dense_apart",
    "C61_mpc_apart",
    "C61_dense_written",
    "C61_mpc_written",
    "C61_fill",
    "C61_guess_windows",
    "C61_dense_windows",
    "C61_mpc_windows",
    "C61_windows_valid",
    "C61_posed_residual_refuted"
   ],
   "note": "The dense theorems assume the y window has the solver's size (C18); the MPC ones the int guard of C19. C61_posed_residual_refuted is a run on doubles showing the exception at the Newton limit is real. WitnessShared.v has calls meeting the hypotheses."
  },
  {
   "property": "C62",
   "status": "proved",
   "theorems": [
    "C62_dense_variable",
    "C62_dense_ready",
    "C62_mpc_variable",
    "C62_mpc_ready",
    "C62_unset_data",
    "C62_ref_of_parts",
    "C62_dense_ref_parts",
    "C62_vector_sizes",
    "C62_vector_integers",
    "C62_vector_undefined",
    "C62_default_view"
   ],
   "note": "C62_round_example and C62_ready_example (PropsStorage.v) meet the hypotheses. C62_dense_ref_parts: the dense ProblemDataRef and VariableRef constructors put each map in its place (windows of caller memory, Shared.v, C61); the windows of WitnessShared.v meet its hypotheses."
  },
  {
   "property": "C63",
   "status": "proved",
   "theorems": [
    "C63_success_certificate",
    "C63_maxiter_certificate",
    "C63_finite_tolerance",
    "C63_doubles_certificate",
    "C63_doubles_maxiter",
    "C63_doubles_tolerance"
   ],
   "note": "ex_dense_B and ex_mpc_B (WitnessFloat.v) are runs on doubles meeting the hypotheses. Brounded (BinOps.v) proves that IEEE binary64 obeys the rounding laws of Rounding.v."
  },
  {
   "property": "C64",
   "status": "proved",
   "theorems": [
    "C64_slack_drift",
    "C64_violation",
    "C64_doubles_drift",
    "C64_doubles_violation",
    "C64_doubles_step_length",
    "C64_doubles_drift_iters",
    "C64_success_feasible_refuted"
   ],
   "note": "ex_dense_B and ex_mpc_B (WitnessFloat.v) meet the hypotheses; C64_success_feasible_refuted shows that the drift term cannot be dropped. C64_doubles_drift_iters (PropsDrift.v) gives the bound in the reported number of Newton iterations; C64_size_bound: every run has such an M."
  },
  {
   "property": "C65",
   "status": "proved",
   "theorems": [
    "C65_text",
    "C65_summary"
   ],
   "note": "C65_witness meets the hypotheses; the reader (words, read_int, read_num) is a separate specification in PropsRead.v. printf conversions are modelled in Text.v; that the printed values are doubles (valid binary64) is a hypothesis because the model type spec_float has junk values."
  },
  {
   "property": "C66",
   "status": "proved",
   "theorems": [
    "C66_dense_stream",
    "C66_mpc_stream",
    "C66_dense_stream_memory",
    "C66_mpc_stream_memory",
    "C66_dense_messages",
    "C66_mpc_messages",
    "C66_dense_messages_memory",
    "C66_mpc_messages_memory",
    "C66_unchanged_refuted"
   ],
   "note": "C66_dense_example and C66_mpc_example (WitnessStream.v) are calls cut short. C66_unchanged_refuted shows that the exception for the Newton-limit summary is needed: variables changed although Solve threw. The *_stream theorems work per event (a line or a block of lines) over any scalars; the *_messages theorems (PropsMessages.v, doubles) work per Print call, with the text of Text.v, so the stream may throw between two lines of one block; C66_messages_example does that. Reachable histories (dense_reach, mpc_reach in Api.v) include calls with such streams, so every other theorem holds after them."
  },
  {
   "property": "C67",
   "status": "proved",
   "theorems": [
    "C67_value_semantics",
    "C67_no_leak",
    "C67_independent",
    "C67_copy",
    "C67_move",
    "C67_view",
    "C67_dangling",
    "C67_index_defined_refuted"
   ],
   "note": "C67_example and C67_solve_moved_from (WitnessHeap.v) are concrete programs. The specification machine (vexec, no pointers) is at the top of PropsHeap.v. C67_index_defined_refuted: a moved-from sequence still reports its length but indexing it is undefined behaviour; passed to Solve it passes the size checks and the solve throws when it indexes the null view. Self-move-assignment is left out. Freed buffers are not reused by the model (reading one is undefined behaviour either way)."
  },
  {
   "property": "C68",
   "status": "proved",
   "theorems": [
    "C68_objective",
    "C68_distance",
    "C68_doubles_objective",
    "C68_doubles_distance"
   ],
   "note": "C68_example (WitnessGap.v) is a run on doubles of a convex problem whose exact solution is known. known_residual names the two exits covered: SUCCESS and the Newton limit. The bounds (gap_bound, distance_bound) are formulas in PropsGap.v; they are for the exact problem whose data are the given doubles. C68_objective and C68_distance are for any arithmetic that rounds with relative error u and absolute error eta; the _doubles versions instantiate IEEE binary64 with no overflow reaching the answer (a finite reported residual)."
  },
  {
   "property": "C69",
   "status": "proved",
   "theorems": [
    "C69_primal_certificate",
    "C69_dual_certificate",
    "C69_doubles_primal",
    "C69_doubles_dual",
    "C69_dense_dual_certificate",
    "C69_doubles_dense_dual",
    "C69_primal_meaning",
    "C69_no_feasible_point",
    "C69_dual_meaning"
   ],
   "note": "C69_primal_example and C69_dual_example (WitnessInfeas.v) are runs on doubles. C69_dual_certificate is for the MPC solver; the dense test multiplies stale workspace by zero (C14), so a NaN left by an earlier call can hide a violated row from it, and C69_dense_dual_certificate and C69_doubles_dense_dual (C14_calm_example) need a solver whose work vectors stayed finite (calm). Hypotheses: finite data, a finite answer, sums below 2^1022 (moderate_multipliers, moderate_direction), K up to 2^47. The multipliers are not claimed nonnegative (C31, C43: the code does not test the sign); C69_no_feasible_point needs v >= 0 as a hypothesis."
  },
  {
   "property": "C70",
   "status": "proved",
   "theorems": [
    "C70_contradiction_infeasible",
    "C70_ray_unbounded",
    "C70_infeasible_residual",
    "C70_unbounded_residual",
    "C70_infeasible_no_success",
    "C70_unbounded_no_success",
    "C70_rounded_infeasible",
    "C70_rounded_unbounded",
    "C70_doubles_infeasible",
    "C70_doubles_unbounded"
   ],
   "note": "C70_doubles_example and C70_reals_example (WitnessUnsolvable.v): a problem that is both contradictory and unbounded, run on doubles up to the Newton limit, and on the reals with a large stall tolerance. The unbounded half asks for a convex problem. That the stall test can still report SUCCESS is C09/C54."
  },
  {
   "property": "C71",
   "status": "proved",
   "theorems": [
    "C71_constructor",
    "C71_constructed",
    "C71_memory",
    "C71_solve_argument",
    "C71_history",
    "C71_never_throws",
    "C71_solves",
    "C71_quasidefinite",
    "C71_solve_before_factor",
    "C71_failure_is_silent",
    "C71_uncompressed_matrix"
   ],
   "note": "QDLDL is a submodule that is not in /repo: its three functions are parameters, its documented contract (QdldlOk, QdldlExact in QdldlSpec.v) is a hypothesis, and full_ldl (QdldlInst.v) meets it. C71_example, C71_unit_test_pattern, C71_lower_pattern. n = 0 and matrices of another pattern are outside QDLDL's contract and so undefined behaviour in the model."
  },
  {
   "property": "C72",
   "status": "proved",
   "theorems": [
    "C72_mpc",
    "C72_dense",
    "C72_dense_no_check",
    "C72_mpc_limits",
    "C72_dense_limits",
    "C72_dense_exact",
    "C72_smaller_tolerances",
    "C72_smaller_tolerances_doubles"
   ],
   "note": "FBstabDense: the two calls are made on one object after any history, or on two objects without the infeasibility check or in exact arithmetic (the check reads work vectors of the object, C14). C72_limit_example, C72_tolerance_example, C72_check_example, C72_mpc_example."
  },
  {
   "property": "C73",
   "status": "proved",
   "theorems": [
    "C73_relabelled"
   ],
   "note": "C73_example: two FBstabDense calls with variables, signs and inequalities permuted, both taking Newton and proximal steps. On doubles the order changes rounding, so only the exact statement holds."
  },
  {
   "property": "C74",
   "status": "proved",
   "theorems": [
    "C74_dense_untouched",
    "C74_mpc_untouched",
    "C74_dense_stock",
    "C74_mpc_stock"
   ],
   "note": "C74_example (WitnessPresets.v): the three presets on a call that takes five Newton steps. The statement tables (default_preset, reliable_preset, struct_preset in PropsPresets.v) hold the literal numbers."
  }
 ]
}