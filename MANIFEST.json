{
 "claims": [
  {
   "property": "C01",
   "status": "proved",
   "theorems": [
    "C01_cyclic_buffer_window"
   ],
   "note": ""
  },
  {
   "property": "C02",
   "status": "proved",
   "theorems": [
    "C02_index_beyond_size_aborts",
    "C02_empty_buffer_index0_refuted",
    "C02_period0_push_undefined"
   ],
   "note": ""
  },
  {
   "property": "C03",
   "status": "proved",
   "theorems": [
    "C03_end_shifts_contents",
    "C03_end_is_harmless_refuted",
    "C03_end_harmless_otherwise",
    "C03_resize_then_push_undefined",
    "C03_iterators_undefined"
   ],
   "note": "Finding: both contracts are violated; the theorems give the exact behaviour."
  },
  {
   "property": "C04",
   "status": "proved",
   "theorems": [
    "C04_names_round_trip",
    "C04_unknown_lookups"
   ],
   "note": ""
  },
  {
   "property": "C05",
   "status": "proved",
   "theorems": [
    "C05_all_method_names_after_lookups",
    "C05_all_method_names_nodup",
    "C05_lookup_is_readonly_refuted"
   ],
   "note": ""
  },
  {
   "property": "C06",
   "status": "proved",
   "theorems": [
    "C06_explicit_methods_accepted",
    "C06_implicit_methods_accepted",
    "C06_advertised_but_rejected",
    "C06_explicit_odeint_rejects",
    "C06_implicit_odeint_rejects"
   ],
   "note": ""
  },
  {
   "property": "C07",
   "status": "proved",
   "theorems": [
    "C07_explicit_orders_exact"
   ],
   "note": ""
  },
  {
   "property": "C08",
   "status": "proved",
   "theorems": [
    "C08_implicit_orders_exact"
   ],
   "note": ""
  },
  {
   "property": "C09",
   "status": "proved",
   "theorems": [
    "C09_decimal_tables_accurate",
    "C09_reported_orders"
   ],
   "note": "Bounds strengthened to 1e-16; B(p+1) fails by more than 1e-9."
  },
  {
   "property": "C10",
   "status": "proved",
   "theorems": [
    "C10_embedded_orders",
    "C10_decimal_embedded_consistent",
    "C10_embedded_sums"
   ],
   "note": "Finding: five of the seven closed-form pairs do not attain the advertised order2; the theorem gives the exact order of each."
  },
  {
   "property": "C11",
   "status": "proved",
   "theorems": [
    "C11_explicit_rows",
    "C11_implicit_rows",
    "C11_explicit_fsal",
    "C11_implicit_fsal"
   ],
   "note": ""
  },
  {
   "property": "C12",
   "status": "proved",
   "theorems": [
    "C12_expand_is_product",
    "C12_expand_terms"
   ],
   "note": ""
  },
  {
   "property": "C13",
   "status": "proved",
   "theorems": [
    "C13_collocation_weights",
    "C13_single_node_weight_zero"
   ],
   "note": ""
  },
  {
   "property": "C14",
   "status": "proved",
   "theorems": [
    "C14_dense_output_matches_tableau"
   ],
   "note": ""
  },
  {
   "property": "C15",
   "status": "proved",
   "theorems": [
    "C15_factorial_exact",
    "C15_binom_exact",
    "C15_binom_overflow"
   ],
   "note": ""
  },
  {
   "property": "C16",
   "status": "proved",
   "theorems": [
    "C16_erk_output_aligned"
   ],
   "note": ""
  },
  {
   "property": "C17",
   "status": "proved",
   "theorems": [
    "C17_erk_step_accounting"
   ],
   "note": ""
  },
  {
   "property": "C18",
   "status": "proved",
   "theorems": [
    "C18_erk_fun_evals_true_count"
   ],
   "note": ""
  },
  {
   "property": "C19",
   "status": "proved",
   "theorems": [
    "C19_erk_times_exact"
   ],
   "note": ""
  },
  {
   "property": "C20",
   "status": "proved",
   "theorems": [
    "C20_erk_overshoots_t1_refuted",
    "C20_erk_never_advances"
   ],
   "note": ""
  },
  {
   "property": "C21",
   "status": "proved",
   "theorems": [
    "C21_erk_step_limit"
   ],
   "note": ""
  },
  {
   "property": "C22",
   "status": "proved",
   "theorems": [
    "C22_erk_accepted_steps_meet_tolerance"
   ],
   "note": ""
  },
  {
   "property": "C23",
   "status": "proved",
   "theorems": [
    "C23_erk_steps_are_runge_kutta_steps"
   ],
   "note": ""
  },
  {
   "property": "C24",
   "status": "proved",
   "theorems": [
    "C24_erk_fsal_reuse_is_invisible"
   ],
   "note": ""
  },
  {
   "property": "C25",
   "status": "proved",
   "theorems": [
    "C25_erk_linear_invariants"
   ],
   "note": ""
  },
  {
   "property": "C26",
   "status": "proved",
   "theorems": [
    "C26_erk_exact_on_polynomials"
   ],
   "note": ""
  },
  {
   "property": "C27",
   "status": "proved",
   "theorems": [
    "C27_erk_fixed_steps_terminate"
   ],
   "note": ""
  },
  {
   "property": "C28",
   "status": "proved",
   "theorems": [
    "C28_erk_adaptive_terminates_bounded"
   ],
   "note": ""
  },
  {
   "property": "C29",
   "status": "proved",
   "theorems": [
    "C29_erk_controller_bounds"
   ],
   "note": ""
  },
  {
   "property": "C30",
   "status": "proved",
   "theorems": [
    "C30_erk_nan_aborts",
    "C30_erk_nan_accepted"
   ],
   "note": ""
  },
  {
   "property": "C31",
   "status": "proved",
   "theorems": [
    "C31_erk_degenerate_aborts",
    "C31_erk_degenerate_ndebug",
    "C31_erk_nonpositive_step_never_returns"
   ],
   "note": ""
  },
  {
   "property": "C32",
   "status": "proved",
   "theorems": [
    "C32_erk_adaptive_flag_ignored_without_pair"
   ],
   "note": ""
  },
  {
   "property": "C33",
   "status": "proved",
   "theorems": [
    "C33_erk_file_is_not_the_solution"
   ],
   "note": ""
  },
  {
   "property": "C34",
   "status": "proved",
   "theorems": [
    "C34_erk_time_shift"
   ],
   "note": ""
  },
  {
   "property": "C35",
   "status": "proved",
   "theorems": [
    "C35_erk_linear_stability_function"
   ],
   "note": ""
  },
  {
   "property": "C36",
   "status": "proved",
   "theorems": [
    "C36_stage_status_every_arithmetic",
    "C36_stage_solver_exact"
   ],
   "note": ""
  },
  {
   "property": "C37",
   "status": "proved",
   "theorems": [
    "C37_iteration_limit_one_never_returns"
   ],
   "note": "Finding: an adaptive call with maxit <= 1 never returns."
  },
  {
   "property": "C38",
   "status": "proved",
   "theorems": [
    "C38_refresh_interval_irrelevant",
    "C38_refresh_zero_needs_immediate_convergence"
   ],
   "note": "Finding: refresh_jac = 0 divides by zero unless every first iteration converges."
  },
  {
   "property": "C39",
   "status": "proved",
   "theorems": [
    "C39_methods_that_cannot_run",
    "C39_nonadaptive_never_steps",
    "C39_ndebug_never_steps"
   ],
   "note": "Finding: the theorems list what can never complete a step."
  },
  {
   "property": "C40",
   "status": "proved",
   "theorems": [
    "C40_irk_output_aligned"
   ],
   "note": "The stored stage vectors are always zero (finding)."
  },
  {
   "property": "C41",
   "status": "proved",
   "theorems": [
    "C41_irk_step_accounting"
   ],
   "note": ""
  },
  {
   "property": "C42",
   "status": "proved",
   "theorems": [
    "C42_irk_evaluation_counters_true"
   ],
   "note": ""
  },
  {
   "property": "C43",
   "status": "proved",
   "theorems": [
    "C43_irk_times_exact"
   ],
   "note": ""
  },
  {
   "property": "C44",
   "status": "proved",
   "theorems": [
    "C44_irk_accepted_steps"
   ],
   "note": "With exact linear algebra (ExactProducts, ExactSolve, ExactLU, ExactInverse), for every problem."
  },
  {
   "property": "C45",
   "status": "proved",
   "theorems": [
    "C45_irk_linear_invariants"
   ],
   "note": ""
  },
  {
   "property": "C46",
   "status": "proved",
   "theorems": [
    "C46_irk_polynomials_exact",
    "C46_irk_polynomials_decimal"
   ],
   "note": ""
  },
  {
   "property": "C47",
   "status": "proved",
   "theorems": [
    "C47_irk_step_limit"
   ],
   "note": ""
  },
  {
   "property": "C48",
   "status": "proved",
   "theorems": [
    "C48_irk_file_is_the_accepted_trajectory"
   ],
   "note": ""
  },
  {
   "property": "C49",
   "status": "proved",
   "theorems": [
    "C49_merge_concatenates",
    "C49_merge_associative",
    "C49_only_successes_can_be_merged",
    "C49_merged_runs_repeat_the_junction"
   ],
   "note": "Findings: fun_evals and jac_evals are not merged; a solution stopped early cannot be merged."
  },
  {
   "property": "C50",
   "status": "proved",
   "theorems": [
    "C50_irk_error_estimate_extra_dt"
   ],
   "note": "Finding: the estimate has an extra factor dt."
  },
  {
   "property": "C51",
   "status": "proved",
   "theorems": [
    "C51_newton_status",
    "C51_newton_trace",
    "C51_newton_steps_exact"
   ],
   "note": ""
  },
  {
   "property": "C52",
   "status": "proved",
   "theorems": [
    "C52_newton_dispatch",
    "C52_refresh_interval_ignored",
    "C52_stored_factors_unused"
   ],
   "note": ""
  },
  {
   "property": "C53",
   "status": "proved",
   "theorems": [
    "C53_newton_linear_systems",
    "C53_preconditioner_uninitialised"
   ],
   "note": "Finding: with precondition the result depends on uninitialised memory (C53_preconditioner_uninitialised); the theorem assumes that memory is zero in that case."
  },
  {
   "property": "C54",
   "status": "proved",
   "theorems": [
    "C54_newton_max_step",
    "C54_broyden_update_length",
    "C54_broyden_max_step_refuted"
   ],
   "note": "Finding: the Broyden half of the natural claim is false (C54_broyden_max_step_refuted)."
  },
  {
   "property": "C55",
   "status": "proved",
   "theorems": [
    "C55_broyden_always_success",
    "C55_broyden_success_without_iterating"
   ],
   "note": "Finding: the status of broyden_iterate carries no information."
  },
  {
   "property": "C56",
   "status": "proved",
   "theorems": [
    "C56_broyden_secant_condition"
   ],
   "note": ""
  },
  {
   "property": "C57",
   "status": "proved",
   "theorems": [
    "C57_verify_jacobi_never_false",
    "C57_verify_jacobi_accepts"
   ],
   "note": "Finding: the check can never fail."
  },
  {
   "property": "C58",
   "status": "proved",
   "theorems": [
    "C58_approx_jacobi_central_differences",
    "C58_exact_for_quadratic_maps",
    "C58_second_order"
   ],
   "note": ""
  },
  {
   "property": "C59",
   "status": "proved",
   "theorems": [
    "C59_ab_starting_values",
    "C59_bdf_starting_values"
   ],
   "note": "Finding: the starting values are lost."
  },
  {
   "property": "C60",
   "status": "proved",
   "theorems": [
    "C60_ab_formula",
    "C60_ab_is_euler_for_quadrature"
   ],
   "note": "Finding: all slopes are taken at the same time, so the formula is right for autonomous systems only."
  },
  {
   "property": "C61",
   "status": "proved",
   "theorems": [
    "C61_ab_orders",
    "C61_bdf_orders"
   ],
   "note": ""
  },
  {
   "property": "C62",
   "status": "proved",
   "theorems": [
    "C62_ab_times",
    "C62_bdf_times",
    "C62_ab_grid_every_arithmetic"
   ],
   "note": "Finding: the last time may lie beyond t1."
  },
  {
   "property": "C63",
   "status": "proved",
   "theorems": [
    "C63_bdf_order_validation",
    "C63_ab_order_not_validated",
    "C63_bdf_newton_failure",
    "C63_ndebug_never_returns"
   ],
   "note": "Findings: adams_bashforth does not validate its order; compiled with NDEBUG the solvers never return."
  },
  {
   "property": "C64",
   "status": "proved",
   "theorems": [
    "C64_bdf_newton",
    "C64_bdf_exact_for_affine"
   ],
   "note": ""
  },
  {
   "property": "C65",
   "status": "proved",
   "theorems": [
    "C65_jacobians_are_derivatives",
    "C65_three_body_jacobian_refuted"
   ],
   "note": "Finding: the Jacobian of three_body is wrong at every state. vdpol and dimer need a non-zero parameter."
  },
  {
   "property": "C66",
   "status": "proved",
   "theorems": [
    "C66_exact_solutions"
   ],
   "note": "The exponential and trigonometric functions are those of the reals."
  },
  {
   "property": "C67",
   "status": "proved",
   "theorems": [
    "C67_conserved_by_the_equations",
    "C67_conserved_by_explicit_runs",
    "C67_conserved_by_adams_bashforth_runs",
    "C67_three_body_x_momentum",
    "C67_three_body_y_momentum_refuted",
    "C67_three_body_y_momentum_rate"
   ],
   "note": "Finding: three_body does not conserve the momentum in y."
  },
  {
   "property": "C68",
   "status": "proved",
   "theorems": [
    "C68_output_bits_independent",
    "C68_write_to_file_has_stream",
    "C68_output_interval_unchanged"
   ],
   "note": ""
  },
  {
   "property": "C69",
   "status": "proved",
   "theorems": [
    "C69_elapsed_is_milliseconds",
    "C69_elapsed_additive",
    "C69_breakdown_seconds_off_by_ten",
    "C69_breakdown_short_vector_ub"
   ],
   "note": ""
  },
  {
   "property": "C70",
   "status": "proved",
   "theorems": [
    "C70_newton_returns",
    "C70_broyden_returns"
   ],
   "note": ""
  },
  {
   "property": "C71",
   "status": "proved",
   "theorems": [
    "C71_newton_calls",
    "C71_broyden_calls"
   ],
   "note": ""
  },
  {
   "property": "C72",
   "status": "proved",
   "theorems": [
    "C72_irk_step_size_controller"
   ],
   "note": ""
  },
  {
   "property": "C73",
   "status": "proved",
   "theorems": [
    "C73_ab_linear_invariants",
    "C73_bdf_linear_invariants"
   ],
   "note": ""
  },
  {
   "property": "C74",
   "status": "proved",
   "theorems": [
    "C74_ab_equilibrium",
    "C74_bdf_equilibrium"
   ],
   "note": ""
  },
  {
   "property": "C75",
   "status": "proved",
   "theorems": [
    "C75_ab_returns",
    "C75_bdf_returns"
   ],
   "note": ""
  },
  {
   "property": "C76",
   "status": "proved",
   "theorems": [
    "C76_irk_never_fails"
   ],
   "note": ""
  },
  {
   "property": "C77",
   "status": "proved",
   "theorems": [
    "C77_irk_returns"
   ],
   "note": ""
  },
  {
   "property": "C78",
   "status": "proved",
   "theorems": [
    "C78_multistep_returns_near",
    "C78_multistep_returns_for_small_steps"
   ],
   "note": ""
  },
  {
   "property": "C79",
   "status": "proved",
   "theorems": [
    "C79_three_body_forces",
    "C79_three_body_kinetic_energy"
   ],
   "note": "Finding: one force is wrong; kin_energy ignores the masses."
  },
  {
   "property": "C80",
   "status": "proved",
   "theorems": [
    "C80_compute_agrees",
    "C80_compute_calls"
   ],
   "note": "For the default implementation; an override by a user is not modelled."
  },
  {
   "property": "C81",
   "status": "proved",
   "theorems": [
    "C81_erk_converges",
    "C81_erk_fixed_converges",
    "C81_erk_adaptive_converges"
   ],
   "note": "Exact arithmetic. smooth_near asks for partial derivatives (in t and y) up to order P in a tube around the solution, bounded there. The constants do not depend on the functor, the tolerances, the options or the linear algebra."
  },
  {
   "property": "C82",
   "status": "proved",
   "theorems": [
    "C82_erk_error_estimate_order"
   ],
   "note": "Exact arithmetic; steps limited by the h0 of the theorem (it keeps the states in the tube where f is smooth)."
  },
  {
   "property": "C83",
   "status": "proved",
   "theorems": [
    "C83_erk_adaptive_solves"
   ],
   "note": "Exact arithmetic. The run returns for every sufficiently large number of loop iterations allowed, i.e. it terminates."
  },
  {
   "property": "C84",
   "status": "proved",
   "theorems": [
    "C84_erk_depends_on_its_calls",
    "C84_irk_depends_on_its_calls",
    "C84_ab_depends_on_its_calls"
   ],
   "note": "bdf is not covered: its Newton iterations work on a copy of the functor, whose calls the model's log does not show."
  },
  {
   "property": "C85",
   "status": "proved",
   "theorems": [
    "C85_erk_evaluates_in_the_interval",
    "C85_irk_evaluates_in_the_interval",
    "C85_erk_outside_irrelevant",
    "C85_irk_outside_irrelevant"
   ],
   "note": "Exact arithmetic; in floating point the last step may evaluate at times rounded beyond t1."
  },
  {
   "property": "C86",
   "status": "proved",
   "theorems": [
    "C86_irk_converges",
    "C86_irk_adaptive_converges"
   ],
   "note": "Exact arithmetic and linear algebra. RADAU_IIA_95 and RADAU_IIA_137, whose coefficients are decimals, satisfy the order conditions only approximately and are not covered."
  },
  {
   "property": "C87",
   "status": "proved",
   "theorems": [
    "C87_short_steps_solvable",
    "C87_multistep_returns",
    "C87_irk_returns"
   ],
   "note": "Exact arithmetic and linear algebra."
  },
  {
   "property": "C88",
   "status": "proved",
   "theorems": [
    "C88_bdf_leaves_functor"
   ],
   "note": "Any arithmetic and linear algebra. adams_bashforth evaluates the caller's functor itself."
  },
  {
   "property": "C89",
   "status": "proved",
   "theorems": [
    "C89_irk_linear_decay"
   ],
   "note": "Exact arithmetic and linear algebra (the oracle specifications in Spec/IrkSpec.v, instantiated in Proofs/ChoiceInstance.v and ChoiceLU.v). RADAU_IIA_95 and RADAU_IIA_137 are given as 16-digit decimals and left out: their algebraic stability is not exact."
  },
  {
   "property": "C90",
   "status": "proved",
   "theorems": [
    "C90_irk_linear_returns"
   ],
   "note": "As C89; the limits on o_maxit and max_steps keep the growing iteration limit within an int."
  },
  {
   "property": "C91",
   "status": "proved",
   "theorems": [
    "C91_stability_function_is_the_factor",
    "C91_stability_function_missing"
   ],
   "note": "Complex arithmetic and Armadillo's inv are oracles with the exact specification of Spec/ComplexSpec.v (instantiated by choice in Proofs/StabExamples.v). The region program itself is not part of the library."
  },
  {
   "property": "C92",
   "status": "proved",
   "theorems": [
    "C92_left_half_plane"
   ],
   "note": "As C91. RADAU_IIA_95 and RADAU_IIA_137 are decimals and left out."
  },
  {
   "property": "C93",
   "status": "proved",
   "theorems": [
    "C93_region_files_of_implicit_methods",
    "C93_region_files_all_or_nothing",
    "C93_embedded_file_lacks_gamma"
   ],
   "note": "As C91. The finding about gamma is C93_embedded_file_lacks_gamma."
  },
  {
   "property": "C94",
   "status": "proved",
   "theorems": [
    "C94_explicit_region_files_constant",
    "C94_explicit_region_files_wrong"
   ],
   "note": "A finding: line 123 of stability_region/main.cpp looks explicit methods up with irk::get_coefficients."
  },
  {
   "property": "C95",
   "status": "proved",
   "theorems": [
    "C95_stability_program"
   ],
   "note": "As C91. Files are modelled as lists of lines of numbers; their text format is not."
  },
  {
   "property": "C96",
   "status": "proved",
   "theorems": [
    "C96_erk_linear_intervals"
   ],
   "note": "Exact arithmetic. Between z1 and z2 nothing is claimed; the two are at most 0.001 apart except for the isolated interval of FEHLBERG_54 between 12 and 12.025."
  },
  {
   "property": "C97",
   "status": "proved",
   "theorems": [
    "C97_last_setting_wins",
    "C97_first_error_stops",
    "C97_every_command_line"
   ],
   "note": "std::stof and std::stoi are parameters of the theorems; the text of messages and help is not modelled."
  },
  {
   "property": "C98",
   "status": "proved",
   "theorems": [
    "C98_timing_option_required",
    "C98_batch_run_undefined"
   ],
   "note": "A finding: struct user_options gives no initial value to time_internals, which set_irk_options and set_erk_options copy."
  },
  {
   "property": "C99",
   "status": "proved",
   "theorems": [
    "C99_refusals",
    "C99_zero_if_library_returns",
    "C99_exit_codes",
    "C99_returns"
   ],
   "note": "The file is a list of (time, state) lines; an output file that cannot be opened is not modelled. Calls that fail (abort, exception) end the program with that failure."
  },
  {
   "property": "C100",
   "status": "proved",
   "theorems": [
    "C100_exponential_run"
   ],
   "note": "Exact arithmetic. The mismatch of times and states in the file is the finding of C33."
  },
  {
   "property": "C101",
   "status": "proved",
   "theorems": [
    "C101_ab_converges",
    "C101_ab_order_one_only"
   ],
   "note": "Exact arithmetic. A finding: the order asked for has no influence on the order of convergence (the starting values are all the initial value, C59, and all slopes are evaluated at the current time, C60)."
  },
  {
   "property": "C102",
   "status": "proved",
   "theorems": [
    "C102_bdf_converges",
    "C102_bdf_order_one_only"
   ],
   "note": "Exact arithmetic. Zero-stability of the six recurrences is proved for all numbers of steps (ZeroStable.v). A finding: the order asked for has no influence on the order of convergence."
  },
  {
   "property": "C103",
   "status": "proved",
   "theorems": [
    "C103_implicit_dense_output",
    "C103_no_explicit_dense_output"
   ],
   "note": "A finding for explicit methods: erk::project_b can never return for an implemented method."
  },
  {
   "property": "C104",
   "status": "proved",
   "theorems": [
    "C104_dense_weights_exact",
    "C104_dense_ends_at_the_step"
   ],
   "note": "Exact arithmetic."
  },
  {
   "property": "C105",
   "status": "proved",
   "theorems": [
    "C105_erk_times_in_doubles"
   ],
   "note": "IEEE doubles (Flocq), round to nearest even; pow is any function that keeps a clear sign bit."
  },
  {
   "property": "C106",
   "status": "proved",
   "theorems": [
    "C106_irk_times_in_doubles"
   ],
   "note": "IEEE doubles (Flocq), round to nearest even; pow is any function that keeps a clear sign bit."
  },
  {
   "property": "C107",
   "status": "proved",
   "theorems": [
    "C107_erk_fixed_steps_return_in_doubles"
   ],
   "note": "IEEE doubles (Flocq), round to nearest even. C109 shows that with a step eight times smaller it need not return."
  },
  {
   "property": "C108",
   "status": "proved",
   "theorems": [
    "C108_erk_step_limit_returns"
   ],
   "note": "Any arithmetic."
  },
  {
   "property": "C109",
   "status": "proved",
   "theorems": [
    "C109_erk_lost_step_never_returns"
   ],
   "note": "IEEE doubles (Flocq). The general form of the finding C20_erk_never_advances."
  },
  {
   "property": "C110",
   "status": "proved",
   "theorems": [
    "C110_adams_bashforth_times_in_doubles",
    "C110_bdf_times_in_doubles"
   ],
   "note": "IEEE doubles (Flocq), round to nearest even."
  },
  {
   "property": "C111",
   "status": "proved",
   "theorems": [
    "C111_adams_bashforth_returns_in_doubles",
    "C111_bdf_returns_in_doubles"
   ],
   "note": "IEEE doubles (Flocq). That the starting integrations return is assumed, in the form of one call that returned."
  },
  {
   "property": "C112",
   "status": "proved",
   "theorems": [
    "C112_adams_bashforth_lost_step_never_returns",
    "C112_bdf_lost_step_never_succeeds"
   ],
   "note": "IEEE doubles (Flocq). bdf may still return: with INTERNAL_SOLVE_FAILURE, or for an invalid order."
  },
  {
   "property": "C113",
   "status": "proved",
   "theorems": [
    "C113_radau_nonlinear_growth"
   ],
   "note": "Exact real arithmetic and linear algebra. B-stability with inexactly solved stages: algebraic stability and coercivity of the inverse of A, both checked exactly in Q(sqrt d). Only for the two Radau methods given by closed formulas."
  },
  {
   "property": "C114",
   "status": "proved",
   "theorems": [
    "C114_newton_converges_locally"
   ],
   "note": "Exact real arithmetic and linear algebra. The classical local convergence theorem, for the loop of the code: stop criterion, frozen or refreshed Jacobian, damping and preconditioner included. A positive max_step is covered by C54 only."
  },
  {
   "property": "C115",
   "status": "proved",
   "theorems": [
    "C115_erk_deterministic",
    "C115_irk_deterministic",
    "C115_multistep_deterministic",
    "C115_newton_deterministic",
    "C115_erk_initial_stages_uninitialised"
   ],
   "note": "Any arithmetic and backend. Relational proof: the two evaluations run in lockstep. With the preconditioner Newton's method does depend on uninitialised memory (C53_preconditioner_uninitialised)."
  },
  {
   "property": "C116",
   "status": "proved",
   "theorems": [
    "C116_irk_time_shift",
    "C116_ab_time_shift",
    "C116_bdf_time_shift"
   ],
   "note": "Exact real arithmetic. The same lockstep proof as C115; C34 is the explicit case."
  },
  {
   "property": "C117",
   "status": "proved",
   "theorems": [
    "C117_erk_release_build",
    "C117_ab_release_build"
   ],
   "note": "Any arithmetic and backend. The implicit integrator and the other orders do not run at all under NDEBUG (C39, C63)."
  },
  {
   "property": "C118",
   "status": "proved",
   "theorems": [
    "C118_erk_step_limit_cuts",
    "C118_irk_step_limit_cuts"
   ],
   "note": "Any arithmetic and backend. The two loops are compared turn by turn until the limit is hit; what follows only appends."
  },
  {
   "property": "C119",
   "status": "proved",
   "theorems": [
    "C119_erk_mesh_determines_solution"
   ],
   "note": "Exact real arithmetic. By uniqueness of the step of a strictly lower triangular tableau, on top of C23."
  },
  {
   "property": "C120",
   "status": "proved",
   "theorems": [
    "C120_erk_resumes",
    "C120_erk_longer_interval"
   ],
   "note": "Exact real arithmetic: in doubles the two grids differ by roundings (C105). From C119 and the exact grid of C27."
  },
  {
   "property": "C121",
   "status": "proved",
   "theorems": [
    "C121_adams_bashforth_final_time_cuts",
    "C121_bdf_final_time_cuts"
   ],
   "note": "Any arithmetic and backend. If the first step does not fit, the step size itself depends on t1 (C62)."
  },
  {
   "property": "C122",
   "status": "proved",
   "theorems": [
    "C122_erk_affine_change",
    "C122_erk_affine_change_fixed_steps"
   ],
   "note": "Exact real arithmetic. The stages of the two steps correspond by induction over the rows of the tableau. With adaptive steps the recorded times need not correspond, because the error is weighted per component."
  },
  {
   "property": "C123",
   "status": "proved",
   "theorems": [
    "C123_erk_superposition",
    "C123_erk_superposition_fixed_steps"
   ],
   "note": "Exact real arithmetic. The same proof as C122 with two source runs."
  },
  {
   "property": "C124",
   "status": "proved",
   "theorems": [
    "C124_erk_equilibrium",
    "C124_irk_equilibrium"
   ],
   "note": "Exact real arithmetic. Only Jacobians answered at the initial state need invertible iteration matrices, which every small enough step has."
  },
  {
   "property": "C125",
   "status": "proved",
   "theorems": [
    "C125_erk_units"
   ],
   "note": "Exact real arithmetic. A lockstep relation between the two runs; the stages (which are rates) are related inside the proof and not part of the statement. Different units for different variables do change adaptive runs, because there is one absolute tolerance for all."
  },
  {
   "property": "C126",
   "status": "proved",
   "theorems": [
    "C126_erk_continuous_dependence",
    "C126_fixed_steps_same_times"
   ],
   "note": "Exact real arithmetic. Runs that choose different times (adaptive runs of different problems) are not compared."
  },
  {
   "property": "C127",
   "status": "proved",
   "theorems": [
    "C127_erk_converges_lipschitz",
    "C127_erk_fixed_converges_lipschitz"
   ],
   "note": "Exact real arithmetic. Same proof as C126 with the solution as the reference; no bound on the step size is needed."
  },
  {
   "property": "C128",
   "status": "proved",
   "theorems": [
    "C128_ab_affine_change",
    "C128_ab_superposition"
   ],
   "note": "Exact real arithmetic. Nothing is assumed of the linear algebra: the values of the starter are discarded (C59)."
  },
  {
   "property": "C129",
   "status": "proved",
   "theorems": [
    "C129_ab_continuous_dependence"
   ],
   "note": "Exact real arithmetic. The values beyond t1 (C62) are included."
  },
  {
   "property": "C130",
   "status": "proved",
   "theorems": [
    "C130_ab_outside_irrelevant",
    "C130_bdf_outside_irrelevant",
    "C130_bdf_uses_only_the_interval_refuted"
   ],
   "note": "Exact real arithmetic; nothing is assumed of the linear algebra. C84 covers adams_bashforth in every arithmetic, for the calls of one run."
  },
  {
   "property": "C131",
   "status": "proved",
   "theorems": [
    "C131_newton_depends_on_its_calls",
    "C131_broyden_depends_on_its_calls",
    "C131_verify_depends_on_its_calls",
    "C131_broyden_ignores_the_jacobian"
   ],
   "note": "Every arithmetic and linear algebra. Only answered calls are in the log, so the statement is about runs that return."
  },
  {
   "property": "C132",
   "status": "proved",
   "theorems": [
    "C132_bdf_damped_problems"
   ],
   "note": "Exact real arithmetic and linear algebra. Orders 3 to 6 are not A-stable and not covered. Runs of this kind return for small steps (C78)."
  },
  {
   "property": "C133",
   "status": "proved",
   "theorems": [
    "C133_bdf_affine_change",
    "C133_bdf_superposition"
   ],
   "note": "Exact real arithmetic and linear algebra. Nonlinear problems are not covered: Newton's iteration stops at a tolerance that does not scale with the variables."
  },
  {
   "property": "C134",
   "status": "proved",
   "theorems": [
    "C134_bdf_contractive",
    "C134_bdf_attracted"
   ],
   "note": "Exact real arithmetic and linear algebra. Orders 3 to 6 are not A-stable and not covered. The Jacobians the functor returns must be dissipative and approximate the change of f within kappa times the distance."
  },
  {
   "property": "C135",
   "status": "proved",
   "theorems": [
    "C135_bdf_continuous_dependence"
   ],
   "note": "Exact real arithmetic and linear algebra. Both right-hand sides are assumed Lipschitz and the Jacobians bounded by the same constant. The constant depends on the dimension through Newton's stopping criterion. Recorded times beyond t1 are not covered."
  },
  {
   "property": "C136",
   "status": "proved",
   "theorems": [
    "C136_irk_converges_lipschitz"
   ],
   "note": "Exact real arithmetic and linear algebra. Order one is what such problems allow in general; C86 gives the order of the method on smooth problems."
  },
  {
   "property": "C137",
   "status": "proved",
   "theorems": [
    "C137_ab_decays_below_the_limit",
    "C137_ab_grows_above_the_limit"
   ],
   "note": "Exact arithmetic. Sharp for all five orders. The starting values are copies of y0 (C59), which is why growth above the limit needs no genericity condition. The example of growth uses order 1, where no starting integrator is run; for higher orders the theorem speaks of every run that returns."
  },
  {
   "property": "C138",
   "status": "proved",
   "theorems": [
    "C138_bdf_damps_without_limit"
   ],
   "note": "Exact real arithmetic and linear algebra. Components with lam h below 1/10 are resolved by the step and covered by the convergence theorems, not by this one. The constant 11^4 covers the starting values, which are copies of y0."
  },
  {
   "property": "C139",
   "status": "proved",
   "theorems": [
    "C139_energy_of_explicit_steps",
    "C139_energy_drift",
    "C139_energy_of_first_order_multistep_runs"
   ],
   "note": "Exact arithmetic. The factors are |R(i w h)|^2 for the stability function of each tableau. Multistep methods of higher order are not covered."
  },
  {
   "property": "C140",
   "status": "proved",
   "theorems": [
    "C140_irk_continuous_dependence",
    "C140_irk_times_determine_states_to_tolerance"
   ],
   "note": "Exact real arithmetic and linear algebra. Runs that choose different times are not compared. Both right-hand sides are assumed Lipschitz and the Jacobians bounded by the same constant. The example consists of runs of one step; the theorem has no bound on their number."
  },
  {
   "property": "C141",
   "status": "proved",
   "theorems": [
    "C141_decay_of_explicit_steps",
    "C141_sign_of_decaying_components",
    "C141_decay_of_first_order_multistep_runs"
   ],
   "note": "Exact arithmetic. The limits 1.596/1.597 and 2.35/2.36 enclose the zeros of the polynomials, between which nothing is claimed. Steps of FEHLBERG_54 with lam h above 12.02 keep the sign again. Only components whose equation involves no other component are covered."
  }
 ]
}