# Formal model of Pakketeretet2/rehuel in Coq 8.16: design

The code under study is `/repo` (C++: `erk.*`, `irk.*`, `newton.*`, `multistep.hpp`,
`cyclic_buffer.hpp`, `enums.hpp`, `options.hpp`, `output.hpp`, `my_timer.hpp`,
`test_equations.hpp`).  Properties are listed in `properties.jsonl` (C01...), their
status in `MANIFEST.json`, mutation experiments in `seeded/LOG.jsonl`.

## 1. Architecture of the model

`rocq/theories/Model/*.v` transcribes the code function by function.  Every definition cites
file and lines and names its simplifications.

* **Outcomes** (`Base.v`).  A computation yields `Ok v`, or `Err e` with `e` one of
  `EThrow _` (a C++ exception), `EAbort` (failed `assert`), `EUB` (undefined behaviour:
  out-of-bounds, division by zero, signed overflow, reading an uninitialised field),
  `EFuel` (the bounded unrolling of a loop was too short).  `EFuel` is never a normal-looking
  value: a theorem about a returned solution starts from `= (_, Ok sol)`; termination theorems say
  that some fuel avoids `EFuel`, divergence theorems say that no fuel does.
* **World.**  Computations are state transformers `W -> W * res A`; the world contains the
  hidden state of the user's functor (so functors may be stateful or throwing) and the lines
  written to `output_stream`.  Log output (`cerr`, `log_out`) is not modelled.
* **Arithmetic** (`Scalar.v`).  The code is written once over an abstract record of operations
  (`+ - * /`, comparisons, `fabs`, `sqrt`, `pow`, decimal literals, `isfinite`).  Two instances:
  exact reals (Coq's `R`) and IEEE binary64 (Flocq `binary_float 53 1024`, round to
  nearest even).  Control-flow/accounting theorems are proved for *every* instance (hence
  in particular for binary64 with NaN/Inf); theorems of numerical analysis are proved for `R`; findings about
  rounding are proved by computation in binary64.
* **Linear algebra** (`LinAlg.v`).  Armadillo/LAPACK is external: matrix-vector products, dot
  products, `solve`, `inv`, `lu`, triangular `solve`, `norm(.,"inf")` are fields of an oracle record;
  what the code checks (dimension mismatch => `std::logic_error`) is modelled around the oracle.  For the
  real-number theorems the oracle is assumed *exact where the mathematical answer is unique*
  (classes `ExactProducts`, `ExactSolve`, `ExactNorm`, `ExactLU`, `ExactInverse`, one per group of operations; each theorem
  names those it needs); an instance satisfying all of them is constructed (`choice_LA`), so the assumption is satisfiable.
* **Build flags.**  `ndebug : bool` says whether `assert` is compiled out (the shipped Makefile
  leaves asserts on).  `junk` stands for the content of freshly allocated, uninitialised memory.
* Uninitialised scalar fields (`order`, `order2`, `elapsed_time`, `accept_frac`) are `option`s; reading
  `None` is `EUB`.

`Spec/*.v` contains the small independent specifications (rooted trees and order conditions,
Runge-Kutta maps, Lagrange basis, "the i-th most recent push", ...).  `Proofs/*.v` contains the lemmas.
`Props/*.v` contains only the property theorems (each closed by `exact`), their `Print Assumptions`, and
an `Example` showing that the hypotheses are met by a concrete non-trivial case.

## 2. Plan per property

| id | model | proof method |
|----|-------|--------------|
| C01-C03 | `CyclicBuffer.v`: storage as a list, `push_back`, `operator[]`, `end`, `resize` with UB on out-of-range | invariant over the push history; refinement to "reversed history"; refutations by computation and in general |
| C04-C05 | `Enums.v`: the two static `std::map`s as association lists with `operator[]` inserting | invariant over lookup histories |
| C06-C11 | `ErkCoeffs.v`, `IrkCoeffs.v`: `get_coefficients` verbatim over the abstract arithmetic | reflection: coefficients evaluated in Q or Q(sqrt d), order conditions of all trees up to the order by an enumerator proved complete |
| C12-C14 | `Collocation.v` | induction on lists; Lagrange basis / antiderivative |
| C15 | `Collocation.v` (`factorial`, `binom_coeff` with 32-bit overflow as UB) | finite sweep for n <= 12, induction beyond |
| C16-C35 | `Erk.v`: `erk_guts` and `odeint` as a `while` loop over an explicit state | loop invariants; refinement to the mathematical Runge-Kutta map; a measure argument for termination; binary64 witnesses by computation |
| C36-C50, C72 | `Irk.v`: `construct_R`, `newton_solve_stages`, `irk_guts`, `odeint`, `merge_rk_output` | loop invariants; exact linear algebra for the R theorems |
| C51-C58, C70-C71 | `Newton.v` | loop invariants, real analysis (Taylor) for C58 |
| C59-C64, C73-C75 | `Multistep.v` (on top of `Irk.v`, `CyclicBuffer.v`, `Newton.v`) | invariants; polynomial exactness |
| C76-C78 | `Irk.v`, `Multistep.v` | no-error induction over the steps; every step below a positive size is accepted, so attempts are bounded |
| C65-C67, C79, C80 | `TestEquations.v`: the functors of `test_equations.hpp`, `functor::compute` | Coquelicot derivatives; ring identities; the invariant theorems C25 and C73 applied to them |
| C81-C83 | the explicit integrator as before; the specification `ConvergenceSpec.v` says what a smooth problem is | Butcher's theorem (`OrderTheory.v`): Taylor expansions of the exact and the numerical solution over rooted trees agree up to order p; a step from a nearby point is compared by a Lipschitz argument, steps are summed by a discrete Gronwall inequality, and C23 (every recorded step is a Runge-Kutta step) transfers the result to the runs |
| C86, C87 | the implicit integrator as before | the stages a run computed satisfy the stage equations up to a defect of the size of Newton's tolerances (C44); comparison with the Picard iterates of the exact stage equations, which satisfy the order conditions of the method (`Picard.v`), and the same Gronwall argument; a Neumann series (`Neumann.v`) inverts the matrices of Newton's iteration for small steps |
| C88 | `Multistep.v` | the loop runs its solver on a copy of the state (`on_copy`): every body leaves the world alone |
| C89, C90 | the implicit integrator on y' = G y | the closed-form tables are algebraically stable (checked exactly in Q(sqrt d)); Newton's first undamped iteration solves linear stage equations; the norm identity of an algebraically stable step; a transitive relation across accepted steps holds between recorded points; C90 by the returns theorem with a local bound, the ball |y| <= |y0| being invariant |
| C91-C95 | stability_region/main.cpp: complex values, matrices and files of lines | complex arithmetic as an oracle with an exact specification; the value solves the stage equations of a step on y' = lambda y read as a real system of dimension two; A-stability from C89's algebraic stability; the files by induction over the grid |
| C96 | the explicit integrator on y' = lambda y | C35's stability polynomial made explicit for each table; sign certificates (Bernstein and Taylor coefficients) checked by field |
| C97-C100 | examples/example_equations.cpp: command line, standard input, the call of the library, the file | induction over the list of settings; case analysis of the names; C17, C21, C47 exclude the failure codes; C27, C33, C35 for the file of a whole run |
| C101, C102 | `Multistep.v` | a Gronwall inequality with delay for Adams-Bashforth; zero-stability of the BDF recurrences by a summable Neumann-like inverse (a rational table of coefficients checked exactly, then causal convolution), Newton's defect bounded by its stopping rule; closed forms on y' = t and y' = 1 for the sharpness |
| C103, C104 | `Collocation.v`, the tables | case analysis of the tables; Lagrange interpolation in distinct nodes reproduces polynomials (a polynomial with too many roots vanishes), integrated with C13; the decimal weights by exact integer arithmetic |
| C105 | `Erk.v` over Flocq's binary64 | one clipped step moves time forward and at most 2^-52 (t1 - t0 + \|t1\|) past t1 (relative error of sums and differences); the controller's step sizes never get a sign bit; induction over the attempts |
| C106 | `Irk.v` over Flocq's binary64 | the controller's step sizes never get a sign bit and stay finite while times are at most 2^900; then the clipped step lemma of C105 and induction over the attempts |
| C107, C108 | `Erk.v` over binary64; over any scalar type | the loop is reduced to its clock t, d -> t + c, c (c the clipped step); in doubles a full step moves at least dt/2 and a cut step leaves at most 2^-52 of the distance, so the clock reaches t1; under a limit each turn uses up a step |
| C109 | `Erk.v` over binary64 | the nearest double to t0 + dt is at most 2 dt from t0, and different doubles are further apart than that; then the loop's state repeats |
| C110 - C112 | `Multistep.v` over binary64 | the recorded times are the running sums t0, t0 + h, ...: every sum is rounded once; below 2^-52 the sum moves by at least h/2, so the clock passes t1; at 2^-55 |t0| it does not move |
| C113 | `Irk.v`, the two Radau tableaux | algebraic stability plus coercivity of D A^-1 (D diagonal), checked in Q(sqrt d); the defect of the stage equations is bounded by the stop criteria of Newton's iteration; a potential argument along the accepted steps |
| C114 | `Newton.v` | mean value theorem along the ray from the root, the inverse bound gives the contraction of one step; induction along the visited points; the stop criterion must fire once two radii are below dx_delta; the last step bounds its own error |
| C115, C116, C117 | the integrators, `Newton.v` | two evaluations of the same model function in lockstep: a relation between their states (equal up to elapsed time, initial stages and, for C116, a shift of the times) is kept by every loop body; C117 by a refinement relation "equal unless the first aborts" |
| C118, C121 | the integrators | two loops that run the same body until the stronger limit (or the earlier final time) stops the first; the rest of the second only appends |
| C119, C120 | `Erk.v` | the step of an explicit tableau is unique, so induction over the recorded times; the grid of fixed-step runs glues the parts |
| C122, C123 | `Erk.v` | induction over the recorded steps and, in each, over the rows of the tableau: the stages of the image are the images of the stages |
| C124 | `Erk.v`, `Irk.v`, `Newton.v` | explicit: uniqueness of the step (C119); implicit: the zero stages solve the equations, so every Newton increment is the zero solution of an invertible system |
| C125 | `Erk.v` | lockstep relation of the two runs: the error norm is invariant under reordering, signs and a common unit; the controller scales with the unit of time |
| C126, C127 | `Erk.v`, `ErkCoeffs.v` | one lemma: a step beside a reference whose stages satisfy the equations up to a defect; then a discrete Gronwall inequality over the recorded steps |
| C128, C129 | `Multistep.v` | from the formula, the starting values and the times of a run (C59, C60, C62) by strong induction; delayed Gronwall inequality |
| C130, C131 | `Multistep.v`, `Newton.v` | relational induction over the runs (the same outcome step by step while the calls agree); the times of the calls from the clock of the loops; logging systems for the root finders |
| C132, C133 | `Multistep.v`, `Newton.v` | from the BDF equations of a run (C64), which hold exactly on linear problems; energy identity for orders 1 and 2; uniqueness of the solution of each step for the covariance |
| C134, C135 | `Multistep.v`, `Newton.v` | the defect of every BDF step (C64) bounded by Newton's last update; orders 1 and 2 by the energy function of G-stability; all orders by the zero-stability lemma of C102 and Gronwall |
| C136 | `Irk.v`, `Newton.v` | one-step error from the stage equations of accepted steps (C44) with Lipschitz bounds only, summed over the run |
| C137 | `Multistep.v` | the formula of a run (C60) is a linear recurrence; below the limit it is multiplied by z^2 + q1 z + q2 so that the absolute coefficients sum to at most 1; above it the characteristic polynomial has a root below -1 and a combination of five values in a row is multiplied by it |
| C138 | `Multistep.v` | the formula of a run on a linear problem (C132) is a linear recurrence in the component; it is multiplied by a polynomial of degree 4, found by linear programming, after which the absolute coefficients sum to less than 1 + beta mu for all mu from 1/10 on |
| C139 | `Erk.v`, `Multistep.v` | a Runge-Kutta step (C23) on such a pair is the stability polynomial of the tableau in the generator of rotations; its coefficients are read off from C96's polynomials, and the sign of |R|^2 - 1 is decided by certificates |
| C140 | `Irk.v`, `Newton.v` | the stage equations of accepted steps (C44) of two runs subtracted, a fixed-point bound for the difference of the stages, summed over the run |
| C141 | `Erk.v`, `Multistep.v` | a Runge-Kutta step (C23) on one component is the stability polynomial of the tableau (C96) in lam h; its sign is decided by sums of squares and Bernstein coefficients |
| C84, C85 | the integrators as before, run with a functor that records its calls | a calculus of programs: what a run with the recording functor did, a run with an agreeing functor does; loop invariants for the times |
| C68-C69 | `Options.v`, `Timer.v` | induction over call histories; arithmetic |

Not expressible in the model: wall-clock performance, the text format of log output, behaviour
of a particular Armadillo/LAPACK build beyond the oracle interface.

## 3. What is modelled and what is not

| file | modelled | not modelled |
|------|----------|--------------|
| `cyclic_buffer.hpp` | constructors, `push_back`, `operator[]`, `size`, `empty`, `current`, `period`, iterators, `resize` | `print_internal_state`, raw `storage()`/`data()`; copy assignment does not compile (it compares a buffer with a pointer) |
| `enums.hpp` | method ids and names, status codes, `machine_precision` | |
| `options.hpp`, `output.hpp` | all fields that influence a result, the output bits, the setters | `log_out` |
| `my_timer.hpp` | `get_elapsed`, `toc` arithmetic | reading the clock (a parameter), formatting |
| `erk.cpp`, `erk.hpp` | `get_coefficients`, `verify_solver_coeffs`, name lookups, `project_b`, `erk_guts`, both `odeint` | log messages |
| `irk.cpp`, `irk.hpp` | `expand`, `factorial`, `binom_coeff`, `collocation_interpolate_coeffs`, `get_coefficients`, `verify_solver_coeffs`, name lookups, `project_b`, `merge_rk_output`, `construct_R`, `newton_solve_stages`, `irk_guts`, both `odeint`, `print_timing_breakdown` | `print_solver_coeffs` and other printing |
| `newton.hpp`, `newton.cpp` | all solvers, wrappers, `approx_jacobi_matrix`, `verify_jacobi_matrix`, `status_message` | the text of progress reports (their number is modelled) |
| `multistep.hpp` | everything | log messages |
| `functor.hpp` | `functor` with the default `compute` | overrides of `compute`; the commented-out sparse variant |
| `test_equations.hpp` | all right-hand sides, Jacobians, energies; exact solutions over R | `m1r`, `m2r` (never read) and the setters |
| `stability_region/main.cpp` | everything | the text format of its files |
| `examples/example_equations.cpp` | the whole program: `parse_opts`, `read_param`, the `solve_` functions, `int_equation`, `run_batch`, `main` (`Model/Examples.v`) | messages, `print_usage`, `print_output` (never called), a file that cannot be opened |
| other `examples/`, `test*/`, `C_interface_test/` | nothing | unit tests and scripts; `test_orders/main.cpp` and `test_adaptive_step/main.cpp` call `irk::odeint` without output options, an overload the library no longer has, and so do not compile; `C_interface_test/main.c` is empty |

Common simplifications: `size_t` and `long long` counters do not wrap; contraction of `a*b+c` into a fused operation is not modelled; `pow` is a
parameter in binary64.

## 4. Findings

Statements a user would expect and that are false of the code.  Each names the theorem that proves it; the last list
was found by reading only and is not proved.

* Cyclic buffer: index 0 of an empty buffer returns a default element instead of asserting (`C02_empty_buffer_index0_refuted`); a period of 0 makes `push_back` undefined
  (`C02_period0_push_undefined`); `end()` changes the contents (`C03_end_is_harmless_refuted`); `push_back` after `resize` is undefined
  (`C03_resize_then_push_undefined`); iterators are never initialised (`C03_iterators_undefined`).
* Looking up an unknown method name or id inserts it (`C05_lookup_is_readonly_refuted`).
* Some advertised methods are rejected by `get_coefficients` (`C06_advertised_but_rejected`); embedded formulas of some pairs miss their
  advertised order or their weights do not sum to one (`C10_embedded_orders`, `C10_embedded_sums`); collocation with one node gives weight 0
  (`C13_single_node_weight_zero`); binomials overflow from n = 13 on (`C15_binom_overflow`).
* Explicit integrator: `max_steps = n` allows n+1 steps (`C21_erk_step_limit`); in binary64 the last time can exceed t1 or time can stop advancing
  (`C20_*`); a NaN aborts with assertions and is accepted without (`C30_*`); degenerate calls (`C31_*`); the output file is not the recorded solution
  (`C33_erk_file_is_not_the_solution`).
* Implicit integrator: `maxit <= 1` never returns (`C37_*`); `refresh_jac = 0` divides by zero (`C38_*`); IMPLICIT_EULER, LOBATTO_IIIA_43 and
  GAUSS_LEGENDRE_42 among others cannot run, non-adaptive runs never complete a step, and with NDEBUG the LU factorisation disappears together with the assertion around it
  (`C39_*`); the stored stages are always zero (`C40_irk_output_aligned`); the error estimate has an extra factor dt
  (`C50_irk_error_estimate_extra_dt`); merged outputs do not merge the evaluation counters and repeat the junction (`C49_*`).
* Newton and Broyden: convergence in the last allowed iteration is reported as MAXIT_EXCEEDED (`C51_newton_status`); the refresh interval is ignored and the stored
  factors are never used (`C52_*`); the preconditioner reads uninitialised memory (`C53_preconditioner_uninitialised`); Broyden's steps can exceed `max_step`
  (`C54_broyden_max_step_refuted`) and its status is always SUCCESS (`C55_*`); `verify_jacobi_matrix` can never fail (`C57_*`).
* Multistep: the starting values are lost (`C59_*`); Adams-Bashforth evaluates all slopes at the same time (`C60_ab_is_euler_for_quadrature`); the last time can lie beyond t1
  (`C62_*`); the order of Adams-Bashforth is not validated and with NDEBUG the solvers never return (`C63_*`); both solvers are of order one only, whatever the order asked for (`C101_ab_order_one_only`, `C102_bdf_order_one_only`).
* `three_body`: wrong Jacobian, one wrong force, momentum in y not conserved, kinetic energy without masses (`C65_three_body_jacobian_refuted`,
  `C67_three_body_y_momentum_refuted`, `C79_*`).
* Timing breakdown in seconds is off by ten (`C69_breakdown_seconds_off_by_ten`).
* `stability_region`: the region files of explicit methods are computed from empty tables and show 1 everywhere (`C94_explicit_region_files_constant`); the
  embedded files ignore gamma (`C93_embedded_file_lacks_gamma`); methods without embedded weights end the program (`C95_stability_program`).
* The example program (C97, C98, C99): a trailing `--out-interval` constructs a string from the null pointer `argv[argc]`; `time_internals` is read uninitialised unless `--time-internals` was given, so nearly every documented command line has undefined behaviour; the masses of the three-body problem are read uninitialised at the end of the input; exit code 2 is never returned.
* Dense output: `erk::project_b` can never return, because no explicit table has interpolation weights (`C103_no_explicit_dense_output`).

* Fixed steps: without a step limit an explicit run (and adams_bashforth, which has no limit) whose step is at most 2^-55 |t0| never returns (`C109_erk_lost_step_never_returns`, `C112_adams_bashforth_lost_step_never_returns`).
* The first entry of `stages` of every explicit run is uninitialised memory (`C115_erk_initial_stages_uninitialised`).
* bdf depends on the right-hand side beyond t1: two problems that agree up to t1 can get different results (`C130_bdf_uses_only_the_interval_refuted`).
## 5. Trusted base

* Coq 8.16.1's kernel, including its virtual machine (`vm_compute`).
* The reading of the C++ code: nothing ties the model to the code except the citations.
* The meaning given to Armadillo operations (section 1); the class hypotheses appear in the statements.
* The axioms below, all from Coq's standard library.  No axiom is added by this development.

What `Print Assumptions` lists, theorem by theorem:

* **No axioms** (closed under the global context) (76 theorems):
  `C01_cyclic_buffer_window`, `C02_empty_buffer_index0_refuted`, `C02_index_beyond_size_aborts`, `C02_period0_push_undefined`, `C03_end_harmless_otherwise`, `C03_end_is_harmless_refuted`, `C03_end_shifts_contents`, `C03_iterators_undefined`, `C03_resize_then_push_undefined`, `C04_names_round_trip`, `C04_unknown_lookups`, `C05_all_method_names_after_lookups`, `C05_all_method_names_nodup`, `C05_lookup_is_readonly_refuted`, `C06_explicit_methods_accepted`, `C06_explicit_odeint_rejects`, `C09_reported_orders`, `C12_expand_terms`, `C15_binom_exact`, `C15_binom_overflow`, `C15_factorial_exact`, `C16_erk_output_aligned`, `C17_erk_step_accounting`, `C18_erk_fun_evals_true_count`, `C21_erk_step_limit`, `C32_erk_adaptive_flag_ignored_without_pair`, `C33_erk_file_is_not_the_solution`, `C36_stage_status_every_arithmetic`, `C38_refresh_interval_irrelevant`, `C38_refresh_zero_needs_immediate_convergence`, `C49_merge_concatenates`, `C51_newton_status`, `C51_newton_trace`, `C52_newton_dispatch`, `C52_refresh_interval_ignored`, `C52_stored_factors_unused`, `C55_broyden_always_success`, `C55_broyden_success_without_iterating`, `C57_verify_jacobi_accepts`, `C57_verify_jacobi_never_false`, `C58_approx_jacobi_central_differences`, `C63_bdf_order_validation`, `C68_output_bits_independent`, `C68_output_interval_unchanged`, `C68_write_to_file_has_stream`, `C70_broyden_returns`, `C70_newton_returns`, `C71_broyden_calls`, `C71_newton_calls`, `C80_compute_agrees`, `C80_compute_calls`, `C84_ab_depends_on_its_calls`, `C84_erk_depends_on_its_calls`, `C84_irk_depends_on_its_calls`, `C88_bdf_leaves_functor`, `C97_every_command_line`, `C97_first_error_stops`, `C97_last_setting_wins`, `C98_batch_run_undefined`, `C103_no_explicit_dense_output`, `C108_erk_step_limit_returns`, `C115_erk_deterministic`, `C115_erk_initial_stages_uninitialised`, `C115_irk_deterministic`, `C115_multistep_deterministic`, `C115_newton_deterministic`, `C117_ab_release_build`, `C117_erk_release_build`, `C118_erk_step_limit_cuts`, `C118_irk_step_limit_cuts`, `C121_adams_bashforth_final_time_cuts`, `C121_bdf_final_time_cuts`, `C131_broyden_depends_on_its_calls`, `C131_broyden_ignores_the_jacobian`, `C131_newton_depends_on_its_calls`, `C131_verify_depends_on_its_calls`
* `ClassicalDedekindReals.sig_forall_dec`, `FunctionalExtensionality.functional_extensionality_dep` (28 theorems):
  `C06_advertised_but_rejected`, `C06_implicit_methods_accepted`, `C06_implicit_odeint_rejects`, `C12_expand_is_product`, `C37_iteration_limit_one_never_returns`, `C39_methods_that_cannot_run`, `C39_ndebug_never_steps`, `C39_nonadaptive_never_steps`, `C40_irk_output_aligned`, `C41_irk_step_accounting`, `C42_irk_evaluation_counters_true`, `C47_irk_step_limit`, `C48_irk_file_is_the_accepted_trajectory`, `C49_only_successes_can_be_merged`, `C59_ab_starting_values`, `C59_bdf_starting_values`, `C61_ab_orders`, `C61_bdf_orders`, `C62_ab_grid_every_arithmetic`, `C63_ab_order_not_validated`, `C63_bdf_newton_failure`, `C63_ndebug_never_returns`, `C98_timing_option_required`, `C99_exit_codes`, `C99_refusals`, `C99_returns`, `C99_zero_if_library_returns`, `C103_implicit_dense_output`
* `ClassicalDedekindReals.sig_forall_dec`, `ClassicalDedekindReals.sig_not_dec`, `FunctionalExtensionality.functional_extensionality_dep` (1 theorems):
  `C87_short_steps_solvable`
* `ClassicalDedekindReals.sig_forall_dec`, `ClassicalDedekindReals.sig_not_dec`, `Classical_Prop.classic`, `FunctionalExtensionality.functional_extensionality_dep` (157 theorems):
  `C07_explicit_orders_exact`, `C08_implicit_orders_exact`, `C09_decimal_tables_accurate`, `C10_decimal_embedded_consistent`, `C10_embedded_orders`, `C10_embedded_sums`, `C11_explicit_fsal`, `C11_explicit_rows`, `C11_implicit_fsal`, `C11_implicit_rows`, `C13_collocation_weights`, `C13_single_node_weight_zero`, `C14_dense_output_matches_tableau`, `C19_erk_times_exact`, `C20_erk_never_advances`, `C20_erk_overshoots_t1_refuted`, `C22_erk_accepted_steps_meet_tolerance`, `C23_erk_steps_are_runge_kutta_steps`, `C24_erk_fsal_reuse_is_invisible`, `C25_erk_linear_invariants`, `C26_erk_exact_on_polynomials`, `C27_erk_fixed_steps_terminate`, `C28_erk_adaptive_terminates_bounded`, `C29_erk_controller_bounds`, `C30_erk_nan_aborts`, `C30_erk_nan_accepted`, `C31_erk_degenerate_aborts`, `C31_erk_degenerate_ndebug`, `C31_erk_nonpositive_step_never_returns`, `C34_erk_time_shift`, `C35_erk_linear_stability_function`, `C36_stage_solver_exact`, `C43_irk_times_exact`, `C44_irk_accepted_steps`, `C45_irk_linear_invariants`, `C46_irk_polynomials_decimal`, `C46_irk_polynomials_exact`, `C49_merge_associative`, `C49_merged_runs_repeat_the_junction`, `C50_irk_error_estimate_extra_dt`, `C51_newton_steps_exact`, `C53_newton_linear_systems`, `C53_preconditioner_uninitialised`, `C54_broyden_max_step_refuted`, `C54_broyden_update_length`, `C54_newton_max_step`, `C56_broyden_secant_condition`, `C58_exact_for_quadratic_maps`, `C58_second_order`, `C60_ab_formula`, `C60_ab_is_euler_for_quadrature`, `C62_ab_times`, `C62_bdf_times`, `C64_bdf_exact_for_affine`, `C64_bdf_newton`, `C65_jacobians_are_derivatives`, `C65_three_body_jacobian_refuted`, `C66_exact_solutions`, `C67_conserved_by_adams_bashforth_runs`, `C67_conserved_by_explicit_runs`, `C67_conserved_by_the_equations`, `C67_three_body_x_momentum`, `C67_three_body_y_momentum_rate`, `C67_three_body_y_momentum_refuted`, `C69_breakdown_seconds_off_by_ten`, `C69_breakdown_short_vector_ub`, `C69_elapsed_additive`, `C69_elapsed_is_milliseconds`, `C72_irk_step_size_controller`, `C73_ab_linear_invariants`, `C73_bdf_linear_invariants`, `C74_ab_equilibrium`, `C74_bdf_equilibrium`, `C75_ab_returns`, `C75_bdf_returns`, `C76_irk_never_fails`, `C77_irk_returns`, `C78_multistep_returns_for_small_steps`, `C78_multistep_returns_near`, `C79_three_body_forces`, `C79_three_body_kinetic_energy`, `C81_erk_adaptive_converges`, `C81_erk_converges`, `C81_erk_fixed_converges`, `C82_erk_error_estimate_order`, `C83_erk_adaptive_solves`, `C85_erk_evaluates_in_the_interval`, `C85_erk_outside_irrelevant`, `C85_irk_evaluates_in_the_interval`, `C85_irk_outside_irrelevant`, `C86_irk_adaptive_converges`, `C86_irk_converges`, `C87_irk_returns`, `C87_multistep_returns`, `C89_irk_linear_decay`, `C90_irk_linear_returns`, `C91_stability_function_is_the_factor`, `C91_stability_function_missing`, `C92_left_half_plane`, `C93_embedded_file_lacks_gamma`, `C93_region_files_all_or_nothing`, `C93_region_files_of_implicit_methods`, `C94_explicit_region_files_constant`, `C95_stability_program`, `C96_erk_linear_intervals`, `C100_exponential_run`, `C101_ab_order_one_only`, `C102_bdf_order_one_only`, `C104_dense_ends_at_the_step`, `C104_dense_weights_exact`, `C105_erk_times_in_doubles`, `C106_irk_times_in_doubles`, `C107_erk_fixed_steps_return_in_doubles`, `C109_erk_lost_step_never_returns`, `C110_adams_bashforth_times_in_doubles`, `C110_bdf_times_in_doubles`, `C111_adams_bashforth_returns_in_doubles`, `C111_bdf_returns_in_doubles`, `C112_adams_bashforth_lost_step_never_returns`, `C112_bdf_lost_step_never_succeeds`, `C113_radau_nonlinear_growth`, `C114_newton_converges_locally`, `C116_ab_time_shift`, `C116_bdf_time_shift`, `C116_irk_time_shift`, `C119_erk_mesh_determines_solution`, `C120_erk_longer_interval`, `C120_erk_resumes`, `C122_erk_affine_change`, `C122_erk_affine_change_fixed_steps`, `C123_erk_superposition`, `C123_erk_superposition_fixed_steps`, `C124_erk_equilibrium`, `C124_irk_equilibrium`, `C125_erk_units`, `C126_erk_continuous_dependence`, `C126_fixed_steps_same_times`, `C127_erk_converges_lipschitz`, `C127_erk_fixed_converges_lipschitz`, `C128_ab_affine_change`, `C128_ab_superposition`, `C130_ab_outside_irrelevant`, `C130_bdf_outside_irrelevant`, `C132_bdf_damped_problems`, `C133_bdf_affine_change`, `C133_bdf_superposition`, `C134_bdf_attracted`, `C134_bdf_contractive`, `C137_ab_decays_below_the_limit`, `C137_ab_grows_above_the_limit`, `C138_bdf_damps_without_limit`, `C139_energy_drift`, `C139_energy_of_explicit_steps`, `C139_energy_of_first_order_multistep_runs`, `C141_decay_of_explicit_steps`, `C141_decay_of_first_order_multistep_runs`, `C141_sign_of_decaying_components`
* `ClassicalDedekindReals.sig_forall_dec`, `ClassicalDedekindReals.sig_not_dec`, `ClassicalEpsilon.constructive_indefinite_description`, `Classical_Prop.classic`, `FunctionalExtensionality.functional_extensionality_dep` (9 theorems):
  `C94_explicit_region_files_wrong`, `C101_ab_converges`, `C102_bdf_converges`, `C129_ab_continuous_dependence`, `C130_bdf_uses_only_the_interval_refuted`, `C135_bdf_continuous_dependence`, `C136_irk_converges_lipschitz`, `C140_irk_continuous_dependence`, `C140_irk_times_determine_states_to_tolerance`

The `Example`s beside the theorems may additionally use `Coq.Logic.ClassicalEpsilon.constructive_indefinite_description`, to pick an
exact linear-algebra instance (`choice_LA`).
