{"id": "C01", "title": "Cyclic buffer is a most-recent-first window", "statement": "After any sequence of push_back calls on a cyclic_buffer constructed with period p >= 1, size() is min(number of pushes, p) and buf[i] for every i < size() is the i-th most recently pushed element (buf[0] the newest).", "quantifier": "every period p >= 1, every element type, every finite sequence of pushed values, every index below size()", "why_tests_cant": "The wrap-around of the doubled storage depends on the number of pushes modulo the period; tests only sample some (period, history) pairs.", "anchors": ["cyclic_buffer.hpp: cyclic_buffer(int), push_back, operator[], size"]}
{"id": "C02", "title": "Cyclic buffer never touches memory outside its storage", "statement": "For a buffer constructed with period p >= 1, no push_back of any history and no indexing below size() reads or writes outside the 2*p element storage; an index >= size() is stopped by an assertion, except index 0 of an empty buffer, which returns a never-pushed element. Period 0 (default construction) makes the first push_back undefined behaviour.", "quantifier": "every period, every push history, every index", "why_tests_cant": "An out-of-range std::vector access is undefined behaviour that a passing test does not reveal.", "anchors": ["cyclic_buffer.hpp: cyclic_buffer(), push_back, operator[]"]}
{"id": "C03", "title": "Cyclic buffer iteration and resize contracts", "statement": "Calling end() never changes what operator[] returns and resize(n) leaves a buffer that accepts pushes. Both are violated: end() overwrites the position of the newest element, and after resize the first push_back writes outside the (empty) storage for every n.", "quantifier": "every period and push history after which end() or resize() is called", "why_tests_cant": "Needs a statement about every later observation after the call; the shipped tests never call end() or resize().", "anchors": ["cyclic_buffer.hpp: end, resize, begin, iterator"]}
{"id": "C04", "title": "Method names round-trip under every lookup history", "statement": "For each registered ERK/IRK method id m, name_to_method(method_to_name(m)) == m, and for each registered name s, method_to_name(name_to_method(s)) is s, whatever other lookups (including unknown ids and names) were made before.", "quantifier": "every registered id and name, every earlier sequence of lookups", "why_tests_cant": "The lookups mutate shared static maps, so the contract is about every call history.", "anchors": ["irk.cpp: method_to_name, name_to_method", "erk.cpp: method_to_name, name_to_method", "enums.hpp: FOREACH_IRK_METHOD, FOREACH_ERK_METHOD"]}
{"id": "C05", "title": "Looking up an unknown method pollutes the method list", "statement": "all_method_names() lists exactly the registered names plus every unknown name that was ever passed to name_to_method: a failed lookup returns 0 and permanently adds the name. The natural contract (a lookup does not change the list of methods) is refuted.", "quantifier": "every sequence of lookups", "why_tests_cant": "A history property of static state.", "anchors": ["irk.cpp: all_method_names, name_to_method", "erk.cpp: all_method_names, name_to_method"]}
{"id": "C06", "title": "Unsupported methods are rejected, supported ones accepted", "statement": "get_coefficients(m) passes verify_solver_coeffs exactly for the implemented ids; every other int (including the enumerated LOBATTO_IIIA_85, LOBATTO_IIIC_127, GAUSS_LEGENDRE_63/105 that all_method_names advertises) yields coefficients that fail it, so odeint stops at its assertion before it has called the user's functor or written any output; with NDEBUG it reads the order that was never assigned.", "quantifier": "every int method id", "why_tests_cant": "Quantifies over all ints.", "anchors": ["irk.cpp: get_coefficients, verify_solver_coeffs", "erk.cpp: get_coefficients, verify_solver_coeffs"]}
{"id": "C07", "title": "Explicit tableaux have exactly the advertised order", "statement": "For every explicit method, the weights b satisfy the Butcher order condition of every rooted tree with at most `order` vertices and violate one with order+1 vertices (so the advertised order is exact), and the embedded weights b2 likewise for order2.", "quantifier": "every rooted tree (no bound on shape beyond the order), every implemented explicit method", "why_tests_cant": "A numerical convergence test sees one ODE and one step-size range; the order conditions cover every smooth ODE.", "anchors": ["erk.cpp: get_coefficients"]}
{"id": "C08", "title": "Implicit tableaux with closed-form coefficients have the advertised order", "statement": "IMPLICIT_EULER, RADAU_IIA_32/53, LOBATTO_IIIA_43, LOBATTO_IIIC_43/64/85 and GAUSS_LEGENDRE_42 satisfy the order condition of every rooted tree of at most `order` vertices and fail one of order+1.", "quantifier": "every rooted tree up to the order, over the exact reals (irrational coefficients included)", "why_tests_cant": "As for the explicit tableaux; the coefficients are irrational.", "anchors": ["irk.cpp: get_coefficients"]}
{"id": "C09", "title": "Decimal implicit tableaux satisfy the quadrature and stage-order conditions to rounding level", "statement": "RADAU_IIA_95/137, GAUSS_LEGENDRE_147 and LOBATTO_IIIA_127 satisfy sum b_i c_i^(k-1) = 1/k for all k up to their order (and fail the next one) and sum_j a_ij c_j^(k-1) = c_i^k/k for all k up to the number of stages, up to 1e-16. Every implicit method reports its order and that of its comparison formula, except GAUSS_LEGENDRE_147 and LOBATTO_IIIA_127, whose order fields are never assigned.", "quantifier": "all k in the stated ranges, all stages", "why_tests_cant": "One mistyped digit in ~250 19- to 39-digit literals would silently degrade the order.", "anchors": ["irk.cpp: get_coefficients"]}
{"id": "C10", "title": "Embedded implicit weights: which error estimators are consistent", "statement": "The comparison weights (gamma, b2) satisfy gamma + sum b2 = 1 exactly for RADAU_IIA_53 (and to 1e-13 for RADAU_IIA_95/137, GAUSS_LEGENDRE_147, LOBATTO_IIIA_127) but not for RADAU_IIA_32 (sum 4/3) and LOBATTO_IIIC_85 (about 1.19); the advertised order2 is attained by RADAU_IIA_53's and LOBATTO_IIIA_43's pair but not by LOBATTO_IIIC_43, LOBATTO_IIIC_64 and GAUSS_LEGENDRE_42.", "quantifier": "all order conditions of the embedded pair, each implicit method", "why_tests_cant": "An inconsistent estimator still integrates (with wrong step sizes), so solution tests pass.", "anchors": ["irk.cpp: get_coefficients", "irk.hpp: irk_guts"]}
{"id": "C11", "title": "Abscissae are the row sums of A, and explicit tableaux are explicit", "statement": "For every method c_i = sum_j a_ij (exactly for closed-form tableaux, within 1e-14 for decimal ones), so get_coefficients never prints its mismatch warning; for every explicit method a_ij = 0 for j >= i; every method flagged FSAL has its last row of A equal to b and its first row zero.", "quantifier": "every method, every row", "why_tests_cant": "The check in the code only prints a warning, with tolerance 1e-5.", "anchors": ["irk.cpp: get_coefficients", "erk.cpp: get_coefficients"]}
{"id": "C12", "title": "expand multiplies out symbolic polynomials", "statement": "Interpreting a coefficient list as a sum of products of variables, expand(c1,c2) denotes the product of the denotations, for every assignment of the variables.", "quantifier": "all coefficient lists of any length and degree, all variable assignments", "why_tests_cant": "Quantifies over all lists and values.", "anchors": ["irk.cpp: expand"]}
{"id": "C13", "title": "Collocation interpolation weights integrate the Lagrange basis", "statement": "For every vector c of at least two pairwise distinct nodes, collocation_interpolate_coeffs(c) followed by project_b(theta) yields in entry j the integral from 0 to theta of the j-th Lagrange basis polynomial of c, for every theta. (For a single node the code returns 0 instead of theta.)", "quantifier": "all numbers of nodes >= 2, all distinct real nodes, all theta", "why_tests_cant": "The identity is a polynomial identity for every number of nodes.", "anchors": ["irk.cpp: collocation_interpolate_coeffs, expand, project_b"]}
{"id": "C14", "title": "Dense-output weights agree with the tableau at the nodes", "statement": "For every closed-form method carrying dense-output coefficients, project_b(1) = b and project_b(0) = 0; for the Radau IIA methods project_b(c_i) is row i of A.", "quantifier": "all stages of all closed-form methods with dense output", "why_tests_cant": "Exact equality over the reals.", "anchors": ["irk.cpp: project_b, collocation_interpolate_coeffs, get_coefficients"]}
{"id": "C15", "title": "factorial and binom_coeff are exact exactly up to 12", "statement": "factorial(n) = n! and binom_coeff(n,b) = C(n,b) for 0 <= b <= n <= 12, and factorial(n) overflows a 32-bit int (undefined behaviour) for every n >= 13.", "quantifier": "all int arguments", "why_tests_cant": "Overflow is undefined behaviour.", "anchors": ["irk.cpp: factorial, binom_coeff"]}
{"id": "C16", "title": "ERK output vectors are aligned and start at the initial condition", "statement": "Whenever erk::odeint returns, t_vals, y_vals, stages, err_est and err have one common length, equal to the number of accepted steps plus one; their first entries are t0 and y0; every y entry has the dimension of the right-hand side; this holds for any arithmetic, including NaN.", "quantifier": "every right-hand side (stateful, discontinuous), every interval, method, option set and floating-point behaviour", "why_tests_cant": "Quantifies over all right-hand sides and runs.", "anchors": ["erk.hpp: odeint, erk_guts"]}
{"id": "C17", "title": "ERK step accounting", "statement": "On SUCCESS count.attempt = accepted steps + count.reject_err and accept_frac is accepted/attempt; when the step limit stops the run one further attempt has been counted. elapsed_time and accept_frac are set exactly when status is SUCCESS.", "quantifier": "every run of erk::odeint", "why_tests_cant": "Invariant over every trajectory of accept/reject decisions.", "anchors": ["erk.hpp: erk_guts, rk_output::counters"]}
{"id": "C18", "title": "ERK fun_evals is the true number of right-hand side calls", "statement": "count.fun_evals equals the number of times the user's fun was actually called, namely attempts times stages (stages-1, plus one initial call, for FSAL methods).", "quantifier": "every run of erk::odeint, every right-hand side", "why_tests_cant": "Invariant over every trajectory.", "anchors": ["erk.hpp: erk_guts (eval_fun)"]}
{"id": "C19", "title": "ERK times increase strictly and stop exactly at t1 (exact arithmetic)", "statement": "In exact arithmetic with positive tolerances, every recorded time lies in [t0,t1], recorded times strictly increase, and on SUCCESS the last recorded time is exactly t1.", "quantifier": "every right-hand side, interval, method, option set", "why_tests_cant": "Quantifies over all step-size sequences the controller can produce.", "anchors": ["erk.hpp: erk_guts"]}
{"id": "C20", "title": "ERK may miss t1 in binary64", "statement": "\"Make sure you stop exactly at t = t1\" fails in IEEE double arithmetic: there are finite inputs for which odeint returns SUCCESS with a last time strictly greater than t1; and there are inputs for which t never advances.", "quantifier": "existential witnesses in binary64; all run lengths for the stuck case", "why_tests_cant": "Needs a rare rounding tie; and non-termination cannot be tested.", "anchors": ["erk.hpp: erk_guts"]}
{"id": "C21", "title": "Step limit", "statement": "With max_steps = n >= 0, odeint never records more than n+1 accepted steps; it returns ERROR_MAX_STEPS_EXCEEDED exactly when it needed more, and then n+1 steps were accepted (one more than the documented maximum). With max_steps < 0 the status is always SUCCESS.", "quantifier": "every n, every run", "why_tests_cant": "Off-by-one over all n and all runs.", "anchors": ["erk.hpp: erk_guts", "options.hpp: max_steps"]}
{"id": "C22", "title": "Accepted adaptive ERK steps meet the tolerance", "statement": "With adaptive stepping, every recorded step after the first entry has a recorded err < 1, and err is the larger of 1e-17 and the root mean square over components of |dt*(b2-b).K| / (abs_tol + rel_tol*max(|y_n|,|y_n+1|)), the recorded err_est being that embedded difference.", "quantifier": "every accepted step of every run", "why_tests_cant": "All runs; the tested problems only sample accept/reject paths.", "anchors": ["erk.hpp: erk_guts"]}
{"id": "C23", "title": "Every recorded ERK step is a Runge-Kutta step", "statement": "Consecutive recorded (t,y) pairs are related by the explicit Runge-Kutta map of the method's tableau with step t_{n+1}-t_n, with stage values evaluated at the user's right-hand side, and the recorded stages are those stage values.", "quantifier": "every consecutive pair of recorded values of every run, every method", "why_tests_cant": "Refinement statement over all runs, including after rejections.", "anchors": ["erk.hpp: erk_guts"]}
{"id": "C24", "title": "FSAL reuse never changes the computed solution", "statement": "For the FSAL methods (BOGACKI_SHAMPINE_32, DORMAND_PRINCE_54), in exact arithmetic a run with stage reuse enabled returns the same times, states and errors as a run recomputing the first stage at every attempt.", "quantifier": "every right-hand side, every accept/reject history", "why_tests_cant": "Reuse after a rejected step is the classical bug; it depends on the history.", "anchors": ["erk.hpp: apply_fsal, erk_guts"]}
{"id": "C25", "title": "ERK preserves linear invariants", "statement": "If w.f(t,y) = 0 for all t,y then w.y is constant along every recorded solution (exact arithmetic), for every explicit method and step-size history.", "quantifier": "every w, every right-hand side with that invariant, every run", "why_tests_cant": "All problems with a linear conservation law.", "anchors": ["erk.hpp: erk_guts"]}
{"id": "C26", "title": "ERK is exact on polynomial right-hand sides up to its order", "statement": "If f(t,y) = p(t) with every component a polynomial of degree < order, every recorded value is the exact solution y0 + integral of p (exact arithmetic), whatever steps the controller takes.", "quantifier": "all polynomials up to the degree, all intervals, all step histories, each method", "why_tests_cant": "All polynomials and step sequences.", "anchors": ["erk.hpp: erk_guts", "erk.cpp: get_coefficients"]}
{"id": "C27", "title": "Fixed-step ERK terminates with the expected grid", "statement": "Without adaptivity, for dt > 0 and t0 < t1 in exact arithmetic and a right-hand side that always returns a vector of the right size, odeint terminates, with times t0, t0+dt, ..., t1 and ceil((t1-t0)/dt) steps.", "quantifier": "all intervals, steps, right-hand sides, explicit methods", "why_tests_cant": "Termination.", "anchors": ["erk.hpp: erk_guts"]}
{"id": "C28", "title": "Adaptive ERK terminates for bounded right-hand sides", "statement": "With positive tolerances, exact arithmetic and a right-hand side whose values are bounded, adaptive odeint terminates with SUCCESS: rejections cannot repeat forever.", "quantifier": "all bounded right-hand sides, intervals, tolerances and embedded explicit methods", "why_tests_cant": "Liveness.", "anchors": ["erk.hpp: erk_guts"]}
{"id": "C29", "title": "Step-size controller bounds", "statement": "With adaptive stepping each attempted step is at most 3.6 times the previous one, and at most max_dt when max_dt > 0, except the first attempt, which ignores max_dt; a rejected attempt is followed by a strictly smaller one (exact arithmetic). Fixed-step runs ignore max_dt.", "quantifier": "every pair of consecutive attempts", "why_tests_cant": "All runs.", "anchors": ["erk.hpp: erk_guts", "options.hpp: max_dt"]}
{"id": "C30", "title": "A NaN right-hand side", "statement": "In binary64 with assertions on, an adaptive step whose error estimate is NaN aborts the process; with NDEBUG it is accepted and the run continues with a larger step, returning SUCCESS.", "quantifier": "every state in which the estimate is NaN", "why_tests_cant": "IEEE comparison semantics on every path.", "anchors": ["erk.hpp: erk_guts"]}
{"id": "C31", "title": "Degenerate intervals", "statement": "If t1 <= t0 (exact arithmetic), or dt <= 0, odeint stops at its assertion without ever calling the right-hand side; with NDEBUG and t1 <= t0 it returns SUCCESS with only the initial point.", "quantifier": "all such intervals and steps, every right-hand side", "why_tests_cant": "All inputs.", "anchors": ["erk.hpp: erk_guts", "irk.hpp: irk_guts"]}
{"id": "C32", "title": "ERK ignores the embedded pair when there is none", "statement": "For EXPLICIT_EULER and RUNGE_KUTTA_4, odeint with adaptive stepping requested behaves identically to odeint with it disabled.", "quantifier": "every right-hand side, interval, options", "why_tests_cant": "All inputs.", "anchors": ["erk.hpp: odeint"]}
{"id": "C33", "title": "ERK file output differs from the recorded solution", "statement": "With write_to_file, one line is written per attempt (accepted or not), carrying the time at the start of the step with the state at its end; output_interval is ignored. Hence the file never contains the pair (t1,y(t1)), and the file is not the recorded solution.", "quantifier": "every run", "why_tests_cant": "All runs.", "anchors": ["erk.hpp: erk_guts"]}
{"id": "C34", "title": "Time-shift equivariance of ERK", "statement": "In exact arithmetic, integrating f over [t0+s,t1+s] gives the same states and errors as integrating (t,y) -> f(t+s,y) over [t0,t1], with all times shifted by s.", "quantifier": "all shifts, right-hand sides, methods and options", "why_tests_cant": "Metamorphic relation over all runs.", "anchors": ["erk.hpp: erk_guts"]}
{"id": "C35", "title": "ERK on the linear test equation applies the stability function", "statement": "For y' = lambda*y each recorded step multiplies y by the method's stability polynomial at lambda*dt, which agrees with the exponential series through the method's order.", "quantifier": "all lambda, step histories, explicit methods", "why_tests_cant": "All lambda and steps.", "anchors": ["erk.hpp: erk_guts", "erk.cpp: get_coefficients"]}
{"id": "C36", "title": "Stage solver: status is meaningful", "statement": "If newton_solve_stages reports SUCCESS then the squared norm of the residual of the stage equations at the returned stages is below Rtol^2 or the last increment was below xtol in norm; otherwise it reports MAXIT_EXCEEDED after exactly max(1,maxit) - 1 iterations.", "quantifier": "every right-hand side, Jacobian, tolerance, iteration limit, arithmetic", "why_tests_cant": "All runs of the iteration.", "anchors": ["irk.hpp: newton_solve_stages, construct_R"]}
{"id": "C37", "title": "An iteration limit of 1 or less makes the implicit solver loop forever", "statement": "If newton_opts.maxit <= 1, the stage solver never succeeds, so adaptive irk::odeint never returns (exact arithmetic), and the non-adaptive one returns GENERAL_ERROR with only the initial point.", "quantifier": "every right-hand side, method, interval", "why_tests_cant": "Non-termination cannot be tested.", "anchors": ["irk.hpp: newton_solve_stages, irk_guts"]}
{"id": "C38", "title": "Jacobian refresh interval is irrelevant to the result", "statement": "For a functor without hidden state the solution returned by irk::odeint does not depend on newton_opts.refresh_jac > 0 (only jac_evals does); refresh_jac = 0, documented as 'never update', is a division by zero as soon as one iteration does not converge.", "quantifier": "every right-hand side and refresh interval", "why_tests_cant": "Equality of all runs.", "anchors": ["irk.hpp: irk_guts", "newton.hpp: options::refresh_jac"]}
{"id": "C39", "title": "Which implicit methods can run at all", "statement": "irk::odeint throws for every input with IMPLICIT_EULER (no embedded weights), LOBATTO_IIIA_43 and GAUSS_LEGENDRE_42 (singular A); it reads uninitialised order fields for GAUSS_LEGENDRE_147 and LOBATTO_IIIA_127; it stops at an assertion (with NDEBUG: undefined behaviour) for the enumerators without coefficients; with adaptive stepping disabled no step is ever completed (it throws on the first step whose stage equations converge), for every method; compiled with NDEBUG no step is ever completed either (it throws on the first Newton iteration).", "quantifier": "every right-hand side, interval and option set", "why_tests_cant": "Universal failure over all inputs.", "anchors": ["irk.hpp: irk_guts, newton_solve_stages", "irk.cpp: get_coefficients"]}
{"id": "C40", "title": "IRK output alignment", "statement": "Whenever irk::odeint returns, t_vals, y_vals, stages, err_est and err have a common length and start with (t0,y0); with storing disabled they hold only the initial point; with output interval k exactly the accepted steps whose number is a multiple of k are stored; every stored stages entry is the zero vector.", "quantifier": "every run, every output option", "why_tests_cant": "All runs.", "anchors": ["irk.hpp: irk_guts"]}
{"id": "C41", "title": "IRK step accounting", "statement": "count.attempt = count.newton_success + count.reject_newton (+1 when stopped by the step limit or a Newton failure without adaptivity), count.newton_success = accepted steps + count.reject_err, reject_newton = newton_maxit_exceed, and accept_frac = accepted/attempt on SUCCESS.", "quantifier": "every run of irk::odeint", "why_tests_cant": "Invariant over all runs.", "anchors": ["irk.hpp: irk_guts"]}
{"id": "C42", "title": "IRK evaluation counters are the true numbers of calls", "statement": "count.fun_evals and count.jac_evals equal the numbers of times the user's fun and jac were called.", "quantifier": "every run of irk::odeint, every functor", "why_tests_cant": "Invariant over all runs.", "anchors": ["irk.hpp: newton_solve_stages, irk_guts"]}
{"id": "C43", "title": "IRK times increase strictly and stop exactly at t1 (exact arithmetic)", "statement": "In exact arithmetic recorded times strictly increase within [t0,t1], and on SUCCESS (storing every step) the last one is t1.", "quantifier": "every right-hand side, interval, method, option set", "why_tests_cant": "All step-size sequences.", "anchors": ["irk.hpp: irk_guts"]}
{"id": "C44", "title": "IRK accepted steps satisfy the Runge-Kutta equations up to the Newton tolerance", "statement": "For every accepted step there are stages z_1..z_s with y_{n+1} = y_n + sum_i d_i z_i (d = A^-T b), whose defect z_i - dt*sum_j a_ij f(t+c_j dt, y_n+z_j) is the residual controlled by the stage solver's SUCCESS criterion, and err <= 1 is recorded under adaptivity. If the defect is zero the step is exactly the implicit Runge-Kutta step of the tableau.", "quantifier": "every accepted step of every run", "why_tests_cant": "All runs.", "anchors": ["irk.hpp: irk_guts, newton_solve_stages"]}
{"id": "C45", "title": "IRK preserves linear invariants", "statement": "If w.f = 0 and w.J = 0 everywhere then w.y is constant along every recorded implicit solution (exact arithmetic and exact linear solves), even though Newton's iteration is truncated.", "quantifier": "every w, problem, method, run", "why_tests_cant": "All problems with a linear conservation law.", "anchors": ["irk.hpp: irk_guts, newton_solve_stages"]}
{"id": "C46", "title": "IRK is exact on polynomial right-hand sides up to its order", "statement": "If f(t,y)=p(t) with components of degree < order and the Jacobian is 0, every recorded value is the exact solution (exact arithmetic).", "quantifier": "all such polynomials, intervals, step histories", "why_tests_cant": "All polynomials.", "anchors": ["irk.hpp: irk_guts", "irk.cpp: get_coefficients"]}
{"id": "C47", "title": "IRK step limit", "statement": "As for ERK: with max_steps = n >= 0 at most n+1 steps are accepted and the status is ERROR_MAX_STEPS_EXCEEDED exactly when the limit stopped the run; rejected attempts are not limited.", "quantifier": "every n, every run", "why_tests_cant": "All runs.", "anchors": ["irk.hpp: irk_guts"]}
{"id": "C48", "title": "IRK file output is the accepted trajectory", "statement": "With write_to_file each line written is an accepted pair (t_{n},y_{n}) with n a multiple of output_interval, in order, and with vectors also stored the file holds exactly the stored entries after the first; output_interval = 0 is undefined behaviour at the first accepted step.", "quantifier": "every run", "why_tests_cant": "All runs.", "anchors": ["irk.hpp: irk_guts"]}
{"id": "C49", "title": "Merging two solutions", "statement": "merge_rk_output concatenates all vectors in order, ors the statuses, adds attempt/reject/newton counters and averages accept_frac weighted by stored points; a solution that did not end with SUCCESS cannot be merged (its elapsed_time and accept_frac are uninitialised); merging a run to t1 with one from t1 records t1 twice; the merged fun_evals and jac_evals are those of the first solution only; merging is associative on the concatenated data.", "quantifier": "all pairs and triples of solutions", "why_tests_cant": "All inputs.", "anchors": ["irk.cpp: merge_rk_output"]}
{"id": "C50", "title": "IRK error estimate carries a spurious factor dt", "statement": "The recorded error estimate of an implicit step is dt times the solution of (I - gamma*dt*J) e = gamma*dt*f + (embedded - main) increment, i.e. dt times the estimate documented by the cited formula 8.19.", "quantifier": "every accepted step with exact linear solves", "why_tests_cant": "All runs.", "anchors": ["irk.hpp: irk_guts"]}
{"id": "C51", "title": "newton_iterate: status, iteration count and return value", "statement": "newton_iterate performs at most max(0,maxit) iterations; it returns the last iterate exactly when it reports SUCCESS and otherwise the unchanged initial guess; SUCCESS with maxit > 0 implies the last direction had infinity norm below dx_delta and the final residual norm is finite; using all maxit iterations is reported as MAXIT_EXCEEDED even if the last one converged; a negative maxit reports SUCCESS without iterating.", "quantifier": "every system, options, arithmetic", "why_tests_cant": "All runs.", "anchors": ["newton.hpp: newton_iterate, newton_iterate_impl"]}
{"id": "C52", "title": "newton_iterate dispatch", "statement": "For every combination of options newton_iterate behaves as the implementation with exactly those flags; any refresh_jac > 0 behaves like 1 (the Jacobian is recomputed at every iteration, the documented interval is ignored), refresh_jac <= 0 never recomputes; the stored-LU branch is never taken.", "quantifier": "every option record", "why_tests_cant": "All ints.", "anchors": ["newton.hpp: newton_iterate, newton_iterate_impl"]}
{"id": "C53", "title": "Newton solves linear systems in one step", "statement": "For F(x) = M x - b with M invertible and exact solves, with any refresh/precondition flag (and no damping), the first iterate is the exact root, and a second one has zero increment.", "quantifier": "all invertible systems, all initial guesses", "why_tests_cant": "All systems.", "anchors": ["newton.hpp: newton_iterate_impl"]}
{"id": "C54", "title": "max_step bounds the Newton update but not the Broyden update", "statement": "With max_step = m > 0 every Newton update has Euclidean length at most m (exact arithmetic). In broyden_iterate the damping factor is applied twice, so a limited update has length m/lambda > m when the residual is non-zero.", "quantifier": "every iteration of every run", "why_tests_cant": "All runs.", "anchors": ["newton.hpp: newton_iterate_impl, broyden_iterate"]}
{"id": "C55", "title": "broyden_iterate always reports SUCCESS", "statement": "For every system, initial guess and options, if broyden_iterate returns then its status is SUCCESS, even when it stopped at maxit without meeting any tolerance.", "quantifier": "every run", "why_tests_cant": "All inputs.", "anchors": ["newton.hpp: broyden_iterate"]}
{"id": "C56", "title": "Broyden update satisfies the secant condition", "statement": "After each iteration with non-zero denominator the updated inverse Jacobian maps the last change of the residual to the last change of x (exact arithmetic).", "quantifier": "every iteration of every run", "why_tests_cant": "All runs.", "anchors": ["newton.hpp: broyden_iterate"]}
{"id": "C57", "title": "verify_jacobi_matrix accepts every Jacobian", "statement": "verify_jacobi_matrix returns true for every function, point and claimed Jacobian of the right size: the documented check ('false otherwise') never fires.", "quantifier": "all functions, Jacobians and points, any arithmetic in which 0 is not greater than 1e-12", "why_tests_cant": "All inputs.", "anchors": ["newton.hpp: verify_jacobi_matrix"]}
{"id": "C58", "title": "approx_jacobi_matrix is exact for quadratic maps and second-order accurate", "statement": "For h <> 0 the finite-difference Jacobian equals the exact Jacobian of every component-wise quadratic map at every point; for a three times differentiable map each entry differs from the partial derivative by at most h^2*M/6 where M bounds the third derivative along that coordinate.", "quantifier": "all quadratic / C^3 maps, points and h", "why_tests_cant": "All functions.", "anchors": ["newton.hpp: approx_jacobi_matrix"]}
{"id": "C59", "title": "Multistep starting values are all equal to the initial value", "statement": "Whenever adams_bashforth (order k) or bdf (order k) returns a solution, its first k (resp. k+1) recorded values are all exactly y0 although their times are t0, t0+dt, ...: the starter's result is discarded. The natural contract (starting values approximate the solution) is refuted.", "quantifier": "every right-hand side, step and order", "why_tests_cant": "All right-hand sides.", "anchors": ["multistep.hpp: bootstrap_history, adams_bashforth, bdf"]}
{"id": "C60", "title": "Adams-Bashforth formula", "statement": "Each Adams-Bashforth step of order k adds dt times the order-k Adams-Bashforth combination of the right-hand side at the k most recent recorded states, all evaluated at the current time; for autonomous systems this is the Adams-Bashforth formula, for f(t,y)=g(t) it degenerates to Euler's method.", "quantifier": "every step of every run, orders 1..5", "why_tests_cant": "All runs.", "anchors": ["multistep.hpp: adams_bashforth_step, adams_bashforth", "cyclic_buffer.hpp"]}
{"id": "C61", "title": "Adams-Bashforth and BDF coefficients have the right order", "statement": "The order-k formulas used reproduce every polynomial of degree at most k exactly, for every time and step size, for every k = 1..5 (Adams-Bashforth) and k = 1..6 (BDF), and not every polynomial of degree k+1.", "quantifier": "all polynomials of degree <= k, all orders", "why_tests_cant": "Exactness on every polynomial.", "anchors": ["multistep.hpp: adams_bashforth_step, bdf"]}
{"id": "C62", "title": "Multistep time grid", "statement": "Recorded times are t0 + i*dt with no clipping to t1 (exact arithmetic): the last time is the first grid point >= t1, or the last starting time if that lies beyond t1.", "quantifier": "every interval, step and order", "why_tests_cant": "All intervals.", "anchors": ["multistep.hpp: adams_bashforth, bdf"]}
{"id": "C63", "title": "BDF order validation and Newton failure", "statement": "bdf returns GENERAL_ERROR with an empty solution for every order <= 0 or > 6 without calling the right-hand side, and INTERNAL_SOLVE_FAILURE with the steps completed so far when Newton's method fails; adams_bashforth does not validate its order: a negative one throws, 0 is undefined, beyond 5 it aborts or returns y0 at all times; compiled with NDEBUG neither adams_bashforth (order >= 2) nor bdf ever returns a solution.", "quantifier": "all orders, all runs", "why_tests_cant": "All ints.", "anchors": ["multistep.hpp: bdf, adams_bashforth, bootstrap_history"]}
{"id": "C64", "title": "Every BDF step solves the BDF equation", "statement": "Each recorded BDF value beyond the starting ones is the end of a Newton iteration for the order-k BDF equation with the k most recent recorded values, stopped by the first increment below 1e-10 before the 500th iteration; for right-hand sides affine in y (with their Jacobian) the equation is satisfied exactly and the run succeeds.", "quantifier": "every step of every run, orders 1..6", "why_tests_cant": "All runs.", "anchors": ["multistep.hpp: bdf"]}
{"id": "C65", "title": "Shipped example Jacobians are the derivatives of their right-hand sides", "statement": "For exponential, harmonic, vdpol, bruss, rober, dimer, stiff_eq, kinetic_4 and lorenz, jac(t,y)(i,j) is the partial derivative of fun(t,y)_i with respect to y_j at every point and parameter value; for three_body it is not.", "quantifier": "all states, times and parameters", "why_tests_cant": "All points.", "anchors": ["test_equations.hpp"]}
{"id": "C66", "title": "Shipped exact solutions satisfy their equations", "statement": "The sol functions of exponential, harmonic and stiff_eq are solutions of the corresponding ODE for every t and parameter.", "quantifier": "all t, parameters", "why_tests_cant": "All t.", "anchors": ["test_equations.hpp"]}
{"id": "C67", "title": "Shipped examples obey their conservation laws", "statement": "rober conserves the sum of components, dimer and kinetic_4 the monomer mass, harmonic the energy; every value recorded by an explicit Runge-Kutta or Adams-Bashforth run on rober, dimer or kinetic_4 has the conserved total of y0; three_body conserves total x-momentum but not total y-momentum, because of a wrong term.", "quantifier": "all states and parameters", "why_tests_cant": "All states.", "anchors": ["test_equations.hpp"]}
{"id": "C68", "title": "Output mode bits are independent", "statement": "After any sequence of set_output_stream / enable / disable_store_in_vectors the two predicates store_in_vectors and write_to_file report exactly the last setting of each; write_to_file can only be true through set_output_stream or direct assignment, and set_output_stream always leaves a valid stream.", "quantifier": "every sequence of calls", "why_tests_cant": "All histories.", "anchors": ["options.hpp: output_options"]}
{"id": "C69", "title": "Timing units", "statement": "my_timer's elapsed time is the difference of the two clock readings in milliseconds, additive over consecutive intervals; print_timing_breakdown reports percentages that are scale independent but prints seconds that are ten times too small when the total exceeds one second.", "quantifier": "all clock readings, all timing vectors", "why_tests_cant": "All inputs.", "anchors": ["my_timer.hpp", "irk.hpp: print_timing_breakdown"]}
{"id": "C70", "title": "The root finders always return", "statement": "newton_iterate and broyden_iterate return, without an exception and after finitely many iterations, for every system that answers with vectors (and matrices) of the dimension of the initial guess, whatever the options, the arithmetic and the behaviour of the linear solver.", "quantifier": "every system of matching dimension, every option record, every arithmetic", "why_tests_cant": "All inputs.", "anchors": ["newton.hpp: newton_iterate, broyden_iterate"]}
{"id": "C71", "title": "Number of calls of the system", "statement": "newton_iterate calls fun exactly iters+1 times and jac exactly iters+1 times (refresh_jac > 0) or once (refresh_jac <= 0); broyden_iterate calls fun exactly iters times and never jac.", "quantifier": "every run", "why_tests_cant": "All runs.", "anchors": ["newton.hpp: newton_iterate, broyden_iterate"]}
{"id": "C72", "title": "IRK step size controller", "statement": "The first attempt of irk::odeint uses min(dt, t1-t0); after a failed Newton iteration the next attempt uses exactly 0.7 times the step (clipped at t1); after an attempt whose error exceeds 1 the step shrinks by at least the factor 0.9; after an accepted step it grows at most by the factor 7.2; after either it is at most max_dt (if max_dt > 0); no attempt ever has a step that is not positive or reaches beyond t1.", "quantifier": "every right-hand side, every method, every option record, every run that returns (exact arithmetic and linear algebra)", "why_tests_cant": "All runs; sequences of attempts of any length.", "anchors": ["irk.hpp: irk_guts"]}
{"id": "C73", "title": "Multistep linear invariants", "statement": "If a weighted sum of the components of the right-hand side (and, for bdf, of each column of its Jacobian) vanishes identically, every recorded value of adams_bashforth and bdf has the same weighted sum as y0.", "quantifier": "every right-hand side with a linear invariant, every run (exact arithmetic; bdf: with invertible Newton matrices)", "why_tests_cant": "All right-hand sides and runs.", "anchors": ["multistep.hpp: adams_bashforth, bdf"]}
{"id": "C74", "title": "Multistep solvers preserve equilibria", "statement": "If the right-hand side vanishes at y0 for all t, every value recorded by adams_bashforth and bdf is exactly y0.", "quantifier": "every right-hand side, every run (exact arithmetic; bdf: with invertible Newton matrices)", "why_tests_cant": "All right-hand sides and runs.", "anchors": ["multistep.hpp: adams_bashforth, bdf"]}
{"id": "C75", "title": "Multistep solvers return whenever their starter does", "statement": "adams_bashforth (orders 1..5) and bdf (orders 1..6) return after finitely many steps for every t0 < t1, dt > 0 and every right-hand side (and Jacobian) of matching dimension for which irk::odeint returns on an interval of one step; order 1 of adams_bashforth needs no starter.", "quantifier": "every right-hand side of matching dimension, interval, step size and order (exact arithmetic)", "why_tests_cant": "Termination for all inputs.", "anchors": ["multistep.hpp: adams_bashforth, bdf, bootstrap_history"]}
{"id": "C76", "title": "The implicit integrator never fails on well-posed problems", "statement": "With adaptive stepping, one of the seven runnable methods, assertions on, newton maxit >= 0, refresh_jac <> 0 and usable output options, irk::odeint never throws, never aborts and never runs into undefined behaviour, for every right-hand side and Jacobian that answer with the dimension of y0 and whose linear systems (I - h A x J and I - gamma h J, 0 < h <= hmax) are solvable, when t1-t0, or both dt and max_dt, are at most hmax, as long as the run makes so few steps that the growing iteration limit stays within an int.", "quantifier": "every such problem, interval, step size, tolerance and option record (exact arithmetic and linear algebra)", "why_tests_cant": "All problems and all runs, of any length.", "anchors": ["irk.hpp: odeint, irk_guts, newton_solve_stages, construct_R"]}
{"id": "C77", "title": "The implicit integrator returns for bounded problems", "statement": "If moreover maxit >= 2, the tolerances are positive, a step limit is set, and right-hand side and Jacobian are bounded, irk::odeint returns: neither Newton failures nor rejected steps can go on forever.", "quantifier": "every such problem, interval, step size and option record (exact arithmetic and linear algebra)", "why_tests_cant": "Termination for all inputs.", "anchors": ["irk.hpp: odeint, irk_guts"]}
{"id": "C78", "title": "Multistep solvers return for small steps", "statement": "For every bounded problem with solvable linear systems there is a step size below which adams_bashforth (orders 1..5) and bdf (orders 1..6) return, on every interval and from every initial value. A bound on the slopes near the initial values in question is enough, so the linear problems are covered.", "quantifier": "every such problem, interval, initial value, order and small enough step (exact arithmetic and linear algebra)", "why_tests_cant": "Termination for all inputs.", "anchors": ["multistep.hpp: adams_bashforth, bdf, bootstrap_history"]}
{"id": "C79", "title": "three_body forces derive from its potential, except one", "statement": "At every state with distinct positions and for all masses, each momentum rate returned by three_body.fun is minus the partial derivative of pot_energy, except the second body's y-momentum, which is off by m2 m3 (dx - dy)/r^3; kin_energy is half the sum of the squared momenta whatever the masses.", "quantifier": "all masses, times and states with distinct positions", "why_tests_cant": "All states.", "anchors": ["test_equations.hpp: three_body::fun, pot_energy, kin_energy"]}
{"id": "C80", "title": "functor::compute agrees with fun and jac", "statement": "The default compute(t,y,J,calc_J) returns fun(t,y), leaves J equal to jac(t,y) if calc_J and untouched otherwise, and calls jac only on request, before fun, each at most once.", "quantifier": "all functors, times, states, matrices and both values of calc_J", "why_tests_cant": "All functors.", "anchors": ["functor.hpp: functor::compute"]}
{"id": "C81", "title": "The explicit integrator converges with the order of its method", "statement": "If phi solves y' = f(t,y) on [t0,t1] and f has P bounded derivatives near the graph of phi, then for each explicit method of order p >= P there are h0 and C such that every run of erk::odeint from phi(t0), fixed or adaptive, whose steps are at most H <= h0, records states within C H^P of phi at every recorded time; fixed-step runs with dt <= h0 succeed and end at t1 within C dt^P of phi(t1); adaptive runs with dt and max_dt at most H satisfy the bound with H.", "quantifier": "every explicit method, every right-hand side and solution of any dimension and smoothness, every interval, step size, tolerance and option record (exact arithmetic)", "why_tests_cant": "All problems and all step sizes; a test sees an order on a few problems.", "anchors": ["erk.hpp: odeint, erk_guts, get_coefficients"]}
{"id": "C82", "title": "The error estimate has the order of the comparison formula", "statement": "For an adaptive run of erk::odeint with an embedded method whose comparison formula has order q, on a problem with q bounded derivatives near its solution, there are h0 and C such that, if all steps are at most h0, the error estimate recorded with a step of size h is at most C h^(q+1) in every component.", "quantifier": "every embedded method, right-hand side, solution, interval and option record (exact arithmetic)", "why_tests_cant": "All problems and steps.", "anchors": ["erk.hpp: odeint, erk_guts (err_est)"]}
{"id": "C83", "title": "Adaptive runs return on every smooth problem and converge", "statement": "On a problem as in the convergence property (a solution phi on [t0,t1], f smooth near it; no global bound on f), an adaptive run of erk::odeint with an embedded method, positive absolute tolerance, no step limit and dt, max_dt at most H <= h0 returns with SUCCESS, ends at t1 and stays within C H^P of phi.", "quantifier": "every embedded method, problem, interval, tolerance and small enough step limit (exact arithmetic)", "why_tests_cant": "Termination and accuracy for all problems.", "anchors": ["erk.hpp: odeint, erk_guts"]}
{"id": "C84", "title": "A run depends on the problem only through the evaluations it makes", "statement": "Whatever the arithmetic, the linear algebra and the outcome (success, failure, abort, exception, undefined behaviour, no return within the given iterations): if every evaluation of fun and jac made by a run of erk::odeint, irk::odeint or adams_bashforth with one functor is answered in the same way by another, the run with the other functor is the same: same outcome, same output file, same final state.", "quantifier": "all functors (stateful ones included), options, methods, intervals and both kinds of evaluations; every arithmetic", "why_tests_cant": "Quantifies over pairs of functors.", "anchors": ["erk.hpp: odeint", "irk.hpp: odeint, newton_solve_stages", "multistep.hpp: adams_bashforth"]}
{"id": "C85", "title": "The right-hand side is evaluated only inside the integration interval", "statement": "In exact arithmetic, every evaluation made by erk::odeint or irk::odeint, whether the run succeeds or not, is at a time between t0 and t1, so two problems that agree there have the same runs. (Either assertions are compiled in, or t0 < t1 and dt > 0.)", "quantifier": "every method, problem, option record, interval and outcome (exact arithmetic)", "why_tests_cant": "All evaluations of all runs.", "anchors": ["erk.hpp: erk_guts", "irk.hpp: irk_guts, newton_solve_stages, construct_R"]}
{"id": "C86", "title": "The implicit integrator converges with the order of its method", "statement": "If phi solves y' = f(t,y) on [t0,t1], f is Lipschitz in y and has P bounded derivatives near the graph of phi, and the Jacobian answered is bounded, then for each runnable implicit method of order p >= P there are h0 and C such that every run of irk::odeint from phi(t0) that stores all its steps, with steps of at most H <= h0 and Newton tolerances tol, dx_delta of at most tau (number of steps times tau at most h0), records after k steps a state within C (H^P + k tau) of phi. The hypothesis about the steps holds when dt and max_dt are at most H. The Jacobian need not be that of f.", "quantifier": "the runnable methods with exact coefficients (orders 3, 5, 4, 6, 8), every right-hand side, solution and Jacobian, every interval, step size, tolerance and option record (exact arithmetic and linear algebra)", "why_tests_cant": "All problems and all step sizes.", "anchors": ["irk.hpp: odeint, irk_guts, newton_solve_stages, get_coefficients"]}
{"id": "C87", "title": "Short steps make the linear systems of the implicit integrator solvable", "statement": "For every table of coefficients, dimension and bound K on the Jacobian there is a step size below which the matrices of Newton's iteration (I - h A x J) and of the error estimate (I - gamma h J) are all invertible; consequently adams_bashforth and bdf return for small steps, and irk::odeint (with a step limit) for small dt and max_dt, on every problem with bounded right-hand side and Jacobian.", "quantifier": "all coefficients, dimensions, bounds, functors and small enough steps (exact arithmetic and linear algebra)", "why_tests_cant": "All Jacobians.", "anchors": ["irk.hpp: refresh_jacobi_matrix, newton_solve_stages", "multistep.hpp: adams_bashforth, bdf, bootstrap_history"]}
{"id": "C88", "title": "bdf leaves the caller's functor as starting up left it", "statement": "bdf solves its equations with a copy of the caller's functor: the state of the functor (and the output) after bdf is what the starting integrator made of it. In particular it does not depend on the end time, as long as the first step fits: a functor that counts its evaluations does not see those of the integration itself.", "quantifier": "all functors, orders (invalid ones too), step sizes, pairs of end times, outcomes and arithmetics", "why_tests_cant": "Quantifies over functors with state and over pairs of runs.", "anchors": ["multistep.hpp: bdf, newton_multistep_helper"]}
{"id": "C89", "title": "Implicit runs on damped linear problems never grow, whatever the step sizes", "statement": "If <Gx,x> <= -mu |x|^2 for all x (mu >= 0), then in every run of irk::odeint on y' = G y with the closed-form Radau IIA and Lobatto IIIC methods that returns, for every initial state, interval, first step and option record, the recorded states satisfy (1 + 2 mu b (t_j - t_i)) |y_j|^2 <= |y_i|^2 for i < j, where b is the last weight of the method. In particular no recorded state is longer than an earlier one, however stiff the problem and however long the steps.", "quantifier": "all linear problems with that property (any dimension), all runs, options and step sizes; RADAU_IIA_32, RADAU_IIA_53, LOBATTO_IIIC_43, LOBATTO_IIIC_64, LOBATTO_IIIC_85 (exact arithmetic and linear algebra)", "why_tests_cant": "All matrices, dimensions and sequences of step sizes.", "anchors": ["irk.hpp: odeint, irk_guts, newton_solve_stages, get_coefficients"]}
{"id": "C90", "title": "Implicit runs on damped linear problems return", "statement": "On every linear problem y' = G y with <Gx,x> <= 0, an adaptive run of irk::odeint with a step limit and positive tolerances returns a solution: the linear systems are solvable for every step size and the step size control leaves every state it visits.", "quantifier": "all such G, initial states, intervals, first steps and tolerances; the five methods above (exact arithmetic and linear algebra)", "why_tests_cant": "All problems and step sizes.", "anchors": ["irk.hpp: odeint, irk_guts, newton_solve_stages"]}
{"id": "C91", "title": "The stability program computes amplification factors", "statement": "The stability_function of the stability_region program returns, for a point z and a table (A,b), the complex number by which every step with h lambda = z multiplies the solutions of y' = lambda y, and such steps exist; it fails only if the sizes of the table do not fit (logic_error) or I - zA is singular (runtime_error).", "quantifier": "all tables of all sizes, all points, all lambda, h and states (exact complex arithmetic)", "why_tests_cant": "All complex points and all tables.", "anchors": ["stability_region/main.cpp: stability_function"]}
{"id": "C92", "title": "The implicit methods are A-stable in the stability program", "statement": "For the closed-form Radau IIA and Lobatto IIIC methods stability_function never fails in the left half plane, and its value v at z satisfies |v| <= 1 and (1 - 2 b Re z) |v|^2 <= 1, where b is the last weight of the method.", "quantifier": "the five methods and every z with Re z <= 0 (exact arithmetic)", "why_tests_cant": "A half plane of points.", "anchors": ["stability_region/main.cpp: stability_function", "irk.cpp: get_coefficients"]}
{"id": "C93", "title": "Region files show the growth of implicit methods, completely or not at all", "statement": "For the name of an implicit method, when the region file is written, each of its lines gives a grid point and the factor by which the modulus grows there with the chosen weights; otherwise nothing is written and the value at some grid point is missing. The embedded file uses the weights b2 alone: the factor of the comparison formula itself differs from it by gamma z.", "quantifier": "all names of implicit methods, both files, all grid points (exact arithmetic)", "why_tests_cant": "All points of a file and all methods at once.", "anchors": ["stability_region/main.cpp: stability_region, rk_to_stab_region"]}
{"id": "C94", "title": "Region files of explicit methods claim factor one everywhere", "statement": "For the name of an explicit method (or of an implicit method without coefficients) both region files are written and show the value 1 at every grid point, because the coefficients are looked up among the implicit methods; but the factor of every explicit method at z = -1/2 lies strictly between 0 and 1.", "quantifier": "all explicit methods and both files", "why_tests_cant": "A statement about whole files for all names.", "anchors": ["stability_region/main.cpp: stability_region", "irk.cpp: get_coefficients"]}
{"id": "C95", "title": "How the stability program ends", "statement": "Without an argument the program writes nothing and returns -1; with a name that is no method it dies with logic_error before the first line; with an embedded explicit method it returns 0 and its third file shows the moduli of the stability polynomials of both formulas; with an explicit method without embedded weights it dies with logic_error after the heading of the third file; with IMPLICIT_EULER after the first file, which shows 1/|1 - z|.", "quantifier": "all argument strings of these kinds (exact arithmetic)", "why_tests_cant": "All argument strings.", "anchors": ["stability_region/main.cpp: main, stability_limit, stability_region"]}
{"id": "C96", "title": "Explicit runs on decaying problems are stable exactly for short steps", "statement": "In every run of erk::odeint on y' = lambda y (component-wise) with lambda <= 0, a step of size h does not increase any component when -lambda h is at most z1, and increases every non-zero component when -lambda h > z2 (for FEHLBERG_54: up to 12 and again from 12.025 on), with a table of z1 and z2 at most 0.001 apart for the six methods: 2, 2.785, 2.512, 3.734, 3.306, 3.677.", "quantifier": "every explicit method, lambda, initial state, dimension, interval, option record and step (exact arithmetic)", "why_tests_cant": "All step sizes and problems; the bound separates stable from unstable step sizes.", "anchors": ["erk.hpp: odeint, erk_guts", "erk.cpp: get_coefficients"]}
{"id": "C97", "title": "The example program takes the last value of every option and stops at the first error", "statement": "Options followed by readable values set the last value given for each setting and the documented defaults for the others; reading stops at the first argument that is no option with its values: help gives 1, an unknown option or a missing value -1, a value other than 0 or 1 of --time-internals -2, an unreadable number a logic_error, and a trailing --out-interval undefined behaviour. Every list of arguments is of one of these forms.", "quantifier": "all lists of argument strings and all readings of strings as numbers", "why_tests_cant": "All command lines.", "anchors": ["examples/example_equations.cpp: parse_opts, user_options"]}
{"id": "C98", "title": "Without --time-internals the example program reads an uninitialised variable", "statement": "Every command line that reaches a known method without --time-internals has undefined behaviour before anything is integrated, and so has the batch run.", "quantifier": "all such command lines, equations, methods and inputs, any arithmetic", "why_tests_cant": "All command lines; the effect of an uninitialised read is invisible to most tests.", "anchors": ["examples/example_equations.cpp: user_options, set_irk_options, set_erk_options, run_batch"]}
{"id": "C99", "title": "Exit codes of the example program", "statement": "The program returns 3 without arguments, 0 after help, -1 for an unreadable command line, an unknown equation or an unknown method, 1 when the robertson run is declined, and otherwise calls the library once with the equation, parameters, tolerances and output asked for, returning 0 exactly if that call returns and dying as it dies; missing masses of the three-body problem are undefined behaviour. Code 2, for failed integrations, is never returned; a code other than 0 means that nothing was integrated; a file is written only if named.", "quantifier": "all command lines, standard inputs, methods and equations, any arithmetic", "why_tests_cant": "All command lines and inputs.", "anchors": ["examples/example_equations.cpp: main, int_equation, solve_exponential, solve_three_body, solve_robertson, read_param"]}
{"id": "C100", "title": "A whole run of the example program with fixed steps", "statement": "On y' = l y with EXPLICIT_EULER or RUNGE_KUTTA_4, t0 < t1, dt > 0, --time-internals and an output file, the program terminates with 0 and the file holds one line per step: the time at which the step starts with the state at its end, which is the product of the factors 1 + z (or the quartic Taylor polynomial) of the steps so far; the last step ends at t1.", "quantifier": "all l, t0, t1, dt, tolerances and command lines of this kind (exact arithmetic)", "why_tests_cant": "All parameters; the number of lines depends on them.", "anchors": ["examples/example_equations.cpp: main, int_equation, solve_exponential", "erk.hpp: odeint"]}
{"id": "C101", "title": "Adams-Bashforth converges, with order one only", "statement": "For f Lipschitz in y and a solution whose slope is bounded and Lipschitz in time, every value adams_bashforth records up to t1 is within C h of the solution, with h = min(dt, t1 - t0) and C independent of dt, whatever order from 1 to 5 is asked for. This is all: for y' = t, y(0) = 0, the error of every computed value is at least h t / 2, for every order.", "quantifier": "all orders 1 to 5, dimensions, such right-hand sides, solutions, intervals and step sizes (exact arithmetic)", "why_tests_cant": "A rate of convergence is a statement about all step sizes; a test at one step size with a loose tolerance passes.", "anchors": ["multistep.hpp: adams_bashforth"]}
{"id": "C102", "title": "BDF converges, with order one only", "statement": "For f Lipschitz in y with bounded Jacobian answers, a solution whose slope is bounded and Lipschitz in time, and small steps, every value bdf records up to t1 is within C (h + 1e-10) of the solution, whatever order from 1 to 6 is asked for (1e-10 is where the Newton iteration stops). This is all: for y' = 1 some value among any k consecutive ones is off by more than 2/5 h, for every order k.", "quantifier": "all orders 1 to 6, dimensions, such right-hand sides, solutions, intervals and small step sizes (exact arithmetic)", "why_tests_cant": "A rate of convergence is a statement about all step sizes; stability of the recurrence over arbitrarily many steps cannot be tested.", "anchors": ["multistep.hpp: bdf"]}
{"id": "C103", "title": "Which methods have dense output", "statement": "project_b returns one weight per stage, for every theta, exactly for RADAU_IIA_32, _53, _95, _137 and LOBATTO_IIIC_85. For every other implemented method, implicit or explicit, the call fails: the assertion aborts the program, or, compiled without assertions, the product with an empty matrix throws logic_error.", "quantifier": "all implemented methods and all theta, any arithmetic, with and without assertions", "why_tests_cant": "All real theta.", "anchors": ["erk.cpp: project_b, get_coefficients", "irk.cpp: project_b, get_coefficients"]}
{"id": "C104", "title": "Dense output integrates polynomials exactly", "statement": "Where it exists, the weights at theta applied to the values at the nodes integrate from 0 to theta every polynomial with at most as many coefficients as the method has stages; at theta = 1 they are the weights of the method, exactly for closed-form tables (C14) and up to 1e-15 for decimal ones.", "quantifier": "all five methods, all theta and all polynomials of that degree (exact arithmetic)", "why_tests_cant": "All real theta and all polynomials.", "anchors": ["irk.cpp: project_b, collocation_interpolate_coeffs, get_coefficients"]}
{"id": "C105", "title": "In doubles an explicit run ends within rounding of t1", "statement": "For finite t0 < t1 below 2^1022 in size and dt > 0: every time an explicit run records in double precision is finite, the times never go back, only the last can reach t1, and a run that reports success ends at or after t1, by at most 2^-52 (t1 - t0 + |t1|). (It need not end exactly at t1: C20.)", "quantifier": "all methods, right-hand sides (NaN included), linear algebra, options, step sizes and double times of this kind; adaptive runs assume that pow of a number without sign bit has no sign bit", "why_tests_cant": "All doubles and all step size histories.", "anchors": ["erk.hpp: odeint, erk_guts"]}
{"id": "C106", "title": "In doubles an implicit run keeps its times in order and ends within rounding of t1", "statement": "With IEEE doubles, finite start and end times with t0 < t1 and of size at most 2^900, a positive initial step and a pow whose result has no sign bit when its base has none: the times an implicit integration returns are finite, never go back, only the last can reach t1 and none lies beyond t1 + 2^-52 (t1 - t0 + |t1|). A successful run that stored every step ends at or after t1.", "quantifier": "All doubles and all step size histories, whatever Newton or Broyden's method does.", "why_tests_cant": "Rounding decides whether the last step lands before, on or after t1. Tests see a few end points.", "anchors": ["irk.hpp: odeint", "irk.hpp: irk_guts"]}
{"id": "C107", "title": "In doubles a fixed-step explicit run returns when its step is not lost in rounding", "statement": "With IEEE doubles, finite t0 < t1 of size at most 2^1022 and a finite step dt > 0 that is at least 2^-52 times the larger of |t0| and |t1|: an explicit integration with a fixed step returns, after at most 2 (t1 - t0) / dt + 42 steps, and reports success unless a step limit was set. (C20 shows a smaller step with which it never returns.)", "quantifier": "all explicit methods, right-hand sides that return a vector of the right length (NaN included), linear algebra, options and double times of this kind", "why_tests_cant": "Whether a sum of doubles moves forward depends on every bit of the times; termination is about all of them.", "anchors": ["erk.hpp: odeint", "erk.hpp: erk_guts"]}
{"id": "C108", "title": "A step limit makes a fixed-step explicit run return, in any arithmetic", "statement": "With max_steps = n >= 0 an explicit integration with a fixed step returns after at most n + 2 turns of its loop, whatever the numbers are: steps lost in rounding, infinities and NaN included.", "quantifier": "all scalar types with 0 == 0, times, states, steps that pass the initial assertion (or builds without assertions), explicit methods and right-hand sides that return a vector of the right length", "why_tests_cant": "Termination for every arithmetic, including runs whose time never advances.", "anchors": ["erk.hpp: odeint", "erk.hpp: erk_guts", "erk.hpp: solver_options max_steps"]}
{"id": "C109", "title": "In doubles a fixed step below 2^-55 |t0| makes an explicit run loop forever", "statement": "With IEEE doubles, finite t0 < t1, t0 of size at most 2^1022, no step limit and a fixed step dt with 0 < dt <= 2^-55 |t0|: erk::odeint never returns, because t0 + dt rounds to t0. Between this bound and that of C107 it may or may not return.", "quantifier": "all explicit methods, right-hand sides, linear algebra, options without adaptivity and without limit, and all double times of this kind", "why_tests_cant": "Non-termination cannot be tested, and the bound is about every double.", "anchors": ["erk.hpp: odeint", "erk.hpp: erk_guts"]}
{"id": "C110", "title": "In doubles the multistep solvers keep their times in order, close to the exact grid, and at most one step beyond t1", "statement": "With IEEE doubles, finite t0 < t1 of size at most 2^1000, a positive step dt and a valid order (up to 5 for adams_bashforth, 1 to 6 for bdf): the recorded times are finite and never go back; the i-th differs from t0 + i h by at most i roundings (i 2^-53 times the largest time), where h is dt or, if t0 + dt would pass t1, t1 - t0; the last time is at most one step and one rounding beyond t1, unless the starting values alone already reach further. adams_bashforth ends at or after t1; bdf ends at or after t1 exactly when it reports SUCCESS, and otherwise reports INTERNAL_SOLVE_FAILURE and ends before t1.", "quantifier": "all doubles of this kind, all right-hand sides, linear algebra and debug settings, all runs that return", "why_tests_cant": "Accumulated rounding of a clock over any number of steps; tests see a few step sizes.", "anchors": ["multistep.hpp: adams_bashforth", "multistep.hpp: bdf"]}
{"id": "C111", "title": "In doubles a multistep solver that gets started returns for every end time, if its step is not lost in rounding", "statement": "With IEEE doubles, finite t0 < t1 of size at most 2^1022 and a finite dt of at least 2^-52 times the larger of |t0| and |t1|: if adams_bashforth (order 1 to 5) or bdf (order 1 to 6) returns for one end time it returns for every end time with the same step, with at most max(number of starting values, 2 (t1 - t0) / dt + 3) recorded times. adams_bashforth of order 1 needs no such call.", "quantifier": "all right-hand sides and Jacobians that return objects of the right size, all doubles of this kind, all linear algebra", "why_tests_cant": "Termination for all doubles.", "anchors": ["multistep.hpp: adams_bashforth", "multistep.hpp: bdf", "multistep.hpp: bootstrap_history"]}
{"id": "C112", "title": "In doubles a multistep solver never reaches t1 with a step below 2^-55 |t0|", "statement": "With IEEE doubles, finite t0 < t1, t0 of size at most 2^1022 and 0 < dt <= 2^-55 |t0|: adams_bashforth never returns, and bdf never reports SUCCESS. Neither solver has a step limit.", "quantifier": "all orders, right-hand sides, linear algebra and doubles of this kind", "why_tests_cant": "Non-termination cannot be tested.", "anchors": ["multistep.hpp: adams_bashforth", "multistep.hpp: bdf"]}
{"id": "C113", "title": "RADAU_IIA_32 and RADAU_IIA_53 do not blow up stiff nonlinear problems: distance to a centre grows only through the tolerance of Newton's iteration", "statement": "If <f(t, y), y - c> <= 0 for all t and y (no solution moves away from c), then between recorded points i < j of a run of irk::odeint with RADAU_IIA_32 (C = 18) or RADAU_IIA_53 (C = 70) the Euclidean distance to c grows by at most C times (output_interval (j - i) tol + kappa dx_delta (t_j - t_i)), where tol and dx_delta are the options of Newton's iteration and kappa bounds the error of the (dissipative) Jacobian; with dx_delta = 0 nothing is assumed of the Jacobian. The bound contains neither step sizes nor a Lipschitz constant of f.", "quantifier": "all such right-hand sides, centres, initial states, options, output intervals, step sizes and histories of accepted and rejected steps", "why_tests_cant": "A bound uniform in the stiffness, for all nonlinear problems of this kind.", "anchors": ["irk.hpp: irk::odeint", "irk.cpp: get_coefficients", "newton.hpp: newton_iterate"]}
{"id": "C114", "title": "newton_iterate converges from every good enough initial guess, quadratically when the Jacobian is refreshed", "statement": "Let z be a root of the system such that within rho (max norm) of z the functor returns the true Jacobian, which is Lipschitz with constant La, has row sums at most L and an inverse with row sums at most beta, and let th = 2 beta La rho, plus n (L rho)^2 if limit_step is set, be below 1. From every initial guess within rho of z, with max_step not positive, newton_iterate reports SUCCESS: the k-th point visited is within rho th^k of z, within rho th^(2^k - 1) if refresh_jac is set; as soon as twice this bound is below dx_delta one more iteration ends the run (given maxit); and the vector returned is within th / (1 - th) dx_delta of z.", "quantifier": "all dimensions, systems with a root of this kind, initial guesses in the ball, tolerances, and settings of refresh_jac, limit_step and precondition (the last with zeroed memory)", "why_tests_cant": "Tests try a handful of equations and initial guesses; convergence is claimed for all of them.", "anchors": ["newton.hpp: newton_iterate", "newton.hpp: newton_iterate_impl"]}
{"id": "C115", "title": "Two runs of the same call give the same results: uninitialised memory and the clock show only where stated", "statement": "For erk::odeint, irk::odeint, adams_bashforth, bdf and newton_iterate without preconditioner: whatever the uninitialised memory holds and the clock shows, the same call returns or fails in the same way, makes the same calls of the functor, writes the same lines and returns the same result, except elapsed_time and, for erk::odeint, the stages recorded with the initial value. Those stages are uninitialised memory in every run that returns.", "quantifier": "all arithmetics (doubles included), linear-algebra backends, functors (with hidden state or throwing), methods, options and worlds, all pairs of memory contents and clocks", "why_tests_cant": "A test always runs with the memory it happens to get.", "anchors": ["erk.hpp: erk_guts", "irk.hpp: irk_guts", "irk.hpp: construct_R", "multistep.hpp: adams_bashforth", "multistep.hpp: bdf", "newton.hpp: newton_iterate_impl"]}
{"id": "C116", "title": "Moving the problem in time moves the results of the implicit and multistep solvers in time and changes nothing else", "statement": "For every s, integrating from t0 + s to t1 + s, compared with integrating (t, y) -> f(t + s, y) from t0 to t1: irk::odeint, adams_bashforth and bdf record the same states, stages, errors, status and counters, at times larger by s, call the functor in the same sequence and fail in the same way.", "quantifier": "all shifts, functors (with hidden state or throwing), intervals, methods, orders, options and linear-algebra backends, in exact arithmetic", "why_tests_cant": "A relation between infinitely many pairs of runs.", "anchors": ["irk.hpp: irk::odeint", "multistep.hpp: adams_bashforth", "multistep.hpp: bdf"]}
{"id": "C117", "title": "Compiling with NDEBUG does not change the results of an explicit run that passes its assertions", "statement": "If erk::odeint, or adams_bashforth of order 1, does not abort in a debug build, then the same call in a release build ends in the same way with the same result (elapsed_time and the uninitialised stages of the initial value excepted), whatever memory and clock are in either build.", "quantifier": "all arithmetics, backends, functors, methods, options, and pairs of builds", "why_tests_cant": "Test suites run one build; the claim relates two builds for every input.", "anchors": ["erk.hpp: odeint", "erk.hpp: erk_guts", "multistep.hpp: adams_bashforth", "cyclic_buffer.hpp: operator[]"]}
{"id": "C118", "title": "max_steps only cuts a run: it changes nothing before the cut", "statement": "Two integrations with erk::odeint or irk::odeint that differ only in max_steps (the second has none or a larger one): either exactly the same happens, or the first returns with ERROR_MAX_STEPS_EXCEEDED and everything it recorded (times, states, stages, errors) and wrote to the file comes first in the second one, in the same places, whose counters of attempts and rejections are not smaller.", "quantifier": "all arithmetics (doubles included), linear-algebra backends, functors (with hidden state or throwing), methods, options, output settings, worlds and pairs of limits", "why_tests_cant": "A relation between pairs of runs for every input; tests compare a few.", "anchors": ["erk.hpp: erk_guts", "irk.hpp: irk_guts", "erk.hpp: solver_options max_steps", "irk.hpp: solver_options max_steps"]}
{"id": "C119", "title": "The recorded times determine the recorded states of an explicit run", "statement": "Two returned runs of erk::odeint with the same method and right-hand side that agree in one recorded state and in the k recorded times that follow agree in the k states and stages that follow. Initial values, step sizes, tolerances, rejected attempts, output options and the reuse of the last stage make no other difference.", "quantifier": "all explicit methods, right-hand sides, dimensions, options and pairs of runs, in exact arithmetic", "why_tests_cant": "A relation between arbitrary pairs of histories.", "anchors": ["erk.hpp: odeint", "erk.hpp: erk_guts", "erk.hpp: get_coefficients"]}
{"id": "C120", "title": "A fixed-step explicit run can be interrupted and resumed", "statement": "Integrating with a fixed step dt over [t0, t1] with t1 = t0 + N dt and then over [t1, t2] from the last recorded state gives exactly the times, states and stages of integrating over [t0, t2] (the junction is recorded by both parts). For any t1 <= t2 the run over [t0, t2] passes through all points recorded over [t0, t1] but the last.", "quantifier": "all explicit methods (not adaptive, or without embedded pair), right-hand sides, dimensions, N and intervals, in exact arithmetic, all successful runs", "why_tests_cant": "For every number of steps and right-hand side.", "anchors": ["erk.hpp: odeint", "erk.hpp: erk_guts"]}
{"id": "C121", "title": "The final time only decides when a multistep run stops", "statement": "Two calls of adams_bashforth or of bdf that differ only in t1, where the second t1 is later and the first step fits into both intervals: either exactly the same happens, or the first call returns SUCCESS and everything it recorded comes first in the second one.", "quantifier": "all arithmetics (doubles included), linear-algebra backends, functors, orders (also invalid ones), step sizes and pairs of final times", "why_tests_cant": "A relation between pairs of runs for every input.", "anchors": ["multistep.hpp: adams_bashforth", "multistep.hpp: bdf"]}
{"id": "C122", "title": "An affine change of the variables and of the units of time changes the results of an explicit run in the same way and in no other", "statement": "Let z(a t + s) = v + M y(t) turn every solution of y' = f(t, y) into a solution of z' = g(t, z), where M may be any matrix, square or not (units, rotations, permutations of the variables, an uncoupled part of the system). Then erk::odeint with the same method, started from v + M y0, records at the times a t_k + s the states v + M y_k: for all pairs of runs whose recorded times correspond, and for all successful runs with fixed steps dt and a dt.", "quantifier": "all explicit methods, dimensions, matrices, shifts, time scales, right-hand sides of this kind, options and pairs of runs, in exact arithmetic", "why_tests_cant": "A relation between pairs of runs of infinitely many pairs of problems.", "anchors": ["erk.hpp: odeint", "erk.hpp: erk_guts", "erk.hpp: get_coefficients"]}
{"id": "C123", "title": "Explicit runs respect superposition", "statement": "If al x + be y solves z' = h(t, z) whenever x' = f(t, x) and y' = g(t, y) (linear systems, with or without forcing), then the states recorded by erk::odeint for the combined problem are al times those for f plus be times those for g: for all runs on the same recorded times, and for all successful runs with the same fixed step.", "quantifier": "all explicit methods, dimensions, coefficients, right-hand sides of this kind, initial values and options, in exact arithmetic", "why_tests_cant": "A relation between triples of runs of infinitely many problems.", "anchors": ["erk.hpp: odeint", "erk.hpp: erk_guts", "erk.hpp: get_coefficients"]}
{"id": "C124", "title": "Runge-Kutta runs stay at an equilibrium", "statement": "If the right-hand side vanishes at the initial state at all times, every state recorded by erk::odeint is the initial state; the same holds for irk::odeint if the matrices of Newton's iteration at that state are invertible. (C74 says it for the multistep solvers.)", "quantifier": "all methods, dimensions, right-hand sides with f(t, y0) = 0, options and returned runs, in exact arithmetic", "why_tests_cant": "For every right-hand side and number of steps.", "anchors": ["erk.hpp: odeint", "irk.hpp: odeint", "irk.hpp: irk_guts"]}
{"id": "C125", "title": "Explicit runs, adaptive or not, do not depend on the units, signs and order of the variables or on the unit and origin of time", "statement": "Let a problem be restated with every variable multiplied by plus or minus mu > 0, the variables in another order, and time t replaced by a t + s with a > 0; multiply the absolute tolerance by mu and the step limit, the first step and the interval with a. Then erk::odeint makes the same attempts with the same outcome: same status, errors, rejections and counts, and the recorded times, states, error estimates and the lines of the file are those of the original run in the new units. If one run fails, so does the other, with the same error.", "quantifier": "all explicit methods, dimensions, reorderings, signs, units, right-hand sides (stateful and failing ones included), options and runs, in exact arithmetic", "why_tests_cant": "A relation between pairs of runs of infinitely many pairs of problems.", "anchors": ["erk.hpp: odeint", "erk.hpp: erk_guts", "output.hpp: output_options"]}
{"id": "C126", "title": "Explicit runs depend continuously on the initial value and the right-hand side", "statement": "For every explicit method, Lipschitz constant L and length T there is a constant C such that, for all right-hand sides f (L-Lipschitz in y) and g with |f - g| <= de and all initial values with |y0 - z0| <= e, the states recorded by erk::odeint for (f, y0) and (g, z0) at the same times differ by at most C (e + de) in every component. C depends neither on the dimension nor on the step sizes. Successful runs with the same fixed step do record the same times.", "quantifier": "all explicit methods, dimensions, right-hand sides, initial values, options and pairs of runs on the same times, in exact arithmetic", "why_tests_cant": "A bound over all pairs of problems and all step sizes.", "anchors": ["erk.hpp: odeint", "erk.hpp: erk_guts", "erk.hpp: get_coefficients"]}
{"id": "C127", "title": "Explicit runs converge on problems that are not smooth", "statement": "If f is Lipschitz in y and the slope of the solution is Lipschitz in t (kinks allowed), there is a constant C such that every state recorded by erk::odeint is within C H of the solution when no step is longer than H, for every H, with fixed or adaptive steps; with fixed steps dt the run also succeeds and ends at t1. (C81 gives the full order for smooth problems.)", "quantifier": "all explicit methods, dimensions, problems of this kind, step sizes and options, in exact arithmetic", "why_tests_cant": "A limit statement: for all step sizes and problems.", "anchors": ["erk.hpp: odeint", "erk.hpp: erk_guts", "erk.hpp: get_coefficients"]}
{"id": "C128", "title": "Adams-Bashforth runs commute with affine changes of the variables and of time, and respect superposition", "statement": "Let z(a t + s) = v + M y(t) with a > 0 turn every solution of y' = f(t, y) into a solution of z' = g(t, z), M being any matrix. Then multistep::adams_bashforth with the same order, started from v + M y0 with the step a dt, records the times a t_k + s and the states v + M y_k. If al x + be y solves z' = h(t, z) whenever x' = f(t, x) and y' = g(t, y), the states recorded for the combined problem are al times those for f plus be times those for g, at the same times.", "quantifier": "all orders, dimensions, matrices, shifts, time scales, coefficients, right-hand sides of this kind and returned runs, in exact arithmetic", "why_tests_cant": "Relations between pairs and triples of runs of infinitely many problems.", "anchors": ["multistep.hpp: adams_bashforth"]}
{"id": "C129", "title": "Adams-Bashforth runs depend continuously on the initial value and the right-hand side", "statement": "For every order, Lipschitz constant L and length T there is a constant C such that, for all right-hand sides f (L-Lipschitz in y) and g with |f - g| <= de and all initial values with |y0 - z0| <= e, multistep::adams_bashforth with the same step records the same times for (f, y0) and (g, z0), and states that differ by at most C (e + de) in every component. C depends neither on the dimension nor on the step size.", "quantifier": "all orders, dimensions, right-hand sides, initial values, step sizes and pairs of returned runs, in exact arithmetic", "why_tests_cant": "A bound over all pairs of problems and all step sizes.", "anchors": ["multistep.hpp: adams_bashforth"]}
{"id": "C130", "title": "What the multistep solvers do not depend on", "statement": "multistep::adams_bashforth depends on the functor only at times from t0 on that are before t1 or within the order - 1 starting steps: two functors that agree at those times give the same run, whatever its outcome. multistep::bdf depends on it only at times from t0 on that are before t1 + h, h the step, or within the order starting steps. It does evaluate beyond t1: functors that agree at all times up to t1 can give different results.", "quantifier": "all functors (stateful and failing ones included), orders, intervals, steps, initial values and outcomes, in exact arithmetic", "why_tests_cant": "A relation between pairs of runs for all pairs of functors.", "anchors": ["multistep.hpp: adams_bashforth", "multistep.hpp: bdf", "multistep.hpp: bootstrap_history"]}
{"id": "C131", "title": "What the root finders depend on", "statement": "A run of newton_iterate, broyden_iterate or verify_jacobi_matrix that returned is repeated exactly - same result, same status, same final state of the functor - with every system that answers the calls it made in the same way. broyden_iterate does not depend on the Jacobian of the system at all, whatever the outcome.", "quantifier": "all systems (stateful ones included), options, guesses and returned runs, in every arithmetic", "why_tests_cant": "A relation between pairs of runs for all pairs of systems.", "anchors": ["newton.hpp: newton_iterate", "newton.hpp: broyden_iterate", "newton.hpp: verify_jacobi_matrix"]}
{"id": "C132", "title": "BDF runs of order 1 and 2 on damped linear problems stay bounded, whatever the step size", "statement": "Let y' = A(t) y with <A(t) x, x> <= -mu |x|^2 for all t and x, mu >= 0. Whenever multistep::bdf with order k = 1 or 2 returns, its status is SUCCESS and every recorded state obeys |y_i|^2 + 2 k mu h (|y_(k+1)|^2 + ... + |y_i|^2) <= k |y0|^2, where h is the step size: no step size and no stiffness makes the solution grow.", "quantifier": "all dimensions, time-dependent matrices of this kind, initial values, intervals, step sizes and returned runs, in exact arithmetic", "why_tests_cant": "A bound for all stiff problems, all step sizes and any number of steps.", "anchors": ["multistep.hpp: bdf"]}
{"id": "C133", "title": "BDF runs on linear problems commute with affine changes of the variables and of time, and respect superposition", "statement": "On problems y' = A(t) y + g(t) whose matrices 1 - h beta A(t) are invertible: if z(a t + s) = v + M y(t), a > 0, turns the problem into z' = B(t) z + k(t), multistep::bdf with the same order started from v + M y0 with the step a dt records the times a t_k + s and the states v + M y_k. The run on y' = A(t) y + al g1(t) + be g2(t) from al x + be y records al times the states of the run with g1 from x plus be times those of the run with g2 from y. So the tolerances inside Newton's iteration leave no trace on linear problems.", "quantifier": "all orders, dimensions, linear problems of this kind, matrices, shifts, time scales, coefficients and returned runs, in exact arithmetic", "why_tests_cant": "Relations between pairs and triples of runs of infinitely many problems.", "anchors": ["multistep.hpp: bdf", "newton.hpp: newton_iterate"]}
{"id": "C134", "title": "BDF runs of order 1 and 2 do not spread on nonlinear problems whose solutions do not, whatever the step size", "statement": "Let <f(t,y) - f(t,z), y - z> <= 0 for all t, y, z, with a Jacobian that is dissipative and off by at most kappa. Two runs of multistep::bdf with order k = 1 or 2 on y' = f(t,y) with the same interval and step, from y0 and from z0, record the same i-th time, and their i-th states are no further apart than sqrt(k) |y0 - z0| + 8 kappa sqrt(n) 1e-10 (t_i - t0): the second term is what the tolerance inside Newton's iteration leaves. If instead no solution moves away from c, no recorded state is further from c than sqrt(k) |y0 - c| plus half of that term.", "quantifier": "all dimensions, nonlinear stiff problems of this kind, initial values, intervals, step sizes and returned runs, in exact arithmetic", "why_tests_cant": "A bound for all stiff nonlinear problems, all step sizes and any number of steps.", "anchors": ["multistep.hpp: bdf", "newton.hpp: newton_iterate"]}
{"id": "C135", "title": "BDF runs depend continuously on the initial value and the right-hand side", "statement": "For each order 1 to 6, dimension, Lipschitz constant and length of the interval there are constants h0 and C such that two runs of multistep::bdf with the same step size of at most h0, on problems whose slopes differ by at most de and from initial values that differ by at most e, record the same times up to t1 and states that differ by at most C (e + de + 1e-10).", "quantifier": "all pairs of problems with the given Lipschitz constant, initial values, step sizes up to h0 and returned runs, in exact arithmetic", "why_tests_cant": "One constant for infinitely many pairs of problems and all numbers of steps; rests on the zero-stability of the six formulas.", "anchors": ["multistep.hpp: bdf"]}
{"id": "C136", "title": "Implicit runs converge on problems that are not smooth", "statement": "Let f be Lipschitz in y and let the slope of the solution phi be Lipschitz in t. There are h0 and C such that every run of irk::odeint with a method whose coefficients are closed formulas and that can run, with steps of at most H <= h0 and Newton tolerances of at most tau, records states with |y_k - phi(t_k)| <= C (H + k tau).", "quantifier": "all dimensions, problems of this kind, step size histories, tolerances and returned runs, in exact arithmetic", "why_tests_cant": "A bound for all problems and all step sequences of an adaptive method.", "anchors": ["irk.hpp: odeint, newton_solve_stages"]}
{"id": "C137", "title": "Adams-Bashforth runs decay exactly up to the stability limits", "statement": "If a component of the problem satisfies y_q' = -lam y_q, adams_bashforth with order k and step size h reproduces the decay exactly when lam h is within the limit of the order (2, 1, 6/11, 3/10, 90/551 for k = 1..5): up to it no recorded value of the component exceeds the initial one, and below it the values decay geometrically at a rate that depends on k and lam h alone; above it they grow geometrically from any non-zero initial value, although the solution decays.", "quantifier": "every order, every problem with such a component, initial value, interval and step size, every number of steps", "why_tests_cant": "A bound on the growth over arbitrarily many steps, for a continuum of step sizes and rates; tests see a few steps of a few.", "anchors": ["multistep.hpp: adams_bashforth"]}
{"id": "C138", "title": "BDF runs of every order damp decaying components without a step-size limit", "statement": "If a component of a linear problem y' = A(t) y + g(t) satisfies y_q' = -lam y_q, bdf with any order from 1 to 6 and step size h reports SUCCESS and the recorded values of the component decay geometrically from the initial one, at a rate that depends on the order and on lam h alone, for every lam h of at least 1/10, however large.", "quantifier": "every order, every linear problem with such a component, initial value, interval and step size with lam h >= 1/10, every number of steps", "why_tests_cant": "A bound on the decay over arbitrarily many steps, for a continuum of step sizes and rates up to infinity; tests see a few steps of a few.", "anchors": ["multistep.hpp: bdf"]}
{"id": "C139", "title": "What each method does to the energy of an undamped oscillation", "statement": "If two components of a problem form an undamped oscillator (y_p' = w y_q, y_q' = -w y_p), every recorded step of size h of an explicit Runge-Kutta run multiplies y_p^2 + y_q^2 by exactly a factor that depends on the method and (w h)^2 alone. With RUNGE_KUTTA_4, BOGACKI_SHAMPINE_32 and DORMAND_PRINCE_54 the energy never increases while (w h)^2 is at most 8, 3 and 0.99, and increases with every step beyond 8, 3 and 1; with EXPLICIT_EULER and CASH_KARP_54 it increases with every step of any size, with FEHLBERG_54 with every step up to (w h)^2 = 4. adams_bashforth of order 1 multiplies it by 1 + (w h)^2 per step and bdf of order 1 (on linear problems) divides it by that.", "quantifier": "every problem with such a pair, initial value, interval, tolerance and step sequence, every number of steps", "why_tests_cant": "The sign of the drift is a statement about a continuum of step sizes; over few steps it is hidden in the error of the method.", "anchors": ["erk.hpp: odeint", "erk.cpp: get_coefficients", "multistep.hpp: adams_bashforth, bdf"]}
{"id": "C140", "title": "Implicit runs depend continuously on the initial value and the right-hand side", "statement": "For each implicit method that can run, dimension, Lipschitz constant and length of the interval there are constants h0 and C such that two runs of irk::odeint that record the same times with steps of at most h0, on problems whose slopes differ by at most de and from initial values that differ by at most e, record states that differ after k steps by at most C (e + de + k tau), where tau bounds the tolerances of Newton's iteration in both runs. In particular two runs on the same problem, from the same initial value and on the same times, differ by at most C k tau, whatever Jacobians the functors supply and however the iteration is set up.", "quantifier": "all pairs of problems with the given Lipschitz constant, initial values, step sequences up to h0, tolerances and pairs of returned runs on the same times, in exact arithmetic", "why_tests_cant": "One constant for infinitely many pairs of problems, step sequences and numbers of steps.", "anchors": ["irk.hpp: odeint, newton_solve_stages"]}
{"id": "C141", "title": "Explicit runs keep the sign of decaying components up to a limit and lose it beyond", "statement": "Let one component of a problem satisfy y' = -lam y, whatever the other components do, so that it keeps its sign along the exact solution. Every recorded step of erk::odeint of size h multiplies the component by exactly the polynomial of the method in lam h that stands in place of exp(-lam h). With RUNGE_KUTTA_4, CASH_KARP_54 and DORMAND_PRINCE_54 this factor is positive for every step size, so a positive quantity stays positive however large the steps; with EXPLICIT_EULER, BOGACKI_SHAMPINE_32 and FEHLBERG_54 it does for lam h below 1, 1.596 and 2.35, and every step with lam h above 1, above 1.597, and between 2.36 and 12 reverses the sign of the component. adams_bashforth of order 1 multiplies it by 1 - lam h with every step, and bdf of order 1 divides it by 1 + lam h on linear problems.", "quantifier": "every problem with such a component, decay or growth rate, initial value, interval, tolerance and step sequence, fixed or adaptive, every number of steps, in exact arithmetic", "why_tests_cant": "The sign of the factor is a statement about a continuum of step sizes and rates; adaptive runs choose the steps themselves.", "anchors": ["erk.hpp: odeint", "erk.cpp: get_coefficients", "multistep.hpp: adams_bashforth, bdf"]}
