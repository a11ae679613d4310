{
 "claims": [
  {
   "property": "C01",
   "status": "proved",
   "theorems": [
    "C01_step_budget",
    "C01_finite_budget_finishes",
    "C01_zero_budget"
   ],
   "note": ""
  },
  {
   "property": "C02",
   "status": "proved",
   "theorems": [
    "C02_first_stop"
   ],
   "note": ""
  },
  {
   "property": "C03",
   "status": "proved",
   "theorems": [
    "C03_status",
    "C03_success_sound",
    "C03_max_steps_iff"
   ],
   "note": ""
  },
  {
   "property": "C04",
   "status": "partial",
   "theorems": [
    "C04_minimisers",
    "C04_least_squares",
    "C04_fixed_point",
    "C04_fixed_point_success_finite",
    "C04_previous_finite_partial",
    "C04_success_finite_refuted",
    "C04_newton_success_finite"
   ],
   "note": "False as stated: C04_success_finite_refuted gives a solver obeying the interface whose successful solve returns infinity, because the driver checks the iterate before the last step. C04_previous_finite_partial is the part that holds for every solver. [C04_previous_finite_partial] Part of C04 that holds for every solver: when success is reported, the point the last step started from is finite. [C04_success_finite_refuted] C04 itself fails: a solver that follows the documented interface can be reported successful while the returned value is infinite, because the finiteness check looks at the point before the last step."
  },
  {
   "property": "C05",
   "status": "proved",
   "theorems": [
    "C05_throw",
    "C05_no_throw",
    "C05_entry_points"
   ],
   "note": ""
  },
  {
   "property": "C06",
   "status": "proved",
   "theorems": [
    "C06_nonfinite_start"
   ],
   "note": ""
  },
  {
   "property": "C07",
   "status": "proved",
   "theorems": [
    "C07_root_find_minimiser",
    "C07_root_find_least_squares",
    "C07_max_norm_of_inf"
   ],
   "note": ""
  },
  {
   "property": "C08",
   "status": "proved",
   "theorems": [
    "C08_fixed_point",
    "C08_least_squares",
    "C08_root_find_aux"
   ],
   "note": ""
  },
  {
   "property": "C09",
   "status": "proved",
   "theorems": [
    "C09_best_so_far",
    "C09_minimiser",
    "C09_residuals",
    "C09_fixed_point"
   ],
   "note": ""
  },
  {
   "property": "C10",
   "status": "proved",
   "theorems": [
    "C10_best_so_far_transparent"
   ],
   "note": ""
  },
  {
   "property": "C11",
   "status": "partial",
   "theorems": [
    "C11_golden_refuted",
    "C11_nelder_mead_refuted"
   ],
   "note": "[C11_golden_refuted] BestSoFarMinimiser(GoldenSearch) reports success and returns y0 although a later iterate has a smaller loss (binary64 witness just defined). [C11_nelder_mead_refuted] BestSoFarMinimiser(NelderMead) returns y0 for every function that is nowhere negative, whatever the solve did: NelderMead's first step hands back an aux of zeros, which BestSoFar books as loss 0 of y0."
  },
  {
   "property": "C12",
   "status": "proved",
   "theorems": [
    "C12_sign_change_kept",
    "C12_detect"
   ],
   "note": ""
  },
  {
   "property": "C13",
   "status": "proved",
   "theorems": [
    "C13_halving"
   ],
   "note": ""
  },
  {
   "property": "C14",
   "status": "proved",
   "theorems": [
    "C14_success_near_root",
    "C14_success_near_root_flip"
   ],
   "note": ""
  },
  {
   "property": "C15",
   "status": "proved",
   "theorems": [
    "C15_converges"
   ],
   "note": ""
  },
  {
   "property": "C16",
   "status": "proved",
   "theorems": [
    "C16_detect"
   ],
   "note": ""
  },
  {
   "property": "C17",
   "status": "proved",
   "theorems": [
    "C17_expansion_sound",
    "C17_bracket_unchanged",
    "C17_expansion_finishes",
    "C17_expand_and_solve",
    "C17_rootless_never_finishes",
    "C17_zero_end_expands"
   ],
   "note": ""
  },
  {
   "property": "C18",
   "status": "partial",
   "theorems": [
    "C18_evaluates_inside_partial",
    "C18_returns_inside_partial",
    "C18_stays_inside_refuted"
   ],
   "note": "[C18_evaluates_inside_partial] Two functions that agree on [0, upper] cannot be told apart: fn is evaluated nowhere else. Missing from the full claim: lower <> 0. [C18_returns_inside_partial] Every iterate, and so every returned value, lies in (0, upper). Missing from the full claim: lower <> 0. [C18_stays_inside_refuted] C18 fails in general: see the comment on the common witness."
  },
  {
   "property": "C19",
   "status": "partial",
   "theorems": [
    "C19_golden_ratio_kept_partial",
    "C19_golden_ratio_kept_refuted"
   ],
   "note": "[C19_golden_ratio_kept_partial] Missing from the full claim: intervals with lower <> 0 (for those the claim is false, see C19_refuted). [C19_golden_ratio_kept_refuted] C19 fails in general: the interval kept after one step is more than ten times as long as the one given."
  },
  {
   "property": "C20",
   "status": "partial",
   "theorems": [
    "C20_unimodal_partial",
    "C20_success_near_minimum_partial",
    "C20_terminates_partial",
    "C20_unimodal_refuted"
   ],
   "note": "[C20_unimodal_partial] After n steps the iterate is within upper/phi^n of the minimiser of a unimodal function, and the minimiser stays in the stored interval. Missing from the full claim: lower <> 0. [C20_success_near_minimum_partial] Success means the minimiser is close: within phi^2 tolerances. Missing from the full claim: lower <> 0. [C20_terminates_partial] For a continuous function (unimodal or not) the search ends successfully after finitely many steps. Missing from the full claim: lower <> 0. [C20_unimodal_refuted] C20 fails in general: the value returned after one step is more than ten interval lengths away from the minimiser."
  },
  {
   "property": "C21",
   "status": "proved",
   "theorems": [
    "C21_iterates_in_box",
    "C21_one_sided",
    "C21_value_in_box",
    "C21_success_in_box"
   ],
   "note": ""
  },
  {
   "property": "C22",
   "status": "proved",
   "theorems": [
    "C22_certificate"
   ],
   "note": ""
  },
  {
   "property": "C23",
   "status": "proved",
   "theorems": [
    "C23_linear_failure_stops",
    "C23_success_all_linear_ok",
    "C23_divergence_iff"
   ],
   "note": ""
  },
  {
   "property": "C24",
   "status": "proved",
   "theorems": [
    "C24_affine_exact"
   ],
   "note": ""
  },
  {
   "property": "C25",
   "status": "proved",
   "theorems": [
    "C25_certificate",
    "C25_exact",
    "C25_full_damping_vacuous"
   ],
   "note": ""
  },
  {
   "property": "C26",
   "status": "proved",
   "theorems": [
    "C26_contraction_converges",
    "C26_value_near_fixed_point"
   ],
   "note": ""
  },
  {
   "property": "C27",
   "status": "proved",
   "theorems": [
    "C27_gradient_descent",
    "C27_quasi_newton",
    "C27_minimise"
   ],
   "note": ""
  },
  {
   "property": "C28",
   "status": "proved",
   "theorems": [
    "C28_step_any_arithmetic",
    "C28_step_sizes",
    "C28_binary64_underflow"
   ],
   "note": ""
  },
  {
   "property": "C29",
   "status": "proved",
   "theorems": [
    "C29_nonlinear_cg",
    "C29_lbfgs",
    "C29_search_accepts",
    "C29_gradient_descent",
    "C29_quasi_newton",
    "C29_bfgs_dfp"
   ],
   "note": ""
  },
  {
   "property": "C30",
   "status": "partial",
   "theorems": [
    "C30_ratio_rule",
    "C30_radius_positive",
    "C30_zero_constant_refuted",
    "C30_nan_rejected"
   ],
   "note": "[C30_zero_constant_refuted] The constructor accepts low_constant = 0 (its check is `< 0` although the message says the constant must be greater than 0): then one rejection makes the radius zero for ever."
  },
  {
   "property": "C31",
   "status": "proved",
   "theorems": [
    "C31_least_squares",
    "C31_gradient",
    "C31_quasi_newton"
   ],
   "note": ""
  },
  {
   "property": "C32",
   "status": "proved",
   "theorems": [
    "C32_levenberg_marquardt",
    "C32_indirect_levenberg_marquardt",
    "C32_dogleg"
   ],
   "note": ""
  },
  {
   "property": "C33",
   "status": "proved",
   "theorems": [
    "C33_exact_when_linear",
    "C33_predict"
   ],
   "note": ""
  },
  {
   "property": "C34",
   "status": "partial",
   "theorems": [
    "C34_exit_partial",
    "C34_tiny_cauchy",
    "C34_nan_refuted"
   ],
   "note": "[C34_exit_partial] Exact arithmetic, two-norm trust region of radius D = step_size |newton|. Full claim: the step is where the dogleg path leaves the ball (so its norm is at most D). Proved when newton is not 0, a Cauchy step longer than D is longer than eps, and the quadratic is not degenerate (its constant term |2 cauchy - newton|^2 - D^2 is not 0, or its middle coefficient is not negative). Missing: newton = 0, and the degenerate quadratic, where the code computes 0/0; see C34_nan_refuted. [C34_nan_refuted] The claim fails in binary64, and the step is NaN, (1) at a solution (residual 0, so newton = cauchy = 0) once the radius factor is below 1; (2) with cauchy = 1, newton = 4 and step_size 1/2, where the constant term of the quadratic is exactly 0."
  },
  {
   "property": "C35",
   "status": "proved",
   "theorems": [
    "C35_any_arithmetic",
    "C35_never_uphill",
    "C35_downhill",
    "C35_first_direction",
    "C35_first_direction_run"
   ],
   "note": ""
  },
  {
   "property": "C36",
   "status": "partial",
   "theorems": [
    "C36_polak_ribiere_fletcher_reeves",
    "C36_hestenes_stiefel_dai_yuan_sign",
    "C36_conjugacy_refuted",
    "C36_conjugacy_with_corrected_sign"
   ],
   "note": "[C36_conjugacy_refuted] So the Hestenes-Stiefel direction is not conjugate to the gradient change: (-g + beta d) . (g - g_prev) <> 0 although d . (g - g_prev) is far from 0. The same inputs give a Dai-Yuan beta of the wrong sign."
  },
  {
   "property": "C37",
   "status": "proved",
   "theorems": [
    "C37_bfgs",
    "C37_bfgs_run"
   ],
   "note": ""
  },
  {
   "property": "C38",
   "status": "proved",
   "theorems": [
    "C38_dfp",
    "C38_dfp_run"
   ],
   "note": ""
  },
  {
   "property": "C39",
   "status": "proved",
   "theorems": [
    "C39_use_inverse",
    "C39_lbfgs",
    "C39_lbfgs_same_run",
    "C39_same_run"
   ],
   "note": ""
  },
  {
   "property": "C40",
   "status": "proved",
   "theorems": [
    "C40_history"
   ],
   "note": ""
  },
  {
   "property": "C41",
   "status": "proved",
   "theorems": [
    "C41_two_loop",
    "C41_lbfgs_run"
   ],
   "note": ""
  },
  {
   "property": "C42",
   "status": "proved",
   "theorems": [
    "C42_compact"
   ],
   "note": ""
  },
  {
   "property": "C43",
   "status": "proved",
   "theorems": [
    "C43_builtin_searches",
    "C43_gradient_descent",
    "C43_quasi_newton",
    "C43_bfgs_dfp_contract",
    "C43_gauss_newton"
   ],
   "note": ""
  },
  {
   "property": "C44",
   "status": "proved",
   "theorems": [
    "C44_feasible",
    "C44_whole_step",
    "C44_outside"
   ],
   "note": ""
  },
  {
   "property": "C45",
   "status": "partial",
   "theorems": [
    "C45_cauchy_partial",
    "C45_termination_refuted",
    "C45_nan_refuted",
    "C45_clipped_partial"
   ],
   "note": "[C45_cauchy_partial] Exact arithmetic; y in the box; every coordinate moves against the gradient and meets a finite bound; H symmetric positive semidefinite. Then cauchy_point finishes within n passes and its result is a point of finite numbers in the box. Missing from the full claim: gradients with a zero entry and infinite bounds, for which it is false (next two theorems). [C45_termination_refuted] In the unit square from (1/2, 1/2) with gradient (1, 0) and Hessian I/8 the search never ends: the second coordinate's intercept is inf, which always counts as \"more to try\". [C45_nan_refuted] Same with gradient (0, 1): the second pass picks the infinite intercept and the point returned contains NaN. [C45_clipped_partial] Whatever the number system, gradient and Hessian: an entry of the point returned by the search that is not NaN lies between its bounds, provided the bounds are ordered."
  },
  {
   "property": "C46",
   "status": "partial",
   "theorems": [
    "C46_array_refuted",
    "C46_scalar_leaves_partial",
    "C46_scalar_leaves_span_partial",
    "C46_collapse_refuted"
   ],
   "note": "[C46_array_refuted] A single array of d >= 3 entries, any y0, adelta, rdelta: some non-zero functional is constant on the initial simplex, so it does not span; and every iterate, for every function, stays in that hyperplane through y0. [C46_scalar_leaves_partial] When every leaf of y0 is a scalar the initial simplex is the textbook one: d + 1 vertices, vertex 0 is y0 and vertex i + 1 displaces coordinate i by adelta + rdelta y0_i. Missing from the full claim: array leaves, for which it is false ([C46_array_refuted]). [C46_scalar_leaves_span_partial] Scalar leaves, exact arithmetic: if no displacement is zero the initial simplex affinely spans the space. Missing: array leaves and zero displacements, for which it is false ([C46_array_refuted], [C46_collapse_refuted]). [C46_collapse_refuted] Started at the scalar -adelta/rdelta the two vertices coincide: whatever the function, the first termination test after one step reports success at the starting point (exact arithmetic)."
  },
  {
   "property": "C47",
   "status": "partial",
   "theorems": [
    "C47_values_partial",
    "C47_best_value_partial",
    "C47_monotone_partial",
    "C47_stale_refuted",
    "C47_increase_refuted"
   ],
   "note": "[C47_values_partial] After at least one step the stored values are the function values at the stored vertices, in order. Missing from the full claim: the stored best vertex, for which it is false ([C47_stale_refuted]). [C47_best_value_partial] Exact arithmetic, after at least one step: the stored best value is the value at the vertex of the stored simplex with the stored index, and the least of all vertex values. (The full claim that the stored best *vertex* is that vertex is false, see below.) [C47_monotone_partial] Over steps without a shrink, and over shrinks started from a stored best vertex that really is the best vertex of the simplex, the best value never increases. [C47_stale_refuted] The stored best vertex is a vertex no longer in the simplex and its value is not the stored best value; it is also the iterate returned. [C47_increase_refuted] A shrink makes the best value go up."
  },
  {
   "property": "C48",
   "status": "proved",
   "theorems": [
    "C48_affine",
    "C48_functional"
   ],
   "note": ""
  },
  {
   "property": "C49",
   "status": "partial",
   "theorems": [
    "C49_accepts_iff",
    "C49_rejects_refuted",
    "C49_leading"
   ],
   "note": "[C49_rejects_refuted] In particular every simplex of d+1 points of dimension d >= 2 is rejected."
  },
  {
   "property": "C50",
   "status": "partial",
   "theorems": [
    "C50_errors",
    "C50_status",
    "C50_fun_partial",
    "C50_fun_refuted",
    "C50_hess_inv",
    "C50_not_worse"
   ],
   "note": "[C50_fun_partial] Full claim: [or_fun r = fn (or_x r)] and [or_jac r] is the gradient there, for every run; false when no step was made ([C50_fun_refuted]). What holds: both are right whenever x0 is finite and \"maxiter\" is not 0, and then the counts are positive; otherwise no step is made. [C50_fun_refuted] With maxiter = 0 the reported `fun` is 0 and `jac` is 0 whatever the objective; here the objective at x is 5 and its gradient (2, 8)."
  },
  {
   "property": "C51",
   "status": "partial",
   "theorems": [
    "C51_root_find",
    "C51_fixed_point",
    "C51_minimise",
    "C51_least_squares",
    "C51_root_find_minimiser_refuted"
   ],
   "note": "[C51_root_find_minimiser_refuted] C51 refuted for root_find with a minimiser: there the derivative of the norm of fn is rewritten. For fn(y, p) = y - p, whose root is p, the tangent computed at any other point is the same in every direction, whatever the linear solver does."
  },
  {
   "property": "C52",
   "status": "proved",
   "theorems": [
    "C52_where",
    "C52_where_returns",
    "C52_where_scalar",
    "C52_flat",
    "C52_clip",
    "C52_allfinite",
    "C52_full_like",
    "C52_min_max",
    "C52_errors"
   ],
   "note": ""
  },
  {
   "property": "C53",
   "status": "proved",
   "theorems": [
    "C53_iteration",
    "C53_linear"
   ],
   "note": ""
  },
  {
   "property": "C54",
   "status": "partial",
   "theorems": [
    "C54_root_find_minimises_sum_of_squares_refuted",
    "C54_two_norm_objective_partial"
   ],
   "note": "[C54_root_find_minimises_sum_of_squares_refuted] The documentation of root_find says that with a minimiser `sum(fn(y, args)^2)` is minimised. What is minimised is solver.norm of fn(y), by default the max norm: here is a minimiser that picks the better of two points, and a function for which root_find returns the point with the larger sum of squares. [C54_two_norm_objective_partial] With the two-norm the documented statement is right: the two objectives order points in the same way."
  },
  {
   "property": "C55",
   "status": "partial",
   "theorems": [
    "C55_rounding_refuted"
   ],
   "note": "[C55_rounding_refuted] Rounding: the feasible step of 25 from 0 towards the bound 7 ends above 7"
  },
  {
   "property": "C56",
   "status": "partial",
   "theorems": [
    "C56_not_minimiser_refuted",
    "C56_search_partial"
   ],
   "note": "[C56_not_minimiser_refuted] One dimension, y = 1/2 in [0,1], gradient 1, Hessian 8: the search returns 0, where the quadratic model is larger than at y, although the point 3/8 of the path lowers it. [C56_search_partial] Any arithmetic whose infinity is not finite. Whatever the search of cauchy_point returns, it found by walking the projected path clip(y - t g) from breakpoint to breakpoint: on the segment ending at breakpoint t, with d = clip(y - t g) - y, it takes the slope g.d + p.Hd at the current point p and the curvature d.Hd; it stops at once at the previous breakpoint if the slope is positive, at - slope / curvature if that is no further than t, and goes on to t only if the slope is not positive, - slope / curvature exceeds t, and some breakpoint lies beyond t. Missing from the full claim, and false of this search (C56_not_minimiser_refuted): that the point is a minimiser of the model along the path."
  },
  {
   "property": "C57",
   "status": "proved",
   "theorems": [
    "C57_success_certificate",
    "C57_divergence"
   ],
   "note": ""
  },
  {
   "property": "C58",
   "status": "partial",
   "theorems": [
    "C58_worse_than_start_refuted"
   ],
   "note": "[C58_worse_than_start_refuted] Minimising x from 0 with a budget of two steps returns 1."
  },
  {
   "property": "C59",
   "status": "partial",
   "theorems": [
    "C59_norm_ignored",
    "C59_norm_refuted"
   ],
   "note": "[C59_norm_refuted] The documented meaning of \"norm\" fails: with norm = rms_norm, tolerance 1/25 and start (3, 1), a BFGS solve of x^2 + 4 y^2 stops after 8 steps, compat.minimize after 9 (binary64)."
  },
  {
   "property": "C60",
   "status": "partial",
   "theorems": [
    "C60_gradient_descent",
    "C60_quasi_newton",
    "C60_gauss_newton_partial",
    "C60_gauss_newton_refuted"
   ],
   "note": "[C60_gauss_newton_partial] Gauss-Newton, Levenberg-Marquardt and dogleg solvers: on success the last step moved from an iterate y to the returned value with a small change in every component of y and of the residuals - or the solve stopped after one step at y0, where the residuals are compared with the zeros they were initialised with (the first step is not exempt, unlike in the other two families). Any arithmetic whose order and division behave (exact with infinities and NaN; binary64). [C60_gauss_newton_refuted] The claim fails for Gauss-Newton: with residual y/200, rtol = atol = 1/100 and y0 = 1 it reports success after one step and returns y0 itself, without having compared two iterates, although the next Gauss-Newton step would go to 0 (binary64)."
  },
  {
   "property": "C61",
   "status": "proved",
   "theorems": [
    "C61_plain_loop",
    "C61_status",
    "C61_certificate",
    "C61_two_steps"
   ],
   "note": ""
  },
  {
   "property": "C62",
   "status": "partial",
   "theorems": [
    "C62_armijo",
    "C62_armijo_numbers",
    "C62_nan_refuted",
    "C62_trust_region"
   ],
   "note": "[C62_nan_refuted] NaN parameters slip through the checks: with decrease_factor = NaN the constructor succeeds, and one rejection makes the step size NaN."
  },
  {
   "property": "C63",
   "status": "proved",
   "theorems": [
    "C63_operators",
    "C63_step",
    "C63_longer",
    "C63_hessian",
    "C63_run"
   ],
   "note": ""
  },
  {
   "property": "C64",
   "status": "proved",
   "theorems": [
    "C64_gauss_newton",
    "C64_levenberg_marquardt",
    "C64_dogleg",
    "C64_indirect_levenberg_marquardt",
    "C64_quasi_newton",
    "C64_gradient_methods",
    "C64_solve"
   ],
   "note": ""
  },
  {
   "property": "C65",
   "status": "proved",
   "theorems": [
    "C65_iteration",
    "C65_descends",
    "C65_terminates"
   ],
   "note": ""
  },
  {
   "property": "C66",
   "status": "proved",
   "theorems": [
    "C66_least_squares",
    "C66_hessian"
   ],
   "note": ""
  },
  {
   "property": "C67",
   "status": "proved",
   "theorems": [
    "C67_block_errors",
    "C67_outer",
    "C67_identity",
    "C67_mv",
    "C67_quasi_newton",
    "C67_identity_mv",
    "C67_secant"
   ],
   "note": ""
  },
  {
   "property": "C68",
   "status": "proved",
   "theorems": [
    "C68_recursion"
   ],
   "note": ""
  },
  {
   "property": "C69",
   "status": "proved",
   "theorems": [
    "C69_length"
   ],
   "note": ""
  },
  {
   "property": "C70",
   "status": "proved",
   "theorems": [
    "C70_local_convergence"
   ],
   "note": ""
  },
  {
   "property": "C71",
   "status": "proved",
   "theorems": [
    "C71_radius",
    "C71_gradient",
    "C71_terminates"
   ],
   "note": ""
  },
  {
   "property": "C72",
   "status": "proved",
   "theorems": [
    "C72_backtracking",
    "C72_gradient",
    "C72_terminates"
   ],
   "note": ""
  },
  {
   "property": "C73",
   "status": "partial",
   "theorems": [
    "C73_order",
    "C73_move",
    "C73_counters_partial",
    "C73_outer_counts_reflections_partial",
    "C73_outer_count_refuted"
   ],
   "note": "[C73_counters_partial] The counters, exact arithmetic: none has been counted after the first step; from then on each step counts an expansion when fr < best, a reflection when best < fr < second worst, an inner contraction when worst < fr, and, under the name of outer contractions, the steps with best <= fr <= second worst. [C73_outer_counts_reflections_partial] So, under the name of outer contractions, the solver counts exactly the plain reflections and never an outer contraction. [C73_outer_count_refuted] An outer contraction is counted nowhere and a reflection is counted as an outer contraction."
  },
  {
   "property": "C74",
   "status": "proved",
   "theorems": [
    "C74_gradient_loop",
    "C74_quasi_newton_loops",
    "C74_least_squares_loop",
    "C74_named_solvers"
   ],
   "note": ""
  },
  {
   "property": "C75",
   "status": "proved",
   "theorems": [
    "C75_gradient",
    "C75_jacobian",
    "C75_minimisers",
    "C75_least_squares"
   ],
   "note": ""
  },
  {
   "property": "C76",
   "status": "proved",
   "theorems": [
    "C76_radius",
    "C76_boundary_raises"
   ],
   "note": ""
  },
  {
   "property": "C77",
   "status": "proved",
   "theorems": [
    "C77_radius",
    "C77_gradient",
    "C77_terminates"
   ],
   "note": ""
  },
  {
   "property": "C78",
   "status": "proved",
   "theorems": [
    "C78_minimise",
    "C78_root_find",
    "C78_least_squares",
    "C78_fixed_point",
    "C78_inexact",
    "C78_idempotent",
    "C78_warning"
   ],
   "note": ""
  },
  {
   "property": "C79",
   "status": "partial",
   "theorems": [
    "C79_golden",
    "C79_bisection_partial",
    "C79_tuple_refuted"
   ],
   "note": "[C79_bisection_partial] Through root_find, a function returning one array is accepted by Bisection exactly when that array, y and both bounds are scalars, and otherwise raises ValueError. Missing from the full claim: functions returning a container, see C79_tuple_refuted. [C79_tuple_refuted] The message \"Bisection can only be used to find the roots of a function producing a scalar output\" is not what a function returning a tuple gets: `f_struct.dtype` is read before the check, so an AttributeError is raised instead of that ValueError."
  },
  {
   "property": "C80",
   "status": "proved",
   "theorems": [
    "C80_local_convergence"
   ],
   "note": ""
  },
  {
   "property": "C81",
   "status": "partial",
   "theorems": [
    "C81_default_verbose",
    "C81_gauss_newton",
    "C81_quasi_newton",
    "C81_optax",
    "C81_last_accepted_refuted"
   ],
   "note": "[C81_last_accepted_refuted] So the two quantities \"on the last accepted step\" do not belong together. In a Gauss-Newton solve of residual y/2 from y0 = 4, and in a BFGS solve of y^2/2, the report of step 1 names a last accepted point whose loss is smaller than the loss named (0 instead of 2, and 0 instead of 8; binary64)."
  },
  {
   "property": "C82",
   "status": "proved",
   "theorems": [
    "C82_radius",
    "C82_gradient",
    "C82_terminates"
   ],
   "note": ""
  },
  {
   "property": "C83",
   "status": "proved",
   "theorems": [
    "C83_gradient_descent",
    "C83_backtracking",
    "C83_levenberg_marquardt",
    "C83_indirect_levenberg_marquardt",
    "C83_dogleg"
   ],
   "note": ""
  },
  {
   "property": "C84",
   "status": "proved",
   "theorems": [
    "C84_rate",
    "C84_converges",
    "C84_terminates"
   ],
   "note": ""
  },
  {
   "property": "C85",
   "status": "proved",
   "theorems": [
    "C85_rate",
    "C85_converges",
    "C85_terminates"
   ],
   "note": ""
  },
  {
   "property": "C86",
   "status": "proved",
   "theorems": [
    "C86_gradient_descent",
    "C86_backtracking"
   ],
   "note": ""
  },
  {
   "property": "C87",
   "status": "proved",
   "theorems": [
    "C87_stays_inside",
    "C87_success",
    "C87_terminates",
    "C87_lipschitz"
   ],
   "note": ""
  },
  {
   "property": "C88",
   "status": "proved",
   "theorems": [
    "C88_iterates",
    "C88_terminates",
    "C88_success"
   ],
   "note": ""
  },
  {
   "property": "C89",
   "status": "partial",
   "theorems": [
    "C89_success_near_minimum_refuted",
    "C89_bracket_partial",
    "C89_bracket_refuted"
   ],
   "note": "[C89_success_near_minimum_refuted] The certificate of C20 fails in binary64. The computed function |x - c| falls up to c, rises after it and is least at c only; the search for its minimum on [0, 1] reports success; the value returned is more than 18 tolerances away from c, where exact arithmetic (C20) promises at most phi^2 < 2.62 of them. [C89_bracket_partial] The bracket in binary64, on [0, upper]. As long as the middle point has not met the lower end, the three points stay ordered doubles inside [0, upper], the bracket only shrinks, and every point tried lies in it. If moreover the two inner points have been distinct and the computed function falls strictly up to the double x and rises strictly after it, x is still in the bracket. Missing from the full claim: nothing is said once the points meet (false then: C89_bracket_refuted), nor of the distance to x on success (false: C89_success_near_minimum_refuted). [C89_bracket_refuted] When the two inner points coincide the step keeps the lower part of the bracket, whichever part holds the minimum: the search for the minimum of the computed |x - c| on [0, 1] with tolerance 2^-52 reports success with c more than 6 tolerances above its final bracket."
  },
  {
   "property": "C90",
   "status": "partial",
   "theorems": [
    "C90_verdict",
    "C90_local_convergence",
    "C90_success_near_root_refuted"
   ],
   "note": "[C90_success_near_root_refuted] With cauchy_termination=False success does not mean that a root is near. Newton's method in binary64 for x^2 - 2 on the box [-1/2, 3], which contains the root sqrt 2, started at -1/4: the first step is clipped to the lower bound, the second is clipped to nothing, and this is taken for convergence. The value returned is -1/2, where the function is below -1."
  },
  {
   "property": "C91",
   "status": "proved",
   "theorems": [
    "C91_bisection_signs",
    "C91_golden_order",
    "C91_nelder_mead_order",
    "C91_bisection_expand_needs_order"
   ],
   "note": ""
  },
  {
   "property": "C92",
   "status": "proved",
   "theorems": [
    "C92_gauss_newton_is_newton",
    "C92_chord_first_step",
    "C92_gradient_descent_is_sgd",
    "C92_newton_affine"
   ],
   "note": ""
  },
  {
   "property": "C93",
   "status": "proved",
   "theorems": [
    "C93_monotone_convergence"
   ],
   "note": ""
  },
  {
   "property": "C94",
   "status": "proved",
   "theorems": [
    "C94_split_loop",
    "C94_partition_combine",
    "C94_wrap_jaxpr",
    "C94_filter_cond"
   ],
   "note": ""
  },
  {
   "property": "C95",
   "status": "proved",
   "theorems": [
    "C95_iterates",
    "C95_terminates",
    "C95_success"
   ],
   "note": ""
  },
  {
   "property": "C96",
   "status": "proved",
   "theorems": [
    "C96_gradient_descent",
    "C96_gradient_descent_optimum",
    "C96_backtracking",
    "C96_backtracking_optimum",
    "C96_levenberg_marquardt",
    "C96_levenberg_marquardt_optimum",
    "C96_dogleg",
    "C96_indirect_levenberg_marquardt"
   ],
   "note": ""
  },
  {
   "property": "C97",
   "status": "partial",
   "theorems": [
    "C97_single_start",
    "C97_user_simplex_refuted",
    "C97_accepted_simplex_refuted"
   ],
   "note": "The half about a single starting point is proved (an equivalence). The half about y0_simplex is false for every input: C97_user_simplex_refuted. It rests on the check made by eqx.filter_closure_convert, modelled as closure_convert. [C97_user_simplex_refuted] The full claim, that with options[\"y0_simplex\"]=True a simplex accepted by NelderMead.init is searched, is false: whatever the function and y0, minimise raises. The function is traced at the structure of y0, a whole simplex, and then called at the structure of one vertex. [C97_accepted_simplex_refuted] Even for the simplices that NelderMead.init accepts: two points on the real line, given to minimise with a function that takes arrays of any shape to a number. The initial check passes and the call still raises ValueError."
  },
  {
   "property": "C98",
   "status": "proved",
   "theorems": [
    "C98_derivative",
    "C98_implicit",
    "C98_limit"
   ],
   "note": ""
  },
  {
   "property": "C99",
   "status": "proved",
   "theorems": [
    "C99_lanes",
    "C99_failures"
   ],
   "note": ""
  },
  {
   "property": "C100",
   "status": "proved",
   "theorems": [
    "C100_gradient_descent",
    "C100_gradient_descent_success",
    "C100_gradient_descent_terminates",
    "C100_gauss_newton",
    "C100_gauss_newton_success",
    "C100_gauss_newton_terminates"
   ],
   "note": ""
  },
  {
   "property": "C101",
   "status": "proved",
   "theorems": [
    "C101_entering",
    "C101_superlinear",
    "C101_terminates",
    "C101_global"
   ],
   "note": ""
  },
  {
   "property": "C102",
   "status": "proved",
   "theorems": [
    "C102_dogleg",
    "C102_indirect_levenberg_marquardt",
    "C102_dogleg_terminates",
    "C102_indirect_terminates"
   ],
   "note": ""
  },
  {
   "property": "C103",
   "status": "proved",
   "theorems": [
    "C103_entering",
    "C103_global",
    "C103_dogleg_entering",
    "C103_dogleg_global"
   ],
   "note": ""
  },
  {
   "property": "C104",
   "status": "partial",
   "theorems": [
    "C104_levenberg_marquardt",
    "C104_indirect_levenberg_marquardt",
    "C104_dogleg",
    "C104_gauss_newton",
    "C104_dogleg_refuted"
   ],
   "note": "Proved for GaussNewton, LevenbergMarquardt and IndirectLevenbergMarquardt. False for Dogleg: C104_dogleg_refuted runs a binary64 solve that reports success at its start with gradient 2^52. C104_dogleg is what holds: a zero gradient, or a step size below 1 and a Cauchy step of length at most eps. [C104_dogleg_refuted] Without the cutoff's exception the claim fails for Dogleg, already in binary64 with its own eps: with the residual 1 + 2^52 y + (2^55 y)^3 and tolerances 10^-30 it reports success after three steps, returning the start y0 = 0 with residual 1, gradient 2^52 and both tests met by a step of length zero, although at -2^-55 the residual is -1/8."
  },
  {
   "property": "C105",
   "status": "proved",
   "theorems": [
    "C105_gradient",
    "C105_quasi_newton",
    "C105_lbfgs",
    "C105_least_squares",
    "C105_methods",
    "C105_renaming",
    "C105_rotation",
    "C105_solver",
    "C105_max_norm"
   ],
   "note": "Real-number model. C105_gradient, C105_quasi_newton, C105_lbfgs and C105_least_squares take any isometry; C105_renaming and C105_rotation say for which norms and tolerances the stopping test qualifies; C105_max_norm is the solve that changes under a rotation; C105_solver covers the linear solver."
  },
  {
   "property": "C106",
   "status": "proved",
   "theorems": [
    "C106_superlinear",
    "C106_frozen",
    "C106_threshold"
   ],
   "note": "Real-number model. C106_superlinear is for eps = 0; C106_frozen and C106_threshold say what the positive threshold of the code does instead. The Armijo search is the one BFGS uses (slope 1/10, factor 1/2)."
  },
  {
   "property": "C107",
   "status": "proved",
   "theorems": [
    "C107_kantorovich",
    "C107_chord"
   ],
   "note": "Extended-real model; C107_kantorovich for Newton, C107_chord for Chord. The linear solver is only assumed to solve systems with an injective matrix."
  },
  {
   "property": "C108",
   "status": "partial",
   "theorems": [
    "C108_strongly_convex_refuted"
   ],
   "note": "False: C108_strongly_convex_refuted. For all tolerances and every B there is a strongly convex, smooth function on which the solve from (0, 0) succeeds, returning (0, 0), B above another value. [C108_strongly_convex_refuted] Nelder-Mead is not a convergent method, even on functions that are strongly convex and smooth, the class on which gradient descent and BFGS converge globally and linearly (C83, C84). For every choice of tolerances, of the size of the initial simplex and of a bound B there is such a function of two unknowns on which the solve started from (0, 0) stops with success and returns (0, 0), although the function has a value smaller by B elsewhere."
  },
  {
   "property": "C109",
   "status": "proved",
   "theorems": [
    "C109_rate",
    "C109_converges",
    "C109_terminates"
   ],
   "note": "Global linear convergence of NonlinearCG(polak_ribiere, BacktrackingArmijo) on smooth strongly convex functions, one rate for all dimensions and starts; termination with success."
  },
  {
   "property": "C110",
   "status": "proved",
   "theorems": [
    "C110_inexact"
   ],
   "note": "Inexact Newton and Chord: semilocal convergence with a linear solver of relative accuracy eta, linear rate, quadratic under quadratic accuracy, success within K + 1 steps."
  },
  {
   "property": "C111",
   "status": "proved",
   "theorems": [
    "C111_complexity",
    "C111_rate",
    "C111_terminates"
   ],
   "note": "Complexity, Polyak-Lojasiewicz rate and termination for every gradient-related descent with BacktrackingArmijo or LinearTrustRegion."
  },
  {
   "property": "C112",
   "status": "proved",
   "theorems": [
    "C112_looser",
    "C112_newton_counterexample"
   ],
   "note": "Proved for every solver in binary64; the named exception (cauchy_termination=False) is shown by a concrete double-precision solve."
  },
  {
   "property": "C113",
   "status": "proved",
   "theorems": [
    "C113_local_convergence",
    "C113_bounds_do_not_globalise"
   ],
   "note": "Local convergence with bounds and the global counterexample, on the extended reals."
  },
  {
   "property": "C114",
   "status": "proved",
   "theorems": [
    "C114_converges",
    "C114_terminates",
    "C114_undamped_cycles"
   ],
   "note": "Real-number behaviour on the extended-real model; the default damp = 0 is the counterexample."
  },
  {
   "property": "C115",
   "status": "proved",
   "theorems": [
    "C115_inexact_gauss_newton"
   ],
   "note": "Real-number model; first step and termination included."
  },
  {
   "property": "C116",
   "status": "proved",
   "theorems": [
    "C116_evaluations",
    "C116_gradients"
   ],
   "note": "Any number system. The count is over distinct points the result can depend on, in the model; how often XLA evaluates the traced function is outside it. Bisection with expansion of the bracket in init is not covered; Optax only for transformations ignoring value_fn."
  },
  {
   "property": "C117",
   "status": "proved",
   "theorems": [
    "C117_shift",
    "C117_relative_tolerance",
    "C117_rounding"
   ],
   "note": "Exact arithmetic for the positive part; the negative parts are binary64 runs."
  },
  {
   "property": "C118",
   "status": "proved",
   "theorems": [
    "C118_resume",
    "C118_chord",
    "C118_gradient_descent",
    "C118_single_step"
   ],
   "note": "Any number system. Chord and single steps are the negative parts."
  },
  {
   "property": "C119",
   "status": "proved",
   "theorems": [
    "C119_aux",
    "C119_golden",
    "C119_nelder_mead",
    "C119_not_at_value",
    "C119_placeholder"
   ],
   "note": "Any number system. That aux does not belong to the returned value is part of the claim."
  },
  {
   "property": "C120",
   "status": "proved",
   "theorems": [
    "C120_backtracking",
    "C120_least_squares",
    "C120_best_so_far",
    "C120_fixed_rate_worse",
    "C120_nelder_mead_worse"
   ],
   "note": "Binary64 and extended reals for Armijo backtracking and BestSoFar; exact reals for the least-squares trust-region methods. The two failures are part of the claim."
  },
  {
   "property": "C121",
   "status": "proved",
   "theorems": [
    "C121_finds_damping",
    "C121_too_short",
    "C121_too_long",
    "C121_stops_early",
    "C121_terminates"
   ],
   "note": "Exact arithmetic; the derivative of the comparison function and the scalar division are exact oracles. The three failures are part of the claim."
  },
  {
   "property": "C122",
   "status": "proved",
   "theorems": [
    "C122_gauss_newton",
    "C122_dogleg",
    "C122_least_squares",
    "C122_minimum_norm",
    "C122_levenberg_marquardt",
    "C122_dogleg_guard"
   ],
   "note": "Exact arithmetic. The trajectories are compared, not the stopping test, whose atol is an absolute quantity. The dependence of Levenberg-Marquardt and of the dogleg threshold on the units is part of the claim."
  },
  {
   "property": "C123",
   "status": "proved",
   "theorems": [
    "C123_fixed_point",
    "C123_newton",
    "C123_bisection",
    "C123_golden",
    "C123_nelder_mead",
    "C123_gradient_descent",
    "C123_backtracking",
    "C123_tolerance_matters"
   ],
   "note": "Extended reals (infinities and NaN, no rounding). Per-component units for fixed-point iteration and Newton/chord, one unit for all unknowns for Nelder-Mead and gradient descent. atol is one number for unknowns and residuals in the code, so it can only be converted if it is 0 or all units agree (for Newton without Cauchy test: the units of the unknowns). Trust regions start with step size 1, which has a unit, and are not covered."
  },
  {
   "property": "C124",
   "status": "proved",
   "theorems": [
    "C124_fixed_point",
    "C124_fixed_point_solve",
    "C124_newton",
    "C124_newton_solve",
    "C124_gradient_descent",
    "C124_rms_norm_stops_early"
   ],
   "note": "Newton and chord: linear solves are assumed to act blockwise on a block-diagonal operator. For gradient descent only the iterates are compared (its stopping test compares function values, which add up)."
  },
  {
   "property": "C125",
   "status": "proved",
   "theorems": [
    "C125_gradient_descent",
    "C125_backtracking",
    "C125_rate_two_over_L"
   ],
   "note": "Exact real arithmetic; gradients are those of the function. Statements are about the sequence of iterates, before the stopping test ends the solve."
  },
  {
   "property": "C126",
   "status": "proved",
   "theorems": [
    "C126_gradient_descent",
    "C126_backtracking",
    "C126_gradient_related",
    "C126_answer"
   ],
   "note": "Exact real arithmetic; gradients are those of the function. Statements are about the sequence of iterates, before the stopping test ends the solve. The example is a non-convex function."
  },
  {
   "property": "C127",
   "status": "proved",
   "theorems": [
    "C127_levenberg_marquardt",
    "C127_terminates"
   ],
   "note": "Exact real arithmetic and exact least-squares solves; the Jacobian is related to the residuals through smoothness of 1/2 |r|^2. The example has one residual and two unknowns."
  }
 ]
}