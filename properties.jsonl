{"id": "C01", "title": "Step budget and step count", "statement": "A solve with max_steps=m calls the solver's step function exactly stats['num_steps'] times, and num_steps <= m. With max_steps=0 the initial point is handed to postprocess untouched.", "quantifier": "every solver (built-in or user-written), every function, every initial point, every m", "why_tests_cant": "Tests run particular solvers on particular functions; the bound must hold for any step/terminate implementation.", "anchors": ["optimistix/_iterate.py: _iterate, iterative_solve"]}
{"id": "C02", "title": "The solve stops at the first stopping iterate", "statement": "The y, state and aux given to postprocess are those after exactly k steps, where k is the least step count at which either the solver reported termination, or it reported a non-success result, or the y it was asked about was non-finite, or k = max_steps. No later iterate is ever returned and no stopping iterate is skipped.", "quantifier": "every solver, function, initial point, max_steps (finite or None)", "why_tests_cant": "First-index minimality quantifies over all earlier iterates of all runs.", "anchors": ["optimistix/_iterate.py: _iterate (cond_fun, body_fun)"]}
{"id": "C03", "title": "Meaning of Solution.result", "statement": "result is `successful` exactly when the solver itself reported termination with `successful` and the checked iterate was finite; it is `nonlinear_max_steps_reached` exactly when the budget ran out with no termination and no failure; it is `nonfinite` whenever the checked iterate was non-finite; otherwise it is the solver's own failure code. In particular a run that used up max_steps without convergence is never reported as successful.", "quantifier": "every solver whose own codes do not include the two driver codes, every function, initial point, max_steps", "why_tests_cant": "Status codes must be right for all combinations of terminate / result / finiteness / budget along any history.", "anchors": ["optimistix/_iterate.py: _iterate", "optimistix/_solution.py: RESULTS"]}
{"id": "C04", "title": "Successful solves do not return NaN or infinity", "statement": "If a solve reports `successful` then Solution.value contains no NaN and no infinity.", "quantifier": "every solver, function and initial point", "why_tests_cant": "Requires reasoning about which iterate the finiteness check looks at, for every possible history.", "anchors": ["optimistix/_iterate.py: _iterate (terminate_and_result, body_fun)", "optimistix/_misc.py: tree_allfinite"]}
{"id": "C05", "title": "throw=True raises exactly on failure", "statement": "With throw=True the call raises if and only if result is not `successful`; with throw=False it never raises because of the status; when nothing is raised, both settings return the same Solution.", "quantifier": "every solver, function, initial point, max_steps", "why_tests_cant": "An if-and-only-if over all outcomes.", "anchors": ["optimistix/_iterate.py: iterative_solve"]}
{"id": "C06", "title": "Non-finite starting points are reported without stepping", "statement": "If y0 contains a NaN or infinity then no step is taken, result is `nonfinite`, and the value is y0.", "quantifier": "every solver (whatever its own terminate says), function, y0", "why_tests_cant": "Universal over solvers.", "anchors": ["optimistix/_iterate.py: _iterate"]}
{"id": "C07", "title": "root_find with a minimiser or least-squares solver only succeeds near a root", "statement": "When root_find delegates to a minimiser or a least-squares solver, a `successful` result implies that norm(fn(y)) < solver.atol at the last iterate on which the function's value was reported, in addition to the wrapped solver's own termination criterion; stopping at a non-root stationary point is never reported as success.", "quantifier": "every wrapped minimiser/least-squares solver, function, norm", "why_tests_cant": "The claim is about every possible inner solver and every trajectory.", "anchors": ["optimistix/_root_find.py: _ToRoot, root_find, _to_minimise_fn, _to_lstsq_fn"]}
{"id": "C08", "title": "Cross-problem conversions optimise the documented objective", "statement": "fixed_point via a root finder solves fn(y)-y=0; least_squares via a minimiser minimises 0.5*sum(residual^2); root_find via least squares uses fn(y) as the residuals; in each case user aux is passed through unchanged, and a point is a root/zero-loss point of the converted problem iff it solves the original problem.", "quantifier": "every function, point", "why_tests_cant": "Equivalence over all functions and points.", "anchors": ["optimistix/_root_find.py: root_find", "optimistix/_fixed_point.py: _ToRootFn, fixed_point", "optimistix/_least_squares.py: _ToMinimiseFn, least_squares"]}
{"id": "C09", "title": "BestSoFar returns the best iterate seen", "statement": "The value returned by a BestSoFar wrapper is one of the iterates on which the wrapped solver reported the function value, no other such iterate has strictly smaller loss, and the returned aux is the function's aux at the returned value.", "quantifier": "every wrapped solver that reports, from each step, the function output at the point the step was given; every function; every number of steps; NaN losses allowed", "why_tests_cant": "Optimality over every history, with adversarial losses including NaN and infinities.", "anchors": ["optimistix/_solver/best_so_far.py: _AbstractBestSoFarSolver"]}
{"id": "C10", "title": "BestSoFar does not disturb the wrapped solver", "statement": "Wrapping in BestSoFar changes neither the sequence of iterates, nor num_steps, nor result of the wrapped solver (run on the function whose aux is extended with the function value).", "quantifier": "every wrapped solver, function, y0, max_steps", "why_tests_cant": "Bisimulation over all histories.", "anchors": ["optimistix/_solver/best_so_far.py"]}
{"id": "C11", "title": "BestSoFar composes with every built-in minimiser", "statement": "BestSoFarMinimiser(solver) returns the best iterate also when solver is NelderMead or GoldenSearch.", "quantifier": "every function and interval/initial point", "why_tests_cant": "Depends on what aux each step hands back for all histories.", "anchors": ["optimistix/_solver/best_so_far.py", "optimistix/_solver/nelder_mead.py: NelderMead.step", "optimistix/_solver/golden.py: GoldenSearch.step"]}
{"id": "C12", "title": "Bisection keeps a sign change", "statement": "If bisection starts from an interval whose endpoint values have different signs (in the sense checked by flip='detect'), then after every step the stored interval still has a sign change of the same orientation, whatever y0 was given.", "quantifier": "every scalar function (no continuity needed), every y0, every number of steps", "why_tests_cant": "An invariant over unboundedly many steps.", "anchors": ["optimistix/_solver/bisection.py: Bisection.init, Bisection.step"]}
{"id": "C13", "title": "Bisection halves its interval", "statement": "From the second step on, each bisection step exactly halves the interval width; after n+1 steps the width is the width after the first step divided by 2^n, and the iterate is the midpoint of the interval.", "quantifier": "every scalar function, interval, y0, n", "why_tests_cant": "Unbounded in n.", "anchors": ["optimistix/_solver/bisection.py: Bisection.step"]}
{"id": "C14", "title": "Bisection success means a true root is close", "statement": "If fn is continuous and bisection reports success then fn has an exact root within 0.5*(atol+rtol*|y|) of the returned value, where y is the last evaluated point, and |fn(y)| < atol.", "quantifier": "every continuous function, valid interval, y0, tolerances", "why_tests_cant": "Uses the intermediate value theorem over all continuous functions.", "anchors": ["optimistix/_solver/bisection.py: Bisection.terminate", "optimistix/_iterate.py"]}
{"id": "C15", "title": "Bisection always converges", "statement": "For a continuous fn with a bracketing interval and atol>0, rtol>=0, bisection without a step limit terminates successfully after finitely many steps.", "quantifier": "every continuous function, valid interval, y0, tolerances", "why_tests_cant": "Liveness.", "anchors": ["optimistix/_solver/bisection.py"]}
{"id": "C16", "title": "Bisection rejects non-bracketing intervals", "statement": "With flip='detect' and no expansion, the solve raises exactly when fn(lower) and fn(upper) are both negative or both non-negative; otherwise the detected orientation is the true one.", "quantifier": "every function and interval", "why_tests_cant": "If-and-only-if over all functions.", "anchors": ["optimistix/_solver/bisection.py: Bisection.init"]}
{"id": "C17", "title": "Bisection interval expansion is sound and finds a bracket for monotone functions", "statement": "With expand_if_necessary the interval finally used has a sign change whenever the expansion loop finishes, for any function; it does finish for every strictly monotone function that has a root when lower<upper, and never for a function without roots that is positive everywhere; an interval whose end values have strictly opposite signs is left unchanged (if one end is an exact root it may move). Combined with bisection, the solve succeeds near the root.", "quantifier": "every function (soundness); every strictly monotone function with a root (termination); every interval with lower<upper", "why_tests_cant": "Unbounded loop; termination depends on the function.", "anchors": ["optimistix/_solver/bisection.py: _expand_interval..., Bisection.init"]}
{"id": "C18", "title": "Golden section search stays in the interval it was given", "statement": "GoldenSearch only evaluates fn at, and only returns, points of [lower, upper].", "quantifier": "every interval lower<upper, every function, every number of steps", "why_tests_cant": "Must hold for every interval; the test-suite only uses lower=0.", "anchors": ["optimistix/_solver/golden.py: GoldenSearch.init, GoldenSearch.step"]}
{"id": "C19", "title": "Golden section search shrinks geometrically and keeps the golden ratio", "statement": "After every step the interior point divides the current interval in the golden ratio and the interval length is the initial one times (1/phi)^n.", "quantifier": "every function, every number of steps", "why_tests_cant": "Unbounded in n, exact irrational ratio.", "anchors": ["optimistix/_solver/golden.py: GoldenSearch.step"]}
{"id": "C20", "title": "Golden section search finds the minimum of unimodal functions", "statement": "If fn is unimodal on [lower, upper], its minimiser lies in the current interval after every step, so the returned value is within the current interval length of the minimiser; and for continuous unimodal functions with atol>0 the search terminates.", "quantifier": "every unimodal function and interval", "why_tests_cant": "Universal over functions and over histories.", "anchors": ["optimistix/_solver/golden.py"]}
{"id": "C21", "title": "Newton and Chord respect the box options", "statement": "With options lower/upper (lower<=upper) every iterate after the first step of Newton and Chord, and hence Solution.value when at least one step is taken, lies in the box in every component.", "quantifier": "every function, Jacobian, linear solver outcome (finite), box, number of steps", "why_tests_cant": "Invariant over all steps and oracle answers.", "anchors": ["optimistix/_solver/newton_chord.py: _NewtonChord.step", "optimistix/_misc.py: tree_clip"]}
{"id": "C22", "title": "Newton/Chord success certificate (Cauchy termination)", "statement": "With cauchy_termination=True, success implies that the last evaluated iterate y satisfies |fn(y)_i| < atol in every component (max norm) and |value - y|_i < atol + rtol*|y_i|, and that the linear solve of that step succeeded.", "quantifier": "every function, Jacobian, linear solver, tolerances, y0", "why_tests_cant": "Soundness of the convergence test for all histories.", "anchors": ["optimistix/_solver/newton_chord.py: _NewtonChord.terminate", "optimistix/_misc.py: cauchy_termination"]}
{"id": "C23", "title": "Newton/Chord failure reporting", "statement": "If the linear solve of a step fails the solve stops with the linear solver's code and never with success; with cauchy_termination=False success is never reported before two steps, and a non-finite or more than doubling step ratio is reported as nonlinear_divergence unless the step is tiny.", "quantifier": "every function and linear solver", "why_tests_cant": "All histories and oracle failures.", "anchors": ["optimistix/_solver/newton_chord.py: _small, _diverged, _converged, terminate"]}
{"id": "C24", "title": "Newton and Chord solve affine systems exactly", "statement": "For an affine function with invertible matrix and an exact linear solver, the iterate after one step is the exact root and the solve succeeds within two steps, for every y0.", "quantifier": "every dimension, every invertible affine system, every y0", "why_tests_cant": "All dimensions and systems.", "anchors": ["optimistix/_solver/newton_chord.py"]}
{"id": "C25", "title": "Fixed-point iteration success certificate", "statement": "Success of FixedPointIteration implies |value_i - y_i| < atol + rtol*|value_i| where value = (1-damp)*fn(y)+damp*y componentwise; with damp=0 this means |fn(y)-y| is below tolerance.", "quantifier": "every function, y0, damp, tolerances", "why_tests_cant": "All histories.", "anchors": ["optimistix/_solver/fixed_point.py: FixedPointIteration"]}
{"id": "C26", "title": "Fixed-point iteration converges on contractions", "statement": "If fn is a q-contraction (q<1) in the max norm then, with atol>0, 0<=damp<1, the iteration terminates successfully and the returned value is within q'/(1-q') * (atol + rtol*|value|) of every fixed point, q' = damp+(1-damp)*q.", "quantifier": "every contraction in every dimension", "why_tests_cant": "Liveness and error bound for all functions.", "anchors": ["optimistix/_solver/fixed_point.py"]}
{"id": "C27", "title": "Armijo searches never increase the objective", "statement": "For minimisers built on BacktrackingArmijo (NonlinearCG, BFGS, DFP, L-BFGS, gradient descent with that search) the objective at the current iterate never increases from one step to the next, in IEEE binary64 arithmetic as well as in exact arithmetic, so fn(value) <= fn(y0) after any number of steps.", "quantifier": "every objective, every gradient/Hessian oracle (even wrong), every descent, every number of steps, NaN/inf values allowed", "why_tests_cant": "Monotonicity along every trajectory under rounding.", "anchors": ["optimistix/_solver/backtracking.py: BacktrackingArmijo.step", "optimistix/_solver/gradient_methods.py", "optimistix/_solver/quasi_newton.py"]}
{"id": "C28", "title": "Backtracking step sizes", "statement": "After k consecutive rejections the Armijo search proposes exactly step_init*decrease_factor^k; an acceptance resets to step_init. The proposed step is always positive.", "quantifier": "every sequence of function values", "why_tests_cant": "Every accept/reject history.", "anchors": ["optimistix/_solver/backtracking.py"]}
{"id": "C29", "title": "Backtracking terminates on descent directions", "statement": "For a differentiable objective and a descent direction (negative slope), backtracking accepts after finitely many rejections.", "quantifier": "every differentiable function and descent direction", "why_tests_cant": "Liveness over all functions.", "anchors": ["optimistix/_solver/backtracking.py"]}
{"id": "C30", "title": "Trust-region step-size rule", "statement": "A trust-region search multiplies the radius by high_constant exactly when the step was good, by low_constant exactly when it was rejected, and leaves it alone otherwise; the radius stays positive; a NaN objective is always rejected.", "quantifier": "every sequence of function values and predictions", "why_tests_cant": "Every history.", "anchors": ["optimistix/_solver/trust_region.py: _AbstractTrustRegion.step"]}
{"id": "C31", "title": "Trust-region solvers never increase the loss when the model predicts a reduction", "statement": "If the predicted reduction is non-positive at every accepted step, the loss at the current iterate never increases.", "quantifier": "every objective, trajectory", "why_tests_cant": "Every trajectory.", "anchors": ["optimistix/_solver/trust_region.py"]}
{"id": "C32", "title": "Levenberg-Marquardt is monotone", "statement": "With exact linear solves, LevenbergMarquardt never increases the sum of squares, in any dimension and for any residual function.", "quantifier": "every residual function and Jacobian of any shape, any y0, any number of steps", "why_tests_cant": "Needs the damped normal equations for all shapes.", "anchors": ["optimistix/_solver/levenberg_marquardt.py: damped_newton_step", "optimistix/_solver/trust_region.py: ClassicalTrustRegion.predict_reduction", "optimistix/_solver/gauss_newton.py"]}
{"id": "C33", "title": "Classical trust region predicts with the Gauss-Newton quadratic model", "statement": "predict_reduction equals g.d + 0.5*d.(J^T J)d for least squares and g.d+0.5 d.Hd for minimisation; the two code paths agree.", "quantifier": "all shapes, residuals, Jacobians, steps", "why_tests_cant": "Algebraic identity in all dimensions.", "anchors": ["optimistix/_solver/trust_region.py: ClassicalTrustRegion.predict_reduction"]}
{"id": "C34", "title": "Dogleg stays inside the trust region", "statement": "The dogleg step never exceeds the trust-region radius: its norm is at most step_size times the norm of the Newton step, and the step is the point where the dogleg path leaves the ball.", "quantifier": "all dimensions, gradients, Newton steps, step sizes", "why_tests_cant": "Needs the quadratic formula for all inputs including degenerate ones.", "anchors": ["optimistix/_solver/dogleg.py: DoglegDescent"]}
{"id": "C35", "title": "Nonlinear CG always moves downhill", "statement": "Whatever method is chosen (even one returning NaN), the search direction has non-positive inner product with the gradient, strictly negative unless the gradient vanishes; the first direction is steepest descent.", "quantifier": "every history of gradients, every method", "why_tests_cant": "All histories and methods.", "anchors": ["optimistix/_solver/nonlinear_cg.py: NonlinearCGDescent"]}
{"id": "C36", "title": "Nonlinear CG beta formulas", "statement": "polak_ribiere, fletcher_reeves, hestenes_stiefel and dai_yuan compute the classical formulas; in particular the Hestenes-Stiefel direction is conjugate to the gradient change.", "quantifier": "all gradient pairs and previous directions", "why_tests_cant": "Identity over all inputs.", "anchors": ["optimistix/_solver/nonlinear_cg.py: polak_ribiere, fletcher_reeves, hestenes_stiefel, dai_yuan"]}
{"id": "C37", "title": "BFGS updates satisfy the secant equation and stay symmetric positive definite", "statement": "Starting from the identity, after any sequence of steps the (inverse) Hessian approximation is symmetric positive definite, and after each update that is not skipped it satisfies the secant equation; updates with non-positive curvature are skipped.", "quantifier": "all dimensions, all sequences of iterates and gradients", "why_tests_cant": "Induction over unbounded update sequences in every dimension.", "anchors": ["optimistix/_solver/quasi_newton.py: AbstractBFGS / BFGSUpdate"]}
{"id": "C38", "title": "DFP updates satisfy the secant equation and stay symmetric positive definite", "statement": "Same as for BFGS, for both use_inverse modes.", "quantifier": "all dimensions, all sequences of iterates and gradients", "why_tests_cant": "Induction over unbounded update sequences in every dimension.", "anchors": ["optimistix/_solver/quasi_newton.py: AbstractDFP / DFPUpdate"]}
{"id": "C39", "title": "use_inverse does not change the algorithm", "statement": "For BFGS and DFP, the matrix kept with use_inverse=True is at every step the inverse of the matrix kept with use_inverse=False, so both give the same Newton step.", "quantifier": "all dimensions, all update sequences", "why_tests_cant": "Inverse relation over unbounded sequences.", "anchors": ["optimistix/_solver/quasi_newton.py"]}
{"id": "C40", "title": "L-BFGS history buffer keeps exactly the last pairs", "statement": "After k updates the ring buffer read in circular order holds exactly the last min(k, history_length) (step, gradient change) pairs in chronological order, preceded by neutral entries.", "quantifier": "every history length, every number of updates", "why_tests_cant": "Wrap-around for all k and m.", "anchors": ["optimistix/_solver/limited_memory_bfgs.py: AbstractLBFGS / LBFGSUpdate"]}
{"id": "C41", "title": "L-BFGS equals BFGS on the last pairs", "statement": "The implicit inverse-Hessian product equals the explicit BFGS product recursion over the stored pairs started from gamma*I; it is symmetric positive definite and satisfies the secant equation for the newest pair.", "quantifier": "all dimensions, history lengths, numbers of updates, vectors", "why_tests_cant": "Two-loop recursion correctness for unbounded history.", "anchors": ["optimistix/_solver/limited_memory_bfgs.py: _lbfgs_inverse_hessian_operator_fn"]}
{"id": "C42", "title": "L-BFGS compact Hessian satisfies the secant equation", "statement": "The use_inverse=False (compact) L-BFGS operator maps the newest step to the newest gradient change.", "quantifier": "all dimensions, history lengths, histories", "why_tests_cant": "Matrix identity over all histories.", "anchors": ["optimistix/_solver/limited_memory_bfgs.py: _lbfgs_hessian_operator_fn"]}
{"id": "C43", "title": "Rejected steps leave the iterate untouched; accepted steps move to the evaluated point", "statement": "In gradient-based minimisers, quasi-Newton and Gauss-Newton solvers every step either returns the given iterate unchanged (rejected) or returns the point evaluated in that step (accepted); the stored function information always belongs to the current iterate and the aux returned by the step is the aux at the iterate the step was given.", "quantifier": "every search, descent, function, history", "why_tests_cant": "Invariant over histories.", "anchors": ["optimistix/_solver/gradient_methods.py", "optimistix/_solver/quasi_newton.py", "optimistix/_solver/gauss_newton.py"]}
{"id": "C44", "title": "feasible_step_length is safe and maximal", "statement": "The returned fraction t lies in [0,1]; if current is within bounds then current + t*step is within bounds (strictly inside when 0<offset<1 and current strictly inside); with offset 0 no larger fraction in [0,1] is feasible.", "quantifier": "all points, steps and bounds, including infinite bounds", "why_tests_cant": "Universal over extended-real inputs.", "anchors": ["optimistix/_misc.py: feasible_step_length"]}
{"id": "C45", "title": "Cauchy point lies in the feasible box", "statement": "cauchy_point returns a point inside [lower, upper] whenever the loop finishes and y is in the box, and its search loop always finishes.", "quantifier": "all boxes, gradients and Hessian operators", "why_tests_cant": "Loop termination and invariants for all inputs.", "anchors": ["optimistix/_solver/cauchy_point.py: cauchy_point"]}
{"id": "C46", "title": "Nelder-Mead initial simplex is non-degenerate", "statement": "The simplex built from a single y0 consists of y0 plus one vertex displaced along each coordinate, so it affinely spans the whole space.", "quantifier": "every dimension, every y0", "why_tests_cant": "Tests only use low dimensions or good luck; the claim is for all dimensions.", "anchors": ["optimistix/_solver/nelder_mead.py: NelderMead.init"]}
{"id": "C47", "title": "Nelder-Mead bookkeeping", "statement": "After every step the stored best vertex is a vertex of the stored simplex and the stored best value is the function value at the stored best vertex; the stored best value never increases.", "quantifier": "every function, dimension, number of steps", "why_tests_cant": "Invariant over all histories.", "anchors": ["optimistix/_solver/nelder_mead.py: NelderMead.step"]}
{"id": "C48", "title": "Nelder-Mead only makes affine moves", "statement": "Every vertex ever produced is an affine combination of the initial vertices: any affine functional constant on the initial simplex is constant on every iterate, whatever the function.", "quantifier": "every function, dimension, number of steps", "why_tests_cant": "Invariant over all histories.", "anchors": ["optimistix/_solver/nelder_mead.py: NelderMead.step"]}
{"id": "C49", "title": "Nelder-Mead accepts valid user simplices", "statement": "With options y0_simplex=True, an array of n+1 points of dimension n is accepted as an initial simplex.", "quantifier": "every dimension", "why_tests_cant": "All dimensions.", "anchors": ["optimistix/_solver/nelder_mead.py: NelderMead.init"]}
{"id": "C50", "title": "compat.minimize reports the truth", "statement": "The OptimizeResults has success <=> status 0 <=> result successful; status 1 <=> iteration limit; fun is the objective at x and jac its gradient; nit <= nfev.", "quantifier": "every objective, options", "why_tests_cant": "All trajectories.", "anchors": ["optimistix/compat/_impl.py: minimize"]}
{"id": "C51", "title": "Implicit differentiation is correct", "statement": "The tangent returned by ImplicitAdjoint for a root y(theta) of F(y,theta)=0 is the derivative of y along theta.", "quantifier": "every differentiable F with invertible Jacobian and every differentiable root branch", "why_tests_cant": "Calculus over all functions.", "anchors": ["optimistix/_ad.py: implicit_jvp, _implicit_impl_jvp", "optimistix/_adjoint.py: ImplicitAdjoint"]}
{"id": "C52", "title": "tree_where / tree_clip / tree_allfinite act leafwise", "statement": "tree_where(p, a, b) is a or b leaf by leaf according to p; tree_clip puts every entry inside the bounds (when lower<=upper) and fixes entries already inside; tree_allfinite holds iff every array entry is finite.", "quantifier": "all pytrees", "why_tests_cant": "Structural induction over all trees.", "anchors": ["optimistix/_misc.py: tree_where, tree_clip, tree_allfinite, tree_full_like"]}
{"id": "C53", "title": "Gauss-Newton solves linear least squares in one step", "statement": "For affine residuals with exact linear least-squares solves, the first accepted proposal of GaussNewton is a global minimiser of the sum of squares, for every y0.", "quantifier": "all shapes, all affine residuals", "why_tests_cant": "All dimensions.", "anchors": ["optimistix/_solver/gauss_newton.py: newton_step, AbstractGaussNewton"]}
{"id": "C54", "title": "root_find with a minimiser minimises the documented objective", "statement": "root_find documents that with a minimiser the value sum(fn(y)^2) is minimised: of the points a minimiser compares it prefers the one with the smaller sum of squares.", "quantifier": "every function, every minimiser with any of the built-in norms", "why_tests_cant": "A test would have to hit a function whose max norm and sum of squares disagree at the points the minimiser visits; whether any exist is a question about all functions.", "anchors": ["optimistix/_root_find.py:_to_minimise_fn", "optimistix/_root_find.py:root_find"]}
{"id": "C55", "title": "Feasible steps stay feasible in floating point", "statement": "The step length returned by feasible_step_length keeps the moved point within the bounds when everything is computed in IEEE binary64.", "quantifier": "all binary64 points, steps and bounds with the point inside", "why_tests_cant": "Rounding goes the wrong way only for particular operands; a pass on sampled operands says nothing about the rest.", "anchors": ["optimistix/_misc.py: feasible_step_length"]}
{"id": "C56", "title": "Cauchy point minimises the model along the projected path", "statement": "cauchy_point is documented to return the first local minimiser of the quadratic model along the projected gradient path; in particular it never returns a point where the model exceeds its value at y.", "quantifier": "all boxes, gradients and positive definite Hessians", "why_tests_cant": "Optimality over a continuum of path points for all quadratics.", "anchors": ["optimistix/_solver/cauchy_point.py: _find_cauchy_point, cauchy_point"]}
{"id": "C57", "title": "Nelder-Mead success and divergence certificate", "statement": "When NelderMead (max norm) reports success after at least one step, every vertex of the final simplex lies within atol + rtol*|y| of the returned point y in every coordinate, the stored vertex values are the values of fn at those vertices, the best of them is finite, and all of them lie within atol + rtol*|f_best| of it. Divergence is reported exactly when the best stored value is not finite, and the solve then stops with that result (nonfinite instead if the iterate itself was not finite).", "quantifier": "every function, start, tolerances, displacement and run, in any ordered floating-point-like arithmetic", "why_tests_cant": "Ranges over all functions and run lengths.", "anchors": ["optimistix/_solver/nelder_mead.py: NelderMead.terminate", "optimistix/_solver/nelder_mead.py: NelderMead.step"]}
{"id": "C58", "title": "Nelder-Mead never returns a point worse than its start", "statement": "The value returned by a NelderMead solve (with throw=False and any max_steps) has an objective value no larger than that of y0.", "quantifier": "every function, start and step budget", "why_tests_cant": "Tests check converged runs; the claim concerns every budget.", "anchors": ["optimistix/_solver/nelder_mead.py: NelderMead.step", "optimistix/_solver/nelder_mead.py: NelderMead.postprocess"]}
{"id": "C59", "title": "compat.minimize uses the norm it is given", "statement": "As its documentation says, the `norm` option of compat.minimize is the norm with which convergence is tested: minimize with options={'norm': n} takes the same steps as a BFGS solve with rtol = atol = tol and norm n.", "quantifier": "every objective, start, tolerance and norm", "why_tests_cant": "The existing compat tests pass no norm; the claim ranges over all norms and objectives.", "anchors": ["optimistix/compat/_impl.py: minimize"]}
{"id": "C60", "title": "Minimisers and least-squares solvers only succeed after a small step", "statement": "When a built-in gradient-based minimiser (GradientDescent, NonlinearCG, BFGS, DFP, L-BFGS) or least-squares solver (GaussNewton, LevenbergMarquardt, IndirectLevenbergMarquardt, Dogleg) with the max norm reports success, at least two steps were taken, the last one was accepted, and it changed every component of y by less than atol + rtol*|y_i| and every component of the objective or residual by less than atol + rtol*|f_i|.", "quantifier": "every function, start, tolerances, search, descent and run, in any arithmetic whose order and division behave (binary64 included)", "why_tests_cant": "Ranges over all functions and run lengths, and over rounding.", "anchors": ["optimistix/_misc.py: cauchy_termination", "optimistix/_solver/gradient_methods.py: AbstractGradientDescent.step", "optimistix/_solver/quasi_newton.py: AbstractQuasiNewton.step", "optimistix/_solver/gauss_newton.py: AbstractGaussNewton.step"]}
{"id": "C61", "title": "OptaxMinimiser runs the Optax loop", "statement": "OptaxMinimiser's iterates and optimiser states are those of the plain Optax loop (grad, update, apply_updates) from y0 and optim.init(y0); its status is one of successful, nonlinear_max_steps_reached, nonfinite; success means the last updates are componentwise below atol + rtol*|y| (max norm) and the objective changed by less than atol + rtol*|f|; for objectives and tolerances small against finfo.max it is never reported after one step.", "quantifier": "every gradient transformation, objective, start, tolerances and run length", "why_tests_cant": "Tests run a few optimisers on a few problems.", "anchors": ["optimistix/_solver/optax.py: OptaxMinimiser.init", "optimistix/_solver/optax.py: OptaxMinimiser.step"]}
{"id": "C62", "title": "Search constructors reject bad parameters", "statement": "BacktrackingArmijo(decrease_factor, slope, step_init) can be constructed exactly when 0 < decrease_factor < 1, 0 < slope < 1 and 0 < step_init, and raises otherwise; the trust-region checks pass exactly when low_cutoff <= high_cutoff and both constants are non-negative.", "quantifier": "every choice of parameters, reals and binary64 (NaN included)", "why_tests_cant": "Boundary values of five floating-point parameters; tests construct searches with defaults.", "anchors": ["optimistix/_solver/backtracking.py: BacktrackingArmijo.__post_init__", "optimistix/_solver/trust_region.py: _AbstractTrustRegion.__post_init__"]}
{"id": "C63", "title": "The damped Newton step is the trust-region step", "statement": "In exact arithmetic, DampedNewtonDescent with step size t > eps returns the unique minimiser of |J d + r|^2 + |d|^2 / t; it solves (J^T J + I/t) d = -J^T r, minimises |J d + r| over the ball of radius |d| and is a descent direction; a larger t gives a step at least as long. With a Hessian it solves (H + I/t) d = -g. LevenbergMarquardt proposes exactly these steps.", "quantifier": "every dimension, Jacobian, residual, gradient, Hessian, step size and exact linear solver", "why_tests_cant": "Statement about a minimiser over all vectors, for all Jacobians.", "anchors": ["optimistix/_solver/levenberg_marquardt.py: damped_newton_step", "optimistix/_solver/levenberg_marquardt.py: DampedNewtonDescent"]}
{"id": "C64", "title": "Failed linear solves are reported", "statement": "The status of each step of GaussNewton, Dogleg, LevenbergMarquardt, IndirectLevenbergMarquardt and the quasi-Newton methods is the status of that step's linear solve at the current iterate; GradientDescent and NonlinearCG are always successful. Hence a successful GaussNewton solve had no failing linear solve, and a failing linear solve at the last step is the returned status.", "quantifier": "every arithmetic, problem, linear solver and run length", "why_tests_cant": "Needs linear solvers failing at arbitrary moments.", "anchors": ["optimistix/_solver/gauss_newton.py: NewtonDescent", "optimistix/_solver/levenberg_marquardt.py: IndirectDampedNewtonDescent.query", "optimistix/_solver/dogleg.py: DoglegDescent.step", "optimistix/_solver/gauss_newton.py: AbstractGaussNewton.step", "optimistix/_iterate.py: iterative_solve"]}
{"id": "C65", "title": "Gradient descent descends and terminates", "statement": "GradientDescent iterates y - rate * grad f(y). In exact arithmetic, for an L-smooth objective bounded below and 0 < rate < 2/L, every step lowers f by at least rate(1 - L rate/2)|grad|^2, and the solve succeeds within an explicit number of steps, at a value no larger than f(y0).", "quantifier": "every dimension, L-smooth objective bounded below, start, rate < 2/L and positive tolerances", "why_tests_cant": "Termination of an unbounded iteration for a whole class of objectives.", "anchors": ["optimistix/_solver/gradient_methods.py: SteepestDescent", "optimistix/_solver/gradient_methods.py: AbstractGradientDescent.step", "optimistix/_solver/learning_rate.py: LearningRate.step", "optimistix/_misc.py: cauchy_termination"]}
{"id": "C66", "title": "The two points of the dogleg path", "statement": "In exact arithmetic DoglegDescent.query stores as Newton point minus the linear solve, and as Cauchy point the unique minimiser of the quadratic model along the gradient, a non-positive multiple of it, when the curvature along the gradient exceeds eps; otherwise the Cauchy point is zero. Both for least squares (gradient J^T r, curvature |J g|^2) and for a Hessian.", "quantifier": "every dimension, Jacobian or Hessian, residual or gradient, linear solver and eps >= 0", "why_tests_cant": "Optimality along a line is a statement about all multiples of every gradient.", "anchors": ["optimistix/_solver/dogleg.py: DoglegDescent.query", "optimistix/_solver/gradient_methods.py: gradient step"]}
{"id": "C67", "title": "Quasi-Newton operators on pytrees are their matrices", "statement": "For an unknown that is any pytree of arrays: _outer builds the outer product of the flattened trees; _identity_pytree builds the identity matrix (any arithmetic) and maps every tree like its argument to itself; mv is the matrix-vector product; and after any sequence of points the operator held by BFGS or DFP is an operator on trees of that structure whose matrix is symmetric positive definite and equals the matrix held by the same method on flattened points, with the secant equation holding on the trees themselves.", "quantifier": "every tree structure, leaf sizes, sequence of points, both methods and both modes", "why_tests_cant": "Block bookkeeping over arbitrary nested structures; tests use a few fixed trees.", "anchors": ["optimistix/_solver/quasi_newton.py: _identity_pytree", "optimistix/_solver/quasi_newton.py: _outer", "optimistix/_solver/quasi_newton.py: AbstractBFGS.update_hessian", "optimistix/_solver/quasi_newton.py: AbstractDFP.update_hessian", "optimistix/_misc.py: tree_dot"]}
{"id": "C68", "title": "Nonlinear CG follows the conjugate-gradient recursion", "statement": "Along a run of NonlinearCG with any search and any beta, the iterate is the last trial point accepted, and every next trial point is y + t d, with t the search's answer and d given by the recursion d = -g + beta(g, g_previous, d_previous) d_previous over the gradients at the accepted points only (restarting with -g when that is not a descent direction, and from zero at the first point); rejected trial points leave the recursion untouched.", "quantifier": "every arithmetic, function, gradient oracle, search, beta, starting point and step", "why_tests_cant": "A whole-run statement about which gradients enter the recursion; tests only see final values.", "anchors": ["optimistix/_solver/nonlinear_cg.py: NonlinearCGDescent.query", "optimistix/_solver/nonlinear_cg.py: NonlinearCGDescent.step", "optimistix/_solver/gradient_methods.py: AbstractGradientDescent.step"]}
{"id": "C69", "title": "The indirect Levenberg-Marquardt step has the requested length", "statement": "With exact linear solves, the step of IndirectDampedNewtonDescent is the full Newton step when step_size >= 1 or the Newton solve fails. Otherwise it is the unique minimiser of |J d + r|^2 + lambda |d|^2 at the lambda the inner root finder returns, the function handed to that root finder is the length of the damped step minus step_size times the length of the Newton step, it does not increase with lambda, and the length of the step is the requested length plus the residual left by the root finder (so exactly the requested length at a root).", "quantifier": "every Jacobian, residual, step size, root finder and exact least-squares solver", "why_tests_cant": "Universally quantified minimality and length equation; floating point tests check neither.", "anchors": ["optimistix/_solver/levenberg_marquardt.py: IndirectDampedNewtonDescent.query", "optimistix/_solver/levenberg_marquardt.py: IndirectDampedNewtonDescent.step"]}
{"id": "C70", "title": "Newton and Chord converge near a root", "statement": "In exact arithmetic with exact linear solves, started within rho of a root where the matrix in use (the Jacobian at the current point for Newton, at the start for Chord) is boundedly invertible and its linearisation error is at most q/beta times the distance to the root (q < 1), every iterate of Newton or Chord is closer to the root by the factor q; when the linearisation error is quadratic the convergence is quadratic; and the solve with the default termination succeeds within K+1 steps as soon as 2 rho q^K and L rho q^K are below atol (L a Lipschitz constant at the root), returning a point whose error is at most q/(1-q) times the last step.", "quantifier": "every dimension, function, Jacobian, exact linear solver, start within the ball, tolerances, fuel and max_steps", "why_tests_cant": "A rate of convergence and a guaranteed bound on the number of steps for a whole class of functions cannot be observed on finitely many runs.", "anchors": ["optimistix/_solver/newton_chord.py: _AbstractNewtonChord.step", "optimistix/_solver/newton_chord.py: _AbstractNewtonChord.terminate", "optimistix/_misc.py: cauchy_termination"]}
{"id": "C71", "title": "Levenberg-Marquardt converges globally on smooth problems", "statement": "In exact arithmetic with exact least-squares solves, on a least-squares problem whose objective 1/2|r|^2 is L-smooth, LevenbergMarquardt accepts every proposal made with radius at most 99/(200 L), so its trust radius never falls below a quarter of min(1, 99/(200 L)) and at least about half of its steps are accepted; if the Jacobian is bounded the gradient J^T r falls below any threshold within a stated number of steps; and if moreover the residuals are Lipschitz and the Jacobian has uniformly full column rank, the solve succeeds within a stated number of steps at a point no worse than the start.", "quantifier": "every dimension, residual function, Jacobian, start, tolerances, smoothness constants, fuel and max_steps", "why_tests_cant": "A guaranteed bound on the number of steps for every problem in a class cannot be observed on finitely many runs.", "anchors": ["optimistix/_solver/levenberg_marquardt.py: DampedNewtonDescent", "optimistix/_solver/trust_region.py: ClassicalTrustRegion", "optimistix/_solver/gauss_newton.py: AbstractGaussNewton.step"]}
{"id": "C72", "title": "Steepest descent with Armijo backtracking converges on smooth problems", "statement": "In exact arithmetic, on an L-smooth function, steepest descent with BacktrackingArmijo takes the step t exactly when f(y - t g) <= f(y) - slope t |g|^2 and restarts from step_init, otherwise it stays and multiplies t by decrease_factor; every t <= 2(1-slope)/L is accepted, so t stays above min(step_init, 2 decrease_factor (1-slope)/L) and at most q consecutive steps are rejected; if f is bounded below the gradient falls below any threshold, and the solve with the default termination succeeds, within a stated number of steps and at a point no worse than the start.", "quantifier": "every dimension, smooth function bounded below, start, line-search parameters in range, tolerances, fuel and max_steps", "why_tests_cant": "A guaranteed bound on the number of steps for every problem in a class cannot be observed on finitely many runs.", "anchors": ["optimistix/_solver/backtracking.py: BacktrackingArmijo.step", "optimistix/_solver/gradient_methods.py: AbstractGradientDescent.step", "optimistix/_misc.py: cauchy_termination"]}
{"id": "C73", "title": "Nelder-Mead makes the textbook moves and counts them", "statement": "On every step after the first, NelderMead replaces its worst vertex by the reflected, expanded, outside-contracted or inside-contracted point, or shrinks every vertex towards the best, exactly as decided by the comparisons of the textbook method (best, second-worst and worst values), the points being taken along the line through the worst vertex and the centroid of the others; and the statistics reported at the end are the numbers of moves of each kind made during the run.", "quantifier": "every dimension, function, simplex, arithmetic satisfying the order laws, number of steps", "why_tests_cant": "A wrong comparison at a tie or a miscounted move does not change whether a run converges on the test functions, so only a proof over all value patterns sees it.", "anchors": ["optimistix/_solver/nelder_mead.py: NelderMead.step", "optimistix/_solver/nelder_mead.py: _update_stats", "optimistix/_solver/nelder_mead.py: NelderMead.postprocess"]}
{"id": "C74", "title": "Exactly the unsuitable combinations of search, descent and loop are rejected", "statement": "A solve built from a built-in search, a built-in descent and one of the built-in outer loops raises ValueError if and only if the search or the descent needs derivative information the loop does not have: ClassicalTrustRegion and the damped, indirectly damped and dogleg descents need a Hessian or a Jacobian, Newton's descent also accepts an inverse Hessian, everything else works with gradients. The named solvers never raise ValueError.", "quantifier": "every search and descent parameter, function, starting point, linear solver, arithmetic, fuel, max_steps and throw", "why_tests_cant": "Tests try a handful of the combinations and only with a few parameter values.", "anchors": ["optimistix/_solver/trust_region.py: ClassicalTrustRegion.predict_reduction, LinearTrustRegion.predict_reduction", "optimistix/_solver/gauss_newton.py: newton_step", "optimistix/_solver/levenberg_marquardt.py: DampedNewtonDescent, IndirectDampedNewtonDescent", "optimistix/_solver/dogleg.py: DoglegDescent.query", "optimistix/_solver/gradient_methods.py: SteepestDescent.query", "optimistix/_solver/backtracking.py: BacktrackingArmijo.step"]}
{"id": "C75", "title": "Forward- and reverse-mode differentiation give the same solve", "statement": "In exact arithmetic, lin_to_grad returns the gradient of the linear function in both modes, and the operators made with jac='fwd' and jac='bwd' have the same action and the same transpose; so a whole solve by any gradient-based minimiser, or by any built-in search and descent in the least-squares loop, is the same in both modes (value, result, aux, statistics, exceptions). Every other mode raises ValueError.", "quantifier": "every dimension, function with a linear derivative and its transpose, starting point, search, descent, tolerance, budget", "why_tests_cant": "Tests compare the two modes on a few problems to a tolerance; the claim is exact and for all problems.", "anchors": ["optimistix/_misc.py: lin_to_grad", "optimistix/_solver/gauss_newton.py: _make_f_info", "optimistix/_solver/gradient_methods.py: AbstractGradientDescent.step", "optimistix/_solver/quasi_newton.py: AbstractQuasiNewton.step"]}
{"id": "C76", "title": "The dogleg step in a trust region of any norm", "statement": "In exact arithmetic, with a trust-region norm other than the two-norm and the default bisection root finder, the dogleg step is the Cauchy step scaled to norm exactly D (D = step_size times the norm of the Newton step) if the Cauchy step is longer than D; the Newton step if step_size >= 1; and otherwise, when the Cauchy step is shorter than D, a point of the segment between them whose norm is D up to half of atol + 2 rtol times the length of the segment. When the Cauchy step is exactly as long as D and step_size < 1 the root find raises RuntimeError although throw=False is passed.", "quantifier": "every norm (triangle inequality, homogeneity), dimension, gradient, Newton step, step size, tolerance", "why_tests_cant": "Needs the intermediate value theorem along the segment for all norms, and the failing boundary has measure zero.", "anchors": ["optimistix/_solver/dogleg.py: DoglegDescent.step (interpolate_cauchy_and_newton)", "optimistix/_solver/bisection.py: Bisection.init"]}
{"id": "C77", "title": "Dogleg converges globally on smooth, full-rank least-squares problems", "statement": "In exact arithmetic, for exact linear solves, an objective below its tangent parabolas and a Jacobian bounded above and below in rank, the Dogleg solver accepts every trial made with a small enough radius, so that the radius stays above an explicit constant and at most half of the steps (plus a constant) are rejected; the gradient falls below any tolerance above the descent's eps cut-off within an explicit number of steps; and the solver terminates with success within an explicit number of steps at a point no worse than the initial one.", "quantifier": "every dimension, problem with the stated constants, starting point, tolerance", "why_tests_cant": "The bound is uniform over infinitely many problems and all three regions of the dogleg path; a test only sees that some runs converge.", "anchors": ["optimistix/_solver/dogleg.py: DoglegDescent, Dogleg", "optimistix/_solver/trust_region.py: ClassicalTrustRegion", "optimistix/_solver/gauss_newton.py: AbstractGaussNewton.step"]}
{"id": "C78", "title": "The entry points convert dtypes once and reject exactly the malformed problems", "statement": "minimise raises ValueError exactly when the function's value is not one real scalar (integers and booleans are converted, not rejected). fixed_point raises ValueError exactly when the value does not have the containers, shapes and dtypes of the converted y0, and does so for all four kinds of solver alike. root_find and least_squares accept every function, except that with a minimiser the norm must be a real scalar. The solver only ever sees floating-point or complex arrays; converting twice changes nothing. The complex-number warning appears exactly when y or the solved function's value is complex; a root-find by a minimiser does not look at the value of the user's function.", "quantifier": "every pytree of Python numbers and arrays, every function from structures to structures, x64 on or off, all four kinds of solver", "why_tests_cant": "There are infinitely many container structures, shapes and dtypes, and three routes through nested entry points.", "anchors": ["optimistix/_minimise.py: minimise", "optimistix/_least_squares.py: least_squares", "optimistix/_root_find.py: root_find", "optimistix/_fixed_point.py: fixed_point, _ToRootFn", "optimistix/_misc.py: inexact_asarray, asarray, NoneAux, OutAsArray", "optimistix/_iterate.py: iterative_solve"]}
{"id": "C79", "title": "The bracketing solvers reject every non-scalar problem with their documented ValueError", "statement": "GoldenSearch and Bisection accept exactly the problems whose y, bounds and output are scalars, and raise the ValueError with their explanatory message for every other problem.", "quantifier": "every single-array y0, every function from structures to structures, every pair of bounds", "why_tests_cant": "It is about all shapes and output structures.", "anchors": ["optimistix/_solver/golden.py: GoldenSearch.init", "optimistix/_solver/bisection.py: Bisection.init"]}
{"id": "C80", "title": "Gauss-Newton converges locally, quadratically on zero-residual problems", "statement": "Start Gauss-Newton within rho of a stationary point of a least-squares problem whose Jacobian is uniformly full rank there (sigma |v|^2 <= |J v|^2) and whose linearisation error satisfies |J(x)^T (r(x) - J(x)(x - root))| <= sigma q |x - root| with q < 1 (zero or small residuals). The first step stays at y0, every later step multiplies the distance to the solution by at most q, and by a factor proportional to the distance when the error is quadratic. The solve reports success within K + 2 steps once rho q^K is below half the tolerance (also after multiplication by the Lipschitz constant of r), and the returned value is then within rho q^(k-1) of the solution after k steps.", "quantifier": "every number of variables and residuals, every residual function, start, tolerance and step budget meeting the conditions; exact arithmetic, exact least-squares solves", "why_tests_cant": "It is a rate over infinitely many problems, starts and tolerances.", "anchors": ["optimistix/_solver/gauss_newton.py: GaussNewton, NewtonDescent, AbstractGaussNewton.step", "optimistix/_solver/learning_rate.py: LearningRate", "optimistix/_misc.py: cauchy_termination"]}
{"id": "C81", "title": "verbose prints what it says", "statement": "verbose=True prints one line per step with every reported pair as 'name: value', in order; False prints nothing; a callable is called with the report; anything else is a ValueError. In step k the Gauss-Newton family reports k, the number of accepted steps and of rejections since the last of them, the point evaluated in this step with its loss, the new step size, and the last accepted point with its loss; the quasi-Newton family the same without the counters; OptaxMinimiser its step number, iterate and loss.", "quantifier": "every search, descent, problem, arithmetic and step number", "why_tests_cant": "The reports are only visible on a terminal and no test looks at them; the claim covers every step of every run.", "anchors": ["optimistix/_misc.py: default_verbose, _default_verbose, _default_no_verbose", "optimistix/_solver/gauss_newton.py: AbstractGaussNewton.step", "optimistix/_solver/quasi_newton.py: AbstractQuasiNewton.step", "optimistix/_solver/optax.py: OptaxMinimiser.step"]}
{"id": "C82", "title": "IndirectLevenbergMarquardt converges globally when its inner root find does", "statement": "On a smooth least-squares problem whose Jacobians satisfy sigma |v|^2 <= |J v|^2 <= B |v|^2, with linear solves that succeed and an inner root find that meets the requested step length up to a factor between 1/2 and 3/2, IndirectLevenbergMarquardt accepts every trial below a fixed radius w, so its radius stays above w/4; the gradient becomes smaller than any tau > 0 within an explicit number of steps; and with Lipschitz residuals the solve ends successfully within an explicit number of steps, no worse than it started.", "quantifier": "every problem of any size meeting the bounds, start, tolerances, linear solver and root finder meeting their specifications (exact arithmetic)", "why_tests_cant": "Convergence from every starting point of every problem of the class is a statement about infinitely many runs, and the step bound is uniform over them.", "anchors": ["optimistix/_solver/levenberg_marquardt.py: IndirectDampedNewtonDescent, IndirectLevenbergMarquardt", "optimistix/_solver/trust_region.py: ClassicalTrustRegion", "optimistix/_solver/gauss_newton.py: AbstractGaussNewton.step"]}
{"id": "C83", "title": "Linear rates of convergence when the gradient dominates the excess", "statement": "For a smooth objective with 2 mu (f - low) <= |grad f|^2 (for instance a strongly convex one): GradientDescent with a learning rate below 2/L shrinks f - low by a fixed factor per step; steepest descent with Armijo backtracking by a fixed factor per q + 1 steps; LevenbergMarquardt and IndirectLevenbergMarquardt by a fixed factor per two steps after a fixed start-up; Dogleg likewise until its cut-off eps takes over.  All factors are given explicitly by the constants of the problem and are below 1.", "quantifier": "every problem of any size with those constants, every start and tolerance, every number of steps (exact arithmetic)", "why_tests_cant": "A rate is a bound on every iterate of every run; a test sees finitely many iterates of one problem.", "anchors": ["optimistix/_solver/gradient_methods.py: GradientDescent", "optimistix/_solver/backtracking.py: BacktrackingArmijo", "optimistix/_solver/levenberg_marquardt.py: LevenbergMarquardt, IndirectLevenbergMarquardt", "optimistix/_solver/dogleg.py: Dogleg", "optimistix/_solver/trust_region.py: ClassicalTrustRegion"]}
{"id": "C84", "title": "BFGS converges globally and linearly on strongly convex problems", "statement": "If the objective is L-smooth and mu-strongly convex, BFGS (either use_inverse, any curvature threshold eps >= 0, exact linear solves) brings f(y) to the minimum and y to the minimiser from every start: after each accepted step the excess f(y) - min f is at most rho^(accepted steps - 1) times the initial excess, with rho < 1 depending only on mu, L, eps and a bound on the initial excess (not on the dimension), although the backtracking search tests no curvature condition.  f never increases, and with atol > 0 the solve stops and reports success.", "quantifier": "every L-smooth mu-strongly convex objective in any number of unknowns, every start, both variants, every number of steps (exact arithmetic)", "why_tests_cant": "Convergence from every start on every such problem is a statement about infinitely many unbounded runs; the argument bounds the determinant and trace of every approximation of the Hessian the solver will ever hold.", "anchors": ["optimistix/_solver/quasi_newton.py: BFGS, _bfgs_update, AbstractQuasiNewton.step", "optimistix/_solver/backtracking.py: BacktrackingArmijo", "optimistix/_solver/gauss_newton.py: NewtonDescent"]}
{"id": "C85", "title": "L-BFGS converges globally and linearly on strongly convex problems, with explicit constants", "statement": "If the objective is L-smooth and mu-strongly convex, L-BFGS with history length M >= 1 (either use_inverse, any eps >= 0, exact linear solves) shrinks f(y) - min f by a fixed factor < 1 over every q+1 consecutive steps, where the factor and q depend only on mu, L and M; so f(y) tends to the minimum and y to the minimiser from every start, f never increases, and with atol > 0 the solve stops within an explicit number of steps and reports success.", "quantifier": "every L-smooth mu-strongly convex objective in any number of unknowns, every start, every history length, both variants, every number of steps (exact arithmetic)", "why_tests_cant": "Convergence from every start on every such problem is a statement about infinitely many unbounded runs, and the bound holds for every possible content of the history buffers, including after they wrap around.", "anchors": ["optimistix/_solver/limited_memory_bfgs.py: LBFGS, AbstractLBFGS.init_hessian, AbstractLBFGS.update_hessian, _lbfgs_inverse_hessian_operator_fn", "optimistix/_solver/quasi_newton.py: AbstractQuasiNewton.step", "optimistix/_solver/backtracking.py: BacktrackingArmijo"]}
{"id": "C86", "title": "Sublinear rates of gradient descent on convex problems", "statement": "On a convex L-smooth objective, GradientDescent with learning rate at most 1/L brings f within |y0 - z|^2 / (2 rate k) of its value at any point z after k steps past the first, and never moves away from a minimiser; steepest descent with BacktrackingArmijo obeys a bound of the same form, constant / (accepted steps), with an explicit constant.  No strong convexity, uniqueness of the minimiser or bounded level set is needed.", "quantifier": "every convex L-smooth objective in any number of unknowns, every start, every admissible step size or search parameter, every number of steps (exact arithmetic)", "why_tests_cant": "The bound is about every convex problem and every number of steps, including problems with whole affine sets of minimisers.", "anchors": ["optimistix/_solver/gradient_methods.py: AbstractGradientDescent.step, SteepestDescent, GradientDescent", "optimistix/_solver/learning_rate.py: LearningRate", "optimistix/_solver/backtracking.py: BacktrackingArmijo"]}
{"id": "C87", "title": "Bisection in binary64 arithmetic", "statement": "Run in IEEE binary64, not exact arithmetic, Bisection keeps finite doubles l <= y <= u nested in the starting interval for every function, NaN-valued ones included; the bracket width halves per step up to 2^-50 M + 2^-1074. A success brackets a sign change of the computed function in an interval of width at most (1 + 2^-50)(atol + rtol |y|) + 2^-1074 that contains the returned value, one end having computed value below atol. If the computed function is within eps of an L-Lipschitz one and 2 eps + L delta < atol, with delta above the rounding level, the solve succeeds within an explicit number of steps.", "quantifier": "every function on doubles, every finite interval within 2^1022, every start inside it, all tolerances in range, every number of steps", "why_tests_cant": "Doubles are finite but astronomically many, and the function is arbitrary; rounding makes exact-arithmetic reasoning inapplicable near the resolution limit.", "anchors": ["optimistix/_solver/bisection.py: Bisection.step, Bisection.terminate, Bisection.init"]}
{"id": "C88", "title": "Fixed-point iteration in binary64 arithmetic", "statement": "Run in IEEE binary64 with any damping in [0, 1), on a computed function that stays within eps of a map contracting by q on a box: every iterate is finite and in the box; consecutive iterates approach each other like Q^k, Q = damp + (1 - damp) q, down to 2 err / (1 - Q), where err is (1 - damp) eps plus an explicit rounding term; the solve succeeds within K + 1 steps once that bound is below atol / 2; and a successful solve returns a point within (Q tol + err) / (1 - Q) of the true fixed point, tol being the requested tolerance up to a factor 1 + 2^-50.", "quantifier": "every dimension, every contraction and every function on doubles near it, every start in the box, all tolerances and dampings in range, every number of steps", "why_tests_cant": "The function, the dimension and the start are arbitrary; the claim separates the rounding of the solver from the error of the function, which no finite set of runs can.", "anchors": ["optimistix/_solver/fixed_point.py: FixedPointIteration.step, FixedPointIteration.terminate"]}
{"id": "C89", "title": "Golden-section search in binary64 arithmetic", "statement": "Run in IEEE binary64 on [0, upper], golden-section search keeps three ordered doubles inside the interval, shrinks the bracket, tries only points inside it, and keeps the minimum of a function that falls strictly before it and rises strictly after it; on success the value returned is within phi^2 tolerances of the minimum, as in exact arithmetic (C20).", "quantifier": "every function on doubles, every upper end up to 2^1022, all tolerances, every number of steps", "why_tests_cant": "The recurrence for the inner point amplifies rounding errors by the golden ratio at each step, so that the split degenerates at tolerances and minimisers that random tests rarely hit; the part that holds is claimed for every function and every number of steps.", "anchors": ["optimistix/_solver/golden.py: GoldenSearch.init, GoldenSearch.step, GoldenSearch.terminate"]}
{"id": "C90", "title": "Newton and Chord with cauchy_termination=False", "statement": "With cauchy_termination=False the solver stops from the second step on exactly when the step is tiny, the ratio of successive relative step sizes is not finite or exceeds 2, or the predicted remaining error is positive and below kappa, and reports divergence only for a bad ratio of steps that are not tiny. Near a root with accurate, boundedly invertible matrices the solve succeeds within an explicit number of steps, with an explicit error bound, and never reports divergence. A successful solve returns a point near a root.", "quantifier": "every dimension, function and starting point in the neighbourhood, all tolerances, every arithmetic for the stopping rule", "why_tests_cant": "The neighbourhood, the function and the tolerances are arbitrary; the failure needs an iterate clipped to a bound of the box while the Newton step points out of it.", "anchors": ["optimistix/_solver/newton_chord.py: _AbstractNewtonChord.step, _AbstractNewtonChord.terminate, _small, _diverged, _converged"]}
{"id": "C91", "title": "Bisection looks only at signs; golden-section search and Nelder-Mead only at the order of values", "statement": "Two functions with the same signs, the same NaNs and the same aux give the same start (or the same error), iterates and brackets in Bisection; when the bracket is expanded with a detected flip they must also rank points alike, and signs alone are then not enough. Two functions that rank all points alike (for example f and a strictly increasing transform of f) give the same iterates and brackets in GoldenSearch, and the same iterates, simplices, aux and counts in NelderMead.", "quantifier": "every ordered arithmetic (binary64 and extended reals included), all pairs of functions so related, all parameters, every number of steps", "why_tests_cant": "It relates two runs on arbitrary pairs of functions; a test compares a few transforms along a few runs.", "anchors": ["optimistix/_solver/bisection.py: Bisection.init, Bisection.step", "optimistix/_solver/golden.py: GoldenSearch.init, GoldenSearch.step", "optimistix/_solver/nelder_mead.py: NelderMead.init, NelderMead.step"]}
{"id": "C92", "title": "Solvers that perform the same iteration, and affine invariance of Newton and Chord", "statement": "Given the same Jacobians and linear solver, GaussNewton's iterates are Newton's (one step later, the first step only evaluates), to the last bit; Chord's first step is Newton's, with or without bounds; GradientDescent is OptaxMinimiser with optax.sgd, one step later. Newton and Chord without bounds commute with affine changes of variables and with recombining the equations: solving B F(A z + b) = 0 from z0 gives iterates z_k with x_k = A z_k + b, where x_k solve F from A z0 + b.", "quantifier": "every arithmetic (binary64 included) for the coincidences, exact reals for the affine invariance; all functions, dimensions, starting points, parameters and numbers of steps", "why_tests_cant": "It relates two different solvers, or one solver on two problems, over all inputs.", "anchors": ["optimistix/_solver/gauss_newton.py: GaussNewton, NewtonDescent", "optimistix/_solver/newton_chord.py: _AbstractNewtonChord.step", "optimistix/_solver/optax.py: OptaxMinimiser.step", "optimistix/_solver/gradient_methods.py: GradientDescent"]}
{"id": "C93", "title": "Newton converges monotonically from anywhere on convex inverse-positive systems", "statement": "In exact arithmetic and with exact solves, Newton without bounds applied to a system that is convex in every component, with Jacobians whose inverses have no negative entry, converges from every starting point of the domain: after the first step the iterates are above the root, decrease in every component, and have nonnegative residuals. If the Jacobians between the root and the first iterate are bounded by C and J(root) w = (1,...,1), the K-th iterate is within (C T / K) w of the root, where T is the sum of the components of x_1 - root, and under the Cauchy criterion the solve succeeds within K + 1 steps once T/K and C T/K are below atol.", "quantifier": "all dimensions, such systems, starting points of the domain (however far from the root), tolerances with rtol >= 0 and atol > 0, step limits and throw flags", "why_tests_cant": "It is a global convergence guarantee over an unbounded set of starting points and functions.", "anchors": ["optimistix/_solver/newton_chord.py: _AbstractNewtonChord.step, terminate", "optimistix/_solver/newton_chord.py: Newton"]}
{"id": "C94", "title": "Splitting the state into arrays and static parts loses nothing", "statement": "The loop carries only the arrays of the solver state and puts them together with the non-array parts of the first state. For every solver that can be traced this returns exactly what a loop carrying whole states returns, final state included, provided the first step does not change the non-array part of the state; otherwise the solve raises AssertionError or TypeError. partition and combine are inverse in either order; wrapped static trees compare equal exactly when they differ only in Jaxprs, and unwrapping restores them. filter_cond applies the chosen branch whenever the branches' results agree in all but array contents, raises TypeError when they do not, and raises what either branch raises.", "quantifier": "all solvers with pytree states, functions, starting points, step limits, throw flags, and all pytrees; equality of objects exact", "why_tests_cant": "Tests see a few state layouts; the claim is over all pytrees and all numbers of steps.", "anchors": ["optimistix/_iterate.py: _iterate, body_fun, iterative_solve", "optimistix/_misc.py: filter_cond, wrap_jaxpr, unwrap_jaxpr, _JaxprEqual"]}
{"id": "C95", "title": "Newton and Chord in binary64 arithmetic", "statement": "Run in IEEE binary64 without a box, on a computed function, Jacobian and linear solver of which only this is known: from every point y within r of the root the computed direction d is finite, the solve reports success, y - d is within q |y - root| + eps of the root (q < 1), and the computed residual is at most C |y - root| + epsF. Then every iterate is finite and within r; the error satisfies e' <= q e + err with err = eps + 2^-53 B (B the size of the numbers in play), hence e_k <= q^k r + err / (1 - q); under the Cauchy criterion the solve succeeds within K + 1 steps once the resulting bounds on step and residual are below atol / 2; and a successful solve returns a point within q (tol + eps) / (1 - q) + err of the root, tol being the requested tolerance up to a factor 1 + 2^-50.", "quantifier": "every dimension, function, Jacobian and linear solver meeting the inexact-Newton bound, every start in the ball, all tolerances in range, Newton and Chord, every number of steps", "why_tests_cant": "The function, the linear solver and its errors are arbitrary; the claim separates the solver's own rounding from theirs, over unboundedly many steps.", "anchors": ["optimistix/_solver/newton_chord.py: _AbstractNewtonChord.step, _AbstractNewtonChord.terminate", "optimistix/_misc.py: cauchy_termination"]}
{"id": "C96", "title": "Success certifies near-stationarity and near-optimality", "statement": "In exact arithmetic, whenever GradientDescent, steepest descent with BacktrackingArmijo, LevenbergMarquardt, Dogleg or IndirectLevenbergMarquardt report success, the last step links the returned value to a point whose gradient is bounded by the tolerances: each entry of rate * g(x) (respectively t * g(x) with t at least min(ini, 2 de (1 - sl) / L)) is below atol + rtol |value entry|, for LevenbergMarquardt |J^T r|^2 <= (B + 1/rho)^2 |tol|^2, for Dogleg |J^T r|^2 <= max((2 B/rho)^2 |tol|^2, (B eps)^2) and for IndirectLevenbergMarquardt |J^T r|^2 <= (6 B/rho)^2 |tol|^2, rho being the solver's lower bound on the radius (or the solve stopped at y0 with residuals within tolerance of zero). If the gradient dominates the excess over the lower bound (Polyak-Lojasiewicz with constant mu), the returned value is within |tol|^2 / (2 mu rate^2) (respectively |tol|^2 / (2 mu tmin^2), (B + 1/rho)^2 |tol|^2 / (2 mu)) of the optimum.", "quantifier": "for all objectives, residual functions, starting points, tolerances, rates, search parameters, budgets and numbers of steps", "why_tests_cant": "Tests compare returned values with known minima on a few problems; that every success, on every problem, comes with a bound on the gradient is a universal statement about the stopping rule and the searches together.", "anchors": ["optimistix/_misc.py: cauchy_termination", "optimistix/_solver/gradient_methods.py: AbstractGradientDescent.step, GradientDescent", "optimistix/_solver/backtracking.py: BacktrackingArmijo.step", "optimistix/_solver/gauss_newton.py: AbstractGaussNewton.step", "optimistix/_solver/levenberg_marquardt.py: LevenbergMarquardt", "optimistix/_solver/levenberg_marquardt.py: IndirectLevenbergMarquardt", "optimistix/_solver/dogleg.py: DoglegDescent, Dogleg"]}
{"id": "C97", "title": "NelderMead starts from a point or from a simplex", "statement": "Called through minimise, NelderMead runs from every non-empty y0 at which the function returns one real scalar; with options y0_simplex=True it runs from every simplex that its initialisation accepts. In both cases the user's function is only called with the structure of one vertex.", "quantifier": "every user function, every pytree y0, with and without 64-bit types", "why_tests_cant": "The option is not exercised by the tests; whether any input at all can make it work is a statement about all functions and all structures.", "anchors": ["optimistix/_solver/nelder_mead.py: NelderMead.init, NelderMead.step", "optimistix/_minimise.py: minimise"]}
{"id": "C98", "title": "Backpropagating through the iterates agrees with implicit differentiation in the limit", "statement": "With RecursiveCheckpointAdjoint, the cotangents a FixedPointIteration solve returns for y0 and for the parameters are the products with the transposed derivatives of the map 'K damped steps', K being the reported number of steps. If fn is a contraction in y with factor q whose derivatives are Lipschitz at the fixed point, their pairing with any tangent differs from the pairing of the cotangent with ImplicitAdjoint's tangent of the fixed point by at most |ct|_1 (q'^K |t_y0 - v| + K q'^(K-1) (1-damp) M |y0 - z| (|v| + |t_p|)), q' = damp + (1-damp) q; hence the two adjoints agree in the limit of many steps.", "quantifier": "for all differentiable contractions, parameters, starting points, damping factors, tolerances, tangents and cotangents and all numbers of steps", "why_tests_cant": "Tests compare the two adjoints' gradients at a tolerance on a few problems; the rate at which they approach each other, for every contraction and every tangent, cannot be sampled.", "anchors": ["optimistix/_adjoint.py: RecursiveCheckpointAdjoint.apply, ImplicitAdjoint.apply", "optimistix/_iterate.py: iterative_solve", "optimistix/_solver/fixed_point.py: FixedPointIteration.step"]}
{"id": "C99", "title": "A batched solve is its lanes solved one by one", "statement": "Under jax.vmap, where JAX runs the solve loop on all lanes until the last one has stopped and freezes the parts of the carry of the finished lanes, a solve returns exactly when every lane solved on its own would; each lane's value, result, aux, statistics (its own num_steps) and state are then those of that lane solved on its own, and the batch needs no more rounds of the loop than its slowest lane. With throw=True the batch raises iff some lane fails, with the failure of one of the lanes.", "quantifier": "every solver, batch of functions and starting points, step budget and run", "why_tests_cant": "Ranges over all solvers and all combinations of run lengths and failures in a batch.", "anchors": ["optimistix/_iterate.py: _iterate, iterative_solve"]}
{"id": "C100", "title": "Gradient descent and Gauss-Newton in double precision", "statement": "In binary64 arithmetic with the max norm: if, within distance r of a point x, the exact step from any double vector y with the computed gradient (GradientDescent: y - rate*g) or with the linear solver's computed answer (GaussNewton: y - p) ends within q|y - x| + eps of x, q < 1, then every iterate is finite, stays within r of x, and |y_k - x| <= q^k r + err/(1-q), err being eps plus the rounding of the step. A successful GradientDescent solve returns a finite point within (q tol + err)/(1-q) of x, tol the requested atol + rtol |value| up to rounding; a successful GaussNewton solve does so too unless it stopped on its first step, in which case it returns y0. If the computed objective (resp. residual) varies at most C|y - x| + epsF around a limit and these quantities fall below atol/4 after K steps, the solve succeeds within K + 2 steps.", "quantifier": "all double-precision objectives/residuals, gradients, linear solvers, starting points, rates and tolerances meeting the hypotheses, and all steps", "why_tests_cant": "Rounding errors depend on every bit of the inputs; tests compare a few runs against a loose tolerance.", "anchors": ["optimistix/_solver/gradient_methods.py: AbstractGradientDescent.step, GradientDescent", "optimistix/_solver/gauss_newton.py: AbstractGaussNewton.step, GaussNewton, NewtonDescent", "optimistix/_misc.py: cauchy_termination"]}
{"id": "C101", "title": "Levenberg-Marquardt converges locally and, where the gradient dominates, globally, superlinearly on zero-residual problems", "statement": "Start Levenberg-Marquardt within rho of a zero of the residuals near which the Jacobian is full rank and bounded (sigma |v|^2 <= |J v|^2 <= b^2 |v|^2) and the linearisation error of the residuals is at most gamma |x' - x|^2, with b gamma rho + 3 gamma^2 rho^2 < sigma/200. Then no step is ever rejected; the trust region's step size is multiplied by 7/2 at every step (until the iterate is exactly at the zero); the distance to the zero shrinks at every step by at least the factor q = (1 + b gamma rho)/(1 + sigma) < 1, and superlinearly: the factor of step k is at most ((2/7)^k + b gamma |y_k - root|)/sigma, so it falls below every positive number. If the linear solves report success, the solve succeeds within K + 2 steps once 2 rho q^K and 2 (b + 2 gamma rho) rho q^K are below atol, returning a point within rho q^(k-1) of the zero after k steps. The same holds of any run, from any start, from the moment it comes that close with a step size above eps, the machine epsilon below which DampedNewtonDescent replaces 1/step_size by the largest number (with the inverse l of the step size there in place of the 1 of q and of the superlinear factor). And it does come that close from every start when 1/2 |r|^2 is smooth, |J v|^2 <= B |v|^2 and |J^T r|^2 >= mu |r|^2 everywhere, c |x - root|^2 <= |r x|^2 and eps < min(1, 99/(200 L)): so Levenberg-Marquardt then rejects only finitely many steps, converges to the root from everywhere, and superlinearly.", "quantifier": "every number of variables and residuals, every residual function, start, tolerance and step budget meeting the conditions; exact arithmetic, exact least-squares solves", "why_tests_cant": "It is a rate over infinitely many problems and starts, and 'never rejects a step' concerns every step of every run.", "anchors": ["optimistix/_solver/levenberg_marquardt.py: LevenbergMarquardt, DampedNewtonDescent", "optimistix/_solver/gauss_newton.py: AbstractGaussNewton.step", "optimistix/_solver/trust_region.py: _AbstractTrustRegion.step, ClassicalTrustRegion.predict_reduction", "optimistix/_misc.py: cauchy_termination"]}
{"id": "C102", "title": "Near a zero-residual point Dogleg and IndirectLevenbergMarquardt are Gauss-Newton and converge quadratically", "statement": "Start Dogleg or IndirectLevenbergMarquardt within rho of a zero of the residuals near which sigma |v|^2 <= |J v|^2 <= b^2 |v|^2 and the linearisation error of the residuals is at most gamma |x' - x|^2, with b gamma rho + 3 gamma^2 rho^2 < sigma/200. Then no step is rejected, the trust-region step size stays at least 1, the iterates are exactly those of the GaussNewton solver, and |y_(k+1) - root| <= (b gamma/sigma) |y_k - root|^2. If the linear solves report success, the solve succeeds within K + 2 steps once 2 rho/200^K and 2 (b + 2 gamma rho) rho/200^K are below atol.", "quantifier": "every number of variables and residuals, every residual function, start, tolerance, step budget (and inner root finder) meeting the conditions; exact arithmetic, exact least-squares solves", "why_tests_cant": "Equality of infinitely many iterates of two differently organised algorithms, and a rate, over all problems.", "anchors": ["optimistix/_solver/dogleg.py: DoglegDescent, Dogleg", "optimistix/_solver/levenberg_marquardt.py: IndirectDampedNewtonDescent, IndirectLevenbergMarquardt", "optimistix/_solver/gauss_newton.py: GaussNewton, AbstractGaussNewton.step", "optimistix/_solver/trust_region.py: _AbstractTrustRegion.step"]}
{"id": "C103", "title": "IndirectLevenbergMarquardt and Dogleg converge to a zero of the residuals from every start, in the end quadratically", "statement": "For residuals with gradient-dominated smooth squared sum, injective bounded Jacobian and |r(y)|^2 >= c |y - root|^2, and near their zero root the conditions of C102: from every start, every IndirectLevenbergMarquardt run eventually comes within rho of root, rejects no step from then on, its step size grows by 7/2 per step and its error obeys |y_(k+1) - root| <= (b gamma/sigma) |y_k - root|^2 for all large k. Every Dogleg run comes within delta of root when its cutoff eps is small enough (B^2 eps^2/mu <= c delta^2), rejects no step from then on, and either becomes quadratically convergent in the same sense or takes a zero step at a point whose Cauchy step is no longer than eps. Any run, whatever its start, that once enters the neighbourhood with whatever step size behaves this way.", "quantifier": "every number of variables and residuals, every residual function, start, history before entering, and inner root finder meeting the conditions; exact arithmetic, exact least-squares solves", "why_tests_cant": "Limits of infinite runs with an arbitrary step size on entry, over all problems.", "anchors": ["optimistix/_solver/levenberg_marquardt.py: IndirectDampedNewtonDescent, IndirectLevenbergMarquardt", "optimistix/_solver/dogleg.py: DoglegDescent, Dogleg", "optimistix/_solver/gauss_newton.py: AbstractGaussNewton.step", "optimistix/_solver/trust_region.py: _AbstractTrustRegion.step"]}
{"id": "C104", "title": "The least-squares solvers stand still only at stationary points", "statement": "With exact least-squares solves, whenever GaussNewton, LevenbergMarquardt, IndirectLevenbergMarquardt or Dogleg (after the first step) accepts a step that leaves y where it was, the gradient J^T r at y is zero, and the solver stops there. (For Dogleg this fails: it also stands still, and reports success, where the step size is below 1 and the Cauchy step no longer than machine epsilon.)", "quantifier": "every residual function and Jacobian (no smoothness, rank or boundedness assumed), dimension, start, tolerances, iteration and inner root finder", "why_tests_cant": "Quantifies over all problems and all points of all runs; the Dogleg exception needs badly scaled variables no test uses.", "anchors": ["optimistix/_solver/gauss_newton.py: AbstractGaussNewton.step, GaussNewton", "optimistix/_solver/levenberg_marquardt.py: LevenbergMarquardt, IndirectLevenbergMarquardt", "optimistix/_solver/dogleg.py: DoglegDescent.step, Dogleg", "optimistix/_solver/trust_region.py: _AbstractTrustRegion.step"]}
{"id": "C105", "title": "Solves do not depend on the coordinates of the unknowns", "statement": "Reordering the unknowns and flipping signs turns a whole gradient-descent, NonlinearCG, BFGS, DFP, LBFGS or least-squares solve into the same solve in the new coordinates: same result code, aux, statistics and exceptions, and the returned value is the old one reordered, for all tolerances and every norm blind to order and sign (max_norm, two_norm, rms_norm). The residuals may be reordered independently. For rotations the same holds when the norm is Euclidean and rtol = 0; with the default max_norm a rotation can change the result.", "quantifier": "every dimension, isometry, objective or residual function, start, step limit, built-in search and descent, BFGS/DFP/LBFGS in either form, every linear solver returning the minimum-norm least-squares solution", "why_tests_cant": "Relates two runs for every change of coordinates and every step count; a test fixes one function and one order of the unknowns.", "anchors": ["optimistix/_solver/gradient_methods.py: AbstractGradientDescent.step, SteepestDescent", "optimistix/_solver/nonlinear_cg.py: NonlinearCGDescent.query, polak_ribiere, fletcher_reeves, hestenes_stiefel, dai_yuan", "optimistix/_solver/quasi_newton.py: AbstractQuasiNewton.step, AbstractBFGS, AbstractDFP", "optimistix/_solver/limited_memory_bfgs.py: AbstractLBFGS", "optimistix/_solver/gauss_newton.py: AbstractGaussNewton.step, NewtonDescent", "optimistix/_solver/levenberg_marquardt.py: DampedNewtonDescent, IndirectDampedNewtonDescent", "optimistix/_solver/dogleg.py: DoglegDescent", "optimistix/_misc.py: cauchy_termination, max_norm, rms_norm"]}
{"id": "C106", "title": "BFGS converges superlinearly, and its curvature threshold ends that", "statement": "If f is smooth and strongly convex and its gradient has a derivative (a symmetric matrix, with a second-order error) at the minimiser, then BFGS whose update is skipped only for zero curvature eventually accepts every evaluated point and, for every w > 0, eventually shrinks the distance to the minimiser by the factor w at every step, from every start. With the code's positive threshold (skip the update unless the curvature exceeds machine epsilon) the matrix changes only finitely often, and superlinear convergence fails: on 3/4 x^2, started within sqrt(eps)/2 of the minimiser, every step exactly halves the error for ever.", "quantifier": "every dimension, such f, start, tolerance, exact linear solver, either use_inverse, every threshold eps; exact arithmetic", "why_tests_cant": "A limit of infinite runs for all problems; in floating point a run ends long before the limit, and the threshold's effect shows only below sqrt(eps).", "anchors": ["optimistix/_solver/quasi_newton.py: AbstractBFGS.update_hessian, AbstractQuasiNewton.step, BFGS", "optimistix/_solver/backtracking.py: BacktrackingArmijo.step", "optimistix/_solver/gauss_newton.py: NewtonDescent"]}
{"id": "C107", "title": "Newton and Chord converge from conditions checkable at the start", "statement": "Suppose the Jacobian at the starting point has an inverse bounded by beta, the first Newton step has length at most eta, the Jacobian is L-Lipschitz on the ball of radius 2 eta around the start, and 2 beta L eta <= 1. Then, without a root being assumed to exist, the ball contains exactly one root, every Newton iterate stays in the ball, every linear system met has an invertible matrix, the k-th iterate is within 2 eta / 2^k of the root, and the solve succeeds after a number of steps given by atol. With q = 2 beta L eta < 1 the same holds of Chord, with error eta q^k / (1 - q), although it only uses the Jacobian of the start.", "quantifier": "every dimension, such system, start, tolerances, exact linear solver, exact arithmetic, max norm, no box, cauchy_termination=True", "why_tests_cant": "It is an existence theorem about all systems meeting three numerical conditions at one point; a test sees single systems whose roots are already known.", "anchors": ["optimistix/_solver/newton_chord.py: _AbstractNewtonChord.init, _AbstractNewtonChord.step, _AbstractNewtonChord.terminate, Newton, Chord", "optimistix/_iterate.py: iterative_solve"]}
{"id": "C108", "title": "Nelder-Mead finds the minimum of strongly convex functions", "statement": "On a strongly convex, smooth function of two unknowns NelderMead that reports success has come close to the minimum.", "quantifier": "every strongly convex, smooth function of two unknowns, all tolerances, every size of the initial simplex; exact arithmetic, max norm", "why_tests_cant": "The functions on which the claim fails are exceptional (the simplex must collapse by the same contraction for ever); a test suite of standard functions never meets one, and the tolerance does not matter.", "anchors": ["optimistix/_solver/nelder_mead.py: NelderMead.init, NelderMead.step, NelderMead.terminate"]}
{"id": "C109", "title": "Nonlinear CG with Armijo backtracking converges globally and linearly on strongly convex problems", "statement": "NonlinearCG with its default Polak-Ribiere formula and BacktrackingArmijo, on an L-smooth, mu-strongly convex function: f never increases, the iterates converge to the minimiser from every starting point, and f - min f shrinks on average by a factor rho < 1 per step that moves, where rho depends only on mu, L and the parameters of the search (not on the dimension, the start or the threshold eps). With the default Cauchy termination, atol > 0 and rtol >= 0 every solve stops and reports success.", "quantifier": "every dimension, function with these bounds, start, search parameters in their documented range, threshold eps >= 0 and number of steps; exact arithmetic", "why_tests_cant": "An asymptotic statement about all functions of a class with one rate for all dimensions and starts; a test observes finitely many steps on a few functions.", "anchors": ["optimistix/_solver/nonlinear_cg.py: polak_ribiere, NonlinearCGDescent.query, NonlinearCG", "optimistix/_solver/backtracking.py: BacktrackingArmijo.step", "optimistix/_solver/gradient_methods.py: AbstractGradientDescent.step"]}
{"id": "C110", "title": "Newton and Chord with an approximate linear solver", "statement": "If the linear solver leaves a relative residual of at most eta < 1 (an iterative solver), the matrices in use are boundedly invertible (beta) and accurate to kappa on a ball around the start, t = eta + kappa beta (1 + eta) < 1, and the first residual is small enough for the ball, then the ball contains exactly one root, every step shrinks the residual by the factor t, the iterates converge to the root at that rate, and the solve succeeds after a number of steps given by t and atol. If moreover the linear residual is of order |F|^2 and the linearisation error of order |step|^2, the residuals converge quadratically.", "quantifier": "every dimension, function, start, accuracy eta of the linear solver and tolerances; Newton and Chord; exact arithmetic", "why_tests_cant": "Ranges over every linear solver of a given accuracy and all steps; nothing is assumed about a root.", "anchors": ["optimistix/_solver/newton_chord.py: _AbstractNewtonChord.step, _AbstractNewtonChord.terminate"]}
{"id": "C111", "title": "Any gradient-related descent converges with BacktrackingArmijo or LinearTrustRegion", "statement": "Take AbstractGradientDescent with any user-defined descent whose directions d satisfy c1 |g|^2 <= -<g,d> and |d|^2 <= c2 |g|^2, and BacktrackingArmijo or LinearTrustRegion as the search. On an L-smooth f bounded below (not necessarily convex), some iterate among the first 1 + N (p+1) + q has |gradient|^2 <= e, with N proportional to 1/e and p, q given by the search parameters. If f satisfies the Polyak-Lojasiewicz inequality with mu, f - min f shrinks by a factor 1 - 2 mu c t c1 at least once every p + 1 steps (t the smallest step size the search can reach), and f never increases. On strongly convex f with the default termination every solve stops with success at a point no worse than y0.", "quantifier": "every dimension, descent with these constants, function with these bounds, start, search parameters in their documented range and number of steps; exact arithmetic", "why_tests_cant": "Explicit complexity bounds over all descents and functions of a class, independent of the dimension; tests run a few functions and the built-in descents.", "anchors": ["optimistix/_solver/gradient_methods.py: AbstractGradientDescent.step, AbstractGradientDescent.terminate", "optimistix/_solver/backtracking.py: BacktrackingArmijo.step", "optimistix/_solver/trust_region.py: LinearTrustRegion, _AbstractTrustRegion.step"]}
{"id": "C112", "title": "Looser tolerances never make a solve take longer", "statement": "In double precision, if a solve with (rtol, atol) succeeds after k steps, then the same solve with rtol' >= rtol and atol' >= atol (rtol' finite) succeeds after k' <= k steps, and returns exactly what the first solve returns when its budget is cut to k' steps: the tolerances only decide where the run stops. This holds for every solver of the library with every search, descent and norm, also inside BestSoFar and under root_find's test for a root, except for Newton and Chord with cauchy_termination=False: there a looser rtol can turn success into nonlinear_divergence.", "quantifier": "every solver, function, start, pair of tolerances, max_steps, throw and number of steps; IEEE binary64 arithmetic including overflow, infinities and NaN", "why_tests_cant": "A relation between two solves over all functions and all pairs of tolerances, down to the rounding of each comparison.", "anchors": ["optimistix/_misc.py: cauchy_termination", "optimistix/_solver/fixed_point.py: FixedPointIteration.step", "optimistix/_solver/bisection.py: Bisection.terminate", "optimistix/_solver/golden.py: GoldenSearch.step", "optimistix/_solver/newton_chord.py: _AbstractNewtonChord.terminate", "optimistix/_solver/gradient_methods.py: AbstractGradientDescent.step", "optimistix/_solver/quasi_newton.py: AbstractQuasiNewton.step", "optimistix/_solver/gauss_newton.py: AbstractGaussNewton.step", "optimistix/_solver/optax.py: OptaxMinimiser.step", "optimistix/_solver/nelder_mead.py: NelderMead.terminate", "optimistix/_root_find.py: _ToRoot.terminate"]}
{"id": "C113", "title": "Newton and Chord with bounds around the root", "statement": "With the options lower and upper (entries may be infinite, either may be absent) and a root inside the bounds, Newton and Chord converge from y0 exactly as without bounds: every step brings the iterate closer to the root by the factor q, quadratically if the linearisation error is quadratic, and the solve succeeds within K+1 steps. The function and its Jacobian need to behave well only inside the bounds and at y0, since clipping towards a box that contains the root never moves away from it. Bounds do not make Newton global: on arctan with bounds [-10, 10] the steps from 10 are clipped to -10, 10, -10, ... for ever with either termination criterion, although the root 0 is inside.", "quantifier": "every dimension, function, Jacobian, bounds containing the root, start within rho, tolerances, exact linear solver and number of steps; exact arithmetic with infinities", "why_tests_cant": "Convergence over all functions of a class and all boxes; the counterexample is an infinite run.", "anchors": ["optimistix/_solver/newton_chord.py: _AbstractNewtonChord.step, _AbstractNewtonChord.terminate"]}
{"id": "C114", "title": "Damping makes fixed-point iteration converge for nonexpansive maps", "statement": "FixedPointIteration with 0 < damp < 1 on a map that does not increase Euclidean distances and has a fixed point p: every step comes no further from any fixed point; the residual |f(y) - y| never grows and satisfies (k+1) damp (1-damp) |f(y_k) - y_k|^2 <= |y0 - p|^2; the iterates converge to a fixed point; and the solve succeeds within N steps once (1-damp) |y0-p|^2 < N damp atol^2. With the default damp = 0 this fails: y -> -y cycles for ever from 1 and every budget is used up, whatever tolerances with rtol + atol <= 2.", "quantifier": "every dimension, nonexpansive map with a fixed point, start, damping in (0,1), tolerances and number of steps; exact arithmetic", "why_tests_cant": "Convergence of infinitely many iterates for a class of maps; the rate constant has to hold for every map and start.", "anchors": ["optimistix/_solver/fixed_point.py: FixedPointIteration.step, FixedPointIteration.terminate"]}
{"id": "C115", "title": "Gauss-Newton with an approximate linear solver", "statement": "If the linear solver only reduces the normal-equation residual to |J^T(Jd - r)| <= eta |J^T r|, then Gauss-Newton (NewtonDescent with learning rate 1) started within rho of a point near which |Jv|^2 >= sigma |v|^2 and the projected linearisation error is at most sigma q |x - root| still converges: after the first step, which stays at y0, every step shrinks the distance by t = q + eta Lam < 1, where Lam bounds |J^T r| / (sigma |x - root|). If linearisation error and left-over are both quadratic, so is the convergence. The solve succeeds within K+2 steps once 2 rho t^K and 2 L rho t^K are below atol.", "quantifier": "every dimension and number of residuals, residual function, linear solver with this accuracy, start within rho, tolerances and number of steps; exact arithmetic", "why_tests_cant": "A rate valid for every linear solver of a given accuracy and every residual function.", "anchors": ["optimistix/_solver/gauss_newton.py: newton_step, NewtonDescent.query, AbstractGaussNewton.step, GaussNewton"]}
{"id": "C116", "title": "How often a solve evaluates the user's function", "statement": "A solve that reports k steps depends on the user's function and its derivative at no more than before + each*k points: any other function agreeing with it there gives the same solution. each is 1 for every solver except Nelder-Mead (at most size(y0) + 3); before is 0, except 2 for Bisection with flip='detect' (without expansion of the bracket), 1 for GoldenSearch and 1 for Chord. BestSoFar and root_find's wrapper add no evaluations. Gradient-descent and quasi-Newton solvers take gradients only at accepted points, that is at y of some step, never at rejected trial points.", "quantifier": "every solver, number system, function, derivative, start, options, budget and number of steps", "why_tests_cant": "Says of every pair of functions and every run what it may not depend on; a test can count calls of one run, and under jit not even that.", "anchors": ["optimistix/_solver/fixed_point.py: FixedPointIteration.step", "optimistix/_solver/bisection.py: Bisection.init, Bisection.step", "optimistix/_solver/golden.py: GoldenSearch.init, GoldenSearch.step", "optimistix/_solver/newton_chord.py: _AbstractNewtonChord.init, _AbstractNewtonChord.step", "optimistix/_solver/gradient_methods.py: AbstractGradientDescent.step", "optimistix/_solver/quasi_newton.py: AbstractQuasiNewton.step", "optimistix/_solver/gauss_newton.py: AbstractGaussNewton.step", "optimistix/_solver/optax.py: OptaxMinimiser.step", "optimistix/_solver/nelder_mead.py: NelderMead.step", "optimistix/_solver/best_so_far.py: _AbstractBestSoFarSolver", "optimistix/_root_find.py: _ToRoot"]}
{"id": "C117", "title": "Adding a constant to the objective", "statement": "In exact arithmetic adding a constant to the objective leaves every iterate and every aux of gradient descent, nonlinear CG, BFGS, DFP and L-BFGS unchanged, with any built-in search and descent and any tolerances; with rtol = 0 the whole solve is the same (result, statistics, exceptions). With rtol > 0 the constant decides where the solve stops: gradient descent on 128 x^2 from 1 with rtol = 1/2, atol = 1 ends at 1/32, on 128 x^2 + 1024 at 1/2. In double precision a large constant hides the decrease even with rtol = 0: NonlinearCG finds the minimum 0 of x^2/2 from 1 in 3 steps, but on x^2/2 + 2^60 it reports success at the starting point 1.", "quantifier": "every function, constant, gradient, start, tolerances, search, descent, budget and number of steps in exact arithmetic; the two failures are binary64 runs", "why_tests_cant": "Equality of whole runs for every function and constant; in floating point a test would only see it approximately.", "anchors": ["optimistix/_solver/gradient_methods.py: AbstractGradientDescent.step", "optimistix/_solver/quasi_newton.py: AbstractQuasiNewton.step, AbstractBFGS.update_hessian, AbstractDFP.update_hessian", "optimistix/_solver/limited_memory_bfgs.py: AbstractLBFGS.update_hessian", "optimistix/_solver/backtracking.py: BacktrackingArmijo.step", "optimistix/_solver/trust_region.py: _AbstractTrustRegion.step", "optimistix/_solver/nonlinear_cg.py: NonlinearCG", "optimistix/_misc.py: cauchy_termination"]}
{"id": "C118", "title": "Splitting a solve into shorter ones", "statement": "If a solve by FixedPointIteration or Newton (default termination test) uses up a budget of m steps, then solving again from its value with a budget of k steps, of which it takes j >= 1, returns the value, result and aux of one solve with m + k steps, which takes m + j. For gradient descent with a fixed rate the same holds, except that the restart spends one step on evaluating the point it was given. Chord cannot be split (it keeps the Jacobian of its starting point): on x^2 from 1 two steps end at 3/8, one step and another at 1/4. The gradient-based minimisers and least-squares solvers with any built-in search return y0 when max_steps = 1, so calling them one step at a time never moves.", "quantifier": "every number system, function, Jacobian, linear solver, start, tolerances, damping, rate, budgets and number of steps", "why_tests_cant": "Relates three solves for all budgets and all points where the first may be cut off.", "anchors": ["optimistix/_iterate.py: iterative_solve", "optimistix/_solver/fixed_point.py: FixedPointIteration.init, FixedPointIteration.step, FixedPointIteration.terminate", "optimistix/_solver/newton_chord.py: _AbstractNewtonChord.init, _AbstractNewtonChord.step, _AbstractNewtonChord.terminate", "optimistix/_solver/gradient_methods.py: AbstractGradientDescent.init, AbstractGradientDescent.step", "optimistix/_solver/quasi_newton.py: AbstractQuasiNewton.step", "optimistix/_solver/gauss_newton.py: AbstractGaussNewton.step"]}
{"id": "C119", "title": "Which point the auxiliary output belongs to", "statement": "For every solver except GoldenSearch, NelderMead and the BestSoFar wrappers, Solution.aux is fn's auxiliary output at the point the last step started from, that is at the value the same solve returns with one step fewer (as the interface documents), not at Solution.value: Newton on x^2 from 1 succeeds with value 1/32 and the aux of 1/16. Without any step it is the placeholder of zeros. GoldenSearch does the same from its second step on, but a single step evaluates lower + (upper - middle) instead of y0. NelderMead returns the placeholder after its first step and later the aux of a vertex it tried; it can report success after one step with an aux that fn never returned.", "quantifier": "every number system, function, start, options, budget and number of steps; searches accepting their first point (all built-in ones)", "why_tests_cant": "Says for every run which evaluation the aux stems from; a test whose aux hardly varies near the solution cannot tell.", "anchors": ["optimistix/_iterate.py: AbstractIterativeSolver.step, iterative_solve", "optimistix/_solver/fixed_point.py: FixedPointIteration.step", "optimistix/_solver/bisection.py: Bisection.step", "optimistix/_solver/newton_chord.py: _AbstractNewtonChord.step", "optimistix/_solver/gradient_methods.py: AbstractGradientDescent.step", "optimistix/_solver/quasi_newton.py: AbstractQuasiNewton.step", "optimistix/_solver/gauss_newton.py: AbstractGaussNewton.step", "optimistix/_solver/optax.py: OptaxMinimiser.step", "optimistix/_solver/golden.py: GoldenSearch.step", "optimistix/_solver/nelder_mead.py: NelderMead.step", "optimistix/_root_find.py: _ToRoot"]}
{"id": "C120", "title": "A larger budget never gives a worse answer", "statement": "If the same solve is run with max_steps = m and with max_steps = k >= m (None: no limit), the second result has an objective no larger than the first: for gradient descent, nonlinear CG and quasi-Newton methods with Armijo backtracking and any descent, for LevenbergMarquardt, IndirectLevenbergMarquardt and Dogleg with exact linear solves, and for the BestSoFar wrapper around any built-in solver, even where losses are NaN. It fails without these: GradientDescent with learning rate 3/2 on x^2 from 1 is worse after 4 steps than after 2 (BestSoFarMinimiser repairs this), and NelderMead minimising x from 0 returns 0 with max_steps = 1 and 1 with max_steps = 2.", "quantifier": "every function, gradient, start, tolerances, pair of budgets; binary64 and extended reals for backtracking and BestSoFar, exact reals for the trust-region methods; the failures are binary64 runs", "why_tests_cant": "Compares all pairs of budgets of every solve; a step that is accepted although it increases the objective only shows when the budget cuts off right after it.", "anchors": ["optimistix/_iterate.py: iterative_solve", "optimistix/_solver/backtracking.py: BacktrackingArmijo.step", "optimistix/_solver/gradient_methods.py: AbstractGradientDescent.step", "optimistix/_solver/quasi_newton.py: AbstractQuasiNewton.step", "optimistix/_solver/gauss_newton.py: AbstractGaussNewton.step", "optimistix/_solver/trust_region.py: _AbstractTrustRegion.step", "optimistix/_solver/best_so_far.py: _AbstractBestSoFarSolver.step, _AbstractBestSoFarSolver.postprocess", "optimistix/_solver/nelder_mead.py: NelderMead.step"]}
{"id": "C121", "title": "The root find inside IndirectLevenbergMarquardt", "statement": "IndirectLevenbergMarquardt finds the damping for a trust region by Newton's method from 1 with rtol = atol = 1/100, lower bound 1/100000 and at most 32 steps, ignoring its status. If every |J v|^2 is between sigma |v|^2 and B |v|^2, sigma >= 3/100, and B / rho + sigma < (4/3)^31 sigma, then for every radius in [rho, 1) the damping found gives a step within half the requested length; so the whole solver succeeds within the bound of C82 with its actual root find. Without such bounds it fails: for residuals with small Jacobian the lower bound makes the step arbitrarily many times shorter than requested; for the residual z - 1 and a small radius 32 steps leave it arbitrarily many times longer; for z/300 - 1/300000 and radius 1/10000 the root find stops after two steps with a step over 2500 times longer than requested.", "quantifier": "every smooth problem, dimension, point, radius in [rho, 1) and step size bound satisfying the conditions, exact arithmetic, exact linear solves and derivatives", "why_tests_cant": "Convergence of the inner Newton iteration for every secular equation met on the way, with a bound on the number of its steps; the failures show only in the length of a step the outer loop may still accept.", "anchors": ["optimistix/_solver/levenberg_marquardt.py: IndirectDampedNewtonDescent.step, IndirectDampedNewtonDescent.query, damped_newton_step, IndirectLevenbergMarquardt", "optimistix/_solver/newton_chord.py: _AbstractNewtonChord.step, _AbstractNewtonChord.terminate", "optimistix/_root_find.py: root_find", "optimistix/_misc.py: cauchy_termination"]}
{"id": "C122", "title": "Units of the residuals and of the unknowns", "statement": "Multiply the residuals of a least-squares problem by any c <> 0 and write it in the variables U y, U linear: a Gauss-Newton method with any search of the library then produces, step by step, U of the old iterates, with the same accepted and rejected steps, statuses, step sizes and aux outputs (if its linear solver gives the same Newton step, which least-squares solutions do for Jacobians of full column rank). If only the residuals change units the same holds for normalised Newton descents and for the dogleg descent with any norm, as long as its test denom > eps comes out the same. Levenberg-Marquardt is not like this: on the residual c x from 1 its second iterate is 1 / (1 + c^2). Nor is the dogleg descent when the units push denom, which has their sixth power, below eps: the Cauchy point is lost and a half step goes along the Newton direction instead of the gradient.", "quantifier": "every problem, dimension, linear change of variables, factor c, search, descent among those named, linear solver with the stated property, and every step; exact arithmetic", "why_tests_cant": "Equality of two whole runs for all problems, units and variables; the dogleg's dependence on units only shows below a threshold.", "anchors": ["optimistix/_solver/gauss_newton.py: AbstractGaussNewton.step, AbstractGaussNewton.init, newton_step, NewtonDescent.query, NewtonDescent.step", "optimistix/_solver/dogleg.py: DoglegDescent.query, DoglegDescent.step", "optimistix/_solver/levenberg_marquardt.py: damped_newton_step, DampedNewtonDescent.step", "optimistix/_solver/trust_region.py: _AbstractTrustRegion.step, ClassicalTrustRegion.predict_reduction, LinearTrustRegion.predict_reduction", "optimistix/_solver/backtracking.py: BacktrackingArmijo.step", "optimistix/_solver/learning_rate.py: LearningRate.step", "optimistix/_search.py: FunctionInfo.ResidualJac"]}
{"id": "C123", "title": "Whole solves in other units, tolerances included", "statement": "Write a problem in other units (metres in millimetres, each unknown and each residual in a unit of its own where stated), convert the function, the start, the bounds and the dimensional options (atol; the bracket of bisection and golden section; the box of Newton; adelta of Nelder-Mead; the learning rate or first backtracking step of gradient descent, which has the unit of the unknown squared over that of the value). Then the whole solve does the same thing: the same exception, or the same number of steps, statistics, status and aux output, and a value that is the old one converted. This holds for fixed-point iteration, Newton and chord methods, bisection with interval expansion, golden section, Nelder-Mead and gradient descent with a learning rate or backtracking, for infinite and NaN values as well. atol has to be converted: with the same atol a solve in millimetres need not stop when the one in metres does.", "quantifier": "every function, dimension, positive units, tolerances, norm, bounds, options, start, step budget and throw flag; exact arithmetic extended with infinities and NaN", "why_tests_cant": "Equality of two whole solves for all functions and units; a constant that forgets its unit only shows for particular magnitudes.", "anchors": ["optimistix/_solver/fixed_point.py: FixedPointIteration.step, FixedPointIteration.terminate", "optimistix/_solver/newton_chord.py: _AbstractNewtonChord.init, _AbstractNewtonChord.step, _AbstractNewtonChord.terminate", "optimistix/_solver/bisection.py: Bisection.init, Bisection.step, Bisection.terminate", "optimistix/_solver/golden.py: GoldenSearch.init, GoldenSearch.step", "optimistix/_solver/nelder_mead.py: NelderMead.init, NelderMead.step, NelderMead.terminate", "optimistix/_solver/gradient_methods.py: AbstractGradientDescent.init, AbstractGradientDescent.step, SteepestDescent.query, SteepestDescent.step", "optimistix/_solver/backtracking.py: BacktrackingArmijo.step", "optimistix/_solver/learning_rate.py: LearningRate.step", "optimistix/_misc.py: cauchy_termination", "optimistix/_iterate.py: iterative_solve"]}
{"id": "C124", "title": "Independent problems in one solve", "statement": "Stack two independent problems into one. With max_norm, fixed-point iteration and the Newton and chord methods (Cauchy test) then perform both iterations at once and stop at the first step at which both would stop. If the joint solve is successful, each problem alone is successful too, in no more steps. This holds in exact arithmetic, with infinities and NaN, and in doubles with rounding. Learning-rate gradient descent on a sum of two functions of separate unknowns makes the steps of both. The norm matters: with rms_norm a joint solve may stop before one of the problems alone would.", "quantifier": "every pair of problems, dimension, tolerances, start, bounds, damping, step budget and throw flag; three number systems (reals; reals with infinities and NaN; doubles)", "why_tests_cant": "Relates three solves for all pairs of problems and all number systems; a coupling between components (a shared scale, a norm over the wrong axis) needs the two problems to be of different size to show.", "anchors": ["optimistix/_solver/fixed_point.py: FixedPointIteration.step, FixedPointIteration.terminate", "optimistix/_solver/newton_chord.py: _AbstractNewtonChord.init, _AbstractNewtonChord.step, _AbstractNewtonChord.terminate", "optimistix/_solver/gradient_methods.py: AbstractGradientDescent.step, SteepestDescent.query, SteepestDescent.step", "optimistix/_solver/learning_rate.py: LearningRate.step", "optimistix/_misc.py: cauchy_termination", "optimistix/_iterate.py: iterative_solve"]}
{"id": "C125", "title": "Gradient descent converges to a minimiser", "statement": "On a convex function whose gradient is L-Lipschitz and which has a minimiser, the iterates of GradientDescent with any learning rate below 2/L converge to one point, and that point is a minimiser, even if there are many. The value after k steps exceeds the minimum by at most (|y0 - x|^2 + c (f(y0) - min)) / (2 rate k) with c = rate / (1 - L rate / 2). Steepest descent with BacktrackingArmijo converges to a minimiser for every valid decrease factor, slope and first step, with no knowledge of L. At a rate of exactly 2/L convergence may fail: x^2 from 1 with rate 1 jumps between 1 and -1.", "quantifier": "every dimension, convex smooth function with a minimiser, learning rate below 2/L, valid Armijo parameters, start, tolerances; exact real arithmetic", "why_tests_cant": "Convergence is about the infinite sequence; values can converge while the iterates drift along a valley of minimisers.", "anchors": ["optimistix/_solver/gradient_methods.py: AbstractGradientDescent.init, AbstractGradientDescent.step, SteepestDescent.query, SteepestDescent.step, GradientDescent.__init__", "optimistix/_solver/learning_rate.py: LearningRate.step", "optimistix/_solver/backtracking.py: BacktrackingArmijo.init, BacktrackingArmijo.step"]}
{"id": "C126", "title": "Finite paths without convexity", "statement": "Let the objective be L-smooth, convex or not, and let its gradient dominate its excess over low: 2 mu (f(x) - low) <= |grad f(x)|^2. Then GradientDescent with any learning rate below 2/L, and steepest descent with BacktrackingArmijo for any valid parameters, never stray: from step k on every iterate stays within squared distance 2 (f(y_k) - low) / (s^2 mu) of y_k, where s is 1 - L rate / 2 or the Armijo slope. The iterates converge to one point, low is attained there, and its squared distance from y_k obeys the same bound; with a learning rate it falls like theta^k with theta = 1 - 2 mu rate s < 1. The same holds for every gradient-related descent, user-defined ones included, with BacktrackingArmijo or LinearTrustRegion, with 2 c2 / (c c1)^2 in place of 2 / s^2. If a GradientDescent solve with max_norm reports success, its answer is within 2 |tol| / (mu rate) of a point where low is attained, where tol are the tolerances atol + rtol |answer| of the components.", "quantifier": "every dimension, L-smooth objective with gradient domination, learning rate below 2/L, valid Armijo parameters, start, tolerances; exact real arithmetic", "why_tests_cant": "A bound on all later iterates of an infinite run and the existence of a limit for every such objective, non-convex ones included.", "anchors": ["optimistix/_solver/gradient_methods.py: AbstractGradientDescent.init, AbstractGradientDescent.step, SteepestDescent.query, SteepestDescent.step, GradientDescent.__init__", "optimistix/_solver/learning_rate.py: LearningRate.step", "optimistix/_solver/backtracking.py: BacktrackingArmijo.init, BacktrackingArmijo.step", "optimistix/_solver/trust_region.py: _AbstractTrustRegion.step, LinearTrustRegion.predict_reduction"]}
{"id": "C127", "title": "Levenberg-Marquardt solves underdetermined problems", "statement": "Let the residuals have a Jacobian of full row rank everywhere, sigma |u|^2 <= |J(x)^T u|^2 and |J(x) v|^2 <= B |v|^2, and let 1/2 |r|^2 be L-smooth. There may be many more unknowns than residuals, so J^T J may be singular everywhere and no solution isolated. Then LevenbergMarquardt with exact least-squares solves converges to a zero of the residuals, which need not be known to exist: from step k on every iterate stays within squared distance far |r(y_k)|^2 / 2 of y_k, where far = 80000 B / sigma^2, the iterates converge to one point z with r(z) = 0, z obeys the same bound, and |y_(2j+2+q) - z|^2 <= far theta^j |r(y0)|^2 / 2, where theta = 1 - min(sigma, L) / (100 (B + 1/rho)) < 1, rho = min(1, 0.495 / L) and 4^q rho >= 1. With max_norm and linear solves that report success, the solve reports success within 4 K + 3 q + 6 steps, where max(far, 8) theta^K |r(y0)|^2 / 2 < atol^2; the answer is within squared distance far |r(y0)|^2 / 2 of y0, and within far |r(answer)|^2 / 2 of a zero.", "quantifier": "every number of unknowns and residuals, residual function with such a Jacobian, start, tolerances, exact least-squares solver, clipping bounds below rho; exact real arithmetic", "why_tests_cant": "Existence of a zero, of a limit and bounds on all later iterates of an infinite run, for every residual function of the class in every dimension.", "anchors": ["optimistix/_solver/levenberg_marquardt.py: damped_newton_step, DampedNewtonDescent.query, DampedNewtonDescent.step, LevenbergMarquardt.__init__", "optimistix/_solver/gauss_newton.py: AbstractGaussNewton.init, AbstractGaussNewton.step, AbstractGaussNewton.terminate", "optimistix/_solver/trust_region.py: _AbstractTrustRegion.step, ClassicalTrustRegion.predict_reduction", "optimistix/_misc.py: cauchy_termination"]}
