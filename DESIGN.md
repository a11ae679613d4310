# Formal model of optimistix: design

Subject: patrick-kidger/optimistix as checked out in /repo.  Prover: Coq 8.16.1.
The first version of this file was written before the proofs; sections 4 to 8 are
regenerated from the sources at each milestone.

## 1. Trusted base

* **Coq's kernel**, including `vm_compute`.  No kernel check is switched off; no
  axiom is declared in this development; there are no section-less variables, no
  functors and no module types.
* **Axioms.**  Only axioms of Coq's standard library, as listed by
  `Print Assumptions` for each theorem (section 6 repeats the lists):
  * SN `ClassicalDedekindReals.sig_not_dec`, SF `ClassicalDedekindReals.sig_forall_dec`
    (the real numbers);
  * FE `FunctionalExtensionality.functional_extensionality_dep` (the real numbers);
  * CL `Classical_Prop.classic` (used by Flocq's and Coquelicot's lemmas).

  A dash means "Closed under the global context".
* **Correspondence by reading.**  Nothing is extracted from or run against the
  Python.  Every definition of a model file carries a comment with the file and the
  lines it was written from; simplifications are stated there.
* **Oracles.**  Calls that leave the repository are parameters of the model: linear
  solves (lineax), Jacobians and gradients (`jax.linearize`, `jax.jacfwd`, `jax.grad`,
  `lineax.JacobianLinearOperator`), Optax updates, the user's function, norm and
  solver objects.  What a theorem needs of them is a hypothesis of that theorem, and
  an `Example` beside it exhibits an instance that satisfies it.

## 2. How numbers are modelled

All solver code is polymorphic in a record `Num` (Num.v) of scalar operations with
three instances:

* `RN`, the exact real numbers (no infinities; division by zero as in Coq's `Rdiv`);
* `XR`, real numbers with +inf, -inf and NaN, IEEE rules for the special values, no
  rounding and no signed zeros;
* `F64`, IEEE binary64 with rounding to nearest even, from Flocq.

Theorems that need only ordering, sign, division or finiteness rules are proved from
small records of laws (NumFacts.v, NumDiv.v, NumFin.v, ...) which are then proved for
XR and F64; the others say which instance they are about.  Convergence theorems and
algebraic identities are about exact reals: rounding is *not* covered there, except
by C87 (bisection), C88 (fixed-point iteration), C89 (golden-section search) and C95
(Newton, Chord), which are about binary64.

## 3. General simplifications

* A pytree of arrays is the flat list of its entries (Vec.v), except in PyTree.v,
  TreeOp.v and Entry.v, where containers, shapes and (Entry.v) dtypes are modelled.
* `args` is part of `fn`; `options` become parameters of the solver; `fn` is a pure
  total function, since JAX traces it.
* Loops are driven by fuel.  A run that uses up its fuel is `Unfinished`, a third
  outcome besides returning and raising; theorems about termination say how much fuel
  suffices, the others hold for every amount.
* Exceptions are values (`Raise ValueError`, ...); their messages are not modelled.
* `lax.cond`/`filter_cond`/`jnp.where` are `if`: both branches are pure.
* Entries are real.  Complex numbers appear only in the dtype checks of Entry.v.
* jit, sharding, devices, and memory use are not modelled.  A solve is modelled on its own;
  Batch.v models `vmap` of it, with JAX's batching rule for loops written out.

## 4. Files

`X.v` is a model (no proofs), `Spec_X.v` the vocabulary of the statements,
`X_proofs.v` the proofs, `Prop_X.v` the theorems (statement, `exact` of the lemma of
the same name with suffix `_pf`, `Print Assumptions`, and an `Example` with a concrete
case that meets the hypotheses).  The rest are libraries of facts.

* `Autodiff.v` — The two ways of obtaining gradients and Jacobians: lin_to_grad (_misc.py) and _make_f_info (_solver/gauss_newton.py), and the options that choose.
* `Autodiff_proofs.v` — Forward- and reverse-mode differentiation give the same solve (C75).
* `Aux_proofs.v` — The auxiliary output of a solve (C119).
* `BFGSConv_proofs.v` — Global, linear convergence of BFGS on smooth strongly convex problems (C84).
* `BFGSSuper_proofs.v` — BFGS converges superlinearly (C106).
* `BFGS_proofs.v` — BFGS and DFP: secant equation, symmetry, positive definiteness (C37, C38), and the equivalence of the two modes (C39).
* `Batch.v` — `jax.vmap` of a solve (/repo/docs/examples/optimise_diffeq.ipynb 110 and 196 batch a function that contains one). The loop of /repo/optimistix/_iterate.py 243 is then run by JAX's batching rule for loops, which is external and written out here: every part of the carry is an array with one entry per lane; the loop goes on while some lane wants to; the body is run on all the lanes, and each part of the result is kept in the lanes that wanted to go on and discarded, part by part, in the others.
* `Batch_proofs.v` — Proofs about batched solves.
* `BestSoFar.v` — BestSoFar wrappers. Models /repo/optimistix/_solver/best_so_far.py.
* `Bisection.v` — Bisection. Models /repo/optimistix/_solver/bisection.py.
* `BisectionF64_proofs.v` — Bisection in binary64 arithmetic (C87).
* `Bisection_proofs.v` — Proofs about bisection.
* `Bounds.v` — Bound constraints: feasible step lengths (optimistix/_misc.py) and the Cauchy point (optimistix/_solver/cauchy_point.py). A pytree is the list of its entries.
* `Bounds_proofs.v` — Feasible step lengths (C44) and the Cauchy point (C45).
* `BoxNewton_proofs.v` — Newton and Chord with bounds around the root (C113).
* `Budget_proofs.v` — A larger budget (C120).
* `CGConv_proofs.v` — Global, linear convergence of nonlinear conjugate gradients (C109).
* `CG_proofs.v` — Proofs about nonlinear conjugate gradients.
* `CauchySearch_proofs.v` — What the search of cauchy_point.py computes (C56).
* `Certificate_proofs.v` — Proofs about the stopping rule of the accept/reject minimisers and least-squares solvers.
* `Cholesky.v` — The linear solver of the quasi-Newton methods: lineax's `lx.Cholesky()` (quasi_newton.py 455, 616; also what AutoLinearSolver picks for the positive definite operators of L-BFGS), by the textbook algorithm: materialise the operator, factorise A = L L^T, solve L z = b and L^T x = z. lineax is outside /repo; its failure codes (a nonfinite solution) are left out.
* `CholeskyFacts.v` — The Cholesky solver is exact in real arithmetic.
* `Coincide_proofs.v` — Solvers that perform the same iteration (C92).
* `Combos_proofs.v` — Which searches and descents work with which outer loop (C74).
* `Compat.v` — The scipy-style entry point. Models /repo/optimistix/compat/_impl.py.
* `Compat_proofs.v` — Proofs about compat.minimize.
* `Convergence_proofs.v` — Global convergence: Levenberg-Marquardt (C71).
* `Convex_proofs.v` — Rates of convergence of gradient descent on convex problems (C86).
* `DampedOp_proofs.v` — The linear systems that the damped Newton descent hands to the linear solver (C63).
* `Descent.v` — Descents. Models SteepestDescent (_solver/gradient_methods.py), newton_step and NewtonDescent (_solver/gauss_newton.py), DampedNewtonDescent and IndirectDampedNewtonDescent (_solver/levenberg_marquardt.py), DoglegDescent (_solver/dogleg.py) and NonlinearCGDescent (_solver/nonlinear_cg.py).
* `DescentF64_proofs.v` — Gradient descent and Gauss-Newton in binary64 arithmetic (C100).
* `Dimension_proofs.v` — Solves in other units, tolerances included (C123).
* `DoglegConv_proofs.v` — Global convergence: Dogleg (C77).
* `DoglegRoot.v` — The root find inside the dogleg descent for a trust-region norm other than the two-norm. Models /repo/optimistix/_solver/dogleg.py 174-184.
* `DoglegRoot_proofs.v` — The dogleg step in a trust region of any norm (C76).
* `Dogleg_proofs.v` — The dogleg step (C34).
* `Entry.v` — What the entry points check before the first step: structures, shapes and dtypes. Models the dispatching code of /repo/optimistix/_minimise.py, _least_squares.py, _root_find.py and _fixed_point.py, the wrappers NoneAux and OutAsArray of _misc.py, and the shape checks of Bisection.init and GoldenSearch.init.
* `Entry_proofs.v` — Proofs about the entry points' checks.
* `F64Facts.v` — Rounding facts about binary64 used by the floating-point theorems (C87, C88).
* `F64Mono.v` — Monotonicity of binary64 scalings and norms (used by C112).
* `FixedPoint.v` — Fixed-point iteration. Models /repo/optimistix/_solver/fixed_point.py.
* `FixedPointF64_proofs.v` — Fixed-point iteration in binary64 arithmetic (C88).
* `FixedPoint_proofs.v` — Proofs about fixed-point iteration.
* `Frame.v` — Coordinates in which a positive definite form is the dot product, and how a BFGS update changes trace and determinant in such coordinates.
* `GaussNewtonConv_proofs.v` — Local convergence of Gauss-Newton (C80).
* `GaussNewton_proofs.v` — Gauss-Newton (C53).
* `Golden.v` — Golden-section search. Models /repo/optimistix/_solver/golden.py.
* `GoldenF64_proofs.v` — Golden-section search in binary64 (C89).
* `Golden_proofs.v` — Proofs about golden-section search.
* `Implicit.v` — Implicit differentiation. Models /repo/optimistix/_ad.py, ImplicitAdjoint of /repo/optimistix/_adjoint.py and the `_rewrite_fn`s of the entry points.
* `ImplicitFacts.v` — Facts about derivatives of functions between lists of reals.
* `Implicit_proofs.v` — Implicit differentiation: proofs.
* `IndirectConv_proofs.v` — Global convergence: IndirectLevenbergMarquardt (C82).
* `InexactGN_proofs.v` — Gauss-Newton with an inexact linear solver (C115).
* `Inexact_proofs.v` — Newton and Chord with a linear solver that is only approximate (C110).
* `InnerRoot.v` — The root find for the damping inside IndirectDampedNewtonDescent.step. Models /repo/optimistix/_solver/levenberg_marquardt.py 210-232.
* `Inner_proofs.v` — The root find inside IndirectLevenbergMarquardt (C121).
* `Invariance_proofs.v` — Which solvers look only at the sign, or only at the order, of the values of the user's function (C91).
* `Isometry_proofs.v` — Solves do not depend on the coordinates (C105).
* `Iterate.v` — The generic solve loop. Models /repo/optimistix/_iterate.py 185-359.
* `Iterate_proofs.v` — Proofs about the solve loop.
* `Kanto_proofs.v` — Newton-Kantorovich: convergence from checkable conditions at the start, with no root assumed (C107).
* `LBFGS.v` — L-BFGS. Models /repo/optimistix/_solver/limited_memory_bfgs.py.
* `LBFGSCompact.v` — The compact representation of L-BFGS: what the two triangular solves of [direct_operator] compute.
* `LBFGSConv_proofs.v` — Global, linear convergence of L-BFGS on smooth strongly convex problems (C85).
* `LBFGSDirect.v` — The direct (compact) L-BFGS operator is the BFGS Hessian recursion.
* `LBFGSFacts.v` — Facts about L-BFGS: the recursions over pairs, the circular buffer, the two-loop recursion and the compact representation.
* `LBFGS_proofs.v` — L-BFGS: the history buffer (C40), the two-loop recursion (C41), the compact form (C42), the two modes (C39) and progress (C29).
* `LMLocal_proofs.v` — Local superlinear convergence of Levenberg-Marquardt (C101).
* `LMPath_proofs.v` — Levenberg-Marquardt on underdetermined problems converges to a zero of the residuals (C127).
* `LeastSquares_proofs.v` — Monotonicity of the least-squares solvers built on the classical trust region: LevenbergMarquardt, IndirectLevenbergMarquardt and Dogleg (C32).
* `Limit_proofs.v` — The iterates of gradient descent on convex problems converge (C125).
* `LinAlg.v` — Dense linear algebra called by the L-BFGS operators: `jnp.linalg.cholesky` and `jax.scipy.linalg.solve_triangular`. Both are LAPACK calls; they are modelled by the textbook algorithms, whose results in exact arithmetic are the only ones possible.
* `LinAlgFacts.v` — Facts about finite sums, triangular solves and the Cholesky factorisation.
* `LinFacts.v` — Linear algebra on lists of reals: facts.
* `LogDet.v` — Trace and logarithm of the determinant of a positive definite symmetric form, and how a BFGS update changes them.
* `Minimisers.v` — The three accept/reject solver skeletons. Models AbstractGradientDescent (_solver/gradient_methods.py), AbstractQuasiNewton (_solver/quasi_newton.py) and AbstractGaussNewton (_solver/gauss_newton.py).
* `Minimisers_proofs.v` — Proofs about searches and the accept/reject skeletons.
* `NMConvex_proofs.v` — Nelder-Mead on strongly convex functions (C108): McKinnon's counterexample.
* `NelderMead.v` — NelderMead (optimistix/_solver/nelder_mead.py). A pytree is the list of its entries; [shape] lists the sizes of its leaves.
* `NelderMeadMoves_proofs.v` — The moves of Nelder-Mead and its statistics (C73).
* `NelderMead_proofs.v` — Nelder-Mead (C46-C49, C57, C58, and C11 for NelderMead).
* `NewtonChord.v` — Newton and Chord. Models /repo/optimistix/_solver/newton_chord.py.
* `NewtonChord_proofs.v` — Proofs about Newton and Chord.
* `NewtonF64_proofs.v` — Newton and Chord in binary64 arithmetic (C95).
* `NewtonMono_proofs.v` — Global monotone convergence of Newton's method (C93).
* `NewtonRate_proofs.v` — Newton and Chord with cauchy_termination=False (C90).
* `Nonexpansive_proofs.v` — Damped fixed-point iteration of maps that do not increase distances (C114).
* `Num.v` — Scalars. Every solver model in this development is written once, against the record [Num] of scalar operations, and is then instantiated with - [RN] : exact real numbers (division totalised as in Coq.Reals; theorems stated for [RN] always also show that the divisors they use are non-zero or mention it as a hypothesis); - [XR] : exact real numbers extended with +infinity, -infinity and NaN, following the IEEE-754 rules for special values, without rounding and without signed zeros (a zero divisor counts as +0); - [F64] : IEEE-754 binary64 with round-to-nearest-even, from Flocq (file [NumF64.v]).
* `NumDiv.v` — A quotient below 1 in magnitude means the numerator is below the denominator: exact, extended-real and binary64 arithmetic.
* `NumF64.v` — Instance of [Num]: IEEE-754 binary64, round to nearest even, from Flocq (`BinarySingleNaN`: one NaN, signed zeros, subnormals, overflow to infinity). Models JAX arrays of dtype float64.
* `NumF64_facts.v` — Order and sign laws of binary64, by embedding into the extended reals.
* `NumFacts.v` — Facts about scalars: order laws shared by all instances, and computation rules for the extended reals.
* `NumFin.v` — Finiteness of differences and of bounded numbers.
* `NumSq.v` — Sums of non-positive numbers, and x * (-x), are non-positive: extended reals and binary64.
* `Optax.v` — The wrapper around Optax optimisers. Models /repo/optimistix/_solver/optax.py.
* `Optax_proofs.v` — Proofs about the Optax wrapper.
* `Path_proofs.v` — Finite paths: gradient descent converges without convexity where the gradient dominates the excess (C126).
* `Progress_proofs.v` — Progress of quasi-Newton minimisers with an Armijo search.
* `PyTree.v` — Pytrees and the tree helpers of optimistix/_misc.py. The rest of the model works with the flat list of entries ([entries] below); PyTree_proofs.v shows that the helpers act on that list as Vec.v says.
* `PyTree_proofs.v` — Tree helpers (C52).
* `QNRun_proofs.v` — Whole runs of BFGS and DFP: both modes give the same run (C39), the stored matrix stays positive definite (C37, C38), and the run progresses (C29).
* `QuasiNewton.v` — BFGS and DFP updates. Models /repo/optimistix/_solver/quasi_newton.py.
* `Queries_proofs.v` — How many points of the user's function a solve looks at (C116).
* `Rates_proofs.v` — Linear rates of convergence under gradient domination (C83).
* `Related_proofs.v` — Convergence of AbstractGradientDescent with any gradient-related descent (C111).
* `Results.v` — Status codes and outcomes. Models /repo/optimistix/_solution.py 11-20 (class RESULTS).
* `Resume_proofs.v` — Splitting a solve into shorter ones (C118).
* `RootFind.v` — Entry points and conversions between problem types. Models /repo/optimistix/_root_find.py, _fixed_point.py, _least_squares.py and _minimise.py.
* `Search.v` — Function information, searches and the interfaces of searches and descents. Models /repo/optimistix/_search.py, _solver/backtracking.py, _solver/trust_region.py and _solver/learning_rate.py.
* `Shift_proofs.v` — Adding a constant to the objective (C117).
* `SimplexEntry.v` — NelderMead as seen by JAX's tracing: with which structures of arrays the user's function is called, for a single starting point and for options["y0_simplex"]=True. Models the structural part of NelderMead.init and NelderMead.step (/repo/optimistix/_solver/nelder_mead.py) run by minimise (_minimise.py).
* `SimplexEntry_proofs.v` — Proofs about NelderMead's starting simplex under tracing (C97).
* `SolvableFacts.v` — Exact linear solvers exist.
* `Solvers.v` — The concrete solvers built from a skeleton, a search and a descent.
* `Spec_Autodiff.v` — What differentiation has to provide.
* `Spec_Aux.v` — Vocabulary for the auxiliary output of a solve (C119).
* `Spec_BFGSConv.v` — Vocabulary for the convergence of BFGS (C84).
* `Spec_BFGSSuper.v` — Vocabulary for the superlinear convergence of BFGS (C106).
* `Spec_Batch.v` — Vocabulary for batched solves.
* `Spec_Bisection.v` — Vocabulary for bisection: sign changes of a function.
* `Spec_Bounds.v` — Vocabulary for statements about bounds: bounds may be infinite.
* `Spec_BoxNewton.v` — Vocabulary for Newton and Chord with bounds (C113).
* `Spec_Budget.v` — Vocabulary for comparing budgets (C120).
* `Spec_CG.v` — Vocabulary for statements about runs of nonlinear conjugate gradients.
* `Spec_CGConv.v` — Vocabulary for the convergence of nonlinear conjugate gradients (C109).
* `Spec_CauchySearch.v` — Vocabulary for the search for the Cauchy point: its passes, written as a relation between a breakpoint already passed, the point of the path there, and the point the search ends at.
* `Spec_Certificate.v` — What a successful stop promises about the last step.
* `Spec_Coincide.v` — Vocabulary for C92.
* `Spec_Combos.v` — The searches and descents that come with the library, and which derivative information each of them needs.
* `Spec_Compat.v` — What compat.minimize accepts.
* `Spec_Convergence.v` — Vocabulary for convergence statements.
* `Spec_Convex.v` — Vocabulary for rates of convergence on convex problems (C86).
* `Spec_DescentF64.v` — Vocabulary for the solvers on doubles (C100).
* `Spec_Dimension.v` — What it means to write a problem in other units, tolerances included (C123).
* `Spec_DoglegRoot.v` — What a trust-region norm is.
* `Spec_Entry.v` — Specification for the claims about the entry points' checks.
* `Spec_Examples.v` — Concrete problems used in examples.
* `Spec_Golden.v` — Vocabulary for golden-section search: golden ratio, division of an interval, unimodal functions.
* `Spec_Implicit.v` — Derivatives of functions between lists of reals: vocabulary for statements.
* `Spec_IndirectConv.v` — What the root find inside IndirectLevenbergMarquardt is asked for (C82), written without reference to the solver. Read here: half_squares, residual_problem (Spec_Convergence), damped_loss (Spec_Steps).
* `Spec_Inner.v` — Vocabulary for the root find inside IndirectLevenbergMarquardt (C121).
* `Spec_Invariance.v` — Vocabulary for C91: two functions that the comparisons of a solver cannot tell apart.
* `Spec_Isometry.v` — Rotations, reflections, renamings of the unknowns; what it means that a solve does not depend on the coordinates.
* `Spec_Iterate.v` — Vocabulary for stating properties of a solve, independent of the loop in [Iterate.v]: the sequence of iterates obtained by applying the solver's `step` over and over, and the conditions under which a solve may stop.
* `Spec_LBFGS.v` — Vocabulary for statements about L-BFGS.
* `Spec_LBFGSConv.v` — Vocabulary for the convergence of L-BFGS (C85).
* `Spec_LMPath.v` — Levenberg-Marquardt on underdetermined problems (C127).
* `Spec_Limit.v` — Convergence of the iterates themselves (C125).
* `Spec_Lin.v` — Linear algebra on lists of reals: vocabulary for statements.
* `Spec_NMConvex.v` — Vocabulary for Nelder-Mead on strongly convex functions (C108).
* `Spec_NelderMead.v` — Vocabulary for statements about Nelder-Mead.
* `Spec_NewtonChord.v` — Vocabulary for statements about Newton and Chord.
* `Spec_NewtonF64.v` — A concrete problem for the theorems about Newton in binary64 (C95).
* `Spec_NewtonMono.v` — Vocabulary for C93: componentwise order of real vectors.
* `Spec_Nonexpansive.v` — Vocabulary for damped fixed-point iteration (C114).
* `Spec_Optax.v` — The plain Optax training loop.
* `Spec_PyTree.v` — Vocabulary for statements about pytrees.
* `Spec_Queries.v` — Vocabulary for the number of evaluations of the user's function (C116).
* `Spec_Rates.v` — Vocabulary for rates of convergence (C83).
* `Spec_Related.v` — Vocabulary for the convergence of user-defined descents (C111).
* `Spec_Resume.v` — Example problem for splitting solves (C118).
* `Spec_Search.v` — Vocabulary for statements about searches and accept/reject solvers.
* `Spec_Shift.v` — Vocabulary for objectives that differ by a constant (C117).
* `Spec_SimplexEntry.v` — Vocabulary for the claims about NelderMead's starting simplex under tracing (C97).
* `Spec_Solvable.v` — Linear solvers that exist: least squares by eliminating one column after the other, and the solution of least norm.
* `Spec_StaticState.v` — Vocabulary for C94: what of a state is known when the loop is compiled.
* `Spec_Steps.v` — Vocabulary for statements about individual steps.
* `Spec_Success.v` — Vocabulary for what success says about the returned value (C96).
* `Spec_Together.v` — Independent problems put into one solve (C124).
* `Spec_Tolerance.v` — Vocabulary for the effect of rtol and atol (C112).
* `Spec_TreeOp.v` — Vocabulary for statements about operators on pytrees.
* `Spec_Units.v` — The same least-squares problem with the residuals measured in another unit, and the unknowns in other units or another basis.
* `Spec_Unroll.v` — Vocabulary for differentiating through the iterates (C98).
* `Spec_Vec.v` — Real vectors: vocabulary for statements.
* `Spec_Verbose.v` — Vocabulary for statements about what the solvers print.
* `Spec_Wrappers.v` — Small user-written solvers used in examples and counterexamples about problem conversion and BestSoFar.
* `Stall_proofs.v` — An accepted step that does not move (C104).
* `StaticState.v` — Solver states as pytrees of arrays and other Python objects: how the loop splits them (eqx.partition), carries only the arrays and puts them together again (eqx.combine), and `filter_cond`. Models _iterate.py 194-267 and 338-359 and _misc.py 313-365 without the simplification of Iterate.v, where the state is carried whole.
* `StaticState_proofs.v` — Splitting states into arrays and static parts (C94).
* `Steps_proofs.v` — What one step does: constructor checks of the searches (C62), the Levenberg-Marquardt step (C63), reporting of failed linear solves (C64) and gradient descent (C65).
* `SuccessTrust_proofs.v` — What success of Dogleg and IndirectLevenbergMarquardt says about the gradient (C96).
* `Success_proofs.v` — What success says about the gradient and the value of the objective (C96).
* `Together_proofs.v` — Independent problems in one solve (C124).
* `Tolerance_proofs.v` — Tolerances only decide when a solve stops (C112).
* `TreeErrors_proofs.v` — Which trees the tree helpers accept (C52, C67): exactly the matching ones, and a ValueError otherwise.
* `TreeOp.v` — Linear operators on pytrees, as the quasi-Newton methods build them. Models /repo/optimistix/_solver/quasi_newton.py lines 41-82, 334-402, 494-559 before flattening; QuasiNewton.v is the flattened version, and TreeOp_proofs.v relates the two.
* `TreeOp_proofs.v` — Operators on pytrees are their flattened matrices (C67).
* `TrustGlobal_proofs.v` — IndirectLevenbergMarquardt and Dogleg converge globally, and ultimately quadratically (C103).
* `TrustLocal_proofs.v` — Near a zero-residual point Dogleg and IndirectLevenbergMarquardt are Gauss-Newton (C102).
* `TrustRegion_proofs.v` — Proofs about trust-region searches and Levenberg-Marquardt.
* `Units_proofs.v` — Gauss-Newton and dogleg methods do not depend on the units of the residuals (C122).
* `Unroll.v` — Backpropagation through the iterates. Models RecursiveCheckpointAdjoint of /repo/optimistix/_adjoint.py 30-113 for FixedPointIteration.
* `Unroll_proofs.v` — Backpropagation through the iterates of a fixed-point iteration (C98).
* `Vec.v` — Vectors: a pytree of arrays is modelled by the list of its scalar entries in flattening order. (Trees themselves are modelled in PyTree.v.).
* `VecFacts.v` — Facts about vectors (lists of scalars).
* `Verbose.v` — What the solvers report while they run. Models `default_verbose` of /repo/optimistix/_misc.py and the `self.verbose(...)` calls of AbstractGaussNewton.step, AbstractQuasiNewton.step and OptaxMinimiser.step.
* `Verbose_proofs.v` — Proofs about what the solvers print.
* `Wrappers_proofs.v` — Proofs about root_find/fixed_point/least_squares conversions and about the BestSoFar wrappers.

## 5. What is modelled, function by function

Every function and class of /repo/optimistix with the model definitions whose comments
cite its lines.  "not modelled" gives the reason.


**optimistix/_ad.py**

* `_is_global_function` (18–19): not modelled: guards against closed-over values; a pure model has no closures over tracers
* `implicit_jvp` (27–61): Implicit: `value_tangent`
* `_implicit_impl` (64–67): not modelled: plumbing of `eqx.filter_custom_jvp`; part of implicit_tangent
* `_assert_false` (70–71): not modelled: guards against closed-over values; a pure model has no closures over tracers
* `_is_none` (74–75): not modelled: guards against closed-over values; a pure model has no closures over tracers
* `_for_jac` (78–80): not modelled: plumbing of `eqx.filter_custom_jvp`; part of implicit_tangent
* `_implicit_impl_jvp` (83–118): Implicit: `tangents`, `implicit_tangent`

**optimistix/_adjoint.py**

* `AbstractAdjoint` (13–27): not modelled: abstract
* `AbstractAdjoint.apply` (16–27): not modelled: abstract
* `RecursiveCheckpointAdjoint` (30–113): Unroll: `vjp`, `unrolled_vjp`, `checkpointed_vjp`
* `RecursiveCheckpointAdjoint.apply` (108–113): Unroll: `vjp`, `unrolled_vjp`, `checkpointed_vjp`
* `ImplicitAdjoint` (116–133): Implicit: `value_tangent`
* `ImplicitAdjoint.apply` (131–133): Implicit: `value_tangent`

**optimistix/_fixed_point.py**

* `AbstractFixedPointSolver` (19–20): not modelled: abstract
* `_rewrite_fn` (23–27): Implicit: `rewrite_fixed`
* `_ToRootFn` (35–47): Entry: `dtype_eqb`, `sds_eqb`, `struct_eqb`, `entry`, `to_root_fn`; RootFind: `fixed_to_root_fn`
* `_ToRootFn.__call__` (38–47): Entry: `dtype_eqb`, `sds_eqb`, `struct_eqb`, `entry`, `to_root_fn`; RootFind: `fixed_to_root_fn`
* `fixed_point` (50–154): Entry: `struct_eqb`, `entry`, `solver_kind`, `fixed_point_entry`; Implicit: `fixed_point_rewrite`; RootFind: `fixed_point`

**optimistix/_iterate.py**

* `AbstractIterativeSolver` (26–184): Iterate: `Solver`; StaticState: `init`
* `AbstractIterativeSolver.init` (33–71): not modelled: abstract
* `AbstractIterativeSolver.step` (73–104): not modelled: abstract
* `AbstractIterativeSolver.terminate` (106–136): not modelled: abstract
* `AbstractIterativeSolver.postprocess` (138–184): Iterate: `Solver`; StaticState: `init`
* `_zero` (187–191): Results: `fillv`
* `_iterate` (194–268): Batch: `select`, `lanes2`, `lanes_outcome`, `bcarry`, `rows`, `wants` …; Iterate: `while_loop`, `carry`, `terminate_and_result`, `cond_fun`, `body_fun`, `iterate`; Results: `results_eqb`, `outcome`; StaticState: `s`, `is_array`, `py_none`, `eqx_filter`, `partition_tree`, `combine_tree` …; Unroll: `run_body`
* `iterative_solve` (276–359): Batch: `finish`, `vmap_solve`; Entry: `is_complex`, `complex_warning`; Implicit: `params`, `value_tangent`; Iterate: `iterative_solve`; Results: `stats`, `stats_get`; RootFind: `answer_of`; StaticState: `combine_tree`, `split_solve`

**optimistix/_least_squares.py**

* `AbstractLeastSquaresSolver` (16–17): not modelled: abstract
* `_rewrite_fn` (20–28): Implicit: `rewrite_lstsq`
* `_ToMinimiseFn` (36–41): Entry: `half_sum_squares`; RootFind: `lstsq_to_minimise_fn`
* `_ToMinimiseFn.__call__` (39–41): Entry: `half_sum_squares`; RootFind: `lstsq_to_minimise_fn`
* `least_squares` (44–135): Entry: `least_squares_entry`; Implicit: `least_squares_rewrite`; RootFind: `least_squares`

**optimistix/_minimise.py**

* `AbstractMinimiser` (16–17): not modelled: abstract
* `_rewrite_fn` (20–28): Implicit: `rewrite_min`
* `minimise` (37–119): Entry: `sds`, `shape_eqb`, `entry`, `floating`, `user_fn`, `none_aux` …; RootFind: `scalar_struct`, `minimise`; SimplexEntry: `closure_convert`, `nm_trace`

**optimistix/_misc.py**

* `_wrap` (28–37): Vec: `sum_squares`, `rms_norm`, `max_norm`
* `tree_full_like` (48–53): not modelled: typing overload
* `tree_full_like` (56–59): not modelled: typing overload
* `tree_full_like` (62–82): Entry: `dtype`; PyTree: `struct_leaf`, `full_leaf`, `tree_full_like`; Results: `fillv`; RootFind: `fill`; Vec: `vfull`
* `tree_allfinite` (85–87): Iterate: `allfinite`; Num: `xisfin`; PyTree: `tree_map1`, `tree_allfinite`; Vec: `vallfinite`
* `tree_where` (90–104): PyTree: `tree_map2`, `operand`, `broadcast`, `leaf_where`, `tree_where`; Vec: `vmap2`, `vwhere`
* `tree_dtype` (107–113): PyTree: `operand`
* `tree_clip` (116–124): Num: `nclip`; PyTree: `tree_map3`, `operand`, `broadcast`, `leaf_clip`, `tree_clip`; Vec: `vmap3`, `vclip`
* `tree_min` (127–129): Bounds: `tree_min`; PyTree: `entries`, `arr_reduce`
* `tree_max` (132–134): PyTree: `arr_reduce`, `tree_max`
* `feasible_step_length` (137–208): Bounds: `max_step`, `feasible_step_length`; Num: `nclip`, `nwhere`, `xneg`
* `resolve_rcond` (211–215): not modelled: not used anywhere in the package
* `NoneAux` (218–228): Entry: `user_fn`
* `NoneAux.__call__` (227–228): Entry: `user_fn`
* `OutAsArray` (231–242): Entry: `out_as_array`
* `OutAsArray.__call__` (238–242): Entry: `out_as_array`
* `lin_to_grad` (245–258): Autodiff: `basis`, `lin_to_grad`
* `_asarray` (261–262): Entry: `shape_of`
* `_asarray_jvp` (269–273): not modelled: derivative of a dtype conversion (identity on tangents)
* `asarray` (276–278): Entry: `pyval`, `canonical`, `result_type`, `asarray`
* `inexact_asarray` (281–285): Entry: `pyval`, `result_type`, `inexact`, `inexact_asarray`
* `cauchy_termination` (291–310): Num: `Num`, `xadd`, `xmul`, `xdiv`, `xabs`, `xltb`; Vec: `vdiv`, `vabs`, `vscale_tol`, `cauchy_termination`
* `_JaxprEqual` (313–322): StaticState: `pyleaf`, `leaf_equal`
* `_JaxprEqual.__init__` (314–315): StaticState: `pyleaf`
* `_JaxprEqual.__hash__` (317–318): StaticState: `pyleaf`
* `_JaxprEqual.__eq__` (320–322): StaticState: `pyleaf`, `leaf_equal`
* `_wrap_jaxpr_leaf` (325–331): StaticState: `wrap_leaf`
* `wrap_jaxpr` (334–335): StaticState: `wrap_jaxpr`
* `_unwrap_jaxpr_leaf` (338–342): StaticState: `wrap_leaf`
* `unwrap_jaxpr` (345–346): StaticState: `wrap_jaxpr`
* `filter_cond` (349–365): StaticState: `partition_tree`, `same_structure`, `filter_cond`
* `default_verbose` (368–382): Verbose: `verbose_arg`, `default_verbose`
* `_default_verbose` (385–393): Verbose: `verbose_pieces`, `default_verbose_true`
* `_default_no_verbose` (396–397): Verbose: `default_no_verbose`

**optimistix/_root_find.py**

* `AbstractRootFinder` (18–19): not modelled: abstract
* `_rewrite_fn` (22–26): Implicit: `rewrite_root`
* `_to_minimise_fn` (34–36): Entry: `half_sum_squares`; RootFind: `to_minimise_fn`
* `_to_lstsq_fn` (39–41): RootFind: `to_lstsq_fn`
* `_ToRoot` (45–80): RootFind: `to_root`
* `_ToRoot.rtol` (48–50): RootFind: `to_root`
* `_ToRoot.atol` (52–54): RootFind: `to_root`
* `_ToRoot.norm` (56–58): RootFind: `to_root`
* `_ToRoot.init` (60–64): RootFind: `to_root`
* `_ToRoot.step` (66–69): RootFind: `to_root`
* `_ToRoot.terminate` (71–76): RootFind: `to_root`
* `_ToRoot.postprocess` (78–80): RootFind: `to_root`
* `_MinimToRoot` (83–98): RootFind: `to_root`
* `_MinimToRoot.rtol` (88–90): RootFind: `to_root`
* `_MinimToRoot.atol` (92–94): RootFind: `to_root`
* `_MinimToRoot.norm` (96–98): RootFind: `to_root`
* `_LstsqToRoot` (101–116): RootFind: `to_root`
* `_LstsqToRoot.rtol` (106–108): RootFind: `to_root`
* `_LstsqToRoot.atol` (110–112): RootFind: `to_root`
* `_LstsqToRoot.norm` (114–116): RootFind: `to_root`
* `root_find` (119–241): Entry: `arrays`, `solver_kind`, `root_find_entry`; Implicit: `root_find_rewrite`; RootFind: `PolySolver`, `drop_fst_aux`, `omap`, `any_solver`, `vec_struct`, `root_find`

**optimistix/_search.py**

* `FunctionInfo` (44–66): Search: `finfo`
* `FunctionInfo.as_min` (62–66): not modelled: abstract method; the field of the record that stands for the class
* `Eval` (70–78): Search: `finfo`, `as_min`
* `Eval.as_min` (77–78): Search: `as_min`
* `EvalGrad` (82–95): Search: `finfo`, `as_min`, `compute_grad_dot`
* `EvalGrad.as_min` (91–92): Search: `as_min`
* `EvalGrad.compute_grad_dot` (94–95): Search: `compute_grad_dot`
* `EvalGradHessian` (99–113): Search: `linop`, `finfo`, `as_min`, `compute_grad_dot`
* `EvalGradHessian.as_min` (109–110): Search: `as_min`
* `EvalGradHessian.compute_grad_dot` (112–113): Search: `compute_grad_dot`
* `EvalGradHessianInv` (117–130): Search: `linop`, `finfo`, `as_min`, `compute_grad_dot`
* `EvalGradHessianInv.as_min` (126–127): Search: `as_min`
* `EvalGradHessianInv.compute_grad_dot` (129–130): Search: `compute_grad_dot`
* `Residual` (134–142): Search: `linop`, `finfo`, `as_min`
* `Residual.as_min` (141–142): Search: `as_min`
* `ResidualJac` (146–183): Minimisers: `info_residual`; Search: `linop`, `op_mv`, `op_mvT`, `finfo`, `as_min`, `info_grad` …
* `ResidualJac.as_min` (155–156): Search: `as_min`
* `ResidualJac.compute_grad` (158–160): Search: `op_mvT`, `info_grad`
* `ResidualJac.compute_grad_dot` (162–183): Search: `linop`, `op_mv`, `compute_grad_dot`
* `AbstractDescent` (248–313): Search: `Descent`
* `AbstractDescent.init` (256–270): Search: `Descent`
* `AbstractDescent.query` (272–296): Search: `Descent`
* `AbstractDescent.step` (298–313): Search: `Descent`
* `AbstractSearch` (316–379): Search: `Search`
* `AbstractSearch.init` (323–338): Search: `Search`
* `AbstractSearch.step` (340–379): Search: `Search`

**optimistix/_solution.py**

* `RESULTS` (11–19): Results: `results`
* `Solution` (22–43): Iterate: `Solution`; RootFind: `Answer`

**optimistix/_solver/backtracking.py**

* `_BacktrackingState` (13–14): not modelled: record of one or two fields; the model uses the fields directly
* `BacktrackingArmijo` (26–100): Search: `has_grad`, `armijo_step`, `armijo_valid`, `armijo`, `armijo_new`; Solvers: `armijo_default`
* `BacktrackingArmijo.__post_init__` (33–49): Search: `armijo_valid`, `armijo`, `armijo_new`
* `BacktrackingArmijo.init` (51–53): Search: `armijo`
* `BacktrackingArmijo.step` (55–100): Search: `has_grad`, `armijo_step`, `armijo`

**optimistix/_solver/best_so_far.py**

* `_BestSoFarState` (21–25): BestSoFar: `bsf_state`
* `_auxmented` (28–30): BestSoFar: `auxmented`
* `_AbstractBestSoFarSolver` (33–115): BestSoFar: `best_so_far`
* `_AbstractBestSoFarSolver._to_loss` (36–37): BestSoFar: `best_so_far`
* `_AbstractBestSoFarSolver.rtol` (39–41): BestSoFar: `best_so_far`
* `_AbstractBestSoFarSolver.atol` (43–45): BestSoFar: `best_so_far`
* `_AbstractBestSoFarSolver.norm` (47–49): BestSoFar: `best_so_far`
* `_AbstractBestSoFarSolver.init` (51–67): BestSoFar: `best_so_far`
* `_AbstractBestSoFarSolver.step` (69–90): BestSoFar: `best_so_far`
* `_AbstractBestSoFarSolver.terminate` (92–102): BestSoFar: `best_so_far`
* `_AbstractBestSoFarSolver.postprocess` (104–115): BestSoFar: `best_so_far`
* `BestSoFarMinimiser` (118–147): BestSoFar: `loss_minimiser`
* `BestSoFarMinimiser.__init__` (129–130): BestSoFar: `loss_minimiser`
* `BestSoFarMinimiser._to_loss` (132–133): BestSoFar: `loss_minimiser`
* `BestSoFarMinimiser.rtol` (137–139): BestSoFar: `loss_minimiser`
* `BestSoFarMinimiser.atol` (141–143): BestSoFar: `loss_minimiser`
* `BestSoFarMinimiser.norm` (145–147): BestSoFar: `loss_minimiser`
* `BestSoFarLeastSquares` (156–187): BestSoFar: `loss_least_squares`
* `BestSoFarLeastSquares.__init__` (167–170): BestSoFar: `loss_least_squares`
* `BestSoFarLeastSquares._to_loss` (172–173): BestSoFar: `loss_least_squares`
* `BestSoFarLeastSquares.rtol` (177–179): not modelled: forwards the attribute of the wrapped solver, which the model takes as argument
* `BestSoFarLeastSquares.atol` (181–183): not modelled: forwards the attribute of the wrapped solver, which the model takes as argument
* `BestSoFarLeastSquares.norm` (185–187): not modelled: forwards the attribute of the wrapped solver, which the model takes as argument
* `BestSoFarRootFinder` (196–225): BestSoFar: `loss_root_finder`
* `BestSoFarRootFinder.__init__` (207–208): BestSoFar: `loss_root_finder`
* `BestSoFarRootFinder._to_loss` (210–211): BestSoFar: `loss_root_finder`
* `BestSoFarRootFinder.rtol` (215–217): not modelled: forwards the attribute of the wrapped solver, which the model takes as argument
* `BestSoFarRootFinder.atol` (219–221): not modelled: forwards the attribute of the wrapped solver, which the model takes as argument
* `BestSoFarRootFinder.norm` (223–225): not modelled: forwards the attribute of the wrapped solver, which the model takes as argument
* `BestSoFarFixedPoint` (234–263): BestSoFar: `loss_fixed_point`
* `BestSoFarFixedPoint.__init__` (245–246): BestSoFar: `loss_fixed_point`
* `BestSoFarFixedPoint._to_loss` (248–249): BestSoFar: `loss_fixed_point`
* `BestSoFarFixedPoint.rtol` (253–255): not modelled: forwards the attribute of the wrapped solver, which the model takes as argument
* `BestSoFarFixedPoint.atol` (257–259): not modelled: forwards the attribute of the wrapped solver, which the model takes as argument
* `BestSoFarFixedPoint.norm` (261–263): not modelled: forwards the attribute of the wrapped solver, which the model takes as argument

**optimistix/_solver/bisection.py**

* `_BisectionState` (15–19): Bisection: `bis_state`
* `_ExpansionCarry` (22–24): not modelled: record of one or two fields; the model uses the fields directly
* `_interval_contains_root` (27–38): Bisection: `interval_contains_root`
* `_expand_interval` (41–50): Bisection: `expand_interval`
* `_expand_interval_repeatedly` (53–76): Bisection: `expand_interval_repeatedly`
* `Bisection` (79–212): Bisection: `flip_arg`, `bis_init`, `bis_step`, `bis_terminate`, `bisection`; Entry: `entry`, `bracket_check`
* `Bisection.init` (108–164): Bisection: `bis_init`, `bisection`; Entry: `entry`, `bracket_check`
* `Bisection.step` (166–184): Bisection: `bis_step`
* `Bisection.terminate` (186–199): Bisection: `bis_terminate`
* `Bisection.postprocess` (201–212): Bisection: `bisection`

**optimistix/_solver/cauchy_point.py**

* `_boundary_intercepts` (16–53): Bounds: `leaf_intercept`, `boundary_intercepts`; Num: `nmin`, `xeqb`, `xleb`
* `_next_intercept` (56–65): Bounds: `first_false`, `argmin_bool`, `next_intercept`
* `_point` (68–69): Bounds: `box_point`
* `_CauchyState` (72–76): Bounds: `cauchy_state`
* `_find_cauchy_point` (79–132): Bounds: `cauchy_body`, `cauchy_loop`, `find_cauchy_point`
* `cauchy_point` (135–220): Bounds: `just_move`, `cauchy_point`

**optimistix/_solver/dogleg.py**

* `_DoglegDescentState` (29–34): Descent: `dogleg_state`
* `DoglegDescent` (37–203): Descent: `dogleg_query`, `scaled_cauchy`, `dogleg_interpolate`, `dogleg_t`, `dogleg_mix`, `dogleg_step` …; DoglegRoot: `dogleg_root`, `dogleg_rfind`; Num: `xsqrt`; Search: `has_hessian`
* `DoglegDescent.init` (54–67): Descent: `dogleg_descent`
* `DoglegDescent.query` (69–111): Descent: `dogleg_query`, `dogleg_descent`; Search: `has_hessian`
* `DoglegDescent.step` (113–203): Descent: `scaled_cauchy`, `dogleg_interpolate`, `dogleg_t`, `dogleg_mix`, `dogleg_step`, `dogleg_descent`; DoglegRoot: `dogleg_root`, `dogleg_rfind`; Num: `xsqrt`
* `Dogleg` (217–261): DoglegRoot: `dogleg_root`; Solvers: `Dogleg`
* `Dogleg.__init__` (245–261): DoglegRoot: `dogleg_root`; Solvers: `Dogleg`

**optimistix/_solver/fixed_point.py**

* `_FixedPointState` (17–18): not modelled: record of one or two fields; the model uses the fields directly
* `FixedPointIteration` (21–93): FixedPoint: `fp_update`, `fp_step`, `fixed_point_iteration`; Num: `xsub`; Unroll: `fp_body`; Vec: `vsub`
* `FixedPointIteration.init` (39–50): FixedPoint: `fixed_point_iteration`
* `FixedPointIteration.step` (52–69): FixedPoint: `fp_update`, `fp_step`, `fixed_point_iteration`; Num: `xsub`; Unroll: `fp_body`; Vec: `vsub`
* `FixedPointIteration.terminate` (71–80): FixedPoint: `fixed_point_iteration`
* `FixedPointIteration.postprocess` (82–93): FixedPoint: `fixed_point_iteration`; Unroll: `fp_body`

**optimistix/_solver/gauss_newton.py**

* `newton_step` (32–78): Cholesky: `cholesky_solve`; Descent: `newton_step`; Search: `has_newton`
* `_NewtonDescentState` (81–83): not modelled: record of one or two fields; the model uses the fields directly
* `NewtonDescent` (86–127): Descent: `normalise`, `newton_descent`
* `NewtonDescent.init` (107–110): Descent: `newton_descent`
* `NewtonDescent.query` (112–124): Descent: `normalise`, `newton_descent`
* `NewtonDescent.step` (126–127): Descent: `newton_descent`
* `_GaussNewtonState` (140–155): Minimisers: `gn_state`
* `_make_f_info` (158–181): Autodiff: `basis`, `make_jac`, `linearize`; Minimisers: `jac_of`
* `AbstractGaussNewton` (184–358): Autodiff: `solve_jac`; Descent: `zero_info`; Minimisers: `zero_op`, `gn_init`, `gn_step`, `gauss_newton_solver`; PyTree: `omega2`; Vec: `vadd`; Verbose: `gn_report`
* `AbstractGaussNewton.init` (216–241): Autodiff: `solve_jac`; Descent: `zero_info`; Minimisers: `zero_op`, `gn_init`
* `AbstractGaussNewton.step` (243–334): Autodiff: `solve_jac`; Minimisers: `gn_step`, `gauss_newton_solver`; PyTree: `omega2`; Vec: `vadd`; Verbose: `gn_report`
* `AbstractGaussNewton.terminate` (336–345): Minimisers: `gauss_newton_solver`
* `AbstractGaussNewton.postprocess` (347–358): Minimisers: `gauss_newton_solver`
* `GaussNewton` (361–395): Solvers: `GaussNewton`
* `GaussNewton.__init__` (382–395): Solvers: `GaussNewton`

**optimistix/_solver/golden.py**

* `_GoldenSearchState` (17–23): Golden: `gs_state`
* `GoldenSearch` (26–187): Entry: `entry`, `bracket_check`; Golden: `golden_ratio`, `scalar_norm`, `gs_init`, `gs_step`, `golden`
* `GoldenSearch.init` (55–95): Entry: `entry`, `bracket_check`; Golden: `golden_ratio`, `gs_init`
* `GoldenSearch.step` (97–163): Golden: `gs_step`, `golden`
* `GoldenSearch.terminate` (165–174): Golden: `golden`
* `GoldenSearch.postprocess` (176–187): Golden: `golden`

**optimistix/_solver/gradient_methods.py**

* `_SteepestDescentState` (30–31): not modelled: record of one or two fields; the model uses the fields directly
* `SteepestDescent` (42–79): Descent: `vdivs`, `normalise`, `steepest_descent`; Vec: `vscale`, `vneg`
* `SteepestDescent.init` (47–50): Descent: `steepest_descent`
* `SteepestDescent.query` (52–74): Descent: `vdivs`, `normalise`, `steepest_descent`
* `SteepestDescent.step` (76–79): Descent: `steepest_descent`; Vec: `vscale`, `vneg`
* `_GradientDescentState` (91–104): Minimisers: `gd_state`
* `AbstractGradientDescent` (107–246): Autodiff: `linearize`, `solve_autodiff`; Minimisers: `grad_of`, `gd_init`, `gd_step`, `gradient_descent_solver`
* `AbstractGradientDescent.init` (138–159): Minimisers: `gd_init`
* `AbstractGradientDescent.step` (161–222): Autodiff: `linearize`, `solve_autodiff`; Minimisers: `grad_of`, `gd_step`, `gradient_descent_solver`
* `AbstractGradientDescent.terminate` (224–233): Minimisers: `gradient_descent_solver`
* `AbstractGradientDescent.postprocess` (235–246): Minimisers: `gradient_descent_solver`
* `GradientDescent` (249–287): Solvers: `GradientDescent`
* `GradientDescent.__init__` (266–287): Solvers: `GradientDescent`

**optimistix/_solver/learning_rate.py**

* `_typed_asarray` (12–13): not modelled: dtype conversion
* `LearningRate` (16–35): Search: `learning_rate`
* `LearningRate.init` (21–22): Search: `learning_rate`
* `LearningRate.step` (24–35): Search: `learning_rate`

**optimistix/_solver/levenberg_marquardt.py**

* `_Damped` (23–31): Descent: `damped_jac`
* `_Damped.__call__` (27–31): Descent: `damped_jac`
* `damped_newton_step` (34–76): Descent: `damped_hessian`, `lm_param`, `damped_newton_step`
* `_DampedNewtonDescentState` (79–80): not modelled: record of one or two fields; the model uses the fields directly
* `DampedNewtonDescent` (83–133): Descent: `zero_info`, `damped_newton_descent`
* `DampedNewtonDescent.init` (108–115): Descent: `zero_info`, `damped_newton_descent`
* `DampedNewtonDescent.query` (117–124): Descent: `damped_newton_descent`
* `DampedNewtonDescent.step` (126–133): Descent: `damped_newton_descent`
* `_IndirectDampedNewtonDescentState` (142–146): not modelled: record of one or two fields; the model uses the fields directly
* `IndirectDampedNewtonDescent` (149–241): Descent: `zero_info`, `indirect_damped_step`, `indirect_damped_newton_descent`; InnerRoot: `inner_params`, `inner_root`, `inner_damping`
* `IndirectDampedNewtonDescent.init` (177–187): Descent: `zero_info`, `indirect_damped_step`, `indirect_damped_newton_descent`
* `IndirectDampedNewtonDescent.query` (189–200): Descent: `indirect_damped_step`, `indirect_damped_newton_descent`
* `IndirectDampedNewtonDescent.step` (202–241): Descent: `indirect_damped_step`, `indirect_damped_newton_descent`; InnerRoot: `inner_root`, `inner_damping`
* `LevenbergMarquardt` (256–294): Solvers: `LevenbergMarquardt`
* `LevenbergMarquardt.__init__` (281–294): Solvers: `LevenbergMarquardt`
* `IndirectLevenbergMarquardt` (315–360): Solvers: `IndirectLevenbergMarquardt`
* `IndirectLevenbergMarquardt.__init__` (341–360): Solvers: `IndirectLevenbergMarquardt`

**optimistix/_solver/limited_memory_bfgs.py**

* `_LBFGSInverseHessianUpdateState` (33–56): LBFGS: `inv_state`, `lbfgs_state`
* `_LBFGSHessianUpdateState` (59–106): LBFGS: `dir_state`, `lbfgs_state`
* `_lbfgs_inverse_hessian_operator_fn` (117–198): LBFGS: `slot`, `scan_reverse`, `circ_index`, `backward_iter`, `inverse_gamma`, `forward_iter` …
* `_lbfgs_hessian_operator_fn` (201–295): LBFGS: `direct_gamma`, `safe_inner`, `J_square`, `J_factor`, `diag`, `low_tri` …; LinAlg: `transpose`, `symmetrize`, `cholesky_lower`, `cholesky`, `solve_lower`, `solve_upper`
* `_batched_tree_zeros_like` (298–299): LBFGS: `lbfgs_init`
* `AbstractLBFGS` (302–528): LBFGS: `slot`, `set_at`, `lbfgs_operator`, `lbfgs_init`, `inv_update`, `dir_update` …
* `AbstractLBFGS.init_hessian` (311–350): LBFGS: `lbfgs_operator`, `lbfgs_init`
* `AbstractLBFGS.update_hessian` (352–528): LBFGS: `slot`, `set_at`, `lbfgs_operator`, `inv_update`, `dir_update`, `info_op` …
* `LBFGS` (531–591): LBFGS: `LBFGS`
* `LBFGS.__init__` (575–591): LBFGS: `LBFGS`

**optimistix/_solver/nelder_mead.py**

* `_NMStats` (19–24): NelderMead: `nm_stats`
* `_NelderMeadState` (27–71): NelderMead: `nm_state`
* `_update_stats` (74–88): NelderMead: `bump`, `update_stats`
* `NelderMead` (91–463): NelderMead: `leaf_rows`, `build_rows`, `split_leaves`, `initial_simplex`, `nm_start`, `top_gt` …; Num: `nisnan`; SimplexEntry: `leading`, `all_leading`, `drop_leading`, `add_leading`, `tree_size`, `nm_simplex_struct` …
* `NelderMead.init` (110–204): NelderMead: `leaf_rows`, `build_rows`, `split_leaves`, `initial_simplex`, `nm_start`, `simplex_check`; SimplexEntry: `leading`, `all_leading`, `drop_leading`, `add_leading`, `tree_size`, `nm_simplex_struct`
* `NelderMead.step` (206–411): NelderMead: `top_gt`, `top_from`, `top1`, `remove_at`, `set_at`, `search_direction` …; Num: `nisnan`; SimplexEntry: `drop_leading`, `nm_trace`
* `NelderMead.terminate` (413–443): NelderMead: `nm_converged`, `nm_terminate`
* `NelderMead.postprocess` (445–463): NelderMead: `nm_post_stats`

**optimistix/_solver/newton_chord.py**

* `_small` (25–29): NewtonChord: `nc_small`
* `_diverged` (32–33): NewtonChord: `nc_diverged`
* `_converged` (36–37): NewtonChord: `nc_converged`
* `_NewtonChordState` (40–47): NewtonChord: `nc_state`
* `_NoAux` (50–56): NewtonChord: `nc_init`
* `_NoAux.__call__` (53–56): NewtonChord: `nc_init`
* `_AbstractNewtonChord` (59–209): InnerRoot: `inner_params`, `inner_damping`; Minimisers: `ar_tols`; NewtonChord: `nc_params`, `nc_init`, `nc_clip`, `has_box`, `nc_solve`, `nc_step_fn` …; Num: `nmax`
* `_AbstractNewtonChord.init` (69–101): InnerRoot: `inner_damping`; NewtonChord: `nc_init`
* `_AbstractNewtonChord.step` (103–152): NewtonChord: `nc_params`, `nc_clip`, `has_box`, `nc_solve`, `nc_step_fn`, `newton_chord`; Num: `nmax`
* `_AbstractNewtonChord.terminate` (154–196): NewtonChord: `nc_terminate`, `newton_chord`
* `_AbstractNewtonChord.postprocess` (198–209): NewtonChord: `newton_chord`
* `Newton` (212–228): InnerRoot: `inner_params`; NewtonChord: `newton_chord`
* `Chord` (231–251): NewtonChord: `newton_chord`

**optimistix/_solver/nonlinear_cg.py**

* `polak_ribiere` (23–35): Descent: `polak_ribiere`
* `fletcher_reeves` (38–47): Descent: `fletcher_reeves`
* `hestenes_stiefel` (50–59): Descent: `hestenes_stiefel`
* `dai_yuan` (62–70): Descent: `dai_yuan`
* `_NonlinearCGDescentState` (73–75): not modelled: record of one or two fields; the model uses the fields directly
* `NonlinearCGDescent` (78–154): Descent: `cg_query`, `nonlinear_cg_descent`
* `NonlinearCGDescent.init` (92–104): Descent: `nonlinear_cg_descent`
* `NonlinearCGDescent.query` (106–149): Descent: `cg_query`, `nonlinear_cg_descent`
* `NonlinearCGDescent.step` (151–154): Descent: `nonlinear_cg_descent`
* `NonlinearCG` (171–218): Solvers: `NonlinearCG`
* `NonlinearCG.__init__` (188–218): Solvers: `NonlinearCG`

**optimistix/_solver/optax.py**

* `_OptaxState` (16–20): Optax: `optax_state`
* `OptaxMinimiser` (23–145): Optax: `OptaxTransform`, `optax_init`, `optax_step`, `OptaxMinimiser`; Verbose: `optax_report`
* `OptaxMinimiser.__init__` (34–65): Optax: `OptaxMinimiser`
* `OptaxMinimiser.init` (67–82): Optax: `OptaxTransform`, `optax_init`
* `OptaxMinimiser.step` (84–120): Optax: `OptaxTransform`, `optax_step`, `OptaxMinimiser`; Verbose: `optax_report`
* `OptaxMinimiser.terminate` (122–132): Optax: `OptaxMinimiser`
* `OptaxMinimiser.postprocess` (134–145): Optax: `OptaxMinimiser`

**optimistix/_solver/quasi_newton.py**

* `_identity_pytree` (41–75): PyTree: `leaves`; QuasiNewton: `unit_row`, `identity_mat`; TreeOp: `structure`, `compose`, `take_leaves`, `unflatten`, `zero_block`, `eye_row` …
* `_outer` (78–82): QuasiNewton: `outer`; TreeOp: `tree_graft`, `tree_outer`
* `_QuasiNewtonState` (85–103): Minimisers: `qn_state`
* `AbstractQuasiNewton` (106–324): Autodiff: `linearize`, `solve_autodiff`; Minimisers: `qn_init`, `qn_step`, `quasi_newton_solver`; Verbose: `qn_report`
* `AbstractQuasiNewton.init_hessian` (145–154): not modelled: abstract method; the field of the record that stands for the class
* `AbstractQuasiNewton.update_hessian` (156–174): not modelled: abstract method; the field of the record that stands for the class
* `AbstractQuasiNewton.init` (176–202): Minimisers: `qn_init`
* `AbstractQuasiNewton.step` (204–300): Autodiff: `linearize`, `solve_autodiff`; Minimisers: `qn_step`, `quasi_newton_solver`; Verbose: `qn_report`
* `AbstractQuasiNewton.terminate` (302–311): Minimisers: `quasi_newton_solver`
* `AbstractQuasiNewton.postprocess` (313–324): Minimisers: `quasi_newton_solver`
* `AbstractBFGS` (327–415): QuasiNewton: `madd`, `msub`, `mscale`, `mdivs`, `mat_mv`, `bfgs_inverse` …; TreeOp: `tree_matmul`, `tree_mv`, `tree_dot`, `same_shape`, `block_omega2`, `block_scale` …
* `AbstractBFGS.init_hessian` (334–340): QuasiNewton: `qn_init_hessian`
* `AbstractBFGS.update_hessian` (342–415): QuasiNewton: `madd`, `msub`, `mscale`, `mdivs`, `mat_mv`, `bfgs_inverse` …; TreeOp: `tree_matmul`, `tree_mv`, `tree_dot`, `same_shape`, `block_omega2`, `block_scale` …
* `BFGS` (418–458): Solvers: `BFGS`
* `BFGS.__init__` (443–458): Solvers: `BFGS`
* `AbstractDFP` (487–573): QuasiNewton: `dfp_inverse`, `dfp_direct`, `qn_init_hessian`, `dfp_update`; TreeOp: `tree_dfp_inverse`, `tree_dfp_direct`
* `AbstractDFP.init_hessian` (494–500): QuasiNewton: `qn_init_hessian`
* `AbstractDFP.update_hessian` (502–573): QuasiNewton: `dfp_inverse`, `dfp_direct`, `dfp_update`; TreeOp: `tree_dfp_inverse`, `tree_dfp_direct`
* `DFP` (576–619): Solvers: `DFP`
* `DFP.__init__` (604–619): Solvers: `DFP`

**optimistix/_solver/trust_region.py**

* `_TrustRegionState` (19–20): not modelled: record of one or two fields; the model uses the fields directly
* `_AbstractTrustRegion` (27–106): Search: `tr_params`, `tr_valid`, `tr_step`, `classical_trust_region`
* `_AbstractTrustRegion.__post_init__` (50–68): Search: `tr_valid`
* `_AbstractTrustRegion.predict_reduction` (70–71): not modelled: abstract method; the field of the record that stands for the class
* `_AbstractTrustRegion.init` (73–75): Search: `classical_trust_region`
* `_AbstractTrustRegion.step` (77–106): Search: `tr_step`
* `ClassicalTrustRegion` (109–193): Search: `tr_default`, `classical_predict`, `classical_trust_region`
* `ClassicalTrustRegion.predict_reduction` (130–193): Search: `classical_predict`, `classical_trust_region`
* `LinearTrustRegion` (201–270): Search: `tr_default`, `linear_predict`, `linear_trust_region`
* `LinearTrustRegion.predict_reduction` (225–270): Search: `linear_predict`, `linear_trust_region`

**optimistix/compat/_impl.py**

* `OptimizeResults` (14–39): Compat: `optimize_results`
* `minimize` (42–125): Cholesky: `as_matrix`; Compat: `lower`, `min_options`, `compat_minimize`

## 6. Properties, theorems and their axioms

Per property: title, where it is modelled and how it is proved, then the theorems with
the axioms `Print Assumptions` lists, and for partial or refuted claims what is missing.

### C01 Step budget and step count (proved)

Iterate.v driver over an arbitrary solver record; induction over the step budget.

* `C01_step_budget` (Prop_Iterate.v): —
* `C01_finite_budget_finishes` (Prop_Iterate.v): —
* `C01_zero_budget` (Prop_Iterate.v): —

### C02 The solve stops at the first stopping iterate (proved)

Iterate.v; spec = least index at which a stop condition holds on the Nat.iter sequence of step.

* `C02_first_stop` (Prop_Iterate.v): —

### C03 Meaning of Solution.result (proved)

Iterate.v; case analysis at the stop index.

* `C03_status` (Prop_Iterate.v): —
* `C03_success_sound` (Prop_Iterate.v): —
* `C03_max_steps_iff` (Prop_Iterate.v): —

### C04 Successful solves do not return NaN or infinity (partial)

Iterate.v; false in general (the check looks at the previous iterate): a refuting solver, the part that holds for every solver, and full proofs for the built-in minimisers, least-squares solvers, FixedPointIteration and Newton/Chord.

* `C04_minimisers` (Prop_Certificate.v): CL FE SF SN
* `C04_least_squares` (Prop_Certificate.v): CL FE SF SN
* `C04_fixed_point` (Prop_Certificate.v): CL FE SF SN
* `C04_fixed_point_success_finite` (Prop_FixedPoint.v): FE SF SN
* `C04_previous_finite_partial` (Prop_Iterate.v): —
* `C04_success_finite_refuted` (Prop_Iterate.v): FE SF SN
* `C04_newton_success_finite` (Prop_NewtonChord.v): FE SF SN

Note: False as stated: C04_success_finite_refuted gives a solver obeying the interface whose
successful solve returns infinity, because the driver checks the iterate before the last step.
C04_previous_finite_partial is the part that holds for every solver. [C04_previous_finite_partial]
Part of C04 that holds for every solver: when success is reported, the point the last step started
from is finite. [C04_success_finite_refuted] C04 itself fails: a solver that follows the documented
interface can be reported successful while the returned value is infinite, because the finiteness
check looks at the point before the last step.

### C05 throw=True raises exactly on failure (proved)

Iterate.v: iterative_solve as a function into value-or-exception.

* `C05_throw` (Prop_Iterate.v): —
* `C05_no_throw` (Prop_Iterate.v): —
* `C05_entry_points` (Prop_Wrappers.v): —

### C06 Non-finite starting points are reported without stepping (proved)

Iterate.v.

* `C06_nonfinite_start` (Prop_Iterate.v): —

### C07 root_find with a minimiser or least-squares solver only succeeds near a root (proved)

RootFind.v: _ToRoot wrapper as a solver transformer.

* `C07_root_find_minimiser` (Prop_Wrappers.v): FE
* `C07_root_find_least_squares` (Prop_Wrappers.v): FE
* `C07_max_norm_of_inf` (Prop_Wrappers.v): FE SF SN

### C08 Cross-problem conversions optimise the documented objective (proved)

RootFind.v conversions over reals.

* `C08_fixed_point` (Prop_Wrappers.v): FE SF SN
* `C08_least_squares` (Prop_Wrappers.v): FE SF SN
* `C08_root_find_aux` (Prop_Wrappers.v): FE

### C09 BestSoFar returns the best iterate seen (proved)

BestSoFar.v solver transformer, order laws only (so it also holds for IEEE).

* `C09_best_so_far` (Prop_Wrappers.v): FE
* `C09_minimiser` (Prop_Wrappers.v): FE SF SN
* `C09_residuals` (Prop_Wrappers.v): FE SF SN
* `C09_fixed_point` (Prop_Wrappers.v): FE SF SN

### C10 BestSoFar does not disturb the wrapped solver (proved)

BestSoFar.v simulation.

* `C10_best_so_far_transparent` (Prop_Wrappers.v): —

### C11 BestSoFar composes with every built-in minimiser (partial)

Refutations with NelderMead.v and Golden.v plugged in BestSoFar.v.

* `C11_golden_refuted` (Prop_Golden.v): CL FE SF SN
* `C11_nelder_mead_refuted` (Prop_NelderMead.v): —

Note: [C11_golden_refuted] BestSoFarMinimiser(GoldenSearch) reports success and returns y0 although
a later iterate has a smaller loss (binary64 witness just defined). [C11_nelder_mead_refuted]
BestSoFarMinimiser(NelderMead) returns y0 for every function that is nowhere negative, whatever the
solve did: NelderMead's first step hands back an aux of zeros, which BestSoFar books as loss 0 of
y0.

### C12 Bisection keeps a sign change (proved)

Bisection.v, invariant by induction, arbitrary function on extended reals.

* `C12_sign_change_kept` (Prop_Bisection.v): —
* `C12_detect` (Prop_Bisection.v): —

### C13 Bisection halves its interval (proved)

Bisection.v over reals.

* `C13_halving` (Prop_Bisection.v): FE SF SN

### C14 Bisection success means a true root is close (proved)

Bisection.v + IVT of Coq.Reals.

* `C14_success_near_root` (Prop_Bisection.v): FE SF SN
* `C14_success_near_root_flip` (Prop_Bisection.v): FE SF SN

### C15 Bisection always converges (proved)

Bisection.v + completeness of R.

* `C15_converges` (Prop_Bisection.v): CL FE SF SN

### C16 Bisection rejects non-bracketing intervals (proved)

Bisection.v init.

* `C16_detect` (Prop_Bisection.v): —

### C17 Bisection interval expansion is sound and finds a bracket for monotone functions (proved)

Bisection.v expansion loop with fuel.

* `C17_expansion_sound` (Prop_Bisection.v): FE SF SN
* `C17_bracket_unchanged` (Prop_Bisection.v): FE SF SN
* `C17_expansion_finishes` (Prop_Bisection.v): FE SF SN
* `C17_expand_and_solve` (Prop_Bisection.v): CL FE SF SN
* `C17_rootless_never_finishes` (Prop_Bisection.v): FE SF SN
* `C17_zero_end_expands` (Prop_Bisection.v): FE SF SN

### C18 Golden section search stays in the interval it was given (partial)

Golden.v: refutation for lower<>0, proof for lower=0.

* `C18_evaluates_inside_partial` (Prop_Golden.v): FE SF SN
* `C18_returns_inside_partial` (Prop_Golden.v): FE SF SN
* `C18_stays_inside_refuted` (Prop_Golden.v): FE SF SN

Note: [C18_evaluates_inside_partial] Two functions that agree on [0, upper] cannot be told apart: fn
is evaluated nowhere else. Missing from the full claim: lower <> 0. [C18_returns_inside_partial]
Every iterate, and so every returned value, lies in (0, upper). Missing from the full claim: lower
<> 0. [C18_stays_inside_refuted] C18 fails in general: see the comment on the common witness.

### C19 Golden section search shrinks geometrically and keeps the golden ratio (partial)

Golden.v.

* `C19_golden_ratio_kept_partial` (Prop_Golden.v): FE SF SN
* `C19_golden_ratio_kept_refuted` (Prop_Golden.v): FE SF SN

Note: [C19_golden_ratio_kept_partial] Missing from the full claim: intervals with lower <> 0 (for
those the claim is false, see C19_refuted). [C19_golden_ratio_kept_refuted] C19 fails in general:
the interval kept after one step is more than ten times as long as the one given.

### C20 Golden section search finds the minimum of unimodal functions (partial)

Golden.v.

* `C20_unimodal_partial` (Prop_Golden.v): FE SF SN
* `C20_success_near_minimum_partial` (Prop_Golden.v): FE SF SN
* `C20_terminates_partial` (Prop_Golden.v): CL FE SF SN
* `C20_unimodal_refuted` (Prop_Golden.v): FE SF SN

Note: [C20_unimodal_partial] After n steps the iterate is within upper/phi^n of the minimiser of a
unimodal function, and the minimiser stays in the stored interval. Missing from the full claim:
lower <> 0. [C20_success_near_minimum_partial] Success means the minimiser is close: within phi^2
tolerances. Missing from the full claim: lower <> 0. [C20_terminates_partial] For a continuous
function (unimodal or not) the search ends successfully after finitely many steps. Missing from the
full claim: lower <> 0. [C20_unimodal_refuted] C20 fails in general: the value returned after one
step is more than ten interval lengths away from the minimiser.

### C21 Newton and Chord respect the box options (proved)

NewtonChord.v with Jacobian and linear solver as oracles.

* `C21_iterates_in_box` (Prop_NewtonChord.v): —
* `C21_one_sided` (Prop_NewtonChord.v): —
* `C21_value_in_box` (Prop_NewtonChord.v): —
* `C21_success_in_box` (Prop_NewtonChord.v): —

### C22 Newton/Chord success certificate (Cauchy termination) (proved)

NewtonChord.v, every arithmetic with order and division laws.

* `C22_certificate` (Prop_NewtonChord.v): FE SF SN

### C23 Newton/Chord failure reporting (proved)

NewtonChord.v.

* `C23_linear_failure_stops` (Prop_NewtonChord.v): —
* `C23_success_all_linear_ok` (Prop_NewtonChord.v): —
* `C23_divergence_iff` (Prop_NewtonChord.v): —

### C24 Newton and Chord solve affine systems exactly (proved)

NewtonChord.v over reals with an exact linear-solver oracle.

* `C24_affine_exact` (Prop_NewtonChord.v): FE SF SN

### C25 Fixed-point iteration success certificate (proved)

FixedPoint.v.

* `C25_certificate` (Prop_FixedPoint.v): —
* `C25_exact` (Prop_FixedPoint.v): FE SF SN
* `C25_full_damping_vacuous` (Prop_FixedPoint.v): FE SF SN

### C26 Fixed-point iteration converges on contractions (proved)

FixedPoint.v, geometric series.

* `C26_contraction_converges` (Prop_FixedPoint.v): FE SF SN
* `C26_value_near_fixed_point` (Prop_FixedPoint.v): FE SF SN

### C27 Armijo searches never increase the objective (proved)

Search.v, Minimiser skeleton; abstract sign laws, instantiated for exact reals and for Flocq binary64.

* `C27_gradient_descent` (Prop_Minimisers.v): —
* `C27_quasi_newton` (Prop_Minimisers.v): —
* `C27_minimise` (Prop_Minimisers.v): CL FE SF SN

### C28 Backtracking step sizes (proved)

Search.v.

* `C28_step_any_arithmetic` (Prop_Minimisers.v): —
* `C28_step_sizes` (Prop_Minimisers.v): FE SF SN
* `C28_binary64_underflow` (Prop_Minimisers.v): CL FE SF SN

### C29 Backtracking terminates on descent directions (proved)

Search.v + derivative definition.

* `C29_nonlinear_cg` (Prop_CG.v): FE SF SN
* `C29_lbfgs` (Prop_LBFGS.v): FE SF SN
* `C29_search_accepts` (Prop_Minimisers.v): FE SF SN
* `C29_gradient_descent` (Prop_Minimisers.v): FE SF SN
* `C29_quasi_newton` (Prop_Progress.v): FE SF SN
* `C29_bfgs_dfp` (Prop_QNRun.v): FE SF SN

### C30 Trust-region step-size rule (partial)

Search.v; reals, extended reals and binary64.

* `C30_ratio_rule` (Prop_TrustRegion.v): FE SF SN
* `C30_radius_positive` (Prop_TrustRegion.v): FE SF SN
* `C30_zero_constant_refuted` (Prop_TrustRegion.v): CL FE SF SN
* `C30_nan_rejected` (Prop_TrustRegion.v): CL FE SF SN

Note: [C30_zero_constant_refuted] The constructor accepts low_constant = 0 (its check is `< 0`
although the message says the constant must be greater than 0): then one rejection makes the radius
zero for ever.

### C31 Trust-region solvers never increase the loss when the model predicts a reduction (proved)

Search.v.

* `C31_least_squares` (Prop_TrustRegion.v): CL
* `C31_gradient` (Prop_TrustRegion.v): CL
* `C31_quasi_newton` (Prop_TrustRegion.v): CL

### C32 Levenberg-Marquardt is monotone (proved)

Descent.v, Search.v, Minimisers.v; exact least-squares oracle.

* `C32_levenberg_marquardt` (Prop_LeastSquares.v): FE SF SN
* `C32_indirect_levenberg_marquardt` (Prop_LeastSquares.v): FE SF SN
* `C32_dogleg` (Prop_LeastSquares.v): FE SF SN

### C33 Classical trust region predicts with the Gauss-Newton quadratic model (proved)

Search.v + Vec.v algebra.

* `C33_exact_when_linear` (Prop_Steps.v): FE SF SN
* `C33_predict` (Prop_TrustRegion.v): FE SF SN

### C34 Dogleg stays inside the trust region (partial)

Descent.v over reals; binary64 for the refutation.

* `C34_exit_partial` (Prop_Dogleg.v): FE SF SN
* `C34_tiny_cauchy` (Prop_Dogleg.v): FE SF SN
* `C34_nan_refuted` (Prop_Dogleg.v): CL FE SF SN

Note: [C34_exit_partial] Exact arithmetic, two-norm trust region of radius D = step_size |newton|.
Full claim: the step is where the dogleg path leaves the ball (so its norm is at most D). Proved
when newton is not 0, a Cauchy step longer than D is longer than eps, and the quadratic is not
degenerate (its constant term |2 cauchy - newton|^2 - D^2 is not 0, or its middle coefficient is not
negative). Missing: newton = 0, and the degenerate quadratic, where the code computes 0/0; see
C34_nan_refuted. [C34_nan_refuted] The claim fails in binary64, and the step is NaN, (1) at a
solution (residual 0, so newton = cauchy = 0) once the radius factor is below 1; (2) with cauchy =
1, newton = 4 and step_size 1/2, where the constant term of the quadratic is exactly 0.

### C35 Nonlinear CG always moves downhill (proved)

Descent.v (nonlinear CG).

* `C35_any_arithmetic` (Prop_CG.v): —
* `C35_never_uphill` (Prop_CG.v): CL FE SF SN
* `C35_downhill` (Prop_CG.v): FE SF SN
* `C35_first_direction` (Prop_CG.v): FE SF SN
* `C35_first_direction_run` (Prop_CG.v): FE SF SN

### C36 Nonlinear CG beta formulas (partial)

Descent.v: proof for two methods, refutation for the others.

* `C36_polak_ribiere_fletcher_reeves` (Prop_CG.v): FE SF SN
* `C36_hestenes_stiefel_dai_yuan_sign` (Prop_CG.v): FE SF SN
* `C36_conjugacy_refuted` (Prop_CG.v): FE SF SN
* `C36_conjugacy_with_corrected_sign` (Prop_CG.v): FE SF SN

Note: [C36_conjugacy_refuted] So the Hestenes-Stiefel direction is not conjugate to the gradient
change: (-g + beta d) . (g - g_prev) <> 0 although d . (g - g_prev) is far from 0. The same inputs
give a Dai-Yuan beta of the wrong sign.

### C37 BFGS updates satisfy the secant equation and stay symmetric positive definite (proved)

QuasiNewton.v.

* `C37_bfgs` (Prop_BFGS.v): FE SF SN
* `C37_bfgs_run` (Prop_QNRun.v): FE SF SN

### C38 DFP updates satisfy the secant equation and stay symmetric positive definite (proved)

QuasiNewton.v.

* `C38_dfp` (Prop_BFGS.v): FE SF SN
* `C38_dfp_run` (Prop_QNRun.v): FE SF SN

### C39 use_inverse does not change the algorithm (proved)

QuasiNewton.v.

* `C39_use_inverse` (Prop_BFGS.v): FE SF SN
* `C39_lbfgs` (Prop_LBFGS.v): FE SF SN
* `C39_lbfgs_same_run` (Prop_LBFGS.v): FE SF SN
* `C39_same_run` (Prop_QNRun.v): FE SF SN

### C40 L-BFGS history buffer keeps exactly the last pairs (proved)

LBFGS.v.

* `C40_history` (Prop_LBFGS.v): FE SF SN

### C41 L-BFGS equals BFGS on the last pairs (proved)

LBFGS.v.

* `C41_two_loop` (Prop_LBFGS.v): FE SF SN
* `C41_lbfgs_run` (Prop_LBFGS.v): FE SF SN

### C42 L-BFGS compact Hessian satisfies the secant equation (proved)

LBFGS.v.

* `C42_compact` (Prop_LBFGS.v): FE SF SN

### C43 Rejected steps leave the iterate untouched; accepted steps move to the evaluated point (proved)

Minimisers.v, every arithmetic.

* `C43_builtin_searches` (Prop_Minimisers.v): —
* `C43_gradient_descent` (Prop_Minimisers.v): —
* `C43_quasi_newton` (Prop_Minimisers.v): —
* `C43_bfgs_dfp_contract` (Prop_Minimisers.v): —
* `C43_gauss_newton` (Prop_Minimisers.v): —

### C44 feasible_step_length is safe and maximal (proved)

Bounds.v over extended reals.

* `C44_feasible` (Prop_Bounds.v): FE SF SN
* `C44_whole_step` (Prop_Bounds.v): FE SF SN
* `C44_outside` (Prop_Bounds.v): FE SF SN

### C45 Cauchy point lies in the feasible box (partial)

Bounds.v (cauchy_point) over extended reals.

* `C45_cauchy_partial` (Prop_Bounds.v): FE SF SN
* `C45_termination_refuted` (Prop_Bounds.v): CL FE SF SN
* `C45_nan_refuted` (Prop_Bounds.v): CL FE SF SN
* `C45_clipped_partial` (Prop_Bounds.v): —

Note: [C45_cauchy_partial] Exact arithmetic; y in the box; every coordinate moves against the
gradient and meets a finite bound; H symmetric positive semidefinite. Then cauchy_point finishes
within n passes and its result is a point of finite numbers in the box. Missing from the full claim:
gradients with a zero entry and infinite bounds, for which it is false (next two theorems).
[C45_termination_refuted] In the unit square from (1/2, 1/2) with gradient (1, 0) and Hessian I/8
the search never ends: the second coordinate's intercept is inf, which always counts as "more to
try". [C45_nan_refuted] Same with gradient (0, 1): the second pass picks the infinite intercept and
the point returned contains NaN. [C45_clipped_partial] Whatever the number system, gradient and
Hessian: an entry of the point returned by the search that is not NaN lies between its bounds,
provided the bounds are ordered.

### C46 Nelder-Mead initial simplex is non-degenerate (partial)

NelderMead.v: refutation for dimension >= 3.

* `C46_array_refuted` (Prop_NelderMead.v): FE SF SN
* `C46_scalar_leaves_partial` (Prop_NelderMead.v): —
* `C46_scalar_leaves_span_partial` (Prop_NelderMead.v): FE SF SN
* `C46_collapse_refuted` (Prop_NelderMead.v): FE SF SN

Note: [C46_array_refuted] A single array of d >= 3 entries, any y0, adelta, rdelta: some non-zero
functional is constant on the initial simplex, so it does not span; and every iterate, for every
function, stays in that hyperplane through y0. [C46_scalar_leaves_partial] When every leaf of y0 is
a scalar the initial simplex is the textbook one: d + 1 vertices, vertex 0 is y0 and vertex i + 1
displaces coordinate i by adelta + rdelta y0_i. Missing from the full claim: array leaves, for which
it is false ([C46_array_refuted]). [C46_scalar_leaves_span_partial] Scalar leaves, exact arithmetic:
if no displacement is zero the initial simplex affinely spans the space. Missing: array leaves and
zero displacements, for which it is false ([C46_array_refuted], [C46_collapse_refuted]).
[C46_collapse_refuted] Started at the scalar -adelta/rdelta the two vertices coincide: whatever the
function, the first termination test after one step reports success at the starting point (exact
arithmetic).

### C47 Nelder-Mead bookkeeping (partial)

NelderMead.v: false for the stored best vertex (stale index); the rest over reals.

* `C47_values_partial` (Prop_NelderMead.v): —
* `C47_best_value_partial` (Prop_NelderMead.v): FE SF SN
* `C47_monotone_partial` (Prop_NelderMead.v): FE SF SN
* `C47_stale_refuted` (Prop_NelderMead.v): CL FE SF SN
* `C47_increase_refuted` (Prop_NelderMead.v): CL FE SF SN

Note: [C47_values_partial] After at least one step the stored values are the function values at the
stored vertices, in order. Missing from the full claim: the stored best vertex, for which it is
false ([C47_stale_refuted]). [C47_best_value_partial] Exact arithmetic, after at least one step: the
stored best value is the value at the vertex of the stored simplex with the stored index, and the
least of all vertex values. (The full claim that the stored best *vertex* is that vertex is false,
see below.) [C47_monotone_partial] Over steps without a shrink, and over shrinks started from a
stored best vertex that really is the best vertex of the simplex, the best value never increases.
[C47_stale_refuted] The stored best vertex is a vertex no longer in the simplex and its value is not
the stored best value; it is also the iterate returned. [C47_increase_refuted] A shrink makes the
best value go up.

### C48 Nelder-Mead only makes affine moves (proved)

NelderMead.v.

* `C48_affine` (Prop_NelderMead.v): FE SF SN
* `C48_functional` (Prop_NelderMead.v): FE SF SN

### C49 Nelder-Mead accepts valid user simplices (partial)

NelderMead.v: refutation for dimension >= 2.

* `C49_accepts_iff` (Prop_NelderMead.v): —
* `C49_rejects_refuted` (Prop_NelderMead.v): —
* `C49_leading` (Prop_NelderMead.v): —

Note: [C49_rejects_refuted] In particular every simplex of d+1 points of dimension d >= 2 is
rejected.

### C50 compat.minimize reports the truth (partial)

Compat.v.

* `C50_errors` (Prop_Compat.v): —
* `C50_status` (Prop_Compat.v): —
* `C50_fun_partial` (Prop_Compat.v): —
* `C50_fun_refuted` (Prop_Compat.v): FE SF SN
* `C50_hess_inv` (Prop_Compat.v): FE SF SN
* `C50_not_worse` (Prop_Compat.v): CL FE SF SN

Note: [C50_fun_partial] Full claim: [or_fun r = fn (or_x r)] and [or_jac r] is the gradient there,
for every run; false when no step was made ([C50_fun_refuted]). What holds: both are right whenever
x0 is finite and "maxiter" is not 0, and then the counts are positive; otherwise no step is made.
[C50_fun_refuted] With maxiter = 0 the reported `fun` is 0 and `jac` is 0 whatever the objective;
here the objective at x is 5 and its gradient (2, 8).

### C51 Implicit differentiation is correct (partial)

Implicit.v with Coquelicot derivatives.

* `C51_root_find` (Prop_Implicit.v): FE SF SN
* `C51_fixed_point` (Prop_Implicit.v): FE SF SN
* `C51_minimise` (Prop_Implicit.v): FE SF SN
* `C51_least_squares` (Prop_Implicit.v): FE SF SN
* `C51_root_find_minimiser_refuted` (Prop_Implicit.v): FE SF SN

Note: [C51_root_find_minimiser_refuted] C51 refuted for root_find with a minimiser: there the
derivative of the norm of fn is rewritten. For fn(y, p) = y - p, whose root is p, the tangent
computed at any other point is the same in every direction, whatever the linear solver does.

### C52 tree_where / tree_clip / tree_allfinite act leafwise (proved)

PyTree.v.

* `C52_where` (Prop_PyTree.v): —
* `C52_where_returns` (Prop_PyTree.v): —
* `C52_where_scalar` (Prop_PyTree.v): —
* `C52_flat` (Prop_PyTree.v): —
* `C52_clip` (Prop_PyTree.v): —
* `C52_allfinite` (Prop_PyTree.v): —
* `C52_full_like` (Prop_PyTree.v): —
* `C52_min_max` (Prop_PyTree.v): —
* `C52_errors` (Prop_TreeErrors.v): —

### C53 Gauss-Newton solves linear least squares in one step (proved)

Minimisers.v and Descent.v over reals, exact least-squares oracle.

* `C53_iteration` (Prop_GaussNewton.v): —
* `C53_linear` (Prop_GaussNewton.v): FE SF SN

### C54 root_find with a minimiser minimises the documented objective (partial)

RootFind.v: a refuting minimiser, and the proof for the two-norm.

* `C54_root_find_minimises_sum_of_squares_refuted` (Prop_Wrappers.v): FE SF SN
* `C54_two_norm_objective_partial` (Prop_Wrappers.v): FE SF SN

Note: [C54_root_find_minimises_sum_of_squares_refuted] The documentation of root_find says that with
a minimiser `sum(fn(y, args)^2)` is minimised. What is minimised is solver.norm of fn(y), by default
the max norm: here is a minimiser that picks the better of two points, and a function for which
root_find returns the point with the larger sum of squares. [C54_two_norm_objective_partial] With
the two-norm the documented statement is right: the two objectives order points in the same way.

### C55 Feasible steps stay feasible in floating point (partial)

Bounds.v in binary64.

* `C55_rounding_refuted` (Prop_Bounds.v): CL FE SF SN

Note: [C55_rounding_refuted] Rounding: the feasible step of 25 from 0 towards the bound 7 ends above
7

### C56 Cauchy point minimises the model along the projected path (partial)

Bounds.v over extended reals.

* `C56_not_minimiser_refuted` (Prop_Bounds.v): FE SF SN
* `C56_search_partial` (Prop_CauchySearch.v): —

Note: [C56_not_minimiser_refuted] One dimension, y = 1/2 in [0,1], gradient 1, Hessian 8: the search
returns 0, where the quadratic model is larger than at y, although the point 3/8 of the path lowers
it. [C56_search_partial] Any arithmetic whose infinity is not finite. Whatever the search of
cauchy_point returns, it found by walking the projected path clip(y - t g) from breakpoint to
breakpoint: on the segment ending at breakpoint t, with d = clip(y - t g) - y, it takes the slope
g.d + p.Hd at the current point p and the curvature d.Hd; it stops at once at the previous
breakpoint if the slope is positive, at - slope / curvature if that is no further than t, and goes
on to t only if the slope is not positive, - slope / curvature exceeds t, and some breakpoint lies
beyond t. Missing from the full claim, and false of this search (C56_not_minimiser_refuted): that
the point is a minimiser of the model along the path.

### C57 Nelder-Mead success and divergence certificate (proved)

NelderMead.v, order and division laws (binary64 included).

* `C57_success_certificate` (Prop_NelderMead.v): —
* `C57_divergence` (Prop_NelderMead.v): —

### C58 Nelder-Mead never returns a point worse than its start (partial)

NelderMead.v, a refuting run.

* `C58_worse_than_start_refuted` (Prop_NelderMead.v): CL FE SF SN

Note: [C58_worse_than_start_refuted] Minimising x from 0 with a budget of two steps returns 1.

### C59 compat.minimize uses the norm it is given (partial)

Compat.v; binary64 for the refuting run.

* `C59_norm_ignored` (Prop_Compat.v): —
* `C59_norm_refuted` (Prop_Compat.v): CL FE SF SN

Note: [C59_norm_refuted] The documented meaning of "norm" fails: with norm = rms_norm, tolerance
1/25 and start (3, 1), a BFGS solve of x^2 + 4 y^2 stops after 8 steps, compat.minimize after 9
(binary64).

### C60 Minimisers and least-squares solvers only succeed after a small step (partial)

Minimisers.v, order and division laws (binary64 included).

* `C60_gradient_descent` (Prop_Certificate.v): —
* `C60_quasi_newton` (Prop_Certificate.v): —
* `C60_gauss_newton_partial` (Prop_Certificate.v): —
* `C60_gauss_newton_refuted` (Prop_Certificate.v): CL FE SF SN

Note: [C60_gauss_newton_partial] Gauss-Newton, Levenberg-Marquardt and dogleg solvers: on success
the last step moved from an iterate y to the returned value with a small change in every component
of y and of the residuals - or the solve stopped after one step at y0, where the residuals are
compared with the zeros they were initialised with (the first step is not exempt, unlike in the
other two families). Any arithmetic whose order and division behave (exact with infinities and NaN;
binary64). [C60_gauss_newton_refuted] The claim fails for Gauss-Newton: with residual y/200, rtol =
atol = 1/100 and y0 = 1 it reports success after one step and returns y0 itself, without having
compared two iterates, although the next Gauss-Newton step would go to 0 (binary64).

### C61 OptaxMinimiser runs the Optax loop (proved)

Optax.v, gradient transformation as an oracle.

* `C61_plain_loop` (Prop_Optax.v): —
* `C61_status` (Prop_Optax.v): —
* `C61_certificate` (Prop_Optax.v): —
* `C61_two_steps` (Prop_Optax.v): FE SF SN

### C62 Search constructors reject bad parameters (partial)

Search.v.

* `C62_armijo` (Prop_Steps.v): FE SF SN
* `C62_armijo_numbers` (Prop_Steps.v): CL FE SF SN
* `C62_nan_refuted` (Prop_Steps.v): CL FE SF SN
* `C62_trust_region` (Prop_Steps.v): FE SF SN

Note: [C62_nan_refuted] NaN parameters slip through the checks: with decrease_factor = NaN the
constructor succeeds, and one rejection makes the step size NaN.

### C63 The damped Newton step is the trust-region step (proved)

Descent.v over reals, exact least-squares oracle.

* `C63_operators` (Prop_DampedOp.v): FE SF SN
* `C63_step` (Prop_Steps.v): FE SF SN
* `C63_longer` (Prop_Steps.v): FE SF SN
* `C63_hessian` (Prop_Steps.v): FE SF SN
* `C63_run` (Prop_Steps.v): FE SF SN

### C64 Failed linear solves are reported (proved)

Minimisers.v in every arithmetic.

* `C64_gauss_newton` (Prop_Steps.v): —
* `C64_levenberg_marquardt` (Prop_Steps.v): —
* `C64_dogleg` (Prop_Steps.v): —
* `C64_indirect_levenberg_marquardt` (Prop_Steps.v): —
* `C64_quasi_newton` (Prop_Steps.v): —
* `C64_gradient_methods` (Prop_Steps.v): —
* `C64_solve` (Prop_Steps.v): —

### C65 Gradient descent descends and terminates (proved)

Minimisers.v and Solvers.v over reals, descent lemma.

* `C65_iteration` (Prop_Steps.v): —
* `C65_descends` (Prop_Steps.v): FE SF SN
* `C65_terminates` (Prop_Steps.v): FE SF SN

### C66 The two points of the dogleg path (proved)

Descent.v over reals.

* `C66_least_squares` (Prop_Steps.v): FE SF SN
* `C66_hessian` (Prop_Steps.v): FE SF SN

### C67 Quasi-Newton operators on pytrees are their matrices (proved)

TreeOp.v (blocks of a pytree operator) against QuasiNewton.v (matrices); identity and outer product in every arithmetic, the rest over reals.

* `C67_block_errors` (Prop_TreeErrors.v): —
* `C67_outer` (Prop_TreeOp.v): —
* `C67_identity` (Prop_TreeOp.v): —
* `C67_mv` (Prop_TreeOp.v): FE SF SN
* `C67_quasi_newton` (Prop_TreeOp.v): FE SF SN
* `C67_identity_mv` (Prop_TreeOp.v): FE SF SN
* `C67_secant` (Prop_TreeOp.v): FE SF SN

### C68 Nonlinear CG follows the conjugate-gradient recursion (proved)

Descent.v and Minimisers.v, every arithmetic.

* `C68_recursion` (Prop_CG.v): —

### C69 The indirect Levenberg-Marquardt step has the requested length (proved)

Descent.v over reals, exact least-squares oracle.

* `C69_length` (Prop_Steps.v): FE SF SN

### C70 Newton and Chord converge near a root (proved)

NewtonChord.v over extended reals, exact linear-solve oracle, maximum norm.

* `C70_local_convergence` (Prop_NewtonChord.v): FE SF SN

### C71 Levenberg-Marquardt converges globally on smooth problems (proved)

Levenberg-Marquardt converges globally on smooth least-squares problems. Minimisers.v (Gauss-Newton loop), Descent.v, Search.v over exact reals, exact least-squares oracle.

* `C71_radius` (Prop_Convergence.v): FE SF SN
* `C71_gradient` (Prop_Convergence.v): FE SF SN
* `C71_terminates` (Prop_Convergence.v): FE SF SN

### C72 Steepest descent with Armijo backtracking converges on smooth problems (proved)

Minimisers.v (gradient-descent loop), Search.v over exact reals.

* `C72_backtracking` (Prop_Convergence.v): FE SF SN
* `C72_gradient` (Prop_Convergence.v): FE SF SN
* `C72_terminates` (Prop_Convergence.v): FE SF SN

### C73 Nelder-Mead makes the textbook moves and counts them (partial)

NelderMead.v; order laws for the comparisons, binary64 for the refuted count.

* `C73_order` (Prop_NelderMeadMoves.v): FE SF SN
* `C73_move` (Prop_NelderMeadMoves.v): FE SF SN
* `C73_counters_partial` (Prop_NelderMeadMoves.v): FE SF SN
* `C73_outer_counts_reflections_partial` (Prop_NelderMeadMoves.v): FE SF SN
* `C73_outer_count_refuted` (Prop_NelderMeadMoves.v): CL FE SF SN

Note: [C73_counters_partial] The counters, exact arithmetic: none has been counted after the first
step; from then on each step counts an expansion when fr < best, a reflection when best < fr <
second worst, an inner contraction when worst < fr, and, under the name of outer contractions, the
steps with best <= fr <= second worst. [C73_outer_counts_reflections_partial] So, under the name of
outer contractions, the solver counts exactly the plain reflections and never an outer contraction.
[C73_outer_count_refuted] An outer contraction is counted nowhere and a reflection is counted as an
outer contraction.

### C74 Exactly the unsuitable combinations of search, descent and loop are rejected (proved)

Search.v, Descent.v, Minimisers.v over any arithmetic.

* `C74_gradient_loop` (Prop_Combos.v): —
* `C74_quasi_newton_loops` (Prop_Combos.v): —
* `C74_least_squares_loop` (Prop_Combos.v): —
* `C74_named_solvers` (Prop_Combos.v): —

### C75 Forward- and reverse-mode differentiation give the same solve (proved)

Autodiff.v over exact reals; `jax.linearize` and `jax.linear_transpose` are oracles.

* `C75_gradient` (Prop_Autodiff.v): FE SF SN
* `C75_jacobian` (Prop_Autodiff.v): FE SF SN
* `C75_minimisers` (Prop_Autodiff.v): FE SF SN
* `C75_least_squares` (Prop_Autodiff.v): FE SF SN

### C76 The dogleg step in a trust region of any norm (proved)

Descent.v and DoglegRoot.v (the inner root find, on top of Bisection.v) over (extended) reals.

* `C76_radius` (Prop_DoglegRoot.v): CL FE SF SN
* `C76_boundary_raises` (Prop_DoglegRoot.v): FE SF SN

### C77 Dogleg converges globally on smooth, full-rank least-squares problems (proved)

Dogleg converges globally on smooth full-rank least-squares problems. DoglegConv_proofs.v over the model of Descent.v, Search.v, Minimisers.v; exact reals, exact least-squares oracle (in exact reals the 0/0 of C34_nan_refuted is 0, clipped to 1).

* `C77_radius` (Prop_DoglegConv.v): FE SF SN
* `C77_gradient` (Prop_DoglegConv.v): FE SF SN
* `C77_terminates` (Prop_DoglegConv.v): FE SF SN

### C78 The entry points convert dtypes once and reject exactly the malformed problems (proved)

Entry-point conversions and checks. Model Entry.v: functions act on structures (containers, shapes, dtypes), values dropped; the norm and lineax's sum of squares are oracles on structures; weak types not modelled. Spec_Entry.v, Entry_proofs.v.

* `C78_minimise` (Prop_Entry.v): —
* `C78_root_find` (Prop_Entry.v): —
* `C78_least_squares` (Prop_Entry.v): —
* `C78_fixed_point` (Prop_Entry.v): —
* `C78_inexact` (Prop_Entry.v): —
* `C78_idempotent` (Prop_Entry.v): —
* `C78_warning` (Prop_Entry.v): —

### C79 The bracketing solvers reject every non-scalar problem with their documented ValueError (partial)

Scalar checks of GoldenSearch and Bisection, over the same model, for a y that is one array. Refuted for functions returning a container: `f_struct.dtype` raises AttributeError before the check.

* `C79_golden` (Prop_Entry.v): —
* `C79_bisection_partial` (Prop_Entry.v): —
* `C79_tuple_refuted` (Prop_Entry.v): —

Note: [C79_bisection_partial] Through root_find, a function returning one array is accepted by
Bisection exactly when that array, y and both bounds are scalars, and otherwise raises ValueError.
Missing from the full claim: functions returning a container, see C79_tuple_refuted.
[C79_tuple_refuted] The message "Bisection can only be used to find the roots of a function
producing a scalar output" is not what a function returning a tuple gets: `f_struct.dtype` is read
before the check, so an AttributeError is raised instead of that ValueError.

### C80 Gauss-Newton converges locally, quadratically on zero-residual problems (proved)

Local convergence of Gauss-Newton. GaussNewtonConv_proofs.v over Minimisers.v, Descent.v, Search.v; exact reals, exact least-squares oracle; the max norm in the termination test.

* `C80_local_convergence` (Prop_GaussNewtonConv.v): FE SF SN

### C81 verbose prints what it says (partial)

What `verbose` prints. Model Verbose.v (reports as lists of keyword, name, value; jax.debug.print as a recorded call), Spec_Verbose.v, Verbose_proofs.v. Refuted for the pair "on the last accepted step": the loss is that of the point kept before the step, the y that kept after it.

* `C81_default_verbose` (Prop_Verbose.v): —
* `C81_gauss_newton` (Prop_Verbose.v): —
* `C81_quasi_newton` (Prop_Verbose.v): —
* `C81_optax` (Prop_Verbose.v): —
* `C81_last_accepted_refuted` (Prop_Verbose.v): CL FE SF SN

Note: [C81_last_accepted_refuted] So the two quantities "on the last accepted step" do not belong
together. In a Gauss-Newton solve of residual y/2 from y0 = 4, and in a BFGS solve of y^2/2, the
report of step 1 names a last accepted point whose loss is smaller than the loss named (0 instead of
2, and 0 instead of 8; binary64).

### C82 IndirectLevenbergMarquardt converges globally when its inner root find does (proved)

IndirectLevenbergMarquardt converges globally. Spec_IndirectConv.v (what the inner root find must achieve, stated as a property of the oracle for `root_find`), IndirectConv_proofs.v over the model of Descent.v, Search.v, Minimisers.v and the generic run lemmas of DoglegConv_proofs.v; exact reals, exact least-squares oracle. The inner Newton iteration itself stays an oracle.

* `C82_radius` (Prop_IndirectConv.v): FE SF SN
* `C82_gradient` (Prop_IndirectConv.v): FE SF SN
* `C82_terminates` (Prop_IndirectConv.v): FE SF SN

### C83 Linear rates of convergence when the gradient dominates the excess (proved)

Linear rates under gradient domination. Spec_Rates.v, Rates_proofs.v on top of the step-by-step facts of C65, C72 (one-step descent) and the generic trust-region run lemmas of DoglegConv_proofs.v (C71, C77, C82); exact reals.

* `C83_gradient_descent` (Prop_Rates.v): FE SF SN
* `C83_backtracking` (Prop_Rates.v): FE SF SN
* `C83_levenberg_marquardt` (Prop_Rates.v): FE SF SN
* `C83_indirect_levenberg_marquardt` (Prop_Rates.v): FE SF SN
* `C83_dogleg` (Prop_Rates.v): FE SF SN

### C84 BFGS converges globally and linearly on strongly convex problems (proved)

BFGS on smooth strongly convex problems. Spec_BFGSConv.v, LogDet.v (trace and log-determinant of symmetric positive definite matrices through Schur complements, and their change under the BFGS update), BFGSConv_proofs.v (the Byrd-Nocedal argument on abstract sequences, then the link to the runs of the model via C39); exact reals.

* `C84_rate` (Prop_BFGSConv.v): CL FE SF SN
* `C84_converges` (Prop_BFGSConv.v): CL FE SF SN
* `C84_terminates` (Prop_BFGSConv.v): CL FE SF SN

### C85 L-BFGS converges globally and linearly on strongly convex problems, with explicit constants (proved)

L-BFGS on smooth strongly convex problems. Spec_LBFGSConv.v (the constants), LBFGSConv_proofs.v (bounds on the two-loop operator for every history, the backtracking argument on abstract sequences, then the link to the runs of the model via C39); exact reals.

* `C85_rate` (Prop_LBFGSConv.v): FE SF SN
* `C85_converges` (Prop_LBFGSConv.v): FE SF SN
* `C85_terminates` (Prop_LBFGSConv.v): FE SF SN

### C86 Sublinear rates of gradient descent on convex problems (proved)

Gradient descent and Armijo steepest descent on convex problems. Spec_Convex.v, Convex_proofs.v (the distance argument, on top of C65 and C72); exact reals.

* `C86_gradient_descent` (Prop_Convex.v): FE SF SN
* `C86_backtracking` (Prop_Convex.v): FE SF SN

### C87 Bisection in binary64 arithmetic (proved)

Bisection on doubles. F64Facts.v (rounding facts from Flocq), BisectionF64_proofs.v (the midpoint stays inside, the width recursion with rounding, the two tests of terminate in rounded arithmetic); binary64 with round to nearest even.

* `C87_stays_inside` (Prop_BisectionF64.v): CL FE SF SN
* `C87_success` (Prop_BisectionF64.v): CL FE SF SN
* `C87_terminates` (Prop_BisectionF64.v): CL FE SF SN
* `C87_lipschitz` (Prop_BisectionF64.v): CL FE SF SN

### C88 Fixed-point iteration in binary64 arithmetic (proved)

Fixed-point iteration on doubles. F64Facts.v, FixedPointF64_proofs.v (rounding of the damped update, the perturbed contraction argument, the test of terminate in rounded arithmetic); binary64 with round to nearest even.

* `C88_iterates` (Prop_FixedPointF64.v): CL FE SF SN
* `C88_terminates` (Prop_FixedPointF64.v): CL FE SF SN
* `C88_success` (Prop_FixedPointF64.v): CL FE SF SN

### C89 Golden-section search in binary64 arithmetic (partial)

Golden-section search on doubles. GoldenF64_proofs.v: the mirrored point is inside the bracket (rounding to nearest, half-ulp argument) while lower < middle; invariant over the steps; two computed witnesses (vm_compute, then exact values) for the parts that fail.

* `C89_success_near_minimum_refuted` (Prop_GoldenF64.v): CL FE SF SN
* `C89_bracket_partial` (Prop_GoldenF64.v): CL FE SF SN
* `C89_bracket_refuted` (Prop_GoldenF64.v): CL FE SF SN

Note: [C89_success_near_minimum_refuted] The certificate of C20 fails in binary64. The computed
function |x - c| falls up to c, rises after it and is least at c only; the search for its minimum on
[0, 1] reports success; the value returned is more than 18 tolerances away from c, where exact
arithmetic (C20) promises at most phi^2 < 2.62 of them. [C89_bracket_partial] The bracket in
binary64, on [0, upper]. As long as the middle point has not met the lower end, the three points
stay ordered doubles inside [0, upper], the bracket only shrinks, and every point tried lies in it.
If moreover the two inner points have been distinct and the computed function falls strictly up to
the double x and rises strictly after it, x is still in the bracket. Missing from the full claim:
nothing is said once the points meet (false then: C89_bracket_refuted), nor of the distance to x on
success (false: C89_success_near_minimum_refuted). [C89_bracket_refuted] When the two inner points
coincide the step keeps the lower part of the bracket, whichever part holds the minimum: the search
for the minimum of the computed |x - c| on [0, 1] with tolerance 2^-52 reports success with c more
than 6 tolerances above its final bracket.

### C90 Newton and Chord with cauchy_termination=False (partial)

Newton/Chord in the rate-based termination mode: stopping rule in any arithmetic, local convergence over exact (extended) reals, and a binary64 run stuck on the boundary of the box that reports success. NewtonRate_proofs.v.

* `C90_verdict` (Prop_NewtonRate.v): —
* `C90_local_convergence` (Prop_NewtonRate.v): FE SF SN
* `C90_success_near_root_refuted` (Prop_NewtonRate.v): CL FE SF SN

Note: [C90_success_near_root_refuted] With cauchy_termination=False success does not mean that a
root is near. Newton's method in binary64 for x^2 - 2 on the box [-1/2, 3], which contains the root
sqrt 2, started at -1/4: the first step is clipped to the lower bound, the second is clipped to
nothing, and this is taken for convergence. The value returned is -1/2, where the function is below
-1.

### C91 Bisection looks only at signs; golden-section search and Nelder-Mead only at the order of values (proved)

Relational invariants between two runs: equal geometry, function values related by the pair (f x, g x). Invariance_proofs.v; laws of negation for XR and F64.

* `C91_bisection_signs` (Prop_Invariance.v): —
* `C91_golden_order` (Prop_Invariance.v): —
* `C91_nelder_mead_order` (Prop_Invariance.v): —
* `C91_bisection_expand_needs_order` (Prop_Invariance.v): FE SF SN

### C92 Solvers that perform the same iteration, and affine invariance of Newton and Chord (proved)

Two runs compared step by step. Coincide_proofs.v; the law a + (-1) b = a - b is proved for RN, XR and F64.

* `C92_gauss_newton_is_newton` (Prop_Coincide.v): —
* `C92_chord_first_step` (Prop_Coincide.v): —
* `C92_gradient_descent_is_sgd` (Prop_Coincide.v): —
* `C92_newton_affine` (Prop_Coincide.v): FE SF SN

### C93 Newton converges monotonically from anywhere on convex inverse-positive systems (proved)

Componentwise comparison with the tangent planes, telescoping of the steps and a pigeonhole for the rate. NewtonMono_proofs.v.

* `C93_monotone_convergence` (Prop_NewtonMono.v): CL FE SF SN

### C94 Splitting the state into arrays and static parts loses nothing (proved)

Tree induction and a simulation between the loop carrying arrays and the loop carrying whole states. StaticState.v, StaticState_proofs.v.

* `C94_split_loop` (Prop_StaticState.v): —
* `C94_partition_combine` (Prop_StaticState.v): —
* `C94_wrap_jaxpr` (Prop_StaticState.v): —
* `C94_filter_cond` (Prop_StaticState.v): —

### C95 Newton and Chord in binary64 arithmetic (proved)

Perturbed contraction of the error with Flocq's rounding bounds; the termination test read back through its rounded ratio. NewtonF64_proofs.v.

* `C95_iterates` (Prop_NewtonF64.v): CL FE SF SN
* `C95_terminates` (Prop_NewtonF64.v): CL FE SF SN
* `C95_success` (Prop_NewtonF64.v): CL FE SF SN

### C96 Success certifies near-stationarity and near-optimality (proved)

The stopping rule read back over the reals at the last accepted step, with C65 (GradientDescent), C72 (backtracking) and C71 (trust-region radius). Success_proofs.v; Dogleg and IndirectLevenbergMarquardt, from the predicted decrease of C77 and C82: SuccessTrust_proofs.v.

* `C96_gradient_descent` (Prop_Success.v): FE SF SN
* `C96_gradient_descent_optimum` (Prop_Success.v): FE SF SN
* `C96_backtracking` (Prop_Success.v): FE SF SN
* `C96_backtracking_optimum` (Prop_Success.v): FE SF SN
* `C96_levenberg_marquardt` (Prop_Success.v): FE SF SN
* `C96_levenberg_marquardt_optimum` (Prop_Success.v): FE SF SN
* `C96_dogleg` (Prop_SuccessTrust.v): FE SF SN
* `C96_indirect_levenberg_marquardt` (Prop_SuccessTrust.v): FE SF SN

### C97 NelderMead starts from a point or from a simplex (partial)

Structural tracing model (shapes, dtypes, containers) of NelderMead.init/step under minimise; with y0_simplex the closure-converted function is called at the structure of a vertex, which differs from that of the simplex it was converted at, so every call raises. SimplexEntry_proofs.v.

* `C97_single_start` (Prop_SimplexEntry.v): —
* `C97_user_simplex_refuted` (Prop_SimplexEntry.v): —
* `C97_accepted_simplex_refuted` (Prop_SimplexEntry.v): —

Note: The half about a single starting point is proved (an equivalence). The half about y0_simplex
is false for every input: C97_user_simplex_refuted. It rests on the check made by
eqx.filter_closure_convert, modelled as closure_convert. [C97_user_simplex_refuted] The full claim,
that with options["y0_simplex"]=True a simplex accepted by NelderMead.init is searched, is false:
whatever the function and y0, minimise raises. The function is traced at the structure of y0, a
whole simplex, and then called at the structure of one vertex. [C97_accepted_simplex_refuted] Even
for the simplices that NelderMead.init accepts: two points on the real line, given to minimise with
a function that takes arrays of any shape to a number. The initial check passes and the call still
raises ValueError.

### C98 Backpropagating through the iterates agrees with implicit differentiation in the limit (proved)

Unroll.v: pullback of the loop's body at the iterates, last to first. Chain rule for jacobian2_at by induction on the number of steps; the tangents satisfy T' = A(y_k) T + B(y_k) t_p, compared with the fixed point's tangent v = A(z) v + B(z) t_p. Unroll_proofs.v.

* `C98_derivative` (Prop_Unroll.v): FE SF SN
* `C98_implicit` (Prop_Unroll.v): FE SF SN
* `C98_limit` (Prop_Unroll.v): FE SF SN

### C99 A batched solve is its lanes solved one by one (proved)

Batch.v: JAX's batching rule for loops written out (any lane goes on; part-by-part select); solution lane by lane. Both loops advance in lockstep while fuel lasts: induction on fuel, then init/finish lanewise. Batch_proofs.v.

* `C99_lanes` (Prop_Batch.v): —
* `C99_failures` (Prop_Batch.v): —

### C100 Gradient descent and Gauss-Newton in double precision (proved)

Binary64 walk y' = fl(y + d(y)): distance to x shrinks by q up to the rounding of one addition (and, for rate*g, one product; -1*p is exact); tests passed / passing bounded through fl division. GradientDescent via C65's iteration, GaussNewton via gn_proposal. DescentF64_proofs.v.

* `C100_gradient_descent` (Prop_DescentF64.v): CL FE SF SN
* `C100_gradient_descent_success` (Prop_DescentF64.v): CL FE SF SN
* `C100_gradient_descent_terminates` (Prop_DescentF64.v): CL FE SF SN
* `C100_gauss_newton` (Prop_DescentF64.v): CL FE SF SN
* `C100_gauss_newton_success` (Prop_DescentF64.v): CL FE SF SN
* `C100_gauss_newton_terminates` (Prop_DescentF64.v): CL FE SF SN

### C101 Levenberg-Marquardt converges locally and, where the gradient dominates, globally, superlinearly on zero-residual problems (proved)

The damped minimiser contracts the distance: (sigma + lam) e' <= (lam + b gamma e) e; actual against predicted reduction differ by gamma-terms below 1% of it, so every step is accepted and 'good'; radius = (7/2)^k by induction, then limits of powers. LMLocal_proofs.v (lm_good for the radius update). Global part: C83's rate puts an iterate within rho, C71 keeps the step size above eps, and the local theorem is stated from any index of any run (C101_entering).

* `C101_entering` (Prop_LMLocal.v): FE SF SN
* `C101_superlinear` (Prop_LMLocal.v): FE SF SN
* `C101_terminates` (Prop_LMLocal.v): FE SF SN
* `C101_global` (Prop_LMLocal.v): FE SF SN

### C102 Near a zero-residual point Dogleg and IndirectLevenbergMarquardt are Gauss-Newton and converge quadratically (proved)

Same one-step estimates as C101 with damping 0 (newton_orth); Cauchy step <= Newton step (Cauchy-Schwarz twice), so a radius >= 1 means the Newton step in both descents; induction, C53's iteration for the equality of iterates. TrustLocal_proofs.v.

* `C102_dogleg` (Prop_TrustLocal.v): FE SF SN
* `C102_indirect_levenberg_marquardt` (Prop_TrustLocal.v): FE SF SN
* `C102_dogleg_terminates` (Prop_TrustLocal.v): FE SF SN
* `C102_indirect_terminates` (Prop_TrustLocal.v): FE SF SN

### C103 IndirectLevenbergMarquardt and Dogleg converge to a zero of the residuals from every start, in the end quadratically (proved)

Near the zero any damped step (damping >= 0) reduces the squares by at least 99% of the prediction, so the radius grows 7/2-fold per step while the error does not grow, until the Newton step fits the radius; C83's rates bring the run there. For Dogleg the steepest-descent leg is handled by the slope of the model along the Cauchy direction. TrustGlobal_proofs.v.

* `C103_entering` (Prop_TrustGlobal.v): FE SF SN
* `C103_global` (Prop_TrustGlobal.v): FE SF SN
* `C103_dogleg_entering` (Prop_TrustGlobal.v): CL FE SF SN
* `C103_dogleg_global` (Prop_TrustGlobal.v): CL FE SF SN

### C104 The least-squares solvers stand still only at stationary points (partial)

A zero damped step makes the normal equations say J^T r = 0; for Dogleg go through its four branches (the slope along the path is a sum of two nonpositive terms). The binary64 counterexample is run. Stall_proofs.v.

* `C104_levenberg_marquardt` (Prop_Stall.v): FE SF SN
* `C104_indirect_levenberg_marquardt` (Prop_Stall.v): FE SF SN
* `C104_dogleg` (Prop_Stall.v): FE SF SN
* `C104_gauss_newton` (Prop_Stall.v): FE SF SN
* `C104_dogleg_refuted` (Prop_Stall.v): CL FE SF SN

Note: Proved for GaussNewton, LevenbergMarquardt and IndirectLevenbergMarquardt. False for Dogleg:
C104_dogleg_refuted runs a binary64 solve that reports success at its start with gradient 2^52.
C104_dogleg is what holds: a zero gradient, or a step size below 1 and a Cauchy step of length at
most eps. [C104_dogleg_refuted] Without the cutoff's exception the claim fails for Dogleg, already
in binary64 with its own eps: with the residual 1 + 2^52 y + (2^55 y)^3 and tolerances 10^-30 it
reports success after three steps, returning the start y0 = 0 with residual 1, gradient 2^52 and
both tests met by a step of length zero, although at -2^-55 the residual is -1/8.

### C105 Solves do not depend on the coordinates of the unknowns (proved)

Run the two solves in lockstep with a relation between their states: every vector is turned, every number equal. Descents, searches, Hessian updates and the L-BFGS history preserve it because they use only sums, scalings and inner products. Isometry_proofs.v.

* `C105_gradient` (Prop_Isometry.v): FE SF SN
* `C105_quasi_newton` (Prop_Isometry.v): FE SF SN
* `C105_lbfgs` (Prop_Isometry.v): FE SF SN
* `C105_least_squares` (Prop_Isometry.v): FE SF SN
* `C105_methods` (Prop_Isometry.v): FE SF SN
* `C105_renaming` (Prop_Isometry.v): FE SF SN
* `C105_rotation` (Prop_Isometry.v): FE SF SN
* `C105_solver` (Prop_Isometry.v): FE SF SN
* `C105_max_norm` (Prop_Isometry.v): FE SF SN

Note: Real-number model. C105_gradient, C105_quasi_newton, C105_lbfgs and C105_least_squares take
any isometry; C105_renaming and C105_rotation say for which norms and tolerances the stopping test
qualifies; C105_max_norm is the solve that changes under a rotation; C105_solver covers the linear
solver.

### C106 BFGS converges superlinearly, and its curvature threshold ends that (proved)

Choose coordinates in which the Hessian at the minimiser is the identity (a Gram-Schmidt frame). There trace minus log-determinant of the BFGS matrix is a nonnegative potential: each accepted step changes it by at most a summable term (linear rate of C84) minus a nonnegative quantity that vanishes only if B acts on the step like the Hessian. So that quantity tends to 0 (Dennis-More), the full step passes the Armijo test, and the error ratio tends to 0. Frame.v, BFGSSuper_proofs.v.

* `C106_superlinear` (Prop_BFGSSuper.v): CL FE SF SN
* `C106_frozen` (Prop_BFGSSuper.v): CL FE SF SN
* `C106_threshold` (Prop_BFGSSuper.v): FE SF SN

Note: Real-number model. C106_superlinear is for eps = 0; C106_frozen and C106_threshold say what
the positive threshold of the code does instead. The Armijo search is the one BFGS uses (slope 1/10,
factor 1/2).

### C107 Newton and Chord converge from conditions checkable at the start (proved)

Kantorovich's induction: from a bound beta_k on the inverse Jacobian and eta_k on the step, beta_(k+1) = beta_k/(1-h_k) and eta_(k+1) = h_k eta_k/(2(1-h_k)) with h_k = beta_k L eta_k <= 1/2, so the steps halve and stay in the ball; completeness of R^n gives the limit, a bound on the Jacobians makes it a root, and another root is squeezed by the same recursion. Chord: the scalar sequence t_(k+1) = eta + beta L/2 t_k^2 majorises the iterates. Kanto_proofs.v.

* `C107_kantorovich` (Prop_Kanto.v): FE SF SN
* `C107_chord` (Prop_Kanto.v): FE SF SN

Note: Extended-real model; C107_kantorovich for Newton, C107_chord for Chord. The linear solver is
only assumed to solve systems with an injective matrix.

### C108 Nelder-Mead finds the minimum of strongly convex functions (partial)

False. McKinnon's counterexample, scaled to the initial simplex of the code: with l1, l2 the roots of x^2 = x/4 + 1/2 the vertices are (l1^n, l2^n); the function is a quadratic with a kink in its second derivative plus a strongly convex term; every step is an inside contraction with the best vertex (0, 0) fixed. The stale worst vertex the code keeps (C47) does not matter there. NMConvex_proofs.v.

* `C108_strongly_convex_refuted` (Prop_NMConvex.v): FE SF SN

Note: False: C108_strongly_convex_refuted. For all tolerances and every B there is a strongly
convex, smooth function on which the solve from (0, 0) succeeds, returning (0, 0), B above another
value. [C108_strongly_convex_refuted] Nelder-Mead is not a convergent method, even on functions that
are strongly convex and smooth, the class on which gradient descent and BFGS converge globally and
linearly (C83, C84). For every choice of tolerances, of the size of the initial simplex and of a
bound B there is such a function of two unknowns on which the solve started from (0, 0) stops with
success and returns (0, 0), although the function has a value smaller by B elsewhere.

### C109 Nonlinear CG with Armijo backtracking converges globally and linearly on strongly convex problems (proved)

Abstract sequence of accepted and rejected Armijo trials along Polak-Ribiere directions; the potential (f - min f)^p * max(|d|^2/|g|^2, 8) falls by 2/3 every two accepted steps; then the run of the solver is such a sequence.

* `C109_rate` (Prop_CGConv.v): FE SF SN
* `C109_converges` (Prop_CGConv.v): FE SF SN
* `C109_terminates` (Prop_CGConv.v): FE SF SN

Note: Global linear convergence of NonlinearCG(polak_ribiere, BacktrackingArmijo) on smooth strongly
convex functions, one rate for all dimensions and starts; termination with success.

### C110 Newton and Chord with an approximate linear solver (proved)

The inexact-Newton recursion |F+| <= (eta + kappa beta (1+eta)) |F| kept on a ball by the geometric sum of the steps; completeness gives the root; the solve succeeds by the run lemma of C107.

* `C110_inexact` (Prop_Inexact.v): FE SF SN

Note: Inexact Newton and Chord: semilocal convergence with a linear solver of relative accuracy eta,
linear rate, quadratic under quadratic accuracy, success within K + 1 steps.

### C111 Any gradient-related descent converges with BacktrackingArmijo or LinearTrustRegion (proved)

Abstract sequence of accepted and rejected trials with a step size bounded below; descent lemma per accepted step and a bound on consecutive rejections; then the run of the solver is such a sequence for both searches.

* `C111_complexity` (Prop_Related.v): FE SF SN
* `C111_rate` (Prop_Related.v): FE SF SN
* `C111_terminates` (Prop_Related.v): FE SF SN

Note: Complexity, Polyak-Lojasiewicz rate and termination for every gradient-related descent with
BacktrackingArmijo or LinearTrustRegion.

### C112 Looser tolerances never make a solve take longer (proved)

Simulation between the two runs: the states agree up to the recorded test; binary64 addition, multiplication, division and the three norms are monotone, so the tight test implies the loose one; the run theorem of the driver then gives both solves.

* `C112_looser` (Prop_Tolerance.v): CL FE SF SN
* `C112_newton_counterexample` (Prop_Tolerance.v): CL FE SF SN

Note: Proved for every solver in binary64; the named exception (cauchy_termination=False) is shown
by a concrete double-precision solve.

### C113 Newton and Chord with bounds around the root (proved)

Clipping onto a box containing the root does not increase the max-norm distance, so the local convergence proof carries over with the conditions restricted to the box; the arctangent run is followed by induction with bounds on atan 10.

* `C113_local_convergence` (Prop_BoxNewton.v): FE SF SN
* `C113_bounds_do_not_globalise` (Prop_BoxNewton.v): CL FE SF SN

Note: Local convergence with bounds and the global counterexample, on the extended reals.

### C114 Damping makes fixed-point iteration converge for nonexpansive maps (proved)

The identity |(1-l)u + l v|^2 = (1-l)|u|^2 + l|v|^2 - l(1-l)|u-v|^2 gives Fejer monotonicity and summable residuals; Bolzano-Weierstrass gives a limit point, which is a fixed point and attracts the whole sequence.

* `C114_converges` (Prop_Nonexpansive.v): CL FE SF SN
* `C114_terminates` (Prop_Nonexpansive.v): FE SF SN
* `C114_undamped_cycles` (Prop_Nonexpansive.v): FE SF SN

Note: Real-number behaviour on the extended-real model; the default damp = 0 is the counterexample.

### C115 Gauss-Newton with an approximate linear solver (proved)

Split the error of a step into linearisation error and what the solver leaves, both measured through J^T; then as in the exact case.

* `C115_inexact_gauss_newton` (Prop_InexactGN.v): FE SF SN

Note: Real-number model; first step and termination included.

### C116 How often a solve evaluates the user's function (proved)

Two runs with functions that agree on the points the first one asks for are equal step by step; the list of points grows by at most `each` per step.

* `C116_evaluations` (Prop_Queries.v): —
* `C116_gradients` (Prop_Queries.v): —

Note: Any number system. The count is over distinct points the result can depend on, in the model;
how often XLA evaluates the traced function is outside it. Bisection with expansion of the bracket
in init is not covered; Optax only for transformations ignoring value_fn.

### C117 Adding a constant to the objective (proved)

Two runs in lockstep: states equal up to the constant in the stored value; all uses of the value are differences, except the relative tolerance. The failures are evaluated.

* `C117_shift` (Prop_Shift.v): FE SF SN
* `C117_relative_tolerance` (Prop_Shift.v): CL FE SF SN
* `C117_rounding` (Prop_Shift.v): CL FE SF SN

Note: Exact arithmetic for the positive part; the negative parts are binary64 runs.

### C118 Splitting a solve into shorter ones (proved)

The steps of these solvers ignore the state, or the state after a restart equals the state when interrupted; so the two runs join and the stopping index is shifted.

* `C118_resume` (Prop_Resume.v): —
* `C118_chord` (Prop_Resume.v): CL FE SF SN
* `C118_gradient_descent` (Prop_Resume.v): —
* `C118_single_step` (Prop_Resume.v): —

Note: Any number system. Chord and single steps are the negative parts.

### C119 Which point the auxiliary output belongs to (proved)

The aux of step k+1 is that of iterate k (C43 for the gradient-based loops), and iterate k is what a budget of k steps returns.

* `C119_aux` (Prop_Aux.v): —
* `C119_golden` (Prop_Aux.v): —
* `C119_nelder_mead` (Prop_Aux.v): —
* `C119_not_at_value` (Prop_Aux.v): CL FE SF SN
* `C119_placeholder` (Prop_Aux.v): CL FE SF SN

Note: Any number system. That aux does not belong to the returned value is part of the claim.

### C120 A larger budget never gives a worse answer (proved)

Both solves follow the same run and the larger budget stops no earlier; then the objectives along accepted points decrease (C27, C32) or the best of a longer prefix is taken (C09). The failures are evaluated.

* `C120_backtracking` (Prop_Budget.v): CL FE SF SN
* `C120_least_squares` (Prop_Budget.v): FE SF SN
* `C120_best_so_far` (Prop_Budget.v): CL FE SF SN
* `C120_fixed_rate_worse` (Prop_Budget.v): CL FE SF SN
* `C120_nelder_mead_worse` (Prop_Budget.v): CL FE SF SN

Note: Binary64 and extended reals for Armijo backtracking and BestSoFar; exact reals for the
least-squares trust-region methods. The two failures are part of the claim.

### C121 The root find inside IndirectLevenbergMarquardt (proved)

The length of the damped step is a decreasing convex function of the damping with two-sided bounds on its logarithmic slope, so Newton from the left of the root never overshoots and multiplies lambda + sigma by 4/3 while the length is more than 3/2 of the request; the termination test forces 1/3 relative change at most. The failures are one-variable problems where the iteration is explicit.

* `C121_finds_damping` (Prop_Inner.v): FE SF SN
* `C121_too_short` (Prop_Inner.v): CL FE SF SN
* `C121_too_long` (Prop_Inner.v): CL FE SF SN
* `C121_stops_early` (Prop_Inner.v): CL FE SF SN
* `C121_terminates` (Prop_Inner.v): FE SF SN

Note: Exact arithmetic; the derivative of the comparison function and the scalar division are exact
oracles. The three failures are part of the claim.

### C122 Units of the residuals and of the unknowns (proved)

Lockstep of the two runs: both sides of every comparison in the searches are multiplied by c^2 > 0, the Newton step is the solver's by assumption, the Cauchy point is unchanged because its factor |g|^2/|Jg|^2 scales with c^-2 and the gradient with c^2. Exact least-squares and least-norm solvers are constructed for every dimension (column elimination).

* `C122_gauss_newton` (Prop_Units.v): FE SF SN
* `C122_dogleg` (Prop_Units.v): FE SF SN
* `C122_least_squares` (Prop_Units.v): FE SF SN
* `C122_minimum_norm` (Prop_Units.v): FE SF SN
* `C122_levenberg_marquardt` (Prop_Units.v): FE SF SN
* `C122_dogleg_guard` (Prop_Units.v): FE SF SN

Note: Exact arithmetic. The trajectories are compared, not the stopping test, whose atol is an
absolute quantity. The dependence of Levenberg-Marquardt and of the dogleg threshold on the units is
part of the claim.

### C123 Whole solves in other units, tolerances included (proved)

One lockstep lemma for iterative_solve: a relation between the states of the two solvers that is kept by every step and implies the same stopping decision and status. Per solver, multiplication by a positive unit commutes with +, -, scaling, abs, max, min, comparisons and division on the extended reals.

* `C123_fixed_point` (Prop_Dimension.v): FE SF SN
* `C123_newton` (Prop_Dimension.v): FE SF SN
* `C123_bisection` (Prop_Dimension.v): FE SF SN
* `C123_golden` (Prop_Dimension.v): FE SF SN
* `C123_nelder_mead` (Prop_Dimension.v): FE SF SN
* `C123_gradient_descent` (Prop_Dimension.v): FE SF SN
* `C123_backtracking` (Prop_Dimension.v): FE SF SN
* `C123_tolerance_matters` (Prop_Dimension.v): FE SF SN

Note: Extended reals (infinities and NaN, no rounding). Per-component units for fixed-point
iteration and Newton/chord, one unit for all unknowns for Nelder-Mead and gradient descent. atol is
one number for unknowns and residuals in the code, so it can only be converted if it is 0 or all
units agree (for Newton without Cauchy test: the units of the unknowns). Trust regions start with
step size 1, which has a unit, and are not covered.

### C124 Independent problems in one solve (proved)

A relation "the joint state is the concatenation of the two" kept by every step; max over a concatenation is the maximum of the two maxima (in each number system, NaN included), so the joint stopping test is the conjunction.

* `C124_fixed_point` (Prop_Together.v): CL FE SF SN
* `C124_fixed_point_solve` (Prop_Together.v): CL FE SF SN
* `C124_newton` (Prop_Together.v): CL FE SF SN
* `C124_newton_solve` (Prop_Together.v): CL FE SF SN
* `C124_gradient_descent` (Prop_Together.v): —
* `C124_rms_norm_stops_early` (Prop_Together.v): CL FE SF SN

Note: Newton and chord: linear solves are assumed to act blockwise on a block-diagonal operator. For
gradient descent only the iterates are compared (its stopping test compares function values, which
add up).

### C125 Gradient descent converges to a minimiser (proved)

Potential dist2(y_k, z) + c (f(y_k) - min) is non-increasing for every minimiser z and every accepted step; values tend to the minimum; Bolzano-Weierstrass gives a cluster point, convexity makes it a minimiser, and the potential for that minimiser forces the whole sequence there.

* `C125_gradient_descent` (Prop_Limit.v): CL FE SF SN
* `C125_backtracking` (Prop_Limit.v): CL FE SF SN
* `C125_rate_two_over_L` (Prop_Limit.v): FE SF SN

Note: Exact real arithmetic; gradients are those of the function. Statements are about the sequence
of iterates, before the stopping test ends the solve.

### C126 Finite paths without convexity (proved)

Each accepted step is no longer than c (sqrt(f_k - low) - sqrt(f_{k+1} - low)), so path lengths telescope; a cluster point exists by Bolzano-Weierstrass and the bound on later iterates makes it the limit; values there by smoothness and C83.

* `C126_gradient_descent` (Prop_Path.v): CL FE SF SN
* `C126_backtracking` (Prop_Path.v): CL FE SF SN
* `C126_gradient_related` (Prop_Path.v): CL FE SF SN
* `C126_answer` (Prop_Path.v): CL FE SF SN

Note: Exact real arithmetic; gradients are those of the function. Statements are about the sequence
of iterates, before the stopping test ends the solve. The example is a non-convex function.

### C127 Levenberg-Marquardt solves underdetermined problems (proved)

The damped normal equations give slope >= sqrt(sigma) |d| |r| along each step, so each accepted step is no longer than a constant times the fall of |r|; then the path argument of C126 with the values of C83. Termination: residuals and moves are eventually below atol, and an accepted step comes by the count of C71.

* `C127_levenberg_marquardt` (Prop_LMPath.v): CL FE SF SN
* `C127_terminates` (Prop_LMPath.v): CL FE SF SN

Note: Exact real arithmetic and exact least-squares solves; the Jacobian is related to the residuals
through smoothness of 1/2 |r|^2. The example has one residual and two unknowns.

## 7. Defects found

Claims of the code, its documentation or its error messages that are false of the model
(each with a machine-checked witness):

* `C04_success_finite_refuted`: C04 itself fails: a solver that follows the documented interface can be reported successful while the returned value is infinite, because the finiteness check looks at the point before the last step.
* `C11_golden_refuted`: BestSoFarMinimiser(GoldenSearch) reports success and returns y0 although a later iterate has a smaller loss (binary64 witness just defined).
* `C11_nelder_mead_refuted`: BestSoFarMinimiser(NelderMead) returns y0 for every function that is nowhere negative, whatever the solve did: NelderMead's first step hands back an aux of zeros, which BestSoFar books as loss 0 of y0.
* `C18_stays_inside_refuted`: C18 fails in general: see the comment on the common witness.
* `C19_golden_ratio_kept_refuted`: C19 fails in general: the interval kept after one step is more than ten times as long as the one given.
* `C20_unimodal_refuted`: C20 fails in general: the value returned after one step is more than ten interval lengths away from the minimiser.
* `C30_zero_constant_refuted`: The constructor accepts low_constant = 0 (its check is `< 0` although the message says the constant must be greater than 0): then one rejection makes the radius zero for ever.
* `C34_nan_refuted`: The claim fails in binary64, and the step is NaN, (1) at a solution (residual 0, so newton = cauchy = 0) once the radius factor is below 1; (2) with cauchy = 1, newton = 4 and step_size 1/2, where the constant term of the quadratic is exactly 0.
* `C36_conjugacy_refuted`: So the Hestenes-Stiefel direction is not conjugate to the gradient change: (-g + beta d) . (g - g_prev) <> 0 although d . (g - g_prev) is far from 0. The same inputs give a Dai-Yuan beta of the wrong sign.
* `C45_termination_refuted`: In the unit square from (1/2, 1/2) with gradient (1, 0) and Hessian I/8 the search never ends: the second coordinate's intercept is inf, which always counts as "more to try".
* `C45_nan_refuted`: Same with gradient (0, 1): the second pass picks the infinite intercept and the point returned contains NaN.
* `C46_array_refuted`: A single array of d >= 3 entries, any y0, adelta, rdelta: some non-zero functional is constant on the initial simplex, so it does not span; and every iterate, for every function, stays in that hyperplane through y0.
* `C46_collapse_refuted`: Started at the scalar -adelta/rdelta the two vertices coincide: whatever the function, the first termination test after one step reports success at the starting point (exact arithmetic).
* `C47_stale_refuted`: The stored best vertex is a vertex no longer in the simplex and its value is not the stored best value; it is also the iterate returned.
* `C47_increase_refuted`: A shrink makes the best value go up.
* `C49_rejects_refuted`: In particular every simplex of d+1 points of dimension d >= 2 is rejected.
* `C50_fun_refuted`: With maxiter = 0 the reported `fun` is 0 and `jac` is 0 whatever the objective; here the objective at x is 5 and its gradient (2, 8).
* `C51_root_find_minimiser_refuted`: C51 refuted for root_find with a minimiser: there the derivative of the norm of fn is rewritten. For fn(y, p) = y - p, whose root is p, the tangent computed at any other point is the same in every direction, whatever the linear solver does.
* `C54_root_find_minimises_sum_of_squares_refuted`: The documentation of root_find says that with a minimiser `sum(fn(y, args)^2)` is minimised. What is minimised is solver.norm of fn(y), by default the max norm: here is a minimiser that picks the better of two points, and a function for which root_find returns the point with the larger sum of squares.
* `C55_rounding_refuted`: Rounding: the feasible step of 25 from 0 towards the bound 7 ends above 7
* `C56_not_minimiser_refuted`: One dimension, y = 1/2 in [0,1], gradient 1, Hessian 8: the search returns 0, where the quadratic model is larger than at y, although the point 3/8 of the path lowers it.
* `C58_worse_than_start_refuted`: Minimising x from 0 with a budget of two steps returns 1.
* `C59_norm_refuted`: The documented meaning of "norm" fails: with norm = rms_norm, tolerance 1/25 and start (3, 1), a BFGS solve of x^2 + 4 y^2 stops after 8 steps, compat.minimize after 9 (binary64).
* `C60_gauss_newton_refuted`: The claim fails for Gauss-Newton: with residual y/200, rtol = atol = 1/100 and y0 = 1 it reports success after one step and returns y0 itself, without having compared two iterates, although the next Gauss-Newton step would go to 0 (binary64).
* `C62_nan_refuted`: NaN parameters slip through the checks: with decrease_factor = NaN the constructor succeeds, and one rejection makes the step size NaN.
* `C73_outer_count_refuted`: An outer contraction is counted nowhere and a reflection is counted as an outer contraction.
* `C79_tuple_refuted`: The message "Bisection can only be used to find the roots of a function producing a scalar output" is not what a function returning a tuple gets: `f_struct.dtype` is read before the check, so an AttributeError is raised instead of that ValueError.
* `C81_last_accepted_refuted`: So the two quantities "on the last accepted step" do not belong together. In a Gauss-Newton solve of residual y/2 from y0 = 4, and in a BFGS solve of y^2/2, the report of step 1 names a last accepted point whose loss is smaller than the loss named (0 instead of 2, and 0 instead of 8; binary64).
* `C89_success_near_minimum_refuted`: The certificate of C20 fails in binary64. The computed function |x - c| falls up to c, rises after it and is least at c only; the search for its minimum on [0, 1] reports success; the value returned is more than 18 tolerances away from c, where exact arithmetic (C20) promises at most phi^2 < 2.62 of them.
* `C89_bracket_refuted`: When the two inner points coincide the step keeps the lower part of the bracket, whichever part holds the minimum: the search for the minimum of the computed |x - c| on [0, 1] with tolerance 2^-52 reports success with c more than 6 tolerances above its final bracket.
* `C90_success_near_root_refuted`: With cauchy_termination=False success does not mean that a root is near. Newton's method in binary64 for x^2 - 2 on the box [-1/2, 3], which contains the root sqrt 2, started at -1/4: the first step is clipped to the lower bound, the second is clipped to nothing, and this is taken for convergence. The value returned is -1/2, where the function is below -1.
* `C97_user_simplex_refuted`: The full claim, that with options["y0_simplex"]=True a simplex accepted by NelderMead.init is searched, is false: whatever the function and y0, minimise raises. The function is traced at the structure of y0, a whole simplex, and then called at the structure of one vertex.
* `C97_accepted_simplex_refuted`: Even for the simplices that NelderMead.init accepts: two points on the real line, given to minimise with a function that takes arrays of any shape to a number. The initial check passes and the call still raises ValueError.
* `C104_dogleg_refuted`: Without the cutoff's exception the claim fails for Dogleg, already in binary64 with its own eps: with the residual 1 + 2^52 y + (2^55 y)^3 and tolerances 10^-30 it reports success after three steps, returning the start y0 = 0 with residual 1, gradient 2^52 and both tests met by a step of length zero, although at -2^-55 the residual is -1/8.
* `C108_strongly_convex_refuted`: Nelder-Mead is not a convergent method, even on functions that are strongly convex and smooth, the class on which gradient descent and BFGS converge globally and linearly (C83, C84). For every choice of tolerances, of the size of the initial simplex and of a bound B there is such a function of two unknowns on which the solve started from (0, 0) stops with success and returns (0, 0), although the function has a value smaller by B elsewhere.

## 8. Mutation testing

seeded/LOG.jsonl records 791 attempts: a definition of a model was edited as a
programmer might get it wrong, in a scratch copy, and the theorems that no longer prove
were noted.  Where a wrong program still satisfied a theorem whose English claim it
breaks, the theorem was tightened or a new one added.  Hand-written edits rebuild every
file that depends on the edited one; edits marked "automatic" were generated from the
syntax of the definitions (swapped arguments, flipped comparisons, dropped or negated
terms, changed constants, swapped branches), stop at the first lemma that no longer
proves and list the theorems that depend on it.

