(** Property theorems: Certificate.
    Statements only; each is closed by the lemma of the same name (suffix _pf)
    in the proof file.  [Example]s show concrete cases meeting the hypotheses. *)

From Coq Require Import String List Bool Arith Lia ZArith QArith Reals Lra.
From Verif Require Import Num NumFacts NumDiv NumFin NumF64 NumF64_facts Vec VecFacts Spec_Vec Results Iterate
  Spec_Iterate Iterate_proofs Search Spec_Search Descent Minimisers QuasiNewton LBFGS Solvers
  Minimisers_proofs FixedPoint FixedPoint_proofs RootFind Cholesky Spec_Certificate Spec_Examples.
Import ListNotations.
Local Open Scope nat_scope.
From Verif Require Import Certificate_proofs.

(** Gradient descent and nonlinear CG: success is only reported after at least two
    steps, the last of which moved from an iterate y to the returned value with
    a small change in every component of y and in the objective.  Any
    arithmetic whose order and division behave (exact with infinities and NaN;
    binary64). *)
Theorem C60_gradient_descent :
  forall (N : Num) (L : OrdLaws N) (D : DivLaws N) (Aux : Type) (allfinite : list N -> bool)
         (rtol atol : N) (search : Search N) (descent : Descent N) grad_of
         (fn : list N -> N * Aux) y0 fs auxs st0 fuel ms throw sol,
    accepts_first search ->
    let s := gradient_descent_solver (mkTols rtol atol max_norm) search descent grad_of in
    s_init s fn y0 fs auxs = Ret st0 ->
    iterative_solve allfinite s fn fuel ms throw y0 fs auxs = Ret sol ->
    result sol = successful ->
    exists k y, 0 < k /\ y = y_at s fn y0 st0 (auxs fill0) k /\
      hd_error (sol_stats sol) = Some ("num_steps"%string, Some (Z.of_nat (S k))) /\
      value sol = gd_y_eval (st_at s fn y0 st0 (auxs fill0) k) /\
      moved_little rtol atol y (value sol) /\
      moved_little rtol atol [fst (fn y)] [fst (fn (value sol))].
Proof. exact C60_gradient_descent_pf. Qed.
Print Assumptions C60_gradient_descent.

(** Quasi-Newton solvers (BFGS, DFP, L-BFGS): success is only reported after at least two
    steps, the last of which moved from an iterate y to the returned value with
    a small change in every component of y and in the objective.  Any
    arithmetic whose order and division behave (exact with infinities and NaN;
    binary64). *)
Theorem C60_quasi_newton :
  forall (N : Num) (L : OrdLaws N) (D : DivLaws N) (Aux : Type) (allfinite : list N -> bool)
         (rtol atol : N) (search : Search N) (descent : Descent N) grad_of (HSt : Type)
         (init_hessian : list N -> N -> list N -> finfo N * HSt) update_hessian
         (fn : list N -> N * Aux) y0 fs auxs st0 fuel ms throw sol,
    accepts_first search -> keeps_value_and_grad update_hessian ->
    let s := quasi_newton_solver (mkTols rtol atol max_norm) search descent grad_of init_hessian update_hessian in
    s_init s fn y0 fs auxs = Ret st0 ->
    iterative_solve allfinite s fn fuel ms throw y0 fs auxs = Ret sol ->
    result sol = successful ->
    exists k y, 0 < k /\ y = y_at s fn y0 st0 (auxs fill0) k /\
      hd_error (sol_stats sol) = Some ("num_steps"%string, Some (Z.of_nat (S k))) /\
      value sol = qn_y_eval (st_at s fn y0 st0 (auxs fill0) k) /\
      moved_little rtol atol y (value sol) /\
      moved_little rtol atol [fst (fn y)] [fst (fn (value sol))].
Proof. exact C60_quasi_newton_pf. Qed.
Print Assumptions C60_quasi_newton.

(** Gauss-Newton, Levenberg-Marquardt and dogleg solvers: on success the last step
    moved from an iterate y to the returned value with a small change in every
    component of y and of the residuals - or the solve stopped after one
    step at y0, where the residuals are compared with the zeros they were
    initialised with (the first step is not exempt, unlike in the other two
    families).  Any
    arithmetic whose order and division behave (exact with infinities and NaN;
    binary64). *)
Theorem C60_gauss_newton_partial :
  forall (N : Num) (L : OrdLaws N) (D : DivLaws N) (Aux : Type) (allfinite : list N -> bool)
         (rtol atol : N) (search : Search N) (descent : Descent N) jac_of
         (fn : list N -> list N * Aux) y0 fs auxs st0 fuel ms throw sol,
    accepts_first search ->
    let s := gauss_newton_solver (mkTols rtol atol max_norm) search descent jac_of in
    s_init s fn y0 fs auxs = Ret st0 ->
    iterative_solve allfinite s fn fuel ms throw y0 fs auxs = Ret sol ->
    result sol = successful ->
    (hd_error (sol_stats sol) = Some ("num_steps"%string, Some 1%Z) /\ value sol = y0 /\
     moved_little rtol atol (fs fill0) (fst (fn y0))) \/
    exists k y, 0 < k /\ y = y_at s fn y0 st0 (auxs fill0) k /\
      hd_error (sol_stats sol) = Some ("num_steps"%string, Some (Z.of_nat (S k))) /\
      value sol = gn_y_eval (st_at s fn y0 st0 (auxs fill0) k) /\
      moved_little rtol atol y (value sol) /\
      moved_little rtol atol (fst (fn y)) (fst (fn (value sol))).
Proof. exact C60_gauss_newton_partial_pf. Qed.
Print Assumptions C60_gauss_newton_partial.

(** The built-in minimisers never report success with a NaN or an infinity in the
    returned value (binary64; exact with infinities and NaN). *)
Theorem C04_minimisers :
  forall (N : Num), N = F64 \/ N = XR ->
  forall (Aux : Type) (rtol atol : N) grad_of lsolve (eps : N) (fn : list N -> N * Aux) y0 fs auxs
         fuel ms throw (s : Solver (list N) N Aux) sol,
    let P := mkTols rtol atol max_norm in
    ((exists rate, s = GradientDescent P grad_of rate) \/
     (exists method, s = NonlinearCG P grad_of method armijo_default) \/
     (exists ui, s = BFGS P grad_of lsolve eps ui) \/
     (exists ui, s = DFP P grad_of lsolve eps ui) \/
     (exists m ui, s = LBFGS P grad_of lsolve eps m ui)) ->
    iterative_solve vallfinite s fn fuel ms throw y0 fs auxs = Ret sol ->
    result sol = successful -> vallfinite (value sol) = true.
Proof. exact C04_minimisers_pf. Qed.
Print Assumptions C04_minimisers.

(** Nor do the built-in least-squares solvers. *)
Theorem C04_least_squares :
  forall (N : Num), N = F64 \/ N = XR ->
  forall (Aux : Type) (rtol atol : N) jac_of lsolve (eps fmax : N) (fn : list N -> list N * Aux) y0 fs auxs
         fuel ms throw (s : Solver (list N) (list N) Aux) sol,
    let P := mkTols rtol atol max_norm in
    (s = GaussNewton P jac_of lsolve \/
     s = LevenbergMarquardt P jac_of lsolve eps fmax \/
     (exists rfind, s = IndirectLevenbergMarquardt P jac_of lsolve eps fmax rfind) \/
     s = Dogleg P jac_of lsolve eps) ->
    iterative_solve vallfinite s fn fuel ms throw y0 fs auxs = Ret sol ->
    result sol = successful -> vallfinite (value sol) = true.
Proof. exact C04_least_squares_pf. Qed.
Print Assumptions C04_least_squares.

(** A successful value of fixed-point iteration is finite (binary64; exact with
    infinities and NaN). *)
Theorem C04_fixed_point :
  forall (N : Num), N = F64 \/ N = XR ->
  forall (Aux : Type) (rtol atol damp : N) (fn : list N -> list N * Aux) y0 fs auxs fuel ms throw sol,
    iterative_solve vallfinite (fixed_point_iteration rtol atol damp max_norm) fn fuel ms throw y0 fs auxs = Ret sol ->
    result sol = successful -> vallfinite (value sol) = true.
Proof. exact C04_fixed_point_pf. Qed.
Print Assumptions C04_fixed_point.

(** The claim fails for Gauss-Newton: with residual y/200, rtol = atol = 1/100
    and y0 = 1 it reports success after one step and returns y0 itself, without
    having compared two iterates, although the next Gauss-Newton step would go to 0
    (binary64). *)
Theorem C60_gauss_newton_refuted :
  exists (fn : list f64 -> list f64 * unit) jac_of lsolve (tol : f64) (y0 : list f64) sol,
    iterative_solve vallfinite (GaussNewton (N:=F64) (mkTols (N:=F64) tol tol max_norm) jac_of lsolve) fn
      50 None true y0 (fun _ => [f64_ofQ 0]) (fun _ => tt) = Ret sol /\
    result sol = successful /\
    hd_error (sol_stats sol) = Some ("num_steps"%string, Some 1%Z) /\
    value sol = y0 /\
    let y1 := gn_y_eval (state sol) in
    nltb (n:=F64) (f64_ofQ (99#100)) (max_norm (N:=F64) (vsub (N:=F64) y1 y0)) = true /\
    nltb (n:=F64) (sum_squares (N:=F64) (fst (fn y1))) (sum_squares (N:=F64) (fst (fn y0))) = true.
Proof. exact C60_gauss_newton_refuted_pf. Qed.
Print Assumptions C60_gauss_newton_refuted.

(** Successful solves (binary64): gradient descent, nonlinear CG, BFGS and L-BFGS on
    x^2 + 4 y^2 from (3, 1); Gauss-Newton, Levenberg-Marquardt and Dogleg on
    residuals x^2 - 2, x - 1 from 3 *)
Theorem C60_ex :
  let run s := iterative_solve vallfinite s (bowl (N:=F64)) 200 None true [f64_ofQ 3; f64_ofQ 1]
                 scalar_struct (fun _ => tt) in
  let lsq s := iterative_solve vallfinite s curve64 200 None true [f64_ofQ 3] (vec_struct (N:=F64) 2) (fun _ => tt) in
  succeeds_after 31 (run (GradientDescent (N:=F64) tols bowl_grad (f64_ofQ (1#10)))) = true /\
  succeeds_after 22 (run (NonlinearCG (N:=F64) tols bowl_grad (polak_ribiere eps64) armijo_default)) = true /\
  succeeds_after 9 (run (BFGS (N:=F64) tols bowl_grad cholesky_solve eps64 false)) = true /\
  succeeds_after 9 (run (LBFGS (N:=F64) tols bowl_grad cholesky_solve eps64 3 true)) = true /\
  succeeds_after 6 (lsq (GaussNewton (N:=F64) tols curve64_jac column64)) = true /\
  succeeds_after 6 (lsq (LevenbergMarquardt (N:=F64) tols curve64_jac column64 eps64 (f64_ofQ 1000000000))) = true /\
  succeeds_after 6 (lsq (Dogleg (N:=F64) tols curve64_jac column64 eps64)) = true.
Proof. exact C60_ex_pf. Qed.
Print Assumptions C60_ex.
