(** The concrete solvers built from a skeleton, a search and a descent. *)

From Coq Require Import List Bool QArith.
From Verif Require Import Num Vec Results Iterate Search Descent Minimisers QuasiNewton.
Import ListNotations.

Section Solvers.
  Context {N : Num} {Aux : Type}.
  Notation vec := (list N).
  Variable P : ar_tols N.
  (** Gradient, Jacobian, linear solver, `finfo.eps`, `finfo.max` *)
  Variable grad_of : (vec -> N * Aux) -> vec -> vec.
  Variable jac_of : (vec -> vec * Aux) -> vec -> linop N.
  Variable lsolve : linop N -> vec -> vec * results.
  Variables eps fmax : N.

  (** GradientDescent, gradient_methods.py 249-291 *)
  Definition GradientDescent (rate : N) : Solver vec N Aux :=
    gradient_descent_solver P (learning_rate rate) (steepest_descent None) grad_of.

  (** Default BacktrackingArmijo, backtracking.py 29-31 *)
  Definition armijo_default : Search N := armijo (lit (1#2)) (lit (1#10)) (lit 1).

  (** NonlinearCG, nonlinear_cg.py 171-218 *)
  Definition NonlinearCG (method : vec -> vec -> vec -> N) (search : Search N) :
      Solver vec N Aux :=
    gradient_descent_solver P search (nonlinear_cg_descent method) grad_of.

  (** BFGS, quasi_newton.py 418-458; [lsolve] is Cholesky *)
  Definition BFGS (use_inverse : bool) : Solver vec N Aux :=
    quasi_newton_solver P armijo_default (newton_descent lsolve None) grad_of
      (qn_init_hessian use_inverse) (bfgs_update eps use_inverse).

  (** DFP, quasi_newton.py 576-619 *)
  Definition DFP (use_inverse : bool) : Solver vec N Aux :=
    quasi_newton_solver P armijo_default (newton_descent lsolve None) grad_of
      (qn_init_hessian use_inverse) (dfp_update eps use_inverse).

  (** GaussNewton, gauss_newton.py 361-395 *)
  Definition GaussNewton : Solver vec vec Aux :=
    gauss_newton_solver P (learning_rate (lit 1)) (newton_descent lsolve None) jac_of.

  (** LevenbergMarquardt, levenberg_marquardt.py 256-294 *)
  Definition LevenbergMarquardt : Solver vec vec Aux :=
    gauss_newton_solver P (classical_trust_region tr_default)
      (damped_newton_descent lsolve eps fmax) jac_of.

  (** IndirectLevenbergMarquardt, levenberg_marquardt.py 315-361 *)
  Definition IndirectLevenbergMarquardt (rfind : (N -> N) -> N) : Solver vec vec Aux :=
    gauss_newton_solver P (classical_trust_region tr_default)
      (indirect_damped_newton_descent lsolve eps fmax two_norm rfind) jac_of.

  (** Dogleg, dogleg.py 217-261 *)
  Definition Dogleg : Solver vec vec Aux :=
    gauss_newton_solver P (classical_trust_region tr_default)
      (dogleg_descent lsolve eps two_norm None) jac_of.
End Solvers.
