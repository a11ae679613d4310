(** Vocabulary for comparing budgets (C120). *)

From Coq Require Import List Bool Arith QArith.
From Verif Require Import Num NumF64 Vec Results Iterate Search Descent Minimisers Solvers Spec_Search Spec_Shift.
Import ListNotations.

(** max_steps = m allows no more steps than max_steps = k; [None] is no limit *)
Definition no_more (m k : option nat) : Prop :=
  match m, k with _, None => True | None, Some _ => False | Some m, Some k => (m <= k)%nat end.

(** Gradient descent, nonlinear CG or a quasi-Newton method with Armijo backtracking (whose constructor accepted its
    parameters) and any descent *)
Definition backtracking_minimiser {N : Num} {Aux : Type} (s : Solver (list N) N Aux) : Prop :=
  (exists P decrease slope init descent grad_of, armijo_valid decrease slope init = true /\
     s = gradient_descent_solver P (armijo decrease slope init) descent grad_of) \/
  (exists HSt P decrease slope init descent grad_of (init_hessian : _ -> _ -> _ -> _ * HSt) update_hessian,
     armijo_valid decrease slope init = true /\ keeps_value_and_grad update_hessian /\
     s = quasi_newton_solver P (armijo decrease slope init) descent grad_of init_hessian update_hessian).

(** binary64 examples on x^2: tolerances met near the minimum only; Armijo backtracking starting at step size 4 *)
Definition tight64 : ar_tols F64 := mkTols (f64_ofQ 0) (f64_ofQ (1#1024)) (max_norm (N:=F64)).
Definition far64 : Solver (list f64) f64 unit := gradient_descent_solver tight64 (armijo (f64_ofQ (1#2)) (f64_ofQ (1#8)) (f64_ofQ 4)) (steepest_descent None) (lifted64_grad 1).

