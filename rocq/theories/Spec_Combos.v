(** The searches and descents that come with the library, and which derivative
    information each of them needs. *)

From Coq Require Import List.
From Verif Require Import Num Vec Results Search Descent.

Inductive builtin_search (N : Num) : Type :=
| LearningRate (rate : N)
| BacktrackingArmijo (decrease slope init : N)
| LinearTrustRegion (Q : tr_params N)
| ClassicalTrustRegion (Q : tr_params N).
Arguments LearningRate {N}. Arguments BacktrackingArmijo {N}.
Arguments LinearTrustRegion {N}. Arguments ClassicalTrustRegion {N}.

Inductive builtin_descent (N : Num) : Type :=
| SteepestDescent (norm : option (list N -> N))
| NonlinearCGDescent (method : list N -> list N -> list N -> N)
| NewtonDescent (norm : option (list N -> N))
| DampedNewtonDescent
| IndirectDampedNewtonDescent (norm : list N -> N) (rfind : (N -> N) -> N)
| DoglegDescent (norm : list N -> N) (rfind : option ((N -> N) -> N * results)).
Arguments SteepestDescent {N}. Arguments NonlinearCGDescent {N}. Arguments NewtonDescent {N}.
Arguments DampedNewtonDescent {N}. Arguments IndirectDampedNewtonDescent {N}. Arguments DoglegDescent {N}.

Definition search_of {N : Num} (s : builtin_search N) : Search N :=
  match s with
  | LearningRate r => learning_rate r
  | BacktrackingArmijo d c i => armijo d c i
  | LinearTrustRegion Q => linear_trust_region Q
  | ClassicalTrustRegion Q => classical_trust_region Q
  end.
Definition descent_of {N : Num} (lsolve : linop N -> list N -> list N * results) (eps fmax : N)
    (d : builtin_descent N) : Descent N :=
  match d with
  | SteepestDescent n => steepest_descent n
  | NonlinearCGDescent m => nonlinear_cg_descent m
  | NewtonDescent n => newton_descent lsolve n
  | DampedNewtonDescent => damped_newton_descent lsolve eps fmax
  | IndirectDampedNewtonDescent n r => indirect_damped_newton_descent lsolve eps fmax n r
  | DoglegDescent n r => dogleg_descent lsolve eps n r
  end.

(** What an outer loop knows: the gradient only (gradient descent, nonlinear CG), a
    Hessian approximation (quasi-Newton with use_inverse=False), an inverse Hessian
    approximation (use_inverse=True), or residuals and their Jacobian (Gauss-Newton). *)
Inductive information := GradientOnly | Hessian | InverseHessian | Jacobian.

(** ClassicalTrustRegion evaluates a quadratic model, so it needs the Hessian (or the
    Jacobian); so do the damped Newton and dogleg descents. Newton's method also works
    with the inverse. Everything else needs gradients only. *)
Definition search_fits {N : Num} (i : information) (s : builtin_search N) : Prop :=
  match s with
  | ClassicalTrustRegion _ => i = Hessian \/ i = Jacobian
  | _ => True
  end.
Definition descent_fits {N : Num} (i : information) (d : builtin_descent N) : Prop :=
  match d with
  | SteepestDescent _ | NonlinearCGDescent _ => True
  | NewtonDescent _ => i <> GradientOnly
  | DampedNewtonDescent | IndirectDampedNewtonDescent _ _ | DoglegDescent _ _ => i = Hessian \/ i = Jacobian
  end.
