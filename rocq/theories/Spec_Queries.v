(** Vocabulary for the number of evaluations of the user's function (C116). *)

From Coq Require Import List Bool ZArith QArith.
From Verif Require Import Num NumF64 Vec Results Iterate.
From Verif Require Import FixedPoint Bisection Golden NewtonChord Search Descent Minimisers Optax NelderMead BestSoFar RootFind.
Import ListNotations.

(** At the point y the functions f and g cannot be told apart by evaluating them and the derivative D *)
Definition same_at {Y Z M : Type} (D : (Y -> Z) -> Y -> M) (f g : Y -> Z) (y : Y) : Prop :=
  f y = g y /\ D f y = D g y.

(** The solvers of the library with what they differentiate, the number of points their `init` looks at and the
    number of points one step looks at; both numbers may depend on the starting point (Nelder-Mead: on its size).
    Without derivatives every D is allowed. *)
Inductive evaluates {N : Num} :
  forall Y Out Aux M : Type, ((Y -> Out * Aux) -> Y -> M) -> Solver Y Out Aux -> (Y -> nat) -> (Y -> nat) -> Prop :=
| v_fixed_point : forall Aux M D rtol atol damp norm,
    evaluates (list N) (list N) Aux M D (fixed_point_iteration rtol atol damp norm) (fun _ => 0%nat) (fun _ => 1%nat)
| v_bisection_flip : forall Aux M D rtol atol flip expand_if_necessary fuel lower upper,
    evaluates N N Aux M D (bisection rtol atol (Flip flip) expand_if_necessary fuel lower upper) (fun _ => 0%nat) (fun _ => 1%nat)
| v_bisection_detect : forall Aux M D rtol atol fuel lower upper,
    evaluates N N Aux M D (bisection rtol atol Detect false fuel lower upper) (fun _ => 2%nat) (fun _ => 1%nat)
| v_golden : forall Aux M D rtol atol lower upper,
    evaluates N N Aux M D (golden rtol atol lower upper) (fun _ => 1%nat) (fun _ => 1%nat)
| v_newton : forall Aux M (jac : _ -> _ -> M) lsolve P, nc_is_newton P = true ->
    evaluates (list N) (list N) Aux M jac (newton_chord jac lsolve P) (fun _ => 0%nat) (fun _ => 1%nat)
| v_chord : forall Aux M (jac : _ -> _ -> M) lsolve P, nc_is_newton P = false ->
    evaluates (list N) (list N) Aux M jac (newton_chord jac lsolve P) (fun _ => 1%nat) (fun _ => 1%nat)
| v_gradient_descent : forall Aux P search descent grad_of,
    evaluates (list N) N Aux (list N) grad_of (gradient_descent_solver P search descent grad_of) (fun _ => 0%nat) (fun _ => 1%nat)
| v_quasi_newton : forall Aux P search descent grad_of HSt (init_hessian : _ -> _ -> _ -> _ * HSt) update_hessian,
    evaluates (list N) N Aux (list N) grad_of (quasi_newton_solver P search descent grad_of init_hessian update_hessian) (fun _ => 0%nat) (fun _ => 1%nat)
| v_gauss_newton : forall Aux P search descent jac_of,
    evaluates (list N) (list N) Aux (linop N) jac_of (gauss_newton_solver P search descent jac_of) (fun _ => 0%nat) (fun _ => 1%nat)
| v_optax : forall Aux optim P grad_of fmax,
    (forall grads st y f g h, ot_update optim grads st y f g = ot_update optim grads st y f h) ->
    evaluates (list N) N Aux (list N) grad_of (OptaxMinimiser optim P grad_of fmax) (fun _ => 0%nat) (fun _ => 1%nat)
| v_nelder_mead : forall Aux M D rtol atol norm rdelta adelta shape,
    evaluates (list N) N Aux M D (NelderMead rtol atol norm rdelta adelta shape) (fun _ => 0%nat) (fun y0 => (length y0 + 3)%nat)
| v_best_so_far : forall Y Out Aux M D (to_loss : Y -> Out -> N) s before each,
    evaluates Y Out (Out * Aux)%type M D s before each ->
    evaluates Y Out Aux M (fun f => D (auxmented f)) (best_so_far to_loss s) before each
| v_to_root : forall Out Aux M D atol norm s before each,
    evaluates (list N) Out (list N * Aux)%type M D s before each ->
    evaluates (list N) Out (list N * Aux)%type M D (to_root atol norm s) before each.

(** x^2 - 2 and x^2 with its gradient, in double precision *)
Definition two64 (x : f64) : f64 * unit := (fsub (fmul x x) (f64_ofQ 2), tt).
Definition square64 (y : list f64) : f64 * unit := match y with [x] => (fmul x x, tt) | _ => (f64_ofQ 0, tt) end.
Definition square64_grad (f : list f64 -> f64 * unit) (y : list f64) : list f64 :=
  match y with [x] => [fmul (f64_ofQ 2) x] | _ => [] end.
