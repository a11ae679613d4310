(** Vocabulary for the auxiliary output of a solve (C119). *)

From Coq Require Import List Bool QArith String.
From Verif Require Import Num NumF64 Vec Results Iterate.
From Verif Require Import FixedPoint Bisection Golden NewtonChord Search Descent Minimisers Optax NelderMead RootFind Spec_Search.
Import ListNotations.

(** The solvers of the library other than GoldenSearch, NelderMead and the BestSoFar wrappers: fixed-point iteration,
    bisection, Newton and Chord, the three gradient-based loops with any search that accepts its first point (every
    built-in one does), Optax, and root_find's wrapper around any of them. *)
Inductive ordinary {N : Num} : forall Y Out Aux : Type, Solver Y Out Aux -> Prop :=
| o_fixed_point : forall Aux rtol atol damp norm, ordinary (list N) (list N) Aux (fixed_point_iteration rtol atol damp norm)
| o_bisection : forall Aux rtol atol flip expand fuel lower upper, ordinary N N Aux (bisection rtol atol flip expand fuel lower upper)
| o_newton_chord : forall Aux M (jac : _ -> _ -> M) lsolve P, ordinary (list N) (list N) Aux (newton_chord jac lsolve P)
| o_gradient_descent : forall Aux P search descent grad_of, accepts_first search ->
    ordinary (list N) N Aux (gradient_descent_solver P search descent grad_of)
| o_quasi_newton : forall Aux P search descent grad_of HSt (init_hessian : _ -> _ -> _ -> _ * HSt) update_hessian,
    accepts_first search -> keeps_value_and_grad update_hessian ->
    ordinary (list N) N Aux (quasi_newton_solver P search descent grad_of init_hessian update_hessian)
| o_gauss_newton : forall Aux P search descent jac_of, accepts_first search ->
    ordinary (list N) (list N) Aux (gauss_newton_solver P search descent jac_of)
| o_optax : forall Aux optim P grad_of fmax, ordinary (list N) N Aux (OptaxMinimiser optim P grad_of fmax)
| o_to_root : forall Out Aux atol norm s, ordinary (list N) Out (list N * Aux)%type s ->
    ordinary (list N) Out (list N * Aux)%type (to_root atol norm s).

(** x^2 with x itself as the auxiliary output *)
Definition self64 (y : list f64) : list f64 * list f64 := (map (fun x => fmul x x) y, y).
Definition self64_slope (fn : list f64 -> list f64 * list f64) (y : list f64) : f64 := fmul (f64_ofQ 2) (nth 0 y (f64_ofQ 0)).
Definition self64_scalar (x : f64) : f64 * f64 := (fmul x x, x).
(** a constant function with the auxiliary output 1 *)
Definition one64 (y : list f64) : f64 * f64 := (f64_ofQ 0, f64_ofQ 1).
