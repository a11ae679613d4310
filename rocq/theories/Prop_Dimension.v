(** Property theorems: Dimension.
    Statements only; each is closed by the lemma of the same name (suffix _pf)
    in the proof file.  [Example]s show concrete cases meeting the hypotheses. *)

From Coq Require Import String List Bool Arith Lia ZArith QArith Reals Lra Psatz.
From Coquelicot Require Import Coquelicot.
From Coq Require Import List.
From Verif Require Import Num NumFacts Vec VecFacts Results Iterate Spec_Iterate Iterate_proofs.
From Verif Require Import FixedPoint Bisection Golden NewtonChord NelderMead Search Descent Minimisers Solvers Spec_Dimension.
Import ListNotations.
Local Open Scope nat_scope.
From Verif Require Import Dimension_proofs.

(** Fixed-point iteration with every unknown in a unit of its own. *)
Theorem C123_fixed_point :
  forall (Aux : Type) (d : list R) rtol atol atol' damp norm (fn fn' : list xr -> list xr * Aux),
    let n := length d in let U := units d in
    positive_units d -> tolerance_in d atol atol' -> same_function (of_length n) (of_length n) U U fn fn' ->
  forall fuel ms throw y0 fs auxs, length y0 = n ->
    same_in_units U
      (iterative_solve (vallfinite (N:=XR)) (fixed_point_iteration (N:=XR) rtol atol damp norm) fn fuel ms throw y0 fs auxs)
      (iterative_solve (vallfinite (N:=XR)) (fixed_point_iteration (N:=XR) rtol atol' damp norm) fn' fuel ms throw (U y0) fs auxs).
Proof. exact C123_fixed_point_pf. Qed.
Print Assumptions C123_fixed_point.

(** Newton and chord methods: unknowns and residuals each in units of their own; box bounds are converted too, the tolerance of the residuals only matters for the Cauchy test. The linear solver is asked to give the converted step for the converted system. *)
Theorem C123_newton :
  forall (Aux M : Type) (d e : list R) (jac : (list xr -> list xr * Aux) -> list xr -> M) lsolve
         rtol atol atol' norm kappa cauchy is_newton lower upper resolution (fn fn' : list xr -> list xr * Aux) y0 fs fs' auxs,
    let n := length d in let m := length e in let U := units d in let V := units e in
    let solver atol lower upper := newton_chord (N:=XR) jac lsolve (mkNcParams (N:=XR) rtol atol norm kappa cauchy is_newton lower upper resolution) in
    positive_units d -> positive_units e -> tolerance_in d atol atol' -> (cauchy = true -> tolerance_in e atol atol') ->
    (forall l, lower = Some l \/ upper = Some l -> length l = n) ->
    length y0 = n -> length (fs fillinf) = m -> fs' fillinf = V (fs fillinf) ->
    same_function (of_length n) (of_length m) U V fn fn' ->
    (forall y, length y = n ->
       let p := if is_newton then y else y0 in
       let step := lsolve (jac fn p) (fst (fn y)) in
       length (fst step) = n /\ lsolve (jac fn' (U p)) (V (fst (fn y))) = (U (fst step), snd step)) ->
  forall fuel ms throw,
    same_in_units U
      (iterative_solve (vallfinite (N:=XR)) (solver atol lower upper) fn fuel ms throw y0 fs auxs)
      (iterative_solve (vallfinite (N:=XR)) (solver atol' (option_map U lower) (option_map U upper)) fn' fuel ms throw (U y0) fs' auxs).
Proof. exact C123_newton_pf. Qed.
Print Assumptions C123_newton.

(** Bisection, interval and its expansion included; the fillers of init do not matter. *)
Theorem C123_bisection :
  forall (Aux : Type) (u w : R) rtol atol atol' flip expand efuel lower upper (fn fn' : xr -> xr * Aux),
    (0 < u)%R -> (0 < w)%R -> tolerance_in [u; w] atol atol' -> same_function any any (unit_of u) (unit_of w) fn fn' ->
  forall fuel ms throw y0 fs fs' auxs,
    same_in_units (unit_of u)
      (iterative_solve xisfin (bisection (N:=XR) rtol atol flip expand efuel lower upper) fn fuel ms throw y0 fs auxs)
      (iterative_solve xisfin (bisection (N:=XR) rtol atol' flip expand efuel (unit_of u lower) (unit_of u upper)) fn' fuel ms throw (unit_of u y0) fs' auxs).
Proof. exact C123_bisection_pf. Qed.
Print Assumptions C123_bisection.

(** Golden-section search. *)
Theorem C123_golden :
  forall (Aux : Type) (u w : R) rtol atol atol' lower upper (fn fn' : xr -> xr * Aux),
    (0 < u)%R -> (0 < w)%R -> tolerance_in [u; w] atol atol' -> same_function any any (unit_of u) (unit_of w) fn fn' ->
  forall fuel ms throw y0 fs fs' auxs,
    same_in_units (unit_of u)
      (iterative_solve xisfin (golden (N:=XR) rtol atol lower upper) fn fuel ms throw y0 fs auxs)
      (iterative_solve xisfin (golden (N:=XR) rtol atol' (unit_of u lower) (unit_of u upper)) fn' fuel ms throw (unit_of u y0) fs' auxs).
Proof. exact C123_golden_pf. Qed.
Print Assumptions C123_golden.

(** Nelder-Mead, with the initial simplex in the new units (adelta converted, rdelta not). *)
Theorem C123_nelder_mead :
  forall (Aux : Type) (u w : R) rtol atol atol' norm rdelta adelta shape (fn fn' : list xr -> xr * Aux),
    (0 < u)%R -> (0 < w)%R -> tolerance_in [u; w] atol atol' -> same_function any any (all_units u) (unit_of w) fn fn' ->
  forall fuel ms throw y0 fs fs' auxs,
    same_in_units (all_units u)
      (iterative_solve (vallfinite (N:=XR)) (NelderMead (N:=XR) rtol atol norm rdelta adelta shape) fn fuel ms throw y0 fs auxs)
      (iterative_solve (vallfinite (N:=XR)) (NelderMead (N:=XR) rtol atol' norm rdelta (unit_of u adelta) shape) fn' fuel ms throw (all_units u y0) fs' auxs).
Proof. exact C123_nelder_mead_pf. Qed.
Print Assumptions C123_nelder_mead.

(** Gradient descent: a learning rate has the unit of the unknown squared over the unit of the value. *)
Theorem C123_gradient_descent :
  forall (Aux : Type) (u w : R) rtol atol atol' norm grad_of rate (fn fn' : list xr -> xr * Aux),
    (0 < u)%R -> (0 < w)%R -> tolerance_in [u; w] atol atol' -> same_function any any (all_units u) (unit_of w) fn fn' ->
    (forall y, grad_of fn' (all_units u y) = all_units (w / u) (grad_of fn y)) ->
  forall fuel ms throw y0 fs fs' auxs,
    same_in_units (all_units u)
      (iterative_solve (vallfinite (N:=XR)) (GradientDescent (N:=XR) (mkTols (N:=XR) rtol atol norm) grad_of rate) fn fuel ms throw y0 fs auxs)
      (iterative_solve (vallfinite (N:=XR)) (GradientDescent (N:=XR) (mkTols (N:=XR) rtol atol' norm) grad_of (unit_of (u * u / w) rate)) fn' fuel ms throw (all_units u y0) fs' auxs).
Proof. exact C123_gradient_descent_pf. Qed.
Print Assumptions C123_gradient_descent.

(** Gradient descent with backtracking: only the initial step is converted, decrease factor and slope are not. *)
Theorem C123_backtracking :
  forall (Aux : Type) (u w : R) rtol atol atol' norm grad_of decrease slope init (fn fn' : list xr -> xr * Aux),
    (0 < u)%R -> (0 < w)%R -> tolerance_in [u; w] atol atol' -> same_function any any (all_units u) (unit_of w) fn fn' ->
    (forall y, grad_of fn' (all_units u y) = all_units (w / u) (grad_of fn y)) ->
    let solver atol init := gradient_descent_solver (N:=XR) (mkTols (N:=XR) rtol atol norm) (armijo (N:=XR) decrease slope init) (steepest_descent None) grad_of in
  forall fuel ms throw y0 fs fs' auxs,
    same_in_units (all_units u)
      (iterative_solve (vallfinite (N:=XR)) (solver atol init) fn fuel ms throw y0 fs auxs)
      (iterative_solve (vallfinite (N:=XR)) (solver atol' (unit_of (u * u / w) init)) fn' fuel ms throw (all_units u y0) fs' auxs).
Proof. exact C123_backtracking_pf. Qed.
Print Assumptions C123_backtracking.

(** Newton on x^2 - 2 and the solve in other units *)
Example C123_newton_ex : forall k w : R, (0 < k)%R -> (0 < w)%R ->
  positive_units [k] /\ positive_units [w] /\ tolerance_in [k] (Fin (1/10)) (Fin (k * (1/10))) /\
  same_function (of_length 1) (of_length 1) (units [k]) (units [w]) (sqrt2 1 1) (sqrt2 k w) /\
  forall y, length y = 1 ->
    length (fst (divide1 (slope1 (sqrt2 1 1) y) (fst (sqrt2 1 1 y)))) = 1 /\
    divide1 (slope1 (sqrt2 k w) (units [k] y)) (units [w] (fst (sqrt2 1 1 y))) =
      (units [k] (fst (divide1 (slope1 (sqrt2 1 1) y) (fst (sqrt2 1 1 y)))), successful).
Proof. exact C123_newton_ex_pf. Qed.

(** x^2 - 2 by bisection and by golden section, in millimetres for metres; the value in the same unit, or with atol = 0 in any *)
Example C123_bisection_ex : forall w : R, (0 < w)%R ->
  same_function any any (unit_of 1000) (unit_of w) (parabola 1 1) (parabola 1000 w) /\ tolerance_in [1000%R; w] (Fin 0) (Fin 0) /\
  tolerance_in [1000%R; 1000%R] (Fin (1/10)) (Fin 100).
Proof. exact C123_bisection_ex_pf. Qed.

Example C123_golden_ex : same_function any any (unit_of 1000) (unit_of 1000) (parabola 1 1) (parabola 1000 1000) /\ tolerance_in [1000%R; 1000%R] (Fin (1/10)) (Fin 100).
Proof. exact C123_golden_ex_pf. Qed.

(** the same with a gradient *)
Example C123_gradient_descent_ex : forall k w : R, (0 < k)%R -> (0 < w)%R ->
  same_function any any (all_units k) (unit_of w) (bowl 1 1) (bowl k w) /\ tolerance_in [k; w] (Fin 0) (Fin 0) /\
  forall y, gradient1 (bowl k w) (all_units k y) = all_units (w / k) (gradient1 (bowl 1 1) y).
Proof. exact C123_gradient_descent_ex_pf. Qed.

Example C123_backtracking_ex : same_function any any (all_units 1000) (unit_of 1000) (bowl 1 1) (bowl 1000 1000) /\
  tolerance_in [1000%R; 1000%R] (Fin (1/10)) (Fin 100) /\ forall y, gradient1 (bowl 1000 1000) (all_units 1000 y) = all_units (1000 / 1000) (gradient1 (bowl 1 1) y).
Proof. exact C123_backtracking_ex_pf. Qed.

Example C123_nelder_mead_ex : same_function any any (all_units 1000) (unit_of 1000) (bowl 1 1) (bowl 1000 1000) /\ tolerance_in [1000%R; 1000%R] (Fin (1/10)) (Fin 100).
Proof. exact C123_nelder_mead_ex_pf. Qed.

(** halving is the same function in any units *)
Example C123_fixed_point_ex : forall k : R, (0 < k)%R ->
  same_function (of_length 1) (of_length 1) (units [k]) (units [k]) halving halving /\ tolerance_in [k] (Fin (3/4)) (Fin (k * (3/4))).
Proof. exact C123_fixed_point_ex_pf. Qed.

(** The absolute tolerance has to be converted: with the same atol = 3/4 halving stops after one step in metres and not in
    millimetres. *)
Theorem C123_tolerance_matters :
  let solve y0 := iterative_solve (vallfinite (N:=XR)) (fixed_point_iteration (N:=XR) (Fin 0) (Fin (3/4)) (Fin 0) (fun v => nth 0 (map xabs v) NaN)) halving 3 (Some 1) false y0 (fun _ => [Fin 0]) (fun _ => tt) in
  same_function (of_length 1) (of_length 1) (units [1000%R]) (units [1000%R]) halving halving /\
  exists s s', solve [Fin 1] = Ret s /\ solve (units [1000%R] [Fin 1]) = Ret s' /\ result s = successful /\ result s' = nonlinear_max_steps_reached.
Proof. exact C123_tolerance_matters_pf. Qed.
Print Assumptions C123_tolerance_matters.
