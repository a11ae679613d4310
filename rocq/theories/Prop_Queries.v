(** Property theorems: Queries.
    Statements only; each is closed by the lemma of the same name (suffix _pf)
    in the proof file.  [Example]s show concrete cases meeting the hypotheses. *)

From Coq Require Import String List Bool Arith Lia ZArith QArith Reals.
From Verif Require Import Num NumFacts NumF64 Vec Results Iterate Spec_Iterate Iterate_proofs.
From Verif Require Import FixedPoint Bisection Golden NewtonChord Search Descent Minimisers Optax NelderMead BestSoFar RootFind Solvers.
From Verif Require Import Spec_Tolerance Spec_Queries.
Import ListNotations.
Local Open Scope nat_scope.
From Verif Require Import Queries_proofs.

(** A solve that reports k steps has looked at the user's function, and where it uses derivatives at its derivative,
    at no more than `before + each * k` points: every function that agrees there with the given one gives the same
    outcome, the same value, status, statistics and final state, whatever it does elsewhere.  One point per step for
    FixedPointIteration, Bisection, GoldenSearch, Newton, Chord, and the gradient-descent, quasi-Newton, Gauss-Newton
    and Optax solvers; at most d + 3 for NelderMead in d dimensions; BestSoFar and root_find's wrapper add none. *)
Theorem C116_evaluations :
  forall (N : Num) (Y Out Aux M : Type) (D : (Y -> Out * Aux) -> Y -> M) (s : Solver Y Out Aux) before each,
    evaluates (N:=N) Y Out Aux M D s before each ->
  forall allfinite f fuel ms throw y0 fs auxs sol k,
    iterative_solve allfinite s f fuel ms throw y0 fs auxs = Ret sol -> took sol k ->
    exists Q, length Q <= before y0 + each y0 * k /\
      forall g, (forall y, In y Q -> same_at D f g y) -> iterative_solve allfinite s g fuel ms throw y0 fs auxs = Ret sol.
Proof. exact C116_evaluations_pf. Qed.
Print Assumptions C116_evaluations.

(** The gradient-descent and quasi-Newton solvers take gradients only at their iterates, that is at accepted points:
    of the at most k points where a solve of k steps evaluates the function, the derivative is not used at the
    rejected ones. *)
Theorem C116_gradients :
  forall (N : Num) (Aux : Type) (s : Solver (list N) N Aux) (grad_of : (list N -> N * Aux) -> list N -> list N),
    (exists P search descent, s = gradient_descent_solver P search descent grad_of) \/
    (exists P search descent HSt (init_hessian : _ -> _ -> _ -> _ * HSt) update_hessian,
       s = quasi_newton_solver P search descent grad_of init_hessian update_hessian) ->
  forall allfinite f fuel ms throw y0 fs auxs sol k st0,
    s_init s f y0 fs auxs = Ret st0 -> iterative_solve allfinite s f fuel ms throw y0 fs auxs = Ret sol -> took sol k ->
    exists Q, length Q <= k /\ forall g, (forall y, In y Q -> f y = g y) ->
      (forall j, 1 <= j <= k -> grad_of f (y_at s f y0 st0 (auxs fill0) j) = grad_of g (y_at s f y0 st0 (auxs fill0) j)) ->
      iterative_solve allfinite s g fuel ms throw y0 fs auxs = Ret sol.
Proof. exact C116_gradients_pf. Qed.
Print Assumptions C116_gradients.

Example C116_evaluations_ex :
  let s := bisection (N:=F64) (Aux:=unit) (f64_ofQ 0) (f64_ofQ (1#8)) Detect false 0 (f64_ofQ 0) (f64_ofQ 2) in
  let solve f := iterative_solve (nisfin (n:=F64)) s f 20 None true (f64_ofQ 1) (fun _ => f64_ofQ 0) (fun _ => tt) in
  exists sol, solve two64 = Ret sol /\ result sol = successful /\ took sol 5 /\
    exists Q, length Q <= 7 /\ forall g, (forall y, In y Q -> two64 y = g y) -> solve g = Ret sol.
Proof. exact C116_evaluations_ex_pf. Qed.

(** Steepest descent with Armijo backtracking on x^2 from 1 in double precision: the full step to -1 is rejected,
    half of it reaches 0.  The four steps evaluate no more than four points, and of the gradient only the values at
    the iterates matter. *)
Example C116_gradients_ex :
  let P := mkTols (N:=F64) (f64_ofQ 0) (f64_ofQ (1#8)) (max_norm (N:=F64)) in
  let s := gradient_descent_solver (N:=F64) (Aux:=unit) P (armijo (f64_ofQ (1#2)) (f64_ofQ (1#10)) (f64_ofQ 1))
    (steepest_descent None) square64_grad in
  let solve f := iterative_solve (vallfinite (N:=F64)) s f 20 None true [f64_ofQ 1] (fun _ => f64_ofQ 0) (fun _ => tt) in
  exists sol, solve square64 = Ret sol /\ result sol = successful /\ took sol 4 /\
    exists Q, length Q <= 4 /\ forall g, (forall y, In y Q -> square64 y = g y) -> solve g = Ret sol.
Proof. exact C116_gradients_ex_pf. Qed.
