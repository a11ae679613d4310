(** Property theorems: Success.
    Statements only; each is closed by the lemma of the same name (suffix _pf)
    in the proof file.  [Example]s show concrete cases meeting the hypotheses. *)

From Coq Require Import String List Bool Arith Lia ZArith QArith Qreals Reals Lra Psatz.
From Verif Require Import Num NumFacts Vec Results Iterate Spec_Iterate Iterate_proofs FixedPoint_proofs.
From Verif Require Import Spec_Vec VecFacts Spec_Lin LinFacts.
From Verif Require Import Search Spec_Search Descent Minimisers Solvers Minimisers_proofs.
From Verif Require Import TrustRegion_proofs LeastSquares_proofs Dogleg_proofs Spec_Steps Steps_proofs Spec_Convergence Convergence_proofs.
From Verif Require Import Certificate_proofs Spec_Rates Rates_proofs Spec_Success.
Import ListNotations.
Local Open Scope nat_scope.
From Verif Require Import Success_proofs.

(** GradientDescent, exact arithmetic.  On success the returned value is x - rate g(x)
    for a point x at which every entry of rate * g(x) is below the tolerance of the
    corresponding entry of the value. *)
Theorem C96_gradient_descent :
  forall (Aux : Type) (n : nat) (g : list R -> list R) (rtol atol rate : R) grad_of (fn : list R -> R * Aux)
         (y0 : list R) fs auxs allfinite fuel budget throw sol,
    (0 <= rtol)%R -> (0 < atol)%R -> (0 < rate)%R ->
    (forall x, length x = n -> length (g x) = n) -> (forall x, grad_of fn x = g x) -> length y0 = n ->
    let s := GradientDescent (N:=RN) (mkTols rtol atol max_norm) grad_of rate in
    iterative_solve allfinite s fn fuel budget throw y0 fs auxs = Ret sol -> result sol = successful ->
    exists x : list R, length x = n /\ value sol = Radd_v x (Rscal (- rate) (g x)) /\
      forall i a b, nth_error (g x) i = Some a -> nth_error (value sol) i = Some b ->
        (rate * Rabs a < atol + rtol * Rabs b)%R.
Proof. exact C96_gradient_descent_pf. Qed.
Print Assumptions C96_gradient_descent.

(** Hence, if the objective is L-smooth with rate L <= 2 and its gradient dominates its
    excess over the lower bound [low], the returned value is nearly optimal. *)
Theorem C96_gradient_descent_optimum :
  forall (Aux : Type) (n : nat) (L mu low : R) (f : list R -> R) (g : list R -> list R) (rtol atol rate : R)
         grad_of (fn : list R -> R * Aux) (y0 : list R) fs auxs allfinite fuel budget throw sol,
    (0 <= rtol)%R -> (0 < atol)%R -> (0 < rate)%R -> smooth n L f g -> (rate * L <= 2)%R ->
    (0 < mu)%R -> dominated n mu low f g ->
    (forall x, grad_of fn x = g x) -> length y0 = n ->
    let s := GradientDescent (N:=RN) (mkTols rtol atol max_norm) grad_of rate in
    iterative_solve allfinite s fn fuel budget throw y0 fs auxs = Ret sol -> result sol = successful ->
    let tol := tolerances rtol atol (value sol) in
    (f (value sol) - low <= Rdot tol tol / (2 * mu * (rate * rate)))%R.
Proof. exact C96_gradient_descent_optimum_pf. Qed.
Print Assumptions C96_gradient_descent_optimum.

(** Steepest descent with a backtracking Armijo search on an L-smooth f, exact
    arithmetic.  On success the returned value is x - t g(x) for a point x no better than
    it and a step t of at least tmin = min (ini, 2 de (1 - sl) / L), so that every
    entry of tmin * g(x) is below the tolerance. *)
Theorem C96_backtracking :
  forall (Aux : Type) (rtol atol de sl ini : R) grad_of (fn : list R -> R * Aux)
         (n : nat) (L : R) (f : list R -> R) (g : list R -> list R) (y0 : list R) fs auxs allfinite fuel budget throw sol,
    (0 <= rtol)%R -> (0 < atol)%R ->
    (0 < de < 1 /\ 0 < sl < 1 /\ 0 < ini)%R -> (0 < L)%R -> smooth n L f g ->
    (forall x, fst (fn x) = f x) -> (forall x, grad_of fn x = g x) -> length y0 = n ->
    let s := gradient_descent_solver (N:=RN) (mkTols rtol atol max_norm) (armijo (N:=RN) de sl ini) (steepest_descent None) grad_of in
    iterative_solve allfinite s fn fuel budget throw y0 fs auxs = Ret sol -> result sol = successful ->
    let tmin := Rmin ini (2 * de * (1 - sl) / L) in
    exists (x : list R) (t : R), length x = n /\ (tmin <= t <= ini)%R /\
      value sol = Radd_v x (Rscal (- t) (g x)) /\ (f (value sol) <= f x)%R /\
      forall i a b, nth_error (g x) i = Some a -> nth_error (value sol) i = Some b ->
        (t * Rabs a < atol + rtol * Rabs b)%R.
Proof. exact C96_backtracking_pf. Qed.
Print Assumptions C96_backtracking.

(** Hence, if the gradient dominates the excess, the returned value is nearly optimal. *)
Theorem C96_backtracking_optimum :
  forall (Aux : Type) (rtol atol de sl ini : R) grad_of (fn : list R -> R * Aux)
         (n : nat) (L mu low : R) (f : list R -> R) (g : list R -> list R) (y0 : list R) fs auxs allfinite fuel budget throw sol,
    (0 <= rtol)%R -> (0 < atol)%R ->
    (0 < de < 1 /\ 0 < sl < 1 /\ 0 < ini)%R -> (0 < L)%R -> smooth n L f g -> (0 < mu)%R -> dominated n mu low f g ->
    (forall x, fst (fn x) = f x) -> (forall x, grad_of fn x = g x) -> length y0 = n ->
    let s := gradient_descent_solver (N:=RN) (mkTols rtol atol max_norm) (armijo (N:=RN) de sl ini) (steepest_descent None) grad_of in
    iterative_solve allfinite s fn fuel budget throw y0 fs auxs = Ret sol -> result sol = successful ->
    let tmin := Rmin ini (2 * de * (1 - sl) / L) in
    let tol := tolerances rtol atol (value sol) in
    (f (value sol) - low <= Rdot tol tol / (2 * mu * (tmin * tmin)))%R.
Proof. exact C96_backtracking_optimum_pf. Qed.
Print Assumptions C96_backtracking_optimum.

(** LevenbergMarquardt, exact arithmetic, exact least-squares solves, 1/2 |r|^2 L-smooth,
    |J v|^2 <= B |v|^2.  On success either the solve stopped at y0 because its residuals
    are within tolerance of zero (this is what the comparison with the zeros the residuals
    are initialised with amounts to), or the returned value is no worse than a point x
    with |J^T r|^2 <= (B + 1/rho)^2 |tol|^2, where rho = min (1, 0.495 / L). *)
Theorem C96_levenberg_marquardt :
  forall (Aux : Type) (rtol atol eps fmax : R) lsolve jac_of (fn : list R -> list R * Aux)
         (n m : nat) (L B : R) (y0 : list R) fs auxs allfinite fuel budget throw sol,
    let r x := fst (fn x) in let J := jac_of fn in
    (0 <= rtol)%R -> (0 < atol)%R ->
    (0 <= eps)%R -> (0 < fmax)%R -> exact_least_squares n lsolve ->
    residual_problem n m r J -> (0 < L)%R -> smooth n L (half_squares r) (ls_gradient r J) ->
    let rho := Rmin 1 (99 / (200 * L)) in
    (eps < rho)%R -> (0 <= B)%R -> jac_bounded n B J -> length y0 = n -> fs fill0 = zerov m ->
    let s := LevenbergMarquardt (N:=RN) (mkTols rtol atol max_norm) jac_of lsolve eps fmax in
    iterative_solve allfinite s fn fuel budget throw y0 fs auxs = Ret sol -> result sol = successful ->
    (value sol = y0 /\ forall i a, nth_error (r y0) i = Some a -> ((1 - rtol) * Rabs a < atol)%R) \/
    exists x : list R, length x = n /\ (half_squares r (value sol) <= half_squares r x)%R /\
      let g := ls_gradient r J x in let tol := tolerances rtol atol (value sol) in
      (Rdot g g <= (B + / rho) * (B + / rho) * Rdot tol tol)%R.
Proof. exact C96_levenberg_marquardt_pf. Qed.
Print Assumptions C96_levenberg_marquardt.

(** Hence, if rtol < 1 and the gradient J^T r dominates the excess of 1/2 |r|^2 over the
    lower bound [low], the returned value is nearly optimal. *)
Theorem C96_levenberg_marquardt_optimum :
  forall (Aux : Type) (rtol atol eps fmax : R) lsolve jac_of (fn : list R -> list R * Aux)
         (n m : nat) (L B mu low : R) (y0 : list R) fs auxs allfinite fuel budget throw sol,
    let r x := fst (fn x) in let J := jac_of fn in
    (0 <= rtol < 1)%R -> (0 < atol)%R ->
    (0 <= eps)%R -> (0 < fmax)%R -> exact_least_squares n lsolve ->
    residual_problem n m r J -> (0 < L)%R -> smooth n L (half_squares r) (ls_gradient r J) ->
    let rho := Rmin 1 (99 / (200 * L)) in
    (eps < rho)%R -> (0 <= B)%R -> jac_bounded n B J -> length y0 = n -> fs fill0 = zerov m ->
    (0 < mu)%R -> dominated n mu low (half_squares r) (ls_gradient r J) ->
    let s := LevenbergMarquardt (N:=RN) (mkTols rtol atol max_norm) jac_of lsolve eps fmax in
    iterative_solve allfinite s fn fuel budget throw y0 fs auxs = Ret sol -> result sol = successful ->
    let tol := tolerances rtol atol (value sol) in
    (half_squares r (value sol) - low <=
     Rmax (INR m / 2 * (atol / (1 - rtol) * (atol / (1 - rtol))) - low)
          ((B + / rho) * (B + / rho) * Rdot tol tol / (2 * mu)))%R.
Proof. exact C96_levenberg_marquardt_optimum_pf. Qed.
Print Assumptions C96_levenberg_marquardt_optimum.

(** f(x) = x^2 (L = mu = 2, low = 0) from x = 1 with rate 1/4 and tolerances 1/10: the
    solve succeeds and returns a point with x^2 <= 4 (1/10 + |x|/10)^2. *)
Example C96_gradient_descent_ex :
  smooth 1 2 square1 square1_grad /\ dominated 1 2 0 square1 square1_grad /\
  let s := GradientDescent (N:=RN) (Aux:=unit) (mkTols (N:=RN) (1/10)%R (1/10)%R max_norm) (fun _ => square1_grad) (1/4)%R in
  exists sol, iterative_solve (vallfinite (N:=RN)) s (fun v => (square1 v, tt)) 100 None true [1%R] (fun _ => 0%R) (fun _ => tt) = Ret sol /\
    result sol = successful /\
    let tol := tolerances (1/10) (1/10) (value sol) in (square1 (value sol) <= 4 * Rdot tol tol)%R.
Proof. exact C96_gradient_descent_ex_pf. Qed.

(** Same with backtracking (decrease 1/2, slope 1/10, initial step 4): tmin = 9/20. *)
Example C96_backtracking_ex :
  let s := gradient_descent_solver (N:=RN) (Aux:=unit) (mkTols (N:=RN) (1/10)%R (1/10)%R max_norm)
             (armijo (N:=RN) (1/2)%R (1/10)%R 4%R) (steepest_descent None) (fun _ => square1_grad) in
  exists fuel sol, iterative_solve (vallfinite (N:=RN)) s (fun v => (square1 v, tt)) fuel None true [1%R] (fun _ => 0%R) (fun _ => tt) = Ret sol /\
    result sol = successful /\
    let tol := tolerances (1/10) (1/10) (value sol) in (square1 (value sol) <= 100 / 81 * Rdot tol tol)%R.
Proof. exact C96_backtracking_ex_pf. Qed.

(** The hyperbola of C71 (1/2 |r|^2 = x^2 + 1/2, L = B = mu = 2, low = 1/2), tolerances 1/10
    and 1, from x = 2. *)
Example C96_levenberg_marquardt_ex :
  let r x := fst (hyperbola x) in
  let s := LevenbergMarquardt (N:=RN) (mkTols (N:=RN) (1/10)%R 1%R max_norm) hyperbola_jac lsolve1 (1/100)%R 1000%R in
  exists fuel sol, iterative_solve (vallfinite (N:=RN)) s hyperbola fuel None true [2%R] (fun _ => [0; 0]%R) (fun _ => tt) = Ret sol /\
    result sol = successful /\
    let tol := tolerances (1/10) 1 (value sol) in
    (half_squares r (value sol) - 1/2 <= Rmax (100/81 - 1/2) ((2 + 400/99) * (2 + 400/99) * Rdot tol tol / 4))%R.
Proof. exact C96_levenberg_marquardt_ex_pf. Qed.
