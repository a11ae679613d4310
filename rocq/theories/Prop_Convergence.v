(** Property theorems: Convergence.
    Statements only; each is closed by the lemma of the same name (suffix _pf)
    in the proof file.  [Example]s show concrete cases meeting the hypotheses. *)

From Coq Require Import String List Bool Arith Lia ZArith QArith Qreals Reals Lra Psatz.
From Verif Require Import Num NumFacts Vec Results Iterate Spec_Iterate Iterate_proofs.
From Verif Require Import Spec_Vec VecFacts Spec_Lin LinFacts.
From Verif Require Import Search Spec_Search Descent Minimisers Solvers Minimisers_proofs.
From Verif Require Import TrustRegion_proofs LeastSquares_proofs Dogleg_proofs Spec_Steps Steps_proofs Spec_Convergence.
Import ListNotations.
Local Open Scope nat_scope.
From Verif Require Import Convergence_proofs.

(** Exact arithmetic, exact least-squares solves, 1/2 |r|^2 below its tangent
    parabolas of curvature L: LevenbergMarquardt accepts every trial made with a
    trust-region radius of at most 1.98 / L; hence the radius never falls below
    rho = min (1, 0.495 / L); and of the first k steps at most half, plus q with
    4^q rho >= 1, are rejected. *)
Theorem C71_radius :
  forall (Aux : Type) (P : ar_tols RN) (eps fmax : R) lsolve jac_of (fn : list R -> list R * Aux)
         (n m : nat) (L : R) (y0 : list R) fs auxs st0,
    let r x := fst (fn x) in let J := jac_of fn in
    (0 <= eps)%R -> (0 < fmax)%R -> exact_least_squares n lsolve ->
    residual_problem n m r J -> (0 < L)%R -> smooth n L (half_squares r) (ls_gradient r J) ->
    let rho := Rmin 1 (99 / (200 * L)) in
    (eps < rho)%R -> length y0 = n ->
    let s := LevenbergMarquardt (N:=RN) P jac_of lsolve eps fmax in
    s_init s fn y0 fs auxs = Ret st0 ->
    let y := y_at s fn y0 st0 (auxs fill0) in
    let st := st_at s fn y0 st0 (auxs fill0) in
    let radius k : R := gn_search_state (st k) in
    let accepted k : nat := gn_num_accepted_steps (st k) in
    (forall k, (radius (S k) <= 99 / (50 * L))%R ->
       y (S (S k)) = gn_y_eval (st (S k)) /\ accepted (S (S k)) = S (accepted (S k))) /\
    (forall k, (rho <= radius (S k))%R) /\
    (forall q k, (1 <= 4 ^ q * rho)%R -> k <= 2 * accepted k + q).
Proof. exact C71_radius_pf. Qed.
Print Assumptions C71_radius.

(** If moreover |J v|^2 <= B |v|^2 everywhere, the gradient J^T r becomes small: if
    1/2 |r(y0)|^2 < K tau / (200 (B + 1/rho)), then one of the first 2 K + 1 + q
    iterates has |J^T r|^2 < tau. *)
Theorem C71_gradient :
  forall (Aux : Type) (P : ar_tols RN) (eps fmax : R) lsolve jac_of (fn : list R -> list R * Aux)
         (n m : nat) (L : R) (y0 : list R) fs auxs st0 (B tau : R) (q K : nat),
    let r x := fst (fn x) in let J := jac_of fn in
    (0 <= eps)%R -> (0 < fmax)%R -> exact_least_squares n lsolve ->
    residual_problem n m r J -> (0 < L)%R -> smooth n L (half_squares r) (ls_gradient r J) ->
    let rho := Rmin 1 (99 / (200 * L)) in
    (eps < rho)%R -> length y0 = n ->
    (0 <= B)%R -> jac_bounded n B J -> (0 < tau)%R -> (1 <= 4 ^ q * rho)%R ->
    (half_squares r y0 < INR K * (tau / (200 * (B + / rho))))%R ->
    let s := LevenbergMarquardt (N:=RN) P jac_of lsolve eps fmax in
    s_init s fn y0 fs auxs = Ret st0 ->
    exists k, k <= 2 * K + 1 + q /\
      let x : list R := y_at s fn y0 st0 (auxs fill0) k in
      (Rdot (ls_gradient r J x) (ls_gradient r J x) < tau)%R.
Proof. exact C71_gradient_pf. Qed.
Print Assumptions C71_gradient.

(** If the residuals are Lipschitz, |r(x+d) - r(x)|^2 <= B |d|^2, the Jacobian has
    uniformly full column rank, sigma |v|^2 <= |J v|^2, and every linear solve reports
    success, then LevenbergMarquardt succeeds within 2 K + 2 + q steps, where
    1/2 |r(y0)|^2 < K (sigma / 200) min (atol^2, atol^2 / B), at a point no worse than
    y0. *)
Theorem C71_terminates :
  forall (Aux : Type) (rtol atol eps fmax : R) lsolve jac_of (fn : list R -> list R * Aux)
         (n m : nat) (L : R) (y0 : list R) fs auxs (B sigma : R) (q K : nat),
    let r x := fst (fn x) in let J := jac_of fn in
    (0 <= eps)%R -> (0 < fmax)%R -> exact_least_squares n lsolve -> (forall A b, snd (lsolve A b) = successful) ->
    residual_problem n m r J -> (0 < L)%R -> smooth n L (half_squares r) (ls_gradient r J) ->
    let rho := Rmin 1 (99 / (200 * L)) in
    (eps < rho)%R -> length y0 = n -> (0 <= rtol)%R -> (0 < atol)%R ->
    (0 < B)%R -> residual_lipschitz n B r -> (0 < sigma)%R -> jac_injective n sigma J ->
    (1 <= 4 ^ q * rho)%R ->
    (half_squares r y0 < INR K * (sigma / 200 * Rmin (atol * atol) (atol * atol / B)))%R ->
    let s := LevenbergMarquardt (N:=RN) (mkTols rtol atol max_norm) jac_of lsolve eps fmax in
    exists k, k <= 2 * K + 2 + q /\
      forall fuel budget throw, k < fuel -> (forall j, budget = Some j -> k <= j) ->
        exists sol, iterative_solve (vallfinite (N:=RN)) s fn fuel budget throw y0 fs auxs = Ret sol /\
          result sol = successful /\ (half_squares r (value sol) <= half_squares r y0)%R /\
          hd_error (sol_stats sol) = Some ("num_steps"%string, Some (Z.of_nat k)).
Proof. exact C71_terminates_pf. Qed.
Print Assumptions C71_terminates.

Example C71_terminates_ex :
  let r x := fst (hyperbola x) in let J := hyperbola_jac hyperbola in
  residual_problem 1 2 r J /\ smooth 1 2 (half_squares r) (ls_gradient r J) /\
  jac_bounded 1 2 J /\ residual_lipschitz 1 2 r /\ jac_injective 1 1 J /\
  let s := LevenbergMarquardt (N:=RN) (mkTols (N:=RN) (1/10)%R 1%R max_norm) hyperbola_jac lsolve1 (1/100)%R 1000%R in
  exists k, k <= 2 * 2000 + 2 + 2 /\
    forall fuel budget throw, k < fuel -> (forall j, budget = Some j -> k <= j) ->
      exists sol, iterative_solve (vallfinite (N:=RN)) s hyperbola fuel budget throw [2%R] (fun _ => [0; 0]%R) (fun _ => tt) = Ret sol /\
        result sol = successful.
Proof. exact C71_terminates_ex_pf. Qed.

(** Steepest descent with BacktrackingArmijo (decrease de, slope sl, initial step ini)
    on an L-smooth f, exact arithmetic. From the iterate y with step size t, the next
    iterate is y - t g(y) and the step size returns to ini if
    f(y - t g(y)) <= f(y) - sl t |g(y)|^2; otherwise the iterate stays and t is
    multiplied by de. Steps with t L <= 2 (1 - sl) always pass the test, so t never
    falls below min (ini, 2 de (1 - sl) / L), and at most q consecutive steps are
    rejected if ini de^q L <= 2 (1 - sl). *)
Theorem C72_backtracking :
  forall (Aux : Type) (P : ar_tols RN) (de sl ini : R) grad_of (fn : list R -> R * Aux)
         (n : nat) (L : R) (f : list R -> R) (g : list R -> list R) (y0 : list R) fs auxs st0,
    (0 < de < 1 /\ 0 < sl < 1 /\ 0 < ini)%R -> (0 < L)%R -> smooth n L f g ->
    (forall x, fst (fn x) = f x) -> (forall x, grad_of fn x = g x) -> length y0 = n ->
    let s := gradient_descent_solver (N:=RN) P (armijo (N:=RN) de sl ini) (steepest_descent None) grad_of in
    s_init s fn y0 fs auxs = Ret st0 ->
    let y : nat -> list R := y_at s fn y0 st0 (auxs fill0) in
    let t (k : nat) : R := gd_search_state (st_at s fn y0 st0 (auxs fill0) k) in
    let moved k : list R := Radd_v (y k) (Rscal (- t k) (g (y k))) in
    let passes k := (f (moved k) <= f (y k) - sl * t k * Rdot (g (y k)) (g (y k)))%R in
    y 1 = y0 /\ t 1 = ini /\
    (forall k, (passes (S k) /\ y (S (S k)) = moved (S k) /\ t (S (S k)) = ini) \/
               (~ passes (S k) /\ y (S (S k)) = y (S k) /\ t (S (S k)) = (de * t (S k))%R)) /\
    (forall k, (t (S k) * L <= 2 * (1 - sl))%R -> passes (S k)) /\
    (forall k, (Rmin ini (2 * de * (1 - sl) / L) <= t (S k) <= ini)%R) /\
    (forall q k, (ini * de ^ q * L <= 2 * (1 - sl))%R -> t (S k) = ini ->
       exists j, j <= q /\ y (S (k + j)) = y (S k) /\ passes (S (k + j))).
Proof. exact C72_backtracking_pf. Qed.
Print Assumptions C72_backtracking.

(** If f is bounded below by low and f(y0) - low < K sl tmin tau with
    tmin = min (ini, 2 de (1 - sl) / L), one of the first K (q + 1) iterates has
    |g|^2 < tau. *)
Theorem C72_gradient :
  forall (Aux : Type) (P : ar_tols RN) (de sl ini : R) grad_of (fn : list R -> R * Aux)
         (n : nat) (L low tau : R) (f : list R -> R) (g : list R -> list R) (y0 : list R) fs auxs st0 (q K : nat),
    (0 < de < 1 /\ 0 < sl < 1 /\ 0 < ini)%R -> (0 < L)%R -> smooth n L f g ->
    (forall x, length x = n -> low <= f x)%R ->
    (forall x, fst (fn x) = f x) -> (forall x, grad_of fn x = g x) -> length y0 = n ->
    (ini * de ^ q * L <= 2 * (1 - sl))%R -> (0 < tau)%R ->
    (f y0 - low < INR K * (sl * Rmin ini (2 * de * (1 - sl) / L) * tau))%R ->
    let s := gradient_descent_solver (N:=RN) P (armijo (N:=RN) de sl ini) (steepest_descent None) grad_of in
    s_init s fn y0 fs auxs = Ret st0 ->
    exists k, k <= K * (q + 1) /\
      let x : list R := y_at s fn y0 st0 (auxs fill0) k in (Rdot (g x) (g x) < tau)%R.
Proof. exact C72_gradient_pf. Qed.
Print Assumptions C72_gradient.

(** With the default termination (max_norm, atol > 0, rtol >= 0) the solve succeeds
    within K (q + 1) + 1 steps if f(y0) - low < K min (sl atol^2 / ini, atol), at a
    point no worse than y0. *)
Theorem C72_terminates :
  forall (Aux : Type) (rtol atol de sl ini : R) grad_of (fn : list R -> R * Aux)
         (n : nat) (L low : R) (f : list R -> R) (g : list R -> list R) (y0 : list R) fs auxs (q K : nat),
    (0 < de < 1 /\ 0 < sl < 1 /\ 0 < ini)%R -> (0 < L)%R -> smooth n L f g ->
    (forall x, length x = n -> low <= f x)%R ->
    (forall x, fst (fn x) = f x) -> (forall x, grad_of fn x = g x) -> length y0 = n ->
    (ini * de ^ q * L <= 2 * (1 - sl))%R -> (0 < atol)%R -> (0 <= rtol)%R ->
    (f y0 - low < INR K * Rmin (sl * (atol * atol) / ini) atol)%R ->
    let s := gradient_descent_solver (N:=RN) (mkTols rtol atol max_norm) (armijo (N:=RN) de sl ini) (steepest_descent None) grad_of in
    exists k, k <= K * (q + 1) + 1 /\
      forall fuel budget throw, k < fuel -> (forall m, budget = Some m -> k <= m) ->
        exists sol, iterative_solve (vallfinite (N:=RN)) s fn fuel budget throw y0 fs auxs = Ret sol /\
          result sol = successful /\ (f (value sol) <= f y0)%R /\
          hd_error (sol_stats sol) = Some ("num_steps"%string, Some (Z.of_nat k)).
Proof. exact C72_terminates_pf. Qed.
Print Assumptions C72_terminates.

(** f(x) = x^2 with L = 2, decrease 1/2, slope 1/10, initial step 4 (at most 3
    consecutive rejections, since 4 / 8 * 2 <= 9 / 5), tolerance 1/10, from x = 1. *)
Example C72_terminates_ex :
  smooth 1 2 square1 square1_grad /\ (forall x, length x = 1 -> (0 <= square1 x)%R) /\
  let s := gradient_descent_solver (N:=RN) (Aux:=unit) (mkTols (N:=RN) (1/10)%R (1/10)%R max_norm)
             (armijo (N:=RN) (1/2)%R (1/10)%R 4%R) (steepest_descent None) (fun _ => square1_grad) in
  exists k, k <= 4001 * 4 + 1 /\
    forall fuel budget throw, k < fuel -> (forall m, budget = Some m -> k <= m) ->
      exists sol, iterative_solve (vallfinite (N:=RN)) s (fun v => (square1 v, tt)) fuel budget throw [1%R] (fun _ => 0%R) (fun _ => tt) = Ret sol /\
        result sol = successful.
Proof. exact C72_terminates_ex_pf. Qed.
