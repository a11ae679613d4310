(** Property theorems: LMPath.
    Statements only; each is closed by the lemma of the same name (suffix _pf)
    in the proof file.  [Example]s show concrete cases meeting the hypotheses. *)

From Coq Require Import String List Bool Arith Lia ZArith QArith Qreals Reals Lra Psatz.
From Verif Require Import Num NumFacts Vec Results Iterate Spec_Iterate Iterate_proofs.
From Verif Require Import Spec_Vec VecFacts Spec_Lin LinFacts Spec_Solvable SolvableFacts.
From Verif Require Import Search Spec_Search Descent Minimisers Solvers Minimisers_proofs.
From Verif Require Import TrustRegion_proofs LeastSquares_proofs Dogleg_proofs Spec_Steps Steps_proofs Spec_Convergence Convergence_proofs DoglegConv_proofs.
From Verif Require Import Spec_Rates Rates_proofs Spec_Success Success_proofs LMLocal_proofs Spec_Convex Convex_proofs Nonexpansive_proofs Spec_Related Related_proofs Spec_Limit Limit_proofs Path_proofs Spec_LMPath.
Import ListNotations.
Local Open Scope R_scope.
From Verif Require Import LMPath_proofs.

(** LevenbergMarquardt, exact arithmetic and least-squares solves, on residuals whose Jacobian has full row rank everywhere
    (sigma |u|^2 <= |J^T u|^2 <= B |u|^2; usually there are more unknowns than residuals, so no solution is isolated and J^T J is singular) and
    1/2 |r|^2 L-smooth: the residuals have a zero, the iterates converge to one, at a linear rate, and the path after step k stays
    within a distance of order |r(y_k)|. That a zero exists is not assumed. *)
Theorem C127_levenberg_marquardt :
  forall (Aux : Type) (P : ar_tols RN) (eps fmax : R) lsolve jac_of (fn : list R -> list R * Aux)
         (n m : nat) (L B sigma : R) (y0 : list R) fs auxs st0 (q : nat),
    let r x := fst (fn x) in let J := jac_of fn in
    0 <= eps -> 0 < fmax -> exact_least_squares n lsolve ->
    residual_problem n m r J -> smooth n L (half_squares r) (ls_gradient r J) -> 0 < L ->
    0 < B -> jac_bounded n B J -> 0 < sigma -> jac_onto n m sigma J ->
    let rho := Rmin 1 (99 / (200 * L)) in
    eps < rho -> length y0 = n -> 1 <= 4 ^ q * rho ->
    let s := LevenbergMarquardt (N:=RN) P jac_of lsolve eps fmax in
    s_init s fn y0 fs auxs = Ret st0 ->
    let y : nat -> list R := y_at s fn y0 st0 (auxs fill0) in
    let far := 80000 * B / (sigma * sigma) in
    let theta := 1 - Rmin sigma L / (100 * (B + / rho)) in
    (forall k j, (k <= j)%nat -> dist2 (y (S j)) (y (S k)) <= far * half_squares r (y (S k))) /\
    exists z, length z = n /\ r z = repeat 0 m /\ tends_to y z /\
      (forall k, dist2 (y (S k)) z <= far * half_squares r (y (S k))) /\
      0 <= theta < 1 /\ forall j, dist2 (y (2 * j + 2 + q)%nat) z <= far * half_squares r y0 * theta ^ j.
Proof. exact C127_levenberg_marquardt_pf. Qed.
Print Assumptions C127_levenberg_marquardt.

(** It also stops. Every linear solve reporting success, LevenbergMarquardt with max_norm reports success within 4 K + 3 q + 6 steps, where
    max(far, 8) theta^K 1/2 |r(y0)|^2 < atol^2; its answer is within squared distance far 1/2 |r(y0)|^2 of y0, and within far 1/2 |r(answer)|^2 of a zero
    of the residuals. C71 needs full column rank instead. *)
Theorem C127_terminates :
  forall (Aux : Type) (rtol atol eps fmax : R) lsolve jac_of (fn : list R -> list R * Aux)
         (n m : nat) (L B sigma : R) (y0 : list R) fs auxs (q K : nat),
    let r x := fst (fn x) in let J := jac_of fn in
    0 <= eps -> 0 < fmax -> exact_least_squares n lsolve -> (forall A b, snd (lsolve A b) = successful) ->
    residual_problem n m r J -> smooth n L (half_squares r) (ls_gradient r J) -> 0 < L ->
    0 < B -> jac_bounded n B J -> 0 < sigma -> jac_onto n m sigma J ->
    let rho := Rmin 1 (99 / (200 * L)) in
    eps < rho -> length y0 = n -> 0 <= rtol -> 0 < atol -> 1 <= 4 ^ q * rho ->
    let far := 80000 * B / (sigma * sigma) in
    let theta := 1 - Rmin sigma L / (100 * (B + / rho)) in
    Rmax far 8 * (theta ^ K * half_squares r y0) < atol * atol ->
    let s := LevenbergMarquardt (N:=RN) (mkTols rtol atol max_norm) jac_of lsolve eps fmax in
    exists k, (k <= 4 * K + 3 * q + 6)%nat /\
      forall fuel budget throw, (k < fuel)%nat -> (forall j, budget = Some j -> (k <= j)%nat) ->
        exists sol, iterative_solve (vallfinite (N:=RN)) s fn fuel budget throw y0 fs auxs = Ret sol /\ result sol = successful /\
          dist2 (value sol) y0 <= far * half_squares r y0 /\
          exists z, length z = n /\ r z = repeat 0 m /\ dist2 (value sol) z <= far * half_squares r (value sol).
Proof. exact C127_terminates_pf. Qed.
Print Assumptions C127_terminates.

Example C127_levenberg_marquardt_ex :
  let s := LevenbergMarquardt (N:=RN) (mkTols (N:=RN) (1/1000) (1/1000) max_norm) on_line_jac (least_squares 2) (1/100) 1000 in
  exists st0, s_init s on_line [5; -7] (fun _ => [0]) (fun _ => tt) = Ret st0 /\
  exists a b, a + b = 1 /\ tends_to (y_at s on_line [5; -7] st0 tt) [a; b].
Proof. exact C127_levenberg_marquardt_ex_pf. Qed.

Example C127_terminates_ex :
  let s := LevenbergMarquardt (N:=RN) (mkTols (N:=RN) (1/1000) (1/1000) max_norm) on_line_jac (least_squares 2) (1/100) 1000 in
  exists k, forall fuel throw, (k < fuel)%nat ->
    exists sol, iterative_solve (vallfinite (N:=RN)) s on_line fuel None throw [5; -7] (fun _ => [0]) (fun _ => tt) = Ret sol /\ result sol = successful /\
      dist2 (value sol) [5; -7] <= 80000 * 2 / (2 * 2) * (9 / 2).
Proof. exact C127_terminates_ex_pf. Qed.
