(** Property theorems: InexactGN.
    Statements only; each is closed by the lemma of the same name (suffix _pf)
    in the proof file.  [Example]s show concrete cases meeting the hypotheses. *)

From Coq Require Import String List Bool Arith Lia ZArith QArith Qreals Reals Lra Psatz.
From Verif Require Import Num NumFacts Vec Results Iterate Spec_Iterate Iterate_proofs.
From Verif Require Import Spec_Vec VecFacts Spec_Lin LinFacts.
From Verif Require Import Search Spec_Search Descent Minimisers Solvers Minimisers_proofs.
From Verif Require Import TrustRegion_proofs LeastSquares_proofs Dogleg_proofs Spec_Steps Steps_proofs Spec_Convergence Convergence_proofs.
From Verif Require Import GaussNewton_proofs DoglegConv_proofs GaussNewtonConv_proofs.
Import ListNotations.
Local Open Scope nat_scope.
From Verif Require Import InexactGN_proofs.

(** Gauss-Newton in exact arithmetic when the linear solver leaves a relative residual of at most eta in the
    normal equations J^T (J d - r) = 0.  Started within rho of a point [root] near which |J v|^2 >= sigma |v|^2,
    the projected linearisation error is at most sigma q |x - root| and the gradient J^T r at most
    sigma Lam |x - root|, with t = q + eta Lam < 1: after the first step, which stays at y0, every step brings the
    iterate closer to root by the factor t; if both the linearisation error and what the linear solver leaves are
    quadratic, so is the convergence; and the solve succeeds within K + 2 steps once 2 rho t^K and 2 L rho t^K are
    below atol, L being a Lipschitz constant of r. *)
Theorem C115_inexact_gauss_newton :
  forall (Aux : Type) (rtol atol : R) lsolve jac_of (fn : list R -> list R * Aux)
         (n m : nat) (root y0 : list R) (sigma q0 eta Lam rho : R) fs auxs,
    let r x := fst (fn x) in let J := jac_of fn in
    let dist2 a b := Rdot (Rsub_v a b) (Rsub_v a b) in
    let near x := length x = n /\ (dist2 x root <= rho * rho)%R in
    let error x := op_mvT (J x) (Rsub_v (r x) (op_mv (J x) (Rsub_v x root))) in
    let gradient x := op_mvT (J x) (r x) in
    let direction x := fst (lsolve (J x) (r x)) in
    let left_over x := op_mvT (J x) (Rsub_v (r x) (op_mv (J x) (direction x))) in
    (forall x, near x -> length (r x) = m /\ linear_op n m (J x) /\ transpose_op n (J x)) ->
    (forall x, near x -> snd (lsolve (J x) (r x)) = successful /\ length (direction x) = n /\
       (Rdot (left_over x) (left_over x) <= eta * eta * Rdot (gradient x) (gradient x))%R) ->
    (0 < sigma)%R ->
    (forall x v, near x -> length v = n -> sigma * Rdot v v <= Rdot (op_mv (J x) v) (op_mv (J x) v))%R ->
    (forall x, near x -> Rdot (error x) (error x) <= (sigma * q0) * (sigma * q0) * dist2 x root)%R ->
    (forall x, near x -> Rdot (gradient x) (gradient x) <= (sigma * Lam) * (sigma * Lam) * dist2 x root)%R ->
    let q := (q0 + eta * Lam)%R in
    (0 <= q0)%R -> (0 <= eta)%R -> (0 <= Lam)%R -> (q < 1)%R -> (0 <= rho)%R ->
    length root = n -> near y0 -> (0 <= rtol)%R -> (0 < atol)%R ->
    let s := GaussNewton (N:=RN) (mkTols rtol atol max_norm) jac_of lsolve in
    forall st0, s_init s fn y0 fs auxs = Ret st0 ->
    let y := y_at s fn y0 st0 (auxs fill0) in
    y 1 = y0 /\
    (forall k, dist2 (y (S (S k))) root <= q * q * dist2 (y (S k)) root)%R /\
    (forall gamma theta, (0 <= gamma)%R -> (0 <= theta)%R ->
       (forall x, near x -> Rdot (error x) (error x) <= (sigma * gamma) * (sigma * gamma) * (dist2 x root * dist2 x root))%R ->
       (forall x, near x -> Rdot (left_over x) (left_over x) <= (sigma * theta) * (sigma * theta) * (dist2 x root * dist2 x root))%R ->
       forall k, dist2 (y (S (S k))) root <= (gamma + theta) * (gamma + theta) * (dist2 (y (S k)) root * dist2 (y (S k)) root))%R /\
    forall L K, (0 <= L)%R ->
      (forall x x', near x -> near x' -> Rdot (Rsub_v (r x) (r x')) (Rsub_v (r x) (r x')) <= L * L * dist2 x x')%R ->
      (2 * rho * q ^ K < atol)%R -> (2 * L * rho * q ^ K < atol)%R ->
      exists k, 1 <= k <= K + 2 /\
        forall fuel budget throw, k < fuel -> (forall j, budget = Some j -> k <= j) ->
          exists sol, iterative_solve (vallfinite (N:=RN)) s fn fuel budget throw y0 fs auxs = Ret sol /\
            result sol = successful /\ (dist2 (value sol) root <= rho * q ^ pred k * (rho * q ^ pred k))%R /\
            hd_error (sol_stats sol) = Some ("num_steps"%string, Some (Z.of_nat k)).
Proof. exact C115_inexact_gauss_newton_pf. Qed.
Print Assumptions C115_inexact_gauss_newton.

Example C115_inexact_gauss_newton_ex :
  let s := GaussNewton (N:=RN) (mkTols (N:=RN) 0%R (1/100)%R max_norm) bowl_jac lsolve_short in
  exists k, 1 <= k <= 19 /\
    forall fuel budget throw, k < fuel -> (forall j, budget = Some j -> k <= j) ->
      exists sol, iterative_solve (vallfinite (N:=RN)) s bowl fuel budget throw [1%R] (fun _ => [0; 0]%R) (fun _ => tt) = Ret sol /\
        result sol = successful.
Proof. exact C115_inexact_gauss_newton_ex_pf. Qed.
