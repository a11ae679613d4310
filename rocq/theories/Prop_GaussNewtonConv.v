(** Property theorems: GaussNewtonConv.
    Statements only; each is closed by the lemma of the same name (suffix _pf)
    in the proof file.  [Example]s show concrete cases meeting the hypotheses. *)

From Coq Require Import String List Bool Arith Lia ZArith QArith Qreals Reals Lra Psatz.
From Verif Require Import Num NumFacts Vec Results Iterate Spec_Iterate Iterate_proofs.
From Verif Require Import Spec_Vec VecFacts Spec_Lin LinFacts.
From Verif Require Import Search Spec_Search Descent Minimisers Solvers Minimisers_proofs.
From Verif Require Import TrustRegion_proofs LeastSquares_proofs Dogleg_proofs Spec_Steps Steps_proofs Spec_Convergence Convergence_proofs.
From Verif Require Import GaussNewton_proofs DoglegConv_proofs.
Import ListNotations.
Local Open Scope nat_scope.
From Verif Require Import GaussNewtonConv_proofs.

(** Gauss-Newton in exact arithmetic with exact least-squares solves, started within rho of
    a point [root] near which |J v|^2 >= sigma |v|^2 and the projected linearisation error
    J(x)^T (r(x) - J(x)(x - root)) is at most sigma q |x - root| with q < 1 (so root is a
    stationary point, with a zero or a small residual).  After the first step, which stays
    at y0, every step brings the iterate closer to root by the factor q; if the error is
    quadratic so is the convergence; and the solve succeeds within K + 2 steps once
    2 rho q^K and 2 L rho q^K are below atol, L being a Lipschitz constant of r. *)
Theorem C80_local_convergence :
  forall (Aux : Type) (rtol atol : R) lsolve jac_of (fn : list R -> list R * Aux)
         (n m : nat) (root y0 : list R) (sigma q rho : R) fs auxs,
    let r x := fst (fn x) in let J := jac_of fn in
    let dist2 a b := Rdot (Rsub_v a b) (Rsub_v a b) in
    let near x := length x = n /\ (dist2 x root <= rho * rho)%R in
    let error x := op_mvT (J x) (Rsub_v (r x) (op_mv (J x) (Rsub_v x root))) in
    exact_least_squares n lsolve -> (forall A b, snd (lsolve A b) = successful) ->
    (forall x, near x -> length (r x) = m /\ linear_op n m (J x) /\ transpose_op n (J x)) ->
    (0 < sigma)%R ->
    (forall x v, near x -> length v = n -> sigma * Rdot v v <= Rdot (op_mv (J x) v) (op_mv (J x) v))%R ->
    (0 <= q < 1)%R -> (0 <= rho)%R ->
    (forall x, near x -> Rdot (error x) (error x) <= (sigma * q) * (sigma * q) * dist2 x root)%R ->
    length root = n -> near y0 -> (0 <= rtol)%R -> (0 < atol)%R ->
    let s := GaussNewton (N:=RN) (mkTols rtol atol max_norm) jac_of lsolve in
    forall st0, s_init s fn y0 fs auxs = Ret st0 ->
    let y := y_at s fn y0 st0 (auxs fill0) in
    y 1 = y0 /\
    (forall k, dist2 (y (S (S k))) root <= q * q * dist2 (y (S k)) root)%R /\
    (forall gamma, (forall x, near x -> Rdot (error x) (error x) <= (sigma * gamma) * (sigma * gamma) * (dist2 x root * dist2 x root))%R ->
       forall k, dist2 (y (S (S k))) root <= gamma * gamma * (dist2 (y (S k)) root * dist2 (y (S k)) root))%R /\
    forall L K, (0 <= L)%R ->
      (forall x x', near x -> near x' -> Rdot (Rsub_v (r x) (r x')) (Rsub_v (r x) (r x')) <= L * L * dist2 x x')%R ->
      (2 * rho * q ^ K < atol)%R -> (2 * L * rho * q ^ K < atol)%R ->
      exists k, 1 <= k <= K + 2 /\
        forall fuel budget throw, k < fuel -> (forall j, budget = Some j -> k <= j) ->
          exists sol, iterative_solve (vallfinite (N:=RN)) s fn fuel budget throw y0 fs auxs = Ret sol /\
            result sol = successful /\ (dist2 (value sol) root <= rho * q ^ pred k * (rho * q ^ pred k))%R /\
            hd_error (sol_stats sol) = Some ("num_steps"%string, Some (Z.of_nat k)).
Proof. exact C80_local_convergence_pf. Qed.
Print Assumptions C80_local_convergence.

Example C80_local_convergence_ex :
  let s := GaussNewton (N:=RN) (mkTols (N:=RN) 0%R (1/100)%R max_norm) bowl_jac lsolve1 in
  exists k, 1 <= k <= 11 /\
    forall fuel budget throw, k < fuel -> (forall j, budget = Some j -> k <= j) ->
      exists sol, iterative_solve (vallfinite (N:=RN)) s bowl fuel budget throw [1%R] (fun _ => [0; 0]%R) (fun _ => tt) = Ret sol /\
        result sol = successful.
Proof. exact C80_local_convergence_ex_pf. Qed.
