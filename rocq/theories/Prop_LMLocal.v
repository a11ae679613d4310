(** Property theorems: LMLocal.
    Statements only; each is closed by the lemma of the same name (suffix _pf)
    in the proof file.  [Example]s show concrete cases meeting the hypotheses. *)

From Coq Require Import String List Bool Arith Lia ZArith QArith Qreals Reals Lra Psatz.
From Verif Require Import Num NumFacts Vec Results Iterate Spec_Iterate Iterate_proofs.
From Verif Require Import Spec_Vec VecFacts Spec_Lin LinFacts.
From Verif Require Import Search Spec_Search Descent Minimisers Solvers Minimisers_proofs.
From Verif Require Import TrustRegion_proofs LeastSquares_proofs Dogleg_proofs Spec_Steps Steps_proofs Spec_Convergence Convergence_proofs.
From Verif Require Import GaussNewton_proofs DoglegConv_proofs IndirectConv_proofs GaussNewtonConv_proofs Spec_Rates Rates_proofs.
Import ListNotations.
Local Open Scope nat_scope.
From Verif Require Import LMLocal_proofs.

(** Levenberg-Marquardt in exact arithmetic with exact least-squares solves, from any start.  Let [root] be a zero of the residuals near
    which sigma |v|^2 <= |J v|^2 <= b^2 |v|^2 and the linearisation error of the residuals is at most gamma |x' - x|^2, with rho small:
    b gamma rho + 3 gamma^2 rho^2 < sigma / 200.  Once an iterate is within rho of the root (and the radius above the cut-off eps), no
    step is rejected any more; while the iterate is not at the root the radius grows by 7/2 at each step; the distance to the root shrinks
    by a fixed factor, and superlinearly. *)
Theorem C101_entering :
  forall (Aux : Type) (P : ar_tols RN) (eps fmax : R) lsolve jac_of (fn : list R -> list R * Aux)
         (n m : nat) (y0 root : list R) fs auxs (sigma b gamma rho : R) st0 (j : nat),
    let r x := fst (fn x) in let J := jac_of fn in
    let near x := length x = n /\ (Rnorm (Rsub_v x root) <= rho)%R in
    (0 <= eps)%R -> (0 < fmax)%R -> exact_least_squares n lsolve -> residual_problem n m r J ->
    length root = n -> r root = zerov m -> (0 < sigma)%R -> (0 <= b)%R -> (0 <= gamma)%R ->
    (forall x v, near x -> length v = n ->
       sigma * Rdot v v <= Rdot (op_mv (J x) v) (op_mv (J x) v) /\ Rdot (op_mv (J x) v) (op_mv (J x) v) <= b * b * Rdot v v)%R ->
    (forall x x', near x -> near x' ->
       Rnorm (Rsub_v (Rsub_v (r x') (r x)) (op_mv (J x) (Rsub_v x' x))) <= gamma * Rdot (Rsub_v x' x) (Rsub_v x' x))%R ->
    (b * gamma * rho + 3 * (gamma * rho) * (gamma * rho) < sigma / 200)%R -> length y0 = n ->
    let s := LevenbergMarquardt (N:=RN) P jac_of lsolve eps fmax in
    s_init s fn y0 fs auxs = Ret st0 ->
    let y k : list R := y_at s fn y0 st0 (auxs fill0) (S (j + k)) in
    let st k := st_at s fn y0 st0 (auxs fill0) (S (j + k)) in
    let radius k : R := gn_search_state (st k) in
    near (y 0) -> (eps < radius 0%nat)%R ->
    let e k := Rnorm (Rsub_v (y k) root) in
    let l := (/ radius 0%nat)%R in let q := ((l + b * gamma * rho) / (l + sigma))%R in
    (forall k, gn_num_accepted_steps (st k) = gn_num_accepted_steps (st 0) + k) /\
    (forall k, y k = root \/ radius k = (radius 0%nat * (7 / 2) ^ k)%R) /\
    (q < 1)%R /\ (forall k, e (S k) <= q * e k)%R /\
    (forall k, e (S k) <= (l * (2 / 7) ^ k + b * gamma * e k) / sigma * e k)%R /\
    (forall theta, (0 < theta)%R -> exists K, forall k, K <= k -> (e (S k) <= theta * e k)%R).
Proof. exact C101_entering_pf. Qed.
Print Assumptions C101_entering.

(** In particular when started within rho of a zero [root] of the residuals near
    which sigma |v|^2 <= |J v|^2 <= b^2 |v|^2 and the linearisation error of the residuals is at most gamma |x' - x|^2, with rho small:
    b gamma rho + 3 gamma^2 rho^2 < sigma / 200.  No step is rejected; while the iterate is not at the root the radius grows by 7/2 at each
    step; the distance to the root shrinks by at least the factor (1 + b gamma rho) / (1 + sigma), and superlinearly: the factor of the
    k-th step is at most ((2/7)^k + b gamma |y_k - root|) / sigma, which tends to 0. *)
Theorem C101_superlinear :
  forall (Aux : Type) (P : ar_tols RN) (eps fmax : R) lsolve jac_of (fn : list R -> list R * Aux)
         (n m : nat) (y0 root : list R) fs auxs (sigma b gamma rho : R) st0,
    let r x := fst (fn x) in let J := jac_of fn in
    let near x := length x = n /\ (Rnorm (Rsub_v x root) <= rho)%R in
    (0 <= eps < 1)%R -> (0 < fmax)%R -> exact_least_squares n lsolve -> residual_problem n m r J ->
    length root = n -> r root = zerov m -> (0 < sigma)%R -> (0 <= b)%R -> (0 <= gamma)%R ->
    (forall x v, near x -> length v = n ->
       sigma * Rdot v v <= Rdot (op_mv (J x) v) (op_mv (J x) v) /\ Rdot (op_mv (J x) v) (op_mv (J x) v) <= b * b * Rdot v v)%R ->
    (forall x x', near x -> near x' ->
       Rnorm (Rsub_v (Rsub_v (r x') (r x)) (op_mv (J x) (Rsub_v x' x))) <= gamma * Rdot (Rsub_v x' x) (Rsub_v x' x))%R ->
    (b * gamma * rho + 3 * (gamma * rho) * (gamma * rho) < sigma / 200)%R -> near y0 ->
    let s := LevenbergMarquardt (N:=RN) P jac_of lsolve eps fmax in
    s_init s fn y0 fs auxs = Ret st0 ->
    let y k : list R := y_at s fn y0 st0 (auxs fill0) (S k) in
    let st k := st_at s fn y0 st0 (auxs fill0) (S k) in
    let e k := Rnorm (Rsub_v (y k) root) in
    let q := ((1 + b * gamma * rho) / (1 + sigma))%R in
    y 0 = y0 /\
    (forall k, gn_num_accepted_steps (st k) = S k) /\
    (forall k, y k = root \/ gn_search_state (st k) = ((7 / 2) ^ k)%R) /\
    (q < 1)%R /\ (forall k, e (S k) <= q * e k)%R /\
    (forall k, e (S k) <= ((2 / 7) ^ k + b * gamma * e k) / sigma * e k)%R /\
    (forall theta, (0 < theta)%R -> exists K, forall k, K <= k -> (e (S k) <= theta * e k)%R).
Proof. exact C101_superlinear_pf. Qed.
Print Assumptions C101_superlinear.

(** If every linear solve reports success, the solve then succeeds within K + 2 steps once 2 rho q^K and 2 (b + 2 gamma rho) rho q^K are
    below atol, at a point within rho q^(k-1) of the root, k being the number of steps. *)
Theorem C101_terminates :
  forall (Aux : Type) (rtol atol eps fmax : R) lsolve jac_of (fn : list R -> list R * Aux)
         (n m : nat) (y0 root : list R) fs auxs (sigma b gamma rho : R) (K : nat),
    let r x := fst (fn x) in let J := jac_of fn in
    let near x := length x = n /\ (Rnorm (Rsub_v x root) <= rho)%R in
    (0 <= eps < 1)%R -> (0 < fmax)%R -> exact_least_squares n lsolve -> (forall A c, snd (lsolve A c) = successful) -> residual_problem n m r J ->
    length root = n -> r root = zerov m -> (0 < sigma)%R -> (0 <= b)%R -> (0 <= gamma)%R ->
    (forall x v, near x -> length v = n ->
       sigma * Rdot v v <= Rdot (op_mv (J x) v) (op_mv (J x) v) /\ Rdot (op_mv (J x) v) (op_mv (J x) v) <= b * b * Rdot v v)%R ->
    (forall x x', near x -> near x' ->
       Rnorm (Rsub_v (Rsub_v (r x') (r x)) (op_mv (J x) (Rsub_v x' x))) <= gamma * Rdot (Rsub_v x' x) (Rsub_v x' x))%R ->
    (b * gamma * rho + 3 * (gamma * rho) * (gamma * rho) < sigma / 200)%R -> near y0 -> (0 <= rtol)%R -> (0 < atol)%R ->
    let q := ((1 + b * gamma * rho) / (1 + sigma))%R in
    (2 * rho * q ^ K < atol)%R -> (2 * (b + 2 * gamma * rho) * rho * q ^ K < atol)%R ->
    let s := LevenbergMarquardt (N:=RN) (mkTols rtol atol max_norm) jac_of lsolve eps fmax in
    exists k, 1 <= k <= K + 2 /\
      forall fuel budget throw, k < fuel -> (forall j, budget = Some j -> k <= j) ->
        exists sol, iterative_solve (vallfinite (N:=RN)) s fn fuel budget throw y0 fs auxs = Ret sol /\
          result sol = successful /\ (Rnorm (Rsub_v (value sol) root) <= rho * q ^ pred k)%R /\
          hd_error (sol_stats sol) = Some ("num_steps"%string, Some (Z.of_nat k)).
Proof. exact C101_terminates_pf. Qed.
Print Assumptions C101_terminates.

Example C101_superlinear_ex :
  let s := LevenbergMarquardt (N:=RN) (mkTols (N:=RN) (1/10)%R (1/100)%R max_norm) para_jac lsolve1 (1/100)%R 1000%R in
  exists st0, s_init s para [(1 / 400)%R] (fun _ => [0%R]) (fun _ => tt) = Ret st0 /\
  let e k := Rnorm (Rsub_v (y_at s para [(1 / 400)%R] st0 tt (S k) : list R) [0%R]) in
  forall theta, (0 < theta)%R -> exists K, forall k, K <= k -> (e (S k) <= theta * e k)%R.
Proof. exact C101_superlinear_ex_pf. Qed.

Example C101_terminates_ex :
  let s := LevenbergMarquardt (N:=RN) (mkTols (N:=RN) (1/10)%R (1/1000)%R max_norm) para_jac lsolve1 (1/100)%R 1000%R in
  exists k, 1 <= k <= 6 /\
    forall fuel budget throw, k < fuel -> (forall j, budget = Some j -> k <= j) ->
      exists sol, iterative_solve (vallfinite (N:=RN)) s para fuel budget throw [(1 / 400)%R] (fun _ => [0%R]) (fun _ => tt) = Ret sol /\
        result sol = successful.
Proof. exact C101_terminates_ex_pf. Qed.

(** Globally: for least squares with 1/2 |r|^2 smooth and |J^T r|^2 >= mu |r|^2 everywhere (C83's setting), residuals bounding the distance
    to their zero (c |x - root|^2 <= |r x|^2) and the local conditions above near it, Levenberg-Marquardt comes within rho of the root from
    every start, after which it never rejects a step, and its convergence is superlinear. *)
Theorem C101_global :
  forall (Aux : Type) (P : ar_tols RN) (eps fmax : R) lsolve jac_of (fn : list R -> list R * Aux)
         (n m : nat) (y0 root : list R) fs auxs (L B mu c sigma b gamma rho : R) st0,
    let r x := fst (fn x) in let J := jac_of fn in
    let near x := length x = n /\ (Rnorm (Rsub_v x root) <= rho)%R in
    (0 <= eps)%R -> (0 < fmax)%R -> exact_least_squares n lsolve -> residual_problem n m r J ->
    smooth n L (half_squares r) (ls_gradient r J) -> (0 <= B)%R -> jac_bounded n B J ->
    (0 < mu <= L)%R -> (forall x, length x = n -> mu * Rdot (r x) (r x) <= Rdot (ls_gradient r J x) (ls_gradient r J x))%R ->
    (eps < Rmin 1 (99 / (200 * L)))%R ->
    (0 < c)%R -> (forall x, length x = n -> c * Rdot (Rsub_v x root) (Rsub_v x root) <= Rdot (r x) (r x))%R ->
    length root = n -> r root = zerov m -> (0 < sigma)%R -> (0 <= b)%R -> (0 <= gamma)%R -> (0 < rho)%R ->
    (forall x v, near x -> length v = n ->
       sigma * Rdot v v <= Rdot (op_mv (J x) v) (op_mv (J x) v) /\ Rdot (op_mv (J x) v) (op_mv (J x) v) <= b * b * Rdot v v)%R ->
    (forall x x', near x -> near x' ->
       Rnorm (Rsub_v (Rsub_v (r x') (r x)) (op_mv (J x) (Rsub_v x' x))) <= gamma * Rdot (Rsub_v x' x) (Rsub_v x' x))%R ->
    (b * gamma * rho + 3 * (gamma * rho) * (gamma * rho) < sigma / 200)%R -> length y0 = n ->
    let s := LevenbergMarquardt (N:=RN) P jac_of lsolve eps fmax in
    s_init s fn y0 fs auxs = Ret st0 ->
    let y k : list R := y_at s fn y0 st0 (auxs fill0) k in
    let st k := st_at s fn y0 st0 (auxs fill0) k in
    let e k := Rnorm (Rsub_v (y k) root) in
    exists j, near (y (S j)) /\ (eps < (gn_search_state (st (S j)) : R))%R /\
      (forall k, S j <= k -> gn_num_accepted_steps (st (S k)) = S (gn_num_accepted_steps (st k))) /\
      (forall theta, (0 < theta)%R -> exists K, forall k, K <= k -> (e (S k) <= theta * e k)%R) /\
      (forall delta, (0 < delta)%R -> exists K, forall k, K <= k -> (e k < delta)%R).
Proof. exact C101_global_pf. Qed.
Print Assumptions C101_global.

Example C101_global_ex :
  let s := LevenbergMarquardt (N:=RN) (mkTols (N:=RN) (1/10)%R 1%R max_norm) hyperbola_jac lsolve1 (1/100)%R 1000%R in
  let st0 := gn_st0 (N:=RN) (classical_trust_region (N:=RN) tr_default) (damped_newton_descent (N:=RN) lsolve1 (1/100)%R 1000%R) [2%R] (fun _ => [0; 0]%R) (fun _ => tt) in
  let y k := y_at s cup [2%R] st0 tt k in let e k := Rnorm (Rsub_v (y k) [0%R]) in
  s_init s cup [2%R] (fun _ => [0; 0]%R) (fun _ => tt) = Ret st0 /\
  (exists j, (e (S j) <= 1 / 1000)%R) /\
  (forall theta, (0 < theta)%R -> exists K, forall k, K <= k -> (e (S k) <= theta * e k)%R).
Proof. exact C101_global_ex_pf. Qed.

Example C101_entering_ex :
  let s := LevenbergMarquardt (N:=RN) (mkTols (N:=RN) (1/10)%R 1%R max_norm) hyperbola_jac lsolve1 (1/100)%R 1000%R in
  let st0 := gn_st0 (N:=RN) (classical_trust_region (N:=RN) tr_default) (damped_newton_descent (N:=RN) lsolve1 (1/100)%R 1000%R) [2%R] (fun _ => [0; 0]%R) (fun _ => tt) in
  let y k := y_at s cup [2%R] st0 tt k in let radius k : R := gn_search_state (st_at s cup [2%R] st0 tt k) in
  exists j, (length (y (S (j + 0))) = 1%nat /\ (Rnorm (Rsub_v (y (S (j + 0))) [0%R]) <= 1 / 1000)%R) /\ (1 / 100 < radius (S (j + 0)))%R /\
    forall k, y (S (j + k)) = [0%R] \/ radius (S (j + k)) = (radius (S (j + 0)) * (7 / 2) ^ k)%R.
Proof. exact C101_entering_ex_pf. Qed.
