(** Property theorems: TrustLocal.
    Statements only; each is closed by the lemma of the same name (suffix _pf)
    in the proof file.  [Example]s show concrete cases meeting the hypotheses. *)

From Coq Require Import String List Bool Arith Lia ZArith QArith Qreals Reals Lra Psatz.
From Verif Require Import Num NumFacts Vec Results Iterate Spec_Iterate Iterate_proofs.
From Verif Require Import Spec_Vec VecFacts Spec_Lin LinFacts.
From Verif Require Import Search Spec_Search Descent Minimisers Solvers Minimisers_proofs.
From Verif Require Import TrustRegion_proofs LeastSquares_proofs Dogleg_proofs Spec_Steps Steps_proofs Spec_Convergence Convergence_proofs.
From Verif Require Import GaussNewton_proofs DoglegConv_proofs IndirectConv_proofs GaussNewtonConv_proofs LMLocal_proofs.
Import ListNotations.
Local Open Scope nat_scope.
From Verif Require Import TrustLocal_proofs.

(** Dogleg in exact arithmetic with exact least-squares solves, started within rho of a zero of the residuals near which
    sigma |v|^2 <= |J v|^2 <= b^2 |v|^2 and the linearisation error is at most gamma |x' - x|^2, with
    b gamma rho + 3 gamma^2 rho^2 < sigma / 200: no step is rejected, the iterates are those of the Gauss-Newton solver, and the distance
    to the zero falls quadratically: |y_(k+1) - root| <= b gamma / sigma |y_k - root|^2 (and at least by a factor 200 per step). *)
Theorem C102_dogleg :
  forall (Aux : Type) (P : ar_tols RN) (eps : R) lsolve jac_of (fn : list R -> list R * Aux)
         (n m : nat) (y0 root : list R) fs auxs (sigma b gamma rho : R) st0 st0',
    let r x := fst (fn x) in let J := jac_of fn in
    let near x := length x = n /\ (Rnorm (Rsub_v x root) <= rho)%R in
    (0 <= eps)%R -> exact_least_squares n lsolve -> residual_problem n m r J ->
    length root = n -> r root = zerov m -> (0 < sigma)%R -> (0 <= b)%R -> (0 <= gamma)%R ->
    (forall x v, near x -> length v = n ->
       sigma * Rdot v v <= Rdot (op_mv (J x) v) (op_mv (J x) v) /\ Rdot (op_mv (J x) v) (op_mv (J x) v) <= b * b * Rdot v v)%R ->
    (forall x x', near x -> near x' ->
       Rnorm (Rsub_v (Rsub_v (r x') (r x)) (op_mv (J x) (Rsub_v x' x))) <= gamma * Rdot (Rsub_v x' x) (Rsub_v x' x))%R ->
    (b * gamma * rho + 3 * (gamma * rho) * (gamma * rho) < sigma / 200)%R -> near y0 ->
    let s := Dogleg (N:=RN) P jac_of lsolve eps in
    let s' := GaussNewton (N:=RN) P jac_of lsolve in
    s_init s fn y0 fs auxs = Ret st0 -> s_init s' fn y0 fs auxs = Ret st0' ->
    let y k : list R := y_at s fn y0 st0 (auxs fill0) (S k) in
    let st k := st_at s fn y0 st0 (auxs fill0) (S k) in
    let e k := Rnorm (Rsub_v (y k) root) in
    y 0 = y0 /\
    (forall k, gn_num_accepted_steps (st k) = S k) /\ (forall k, (1 <= (gn_search_state (st k) : R))%R) /\
    (forall k, y_at s' fn y0 st0' (auxs fill0) (S k) = y k) /\
    (forall k, e (S k) <= b * gamma / sigma * (e k * e k))%R /\ (forall k, e k <= rho * (/ 200) ^ k)%R.
Proof. exact C102_dogleg_pf. Qed.
Print Assumptions C102_dogleg.

(** The same for IndirectLevenbergMarquardt, whatever its inner root finder (which is never asked). *)
Theorem C102_indirect_levenberg_marquardt :
  forall (Aux : Type) (P : ar_tols RN) (eps fmax : R) lsolve rfind jac_of (fn : list R -> list R * Aux)
         (n m : nat) (y0 root : list R) fs auxs (sigma b gamma rho : R) st0 st0',
    let r x := fst (fn x) in let J := jac_of fn in
    let near x := length x = n /\ (Rnorm (Rsub_v x root) <= rho)%R in
    (0 <= eps)%R -> (0 < fmax)%R -> exact_least_squares n lsolve -> residual_problem n m r J ->
    length root = n -> r root = zerov m -> (0 < sigma)%R -> (0 <= b)%R -> (0 <= gamma)%R ->
    (forall x v, near x -> length v = n ->
       sigma * Rdot v v <= Rdot (op_mv (J x) v) (op_mv (J x) v) /\ Rdot (op_mv (J x) v) (op_mv (J x) v) <= b * b * Rdot v v)%R ->
    (forall x x', near x -> near x' ->
       Rnorm (Rsub_v (Rsub_v (r x') (r x)) (op_mv (J x) (Rsub_v x' x))) <= gamma * Rdot (Rsub_v x' x) (Rsub_v x' x))%R ->
    (b * gamma * rho + 3 * (gamma * rho) * (gamma * rho) < sigma / 200)%R -> near y0 ->
    let s := IndirectLevenbergMarquardt (N:=RN) P jac_of lsolve eps fmax rfind in
    let s' := GaussNewton (N:=RN) P jac_of lsolve in
    s_init s fn y0 fs auxs = Ret st0 -> s_init s' fn y0 fs auxs = Ret st0' ->
    let y k : list R := y_at s fn y0 st0 (auxs fill0) (S k) in
    let st k := st_at s fn y0 st0 (auxs fill0) (S k) in
    let e k := Rnorm (Rsub_v (y k) root) in
    y 0 = y0 /\
    (forall k, gn_num_accepted_steps (st k) = S k) /\ (forall k, (1 <= (gn_search_state (st k) : R))%R) /\
    (forall k, y_at s' fn y0 st0' (auxs fill0) (S k) = y k) /\
    (forall k, e (S k) <= b * gamma / sigma * (e k * e k))%R /\ (forall k, e k <= rho * (/ 200) ^ k)%R.
Proof. exact C102_indirect_levenberg_marquardt_pf. Qed.
Print Assumptions C102_indirect_levenberg_marquardt.

(** If every linear solve reports success, Dogleg succeeds within K + 2 steps once 2 rho / 200^K and 2 (b + 2 gamma rho) rho / 200^K are below
    atol, within rho / 200^(k-1) of the zero after k steps. *)
Theorem C102_dogleg_terminates :
  forall (Aux : Type) (rtol atol eps : R) lsolve jac_of (fn : list R -> list R * Aux)
         (n m : nat) (y0 root : list R) fs auxs (sigma b gamma rho : R) (K : nat),
    let r x := fst (fn x) in let J := jac_of fn in
    let near x := length x = n /\ (Rnorm (Rsub_v x root) <= rho)%R in
    (0 <= eps)%R -> exact_least_squares n lsolve -> (forall A c, snd (lsolve A c) = successful) -> residual_problem n m r J ->
    length root = n -> r root = zerov m -> (0 < sigma)%R -> (0 <= b)%R -> (0 <= gamma)%R ->
    (forall x v, near x -> length v = n ->
       sigma * Rdot v v <= Rdot (op_mv (J x) v) (op_mv (J x) v) /\ Rdot (op_mv (J x) v) (op_mv (J x) v) <= b * b * Rdot v v)%R ->
    (forall x x', near x -> near x' ->
       Rnorm (Rsub_v (Rsub_v (r x') (r x)) (op_mv (J x) (Rsub_v x' x))) <= gamma * Rdot (Rsub_v x' x) (Rsub_v x' x))%R ->
    (b * gamma * rho + 3 * (gamma * rho) * (gamma * rho) < sigma / 200)%R -> near y0 -> (0 <= rtol)%R -> (0 < atol)%R ->
    (2 * rho * (/ 200) ^ K < atol)%R -> (2 * (b + 2 * gamma * rho) * rho * (/ 200) ^ K < atol)%R ->
    let s := Dogleg (N:=RN) (mkTols rtol atol max_norm) jac_of lsolve eps in
    exists k, 1 <= k <= K + 2 /\
      forall fuel budget throw, k < fuel -> (forall j, budget = Some j -> k <= j) ->
        exists sol, iterative_solve (vallfinite (N:=RN)) s fn fuel budget throw y0 fs auxs = Ret sol /\
          result sol = successful /\ (Rnorm (Rsub_v (value sol) root) <= rho * (/ 200) ^ pred k)%R /\
          hd_error (sol_stats sol) = Some ("num_steps"%string, Some (Z.of_nat k)).
Proof. exact C102_dogleg_terminates_pf. Qed.
Print Assumptions C102_dogleg_terminates.

(** The same for IndirectLevenbergMarquardt. *)
Theorem C102_indirect_terminates :
  forall (Aux : Type) (rtol atol eps fmax : R) lsolve (rfind : (R -> R) -> R) jac_of (fn : list R -> list R * Aux)
         (n m : nat) (y0 root : list R) fs auxs (sigma b gamma rho : R) (K : nat),
    let r x := fst (fn x) in let J := jac_of fn in
    let near x := length x = n /\ (Rnorm (Rsub_v x root) <= rho)%R in
    (0 <= eps)%R -> (0 < fmax)%R -> exact_least_squares n lsolve -> (forall A c, snd (lsolve A c) = successful) -> residual_problem n m r J ->
    length root = n -> r root = zerov m -> (0 < sigma)%R -> (0 <= b)%R -> (0 <= gamma)%R ->
    (forall x v, near x -> length v = n ->
       sigma * Rdot v v <= Rdot (op_mv (J x) v) (op_mv (J x) v) /\ Rdot (op_mv (J x) v) (op_mv (J x) v) <= b * b * Rdot v v)%R ->
    (forall x x', near x -> near x' ->
       Rnorm (Rsub_v (Rsub_v (r x') (r x)) (op_mv (J x) (Rsub_v x' x))) <= gamma * Rdot (Rsub_v x' x) (Rsub_v x' x))%R ->
    (b * gamma * rho + 3 * (gamma * rho) * (gamma * rho) < sigma / 200)%R -> near y0 -> (0 <= rtol)%R -> (0 < atol)%R ->
    (2 * rho * (/ 200) ^ K < atol)%R -> (2 * (b + 2 * gamma * rho) * rho * (/ 200) ^ K < atol)%R ->
    let s := IndirectLevenbergMarquardt (N:=RN) (mkTols rtol atol max_norm) jac_of lsolve eps fmax rfind in
    exists k, 1 <= k <= K + 2 /\
      forall fuel budget throw, k < fuel -> (forall j, budget = Some j -> k <= j) ->
        exists sol, iterative_solve (vallfinite (N:=RN)) s fn fuel budget throw y0 fs auxs = Ret sol /\
          result sol = successful /\ (Rnorm (Rsub_v (value sol) root) <= rho * (/ 200) ^ pred k)%R /\
          hd_error (sol_stats sol) = Some ("num_steps"%string, Some (Z.of_nat k)).
Proof. exact C102_indirect_terminates_pf. Qed.
Print Assumptions C102_indirect_terminates.

Example C102_dogleg_ex :
  let s := Dogleg (N:=RN) (mkTols (N:=RN) (1/10)%R (1/100)%R max_norm) para_jac lsolve1 (1/100)%R in
  let s' := GaussNewton (N:=RN) (mkTols (N:=RN) (1/10)%R (1/100)%R max_norm) para_jac lsolve1 in
  exists st0 st0', s_init s para [(1 / 400)%R] (fun _ => [0%R]) (fun _ => tt) = Ret st0 /\ s_init s' para [(1 / 400)%R] (fun _ => [0%R]) (fun _ => tt) = Ret st0' /\
  let e k := Rnorm (Rsub_v (y_at s para [(1 / 400)%R] st0 tt (S k) : list R) [0%R]) in
  (forall k, y_at s' para [(1 / 400)%R] st0' tt (S k) = y_at s para [(1 / 400)%R] st0 tt (S k)) /\
  forall k, (e (S k) <= 201 / 200 * 1 / (99 / 100) * (e k * e k))%R.
Proof. exact C102_dogleg_ex_pf. Qed.

Example C102_dogleg_terminates_ex :
  let s := Dogleg (N:=RN) (mkTols (N:=RN) (1/10)%R (1/1000)%R max_norm) para_jac lsolve1 (1/100)%R in
  exists k, 1 <= k <= 3 /\
    forall fuel budget throw, k < fuel -> (forall j, budget = Some j -> k <= j) ->
      exists sol, iterative_solve (vallfinite (N:=RN)) s para fuel budget throw [(1 / 400)%R] (fun _ => [0%R]) (fun _ => tt) = Ret sol /\
        result sol = successful.
Proof. exact C102_dogleg_terminates_ex_pf. Qed.

Example C102_indirect_levenberg_marquardt_ex :
  let s := IndirectLevenbergMarquardt (N:=RN) (mkTols (N:=RN) (1/10)%R (1/100)%R max_norm) para_jac lsolve1 (1/100)%R 1000%R rational_root in
  let s' := GaussNewton (N:=RN) (mkTols (N:=RN) (1/10)%R (1/100)%R max_norm) para_jac lsolve1 in
  exists st0 st0', s_init s para [(1 / 400)%R] (fun _ => [0%R]) (fun _ => tt) = Ret st0 /\ s_init s' para [(1 / 400)%R] (fun _ => [0%R]) (fun _ => tt) = Ret st0' /\
  let e k := Rnorm (Rsub_v (y_at s para [(1 / 400)%R] st0 tt (S k) : list R) [0%R]) in
  (forall k, y_at s' para [(1 / 400)%R] st0' tt (S k) = y_at s para [(1 / 400)%R] st0 tt (S k)) /\
  forall k, (e (S k) <= 201 / 200 * 1 / (99 / 100) * (e k * e k))%R.
Proof. exact C102_indirect_levenberg_marquardt_ex_pf. Qed.

Example C102_indirect_terminates_ex :
  let s := IndirectLevenbergMarquardt (N:=RN) (mkTols (N:=RN) (1/10)%R (1/1000)%R max_norm) para_jac lsolve1 (1/100)%R 1000%R rational_root in
  exists k, 1 <= k <= 3 /\
    forall fuel budget throw, k < fuel -> (forall j, budget = Some j -> k <= j) ->
      exists sol, iterative_solve (vallfinite (N:=RN)) s para fuel budget throw [(1 / 400)%R] (fun _ => [0%R]) (fun _ => tt) = Ret sol /\
        result sol = successful.
Proof. exact C102_indirect_terminates_ex_pf. Qed.
