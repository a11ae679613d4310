(** Property theorems: Unroll.
    Statements only; each is closed by the lemma of the same name (suffix _pf)
    in the proof file.  [Example]s show concrete cases meeting the hypotheses. *)

From Coq Require Import String List Bool Arith Lia ZArith QArith Qreals Reals Lra Psatz.
From Verif Require Import Num NumFacts Vec Results Iterate Spec_Iterate Iterate_proofs FixedPoint FixedPoint_proofs.
From Verif Require Import Spec_Vec VecFacts Spec_Lin LinFacts LinAlgFacts Search RootFind.
From Verif Require Import QuasiNewton BFGS_proofs.
From Verif Require Import Implicit Spec_Implicit ImplicitFacts Implicit_proofs Unroll Spec_Unroll.
Import ListNotations.
Local Open Scope R_scope.
From Verif Require Import Unroll_proofs.

(** RecursiveCheckpointAdjoint computes the derivative of the algorithm: for a
    FixedPointIteration that took K steps, the cotangents it returns for y0 and for the
    parameters are the products with the transposed derivatives of "K damped steps". *)
Theorem C98_derivative :
  forall vjp (F : list R -> list R -> list R) (n k : nat) p0 y0 A B rtol atol damp norm fs auxs fuel budget throw sol,
  vjp_correct vjp -> length y0 = n -> length p0 = k ->
  (forall y, length y = n -> jacobian2_at n k n F y p0 (A y) (B y)) ->
  let s := fixed_point_iteration (N:=XR) rtol atol (Fin damp) norm in
  iterative_solve vallfinite s (liftv (fun y => F y p0)) fuel budget throw (map Fin y0) fs auxs = Ret sol ->
  exists K DY DP, hd_error (sol_stats sol) = Some ("num_steps"%string, Some (Z.of_nat K)) /\
    value sol = map Fin (damped_steps damp F K y0 p0) /\
    jacobian2_at n k n (damped_steps damp F K) y0 p0 DY DP /\
    forall ct, length ct = n ->
      checkpointed_vjp (N:=RN) vjp damp (fun y p => (F y p, tt)) p0 y0 (sol_stats sol) ct =
        Some (tmvec n DY ct, tmvec k DP ct).
Proof. exact C98_derivative_pf. Qed.
Print Assumptions C98_derivative.

(** The two ways of differentiating a contractive fixed point agree up to the convergence
    error: after K steps the product of a cotangent with the derivative of the algorithm
    (RecursiveCheckpointAdjoint) and with the implicit derivative of the fixed point
    (ImplicitAdjoint) differ by at most q^K and K q^(K-1) multiples of the initial errors. *)
Theorem C98_implicit :
  forall vjp jvp jacT grad lsolve (fps : PolySolver (list RN) (list RN))
    (F : list R -> list R -> list R) (n k : nat) p0 y0 z A B C Cinv q M rtol atol damp norm fs auxs fuel budget throw sol
    (t : list (option R)) ct,
  vjp_correct vjp -> jvp_correct jvp -> solves_invertible n lsolve ->
  length y0 = n -> length p0 = k -> length z = n -> F z p0 = z ->
  (forall y, length y = n -> jacobian2_at n k n F y p0 (A y) (B y)) ->
  contraction n q (fun y => F y p0) -> 0 <= damp < 1 -> 0 <= M ->
  lipschitz_at n n M A z -> lipschitz_at n k M B z ->
  mat n n C -> (forall x, length x = n -> mvec C x = Rsub_v (mvec (A z) x) x) ->
  mat n n Cinv -> inverses n C Cinv ->
  length t = (k + n)%nat -> length ct = n ->
  let s := fixed_point_iteration (N:=XR) rtol atol (Fin damp) norm in
  iterative_solve vallfinite s (liftv (fun y => F y p0)) fuel budget throw (map Fin y0) fs auxs = Ret sol ->
  let t_p := firstn k (filled t) in let t_y0 := skipn k (filled t) in
  let q' := damp + (1 - damp) * q in
  exists K v c_y0 c_p,
    hd_error (sol_stats sol) = Some ("num_steps"%string, Some (Z.of_nat K)) /\
    value_tangent (N:=RN) jvp jacT lsolve k
      (fixed_point_rewrite (N:=RN) grad (AFixedPoint fps) (fun y p => (F y p, tt))) z (p0 ++ y0) t = Ret v /\
    checkpointed_vjp (N:=RN) vjp damp (fun y p => (F y p, tt)) p0 y0 (sol_stats sol) ct = Some (c_y0, c_p) /\
    v = Radd_v (mvec (A z) v) (mvec (B z) t_p) /\
    Rabs (Rdot c_y0 t_y0 + Rdot c_p t_p - Rdot ct v) <=
      Rsum_abs ct * (q' ^ K * Rmax_norm (Rsub_v t_y0 v) +
        INR K * q' ^ pred K * ((1 - damp) * M * Rdist_inf y0 z * (Rmax_norm v + Rmax_norm t_p))).
Proof. exact C98_implicit_pf. Qed.
Print Assumptions C98_implicit.

(** In the limit they are equal: for every tangent and cotangent and every eps, all solves
    that take enough steps have products that agree within eps. *)
Theorem C98_limit :
  forall vjp jvp jacT grad lsolve (fps : PolySolver (list RN) (list RN))
    (F : list R -> list R -> list R) (n k : nat) p0 y0 z A B C Cinv q M damp
    (t : list (option R)) ct eps,
  vjp_correct vjp -> jvp_correct jvp -> solves_invertible n lsolve ->
  length y0 = n -> length p0 = k -> length z = n -> F z p0 = z ->
  (forall y, length y = n -> jacobian2_at n k n F y p0 (A y) (B y)) ->
  contraction n q (fun y => F y p0) -> 0 <= damp < 1 -> 0 <= M ->
  lipschitz_at n n M A z -> lipschitz_at n k M B z ->
  mat n n C -> (forall x, length x = n -> mvec C x = Rsub_v (mvec (A z) x) x) ->
  mat n n Cinv -> inverses n C Cinv ->
  length t = (k + n)%nat -> length ct = n -> 0 < eps ->
  exists K0 v,
    value_tangent (N:=RN) jvp jacT lsolve k
      (fixed_point_rewrite (N:=RN) grad (AFixedPoint fps) (fun y p => (F y p, tt))) z (p0 ++ y0) t = Ret v /\
    forall rtol atol norm fs auxs fuel budget throw sol K,
      let s := fixed_point_iteration (N:=XR) rtol atol (Fin damp) norm in
      iterative_solve vallfinite s (liftv (fun y => F y p0)) fuel budget throw (map Fin y0) fs auxs = Ret sol ->
      hd_error (sol_stats sol) = Some ("num_steps"%string, Some (Z.of_nat K)) -> (K0 <= K)%nat ->
      exists c_y0 c_p,
        checkpointed_vjp (N:=RN) vjp damp (fun y p => (F y p, tt)) p0 y0 (sol_stats sol) ct = Some (c_y0, c_p) /\
        Rabs (Rdot c_y0 (skipn k (filled t)) + Rdot c_p (firstn k (filled t)) - Rdot ct v) <= eps.
Proof. exact C98_limit_pf. Qed.
Print Assumptions C98_limit.

(** y -> y/2 + 3 from 100: after K steps the iterate is 6 + 94/2^K, and the cotangent 1 is
    pulled back to 1/2^K for y0 and to 2 (1 - 1/2^K) for the parameter (the implicit
    derivative is 2). *)
Theorem C98_derivative_ex : forall fs auxs, exists fuel sol K,
  iterative_solve vallfinite (fixed_point_iteration (N:=XR) (Fin 0) (Fin (1/1000)) (Fin 0) max_norm)
    (liftv (fun y => half_plus y [3])) fuel None true [Fin 100] fs auxs = Ret sol /\
  result sol = successful /\
  hd_error (sol_stats sol) = Some ("num_steps"%string, Some (Z.of_nat K)) /\
  value sol = [Fin (6 + 94 * (1/2) ^ K)] /\
  checkpointed_vjp (N:=RN) vjp_real 0 (fun y p => (half_plus y p, tt)) [3] [100] (sol_stats sol) [1] =
    Some ([(1/2) ^ K], [2 * (1 - (1/2) ^ K)]).
Proof. exact C98_derivative_ex_pf. Qed.
Print Assumptions C98_derivative_ex.

(** y -> sin(y)/2 + p at p = 0 (fixed point 0, implicit derivative 2), half damped, from 1:
    the bound of C98_implicit for the cotangent 1 and the tangent 1 of the parameter. *)
Theorem C98_implicit_ex : forall fs auxs, exists fuel sol K c_y0 c_p,
  iterative_solve vallfinite (fixed_point_iteration (N:=XR) (Fin 0) (Fin (1/1000)) (Fin (1/2)) max_norm)
    (liftv (fun y => half_sine y [0])) fuel None true [Fin 1] fs auxs = Ret sol /\
  result sol = successful /\
  hd_error (sol_stats sol) = Some ("num_steps"%string, Some (Z.of_nat K)) /\
  checkpointed_vjp (N:=RN) vjp_real (1/2) (fun y p => (half_sine y p, tt)) [0] [1] (sol_stats sol) [1] = Some (c_y0, c_p) /\
  Rabs (hd 0 c_p - 2) <= (3/4) ^ K * 2 + INR K * (3/4) ^ pred K * (3/4).
Proof. exact C98_implicit_ex_pf. Qed.
Print Assumptions C98_implicit_ex.

(** y -> y/2 + 3 from 100: every solve with enough steps has a cotangent for the parameter
    within a thousandth of the implicit derivative 2. *)
Theorem C98_limit_ex : exists K0, forall rtol atol norm fs auxs fuel budget throw sol K,
  iterative_solve vallfinite (fixed_point_iteration (N:=XR) rtol atol (Fin 0) norm)
    (liftv (fun y => half_plus y [3])) fuel budget throw [Fin 100] fs auxs = Ret sol ->
  hd_error (sol_stats sol) = Some ("num_steps"%string, Some (Z.of_nat K)) -> (K0 <= K)%nat ->
  exists c_y0 c_p,
    checkpointed_vjp (N:=RN) vjp_real 0 (fun y p => (half_plus y p, tt)) [3] [100] (sol_stats sol) [1] = Some (c_y0, c_p) /\
    Rabs (hd 0 c_p - 2) <= 1/1000.
Proof. exact C98_limit_ex_pf. Qed.
Print Assumptions C98_limit_ex.
