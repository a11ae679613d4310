(** Property theorems: DescentF64.
    Statements only; each is closed by the lemma of the same name (suffix _pf)
    in the proof file.  [Example]s show concrete cases meeting the hypotheses. *)

From Coq Require Import String List Bool Arith Lia ZArith QArith Qreals Reals Lra.
From Flocq Require Import Core.
From Flocq.IEEE754 Require Import BinarySingleNaN.
From Verif Require Import Num NumFacts NumDiv Vec Results Iterate Spec_Iterate Iterate_proofs.
From Verif Require Import Spec_Vec VecFacts Spec_Lin LinFacts FixedPoint_proofs.
From Verif Require Import Search Spec_Search Descent Minimisers Minimisers_proofs LeastSquares_proofs Steps_proofs Spec_Coincide Coincide_proofs Solvers.
From Verif Require Import NumF64 NumF64_facts F64Facts FixedPointF64_proofs NewtonF64_proofs Spec_DescentF64.
Import ListNotations.
Local Open Scope R_scope.
From Verif Require Import DescentF64_proofs.

(** GradientDescent on doubles, as long as its exact steps y - rate g with the computed gradients g approach a point x: within
    r of x such a step is at most q |y - x| + eps away from x.  Then all iterates are finite and within r of x,
    and they approach x by the factor q down to eps plus the rounding of the step. *)
Theorem C100_gradient_descent :
  forall (Aux : Type) (rtol atol rate : f64) grad_of (fn : list f64 -> f64 * Aux) (y0 : list f64) fs auxs st0
         (n : nat) (x : list R) (r q eps : R),
    let B := Rmax_norm x + r in
    let err := eps + bpow radix2 (-51) * B + bpow radix2 (-1074) in
    is_finite rate = true -> length x = n -> 0 <= q < 1 -> 0 <= eps -> B <= bpow radix2 1021 -> q * r + err <= r ->
    (forall y, near64 n x r y ->
       length (grad_of fn y) = n /\ finite64 (grad_of fn y) /\
       Rdist_inf (Rsub_v (map B2R y) (Rscal (B2R rate) (map B2R (grad_of fn y)))) x <= q * Rdist_inf (map B2R y) x + eps) ->
    near64 n x r y0 ->
    let s := GradientDescent (N:=F64) (mkTols (N:=F64) rtol atol (max_norm (N:=F64))) grad_of rate in
    s_init s fn y0 fs auxs = Ret st0 ->
    let y k : list f64 := y_at s fn y0 st0 (auxs fill0) (S k) in
    y 0%nat = y0 /\
    forall k, near64 n x r (y k) /\
      Rdist_inf (map B2R (y (S k))) x <= q * Rdist_inf (map B2R (y k)) x + err /\
      Rdist_inf (map B2R (y k)) x <= q ^ k * r + err / (1 - q).
Proof. exact C100_gradient_descent_pf. Qed.
Print Assumptions C100_gradient_descent.

(** What its success means on doubles: the returned point is finite and within (q tol + err) / (1 - q) of x. *)
Theorem C100_gradient_descent_success :
  forall (Aux : Type) (rtol atol rate : f64) grad_of (fn : list f64 -> f64 * Aux) (y0 : list f64) fs auxs
         (n : nat) (x : list R) (r q eps : R) fuel budget throw sol,
    let B := Rmax_norm x + r in
    let err := eps + bpow radix2 (-51) * B + bpow radix2 (-1074) in
    is_finite rate = true -> length x = n -> 0 <= q < 1 -> 0 <= eps -> B <= bpow radix2 1021 -> q * r + err <= r ->
    (forall y, near64 n x r y ->
       length (grad_of fn y) = n /\ finite64 (grad_of fn y) /\
       Rdist_inf (Rsub_v (map B2R y) (Rscal (B2R rate) (map B2R (grad_of fn y)))) x <= q * Rdist_inf (map B2R y) x + eps) ->
    near64 n x r y0 -> tols64 rtol atol ->
    let s := GradientDescent (N:=F64) (mkTols (N:=F64) rtol atol (max_norm (N:=F64))) grad_of rate in
    iterative_solve vallfinite s fn fuel budget throw y0 fs auxs = Ret sol -> result sol = successful ->
    near64 n x r (value sol) /\
    Rdist_inf (map B2R (value sol : list f64)) x <= (q * tol64 rtol atol (value sol) + err) / (1 - q).
Proof. exact C100_gradient_descent_success_pf. Qed.
Print Assumptions C100_gradient_descent_success.

(** If moreover the objective is within C |y - x| + epsF of a number fx there, and after K steps twice the remaining distance and twice
    the remaining variation of the objective are below a double delta <= atol / 2, the solve succeeds within K + 2 steps. *)
Theorem C100_gradient_descent_terminates :
  forall (Aux : Type) (rtol atol rate delta : f64) grad_of (fn : list f64 -> f64 * Aux) (y0 : list f64) fs auxs
         (n : nat) (x : list R) (fx r q eps C epsF : R) (K : nat),
    let B := Rmax_norm x + r in
    let err := eps + bpow radix2 (-51) * B + bpow radix2 (-1074) in
    let E := q ^ K * r + err / (1 - q) in
    is_finite rate = true -> length x = n -> 0 <= q < 1 -> 0 <= eps -> B <= bpow radix2 1021 -> q * r + err <= r ->
    (forall y, near64 n x r y ->
       length (grad_of fn y) = n /\ finite64 (grad_of fn y) /\
       Rdist_inf (Rsub_v (map B2R y) (Rscal (B2R rate) (map B2R (grad_of fn y)))) x <= q * Rdist_inf (map B2R y) x + eps) ->
    near64 n x r y0 -> tols64 rtol atol ->
    (forall y, near64 n x r y ->
       is_finite (fst (fn y)) = true /\ Rabs (B2R (fst (fn y)) - fx) <= C * Rdist_inf (map B2R y) x + epsF) ->
    0 <= C -> Rabs fx + (C * r + epsF) <= bpow radix2 1022 ->
    B2R delta <= B2R atol / 2 -> 2 * E <= B2R delta -> 2 * (C * E + epsF) <= B2R delta ->
    let s := GradientDescent (N:=F64) (mkTols (N:=F64) rtol atol (max_norm (N:=F64))) grad_of rate in
    exists k, (1 <= k <= S (S K))%nat /\
      forall fuel budget throw, (k < fuel)%nat -> (forall m, budget = Some m -> (k <= m)%nat) ->
        exists sol, iterative_solve vallfinite s fn fuel budget throw y0 fs auxs = Ret sol /\ result sol = successful.
Proof. exact C100_gradient_descent_terminates_pf. Qed.
Print Assumptions C100_gradient_descent_terminates.

(** GaussNewton on doubles, as long as its exact steps y - p with the linear solver's computed answers p approach a point x; the residual
    need not vanish there.  Then all iterates are finite and within r of x, and they approach x by the factor q down to eps plus the
    rounding of the step. *)
Theorem C100_gauss_newton :
  forall (Aux : Type) (rtol atol : f64) jac_of lsolve (fn : list f64 -> list f64 * Aux) (y0 : list f64) fs auxs st0
         (n : nat) (x : list R) (r q eps : R),
    let B := Rmax_norm x + r in
    let err := eps + bpow radix2 (-53) * B in
    length x = n -> 0 <= q < 1 -> 0 <= eps -> B <= bpow radix2 1021 -> q * r + err <= r ->
    (forall y, near64 n x r y ->
       exists p, lsolve (jac_of fn y) (fst (fn y)) = (p, successful) /\ length p = n /\ finite64 p /\
         Rdist_inf (Rsub_v (map B2R y) (map B2R p)) x <= q * Rdist_inf (map B2R y) x + eps) ->
    near64 n x r y0 ->
    let s := GaussNewton (N:=F64) (mkTols (N:=F64) rtol atol (max_norm (N:=F64))) jac_of lsolve in
    s_init s fn y0 fs auxs = Ret st0 ->
    let y k : list f64 := y_at s fn y0 st0 (auxs fill0) (S k) in
    y 0%nat = y0 /\
    forall k, near64 n x r (y k) /\
      Rdist_inf (map B2R (y (S k))) x <= q * Rdist_inf (map B2R (y k)) x + err /\
      Rdist_inf (map B2R (y k)) x <= q ^ k * r + err / (1 - q).
Proof. exact C100_gauss_newton_pf. Qed.
Print Assumptions C100_gauss_newton.

(** What its success means on doubles: the returned point is y0 after a single step (which compares the residual at y0 with a
    placeholder), or it is finite and within (q tol + err) / (1 - q) of x. *)
Theorem C100_gauss_newton_success :
  forall (Aux : Type) (rtol atol : f64) jac_of lsolve (fn : list f64 -> list f64 * Aux) (y0 : list f64) fs auxs
         (n : nat) (x : list R) (r q eps : R) fuel budget throw sol,
    let B := Rmax_norm x + r in
    let err := eps + bpow radix2 (-53) * B in
    length x = n -> 0 <= q < 1 -> 0 <= eps -> B <= bpow radix2 1021 -> q * r + err <= r ->
    (forall y, near64 n x r y ->
       exists p, lsolve (jac_of fn y) (fst (fn y)) = (p, successful) /\ length p = n /\ finite64 p /\
         Rdist_inf (Rsub_v (map B2R y) (map B2R p)) x <= q * Rdist_inf (map B2R y) x + eps) ->
    near64 n x r y0 -> tols64 rtol atol ->
    let s := GaussNewton (N:=F64) (mkTols (N:=F64) rtol atol (max_norm (N:=F64))) jac_of lsolve in
    iterative_solve vallfinite s fn fuel budget throw y0 fs auxs = Ret sol -> result sol = successful ->
    near64 n x r (value sol) /\
    ((hd_error (sol_stats sol) = Some ("num_steps"%string, Some 1%Z) /\ value sol = y0) \/
     Rdist_inf (map B2R (value sol : list f64)) x <= (q * tol64 rtol atol (value sol) + err) / (1 - q)).
Proof. exact C100_gauss_newton_success_pf. Qed.
Print Assumptions C100_gauss_newton_success.

(** And with the residual within C |y - x| + epsF of a vector rx, it succeeds within K + 2 steps if after K steps twice the remaining
    distance and twice the remaining variation of the residual are below a double delta <= atol / 2. *)
Theorem C100_gauss_newton_terminates :
  forall (Aux : Type) (rtol atol delta : f64) jac_of lsolve (fn : list f64 -> list f64 * Aux) (y0 : list f64) fs auxs
         (n : nat) (x rx : list R) (r q eps C epsF : R) (K : nat),
    let B := Rmax_norm x + r in
    let err := eps + bpow radix2 (-53) * B in
    let E := q ^ K * r + err / (1 - q) in
    length x = n -> 0 <= q < 1 -> 0 <= eps -> B <= bpow radix2 1021 -> q * r + err <= r ->
    (forall y, near64 n x r y ->
       exists p, lsolve (jac_of fn y) (fst (fn y)) = (p, successful) /\ length p = n /\ finite64 p /\
         Rdist_inf (Rsub_v (map B2R y) (map B2R p)) x <= q * Rdist_inf (map B2R y) x + eps) ->
    near64 n x r y0 -> tols64 rtol atol ->
    (forall y, near64 n x r y ->
       length (fst (fn y)) = length rx /\ finite64 (fst (fn y)) /\
       Rdist_inf (map B2R (fst (fn y))) rx <= C * Rdist_inf (map B2R y) x + epsF) ->
    0 <= C -> Rmax_norm rx + (C * r + epsF) <= bpow radix2 1022 ->
    B2R delta <= B2R atol / 2 -> 2 * E <= B2R delta -> 2 * (C * E + epsF) <= B2R delta ->
    let s := GaussNewton (N:=F64) (mkTols (N:=F64) rtol atol (max_norm (N:=F64))) jac_of lsolve in
    exists k, (1 <= k <= S (S K))%nat /\
      forall fuel budget throw, (k < fuel)%nat -> (forall m, budget = Some m -> (k <= m)%nat) ->
        exists sol, iterative_solve vallfinite s fn fuel budget throw y0 fs auxs = Ret sol /\ result sol = successful.
Proof. exact C100_gauss_newton_terminates_pf. Qed.
Print Assumptions C100_gauss_newton_terminates.

Example C100_gradient_descent_ex : forall fs (k : nat),
  let s := GradientDescent (N:=F64) (mkTols (N:=F64) (f64_ofQ (1#1024)) (f64_ofQ (1#1024)) (max_norm (N:=F64))) quad64grad (f64_ofQ (1#4)) in
  exists st0, s_init s quad64 [f64_ofQ 0] fs (fun _ => tt) = Ret st0 /\
  let y : list f64 := y_at s quad64 [f64_ofQ 0] st0 tt (S k) in
  finite64 y /\ Rdist_inf (map B2R y) [3] <= (7 / 8) ^ k * 4 + / 1048576.
Proof. exact C100_gradient_descent_ex_pf. Qed.

Example C100_gradient_descent_terminates_ex : forall fs auxs,
  let s := GradientDescent (N:=F64) (mkTols (N:=F64) (f64_ofQ (1#1024)) (f64_ofQ (1#1024)) (max_norm (N:=F64))) quad64grad (f64_ofQ (1#4)) in
  exists k, (1 <= k <= 134)%nat /\
    forall fuel budget throw, (k < fuel)%nat -> (forall m, budget = Some m -> (k <= m)%nat) ->
      exists sol, iterative_solve vallfinite s quad64 fuel budget throw [f64_ofQ 0] fs auxs = Ret sol /\ result sol = successful.
Proof. exact C100_gradient_descent_terminates_ex_pf. Qed.

Example C100_gradient_descent_success_ex : forall fs auxs,
  let s := GradientDescent (N:=F64) (mkTols (N:=F64) (f64_ofQ (1#1024)) (f64_ofQ (1#1024)) (max_norm (N:=F64))) quad64grad (f64_ofQ (1#4)) in
  exists fuel sol, iterative_solve vallfinite s quad64 fuel None true [f64_ofQ 0] fs auxs = Ret sol /\ result sol = successful /\
    Rdist_inf (map B2R (value sol : list f64)) [3] <= / 16.
Proof. exact C100_gradient_descent_success_ex_pf. Qed.

Example C100_gauss_newton_ex : forall fs (k : nat),
  let s := GaussNewton (N:=F64) (mkTols (N:=F64) (f64_ofQ (1#1024)) (f64_ofQ (1#1024)) (max_norm (N:=F64))) res64jac res64solve in
  exists st0, s_init s res64 [f64_ofQ (3#2)] fs (fun _ => tt) = Ret st0 /\
  let y : list f64 := y_at s res64 [f64_ofQ (3#2)] st0 tt (S k) in
  finite64 y /\ Rdist_inf (map B2R y) [sqrt 2] <= (/ 8) ^ k * / 4 + 2 * / 1048576.
Proof. exact C100_gauss_newton_ex_pf. Qed.

Example C100_gauss_newton_terminates_ex : forall fs auxs,
  let s := GaussNewton (N:=F64) (mkTols (N:=F64) (f64_ofQ (1#1024)) (f64_ofQ (1#1024)) (max_norm (N:=F64))) res64jac res64solve in
  exists k, (1 <= k <= 8)%nat /\
    forall fuel budget throw, (k < fuel)%nat -> (forall m, budget = Some m -> (k <= m)%nat) ->
      exists sol, iterative_solve vallfinite s res64 fuel budget throw [f64_ofQ (3#2)] fs auxs = Ret sol /\ result sol = successful.
Proof. exact C100_gauss_newton_terminates_ex_pf. Qed.

Example C100_gauss_newton_success_ex : forall fs auxs,
  let s := GaussNewton (N:=F64) (mkTols (N:=F64) (f64_ofQ (1#1024)) (f64_ofQ (1#1024)) (max_norm (N:=F64))) res64jac res64solve in
  exists fuel sol, iterative_solve vallfinite s res64 fuel None true [f64_ofQ (3#2)] fs auxs = Ret sol /\ result sol = successful /\
    ((hd_error (sol_stats sol) = Some ("num_steps"%string, Some 1%Z) /\ value sol = [f64_ofQ (3#2)]) \/
     Rdist_inf (map B2R (value sol : list f64)) [sqrt 2] <= / 2000).
Proof. exact C100_gauss_newton_success_ex_pf. Qed.
