(** Property theorems: Steps.
    Statements only; each is closed by the lemma of the same name (suffix _pf)
    in the proof file.  [Example]s show concrete cases meeting the hypotheses. *)

From Coq Require Import String List Bool Arith Lia ZArith QArith Qreals Reals Lra Psatz.
From Verif Require Import Num NumFacts NumDiv NumSq Vec Results Iterate Spec_Iterate Iterate_proofs.
From Verif Require Import Spec_Vec VecFacts Spec_Lin LinFacts NumF64 NumF64_facts.
From Verif Require Import Search Spec_Search Descent Minimisers QuasiNewton LBFGS Solvers FixedPoint_proofs Minimisers_proofs Spec_Examples.
From Verif Require Import TrustRegion_proofs LeastSquares_proofs Dogleg_proofs Spec_Steps.
Import ListNotations.
Local Open Scope nat_scope.
From Verif Require Import Steps_proofs.

(** Exact arithmetic: BacktrackingArmijo can be constructed exactly when
    0 < decrease_factor < 1, 0 < slope < 1 and 0 < step_init; otherwise the
    constructor raises. *)
Theorem C62_armijo :
  forall decrease slope init : R,
    ((0 < decrease < 1)%R /\ (0 < slope < 1)%R /\ (0 < init)%R ->
     armijo_new (N:=RN) decrease slope init = Ret (armijo (N:=RN) decrease slope init)) /\
    (~ ((0 < decrease < 1)%R /\ (0 < slope < 1)%R /\ (0 < init)%R) ->
     armijo_new (N:=RN) decrease slope init = Raise RuntimeError).
Proof. exact C62_armijo_pf. Qed.
Print Assumptions C62_armijo.

(** The same in binary64 and in exact arithmetic with infinities, for parameters
    that are not NaN. *)
Theorem C62_armijo_numbers :
  forall (N : Num), N = F64 \/ N = XR ->
  forall decrease slope init : N,
    nisnan decrease = false -> nisnan slope = false -> nisnan init = false ->
    armijo_new decrease slope init =
    if nltb (nofQ 0) decrease && nltb decrease (nofQ 1) &&
       (nltb (nofQ 0) slope && nltb slope (nofQ 1)) && nltb (nofQ 0) init
    then Ret (armijo decrease slope init) else Raise RuntimeError.
Proof. exact C62_armijo_numbers_pf. Qed.
Print Assumptions C62_armijo_numbers.

(** NaN parameters slip through the checks: with decrease_factor = NaN the
    constructor succeeds, and one rejection makes the step size NaN. *)
Theorem C62_nan_refuted :
  exists (decrease : f64) (s : Search F64),
    nisnan (N:=F64) decrease = true /\
    armijo_new (N:=F64) decrease (f64_ofQ (1#10)) (f64_ofQ 1) = Ret s /\
    let reject := mkCall (N:=F64) false [f64_ofQ 0] [f64_ofQ 1] (EvalGrad (f64_ofQ 0) [f64_ofQ (-1)]) (Eval (f64_ofQ 1)) in
    let out := search_run s [reject] (se_init s [f64_ofQ 0] (EvalGrad (f64_ofQ 0) [f64_ofQ (-1)])) in
    map snd out = [false] /\ map (fun p => nisnan (N:=F64) (fst p)) out = [true].
Proof. exact C62_nan_refuted_pf. Qed.
Print Assumptions C62_nan_refuted.

(** Exact arithmetic: the checks of both trust regions pass exactly when
    low_cutoff <= high_cutoff and neither constant is negative. *)
Theorem C62_trust_region :
  forall P : tr_params RN,
    tr_valid P = true <->
    (tr_low_cutoff P <= tr_high_cutoff P)%R /\ (0 <= tr_low_constant P)%R /\ (0 <= tr_high_constant P)%R.
Proof. exact C62_trust_region_pf. Qed.
Print Assumptions C62_trust_region.

Example C62_armijo_ex :
  armijo_new (N:=RN) (1/2)%R (1/10)%R 1%R = Ret (armijo (N:=RN) (1/2)%R (1/10)%R 1%R) /\
  armijo_new (N:=RN) 1%R (1/10)%R 1%R = Raise RuntimeError /\
  armijo_new (N:=RN) (1/2)%R 0%R 1%R = Raise RuntimeError.
Proof. exact C62_armijo_ex_pf. Qed.

(** The step of Levenberg-Marquardt for the radius [step] (exact arithmetic,
    exact least-squares solves, the Jacobian a linear map J): the only minimiser of
    |J d + r|^2 + (1/step) |d|^2; it satisfies
    (J^T J + (1/step) I) d = - J^T r; no other vector of at most its length makes
    |J d + r| smaller; it is never uphill. *)
Theorem C63_step :
  forall lsolve (eps fmax : R) (n m : nat) (J : linop RN) (r y : list R) (step : R) st,
    exact_least_squares n lsolve -> linear_op n m J -> transpose_op n J -> length r = m -> length y = n ->
    (0 <= eps < step)%R ->
    let descent := damped_newton_descent (N:=RN) lsolve eps fmax in
    let d : list R := fst (d_step descent step (d_query descent y (ResidualJac (N:=RN) r J) st)) in
    length d = n /\
    (forall w, length w = n -> w <> d -> (damped_loss J r (/ step) d < damped_loss J r (/ step) w)%R) /\
    Radd_v (op_mvT J (op_mv J d)) (Rscal (/ step) d) = Rscal (-1) (op_mvT J r) /\
    (forall w, length w = n -> (Rdot w w <= Rdot d d)%R -> (damped_loss J r 0 d <= damped_loss J r 0 w)%R) /\
    (step * Rdot (op_mvT J r) d <= - Rdot d d)%R.
Proof. exact C63_step_pf. Qed.
Print Assumptions C63_step.

(** Larger radius, longer step. *)
Theorem C63_longer :
  forall lsolve (eps fmax : R) (n m : nat) (J : linop RN) (r y : list R) (step1 step2 : R) st1 st2,
    exact_least_squares n lsolve -> linear_op n m J -> length r = m -> length y = n ->
    (0 <= eps < step1)%R -> (step1 < step2)%R ->
    let descent := damped_newton_descent (N:=RN) lsolve eps fmax in
    let d1 := fst (d_step descent step1 (d_query descent y (ResidualJac (N:=RN) r J) st1)) in
    let d2 := fst (d_step descent step2 (d_query descent y (ResidualJac (N:=RN) r J) st2)) in
    (Rnorm d1 <= Rnorm d2)%R.
Proof. exact C63_longer_pf. Qed.
Print Assumptions C63_longer.

(** With an (approximate) Hessian H instead of residuals: the step solves
    (H + (1/step) I) d = -grad. *)
Theorem C63_hessian :
  forall lsolve (eps fmax f : R) (n : nat) (H : linop RN) (g y : list R) (step : R) st,
    solves_solvable n lsolve -> linear_op n n H -> length g = n -> length y = n -> (0 <= eps < step)%R ->
    (exists z : list R, length z = n /\ Radd_v (op_mv H z) (Rscal (/ step) z) = g) ->
    let descent := damped_newton_descent (N:=RN) lsolve eps fmax in
    let d : list R := fst (d_step descent step (d_query descent y (EvalGradHessian (N:=RN) f g H) st)) in
    length d = n /\ Radd_v (op_mv H d) (Rscal (/ step) d) = Rscal (-1) g.
Proof. exact C63_hessian_pf. Qed.
Print Assumptions C63_hessian.

(** GaussNewton, in every arithmetic: after each step the status is that of the
    linear solve J(y) d = r(y) at the new iterate. *)
Theorem C64_gauss_newton :
  forall (N : Num) (Aux : Type) (P : ar_tols N) lsolve jac_of (fn : list N -> list N * Aux) y0 fs auxs st0,
    let s := GaussNewton P jac_of lsolve in
    s_init s fn y0 fs auxs = Ret st0 ->
    let y := y_at s fn y0 st0 (auxs fill0) in
    forall k, says_result s fn y0 st0 (auxs fill0) (S k) =
              snd (lsolve (jac_of fn (y (S k))) (fst (fn (y (S k))))).
Proof. exact C64_gauss_newton_pf. Qed.
Print Assumptions C64_gauss_newton.

(** LevenbergMarquardt, in every arithmetic: with [radius] the trust-region
    radius kept by the search, lam = 1/radius (the largest number if the radius is
    at most eps), each step proposes y - d with d the linear solver's answer to the
    stacked system [J; sqrt(lam) I] d = [r; 0] at the current iterate y, and the
    status is that of this linear solve. *)
Theorem C64_levenberg_marquardt :
  forall (N : Num) (Aux : Type) (P : ar_tols N) lsolve (eps fmax : N) jac_of (fn : list N -> list N * Aux) y0 fs auxs st0,
    let s := LevenbergMarquardt P jac_of lsolve eps fmax in
    s_init s fn y0 fs auxs = Ret st0 ->
    let y := y_at s fn y0 st0 (auxs fill0) in
    let st := st_at s fn y0 st0 (auxs fill0) in
    forall k, let radius : N := gn_search_state (st (S k)) in
    exists A lam,
      lam = (if nltb eps radius then ndiv (nofQ 1) radius else fmax) /\
      stacked (jac_of fn (y (S k))) lam A /\
      let b := fst (fn (y (S k))) ++ repeat (nofQ 0) (length (y (S k))) in
      gn_y_eval (st (S k)) = vadd (y (S k)) (vneg (fst (lsolve A b))) /\
      says_result s fn y0 st0 (auxs fill0) (S k) = snd (lsolve A b).
Proof. exact C64_levenberg_marquardt_pf. Qed.
Print Assumptions C64_levenberg_marquardt.

(** Dogleg (two-norm trust region), in every arithmetic: the status is that of
    the linear solve for the Newton point. *)
Theorem C64_dogleg :
  forall (N : Num) (Aux : Type) (P : ar_tols N) lsolve (eps : N) jac_of (fn : list N -> list N * Aux) y0 fs auxs st0,
    let s := Dogleg P jac_of lsolve eps in
    s_init s fn y0 fs auxs = Ret st0 ->
    let y := y_at s fn y0 st0 (auxs fill0) in
    forall k, says_result s fn y0 st0 (auxs fill0) (S k) =
              snd (lsolve (jac_of fn (y (S k))) (fst (fn (y (S k))))).
Proof. exact C64_dogleg_pf. Qed.
Print Assumptions C64_dogleg.

(** IndirectLevenbergMarquardt, in every arithmetic: a failed linear solve for
    the Newton step is the status, and y minus the value is proposed; otherwise a
    radius of at least 1 means the Newton step; otherwise the damped step for some
    lam is taken - the lam the root finder returned for
    "length of the damped step = radius * length of the Newton step" - and the
    status is that of its linear solve. *)
Theorem C64_indirect_levenberg_marquardt :
  forall (N : Num) (Aux : Type) (P : ar_tols N) lsolve (eps fmax : N) rfind jac_of (fn : list N -> list N * Aux) y0 fs auxs st0,
    let s := IndirectLevenbergMarquardt P jac_of lsolve eps fmax rfind in
    s_init s fn y0 fs auxs = Ret st0 ->
    let y := y_at s fn y0 st0 (auxs fill0) in
    let st := st_at s fn y0 st0 (auxs fill0) in
    forall k, let radius : N := gn_search_state (st (S k)) in
    let res := says_result s fn y0 st0 (auxs fill0) (S k) in
    let newton := lsolve (jac_of fn (y (S k))) (fst (fn (y (S k)))) in
    (snd newton <> successful \/ nltb radius (nofQ 1) = false ->
       gn_y_eval (st (S k)) = vadd (y (S k)) (vneg (fst newton)) /\ res = snd newton) /\
    (snd newton = successful -> nltb radius (nofQ 1) = true ->
       exists stack : N -> linop N,
         (forall lam, nltb eps (ndiv (nofQ 1) lam) = true ->
            stacked (jac_of fn (y (S k))) (ndiv (nofQ 1) (ndiv (nofQ 1) lam)) (stack lam)) /\
         let b := fst (fn (y (S k))) ++ repeat (nofQ 0) (length (y (S k))) in
         let lam := rfind (fun l => nsub (two_norm (fst (lsolve (stack l) b))) (nmul (two_norm (fst newton)) radius)) in
         gn_y_eval (st (S k)) = vadd (y (S k)) (vneg (fst (lsolve (stack lam) b))) /\
         res = snd (lsolve (stack lam) b)).
Proof. exact C64_indirect_levenberg_marquardt_pf. Qed.
Print Assumptions C64_indirect_levenberg_marquardt.

(** Quasi-Newton solvers with an Armijo search (BFGS, DFP, L-BFGS and
    user-written updates), in every arithmetic: with an approximate Hessian the
    proposal is y - step * (answer of the linear solver), and the status is that of
    the linear solve; with an approximate inverse Hessian there is nothing to fail. *)
Theorem C64_quasi_newton :
  forall (N : Num) (Aux HSt : Type) (P : ar_tols N) (decrease slope init : N) lsolve grad_of init_hessian update_hessian
         (fn : list N -> N * Aux) y0 fs auxs st0,
    let s := quasi_newton_solver (HSt:=HSt) P (armijo decrease slope init) (newton_descent lsolve None) grad_of
               init_hessian update_hessian in
    s_init s fn y0 fs auxs = Ret st0 ->
    let y := y_at s fn y0 st0 (auxs fill0) in
    let st := st_at s fn y0 st0 (auxs fill0) in
    forall k, let step : N := qn_search_state (st (S k)) in
    let res := says_result s fn y0 st0 (auxs fill0) (S k) in
    (forall f g H, qn_f_info (st (S k)) = EvalGradHessian f g H ->
       res = snd (lsolve H g) /\ qn_y_eval (st (S k)) = vadd (y (S k)) (vscale (nneg step) (fst (lsolve H g)))) /\
    (forall f g H, qn_f_info (st (S k)) = EvalGradHessianInv f g H ->
       res = successful /\ qn_y_eval (st (S k)) = vadd (y (S k)) (vscale (nneg step) (op_mv H g))).
Proof. exact C64_quasi_newton_pf. Qed.
Print Assumptions C64_quasi_newton.

(** GradientDescent and NonlinearCG never report a failure of their own. *)
Theorem C64_gradient_methods :
  forall (N : Num) (Aux : Type) (P : ar_tols N) grad_of (fn : list N -> N * Aux) y0 fs auxs
         (s : Solver (list N) N Aux) st0,
    ((exists rate, s = GradientDescent P grad_of rate) \/
     (exists method decrease slope init, s = NonlinearCG P grad_of method (armijo decrease slope init)) \/
     (exists method Q, s = NonlinearCG P grad_of method (linear_trust_region Q)) \/
     (exists method rate, s = NonlinearCG P grad_of method (learning_rate rate))) ->
    s_init s fn y0 fs auxs = Ret st0 ->
    forall k, says_result s fn y0 st0 (auxs fill0) k = successful.
Proof. exact C64_gradient_methods_pf. Qed.
Print Assumptions C64_gradient_methods.

(** C63 along a run: each step of LevenbergMarquardt from the iterate y with
    radius above eps proposes y + d with d the only minimiser of
    |J(y) d + r(y)|^2 + (1/radius) |d|^2. *)
Theorem C63_run :
  forall (Aux : Type) (P : ar_tols RN) lsolve (eps fmax : R) (n m : nat) jac_of (fn : list R -> list R * Aux)
         (y0 : list R) fs auxs st0,
    exact_least_squares n lsolve -> (0 <= eps)%R ->
    (forall y : list R, length y = n -> length (fst (fn y)) = m /\ linear_op n m (jac_of fn y)) ->
    let s := LevenbergMarquardt (N:=RN) P jac_of lsolve eps fmax in
    s_init s fn y0 fs auxs = Ret st0 ->
    let y := y_at s fn y0 st0 (auxs fill0) in
    let st := st_at s fn y0 st0 (auxs fill0) in
    forall k, let radius : R := gn_search_state (st (S k)) in
      length (y (S k)) = n -> (eps < radius)%R ->
      exists d, gn_y_eval (st (S k)) = Radd_v (y (S k)) d /\ length d = n /\
        forall w, length w = n -> w <> d ->
          (damped_loss (jac_of fn (y (S k))) (fst (fn (y (S k)))) (/ radius) d <
           damped_loss (jac_of fn (y (S k))) (fst (fn (y (S k)))) (/ radius) w)%R.
Proof. exact C63_run_pf. Qed.
Print Assumptions C63_run.

(** C64 for whole solves with GaussNewton: on success, every linear solve at an
    iterate visited (from the first step to the last) succeeded; if the solve
    stops with a linear solve that failed, its status is the result (unless the
    point before was already non-finite). *)
Theorem C64_solve :
  forall (N : Num) (Aux : Type) (P : ar_tols N) (allfinite : list N -> bool) lsolve jac_of (fn : list N -> list N * Aux) y0 fs auxs st0
         fuel ms throw sol,
    let s := GaussNewton P jac_of lsolve in
    s_init s fn y0 fs auxs = Ret st0 ->
    iterative_solve allfinite s fn fuel ms throw y0 fs auxs = Ret sol ->
    let y := y_at s fn y0 st0 (auxs fill0) in
    let linear_status k := snd (lsolve (jac_of fn (y k)) (fst (fn (y k)))) in
    exists K, hd_error (sol_stats sol) = Some ("num_steps"%string, Some (Z.of_nat K)) /\
      (result sol = successful -> forall k, 0 < k <= K -> linear_status k = successful) /\
      (0 < K -> linear_status K <> successful -> allfinite (y (pred K)) = true -> result sol = linear_status K).
Proof. exact C64_solve_pf. Qed.
Print Assumptions C64_solve.

(** C33: where the residuals are affine the prediction is the actual change of the
    objective. *)
Theorem C33_exact_when_linear :
  forall (n m : nat) (J : linop RN) (r d : list R), linear_op n m J -> length r = m -> length d = n ->
    classical_predict (N:=RN) d (ResidualJac (N:=RN) r J) =
    (as_min (N:=RN) (Residual (N:=RN) (Radd_v r (op_mv J d))) - as_min (N:=RN) (ResidualJac (N:=RN) r J))%R.
Proof. exact C33_exact_when_linear_pf. Qed.
Print Assumptions C33_exact_when_linear.

(** In every arithmetic, GradientDescent stays at y0 in its first step and then
    iterates y' = y + (-rate) * grad f(y). *)
Theorem C65_iteration :
  forall (N : Num) (Aux : Type) (P : ar_tols N) grad_of (rate : N) (fn : list N -> N * Aux) y0 fs auxs st0,
    let s := GradientDescent P grad_of rate in
    s_init s fn y0 fs auxs = Ret st0 ->
    let y := y_at s fn y0 st0 (auxs fill0) in
    y 1 = y0 /\
    forall k, y (S (S k)) = vadd (y (S k)) (vscale (nneg rate) (grad_of fn (y (S k)))).
Proof. exact C65_iteration_pf. Qed.
Print Assumptions C65_iteration.

(** Exact arithmetic, L-smooth objective, learning rate below 2/L: every step after
    the first lowers the objective by at least rate (1 - L rate / 2) |grad|^2. *)
Theorem C65_descends :
  forall (Aux : Type) (n : nat) (L : R) (f : list R -> R) (g : list R -> list R)
         (P : ar_tols RN) grad_of (rate : R) (fn : list R -> R * Aux) y0 fs auxs st0,
    smooth n L f g -> (forall x, fst (fn x) = f x) -> (forall x, grad_of fn x = g x) ->
    length y0 = n ->
    let s := GradientDescent (N:=RN) P grad_of rate in
    s_init s fn y0 fs auxs = Ret st0 ->
    let y := y_at s fn y0 st0 (auxs fill0) in
    forall k, length (y (S k) : list R) = n /\
      (f (y (S (S k))) <= f (y (S k)) - rate * (1 - L * rate / 2) * Rdot (g (y (S k))) (g (y (S k))))%R.
Proof. exact C65_descends_pf. Qed.
Print Assumptions C65_descends.

(** If moreover the objective is bounded below, GradientDescent succeeds: with
    delta = min (rate (1 - L rate / 2) (atol / rate)^2) atol, at most K + 1 steps are
    needed when f(y0) - inf f < K delta; the returned value is no worse than y0. *)
Theorem C65_terminates :
  forall (Aux : Type) (n : nat) (L low : R) (f : list R -> R) (g : list R -> list R)
         (rtol atol rate : R) grad_of (fn : list R -> R * Aux) y0 fs auxs (K : nat),
    smooth n L f g -> (forall x, length x = n -> low <= f x)%R ->
    (forall x, fst (fn x) = f x) -> (forall x, grad_of fn x = g x) -> length y0 = n ->
    (0 < rate)%R -> (rate * L < 2)%R -> (0 < atol)%R -> (0 <= rtol)%R ->
    let delta := Rmin (rate * (1 - L * rate / 2) * ((atol / rate) * (atol / rate))) atol in
    (f y0 - low < INR K * delta)%R ->
    let s := GradientDescent (N:=RN) (mkTols rtol atol max_norm) grad_of rate in
    exists k, k <= S K /\
      forall fuel budget throw, k < fuel -> (forall m, budget = Some m -> k <= m) ->
        exists sol, iterative_solve (vallfinite (N:=RN)) s fn fuel budget throw y0 fs auxs = Ret sol /\
          result sol = successful /\ (f (value sol) <= f y0)%R /\
          hd_error (sol_stats sol) = Some ("num_steps"%string, Some (Z.of_nat k)).
Proof. exact C65_terminates_pf. Qed.
Print Assumptions C65_terminates.

(** J = [1; 1], r = [1; 2], step size 1: the step is -1. *)
Example C63_step_ex :
  let J := MatOp (N:=RN) 1 [[1]; [1]]%R in let r := [1; 2]%R in
  let descent := damped_newton_descent (N:=RN) lsolve1 0%R 1000%R in
  exact_least_squares 1 lsolve1 /\ linear_op 1 2 J /\ transpose_op 1 J /\
  fst (d_step descent 1%R (d_query descent [5%R] (ResidualJac (N:=RN) r J) (0, Eval (N:=RN) 0%R))) = [(-1)%R].
Proof. exact C63_step_ex_pf. Qed.

(** Exact arithmetic, one unknown: divide. *)
Example C63_hessian_ex :
  let lsolve (A : linop RN) (b : list R) := ([nth 0 b 0 / nth 0 (op_mv A [1%R]) 0]%R, successful) in
  let H := MatOp (N:=RN) 1 [[3%R]] in
  solves_solvable 1 lsolve /\ linear_op 1 1 H /\
  (exists z : list R, length z = 1 /\ Radd_v (op_mv H z) (Rscal (/ 1) z) = [8%R]) /\
  let descent := damped_newton_descent (N:=RN) lsolve 0%R 1000%R in
  fst (d_step descent 1%R (d_query descent [5%R] (EvalGradHessian (N:=RN) 0%R [8%R] H) (0, Eval (N:=RN) 0%R))) = [(-2)%R].
Proof. exact C63_hessian_ex_pf. Qed.

(** Binary64: Gauss-Newton with a linear solver that reports a singular matrix stops
    after one step with that status; with a working one it succeeds. *)
Example C64_solve_ex :
  let run lsolve := iterative_solve (vallfinite (N:=F64)) (GaussNewton (N:=F64) (Aux:=unit) tols curve64_jac lsolve) curve64 50 (Some 40) false
       [f64_ofQ 3] (fun _ => [f64_ofQ 0; f64_ofQ 0]) (fun _ => tt) in
  match run (fun _ b => ([f64_ofQ 0], linear 1)) with
  | Ret s => results_eqb (result s) (linear 1) &&
      match sol_stats s with (_, Some k) :: _ => Z.eqb k 1 | _ => false end
  | _ => false end = true /\
  match run column64 with Ret s => results_eqb (result s) successful | _ => false end = true.
Proof. exact C64_solve_ex_pf. Qed.

(** f(x) = x^2 with L = 2, rate = 1/4, tolerance 1/10, from x = 1: at most 35 steps. *)
Example C65_terminates_ex :
  smooth 1 2 square1 square1_grad /\ (forall x, length x = 1 -> (0 <= square1 x)%R) /\
  let s := GradientDescent (N:=RN) (Aux:=unit) (mkTols (N:=RN) (1/10)%R (1/10)%R max_norm) (fun _ => square1_grad) (1/4)%R in
  exists k, k <= 35 /\
    forall fuel budget throw, k < fuel -> (forall m, budget = Some m -> k <= m) ->
      exists sol, iterative_solve (vallfinite (N:=RN)) s (fun v => (square1 v, tt)) fuel budget throw [1%R] (fun _ => 0%R) (fun _ => tt) = Ret sol /\
        result sol = successful.
Proof. exact C65_terminates_ex_pf. Qed.

(** Least squares, exact arithmetic: the Newton point is minus the linear solver's
    answer; with g = J^T r and |J g|^2 > eps the Cauchy point is the unique minimiser
    of |J d + r|^2 over the multiples d of g, and it is a non-positive multiple;
    otherwise the Cauchy point is 0. *)
Theorem C66_least_squares :
  forall lsolve (eps : R) (n m : nat) (J : linop RN) (r y : list R) st0,
    linear_op n m J -> transpose_op n J -> length r = m -> (0 <= eps)%R ->
    let descent := dogleg_descent (N:=RN) lsolve eps two_norm None in
    let st := d_query descent y (ResidualJac (N:=RN) r J) st0 in
    let g : list R := op_mvT J r in
    let loss d := let v := Radd_v (op_mv J d) r in Rdot v v in
    dl_newton st = Rscal (-1) (fst (lsolve J r)) /\
    ((eps < Rdot (op_mv J g) (op_mv J g))%R ->
       exists t, (0 <= t)%R /\ dl_cauchy st = Rscal (- t) g /\
         forall u, u <> t -> (loss (Rscal (- t) g) < loss (Rscal (- u) g))%R) /\
    ((Rdot (op_mv J g) (op_mv J g) <= eps)%R -> dl_cauchy st = zerov n).
Proof. exact C66_least_squares_pf. Qed.
Print Assumptions C66_least_squares.

(** The same for a minimiser with gradient g and Hessian H: the model is
    g.d + d.(H d) / 2. *)
Theorem C66_hessian :
  forall lsolve (eps f : R) (n : nat) (H : linop RN) (g y : list R) st0,
    linear_op n n H -> length g = n -> (0 <= eps)%R ->
    let descent := dogleg_descent (N:=RN) lsolve eps two_norm None in
    let st := d_query descent y (EvalGradHessian (N:=RN) f g H) st0 in
    let model d := (Rdot g d + / 2 * Rdot d (op_mv H d))%R in
    dl_newton st = Rscal (-1) (fst (lsolve H g)) /\
    ((eps < Rdot g (op_mv H g))%R ->
       exists t, (0 <= t)%R /\ dl_cauchy st = Rscal (- t) g /\
         forall u, u <> t -> (model (Rscal (- t) g) < model (Rscal (- u) g))%R) /\
    ((Rdot g (op_mv H g) <= eps)%R -> dl_cauchy st = zerov n).
Proof. exact C66_hessian_pf. Qed.
Print Assumptions C66_hessian.

(** J = diag(1, 2), r = (1, 1): g = (1, 2), Cauchy point -(5/17)(1, 2). *)
Example C66_least_squares_ex :
  let J := MatOp (N:=RN) 2 [[1; 0]; [0; 2]]%R in let r := [1; 1]%R in
  linear_op 2 2 J /\ transpose_op 2 J /\ op_mvT J r = [1; 2]%R /\
  let descent := dogleg_descent (N:=RN) (fun _ _ => ([1; /2]%R, successful)) 0%R two_norm None in
  dl_cauchy (d_query descent [0; 0]%R (ResidualJac (N:=RN) r J) (d_init descent [0; 0]%R (Residual (N:=RN) []))) = [-5/17; -10/17]%R.
Proof. exact C66_least_squares_ex_pf. Qed.

(** Exact arithmetic, exact least-squares solves. For step size at least 1, or after a
    failed Newton solve, the step is the Newton step. Otherwise the root finder is
    given the function h: excess length, over step_size times the length of the
    Newton step, of the damped step for a given damping; h is non-increasing. With lam
    the number returned by the root finder the step taken is the damped step for lam;
    its length misses the requested one by exactly h(lam). *)
Theorem C69_length :
  forall lsolve (eps fmax : R) rfind (n m : nat) (J : linop RN) (r y : list R) (step : R) st0,
    exact_least_squares n lsolve -> linear_op n m J -> length r = m -> length y = n -> (0 <= eps)%R ->
    let descent := indirect_damped_newton_descent (N:=RN) lsolve eps fmax two_norm rfind in
    let d : list R := fst (d_step descent step (d_query descent y (ResidualJac (N:=RN) r J) st0)) in
    let newton : list R := fst (lsolve J r) in
    let damped lam z := length z = n /\ forall w, length w = n -> w <> z -> (damped_loss J r lam z < damped_loss J r lam w)%R in
    let allowed lam := (0 < lam)%R /\ (eps * lam < 1)%R in
    ((1 <= step)%R \/ snd (lsolve J r) <> successful -> d = Rscal (-1) newton) /\
    ((step < 1)%R -> snd (lsolve J r) = successful ->
       exists h : R -> R,
         (forall lam, allowed lam -> exists z, damped lam z /\ h lam = (Rnorm z - step * Rnorm newton)%R) /\
         (forall lam1 lam2, allowed lam1 -> allowed lam2 -> (lam1 < lam2)%R -> (h lam2 <= h lam1)%R) /\
         (allowed (rfind h) -> damped (rfind h) d) /\
         (Rnorm d = step * Rnorm newton + h (rfind h))%R).
Proof. exact C69_length_pf. Qed.
Print Assumptions C69_length.

(** One unknown, J = [1], r = [1], step size 1/2, a root finder returning 1: the Newton
    step has length 1, the damped step for lam = 1 is -1/2, as long as requested. *)
Example C69_length_ex :
  let J := MatOp (N:=RN) 1 [[1]]%R in let r := [1]%R in
  let descent := indirect_damped_newton_descent (N:=RN) lsolve1 0%R 1000%R two_norm (fun _ => 1%R) in
  let d : list R := fst (d_step descent (1 / 2)%R (d_query descent [5%R] (ResidualJac (N:=RN) r J) (0, Eval (N:=RN) 0%R, [], 0%R, successful))) in
  exact_least_squares 1 lsolve1 /\ linear_op 1 1 J /\ snd (lsolve1 J r) = successful /\
  d = [(-1 / 2)%R] /\ (Rnorm d = 1 / 2 * Rnorm (fst (lsolve1 J r)))%R.
Proof. exact C69_length_ex_pf. Qed.
