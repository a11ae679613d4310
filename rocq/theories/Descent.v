(** Descents.  Models SteepestDescent (_solver/gradient_methods.py), newton_step
    and NewtonDescent (_solver/gauss_newton.py), DampedNewtonDescent and
    IndirectDampedNewtonDescent (_solver/levenberg_marquardt.py), DoglegDescent
    (_solver/dogleg.py) and NonlinearCGDescent (_solver/nonlinear_cg.py). *)

From Coq Require Import List Bool QArith.
From Verif Require Import Num Vec Results Search.
Import ListNotations.

Section Descent.
  Context {N : Num}.
  Local Open Scope num_scope.
  Notation vec := (list N).

  (** `lx.linear_solve(operator, vector, linear_solver, throw=False)`: value
      and promoted status, as a parameter. *)
  Variable lsolve : linop N -> vec -> vec * results.
  (** `jnp.finfo(dtype).eps` and `jnp.finfo(dtype).max` *)
  Variables eps fmax : N.

  (** `(v**ω / c).ω` for a scalar c (gradient_methods.py 73) *)
  Definition vdivs (v : vec) (c : N) : vec := map (fun x => x / c) v.

  (** Optional normalisation `if self.norm is not None: ...`,
      gradient_methods.py 72-73 and gauss_newton.py 122-123 *)
  Definition normalise (norm : option (vec -> N)) (v : vec) : vec :=
    match norm with Some nm => vdivs v (nm v) | None => v end.

  (** class SteepestDescent, gradient_methods.py 42-79: init 47-50, query 52-74,
      step 76-79; the state is `grad`. *)
  Definition steepest_descent (norm : option (vec -> N)) : Descent N :=
    mkDescent vec has_grad
      (fun y i => y)
      (fun y i st => normalise norm (info_grad i))
      (fun step_size grad => (vscale (- step_size) grad, successful)).

  (** newton_step, gauss_newton.py 32-78.  (For [EvalGrad], [Eval] and
      [Residual] the Python code raises; see [d_supports].) *)
  Definition newton_step (i : finfo N) : vec * results :=
    match i with
    | EvalGradHessianInv _ grad hinv => (op_mv hinv grad, successful)
    | EvalGradHessian _ grad hessian => lsolve hessian grad
    | ResidualJac r jac => lsolve jac r
    | _ => ([], successful)
    end.

  (** class NewtonDescent, gauss_newton.py 86-127: init 107-110, query 112-124,
      step 126-127; the state is (newton, result). *)
  Definition newton_descent (norm : option (vec -> N)) : Descent N :=
    mkDescent (vec * results) has_newton
      (fun y i => (y, successful))
      (fun y i st =>
         let '(newton, res) := newton_step i in (normalise norm newton, res))
      (fun step_size st => (vscale (- step_size) (fst st), snd st)).

  (** The operator `[J; sqrt(lambda) I]`, class _Damped, levenberg_marquardt.py
      23-31; its transpose is derived by JAX. [n] is the number of unknowns,
      [m] the number of residuals. *)
  Definition damped_jac (n : nat) (jac : linop N) (damping : N) (m : nat) : linop N :=
    FunOp (fun y => op_mv jac y ++ vscale (nsqrt damping) y)
          (fun z => vadd (op_mvT jac (firstn m z))
                         (vscale (nsqrt damping) (skipn m z))).

  (** `hessian + lm_param * identity`, levenberg_marquardt.py 59-61 *)
  Definition damped_hessian (hessian : linop N) (damping : N) : linop N :=
    FunOp (fun y => vadd (op_mv hessian y) (vscale damping y))
          (fun y => vadd (op_mvT hessian y) (vscale damping y)).

  (** The damping parameter, levenberg_marquardt.py 54-57 *)
  Definition lm_param (step_size : N) : N :=
    let pred := eps <? step_size in
    let safe_step_size := if pred then step_size else lit 1 in
    if pred then lit 1 / safe_step_size else fmax.

  (** damped_newton_step, levenberg_marquardt.py 34-76.  [n] is the size of y
      (`jac.in_structure()`). *)
  Definition damped_newton_step (n : nat) (step_size : N) (i : finfo N) : vec * results :=
    match i with
    | EvalGradHessian _ grad hessian =>
        lsolve (damped_hessian hessian (lm_param step_size)) grad
    | ResidualJac r jac =>
        lsolve (damped_jac n jac (lm_param step_size) (length r))
               (r ++ vfull n (lit 0))
    | _ => ([], successful)
    end.

  (** `tree_full_like(f_info_struct, 0, allow_static=True)`, levenberg_marquardt.py
      114 and 183.  A [ResidualJac] reaching this point is the one of
      gauss_newton.py 228, already made of zeros, and is left alone. *)
  Definition zero_info (i : finfo N) : finfo N :=
    match i with
    | EvalGradHessian _ g (MatOp n rows) =>
        EvalGradHessian (lit 0) (vfull (length g) (lit 0))
          (MatOp n (map (fun row => vfull (length row) (lit 0)) rows))
    | _ => i
    end.

  (** class DampedNewtonDescent, levenberg_marquardt.py 83-133: init 108-115,
      query 117-124, step 126-133.  The state is (n, f_info). *)
  Definition damped_newton_descent : Descent N :=
    mkDescent (nat * finfo N) has_hessian
      (fun y i => (length y, zero_info i))
      (fun y i st => (length y, i))
      (fun step_size st =>
         let '(sol, res) := damped_newton_step (fst st) step_size (snd st) in
         (vneg sol, res)).

  (** class IndirectDampedNewtonDescent, levenberg_marquardt.py 149-244: init
      177-187, query 189-200, step 202-244.  [rfind fn] is the value returned
      by `root_find(fn, root_finder, y0=lambda_0, options=dict(lower=1e-5),
      max_steps=32, throw=False)` (220-228).  The state is
      (n, f_info, newton, newton_norm, result). *)
  Definition indirect_damped_step (trust_region_norm : vec -> N)
      (rfind : (N -> N) -> N) (step_size : N)
      (st : nat * finfo N * vec * N * results) : vec * results :=
    let '(n, i, newton, newton_norm, res) := st in
    let scaled_step_size := newton_norm * step_size in
    let comparison_fn lambda_i :=
      trust_region_norm (fst (damped_newton_step n (lit 1 / lambda_i) i))
        - scaled_step_size in
    let do_root_solve := results_eqb res successful && (step_size <? lit 1) in
    let '(neg_y_diff, new_result) :=
      if do_root_solve
      then damped_newton_step n (lit 1 / rfind comparison_fn) i
      else (newton, res) in
    (vneg neg_y_diff, new_result).

  (** class IndirectDampedNewtonDescent, levenberg_marquardt.py 149-241: init 177-187, query 189-200, step 202-241. *)
  Definition indirect_damped_newton_descent (trust_region_norm : vec -> N)
      (rfind : (N -> N) -> N) : Descent N :=
    mkDescent (nat * finfo N * vec * N * results) has_hessian
      (fun y i => (length y, zero_info i, y, lit 0, successful))
      (fun y i st =>
         let '(newton, res) := newton_step i in
         (length y, i, newton, trust_region_norm newton, res))
      (indirect_damped_step trust_region_norm rfind).

  (** ** Dogleg *)

  (** _DoglegDescentState, dogleg.py 29-34 *)
  Record dogleg_state : Type := mkDogleg {
    dl_newton : vec; dl_cauchy : vec;
    dl_newton_norm : N; dl_cauchy_norm : N; dl_result : results
  }.

  (** DoglegDescent.query, dogleg.py 69-111 *)
  Definition dogleg_query (trust_region_norm : vec -> N) (i : finfo N) : dogleg_state :=
    let grad := info_grad i in
    let denom :=
      match i with
      | EvalGradHessian _ g hessian => vdot g (op_mv hessian g)
      | ResidualJac _ jac => sum_squares (op_mv jac grad)
      | _ => lit 0
      end in
    let denom_nonzero := eps <? denom in
    let safe_denom := if denom_nonzero then denom else lit 1 in
    let scaling := if denom_nonzero then sum_squares grad / safe_denom else lit 0 in
    let '(newton_sol, res) := newton_step i in
    let newton := vneg newton_sol in
    let newton_norm := trust_region_norm newton_sol in
    let cauchy := vscale (- scaling) grad in
    mkDogleg newton cauchy newton_norm (trust_region_norm cauchy) res.

  (** accept_scaled_cauchy, dogleg.py 124-136 *)
  Definition scaled_cauchy (st : dogleg_state) (scaled_step_size : N) : vec :=
    let cauchy := dl_cauchy st in
    let norm_nonzero := eps <? dl_cauchy_norm st in
    let safe_norm := if norm_nonzero then dl_cauchy_norm st else lit 1 in
    vwhere norm_nonzero
      (map (fun x => x / safe_norm * scaled_step_size) cauchy)
      (vfull (length cauchy) (lit 0)).

  (** interpolate, dogleg.py 143-144 *)
  Definition dogleg_interpolate (cauchy newton : vec) (t : N) : vec :=
    vadd cauchy (vscale (t - lit 1) (vsub newton cauchy)).

  (** The quadratic for two_norm, dogleg.py 155-171; `x**2` is `x * x`. *)
  Definition dogleg_t (st : dogleg_state) (scaled_step_size : N) : N :=
    let cauchy := dl_cauchy st in
    let newton := dl_newton st in
    let a := sum_squares (vsub newton cauchy) in
    let inner_prod := vdot cauchy (vsub newton cauchy) in
    let b := lit 2 * (inner_prod - a) in
    let c := dl_cauchy_norm st * dl_cauchy_norm st - lit 2 * inner_prod + a
             - scaled_step_size * scaled_step_size in
    let disc := nsqrt (b * b - lit 4 * a * c) in
    let quadratic_1 := nclip (lit (1#2) * (- b + disc) / a) (lit 1) (lit 2) in
    let quadratic_2 := nclip (lit 2 * c / (- b - disc)) (lit 1) (lit 2) in
    if lit 0 <=? b then quadratic_1 else quadratic_2.

  (** interpolate_cauchy_and_newton, dogleg.py 138-185.  [rfind] is [None] when
      trust_region_norm is two_norm; otherwise it stands for
      `root_find(..., options={lower: 1, upper: 2}, y0=1.5, throw=False)`
      (174-184), giving value and result. *)
  Definition dogleg_mix (trust_region_norm : vec -> N)
      (rfind : option ((N -> N) -> N * results)) (st : dogleg_state)
      (scaled_step_size : N) : vec * results :=
    let interpolate := dogleg_interpolate (dl_cauchy st) (dl_newton st) in
    let '(t_interp, res) :=
      match rfind with
      | None => (dogleg_t st scaled_step_size, successful)
      | Some rf => rf (fun t => trust_region_norm (interpolate t) - scaled_step_size)
      end in
    (interpolate t_interp, res).

  (** DoglegDescent.step, dogleg.py 113-203 *)
  Definition dogleg_step (trust_region_norm : vec -> N)
      (rfind : option ((N -> N) -> N * results)) (step_size : N)
      (st : dogleg_state) : vec * results :=
    let scaled_step_size := dl_newton_norm st * step_size in
    let '(y_diff, root_result) :=
      if scaled_step_size <? dl_cauchy_norm st
      then (scaled_cauchy st scaled_step_size, successful)
      else if step_size <? lit 1
      then dogleg_mix trust_region_norm rfind st scaled_step_size
      else (dl_newton st, successful) in
    (y_diff, if results_eqb (dl_result st) successful then root_result else dl_result st).

  (** class DoglegDescent, dogleg.py 37-203 (init 54-67) *)
  Definition dogleg_descent (trust_region_norm : vec -> N)
      (rfind : option ((N -> N) -> N * results)) : Descent N :=
    mkDescent dogleg_state has_hessian
      (fun y i => mkDogleg y y (lit 0) (lit 0) successful)
      (fun y i st => dogleg_query trust_region_norm i)
      (dogleg_step trust_region_norm rfind).

  (** ** Nonlinear CG *)

  (** polak_ribiere, nonlinear_cg.py 23-35; `jnp.clip(x, min=0)` is
      `maximum(x, 0)`. *)
  Definition polak_ribiere (grad grad_prev y_diff_prev : vec) : N :=
    let numerator := vdot grad (vsub grad grad_prev) in
    let denominator := sum_squares grad_prev in
    let pred := eps <? denominator in
    let safe_denom := if pred then denominator else lit 1 in
    if pred then nmax (numerator / safe_denom) (lit 0) else lit 0.

  (** fletcher_reeves, nonlinear_cg.py 38-47 *)
  Definition fletcher_reeves (grad grad_prev y_diff_prev : vec) : N :=
    let numerator := sum_squares grad in
    let denominator := sum_squares grad_prev in
    let pred := eps <? denominator in
    let safe_denom := if pred then denominator else lit 1 in
    if pred then numerator / safe_denom else lit 0.

  (** hestenes_stiefel, nonlinear_cg.py 50-59 *)
  Definition hestenes_stiefel (grad grad_prev y_diff_prev : vec) : N :=
    let grad_diff := vsub grad grad_prev in
    let numerator := vdot grad grad_diff in
    let denominator := - vdot y_diff_prev grad_diff in
    let pred := eps <? nabs denominator in
    let safe_denom := if pred then denominator else lit 1 in
    if pred then numerator / safe_denom else lit 0.

  (** dai_yuan, nonlinear_cg.py 62-70 *)
  Definition dai_yuan (grad grad_prev y_diff_prev : vec) : N :=
    let numerator := sum_squares grad in
    let denominator := - vdot y_diff_prev (vsub grad grad_prev) in
    let pred := eps <? nabs denominator in
    let safe_denom := if pred then denominator else lit 1 in
    if pred then numerator / safe_denom else lit 0.

  (** NonlinearCGDescent.query, nonlinear_cg.py 106-149; the state is
      (y_diff, grad). *)
  Definition cg_query (method : vec -> vec -> vec -> N) (i : finfo N)
      (st : vec * vec) : vec * vec :=
    let '(y_diff_prev, grad_prev) := st in
    let grad := info_grad i in
    let beta := method grad grad_prev y_diff_prev in
    let neg_grad := vneg grad in
    let nonlinear_cg_direction := vadd neg_grad (vscale beta y_diff_prev) in
    let y_diff :=
      vwhere (vdot grad nonlinear_cg_direction <? lit 0) nonlinear_cg_direction neg_grad in
    (y_diff, grad).

  (** class NonlinearCGDescent, nonlinear_cg.py 78-154: init 92-104, step
      151-154 *)
  Definition nonlinear_cg_descent (method : vec -> vec -> vec -> N) : Descent N :=
    mkDescent (vec * vec) has_grad
      (fun y i => (vfull (length y) (lit 0), vfull (length y) (lit 0)))
      (fun y i st => cg_query method i st)
      (fun step_size st => (vscale step_size (fst st), successful)).
End Descent.
