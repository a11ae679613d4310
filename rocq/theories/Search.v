(** Function information, searches and the interfaces of searches and descents.
    Models /repo/optimistix/_search.py, _solver/backtracking.py,
    _solver/trust_region.py and _solver/learning_rate.py. *)

From Coq Require Import List Bool QArith.
From Verif Require Import Num Vec Results.
Import ListNotations.

Section Search.
  Context {N : Num}.
  Local Open Scope num_scope.
  Notation vec := (list N).

  (** Linear operators (lineax): `PyTreeLinearOperator` is a matrix, given by
      its number of columns and its rows in flattening order;
      `FunctionLinearOperator` is a function together with its transpose. (used in _search.py 99-171). *)
  Inductive linop : Type :=
  | MatOp (ncols : nat) (rows : list vec)
  | FunOp (mv mvT : vec -> vec).

  (** `operator.mv(x)` (e.g. _search.py 183) *)
  Definition op_mv (A : linop) (x : vec) : vec :=
    match A with
    | MatOp _ rows => map (fun row => vdot row x) rows
    | FunOp mv _ => mv x
    end.

  (** `operator.transpose().mv(x)` (_search.py 158-160) *)
  Definition op_mvT (A : linop) (x : vec) : vec :=
    match A with
    | MatOp n rows =>
        fold_right vadd (vfull n (lit 0)) (vmap2 vscale x rows)
    | FunOp _ mvT => mvT x
    end.

  (** FunctionInfo, _search.py 44-171: the six variants. *)
  Inductive finfo : Type :=
  | Eval (f : N)                                              (* 70-79 *)
  | EvalGrad (f : N) (grad : vec)                             (* 82-96 *)
  | EvalGradHessian (f : N) (grad : vec) (hessian : linop)    (* 99-114 *)
  | EvalGradHessianInv (f : N) (grad : vec) (hinv : linop)    (* 117-131 *)
  | Residual (r : vec)                                        (* 134-143 *)
  | ResidualJac (r : vec) (jac : linop).                      (* 146-171 *)

  (** FunctionInfo.as_min, _search.py 77, 91, 109, 126, 141, 155 *)
  Definition as_min (i : finfo) : N :=
    match i with
    | Eval f | EvalGrad f _ | EvalGradHessian f _ _ | EvalGradHessianInv f _ _ => f
    | Residual r | ResidualJac r _ => lit (1#2) * sum_squares r
    end.

  (** ResidualJac.compute_grad, _search.py 158-160, and `.grad` of the other
      variants; [Eval] and [Residual] have no gradient (Python: AttributeError,
      guarded by the isinstance checks of the callers). *)
  Definition info_grad (i : finfo) : vec :=
    match i with
    | EvalGrad _ g | EvalGradHessian _ g _ | EvalGradHessianInv _ g _ => g
    | ResidualJac r jac => op_mvT jac r
    | Eval _ | Residual _ => []
    end.

  (** compute_grad_dot, _search.py 94-96, 112-114, 129-131, 162-171 *)
  Definition compute_grad_dot (i : finfo) (y : vec) : N :=
    match i with
    | EvalGrad _ g | EvalGradHessian _ g _ | EvalGradHessianInv _ g _ => vdot g y
    | ResidualJac r jac => vdot (op_mv jac y) r
    | Eval _ | Residual _ => lit 0
    end.

  (** The `isinstance` checks used by the searches and descents. (e.g. backtracking.py 64-77). *)
  Definition has_grad (i : finfo) : bool :=
    match i with Eval _ | Residual _ => false | _ => true end.
  (** isinstance(f_info, (EvalGradHessian, ResidualJac)), e.g. dogleg.py 76-89. *)
  Definition has_hessian (i : finfo) : bool :=
    match i with EvalGradHessian _ _ _ | ResidualJac _ _ => true | _ => false end.
  (** the variants newton_step accepts, gauss_newton.py 60-76. *)
  Definition has_newton (i : finfo) : bool :=
    match i with
    | EvalGradHessian _ _ _ | EvalGradHessianInv _ _ _ | ResidualJac _ _ => true
    | _ => false
    end.

  (** AbstractDescent, _search.py 248-313.  [d_supports] is the condition under
      which `query`/`step` do not raise ValueError; it only depends on the
      variant, so it is decided once, when the solver is traced. *)
  Record Descent : Type := mkDescent {
    DSt : Type;
    d_supports : finfo -> bool;
    d_init : vec -> finfo -> DSt;
    d_query : vec -> finfo -> DSt -> DSt;
    d_step : N -> DSt -> vec * results
  }.

  (** AbstractSearch, _search.py 316-384: `step(first_step, y, y_eval, f_info,
      f_eval_info, state)` returns (step_size, accept, result, state).  On
      [se_supports] see [d_supports]. *)
  Record Search : Type := mkSearch {
    SSt : Type;
    se_supports : finfo -> bool;
    se_init : vec -> finfo -> SSt;
    se_step : bool -> vec -> vec -> finfo -> finfo -> SSt -> N * bool * results * SSt
  }.

  (** ** BacktrackingArmijo *)

  (** BacktrackingArmijo.step, backtracking.py 79-100; the state is
      `step_size`. *)
  Definition armijo_step (decrease_factor slope step_init : N)
      (first_step : bool) (y y_eval : vec) (f_info f_eval_info : finfo)
      (step_size : N) : N * bool * results * N :=
    let y_diff := vsub y_eval y in
    let predicted_reduction := compute_grad_dot f_info y_diff in
    let f_min := as_min f_info in
    let f_min_eval := as_min f_eval_info in
    let f_min_diff := f_min_eval - f_min in
    let satisfies_armijo := f_min_diff <=? slope * predicted_reduction in
    let has_reduction := predicted_reduction <=? lit 0 in
    let accept := first_step || (satisfies_armijo && has_reduction) in
    let step_size := if accept then step_init else decrease_factor * step_size in
    (step_size, accept, successful, step_size).

  (** BacktrackingArmijo.__post_init__, backtracking.py 33-49: does not raise *)
  Definition armijo_valid (decrease_factor slope step_init : N) : bool :=
    negb ((decrease_factor <=? lit 0) || (lit 1 <=? decrease_factor)) &&
    negb ((slope <=? lit 0) || (lit 1 <=? slope)) &&
    negb (step_init <=? lit 0).

  (** class BacktrackingArmijo, backtracking.py 26-100 (init 51-53, isinstance
      check 64-77) *)
  Definition armijo (decrease_factor slope step_init : N) : Search :=
    mkSearch N has_grad (fun y i => step_init)
      (armijo_step decrease_factor slope step_init).

  (** Construction of a BacktrackingArmijo. `__post_init__`, backtracking.py 33-50. *)
  Definition armijo_new (decrease_factor slope step_init : N) : outcome Search :=
    if armijo_valid decrease_factor slope step_init
    then Ret (armijo decrease_factor slope step_init) else Raise RuntimeError.

  (** ** Trust regions *)

  (** Fields of _AbstractTrustRegion, trust_region.py 43-48 *)
  Record tr_params : Type := mkTr {
    tr_high_cutoff : N; tr_low_cutoff : N; tr_high_constant : N; tr_low_constant : N
  }.

  (** Defaults, trust_region.py 125-128 and 220-223 *)
  Definition tr_default : tr_params :=
    mkTr (lit (99#100)) (lit (1#100)) (lit (7#2)) (lit (1#4)).

  (** _AbstractTrustRegion.__post_init__, trust_region.py 50-68 *)
  Definition tr_valid (P : tr_params) : bool :=
    negb (tr_high_cutoff P <? tr_low_cutoff P) &&
    negb (tr_low_constant P <? lit 0) && negb (tr_high_constant P <? lit 0).

  (** _AbstractTrustRegion.step, trust_region.py 77-106; the state is
      `step_size`. *)
  Definition tr_step (P : tr_params) (predict_reduction : vec -> finfo -> N)
      (first_step : bool) (y y_eval : vec) (f_info f_eval_info : finfo)
      (step_size : N) : N * bool * results * N :=
    let y_diff := vsub y_eval y in
    let predicted_reduction := predict_reduction y_diff f_info in
    let f_min := as_min f_info in
    let f_min_eval := as_min f_eval_info in
    let f_min_diff := f_min_eval - f_min in
    let accept := f_min_diff <=? tr_low_cutoff P * predicted_reduction in
    let good := f_min_diff <? tr_high_cutoff P * predicted_reduction in
    let good := good && (predicted_reduction <? lit 0) in
    let good := good && negb first_step in
    let accept := accept || first_step in
    let mul := if good then tr_high_constant P else lit 1 in
    let mul := if accept then mul else tr_low_constant P in
    let new_step_size := mul * step_size in
    (new_step_size, accept, successful, new_step_size).

  (** ClassicalTrustRegion.predict_reduction, trust_region.py 130-198 *)
  Definition classical_predict (y_diff : vec) (i : finfo) : N :=
    match i with
    | EvalGradHessian _ grad hessian =>
        vdot y_diff (vadd grad (vscale (lit (1#2)) (op_mv hessian y_diff)))
    | ResidualJac r jac =>
        let rtr := sum_squares r in
        let jacobian_term := sum_squares (vadd (op_mv jac y_diff) r) in
        lit (1#2) * (jacobian_term - rtr)
    | _ => lit 0
    end.

  (** LinearTrustRegion.predict_reduction, trust_region.py 225-271 *)
  Definition linear_predict (y_diff : vec) (i : finfo) : N := compute_grad_dot i y_diff.

  (** class ClassicalTrustRegion, trust_region.py 109-198, init 73-75 *)
  Definition classical_trust_region (P : tr_params) : Search :=
    mkSearch N has_hessian (fun y i => lit 1) (tr_step P classical_predict).

  (** class LinearTrustRegion, trust_region.py 206-271 *)
  Definition linear_trust_region (P : tr_params) : Search :=
    mkSearch N has_grad (fun y i => lit 1) (tr_step P linear_predict).

  (** ** LearningRate, learning_rate.py 16-36 *)
  Definition learning_rate (rate : N) : Search :=
    mkSearch unit (fun i => true) (fun y i => tt)
      (fun first_step y y_eval f_info f_eval_info st => (rate, true, successful, tt)).
End Search.
Arguments linop : clear implicits.
Arguments finfo : clear implicits.
Arguments Descent : clear implicits.
Arguments Search : clear implicits.
Arguments tr_params : clear implicits.
