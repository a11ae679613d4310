(** Property theorems: Units.
    Statements only; each is closed by the lemma of the same name (suffix _pf)
    in the proof file.  [Example]s show concrete cases meeting the hypotheses. *)

From Coq Require Import String List Bool Arith Lia ZArith QArith Reals Lra Psatz FunctionalExtensionality.
From Coquelicot Require Import Coquelicot.
From Verif Require Import Num NumFacts Vec VecFacts Spec_Vec Spec_Lin LinFacts Results Iterate Spec_Iterate Iterate_proofs.
From Verif Require Import Search Descent Minimisers Solvers Spec_Search Spec_Combos TrustRegion_proofs LBFGSFacts LeastSquares_proofs Dogleg_proofs Spec_Isometry Isometry_proofs Spec_Solvable SolvableFacts Spec_Units.
Import ListNotations.
Local Open Scope nat_scope.
From Verif Require Import Units_proofs.

(** A Gauss-Newton method with any search of the library does not depend on the units of the residuals, nor on the
    units of the unknowns (or any other linear change of variables): multiply the residuals by any c <> 0 and write
    the problem in the variables U y, and every iterate is the old one in the new variables, with the same accepted
    and rejected steps, statuses, step sizes and aux outputs. *)
Theorem C122_gauss_newton :
  forall (Aux : Type) n m U c lsolve eps fmax (P : ar_tols RN) (s : builtin_search RN)
    (jac_of : (list R -> list R * Aux) -> list R -> linop RN) (fn fn' : list R -> list R * Aux),
    linear_map n U -> c <> 0%R -> other_units n m U c fn fn' ->
    (forall y, length y = n -> chain_rule n m U c (jac_of fn y) (jac_of fn' (U y)) /\
                               same_newton n U c lsolve (jac_of fn y) (jac_of fn' (U y)) (fst (fn y))) ->
  let D := descent_of lsolve eps fmax (NewtonDescent None) in
  let sol := gauss_newton_solver (N:=RN) (Aux:=Aux) P (search_of s) D jac_of in
  forall y0 fs fs' auxs, length y0 = n -> length (fs fill0) = m -> fs' fill0 = Rscal c (fs fill0) ->
    keeps_step (search_of s) D sol (fun st => st) U fn fn' y0 (auxs fill0) (s_init sol fn y0 fs auxs) (s_init sol fn' (U y0) fs' auxs).
Proof. exact C122_gauss_newton_pf. Qed.
Print Assumptions C122_gauss_newton.

(** If only the residuals change units, the same holds for the Newton descent with any normalisation and for the dogleg
    descent with any norm and any root finder, provided the dogleg's test `denom > eps` comes out the same. *)
Theorem C122_dogleg :
  forall (Aux : Type) n m c lsolve eps fmax (P : ar_tols RN) (s : builtin_search RN) (d : builtin_descent RN)
    (jac_of : (list R -> list R * Aux) -> list R -> linop RN) (fn fn' : list R -> list R * Aux),
    let U v := v in
    c <> 0%R -> (0 <= eps)%R -> newton_or_dogleg d -> other_units n m U c fn fn' ->
    (forall y, length y = n -> chain_rule n m U c (jac_of fn y) (jac_of fn' y) /\ chain_rule_transpose n m c (jac_of fn y) (jac_of fn' y) /\
                               same_newton n U c lsolve (jac_of fn y) (jac_of fn' y) (fst (fn y)) /\ same_guard eps c (jac_of fn y) (fst (fn y))) ->
  let D := descent_of lsolve eps fmax d in
  let sol := gauss_newton_solver (N:=RN) (Aux:=Aux) P (search_of s) D jac_of in
  forall y0 fs fs' auxs, length y0 = n -> length (fs fill0) = m -> fs' fill0 = Rscal c (fs fill0) ->
    keeps_step (search_of s) D sol (fun st => st) U fn fn' y0 (auxs fill0) (s_init sol fn y0 fs auxs) (s_init sol fn' y0 fs' auxs).
Proof. exact C122_dogleg_pf. Qed.
Print Assumptions C122_dogleg.

(** The condition on the linear solver holds if the Jacobian has full column rank, the solver finds least-squares
    solutions, and the change of variables can be undone. *)
Theorem C122_least_squares :
  forall n m U c A B lsolve (r : list R),
    linear_map n U -> (forall a, length a = n -> exists b, length b = n /\ U b = a) -> c <> 0%R -> chain_rule n m U c A B ->
    exact_least_squares n lsolve -> (forall A b, snd (lsolve A b) = successful) -> full_rank n A -> length r = m ->
    same_newton n U c lsolve A B r.
Proof. exact C122_least_squares_pf. Qed.
Print Assumptions C122_least_squares.

(** If only the residuals change units, it also holds, whatever the rank, of a solver that finds the least-squares
    solution of least norm. *)
Theorem C122_minimum_norm :
  forall n m c A B lsolve (r : list R),
    c <> 0%R -> chain_rule n m (fun v => v) c A B ->
    (forall k A (b : list R), linear_op n k A -> length b = k -> minimum_norm_solution n A b (fst (lsolve A b)) /\ snd (lsolve A b) = successful) ->
    length r = m -> same_newton n (fun v => v) c lsolve A B r.
Proof. exact C122_minimum_norm_pf. Qed.
Print Assumptions C122_minimum_norm.

(** The residuals (x^3 + x, 2x) in other units of the residuals (c) and of the unknown (k): the hypotheses hold, and
    every search gives the same iterates, multiplied by k. *)
Example C122_gauss_newton_ex :
  forall (P : ar_tols RN) (s : builtin_search RN) (c k x0 : R), k <> 0%R -> c <> 0%R ->
  let D := descent_of lsolve1 0%R 1%R (NewtonDescent None) in
  let sol := gauss_newton_solver (N:=RN) (Aux:=unit) P (search_of s) D cubic_jac in
  exists a b, s_init sol (cubic 1 1) [x0] (fun _ => [0; 0]%R) (fun _ => tt) = Ret a /\
              s_init sol (cubic c k) [k * x0]%R (fun _ => [0; 0]%R) (fun _ => tt) = Ret b /\
  forall j, y_at sol (cubic c k) [k * x0]%R b tt j = Rscal k (y_at sol (cubic 1 1) [x0] a tt j).
Proof. exact C122_gauss_newton_ex_pf. Qed.

(** The same residuals with the dogleg descent, residual units c. *)
Example C122_dogleg_ex :
  forall (P : ar_tols RN) (s : builtin_search RN) norm rfind (c x0 : R), c <> 0%R ->
  let D := descent_of lsolve1 0%R 1%R (DoglegDescent norm rfind) in
  let sol := gauss_newton_solver (N:=RN) (Aux:=unit) P (search_of s) D cubic_jac in
  exists a b, s_init sol (cubic 1 1) [x0] (fun _ => [0; 0]%R) (fun _ => tt) = Ret a /\
              s_init sol (cubic c 1) [x0] (fun _ => [0; 0]%R) (fun _ => tt) = Ret b /\
  forall j, y_at sol (cubic c 1) [x0] b tt j = y_at sol (cubic 1 1) [x0] a tt j.
Proof. exact C122_dogleg_ex_pf. Qed.

(** Levenberg-Marquardt does depend on the units of the residuals, because its damping 1/step_size is compared with
    J^T J, which has the square of these units. On the residual c x from x = 1 (the Newton step goes to 0 for every c)
    its second iterate is 1 / (1 + c^2): near 0 if c is large, and near 1, almost no progress, if c is small. *)
Theorem C122_levenberg_marquardt :
  forall (P : ar_tols RN) lsolve eps fmax jac_of (c : R), exact_least_squares 1 lsolve -> (eps < 1)%R ->
    (forall y, length y = 1 -> jac_of (proportional c) y = MatOp (N:=RN) 1 [[c]]) ->
  let s := LevenbergMarquardt (N:=RN) P jac_of lsolve eps fmax in
  forall st0, s_init s (proportional c) [1%R] (fun _ => [0%R]) (fun _ => tt) = Ret st0 ->
    y_at s (proportional c) [1%R] st0 tt 2 = [1 / (1 + c * c)]%R.
Proof. exact C122_levenberg_marquardt_pf. Qed.
Print Assumptions C122_levenberg_marquardt.

(** So does the dogleg method, through its test `denom > eps` (eps = 2^-52 for double precision; denom = |J J^T r|^2
    has the sixth power of the unit): with Jacobian diag(1, 2) and residuals (1, 1), in units in which the test fails,
    the Cauchy point is lost, and half a step goes along the Newton direction instead of along the gradient. *)
Theorem C122_dogleg_guard :
  forall lsolve eps, exact_least_squares 2 lsolve -> (forall A b, snd (lsolve A b) = successful) -> (0 < eps < 1/2)%R ->
  let D := dogleg_descent (N:=RN) lsolve eps (two_norm (N:=RN)) None in
  forall y st,
    d_step D (1/2)%R (d_query D y (two_residuals 1) st) = ([-1/4; -1/2]%R, successful) /\
    forall c, c <> 0%R -> (17 * c ^ 6 <= eps)%R ->
      d_step D (1/2)%R (d_query D y (two_residuals c) st) = ([-1/2; -1/4]%R, successful).
Proof. exact C122_dogleg_guard_pf. Qed.
Print Assumptions C122_dogleg_guard.

(** Solvers as in the two lemmas above exist for every number of unknowns (least squares by eliminating columns; the
    projection of its answer onto the span of the rows). *)
Example C122_least_squares_ex :
  (forall n, exact_least_squares n (least_squares n) /\ forall A b, snd (least_squares n A b) = successful) /\
  (forall n k A (b : list R), linear_op n k A -> length b = k ->
     minimum_norm_solution n A b (fst (least_norm n A b)) /\ snd (least_norm n A b) = successful).
Proof. exact C122_least_squares_ex_pf. Qed.

(** c = 1/10: one percent of the way. *)
Example C122_levenberg_marquardt_ex :
  let P := mkTols (N:=RN) 0%R (1/100)%R max_norm in
  let jac (f : list R -> list R * unit) (y : list R) := MatOp (N:=RN) 1 [[1/10]]%R in
  let s := LevenbergMarquardt (N:=RN) P jac (least_squares 1) (1/1000)%R 1000%R in
  exists st0, s_init s (proportional (1/10)) [1%R] (fun _ => [0%R]) (fun _ => tt) = Ret st0 /\
    y_at s (proportional (1/10)) [1%R] st0 tt 2 = [100/101]%R.
Proof. exact C122_levenberg_marquardt_ex_pf. Qed.

(** In double precision's eps, residuals a thousand times smaller. *)
Example C122_dogleg_guard_ex :
  let D := dogleg_descent (N:=RN) (least_squares 2) (/ 2 ^ 52)%R (two_norm (N:=RN)) None in
  forall y st, d_step D (1/2)%R (d_query D y (two_residuals 1) st) = ([-1/4; -1/2]%R, successful) /\
               d_step D (1/2)%R (d_query D y (two_residuals (1/1000)) st) = ([-1/2; -1/4]%R, successful).
Proof. exact C122_dogleg_guard_ex_pf. Qed.
