(** Property theorems: Isometry.
    Statements only; each is closed by the lemma of the same name (suffix _pf)
    in the proof file.  [Example]s show concrete cases meeting the hypotheses. *)

From Coq Require Import String List Bool Arith Lia ZArith QArith Reals Lra Permutation FunctionalExtensionality.
From Verif Require Import Num NumFacts Vec VecFacts Spec_Vec Spec_Lin LinFacts Results Iterate Spec_Iterate Iterate_proofs.
From Verif Require Import Search Descent Minimisers QuasiNewton LinAlg LBFGS Solvers Spec_Search Spec_Combos TrustRegion_proofs BFGS_proofs LBFGSFacts LeastSquares_proofs Dogleg_proofs Steps_proofs Spec_Isometry.
Import ListNotations.
Local Open Scope nat_scope.
From Verif Require Import Isometry_proofs.

(** Gradient descent, NonlinearCG and every other AbstractGradientDescent solve. *)
Theorem C105_gradient : forall (Aux : Type) (n : nat) (U : list R -> list R) (lsolve : linop RN -> list R -> list R * results) (eps fmax : R)
    (P : ar_tols RN) (s : builtin_search RN) (d : builtin_descent RN)
    (grad_of : (list R -> R * Aux) -> list R -> list R) (fn fn' : list R -> R * Aux) fuel ms throw (y0 : list R) fs auxs,
  isometry n U -> blind_solver n U lsolve -> blind_descent n U d -> blind_test n 1 U (fun v => v) P ->
  (forall y, length y = n -> fn' (U y) = fn y) ->
  (forall y, length y = n -> length (grad_of fn y) = n /\ grad_of fn' (U y) = U (grad_of fn y)) ->
  length y0 = n ->
  let solver := gradient_descent_solver P (search_of s) (descent_of lsolve eps fmax d) grad_of in
  same_solve U (iterative_solve (vallfinite (N:=RN)) solver fn fuel ms throw y0 fs auxs)
               (iterative_solve (vallfinite (N:=RN)) solver fn' fuel ms throw (U y0) fs auxs).
Proof. exact C105_gradient_pf. Qed.
Print Assumptions C105_gradient.

(** BFGS and DFP, either form, with every built-in search and descent. *)
Theorem C105_quasi_newton : forall (Aux : Type) (n : nat) (U : list R -> list R) (lsolve : linop RN -> list R -> list R * results) (eps fmax : R)
    (P : ar_tols RN) (s : builtin_search RN) (d : builtin_descent RN)
    (grad_of : (list R -> R * Aux) -> list R -> list R) (fn fn' : list R -> R * Aux) (dfp use_inverse : bool) (tiny : R) fuel ms throw (y0 : list R) fs auxs,
  isometry n U -> blind_solver n U lsolve -> blind_descent n U d -> blind_test n 1 U (fun v => v) P ->
  (forall y, length y = n -> fn' (U y) = fn y) ->
  (forall y, length y = n -> length (grad_of fn y) = n /\ grad_of fn' (U y) = U (grad_of fn y)) ->
  length y0 = n ->
  let solver := quasi_newton_solver P (search_of s) (descent_of lsolve eps fmax d) grad_of (qn_init_hessian (N:=RN) use_inverse)
                  (if dfp then dfp_update (N:=RN) tiny use_inverse else bfgs_update (N:=RN) tiny use_inverse) in
  same_solve U (iterative_solve (vallfinite (N:=RN)) solver fn fuel ms throw y0 fs auxs)
               (iterative_solve (vallfinite (N:=RN)) solver fn' fuel ms throw (U y0) fs auxs).
Proof. exact C105_quasi_newton_pf. Qed.
Print Assumptions C105_quasi_newton.

(** LBFGS, either form, with every built-in search and descent. *)
Theorem C105_lbfgs : forall (Aux : Type) (n : nat) (U : list R -> list R) (lsolve : linop RN -> list R -> list R * results) (eps fmax : R)
    (P : ar_tols RN) (s : builtin_search RN) (d : builtin_descent RN)
    (grad_of : (list R -> R * Aux) -> list R -> list R) (fn fn' : list R -> R * Aux) (history : nat) (use_inverse : bool) (tiny : R) fuel ms throw (y0 : list R) fs auxs,
  isometry n U -> blind_solver n U lsolve -> blind_descent n U d -> blind_test n 1 U (fun v => v) P ->
  (forall y, length y = n -> fn' (U y) = fn y) ->
  (forall y, length y = n -> length (grad_of fn y) = n /\ grad_of fn' (U y) = U (grad_of fn y)) ->
  length y0 = n -> (0 < history)%nat ->
  let solver := quasi_newton_solver P (search_of s) (descent_of lsolve eps fmax d) grad_of (lbfgs_init (N:=RN) history use_inverse)
                  (lbfgs_update (N:=RN) tiny history use_inverse) in
  same_solve U (iterative_solve (vallfinite (N:=RN)) solver fn fuel ms throw y0 fs auxs)
               (iterative_solve (vallfinite (N:=RN)) solver fn' fuel ms throw (U y0) fs auxs).
Proof. exact C105_lbfgs_pf. Qed.
Print Assumptions C105_lbfgs.

(** GaussNewton, LevenbergMarquardt, Dogleg and every other AbstractGaussNewton solve. *)
Theorem C105_least_squares : forall (Aux : Type) (n m : nat) (U V : list R -> list R) (lsolve : linop RN -> list R -> list R * results) (eps fmax : R)
    (P : ar_tols RN) (s : builtin_search RN) (d : builtin_descent RN)
    (jac_of : (list R -> list R * Aux) -> list R -> linop RN) (fn fn' : list R -> list R * Aux) fuel ms throw (y0 : list R) fs fs' auxs,
  isometry n U -> isometry m V -> blind_solver n U lsolve -> blind_descent n U d -> blind_test n m U V P ->
  (forall y, length y = n -> length (fst (fn y)) = m /\ fn' (U y) = (V (fst (fn y)), snd (fn y))) ->
  (forall y, length y = n -> turned n m U V (jac_of fn y) (jac_of fn' (U y))) ->
  length y0 = n -> length (fs fill0) = m -> fs' fill0 = V (fs fill0) ->
  let solver := gauss_newton_solver P (search_of s) (descent_of lsolve eps fmax d) jac_of in
  same_solve U (iterative_solve (vallfinite (N:=RN)) solver fn fuel ms throw y0 fs auxs)
               (iterative_solve (vallfinite (N:=RN)) solver fn' fuel ms throw (U y0) fs' auxs).
Proof. exact C105_least_squares_pf. Qed.
Print Assumptions C105_least_squares.

(** The four nonlinear CG formulas. *)
Theorem C105_methods : forall n U (eps : R), isometry n U ->
  blind_method n U (polak_ribiere (N:=RN) eps) /\ blind_method n U (fletcher_reeves (N:=RN) eps) /\
  blind_method n U (hestenes_stiefel (N:=RN) eps) /\ blind_method n U (dai_yuan (N:=RN) eps).
Proof. exact C105_methods_pf. Qed.
Print Assumptions C105_methods.

(** The stopping test. Under a renaming it does not change, whatever the tolerances,
    when the norm does not depend on the order of the entries. *)
Theorem C105_renaming : forall n w, renaming n w ->
  isometry n (rename w) /\
  (forall P m v, renaming m v -> orderless (ar_norm P) -> blind_test n m (rename w) (rename v) P) /\
  (forall P, orderless (ar_norm P) -> blind_test n 1 (rename w) (fun v => v) P) /\
  (forall norm, orderless norm -> blind_norm n (rename w) norm) /\
  orderless (max_norm (N:=RN)) /\ orderless (two_norm (N:=RN)) /\ orderless (rms_norm (N:=RN)).
Proof. exact C105_renaming_pf. Qed.
Print Assumptions C105_renaming.

(** Under a rotation it does not change when rtol = 0 and the norm is Euclidean. *)
Theorem C105_rotation : forall n U, isometry n U ->
  (forall P m V, isometry m V -> ar_rtol P = 0%R -> ar_norm P = two_norm (N:=RN) \/ ar_norm P = rms_norm (N:=RN) -> blind_test n m U V P) /\
  blind_norm n U (two_norm (N:=RN)) /\ blind_norm n U (rms_norm (N:=RN)).
Proof. exact C105_rotation_pf. Qed.
Print Assumptions C105_rotation.

(** A solver returning the least-squares solution of least norm does not depend on the
    coordinates. *)
Theorem C105_solver : forall n U (lsolve : linop RN -> list R -> list R * results), isometry n U ->
  (forall k A (b : list R), linear_op n k A -> length b = k -> minimum_norm_solution n A b (fst (lsolve A b)) /\ snd (lsolve A b) = successful) ->
  blind_solver n U lsolve.
Proof. exact C105_solver_pf. Qed.
Print Assumptions C105_solver.

(** NonlinearCG on a2 + 3 b2 and on the same bowl turned by the 3-4-5 angle: the whole run
    is turned, whatever the number of steps. *)
Example C105_gradient_ex : forall (steps : nat) (a b : R),
  let cg := gradient_descent_solver round_tols (search_of (BacktrackingArmijo (N:=RN) (1/2)%R (1/10)%R 1%R))
              (descent_of no_solver 0%R 1000%R (NonlinearCGDescent (N:=RN) (polak_ribiere (N:=RN) 0%R))) two_grad in
  same_solve rot345 (iterative_solve (vallfinite (N:=RN)) cg bowl2 (S steps) (Some steps) false [a; b] (fun _ => 0%R) (fun _ => tt))
                    (iterative_solve (vallfinite (N:=RN)) cg bowl2' (S steps) (Some steps) false (rot345 [a; b]) (fun _ => 0%R) (fun _ => tt)).
Proof. exact C105_gradient_ex_pf. Qed.

Example C105_quasi_newton_ex : forall (dfp : bool) (steps : nat) (a b : R),
  let qn := quasi_newton_solver round_tols (search_of (BacktrackingArmijo (N:=RN) (1/2)%R (1/10)%R 1%R)) (descent_of no_solver 0%R 1000%R (NewtonDescent (N:=RN) None)) two_grad
              (qn_init_hessian (N:=RN) true) (if dfp then dfp_update (N:=RN) 0%R true else bfgs_update (N:=RN) 0%R true) in
  same_solve rot345 (iterative_solve (vallfinite (N:=RN)) qn bowl2 (S steps) (Some steps) false [a; b] (fun _ => 0%R) (fun _ => tt))
                    (iterative_solve (vallfinite (N:=RN)) qn bowl2' (S steps) (Some steps) false (rot345 [a; b]) (fun _ => 0%R) (fun _ => tt)).
Proof. exact C105_quasi_newton_ex_pf. Qed.

Example C105_lbfgs_ex : forall (steps : nat) (a b : R),
  let lb := quasi_newton_solver round_tols (search_of (BacktrackingArmijo (N:=RN) (1/2)%R (1/10)%R 1%R)) (descent_of no_solver 0%R 1000%R (NewtonDescent (N:=RN) None)) two_grad
              (lbfgs_init (N:=RN) 3 true) (lbfgs_update (N:=RN) 0%R 3 true) in
  same_solve rot345 (iterative_solve (vallfinite (N:=RN)) lb bowl2 (S steps) (Some steps) false [a; b] (fun _ => 0%R) (fun _ => tt))
                    (iterative_solve (vallfinite (N:=RN)) lb bowl2' (S steps) (Some steps) false (rot345 [a; b]) (fun _ => 0%R) (fun _ => tt)).
Proof. exact C105_lbfgs_ex_pf. Qed.

Example C105_solver_ex : forall w, renaming 1 w -> blind_solver 1 (rename w) column_solver.
Proof. exact C105_solver_ex_pf. Qed.

(** LevenbergMarquardt on (y - 1, 2 y + 1): flip the sign of y, swap the residuals, keep
    the default norm and any tolerances. *)
Example C105_least_squares_ex : forall (rtol atol a : R) (steps : nat),
  let lm := gauss_newton_solver (mkTols rtol atol (max_norm (N:=RN))) (search_of (ClassicalTrustRegion (N:=RN) tr_default))
              (descent_of column_solver 0%R 1000%R DampedNewtonDescent) line_jac in
  same_solve (rename flip1) (iterative_solve (vallfinite (N:=RN)) lm line2 (S steps) (Some steps) false [a] (fun _ => [0; 0]%R) (fun _ => tt))
    (iterative_solve (vallfinite (N:=RN)) lm line2' (S steps) (Some steps) false [(- a)%R] (fun _ => [0; 0]%R) (fun _ => tt)).
Proof. exact C105_least_squares_ex_pf. Qed.

Theorem C105_max_norm : exists (U : list R -> list R) (P : ar_tols RN) (rate : R) (grad_of : (list R -> R * unit) -> list R -> list R) (fn fn' : list R -> R * unit)
    (y0 : list R) (max_steps : nat) s s',
  isometry 2 U /\ length y0 = 2 /\ ar_norm P = max_norm (N:=RN) /\ ar_rtol P = 0%R /\
  (forall y, length y = 2 -> fn' (U y) = fn y) /\
  (forall y, length y = 2 -> length (grad_of fn y) = 2 /\ grad_of fn' (U y) = U (grad_of fn y)) /\
  let solver := gradient_descent_solver P (learning_rate rate) (steepest_descent None) grad_of in
  iterative_solve (vallfinite (N:=RN)) solver fn (S max_steps) (Some max_steps) false y0 (fun _ => 0%R) (fun _ => tt) = Ret s /\
  iterative_solve (vallfinite (N:=RN)) solver fn' (S max_steps) (Some max_steps) false (U y0) (fun _ => 0%R) (fun _ => tt) = Ret s' /\
  result s = successful /\ result s' = nonlinear_max_steps_reached.
Proof. exact C105_max_norm_pf. Qed.
Print Assumptions C105_max_norm.

Example C105_methods_ex : blind_method 2 rot345 (polak_ribiere (N:=RN) (1/1000)%R) /\
  polak_ribiere (N:=RN) (1/1000)%R (rot345 [1; 2]%R) (rot345 [3; 0]%R) (rot345 [1; 1]%R) = polak_ribiere (N:=RN) (1/1000)%R [1; 2]%R [3; 0]%R [1; 1]%R.
Proof. exact C105_methods_ex_pf. Qed.

Example C105_renaming_ex : renaming 3 [(true, 2); (false, 0); (false, 1)] /\
  rename [(true, 2); (false, 0); (false, 1)] [1; 2; 3]%R = [-(3); 1; 2]%R /\
  blind_test 3 2 (rename [(true, 2); (false, 0); (false, 1)]) (rename swap2) (mkTols (1/100)%R (1/1000)%R (max_norm (N:=RN))).
Proof. exact C105_renaming_ex_pf. Qed.

Example C105_rotation_ex : isometry 2 rot345 /\ rot345 [5; 10]%R = [-(5); 10]%R /\
  blind_test 2 2 rot345 rot345 round_tols /\ blind_norm 2 rot345 (rms_norm (N:=RN)).
Proof. exact C105_rotation_ex_pf. Qed.
