(** Property theorems: Budget.
    Statements only; each is closed by the lemma of the same name (suffix _pf)
    in the proof file.  [Example]s show concrete cases meeting the hypotheses. *)

From Coq Require Import String List Bool Arith Lia ZArith QArith Reals FunctionalExtensionality.
From Verif Require Import Num NumFacts NumSq NumDiv NumF64 NumF64_facts Vec Results Iterate Spec_Iterate Iterate_proofs.
From Verif Require Import Search Descent Minimisers Solvers Spec_Search Minimisers_proofs Spec_Vec Spec_Lin LeastSquares_proofs BestSoFar Wrappers_proofs NelderMead Spec_NelderMead NelderMead_proofs Shift_proofs Resume_proofs.
From Verif Require Import Spec_Tolerance Tolerance_proofs Spec_Shift Spec_Resume Spec_Aux Aux_proofs Spec_Budget.
Import ListNotations.
Local Open Scope nat_scope.
From Verif Require Import Budget_proofs.

(** The minimisers with Armijo backtracking, in binary64 and in exact arithmetic with infinities and NaN: with more steps
    allowed they return the same point or one with an objective no larger.  Both solves may be cut off or finish, and
    any descent and any gradient, even a wrong one, is allowed. *)
Theorem C120_backtracking :
  forall (N : Num), N = F64 \/ N = XR ->
  forall (Aux : Type) (s : Solver (list N) N Aux), backtracking_minimiser s ->
  forall allfinite fn y0 fs auxs fuel fuel' m k throw throw' sol sol', no_more m k ->
    iterative_solve allfinite s fn fuel m throw y0 fs auxs = Ret sol ->
    iterative_solve allfinite s fn fuel' k throw' y0 fs auxs = Ret sol' ->
    value sol' = value sol \/ nleb (fst (fn (value sol'))) (fst (fn (value sol))) = true.
Proof. exact C120_backtracking_pf. Qed.
Print Assumptions C120_backtracking.

(** LevenbergMarquardt, IndirectLevenbergMarquardt and Dogleg in exact arithmetic with exact linear solves: with more
    steps allowed the sum of squares is no larger. *)
Theorem C120_least_squares :
  forall (Aux : Type) (P : ar_tols RN) (eps fmax : R) lsolve rfind jac_of (fn : list R -> list R * Aux) (n q : nat) (y0 : list R) fs auxs (s : Solver (list R) (list R) Aux),
    (0 <= eps)%R -> (0 < fmax)%R -> exact_least_squares n lsolve ->
    (forall y : list R, length y = n -> length (fst (fn y)) = q /\ linear_op n q (jac_of fn y) /\ transpose_op n (jac_of fn y)) ->
    length y0 = n ->
    s = LevenbergMarquardt (N:=RN) P jac_of lsolve eps fmax \/ s = IndirectLevenbergMarquardt (N:=RN) P jac_of lsolve eps fmax rfind \/
      s = Dogleg (N:=RN) P jac_of lsolve eps ->
  forall allfinite fuel fuel' m k throw throw' sol sol', no_more m k ->
    iterative_solve allfinite s fn fuel m throw y0 fs auxs = Ret sol ->
    iterative_solve allfinite s fn fuel' k throw' y0 fs auxs = Ret sol' ->
    (Rdot (fst (fn (value sol'))) (fst (fn (value sol'))) <= Rdot (fst (fn (value sol))) (fst (fn (value sol))))%R.
Proof. exact C120_least_squares_pf. Qed.
Print Assumptions C120_least_squares.

(** The BestSoFar wrapper around any ordinary solver (C119): with more steps allowed the result has no larger loss, in
    binary64 and in exact arithmetic with infinities and NaN, NaN losses included: the result of the smaller budget is never strictly better. *)
Theorem C120_best_so_far :
  forall (N : Num), N = F64 \/ N = XR -> forall (Y Out Aux : Type) (to_loss : Y -> Out -> N) (s : Solver Y Out (Out * Aux)), ordinary (N:=N) Y Out (Out * Aux)%type s ->
  forall allfinite (fn : Y -> Out * Aux) y0 fs auxs fuel fuel' m k throw throw' sol sol', no_more m k ->
    iterative_solve allfinite (best_so_far to_loss s) fn fuel m throw y0 fs auxs = Ret sol ->
    iterative_solve allfinite (best_so_far to_loss s) fn fuel' k throw' y0 fs auxs = Ret sol' ->
    let loss y := to_loss y (fst (fn y)) in
    nltb (loss (value sol)) (loss (value sol')) = false.
Proof. exact C120_best_so_far_pf. Qed.
Print Assumptions C120_best_so_far.

(** Gradient descent with Armijo backtracking on x^2 from 1, first step size 4: after three steps it is still at 1
    (the trials were rejected), after five it is lower. *)
Example C120_backtracking_ex :
  backtracking_minimiser far64 /\
  let solve ms := iterative_solve (vallfinite (N:=F64)) far64 (lifted64 1 0) 9 (Some ms) false [f64_ofQ 1] (fun _ => f64_ofQ 0) (fun _ => tt) in
  exists sol sol', solve 5 = Ret sol /\ solve 2 = Ret sol' /\ result sol = nonlinear_max_steps_reached /\ result sol' = nonlinear_max_steps_reached /\
    nltb (n:=F64) (fst (lifted64 1 0 (value sol))) (fst (lifted64 1 0 (value sol'))) = true.
Proof. exact C120_backtracking_ex_pf. Qed.

(** With a fixed learning rate the claim fails: gradient descent with rate 3/2 on x^2 from 1 returns a larger objective with
    two more steps. *)
Theorem C120_fixed_rate_worse :
  let s := GradientDescent (N:=F64) tight64 (lifted64_grad 1) (f64_ofQ (3#2)) in
  let solve ms := iterative_solve (vallfinite (N:=F64)) s (lifted64 1 0) 9 (Some ms) false [f64_ofQ 1] (fun _ => f64_ofQ 0) (fun _ => tt) in
  exists sol sol', solve 2 = Ret sol /\ solve 4 = Ret sol' /\ result sol = nonlinear_max_steps_reached /\ result sol' = nonlinear_max_steps_reached /\
    nltb (n:=F64) (fst (lifted64 1 0 (value sol))) (fst (lifted64 1 0 (value sol'))) = true.
Proof. exact C120_fixed_rate_worse_pf. Qed.
Print Assumptions C120_fixed_rate_worse.

(** Wrapping it in BestSoFarMinimiser repairs it: the same two budgets both return the start, while the wrapped solver
    itself ends worse. *)
Example C120_best_so_far_ex :
  let s := GradientDescent (N:=F64) (Aux:=f64 * unit) tight64 (fun _ => lifted64_grad 1 (lifted64 1 0)) (f64_ofQ (3#2)) in
  ordinary (N:=F64) (list f64) f64 (f64 * unit)%type s /\
  let solve ms := iterative_solve (vallfinite (N:=F64)) (best_so_far (N:=F64) loss_minimiser s) (lifted64 1 0) 9 (Some ms) false [f64_ofQ 1] (fun _ => f64_ofQ 0) (fun _ => tt) in
  exists sol sol', solve 2 = Ret sol /\ solve 4 = Ret sol' /\ result sol = nonlinear_max_steps_reached /\ result sol' = nonlinear_max_steps_reached /\
    neqb (n:=F64) (fst (lifted64 1 0 (value sol))) (fst (lifted64 1 0 (value sol'))) = true.
Proof. exact C120_best_so_far_ex_pf. Qed.

(** NelderMead: minimising x from 0, one step returns 0 and two steps return 1. *)
Theorem C120_nelder_mead_worse :
  let solve ms := iterative_solve (vallfinite (N:=F64)) nm_unit ident 9 (Some ms) false [f64_ofZ 0] (fun _ => f64_ofZ 0) (fun _ => tt) in
  exists sol sol', solve 1 = Ret sol /\ solve 2 = Ret sol' /\ result sol = nonlinear_max_steps_reached /\ result sol' = nonlinear_max_steps_reached /\
    nltb (n:=F64) (fst (ident (value sol))) (fst (ident (value sol'))) = true.
Proof. exact C120_nelder_mead_worse_pf. Qed.
Print Assumptions C120_nelder_mead_worse.

(** LevenbergMarquardt with the one-variable solve of C32: the hypotheses hold, both budgets give an answer. *)
Example C120_least_squares_ex :
  let P := mkTols (N:=RN) 0%R (1/2)%R (fun v => sqrt (Rdot v v)) in
  let s := LevenbergMarquardt (N:=RN) (Aux:=unit) P twores_jac lsolve1 0%R 1%R in
  let solve ms := iterative_solve (fun _ => true) s twores 9 (Some ms) false [7%R] (fun _ => [0%R; 0%R]) (fun _ => tt) in
  exact_least_squares 1 lsolve1 /\
  (forall y, length y = 1 -> length (fst (twores y)) = 2 /\ linear_op 1 2 (twores_jac twores y) /\ transpose_op 1 (twores_jac twores y)) /\
  exists sol sol', solve 2 = Ret sol /\ solve 5 = Ret sol' /\
    (Rdot (fst (twores (value sol'))) (fst (twores (value sol'))) <= Rdot (fst (twores (value sol))) (fst (twores (value sol))))%R.
Proof. exact C120_least_squares_ex_pf. Qed.
