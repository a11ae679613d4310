(** Property theorems: Resume.
    Statements only; each is closed by the lemma of the same name (suffix _pf)
    in the proof file.  [Example]s show concrete cases meeting the hypotheses. *)

From Coq Require Import String List Bool Arith Lia ZArith QArith Reals.
From Verif Require Import Num NumF64 Vec Results Iterate Spec_Iterate Iterate_proofs.
From Verif Require Import FixedPoint NewtonChord Search Descent Minimisers Solvers QuasiNewton Spec_Combos Spec_Tolerance Spec_Queries Tolerance_proofs Spec_Shift Spec_Resume.
Import ListNotations.
Local Open Scope nat_scope.
From Verif Require Import Resume_proofs.

(** FixedPointIteration and Newton (default termination) can be interrupted: if a solve used up a budget of m steps,
    solving again from its value with a budget of k steps, of which it takes j >= 1, gives the value, result and aux of
    one solve with a budget of m + k steps, which takes m + j. *)
Theorem C118_resume :
  forall (N : Num) (Aux : Type) allfinite (s : Solver (list N) (list N) Aux) fn,
    (exists rtol atol damp norm, s = fixed_point_iteration rtol atol damp norm) \/
    (exists M jac (lsolve : M -> _) P, s = newton_chord jac lsolve P /\ nc_is_newton P = true /\ nc_cauchy P = true /\
       forall j b, snd (lsolve j b) <> nonlinear_max_steps_reached) ->
  forall y0 fs auxs fuel1 fuel2 m k j sol1 sol2,
    iterative_solve allfinite s fn fuel1 (Some m) false y0 fs auxs = Ret sol1 -> result sol1 = nonlinear_max_steps_reached ->
    iterative_solve allfinite s fn fuel2 (Some k) false (value sol1) fs auxs = Ret sol2 -> took sol2 j -> 1 <= j ->
  forall fuel, m + k < fuel -> exists sol, iterative_solve allfinite s fn fuel (Some (m + k)) false y0 fs auxs = Ret sol /\
    value sol = value sol2 /\ result sol = result sol2 /\ aux sol = aux sol2 /\ took sol (m + j).
Proof. exact C118_resume_pf. Qed.
Print Assumptions C118_resume.

(** Newton on x^2 from 1: two steps lead to 1/4, from there three more to 1/32; all five at once do the same *)
Example C118_resume_ex :
  let solve ms x := iterative_solve (vallfinite (N:=F64)) (newton_chord sq64_slope over64 (sq64_params true)) sq64 9 (Some ms) false [x] (fun _ => [f64_ofQ 0]) (fun _ => tt) in
  exists sol1 sol2 sol, solve 2 (f64_ofQ 1) = Ret sol1 /\ result sol1 = nonlinear_max_steps_reached /\
    (exists x, value sol1 = [x] /\ neqb (n:=F64) x (f64_ofQ (1#4)) = true /\ solve 4 x = Ret sol2) /\
    solve 6 (f64_ofQ 1) = Ret sol /\ value sol = value sol2 /\ result sol = successful /\ result sol2 = successful /\ took sol2 3 /\ took sol 5.
Proof. exact C118_resume_ex_pf. Qed.

(** Chord cannot be interrupted: it keeps the slope of the point it started from, and a restart takes a new one.
    On x^2 from 1 two steps lead to 3/8, one step and then another to 1/4. *)
Theorem C118_chord :
  let solve ms x := iterative_solve (vallfinite (N:=F64)) (newton_chord sq64_slope over64 (sq64_params false)) sq64 9 (Some ms) false [x] (fun _ => [f64_ofQ 0]) (fun _ => tt) in
  exists sol1 sol2 sol x y z, solve 1 (f64_ofQ 1) = Ret sol1 /\ result sol1 = nonlinear_max_steps_reached /\ value sol1 = [x] /\
    solve 1 x = Ret sol2 /\ took sol2 1 /\ value sol2 = [y] /\ neqb (n:=F64) y (f64_ofQ (1#4)) = true /\
    solve 2 (f64_ofQ 1) = Ret sol /\ took sol 2 /\ value sol = [z] /\ neqb (n:=F64) z (f64_ofQ (3#8)) = true.
Proof. exact C118_chord_pf. Qed.
Print Assumptions C118_chord.

(** Gradient descent with a fixed learning rate can be interrupted too, at the price of one step: a restarted solve
    first evaluates the point it is given.  If a solve used up 1 + m steps and the restart takes 1 + j steps with j >= 1
    of its 1 + k, then one solve with 1 + m + k steps takes 1 + m + j and returns the same. *)
Theorem C118_gradient_descent :
  forall (N : Num) (Aux : Type) allfinite (P : ar_tols N) (rate : N) norm grad_of (fn : list N -> N * Aux) y0 fs auxs fuel1 fuel2 m k j sol1 sol2,
    let s := gradient_descent_solver P (learning_rate rate) (steepest_descent norm) grad_of in
    iterative_solve allfinite s fn fuel1 (Some (1 + m)) false y0 fs auxs = Ret sol1 -> result sol1 = nonlinear_max_steps_reached ->
    iterative_solve allfinite s fn fuel2 (Some (1 + k)) false (value sol1) fs auxs = Ret sol2 -> took sol2 (1 + j) -> 1 <= j ->
  forall fuel, 1 + m + k < fuel -> exists sol, iterative_solve allfinite s fn fuel (Some (1 + m + k)) false y0 fs auxs = Ret sol /\
    value sol = value sol2 /\ result sol = result sol2 /\ aux sol = aux sol2 /\ took sol (1 + m + j).
Proof. exact C118_gradient_descent_pf. Qed.
Print Assumptions C118_gradient_descent.

(** Gradient descent on 128 x^2 from 1, halving x: three steps lead to 1/4; the restart takes 1 + 4 steps to 1/64, and
    one solve gets there in 3 + 4 *)
Example C118_gradient_descent_ex :
  let P := mkTols (N:=F64) (f64_ofQ 0) (f64_ofQ (1#4)) (max_norm (N:=F64)) in
  let s := gradient_descent_solver P (learning_rate (f64_ofQ (1#512))) (steepest_descent None) (lifted64_grad 128) in
  let solve ms x := iterative_solve (vallfinite (N:=F64)) s (lifted64 128 0) 19 (Some ms) false [x] (fun _ => f64_ofQ 0) (fun _ => tt) in
  exists sol1 sol2 sol x z, solve 3 (f64_ofQ 1) = Ret sol1 /\ result sol1 = nonlinear_max_steps_reached /\ value sol1 = [x] /\ neqb (n:=F64) x (f64_ofQ (1#4)) = true /\
    solve 10 x = Ret sol2 /\ took sol2 5 /\ value sol2 = [z] /\ neqb (n:=F64) z (f64_ofQ (1#64)) = true /\
    solve 12 (f64_ofQ 1) = Ret sol /\ value sol = value sol2 /\ took sol 7.
Proof. exact C118_gradient_descent_ex_pf. Qed.

(** With a budget of one step the gradient-based minimisers and the least-squares solvers return y0: the first step
    only evaluates the starting point.  Calling them step by step, each time from the value returned, gets nowhere. *)
Theorem C118_single_step :
  forall (N : Num) (Aux : Type) allfinite (P : ar_tols N) (search : builtin_search N) (descent : Descent N) y0 auxs fuel throw,
    (forall grad_of fn fs sol,
       iterative_solve allfinite (gradient_descent_solver (Aux:=Aux) P (search_of search) descent grad_of) fn fuel (Some 1) throw y0 fs auxs = Ret sol ->
       value sol = y0) /\
    (forall HSt (init : _ -> _ -> _ -> finfo N * HSt) update grad_of fn fs sol,
       iterative_solve allfinite (quasi_newton_solver (Aux:=Aux) P (search_of search) descent grad_of init update) fn fuel (Some 1) throw y0 fs auxs = Ret sol ->
       value sol = y0) /\
    (forall jac_of fn fs sol,
       iterative_solve allfinite (gauss_newton_solver (Aux:=Aux) P (search_of search) descent jac_of) fn fuel (Some 1) throw y0 fs auxs = Ret sol ->
       value sol = y0).
Proof. exact C118_single_step_pf. Qed.
Print Assumptions C118_single_step.

Example C118_single_step_ex :
  let P := mkTols (N:=F64) (f64_ofQ 0) (f64_ofQ (1#4)) (max_norm (N:=F64)) in
  let s := gradient_descent_solver P (search_of (LearningRate (N:=F64) (f64_ofQ (1#512)))) (steepest_descent None) (lifted64_grad 128) in
  exists sol, iterative_solve (vallfinite (N:=F64)) s (lifted64 128 0) 19 (Some 1) false [f64_ofQ 1] (fun _ => f64_ofQ 0) (fun _ => tt) = Ret sol /\
    result sol = nonlinear_max_steps_reached /\ value sol = [f64_ofQ 1].
Proof. exact C118_single_step_ex_pf. Qed.
