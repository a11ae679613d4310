(** Property theorems: Minimisers.
    Statements only; each is closed by the lemma of the same name (suffix _pf)
    in the proof file.  [Example]s show concrete cases meeting the hypotheses. *)

From Coq Require Import String List Bool Arith Lia ZArith QArith Qreals Reals Lra Psatz.
From Verif Require Import Num NumFacts NumDiv Vec Results Iterate Spec_Iterate Iterate_proofs.
From Verif Require Import Spec_Vec VecFacts Spec_Lin LinFacts NumF64 NumF64_facts.
From Verif Require Import Search Spec_Search Descent Minimisers QuasiNewton Solvers FixedPoint_proofs.
Import ListNotations.
Local Open Scope nat_scope.
From Verif Require Import Minimisers_proofs.

(** Every search shipped with the library obeys the contract assumed below. *)
Theorem C43_builtin_searches :
  forall (N : Num),
    (forall decrease slope init, accepts_first (N:=N) (armijo decrease slope init)) /\
    (forall P, accepts_first (N:=N) (classical_trust_region P)) /\
    (forall P, accepts_first (N:=N) (linear_trust_region P)) /\
    (forall rate, accepts_first (N:=N) (learning_rate rate)).
Proof. exact C43_builtin_searches_pf. Qed.
Print Assumptions C43_builtin_searches.

(** Gradient-descent skeleton (GradientDescent, NonlinearCG): every step
    returns the iterate it was given or the point it evaluated; the stored value,
    gradient and aux are those of the current iterate; the aux returned by the
    step is the aux at the iterate it was given.  For every arithmetic, function,
    gradient oracle, descent, and search obeying the documented contract. *)
Theorem C43_gradient_descent :
  forall (N : Num) (Aux : Type) (P : ar_tols N) (search : Search N) (descent : Descent N)
         grad_of (fn : list N -> N * Aux) y0 fs auxs st0,
    accepts_first search ->
    let s := gradient_descent_solver P search descent grad_of in
    s_init s fn y0 fs auxs = Ret st0 ->
    let y := y_at s fn y0 st0 (auxs fill0) in
    let st := st_at s fn y0 st0 (auxs fill0) in
    y 1 = y0 /\
    (forall k, y (S k) = y k \/ y (S k) = gd_y_eval (st k)) /\
    (forall k, gd_f_info (st (S k)) = EvalGrad (fst (fn (y (S k)))) (grad_of fn (y (S k))) /\
               gd_aux (st (S k)) = snd (fn (y (S k)))) /\
    reports_aux s fn y0 st0 (auxs fill0).
Proof. exact C43_gradient_descent_pf. Qed.
Print Assumptions C43_gradient_descent.

(** The same for the quasi-Newton skeleton (BFGS, DFP, L-BFGS and user-written
    updates that keep the documented contract). *)
Theorem C43_quasi_newton :
  forall (N : Num) (Aux HSt : Type) (P : ar_tols N) (search : Search N) (descent : Descent N)
         grad_of init_hessian update_hessian (fn : list N -> N * Aux) y0 fs auxs st0,
    accepts_first search ->
    keeps_value_and_grad (HSt:=HSt) update_hessian ->
    let s := quasi_newton_solver P search descent grad_of init_hessian update_hessian in
    s_init s fn y0 fs auxs = Ret st0 ->
    let y := y_at s fn y0 st0 (auxs fill0) in
    let st := st_at s fn y0 st0 (auxs fill0) in
    y 1 = y0 /\
    (forall k, y (S k) = y k \/ y (S k) = qn_y_eval (st k)) /\
    (forall k, as_min (qn_f_info (st (S k))) = fst (fn (y (S k))) /\
               info_grad (qn_f_info (st (S k))) = grad_of fn (y (S k)) /\
               qn_aux (st (S k)) = snd (fn (y (S k)))) /\
    reports_aux s fn y0 st0 (auxs fill0).
Proof. exact C43_quasi_newton_pf. Qed.
Print Assumptions C43_quasi_newton.

(** BFGS and DFP keep the contract on `update_hessian`. *)
Theorem C43_bfgs_dfp_contract :
  forall (N : Num) (eps : N) (use_inverse : bool),
    keeps_value_and_grad (bfgs_update eps use_inverse) /\
    keeps_value_and_grad (dfp_update eps use_inverse).
Proof. exact C43_bfgs_dfp_contract_pf. Qed.
Print Assumptions C43_bfgs_dfp_contract.

(** The same for the Gauss-Newton skeleton (GaussNewton, LevenbergMarquardt,
    IndirectLevenbergMarquardt, Dogleg). *)
Theorem C43_gauss_newton :
  forall (N : Num) (Aux : Type) (P : ar_tols N) (search : Search N) (descent : Descent N)
         jac_of (fn : list N -> list N * Aux) y0 fs auxs st0,
    accepts_first search ->
    let s := gauss_newton_solver P search descent jac_of in
    s_init s fn y0 fs auxs = Ret st0 ->
    let y := y_at s fn y0 st0 (auxs fill0) in
    let st := st_at s fn y0 st0 (auxs fill0) in
    y 1 = y0 /\
    (forall k, y (S k) = y k \/ y (S k) = gn_y_eval (st k)) /\
    (forall k, gn_f_info (st (S k)) = ResidualJac (fst (fn (y (S k)))) (jac_of fn (y (S k))) /\
               gn_aux (st (S k)) = snd (fn (y (S k)))) /\
    reports_aux s fn y0 st0 (auxs fill0).
Proof. exact C43_gauss_newton_pf. Qed.
Print Assumptions C43_gauss_newton.

(** Armijo minimisers on the gradient-descent skeleton: the objective at the
    iterate never increases, in every arithmetic obeying the order and sign laws
    (exact reals with infinities and NaN, IEEE binary64), for every function and
    every (even wrong) gradient. *)
Theorem C27_gradient_descent :
  forall (N : Num) (O : OrdLaws N) (SG : SgnLaws N) (Z : NanLaws N) (Aux : Type) (P : ar_tols N)
         decrease slope init (descent : Descent N) grad_of (fn : list N -> N * Aux) y0 fs auxs st0,
    armijo_valid decrease slope init = true ->
    let s := gradient_descent_solver P (armijo decrease slope init) descent grad_of in
    s_init s fn y0 fs auxs = Ret st0 ->
    let y := y_at s fn y0 st0 (auxs fill0) in
    forall j k, j <= k -> y k = y j \/ nleb (fst (fn (y k))) (fst (fn (y j))) = true.
Proof. exact C27_gradient_descent_pf. Qed.
Print Assumptions C27_gradient_descent.

Theorem C27_quasi_newton :
  forall (N : Num) (O : OrdLaws N) (SG : SgnLaws N) (Z : NanLaws N) (Aux HSt : Type) (P : ar_tols N)
         decrease slope init (descent : Descent N) grad_of init_hessian update_hessian
         (fn : list N -> N * Aux) y0 fs auxs st0,
    armijo_valid decrease slope init = true ->
    keeps_value_and_grad (HSt:=HSt) update_hessian ->
    let s := quasi_newton_solver P (armijo decrease slope init) descent grad_of
               init_hessian update_hessian in
    s_init s fn y0 fs auxs = Ret st0 ->
    let y := y_at s fn y0 st0 (auxs fill0) in
    forall j k, j <= k -> y k = y j \/ nleb (fst (fn (y k))) (fst (fn (y j))) = true.
Proof. exact C27_quasi_newton_pf. Qed.
Print Assumptions C27_quasi_newton.

(** Whole solves: whatever the budget and outcome, the returned value is y0 or
    has an objective no larger than at y0.  NonlinearCG with any method and any
    Armijo search that can be constructed, and BFGS and DFP in both modes; in
    IEEE binary64 and in exact arithmetic with infinities and NaN. *)
Theorem C27_minimise :
  forall (N : Num), N = F64 \/ N = XR ->
  forall (Aux : Type) (P : ar_tols N) grad_of lsolve eps (fn : list N -> N * Aux) y0 fs auxs allfinite
         fuel ms throw (s : Solver (list N) N Aux),
    ((exists method search d sl i, armijo_new d sl i = Ret search /\
        s = NonlinearCG P grad_of method search) \/
     (exists use_inverse, s = BFGS P grad_of lsolve eps use_inverse) \/
     (exists use_inverse, s = DFP P grad_of lsolve eps use_inverse)) ->
    forall sol, iterative_solve allfinite s fn fuel ms throw y0 fs auxs = Ret sol ->
      value sol = y0 \/ nleb (fst (fn (value sol))) (fst (fn y0)) = true.
Proof. exact C27_minimise_pf. Qed.
Print Assumptions C27_minimise.

(** In every arithmetic: the step proposed after any sequence of calls is
    step_init multiplied by decrease_factor once for each rejection since the
    last acceptance (since the start if nothing was accepted). *)
Theorem C28_step_any_arithmetic :
  forall (N : Num) (decrease slope init : N) (calls : list (search_call N)) dflt,
    calls <> [] ->
    let s := armijo decrease slope init in
    forall y i, let out := search_run s calls (se_init s y i) in
    fst (last out dflt) = Nat.iter (trailing_rejections out) (nmul decrease) init.
Proof. exact C28_step_any_arithmetic_pf. Qed.
Print Assumptions C28_step_any_arithmetic.

(** In exact arithmetic: step_init * decrease_factor^k, and positive. *)
Theorem C28_step_sizes :
  forall (decrease slope init : R) (calls : list (search_call RN)),
    armijo_valid (N:=RN) decrease slope init = true ->
    let s := armijo (N:=RN) decrease slope init in
    forall y i, let out := search_run s calls (se_init s y i) in
    forall pre step accept, out = pre ++ [(step, accept)] ->
      (accept = true -> step = init) /\
      (step = init * decrease ^ (trailing_rejections out))%R /\ (0 < step)%R.
Proof. exact C28_step_sizes_pf. Qed.
Print Assumptions C28_step_sizes.

(** In binary64 the product underflows: with the default parameters 1100
    rejections in a row give the step size zero (so "positive" is a fact about
    exact arithmetic only). *)
Theorem C28_binary64_underflow :
  let s := armijo_default (N:=F64) in
  let reject := mkCall (N:=F64) false [nofQ 0] [nofQ 1] (EvalGrad (nofQ 0) [nofQ (-1)]) (Eval (nofQ 1)) in
  let out := search_run s (repeat reject 1100) (nofQ 1) in
  forallb (fun p => negb (snd p)) out = true /\
  neqb (n:=F64) (fst (last out (nofQ 1, true))) (nofQ 0) = true.
Proof. exact C28_binary64_underflow_pf. Qed.
Print Assumptions C28_binary64_underflow.

(** Example: accept, reject, reject: the step is 1/4. *)
Example C28_step_sizes_ex :
  let s := armijo (N:=F64) (nofQ (1#2)) (nofQ (1#10)) (nofQ 1) in
  let c (b : bool) (v : Q) := mkCall (N:=F64) b [nofQ 0] [nofQ 1] (EvalGrad (nofQ 0) [nofQ (-1)]) (Eval (nofQ v)) in
  let out := search_run s [c true 0; c false 1; c false (-1); c false 1; c false (-1#20)]%Q (nofQ 1) in
  map snd out = [true; false; true; false; false] /\
  forallb (fun p => neqb (n:=F64) (fst p) (snd p)) (combine (map fst out)
    [nofQ 1; nofQ (1#2); nofQ 1; nofQ (1#2); nofQ (1#4)]) = true.
Proof. exact C28_step_sizes_ex_pf. Qed.

(** Search level: along a descent direction of a function that is
    differentiable there (the stored gradient giving the directional
    derivative), every sufficiently small trial step is accepted; so of the
    trial steps step_init * decrease^k all but finitely many are. *)
Theorem C29_search_accepts :
  forall (f : list R -> R) (y d g : list R) (decrease slope init : R),
    armijo_valid (N:=RN) decrease slope init = true ->
    length d = length y ->
    derivable_pt_lim (fun t => f (along y d t)) 0 (Rdot g d) ->
    (Rdot g d < 0)%R ->
    exists k, forall j st, k <= j ->
      let y_eval := along y d (init * decrease ^ j)%R in
      snd (fst (fst (se_step (armijo (N:=RN) decrease slope init) false y y_eval
                       (EvalGrad (N:=RN) (f y) g) (Eval (N:=RN) (f y_eval)) st))) = true.
Proof. exact C29_search_accepts_pf. Qed.
Print Assumptions C29_search_accepts.

(** Solver level, gradient-descent skeleton: from any iterate at which the
    objective is differentiable along the direction proposed by the descent,
    with negative slope given by the computed gradient, finitely many rejections
    are followed by an accepted step that strictly decreases the objective. *)
Theorem C29_gradient_descent :
  forall (Aux : Type) (P : ar_tols RN) (decrease slope init : R) (descent : Descent RN) grad_of
         (fn : list R -> R * Aux) y0 fs auxs st0,
    armijo_valid (N:=RN) decrease slope init = true ->
    let s := gradient_descent_solver (N:=RN) P (armijo (N:=RN) decrease slope init) descent grad_of in
    s_init s fn y0 fs auxs = Ret st0 ->
    let y := y_at s fn y0 st0 (auxs fill0) in
    let st := st_at s fn y0 st0 (auxs fill0) in
    forall k dir, 0 < k ->
      (forall t, fst (d_step descent t (gd_descent_state (st k))) = Rscal t dir) ->
      length dir = length (y k) ->
      derivable_pt_lim (fun t => fst (fn (along (y k) dir t))) 0 (Rdot (grad_of fn (y k)) dir) ->
      (Rdot (grad_of fn (y k)) dir < 0)%R ->
      exists m, k <= m /\ (forall j, k <= j <= m -> y j = y k) /\
                (fst (fn (y (S m))) < fst (fn (y k)))%R.
Proof. exact C29_gradient_descent_pf. Qed.
Print Assumptions C29_gradient_descent.
