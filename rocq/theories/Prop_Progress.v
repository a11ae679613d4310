(** Property theorems: Progress.
    Statements only; each is closed by the lemma of the same name (suffix _pf)
    in the proof file.  [Example]s show concrete cases meeting the hypotheses. *)

From Coq Require Import String List Bool Arith Lia ZArith QArith Qreals Reals Lra Psatz.
From Verif Require Import Num NumFacts NumDiv Vec Results Iterate Spec_Iterate Iterate_proofs.
From Verif Require Import Spec_Vec VecFacts Spec_Lin LinFacts NumF64 NumF64_facts.
From Verif Require Import Search Spec_Search Descent Minimisers QuasiNewton Solvers FixedPoint_proofs Minimisers_proofs Spec_Examples.
Import ListNotations.
Local Open Scope nat_scope.
From Verif Require Import Progress_proofs.

(** Solver level, quasi-Newton skeleton: from any iterate at which the
    objective is differentiable along the direction proposed by the descent,
    with negative slope given by the computed gradient, finitely many rejections
    are followed by an accepted step that strictly decreases the objective. *)
Theorem C29_quasi_newton :
  forall (Aux HSt : Type) (P : ar_tols RN) (decrease slope init : R) (descent : Descent RN) grad_of
         init_hessian update_hessian (fn : list R -> R * Aux) y0 fs auxs st0,
    armijo_valid (N:=RN) decrease slope init = true ->
    returns_grad_info (N:=RN) (HSt:=HSt) update_hessian ->
    let s := quasi_newton_solver (N:=RN) P (armijo (N:=RN) decrease slope init) descent grad_of
               init_hessian update_hessian in
    s_init s fn y0 fs auxs = Ret st0 ->
    let y := y_at s fn y0 st0 (auxs fill0) in
    let st := st_at s fn y0 st0 (auxs fill0) in
    forall k dir, 0 < k ->
      (forall t, fst (d_step descent t (qn_descent_state (st k))) = Rscal t dir) ->
      length dir = length (y k) ->
      derivable_pt_lim (fun t => fst (fn (along (y k) dir t))) 0 (Rdot (grad_of fn (y k)) dir) ->
      (Rdot (grad_of fn (y k)) dir < 0)%R ->
      exists m, k <= m /\ (forall j, k <= j <= m -> y j = y k) /\
                (fst (fn (y (S m))) < fst (fn (y k)))%R.
Proof. exact C29_quasi_newton_pf. Qed.
Print Assumptions C29_quasi_newton.

(** Binary64 runs on x^2 + 4 y^2 from (1, 1): NonlinearCG, BFGS and DFP
    (the latter two with use_inverse=True, so no linear solver is needed)
    succeed near the minimum. *)
Example C27_minimise_ex :
  forall s : Solver (list f64) f64 unit,
    s = NonlinearCG (N:=F64) tols bowl_grad (polak_ribiere (N:=F64) eps64) armijo_default \/
    s = BFGS (N:=F64) tols bowl_grad (fun _ v => (v, linear 1)) eps64 true \/
    s = DFP (N:=F64) tols bowl_grad (fun _ v => (v, linear 1)) eps64 true ->
    exists sol,
      iterative_solve (vallfinite (N:=F64)) s bowl 60 (Some 50) true
        [f64_ofZ 1; f64_ofZ 1] (fun _ => f64_ofZ 0) (fun _ => tt) = Ret sol /\
      (results_eqb (result sol) successful && near_zero64 (value sol)) = true.
Proof. exact C27_minimise_ex_pf. Qed.

(** In these runs steps are both rejected and accepted: BFGS from (1, 1)
    rejects its second proposal, (-1, -7), and later accepts one. *)
Example C43_quasi_newton_ex :
  let s := BFGS (N:=F64) tols bowl_grad (fun _ v => (v, linear 1)) eps64 true in
  exists st0,
    s_init s bowl [f64_ofZ 1; f64_ofZ 1] (fun _ => f64_ofZ 0) (fun _ => tt) = Ret st0 /\
    let y k := y_at s bowl [f64_ofZ 1; f64_ofZ 1] st0 tt k in
    forallb (fun x => neqb (n:=F64) x (f64_ofZ 1)) (y 2) &&
    negb (forallb (fun x => neqb (n:=F64) x (f64_ofZ 1)) (y 5)) = true.
Proof. exact C43_quasi_newton_ex_pf. Qed.

Example C29_quasi_newton_ex :
  armijo_valid (N:=RN) (nofQ (1#2)) (nofQ (1#10)) (nofQ 1) = true /\
  (forall y, length y = 1 -> length (sqr1_grad sqr1 y) = 1) /\
  (forall y d, length y = 1 -> length d = 1 ->
     derivable_pt_lim (fun t => fst (sqr1 (along y d t))) 0 (Rdot (sqr1_grad sqr1 y) d)) /\
  sqr1_grad sqr1 [1%R] <> zerov 1 /\
  returns_grad_info (N:=RN) (bfgs_update (N:=RN) (1/2)%R true).
Proof. exact C29_quasi_newton_ex_pf. Qed.
