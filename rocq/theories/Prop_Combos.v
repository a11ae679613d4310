(** Property theorems: Combos.
    Statements only; each is closed by the lemma of the same name (suffix _pf)
    in the proof file.  [Example]s show concrete cases meeting the hypotheses. *)

From Coq Require Import String List Bool Arith Lia ZArith QArith.
From Verif Require Import Num NumF64 Vec Results Iterate Spec_Iterate Iterate_proofs.
From Verif Require Import Search Descent Minimisers QuasiNewton LBFGS Solvers Spec_Combos.
Import ListNotations.
Local Open Scope nat_scope.
From Verif Require Import Combos_proofs.

(** Any arithmetic, function, starting point, fuel, max_steps: a solve with a built-in
    search and descent raises ValueError if and only if the search or the descent needs
    information that the outer loop does not have. Gradient loop: *)
Theorem C74_gradient_loop :
  forall (N : Num) (Aux : Type) (P : ar_tols N) lsolve eps fmax grad_of (s : builtin_search N) (d : builtin_descent N)
         (fn : list N -> N * Aux) isfin fuel budget throw y0 fs auxs,
    iterative_solve isfin (gradient_descent_solver P (search_of s) (descent_of lsolve eps fmax d) grad_of)
      fn fuel budget throw y0 fs auxs = Raise ValueError <->
    ~ (search_fits GradientOnly s /\ descent_fits GradientOnly d).
Proof. exact C74_gradient_loop_pf. Qed.
Print Assumptions C74_gradient_loop.

(** the BFGS, DFP and L-BFGS loops *)
Theorem C74_quasi_newton_loops :
  forall (N : Num) (Aux : Type) (P : ar_tols N) lsolve eps fmax grad_of (s : builtin_search N) (d : builtin_descent N)
         (fn : list N -> N * Aux) isfin fuel budget throw y0 fs auxs (use_inverse : bool) (history : nat),
    let i := if use_inverse then InverseHessian else Hessian in
    let search := search_of s in let descent := descent_of lsolve eps fmax d in
    (iterative_solve isfin (quasi_newton_solver P search descent grad_of (qn_init_hessian use_inverse) (bfgs_update eps use_inverse))
       fn fuel budget throw y0 fs auxs = Raise ValueError <-> ~ (search_fits i s /\ descent_fits i d)) /\
    (iterative_solve isfin (quasi_newton_solver P search descent grad_of (qn_init_hessian use_inverse) (dfp_update eps use_inverse))
       fn fuel budget throw y0 fs auxs = Raise ValueError <-> ~ (search_fits i s /\ descent_fits i d)) /\
    (iterative_solve isfin (quasi_newton_solver P search descent grad_of (lbfgs_init history use_inverse) (lbfgs_update eps history use_inverse))
       fn fuel budget throw y0 fs auxs = Raise ValueError <-> ~ (search_fits i s /\ descent_fits i d)).
Proof. exact C74_quasi_newton_loops_pf. Qed.
Print Assumptions C74_quasi_newton_loops.

(** the least-squares loop *)
Theorem C74_least_squares_loop :
  forall (N : Num) (Aux : Type) (P : ar_tols N) lsolve eps fmax jac_of (s : builtin_search N) (d : builtin_descent N)
         (fn : list N -> list N * Aux) isfin fuel budget throw y0 fs auxs,
    iterative_solve isfin (gauss_newton_solver P (search_of s) (descent_of lsolve eps fmax d) jac_of)
      fn fuel budget throw y0 fs auxs <> Raise ValueError /\
    search_fits Jacobian s /\ descent_fits Jacobian d.
Proof. exact C74_least_squares_loop_pf. Qed.
Print Assumptions C74_least_squares_loop.

(** The named solvers never raise ValueError; nonlinear CG does with a classical trust
    region and with no other search. *)
Theorem C74_named_solvers :
  forall (N : Num) (Aux : Type) (P : ar_tols N) lsolve eps fmax grad_of jac_of rate method rfind use_inverse history
         (fn : list N -> N * Aux) (res : list N -> list N * Aux) isfin fuel budget throw y0 fs rs auxs,
    (forall solver, In solver [GradientDescent P grad_of rate; BFGS P grad_of lsolve eps use_inverse;
                               DFP P grad_of lsolve eps use_inverse; LBFGS P grad_of lsolve eps history use_inverse] ->
       iterative_solve isfin solver fn fuel budget throw y0 fs auxs <> Raise ValueError) /\
    (forall solver, In solver [GaussNewton P jac_of lsolve; LevenbergMarquardt P jac_of lsolve eps fmax;
                               IndirectLevenbergMarquardt P jac_of lsolve eps fmax rfind; Dogleg P jac_of lsolve eps] ->
       iterative_solve isfin solver res fuel budget throw y0 rs auxs <> Raise ValueError) /\
    (forall s : builtin_search N,
       iterative_solve isfin (NonlinearCG P grad_of method (search_of s)) fn fuel budget throw y0 fs auxs = Raise ValueError <->
       exists Q, s = ClassicalTrustRegion Q).
Proof. exact C74_named_solvers_pf. Qed.
Print Assumptions C74_named_solvers.

(** Example: Newton's descent and the classical trust region do not fit the gradient
    loop, a dogleg does not fit BFGS with use_inverse=True and fits it with False. *)
Example C74_ex :
  ~ descent_fits (N:=F64) GradientOnly (NewtonDescent None) /\
  ~ search_fits (N:=F64) GradientOnly (ClassicalTrustRegion tr_default) /\
  search_fits (N:=F64) GradientOnly (LinearTrustRegion tr_default) /\
  ~ descent_fits (N:=F64) InverseHessian (DoglegDescent two_norm None) /\
  descent_fits (N:=F64) Hessian (DoglegDescent two_norm None).
Proof. exact C74_ex_pf. Qed.
