(** Property theorems: Compat.
    Statements only; each is closed by the lemma of the same name (suffix _pf)
    in the proof file.  [Example]s show concrete cases meeting the hypotheses. *)

From Coq Require Import List Bool Arith Lia QArith ZArith Ascii String Reals Lra.
From Verif Require Import Num NumF64 NumF64_facts NumFacts Vec VecFacts Results Iterate Spec_Iterate Iterate_proofs
  Search Spec_Search Descent Minimisers Minimisers_proofs QuasiNewton Solvers Spec_Lin LinFacts LinAlg
  QNRun_proofs RootFind Cholesky CholeskyFacts Compat Spec_Compat Spec_Examples.
Import ListNotations.
Local Open Scope nat_scope.
From Verif Require Import Compat_proofs.

(** The exceptions: exactly as documented, in this order. *)
Theorem C50_errors :
  forall (N : Num) grad_of lsolve (eps : N) fuel (fn : list N -> N) x0 args_is_tuple method tol options e,
    compat_minimize grad_of lsolve eps fuel fn x0 args_is_tuple method tol options = Raise e <->
    (e = ValueError /\ ~ names_bfgs method) \/
    (e = ValueError /\ names_bfgs method /\ x0 = None) \/
    (e = TypeError /\ names_bfgs method /\ x0 <> None /\ args_is_tuple = false) \/
    (e = ValueError /\ names_bfgs method /\ x0 <> None /\ args_is_tuple = true /\ ~ known_options options).
Proof. exact C50_errors_pf. Qed.
Print Assumptions C50_errors.

(** The status fields: what is returned is the outcome of a BFGS solve (max norm,
    rtol = atol = tol, at most "maxiter" steps); success <-> status 0 <->
    successful; status 1 <-> the step limit was used up; status 3 <-> a nonfinite
    iterate; iteration counts are consistent.  In any arithmetic. *)
Theorem C50_status :
  forall (N : Num) grad_of lsolve (eps : N) fuel (fn : list N -> N) x0 args_is_tuple method tol options r,
    compat_minimize grad_of lsolve eps fuel fn x0 args_is_tuple method tol options = Ret r ->
    exists y0 sol nfev,
      x0 = Some y0 /\
      iterative_solve vallfinite
        (BFGS (mkTols (tolerance tol) (tolerance tol) max_norm) grad_of lsolve eps true)
        (fun y => (fn y, tt)) fuel (step_limit options) false y0 scalar_struct (fun _ => tt) = Ret sol /\
      or_x r = value sol /\
      (or_success r = true <-> result sol = successful) /\
      (or_status r = 0%Z <-> result sol = successful) /\
      (or_status r = 1%Z <-> result sol = nonlinear_max_steps_reached) /\
      (or_status r = 3%Z <-> result sol = nonfinite) /\
      (or_status r = 0%Z \/ or_status r = 1%Z \/ or_status r = 3%Z) /\
      or_nfev r = Some (Some (Z.of_nat nfev)) /\
      (forall m, step_limit options = Some m -> nfev <= m) /\
      (or_status r = 1%Z -> step_limit options = Some nfev) /\
      or_njev r = or_nit r /\ or_nit r <= nfev /\ (0 < nfev -> 0 < or_nit r).
Proof. exact C50_status_pf. Qed.
Print Assumptions C50_status.

(** Full claim: [or_fun r = fn (or_x r)] and [or_jac r] is the gradient there, for
    every run; false when no step was made ([C50_fun_refuted]).  What holds: both
    are right whenever x0 is finite and "maxiter" is not 0, and then the counts
    are positive; otherwise no step is made. *)
Theorem C50_fun_partial :
  forall (N : Num) grad_of lsolve (eps : N) fuel (fn : list N -> N) y0 args_is_tuple method tol options r,
    compat_minimize grad_of lsolve eps fuel fn (Some y0) args_is_tuple method tol options = Ret r ->
    (vallfinite y0 = true /\ step_limit options <> Some 0 ->
       or_fun r = fn (or_x r) /\ or_jac r = grad_of (fun y => (fn y, tt)) (or_x r) /\ 0 < or_nit r) /\
    (vallfinite y0 = false \/ step_limit options = Some 0 -> or_nfev r = Some (Some 0%Z)).
Proof. exact C50_fun_partial_pf. Qed.
Print Assumptions C50_fun_partial.

(** With maxiter = 0 the reported `fun` is 0 and `jac` is 0 whatever the objective;
    here the objective at x is 5 and its gradient (2, 8). *)
Theorem C50_fun_refuted :
  exists r,
    compat_minimize (N:=RN) bowl_grad (fun _ b => (b, successful)) 0%R 1
      (fun v => fst (bowl v)) (Some [1; 1])%R true "bfgs" None
      (Some (mkOpts (Some (Some 0)) None [])) = Ret r /\
    or_x r = [1; 1]%R /\ fst (bowl (N:=RN) (or_x r)) = 5%R /\ or_fun r = 0%R /\
    bowl_grad (N:=RN) bowl (or_x r) = [2; 8]%R /\ or_jac r = [0; 0]%R.
Proof. exact C50_fun_refuted_pf. Qed.
Print Assumptions C50_fun_refuted.

(** hess_inv is symmetric positive definite, whatever the run. *)
Theorem C50_hess_inv :
  forall grad_of lsolve (eps : R) fuel (fn : list R -> R) (y0 : list R) args_is_tuple method tol options r,
    (0 <= eps)%R -> exact_solve (List.length y0) lsolve ->
    (forall y, List.length y = List.length y0 -> List.length (grad_of (fun y => (fn y, tt)) y) = List.length y0) ->
    compat_minimize (N:=RN) grad_of lsolve eps fuel fn (Some y0) args_is_tuple method tol options = Ret r ->
    spd (List.length y0) (or_hess_inv r).
Proof. exact C50_hess_inv_pf. Qed.
Print Assumptions C50_hess_inv.

(** The returned point is never worse than the start (binary64, or exact with
    infinities and NaN). *)
Theorem C50_not_worse :
  forall (N : Num), N = F64 \/ N = XR ->
  forall grad_of lsolve (eps : N) fuel (fn : list N -> N) y0 args_is_tuple method tol options r,
    compat_minimize grad_of lsolve eps fuel fn (Some y0) args_is_tuple method tol options = Ret r ->
    or_x r = y0 \/ nleb (fn (or_x r)) (fn y0) = true.
Proof. exact C50_not_worse_pf. Qed.
Print Assumptions C50_not_worse.

(** "norm" has no effect: the answer is the same whatever norm is given. *)
Theorem C59_norm_ignored :
  forall (N : Num) grad_of lsolve (eps : N) fuel (fn : list N -> N) x0 args_is_tuple method tol maxiter norm norm' others,
    compat_minimize grad_of lsolve eps fuel fn x0 args_is_tuple method tol (Some (mkOpts maxiter norm others)) =
    compat_minimize grad_of lsolve eps fuel fn x0 args_is_tuple method tol (Some (mkOpts maxiter norm' others)).
Proof. exact C59_norm_ignored_pf. Qed.
Print Assumptions C59_norm_ignored.

(** The documented meaning of "norm" fails: with norm = rms_norm, tolerance 1/25 and
    start (3, 1), a BFGS solve of x^2 + 4 y^2 stops after 8 steps, compat.minimize
    after 9 (binary64). *)
Theorem C59_norm_refuted :
  exists (fuel : nat) (fn : list f64 -> f64) grad_of lsolve (x0 : list f64) (tol : f64) (norm : list f64 -> f64) k k',
    num_steps_of (iterative_solve vallfinite (BFGS (N:=F64) (mkTols (N:=F64) tol tol norm) grad_of lsolve eps64 true)
       (fun v => (fn v, tt)) fuel None false x0 scalar_struct (fun _ => tt)) = Some k /\
    nfev_of (compat_minimize (N:=F64) grad_of lsolve eps64 fuel fn (Some x0) true "BFGS"
       (Some tol) (Some (mkOpts None (Some norm) []))) = Some k' /\
    k <> k'.
Proof. exact C59_norm_refuted_pf. Qed.
Print Assumptions C59_norm_refuted.

(** The hypotheses of the hess_inv claim: the Cholesky solver, the bowl, five steps *)
Theorem C50_hess_inv_ex :
  exact_solve 2 (cholesky_solve (N:=RN)) /\
  (forall y : list R, List.length y = 2 -> List.length (bowl_grad (N:=RN) (fun y => (fst (bowl (N:=RN) y), tt)) y) = 2) /\
  exists r, compat_minimize (N:=RN) bowl_grad cholesky_solve 0%R 6 (fun v => fst (bowl (N:=RN) v)) (Some [3%R; 1%R]) true
     "BFGS" None (Some (mkOpts (Some (Some 5)) None [])) = Ret r.
Proof. exact C50_hess_inv_ex_pf. Qed.
Print Assumptions C50_hess_inv_ex.

(** A converging call, one that hits the step limit, and one that is rejected *)
Theorem C50_ex :
  let lsolve := fun (_ : linop F64) (b : list f64) => (b, successful) in
  let call m o := compat_minimize (N:=F64) bowl_grad lsolve eps64 50 (fun v => fst (bowl (N:=F64) v))
     (Some [f64_ofQ 1; f64_ofQ 1]) true m None o in
  or_summary (call "Bfgs"%string None) = Some (true, 0%Z, Some (Some 10%Z), 6, true) /\
  or_summary (call "BFGS"%string (Some (mkOpts (Some (Some 3)) None []))) = Some (false, 1%Z, Some (Some 3%Z), 1, false) /\
  call "lbfgs"%string None = Raise ValueError /\
  call "bfgs"%string (Some (mkOpts None None ["gtol"%string])) = Raise ValueError.
Proof. exact C50_ex_pf. Qed.
Print Assumptions C50_ex.
