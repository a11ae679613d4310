(** Property theorems: Dogleg.
    Statements only; each is closed by the lemma of the same name (suffix _pf)
    in the proof file.  [Example]s show concrete cases meeting the hypotheses. *)

From Coq Require Import String List Bool Arith Lia ZArith QArith Qreals Reals Lra Psatz.
From Verif Require Import Num NumFacts Vec Results Spec_Vec VecFacts Spec_Lin LinFacts NumF64.
From Verif Require Import Search Spec_Search Descent TrustRegion_proofs LeastSquares_proofs.
Import ListNotations.
Local Open Scope nat_scope.
From Verif Require Import Dogleg_proofs.

(** Exact arithmetic, two-norm trust region of radius D = step_size |newton|.
    Full claim: the step is where the dogleg path leaves the ball (so its norm is
    at most D).  Proved when newton is not 0, a Cauchy step longer than D is
    longer than eps, and the quadratic is not degenerate (its constant term
    |2 cauchy - newton|^2 - D^2 is not 0, or its middle coefficient is not
    negative).  Missing: newton = 0, and the degenerate quadratic, where the code
    computes 0/0; see C34_nan_refuted. *)
Theorem C34_exit_partial :
  forall lsolve (eps : R) (i : finfo RN) y st0 (step : R),
    (0 <= eps)%R -> (0 < step)%R ->
    let descent := dogleg_descent (N:=RN) lsolve eps two_norm None in
    let st := d_query descent y i st0 in
    let c : list R := dl_cauchy st in
    let n : list R := dl_newton st in
    let D := (Rnorm n * step)%R in
    length c = length n ->
    Rnorm n <> 0%R ->
    ((D < Rnorm c)%R -> (eps < Rnorm c)%R) ->
    (Rdot (Rsub_v n c) (Rsub_v n c) <= Rdot c (Rsub_v n c) \/ Rnorm (Rsub_v (Rscal 2 c) n) <> D)%R ->
    let d := fst (d_step descent step st) in
    first_exit D c n d /\ (Rnorm d <= D)%R.
Proof. exact C34_exit_partial_pf. Qed.
Print Assumptions C34_exit_partial.

(** A Cauchy step no longer than eps that does not fit gives the zero step. *)
Theorem C34_tiny_cauchy :
  forall (eps step : R) (st : dogleg_state (N:=RN)),
    let c : list R := dl_cauchy st in
    (dl_newton_norm st * step < dl_cauchy_norm st)%R -> (dl_cauchy_norm st <= eps)%R ->
    fst (dogleg_step (N:=RN) eps two_norm None step st) = zerov (length c).
Proof. exact C34_tiny_cauchy_pf. Qed.
Print Assumptions C34_tiny_cauchy.

(** The claim fails in binary64, and the step is NaN, (1) at a solution (residual
    0, so newton = cauchy = 0) once the radius factor is below 1; (2) with cauchy =
    1, newton = 4 and step_size 1/2, where the constant term of the quadratic is
    exactly 0. *)
Theorem C34_nan_refuted :
  exists (lsolve : linop F64 -> list f64 -> list f64 * results) (eps : f64) (i : finfo F64) (y : list f64) st0
         (st2 : dogleg_state (N:=F64)),
    let descent := dogleg_descent (N:=F64) lsolve eps two_norm None in
    let isnan v := existsb (nisnan (N:=F64)) v in
    isnan (fst (d_step descent (nofQ (n:=F64) (1#4)) (d_query descent y i st0))) = true /\
    map (fun x => neqb (n:=F64) x (nofQ (n:=F64) 1)) (dl_cauchy st2) = [true] /\
    map (fun x => neqb (n:=F64) x (nofQ (n:=F64) 4)) (dl_newton st2) = [true] /\
    neqb (n:=F64) (dl_newton_norm st2) (two_norm (N:=F64) (dl_newton st2)) = true /\
    neqb (n:=F64) (dl_cauchy_norm st2) (two_norm (N:=F64) (dl_cauchy st2)) = true /\
    isnan (fst (d_step descent (nofQ (n:=F64) (1#2)) st2)) = true.
Proof. exact C34_nan_refuted_pf. Qed.
Print Assumptions C34_nan_refuted.

(** The hypotheses hold and the interpolation branch is taken with J = diag(1, 2),
    r = (1, 1): newton = (-1, -1/2), cauchy = -(5/17)(1, 2), step_size = 3/4. *)
Example C34_exit_ex :
  let lsolve := fun (_ : linop RN) (b : list R) => ([1; /2]%R, successful) in
  let descent := dogleg_descent (N:=RN) lsolve 0%R two_norm None in
  let st := d_query descent [0; 0]%R (ResidualJac (N:=RN) [1; 1]%R (MatOp (N:=RN) 2 [[1; 0]; [0; 2]]%R))
              (d_init descent [0; 0]%R (Residual (N:=RN) [])) in
  dl_newton st = [-1; -/2]%R /\ dl_cauchy st = [-5/17; -10/17]%R /\
  (Rnorm (dl_cauchy st) < Rnorm (dl_newton st) * (3/4) < Rnorm (dl_newton st))%R /\
  Rnorm (Rsub_v (Rscal 2 (dl_cauchy st)) (dl_newton st)) <> (Rnorm (dl_newton st) * (3/4))%R.
Proof. exact C34_exit_ex_pf. Qed.
