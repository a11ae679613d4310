(** Property theorems: DoglegRoot.
    Statements only; each is closed by the lemma of the same name (suffix _pf)
    in the proof file.  [Example]s show concrete cases meeting the hypotheses. *)

From Coq Require Import String List Bool Arith Lia ZArith QArith Qreals Reals Lra Psatz FunctionalExtensionality.
From Verif Require Import Num NumFacts Vec Results Iterate Spec_Iterate Iterate_proofs Bisection Spec_Bisection Bisection_proofs.
From Verif Require Import Spec_Vec VecFacts Spec_Lin LinFacts Search Spec_Search Descent LeastSquares_proofs Dogleg_proofs Steps_proofs.
From Verif Require Import DoglegRoot Spec_DoglegRoot.
Import ListNotations.
Local Open Scope nat_scope.
From Verif Require Import DoglegRoot_proofs.

(** Exact arithmetic, a trust region in any norm and the default root finder, radius
    D = step_size times the norm of the Newton step. (1) If the Cauchy step is longer than D
    (and than eps), the step is its positive multiple of norm exactly D. (2) If not
    and step_size >= 1, the step is the Newton step. (3) If the Cauchy step is shorter
    than D and step_size < 1 then, given enough iterations, the root find succeeds, and
    the step lies on the segment from the Cauchy to the Newton step, its norm being D
    up to half the tolerance atol + 2 rtol times the length of the segment. *)
Theorem C76_radius :
  forall (nm : list R -> R) lsolve (eps rtol atol step : R) (i : finfo RN) y st0,
    is_norm nm -> (0 <= eps)%R -> (0 < step)%R -> (0 < atol)%R -> (0 <= rtol)%R ->
    let descent fuel ms := dogleg_descent (N:=RN) lsolve eps nm (Some (dogleg_rfind rtol atol fuel ms)) in
    let st fuel ms := d_query (descent fuel ms) y i st0 in
    let c : list R := dl_cauchy (st 0 None) in
    let n : list R := dl_newton (st 0 None) in
    let D := (nm n * step)%R in
    length c = length n ->
    exists k, forall fuel ms, k < fuel -> (forall m, ms = Some m -> k <= m) ->
      let d : list R := fst (d_step (descent fuel ms) step (st fuel ms)) in
      let res := snd (d_step (descent fuel ms) step (st fuel ms)) in
      ((D < nm c)%R -> (eps < nm c)%R -> res = snd (newton_step lsolve i) /\ d = Rscal (D / nm c) c /\ nm d = D) /\
      ((nm c <= D)%R -> (1 <= step)%R -> res = snd (newton_step lsolve i) /\ d = n) /\
      ((nm c < D)%R -> (step < 1)%R -> res = snd (newton_step lsolve i) /\
         exists t, (0 <= t <= 1)%R /\ d = Radd_v c (Rscal t (Rsub_v n c)) /\
           (Rabs (nm d - D) <= / 2 * (atol + 2 * rtol) * nm (Rsub_v n c))%R).
Proof. exact C76_radius_pf. Qed.
Print Assumptions C76_radius.

(** On the boundary itself the root find raises: if the Cauchy step is exactly as long
    as the radius and step_size < 1 (for example when the residual is 0, so that both
    steps are 0), Bisection does not see a sign change between t = 1 and t = 2, and
    raises a RuntimeError although throw=False is passed. *)
Theorem C76_boundary_raises :
  forall (nm : list R -> R) (c n : list R) (step rtol atol : R) fuel ms,
    is_norm nm -> length c = length n -> (0 < step < 1)%R -> nm c = (nm n * step)%R ->
    dogleg_root rtol atol fuel ms (fun t => nm (Radd_v c (Rscal (t - 1) (Rsub_v n c))) - nm n * step)%R = Raise RuntimeError.
Proof. exact C76_boundary_raises_pf. Qed.
Print Assumptions C76_boundary_raises.

(** The hypotheses hold for the maximum norm with J = diag(1, 2), r = (1, 1): the Newton
    step (-1, -1/2) has norm 1 and the Cauchy step -(5/17)(1, 2) norm 10/17, so that
    step_size 1/2, 3/4 and 1 are the three cases, and step_size 10/17 raises. *)
Example C76_radius_ex :
  let lsolve := fun (_ : linop RN) (b : list R) => ([1; /2]%R, successful) in
  let nm := max_norm (N:=RN) in
  let st := d_query (dogleg_descent (N:=RN) lsolve 0%R nm None) [0; 0]%R
              (ResidualJac (N:=RN) [1; 1]%R (MatOp (N:=RN) 2 [[1; 0]; [0; 2]]%R))
              (mkDogleg (N:=RN) [] [] 0%R 0%R successful) in
  let c : list R := dl_cauchy st in
  let n : list R := dl_newton st in
  is_norm nm /\ length c = length n /\ nm n = 1%R /\ nm c = (10 / 17)%R /\
  (nm n * / 2 < nm c)%R /\ (nm c < nm n * (3 / 4))%R /\
  dogleg_root (1 / 1000) (1 / 1000) 300 (Some 256) (fun t => nm (Radd_v c (Rscal (t - 1) (Rsub_v n c))) - nm n * (10 / 17))%R = Raise RuntimeError.
Proof. exact C76_radius_ex_pf. Qed.
