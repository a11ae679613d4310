(** Property theorems: Stall.
    Statements only; each is closed by the lemma of the same name (suffix _pf)
    in the proof file.  [Example]s show concrete cases meeting the hypotheses. *)

From Coq Require Import String List Bool Arith Lia ZArith QArith Qreals Reals Lra Psatz.
From Verif Require Import Num NumF64 NumFacts Vec Results Iterate Spec_Iterate Iterate_proofs Spec_Examples.
From Verif Require Import Spec_Vec VecFacts Spec_Lin LinFacts.
From Verif Require Import Search Spec_Search Descent Minimisers Solvers Minimisers_proofs.
From Verif Require Import TrustRegion_proofs LeastSquares_proofs Dogleg_proofs Spec_Steps Steps_proofs Spec_Convergence Convergence_proofs.
From Verif Require Import GaussNewton_proofs DoglegConv_proofs IndirectConv_proofs GaussNewtonConv_proofs Spec_IndirectConv Certificate_proofs LMLocal_proofs TrustLocal_proofs TrustGlobal_proofs.
Import ListNotations.
Local Open Scope nat_scope.
From Verif Require Import Stall_proofs.

(** [LevenbergMarquardt], over the reals with exact least-squares solves: when a step (after the first) is accepted and leaves y where it was, the gradient
    J^T r at y is exactly zero, and the solver stops there. *)
Theorem C104_levenberg_marquardt :
  forall (Aux : Type) (rtol atol eps fmax : R) lsolve jac_of (fn : list R -> list R * Aux) (n m : nat) (y0 : list R) fs auxs st0,
    let r x := fst (fn x) in let J := jac_of fn in
    (0 <= rtol)%R -> (0 < atol)%R -> (0 <= eps)%R -> (0 < fmax)%R -> exact_least_squares n lsolve -> residual_problem n m r J -> length y0 = n ->
    let s := LevenbergMarquardt (N:=RN) (mkTols rtol atol max_norm) jac_of lsolve eps fmax in
    s_init s fn y0 fs auxs = Ret st0 ->
    let y k : list R := y_at s fn y0 st0 (auxs fill0) k in
    let st k := st_at s fn y0 st0 (auxs fill0) k in
    forall k, 0 < k -> gn_num_accepted_steps (st (S k)) = S (gn_num_accepted_steps (st k)) -> y (S k) = y k ->
      ls_gradient r J (y k) = zerov n /\ gn_terminate (st (S k)) = true.
Proof. exact C104_levenberg_marquardt_pf. Qed.
Print Assumptions C104_levenberg_marquardt.

(** The same for [IndirectLevenbergMarquardt], whatever its inner root finder returns. *)
Theorem C104_indirect_levenberg_marquardt :
  forall (Aux : Type) (rtol atol eps fmax : R) lsolve rfind jac_of (fn : list R -> list R * Aux) (n m : nat) (y0 : list R) fs auxs st0,
    let r x := fst (fn x) in let J := jac_of fn in
    (0 <= rtol)%R -> (0 < atol)%R -> (0 <= eps)%R -> (0 < fmax)%R -> exact_least_squares n lsolve -> residual_problem n m r J -> length y0 = n ->
    let s := IndirectLevenbergMarquardt (N:=RN) (mkTols rtol atol max_norm) jac_of lsolve eps fmax rfind in
    s_init s fn y0 fs auxs = Ret st0 ->
    let y k : list R := y_at s fn y0 st0 (auxs fill0) k in
    let st k := st_at s fn y0 st0 (auxs fill0) k in
    forall k, 0 < k -> gn_num_accepted_steps (st (S k)) = S (gn_num_accepted_steps (st k)) -> y (S k) = y k ->
      ls_gradient r J (y k) = zerov n /\ gn_terminate (st (S k)) = true.
Proof. exact C104_indirect_levenberg_marquardt_pf. Qed.
Print Assumptions C104_indirect_levenberg_marquardt.

(** The same for [Dogleg], except that it may also stand still with a step size below 1 at a point whose Cauchy step is no longer than eps. *)
Theorem C104_dogleg :
  forall (Aux : Type) (rtol atol eps : R) lsolve jac_of (fn : list R -> list R * Aux) (n m : nat) (y0 : list R) fs auxs st0,
    let r x := fst (fn x) in let J := jac_of fn in
    let cauchy x : list R := let g := op_mvT (J x) (r x) in let dn := Rdot (op_mv (J x) g) (op_mv (J x) g) in
      Rscal (- (if Rltb eps dn then Rdot g g / dn else 0))%R g in
    (0 <= rtol)%R -> (0 < atol)%R -> (0 <= eps)%R -> exact_least_squares n lsolve -> residual_problem n m r J -> length y0 = n ->
    let s := Dogleg (N:=RN) (mkTols rtol atol max_norm) jac_of lsolve eps in
    s_init s fn y0 fs auxs = Ret st0 ->
    let y k : list R := y_at s fn y0 st0 (auxs fill0) k in
    let st k := st_at s fn y0 st0 (auxs fill0) k in
    forall k, 0 < k -> gn_num_accepted_steps (st (S k)) = S (gn_num_accepted_steps (st k)) -> y (S k) = y k ->
      (ls_gradient r J (y k) = zerov n \/ ((gn_search_state (st k) : R) < 1 /\ Rnorm (cauchy (y k)) <= eps)%R) /\ gn_terminate (st (S k)) = true.
Proof. exact C104_dogleg_pf. Qed.
Print Assumptions C104_dogleg.

(** [GaussNewton]: the gradient is zero wherever a step (after the first) leaves y where it was. *)
Theorem C104_gauss_newton :
  forall (Aux : Type) P lsolve jac_of (fn : list R -> list R * Aux) (n m : nat) (y0 : list R) fs auxs st0,
    let r x := fst (fn x) in let J := jac_of fn in
    exact_least_squares n lsolve -> residual_problem n m r J -> length y0 = n ->
    let s := GaussNewton (N:=RN) P jac_of lsolve in
    s_init s fn y0 fs auxs = Ret st0 ->
    let y k : list R := y_at s fn y0 st0 (auxs fill0) k in
    forall k, 0 < k -> y (S k) = y k -> ls_gradient r J (y k) = zerov n.
Proof. exact C104_gauss_newton_pf. Qed.
Print Assumptions C104_gauss_newton.

(** Without the cutoff's exception the claim fails for Dogleg, already in binary64 with its own eps: with the residual 1 + 2^52 y + (2^55 y)^3 and tolerances 10^-30
    it reports success after three steps, returning the start y0 = 0 with residual 1, gradient 2^52 and both tests met by a step of length zero, although
    at -2^-55 the residual is -1/8. *)
Theorem C104_dogleg_refuted :
  exists (fn : list f64 -> list f64 * unit) jac_of (tol : f64) (y0 better : list f64) sol,
    iterative_solve vallfinite (Dogleg (N:=F64) (mkTols (N:=F64) tol tol max_norm) jac_of column64 eps64) fn
      50 None true y0 (fun _ => [f64_ofQ 0]) (fun _ => tt) = Ret sol /\
    result sol = successful /\ hd_error (sol_stats sol) = Some ("num_steps"%string, Some 3%Z) /\
    let is (v : list f64) q := map (fun x => neqb (n:=F64) x (f64_ofQ q)) v = [true] in
    is y0 0%Q /\ value sol = y0 /\ is (fst (fn y0)) 1%Q /\ is (op_mvT (jac_of fn y0) (fst (fn y0))) 4503599627370496%Q /\
    is better (-1 # 36028797018963968)%Q /\ is (fst (fn better)) (-1 # 8)%Q.
Proof. exact C104_dogleg_refuted_pf. Qed.
Print Assumptions C104_dogleg_refuted.

Example C104_levenberg_marquardt_ex :
  let s := LevenbergMarquardt (N:=RN) (mkTols (N:=RN) (1/10)%R 1%R max_norm) hyperbola_jac lsolve1 (1/100)%R 1000%R in
  exists st0, s_init s cup [2%R] (fun _ => [0; 0]%R) (fun _ => tt) = Ret st0 /\
  let y k : list R := y_at s cup [2%R] st0 tt k in let st k := st_at s cup [2%R] st0 tt k in
  forall k, 0 < k -> gn_num_accepted_steps (st (S k)) = S (gn_num_accepted_steps (st k)) -> y (S k) = y k -> y k = [0%R].
Proof. exact C104_levenberg_marquardt_ex_pf. Qed.

Example C104_indirect_levenberg_marquardt_ex :
  let s := IndirectLevenbergMarquardt (N:=RN) (mkTols (N:=RN) (1/10)%R 1%R max_norm) hyperbola_jac lsolve1 (1/100)%R 1000%R rational_root in
  exists st0, s_init s cup [2%R] (fun _ => [0; 0]%R) (fun _ => tt) = Ret st0 /\
  let y k : list R := y_at s cup [2%R] st0 tt k in let st k := st_at s cup [2%R] st0 tt k in
  forall k, 0 < k -> gn_num_accepted_steps (st (S k)) = S (gn_num_accepted_steps (st k)) -> y (S k) = y k -> y k = [0%R].
Proof. exact C104_indirect_levenberg_marquardt_ex_pf. Qed.

(** with eps = 0 there is no exception *)
Example C104_dogleg_ex :
  let s := Dogleg (N:=RN) (mkTols (N:=RN) (1/10)%R 1%R max_norm) hyperbola_jac lsolve1 0%R in
  exists st0, s_init s cup [2%R] (fun _ => [0; 0]%R) (fun _ => tt) = Ret st0 /\
  let y k : list R := y_at s cup [2%R] st0 tt k in let st k := st_at s cup [2%R] st0 tt k in
  forall k, 0 < k -> gn_num_accepted_steps (st (S k)) = S (gn_num_accepted_steps (st k)) -> y (S k) = y k ->
    gn_terminate (st (S k)) = true.
Proof. exact C104_dogleg_ex_pf. Qed.

(** residual y: the second step lands on the zero, the third stands still *)
Example C104_gauss_newton_ex :
  let fn (v : list R) := (v, tt) in
  let jac (_ : list R -> list R * unit) (_ : list R) := MatOp (N:=RN) 1 [[1%R]] in
  let s := GaussNewton (N:=RN) (mkTols (N:=RN) (1/10)%R 1%R max_norm) jac lsolve1 in
  exists st0, s_init s fn [2%R] (fun _ => [0%R]) (fun _ => tt) = Ret st0 /\
  let y k : list R := y_at s fn [2%R] st0 tt k in y 1 = [2%R] /\ y 2 = [0%R] /\ y 3 = y 2.
Proof. exact C104_gauss_newton_ex_pf. Qed.
