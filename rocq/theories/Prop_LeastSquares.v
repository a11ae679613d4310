(** Property theorems: LeastSquares.
    Statements only; each is closed by the lemma of the same name (suffix _pf)
    in the proof file.  [Example]s show concrete cases meeting the hypotheses. *)

From Coq Require Import String List Bool Arith Lia ZArith QArith Qreals Reals Lra Psatz.
From Verif Require Import Num NumFacts NumDiv NumSq Vec Results Iterate Spec_Iterate Iterate_proofs.
From Verif Require Import Spec_Vec VecFacts Spec_Lin LinFacts NumF64 NumF64_facts.
From Verif Require Import Search Spec_Search Descent Minimisers QuasiNewton Solvers FixedPoint_proofs Minimisers_proofs Spec_Examples.
From Verif Require Import TrustRegion_proofs.
Import ListNotations.
Local Open Scope nat_scope.
From Verif Require Import LeastSquares_proofs.

(** Exact arithmetic, exact linear solves (each solve returns a least-squares
    solution), the Jacobian a linear map: along a run of LevenbergMarquardt the
    sum of squares never increases. *)
Theorem C32_levenberg_marquardt :
  forall (Aux : Type) (P : ar_tols RN) (eps fmax : R) lsolve jac_of (fn : list R -> list R * Aux)
         (n m : nat) (y0 : list R) fs auxs st0,
    (0 <= eps)%R -> (0 < fmax)%R -> exact_least_squares n lsolve ->
    (forall y : list R, length y = n -> length (fst (fn y)) = m /\ linear_op n m (jac_of fn y)) ->
    length y0 = n ->
    let s := LevenbergMarquardt (N:=RN) P jac_of lsolve eps fmax in
    s_init s fn y0 fs auxs = Ret st0 ->
    let y := y_at s fn y0 st0 (auxs fill0) in
    let loss z := Rdot (fst (fn z)) (fst (fn z)) in
    forall j k, j <= k -> (loss (y k) <= loss (y j))%R.
Proof. exact C32_levenberg_marquardt_pf. Qed.
Print Assumptions C32_levenberg_marquardt.

(** The same for IndirectLevenbergMarquardt, whatever the inner root find
    returns. *)
Theorem C32_indirect_levenberg_marquardt :
  forall (Aux : Type) (P : ar_tols RN) (eps fmax : R) lsolve rfind jac_of (fn : list R -> list R * Aux)
         (n m : nat) (y0 : list R) fs auxs st0,
    (0 <= eps)%R -> (0 < fmax)%R -> exact_least_squares n lsolve ->
    (forall y : list R, length y = n -> length (fst (fn y)) = m /\ linear_op n m (jac_of fn y)) ->
    length y0 = n ->
    let s := IndirectLevenbergMarquardt (N:=RN) P jac_of lsolve eps fmax rfind in
    s_init s fn y0 fs auxs = Ret st0 ->
    let y := y_at s fn y0 st0 (auxs fill0) in
    let loss z := Rdot (fst (fn z)) (fst (fn z)) in
    forall j k, j <= k -> (loss (y k) <= loss (y j))%R.
Proof. exact C32_indirect_levenberg_marquardt_pf. Qed.
Print Assumptions C32_indirect_levenberg_marquardt.

(** The same for Dogleg (two-norm trust region); here the transposed Jacobian
    must be right as well. *)
Theorem C32_dogleg :
  forall (Aux : Type) (P : ar_tols RN) (eps : R) lsolve jac_of (fn : list R -> list R * Aux)
         (n m : nat) (y0 : list R) fs auxs st0,
    (0 <= eps)%R -> exact_least_squares n lsolve ->
    (forall y : list R, length y = n -> length (fst (fn y)) = m /\ linear_op n m (jac_of fn y) /\ transpose_op n (jac_of fn y)) ->
    length y0 = n ->
    let s := Dogleg (N:=RN) P jac_of lsolve eps in
    s_init s fn y0 fs auxs = Ret st0 ->
    let y := y_at s fn y0 st0 (auxs fill0) in
    let loss z := Rdot (fst (fn z)) (fst (fn z)) in
    forall j k, j <= k -> (loss (y k) <= loss (y j))%R.
Proof. exact C32_dogleg_pf. Qed.
Print Assumptions C32_dogleg.

Example C32_levenberg_marquardt_ex :
  exact_least_squares 1 lsolve1 /\
  (forall y, length y = 1 ->
     length (fst (twores y)) = 2 /\ linear_op 1 2 (twores_jac twores y) /\ transpose_op 1 (twores_jac twores y)).
Proof. exact C32_levenberg_marquardt_ex_pf. Qed.
