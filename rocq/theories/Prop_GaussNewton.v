(** Property theorems: GaussNewton.
    Statements only; each is closed by the lemma of the same name (suffix _pf)
    in the proof file.  [Example]s show concrete cases meeting the hypotheses. *)

From Coq Require Import String List Bool Arith Lia ZArith QArith Qreals Reals Lra.
From Verif Require Import Num NumFacts Vec Results Iterate Spec_Iterate Iterate_proofs Search Descent Minimisers Solvers.
From Verif Require Import Spec_Vec VecFacts Spec_Lin LinFacts Spec_Search Minimisers_proofs LeastSquares_proofs TrustRegion_proofs.
Import ListNotations.
Local Open Scope nat_scope.
From Verif Require Import GaussNewton_proofs.

(** Any arithmetic, any residual function, any linear solver: the first step of
    GaussNewton stays at y0, every later one is
    y' = y + (-1) d with d the linear solver's answer to J(y) d = r(y). *)
Theorem C53_iteration :
  forall (N : Num) (Aux : Type) (P : ar_tols N) lsolve jac_of (fn : list N -> list N * Aux) (y0 : list N) fs auxs st0 k,
    let s := GaussNewton P jac_of lsolve in
    s_init s fn y0 fs auxs = Ret st0 ->
    let y := y_at s fn y0 st0 (auxs fill0) in
    y 1 = y0 /\
    y (S (S k)) = vadd (y (S k)) (vscale (nneg (nofQ 1)) (fst (lsolve (jac_of fn (y (S k))) (fst (fn (y (S k))))))).
Proof. exact C53_iteration_pf. Qed.
Print Assumptions C53_iteration.

(** Exact arithmetic, exact least-squares solves, affine residuals r(y) = b + A y
    with the Jacobian A, any shapes, any y0: from the second step on every iterate
    (the first one proposed by the method) minimises the sum of squares globally. *)
Theorem C53_linear :
  forall (Aux : Type) (P : ar_tols RN) lsolve jac_of (fn : list R -> list R * Aux)
         (n m : nat) (A : linop RN) (b : list R) (y0 : list R) fs auxs st0,
    exact_least_squares n lsolve -> linear_op n m A -> length b = m -> length y0 = n ->
    (forall y : list R, length y = n -> fst (fn y) = Radd_v b (op_mv A y) /\ jac_of fn y = A) ->
    let s := GaussNewton (N:=RN) P jac_of lsolve in
    s_init s fn y0 fs auxs = Ret st0 ->
    let y := y_at s fn y0 st0 (auxs fill0) in
    let loss z := Rdot (fst (fn z)) (fst (fn z)) in
    forall k, 2 <= k -> length (y k) = n /\ forall w, length w = n -> (loss (y k) <= loss w)%R.
Proof. exact C53_linear_pf. Qed.
Print Assumptions C53_linear.

Example C53_linear_ex :
  exact_least_squares 1 lsolve1 /\ linear_op 1 2 (MatOp (N:=RN) 1 [[2]; [-1]]%R) /\
  (Rdot (fst (linres [-1])) (fst (linres [-1])) = 5)%R /\ (Rdot (fst (linres [0])) (fst (linres [0])) = 10)%R.
Proof. exact C53_linear_ex_pf. Qed.
