(** Property theorems: DampedOp.
    Statements only; each is closed by the lemma of the same name (suffix _pf)
    in the proof file.  [Example]s show concrete cases meeting the hypotheses. *)

From Coq Require Import List Bool Arith Lia QArith Qreals Reals Lra.
From Verif Require Import Num NumFacts Vec Results Spec_Vec VecFacts Spec_Lin LinFacts.
From Verif Require Import Search Spec_Search Descent TrustRegion_proofs LeastSquares_proofs Steps_proofs.
Import ListNotations.
Local Open Scope nat_scope.
From Verif Require Import DampedOp_proofs.

(** The linear solver is called once, on the operator x |-> (J x, sqrt(1/step) x) and the
    vector (r, 0), and on x |-> H x + x/step and g when a Hessian is known. The transpose
    that comes with the operator is its adjoint, so a solver that uses the normal
    equations is not misled. *)
Theorem C63_operators :
  forall lsolve (eps fmax : R) (n m : nat) (J H : linop RN) (r g y : list R) (f step : R) st,
    linear_op n m J -> transpose_op n J -> linear_op n n H -> transpose_op n H ->
    length r = m -> length y = n -> (0 <= eps < step)%R ->
    let descent := damped_newton_descent (N:=RN) lsolve eps fmax in
    let step_of i := d_step descent step (d_query descent y i st) in
    (exists A, step_of (ResidualJac (N:=RN) r J) = (Rscal (-1) (fst (lsolve A (r ++ zerov n))), snd (lsolve A (r ++ zerov n))) /\
       (forall x : list R, op_mv A x = @app R (op_mv J x) (Rscal (sqrt (/ step)) x)) /\
       (forall z x : list R, length z = m + n -> length x = n -> Rdot (op_mvT A z) x = Rdot z (op_mv A x))) /\
    (exists A, step_of (EvalGradHessian (N:=RN) f g H) = (Rscal (-1) (fst (lsolve A g)), snd (lsolve A g)) /\
       (forall x : list R, op_mv A x = Radd_v (op_mv H x) (Rscal (/ step) x)) /\
       (forall z x : list R, length z = n -> length x = n -> Rdot (op_mvT A z) x = Rdot z (op_mv A x))).
Proof. exact C63_operators_pf. Qed.
Print Assumptions C63_operators.

(** J = [[1, 0], [0, 2], [1, 1]], H = [[2, 1], [1, 3]], r = (1, 1, 1), step = 1/4. *)
Theorem C63_operators_ex :
  let J := MatOp (N:=RN) 2 [[1; 0]; [0; 2]; [1; 1]]%R in
  let H := MatOp (N:=RN) 2 [[2; 1]; [1; 3]]%R in
  linear_op 2 3 J /\ transpose_op 2 J /\ linear_op 2 2 H /\ transpose_op 2 H /\ (0 <= 0 < / 4)%R.
Proof. exact C63_operators_ex_pf. Qed.
Print Assumptions C63_operators_ex.
