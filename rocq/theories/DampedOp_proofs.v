(** The linear systems that the damped Newton descent hands to the linear solver (C63). *)

From Coq Require Import List Bool Arith Lia QArith Qreals Reals Lra.
From Verif Require Import Num NumFacts Vec Results Spec_Vec VecFacts Spec_Lin LinFacts.
From Verif Require Import Search Spec_Search Descent TrustRegion_proofs LeastSquares_proofs Steps_proofs.
Import ListNotations.
Local Open Scope nat_scope.

(** The linear solver is called once, on the operator x |-> (J x, sqrt(1/step) x) and the
    vector (r, 0), and on x |-> H x + x/step and g when a Hessian is known. The transpose
    that comes with the operator is its adjoint, so a solver that uses the normal
    equations is not misled. *)
Lemma C63_operators_pf :
  forall lsolve (eps fmax : R) (n m : nat) (J H : linop RN) (r g y : list R) (f step : R) st,
    linear_op n m J -> transpose_op n J -> linear_op n n H -> transpose_op n H ->
    length r = m -> length y = n -> (0 <= eps < step)%R ->
    let descent := damped_newton_descent (N:=RN) lsolve eps fmax in
    let step_of i := d_step descent step (d_query descent y i st) in
    (exists A, step_of (ResidualJac (N:=RN) r J) = (Rscal (-1) (fst (lsolve A (r ++ zerov n))), snd (lsolve A (r ++ zerov n))) /\
       (forall x : list R, op_mv A x = @app R (op_mv J x) (Rscal (sqrt (/ step)) x)) /\
       (forall z x : list R, length z = m + n -> length x = n -> Rdot (op_mvT A z) x = Rdot z (op_mv A x))) /\
    (exists A, step_of (EvalGradHessian (N:=RN) f g H) = (Rscal (-1) (fst (lsolve A g)), snd (lsolve A g)) /\
       (forall x : list R, op_mv A x = Radd_v (op_mv H x) (Rscal (/ step) x)) /\
       (forall z x : list R, length z = n -> length x = n -> Rdot (op_mvT A z) x = Rdot z (op_mv A x))).
Proof.
  intros lsolve eps fmax n m J H r g y f step st (J1 & _ & _) (T1 & T2) (H1 & _ & _) (T3 & T4) Hr Hy Hs descent step_of. split.
  - exists (damped_jac (N:=RN) n J (/ step)%R m). split; [|split].
    + unfold step_of, descent. cbn [damped_newton_descent d_step d_query fst snd damped_newton_step].
      rewrite (lm_param_RN eps fmax step Hs). change (@length (T RN) y) with (@length R y). change (@length (T RN) r) with (@length R r). rewrite Hr, Hy.
      assert (E : r ++ vfull (N:=RN) n (nofQ 0) = r ++ zerov n) by (unfold vfull, zerov; cbn [nofQ RN]; rewrite Q2R_0; reflexivity).
      change (@app (T RN)) with (@app R). rewrite E. destruct (lsolve _ _) as [v q]. rewrite vneg_RN. reflexivity.
    + intro x. cbn [damped_jac op_mv]. rewrite vscale_RN. reflexivity.
    + intros z x Hz Hx. cbn [damped_jac op_mv op_mvT]. rewrite vadd_RN, !vscale_RN.
      assert (L2 : length (skipn m z) = n) by (rewrite skipn_length; lia).
      rewrite Rdot_add_l by (rewrite Rscal_length; etransitivity; [apply T1|symmetry; exact L2]).
      rewrite T2 by exact Hx. rewrite Rdot_scal_l.
      rewrite <- (firstn_skipn m z) at 3. change (@app (T RN)) with (@app R).
      rewrite Rdot_app by (etransitivity; [|symmetry; apply J1; exact Hx]; rewrite firstn_length; lia).
      rewrite Rdot_scal_r. reflexivity.
  - exists (damped_hessian (N:=RN) H (/ step)%R). split; [|split].
    + unfold step_of, descent. cbn [damped_newton_descent d_step d_query fst snd damped_newton_step].
      rewrite (lm_param_RN eps fmax step Hs). destruct (lsolve _ _) as [v q]. rewrite vneg_RN. reflexivity.
    + intro x. cbn [damped_hessian op_mv]. rewrite vadd_RN, vscale_RN. reflexivity.
    + intros z x Hz Hx. cbn [damped_hessian op_mv op_mvT]. rewrite !vadd_RN, !vscale_RN.
      rewrite Rdot_add_l by (rewrite Rscal_length; etransitivity; [apply T3|symmetry; exact Hz]). rewrite Rdot_add_r by (rewrite Rscal_length; etransitivity; [apply H1; exact Hx|symmetry; exact Hx]).
      rewrite T4 by exact Hx. rewrite Rdot_scal_l, Rdot_scal_r. reflexivity.
Qed.
(** J = [[1, 0], [0, 2], [1, 1]], H = [[2, 1], [1, 3]], r = (1, 1, 1), step = 1/4. *)
Lemma C63_operators_ex_pf :
  let J := MatOp (N:=RN) 2 [[1; 0]; [0; 2]; [1; 1]]%R in
  let H := MatOp (N:=RN) 2 [[2; 1]; [1; 3]]%R in
  linear_op 2 3 J /\ transpose_op 2 J /\ linear_op 2 2 H /\ transpose_op 2 H /\ (0 <= 0 < / 4)%R.
Proof.
  intros J H.
  assert (K1 : mat 3 2 [[1; 0]; [0; 2]; [1; 1]]%R) by (split; [reflexivity|repeat constructor]).
  assert (K2 : mat 2 2 [[2; 1]; [1; 3]]%R) by (split; [reflexivity|repeat constructor]).
  destruct (mat_linear 3 2 _ K1) as [A1 A2]. destruct (mat_linear 2 2 _ K2) as [B1 B2]. repeat split; try apply A1; try apply A2; try apply B1; try apply B2; lra.
Qed.
