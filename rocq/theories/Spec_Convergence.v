(** Vocabulary for convergence statements. *)

From Coq Require Import List Reals.
From Verif Require Import Num Vec Results Search Spec_Vec Spec_Lin Spec_Search Spec_Steps.
Import ListNotations.

(** A least-squares problem with n unknowns and m residuals: the residuals have
    size m, the Jacobian is a linear map from R^n to R^m and its transpose is right. *)
Definition residual_problem (n m : nat) (r : list R -> list R) (J : list R -> linop RN) : Prop :=
  forall x, length x = n ->
    length (r x) = m /\ linear_op n m (J x) /\ transpose_op n (J x).

(** The objective 1/2 |r(x)|^2 of least squares and its gradient J(x)^T r(x) *)
Definition half_squares (r : list R -> list R) (x : list R) : R := (/ 2 * Rdot (r x) (r x))%R.
Definition ls_gradient (r : list R -> list R) (J : list R -> linop RN) (x : list R) : list R :=
  op_mvT (J x) (r x).

(** |J(x) v|^2 <= B |v|^2 *)
Definition jac_bounded (n : nat) (B : R) (J : list R -> linop RN) : Prop :=
  forall x v, length x = n -> length v = n ->
    (Rdot (op_mv (J x) v) (op_mv (J x) v) <= B * Rdot v v)%R.
(** sigma |v|^2 <= |J(x) v|^2: the Jacobian has full column rank everywhere, with a
    uniform bound *)
Definition jac_injective (n : nat) (sigma : R) (J : list R -> linop RN) : Prop :=
  forall x v, length x = n -> length v = n ->
    (sigma * Rdot v v <= Rdot (op_mv (J x) v) (op_mv (J x) v))%R.
(** |r(x + d) - r(x)|^2 <= B |d|^2 *)
Definition residual_lipschitz (n : nat) (B : R) (r : list R -> list R) : Prop :=
  forall x d, length x = n -> length d = n ->
    (Rdot (Rsub_v (r (Radd_v x d)) (r x)) (Rsub_v (r (Radd_v x d)) (r x)) <= B * Rdot d d)%R.
