(** Vocabulary for the root find inside IndirectLevenbergMarquardt (C121). *)

From Coq Require Import List Bool Arith Reals.
From Coquelicot Require Import Coquelicot.
From Verif Require Import Num Vec Results Search Spec_Vec Spec_Lin Spec_Steps.
Import ListNotations.
Local Open Scope R_scope.

(** [jac] is the derivative of a scalar function wherever it has one *)
Definition scalar_derivative (jac : (list xr -> list xr * unit) -> list xr -> R) : Prop :=
  forall (f : R -> R) (x d : R), is_derive f x d -> jac (liftv (fun v => [f (nth 0 v 0)])) [Fin x] = d.
(** [lsolve] divides by a non-zero slope, and answers 0 for a right-hand side 0 *)
Definition scalar_division (lsolve : R -> list xr -> list xr * results) : Prop :=
  forall a b, a <> 0 \/ b = 0 -> lsolve a [Fin b] = ([Fin (if Req_EM_T b 0 then 0 else b / a)], successful).

(** [len] is the length of the damped step for the residual [b], the Jacobian [A] and the damping [lam]: of the unique
    minimiser z of |A z + b|^2 + lam |z|^2 (damped_loss, Spec_Steps); [lam = 0] is the Newton step *)
Definition step_length (n : nat) (A : linop RN) (b : list R) (lam len : R) : Prop :=
  exists z, length z = n /\ (forall v, length v = n -> v <> z -> damped_loss A b lam z < damped_loss A b lam v) /\ len = Rnorm z.
(** [h] is the function whose root IndirectDampedNewtonDescent.step looks for when the trust region allows the fraction
    [step] of the Newton step, whose length is [newton] *)
Definition compares_length (n : nat) (A : linop RN) (b : list R) (newton step : R) (h : R -> R) : Prop :=
  step_length n A b 0 newton /\ forall lam, 0 < lam -> step_length n A b lam (h lam + step * newton).
(** multiplication by the number [a] *)
Definition times_op (a : R) : linop RN := FunOp (N:=RN) (Rscal a) (Rscal a).
(** examples: the derivative and the division of real numbers *)
Definition derive_jac (f : list xr -> list xr * unit) (y : list xr) : R := Derive (fun x => toR (nth 0 (fst (f [Fin x])) NaN)) (toR (nth 0 y NaN)).
Definition divide (a : R) (b : list xr) : list xr * results := ([Fin (if Req_EM_T (toR (nth 0 b NaN)) 0 then 0 else toR (nth 0 b NaN) / a)], successful).
