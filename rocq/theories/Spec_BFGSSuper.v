(** Vocabulary for the superlinear convergence of BFGS (C106). *)

From Coq Require Import List Reals.
From Verif Require Import Num Spec_Vec Spec_Lin.
Import ListNotations.
Local Open Scope R_scope.

(** Within distance rho of xs the gradient g is approximated by the matrix A, with an
    error that is of second order: true of every f whose Hessian is A at xs and is
    Lipschitz continuous near xs. *)
Definition hessian_at (n : nat) (Lip rho : R) (A : list (list R)) (xs : list R) (g : list R -> list R) : Prop :=
  mat n n A /\ symmetric n A /\
  forall x d, length x = n -> length d = n ->
    Rnorm (Rsub_v x xs) <= rho -> Rnorm (Rsub_v (Radd_v x d) xs) <= rho ->
    Rnorm (Rsub_v (Rsub_v (g (Radd_v x d)) (g x)) (mvec A d)) <=
      Lip * (Rnorm (Rsub_v x xs) + Rnorm (Rsub_v (Radd_v x d) xs)) * Rnorm d.

(** 3/4 x^2 in one unknown and its gradient *)
Definition bowl (v : list R) : R := match v with [x] => 3 / 4 * (x * x) | _ => 0 end.
Definition bowl_grad (v : list R) : list R := match v with [x] => [3 / 2 * x] | _ => [] end.
