(** Vocabulary for the convergence of BFGS (C84). *)

From Coq Require Import List Reals.
From Verif Require Import Num Spec_Vec Spec_Lin.
Import ListNotations.
Local Open Scope R_scope.

(** f is strongly convex with modulus mu: it lies above each of its tangents by at
    least mu/2 times the squared distance. *)
Definition strongly_convex (n : nat) (mu : R) (f : list R -> R) (g : list R -> list R) : Prop :=
  forall x d, length x = n -> length d = n ->
    f x + Rdot (g x) d + mu / 2 * Rdot d d <= f (Radd_v x d).

(** x0^2 + x0 x1 + x1^2 in two unknowns and its gradient *)
Definition quad2 (v : list R) : R := match v with [a; b] => a * a + a * b + b * b | _ => 0 end.
Definition quad2_grad (v : list R) : list R := match v with [a; b] => [2 * a + b; a + 2 * b] | _ => [] end.
