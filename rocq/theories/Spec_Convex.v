(** Vocabulary for rates of convergence on convex problems (C86). *)

From Coq Require Import List Reals.
From Verif Require Import Num Spec_Vec Spec_Lin.
Import ListNotations.
Local Open Scope R_scope.

(** f lies above each of its tangents. *)
Definition convex (n : nat) (f : list R -> R) (g : list R -> list R) : Prop :=
  forall x d, length x = n -> length d = n -> f x + Rdot (g x) d <= f (Radd_v x d).

(** Squared Euclidean distance *)
Definition dist2 (x z : list R) : R := Rdot (Rsub_v x z) (Rsub_v x z).

(** (x0 + x1)^2 in two unknowns: convex and smooth, with a whole line of minimisers, so not strongly convex *)
Definition valley (v : list R) : R := match v with [a; b] => (a + b) * (a + b) | _ => 0 end.
Definition valley_grad (v : list R) : list R := match v with [a; b] => [2 * (a + b); 2 * (a + b)] | _ => [] end.
