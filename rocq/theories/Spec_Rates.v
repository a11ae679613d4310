(** Vocabulary for rates of convergence (C83). *)

From Coq Require Import List Reals.
From Verif Require Import Num Spec_Lin.
Local Open Scope R_scope.

(** The gradient dominates the excess over the lower bound [low]:
    2 mu (f(x) - low) <= |g(x)|^2 (the Polyak-Lojasiewicz inequality; true of every
    mu-strongly convex f with minimum [low], and of 1/2 |r|^2 with low = 0 wherever
    |J^T r|^2 >= mu |r|^2). *)
Definition dominated (n : nat) (mu low : R) (f : list R -> R) (g : list R -> list R) : Prop :=
  forall x, length x = n -> low <= f x /\ 2 * mu * (f x - low) <= Rdot (g x) (g x).
