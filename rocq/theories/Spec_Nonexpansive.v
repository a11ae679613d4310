(** Vocabulary for damped fixed-point iteration (C114). *)

From Coq Require Import List Reals.
From Verif Require Import Spec_Vec Spec_Lin Spec_Convex.
Local Open Scope R_scope.

(** f maps vectors of length n to vectors of length n and does not increase Euclidean distances. *)
Definition nonexpansive (n : nat) (f : list R -> list R) : Prop :=
  (forall x, length x = n -> length (f x) = n) /\
  (forall x z, length x = n -> length z = n -> dist2 (f x) (f z) <= dist2 x z).
