(** What a trust-region norm is. *)

From Coq Require Import List Reals.
From Verif Require Import Spec_Lin.

(** The two laws of a norm that are used: the triangle inequality and homogeneity. *)
Definition is_norm (nm : list R -> R) : Prop :=
  (forall x y, length x = length y -> (nm (Radd_v x y) <= nm x + nm y)%R) /\
  (forall c x, nm (Rscal c x) = (Rabs c * nm x)%R).
