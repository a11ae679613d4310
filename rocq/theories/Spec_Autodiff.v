(** What differentiation has to provide. *)

From Coq Require Import Reals List.
From Verif Require Import Num Spec_Lin Search.

(** [pull] is the transpose of [push], maps between R^n and R^m. *)
Definition adjoint_pair (n m : nat) (push pull : list R -> list R) : Prop :=
  (forall v, length v = n -> length (push v) = m) /\
  (forall w, length w = m -> length (pull w) = n) /\
  (forall v w, length v = n -> length w = m -> Rdot (push v) w = Rdot v (pull w)).

(** two operators from R^n to R^m with the same action and the same transpose *)
Definition same_operator (n m : nat) (A B : linop RN) : Prop :=
  (forall v : list R, length v = n -> op_mv A v = op_mv B v) /\
  (forall w : list R, length w = m -> op_mvT A w = op_mvT B w).
