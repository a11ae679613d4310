(** Vocabulary for C93: componentwise order of real vectors. *)

From Coq Require Import List Reals.
From Verif Require Import Spec_Vec Spec_Lin.

(** a <= b in every component (and of the same length). *)
Definition vle (a b : list R) : Prop := Forall2 Rle a b.

(** Sum of the components. *)
Definition Rsum_v (v : list R) : R := fold_right Rplus 0%R v.

(** F lies above its tangent planes, component by component, on D. *)
Definition convex_on (D : list R -> Prop) (F : list R -> list R) (J : list R -> list (list R)) : Prop :=
  forall x y, D x -> D y -> vle (Radd_v (F x) (mvec (J x) (Rsub_v y x))) (F y).

(** The inverse of A has no negative entry: A v >= 0 only if v >= 0. *)
Definition inverse_positive (n : nat) (A : list (list R)) : Prop :=
  forall v, length v = n -> vle (zerov n) (mvec A v) -> vle (zerov n) v.
