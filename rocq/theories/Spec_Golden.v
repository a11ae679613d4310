(** Vocabulary for golden-section search: golden ratio, division of an
    interval, unimodal functions. *)

From Coq Require Import Reals.
Local Open Scope R_scope.

Definition phi : R := (1 + sqrt 5) / 2.

(** m divides [l, u] in the golden ratio (one way or the other). *)
Definition golden_split (l m u : R) : Prop :=
  phi * (m - l) = u - m \/ phi * (u - m) = m - l.

(** f falls strictly on [a, x] and rises strictly on [x, b]. *)
Definition unimodal (f : R -> R) (a b x : R) : Prop :=
  a <= x <= b /\
  (forall p q, a <= p -> p < q -> q <= x -> f q < f p) /\
  (forall p q, x <= p -> p < q -> q <= b -> f p < f q).
