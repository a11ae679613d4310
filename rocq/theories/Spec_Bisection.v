(** Vocabulary for bisection: sign changes of a function. *)

From Coq Require Import Reals QArith.
From Verif Require Import Num.

(** Values at the two ends of an interval have different signs, in the sense
    used by flip="detect" ("negative" against "not negative");
    [flip = false]: from negative to non-negative, [flip = true]: from
    non-negative to negative. *)
Definition sign_change {N : Num} (f : N -> N) (flip : bool) (lower upper : N) : Prop :=
  nltb (f lower) (lit 0) = negb flip /\ nltb (f upper) (lit 0) = flip.

(** The same allowing a root at either end. *)
Definition weak_sign_change (f : R -> R) (flip : bool) (lower upper : R) : Prop :=
  if flip then (f upper <= 0 <= f lower)%R else (f lower <= 0 <= f upper)%R.

(** A real function as seen by the solver: finite at finite points. *)
Definition lift (f : R -> R) (y : xr) : xr * unit :=
  match y with Fin r => (Fin (f r), tt) | _ => (NaN, tt) end.

Definition strictly_increasing (f : R -> R) : Prop := forall x y, (x < y)%R -> (f x < f y)%R.
Definition strictly_decreasing (f : R -> R) : Prop := forall x y, (x < y)%R -> (f y < f x)%R.
Definition nondecreasing (f : R -> R) : Prop := forall x y, (x <= y)%R -> (f x <= f y)%R.
Definition nonincreasing (f : R -> R) : Prop := forall x y, (x <= y)%R -> (f y <= f x)%R.
