(** Vocabulary for statements about Newton and Chord. *)

From Coq Require Import List Bool Reals QArith.
From Verif Require Import Num Vec Results NewtonChord Spec_Vec Spec_Lin.
Import ListNotations.

(** The linear solve that Newton (Jacobian at the current point y) or Chord
    (Jacobian at the starting point y0) is documented to perform at y. *)
Definition lin_sol {N : Num} {Aux M : Type} (jac : (list N -> list N * Aux) -> list N -> M)
    (lsolve : M -> list N -> list N * results) (is_newton : bool)
    (fn : list N -> list N * Aux) (y0 y : list N) : list N * results :=
  lsolve (jac fn (if is_newton then y else y0)) (fst (fn y)).

(** Size of a step d landing on y', relative to the tolerances. *)
Definition rel_size {N : Num} (norm : list N -> N) (rtol atol : N) (d y' : list N) : N :=
  norm (vmap2 ndiv d (map (fun t => nadd atol (nmul rtol (nabs t))) y')).

(** Plain affine functions y |-> A y + b. *)
Definition affine (A : list (list R)) (b : list R) (y : list R) : list R := Radd_v (mvec A y) b.
(** Trivial kernel: for a square matrix, invertibility. *)
Definition injective_mat (n : nat) (A : list (list R)) : Prop :=
  forall v, length v = n -> mvec A v = zerov n -> v = zerov n.
