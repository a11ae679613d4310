(** Real vectors: vocabulary for statements. *)

From Coq Require Import List Reals.
From Verif Require Import Num.
Import ListNotations.

(** A real vector function as seen by a solver working on extended reals:
    finite at finite points (what it does elsewhere is irrelevant). *)
Definition toR (x : xr) : R := match x with Fin r => r | _ => 0%R end.
Definition liftv (f : list R -> list R) (y : list xr) : list xr * unit :=
  (map Fin (f (map toR y)), tt).

(** Componentwise difference, and the maximum norm. *)
Fixpoint Rsub_v (a b : list R) : list R :=
  match a, b with x :: a', y :: b' => (x - y)%R :: Rsub_v a' b' | _, _ => [] end.
Definition Rmax_norm (v : list R) : R := fold_right (fun x m => Rmax (Rabs x) m) 0%R v.
(** Distance in the maximum norm. *)
Definition Rdist_inf (a b : list R) : R := Rmax_norm (Rsub_v a b).

(** f maps R^n to itself and shrinks max-norm distances by the factor q. *)
Definition contraction (n : nat) (q : R) (f : list R -> list R) : Prop :=
  (0 <= q < 1)%R /\
  (forall x, length x = n -> length (f x) = n) /\
  (forall x y, length x = n -> length y = n -> (Rdist_inf (f x) (f y) <= q * Rdist_inf x y)%R).
