(** Vocabulary for statements about individual steps. *)

From Coq Require Import List Reals.
From Verif Require Import Num Vec Results Search Spec_Vec Spec_Lin Spec_Search.
Import ListNotations.

(** |A z + r|^2 + lam |z|^2: the linearised sum of squares plus damping *)
Definition damped_loss (A : linop RN) (r : list R) (lam : R) (z : list R) : R :=
  (Rdot (Radd_v (op_mv A z) r) (Radd_v (op_mv A z) r) + lam * Rdot z z)%R.

(** The operator [A] acts as the matrix J stacked on sqrt(lam) times the identity. *)
Definition stacked {N : Num} (J : linop N) (lam : N) (A : linop N) : Prop :=
  forall z, op_mv A z = op_mv J z ++ vscale (nsqrt lam) z.

(** The linear solver solves every square linear system that has a solution. *)
Definition solves_solvable (n : nat) (lsolve : linop RN -> list R -> list R * results) : Prop :=
  forall A b, linear_op n n A -> length b = n ->
    (exists z : list R, length z = n /\ op_mv A z = b) ->
    length (fst (lsolve A b) : list R) = n /\ op_mv A (fst (lsolve A b)) = b.

(** f lies below the parabola with curvature L touching it at any point (true of
    every f whose gradient g is L-Lipschitz). *)
Definition smooth (n : nat) (L : R) (f : list R -> R) (g : list R -> list R) : Prop :=
  (forall x, length x = n -> length (g x) = n) /\
  forall x d, length x = n -> length d = n ->
    (f (Radd_v x d) <= f x + Rdot (g x) d + L / 2 * Rdot d d)%R.

(** x^2 in one unknown and its gradient *)
Definition square1 (v : list R) : R := match v with [x] => (x * x)%R | _ => 0%R end.
Definition square1_grad (v : list R) : list R := match v with [x] => [(2 * x)%R] | _ => [] end.
