(** Derivatives of functions between lists of reals: vocabulary for statements. *)

From Coq Require Import List Reals.
From Verif Require Import Spec_Vec Spec_Lin Num Results Search.
Import ListNotations.
Local Open Scope R_scope.

(** f maps vectors of length n to vectors of length m. *)
Definition maps (n m : nat) (f : list R -> list R) : Prop :=
  forall x, length x = n -> length (f x) = m.

(** The m x n matrix J is the derivative of f at x (Fréchet, in the largest
    absolute entry). *)
Definition jacobian_at (n m : nat) (f : list R -> list R) (x : list R) (J : list (list R)) : Prop :=
  length x = n /\ maps n m f /\ mat m n J /\
  forall eps, 0 < eps -> exists delta, 0 < delta /\
    forall h, length h = n -> Rmax_norm h < delta ->
      Rmax_norm (Rsub_v (Rsub_v (f (Radd_v x h)) (f x)) (mvec J h)) <= eps * Rmax_norm h.

(** The derivative of a function of two vectors, in the first (A) and the second
    (B) argument, jointly. *)
Definition jacobian2_at (n k m : nat) (F : list R -> list R -> list R) (y p : list R)
    (A B : list (list R)) : Prop :=
  length y = n /\ length p = k /\
  (forall y p, length y = n -> length p = k -> length (F y p) = m) /\
  mat m n A /\ mat m k B /\
  forall eps, 0 < eps -> exists delta, 0 < delta /\
    forall h g, length h = n -> length g = k -> Rmax_norm h < delta -> Rmax_norm g < delta ->
      Rmax_norm (Rsub_v (Rsub_v (F (Radd_v y h) (Radd_v p g)) (F y p))
                        (Radd_v (mvec A h) (mvec B g)))
        <= eps * Rmax (Rmax_norm h) (Rmax_norm g).

(** g is the gradient of the scalar function f at x. *)
Definition gradient_at (n : nat) (f : list R -> R) (x g : list R) : Prop :=
  jacobian_at n 1 (fun z => [f z]) x [g].

(** P holds at every vector near p. *)
Definition near (k : nat) (p : list R) (P : list R -> Prop) : Prop :=
  exists delta, 0 < delta /\
    forall g, length g = k -> Rmax_norm g < delta -> P (Radd_v p g).

(** A continuous choice y(p) of vectors near p0. *)
Definition branch (n k : nat) (y : list R -> list R) (p0 : list R) : Prop :=
  length p0 = k /\ maps k n y /\
  forall eps, 0 < eps -> near k p0 (fun p => Rmax_norm (Rsub_v (y p) (y p0)) < eps).

(** Correct automatic differentiation: exact wherever the function is
    differentiable. *)
Definition jvp_correct (jvp : (list R -> list R) -> list R -> list R -> list R) : Prop :=
  forall n m f x J t, jacobian_at n m f x J -> length t = n -> jvp f x t = mvec J t.
Definition grad_correct (grad : (list R -> R) -> list R -> list R) : Prop :=
  (forall f x, length (grad f x) = length x) /\
  (forall n f x g, gradient_at n f x g -> grad f x = g).

(** The linear solver solves every system whose operator is (the product with)
    an invertible n x n matrix. *)
Definition solves_invertible (n : nat) (lsolve : linop RN -> list R -> list R * results) : Prop :=
  forall op A B b, mat n n A -> mat n n B -> inverses n A B -> length b = n ->
    (forall v, length v = n -> op_mv op v = mvec A v) ->
    exists x, lsolve op b = (x, successful) /\ length x = n /\ mvec A x = b.

(** y is a local minimiser of f. *)
Definition local_min (n : nat) (f : list R -> R) (y : list R) : Prop :=
  near n y (fun z => f y <= f z).

(** The tangent of an input without one is zero. *)
Definition filled (t : list (option R)) : list R :=
  map (fun o => match o with Some x => x | None => 0 end) t.
