(** Rotations, reflections, renamings of the unknowns; what it means that a solve
    does not depend on the coordinates. *)

From Coq Require Import List Reals Permutation.
From Verif Require Import Num Vec Spec_Vec Spec_Lin Results Iterate Search Descent Minimisers Spec_Search Spec_Combos.
Import ListNotations.

(** [U] is a linear map of R^n onto itself that keeps inner products. *)
Definition isometry (n : nat) (U : list R -> list R) : Prop :=
  (forall a, length a = n -> length (U a) = n) /\
  (forall a b, length a = n -> length b = n -> U (Radd_v a b) = Radd_v (U a) (U b)) /\
  (forall c a, length a = n -> U (Rscal c a) = Rscal c (U a)) /\
  (forall a b, length a = n -> length b = n -> Rdot (U a) (U b) = Rdot a b) /\
  (forall a, length a = n -> exists b, length b = n /\ U b = a).

(** Entry k of [rename w v] is entry i of v, negated if the flag is set, where (flag, i)
    is entry k of w; a renaming lists every index below n once. *)
Definition rename (w : list (bool * nat)) (v : list R) : list R :=
  map (fun e : bool * nat => if fst e then (- nth (snd e) v 0)%R else nth (snd e) v 0%R) w.
Definition renaming (n : nat) (w : list (bool * nat)) : Prop := Permutation (map snd w) (seq 0 n).

(** [A] and [B] are the same linear map, A in the old and B in the new coordinates
    (U on the unknowns, V on the values). *)
Definition turned (n k : nat) (U V : list R -> list R) (A B : linop RN) : Prop :=
  linear_op n k A /\ (forall w : list R, length w = k -> length (op_mvT A w : list R) = n) /\
  (forall v : list R, length v = n -> op_mv B (U v) = V (op_mv A v)) /\
  (forall w : list R, length w = k -> op_mvT B (V w) = U (op_mvT A w)).

(** A norm, a linear solver, a nonlinear CG formula, a descent that does not depend on
    the coordinates *)
Definition blind_norm (n : nat) (U : list R -> list R) (norm : list R -> R) : Prop :=
  forall v, length v = n -> norm (U v) = norm v.
Definition blind_solver (n : nat) (U : list R -> list R) (lsolve : linop RN -> list R -> list R * results) : Prop :=
  forall k V A B b, isometry k V -> turned n k U V A B -> length b = k ->
    length (fst (lsolve A b)) = n /\ lsolve B (V b) = (U (fst (lsolve A b)), snd (lsolve A b)).
Definition blind_method (n : nat) (U : list R -> list R) (method : list R -> list R -> list R -> R) : Prop :=
  forall g p d, length g = n -> length p = n -> length d = n -> method (U g) (U p) (U d) = method g p d.
Definition blind_descent (n : nat) (U : list R -> list R) (d : builtin_descent RN) : Prop :=
  match d with
  | SteepestDescent (Some norm) | NewtonDescent (Some norm) => blind_norm n U norm
  | SteepestDescent None | NewtonDescent None | DampedNewtonDescent => True
  | NonlinearCGDescent method => blind_method n U method
  | IndirectDampedNewtonDescent norm _ | DoglegDescent norm _ => blind_norm n U norm
  end.

(** The stopping test does not depend on the coordinates (U of the unknowns, V of the
    values). *)
Definition blind_test (n m : nat) (U V : list R -> list R) (P : ar_tols RN) : Prop :=
  forall y dy f df : list R, length y = n -> length dy = n -> length f = m -> length df = m ->
    cauchy_termination (ar_rtol P) (ar_atol P) (ar_norm P) (U y) (U dy) (V f) (V df) =
    cauchy_termination (ar_rtol P) (ar_atol P) (ar_norm P) y dy f df.

(** The second solve is the first in the new coordinates: same exception, or the value
    turned by U and the same result, aux and statistics. *)
Definition same_solve {Aux S S' : Type} (U : list R -> list R)
    (o : outcome (Solution (list R) Aux S)) (o' : outcome (Solution (list R) Aux S')) : Prop :=
  match o, o' with
  | Ret s, Ret s' => value s' = U (value s) /\ result s' = result s /\ aux s' = aux s /\ sol_stats s' = sol_stats s
  | Raise e, Raise e' => e' = e
  | Unfinished, Unfinished => True
  | _, _ => False
  end.

(** A norm that does not depend on the order and the signs of the entries. *)
Definition orderless (norm : list R -> R) : Prop :=
  forall n w v, renaming n w -> length v = n -> norm (rename w v) = norm v.

(** The least-squares solution of least norm. *)
Definition minimum_norm_solution (n : nat) (A : linop RN) (b x : list R) : Prop :=
  let misfit v := Rdot (Rsub_v (op_mv A v) b) (Rsub_v (op_mv A v) b) in
  length x = n /\
  (forall v : list R, length v = n -> (misfit x <= misfit v)%R) /\
  (forall v : list R, length v = n -> (misfit v <= misfit x)%R -> (Rdot x x <= Rdot v v)%R).
