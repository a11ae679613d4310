(** The same least-squares problem with the residuals measured in another unit, and the
    unknowns in other units or another basis. *)

From Coq Require Import List Reals.
From Coquelicot Require Import Coquelicot.
From Verif Require Import Num Vec Spec_Vec Spec_Lin Results Iterate Spec_Iterate Search Descent Minimisers Spec_Search Spec_Combos.
Import ListNotations.

(** [U] is a linear map on R^n (not necessarily an isometry). *)
Definition linear_map (n : nat) (U : list R -> list R) : Prop :=
  (forall a, length a = n -> length (U a) = n) /\
  (forall a b, length a = n -> length b = n -> U (Radd_v a b) = Radd_v (U a) (U b)) /\
  (forall c a, length a = n -> U (Rscal c a) = Rscal c (U a)).

(** [fn'] is [fn] with unknowns U y in place of y and residuals multiplied by c; the aux
    output is the same. *)
Definition other_units {Aux : Type} (n m : nat) (U : list R -> list R) (c : R) (fn fn' : list R -> list R * Aux) : Prop :=
  forall y, length y = n -> length (fst (fn y)) = m /\ fn' (U y) = (Rscal c (fst (fn y)), snd (fn y)).

(** What the chain rule says of the Jacobians A of [fn] at y and B of [fn'] at U y. *)
Definition chain_rule (n m : nat) (U : list R -> list R) (c : R) (A B : linop RN) : Prop :=
  linear_op n m A /\ forall v : list R, length v = n -> op_mv B (U v) = Rscal c (op_mv A v).

(** If only the residuals change, also of the transposes. *)
Definition chain_rule_transpose (n m : nat) (c : R) (A B : linop RN) : Prop :=
  forall w : list R, length w = m -> length (op_mvT A w : list R) = n /\ op_mvT B (Rscal c w) = Rscal (c * c) (op_mvT A w).

(** The test `denom > eps` of the dogleg method, denom = |J J^T r|^2, comes out the same in
    both units. *)
Definition same_guard (eps c : R) (A : linop RN) (r : list R) : Prop :=
  let z : list R := op_mv A (op_mvT A r) in (eps < Rdot z z <-> eps < c ^ 6 * Rdot z z)%R.

(** The linear solver gives the same Newton step in both units. *)
Definition same_newton (n : nat) (U : list R -> list R) (c : R) (lsolve : linop RN -> list R -> list R * results)
    (A B : linop RN) (r : list R) : Prop :=
  length (fst (lsolve A r)) = n /\ lsolve B (Rscal c r) = (U (fst (lsolve A r)), snd (lsolve A r)).

(** The Newton and dogleg descents. *)
Definition newton_or_dogleg (d : builtin_descent RN) : Prop :=
  match d with NewtonDescent _ | DoglegDescent _ _ => True | _ => False end.

(** The Jacobian takes different values on different vectors. *)
Definition full_rank (n : nat) (A : linop RN) : Prop :=
  forall v w : list R, length v = n -> length w = n -> op_mv A v = op_mv A w -> v = w.

(** Two runs keep step: same exceptions; the same aux outputs, step statuses, numbers of
    accepted steps and search states (radius, step size), and iterates turned by U. *)
Definition keeps_step {Aux : Type} (search : Search RN) (descent : Descent RN) (s : Solver (list R) (list R) Aux)
    (view : St s -> gn_state (N:=RN) (Aux:=Aux) search descent) (U : list R -> list R)
    (fn fn' : list R -> list R * Aux) (y0 : list R) (a0 : Aux) (o o' : outcome (St s)) : Prop :=
  match o, o' with
  | Ret a, Ret b => forall k,
      y_at s fn' (U y0) b a0 k = U (y_at s fn y0 a a0 k) /\
      aux_at s fn' (U y0) b a0 k = aux_at s fn y0 a a0 k /\
      gn_result (view (st_at s fn' (U y0) b a0 k)) = gn_result (view (st_at s fn y0 a a0 k)) /\
      gn_num_accepted_steps (view (st_at s fn' (U y0) b a0 k)) = gn_num_accepted_steps (view (st_at s fn y0 a a0 k)) /\
      gn_search_state (view (st_at s fn' (U y0) b a0 k)) = gn_search_state (view (st_at s fn y0 a a0 k))
  | Raise e, Raise e' => e' = e
  | _, _ => False
  end.

(** Examples. The residuals (x^3 + x, 2x) of one unknown, in residual units c and written in the variable k x; the
    residual c x; their Jacobians. *)
Definition cubic (c k : R) (v : list R) : list R * unit :=
  let x := (nth 0 v 0 / k)%R in ([c * (x ^ 3 + x); c * (2 * x)]%R, tt).
Definition cubic_jac (f : list R -> list R * unit) (v : list R) : linop RN :=
  MatOp (N:=RN) 1 [[Derive (fun x => nth 0 (fst (f [x])) 0%R) (nth 0 v 0%R)]; [Derive (fun x => nth 1 (fst (f [x])) 0%R) (nth 0 v 0%R)]].
Definition proportional (c : R) (v : list R) : list R * unit := ([c * nth 0 v 0]%R, tt).
(** two residuals with Jacobian diag(1, 2) and values (1, 1), in residual units c *)
Definition two_residuals (c : R) : finfo RN := ResidualJac (N:=RN) [c; c] (MatOp (N:=RN) 2 [[c; 0]; [0; 2 * c]]%R).
