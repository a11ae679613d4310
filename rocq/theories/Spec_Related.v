(** Vocabulary for the convergence of user-defined descents (C111). *)

From Coq Require Import List Reals.
From Verif Require Import Num Vec Results Spec_Vec Spec_Lin Search.
Import ListNotations.
Local Open Scope R_scope.

(** The descent steps along a direction that only depends on the last accepted point, makes an angle bounded away
    from 90 degrees with the negative gradient, and is about as long as the gradient. *)
Definition gradient_related (n : nat) (c1 c2 : R) (descent : Descent RN) : Prop :=
  forall (y : list R) (v : R) (g : list R) st, length y = n -> length g = n ->
  exists d : list R, length d = n /\
    (forall t : R, d_step descent t (d_query descent y (EvalGrad (N:=RN) v g) st) = (Rscal t d, successful)) /\
    c1 * Rdot g g <= - Rdot g d /\ Rdot d d <= c2 * Rdot g g.

(** The searches that ask for a decrease of c times the linear prediction, shrink a rejected step by the factor lo,
    start with the step size ini, and after an accepted step either return to ini (resets) or multiply the step size
    by a factor between 1 and hi. *)
Inductive shrinking_search : Search RN -> forall (c lo hi ini : R) (resets : bool), Prop :=
| is_armijo : forall decrease slope init : R, 0 < decrease < 1 -> 0 < slope < 1 -> 0 < init ->
    shrinking_search (armijo (N:=RN) decrease slope init) slope decrease 1 init true
| is_linear_trust_region : forall T : tr_params RN,
    0 < tr_low_cutoff T < 1 -> 0 < tr_low_constant T < 1 -> 1 <= tr_high_constant T ->
    shrinking_search (linear_trust_region (N:=RN) T) (tr_low_cutoff T) (tr_low_constant T) (tr_high_constant T) 1 false.

(** Half the negative gradient in the first unknown, twice in the others: a descent a user might write *)
Definition stretched (g : list R) : list R :=
  match g with a :: r => (- a / 2) :: map (fun x => -2 * x) r | [] => [] end.
Definition stretched_descent : Descent RN :=
  mkDescent (N:=RN) (list R) (fun _ => true) (fun _ _ => [])
    (fun _ i _ => match i with EvalGrad _ g => stretched g | _ => [] end)
    (fun t d => (Rscal t d, successful)).
