(** What the root find inside IndirectLevenbergMarquardt is asked for (C82), written
    without reference to the solver.  Read here: half_squares, residual_problem
    (Spec_Convergence), damped_loss (Spec_Steps). *)

From Coq Require Import List Reals.
From Verif Require Import Num Search Spec_Lin Spec_Steps.
Import ListNotations.
Local Open Scope R_scope.

(** The root finder, given for some point x and some radius [rho <= step < 1] the function
    "length of the damped step at x for damping lam, minus the requested length
    [step * newton_length x]", returns an allowed damping at which that function is at most
    half the requested length in size.  Dampings are allowed if [0 < lam] and
    [eps * lam < 1]; the damped step for lam is the unique minimiser z of
    [|J z + r|^2 + lam |z|^2]. *)
Definition finds_damping (eps rho : R) (n : nat) (r : list R -> list R) (J : list R -> linop RN)
    (newton_length : list R -> R) (rfind : (R -> R) -> R) : Prop :=
  forall x step h, length x = n -> rho <= step < 1 ->
    (forall lam, 0 < lam -> eps * lam < 1 ->
       exists z, length z = n /\
         (forall v, length v = n -> v <> z -> damped_loss (J x) (r x) lam z < damped_loss (J x) (r x) lam v) /\
         h lam = Rnorm z - step * newton_length x) ->
    0 < rfind h /\ eps * rfind h < 1 /\ Rabs (h (rfind h)) <= / 2 * (step * newton_length x).
