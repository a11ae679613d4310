(** The root find inside the dogleg descent for a trust-region norm other than the
    two-norm.  Models /repo/optimistix/_solver/dogleg.py 174-184. *)

From Coq Require Import List Reals.
From Verif Require Import Num Results Iterate Bisection Spec_Bisection.

(** `root_find(lambda t, _: ..., self.root_finder, y0=1.5, options={"lower": 1, "upper": 2},
    throw=False)` with the default root finder `Bisection(rtol, atol)`, dogleg.py 49-51
    and 174-184.  The function is a real function; the solver runs on the extended
    reals, as in Bisection.v.  [max_steps] is 256 in the code (root_find's default). *)
Definition dogleg_root (rtol atol : R) (fuel : nat) (max_steps : option nat) (f : R -> R) :
    outcome (Solution xr unit (bis_state (N:=XR))) :=
  iterative_solve xisfin
    (bisection (N:=XR) (Aux:=unit) (Fin rtol) (Fin atol) Detect false fuel (Fin 1%R) (Fin 2%R))
    (lift f) fuel max_steps false (Fin (3 / 2)%R) (fun _ => NaN) (fun _ => tt).

(** `root_sol.value, root_sol.result`, dogleg.py 183-184.  The descent of Descent.v
    takes the root finder as a function that returns; when the root find raises (or does
    not finish) the real code does not reach this point, and the value here is
    arbitrary. *)
Definition dogleg_rfind (rtol atol : R) (fuel : nat) (max_steps : option nat) (f : R -> R) : R * results :=
  match dogleg_root rtol atol fuel max_steps f with
  | Ret sol => (match value sol with Fin v => v | _ => 0%R end, result sol)
  | _ => (0%R, nonfinite)
  end.
