(** The root find for the damping inside IndirectDampedNewtonDescent.step.  Models
    /repo/optimistix/_solver/levenberg_marquardt.py 210-232. *)

From Coq Require Import List Bool Arith QArith Reals.
From Verif Require Import Num Vec Results Iterate NewtonChord Spec_Vec.
Import ListNotations.

Section InnerRoot.
  Context {N : Num} {M : Type}.
  Variable jac : (list N -> list N * unit) -> list N -> M.
  Variable lsolve : M -> list N -> list N * results.
  Local Open Scope num_scope.

  (** The default `root_finder = Newton(rtol=1e-2, atol=1e-2)`, levenberg_marquardt.py 174, with the defaults of
      newton_chord.py 61-64 (max_norm, kappa = 1e-2, cauchy_termination=True), and `options=dict(lower=1e-5)` (225).  The
      resolution of the dtype is not used with cauchy_termination=True. *)
  Definition inner_params : nc_params (N:=N) :=
    mkNcParams (lit (1#100)) (lit (1#100)) max_norm (lit (1#100)) true true (Some [lit (1#100000)]) None (lit 0).

  (** `root_find(comparison_fn, root_finder, y0=lambda_0, options=..., max_steps=32, throw=False)`, levenberg_marquardt.py
      220-228, where lambda_0 = 1 (172).  A scalar is a list of one number. *)
  Definition inner_root (comparison_fn : list N -> list N * unit) :=
    iterative_solve vallfinite (newton_chord jac lsolve inner_params) comparison_fn 33 (Some 32%nat) false [lit 1]
      (fun v => [match v with fill0 => lit 0 | fill1 => lit 1 | fillinf => ninf end]) (fun _ => tt).
End InnerRoot.

(** `root_find(...).value`, levenberg_marquardt.py 220-228, for a comparison function on exact reals.  The root find itself
    runs on the extended reals, because Newton's initial state contains infinities (newton_chord.py 87-100); a result that is
    not a number counts as 0. *)
Definition inner_damping {M : Type} (jac : (list xr -> list xr * unit) -> list xr -> M)
    (lsolve : M -> list xr -> list xr * results) (comparison_fn : R -> R) : R :=
  match inner_root (N:=XR) jac lsolve (liftv (fun v => [comparison_fn (nth 0 v 0%R)])) with
  | Ret sol => toR (nth 0 (value sol) NaN)
  | _ => 0%R
  end.
