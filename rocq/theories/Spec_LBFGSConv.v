(** Vocabulary for the convergence of L-BFGS (C85). *)

From Coq Require Import Reals.
Local Open Scope R_scope.

(** With history length M, the approximation of the inverse Hessian is at most
    [inverse_bound M mu L] times the identity, and the approximation of the Hessian
    at most [hessian_bound M L] times the identity. *)
Definition inverse_bound (M : nat) (mu L : R) : R := (3 + 2 * (L / mu)) ^ M * Rmax 1 (/ mu).
Definition hessian_bound (M : nat) (L : R) : R := Rmax 1 L + INR M * L.

(** No accepted step is shorter than this fraction of the full step ... *)
Definition least_fraction (M : nat) (mu L : R) : R := Rmin 1 (9 / (10 * L * inverse_bound M mu L)).

(** ... so that every accepted step reduces f - min f by at least this factor. *)
Definition accepted_factor (M : nat) (mu L : R) : R := 1 - mu * least_fraction M mu L / (5 * hessian_bound M L).
