(** Property theorems: NewtonF64.
    Statements only; each is closed by the lemma of the same name (suffix _pf)
    in the proof file.  [Example]s show concrete cases meeting the hypotheses. *)

From Coq Require Import String List Bool Arith Lia ZArith QArith Qreals Reals Lra.
From Flocq Require Import Core.
From Flocq.IEEE754 Require Import BinarySingleNaN.
From Verif Require Import Num NumFacts NumDiv Vec Results Iterate Spec_Iterate Iterate_proofs.
From Verif Require Import Spec_Vec VecFacts Spec_Lin LinFacts FixedPoint_proofs NewtonChord Spec_NewtonChord NewtonChord_proofs.
From Verif Require Import NumF64 NumF64_facts F64Facts FixedPointF64_proofs Spec_NewtonF64.
Import ListNotations.
Local Open Scope R_scope.
From Verif Require Import NewtonF64_proofs.

(** Newton and Chord on doubles, with whatever Jacobians and linear solver, as long as the computed directions are those of an
    inexact Newton method: near the root, y - d is at most q |y - root| + eps away from the root.  All iterates stay finite
    and near, and the error contracts by q down to eps plus the rounding of the update. *)
Theorem C95_iterates :
  forall (Aux M : Type) (jac : (list f64 -> list f64 * Aux) -> list f64 -> M) lsolve (P : nc_params (N:=F64)) fn (y0 : list f64) fs auxs
         (n : nat) (root : list R) (r q eps C epsF : R),
    let finite y := Forall (fun x : f64 => is_finite x = true) y in
    let near y := length y = n /\ finite y /\ Rdist_inf (map B2R y) root <= r in
    let B := Rmax_norm root + r in
    length root = n -> 0 <= q < 1 -> 0 <= eps -> B <= bpow radix2 1021 -> q * r + eps + bpow radix2 (-53) * B <= r ->
    (forall y, near y ->
       exists d, lsolve (jac fn (if nc_is_newton P then y else y0)) (fst (fn y)) = (d, successful) /\ length d = n /\ finite d /\
         Rdist_inf (Rsub_v (map B2R y) (map B2R d)) root <= q * Rdist_inf (map B2R y) root + eps /\
         finite (fst (fn y)) /\ Rmax_norm (map B2R (fst (fn y))) <= C * Rdist_inf (map B2R y) root + epsF) ->
    near y0 -> nc_lower P = None -> nc_upper P = None ->
    let s := newton_chord (N:=F64) jac lsolve P in
    forall st0, s_init s fn y0 fs auxs = Ret st0 ->
    let y k : list f64 := y_at s fn y0 st0 (auxs fill0) k in
    let err := eps + bpow radix2 (-53) * B in
    forall k, near (y k) /\
      Rdist_inf (map B2R (y (S k))) root <= q * Rdist_inf (map B2R (y k)) root + err /\
      Rdist_inf (map B2R (y k)) root <= q ^ k * r + err / (1 - q).
Proof. exact C95_iterates_pf. Qed.
Print Assumptions C95_iterates.

(** Under the Cauchy criterion it succeeds within K + 1 steps once the bounds on step and residual that this gives are below
    some double that is at most atol / 2. *)
Theorem C95_terminates :
  forall (Aux M : Type) (jac : (list f64 -> list f64 * Aux) -> list f64 -> M) lsolve (P : nc_params (N:=F64)) fn (y0 : list f64) fs auxs
         (n : nat) (root : list R) (r q eps C epsF : R) (delta : f64) (K : nat),
    let finite y := Forall (fun x : f64 => is_finite x = true) y in
    let near y := length y = n /\ finite y /\ Rdist_inf (map B2R y) root <= r in
    let B := Rmax_norm root + r in
    (0 < n)%nat -> length root = n -> 0 <= q < 1 -> 0 <= eps -> 0 <= C -> B <= bpow radix2 1021 -> q * r + eps + bpow radix2 (-53) * B <= r ->
    (forall y, near y ->
       exists d, lsolve (jac fn (if nc_is_newton P then y else y0)) (fst (fn y)) = (d, successful) /\ length d = n /\ finite d /\
         Rdist_inf (Rsub_v (map B2R y) (map B2R d)) root <= q * Rdist_inf (map B2R y) root + eps /\
         finite (fst (fn y)) /\ Rmax_norm (map B2R (fst (fn y))) <= C * Rdist_inf (map B2R y) root + epsF) ->
    near y0 -> nc_lower P = None -> nc_upper P = None -> nc_cauchy P = true -> nc_norm P = max_norm (N:=F64) ->
    is_finite (nc_rtol P : f64) = true -> is_finite (nc_atol P : f64) = true ->
    0 <= B2R (nc_rtol P) <= 1 -> 0 < B2R (nc_atol P) <= bpow radix2 1022 -> B2R delta <= B2R (nc_atol P) / 2 ->
    let err := eps + bpow radix2 (-53) * B in
    let E := q ^ K * r + err / (1 - q) in
    (1 + q) * E + eps <= B2R delta -> C * E + epsF <= B2R delta ->
    let s := newton_chord (N:=F64) jac lsolve P in
    exists k, (1 <= k <= S K)%nat /\
      forall fuel ms throw, (k < fuel)%nat -> (forall m, ms = Some m -> (k <= m)%nat) ->
        exists sol, iterative_solve vallfinite s fn fuel ms throw y0 fs auxs = Ret sol /\ result sol = successful.
Proof. exact C95_terminates_pf. Qed.
Print Assumptions C95_terminates.

(** What success means on doubles: the returned point is finite and within q (tol + eps) / (1 - q) of the root, plus eps and the rounding
    of the update, tol being the requested tolerance up to a relative 2^-50 and an absolute 2^-1074. *)
Theorem C95_success :
  forall (Aux M : Type) (jac : (list f64 -> list f64 * Aux) -> list f64 -> M) lsolve (P : nc_params (N:=F64)) fn (y0 : list f64) fs auxs
         (n : nat) (root : list R) (r q eps C epsF : R) fuel ms throw sol,
    let finite y := Forall (fun x : f64 => is_finite x = true) y in
    let near y := length y = n /\ finite y /\ Rdist_inf (map B2R y) root <= r in
    let B := Rmax_norm root + r in
    (0 < n)%nat -> length root = n -> 0 <= q < 1 -> 0 <= eps -> B <= bpow radix2 1021 -> q * r + eps + bpow radix2 (-53) * B <= r ->
    (forall y, near y ->
       exists d, lsolve (jac fn (if nc_is_newton P then y else y0)) (fst (fn y)) = (d, successful) /\ length d = n /\ finite d /\
         Rdist_inf (Rsub_v (map B2R y) (map B2R d)) root <= q * Rdist_inf (map B2R y) root + eps /\
         finite (fst (fn y)) /\ Rmax_norm (map B2R (fst (fn y))) <= C * Rdist_inf (map B2R y) root + epsF) ->
    near y0 -> nc_lower P = None -> nc_upper P = None -> nc_cauchy P = true -> nc_norm P = max_norm (N:=F64) ->
    is_finite (nc_rtol P : f64) = true -> is_finite (nc_atol P : f64) = true ->
    0 <= B2R (nc_rtol P) <= 1 -> 0 < B2R (nc_atol P) <= bpow radix2 1022 ->
    iterative_solve vallfinite (newton_chord (N:=F64) jac lsolve P) fn fuel ms throw y0 fs auxs = Ret sol -> result sol = successful ->
    let err := eps + bpow radix2 (-53) * B in
    let tol := (1 + bpow radix2 (-50)) * (B2R (nc_atol P) + B2R (nc_rtol P) * B) + bpow radix2 (-1074) in
    near (value sol) /\ Rdist_inf (map B2R (value sol : list f64)) root <= q * (tol + eps) / (1 - q) + err.
Proof. exact C95_success_pf. Qed.
Print Assumptions C95_success.

(** x^2 - 2 in doubles from 1.5, with tolerances 2^-10. *)
Example C95_iterates_ex : forall fs k,
  let s := newton_chord (N:=F64) sq2jac sq2solve sq2P in
  let y : list f64 := y_at s sq2 [f64_ofQ (3#2)] (nc_st0 (N:=F64) sq2jac sq2P sq2 [f64_ofQ (3#2)] fs) tt k in
  Forall (fun x : f64 => is_finite x = true) y /\
  Rdist_inf (map B2R y) [sqrt 2] <= (/ 8) ^ k * / 4 + (bpow radix2 (-48) + bpow radix2 (-53) * (Rmax_norm [sqrt 2] + / 4)) / (1 - / 8).
Proof. exact C95_iterates_ex_pf. Qed.

Example C95_terminates_ex : forall fs auxs, exists k, (1 <= k <= 6)%nat /\
  forall fuel ms throw, (k < fuel)%nat -> (forall m, ms = Some m -> (k <= m)%nat) ->
    exists sol, iterative_solve vallfinite (newton_chord (N:=F64) sq2jac sq2solve sq2P) sq2 fuel ms throw [f64_ofQ (3#2)] fs auxs = Ret sol /\
      result sol = successful.
Proof. exact C95_terminates_ex_pf. Qed.

Example C95_success_ex : forall fs auxs, exists fuel sol,
  iterative_solve vallfinite (newton_chord (N:=F64) sq2jac sq2solve sq2P) sq2 fuel None true [f64_ofQ (3#2)] fs auxs = Ret sol /\
  result sol = successful /\ Rdist_inf (map B2R (value sol : list f64)) [sqrt 2] <= / 2000.
Proof. exact C95_success_ex_pf. Qed.
