(** Property theorems: FixedPointF64.
    Statements only; each is closed by the lemma of the same name (suffix _pf)
    in the proof file.  [Example]s show concrete cases meeting the hypotheses. *)

From Coq Require Import String List Bool Arith Lia ZArith QArith Qreals Reals Lra.
From Flocq Require Import Core.
From Flocq.IEEE754 Require Import BinarySingleNaN.
From Verif Require Import Num NumFacts NumDiv Vec Results Iterate Spec_Iterate Iterate_proofs.
From Verif Require Import Spec_Vec VecFacts FixedPoint FixedPoint_proofs NumF64 NumF64_facts F64Facts.
Import ListNotations.
Local Open Scope R_scope.
From Verif Require Import FixedPointF64_proofs.

(** Fixed-point iteration on doubles, for a computed function within eps of a map G that contracts by q on the box
    |x| <= B. All iterates stay finite and in the box, each is the damped update of the one before up to
    (1 - damp) eps plus rounding, and consecutive iterates approach each other geometrically down to that error. *)
Theorem C88_iterates :
  forall (Aux : Type) (rtol atol damp : f64) (fn : list f64 -> list f64 * Aux) (y0 : list f64) (aux0 : Aux)
         (n : nat) (B B' eps q : R) (G : list R -> list R),
    let inside x := length x = n /\ Rmax_norm x <= B in
    let finite y := Forall (fun x : f64 => is_finite x = true) y in
    let rho := bpow radix2 (-50) * B + bpow radix2 (-1073) in
    let d := B2R damp in
    is_finite damp = true -> 0 <= d < 1 -> 0 <= eps -> 0 <= B <= bpow radix2 1022 ->
    d * B + (1 - d) * (B' + eps) + rho <= B ->
    (forall y, finite y -> inside (map B2R y) ->
       length (fst (fn y)) = n /\ finite (fst (fn y)) /\ Rdist_inf (map B2R (fst (fn y))) (G (map B2R y)) <= eps) ->
    (forall x, inside x -> length (G x) = n /\ Rmax_norm (G x) <= B') -> 0 <= q < 1 ->
    (forall x x', inside x -> inside x' -> Rdist_inf (G x) (G x') <= q * Rdist_inf x x') ->
    finite y0 -> inside (map B2R y0) ->
    let s := fixed_point_iteration (N:=F64) (Aux:=Aux) rtol atol damp max_norm in
    let y k : list f64 := y_at s fn y0 ninf aux0 k in
    let err := (1 - d) * eps + rho in
    let Q := d + (1 - d) * q in
    forall k,
      finite (y k) /\ inside (map B2R (y k)) /\
      Rdist_inf (map B2R (y (S k))) (map (fun p => (1 - d) * fst p + d * snd p) (combine (G (map B2R (y k))) (map B2R (y k)))) <= err /\
      Rdist_inf (map B2R (y k)) (map B2R (y (S k))) <= Q ^ k * (2 * B) + 2 * err / (1 - Q).
Proof. exact C88_iterates_pf. Qed.
Print Assumptions C88_iterates.

(** It succeeds within K + 1 steps as soon as that bound is below some double that is at most atol / 2. *)
Theorem C88_terminates :
  forall (Aux : Type) (rtol atol damp delta : f64) (fn : list f64 -> list f64 * Aux) (y0 : list f64) fs auxs
         (n : nat) (B B' eps q : R) (G : list R -> list R) (K : nat),
    let inside x := length x = n /\ Rmax_norm x <= B in
    let finite y := Forall (fun x : f64 => is_finite x = true) y in
    let rho := bpow radix2 (-50) * B + bpow radix2 (-1073) in
    let d := B2R damp in
    is_finite damp = true -> 0 <= d < 1 -> 0 <= eps -> 0 <= B <= bpow radix2 1022 ->
    d * B + (1 - d) * (B' + eps) + rho <= B ->
    (forall y, finite y -> inside (map B2R y) ->
       length (fst (fn y)) = n /\ finite (fst (fn y)) /\ Rdist_inf (map B2R (fst (fn y))) (G (map B2R y)) <= eps) ->
    (forall x, inside x -> length (G x) = n /\ Rmax_norm (G x) <= B') -> 0 <= q < 1 ->
    (forall x x', inside x -> inside x' -> Rdist_inf (G x) (G x') <= q * Rdist_inf x x') ->
    finite y0 -> inside (map B2R y0) ->
    is_finite rtol = true -> is_finite atol = true -> is_finite delta = true ->
    0 <= B2R rtol <= 1 -> 0 < B2R atol <= bpow radix2 1022 -> B2R delta <= B2R atol / 2 ->
    let err := (1 - d) * eps + rho in
    let Q := d + (1 - d) * q in
    Q ^ K * (2 * B) + 2 * err / (1 - Q) <= B2R delta ->
    let s := fixed_point_iteration (N:=F64) (Aux:=Aux) rtol atol damp max_norm in
    exists k, (k <= S K)%nat /\
      forall fuel ms throw, (k < fuel)%nat -> (forall m, ms = Some m -> (k <= m)%nat) ->
        exists sol, iterative_solve vallfinite s fn fuel ms throw y0 fs auxs = Ret sol /\ result sol = successful.
Proof. exact C88_terminates_pf. Qed.
Print Assumptions C88_terminates.

(** What a success means on doubles: the returned point is finite, in the box, and its distance to a fixed point x of G is
    at most (Q tol + err) / (1 - Q), tol being the requested tolerance up to a relative 2^-50 and an absolute 2^-1074. *)
Theorem C88_success :
  forall (Aux : Type) (rtol atol damp : f64) (fn : list f64 -> list f64 * Aux) (y0 : list f64) fs auxs
         (n : nat) (B B' eps q : R) (G : list R -> list R) fuel ms throw sol (x : list R),
    let inside x := length x = n /\ Rmax_norm x <= B in
    let finite y := Forall (fun x : f64 => is_finite x = true) y in
    let rho := bpow radix2 (-50) * B + bpow radix2 (-1073) in
    let d := B2R damp in
    is_finite damp = true -> 0 <= d < 1 -> 0 <= eps -> 0 <= B <= bpow radix2 1022 ->
    d * B + (1 - d) * (B' + eps) + rho <= B ->
    (forall y, finite y -> inside (map B2R y) ->
       length (fst (fn y)) = n /\ finite (fst (fn y)) /\ Rdist_inf (map B2R (fst (fn y))) (G (map B2R y)) <= eps) ->
    (forall x, inside x -> length (G x) = n /\ Rmax_norm (G x) <= B') -> 0 <= q < 1 ->
    (forall x x', inside x -> inside x' -> Rdist_inf (G x) (G x') <= q * Rdist_inf x x') ->
    finite y0 -> inside (map B2R y0) ->
    is_finite rtol = true -> is_finite atol = true -> 0 <= B2R rtol <= 1 -> 0 < B2R atol <= bpow radix2 1022 ->
    inside x -> G x = x ->
    let s := fixed_point_iteration (N:=F64) (Aux:=Aux) rtol atol damp max_norm in
    iterative_solve vallfinite s fn fuel ms throw y0 fs auxs = Ret sol -> result sol = successful ->
    let v := map B2R (value sol : list f64) in
    let err := (1 - d) * eps + rho in
    let Q := d + (1 - d) * q in
    let tol := (1 + bpow radix2 (-50)) * (B2R atol + B2R rtol * Rmax_norm v) + bpow radix2 (-1074) in
    finite (value sol) /\ inside v /\ Rdist_inf v x <= (Q * tol + err) / (1 - Q).
Proof. exact C88_success_pf. Qed.
Print Assumptions C88_success.

(** x / 2 + 1 in two unknowns with damping 1/4, from (0, 1): the fixed point is (2, 2). *)
Example C88_terminates_ex : forall fs auxs,
  exists k, (k <= 28)%nat /\
    forall fuel ms throw, (k < fuel)%nat -> (forall m, ms = Some m -> (k <= m)%nat) ->
      exists sol, iterative_solve vallfinite
          (fixed_point_iteration (N:=F64) (f64_ofQ 0) (f64_ofQ (1#1024)) (f64_ofQ (1#4)) max_norm)
          (fun y => (map (fun x => fadd (fmul (f64_ofQ (1#2)) x) (f64_ofQ 1)) y, tt))
          fuel ms throw [f64_ofQ 0; f64_ofQ 1] fs auxs = Ret sol /\
        result sol = successful.
Proof. exact C88_terminates_ex_pf. Qed.

Example C88_iterates_ex : forall k,
  let s := fixed_point_iteration (N:=F64) (f64_ofQ 0) (f64_ofQ (1#1024)) (f64_ofQ (1#4)) max_norm in
  let y : list f64 := y_at s (fun y => (map (fun x => fadd (fmul (f64_ofQ (1#2)) x) (f64_ofQ 1)) y, tt)) [f64_ofQ 0; f64_ofQ 1] ninf tt k in
  Forall (fun x : f64 => is_finite x = true) y /\ length (map B2R y) = 2%nat /\ Rmax_norm (map B2R y) <= 8.
Proof. exact C88_iterates_ex_pf. Qed.

Example C88_success_ex : forall fs auxs, exists fuel sol,
  iterative_solve vallfinite
    (fixed_point_iteration (N:=F64) (f64_ofQ 0) (f64_ofQ (1#1024)) (f64_ofQ (1#4)) max_norm)
    (fun y => (map (fun x => fadd (fmul (f64_ofQ (1#2)) x) (f64_ofQ 1)) y, tt))
    fuel None true [f64_ofQ 0; f64_ofQ 1] fs auxs = Ret sol /\
  result sol = successful /\ Rdist_inf (map B2R (value sol : list f64)) [2; 2] <= / 500.
Proof. exact C88_success_ex_pf. Qed.
