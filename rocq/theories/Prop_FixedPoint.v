(** Property theorems: FixedPoint.
    Statements only; each is closed by the lemma of the same name (suffix _pf)
    in the proof file.  [Example]s show concrete cases meeting the hypotheses. *)

From Coq Require Import String List Bool Arith Lia ZArith QArith Qreals Reals Lra Psatz.
From Verif Require Import Num NumFacts NumDiv Vec Results Iterate Spec_Iterate Iterate_proofs.
From Verif Require Import Spec_Vec VecFacts FixedPoint NumF64 NumF64_facts.
Import ListNotations.
Local Open Scope nat_scope.
From Verif Require Import FixedPoint_proofs.

(** Success certificate, in any arithmetic (exact extended reals or IEEE
    binary64): the returned value is the damped update of the last evaluated
    iterate y, and the computed difference between the two is below the
    computed tolerance in every component. *)
Theorem C25_certificate :
  forall (N : Num) (L : OrdLaws N) (D : DivLaws N) (Aux : Type) (allfinite : list N -> bool)
         (rtol atol damp : N) (fn : list N -> list N * Aux) y0 fs auxs fuel ms throw sol,
    let s := fixed_point_iteration rtol atol damp max_norm in
    iterative_solve allfinite s fn fuel ms throw y0 fs auxs = Ret sol ->
    result sol = successful ->
    exists y, (exists k, y = y_at s fn y0 ninf (auxs fill0) k) /\
      allfinite y = true /\ aux sol = snd (fn y) /\
      length (value sol) = Nat.min (length (fst (fn y))) (length y) /\
      forall i v, nth_error (value sol) i = Some v ->
        exists yi fi, nth_error y i = Some yi /\ nth_error (fst (fn y)) i = Some fi /\
          v = ((lit 1 - damp) * fi + damp * yi)%num /\
          (nabs (yi - v) <? nabs (atol + rtol * nabs v))%num = true.
Proof. exact C25_certificate_pf. Qed.
Print Assumptions C25_certificate.

(** In exact arithmetic, with finiteness checked as in the driver: a
    successful value is finite and close to the finite point it came from;
    without damping it equals fn at that point, so fn moves that point by less
    than the tolerance. *)
Theorem C25_exact :
  forall (Aux : Type) (rtol atol damp : R) (fn : list xr -> list xr * Aux) y0 fs auxs fuel ms throw sol,
    (0 < atol)%R -> (0 <= rtol)%R ->
    let s := fixed_point_iteration (N:=XR) (Fin rtol) (Fin atol) (Fin damp) max_norm in
    iterative_solve vallfinite s fn fuel ms throw y0 fs auxs = Ret sol ->
    result sol = successful ->
    exists (y v : list R),
      (exists k, y_at s fn y0 PInf (auxs fill0) k = map Fin y) /\
      value sol = map Fin v /\
      forall i vi, nth_error v i = Some vi ->
        exists yi, nth_error y i = Some yi /\
          (Rabs (yi - vi) < atol + rtol * Rabs vi)%R /\
          (damp = 0%R -> nth_error (fst (fn (map Fin y))) i = Some (Fin vi)).
Proof. exact C25_exact_pf. Qed.
Print Assumptions C25_exact.

(** For a contraction in the maximum norm the iteration terminates
    successfully from every starting point, and what it returns is near every
    fixed point. *)
Theorem C26_contraction_converges :
  forall (n : nat) (q : R) (f : list R -> list R) (rtol atol damp : R) (y0 : list R) fs auxs,
    contraction n q f -> length y0 = n ->
    (0 < atol)%R -> (0 <= rtol)%R -> (0 <= damp < 1)%R ->
    let s := fixed_point_iteration (N:=XR) (Fin rtol) (Fin atol) (Fin damp) max_norm in
    exists k, forall fuel ms throw, k < fuel -> (forall m, ms = Some m -> k <= m) ->
      exists sol,
        iterative_solve vallfinite s (liftv f) fuel ms throw (map Fin y0) fs auxs = Ret sol /\
        result sol = successful.
Proof. exact C26_contraction_converges_pf. Qed.
Print Assumptions C26_contraction_converges.

Theorem C26_value_near_fixed_point :
  forall (n : nat) (q : R) (f : list R -> list R) (rtol atol damp : R) (y0 x : list R) fs auxs
         fuel ms throw sol,
    contraction n q f -> length y0 = n -> length x = n -> f x = x ->
    (0 < atol)%R -> (0 <= rtol)%R -> (0 <= damp < 1)%R ->
    let s := fixed_point_iteration (N:=XR) (Fin rtol) (Fin atol) (Fin damp) max_norm in
    iterative_solve vallfinite s (liftv f) fuel ms throw (map Fin y0) fs auxs = Ret sol ->
    result sol = successful ->
    let q' := (damp + (1 - damp) * q)%R in
    exists v, value sol = map Fin v /\ length v = n /\
      (Rdist_inf v x <= q' / (1 - q') * (atol + rtol * Rmax_norm v))%R.
Proof. exact C26_value_near_fixed_point_pf. Qed.
Print Assumptions C26_value_near_fixed_point.

(** A caveat: with damp = 1 every finite starting point "converges" at the
    first step, whatever the function. *)
Theorem C25_full_damping_vacuous :
  forall (n : nat) (f : list R -> list R) (rtol atol : R) (y0 : list R) fs auxs fuel ms throw,
    (forall x, length x = n -> length (f x) = n) -> length y0 = n ->
    (0 < atol)%R -> (0 <= rtol)%R -> 2 <= fuel -> ms <> Some 0 ->
    let s := fixed_point_iteration (N:=XR) (Fin rtol) (Fin atol) (Fin 1) max_norm in
    exists sol, iterative_solve vallfinite s (liftv f) fuel ms throw (map Fin y0) fs auxs = Ret sol /\
      result sol = successful /\ value sol = map Fin y0.
Proof. exact C25_full_damping_vacuous_pf. Qed.
Print Assumptions C25_full_damping_vacuous.

(** Example of a contraction in two dimensions: (x, y) -> (y/2 + 1, x/3),
    with q = 1/2 and fixed point (6/5, 2/5); and a run in binary64. *)
Example C26_contraction_ex :
  let f := fun v => match v with [x; y] => [y / 2 + 1; x / 3]%R | _ => [0; 0]%R end in
  contraction 2 (1/2) f /\ f [6/5; 2/5]%R = [6/5; 2/5]%R.
Proof. exact C26_contraction_ex_pf. Qed.

Example C25_certificate_ex :
  exists sol,
    iterative_solve vallfinite
      (fixed_point_iteration (N:=F64) (f64_ofQ (1#1000)) (f64_ofQ (1#1000)) (f64_ofQ (1#4)) max_norm)
      fp_ex_fn 60 (Some 50) true [f64_ofZ 9; f64_ofZ (-7)] (fun _ => []) (fun _ => tt) = Ret sol /\
    results_eqb (result sol) successful &&
    match value sol with
    | [x; y] => nltb (n:=F64) (f64_ofQ (119#100)) x && nltb (n:=F64) x (f64_ofQ (121#100)) &&
                nltb (n:=F64) (f64_ofQ (39#100)) y && nltb (n:=F64) y (f64_ofQ (41#100))
    | _ => false
    end = true.
Proof. exact C25_certificate_ex_pf. Qed.

(** A successful value of fixed-point iteration is finite (exact
    arithmetic). *)
Theorem C04_fixed_point_success_finite :
  forall (Aux : Type) (rtol atol damp : R) (fn : list xr -> list xr * Aux) y0 fs auxs fuel ms throw sol,
    (0 < atol)%R -> (0 <= rtol)%R ->
    iterative_solve vallfinite (fixed_point_iteration (N:=XR) (Fin rtol) (Fin atol) (Fin damp) max_norm)
      fn fuel ms throw y0 fs auxs = Ret sol ->
    result sol = successful -> exists v : list R, value sol = map Fin v.
Proof. exact C04_fixed_point_success_finite_pf. Qed.
Print Assumptions C04_fixed_point_success_finite.
