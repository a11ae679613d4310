(** Property theorems: Tolerance.
    Statements only; each is closed by the lemma of the same name (suffix _pf)
    in the proof file.  [Example]s show concrete cases meeting the hypotheses. *)

From Coq Require Import List Bool Arith Lia ZArith String QArith Reals.
From Verif Require Import Num NumFacts NumF64 NumF64_facts F64Facts F64Mono Vec Results Iterate Spec_Iterate Iterate_proofs.
From Verif Require Import FixedPoint Bisection Golden NewtonChord Search Descent Minimisers Optax NelderMead BestSoFar RootFind Spec_Tolerance.
Import ListNotations.
Local Open Scope nat_scope.
From Verif Require Import Tolerance_proofs.

(** Looser tolerances never make a solve longer, in double precision and for every solver of the library: if the
    solve with (rtol, atol) succeeds after k steps, then the solve with larger tolerances succeeds after k' <= k
    steps, and returns what the first solve returns when its budget is cut to k' steps. *)
Theorem C112_looser :
  forall (rtol atol rtol' atol' : f64) (Y Out Aux : Type) (s s' : Solver Y Out Aux),
    looser rtol atol rtol' atol' -> only_tolerances_differ rtol atol rtol' atol' Y Out Aux s s' ->
  forall allfinite fn fuel ms throw y0 fs auxs sol k,
    iterative_solve allfinite s fn fuel ms throw y0 fs auxs = Ret sol -> result sol = successful -> took sol k ->
    exists sol' k', iterative_solve allfinite s' fn fuel ms throw y0 fs auxs = Ret sol' /\ result sol' = successful /\ took sol' k' /\ k' <= k /\
      exists cut, iterative_solve allfinite s fn fuel (Some k') false y0 fs auxs = Ret cut /\ value cut = value sol' /\ aux cut = aux sol'.
Proof. exact C112_looser_pf. Qed.
Print Assumptions C112_looser.

(** Newton and Chord with cauchy_termination=False are the exception: on y^3 - 2 y^2 + 21 y from y0 = 3, Newton
    with atol = 1/64 and rtol = 0 finds the root 0 and reports success; with the looser rtol = 1 it reports
    divergence.  (The test compares two scaled step lengths, whose scales move with rtol.) *)
Theorem C112_newton_counterexample :
  exists (rtol atol rtol' : f64) resolution,
    looser rtol atol rtol' atol /\
    let s r := newton_chord (N:=F64) cubic64_jac divide64 (mkNcParams r atol (max_norm (N:=F64)) (f64_ofQ (1#100)) false true None None resolution) in
    (forall fuel throw, (3 < fuel)%nat -> exists sol, iterative_solve (vallfinite (N:=F64)) (s rtol) cubic64 fuel None throw [f64_ofQ 3]
       (fun _ => [f64_ofQ 0]) (fun _ => tt) = Ret sol /\ result sol = successful /\ took sol 3 /\ exists x, value sol = [x] /\ neqb (n:=F64) x (f64_ofQ 0) = true) /\
    (forall fuel, (3 < fuel)%nat -> exists sol, iterative_solve (vallfinite (N:=F64)) (s rtol') cubic64 fuel None false [f64_ofQ 3]
       (fun _ => [f64_ofQ 0]) (fun _ => tt) = Ret sol /\ result sol = nonlinear_divergence).
Proof. exact C112_newton_counterexample_pf. Qed.
Print Assumptions C112_newton_counterexample.

(** Fixed-point iteration of y/2 from 8: eight steps with atol = 1/16, three with atol = 2. *)
Example C112_looser_ex :
  let half y : list f64 * unit := (map (fmul (f64_ofQ (1#2))) y, tt) in
  let s a := fixed_point_iteration (N:=F64) (Aux:=unit) (f64_ofQ 0) a (f64_ofQ 0) (max_norm (N:=F64)) in
  looser (f64_ofQ 0) (f64_ofQ (1#16)) (f64_ofQ 0) (f64_ofQ 2) /\
  only_tolerances_differ (f64_ofQ 0) (f64_ofQ (1#16)) (f64_ofQ 0) (f64_ofQ 2) _ _ _ (s (f64_ofQ (1#16))) (s (f64_ofQ 2)) /\
  exists sol sol', iterative_solve (vallfinite (N:=F64)) (s (f64_ofQ (1#16))) half 10 None true [f64_ofQ 8] (fun _ => []) (fun _ => tt) = Ret sol /\
    iterative_solve (vallfinite (N:=F64)) (s (f64_ofQ 2)) half 10 None true [f64_ofQ 8] (fun _ => []) (fun _ => tt) = Ret sol' /\
    result sol = successful /\ result sol' = successful /\ took sol 8 /\ took sol' 3.
Proof. exact C112_looser_ex_pf. Qed.
