(** Property theorems: Shift.
    Statements only; each is closed by the lemma of the same name (suffix _pf)
    in the proof file.  [Example]s show concrete cases meeting the hypotheses. *)

From Coq Require Import String List Bool Arith Lia ZArith QArith Reals Lra.
From Verif Require Import Num NumF64 NumFacts Vec Results Iterate Spec_Iterate.
From Verif Require Import Search Descent Minimisers QuasiNewton LinAlg LBFGS Solvers Spec_Combos Spec_Isometry Spec_Tolerance Spec_Shift Isometry_proofs Tolerance_proofs.
Import ListNotations.
Local Open Scope nat_scope.
From Verif Require Import Shift_proofs.

(** Adding a constant to the objective does not change what a gradient-based minimiser does: the iterates and the
    aux outputs are the same step by step, whatever the tolerances; and if rtol = 0 the whole solve is the same. *)
Theorem C117_shift :
  forall (Aux : Type) (P : ar_tols RN) grad_of (s : Solver (list R) R Aux) (c : R) (fn fn' : list R -> R * Aux),
    gradient_based P grad_of s ->
    (forall y, fn' y = ((fst (fn y) + c)%R, snd (fn y))) -> (forall y, grad_of fn' y = grad_of fn y) ->
  forall y0 fs auxs,
    (forall st0, s_init s fn y0 fs auxs = Ret st0 -> s_init s fn' y0 fs auxs = Ret st0 /\
       forall k, y_at s fn' y0 st0 (auxs fill0) k = y_at s fn y0 st0 (auxs fill0) k /\
                 aux_at s fn' y0 st0 (auxs fill0) k = aux_at s fn y0 st0 (auxs fill0) k) /\
    (ar_rtol P = 0%R -> forall fuel ms throw,
       same_solve (fun v => v) (iterative_solve (vallfinite (N:=RN)) s fn fuel ms throw y0 fs auxs)
                               (iterative_solve (vallfinite (N:=RN)) s fn' fuel ms throw y0 fs auxs)).
Proof. exact C117_shift_pf. Qed.
Print Assumptions C117_shift.

(** L-BFGS on (y - 1)^2 + (z + 2)^2 and on the same plus 1000, rtol = 0 *)
Example C117_shift_ex :
  let f (y : list R) := (((nth 0 y 0 - 1) ^ 2 + (nth 1 y 0 + 2) ^ 2)%R, tt) in
  let f' (y : list R) := (((nth 0 y 0 - 1) ^ 2 + (nth 1 y 0 + 2) ^ 2 + 1000)%R, tt) in
  let grad (_ : list R -> R * unit) (y : list R) := [(2 * (nth 0 y 0 - 1))%R; (2 * (nth 1 y 0 + 2))%R] in
  let P := mkTols (N:=RN) 0%R (1/1000)%R (max_norm (N:=RN)) in
  let s := LBFGS (N:=RN) P grad (fun _ b => (b, successful)) (1/1000000)%R 10 true in
  forall fuel ms throw, same_solve (fun v => v)
    (iterative_solve (vallfinite (N:=RN)) s f fuel ms throw [5; 7]%R (fun _ => 0%R) (fun _ => tt))
    (iterative_solve (vallfinite (N:=RN)) s f' fuel ms throw [5; 7]%R (fun _ => 0%R) (fun _ => tt)).
Proof. exact C117_shift_ex_pf. Qed.

(** With rtol > 0 the constant decides where the solve stops: gradient descent on 128 x^2 from 1 with
    rtol = 1/2 and atol = 1 stops at 1/32, on 128 x^2 + 1024 already at 1/2 (no rounding occurs in either run). *)
Theorem C117_relative_tolerance :
  let P := mkTols (N:=F64) (f64_ofQ (1#2)) (f64_ofQ 1) (max_norm (N:=F64)) in
  let s := GradientDescent (N:=F64) P (lifted64_grad 128) (f64_ofQ (1#512)) in
  let solve c fuel throw := iterative_solve (vallfinite (N:=F64)) s (lifted64 128 c) fuel None throw [f64_ofQ 1] (fun _ => f64_ofQ 0) (fun _ => tt) in
  forall fuel throw, (6 < fuel)%nat ->
  (exists sol, solve 0%Q fuel throw = Ret sol /\ result sol = successful /\ took sol 6 /\ exists x, value sol = [x] /\ neqb (n:=F64) x (f64_ofQ (1#32)) = true) /\
  (exists sol, solve 1024%Q fuel throw = Ret sol /\ result sol = successful /\ took sol 2 /\ exists x, value sol = [x] /\ neqb (n:=F64) x (f64_ofQ (1#2)) = true).
Proof. exact C117_relative_tolerance_pf. Qed.
Print Assumptions C117_relative_tolerance.

(** In double precision a large constant hides the decrease even with rtol = 0: nonlinear CG with the default search
    finds the minimum 0 of x^2/2 from 1, but on x^2/2 + 2^60 it rejects 54 trial points, tries the point where it
    is, and reports success at 1. *)
Theorem C117_rounding :
  let P := mkTols (N:=F64) (f64_ofQ 0) (f64_ofQ (1#1000)) (max_norm (N:=F64)) in
  let s := NonlinearCG (N:=F64) P (lifted64_grad (1#2)) (polak_ribiere (N:=F64) (f64_ofQ (1#4503599627370496))) armijo_default in
  let solve c fuel throw := iterative_solve (vallfinite (N:=F64)) s (lifted64 (1#2) c) fuel None throw [f64_ofQ 1] (fun _ => f64_ofQ 0) (fun _ => tt) in
  forall fuel throw, (60 < fuel)%nat ->
  (exists sol, solve 0%Q fuel throw = Ret sol /\ result sol = successful /\ took sol 3 /\ exists x, value sol = [x] /\ neqb (n:=F64) x (f64_ofQ 0) = true) /\
  (exists sol, solve 1152921504606846976%Q fuel throw = Ret sol /\ result sol = successful /\ took sol 56 /\ exists x, value sol = [x] /\ neqb (n:=F64) x (f64_ofQ 1) = true).
Proof. exact C117_rounding_pf. Qed.
Print Assumptions C117_rounding.
