(** Property theorems: Inner.
    Statements only; each is closed by the lemma of the same name (suffix _pf)
    in the proof file.  [Example]s show concrete cases meeting the hypotheses. *)

From Coq Require Import String List Bool Arith Lia ZArith QArith Qreals Reals Lra Psatz.
From Coquelicot Require Import Coquelicot.
From Verif Require Import Num NumFacts Vec Results Iterate Spec_Iterate Iterate_proofs.
From Verif Require Import Spec_Vec VecFacts Spec_Lin LinFacts.
From Verif Require Import Search Spec_Search Descent Minimisers Solvers.
From Verif Require Import LeastSquares_proofs Dogleg_proofs Spec_Steps Steps_proofs Spec_Convergence Convergence_proofs DoglegConv_proofs Spec_IndirectConv IndirectConv_proofs LMLocal_proofs.
From Verif Require Import NewtonChord Spec_NewtonChord NewtonChord_proofs InnerRoot Spec_Inner.
Import ListNotations.
Local Open Scope nat_scope.
From Verif Require Import Inner_proofs.

(** The default root find of IndirectLevenbergMarquardt does what C82 asks of it: Newton's method from lambda = 1 with
    rtol = atol = 1/100, lower bound 1/100000 and at most 32 steps returns an allowed damping for which the step is within half
    the requested length, if every |J v|^2 is between sigma |v|^2 and B |v|^2, sigma >= 3/100 and
    B / rho + sigma < (4/3)^31 sigma. *)
Theorem C121_finds_damping :
  forall (sjac : (list xr -> list xr * unit) -> list xr -> R) slsolve lsolve (n m : nat) (r : list R -> list R) (J : list R -> linop RN) (eps rho sigma B : R),
    scalar_derivative sjac -> scalar_division slsolve ->
    exact_least_squares n lsolve -> residual_problem n m r J ->
    (3 / 100 <= sigma <= B)%R -> jac_bounded n B J -> jac_injective n sigma J ->
    (0 <= eps)%R -> (0 < rho)%R -> (eps * Rmax 1 (B / rho) < 1)%R -> (B / rho + sigma < (4 / 3) ^ 31 * sigma)%R ->
    finds_damping eps rho n r J (fun x => Rnorm (fst (lsolve (J x) (r x)))) (inner_damping sjac slsolve).
Proof. exact C121_finds_damping_pf. Qed.
Print Assumptions C121_finds_damping.

(** Badly scaled problems: the lower bound 1/100000 on the damping makes the step arbitrarily many times shorter than
    requested. *)
Theorem C121_too_short :
  forall sjac slsolve, scalar_derivative sjac -> scalar_division slsolve ->
  forall K : R, (0 < K)%R -> exists a newton h, (0 < newton)%R /\ compares_length 1 (times_op a) [(-1)%R] newton (1 / 2) h /\
    let requested := (1 / 2 * newton)%R in
    let found := (h (inner_damping sjac slsolve h) + requested)%R in
    (K * found < requested)%R.
Proof. exact C121_too_short_pf. Qed.
Print Assumptions C121_too_short.

(** The budget of 32 steps: on the residual z - 1 with a small enough trust region the step is arbitrarily many times longer
    than requested. *)
Theorem C121_too_long :
  forall sjac slsolve, scalar_derivative sjac -> scalar_division slsolve ->
  forall K : R, (0 < K)%R -> exists step newton h, (0 < step < 1)%R /\ (0 < newton)%R /\ compares_length 1 (times_op 1) [(-1)%R] newton step h /\
    let requested := (step * newton)%R in
    let found := (h (inner_damping sjac slsolve h) + requested)%R in
    (K * requested < found)%R.
Proof. exact C121_too_long_pf. Qed.
Print Assumptions C121_too_long.

(** The absolute tolerance 1/100: for the residual z/300 - 1/300000, whose Newton step has length 1/1000, and a trust region
    of 1/10000 of that length the root find stops after two steps with a step 2500 times longer than requested. *)
Theorem C121_stops_early :
  forall sjac slsolve, scalar_derivative sjac -> scalar_division slsolve ->
  exists h, compares_length 1 (times_op (1 / 300)) [(- (1 / 300000))%R] (1 / 1000) (1 / 10000) h /\
    let requested := (1 / 10000 * (1 / 1000))%R in
    let found := (h (inner_damping sjac slsolve h) + requested)%R in
    (2500 * requested < found)%R.
Proof. exact C121_stops_early_pf. Qed.
Print Assumptions C121_stops_early.

(** With these hypotheses IndirectLevenbergMarquardt with its default root find succeeds within 2 K + 2 + q steps, as in
    C82, whose hypothesis on the root finder is replaced by bounds on the Jacobian. *)
Theorem C121_terminates :
  forall (sjac : (list xr -> list xr * unit) -> list xr -> R) slsolve (Aux : Type) (rtol atol eps fmax : R) lsolve jac_of (fn : list R -> list R * Aux)
         (n m : nat) (L B sigma : R) (y0 : list R) fs auxs (q K : nat),
    let r x := fst (fn x) in let J := jac_of fn in
    scalar_derivative sjac -> scalar_division slsolve ->
    (0 <= eps)%R -> (0 < fmax)%R -> exact_least_squares n lsolve -> (forall A b, snd (lsolve A b) = successful) ->
    residual_problem n m r J -> (0 < L)%R -> smooth n L (half_squares r) (ls_gradient r J) ->
    (3 / 100 <= sigma <= B)%R -> jac_bounded n B J -> jac_injective n sigma J -> residual_lipschitz n B r ->
    length y0 = n -> (0 <= rtol)%R -> (0 < atol)%R ->
    let rho := (2 * sigma / (3 * (B + 50 * L / 99)) / 4)%R in
    (eps * Rmax 1 (B / rho) < 1)%R -> (B / rho + sigma < (4 / 3) ^ 31 * sigma)%R ->
    (1 <= 4 ^ q * rho)%R ->
    (half_squares r y0 < INR K * (rho * (sigma * sigma) / (600 * B) * Rmin (atol * atol) (atol * atol / B)))%R ->
    let s := IndirectLevenbergMarquardt (N:=RN) (mkTols rtol atol max_norm) jac_of lsolve eps fmax (inner_damping sjac slsolve) in
    exists k, k <= 2 * K + 2 + q /\
      forall fuel budget throw, k < fuel -> (forall j, budget = Some j -> k <= j) ->
        exists sol, iterative_solve (vallfinite (N:=RN)) s fn fuel budget throw y0 fs auxs = Ret sol /\
          result sol = successful /\ (half_squares r (value sol) <= half_squares r y0)%R /\
          hd_error (sol_stats sol) = Some ("num_steps"%string, Some (Z.of_nat k)).
Proof. exact C121_terminates_pf. Qed.
Print Assumptions C121_terminates.

(** The hyperbola of C71 and C82 (sigma = 1, B = 2, L = 2, rho = 33/596), with the actual root find. *)
Example C121_terminates_ex :
  let r x := fst (hyperbola x) in let J := hyperbola_jac hyperbola in
  scalar_derivative derive_jac /\ scalar_division divide /\
  finds_damping (1 / 100) (33 / 596) 1 r J (fun x => Rnorm (fst (lsolve1 (J x) (r x)))) (inner_damping derive_jac divide) /\
  let s := IndirectLevenbergMarquardt (N:=RN) (mkTols (N:=RN) (1/10)%R 1%R max_norm) hyperbola_jac lsolve1 (1/100)%R 1000%R (inner_damping derive_jac divide) in
  exists k, k <= 2 * Z.to_nat 200000 + 2 + 3 /\
    forall fuel budget throw, k < fuel -> (forall j, budget = Some j -> k <= j) ->
      exists sol, iterative_solve (vallfinite (N:=RN)) s hyperbola fuel budget throw [2%R] (fun _ => [0; 0]%R) (fun _ => tt) = Ret sol /\
        result sol = successful.
Proof. exact C121_terminates_ex_pf. Qed.
