(** Property theorems: SuccessTrust.
    Statements only; each is closed by the lemma of the same name (suffix _pf)
    in the proof file.  [Example]s show concrete cases meeting the hypotheses. *)

From Coq Require Import String List Bool Arith Lia ZArith QArith Qreals Reals Lra Psatz.
From Verif Require Import Num NumFacts Vec Results Iterate Spec_Iterate Iterate_proofs FixedPoint_proofs.
From Verif Require Import Spec_Vec VecFacts Spec_Lin LinFacts.
From Verif Require Import Search Spec_Search Descent Minimisers Solvers Minimisers_proofs.
From Verif Require Import TrustRegion_proofs LeastSquares_proofs Dogleg_proofs Spec_Steps Steps_proofs Spec_Convergence Convergence_proofs.
From Verif Require Import Certificate_proofs Spec_Rates Rates_proofs Spec_Success Success_proofs.
From Verif Require Import DoglegConv_proofs Spec_IndirectConv IndirectConv_proofs.
Import ListNotations.
Local Open Scope nat_scope.
From Verif Require Import SuccessTrust_proofs.

(** [Dogleg] over the reals, with the max norm for the tolerances and the two norm for the
    dogleg path, in the setting of C77 (exact linear solves, Jacobians with
    sigma |v|^2 <= |J v|^2 <= B |v|^2, an L-Lipschitz gradient). If it reports success then
    either the first step already met the tolerances against the zero fill of the state (and
    every residual at y0 is at most atol/(1 - rtol)), or the returned value is no worse than
    a point x where |J^T r|^2 <= max ((2B/rho)^2 |tol|^2, (B eps)^2), tol_i = atol + rtol |y_i|
    at the returned value. *)
Theorem C96_dogleg :
  forall (Aux : Type) (rtol atol eps : R) lsolve jac_of (fn : list R -> list R * Aux)
         (n m : nat) (L B sigma : R) (y0 : list R) fs auxs allfinite fuel budget throw sol,
    let r x := fst (fn x) in let J := jac_of fn in
    (0 <= rtol)%R -> (0 < atol)%R -> (0 <= eps)%R -> exact_least_squares n lsolve ->
    residual_problem n m r J -> (0 < L)%R -> smooth n L (half_squares r) (ls_gradient r J) ->
    (0 < sigma <= B)%R -> jac_bounded n B J -> jac_injective n sigma J -> length y0 = n -> fs fill0 = zerov m ->
    let rho := (Rmin (sigma / B) (99 * sigma / (50 * L)) / 4)%R in
    let s := Dogleg (N:=RN) (mkTols rtol atol max_norm) jac_of lsolve eps in
    iterative_solve allfinite s fn fuel budget throw y0 fs auxs = Ret sol -> result sol = successful ->
    (value sol = y0 /\ forall i a, nth_error (r y0) i = Some a -> ((1 - rtol) * Rabs a < atol)%R) \/
    exists x : list R, length x = n /\ (half_squares r (value sol) <= half_squares r x)%R /\
      let g := ls_gradient r J x in let tol := tolerances rtol atol (value sol) in
      (Rdot g g <= Rmax (4 * (B * B) / (rho * rho) * Rdot tol tol) (B * B * (eps * eps)))%R.
Proof. exact C96_dogleg_pf. Qed.
Print Assumptions C96_dogleg.

(** The same for [IndirectLevenbergMarquardt], in the setting of C82 (whose root finder
    meets the damping equation up to half its right-hand side). *)
Theorem C96_indirect_levenberg_marquardt :
  forall (Aux : Type) (rtol atol eps fmax : R) lsolve rfind jac_of (fn : list R -> list R * Aux)
         (n m : nat) (L B sigma : R) (y0 : list R) fs auxs allfinite fuel budget throw sol,
    let r x := fst (fn x) in let J := jac_of fn in
    (0 <= rtol)%R -> (0 < atol)%R -> (0 <= eps)%R -> (0 < fmax)%R ->
    exact_least_squares n lsolve -> (forall A b, snd (lsolve A b) = successful) ->
    residual_problem n m r J -> (0 < L)%R -> smooth n L (half_squares r) (ls_gradient r J) ->
    (0 < sigma <= B)%R -> jac_bounded n B J -> jac_injective n sigma J -> length y0 = n -> fs fill0 = zerov m ->
    let rho := (2 * sigma / (3 * (B + 50 * L / 99)) / 4)%R in
    finds_damping eps rho n r J (fun x => Rnorm (fst (lsolve (J x) (r x)))) rfind ->
    let s := IndirectLevenbergMarquardt (N:=RN) (mkTols rtol atol max_norm) jac_of lsolve eps fmax rfind in
    iterative_solve allfinite s fn fuel budget throw y0 fs auxs = Ret sol -> result sol = successful ->
    (value sol = y0 /\ forall i a, nth_error (r y0) i = Some a -> ((1 - rtol) * Rabs a < atol)%R) \/
    exists x : list R, length x = n /\ (half_squares r (value sol) <= half_squares r x)%R /\
      let g := ls_gradient r J x in let tol := tolerances rtol atol (value sol) in
      (Rdot g g <= 36 * (B * B) / (rho * rho) * Rdot tol tol)%R.
Proof. exact C96_indirect_levenberg_marquardt_pf. Qed.
Print Assumptions C96_indirect_levenberg_marquardt.

(** The hyperbola of C77 (1/2 |r|^2 = x^2 + 1/2, L = B = 2, sigma = 1, rho = 1/8), tolerances
    1/10 and 1, from x = 2. *)
Example C96_dogleg_ex :
  let r x := fst (hyperbola x) in let J := hyperbola_jac hyperbola in
  let s := Dogleg (N:=RN) (mkTols (N:=RN) (1/10)%R 1%R max_norm) hyperbola_jac lsolve1 (1/100)%R in
  exists fuel sol, iterative_solve (vallfinite (N:=RN)) s hyperbola fuel None true [2%R] (fun _ => [0; 0]%R) (fun _ => tt) = Ret sol /\
    result sol = successful /\
    ((value sol = [2%R] /\ forall i a, nth_error (r [2%R]) i = Some a -> ((1 - 1/10) * Rabs a < 1)%R) \/
     exists x : list R, length x = 1 /\ (half_squares r (value sol) <= half_squares r x)%R /\
       let g := ls_gradient r J x in let tol := tolerances (1/10) 1 (value sol) in
       (Rdot g g <= Rmax (1024 * Rdot tol tol) (4 / 10000))%R).
Proof. exact C96_dogleg_ex_pf. Qed.

(** The same for IndirectLevenbergMarquardt, with the root finder of C82 (rho = 33/596). *)
Example C96_indirect_levenberg_marquardt_ex :
  let r x := fst (hyperbola x) in let J := hyperbola_jac hyperbola in
  let s := IndirectLevenbergMarquardt (N:=RN) (mkTols (N:=RN) (1/10)%R 1%R max_norm) hyperbola_jac lsolve1 (1/100)%R 1000%R rational_root in
  exists fuel sol, iterative_solve (vallfinite (N:=RN)) s hyperbola fuel None true [2%R] (fun _ => [0; 0]%R) (fun _ => tt) = Ret sol /\
    result sol = successful /\
    ((value sol = [2%R] /\ forall i a, nth_error (r [2%R]) i = Some a -> ((1 - 1/10) * Rabs a < 1)%R) \/
     exists x : list R, length x = 1 /\ (half_squares r (value sol) <= half_squares r x)%R /\
       let g := ls_gradient r J x in let tol := tolerances (1/10) 1 (value sol) in
       (Rdot g g <= 144 / (33 / 596 * (33 / 596)) * Rdot tol tol)%R).
Proof. exact C96_indirect_levenberg_marquardt_ex_pf. Qed.
