(** Property theorems: IndirectConv.
    Statements only; each is closed by the lemma of the same name (suffix _pf)
    in the proof file.  [Example]s show concrete cases meeting the hypotheses. *)

From Coq Require Import String List Bool Arith Lia ZArith QArith Qreals Reals Lra Psatz.
From Verif Require Import Num NumFacts Vec Results Iterate Spec_Iterate Iterate_proofs.
From Verif Require Import Spec_Vec VecFacts Spec_Lin LinFacts.
From Verif Require Import Search Spec_Search Descent Minimisers Solvers Minimisers_proofs.
From Verif Require Import TrustRegion_proofs LeastSquares_proofs Dogleg_proofs Spec_Steps Steps_proofs Spec_Convergence Convergence_proofs DoglegConv_proofs Spec_IndirectConv.
Import ListNotations.
Local Open Scope nat_scope.
From Verif Require Import IndirectConv_proofs.

(** Exact arithmetic; exact least-squares solves reporting success; 1/2 |r|^2 below its
    tangent parabolas of curvature L; sigma |v|^2 <= |J v|^2 <= B |v|^2 everywhere; and an
    inner root find that meets the requested step length up to a factor between 1/2 and 3/2
    for every radius from rho to 1.  Then IndirectLevenbergMarquardt accepts every trial
    made with a radius below w = 2 sigma / (3 (B + 50 L / 99)) (the requested length is
    radius times the length of the Newton step); hence the radius never falls below
    rho = w / 4; and of the first k steps at least (k - q) / 2 are accepted, where
    4^q rho >= 1. *)
Theorem C82_radius :
  forall (Aux : Type) (P : ar_tols RN) (eps fmax : R) lsolve rfind jac_of (fn : list R -> list R * Aux)
         (n m : nat) (L B sigma : R) (y0 : list R) fs auxs st0,
    let r x := fst (fn x) in let J := jac_of fn in
    (0 <= eps)%R -> (0 < fmax)%R -> exact_least_squares n lsolve -> (forall A b, snd (lsolve A b) = successful) ->
    residual_problem n m r J -> (0 < L)%R -> smooth n L (half_squares r) (ls_gradient r J) ->
    (0 < sigma <= B)%R -> jac_bounded n B J -> jac_injective n sigma J -> length y0 = n ->
    let w := (2 * sigma / (3 * (B + 50 * L / 99)))%R in
    let rho := (w / 4)%R in
    finds_damping eps rho n r J (fun x => Rnorm (fst (lsolve (J x) (r x)))) rfind ->
    let s := IndirectLevenbergMarquardt (N:=RN) P jac_of lsolve eps fmax rfind in
    s_init s fn y0 fs auxs = Ret st0 ->
    let y := y_at s fn y0 st0 (auxs fill0) in
    let st := st_at s fn y0 st0 (auxs fill0) in
    let radius k : R := gn_search_state (st k) in
    let accepted k : nat := gn_num_accepted_steps (st k) in
    (forall k, (radius (S k) < w)%R ->
       y (S (S k)) = gn_y_eval (st (S k)) /\ accepted (S (S k)) = S (accepted (S k))) /\
    (forall k, (rho <= radius (S k))%R) /\
    (forall q k, (1 <= 4 ^ q * rho)%R -> k <= 2 * accepted k + q).
Proof. exact C82_radius_pf. Qed.
Print Assumptions C82_radius.

(** The gradient J^T r becomes as small as one likes: if 1/2 |r(y0)|^2 <
    K rho tau / (600 B), then one of the first 2 K + 1 + q iterates has |J^T r|^2 < tau. *)
Theorem C82_gradient :
  forall (Aux : Type) (P : ar_tols RN) (eps fmax : R) lsolve rfind jac_of (fn : list R -> list R * Aux)
         (n m : nat) (L B sigma tau : R) (y0 : list R) fs auxs st0 (q K : nat),
    let r x := fst (fn x) in let J := jac_of fn in
    (0 <= eps)%R -> (0 < fmax)%R -> exact_least_squares n lsolve -> (forall A b, snd (lsolve A b) = successful) ->
    residual_problem n m r J -> (0 < L)%R -> smooth n L (half_squares r) (ls_gradient r J) ->
    (0 < sigma <= B)%R -> jac_bounded n B J -> jac_injective n sigma J -> length y0 = n ->
    let w := (2 * sigma / (3 * (B + 50 * L / 99)))%R in
    let rho := (w / 4)%R in
    finds_damping eps rho n r J (fun x => Rnorm (fst (lsolve (J x) (r x)))) rfind ->
    (0 < tau)%R -> (1 <= 4 ^ q * rho)%R ->
    (half_squares r y0 < INR K * (rho * tau / (600 * B)))%R ->
    let s := IndirectLevenbergMarquardt (N:=RN) P jac_of lsolve eps fmax rfind in
    s_init s fn y0 fs auxs = Ret st0 ->
    exists k, k <= 2 * K + 1 + q /\
      let x : list R := y_at s fn y0 st0 (auxs fill0) k in
      (Rdot (ls_gradient r J x) (ls_gradient r J x) < tau)%R.
Proof. exact C82_gradient_pf. Qed.
Print Assumptions C82_gradient.

(** If moreover the residuals are Lipschitz, |r(x+d) - r(x)|^2 <= B |d|^2, then
    IndirectLevenbergMarquardt succeeds within 2 K + 2 + q steps, where
    1/2 |r(y0)|^2 < K (rho sigma^2 / (600 B)) min (atol^2, atol^2 / B), at a point no worse
    than y0. *)
Theorem C82_terminates :
  forall (Aux : Type) (rtol atol eps fmax : R) lsolve rfind jac_of (fn : list R -> list R * Aux)
         (n m : nat) (L B sigma : R) (y0 : list R) fs auxs (q K : nat),
    let r x := fst (fn x) in let J := jac_of fn in
    (0 <= eps)%R -> (0 < fmax)%R -> exact_least_squares n lsolve -> (forall A b, snd (lsolve A b) = successful) ->
    residual_problem n m r J -> (0 < L)%R -> smooth n L (half_squares r) (ls_gradient r J) ->
    (0 < sigma <= B)%R -> jac_bounded n B J -> jac_injective n sigma J -> residual_lipschitz n B r ->
    length y0 = n -> (0 <= rtol)%R -> (0 < atol)%R ->
    let w := (2 * sigma / (3 * (B + 50 * L / 99)))%R in
    let rho := (w / 4)%R in
    finds_damping eps rho n r J (fun x => Rnorm (fst (lsolve (J x) (r x)))) rfind ->
    (1 <= 4 ^ q * rho)%R ->
    (half_squares r y0 < INR K * (rho * (sigma * sigma) / (600 * B) * Rmin (atol * atol) (atol * atol / B)))%R ->
    let s := IndirectLevenbergMarquardt (N:=RN) (mkTols rtol atol max_norm) jac_of lsolve eps fmax rfind in
    exists k, k <= 2 * K + 2 + q /\
      forall fuel budget throw, k < fuel -> (forall j, budget = Some j -> k <= j) ->
        exists sol, iterative_solve (vallfinite (N:=RN)) s fn fuel budget throw y0 fs auxs = Ret sol /\
          result sol = successful /\ (half_squares r (value sol) <= half_squares r y0)%R /\
          hd_error (sol_stats sol) = Some ("num_steps"%string, Some (Z.of_nat k)).
Proof. exact C82_terminates_pf. Qed.
Print Assumptions C82_terminates.

(** The hyperbola of C71 (L = 2, B = 2, sigma = 1, so w = 33/149 and rho = 33/596) from x = 2,
    with a root finder that solves the inner problem exactly. *)
Example C82_terminates_ex :
  let r x := fst (hyperbola x) in let J := hyperbola_jac hyperbola in
  residual_problem 1 2 r J /\ smooth 1 2 (half_squares r) (ls_gradient r J) /\
  jac_bounded 1 2 J /\ residual_lipschitz 1 2 r /\ jac_injective 1 1 J /\
  finds_damping (1 / 100) (33 / 596) 1 r J (fun x => Rnorm (fst (lsolve1 (J x) (r x)))) rational_root /\
  let s := IndirectLevenbergMarquardt (N:=RN) (mkTols (N:=RN) (1/10)%R 1%R max_norm) hyperbola_jac lsolve1 (1/100)%R 1000%R rational_root in
  exists k, k <= 2 * Z.to_nat 200000 + 2 + 3 /\
    forall fuel budget throw, k < fuel -> (forall j, budget = Some j -> k <= j) ->
      exists sol, iterative_solve (vallfinite (N:=RN)) s hyperbola fuel budget throw [2%R] (fun _ => [0; 0]%R) (fun _ => tt) = Ret sol /\
        result sol = successful.
Proof. exact C82_terminates_ex_pf. Qed.
