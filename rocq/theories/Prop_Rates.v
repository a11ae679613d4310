(** Property theorems: Rates.
    Statements only; each is closed by the lemma of the same name (suffix _pf)
    in the proof file.  [Example]s show concrete cases meeting the hypotheses. *)

From Coq Require Import String List Bool Arith Lia ZArith QArith Qreals Reals Lra Psatz.
From Verif Require Import Num NumFacts Vec Results Iterate Spec_Iterate Iterate_proofs.
From Verif Require Import Spec_Vec VecFacts Spec_Lin LinFacts.
From Verif Require Import Search Spec_Search Descent Minimisers Solvers Minimisers_proofs.
From Verif Require Import TrustRegion_proofs LeastSquares_proofs Dogleg_proofs Spec_Steps Steps_proofs Spec_Convergence Convergence_proofs.
From Verif Require Import DoglegConv_proofs Spec_IndirectConv IndirectConv_proofs Spec_Rates.
Import ListNotations.
Local Open Scope nat_scope.
From Verif Require Import Rates_proofs.

(** GradientDescent, exact arithmetic, L-smooth objective satisfying
    2 mu (f - low) <= |g|^2, learning rate between 0 and 2/L: the excess f - low shrinks by
    the factor 1 - 2 mu rate (1 - L rate / 2) in every step after the first. *)
Theorem C83_gradient_descent :
  forall (Aux : Type) (n : nat) (L mu low : R) (f : list R -> R) (g : list R -> list R)
         (P : ar_tols RN) grad_of (rate : R) (fn : list R -> R * Aux) y0 fs auxs st0,
    smooth n L f g -> dominated n mu low f g -> (0 < mu <= L)%R -> (0 <= rate)%R -> (rate * L <= 2)%R ->
    (forall x, fst (fn x) = f x) -> (forall x, grad_of fn x = g x) -> length y0 = n ->
    let s := GradientDescent (N:=RN) P grad_of rate in
    s_init s fn y0 fs auxs = Ret st0 ->
    let y : nat -> list R := y_at s fn y0 st0 (auxs fill0) in
    let theta := (1 - 2 * mu * (rate * (1 - L * rate / 2)))%R in
    (0 <= theta <= 1)%R /\
    forall k, (f (y (S k)) - low <= theta ^ k * (f y0 - low))%R.
Proof. exact C83_gradient_descent_pf. Qed.
Print Assumptions C83_gradient_descent.

(** f(x) = x^2, mu = L = 2, rate 1/4: the factor is 1 - 4 / 4 * 3 / 4 = 1/4, so x^2 is at
    most 4^-k from x = 1. *)
Example C83_gradient_descent_ex :
  smooth 1 2 square1 square1_grad /\ dominated 1 2 0 square1 square1_grad /\
  forall P st0,
    let s := GradientDescent (N:=RN) (Aux:=unit) P (fun _ => square1_grad) (1/4)%R in
    s_init s (fun v => (square1 v, tt)) [1%R] (fun _ => 0%R) (fun _ => tt) = Ret st0 ->
    forall k, (square1 (y_at s (fun v => (square1 v, tt)) [1%R] st0 tt (S k)) <= (1/4) ^ k)%R.
Proof. exact C83_gradient_descent_ex_pf. Qed.

(** Steepest descent with BacktrackingArmijo under the same assumptions: the excess shrinks
    by 1 - 2 mu sl tmin, tmin = min (ini, 2 de (1 - sl) / L), in every q + 1 steps, where
    ini de^q L <= 2 (1 - sl). *)
Theorem C83_backtracking :
  forall (Aux : Type) (P : ar_tols RN) (de sl ini : R) grad_of (fn : list R -> R * Aux)
         (n : nat) (L mu low : R) (f : list R -> R) (g : list R -> list R) (y0 : list R) fs auxs st0 (q : nat),
    (0 < de < 1 /\ 0 < sl < 1 /\ 0 < ini)%R -> smooth n L f g -> dominated n mu low f g -> (0 < mu <= L)%R ->
    (forall x, fst (fn x) = f x) -> (forall x, grad_of fn x = g x) -> length y0 = n ->
    (ini * de ^ q * L <= 2 * (1 - sl))%R ->
    let s := gradient_descent_solver (N:=RN) P (armijo (N:=RN) de sl ini) (steepest_descent None) grad_of in
    s_init s fn y0 fs auxs = Ret st0 ->
    let y : nat -> list R := y_at s fn y0 st0 (auxs fill0) in
    let theta := (1 - 2 * mu * (sl * Rmin ini (2 * de * (1 - sl) / L)))%R in
    (0 <= theta < 1)%R /\
    forall k, (f (y (S (k * (q + 1)))) - low <= theta ^ k * (f y0 - low))%R.
Proof. exact C83_backtracking_pf. Qed.
Print Assumptions C83_backtracking.

(** f(x) = x^2 with mu = L = 2, decrease 1/2, slope 1/10, initial step 4, at most three
    consecutive rejections: tmin = 9/20 and theta = 41/50 for every four steps. *)
Example C83_backtracking_ex :
  smooth 1 2 square1 square1_grad /\ dominated 1 2 0 square1 square1_grad /\
  forall P st0,
    let s := gradient_descent_solver (N:=RN) (Aux:=unit) P (armijo (N:=RN) (1/2)%R (1/10)%R 4%R) (steepest_descent None) (fun _ => square1_grad) in
    s_init s (fun v => (square1 v, tt)) [1%R] (fun _ => 0%R) (fun _ => tt) = Ret st0 ->
    forall k, (square1 (y_at s (fun v => (square1 v, tt)) [1%R] st0 tt (S (k * 4))) <= (41/50) ^ k)%R.
Proof. exact C83_backtracking_ex_pf. Qed.

(** LevenbergMarquardt, exact arithmetic and least-squares solves, 1/2 |r|^2 smooth with
    |J v|^2 <= B |v|^2 and 2 mu (1/2 |r|^2 - low) <= |J^T r|^2: after 2 j + 2 + q steps the
    excess is at most theta^j times the first, theta = 1 - mu / (100 (B + 1/rho)); q and rho
    are those of C71. *)
Theorem C83_levenberg_marquardt :
  forall (Aux : Type) (P : ar_tols RN) (eps fmax : R) lsolve jac_of (fn : list R -> list R * Aux)
         (n m : nat) (L B mu low : R) (y0 : list R) fs auxs st0 (q : nat),
    let r x := fst (fn x) in let J := jac_of fn in
    (0 <= eps)%R -> (0 < fmax)%R -> exact_least_squares n lsolve ->
    residual_problem n m r J -> smooth n L (half_squares r) (ls_gradient r J) ->
    (0 <= B)%R -> jac_bounded n B J -> (0 < mu <= L)%R -> dominated n mu low (half_squares r) (ls_gradient r J) ->
    let rho := Rmin 1 (99 / (200 * L)) in
    (eps < rho)%R -> length y0 = n -> (1 <= 4 ^ q * rho)%R ->
    let s := LevenbergMarquardt (N:=RN) P jac_of lsolve eps fmax in
    s_init s fn y0 fs auxs = Ret st0 ->
    let theta := (1 - mu / (100 * (B + / rho)))%R in
    (0 <= theta < 1)%R /\
    forall j, (half_squares r (y_at s fn y0 st0 (auxs fill0) (2 * j + 2 + q)) - low <= theta ^ j * (half_squares r y0 - low))%R.
Proof. exact C83_levenberg_marquardt_pf. Qed.
Print Assumptions C83_levenberg_marquardt.

(** The same for IndirectLevenbergMarquardt under the assumptions of C82, with
    theta = 1 - mu rho / (300 B). *)
Theorem C83_indirect_levenberg_marquardt :
  forall (Aux : Type) (P : ar_tols RN) (eps fmax : R) lsolve rfind jac_of (fn : list R -> list R * Aux)
         (n m : nat) (L B sigma mu low : R) (y0 : list R) fs auxs st0 (q : nat),
    let r x := fst (fn x) in let J := jac_of fn in
    (0 <= eps)%R -> (0 < fmax)%R -> exact_least_squares n lsolve -> (forall A b, snd (lsolve A b) = successful) ->
    residual_problem n m r J -> smooth n L (half_squares r) (ls_gradient r J) ->
    (0 < sigma <= B)%R -> jac_bounded n B J -> jac_injective n sigma J -> length y0 = n ->
    (0 < mu <= L)%R -> dominated n mu low (half_squares r) (ls_gradient r J) ->
    let rho := (2 * sigma / (3 * (B + 50 * L / 99)) / 4)%R in
    finds_damping eps rho n r J (fun x => Rnorm (fst (lsolve (J x) (r x)))) rfind ->
    (1 <= 4 ^ q * rho)%R ->
    let s := IndirectLevenbergMarquardt (N:=RN) P jac_of lsolve eps fmax rfind in
    s_init s fn y0 fs auxs = Ret st0 ->
    let theta := (1 - mu * rho / (300 * B))%R in
    (0 <= theta < 1)%R /\
    forall j, (half_squares r (y_at s fn y0 st0 (auxs fill0) (2 * j + 2 + q)) - low <= theta ^ j * (half_squares r y0 - low))%R.
Proof. exact C83_indirect_levenberg_marquardt_pf. Qed.
Print Assumptions C83_indirect_levenberg_marquardt.

(** Dogleg under the assumptions of C77: the excess falls at the rate theta = 1 - mu rho /
    (100 B) until it is at most B^2 eps^2 / (2 mu), eps being the cut-off of the descent. *)
Theorem C83_dogleg :
  forall (Aux : Type) (P : ar_tols RN) (eps : R) lsolve jac_of (fn : list R -> list R * Aux)
         (n m : nat) (L B sigma mu low : R) (y0 : list R) fs auxs st0 (q : nat),
    let r x := fst (fn x) in let J := jac_of fn in
    (0 <= eps)%R -> exact_least_squares n lsolve ->
    residual_problem n m r J -> smooth n L (half_squares r) (ls_gradient r J) ->
    (0 < sigma <= B)%R -> jac_bounded n B J -> jac_injective n sigma J -> length y0 = n ->
    (0 < mu <= L)%R -> dominated n mu low (half_squares r) (ls_gradient r J) ->
    let w := Rmin (sigma / B) (99 * sigma / (50 * L)) in
    let rho := Rmin 1 (w / 4) in
    (1 <= 4 ^ q * rho)%R ->
    let s := Dogleg (N:=RN) P jac_of lsolve eps in
    s_init s fn y0 fs auxs = Ret st0 ->
    let theta := (1 - mu * rho / (100 * B))%R in
    (0 <= theta < 1)%R /\
    forall j, (half_squares r (y_at s fn y0 st0 (auxs fill0) (2 * j + 2 + q)) - low <=
               Rmax (theta ^ j * (half_squares r y0 - low)) (B * B * (eps * eps) / (2 * mu)))%R.
Proof. exact C83_dogleg_pf. Qed.
Print Assumptions C83_dogleg.

(** The hyperbola of C71 has 1/2 |r|^2 = x^2 + 1/2 and gradient 2 x, so mu = L = 2 and low =
    1/2: all three solvers bring x^2 down at their rate (4^2 * 1/8 >= 1 etc.). *)
Example C83_trust_region_ex :
  let r x := fst (hyperbola x) in let J := hyperbola_jac hyperbola in
  dominated 1 2 (1/2) (half_squares r) (ls_gradient r J) /\
  (forall P st0,
    let s := LevenbergMarquardt (N:=RN) P hyperbola_jac lsolve1 (1/100)%R 1000%R in
    s_init s hyperbola [2%R] (fun _ => [0; 0]%R) (fun _ => tt) = Ret st0 ->
    forall j, (half_squares r (y_at s hyperbola [2%R] st0 tt (2 * j + 2 + 2)) - 1/2 <= (1 - 2 / (100 * (2 + / (99 / 400)))) ^ j * 4)%R) /\
  (forall P st0,
    let s := IndirectLevenbergMarquardt (N:=RN) P hyperbola_jac lsolve1 (1/100)%R 1000%R rational_root in
    s_init s hyperbola [2%R] (fun _ => [0; 0]%R) (fun _ => tt) = Ret st0 ->
    forall j, (half_squares r (y_at s hyperbola [2%R] st0 tt (2 * j + 2 + 3)) - 1/2 <= (1 - 2 * (33 / 596) / (300 * 2)) ^ j * 4)%R) /\
  (forall P st0,
    let s := Dogleg (N:=RN) P hyperbola_jac lsolve1 (1/100)%R in
    s_init s hyperbola [2%R] (fun _ => [0; 0]%R) (fun _ => tt) = Ret st0 ->
    forall j, (half_squares r (y_at s hyperbola [2%R] st0 tt (2 * j + 2 + 2)) - 1/2 <=
               Rmax ((1 - 2 * (1 / 8) / (100 * 2)) ^ j * 4) (1 / 10000))%R).
Proof. exact C83_trust_region_ex_pf. Qed.
