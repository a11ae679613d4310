(** Property theorems: LBFGSConv.
    Statements only; each is closed by the lemma of the same name (suffix _pf)
    in the proof file.  [Example]s show concrete cases meeting the hypotheses. *)

From Coq Require Import String List Bool Arith Lia ZArith QArith Qreals Reals Lra Psatz.
From Verif Require Import Num NumFacts Vec Results Iterate Spec_Iterate Iterate_proofs.
From Verif Require Import Spec_Vec VecFacts Spec_Lin LinFacts.
From Verif Require Import Search Spec_Search Descent Minimisers QuasiNewton Solvers Minimisers_proofs Progress_proofs TrustRegion_proofs LeastSquares_proofs BFGS_proofs.
From Verif Require Import LinAlg LBFGS Spec_LBFGS LBFGSFacts LBFGS_proofs Cholesky.
From Verif Require Import Spec_Steps Steps_proofs Spec_BFGSConv Spec_LBFGSConv Convergence_proofs BFGSConv_proofs.
Import ListNotations.
Local Open Scope R_scope.
From Verif Require Import LBFGSConv_proofs.

(** L-BFGS converges globally and linearly, with explicit constants: if f is L-smooth and
    mu-strongly convex, then every q+1 consecutive steps, 2^q >= (5/9) L inverse_bound, shrink
    f - min f at least by [accepted_factor] < 1, which depends only on mu, L and the history
    length: neither on the number of unknowns nor on y0 nor on how far the run has got. *)
Theorem C85_rate :
  forall (Aux : Type) (P : ar_tols RN) (mu L eps : R) (M q : nat) lsolve grad_of (fn : list R -> R * Aux) (n : nat)
         (f : list R -> R) (g : list R -> list R) (y0 xs : list R) fs auxs (use_inverse : bool) st0,
    0 < mu <= L -> (0 < M)%nat -> 0 <= eps -> L * inverse_bound M mu L <= 9 / 5 * 2 ^ q ->
    smooth n L f g -> strongly_convex n mu f g ->
    (forall x, fst (fn x) = f x) -> (forall x, grad_of fn x = g x) -> exact_solve_op n lsolve ->
    length y0 = n -> length xs = n -> (forall x, length x = n -> f xs <= f x) ->
    let s := LBFGS (N:=RN) P grad_of lsolve eps M use_inverse in
    s_init s fn y0 fs auxs = Ret st0 ->
    let y : nat -> list R := y_at s fn y0 st0 (auxs fill0) in
    0 <= accepted_factor M mu L < 1 /\
    forall k, f (y (S (k * (q + 1)))) - f xs <= accepted_factor M mu L ^ k * (f y0 - f xs).
Proof. exact C85_rate_pf. Qed.
Print Assumptions C85_rate.

(** The iterates converge: f(y_k) comes within every tau > 0 of the minimum and stays there, and so
    does y_k within every tau of the minimiser; f never increases after the first step. *)
Theorem C85_converges :
  forall (Aux : Type) (P : ar_tols RN) (mu L eps : R) (M : nat) lsolve grad_of (fn : list R -> R * Aux) (n : nat)
         (f : list R -> R) (g : list R -> list R) (y0 xs : list R) fs auxs (use_inverse : bool) st0,
    0 < mu <= L -> (0 < M)%nat -> 0 <= eps ->
    smooth n L f g -> strongly_convex n mu f g ->
    (forall x, fst (fn x) = f x) -> (forall x, grad_of fn x = g x) -> exact_solve_op n lsolve ->
    length y0 = n -> length xs = n -> (forall x, length x = n -> f xs <= f x) ->
    let s := LBFGS (N:=RN) P grad_of lsolve eps M use_inverse in
    s_init s fn y0 fs auxs = Ret st0 ->
    let y : nat -> list R := y_at s fn y0 st0 (auxs fill0) in
    y 1%nat = y0 /\ (forall k, f (y (S (S k))) <= f (y (S k))) /\
    forall tau, 0 < tau -> exists K, forall k, (K <= k)%nat ->
      f (y k) - f xs <= tau /\ Rdot (Rsub_v (y k) xs) (Rsub_v (y k) xs) <= tau.
Proof. exact C85_converges_pf. Qed.
Print Assumptions C85_converges.

(** With the default termination (max_norm, atol > 0, rtol >= 0) L-BFGS stops within
    (K+1)(q+1)+1 steps, K any number with accepted_factor^K (f y0 - min f) below
    min(atol, atol^2 / (10 inverse_bound)), reports success and returns a point no worse than y0. *)
Theorem C85_terminates :
  forall (Aux : Type) (rtol atol mu L eps : R) (M q K : nat) lsolve grad_of (fn : list R -> R * Aux) (n : nat)
         (f : list R -> R) (g : list R -> list R) (y0 xs : list R) fs auxs (use_inverse : bool),
    0 < mu <= L -> (0 < M)%nat -> 0 <= eps -> 0 < atol -> 0 <= rtol ->
    L * inverse_bound M mu L <= 9 / 5 * 2 ^ q ->
    accepted_factor M mu L ^ K * (f y0 - f xs) < Rmin atol (atol * atol / (10 * inverse_bound M mu L)) ->
    smooth n L f g -> strongly_convex n mu f g ->
    (forall x, fst (fn x) = f x) -> (forall x, grad_of fn x = g x) -> exact_solve_op n lsolve ->
    length y0 = n -> length xs = n -> (forall x, length x = n -> f xs <= f x) ->
    let s := LBFGS (N:=RN) (mkTols rtol atol max_norm) grad_of lsolve eps M use_inverse in
    exists k, (k <= (K + 1) * (q + 1) + 1)%nat /\
    forall fuel budget throw, (k < fuel)%nat -> (forall m, budget = Some m -> (k <= m)%nat) ->
      exists sol, iterative_solve (vallfinite (N:=RN)) s fn fuel budget throw y0 fs auxs = Ret sol /\
        result sol = successful /\ f (value sol) <= f y0 /\
        hd_error (sol_stats sol) = Some ("num_steps"%string, Some (Z.of_nat k)).
Proof. exact C85_terminates_pf. Qed.
Print Assumptions C85_terminates.

Example C85_rate_ex :
  smooth 2 3 quad2 quad2_grad /\ strongly_convex 2 1 quad2 quad2_grad /\ exact_solve_op 2 cholesky_solve /\
  forall P use_inverse st0,
    let s := LBFGS (N:=RN) (Aux:=unit) P (fun _ => quad2_grad) cholesky_solve (1/100) 2 use_inverse in
    s_init s (fun v => (quad2 v, tt)) [5; -3] (fun _ => 0) (fun _ => tt) = Ret st0 ->
    forall k, quad2 (y_at s (fun v => (quad2 v, tt)) [5; -3] st0 tt (S (k * 9))) <= (1 - / 12150) ^ k * 19.
Proof. exact C85_rate_ex_pf. Qed.

Example C85_converges_ex : forall P use_inverse st0,
    let s := LBFGS (N:=RN) (Aux:=unit) P (fun _ => quad2_grad) cholesky_solve (1/100) 2 use_inverse in
    s_init s (fun v => (quad2 v, tt)) [5; -3] (fun _ => 0) (fun _ => tt) = Ret st0 ->
    forall tau, 0 < tau -> exists K, forall k, (K <= k)%nat -> quad2 (y_at s (fun v => (quad2 v, tt)) [5; -3] st0 tt k) <= tau.
Proof. exact C85_converges_ex_pf. Qed.

Example C85_terminates_ex : forall use_inverse,
    let s := LBFGS (N:=RN) (Aux:=unit) (mkTols (1/1000) (1/1000) max_norm) (fun _ => quad2_grad) cholesky_solve (1/100) 2 use_inverse in
    exists K, (1 - / 12150) ^ K * 19 < / 810000000 /\
    exists k, (k <= (K + 1) * 9 + 1)%nat /\ forall fuel throw, (k < fuel)%nat ->
      exists sol, iterative_solve (vallfinite (N:=RN)) s (fun v => (quad2 v, tt)) fuel None throw [5; -3] (fun _ => 0) (fun _ => tt) = Ret sol /\
        result sol = successful /\ quad2 (value sol) <= 19.
Proof. exact C85_terminates_ex_pf. Qed.
