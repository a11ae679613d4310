(** Property theorems: BFGSConv.
    Statements only; each is closed by the lemma of the same name (suffix _pf)
    in the proof file.  [Example]s show concrete cases meeting the hypotheses. *)

From Coq Require Import String List Bool Arith Lia ZArith QArith Qreals Reals Lra Psatz.
From Verif Require Import Num NumFacts Vec Results Iterate Spec_Iterate Iterate_proofs.
From Verif Require Import Spec_Vec VecFacts Spec_Lin LinFacts.
From Verif Require Import Search Spec_Search Descent Minimisers QuasiNewton Solvers Minimisers_proofs Progress_proofs TrustRegion_proofs LeastSquares_proofs BFGS_proofs QNRun_proofs.
From Verif Require Import Spec_Steps Steps_proofs LogDet Spec_BFGSConv Convergence_proofs Cholesky.
Import ListNotations.
Local Open Scope R_scope.
From Verif Require Import BFGSConv_proofs.

(** BFGS converges globally and linearly in its accepted steps: if f has an L-Lipschitz
    gradient (is L-smooth) and is mu-strongly convex, then f(y) - min f shrinks at every accepted
    step after the first, on average, by a factor rho < 1, which depends only on mu, L, eps and a
    bound Vb on the initial excess, not on the number of unknowns.  No curvature (Wolfe)
    condition is tested by the backtracking search. *)
Theorem C84_rate :
  forall (mu L eps Vb : R), 0 < mu -> 0 < L -> 0 <= eps -> 0 <= Vb ->
  exists rho, 0 <= rho < 1 /\
  forall (Aux : Type) (P : ar_tols RN) lsolve grad_of (fn : list R -> R * Aux) (n : nat)
         (f : list R -> R) (g : list R -> list R) (y0 xs : list R) fs auxs (use_inverse : bool) st0,
    smooth n L f g -> strongly_convex n mu f g ->
    (forall x, fst (fn x) = f x) -> (forall x, grad_of fn x = g x) -> exact_solve n lsolve ->
    length y0 = n -> length xs = n -> (forall x, length x = n -> f xs <= f x) -> f y0 - f xs <= Vb ->
    let s := BFGS (N:=RN) P grad_of lsolve eps use_inverse in
    s_init s fn y0 fs auxs = Ret st0 ->
    let y : nat -> list R := y_at s fn y0 st0 (auxs fill0) in
    let accepted k := qn_num_accepted_steps (st_at s fn y0 st0 (auxs fill0) k) in
    forall k, (1 <= accepted (S k))%nat /\
      f (y (S k)) - f xs <= rho ^ (accepted (S k) - 1) * (f y0 - f xs) /\
      mu / 2 * Rdot (Rsub_v (y (S k)) xs) (Rsub_v (y (S k)) xs) <= f (y (S k)) - f xs.
Proof. exact C84_rate_pf. Qed.
Print Assumptions C84_rate.

(** The iterates converge: f(y_k) comes within every tau > 0 of the minimum and stays there, and so
    does y_k within every tau of the minimiser; f never increases after the first step. *)
Theorem C84_converges :
  forall (Aux : Type) (P : ar_tols RN) (mu L eps : R) lsolve grad_of (fn : list R -> R * Aux) (n : nat)
         (f : list R -> R) (g : list R -> list R) (y0 xs : list R) fs auxs (use_inverse : bool) st0,
    0 < mu -> 0 < L -> 0 <= eps ->
    smooth n L f g -> strongly_convex n mu f g ->
    (forall x, fst (fn x) = f x) -> (forall x, grad_of fn x = g x) -> exact_solve n lsolve ->
    length y0 = n -> length xs = n -> (forall x, length x = n -> f xs <= f x) ->
    let s := BFGS (N:=RN) P grad_of lsolve eps use_inverse in
    s_init s fn y0 fs auxs = Ret st0 ->
    let y : nat -> list R := y_at s fn y0 st0 (auxs fill0) in
    y 1%nat = y0 /\ (forall k, f (y (S (S k))) <= f (y (S k))) /\
    forall tau, 0 < tau -> exists K, forall k, (K <= k)%nat ->
      f (y k) - f xs <= tau /\ Rdot (Rsub_v (y k) xs) (Rsub_v (y k) xs) <= tau.
Proof. exact C84_converges_pf. Qed.
Print Assumptions C84_converges.

(** With the default termination (max_norm, atol > 0, rtol >= 0) BFGS stops, reports success and
    returns a point no worse than y0, from every starting point. *)
Theorem C84_terminates :
  forall (Aux : Type) (rtol atol mu L eps : R) lsolve grad_of (fn : list R -> R * Aux) (n : nat)
         (f : list R -> R) (g : list R -> list R) (y0 xs : list R) fs auxs (use_inverse : bool),
    0 < mu -> 0 < L -> 0 <= eps -> 0 < atol -> 0 <= rtol ->
    smooth n L f g -> strongly_convex n mu f g ->
    (forall x, fst (fn x) = f x) -> (forall x, grad_of fn x = g x) -> exact_solve n lsolve ->
    length y0 = n -> length xs = n -> (forall x, length x = n -> f xs <= f x) ->
    let s := BFGS (N:=RN) (mkTols rtol atol max_norm) grad_of lsolve eps use_inverse in
    exists k, forall fuel budget throw, (k < fuel)%nat -> (forall m, budget = Some m -> (k <= m)%nat) ->
      exists sol, iterative_solve (vallfinite (N:=RN)) s fn fuel budget throw y0 fs auxs = Ret sol /\
        result sol = successful /\ f (value sol) <= f y0 /\
        hd_error (sol_stats sol) = Some ("num_steps"%string, Some (Z.of_nat k)).
Proof. exact C84_terminates_pf. Qed.
Print Assumptions C84_terminates.

Example C84_rate_ex :
  smooth 2 3 quad2 quad2_grad /\ strongly_convex 2 1 quad2 quad2_grad /\ exact_solve 2 cholesky_solve /\
  exists rho, 0 <= rho < 1 /\ forall P use_inverse st0,
    let s := BFGS (N:=RN) (Aux:=unit) P (fun _ => quad2_grad) cholesky_solve (1/100) use_inverse in
    s_init s (fun v => (quad2 v, tt)) [1; 0] (fun _ => 0) (fun _ => tt) = Ret st0 ->
    forall k, quad2 (y_at s (fun v => (quad2 v, tt)) [1; 0] st0 tt (S k)) <=
      rho ^ (qn_num_accepted_steps (st_at s (fun v => (quad2 v, tt)) [1; 0] st0 tt (S k)) - 1).
Proof. exact C84_rate_ex_pf. Qed.

Example C84_converges_ex : forall P use_inverse st0,
    let s := BFGS (N:=RN) (Aux:=unit) P (fun _ => quad2_grad) cholesky_solve (1/100) use_inverse in
    s_init s (fun v => (quad2 v, tt)) [5; -3] (fun _ => 0) (fun _ => tt) = Ret st0 ->
    forall tau, 0 < tau -> exists K, forall k, (K <= k)%nat -> quad2 (y_at s (fun v => (quad2 v, tt)) [5; -3] st0 tt k) <= tau.
Proof. exact C84_converges_ex_pf. Qed.

Example C84_terminates_ex : forall use_inverse,
    let s := BFGS (N:=RN) (Aux:=unit) (mkTols (1/1000) (1/1000) max_norm) (fun _ => quad2_grad) cholesky_solve (1/100) use_inverse in
    exists k, forall fuel throw, (k < fuel)%nat ->
      exists sol, iterative_solve (vallfinite (N:=RN)) s (fun v => (quad2 v, tt)) fuel None throw [5; -3] (fun _ => 0) (fun _ => tt) = Ret sol /\
        result sol = successful /\ quad2 (value sol) <= 19.
Proof. exact C84_terminates_ex_pf. Qed.
