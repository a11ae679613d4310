(** Property theorems: CGConv.
    Statements only; each is closed by the lemma of the same name (suffix _pf)
    in the proof file.  [Example]s show concrete cases meeting the hypotheses. *)

From Coq Require Import String List Bool Arith Lia ZArith QArith Qreals Reals Lra Psatz.
From Verif Require Import Num NumFacts Vec Results Iterate Spec_Iterate Iterate_proofs.
From Verif Require Import Spec_Vec VecFacts Spec_Lin LinFacts.
From Verif Require Import Search Spec_Search Descent Minimisers QuasiNewton Solvers Minimisers_proofs Progress_proofs LeastSquares_proofs TrustRegion_proofs CG_proofs.
From Verif Require Import Spec_Steps Steps_proofs Spec_BFGSConv Convergence_proofs BFGSConv_proofs Spec_CGConv.
Import ListNotations.
Local Open Scope R_scope.
From Verif Require Import CGConv_proofs.

(** Nonlinear conjugate gradients with the Polak-Ribiere formula and Armijo backtracking (the defaults of
    NonlinearCG) converge globally and linearly: if f is L-smooth and mu-strongly convex, then f - min f shrinks
    with every step that moves, on average, by a factor rho < 1 which depends only on mu, L and the parameters of
    the search: neither on the number of unknowns nor on y0 nor on eps.  No Wolfe condition is tested and no
    restart is forced. *)
Theorem C109_rate :
  forall (mu L decrease slope init : R), 0 < mu -> 0 < L -> 0 < decrease < 1 -> 0 < slope < 1 -> 0 < init ->
  exists rho, 0 <= rho < 1 /\
  forall (Aux : Type) (P : ar_tols RN) (eps : R) grad_of (fn : list R -> R * Aux) (n : nat)
         (f : list R -> R) (g : list R -> list R) (y0 xs : list R) fs auxs st0,
    0 <= eps -> smooth n L f g -> strongly_convex n mu f g ->
    (forall x, fst (fn x) = f x) -> (forall x, grad_of fn x = g x) ->
    length y0 = n -> length xs = n -> (forall x, length x = n -> f xs <= f x) ->
    let s := NonlinearCG (N:=RN) P grad_of (polak_ribiere (N:=RN) eps) (armijo (N:=RN) decrease slope init) in
    s_init s fn y0 fs auxs = Ret st0 ->
    let y : nat -> list R := y_at s fn y0 st0 (auxs fill0) in
    forall k, f (y k) - f xs <= rho ^ (moves y k - 1) * (f y0 - f xs) /\
      mu / 2 * Rdot (Rsub_v (y k) xs) (Rsub_v (y k) xs) <= f (y k) - f xs.
Proof. exact C109_rate_pf. Qed.
Print Assumptions C109_rate.

(** The iterates converge, from every starting point: f(y_k) comes within every tau > 0 of the minimum and stays
    there, and so does y_k within every tau of the minimiser; f never increases. *)
Theorem C109_converges :
  forall (Aux : Type) (P : ar_tols RN) (mu L decrease slope init eps : R) grad_of (fn : list R -> R * Aux) (n : nat)
         (f : list R -> R) (g : list R -> list R) (y0 xs : list R) fs auxs st0,
    0 < mu -> 0 < L -> 0 < decrease < 1 -> 0 < slope < 1 -> 0 < init -> 0 <= eps ->
    smooth n L f g -> strongly_convex n mu f g ->
    (forall x, fst (fn x) = f x) -> (forall x, grad_of fn x = g x) ->
    length y0 = n -> length xs = n -> (forall x, length x = n -> f xs <= f x) ->
    let s := NonlinearCG (N:=RN) P grad_of (polak_ribiere (N:=RN) eps) (armijo (N:=RN) decrease slope init) in
    s_init s fn y0 fs auxs = Ret st0 ->
    let y : nat -> list R := y_at s fn y0 st0 (auxs fill0) in
    (forall k, f (y (S k)) <= f (y k)) /\
    forall tau, 0 < tau -> exists K, forall k, (K <= k)%nat ->
      f (y k) - f xs <= tau /\ Rdot (Rsub_v (y k) xs) (Rsub_v (y k) xs) <= tau.
Proof. exact C109_converges_pf. Qed.
Print Assumptions C109_converges.

(** With the default termination (max_norm, atol > 0, rtol >= 0) the solve stops, reports success and returns a
    point no worse than y0, from every starting point. *)
Theorem C109_terminates :
  forall (Aux : Type) (rtol atol mu L decrease slope init eps : R) grad_of (fn : list R -> R * Aux) (n : nat)
         (f : list R -> R) (g : list R -> list R) (y0 xs : list R) fs auxs,
    0 < mu -> 0 < L -> 0 < decrease < 1 -> 0 < slope < 1 -> 0 < init -> 0 <= eps -> 0 < atol -> 0 <= rtol ->
    smooth n L f g -> strongly_convex n mu f g ->
    (forall x, fst (fn x) = f x) -> (forall x, grad_of fn x = g x) ->
    length y0 = n -> length xs = n -> (forall x, length x = n -> f xs <= f x) ->
    let s := NonlinearCG (N:=RN) (mkTols rtol atol max_norm) grad_of (polak_ribiere (N:=RN) eps) (armijo (N:=RN) decrease slope init) in
    exists k, forall fuel budget throw, (k < fuel)%nat -> (forall m, budget = Some m -> (k <= m)%nat) ->
      exists sol, iterative_solve (vallfinite (N:=RN)) s fn fuel budget throw y0 fs auxs = Ret sol /\
        result sol = successful /\ f (value sol) <= f y0 /\
        hd_error (sol_stats sol) = Some ("num_steps"%string, Some (Z.of_nat k)).
Proof. exact C109_terminates_pf. Qed.
Print Assumptions C109_terminates.

(** The coupled function x0^2 + x0 x1 + x1^2 with the parameters of the default search. *)
Example C109_rate_ex :
  smooth 2 3 quad2 quad2_grad /\ strongly_convex 2 1 quad2 quad2_grad /\
  exists rho, 0 <= rho < 1 /\ forall P eps st0, 0 <= eps ->
    let s := NonlinearCG (N:=RN) (Aux:=unit) P (fun _ => quad2_grad) (polak_ribiere (N:=RN) eps) (armijo (N:=RN) (1/2) (1/10) 1) in
    s_init s (fun v => (quad2 v, tt)) [1; 0] (fun _ => 0) (fun _ => tt) = Ret st0 ->
    let y := y_at s (fun v => (quad2 v, tt)) [1; 0] st0 tt in
    forall k, quad2 (y k) <= rho ^ (moves y k - 1).
Proof. exact C109_rate_ex_pf. Qed.

Example C109_converges_ex : forall P st0,
    let s := NonlinearCG (N:=RN) (Aux:=unit) P (fun _ => quad2_grad) (polak_ribiere (N:=RN) (1/100)) (armijo (N:=RN) (1/2) (1/10) 1) in
    s_init s (fun v => (quad2 v, tt)) [5; -3] (fun _ => 0) (fun _ => tt) = Ret st0 ->
    forall tau, 0 < tau -> exists K, forall k, (K <= k)%nat -> quad2 (y_at s (fun v => (quad2 v, tt)) [5; -3] st0 tt k) <= tau.
Proof. exact C109_converges_ex_pf. Qed.

Example C109_terminates_ex :
    let s := NonlinearCG (N:=RN) (Aux:=unit) (mkTols (1/1000) (1/1000) max_norm) (fun _ => quad2_grad) (polak_ribiere (N:=RN) (1/100)) (armijo (N:=RN) (1/2) (1/10) 1) in
    exists k, forall fuel throw, (k < fuel)%nat ->
      exists sol, iterative_solve (vallfinite (N:=RN)) s (fun v => (quad2 v, tt)) fuel None throw [5; -3] (fun _ => 0) (fun _ => tt) = Ret sol /\
        result sol = successful /\ quad2 (value sol) <= 19.
Proof. exact C109_terminates_ex_pf. Qed.
