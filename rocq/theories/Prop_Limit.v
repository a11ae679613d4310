(** Property theorems: Limit.
    Statements only; each is closed by the lemma of the same name (suffix _pf)
    in the proof file.  [Example]s show concrete cases meeting the hypotheses. *)

From Coq Require Import String List Bool Arith Lia ZArith QArith Qreals Reals Lra Psatz.
From Verif Require Import Num NumFacts Vec Results Iterate Spec_Iterate Iterate_proofs.
From Verif Require Import Spec_Vec VecFacts Spec_Lin LinFacts.
From Verif Require Import Search Spec_Search Descent Minimisers Solvers Minimisers_proofs.
From Verif Require Import TrustRegion_proofs LeastSquares_proofs Spec_Steps Steps_proofs Spec_Convergence Convergence_proofs.
From Verif Require Import Spec_Convex Convex_proofs Nonexpansive_proofs Spec_Limit.
Import ListNotations.
Local Open Scope R_scope.
From Verif Require Import Limit_proofs.

(** GradientDescent on a convex L-smooth objective that has a minimiser, learning rate below 2/L, exact arithmetic: the values
    approach the minimum like 1/k and the iterates converge to a minimiser. *)
Theorem C125_gradient_descent :
  forall (Aux : Type) (n : nat) (L : R) (f : list R -> R) (g : list R -> list R)
         (P : ar_tols RN) grad_of (rate : R) (fn : list R -> R * Aux) y0 xs fs auxs st0,
    smooth n L f g -> convex n f g -> 0 < rate -> rate * L < 2 ->
    (forall x, fst (fn x) = f x) -> (forall x, grad_of fn x = g x) -> length y0 = n -> minimiser n f xs ->
    let s := GradientDescent (N:=RN) P grad_of rate in
    s_init s fn y0 fs auxs = Ret st0 ->
    let y : nat -> list R := y_at s fn y0 st0 (auxs fill0) in
    (forall k, f (y (S (S k))) - f xs <= (dist2 y0 xs + rate / (1 - L * rate / 2) * (f y0 - f xs)) / (2 * rate * INR (S k))) /\
    exists z, minimiser n f z /\ tends_to y z.
Proof. exact C125_gradient_descent_pf. Qed.
Print Assumptions C125_gradient_descent.

(** Steepest descent with BacktrackingArmijo: its iterates converge to a minimiser as well. *)
Theorem C125_backtracking :
  forall (Aux : Type) (P : ar_tols RN) (de sl ini : R) grad_of (fn : list R -> R * Aux)
         (n : nat) (L : R) (f : list R -> R) (g : list R -> list R) (y0 xs : list R) fs auxs st0,
    0 < de < 1 /\ 0 < sl < 1 /\ 0 < ini -> 0 < L -> smooth n L f g -> convex n f g ->
    (forall x, fst (fn x) = f x) -> (forall x, grad_of fn x = g x) -> length y0 = n -> minimiser n f xs ->
    let s := gradient_descent_solver (N:=RN) P (armijo (N:=RN) de sl ini) (steepest_descent None) grad_of in
    s_init s fn y0 fs auxs = Ret st0 ->
    let y : nat -> list R := y_at s fn y0 st0 (auxs fill0) in
    exists z, minimiser n f z /\ tends_to y z.
Proof. exact C125_backtracking_pf. Qed.
Print Assumptions C125_backtracking.

(** The bound on the rate is sharp: at exactly 2/L gradient descent on x^2 jumps between 1 and -1 for ever. *)
Theorem C125_rate_two_over_L :
  smooth 1 2 square1 square1_grad /\ convex 1 square1 square1_grad /\ minimiser 1 square1 [0] /\
  forall P st0,
    let s := GradientDescent (N:=RN) (Aux:=unit) P (fun _ => square1_grad) 1 in
    s_init s (fun v => (square1 v, tt)) [1] (fun _ => 0) (fun _ => tt) = Ret st0 ->
    let y : nat -> list R := y_at s (fun v => (square1 v, tt)) [1] st0 tt in
    (forall k, y (S k) = [(-1) ^ k]) /\ ~ exists z, length z = 1%nat /\ tends_to y z.
Proof. exact C125_rate_two_over_L_pf. Qed.
Print Assumptions C125_rate_two_over_L.

Example C125_gradient_descent_ex :
  smooth 2 4 valley valley_grad /\ convex 2 valley valley_grad /\ minimiser 2 valley [3; -3] /\ minimiser 2 valley [0; 0] /\
  forall P st0,
    let s := GradientDescent (N:=RN) (Aux:=unit) P (fun _ => valley_grad) (3/8) in
    s_init s (fun v => (valley v, tt)) [1; 0] (fun _ => 0) (fun _ => tt) = Ret st0 ->
    exists z, minimiser 2 valley z /\ tends_to (y_at s (fun v => (valley v, tt)) [1; 0] st0 tt) z.
Proof. exact C125_gradient_descent_ex_pf. Qed.

Example C125_backtracking_ex :
  smooth 2 4 valley valley_grad /\ convex 2 valley valley_grad /\ minimiser 2 valley [3; -3] /\
  forall P st0,
    let s := gradient_descent_solver (N:=RN) (Aux:=unit) P (armijo (N:=RN) (1/2) (1/10) 1) (steepest_descent None) (fun _ => valley_grad) in
    s_init s (fun v => (valley v, tt)) [1; 0] (fun _ => 0) (fun _ => tt) = Ret st0 ->
    exists z, minimiser 2 valley z /\ tends_to (y_at s (fun v => (valley v, tt)) [1; 0] st0 tt) z.
Proof. exact C125_backtracking_ex_pf. Qed.
