(** Property theorems: Convex.
    Statements only; each is closed by the lemma of the same name (suffix _pf)
    in the proof file.  [Example]s show concrete cases meeting the hypotheses. *)

From Coq Require Import String List Bool Arith Lia ZArith QArith Qreals Reals Lra Psatz.
From Verif Require Import Num NumFacts Vec Results Iterate Spec_Iterate Iterate_proofs.
From Verif Require Import Spec_Vec VecFacts Spec_Lin LinFacts.
From Verif Require Import Search Spec_Search Descent Minimisers Solvers Minimisers_proofs.
From Verif Require Import TrustRegion_proofs LeastSquares_proofs Spec_Steps Steps_proofs Spec_Convergence Convergence_proofs.
From Verif Require Import Spec_Convex.
Import ListNotations.
Local Open Scope R_scope.
From Verif Require Import Convex_proofs.

(** GradientDescent on a convex L-smooth objective with learning rate in (0, 1/L], exact arithmetic:
    after k further steps f exceeds its value at any point z by at most |y0 - z|^2 / (2 rate k),
    and the iterates never move away from a minimiser. *)
Theorem C86_gradient_descent :
  forall (Aux : Type) (n : nat) (L : R) (f : list R -> R) (g : list R -> list R)
         (P : ar_tols RN) grad_of (rate : R) (fn : list R -> R * Aux) y0 fs auxs st0,
    smooth n L f g -> convex n f g -> 0 < rate -> rate * L <= 1 ->
    (forall x, fst (fn x) = f x) -> (forall x, grad_of fn x = g x) -> length y0 = n ->
    let s := GradientDescent (N:=RN) P grad_of rate in
    s_init s fn y0 fs auxs = Ret st0 ->
    let y : nat -> list R := y_at s fn y0 st0 (auxs fill0) in
    (forall z k, length z = n -> f (y (S (S k))) - f z <= dist2 y0 z / (2 * rate * INR (S k))) /\
    (forall xs k, length xs = n -> (forall x, length x = n -> f xs <= f x) -> dist2 (y (S (S k))) xs <= dist2 (y (S k)) xs).
Proof. exact C86_gradient_descent_pf. Qed.
Print Assumptions C86_gradient_descent.

(** Steepest descent with BacktrackingArmijo on a convex L-smooth objective, exact arithmetic: after
    k (q+1) further steps f exceeds its minimum by at most 1/(k tmin) times
    |y0 - xs|^2 / 2 + max(0, 1/2 - sl) ini / sl (f(y0) - min f), tmin and q as in C72. *)
Theorem C86_backtracking :
  forall (Aux : Type) (P : ar_tols RN) (de sl ini : R) grad_of (fn : list R -> R * Aux)
         (n : nat) (L : R) (f : list R -> R) (g : list R -> list R) (y0 xs : list R) fs auxs st0 (q : nat),
    0 < de < 1 /\ 0 < sl < 1 /\ 0 < ini -> 0 < L -> smooth n L f g -> convex n f g ->
    (forall x, fst (fn x) = f x) -> (forall x, grad_of fn x = g x) -> length y0 = n ->
    length xs = n -> (forall x, length x = n -> f xs <= f x) ->
    ini * de ^ q * L <= 2 * (1 - sl) ->
    let s := gradient_descent_solver (N:=RN) P (armijo (N:=RN) de sl ini) (steepest_descent None) grad_of in
    s_init s fn y0 fs auxs = Ret st0 ->
    let y : nat -> list R := y_at s fn y0 st0 (auxs fill0) in
    let tmin := Rmin ini (2 * de * (1 - sl) / L) in
    forall k, f (y (S (S k * (q + 1)))) - f xs <=
      (/ 2 * dist2 y0 xs + Rmax 0 (/ 2 - sl) * (ini / sl) * (f y0 - f xs)) / (tmin * INR (S k)).
Proof. exact C86_backtracking_pf. Qed.
Print Assumptions C86_backtracking.

(** (x0 + x1)^2, which is convex but has a whole line of minimisers, from (1, 0). *)
Example C86_gradient_descent_ex :
  smooth 2 4 valley valley_grad /\ convex 2 valley valley_grad /\
  forall P st0,
    let s := GradientDescent (N:=RN) (Aux:=unit) P (fun _ => valley_grad) (1/4) in
    s_init s (fun v => (valley v, tt)) [1; 0] (fun _ => 0) (fun _ => tt) = Ret st0 ->
    forall k, valley (y_at s (fun v => (valley v, tt)) [1; 0] st0 tt (S (S k))) <= 1 / INR (S k).
Proof. exact C86_gradient_descent_ex_pf. Qed.

Example C86_backtracking_ex :
  smooth 2 4 valley valley_grad /\ convex 2 valley valley_grad /\
  forall P st0,
    let s := gradient_descent_solver (N:=RN) (Aux:=unit) P (armijo (N:=RN) (1/2) (1/10) 1) (steepest_descent None) (fun _ => valley_grad) in
    s_init s (fun v => (valley v, tt)) [1; 0] (fun _ => 0) (fun _ => tt) = Ret st0 ->
    forall k, valley (y_at s (fun v => (valley v, tt)) [1; 0] st0 tt (S (S k * 3))) <= 20 / INR (S k).
Proof. exact C86_backtracking_ex_pf. Qed.
