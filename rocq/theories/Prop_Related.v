(** Property theorems: Related.
    Statements only; each is closed by the lemma of the same name (suffix _pf)
    in the proof file.  [Example]s show concrete cases meeting the hypotheses. *)

From Coq Require Import String List Bool Arith Lia ZArith QArith Qreals Reals Lra Psatz.
From Verif Require Import Num NumFacts Vec Results Iterate Spec_Iterate Iterate_proofs.
From Verif Require Import Spec_Vec VecFacts Spec_Lin LinFacts.
From Verif Require Import Search Spec_Search Descent Minimisers QuasiNewton Solvers Minimisers_proofs Progress_proofs LeastSquares_proofs TrustRegion_proofs CG_proofs.
From Verif Require Import Spec_Steps Steps_proofs Spec_BFGSConv Convergence_proofs BFGSConv_proofs CGConv_proofs Spec_Related.
Import ListNotations.
Local Open Scope R_scope.
From Verif Require Import Related_proofs.

(** How soon a user-defined descent finds a nearly stationary point.  f need not be convex: only its gradient is
    L-Lipschitz and its values are at least flow.  The descent is any one whose directions are related to the
    gradient by the constants c1 and c2; the search is BacktrackingArmijo or LinearTrustRegion.  Then some iterate
    among the first 1 + N (p+1) + q has |gradient|^2 <= e, where N is proportional to 1/e. *)
Theorem C111_complexity :
  forall (Aux : Type) (P : ar_tols RN) search (c lo hi ini : R) resets descent (c1 c2 L e flow : R) (N p q : nat)
         grad_of (fn : list R -> R * Aux) (n : nat) (f : list R -> R) (g : list R -> list R) (y0 : list R) fs auxs st0,
    shrinking_search search c lo hi ini resets -> gradient_related n c1 c2 descent ->
    0 < c1 -> 0 < c2 -> 0 < L -> 0 < e -> smooth n L f g -> (forall x, length x = n -> flow <= f x) ->
    (forall x, fst (fn x) = f x) -> (forall x, grad_of fn x = g x) -> length y0 = n ->
    let least := Rmin ini (2 * lo * (1 - c) * c1 / (L * c2)) in
    hi * lo ^ p <= 1 -> ini * lo ^ q < least -> (resets = true -> (q <= p)%nat) ->
    f y0 - flow < INR N * (c * least * c1 * e) ->
    let s := gradient_descent_solver (N:=RN) P search descent grad_of in
    s_init s fn y0 fs auxs = Ret st0 ->
    let y : nat -> list R := y_at s fn y0 st0 (auxs fill0) in
    exists k, (k <= 1 + N * (p + 1) + q)%nat /\ Rdot (g (y k)) (g (y k)) <= e.
Proof. exact C111_complexity_pf. Qed.
Print Assumptions C111_complexity.

(** The linear rate, for functions that satisfy the Polyak-Lojasiewicz inequality with mu (which strongly convex
    functions do, and some functions that are not convex): the gap to the smallest value shrinks by the factor
    1 - 2 mu c least c1 at least once in p + 1 steps, whatever the number of unknowns; f never increases. *)
Theorem C111_rate :
  forall (Aux : Type) (P : ar_tols RN) search (c lo hi ini : R) resets descent (c1 c2 L mu fmin : R) (p q : nat)
         grad_of (fn : list R -> R * Aux) (n : nat) (f : list R -> R) (g : list R -> list R) (y0 : list R) fs auxs st0,
    shrinking_search search c lo hi ini resets -> gradient_related n c1 c2 descent ->
    0 < c1 -> 0 < c2 -> 0 < L -> 0 < mu -> smooth n L f g -> (forall x, length x = n -> fmin <= f x) ->
    (forall x, length x = n -> 2 * mu * (f x - fmin) <= Rdot (g x) (g x)) ->
    (forall x, fst (fn x) = f x) -> (forall x, grad_of fn x = g x) -> length y0 = n ->
    let least := Rmin ini (2 * lo * (1 - c) * c1 / (L * c2)) in
    hi * lo ^ p <= 1 -> ini * lo ^ q < least -> (resets = true -> (q <= p)%nat) ->
    let s := gradient_descent_solver (N:=RN) P search descent grad_of in
    s_init s fn y0 fs auxs = Ret st0 ->
    let y : nat -> list R := y_at s fn y0 st0 (auxs fill0) in
    let rho := Rmax 0 (1 - 2 * mu * (c * least * c1)) in
    rho < 1 /\
    (forall k, f (y (S k)) <= f (y k)) /\
    (forall a k, (1 + a * (p + 1) + q <= k)%nat -> f (y k) - fmin <= rho ^ a * (f y0 - fmin)).
Proof. exact C111_rate_pf. Qed.
Print Assumptions C111_rate.

(** On strongly convex functions such a solve stops by itself, with the default termination (max_norm, atol > 0,
    rtol >= 0), reports success and returns a point no worse than y0, from every starting point. *)
Theorem C111_terminates :
  forall (Aux : Type) (rtol atol : R) search (c lo hi ini : R) resets descent (c1 c2 L mu : R)
         grad_of (fn : list R -> R * Aux) (n : nat) (f : list R -> R) (g : list R -> list R) (y0 xs : list R) fs auxs st0,
    shrinking_search search c lo hi ini resets -> gradient_related n c1 c2 descent ->
    0 < c1 -> 0 < c2 -> 0 < L -> 0 < mu -> 0 < atol -> 0 <= rtol -> smooth n L f g -> strongly_convex n mu f g ->
    (forall x, fst (fn x) = f x) -> (forall x, grad_of fn x = g x) ->
    length y0 = n -> length xs = n -> (forall x, length x = n -> f xs <= f x) ->
    let s := gradient_descent_solver (N:=RN) (mkTols rtol atol max_norm) search descent grad_of in
    s_init s fn y0 fs auxs = Ret st0 ->
    exists k, forall fuel budget throw, (k < fuel)%nat -> (forall m, budget = Some m -> (k <= m)%nat) ->
      exists sol, iterative_solve (vallfinite (N:=RN)) s fn fuel budget throw y0 fs auxs = Ret sol /\
        result sol = successful /\ f (value sol) <= f y0 /\
        hd_error (sol_stats sol) = Some ("num_steps"%string, Some (Z.of_nat k)).
Proof. exact C111_terminates_pf. Qed.
Print Assumptions C111_terminates.

(** The coupled function x0^2 + x0 x1 + x1^2 (L = 3, mu = 1, minimum 0). *)
Example C111_complexity_ex : forall P st0,
  let s := gradient_descent_solver (N:=RN) (Aux:=unit) P (linear_trust_region (N:=RN) region1) (steepest_descent (N:=RN) None) (fun _ => quad2_grad) in
  s_init s (fun v => (quad2 v, tt)) [5; -3] (fun _ => 0) (fun _ => tt) = Ret st0 ->
  let y : nat -> list R := y_at s (fun v => (quad2 v, tt)) [5; -3] st0 tt in
  exists k, (k <= 1 + 300 * 2 + 2)%nat /\ Rdot (quad2_grad (y k)) (quad2_grad (y k)) <= 40.
Proof. exact C111_complexity_ex_pf. Qed.

Example C111_rate_ex : forall P st0,
  let s := gradient_descent_solver (N:=RN) (Aux:=unit) P (linear_trust_region (N:=RN) region1) stretched_descent (fun _ => quad2_grad) in
  s_init s (fun v => (quad2 v, tt)) [1; 0] (fun _ => 0) (fun _ => tt) = Ret st0 ->
  let y : nat -> list R := y_at s (fun v => (quad2 v, tt)) [1; 0] st0 tt in
  forall a k, (1 + a * 2 + 3 <= k)%nat -> quad2 (y k) <= (1 - 33/160000) ^ a.
Proof. exact C111_rate_ex_pf. Qed.

Example C111_terminates_ex :
  let s := gradient_descent_solver (N:=RN) (Aux:=unit) (mkTols (1/1000) (1/1000) max_norm) (linear_trust_region (N:=RN) region1) stretched_descent (fun _ => quad2_grad) in
  exists k, forall fuel throw, (k < fuel)%nat ->
    exists sol, iterative_solve (vallfinite (N:=RN)) s (fun v => (quad2 v, tt)) fuel None throw [5; -3] (fun _ => 0) (fun _ => tt) = Ret sol /\
      result sol = successful /\ quad2 (value sol) <= 19.
Proof. exact C111_terminates_ex_pf. Qed.
