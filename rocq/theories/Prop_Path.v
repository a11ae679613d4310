(** Property theorems: Path.
    Statements only; each is closed by the lemma of the same name (suffix _pf)
    in the proof file.  [Example]s show concrete cases meeting the hypotheses. *)

From Coq Require Import String List Bool Arith Lia ZArith QArith Qreals Reals Lra Psatz.
From Verif Require Import Num NumFacts Vec Results Iterate Spec_Iterate Iterate_proofs.
From Verif Require Import Spec_Vec VecFacts Spec_Lin LinFacts.
From Verif Require Import Search Spec_Search Descent Minimisers Solvers Minimisers_proofs.
From Verif Require Import TrustRegion_proofs LeastSquares_proofs Dogleg_proofs Spec_Steps Steps_proofs Spec_Convergence Convergence_proofs.
From Verif Require Import Spec_Rates Rates_proofs Spec_Success Success_proofs LMLocal_proofs Spec_Convex Convex_proofs Nonexpansive_proofs Spec_Related Related_proofs Spec_Limit Limit_proofs.
Import ListNotations.
Local Open Scope R_scope.
From Verif Require Import Path_proofs.

(** GradientDescent, exact arithmetic, learning rate below 2/L, on an L-smooth objective (convex or not) whose gradient dominates its
    excess over [low]: the whole path after step k stays within a distance of order sqrt(f(y_k) - low), the iterates converge to
    a point where [low] is attained, and they do so at a linear rate. *)
Theorem C126_gradient_descent :
  forall (Aux : Type) (n : nat) (L mu low : R) (f : list R -> R) (g : list R -> list R)
         (P : ar_tols RN) grad_of (rate : R) (fn : list R -> R * Aux) y0 fs auxs st0,
    smooth n L f g -> dominated n mu low f g -> 0 < mu <= L -> 0 < rate -> rate * L < 2 ->
    (forall x, fst (fn x) = f x) -> (forall x, grad_of fn x = g x) -> length y0 = n ->
    let s := GradientDescent (N:=RN) P grad_of rate in
    s_init s fn y0 fs auxs = Ret st0 ->
    let y : nat -> list R := y_at s fn y0 st0 (auxs fill0) in
    let sl := 1 - L * rate / 2 in let theta := 1 - 2 * mu * (rate * sl) in
    (forall k j, (k <= j)%nat -> dist2 (y (S j)) (y (S k)) <= 2 / (sl * sl * mu) * (f (y (S k)) - low)) /\
    exists z, length z = n /\ f z = low /\ tends_to y z /\
      0 <= theta < 1 /\ forall k, dist2 (y (S k)) z <= 2 / (sl * sl * mu) * (f y0 - low) * theta ^ k.
Proof. exact C126_gradient_descent_pf. Qed.
Print Assumptions C126_gradient_descent.

(** The same for steepest descent with BacktrackingArmijo, whatever its decrease factor, slope and first step. *)
Theorem C126_backtracking :
  forall (Aux : Type) (P : ar_tols RN) (de sl ini : R) grad_of (fn : list R -> R * Aux)
         (n : nat) (L mu low : R) (f : list R -> R) (g : list R -> list R) (y0 : list R) fs auxs st0,
    0 < de < 1 /\ 0 < sl < 1 /\ 0 < ini -> smooth n L f g -> dominated n mu low f g -> 0 < mu <= L ->
    (forall x, fst (fn x) = f x) -> (forall x, grad_of fn x = g x) -> length y0 = n ->
    let s := gradient_descent_solver (N:=RN) P (armijo (N:=RN) de sl ini) (steepest_descent None) grad_of in
    s_init s fn y0 fs auxs = Ret st0 ->
    let y : nat -> list R := y_at s fn y0 st0 (auxs fill0) in
    (forall k j, (k <= j)%nat -> dist2 (y (S j)) (y (S k)) <= 2 / (sl * sl * mu) * (f (y (S k)) - low)) /\
    exists z, length z = n /\ f z = low /\ tends_to y z /\
      forall k, dist2 (y (S k)) z <= 2 / (sl * sl * mu) * (f (y (S k)) - low).
Proof. exact C126_backtracking_pf. Qed.
Print Assumptions C126_backtracking.

(** The same for every gradient-related descent, user-defined ones included, with BacktrackingArmijo or LinearTrustRegion. *)
Theorem C126_gradient_related :
  forall (Aux : Type) (P : ar_tols RN) search (c lo hi ini : R) resets descent (c1 c2 L mu low : R)
         grad_of (fn : list R -> R * Aux) (n : nat) (f : list R -> R) (g : list R -> list R) (y0 : list R) fs auxs st0,
    shrinking_search search c lo hi ini resets -> gradient_related n c1 c2 descent ->
    0 < c1 -> 0 < c2 -> 0 < L -> 0 < mu -> smooth n L f g -> dominated n mu low f g ->
    (forall x, fst (fn x) = f x) -> (forall x, grad_of fn x = g x) -> length y0 = n ->
    let s := gradient_descent_solver (N:=RN) P search descent grad_of in
    s_init s fn y0 fs auxs = Ret st0 ->
    let y : nat -> list R := y_at s fn y0 st0 (auxs fill0) in
    let far := 2 * c2 / (c * c * (c1 * c1) * mu) in
    (forall k j, (k <= j)%nat -> dist2 (y (S j)) (y (S k)) <= far * (f (y (S k)) - low)) /\
    exists z, length z = n /\ f z = low /\ tends_to y z /\ forall k, dist2 (y (S k)) z <= far * (f (y (S k)) - low).
Proof. exact C126_gradient_related_pf. Qed.
Print Assumptions C126_gradient_related.

(** The answer of a successful GradientDescent solve lies within an explicit distance of a point where [low] is attained. *)
Theorem C126_answer :
  forall (Aux : Type) (n : nat) (L mu low : R) (f : list R -> R) (g : list R -> list R) (rtol atol rate : R)
         grad_of (fn : list R -> R * Aux) (y0 : list R) fs auxs allfinite fuel budget throw sol,
    0 <= rtol -> 0 < atol -> 0 < rate -> smooth n L f g -> rate * L <= 2 ->
    0 < mu <= L -> dominated n mu low f g ->
    (forall x, grad_of fn x = g x) -> length y0 = n ->
    let s := GradientDescent (N:=RN) (mkTols rtol atol max_norm) grad_of rate in
    iterative_solve allfinite s fn fuel budget throw y0 fs auxs = Ret sol -> result sol = successful ->
    let tol := tolerances rtol atol (value sol) in
    exists z, length z = n /\ f z = low /\ Rnorm (Rsub_v (value sol) z) <= 2 * Rnorm tol / (mu * rate).
Proof. exact C126_answer_pf. Qed.
Print Assumptions C126_answer.

Example C126_gradient_descent_ex :
  smooth 1 1 dip dip_grad /\ dominated 1 (1/7) 0 dip dip_grad /\ ~ convex 1 dip dip_grad /\
  forall P st0,
    let s := GradientDescent (N:=RN) (Aux:=unit) P (fun _ => dip_grad) 1 in
    s_init s (fun v => (dip v, tt)) [5] (fun _ => 0) (fun _ => tt) = Ret st0 ->
    exists z, length z = 1%nat /\ dip z = 0 /\ tends_to (y_at s (fun v => (dip v, tt)) [5] st0 tt) z.
Proof. exact C126_gradient_descent_ex_pf. Qed.

Example C126_backtracking_ex :
  smooth 1 1 dip dip_grad /\ dominated 1 (1/7) 0 dip dip_grad /\
  forall P st0,
    let s := gradient_descent_solver (N:=RN) (Aux:=unit) P (armijo (N:=RN) (1/2) (1/10) 3) (steepest_descent None) (fun _ => dip_grad) in
    s_init s (fun v => (dip v, tt)) [5] (fun _ => 0) (fun _ => tt) = Ret st0 ->
    exists z, length z = 1%nat /\ dip z = 0 /\ tends_to (y_at s (fun v => (dip v, tt)) [5] st0 tt) z.
Proof. exact C126_backtracking_ex_pf. Qed.

(** A solve to which this applies: from 5 with atol = 1, and the answer is within 14 (1 + 1/10 |answer|) of 0. *)
Example C126_answer_ex :
  let s := GradientDescent (N:=RN) (Aux:=unit) (mkTols (N:=RN) (1/10) 1 max_norm) (fun _ => dip_grad) 1 in
  exists k, forall fuel throw, (k < fuel)%nat ->
    exists sol, iterative_solve (vallfinite (N:=RN)) s (fun v => (dip v, tt)) fuel None throw [5] (fun _ => 0) (fun _ => tt) = Ret sol /\
      result sol = successful /\
      exists z, length z = 1%nat /\ dip z = 0 /\ Rnorm (Rsub_v (value sol) z) <= 2 * Rnorm (tolerances (1/10) 1 (value sol)) / (1/7 * 1).
Proof. exact C126_answer_ex_pf. Qed.

(** LinearTrustRegion on the non-convex example, stepping along half the negative gradient *)
Example C126_gradient_related_ex :
  shrinking_search (linear_trust_region (N:=RN) region1) (1/100) (1/4) (7/2) 1 false /\ gradient_related 1 (1/2) 4 stretched_descent /\
  forall P st0,
    let s := gradient_descent_solver (N:=RN) (Aux:=unit) P (linear_trust_region (N:=RN) region1) stretched_descent (fun _ => dip_grad) in
    s_init s (fun v => (dip v, tt)) [5] (fun _ => 0) (fun _ => tt) = Ret st0 ->
    exists z, length z = 1%nat /\ dip z = 0 /\ tends_to (y_at s (fun v => (dip v, tt)) [5] st0 tt) z.
Proof. exact C126_gradient_related_ex_pf. Qed.
