(** Property theorems: BFGSSuper.
    Statements only; each is closed by the lemma of the same name (suffix _pf)
    in the proof file.  [Example]s show concrete cases meeting the hypotheses. *)

From Coq Require Import String List Bool Arith Lia ZArith QArith Qreals Reals Lra Psatz.
From Verif Require Import Num NumFacts Vec Results Iterate Spec_Iterate Iterate_proofs.
From Verif Require Import Spec_Vec VecFacts Spec_Lin LinFacts.
From Verif Require Import Search Spec_Search Descent Minimisers QuasiNewton Solvers Minimisers_proofs Progress_proofs TrustRegion_proofs LeastSquares_proofs BFGS_proofs QNRun_proofs.
From Verif Require Import Spec_Steps Steps_proofs LogDet Spec_BFGSConv Convergence_proofs Cholesky.
From Verif Require Import BFGSConv_proofs Frame Spec_BFGSSuper.
Import ListNotations.
Local Open Scope R_scope.
From Verif Require Import BFGSSuper_proofs.

(** BFGS converges superlinearly.  If f is L-smooth and mu-strongly convex, its gradient has the
    derivative A at the minimiser xs, up to a second-order error near xs, and the update is skipped
    only for zero curvature (eps = 0), then from every start every evaluated point is eventually
    accepted and the error eventually shrinks at every step by as large a factor as one likes. *)
Theorem C106_superlinear :
  forall (Aux : Type) (P : ar_tols RN) (mu L Lip rho : R) lsolve grad_of (fn : list R -> R * Aux) (n : nat)
         (f : list R -> R) (g : list R -> list R) (A : list (list R)) (y0 xs : list R) fs auxs (use_inverse : bool) st0,
    0 < mu -> 0 < L -> 0 <= Lip -> 0 < rho ->
    smooth n L f g -> strongly_convex n mu f g -> hessian_at n Lip rho A xs g ->
    (forall x, fst (fn x) = f x) -> (forall x, grad_of fn x = g x) -> exact_solve n lsolve ->
    length y0 = n -> length xs = n -> (forall x, length x = n -> f xs <= f x) ->
    let s := BFGS (N:=RN) P grad_of lsolve 0 use_inverse in
    s_init s fn y0 fs auxs = Ret st0 ->
    let y : nat -> list R := y_at s fn y0 st0 (auxs fill0) in
    let accepted k := qn_num_accepted_steps (st_at s fn y0 st0 (auxs fill0) k) in
    forall w, 0 < w -> exists K, forall k, (K <= k)%nat ->
      accepted (S k) = S (accepted k) /\
      Rnorm (Rsub_v (y (S k)) xs) <= w * Rnorm (Rsub_v (y k) xs).
Proof. exact C106_superlinear_pf. Qed.
Print Assumptions C106_superlinear.

(** With a positive threshold (the code's machine epsilon) the matrix changes only finitely often. *)
Theorem C106_frozen :
  forall (Aux : Type) (P : ar_tols RN) (mu L eps : R) lsolve grad_of (fn : list R -> R * Aux) (n : nat)
         (f : list R -> R) (g : list R -> list R) (y0 xs : list R) fs auxs (use_inverse : bool) st0,
    0 < mu -> 0 < L -> 0 < eps ->
    smooth n L f g -> strongly_convex n mu f g ->
    (forall x, fst (fn x) = f x) -> (forall x, grad_of fn x = g x) -> exact_solve n lsolve ->
    length y0 = n -> length xs = n -> (forall x, length x = n -> f xs <= f x) ->
    let s := BFGS (N:=RN) P grad_of lsolve eps use_inverse in
    s_init s fn y0 fs auxs = Ret st0 ->
    let matrix k := info_matrix (qn_f_info (st_at s fn y0 st0 (auxs fill0) k)) in
    exists K, forall k, (K <= k)%nat -> matrix k = matrix K.
Proof. exact C106_frozen_pf. Qed.
Print Assumptions C106_frozen.

(** With any positive threshold superlinear convergence fails: on 3/4 x^2, started so close to the
    minimiser that the curvature test skips every update, every step is accepted and the error is
    halved each time, for ever. *)
Theorem C106_threshold :
  smooth 1 (3 / 2) bowl bowl_grad /\ strongly_convex 1 (3 / 2) bowl bowl_grad /\ hessian_at 1 0 1 [[3 / 2]] [0] bowl_grad /\
  forall (P : ar_tols RN) (eps x0 : R) lsolve (use_inverse : bool) st0,
    0 < eps -> 4 * (x0 * x0) <= eps -> exact_solve 1 lsolve ->
    let fn v := (bowl v, tt) in
    let s := BFGS (N:=RN) P (fun _ => bowl_grad) lsolve eps use_inverse in
    s_init s fn [x0] (fun _ => 0) (fun _ => tt) = Ret st0 ->
    let y : nat -> list R := y_at s fn [x0] st0 tt in
    let accepted k := qn_num_accepted_steps (st_at s fn [x0] st0 tt k) in
    forall k, accepted (S (S k)) = S (accepted (S k)) /\ y (S k) = [(- / 2) ^ k * x0].
Proof. exact C106_threshold_pf. Qed.
Print Assumptions C106_threshold.

Example C106_superlinear_ex : forall P use_inverse st0,
    let s := BFGS (N:=RN) (Aux:=unit) P (fun _ => quad2_grad) cholesky_solve 0 use_inverse in
    s_init s (fun v => (quad2 v, tt)) [5; -3] (fun _ => 0) (fun _ => tt) = Ret st0 ->
    exists K, forall k, (K <= k)%nat ->
      Rnorm (Rsub_v (y_at s (fun v => (quad2 v, tt)) [5; -3] st0 tt (S k)) [0; 0]) <=
      1 / 1000 * Rnorm (Rsub_v (y_at s (fun v => (quad2 v, tt)) [5; -3] st0 tt k) [0; 0]).
Proof. exact C106_superlinear_ex_pf. Qed.

Example C106_frozen_ex : forall P use_inverse st0,
    let s := BFGS (N:=RN) (Aux:=unit) P (fun _ => quad2_grad) cholesky_solve (1 / 100) use_inverse in
    s_init s (fun v => (quad2 v, tt)) [5; -3] (fun _ => 0) (fun _ => tt) = Ret st0 ->
    exists K, forall k, (K <= k)%nat ->
      info_matrix (qn_f_info (st_at s (fun v => (quad2 v, tt)) [5; -3] st0 tt k)) =
      info_matrix (qn_f_info (st_at s (fun v => (quad2 v, tt)) [5; -3] st0 tt K)).
Proof. exact C106_frozen_ex_pf. Qed.

Example C106_threshold_ex : forall P use_inverse st0,
    let s := BFGS (N:=RN) (Aux:=unit) P (fun _ => bowl_grad) cholesky_solve (1 / 100) use_inverse in
    s_init s (fun v => (bowl v, tt)) [1 / 20] (fun _ => 0) (fun _ => tt) = Ret st0 ->
    forall k, y_at s (fun v => (bowl v, tt)) [1 / 20] st0 tt (S k) = [(- / 2) ^ k * (1 / 20)].
Proof. exact C106_threshold_ex_pf. Qed.
