(** Property theorems: QNRun.
    Statements only; each is closed by the lemma of the same name (suffix _pf)
    in the proof file.  [Example]s show concrete cases meeting the hypotheses. *)

From Coq Require Import String List Bool Arith Lia ZArith QArith Qreals Reals Lra Psatz.
From Verif Require Import Num NumFacts Vec Results Iterate Spec_Iterate Iterate_proofs.
From Verif Require Import Spec_Vec VecFacts Spec_Lin LinFacts NumF64.
From Verif Require Import Search Spec_Search Descent Minimisers QuasiNewton Solvers Minimisers_proofs Progress_proofs TrustRegion_proofs LeastSquares_proofs BFGS_proofs.
From Verif Require Import LinAlg Cholesky CholeskyFacts.
Import ListNotations.
Local Open Scope nat_scope.
From Verif Require Import QNRun_proofs.

(** Whole runs: with exact linear solves, BFGS (and DFP) with use_inverse=True and
    with use_inverse=False visit the same iterates, return the same auxiliary
    outputs and make the same termination decisions. *)
Theorem C39_same_run :
  forall (Aux : Type) (P : ar_tols RN) (eps : R) lsolve grad_of (fn : list R -> R * Aux)
         (n : nat) (y0 : list R) fs auxs,
    (0 <= eps)%R -> exact_solve n lsolve ->
    (forall y, length y = n -> length (grad_of fn y) = n) -> length y0 = n ->
    forall solver, solver = BFGS (N:=RN) P grad_of lsolve eps \/ solver = DFP (N:=RN) P grad_of lsolve eps ->
    forall stT stF,
      s_init (solver true) fn y0 fs auxs = Ret stT ->
      s_init (solver false) fn y0 fs auxs = Ret stF ->
    forall k,
      y_at (solver true) fn y0 stT (auxs fill0) k = y_at (solver false) fn y0 stF (auxs fill0) k /\
      aux_at (solver true) fn y0 stT (auxs fill0) k = aux_at (solver false) fn y0 stF (auxs fill0) k /\
      says_terminate (solver true) fn y0 stT (auxs fill0) k = says_terminate (solver false) fn y0 stF (auxs fill0) k /\
      says_result (solver true) fn y0 stT (auxs fill0) k = says_result (solver false) fn y0 stF (auxs fill0) k.
Proof. exact C39_same_run_pf. Qed.
Print Assumptions C39_same_run.

(** Along every run of BFGS (either mode) the stored information is the value
    and gradient at the current iterate with a symmetric positive definite
    matrix. *)
Theorem C37_bfgs_run :
  forall (Aux : Type) (P : ar_tols RN) (eps : R) lsolve grad_of (fn : list R -> R * Aux)
         (n : nat) (y0 : list R) fs auxs (use_inverse : bool) st0,
    (0 <= eps)%R -> exact_solve n lsolve ->
    (forall y, length y = n -> length (grad_of fn y) = n) -> length y0 = n ->
    let s := BFGS (N:=RN) P grad_of lsolve eps use_inverse in
    s_init s fn y0 fs auxs = Ret st0 ->
    let y := y_at s fn y0 st0 (auxs fill0) in
    let st := st_at s fn y0 st0 (auxs fill0) in
    forall k, 0 < k -> exists M, spd n M /\
      qn_f_info (st k) = qn_holds use_inverse n (mkPoint (y k) (fst (fn (y k))) (grad_of fn (y k))) M.
Proof. exact C37_bfgs_run_pf. Qed.
Print Assumptions C37_bfgs_run.

(** The hypothesis on the linear solver here and in C29, C38 and C39 is met by
    Cholesky, in every dimension. *)
Example C39_exact_solve_ex : forall n, exact_solve n (cholesky_solve (N:=RN)).
Proof. exact C39_exact_solve_ex_pf. Qed.

(** The same for DFP. *)
Theorem C38_dfp_run :
  forall (Aux : Type) (P : ar_tols RN) (eps : R) lsolve grad_of (fn : list R -> R * Aux)
         (n : nat) (y0 : list R) fs auxs (use_inverse : bool) st0,
    (0 <= eps)%R -> exact_solve n lsolve ->
    (forall y, length y = n -> length (grad_of fn y) = n) -> length y0 = n ->
    let s := DFP (N:=RN) P grad_of lsolve eps use_inverse in
    s_init s fn y0 fs auxs = Ret st0 ->
    let y := y_at s fn y0 st0 (auxs fill0) in
    let st := st_at s fn y0 st0 (auxs fill0) in
    forall k, 0 < k -> exists M, spd n M /\
      qn_f_info (st k) = qn_holds use_inverse n (mkPoint (y k) (fst (fn (y k))) (grad_of fn (y k))) M.
Proof. exact C38_dfp_run_pf. Qed.
Print Assumptions C38_dfp_run.

(** Progress of BFGS and DFP, either mode, exact arithmetic and exact linear
    solves: for a differentiable objective with the gradient computed, from every
    iterate with nonzero gradient finitely many rejections are followed by an
    accepted step that strictly decreases the objective. *)
Theorem C29_bfgs_dfp :
  forall (Aux : Type) (P : ar_tols RN) (eps : R) lsolve grad_of (fn : list R -> R * Aux)
         (n : nat) (y0 : list R) fs auxs (use_inverse : bool),
    (0 <= eps)%R -> exact_solve n lsolve ->
    (forall y, length y = n -> length (grad_of fn y) = n) -> length y0 = n ->
    (forall y d, length y = n -> length d = n ->
       derivable_pt_lim (fun t => fst (fn (along y d t))) 0 (Rdot (grad_of fn y) d)) ->
    forall s, s = BFGS (N:=RN) P grad_of lsolve eps use_inverse \/ s = DFP (N:=RN) P grad_of lsolve eps use_inverse ->
    forall st0, s_init s fn y0 fs auxs = Ret st0 ->
    let y := y_at s fn y0 st0 (auxs fill0) in
    forall k, 0 < k -> grad_of fn (y k) <> zerov n ->
      exists m, k <= m /\ (forall j, k <= j <= m -> y j = y k) /\ (fst (fn (y (S m))) < fst (fn (y k)))%R.
Proof. exact C29_bfgs_dfp_pf. Qed.
Print Assumptions C29_bfgs_dfp.
