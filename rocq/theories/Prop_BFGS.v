(** Property theorems: BFGS.
    Statements only; each is closed by the lemma of the same name (suffix _pf)
    in the proof file.  [Example]s show concrete cases meeting the hypotheses. *)

From Coq Require Import String List Bool Arith Lia ZArith QArith Qreals Reals Lra Psatz.
From Verif Require Import Num NumFacts Vec Results Iterate Spec_Iterate Iterate_proofs.
From Verif Require Import Spec_Vec VecFacts Spec_Lin LinFacts NumF64.
From Verif Require Import Search Spec_Search Descent Minimisers QuasiNewton Solvers Minimisers_proofs Progress_proofs TrustRegion_proofs LeastSquares_proofs.
Import ListNotations.
Local Open Scope nat_scope.
From Verif Require Import BFGS_proofs.

(** BFGS, either mode, exact arithmetic: for every sequence of points the stored
    matrix is symmetric positive definite; each update with curvature above eps
    satisfies the secant equation; each other update leaves the matrix alone. *)
Theorem C37_bfgs :
  forall (n : nat) (eps : R) (use_inverse : bool) (p0 : qn_point) (l : list qn_point),
    (0 <= eps)%R -> sized n p0 -> Forall (sized n) l ->
    let info l := fst (qn_after (qn_init_hessian (N:=RN) use_inverse) (bfgs_update (N:=RN) eps use_inverse) p0 l) in
    (exists M, info l = qn_holds use_inverse n (hd p0 l) M /\ spd n M) /\
    (forall q M M', sized n q ->
       info l = qn_holds use_inverse n (hd p0 l) M -> info (q :: l) = qn_holds use_inverse n q M' ->
       secant_or_skip use_inverse eps (hd p0 l) q M M').
Proof. exact C37_bfgs_pf. Qed.
Print Assumptions C37_bfgs.

(** The same for DFP. *)
Theorem C38_dfp :
  forall (n : nat) (eps : R) (use_inverse : bool) (p0 : qn_point) (l : list qn_point),
    (0 <= eps)%R -> sized n p0 -> Forall (sized n) l ->
    let info l := fst (qn_after (qn_init_hessian (N:=RN) use_inverse) (dfp_update (N:=RN) eps use_inverse) p0 l) in
    (exists M, info l = qn_holds use_inverse n (hd p0 l) M /\ spd n M) /\
    (forall q M M', sized n q ->
       info l = qn_holds use_inverse n (hd p0 l) M -> info (q :: l) = qn_holds use_inverse n q M' ->
       secant_or_skip use_inverse eps (hd p0 l) q M M').
Proof. exact C38_dfp_pf. Qed.
Print Assumptions C38_dfp.

(** Both modes on the same sequence of points: the two matrices are inverse to
    each other and, with exact linear solves, give the same Newton step. *)
Theorem C39_use_inverse :
  forall (n : nat) (eps : R) (lsolve : linop RN -> list R -> list R * results) (p0 : qn_point) (l : list qn_point),
    (0 <= eps)%R -> exact_solve n lsolve -> sized n p0 -> Forall (sized n) l ->
    forall update, update = bfgs_update (N:=RN) eps \/ update = dfp_update (N:=RN) eps ->
    let info use_inverse := fst (qn_after (qn_init_hessian (N:=RN) use_inverse) (update use_inverse) p0 l) in
    (exists H B, info true = qn_holds true n (hd p0 l) H /\ info false = qn_holds false n (hd p0 l) B /\
                 inverses n H B) /\
    newton_step (N:=RN) lsolve (info true) = newton_step (N:=RN) lsolve (info false).
Proof. exact C39_use_inverse_pf. Qed.
Print Assumptions C39_use_inverse.

(** Two points in the plane with curvature 4 along the step: an update that is
    not skipped. *)
Example C37_bfgs_ex :
  let p := mkPoint [0; 0]%R 0%R [1; 0]%R in
  let q := mkPoint [1; 1]%R 1%R [2; 3]%R in
  sized 2 p /\ sized 2 q /\ (1 / 2 < Rdot (Rsub_v (pt_g q) (pt_g p)) (Rsub_v (pt_y q) (pt_y p)))%R /\
  bfgs_direct (N:=RN) 4%R [1; 3]%R [1; 1]%R [[1; 0]; [0; 1]]%R = [[3/4; 1/4]; [1/4; 11/4]]%R.
Proof. exact C37_bfgs_ex_pf. Qed.
