(** Property theorems: LBFGS.
    Statements only; each is closed by the lemma of the same name (suffix _pf)
    in the proof file.  [Example]s show concrete cases meeting the hypotheses. *)

From Coq Require Import String List Bool Arith Lia ZArith QArith Qreals Reals Lra Psatz.
From Verif Require Import Num NumFacts Vec Results Iterate Spec_Iterate Iterate_proofs.
From Verif Require Import Spec_Vec VecFacts Spec_Lin LinFacts NumF64.
From Verif Require Import Search Spec_Search Descent Minimisers QuasiNewton Solvers Minimisers_proofs Progress_proofs TrustRegion_proofs LeastSquares_proofs BFGS_proofs.
From Verif Require Import LinAlg LBFGS Spec_LBFGS LBFGSFacts LBFGSCompact LBFGSDirect Cholesky CholeskyFacts.
Import ListNotations.
Local Open Scope nat_scope.
From Verif Require Import LBFGS_proofs.

(** L-BFGS history, either mode, exact arithmetic: for every history length and
    every sequence of visited points, the buffers read in circular order from the
    next slot hold exactly the last [m] pairs with curvature above eps, oldest
    first, preceded by neutral entries; use_inverse=True also keeps their
    reciprocal inner products. *)
Theorem C40_history :
  forall (n m : nat) (eps : R) (p0 : qn_point) (l : list qn_point),
    0 < m -> sized n p0 -> Forall (sized n) l ->
    let pairs := firstn m (curved_pairs eps p0 l) in
    let held {A} (neutral : A) entries := repeat neutral (m - length pairs) ++ rev (map entries pairs) in
    (exists st, snd (qn_after (lbfgs_init (N:=RN) m true) (lbfgs_update (N:=RN) eps m true) p0 l) = LInv st /\
       circular [] (li_index st) (li_y_diff st) = held (zerov n) fst /\
       circular [] (li_index st) (li_grad_diff st) = held (zerov n) snd /\
       circular 0%R (li_index st) (li_inner st) = held 0%R (fun p => / Rdot (fst p) (snd p))%R) /\
    (exists st, snd (qn_after (lbfgs_init (N:=RN) m false) (lbfgs_update (N:=RN) eps m false) p0 l) = LDir st /\
       circular [] (ld_index st) (ld_y_diff st) = held (zerov n) fst /\
       circular [] (ld_index st) (ld_grad_diff st) = held (zerov n) snd).
Proof. exact C40_history_pf. Qed.
Print Assumptions C40_history.

(** use_inverse=True: the operator (two-loop recursion) is the BFGS
    inverse-Hessian recursion over the last [m] curved pairs started from a
    multiple of the identity; it is a symmetric positive definite matrix mapping
    the newest gradient change to the newest step. *)
Theorem C41_two_loop :
  forall (n m : nat) (eps : R) (p0 : qn_point) (l : list qn_point),
    0 < m -> (0 <= eps)%R -> sized n p0 -> Forall (sized n) l ->
    let pairs := firstn m (curved_pairs eps p0 l) in
    exists op, fst (qn_after (lbfgs_init (N:=RN) m true) (lbfgs_update (N:=RN) eps m true) p0 l) =
                 holds_op true (hd p0 l) op /\
      (forall x : list R, length x = n -> op_mv op x = inverse_of_pairs (initial_scale pairs) pairs x) /\
      (exists H, spd n H /\ acts_as n op H) /\
      (forall s d rest, pairs = (s, d) :: rest -> op_mv op d = s).
Proof. exact C41_two_loop_pf. Qed.
Print Assumptions C41_two_loop.

(** use_inverse=False: the operator (compact representation, through a Cholesky
    factorisation and two triangular solves) is the BFGS Hessian recursion over
    the last [m] curved pairs; it is a symmetric positive definite matrix mapping
    the newest step to the newest gradient change. *)
Theorem C42_compact :
  forall (n m : nat) (eps : R) (p0 : qn_point) (l : list qn_point),
    0 < m -> (0 <= eps)%R -> sized n p0 -> Forall (sized n) l ->
    let pairs := firstn m (curved_pairs eps p0 l) in
    exists op, fst (qn_after (lbfgs_init (N:=RN) m false) (lbfgs_update (N:=RN) eps m false) p0 l) =
                 holds_op false (hd p0 l) op /\
      (forall x : list R, length x = n -> op_mv op x = hessian_of_pairs (/ initial_scale pairs) pairs x) /\
      (exists B, spd n B /\ acts_as n op B) /\
      (forall s d rest, pairs = (s, d) :: rest -> op_mv op s = d).
Proof. exact C42_compact_pf. Qed.
Print Assumptions C42_compact.

(** L-BFGS, both modes on the same sequence of points: the two operators are
    inverse to each other and, with exact linear solves, give the same Newton
    step. *)
Theorem C39_lbfgs :
  forall (n m : nat) (eps : R) (lsolve : linop RN -> list R -> list R * results) (p0 : qn_point) (l : list qn_point),
    0 < m -> (0 <= eps)%R -> exact_solve_op n lsolve -> sized n p0 -> Forall (sized n) l ->
    let info use_inverse := fst (qn_after (lbfgs_init (N:=RN) m use_inverse) (lbfgs_update (N:=RN) eps m use_inverse) p0 l) in
    (exists opH opB, info true = holds_op true (hd p0 l) opH /\ info false = holds_op false (hd p0 l) opB /\
       forall x : list R, length x = n -> op_mv opH (op_mv opB x) = x /\ op_mv opB (op_mv opH x) = x) /\
    newton_step (N:=RN) lsolve (info true) = newton_step (N:=RN) lsolve (info false).
Proof. exact C39_lbfgs_pf. Qed.
Print Assumptions C39_lbfgs.

(** Whole runs: with exact linear solves, LBFGS with use_inverse=True and with
    use_inverse=False visit the same iterates, return the same auxiliary outputs
    and make the same termination decisions. *)
Theorem C39_lbfgs_same_run :
  forall (Aux : Type) (P : ar_tols RN) (eps : R) lsolve grad_of (fn : list R -> R * Aux)
         (n m : nat) (y0 : list R) fs auxs,
    0 < m -> (0 <= eps)%R -> exact_solve_op n lsolve ->
    (forall y, length y = n -> length (grad_of fn y) = n) -> length y0 = n ->
    let solver := LBFGS (N:=RN) P grad_of lsolve eps m in
    forall stT stF,
      s_init (solver true) fn y0 fs auxs = Ret stT ->
      s_init (solver false) fn y0 fs auxs = Ret stF ->
    forall k,
      y_at (solver true) fn y0 stT (auxs fill0) k = y_at (solver false) fn y0 stF (auxs fill0) k /\
      aux_at (solver true) fn y0 stT (auxs fill0) k = aux_at (solver false) fn y0 stF (auxs fill0) k /\
      says_terminate (solver true) fn y0 stT (auxs fill0) k = says_terminate (solver false) fn y0 stF (auxs fill0) k /\
      says_result (solver true) fn y0 stT (auxs fill0) k = says_result (solver false) fn y0 stF (auxs fill0) k.
Proof. exact C39_lbfgs_same_run_pf. Qed.
Print Assumptions C39_lbfgs_same_run.

(** Along every run of LBFGS (either mode) the stored information is the value
    and gradient at the current iterate with an operator acting as a symmetric
    positive definite matrix. *)
Theorem C41_lbfgs_run :
  forall (Aux : Type) (P : ar_tols RN) (eps : R) lsolve grad_of (fn : list R -> R * Aux)
         (n m : nat) (y0 : list R) fs auxs (use_inverse : bool) st0,
    0 < m -> (0 <= eps)%R -> exact_solve_op n lsolve ->
    (forall y, length y = n -> length (grad_of fn y) = n) -> length y0 = n ->
    let s := LBFGS (N:=RN) P grad_of lsolve eps m use_inverse in
    s_init s fn y0 fs auxs = Ret st0 ->
    let y := y_at s fn y0 st0 (auxs fill0) in
    let st := st_at s fn y0 st0 (auxs fill0) in
    forall k, 0 < k -> exists op M, spd n M /\ acts_as n op M /\
      qn_f_info (st k) = holds_op use_inverse (mkPoint (y k) (fst (fn (y k))) (grad_of fn (y k))) op.
Proof. exact C41_lbfgs_run_pf. Qed.
Print Assumptions C41_lbfgs_run.

(** Progress of LBFGS, either mode, every history length, exact arithmetic and
    exact linear solves: for a differentiable objective with the gradient
    computed, from every iterate with nonzero gradient finitely many rejections
    are followed by an accepted step that strictly decreases the objective. *)
Theorem C29_lbfgs :
  forall (Aux : Type) (P : ar_tols RN) (eps : R) lsolve grad_of (fn : list R -> R * Aux)
         (n m : nat) (y0 : list R) fs auxs (use_inverse : bool),
    0 < m -> (0 <= eps)%R -> exact_solve_op n lsolve ->
    (forall y, length y = n -> length (grad_of fn y) = n) -> length y0 = n ->
    (forall y d, length y = n -> length d = n ->
       derivable_pt_lim (fun t => fst (fn (along y d t))) 0 (Rdot (grad_of fn y) d)) ->
    let s := LBFGS (N:=RN) P grad_of lsolve eps m use_inverse in
    forall st0, s_init s fn y0 fs auxs = Ret st0 ->
    let y := y_at s fn y0 st0 (auxs fill0) in
    forall k, 0 < k -> grad_of fn (y k) <> zerov n ->
      exists j', k <= j' /\ (forall j, k <= j <= j' -> y j = y k) /\ (fst (fn (y (S j'))) < fst (fn (y k)))%R.
Proof. exact C29_lbfgs_pf. Qed.
Print Assumptions C29_lbfgs.

Example C40_history_ex :
  sized 2 ex_p0 /\ Forall (sized 2) ex_points /\
  curved_pairs (1 / 2) ex_p0 ex_points = [([0; 2]%R, [-3; 3]%R); ([1; 1]%R, [1; 3]%R)] /\
  firstn 1 (curved_pairs (1 / 2) ex_p0 ex_points) = [([0; 2]%R, [-3; 3]%R)].
Proof. exact C40_history_ex_pf. Qed.

(** The two recursions on those pairs, on one vector. *)
Example C41_two_loop_ex :
  let pairs := firstn 2 (curved_pairs (1 / 2) ex_p0 ex_points) in
  initial_scale pairs = (1 / 3)%R /\
  inverse_of_pairs (initial_scale pairs) pairs [-3; 3]%R = [0; 2]%R /\
  hessian_of_pairs (/ initial_scale pairs) pairs [0; 2]%R = [-3; 3]%R.
Proof. exact C41_two_loop_ex_pf. Qed.

(** The hypothesis on the linear solver is met by Cholesky, in every dimension. *)
Example C39_lbfgs_ex : forall n, exact_solve_op n (cholesky_solve (N:=RN)).
Proof. exact C39_lbfgs_ex_pf. Qed.

(** The binary64 operators of a plane history of length 2 that has wrapped
    around once: each maps the newest pair as the secant equation says, up to
    rounding. *)
Example C42_compact_ex :
  let z := f64_ofZ in
  let st := dir_update (N:=F64) 2 (z 0%Z) [z 1; z 3]%Z [z 1; z 1]%Z
           (dir_update (N:=F64) 2 (z 0%Z) [z 2; z 1]%Z [z 1; z 0]%Z
           (dir_update (N:=F64) 2 (z 0%Z) [z 0; z 5]%Z [z 1; z 4]%Z
              (mkDir 0 (repeat [z 0; z 0]%Z 2) (repeat [z 0; z 0]%Z 2) (repeat [z 0; z 0]%Z 2) [z 1; z 1]%Z (identity_mat (N:=F64) 2)))) in
  match direct_operator (N:=F64) 2 st [z 1; z 1]%Z with
  | [a; b] => nleb (nabs (nsub a (z 1%Z))) (nofQ (n:=F64) (1 # 1000000000000)%Q) &&
              nleb (nabs (nsub b (z 3%Z))) (nofQ (n:=F64) (1 # 1000000000000)%Q)
  | _ => false
  end = true.
Proof. exact C42_compact_ex_pf. Qed.
