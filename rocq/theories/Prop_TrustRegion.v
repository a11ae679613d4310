(** Property theorems: TrustRegion.
    Statements only; each is closed by the lemma of the same name (suffix _pf)
    in the proof file.  [Example]s show concrete cases meeting the hypotheses. *)

From Coq Require Import String List Bool Arith Lia ZArith QArith Qreals Reals Lra Psatz.
From Verif Require Import Num NumFacts NumDiv NumSq Vec Results Iterate Spec_Iterate Iterate_proofs.
From Verif Require Import Spec_Vec VecFacts Spec_Lin LinFacts NumF64 NumF64_facts.
From Verif Require Import Search Spec_Search Descent Minimisers QuasiNewton Solvers FixedPoint_proofs Minimisers_proofs Spec_Examples Progress_proofs.
Import ListNotations.
Local Open Scope nat_scope.
From Verif Require Import TrustRegion_proofs.

(** Both trust regions follow the documented rule, in exact arithmetic, for
    every step and any function information. *)
Theorem C30_ratio_rule :
  forall (P : tr_params RN), tr_valid (N:=RN) P = true ->
  forall first y y_eval f_info f_eval_info (radius : R),
    let rule := tr_rule (tr_low_cutoff P) (tr_high_cutoff P) (tr_low_constant P) (tr_high_constant P) in
    let change := (as_min f_eval_info - as_min f_info)%R in
    let d := Rsub_v y_eval y in
    (let '(step, accept, res, st) :=
       se_step (classical_trust_region (N:=RN) P) first y y_eval f_info f_eval_info radius in
     st = step /\ res = successful /\
     rule first change (classical_predict (N:=RN) d f_info) radius step accept) /\
    (let '(step, accept, res, st) :=
       se_step (linear_trust_region (N:=RN) P) first y y_eval f_info f_eval_info radius in
     st = step /\ res = successful /\
     rule first change (linear_predict (N:=RN) d f_info) radius step accept).
Proof. exact C30_ratio_rule_pf. Qed.
Print Assumptions C30_ratio_rule.

(** With positive constants the radius stays positive, whatever the function
    values. *)
Theorem C30_radius_positive :
  forall (P : tr_params RN) (calls : list (search_call RN)) y i,
    (0 < (tr_low_constant P : R))%R -> (0 < (tr_high_constant P : R))%R ->
    let c := classical_trust_region (N:=RN) P in
    let l := linear_trust_region (N:=RN) P in
    Forall (fun p => (0 < fst p)%R) (search_run c calls (se_init c y i)) /\
    Forall (fun p => (0 < fst p)%R) (search_run l calls (se_init l y i)).
Proof. exact C30_radius_positive_pf. Qed.
Print Assumptions C30_radius_positive.

(** The constructor accepts low_constant = 0 (its check is `< 0` although the
    message says the constant must be greater than 0): then one rejection makes
    the radius zero for ever. *)
Theorem C30_zero_constant_refuted :
  exists P : tr_params F64,
    tr_valid (N:=F64) P = true /\
    let s := classical_trust_region (N:=F64) P in
    let i := ResidualJac (N:=F64) [f64_ofZ 1] (MatOp 1 [[f64_ofZ 1]]) in
    let call b v := mkCall (N:=F64) b [f64_ofZ 1] [f64_ofZ 0] i (Residual [v]) in
    (* a rejected step, then a perfect step *)
    let out := search_run s [call true (f64_ofZ 1); call false (f64_ofZ 2); call false (f64_ofZ 0)] (f64_ofZ 1) in
    map snd out = [true; false; true] /\
    forallb (fun p => neqb (n:=F64) (fst p) (f64_ofZ 0)) (tl out) = true.
Proof. exact C30_zero_constant_refuted_pf. Qed.
Print Assumptions C30_zero_constant_refuted.

(** In binary64 and in exact arithmetic with NaN: after the first step, a NaN
    objective value is rejected by both trust regions (whatever the prediction),
    and the radius is multiplied by low_constant. *)
Theorem C30_nan_rejected :
  forall (N : Num), N = F64 \/ N = XR ->
  forall (P : tr_params N) y y_eval f_info f_eval_info radius,
    nisnan (as_min f_eval_info) = true ->
    (exists st, se_step (classical_trust_region P) false y y_eval f_info f_eval_info radius
       = (nmul (tr_low_constant P) radius, false, successful, st)) /\
    (exists st, se_step (linear_trust_region P) false y y_eval f_info f_eval_info radius
       = (nmul (tr_low_constant P) radius, false, successful, st)).
Proof. exact C30_nan_rejected_pf. Qed.
Print Assumptions C30_nan_rejected.

(** Example: with the default constants, residual 1 and Jacobian 1 at y = 1, a
    full Newton step to 0: predicted change -1/2.  A perfect step grows the radius
    to 3.5; a step reaching residual 3/4 keeps it; an increase shrinks it to
    1/4. *)
Example C30_ratio_rule_ex :
  let i := ResidualJac (N:=F64) [f64_ofZ 1] (MatOp 1 [[f64_ofZ 1]]) in
  let call v := mkCall (N:=F64) false [f64_ofZ 1] [f64_ofZ 0] i (Residual [f64_ofQ v]) in
  let go v := search_run (classical_trust_region (N:=F64) tr_default) [call v] (f64_ofZ 1) in
  map snd (go 0%Q ++ go (3#4) ++ go (3#2)) = [true; true; false] /\
  forallb (fun p => neqb (n:=F64) (fst p) (snd p))
    (combine (map fst (go 0%Q ++ go (3#4) ++ go (3#2))) [f64_ofQ (7#2); f64_ofZ 1; f64_ofQ (1#4)]) = true.
Proof. exact C30_ratio_rule_ex_pf. Qed.

(** Gauss-Newton skeleton with either trust region, in every arithmetic with the
    order and sign laws (binary64 and extended reals have them): if the predicted
    change is non-positive whenever the iterate moves, the loss never
    increases. *)
Theorem C31_least_squares :
  forall (N : Num) (O : OrdLaws N) (SG : SgnLaws N) (Aux : Type) (P : ar_tols N) (T : tr_params N)
         (linear_model : bool) (descent : Descent N) jac_of (fn : list N -> list N * Aux) y0 fs auxs st0,
    nleb (nofQ 0) (tr_low_cutoff T) = true ->
    let search := if linear_model then linear_trust_region T else classical_trust_region T in
    let predict := if linear_model then linear_predict else classical_predict in
    let s := gauss_newton_solver P search descent jac_of in
    s_init s fn y0 fs auxs = Ret st0 ->
    let y := y_at s fn y0 st0 (auxs fill0) in
    (forall k, 0 < k -> y (S k) <> y k ->
       nleb (predict (vsub (y (S k)) (y k)) (ResidualJac (fst (fn (y k))) (jac_of fn (y k)))) (nofQ 0) = true) ->
    let loss z := nmul (nofQ (1#2)) (sum_squares (fst (fn z))) in
    forall j k, j <= k -> y k = y j \/ nleb (loss (y k)) (loss (y j)) = true.
Proof. exact C31_least_squares_pf. Qed.
Print Assumptions C31_least_squares.

(** Gradient-descent skeleton with the linear trust region. *)
Theorem C31_gradient :
  forall (N : Num) (O : OrdLaws N) (SG : SgnLaws N) (Aux : Type) (P : ar_tols N) (T : tr_params N)
         (descent : Descent N) grad_of (fn : list N -> N * Aux) y0 fs auxs st0,
    nleb (nofQ 0) (tr_low_cutoff T) = true ->
    let s := gradient_descent_solver P (linear_trust_region T) descent grad_of in
    s_init s fn y0 fs auxs = Ret st0 ->
    let y := y_at s fn y0 st0 (auxs fill0) in
    (forall k, 0 < k -> y (S k) <> y k ->
       nleb (vdot (grad_of fn (y k)) (vsub (y (S k)) (y k))) (nofQ 0) = true) ->
    forall j k, j <= k -> y k = y j \/ nleb (fst (fn (y k))) (fst (fn (y j))) = true.
Proof. exact C31_gradient_pf. Qed.
Print Assumptions C31_gradient.

(** Quasi-Newton skeleton (use_inverse=False for the classical trust region). *)
Theorem C31_quasi_newton :
  forall (N : Num) (O : OrdLaws N) (SG : SgnLaws N) (Aux HSt : Type) (P : ar_tols N) (T : tr_params N)
         (linear_model : bool) (descent : Descent N) grad_of init_hessian update_hessian
         (fn : list N -> N * Aux) y0 fs auxs st0,
    nleb (nofQ 0) (tr_low_cutoff T) = true ->
    keeps_value_and_grad (HSt:=HSt) update_hessian ->
    let search := if linear_model then linear_trust_region T else classical_trust_region T in
    let predict := if linear_model then linear_predict else classical_predict in
    let s := quasi_newton_solver P search descent grad_of init_hessian update_hessian in
    s_init s fn y0 fs auxs = Ret st0 ->
    let y := y_at s fn y0 st0 (auxs fill0) in
    let st := st_at s fn y0 st0 (auxs fill0) in
    (forall k, 0 < k -> y (S k) <> y k ->
       nleb (predict (vsub (y (S k)) (y k)) (qn_f_info (st k))) (nofQ 0) = true) ->
    forall j k, j <= k -> y k = y j \/ nleb (fst (fn (y k))) (fst (fn (y j))) = true.
Proof. exact C31_quasi_newton_pf. Qed.
Print Assumptions C31_quasi_newton.

(** The hypotheses hold along a binary64 run on x^2 + 4 y^2 from (1, 1): over
    the first eight steps every predicted change is at most 0, some proposals are
    accepted and some rejected. *)
Example C31_gradient_ex :
  let s := gradient_descent_solver (N:=F64) tols (linear_trust_region (N:=F64) tr_default)
             (steepest_descent (N:=F64) None) bowl_grad in
  exists st0,
    s_init s bowl [f64_ofZ 1; f64_ofZ 1] (fun _ => f64_ofZ 0) (fun _ => tt) = Ret st0 /\
    (let y k := y_at s bowl [f64_ofZ 1; f64_ofZ 1] st0 tt k in
     let same k := forallb (fun p => neqb (n:=F64) (fst p) (snd p)) (combine (y k) (y (S k))) in
     forallb (fun k => nleb (n:=F64) (vdot (N:=F64) (bowl_grad bowl (y k)) (vsub (N:=F64) (y (S k)) (y k))) (nofQ (n:=F64) 0))
       (seq 1 8) &&
     existsb same (seq 1 8) && negb (forallb same (seq 1 8)))%bool = true.
Proof. exact C31_gradient_ex_pf. Qed.

(** For least squares the classical trust region predicts g.d + 1/2 d.(J^T J) d
    with g = J^T r, computed without forming J^T J; for minimisation it predicts
    g.d + 1/2 d.H d; the linear trust region predicts g.d.  With H = J^T J the two
    code paths agree. *)
Theorem C33_predict :
  forall (m n : nat) (J H : list (list R)) (r g d : list R) (f : R),
    mat m n J -> mat n n H -> length r = m -> length g = n -> length d = n ->
    let quadratic := (Rdot (tmvec n J r) d + / 2 * Rdot d (tmvec n J (mvec J d)))%R in
    classical_predict (N:=RN) d (ResidualJac r (MatOp n J)) = quadratic /\
    linear_predict (N:=RN) d (ResidualJac r (MatOp n J)) = Rdot (tmvec n J r) d /\
    info_grad (ResidualJac (N:=RN) r (MatOp n J)) = tmvec n J r /\
    classical_predict (N:=RN) d (EvalGradHessian f g (MatOp n H)) = (Rdot g d + / 2 * Rdot d (mvec H d))%R /\
    linear_predict (N:=RN) d (EvalGradHessian f g (MatOp n H)) = Rdot g d /\
    (g = tmvec n J r -> (forall x, length x = n -> mvec H x = tmvec n J (mvec J x)) ->
       classical_predict (N:=RN) d (EvalGradHessian f g (MatOp n H)) =
       classical_predict (N:=RN) d (ResidualJac r (MatOp n J))).
Proof. exact C33_predict_pf. Qed.
Print Assumptions C33_predict.

Example C33_predict_ex :
  let J := [[1; 2]; [0; 1]; [3; 0]]%R in
  mat 3 2 J /\ classical_predict (N:=RN) [1; -1]%R (ResidualJac [1; 1; 1]%R (MatOp 2 J)) = (13/2)%R.
Proof. exact C33_predict_ex_pf. Qed.
