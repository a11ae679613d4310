(** Proofs about trust-region searches and Levenberg-Marquardt. *)

From Coq Require Import String List Bool Arith Lia ZArith QArith Qreals Reals Lra Psatz.
From Coq Require Classical_Prop.
From Verif Require Import Num NumFacts NumDiv NumSq Vec Results Iterate Spec_Iterate Iterate_proofs.
From Verif Require Import Spec_Vec VecFacts Spec_Lin LinFacts NumF64 NumF64_facts.
From Verif Require Import Search Spec_Search Descent Minimisers QuasiNewton Solvers FixedPoint_proofs Minimisers_proofs Spec_Examples Progress_proofs.
Import ListNotations.
Local Open Scope nat_scope.

(** ** The step-size rule *)

Lemma tr_step_rule : forall (P : tr_params RN) predict first y ye fi fe (radius : R),
  tr_valid (N:=RN) P = true ->
  let '(nr, acc, res, st) := tr_step (N:=RN) P predict first y ye fi fe radius in
  st = nr /\ res = successful /\
  tr_rule (tr_low_cutoff P) (tr_high_cutoff P) (tr_low_constant P) (tr_high_constant P) first
    (as_min fe - as_min fi) (predict (Rsub_v ye y) fi) radius nr acc.
Proof.
  intros P predict first y ye fi fe radius V. unfold tr_step. cbv zeta.
  split; [reflexivity|]. split; [reflexivity|].
  rewrite vsub_RN. cbn [nsub RN nleb nmul nltb nofQ]. rewrite Q2R_0, Q2R_1.
  set (p := predict _ _). set (c := (_ - _)%R).
  assert (HV : (tr_low_cutoff P <= tr_high_cutoff P)%R).
  { unfold tr_valid in V. apply andb_true_iff in V as [V _]. apply andb_true_iff in V as [V _].
    apply negb_true_iff in V. cbn [nltb RN] in V. apply Rltb_false in V. exact V. }
  change (T RN) with R in *.
  set (lc := (tr_low_cutoff P : R)) in *. set (hc := (tr_high_cutoff P : R)) in *.
  set (lk := (tr_low_constant P : R)). set (hk := (tr_high_constant P : R)).
  clearbody p c lc hc lk hk. clear - HV.
  split; [|split].
  - intros ->. cbn. rewrite orb_true_r, !andb_false_r. split; [reflexivity|lra].
  - intros -> Hp ratio. rewrite orb_false_r, andb_true_r. cbn [negb].
    replace (Rltb p 0) with true by (symmetry; apply Rltb_true; exact Hp). rewrite andb_true_r.
    assert (E : forall q, ((c <= q * p)%R <-> (q <= ratio)%R) /\ ((c < q * p)%R <-> (q < ratio)%R)).
    { intro q. assert (Ec : c = (ratio * p)%R) by (unfold ratio; field; lra).
      rewrite Ec. split; split; intro; nra. }
    destruct (E lc) as [E1 _]. destruct (E hc) as [_ E2]. destruct (E lc) as [_ E3].
    repeat split.
    + intro H. apply Rleb_true in H. apply E1, H.
    + intro H. apply Rleb_true. apply E1, H.
    + intro H. replace (Rleb c (lc * p)) with true by (symmetry; apply Rleb_true, E1; lra).
      replace (Rltb c (hc * p)) with true by (symmetry; apply Rltb_true, E2, H). reflexivity.
    + intros [H1 H2]. replace (Rleb c (lc * p)) with true by (symmetry; apply Rleb_true, E1; lra).
      replace (Rltb c (hc * p)) with false; [lra|].
      symmetry. apply not_true_iff_false. intro H. apply Rltb_true, E2 in H. lra.
    + intro H. replace (Rleb c (lc * p)) with false; [reflexivity|].
      symmetry. apply not_true_iff_false. intro H'. apply Rleb_true, E1 in H'. lra.
  - intros -> Hp. rewrite orb_false_r. cbn [negb].
    replace (Rltb p 0) with false by (symmetry; apply Rltb_false; exact Hp).
    rewrite andb_false_r, andb_false_l. split; [apply Rleb_true|].
    destruct (Rleb _ _); lra.
Qed.

(** Both trust regions follow the documented rule, in exact arithmetic, for
    every step and any function information. *)
Lemma C30_ratio_rule_pf :
  forall (P : tr_params RN), tr_valid (N:=RN) P = true ->
  forall first y y_eval f_info f_eval_info (radius : R),
    let rule := tr_rule (tr_low_cutoff P) (tr_high_cutoff P) (tr_low_constant P) (tr_high_constant P) in
    let change := (as_min f_eval_info - as_min f_info)%R in
    let d := Rsub_v y_eval y in
    (let '(step, accept, res, st) :=
       se_step (classical_trust_region (N:=RN) P) first y y_eval f_info f_eval_info radius in
     st = step /\ res = successful /\
     rule first change (classical_predict (N:=RN) d f_info) radius step accept) /\
    (let '(step, accept, res, st) :=
       se_step (linear_trust_region (N:=RN) P) first y y_eval f_info f_eval_info radius in
     st = step /\ res = successful /\
     rule first change (linear_predict (N:=RN) d f_info) radius step accept).
Proof.
  intros P V first y ye fi fe radius rule change d.
  split; apply tr_step_rule; exact V.
Qed.

Lemma tr_run_pos : forall (P : tr_params RN) predict supp ini calls (r : R),
  (0 < (tr_low_constant P : R))%R -> (0 < (tr_high_constant P : R))%R -> (0 < r)%R ->
  Forall (fun p => (0 < fst p)%R) (search_run (mkSearch R supp ini (tr_step (N:=RN) P predict)) calls r).
Proof.
  intros P predict supp ini calls. induction calls as [|c calls IH]; intros r H1 H2 Hr; [constructor|].
  cbn [search_run se_step]. unfold tr_step at 1. cbv zeta.
  set (acc := _ || sc_first c). set (mul := if acc then _ else _).
  assert (Hm : (0 < mul * r)%R).
  { apply Rmult_lt_0_compat; [|exact Hr]. unfold mul. destruct acc; [|exact H1].
    destruct (_ && _); [exact H2|]. cbn. rewrite Q2R_1. lra. }
  constructor; [exact Hm|]. apply IH; assumption.
Qed.

(** With positive constants the radius stays positive, whatever the function
    values. *)
Lemma C30_radius_positive_pf :
  forall (P : tr_params RN) (calls : list (search_call RN)) y i,
    (0 < (tr_low_constant P : R))%R -> (0 < (tr_high_constant P : R))%R ->
    let c := classical_trust_region (N:=RN) P in
    let l := linear_trust_region (N:=RN) P in
    Forall (fun p => (0 < fst p)%R) (search_run c calls (se_init c y i)) /\
    Forall (fun p => (0 < fst p)%R) (search_run l calls (se_init l y i)).
Proof.
  intros P calls y i H1 H2 c l.
  split; apply tr_run_pos; auto; cbn; rewrite Q2R_1; lra.
Qed.

(** The constructor accepts low_constant = 0 (its check is `< 0` although the
    message says the constant must be greater than 0): then one rejection makes
    the radius zero for ever. *)
Lemma C30_zero_constant_refuted_pf :
  exists P : tr_params F64,
    tr_valid (N:=F64) P = true /\
    let s := classical_trust_region (N:=F64) P in
    let i := ResidualJac (N:=F64) [f64_ofZ 1] (MatOp 1 [[f64_ofZ 1]]) in
    let call b v := mkCall (N:=F64) b [f64_ofZ 1] [f64_ofZ 0] i (Residual [v]) in
    (* a rejected step, then a perfect step *)
    let out := search_run s [call true (f64_ofZ 1); call false (f64_ofZ 2); call false (f64_ofZ 0)] (f64_ofZ 1) in
    map snd out = [true; false; true] /\
    forallb (fun p => neqb (n:=F64) (fst p) (f64_ofZ 0)) (tl out) = true.
Proof.
  exists (mkTr (N:=F64) (f64_ofQ (99#100)) (f64_ofQ (1#100)) (f64_ofQ (7#2)) (f64_ofZ 0)).
  vm_compute. repeat split; reflexivity.
Qed.

(** In binary64 and in exact arithmetic with NaN: after the first step, a NaN
    objective value is rejected by both trust regions (whatever the prediction),
    and the radius is multiplied by low_constant. *)
Lemma C30_nan_rejected_pf :
  forall (N : Num), N = F64 \/ N = XR ->
  forall (P : tr_params N) y y_eval f_info f_eval_info radius,
    nisnan (as_min f_eval_info) = true ->
    (exists st, se_step (classical_trust_region P) false y y_eval f_info f_eval_info radius
       = (nmul (tr_low_constant P) radius, false, successful, st)) /\
    (exists st, se_step (linear_trust_region P) false y y_eval f_info f_eval_info radius
       = (nmul (tr_low_constant P) radius, false, successful, st)).
Proof.
  intros N HN P y ye fi fe radius Hnan.
  assert (L : OrdLaws N /\ NanLaws N).
  { destruct HN as [-> | ->]; split; [apply F64_laws|apply F64_nan|apply XR_laws|apply XR_nan]. }
  destruct L as [O Z].
  split; eexists; cbn [se_step classical_trust_region linear_trust_region]; unfold tr_step; cbv zeta;
    rewrite (nleb_nan_l N O) by (apply (nl_sub_l N Z); exact Hnan); reflexivity.
Qed.

(** Example: with the default constants, residual 1 and Jacobian 1 at y = 1, a
    full Newton step to 0: predicted change -1/2.  A perfect step grows the radius
    to 3.5; a step reaching residual 3/4 keeps it; an increase shrinks it to
    1/4. *)
Example C30_ratio_rule_ex_pf :
  let i := ResidualJac (N:=F64) [f64_ofZ 1] (MatOp 1 [[f64_ofZ 1]]) in
  let call v := mkCall (N:=F64) false [f64_ofZ 1] [f64_ofZ 0] i (Residual [f64_ofQ v]) in
  let go v := search_run (classical_trust_region (N:=F64) tr_default) [call v] (f64_ofZ 1) in
  map snd (go 0%Q ++ go (3#4) ++ go (3#2)) = [true; true; false] /\
  forallb (fun p => neqb (n:=F64) (fst p) (snd p))
    (combine (map fst (go 0%Q ++ go (3#4) ++ go (3#2))) [f64_ofQ (7#2); f64_ofZ 1; f64_ofQ (1#4)]) = true.
Proof. vm_compute. split; reflexivity. Qed.

(** ** Monotonicity *)
Lemma tr_accept_le : forall (N : Num) (O : OrdLaws N) (S : SgnLaws N) (P : tr_params N) predict
    y ye fi fe st step sr st',
  nleb (nofQ 0) (tr_low_cutoff P) = true ->
  nleb (predict (vsub ye y) fi) (nofQ 0) = true ->
  tr_step P predict false y ye fi fe st = (step, true, sr, st') ->
  nleb (as_min fe) (as_min fi) = true.
Proof.
  intros N O S P predict y ye fi fe st step sr st' HL HP H. unfold tr_step in H. cbv zeta in H.
  injection H as _ H _ _. rewrite orb_false_r in H.
  eapply (sl_sub_le N S); [exact H|]. eapply (sl_mul_neg N S); eauto.
Qed.

(** Gauss-Newton skeleton with either trust region, in every arithmetic with the
    order and sign laws (binary64 and extended reals have them): if the predicted
    change is non-positive whenever the iterate moves, the loss never
    increases. *)
Lemma C31_least_squares_pf :
  forall (N : Num) (O : OrdLaws N) (SG : SgnLaws N) (Aux : Type) (P : ar_tols N) (T : tr_params N)
         (linear_model : bool) (descent : Descent N) jac_of (fn : list N -> list N * Aux) y0 fs auxs st0,
    nleb (nofQ 0) (tr_low_cutoff T) = true ->
    let search := if linear_model then linear_trust_region T else classical_trust_region T in
    let predict := if linear_model then linear_predict else classical_predict in
    let s := gauss_newton_solver P search descent jac_of in
    s_init s fn y0 fs auxs = Ret st0 ->
    let y := y_at s fn y0 st0 (auxs fill0) in
    (forall k, 0 < k -> y (S k) <> y k ->
       nleb (predict (vsub (y (S k)) (y k)) (ResidualJac (fst (fn (y k))) (jac_of fn (y k)))) (nofQ 0) = true) ->
    let loss z := nmul (nofQ (1#2)) (sum_squares (fst (fn z))) in
    forall j k, j <= k -> y k = y j \/ nleb (loss (y k)) (loss (y j)) = true.
Proof.
  intros N O SG Aux P T lin descent jac_of fn y0 fs auxs st0 HT search predict s Hi y HP loss.
  apply gn_init_inv in Hi. subst st0.
  apply (monotone_from_start N O loss). intro k.
  assert (HA : accepts_first search)
    by (unfold search; destruct lin; [apply accepts_first_builtin|apply accepts_first_builtin]).
  pose proof (gn_invariant P search descent jac_of fn y0 fs auxs HA) as H.
  pose proof (gn_first P search descent jac_of fn y0 fs auxs HA) as HF.
  destruct (Nat.eq_dec k 0) as [->|Hk].
  { left. apply (H 0). reflexivity. }
  destruct (gn_step_cases _ _ _ _ _ _ _ _ _ _ (gn_trace_S P search descent jac_of fn y0 fs auxs k))
    as (step & acc & sr & sst & Es & E1 & E2 & E3 & E4 & E6 & E5).
  destruct (HF k) as [F1 F2]. destruct (F2 ltac:(lia)) as [Ff _].
  destruct acc; [|left; apply E5]. destruct E5 as (Ey & _).
  replace (gn_first_step _) with false in Es
    by (symmetry; apply not_true_iff_false; intro F; apply F1 in F; contradiction).
  assert (Hdec : y (S k) = y k \/ y (S k) <> y k) by apply Classical_Prop.classic.
  destruct Hdec as [|Hne]; [left; assumption|right].
  specialize (HP k ltac:(lia) Hne). fold y in Ey, Ff.
  unfold y, s in HP, Hne |- *. fold s y in HP, Hne |- *.
  change (y (S k) = gn_y_eval (st_at s fn y0 (gn_st0 search descent y0 fs auxs) (auxs fill0) k)) in Ey.
  rewrite Ey in HP |- *.
  rewrite Ff in Es.
  unfold search, predict in *. clear - O SG HT HP Es. destruct lin.
  - apply (tr_accept_le N O SG T _ _ _ _ _ _ _ _ _ HT HP) in Es. exact Es.
  - apply (tr_accept_le N O SG T _ _ _ _ _ _ _ _ _ HT HP) in Es. exact Es.
Qed.

(** Gradient-descent skeleton with the linear trust region. *)
Lemma C31_gradient_pf :
  forall (N : Num) (O : OrdLaws N) (SG : SgnLaws N) (Aux : Type) (P : ar_tols N) (T : tr_params N)
         (descent : Descent N) grad_of (fn : list N -> N * Aux) y0 fs auxs st0,
    nleb (nofQ 0) (tr_low_cutoff T) = true ->
    let s := gradient_descent_solver P (linear_trust_region T) descent grad_of in
    s_init s fn y0 fs auxs = Ret st0 ->
    let y := y_at s fn y0 st0 (auxs fill0) in
    (forall k, 0 < k -> y (S k) <> y k ->
       nleb (vdot (grad_of fn (y k)) (vsub (y (S k)) (y k))) (nofQ 0) = true) ->
    forall j k, j <= k -> y k = y j \/ nleb (fst (fn (y k))) (fst (fn (y j))) = true.
Proof.
  intros N O SG Aux P T descent grad_of fn y0 fs auxs st0 HT s Hi y HP.
  apply gd_init_inv in Hi. subst st0.
  apply (monotone_from_start N O (fun z => fst (fn z))). intro k.
  assert (HA : accepts_first (linear_trust_region T)) by apply accepts_first_builtin.
  pose proof (gd_invariant P _ descent grad_of fn y0 fs auxs HA) as H.
  pose proof (gd_first P _ descent grad_of fn y0 fs auxs HA) as HF.
  destruct (Nat.eq_dec k 0) as [->|Hk].
  { left. apply (H 0). reflexivity. }
  destruct (gd_step_cases _ _ _ _ _ _ _ _ _ _ (gd_trace_S P (linear_trust_region T) descent grad_of fn y0 fs auxs k))
    as (step & acc & sr & sst & Es & E1 & E2 & E3 & E4 & E6 & E5).
  destruct (HF k) as [F1 F2]. destruct (F2 ltac:(lia)) as [Ff _].
  destruct acc; [|left; apply E5]. destruct E5 as (Ey & _).
  replace (gd_first_step _) with false in Es
    by (symmetry; apply not_true_iff_false; intro F; apply F1 in F; contradiction).
  assert (Hdec : y (S k) = y k \/ y (S k) <> y k) by apply Classical_Prop.classic.
  destruct Hdec as [|Hne]; [left; assumption|right].
  specialize (HP k ltac:(lia) Hne).
  change (y (S k) = gd_y_eval (st_at s fn y0 (gd_st0 (linear_trust_region T) descent y0 fs auxs) (auxs fill0) k)) in Ey.
  rewrite Ey in HP |- *.
  rewrite Ff in Es.
  refine (tr_accept_le N O SG T linear_predict _ _ _ _ _ _ _ _ HT _ Es). exact HP.
Qed.

(** Quasi-Newton skeleton (use_inverse=False for the classical trust region). *)
Lemma C31_quasi_newton_pf :
  forall (N : Num) (O : OrdLaws N) (SG : SgnLaws N) (Aux HSt : Type) (P : ar_tols N) (T : tr_params N)
         (linear_model : bool) (descent : Descent N) grad_of init_hessian update_hessian
         (fn : list N -> N * Aux) y0 fs auxs st0,
    nleb (nofQ 0) (tr_low_cutoff T) = true ->
    keeps_value_and_grad (HSt:=HSt) update_hessian ->
    let search := if linear_model then linear_trust_region T else classical_trust_region T in
    let predict := if linear_model then linear_predict else classical_predict in
    let s := quasi_newton_solver P search descent grad_of init_hessian update_hessian in
    s_init s fn y0 fs auxs = Ret st0 ->
    let y := y_at s fn y0 st0 (auxs fill0) in
    let st := st_at s fn y0 st0 (auxs fill0) in
    (forall k, 0 < k -> y (S k) <> y k ->
       nleb (predict (vsub (y (S k)) (y k)) (qn_f_info (st k))) (nofQ 0) = true) ->
    forall j k, j <= k -> y k = y j \/ nleb (fst (fn (y k))) (fst (fn (y j))) = true.
Proof.
  intros N O SG Aux HSt P T lin descent grad_of ih uh fn y0 fs auxs st0 HT HK search predict s Hi y st HP.
  apply qn_init_inv in Hi. subst st0.
  apply (monotone_from_start N O (fun z => fst (fn z))). intro k.
  assert (HA : accepts_first search)
    by (unfold search; destruct lin; [apply accepts_first_builtin|apply accepts_first_builtin]).
  pose proof (qn_invariant P _ descent grad_of ih uh fn y0 fs auxs HA HK) as H.
  pose proof (qn_first P _ descent grad_of ih uh fn y0 fs auxs HA HK) as HF.
  destruct (Nat.eq_dec k 0) as [->|Hk].
  { left. apply (H 0). reflexivity. }
  destruct (qn_step_cases _ _ _ _ _ _ _ _ _ _ _ (qn_trace_S P search descent grad_of ih uh fn y0 fs auxs k))
    as (step & acc & sr & sst & Es & E1 & E2 & E3 & E7 & E4 & E6 & E5).
  destruct (HF k) as [F1 F2]. destruct (F2 ltac:(lia)) as (Ff & _).
  destruct acc; [|left; apply E5]. destruct E5 as (Ey & _).
  replace (qn_first_step _) with false in Es
    by (symmetry; apply not_true_iff_false; intro F; apply F1 in F; contradiction).
  assert (Hdec : y (S k) = y k \/ y (S k) <> y k) by apply Classical_Prop.classic.
  destruct Hdec as [|Hne]; [left; assumption|right].
  specialize (HP k ltac:(lia) Hne).
  change (y (S k) = qn_y_eval (st k)) in Ey.
  change (as_min (qn_f_info (st k)) = fst (fn (y k))) in Ff.
  rewrite Ey in HP |- *. rewrite <- Ff.
  fold s in Es. fold st y in Es.
  change (st_at s fn y0 (qn_st0 search descent ih y0 fs auxs) (auxs fill0)) with st in Es.
  clearbody st. unfold search, predict in *. clear - O SG HT HP Es. destruct lin.
  - exact (tr_accept_le N O SG T linear_predict _ _ _ _ _ _ _ _ HT HP Es).
  - exact (tr_accept_le N O SG T classical_predict _ _ _ _ _ _ _ _ HT HP Es).
Qed.

(** The hypotheses hold along a binary64 run on x^2 + 4 y^2 from (1, 1): over
    the first eight steps every predicted change is at most 0, some proposals are
    accepted and some rejected. *)
Example C31_gradient_ex_pf :
  let s := gradient_descent_solver (N:=F64) tols (linear_trust_region (N:=F64) tr_default)
             (steepest_descent (N:=F64) None) bowl_grad in
  exists st0,
    s_init s bowl [f64_ofZ 1; f64_ofZ 1] (fun _ => f64_ofZ 0) (fun _ => tt) = Ret st0 /\
    (let y k := y_at s bowl [f64_ofZ 1; f64_ofZ 1] st0 tt k in
     let same k := forallb (fun p => neqb (n:=F64) (fst p) (snd p)) (combine (y k) (y (S k))) in
     forallb (fun k => nleb (n:=F64) (vdot (N:=F64) (bowl_grad bowl (y k)) (vsub (N:=F64) (y (S k)) (y k))) (nofQ (n:=F64) 0))
       (seq 1 8) &&
     existsb same (seq 1 8) && negb (forallb same (seq 1 8)))%bool = true.
Proof. apply (check_out _ _ (fun st0 => _)). vm_compute. reflexivity. Qed.

(** ** The model used for the prediction *)
Lemma op_mv_RN : forall n (A : list (list R)) (x : list R), op_mv (N:=RN) (MatOp n A) x = mvec A x.
Proof. intros n A x. cbn [op_mv]. unfold mvec. apply map_ext. intro row. apply vdot_RN. Qed.

Lemma op_mvT_RN : forall m n (A : list (list R)) (x : list R), mat m n A ->
  op_mvT (N:=RN) (MatOp n A) x = tmvec n A x.
Proof.
  intros m n A x [_ HF]. cbn [op_mvT]. revert x.
  induction HF as [|row A Hr HF IH]; intro x.
  - rewrite tmvec_nil. destruct x; cbn; unfold vfull, zerov; rewrite Q2R_0; reflexivity.
  - destruct x as [|a x].
    + rewrite tmvec_nil_r. cbn. unfold vfull, zerov. rewrite Q2R_0. reflexivity.
    + rewrite tmvec_cons by exact Hr. rewrite <- IH. cbn [vmap2 fold_right]. rewrite vadd_RN. reflexivity.
Qed.

Lemma mat_linear : forall m n A, mat m n A -> linear_op n m (MatOp (N:=RN) n A) /\ transpose_op n (MatOp (N:=RN) n A).
Proof.
  intros m n A HA. split; [split; [|split]|split].
  - intros x _. rewrite op_mv_RN, mvec_length. apply HA.
  - intros x y Hx Hy. rewrite !op_mv_RN. eapply mvec_add; eauto.
  - intros c x Hx. rewrite !op_mv_RN. apply mvec_scal.
  - intro x. rewrite (op_mvT_RN m) by exact HA. apply tmvec_length.
  - intros x d Hd. rewrite (op_mvT_RN m) by exact HA. rewrite op_mv_RN. eapply tmvec_adjoint; eauto.
Qed.

Lemma sq_add : forall a b : list R, length a = length b ->
  Rdot (Radd_v a b) (Radd_v a b) = (Rdot a a + 2 * Rdot a b + Rdot b b)%R.
Proof.
  intros a b H. rewrite Rdot_add_l, !Rdot_add_r by exact H. rewrite (Rdot_comm b a). lra.
Qed.

Lemma predict_ls : forall (n m : nat) (A : linop RN) (r d : list R),
  linear_op n m A -> length r = m -> length d = n ->
  classical_predict (N:=RN) d (ResidualJac (N:=RN) r A) =
  (Rdot (op_mv A d) r + / 2 * Rdot (op_mv A d) (op_mv A d))%R.
Proof.
  intros n m A r d (L1 & _) Hr Hd. cbn [classical_predict]. rewrite !sum_squares_RN, vadd_RN.
  rewrite sq_add by (rewrite L1; auto). cbn. rewrite Q2R_half. 
  set (u := op_mv A d). change (op_mv A d) with u. lra.
Qed.

(** For least squares the classical trust region predicts g.d + 1/2 d.(J^T J) d
    with g = J^T r, computed without forming J^T J; for minimisation it predicts
    g.d + 1/2 d.H d; the linear trust region predicts g.d.  With H = J^T J the two
    code paths agree. *)
Lemma C33_predict_pf :
  forall (m n : nat) (J H : list (list R)) (r g d : list R) (f : R),
    mat m n J -> mat n n H -> length r = m -> length g = n -> length d = n ->
    let quadratic := (Rdot (tmvec n J r) d + / 2 * Rdot d (tmvec n J (mvec J d)))%R in
    classical_predict (N:=RN) d (ResidualJac r (MatOp n J)) = quadratic /\
    linear_predict (N:=RN) d (ResidualJac r (MatOp n J)) = Rdot (tmvec n J r) d /\
    info_grad (ResidualJac (N:=RN) r (MatOp n J)) = tmvec n J r /\
    classical_predict (N:=RN) d (EvalGradHessian f g (MatOp n H)) = (Rdot g d + / 2 * Rdot d (mvec H d))%R /\
    linear_predict (N:=RN) d (EvalGradHessian f g (MatOp n H)) = Rdot g d /\
    (g = tmvec n J r -> (forall x, length x = n -> mvec H x = tmvec n J (mvec J x)) ->
       classical_predict (N:=RN) d (EvalGradHessian f g (MatOp n H)) =
       classical_predict (N:=RN) d (ResidualJac r (MatOp n J))).
Proof.
  intros m n J H r g d f HJ HH Hr Hg Hd quadratic.
  assert (Q1 : classical_predict (N:=RN) d (ResidualJac r (MatOp n J)) = quadratic).
  { rewrite (predict_ls n m) by (auto; apply mat_linear; exact HJ). rewrite !op_mv_RN.
    unfold quadratic. rewrite (tmvec_adjoint m n J r d HJ Hd).
    rewrite (Rdot_comm d (tmvec _ _ _)), (tmvec_adjoint m n J (mvec J d) d HJ Hd).
    rewrite (Rdot_comm r). reflexivity. }
  assert (Q2 : classical_predict (N:=RN) d (EvalGradHessian f g (MatOp n H)) = (Rdot g d + / 2 * Rdot d (mvec H d))%R).
  { cbn [classical_predict]. rewrite vdot_RN, vadd_RN, vscale_RN, op_mv_RN.
    rewrite Rdot_add_r by (rewrite Rscal_length, mvec_length; destruct HH as [-> _]; exact Hg).
    rewrite Rdot_scal_r. cbn. rewrite Q2R_half, (Rdot_comm d g). reflexivity. }
  split; [exact Q1|]. split; [|split; [|split; [exact Q2|split]]].
  - unfold linear_predict. cbn [compute_grad_dot]. rewrite vdot_RN, op_mv_RN.
    rewrite (tmvec_adjoint m n J r d HJ Hd). apply Rdot_comm.
  - cbn [info_grad]. eapply op_mvT_RN; eauto.
  - unfold linear_predict. cbn [compute_grad_dot]. apply vdot_RN.
  - intros -> E. rewrite Q1, Q2, (E d Hd). reflexivity.
Qed.

Example C33_predict_ex_pf :
  let J := [[1; 2]; [0; 1]; [3; 0]]%R in
  mat 3 2 J /\ classical_predict (N:=RN) [1; -1]%R (ResidualJac [1; 1; 1]%R (MatOp 2 J)) = (13/2)%R.
Proof.
  split; [repeat constructor|]. cbn. unfold Q2R. cbn. lra.
Qed.

(** ** Monotone least-squares solvers *)
Lemma vsub_vadd : forall d y : list R, length d = length y -> vsub (N:=RN) (vadd (N:=RN) y d) y = d.
Proof.
  induction d as [|a d IH]; intros [|b y] H; try discriminate H; [reflexivity|].
  cbn. f_equal; [lra|]. apply IH. now injection H.
Qed.

Section Mono.
  Context {Aux : Type}.
  Variables (P : ar_tols RN) (T : tr_params RN) (descent : Descent RN).
  Variable jac_of : (list R -> list R * Aux) -> list R -> linop RN.
  Variable fn : list R -> list R * Aux.
  Variables (n : nat) (y0 : list R) (fs : fillv -> list R) (auxs : fillv -> Aux).
  Hypothesis Ln : length y0 = n.
  Hypothesis HT : (0 <= (tr_low_cutoff T : R))%R.
  Hypothesis Hlk : (0 < (tr_low_constant T : R))%R.
  Hypothesis Hhk : (0 < (tr_high_constant T : R))%R.
  Hypothesis HD : forall y (step : R) st, length y = n -> (0 < step)%R ->
    let i := ResidualJac (N:=RN) (fst (fn y)) (jac_of fn y) in
    let d := fst (d_step descent step (d_query descent y i st)) in
    length d = n /\ (classical_predict (N:=RN) d i <= 0)%R.
  Let search := classical_trust_region (N:=RN) T.
  Let s := gauss_newton_solver (N:=RN) P search descent jac_of.
  Let Yk := y_at s fn y0 (gn_st0 (N:=RN) search descent y0 fs auxs) (auxs fill0).
  Let Sk := st_at s fn y0 (gn_st0 (N:=RN) search descent y0 fs auxs) (auxs fill0).

  Lemma tr_state_pos : forall first y ye fi fe (st : R) step acc sr sst,
    se_step search first y ye fi fe st = (step, acc, sr, sst) -> (0 < st)%R ->
    sst = step /\ (0 < (step : R))%R.
  Proof.
    intros first y ye fi fe st step acc sr sst H Hst. cbn in H. unfold tr_step in H. cbv zeta in H.
    injection H as H _ _ H'. split; [congruence|]. rewrite <- H.
    apply Rmult_lt_0_compat; [|exact Hst].
    match goal with |- (0 < (if ?a then _ else _))%R => destruct a; [|exact Hlk] end.
    match goal with |- (0 < (if ?a then _ else _))%R => destruct a; [exact Hhk|] end.
    cbn. rewrite Q2R_1. lra.
  Qed.

  Lemma tr_accepted : forall y ye fi fe st step sr sst,
    se_step search false y ye fi fe st = (step, true, sr, sst) ->
    (as_min (N:=RN) fe - as_min (N:=RN) fi <= tr_low_cutoff T * classical_predict (N:=RN) (vsub (N:=RN) ye y) fi)%R.
  Proof.
    intros y ye fi fe st step sr sst H. cbn [search classical_trust_region se_step] in H.
    unfold tr_step in H. cbv zeta in H. injection H as _ H _ _. rewrite orb_false_r in H.
    apply Rleb_true in H. exact H.
  Qed.

  Lemma mono_inv : forall k, length (Yk k) = n /\ (0 < (gn_search_state (Sk k) : R))%R /\
    length (gn_y_eval (Sk k)) = n /\
    (0 < k -> exists st', gn_descent_state (Sk k) = d_query descent (Yk k) (ResidualJac (N:=RN) (fst (fn (Yk k))) (jac_of fn (Yk k))) st' /\
       gn_y_eval (Sk k) = vadd (N:=RN) (Yk k) (fst (d_step descent (gn_search_state (Sk k)) (gn_descent_state (Sk k))))).
  Proof.
    assert (HA : accepts_first search) by exact (proj1 (proj2 (accepts_first_builtin RN)) T).
    pose proof (gn_first (N:=RN) P search descent jac_of fn y0 fs auxs HA) as HF.
    induction k as [|k (I1 & I2 & I3 & I4)].
    - split; [exact Ln|]. split; [cbn; rewrite Q2R_1; lra|]. split; [exact Ln|lia].
    - destruct (gn_step_cases _ _ _ _ _ _ _ _ _ _ (gn_trace_S (N:=RN) P search descent jac_of fn y0 fs auxs k))
        as (step & acc & sr & sst & Es & E1 & E2 & E3 & E4 & E6 & E5).
      destruct (tr_state_pos _ _ _ _ _ _ _ _ _ _ Es I2) as [-> Hstep].
      assert (K : length (Yk (S k)) = n /\ exists st', gn_descent_state (Sk (S k)) =
         d_query descent (Yk (S k)) (ResidualJac (N:=RN) (fst (fn (Yk (S k)))) (jac_of fn (Yk (S k)))) st').
      { destruct acc.
        - destruct E5 as (Ey & _ & _ & Ed & _). split; [|eexists; exact Ed].
          exact (eq_trans (f_equal (@length R) Ey) I3).
        - destruct E5 as (Ey & _ & _ & Ed & _). change (Yk (S k) = Yk k) in Ey. rewrite Ey. split; [exact I1|].
          destruct (Nat.eq_dec k 0) as [->|Hk].
          + exfalso. assert (F : gn_first_step (Sk 0) = true) by (apply (HF 0); reflexivity).
            unfold Sk, s in F. rewrite F in Es.
            match type of Es with se_step _ _ ?a ?b ?c ?d ?e = _ => pose proof (HA a b c d e) as HA' end.
            pose proof (eq_trans (eq_sym (f_equal (fun p => snd (fst (fst p))) Es)) HA') as X. discriminate X.
          + destruct (I4 ltac:(lia)) as (st' & Hs & _). exists st'. exact (eq_trans Ed Hs). }
      destruct K as (K1 & st' & K2).
      assert (E3' : gn_y_eval (Sk (S k)) = vadd (N:=RN) (Yk (S k)) (fst (d_step descent (gn_search_state (Sk (S k))) (gn_descent_state (Sk (S k)))))).
      { unfold Sk at 2. fold s in E2. rewrite E2. exact E3. }
      split; [exact K1|]. split; [unfold Sk, s; rewrite E2; exact Hstep|].
      assert (Hst : (0 < (gn_search_state (Sk (S k)) : R))%R) by (unfold Sk, s; rewrite E2; exact Hstep).
      split; [|intros _; exists st'; split; [exact K2|exact E3']].
      rewrite E3', K2. destruct (HD (Yk (S k)) (gn_search_state (Sk (S k))) st' K1 Hst) as [HL _].
      unfold vadd. rewrite vmap2_length.
      exact (eq_trans (f_equal2 Nat.min K1 HL) (Nat.min_id n)).
  Qed.

  Lemma mono_step : forall k, 
    (Rdot (fst (fn (Yk (S k)))) (fst (fn (Yk (S k)))) <= Rdot (fst (fn (Yk k))) (fst (fn (Yk k))))%R.
  Proof.
    intro k.
    assert (HA : accepts_first search) by exact (proj1 (proj2 (accepts_first_builtin RN)) T).
    pose proof (gn_first (N:=RN) P search descent jac_of fn y0 fs auxs HA k) as [F1 F2].
    destruct (gn_step_cases _ _ _ _ _ _ _ _ _ _ (gn_trace_S (N:=RN) P search descent jac_of fn y0 fs auxs k))
        as (step & acc & sr & sst & Es & E1 & E2 & E3 & E4 & E6 & E5).
    destruct (mono_inv k) as (I1 & I2 & I3 & I4).
    destruct acc; [|destruct E5 as (Ey & _); change (Yk (S k) = Yk k) in Ey; rewrite Ey; lra].
    destruct E5 as (Ey & _). change (Yk (S k) = gn_y_eval (Sk k)) in Ey.
    destruct (Nat.eq_dec k 0) as [->|Hk]; [rewrite Ey; apply Rle_refl|].
    destruct (F2 ltac:(lia)) as [Ff _].
    replace (gn_first_step _) with false in Es
      by (symmetry; apply not_true_iff_false; intro F; apply F1 in F; contradiction).
    destruct (I4 ltac:(lia)) as (st' & Hds & Hye).
    rewrite Hds in Hye.
    destruct (HD (Yk k) (gn_search_state (Sk k)) st' I1 I2) as [HL Hp].
    cbv zeta in HL, Hp. clear E1 E2 E3 E4 E6 I4 Hds.
    set (d := fst (d_step descent (gn_search_state (Sk k)) _)) in *.
    rewrite Ff in Es. apply tr_accepted in Es.
    change (st_at _ fn y0 _ (auxs fill0) k) with (Sk k) in Es.
    change (y_at _ fn y0 _ (auxs fill0) k) with (Yk k) in Es.
    rewrite <- Ey in Es.
    assert (Ed : vsub (N:=RN) (Yk (S k)) (Yk k) = d).
    { rewrite Ey, Hye. apply vsub_vadd. exact (eq_trans HL (eq_sym I1)). }
    unfold as_min in Es. rewrite Ed, !sum_squares_RN in Es.
    assert (Hq : (tr_low_cutoff T * classical_predict (N:=RN) d (ResidualJac (N:=RN) (fst (fn (Yk k))) (jac_of fn (Yk k))) <= 0)%R).
    { rewrite <- (Rmult_0_r (tr_low_cutoff T)). apply Rmult_le_compat_l; assumption. }
    cbn [nofQ nmul nsub RN] in Es. rewrite Q2R_half in Es.
    apply (Rmult_le_reg_l (/2)); [lra|].
    eapply Rminus_le. eapply Rle_trans; [exact Es|exact Hq].
  Qed.

  Lemma mono_all : forall j k, j <= k ->
    (Rdot (fst (fn (Yk k))) (fst (fn (Yk k))) <= Rdot (fst (fn (Yk j))) (fst (fn (Yk j))))%R.
  Proof.
    intros j k H. induction H as [|k H IH]; [lra|]. pose proof (mono_step k). lra.
  Qed.
End Mono.
