(** What one step does: constructor checks of the searches (C62), the
    Levenberg-Marquardt step (C63), reporting of failed linear solves (C64) and
    gradient descent (C65). *)

From Coq Require Import String List Bool Arith Lia ZArith QArith Qreals Reals Lra Psatz.
From Verif Require Import Num NumFacts NumDiv NumSq Vec Results Iterate Spec_Iterate Iterate_proofs.
From Verif Require Import Spec_Vec VecFacts Spec_Lin LinFacts NumF64 NumF64_facts.
From Verif Require Import Search Spec_Search Descent Minimisers QuasiNewton LBFGS Solvers FixedPoint_proofs Minimisers_proofs Spec_Examples.
From Verif Require Import TrustRegion_proofs LeastSquares_proofs Dogleg_proofs Spec_Steps.
Import ListNotations.
Local Open Scope nat_scope.

(** ** C62 *)

(** Exact arithmetic: BacktrackingArmijo can be constructed exactly when
    0 < decrease_factor < 1, 0 < slope < 1 and 0 < step_init; otherwise the
    constructor raises. *)
Lemma C62_armijo_pf :
  forall decrease slope init : R,
    ((0 < decrease < 1)%R /\ (0 < slope < 1)%R /\ (0 < init)%R ->
     armijo_new (N:=RN) decrease slope init = Ret (armijo (N:=RN) decrease slope init)) /\
    (~ ((0 < decrease < 1)%R /\ (0 < slope < 1)%R /\ (0 < init)%R) ->
     armijo_new (N:=RN) decrease slope init = Raise RuntimeError).
Proof.
  intros d s i. unfold armijo_new, armijo_valid. cbn. rewrite !Q2R_1, !Q2R_0.
  split; intro H.
  - rewrite !(proj2 (Rleb_false _ _)) by lra. reflexivity.
  - destruct (Rleb d 0) eqn:E1; [reflexivity|]. destruct (Rleb 1 d) eqn:E2; [reflexivity|].
    destruct (Rleb s 0) eqn:E3; [reflexivity|]. destruct (Rleb 1 s) eqn:E4; [reflexivity|].
    destruct (Rleb i 0) eqn:E5; [reflexivity|]. rb. exfalso. apply H. lra.
Qed.

Lemma leb_negb : forall (N : Num) (O : OrdLaws N) (a b : N),
  nisnan a = false -> nisnan b = false -> nleb a b = negb (nltb b a).
Proof.
  intros N O a b Ha Hb. apply nisnan_false in Ha. apply nisnan_false in Hb.
  destruct (nltb b a) eqn:E; cbn.
  - destruct (nleb a b) eqn:E2; [|reflexivity]. apply (le_not_lt O) in E2. congruence.
  - apply (not_lt_le O); assumption.
Qed.

(** The same in binary64 and in exact arithmetic with infinities, for parameters
    that are not NaN. *)
Lemma C62_armijo_numbers_pf :
  forall (N : Num), N = F64 \/ N = XR ->
  forall decrease slope init : N,
    nisnan decrease = false -> nisnan slope = false -> nisnan init = false ->
    armijo_new decrease slope init =
    if nltb (nofQ 0) decrease && nltb decrease (nofQ 1) &&
       (nltb (nofQ 0) slope && nltb slope (nofQ 1)) && nltb (nofQ 0) init
    then Ret (armijo decrease slope init) else Raise RuntimeError.
Proof.
  intros N HN d s i Hd Hs Hi.
  assert (LL : OrdLaws N /\ DivLaws N /\ NanLaws N).
  { destruct HN as [-> | ->]; [exact (conj F64_laws (conj F64_div F64_nan))|exact (conj XR_laws (conj XR_div XR_nan))]. }
  destruct LL as (O & D & Z).
  assert (Z1 : nisnan (nofQ 1 : N) = false).
  { apply nisnan_false. apply (ol_lt_nan_r N O) with (nofQ 0). apply (dl_01 N D). }
  unfold armijo_new, armijo_valid.
  rewrite !(leb_negb N O) by (auto; apply (nl_0 N Z)).
  rewrite !negb_orb, !negb_involutive. reflexivity.
Qed.

(** NaN parameters slip through the checks: with decrease_factor = NaN the
    constructor succeeds, and one rejection makes the step size NaN. *)
Lemma C62_nan_refuted_pf :
  exists (decrease : f64) (s : Search F64),
    nisnan (N:=F64) decrease = true /\
    armijo_new (N:=F64) decrease (f64_ofQ (1#10)) (f64_ofQ 1) = Ret s /\
    let reject := mkCall (N:=F64) false [f64_ofQ 0] [f64_ofQ 1] (EvalGrad (f64_ofQ 0) [f64_ofQ (-1)]) (Eval (f64_ofQ 1)) in
    let out := search_run s [reject] (se_init s [f64_ofQ 0] (EvalGrad (f64_ofQ 0) [f64_ofQ (-1)])) in
    map snd out = [false] /\ map (fun p => nisnan (N:=F64) (fst p)) out = [true].
Proof.
  exists (ndiv (n:=F64) (f64_ofQ 0) (f64_ofQ 0)),
    (armijo (N:=F64) (ndiv (n:=F64) (f64_ofQ 0) (f64_ofQ 0)) (f64_ofQ (1#10)) (f64_ofQ 1)).
  split; [vm_compute; reflexivity|]. split.
  - unfold armijo_new. replace (armijo_valid (N:=F64) _ _ _) with true by (vm_compute; reflexivity). reflexivity.
  - vm_compute. split; reflexivity.
Qed.

(** Exact arithmetic: the checks of both trust regions pass exactly when
    low_cutoff <= high_cutoff and neither constant is negative. *)
Lemma C62_trust_region_pf :
  forall P : tr_params RN,
    tr_valid P = true <->
    (tr_low_cutoff P <= tr_high_cutoff P)%R /\ (0 <= tr_low_constant P)%R /\ (0 <= tr_high_constant P)%R.
Proof.
  intro P. unfold tr_valid. cbn. rewrite !Q2R_0, !andb_true_iff, !negb_true_iff, !Rltb_false. tauto.
Qed.

Example C62_armijo_ex_pf :
  armijo_new (N:=RN) (1/2)%R (1/10)%R 1%R = Ret (armijo (N:=RN) (1/2)%R (1/10)%R 1%R) /\
  armijo_new (N:=RN) 1%R (1/10)%R 1%R = Raise RuntimeError /\
  armijo_new (N:=RN) (1/2)%R 0%R 1%R = Raise RuntimeError.
Proof.
  split; [|split]; [apply C62_armijo_pf; lra|apply C62_armijo_pf; lra|apply C62_armijo_pf; lra].
Qed.

(** ** C63: Levenberg-Marquardt *)

(** A quadratic t^2 a + 2 t b that is never negative has no linear part. *)
Lemma no_slope : forall a b : R, (0 <= a)%R -> (forall t, 0 <= t * t * a + 2 * t * b)%R -> b = 0%R.
Proof.
  intros a b Ha H. specialize (H (- b / (a + 1))%R).
  assert (E : (- b / (a + 1) * (- b / (a + 1)) * a + 2 * (- b / (a + 1)) * b = - (b * b) * (a + 2) / ((a + 1) * (a + 1)))%R)
    by (field; lra).
  rewrite E in H.
  destruct (Req_dec b 0) as [|N0]; [assumption|]. exfalso.
  assert (0 < b * b)%R by nra.
  assert (0 < b * b * (a + 2) / ((a + 1) * (a + 1)))%R.
  { apply Rdiv_lt_0_compat; nra. }
  unfold Rdiv in *. lra.
Qed.

Lemma add_swap : forall m (u v r : list R), length u = m -> length v = m -> length r = m ->
  Radd_v (Radd_v u v) r = Radd_v (Radd_v u r) v.
Proof.
  induction m as [|m IH]; intros [|a u] [|b v] [|c r] H1 H2 H3; try discriminate; [reflexivity|].
  cbn. f_equal; [ring|]. apply IH; apply eq_add_S; assumption.
Qed.
Lemma add_sub : forall m (w d : list R), length w = m -> length d = m -> w = Radd_v d (Rsub_v w d).
Proof.
  induction m as [|m IH]; intros [|a u] [|b v] H1 H2; try discriminate; [reflexivity|].
  cbn. f_equal; [ring|]. apply IH; apply eq_add_S; assumption.
Qed.

Section Damped.
  Local Open Scope R_scope.
  Variables (n m : nat) (A : linop RN) (r : list R) (lam : R).
  Hypothesis HA : linear_op n m A.
  Hypothesis Hr : length r = m.
  Hypothesis Hl : 0 < lam.

  Lemma damped_expand : forall d e, length d = n -> length e = n ->
    damped_loss A r lam (Radd_v d e) =
    damped_loss A r lam d + 2 * (Rdot (Radd_v (op_mv A d) r) (op_mv A e) + lam * Rdot d e)
      + (Rdot (op_mv A e) (op_mv A e) + lam * Rdot e e).
  Proof.
    intros d e Hd He. destruct HA as (L1 & L2 & _). unfold damped_loss. rewrite L2 by assumption.
    pose proof (L1 d Hd) as E1. pose proof (L1 e He) as E2.
    set (u := op_mv A d : list R) in *. set (v := op_mv A e : list R) in *.
    assert (EQ : Radd_v (Radd_v u v) r = Radd_v (Radd_v u r) v).
    { apply (add_swap m); assumption. }
    rewrite EQ.
    assert (LU : length (Radd_v u r) = m) by (apply Radd_v_length; assumption).
    change (length v = m) in E2. set (q := Radd_v u r) in *. clearbody q.
    rewrite !Rdot_add_l, !Rdot_add_r by congruence.
    rewrite (Rdot_comm v q), (Rdot_comm e d). ring.
  Qed.

  Lemma damped_minimiser : forall d, length d = n ->
    (forall w, length w = n -> damped_loss A r lam d <= damped_loss A r lam w) ->
    (forall e : list R, length e = n -> Rdot (Radd_v (op_mv A d) r) (op_mv A e) + lam * Rdot d e = 0) /\
    (forall w : list R, length w = n -> w <> d -> damped_loss A r lam d < damped_loss A r lam w).
  Proof.
    intros d Hd H.
    assert (Z : forall e : list R, length e = n -> Rdot (Radd_v (op_mv A d) r) (op_mv A e) + lam * Rdot d e = 0).
    { intros e He. apply (no_slope (Rdot (op_mv A e) (op_mv A e) + lam * Rdot e e)).
      - pose proof (Rdot_pos (op_mv A e)). pose proof (Rdot_pos e). nra.
      - intro t. pose proof (H (Radd_v d (Rscal t e)) ltac:(apply Radd_v_length; [|rewrite Rscal_length]; assumption)) as K.
        rewrite damped_expand in K by (rewrite ?Rscal_length; assumption).
        destruct HA as (_ & _ & L3). rewrite L3 in K by assumption.
        rewrite !Rdot_scal_r, !Rdot_scal_l in K. lra. }
    split; [exact Z|]. intros w Hw Nw.
    assert (EW : w = Radd_v d (Rsub_v w d)).
    { apply (add_sub n); assumption. }
    assert (HE : length (Rsub_v w d) = n) by (apply Rsub_v_length; assumption).
    rewrite EW, damped_expand, Z by assumption.
    pose proof (Rdot_pos (op_mv A (Rsub_v w d))). pose proof (Rdot_pos (Rsub_v w d)) as P2.
    destruct (Req_dec (Rdot (Rsub_v w d) (Rsub_v w d)) 0) as [E0|E0]; [|nra].
    exfalso. apply Nw. rewrite EW. apply Rdot_0_inv in E0. rewrite E0, HE, <- Hd. apply Radd_v_0_r.
  Qed.
End Damped.

Lemma neg_sub_add : forall n m A (r z : list R), linear_op n m A -> length r = m -> length z = n ->
  forall lam, (Rdot (Rsub_v (op_mv A z) r) (Rsub_v (op_mv A z) r) + lam * Rdot z z)%R =
  damped_loss A r lam (Rscal (-1) z).
Proof.
  intros n m A r z HA Hr Hz lam. unfold damped_loss. destruct HA as (L1 & _ & L3). rewrite L3 by assumption.
  rewrite neg_residual by (rewrite L1; auto). rewrite Rdot_scal_l, Rdot_scal_r. ring.
Qed.

Lemma scal_neg_neg : forall z : list R, Rscal (-1) (Rscal (-1) z) = z.
Proof. intro z. unfold Rscal. rewrite map_map. rewrite <- (map_id z) at 2. apply map_ext. intro a. ring. Qed.

Lemma lm_param_RN : forall eps fmax step : R, (0 <= eps < step)%R ->
  lm_param (N:=RN) eps fmax step = (/ step)%R.
Proof.
  intros eps fmax step H. unfold lm_param. cbn. rewrite (proj2 (Rltb_true _ _)) by lra. rewrite Q2R_1. field. lra.
Qed.

(** What [damped_newton_step] returns is minus the minimiser. *)
Lemma damped_step_min : forall lsolve eps fmax n m A (r : list R) (step : R), exact_least_squares n lsolve ->
  linear_op n m A -> length r = m -> (0 <= eps < step)%R ->
  let d := Rscal (-1) (fst (damped_newton_step (N:=RN) lsolve eps fmax n step (ResidualJac (N:=RN) r A))) in
  length d = n /\ forall w, length w = n -> (damped_loss A r (/ step) d <= damped_loss A r (/ step) w)%R.
Proof.
  intros lsolve eps fmax n m A r step HE HA Hr Hs d. cbn [damped_newton_step] in d.
  assert (Hp : (0 < / step)%R) by (apply Rinv_0_lt_compat; lra).
  pose proof (HE (m + n)%nat (damped_jac (N:=RN) n A (/ step)%R m) (r ++ zerov n) (damped_linear n m A _ HA)
    ltac:(rewrite app_length, zerov_length; lia)) as [K1 K2].
  assert (ED : d = Rscal (-1) (fst (lsolve (damped_jac (N:=RN) n A (/ step)%R m) (r ++ zerov n)))).
  { unfold d. rewrite (lm_param_RN eps fmax step Hs). change (@length (T RN) r) with (@length R r). rewrite Hr.
    unfold vfull, zerov. cbn [nofQ RN]. rewrite Q2R_0. reflexivity. }
  rewrite ED. set (z := fst (lsolve _ _)) in *. split; [rewrite Rscal_length; exact K1|].
  intros w Hw. specialize (K2 (Rscal (-1) w) ltac:(rewrite Rscal_length; exact Hw)).
  rewrite !(damped_norm n m) in K2 by (auto; try lra; rewrite Rscal_length; exact Hw).
  rewrite !(neg_sub_add n m) in K2 by (auto; rewrite Rscal_length; exact Hw).
  rewrite scal_neg_neg in K2. exact K2.
Qed.

(** The step of Levenberg-Marquardt for the radius [step] (exact arithmetic,
    exact least-squares solves, the Jacobian a linear map J): the only minimiser of
    |J d + r|^2 + (1/step) |d|^2; it satisfies
    (J^T J + (1/step) I) d = - J^T r; no other vector of at most its length makes
    |J d + r| smaller; it is never uphill. *)
Lemma C63_step_pf :
  forall lsolve (eps fmax : R) (n m : nat) (J : linop RN) (r y : list R) (step : R) st,
    exact_least_squares n lsolve -> linear_op n m J -> transpose_op n J -> length r = m -> length y = n ->
    (0 <= eps < step)%R ->
    let descent := damped_newton_descent (N:=RN) lsolve eps fmax in
    let d : list R := fst (d_step descent step (d_query descent y (ResidualJac (N:=RN) r J) st)) in
    length d = n /\
    (forall w, length w = n -> w <> d -> (damped_loss J r (/ step) d < damped_loss J r (/ step) w)%R) /\
    Radd_v (op_mvT J (op_mv J d)) (Rscal (/ step) d) = Rscal (-1) (op_mvT J r) /\
    (forall w, length w = n -> (Rdot w w <= Rdot d d)%R -> (damped_loss J r 0 d <= damped_loss J r 0 w)%R) /\
    (step * Rdot (op_mvT J r) d <= - Rdot d d)%R.
Proof.
  intros lsolve eps fmax n m J r y step st HE HA [T1 T2] Hr Hy Hs descent d.
  assert (Hp : (0 < / step)%R) by (apply Rinv_0_lt_compat; lra).
  assert (ED : d = Rscal (-1) (fst (damped_newton_step (N:=RN) lsolve eps fmax n step (ResidualJac (N:=RN) r J)))).
  { unfold d, descent. cbn [damped_newton_descent d_step d_query fst snd].
    change (@length (T RN) y) with (@length R y). rewrite Hy.
    destruct (damped_newton_step _ _ _ _ _ _) as [sol res]. cbn [fst]. apply vneg_RN. }
  destruct (damped_step_min lsolve eps fmax n m J r step HE HA Hr Hs) as [D1 D2]. rewrite <- ED in D1, D2.
  clearbody d. destruct (damped_minimiser n m J r (/ step)%R HA Hr Hp d D1 D2) as [Z U].
  pose proof HA as (L1 & L2 & L3). pose proof (L1 d D1) as LD.
  split; [exact D1|]. split; [exact U|].
  assert (NE : Radd_v (op_mvT J (op_mv J d)) (Rscal (/ step) d) = Rscal (-1) (op_mvT J r)).
  { assert (LG : length (Radd_v (Radd_v (op_mvT J (op_mv J d)) (Rscal (/ step) d)) (op_mvT J r)) = n).
    { apply Radd_v_length; [apply Radd_v_length|]; rewrite ?Rscal_length; auto; apply T1. }
    set (v := Radd_v (Radd_v (op_mvT J (op_mv J d)) (Rscal (/ step) d)) (op_mvT J r)) in *.
    assert (V0 : Rdot v v = 0%R).
    { unfold v at 1. rewrite !Rdot_add_l by (rewrite ?Radd_v_length with (n:=n), ?Rscal_length, ?T1; auto; rewrite ?Rscal_length, ?T1; auto).
      rewrite !T2 by exact LG. rewrite Rdot_scal_l. pose proof (Z v LG) as Zv.
      rewrite Rdot_add_l in Zv by (rewrite Hr; exact LD). lra. }
    apply Rdot_0_inv in V0. rewrite LG in V0.
    assert (LX : length (Radd_v (op_mvT J (op_mv J d)) (Rscal (/ step) d)) = n).
    { apply Radd_v_length; rewrite ?Rscal_length; auto; apply T1. }
    unfold v in V0. set (a := Radd_v (op_mvT J (op_mv J d)) (Rscal (/ step) d)) in *.
    pose proof (T1 r) as LB. set (b := op_mvT J r : list R) in *. change (length b = n) in LB.
    clear - V0 LX LB. clearbody a b. revert a b V0 LX LB. induction n as [|k IH]; intros [|x a] [|w b] V0 LX LB; try discriminate; [reflexivity|].
    cbn in *. injection V0 as V1 V2. f_equal; [lra|]. apply IH; auto. }
  split; [exact NE|]. split.
  - intros w Hw Hww. unfold damped_loss in *. specialize (D2 w Hw).
    assert (/ step * Rdot w w <= / step * Rdot d d)%R by (apply Rmult_le_compat_l; lra). lra.
  - pose proof (Z d D1) as Zd. rewrite Rdot_add_l in Zd by (rewrite Hr; exact LD).
    rewrite T2 by exact D1. pose proof (Rdot_pos (op_mv J d)) as P1.
    assert (E : (Rdot r (op_mv J d) = - Rdot (op_mv J d) (op_mv J d) - / step * Rdot d d)%R) by lra.
    rewrite E. assert (E2 : (step * (/ step * Rdot d d) = Rdot d d)%R) by (field; lra).
    assert (0 <= step * Rdot (op_mv J d) (op_mv J d))%R by (apply Rmult_le_pos; lra). lra.
Qed.

(** Larger radius, longer step. *)
Lemma C63_longer_pf :
  forall lsolve (eps fmax : R) (n m : nat) (J : linop RN) (r y : list R) (step1 step2 : R) st1 st2,
    exact_least_squares n lsolve -> linear_op n m J -> length r = m -> length y = n ->
    (0 <= eps < step1)%R -> (step1 < step2)%R ->
    let descent := damped_newton_descent (N:=RN) lsolve eps fmax in
    let d1 := fst (d_step descent step1 (d_query descent y (ResidualJac (N:=RN) r J) st1)) in
    let d2 := fst (d_step descent step2 (d_query descent y (ResidualJac (N:=RN) r J) st2)) in
    (Rnorm d1 <= Rnorm d2)%R.
Proof.
  intros lsolve eps fmax n m J r y s1 s2 st1 st2 HE HA Hr Hy Hs H12 descent d1 d2.
  assert (ED : forall s st, fst (d_step descent s (d_query descent y (ResidualJac (N:=RN) r J) st)) =
     Rscal (-1) (fst (damped_newton_step (N:=RN) lsolve eps fmax n s (ResidualJac (N:=RN) r J)))).
  { intros s st. unfold descent. cbn [damped_newton_descent d_step d_query fst snd].
    change (@length (T RN) y) with (@length R y). rewrite Hy.
    destruct (damped_newton_step _ _ _ _ _ _) as [sol res]. cbn [fst]. apply vneg_RN. }
  unfold d1, d2. rewrite !ED.
  destruct (damped_step_min lsolve eps fmax n m J r s1 HE HA Hr Hs) as [L1 M1].
  destruct (damped_step_min lsolve eps fmax n m J r s2 HE HA Hr ltac:(lra)) as [L2 M2].
  set (a := Rscal (-1) _) in *. set (b := Rscal (-1) (fst (damped_newton_step (N:=RN) lsolve eps fmax n s2 _))) in *.
  specialize (M1 b L2). specialize (M2 a L1). unfold damped_loss in M1, M2.
  assert (HI : (/ s2 < / s1)%R) by (apply Rinv_lt_contravar; [nra|lra]).
  unfold Rnorm. apply sqrt_le_1_alt.
  destruct (Rle_dec (Rdot a a) (Rdot b b)) as [|NN]; [assumption|]. exfalso.
  assert (0 < (/ s1 - / s2) * (Rdot a a - Rdot b b))%R by (apply Rmult_lt_0_compat; lra). lra.
Qed.

(** With an (approximate) Hessian H instead of residuals: the step solves
    (H + (1/step) I) d = -grad. *)
Lemma C63_hessian_pf :
  forall lsolve (eps fmax f : R) (n : nat) (H : linop RN) (g y : list R) (step : R) st,
    solves_solvable n lsolve -> linear_op n n H -> length g = n -> length y = n -> (0 <= eps < step)%R ->
    (exists z : list R, length z = n /\ Radd_v (op_mv H z) (Rscal (/ step) z) = g) ->
    let descent := damped_newton_descent (N:=RN) lsolve eps fmax in
    let d : list R := fst (d_step descent step (d_query descent y (EvalGradHessian (N:=RN) f g H) st)) in
    length d = n /\ Radd_v (op_mv H d) (Rscal (/ step) d) = Rscal (-1) g.
Proof.
  intros lsolve eps fmax f n H g y step st HS HL Hg Hy Hs (z & Hz & Ez) descent d.
  assert (HL' : linear_op n n (damped_hessian (N:=RN) H (/ step)%R)).
  { pose proof HL as (L1 & L2 & L3).
    assert (E : forall x : list R, op_mv (damped_hessian (N:=RN) H (/ step)%R) x = Radd_v (op_mv H x) (Rscal (/ step) x)).
    { intro x. cbn [damped_hessian op_mv]. rewrite vadd_RN, vscale_RN. reflexivity. }
    split; [|split].
    - intros x Hx. rewrite E. apply Radd_v_length; [apply L1; exact Hx|rewrite Rscal_length; exact Hx].
    - intros x x' Hx Hx'. rewrite !E, L2 by assumption. generalize (L1 x Hx) (L1 x' Hx').
      generalize (op_mv H x : list R) (op_mv H x' : list R). revert x x' Hx Hx'. generalize (/ step)%R. clear.
      intros c x x' Hx Hx' u v Hu Hv. revert x x' u v Hx Hx' Hu Hv.
      induction n as [|n IH]; intros [|a x] [|a' x'] [|b u] [|b' v]; try discriminate; auto.
      cbn. intros. f_equal; [ring|]. apply IH; congruence.
    - intros c x Hx. rewrite !E, L3 by assumption. generalize (L1 x Hx).
      generalize (op_mv H x : list R). revert x Hx. generalize (/ step)%R. clear.
      intros e x Hx u Hu. revert x u Hx Hu.
      induction n as [|n IH]; intros [|a x] [|b u]; try discriminate; auto.
      cbn. intros. f_equal; [ring|]. apply IH; congruence. }
  destruct (HS (damped_hessian (N:=RN) H (/ step)%R) g HL' Hg) as [K1 K2].
  { exists z. split; [exact Hz|]. cbn [damped_hessian op_mv]. rewrite vadd_RN, vscale_RN. exact Ez. }
  assert (ED : d = Rscal (-1) (fst (lsolve (damped_hessian (N:=RN) H (/ step)%R) g))).
  { unfold d, descent. cbn [damped_newton_descent d_step d_query fst snd damped_newton_step].
    rewrite (lm_param_RN eps fmax step Hs).
    destruct (lsolve _ _) as [sol res]. cbn [fst]. apply vneg_RN. }
  rewrite ED. set (x := fst (lsolve _ _)) in *. split; [rewrite Rscal_length; exact K1|].
  cbn [damped_hessian op_mv] in K2. rewrite vadd_RN, vscale_RN in K2.
  destruct HL as (L1 & L2 & L3). rewrite L3 by exact K1. rewrite <- K2. clear.
  generalize (op_mv H x : list R). intro u. clearbody x. change (list R) in x. revert x.
  induction u as [|a u IH]; intros [|b x]; try reflexivity. cbn. f_equal; [ring|]. apply IH.
Qed.

(** ** Runs *)

Definition memoryless {N : Num} (descent : Descent N) : Prop :=
  forall y i st st', d_query descent y i st = d_query descent y i st'.

Section Run.
  Context {N : Num} {Aux : Type}.
  Variables (P : ar_tols N) (search : Search N) (descent : Descent N).
  Variable jac_of : (list N -> list N * Aux) -> list N -> linop N.
  Variable fn : list N -> list N * Aux.
  Variables (y0 : list N) (fs : fillv -> list N) (auxs : fillv -> Aux).
  Hypothesis HA : accepts_first search.
  Hypothesis HM : memoryless descent.
  Notation s := (gauss_newton_solver P search descent jac_of).
  Notation Yk := (y_at s fn y0 (gn_st0 search descent y0 fs auxs) (auxs fill0)).
  Notation Sk := (st_at s fn y0 (gn_st0 search descent y0 fs auxs) (auxs fill0)).

  Lemma gn_query : forall k dst,
    gn_descent_state (Sk (S k)) =
    d_query descent (Yk (S k)) (ResidualJac (fst (fn (Yk (S k)))) (jac_of fn (Yk (S k)))) dst.
  Proof.
    induction k as [|k IH]; intro dst.
    - pose proof (gn_step_cases _ _ _ _ _ _ _ _ _ _ (gn_trace_S P search descent jac_of fn y0 fs auxs 0))
        as (step & acc & sr & sst & Es & E1 & E2 & E3 & E4 & E6 & E5).
      assert (acc = true).
      { pose proof (HA y0 y0 (gn_f_info (Sk 0)) (ResidualJac (fst (fn y0)) (jac_of fn y0)) (gn_search_state (Sk 0))) as K.
        cbn in K, Es. rewrite Es in K. exact K. }
      subst acc. destruct E5 as (_ & _ & _ & E5 & _). rewrite E5. apply HM.
    - pose proof (gn_step_cases _ _ _ _ _ _ _ _ _ _ (gn_trace_S P search descent jac_of fn y0 fs auxs (S k)))
        as (step & acc & sr & sst & Es & E1 & E2 & E3 & E4 & E6 & E5).
      destruct acc.
      + destruct E5 as (_ & _ & _ & E5 & _). rewrite E5. apply HM.
      + destruct E5 as (Ey & _ & _ & E5 & _). rewrite E5, Ey. apply IH.
  Qed.

  Lemma gn_proposal : forall k dst, exists step sr,
    gn_y_eval (Sk (S k)) = vadd (Yk (S k)) (fst (d_step descent step
      (d_query descent (Yk (S k)) (ResidualJac (fst (fn (Yk (S k)))) (jac_of fn (Yk (S k)))) dst))) /\
    says_result s fn y0 (gn_st0 search descent y0 fs auxs) (auxs fill0) (S k) =
      (if results_eqb sr successful then snd (d_step descent step
        (d_query descent (Yk (S k)) (ResidualJac (fst (fn (Yk (S k)))) (jac_of fn (Yk (S k)))) dst)) else sr) /\
    exists first y ye fi fe st acc, se_step search first y ye fi fe st = (step, acc, sr, gn_search_state (Sk (S k))).
  Proof.
    intros k dst.
    pose proof (gn_step_cases _ _ _ _ _ _ _ _ _ _ (gn_trace_S P search descent jac_of fn y0 fs auxs k))
        as (step & acc & sr & sst & Es & E1 & E2 & E3 & E4 & E6 & E5).
    exists step, sr. rewrite <- (gn_query k dst). split; [exact E3|]. split; [exact E6|].
    rewrite E2. do 7 eexists. exact Es.
  Qed.
End Run.

(** ** C64: failed linear solves are reported *)

(** GaussNewton, in every arithmetic: after each step the status is that of the
    linear solve J(y) d = r(y) at the new iterate. *)
Lemma C64_gauss_newton_pf :
  forall (N : Num) (Aux : Type) (P : ar_tols N) lsolve jac_of (fn : list N -> list N * Aux) y0 fs auxs st0,
    let s := GaussNewton P jac_of lsolve in
    s_init s fn y0 fs auxs = Ret st0 ->
    let y := y_at s fn y0 st0 (auxs fill0) in
    forall k, says_result s fn y0 st0 (auxs fill0) (S k) =
              snd (lsolve (jac_of fn (y (S k))) (fst (fn (y (S k))))).
Proof.
  intros N Aux P lsolve jac_of fn y0 fs auxs st0 s Hi y k. unfold s in Hi. apply gn_init_inv in Hi. subst st0.
  destruct (accepts_first_builtin N) as (_ & _ & _ & A4).
  destruct (gn_proposal P (learning_rate (nofQ 1)) (newton_descent lsolve None) jac_of fn y0 fs auxs (A4 _)
    ltac:(intros ? ? ? ?; reflexivity) k (y0, successful)) as (step & sr & _ & E & (f & a & b & c & d & e & acc & Es)).
  cbn in Es. injection Es as _ _ Er. subst sr. unfold s, GaussNewton. rewrite E. cbn [results_eqb newton_descent d_step d_query newton_step].
  unfold y, s, GaussNewton. destruct (lsolve _ _) as [v res]. reflexivity.
Qed.

(** LevenbergMarquardt, in every arithmetic: with [radius] the trust-region
    radius kept by the search, lam = 1/radius (the largest number if the radius is
    at most eps), each step proposes y - d with d the linear solver's answer to the
    stacked system [J; sqrt(lam) I] d = [r; 0] at the current iterate y, and the
    status is that of this linear solve. *)
Lemma C64_levenberg_marquardt_pf :
  forall (N : Num) (Aux : Type) (P : ar_tols N) lsolve (eps fmax : N) jac_of (fn : list N -> list N * Aux) y0 fs auxs st0,
    let s := LevenbergMarquardt P jac_of lsolve eps fmax in
    s_init s fn y0 fs auxs = Ret st0 ->
    let y := y_at s fn y0 st0 (auxs fill0) in
    let st := st_at s fn y0 st0 (auxs fill0) in
    forall k, let radius : N := gn_search_state (st (S k)) in
    exists A lam,
      lam = (if nltb eps radius then ndiv (nofQ 1) radius else fmax) /\
      stacked (jac_of fn (y (S k))) lam A /\
      let b := fst (fn (y (S k))) ++ repeat (nofQ 0) (length (y (S k))) in
      gn_y_eval (st (S k)) = vadd (y (S k)) (vneg (fst (lsolve A b))) /\
      says_result s fn y0 st0 (auxs fill0) (S k) = snd (lsolve A b).
Proof.
  intros N Aux P lsolve eps fmax jac_of fn y0 fs auxs st0 s Hi y st k radius. unfold s in Hi. apply gn_init_inv in Hi. subst st0.
  destruct (accepts_first_builtin N) as (_ & A2 & _ & _).
  destruct (gn_proposal P (classical_trust_region tr_default) (damped_newton_descent lsolve eps fmax) jac_of fn y0 fs auxs (A2 _)
    ltac:(intros ? ? ? ?; reflexivity) k (0%nat, Eval (nofQ 0))) as (step & sr & E1 & E2 & (f & a & b & c & d & e & acc & Es)).
  cbn [se_step classical_trust_region] in Es. unfold tr_step in Es. injection Es as Et _ Er Eg. subst sr. rewrite Et in Eg.
  change (step = radius) in Eg. clear Et. 
  exists (damped_jac (length (y (S k))) (jac_of fn (y (S k))) (lm_param eps fmax step) (length (fst (fn (y (S k)))))), (lm_param eps fmax step).
  split. { rewrite <- Eg. unfold lm_param. destruct (nltb eps step); reflexivity. }
  split; [intro z; reflexivity|]. cbv zeta.
  cbn [results_eqb damped_newton_descent d_step d_query damped_newton_step fst snd] in E1, E2.
  change (st (S k)) with (st_at (gauss_newton_solver P (classical_trust_region tr_default) (damped_newton_descent lsolve eps fmax) jac_of)
    fn y0 (gn_st0 (classical_trust_region tr_default) (damped_newton_descent lsolve eps fmax) y0 fs auxs) (auxs fill0) (S k)).
  unfold s, LevenbergMarquardt. rewrite E1, E2. unfold y, s, LevenbergMarquardt, vfull.
  destruct (lsolve _ _) as [v res]. split; reflexivity.
Qed.

(** Dogleg (two-norm trust region), in every arithmetic: the status is that of
    the linear solve for the Newton point. *)
Lemma C64_dogleg_pf :
  forall (N : Num) (Aux : Type) (P : ar_tols N) lsolve (eps : N) jac_of (fn : list N -> list N * Aux) y0 fs auxs st0,
    let s := Dogleg P jac_of lsolve eps in
    s_init s fn y0 fs auxs = Ret st0 ->
    let y := y_at s fn y0 st0 (auxs fill0) in
    forall k, says_result s fn y0 st0 (auxs fill0) (S k) =
              snd (lsolve (jac_of fn (y (S k))) (fst (fn (y (S k))))).
Proof.
  intros N Aux P lsolve eps jac_of fn y0 fs auxs st0 s Hi y k. unfold s in Hi. apply gn_init_inv in Hi. subst st0.
  destruct (accepts_first_builtin N) as (_ & A2 & _ & _).
  destruct (gn_proposal P (classical_trust_region tr_default) (dogleg_descent lsolve eps two_norm None) jac_of fn y0 fs auxs (A2 _)
    ltac:(intros ? ? ? ?; reflexivity) k (mkDogleg y0 y0 (nofQ 0) (nofQ 0) successful)) as (step & sr & _ & E & (f & a & b & c & d & e & acc & Es)).
  cbn [se_step classical_trust_region] in Es. unfold tr_step in Es. injection Es as _ _ Er _. subst sr.
  unfold s, Dogleg. rewrite E. cbn [results_eqb dogleg_descent d_step d_query].
  unfold dogleg_step, dogleg_query, dogleg_mix. cbn [newton_step].
  unfold y, s, Dogleg. destruct (lsolve _ _) as [v res]. cbn [dl_newton_norm dl_result snd].
  destruct (nltb _ _); cbn [snd].
  { destruct (results_eqb res successful) eqn:ER; [apply results_eqb_eq in ER; congruence|reflexivity]. }
  destruct (nltb _ _); cbn [snd];
    (destruct (results_eqb res successful) eqn:ER; [apply results_eqb_eq in ER; congruence|reflexivity]).
Qed.

(** IndirectLevenbergMarquardt, in every arithmetic: a failed linear solve for
    the Newton step is the status, and y minus the value is proposed; otherwise a
    radius of at least 1 means the Newton step; otherwise the damped step for some
    lam is taken - the lam the root finder returned for
    "length of the damped step = radius * length of the Newton step" - and the
    status is that of its linear solve. *)
Lemma C64_indirect_levenberg_marquardt_pf :
  forall (N : Num) (Aux : Type) (P : ar_tols N) lsolve (eps fmax : N) rfind jac_of (fn : list N -> list N * Aux) y0 fs auxs st0,
    let s := IndirectLevenbergMarquardt P jac_of lsolve eps fmax rfind in
    s_init s fn y0 fs auxs = Ret st0 ->
    let y := y_at s fn y0 st0 (auxs fill0) in
    let st := st_at s fn y0 st0 (auxs fill0) in
    forall k, let radius : N := gn_search_state (st (S k)) in
    let res := says_result s fn y0 st0 (auxs fill0) (S k) in
    let newton := lsolve (jac_of fn (y (S k))) (fst (fn (y (S k)))) in
    (snd newton <> successful \/ nltb radius (nofQ 1) = false ->
       gn_y_eval (st (S k)) = vadd (y (S k)) (vneg (fst newton)) /\ res = snd newton) /\
    (snd newton = successful -> nltb radius (nofQ 1) = true ->
       exists stack : N -> linop N,
         (forall lam, nltb eps (ndiv (nofQ 1) lam) = true ->
            stacked (jac_of fn (y (S k))) (ndiv (nofQ 1) (ndiv (nofQ 1) lam)) (stack lam)) /\
         let b := fst (fn (y (S k))) ++ repeat (nofQ 0) (length (y (S k))) in
         let lam := rfind (fun l => nsub (two_norm (fst (lsolve (stack l) b))) (nmul (two_norm (fst newton)) radius)) in
         gn_y_eval (st (S k)) = vadd (y (S k)) (vneg (fst (lsolve (stack lam) b))) /\
         res = snd (lsolve (stack lam) b)).
Proof.
  intros N Aux P lsolve eps fmax rfind jac_of fn y0 fs auxs st0 s Hi y st k radius res newton.
  unfold s in Hi. apply gn_init_inv in Hi. subst st0.
  destruct (accepts_first_builtin N) as (_ & A2 & _ & _).
  destruct (gn_proposal P (classical_trust_region tr_default) (indirect_damped_newton_descent lsolve eps fmax two_norm rfind) jac_of fn y0 fs auxs (A2 _)
    ltac:(intros ? ? ? ?; reflexivity) k (0%nat, Eval (nofQ 0), y0, nofQ 0, successful)) as (step & sr & E1 & E2 & (f & a & b & c & d & e & acc & Es)).
  cbn [se_step classical_trust_region] in Es. unfold tr_step in Es. injection Es as Et _ Er Eg. subst sr. rewrite Et in Eg.
  change (step = radius) in Eg. clear Et.
  cbn [results_eqb indirect_damped_newton_descent d_step d_query newton_step] in E1, E2.
  change (gn_y_eval (st (S k)) = vadd (y (S k)) (fst (indirect_damped_step lsolve eps fmax two_norm rfind step
    (let '(newton, res) := newton in
        (Datatypes.length (y (S k)), ResidualJac (fst (fn (y (S k)))) (jac_of fn (y (S k))), newton, two_norm newton, res))))) in E1.
  change (res = snd (indirect_damped_step lsolve eps fmax two_norm rfind step
    (let '(newton, res) := newton in
        (Datatypes.length (y (S k)), ResidualJac (fst (fn (y (S k)))) (jac_of fn (y (S k))), newton, two_norm newton, res)))) in E2.
  rewrite Eg in *. rewrite E1, E2. clearbody res newton radius. clear E1 E2.
  destruct newton as [v q]. cbn [fst snd]. unfold indirect_damped_step. split.
  - intros [H|H].
    + apply results_eqb_neq in H. rewrite H. split; reflexivity.
    + rewrite H, andb_false_r. split; reflexivity.
  - intros -> H. rewrite H.
    exists (fun lam => damped_jac (length (y (S k))) (jac_of fn (y (S k))) (lm_param eps fmax (ndiv (nofQ 1) lam)) (length (fst (fn (y (S k)))))).
    split.
    { intros lam HL z. unfold lm_param. rewrite HL. reflexivity. }
    cbv zeta. cbn [results_eqb andb damped_newton_step]. unfold vfull.
    destruct (lsolve (damped_jac _ _ _ _) _) as [w qq]. split; reflexivity.
Qed.

Lemma nd_query : forall (N : Num) (lsolve : linop N -> list N -> list N * results) y i st,
  d_query (newton_descent lsolve None) y i st = newton_step lsolve i.
Proof. intros. cbn. destruct (newton_step lsolve i); reflexivity. Qed.

(** Quasi-Newton solvers with an Armijo search (BFGS, DFP, L-BFGS and
    user-written updates), in every arithmetic: with an approximate Hessian the
    proposal is y - step * (answer of the linear solver), and the status is that of
    the linear solve; with an approximate inverse Hessian there is nothing to fail. *)
Lemma C64_quasi_newton_pf :
  forall (N : Num) (Aux HSt : Type) (P : ar_tols N) (decrease slope init : N) lsolve grad_of init_hessian update_hessian
         (fn : list N -> N * Aux) y0 fs auxs st0,
    let s := quasi_newton_solver (HSt:=HSt) P (armijo decrease slope init) (newton_descent lsolve None) grad_of
               init_hessian update_hessian in
    s_init s fn y0 fs auxs = Ret st0 ->
    let y := y_at s fn y0 st0 (auxs fill0) in
    let st := st_at s fn y0 st0 (auxs fill0) in
    forall k, let step : N := qn_search_state (st (S k)) in
    let res := says_result s fn y0 st0 (auxs fill0) (S k) in
    (forall f g H, qn_f_info (st (S k)) = EvalGradHessian f g H ->
       res = snd (lsolve H g) /\ qn_y_eval (st (S k)) = vadd (y (S k)) (vscale (nneg step) (fst (lsolve H g)))) /\
    (forall f g H, qn_f_info (st (S k)) = EvalGradHessianInv f g H ->
       res = successful /\ qn_y_eval (st (S k)) = vadd (y (S k)) (vscale (nneg step) (op_mv H g))).
Proof.
  intros N Aux HSt P decrease slope init lsolve grad_of ih uh fn y0 fs auxs st0 s Hi y st k step res.
  unfold s in Hi. apply qn_init_inv in Hi. subst st0.
  assert (Q : forall j, qn_descent_state (st (S j)) = newton_step lsolve (qn_f_info (st (S j)))).
  { induction j as [|j IH].
    - pose proof (qn_step_cases _ _ _ _ _ _ _ _ _ _ _ (qn_trace_S P (armijo decrease slope init) (newton_descent lsolve None) grad_of ih uh fn y0 fs auxs 0))
        as (sz & acc & sr & sst & Es & E1 & E2 & E3 & E7 & E4 & E6 & E5).
      assert (acc = true).
      { unfold st_at, qn_st0 in Es. cbn [trace fst snd] in Es. destruct (ih _ _ _). cbn in Es. unfold armijo_step in Es. injection Es. auto. }
      subst acc. destruct E5 as (_ & _ & _ & E5 & _).
      change (qn_descent_state (st 1)) with (qn_descent_state (st_at s fn y0 (qn_st0 (armijo decrease slope init) (newton_descent lsolve None) ih y0 fs auxs) (auxs fill0) 1)).
      unfold s. rewrite E5. apply nd_query.
    - pose proof (qn_step_cases _ _ _ _ _ _ _ _ _ _ _ (qn_trace_S P (armijo decrease slope init) (newton_descent lsolve None) grad_of ih uh fn y0 fs auxs (S j)))
        as (sz & acc & sr & sst & Es & E1 & E2 & E3 & E7 & E4 & E6 & E5).
      fold s in E5. fold st in E5.
      destruct acc.
      + destruct E5 as (_ & _ & _ & E5 & _). rewrite E5. apply nd_query.
      + destruct E5 as (_ & E5a & _ & E5 & _). rewrite E5. injection E5a as E5a _. rewrite E5a. exact IH. }
  pose proof (qn_step_cases _ _ _ _ _ _ _ _ _ _ _ (qn_trace_S P (armijo decrease slope init) (newton_descent lsolve None) grad_of ih uh fn y0 fs auxs k))
    as (sz & acc & sr & sst & Es & E1 & E2 & E3 & E7 & E4 & E6 & E5).
  fold s in E2, E3, E6. fold st in E2, E3, E6. fold y in E3.
  cbn [se_step armijo] in Es. unfold armijo_step in Es. injection Es as Et _ Er Eg. subst sr. rewrite Et in Eg. subst sst.
  change (step = sz) in E2. rewrite E2. change res with (qn_result (st (S k))). rewrite E3, E6, (Q k).
  cbn [results_eqb newton_descent d_step fst snd].
  split; intros f g H ->; split; reflexivity.
Qed.

(** GradientDescent and NonlinearCG never report a failure of their own. *)
Lemma C64_gradient_methods_pf :
  forall (N : Num) (Aux : Type) (P : ar_tols N) grad_of (fn : list N -> N * Aux) y0 fs auxs
         (s : Solver (list N) N Aux) st0,
    ((exists rate, s = GradientDescent P grad_of rate) \/
     (exists method decrease slope init, s = NonlinearCG P grad_of method (armijo decrease slope init)) \/
     (exists method Q, s = NonlinearCG P grad_of method (linear_trust_region Q)) \/
     (exists method rate, s = NonlinearCG P grad_of method (learning_rate rate))) ->
    s_init s fn y0 fs auxs = Ret st0 ->
    forall k, says_result s fn y0 st0 (auxs fill0) k = successful.
Proof.
  intros N Aux P grad_of fn y0 fs auxs s st0 HS Hi k.
  assert (G : forall search descent (z0 : gd_state search descent),
    (forall a b c d e f, snd (fst (se_step search a b c d e f)) = successful) ->
    (forall a b, snd (d_step descent a b) = successful) ->
    s_init (gradient_descent_solver P search descent grad_of) fn y0 fs auxs = Ret z0 ->
    says_result (gradient_descent_solver P search descent grad_of) fn y0 z0 (auxs fill0) k = successful).
  { intros search descent z0 H1 H2 Hz. apply gd_init_inv in Hz. subst z0. destruct k as [|k]; [reflexivity|].
    pose proof (gd_step_cases _ _ _ _ _ _ _ _ _ _ (gd_trace_S P search descent grad_of fn y0 fs auxs k))
      as (sz & acc & sr & sst & Es & E1 & E2 & E3 & E4 & E6 & E5).
    unfold says_result. cbn [s_terminate gradient_descent_solver snd].
    refine (eq_trans E6 _). rewrite H2.
    match type of Es with ?x = _ => pose proof (f_equal (fun t => snd (fst t)) Es) as K end. cbn [fst snd] in K.
    rewrite H1 in K. subst sr. reflexivity. }
  destruct HS as [[? ->]|[[? [? [? [? ->]]]]|[[? [? ->]]|[? [? ->]]]]];
    (eapply G; [| |exact Hi]; intros; reflexivity).
Qed.

(** C63 along a run: each step of LevenbergMarquardt from the iterate y with
    radius above eps proposes y + d with d the only minimiser of
    |J(y) d + r(y)|^2 + (1/radius) |d|^2. *)
Lemma C63_run_pf :
  forall (Aux : Type) (P : ar_tols RN) lsolve (eps fmax : R) (n m : nat) jac_of (fn : list R -> list R * Aux)
         (y0 : list R) fs auxs st0,
    exact_least_squares n lsolve -> (0 <= eps)%R ->
    (forall y : list R, length y = n -> length (fst (fn y)) = m /\ linear_op n m (jac_of fn y)) ->
    let s := LevenbergMarquardt (N:=RN) P jac_of lsolve eps fmax in
    s_init s fn y0 fs auxs = Ret st0 ->
    let y := y_at s fn y0 st0 (auxs fill0) in
    let st := st_at s fn y0 st0 (auxs fill0) in
    forall k, let radius : R := gn_search_state (st (S k)) in
      length (y (S k)) = n -> (eps < radius)%R ->
      exists d, gn_y_eval (st (S k)) = Radd_v (y (S k)) d /\ length d = n /\
        forall w, length w = n -> w <> d ->
          (damped_loss (jac_of fn (y (S k))) (fst (fn (y (S k)))) (/ radius) d <
           damped_loss (jac_of fn (y (S k))) (fst (fn (y (S k)))) (/ radius) w)%R.
Proof.
  intros Aux P lsolve eps fmax n m jac_of fn y0 fs auxs st0 HE He HJ s Hi y st k radius Hy Hrad.
  unfold s in Hi. apply gn_init_inv in Hi. subst st0.
  destruct (accepts_first_builtin RN) as (_ & A2 & _ & _).
  destruct (gn_proposal P (classical_trust_region tr_default) (damped_newton_descent (N:=RN) lsolve eps fmax) jac_of fn y0 fs auxs (A2 _)
    ltac:(intros ? ? ? ?; reflexivity) k (0%nat, Eval (nofQ 0))) as (step & sr & E1 & _ & (f & a & b & c & d & e & acc & Es)).
  cbn [se_step classical_trust_region] in Es. unfold tr_step in Es. injection Es as Et _ _ Eg. rewrite Et in Eg.
  change (step = radius) in Eg. clear Et.
  destruct (HJ (y (S k)) Hy) as [Hr HA].
  destruct (damped_step_min lsolve eps fmax n m _ _ radius HE HA Hr ltac:(lra)) as [D1 D2].
  assert (Hp : (0 < / radius)%R) by (apply Rinv_0_lt_compat; lra).
  destruct (damped_minimiser n m _ _ (/ radius)%R HA Hr Hp _ D1 D2) as [_ U].
  eexists. split; [|split; [exact D1|exact U]].
  rewrite <- vadd_RN. refine (eq_trans E1 _).
  change (y_at (gauss_newton_solver P (classical_trust_region tr_default) (damped_newton_descent (N:=RN) lsolve eps fmax) jac_of)
    fn y0 (gn_st0 (classical_trust_region tr_default) (damped_newton_descent (N:=RN) lsolve eps fmax) y0 fs auxs) (auxs fill0) (S k)) with (y (S k)).
  f_equal. rewrite Eg. cbn [damped_newton_descent d_step d_query fst snd].
  match goal with |- context [damped_newton_step lsolve eps fmax (length ?v) _ _] => replace (length v) with n by (symmetry; exact Hy) end.
  destruct (damped_newton_step _ _ _ _ _ _) as [sol res]. cbn [fst]. apply vneg_RN.
Qed.

(** C64 for whole solves with GaussNewton: on success, every linear solve at an
    iterate visited (from the first step to the last) succeeded; if the solve
    stops with a linear solve that failed, its status is the result (unless the
    point before was already non-finite). *)
Lemma C64_solve_pf :
  forall (N : Num) (Aux : Type) (P : ar_tols N) (allfinite : list N -> bool) lsolve jac_of (fn : list N -> list N * Aux) y0 fs auxs st0
         fuel ms throw sol,
    let s := GaussNewton P jac_of lsolve in
    s_init s fn y0 fs auxs = Ret st0 ->
    iterative_solve allfinite s fn fuel ms throw y0 fs auxs = Ret sol ->
    let y := y_at s fn y0 st0 (auxs fill0) in
    let linear_status k := snd (lsolve (jac_of fn (y k)) (fst (fn (y k)))) in
    exists K, hd_error (sol_stats sol) = Some ("num_steps"%string, Some (Z.of_nat K)) /\
      (result sol = successful -> forall k, 0 < k <= K -> linear_status k = successful) /\
      (0 < K -> linear_status K <> successful -> allfinite (y (pred K)) = true -> result sol = linear_status K).
Proof.
  intros N Aux P allfinite lsolve jac_of fn y0 fs auxs st0 fuel ms throw sol s Hi H y ls.
  pose proof (C64_gauss_newton_pf N Aux P lsolve jac_of fn y0 fs auxs st0 Hi) as E. cbv zeta in E. fold s in E. fold y in E.
  destruct (iterative_solve_inv allfinite s fn y0 st0 _ fs auxs eq_refl Hi fuel ms throw sol H)
    as (K & _ & HS & -> & _).
  pose proof (solution_at_fields allfinite s fn y0 st0 (auxs fill0) ms K) as (ER & _ & _ & EST).
  exists K. split; [exact (f_equal (@hd_error _) EST)|]. split.
  - intros HR k [K1 K2]. destruct k as [|k]; [lia|]. unfold ls. rewrite <- E.
    destruct (Nat.eq_dec (S k) K) as [<-|NE].
    + apply (eq_trans (eq_sym ER)) in HR. unfold final_result in HR.
      destruct (allfinite _); [|discriminate].
      destruct (says_result s fn y0 st0 (auxs fill0) (S k)); try reflexivity; discriminate HR.
    + destruct HS as (_ & HS & _). specialize (HS (S k) ltac:(lia)).
      destruct (results_eqb (says_result s fn y0 st0 (auxs fill0) (S k)) successful) eqn:EQ.
      * apply results_eqb_eq in EQ. exact EQ.
      * apply results_eqb_neq in EQ. exfalso. apply HS. right; left. exact EQ.
  - intros K1 KF AF. destruct K as [|k]; [lia|]. refine (eq_trans ER _). unfold final_result, asked. cbn [pred].
    change (y_at s fn y0 st0 (auxs fill0) k) with (y k). cbn [pred] in AF. rewrite AF.
    unfold ls in *. rewrite <- E in *.
    destruct (results_eqb (says_result s fn y0 st0 (auxs fill0) (S k)) successful) eqn:EQ.
    + apply results_eqb_eq in EQ. congruence.
    + reflexivity.
Qed.

(** C33: where the residuals are affine the prediction is the actual change of the
    objective. *)
Lemma C33_exact_when_linear_pf :
  forall (n m : nat) (J : linop RN) (r d : list R), linear_op n m J -> length r = m -> length d = n ->
    classical_predict (N:=RN) d (ResidualJac (N:=RN) r J) =
    (as_min (N:=RN) (Residual (N:=RN) (Radd_v r (op_mv J d))) - as_min (N:=RN) (ResidualJac (N:=RN) r J))%R.
Proof.
  intros n m J r d (L1 & _) Hr Hd. cbn [classical_predict as_min]. rewrite !sum_squares_RN, vadd_RN.
  assert (E : Radd_v r (op_mv J d) = Radd_v (op_mv J d) r).
  { generalize (op_mv J d : list R). clear. induction r as [|x r IH]; intros [|b v]; try reflexivity.
    cbn. f_equal; [ring|apply IH]. }
  rewrite E. cbn. ring.
Qed.

(** ** C65: gradient descent *)

(** In every arithmetic, GradientDescent stays at y0 in its first step and then
    iterates y' = y + (-rate) * grad f(y). *)
Lemma C65_iteration_pf :
  forall (N : Num) (Aux : Type) (P : ar_tols N) grad_of (rate : N) (fn : list N -> N * Aux) y0 fs auxs st0,
    let s := GradientDescent P grad_of rate in
    s_init s fn y0 fs auxs = Ret st0 ->
    let y := y_at s fn y0 st0 (auxs fill0) in
    y 1 = y0 /\
    forall k, y (S (S k)) = vadd (y (S k)) (vscale (nneg rate) (grad_of fn (y (S k)))).
Proof.
  intros N Aux P grad_of rate fn y0 fs auxs st0 s Hi y. unfold s in Hi. apply gd_init_inv in Hi. subst st0.
  pose proof (fun k => gd_step_cases _ _ _ _ _ _ _ _ _ _ (gd_trace_S P (learning_rate rate) (steepest_descent None) grad_of fn y0 fs auxs k)) as C.
  split.
  { destruct (C 0) as (sz & acc & sr & sst & Es & _ & _ & _ & _ & _ & E5).
    cbn in Es. injection Es as _ <- _ _. exact (proj1 E5). }
  intro k. destruct (C (S k)) as (sz & acc & sr & sst & Es & _ & _ & _ & _ & _ & E5).
  cbn in Es. injection Es as _ <- _ _. destruct E5 as (E5 & _).
  unfold y, s, GradientDescent. rewrite E5.
  destruct (C k) as (sz' & acc & sr' & sst' & Es & _ & _ & E3 & _ & _ & E5').
  cbn in Es. injection Es as <- <- _ _. destruct E5' as (_ & _ & _ & E5' & _).
  rewrite E3, E5'. reflexivity.
Qed.

Lemma max_norm_RN : forall v : list R, max_norm (N:=RN) v = Rmax_norm v.
Proof.
  intro v. unfold max_norm, Rmax_norm, vabs. induction v as [|x v IH]; cbn [map fold_right].
  - apply Q2R_0.
  - rewrite LeastSquares_proofs.nmax_RN. f_equal. exact IH.
Qed.

(** The test of [cauchy_termination] over the reals *)
Lemma cauchy_RN : forall (rtol atol : R) (y d f e : list R), (0 <= rtol)%R -> (0 < atol)%R ->
  (forall i a b, nth_error d i = Some a -> nth_error y i = Some b -> (Rabs a < atol + rtol * Rabs b)%R) ->
  (forall i a b, nth_error e i = Some a -> nth_error f i = Some b -> (Rabs a < atol + rtol * Rabs b)%R) ->
  cauchy_termination (N:=RN) rtol atol max_norm y d f e = true.
Proof.
  intros rtol atol y d f e Hr Ha.
  assert (G : forall u v : list R,
    (forall i a b, nth_error v i = Some a -> nth_error u i = Some b -> (Rabs a < atol + rtol * Rabs b)%R) ->
    nltb (n:=RN) (max_norm (N:=RN) (vdiv (N:=RN) (vabs (N:=RN) v) (vscale_tol (N:=RN) rtol atol u))) (nofQ (n:=RN) 1) = true).
  { intros u v H. rewrite max_norm_RN. cbn. apply Rltb_true. rewrite Q2R_1. apply Rmax_norm_lt; [lra|].
    intros i x Hi. unfold vdiv in Hi. apply nth_vmap2 in Hi.
    destruct Hi as (a & b & E1 & E2 & ->). unfold vabs in E1. apply nth_map in E1. destruct E1 as (a' & E1 & ->).
    unfold vscale_tol in E2. apply nth_map in E2. destruct E2 as (b' & E2 & ->). cbn.
    specialize (H i a' b' E1 E2). pose proof (Rabs_pos b').
    assert (0 <= rtol * Rabs b')%R by (apply Rmult_le_pos; lra).
    unfold Rdiv. rewrite Rabs_mult, Rabs_Rabsolu, Rabs_inv, (Rabs_pos_eq (atol + _)) by lra.
    apply (Rmult_lt_reg_r (atol + rtol * Rabs b')); [lra|].
    rewrite Rmult_assoc, Rinv_l, Rmult_1_r, Rmult_1_l by lra. exact H. }
  intros H1 H2. unfold cauchy_termination. rewrite !G by assumption. reflexivity.
Qed.

(** The test is false only if some coordinate, or the value, moved by at least the
    absolute tolerance. *)
Lemma cauchy_false_RN : forall (rtol atol : R) (y d : list R) (f e : R), (0 <= rtol)%R -> (0 < atol)%R ->
  cauchy_termination (N:=RN) rtol atol max_norm y d [f] [e] = false ->
  (exists i a, nth_error d i = Some a /\ (atol <= Rabs a)%R) \/ (atol <= Rabs e)%R.
Proof.
  intros rtol atol y d f e Hr Ha H.
  destruct (Rle_dec atol (Rabs e)) as [Y|Y]; [right; exact Y|left].
  destruct (Rlt_dec (Rmax_norm d) atol) as [Z|Z].
  - exfalso. rewrite cauchy_RN in H; [discriminate|exact Hr|exact Ha| |].
    + intros i a b E1 _. pose proof (proj1 (Rmax_norm_lt d atol Ha) Z i a E1). pose proof (Rabs_pos b).
      assert (0 <= rtol * Rabs b)%R by (apply Rmult_le_pos; lra). lra.
    + intros [|i] a b E1 E2; [|destruct i; discriminate]. cbn in E1, E2. injection E1 as <-. injection E2 as <-.
      pose proof (Rabs_pos f). assert (0 <= rtol * Rabs f)%R by (apply Rmult_le_pos; lra). lra.
  - clear - Z Ha. induction d as [|x d IH].
    + exfalso. apply Z. cbn. exact Ha.
    + destruct (Rle_dec atol (Rabs x)) as [Y|Y]; [exists 0, x; auto|].
      destruct IH as (i & a & E & A).
      { intro W. apply Z. cbn. apply Rmax_lub_lt; [apply Rnot_le_lt; exact Y|exact W]. }
      exists (S i), a. auto.
Qed.

Lemma Rdot_nth_le : forall (v : list R) i a, nth_error v i = Some a -> (a * a <= Rdot v v)%R.
Proof.
  induction v as [|x v IH]; intros [|i] a H; try discriminate; cbn in H |- *.
  - injection H as <-. pose proof (Rdot_pos v). lra.
  - pose proof (IH i a H). pose proof (Rle_0_sqr x). unfold Rsqr in *. lra.
Qed.

(** Exact arithmetic, L-smooth objective, learning rate below 2/L: every step after
    the first lowers the objective by at least rate (1 - L rate / 2) |grad|^2. *)
Lemma C65_descends_pf :
  forall (Aux : Type) (n : nat) (L : R) (f : list R -> R) (g : list R -> list R)
         (P : ar_tols RN) grad_of (rate : R) (fn : list R -> R * Aux) y0 fs auxs st0,
    smooth n L f g -> (forall x, fst (fn x) = f x) -> (forall x, grad_of fn x = g x) ->
    length y0 = n ->
    let s := GradientDescent (N:=RN) P grad_of rate in
    s_init s fn y0 fs auxs = Ret st0 ->
    let y := y_at s fn y0 st0 (auxs fill0) in
    forall k, length (y (S k) : list R) = n /\
      (f (y (S (S k))) <= f (y (S k)) - rate * (1 - L * rate / 2) * Rdot (g (y (S k))) (g (y (S k))))%R.
Proof.
  intros Aux n L f g P grad_of rate fn y0 fs auxs st0 (HL & HS) Hf Hg Hn s Hi y.
  destruct (C65_iteration_pf RN Aux P grad_of rate fn y0 fs auxs st0 Hi) as (E1 & E2).
  fold s in E1, E2. fold y in E1, E2.
  assert (E3 : forall k, y (S (S k)) = Radd_v (y (S k)) (Rscal (- rate) (g (y (S k))))).
  { intro k. rewrite E2, vadd_RN, vscale_RN, Hg. reflexivity. }
  assert (LY : forall k, length (y (S k) : list R) = n).
  { induction k as [|k IH]; [exact (eq_trans (f_equal (@length R) E1) Hn)|].
    apply (eq_trans (f_equal (@length R) (E3 k))). apply Radd_v_length; [exact IH|]. rewrite Rscal_length. apply HL. exact IH. }
  intro k. split; [apply LY|].
  replace (f (y (S (S k)))) with (f (Radd_v (y (S k)) (Rscal (- rate) (g (y (S k))))))
    by (symmetry; exact (f_equal f (E3 k))).
  eapply Rle_trans; [apply HS; [apply LY|rewrite Rscal_length; apply HL, LY]|].
  rewrite Rdot_scal_r, Rdot_scal_l, Rdot_scal_r. right. field.
Qed.

(** If moreover the objective is bounded below, GradientDescent succeeds: with
    delta = min (rate (1 - L rate / 2) (atol / rate)^2) atol, at most K + 1 steps are
    needed when f(y0) - inf f < K delta; the returned value is no worse than y0. *)
Lemma C65_terminates_pf :
  forall (Aux : Type) (n : nat) (L low : R) (f : list R -> R) (g : list R -> list R)
         (rtol atol rate : R) grad_of (fn : list R -> R * Aux) y0 fs auxs (K : nat),
    smooth n L f g -> (forall x, length x = n -> low <= f x)%R ->
    (forall x, fst (fn x) = f x) -> (forall x, grad_of fn x = g x) -> length y0 = n ->
    (0 < rate)%R -> (rate * L < 2)%R -> (0 < atol)%R -> (0 <= rtol)%R ->
    let delta := Rmin (rate * (1 - L * rate / 2) * ((atol / rate) * (atol / rate))) atol in
    (f y0 - low < INR K * delta)%R ->
    let s := GradientDescent (N:=RN) (mkTols rtol atol max_norm) grad_of rate in
    exists k, k <= S K /\
      forall fuel budget throw, k < fuel -> (forall m, budget = Some m -> k <= m) ->
        exists sol, iterative_solve (vallfinite (N:=RN)) s fn fuel budget throw y0 fs auxs = Ret sol /\
          result sol = successful /\ (f (value sol) <= f y0)%R /\
          hd_error (sol_stats sol) = Some ("num_steps"%string, Some (Z.of_nat k)).
Proof.
  intros Aux n L low f g rtol atol rate grad_of fn y0 fs auxs K HS Hlow Hf Hg Hn Hrate HLr Ha Hr delta HK s.
  set (P := mkTols (N:=RN) rtol atol max_norm) in *.
  set (st0 := gd_st0 (learning_rate (N:=RN) rate) (steepest_descent (N:=RN) None) y0 fs auxs).
  assert (Hi : s_init s fn y0 fs auxs = Ret st0) by reflexivity.
  pose proof (C65_descends_pf Aux n L f g P grad_of rate fn y0 fs auxs st0 HS Hf Hg Hn Hi) as D.
  destruct (C65_iteration_pf RN Aux P grad_of rate fn y0 fs auxs st0 Hi) as (E1 & E2).
  cbv zeta in D. fold s in D, E1, E2. set (y := y_at s fn y0 st0 (auxs fill0)) in *.
  assert (c0 : (0 < rate * (1 - L * rate / 2))%R) by (apply Rmult_lt_0_compat; lra).
  assert (d0 : (0 < delta)%R).
  { apply Rmin_glb_lt; [|exact Ha]. repeat apply Rmult_lt_0_compat; try lra; apply Rinv_0_lt_compat; exact Hrate. }
  assert (M : forall k, (f (y (S (S k))) <= f (y (S k)))%R).
  { intro k. destruct (D k) as (_ & Dk). pose proof (Rdot_pos (g (y (S k)))).
    pose proof (Rmult_le_pos _ _ (Rlt_le _ _ c0) H). lra. }
  assert (TT : forall k, says_terminate s fn y0 st0 (auxs fill0) (S (S k)) =
    cauchy_termination (N:=RN) rtol atol max_norm (y (S (S k))) (Rsub_v (y (S (S k))) (y (S k)))
      [f (y (S (S k)))] [(f (y (S (S k))) - f (y (S k)))%R]).
  { intro k.
    destruct (gd_step_cases _ _ _ _ _ _ _ _ _ _ (gd_trace_S P (learning_rate (N:=RN) rate) (steepest_descent (N:=RN) None) grad_of fn y0 fs auxs (S k)))
      as (sz & acc & sr & sst & Es & _ & _ & _ & _ & _ & E5).
    cbn in Es. injection Es as _ <- _ _. destruct E5 as (_ & _ & _ & _ & E5).
    assert (AF : accepts_first (learning_rate (N:=RN) rate)) by (intros ? ? ? ? ?; reflexivity).
    destruct (gd_first P (learning_rate (N:=RN) rate) (steepest_descent (N:=RN) None) grad_of fn y0 fs auxs AF (S k)) as (F1 & F2).
    destruct (F2 ltac:(lia)) as (F3 & _).
    replace (gd_first_step _) with false in E5.
    2:{ symmetry; apply not_true_iff_false; intro F; apply F1 in F; discriminate. }
    rewrite F3 in E5. cbn [as_min] in E5. rewrite vsub_RN, !Hf in E5. exact E5. }
  assert (G : forall k, says_terminate s fn y0 st0 (auxs fill0) (S (S k)) = false ->
    (f (y (S (S k))) <= f (y (S k)) - delta)%R).
  { intros k H. rewrite TT in H. apply cauchy_false_RN in H; [|exact Hr|exact Ha].
    destruct (D k) as (LY & Dk). destruct H as [(i & a & Ei & Hi')|H].
    - assert (Ea : exists b, nth_error (g (y (S k))) i = Some b /\ a = (- rate * b)%R).
      { assert (E3 : Rsub_v (y (S (S k))) (y (S k)) = Rscal (- rate) (g (y (S k)))).
        { rewrite E2, vadd_RN, vscale_RN, Hg. destruct HS as (HL & _). specialize (HL _ LY).
          revert LY HL. generalize (g (y (S k))). generalize (y (S k) : list R). generalize n. clear.
          induction n as [|n IH]; intros [|u v] [|a b]; cbn; try discriminate; auto. intros A B.
          f_equal; [cbn; ring|]. apply IH; congruence. }
        rewrite E3 in Ei. apply nth_map in Ei. destruct Ei as (b & Eb & ->). eauto. }
      destruct Ea as (b & Eb & ->). pose proof (Rdot_nth_le _ _ _ Eb) as B.
      rewrite Rabs_mult, Rabs_Ropp, (Rabs_pos_eq rate) in Hi' by lra.
      assert (B1 : (atol / rate <= Rabs b)%R).
      { apply (Rmult_le_reg_l rate); [exact Hrate|]. replace (rate * (atol / rate))%R with atol by (field; lra). exact Hi'. }
      assert (B0 : (0 <= atol / rate)%R) by (apply Rlt_le, Rdiv_lt_0_compat; assumption).
      assert (B2 : (atol / rate * (atol / rate) <= b * b)%R).
      { replace (b * b)%R with (Rabs b * Rabs b)%R by (rewrite <- Rabs_mult; apply Rabs_pos_eq, Rle_0_sqr).
        apply Rmult_le_compat; assumption. }
      pose proof (Rmin_l (rate * (1 - L * rate / 2) * ((atol / rate) * (atol / rate))) atol). fold delta in H.
      pose proof (Rmult_le_compat_l _ _ _ (Rlt_le _ _ c0) (Rle_trans _ _ _ B2 B)). lra.
    - pose proof (Rmin_r (rate * (1 - L * rate / 2) * ((atol / rate) * (atol / rate))) atol). fold delta in H0.
      pose proof (M k). rewrite Rabs_left1 in H by lra. lra. }
  assert (T : exists k, k < K /\ says_terminate s fn y0 st0 (auxs fill0) (S (S k)) = true).
  { assert (X : forall j, (exists k, k < j /\ says_terminate s fn y0 st0 (auxs fill0) (S (S k)) = true) \/
                          (f (y (S j)) <= f y0 - INR j * delta)%R).
    { induction j as [|j [(k & K1 & K2)|IH]].
      - right. rewrite E1. cbn. lra.
      - left. exists k. split; [lia|exact K2].
      - destruct (says_terminate s fn y0 st0 (auxs fill0) (S (S j))) eqn:E.
        + left. exists j. split; [lia|exact E].
        + right. pose proof (G j E). rewrite S_INR. lra. }
    destruct (X K) as [X'|X']; [exact X'|]. exfalso. pose proof (Hlow (y (S K)) (proj1 (D K))). lra. }
  destruct T as (k0 & K0 & T).
  assert (SR : forall k, says_result s fn y0 st0 (auxs fill0) k = successful).
  { apply (C64_gradient_methods_pf RN Aux P grad_of fn y0 fs auxs s st0); [left; exists rate; reflexivity|exact Hi]. }
  assert (AF : forall v : list R, vallfinite (N:=RN) v = true).
  { intro v. unfold vallfinite. induction v; auto. }
  destruct (solve_succeeds (vallfinite (N:=RN)) s fn y0 st0 _ fs auxs eq_refl Hi SR (fun k => AF _) (ex_intro _ _ T))
    as (k1 & K1 & K2 & K3).
  assert (k1 <= S (S k0)).
  { destruct (le_lt_dec k1 (S (S k0))) as [?|Q]; [assumption|]. specialize (K2 _ Q). congruence. }
  exists k1. split; [lia|]. intros fuel budget throw Hfu Hb. destruct (K3 fuel budget throw Hfu Hb) as (K4 & K5).
  eexists. split; [exact K4|]. split; [exact K5|]. split; [|reflexivity].
  change (f (y k1) <= f y0)%R. destruct k1 as [|k1]; [cbn; lra|]. clear - E1 M. induction k1 as [|k1 IH].
  - rewrite E1. lra.
  - pose proof (M k1). lra.
Qed.

(** J = [1; 1], r = [1; 2], step size 1: the step is -1. *)
Example C63_step_ex_pf :
  let J := MatOp (N:=RN) 1 [[1]; [1]]%R in let r := [1; 2]%R in
  let descent := damped_newton_descent (N:=RN) lsolve1 0%R 1000%R in
  exact_least_squares 1 lsolve1 /\ linear_op 1 2 J /\ transpose_op 1 J /\
  fst (d_step descent 1%R (d_query descent [5%R] (ResidualJac (N:=RN) r J) (0, Eval (N:=RN) 0%R))) = [(-1)%R].
Proof.
  intros J r descent.
  assert (HE : exact_least_squares 1 lsolve1) by apply C32_levenberg_marquardt_ex_pf.
  assert (HJ : linear_op 1 2 J /\ transpose_op 1 J) by (apply mat_linear; repeat constructor).
  destruct HJ as (HJ & HT). split; [exact HE|]. split; [exact HJ|]. split; [exact HT|].
  destruct (C63_step_pf lsolve1 0 1000 1 2 J r [5%R] 1 (0, Eval (N:=RN) 0%R) HE HJ HT eq_refl eq_refl ltac:(lra))
    as (L & _ & E & _).
  fold descent in L, E. revert L E. generalize (fst (d_step descent 1%R (d_query descent [5%R] (ResidualJac (N:=RN) r J) (0, Eval (N:=RN) 0%R)))).
  intros [|x [|? ?]] L E; try discriminate L. cbn in E. injection E as E. rewrite ?Q2R_0 in E. f_equal. lra.
Qed.

(** Exact arithmetic, one unknown: divide. *)
Example C63_hessian_ex_pf :
  let lsolve (A : linop RN) (b : list R) := ([nth 0 b 0 / nth 0 (op_mv A [1%R]) 0]%R, successful) in
  let H := MatOp (N:=RN) 1 [[3%R]] in
  solves_solvable 1 lsolve /\ linear_op 1 1 H /\
  (exists z : list R, length z = 1 /\ Radd_v (op_mv H z) (Rscal (/ 1) z) = [8%R]) /\
  let descent := damped_newton_descent (N:=RN) lsolve 0%R 1000%R in
  fst (d_step descent 1%R (d_query descent [5%R] (EvalGradHessian (N:=RN) 0%R [8%R] H) (0, Eval (N:=RN) 0%R))) = [(-2)%R].
Proof.
  intros lsolve H.
  assert (HS : solves_solvable 1 lsolve).
  { intros A [|b [|? ?]] (L1 & L2 & L3) Hb ([|z [|? ?]] & Hz & Ez); try discriminate.
    split; [reflexivity|]. unfold lsolve. cbn [fst nth].
    assert (E : forall c : R, op_mv A [c] = Rscal c (op_mv A [1%R])).
    { intro c. rewrite <- L3 by reflexivity. cbn. f_equal. f_equal. ring. }
    rewrite E. rewrite E in Ez. specialize (L1 [1%R] eq_refl). destruct (op_mv A [1%R]) as [|a [|? ?]]; try discriminate.
    cbn in Ez |- *. injection Ez as Ez. f_equal.
    destruct (Req_dec a 0) as [->|NZ]; [rewrite <- Ez; unfold Rdiv; ring|]. field. exact NZ. }
  assert (HH : linear_op 1 1 H) by (apply mat_linear; repeat constructor).
  assert (HZ : exists z : list R, length z = 1 /\ Radd_v (op_mv H z) (Rscal (/ 1) z) = [8%R]).
  { exists [2%R]. split; [reflexivity|]. cbn. rewrite ?Q2R_0. f_equal. field. }
  split; [exact HS|]. split; [exact HH|]. split; [exact HZ|]. intro descent.
  destruct (C63_hessian_pf lsolve 0 1000 0 1 H [8%R] [5%R] 1 (0, Eval (N:=RN) 0%R) HS HH eq_refl eq_refl ltac:(lra) HZ)
    as (L & E).
  fold descent in L, E. revert L E. generalize (fst (d_step descent 1%R (d_query descent [5%R] (EvalGradHessian (N:=RN) 0%R [8%R] H) (0, Eval (N:=RN) 0%R)))).
  intros [|x [|? ?]] L E; try discriminate L. cbn in E. injection E as E. rewrite ?Q2R_0 in E. f_equal. lra.
Qed.

(** Binary64: Gauss-Newton with a linear solver that reports a singular matrix stops
    after one step with that status; with a working one it succeeds. *)
Example C64_solve_ex_pf :
  let run lsolve := iterative_solve (vallfinite (N:=F64)) (GaussNewton (N:=F64) (Aux:=unit) tols curve64_jac lsolve) curve64 50 (Some 40) false
       [f64_ofQ 3] (fun _ => [f64_ofQ 0; f64_ofQ 0]) (fun _ => tt) in
  match run (fun _ b => ([f64_ofQ 0], linear 1)) with
  | Ret s => results_eqb (result s) (linear 1) &&
      match sol_stats s with (_, Some k) :: _ => Z.eqb k 1 | _ => false end
  | _ => false end = true /\
  match run column64 with Ret s => results_eqb (result s) successful | _ => false end = true.
Proof. vm_compute. split; reflexivity. Qed.

(** f(x) = x^2 with L = 2, rate = 1/4, tolerance 1/10, from x = 1: at most 35 steps. *)
Example C65_terminates_ex_pf :
  smooth 1 2 square1 square1_grad /\ (forall x, length x = 1 -> (0 <= square1 x)%R) /\
  let s := GradientDescent (N:=RN) (Aux:=unit) (mkTols (N:=RN) (1/10)%R (1/10)%R max_norm) (fun _ => square1_grad) (1/4)%R in
  exists k, k <= 35 /\
    forall fuel budget throw, k < fuel -> (forall m, budget = Some m -> k <= m) ->
      exists sol, iterative_solve (vallfinite (N:=RN)) s (fun v => (square1 v, tt)) fuel budget throw [1%R] (fun _ => 0%R) (fun _ => tt) = Ret sol /\
        result sol = successful.
Proof.
  assert (HS : smooth 1 2 square1 square1_grad).
  { split; [intros [|x [|? ?]] H; try discriminate; reflexivity|].
    intros [|x [|? ?]] [|d [|? ?]] H1 H2; try discriminate. cbn. right. field. }
  assert (HB : forall x, length x = 1 -> (0 <= square1 x)%R).
  { intros [|x [|? ?]] H; try discriminate. cbn. apply Rle_0_sqr. }
  split; [exact HS|]. split; [exact HB|]. intro s.
  destruct (C65_terminates_pf unit 1 2 0 square1 square1_grad (1/10) (1/10) (1/4) (fun _ => square1_grad)
    (fun v => (square1 v, tt)) [1%R] (fun _ => 0%R) (fun _ => tt) 34 HS HB (fun _ => eq_refl) (fun _ => eq_refl) eq_refl
    ltac:(lra) ltac:(lra) ltac:(lra) ltac:(lra)) as (k & K1 & K2).
  { cbv zeta. rewrite Rmin_left by lra. cbn. lra. }
  exists k. split; [exact K1|]. intros fuel budget throw H1 H2. destruct (K2 fuel budget throw H1 H2) as (sol & E1 & E2 & _). eauto.
Qed.

(** ** C66: the two points of the dogleg path *)

Lemma Rscal_0 : forall v : list R, Rscal (-0) v = zerov (length v).
Proof. induction v as [|a v IH]; [reflexivity|]. cbn. f_equal; [ring|exact IH]. Qed.

(** Least squares, exact arithmetic: the Newton point is minus the linear solver's
    answer; with g = J^T r and |J g|^2 > eps the Cauchy point is the unique minimiser
    of |J d + r|^2 over the multiples d of g, and it is a non-positive multiple;
    otherwise the Cauchy point is 0. *)
Lemma C66_least_squares_pf :
  forall lsolve (eps : R) (n m : nat) (J : linop RN) (r y : list R) st0,
    linear_op n m J -> transpose_op n J -> length r = m -> (0 <= eps)%R ->
    let descent := dogleg_descent (N:=RN) lsolve eps two_norm None in
    let st := d_query descent y (ResidualJac (N:=RN) r J) st0 in
    let g : list R := op_mvT J r in
    let loss d := let v := Radd_v (op_mv J d) r in Rdot v v in
    dl_newton st = Rscal (-1) (fst (lsolve J r)) /\
    ((eps < Rdot (op_mv J g) (op_mv J g))%R ->
       exists t, (0 <= t)%R /\ dl_cauchy st = Rscal (- t) g /\
         forall u, u <> t -> (loss (Rscal (- t) g) < loss (Rscal (- u) g))%R) /\
    ((Rdot (op_mv J g) (op_mv J g) <= eps)%R -> dl_cauchy st = zerov n).
Proof.
  intros lsolve eps n m J r y st0 (L1 & L2 & L3) (T1 & T2) Hr He descent st g loss.
  assert (Lg : length g = n) by apply T1.
  assert (ES : dl_newton st = Rscal (-1) (fst (lsolve J r)) /\
     dl_cauchy st = Rscal (- (if Rltb eps (Rdot (op_mv J g) (op_mv J g)) then Rdot g g / Rdot (op_mv J g) (op_mv J g) else 0)) g).
  { unfold st, descent. cbn [dogleg_descent d_query]. unfold dogleg_query. cbn [newton_step info_grad]. cbv zeta.
    destruct (lsolve J r) as [v res]. cbn [dl_newton dl_cauchy fst]. split; [apply vneg_RN|].
    rewrite vscale_RN, !sum_squares_RN. cbn [nltb RN ndiv nofQ nneg]. fold g. destruct (Rltb _ _); [reflexivity|].
    rewrite Q2R_0. reflexivity. }
  destruct ES as (E1 & E2). split; [exact E1|]. split; intro H.
  - rewrite (proj2 (Rltb_true _ _) H) in E2. exists (Rdot g g / Rdot (op_mv J g) (op_mv J g))%R.
    split; [apply Rmult_le_pos; [apply Rdot_pos|apply Rlt_le, Rinv_0_lt_compat; lra]|].
    split; [exact E2|]. intros u Hu. unfold loss. rewrite !L3 by exact Lg.
    assert (LL : length (op_mv J g : list R) = length r) by (rewrite L1; auto).
    assert (X : forall c, (Rdot (Radd_v (Rscal (- c) (op_mv J g)) r) (Radd_v (Rscal (- c) (op_mv J g)) r) =
       c * c * Rdot (op_mv J g) (op_mv J g) - 2 * c * Rdot g g + Rdot r r)%R).
    { intro c. rewrite !Rdot_add_l, !Rdot_add_r, !Rdot_scal_l, !Rdot_scal_r by (rewrite ?Rscal_length; exact LL).
      assert (E : Rdot r (op_mv J g) = Rdot g g) by (symmetry; exact (T2 r g Lg)).
      rewrite (Rdot_comm (op_mv J g) r), E. ring. }
    rewrite !X. set (a := Rdot (op_mv J g) (op_mv J g)) in *. set (b := Rdot g g) in *.
    assert (0 < a * ((u - b / a) * (u - b / a)))%R.
    { apply Rmult_lt_0_compat; [lra|]. apply Rsqr_pos_lt. lra. }
    assert (a * ((u - b / a) * (u - b / a)) = (u * u * a - 2 * u * b) - (b / a * (b / a) * a - 2 * (b / a) * b))%R by (field; lra).
    lra.
  - rewrite (proj2 (Rltb_false _ _) H), Rscal_0, Lg in E2. exact E2.
Qed.

(** The same for a minimiser with gradient g and Hessian H: the model is
    g.d + d.(H d) / 2. *)
Lemma C66_hessian_pf :
  forall lsolve (eps f : R) (n : nat) (H : linop RN) (g y : list R) st0,
    linear_op n n H -> length g = n -> (0 <= eps)%R ->
    let descent := dogleg_descent (N:=RN) lsolve eps two_norm None in
    let st := d_query descent y (EvalGradHessian (N:=RN) f g H) st0 in
    let model d := (Rdot g d + / 2 * Rdot d (op_mv H d))%R in
    dl_newton st = Rscal (-1) (fst (lsolve H g)) /\
    ((eps < Rdot g (op_mv H g))%R ->
       exists t, (0 <= t)%R /\ dl_cauchy st = Rscal (- t) g /\
         forall u, u <> t -> (model (Rscal (- t) g) < model (Rscal (- u) g))%R) /\
    ((Rdot g (op_mv H g) <= eps)%R -> dl_cauchy st = zerov n).
Proof.
  intros lsolve eps f n H g y st0 (L1 & L2 & L3) Lg He descent st model.
  assert (ES : dl_newton st = Rscal (-1) (fst (lsolve H g)) /\
     dl_cauchy st = Rscal (- (if Rltb eps (Rdot g (op_mv H g)) then Rdot g g / Rdot g (op_mv H g) else 0)) g).
  { unfold st, descent. cbn [dogleg_descent d_query]. unfold dogleg_query. cbn [newton_step info_grad]. cbv zeta.
    destruct (lsolve H g) as [v res]. cbn [dl_newton dl_cauchy fst]. split; [apply vneg_RN|].
    rewrite vscale_RN, !sum_squares_RN, vdot_RN. cbn [nltb RN ndiv nofQ nneg]. destruct (Rltb _ _); [reflexivity|].
    rewrite Q2R_0. reflexivity. }
  destruct ES as (E1 & E2). split; [exact E1|]. split; intro HD.
  - rewrite (proj2 (Rltb_true _ _) HD) in E2. exists (Rdot g g / Rdot g (op_mv H g))%R.
    split; [apply Rmult_le_pos; [apply Rdot_pos|apply Rlt_le, Rinv_0_lt_compat; lra]|].
    split; [exact E2|]. intros u Hu. unfold model. rewrite !L3 by exact Lg.
    rewrite !Rdot_scal_l, !Rdot_scal_r.
    set (a := Rdot g (op_mv H g)) in *. set (b := Rdot g g) in *.
    assert (0 < a * ((u - b / a) * (u - b / a)))%R.
    { apply Rmult_lt_0_compat; [lra|]. apply Rsqr_pos_lt. lra. }
    assert (a * ((u - b / a) * (u - b / a)) = (u * u * a - 2 * u * b) - (b / a * (b / a) * a - 2 * (b / a) * b))%R by (field; lra).
    lra.
  - rewrite (proj2 (Rltb_false _ _) HD), Rscal_0, Lg in E2. exact E2.
Qed.

(** J = diag(1, 2), r = (1, 1): g = (1, 2), Cauchy point -(5/17)(1, 2). *)
Example C66_least_squares_ex_pf :
  let J := MatOp (N:=RN) 2 [[1; 0]; [0; 2]]%R in let r := [1; 1]%R in
  linear_op 2 2 J /\ transpose_op 2 J /\ op_mvT J r = [1; 2]%R /\
  let descent := dogleg_descent (N:=RN) (fun _ _ => ([1; /2]%R, successful)) 0%R two_norm None in
  dl_cauchy (d_query descent [0; 0]%R (ResidualJac (N:=RN) r J) (d_init descent [0; 0]%R (Residual (N:=RN) []))) = [-5/17; -10/17]%R.
Proof.
  cbv zeta. pose proof (mat_linear 2 2 [[1; 0]; [0; 2]]%R ltac:(repeat constructor)) as (M1 & M2).
  split; [exact M1|]. split; [exact M2|]. split.
  - cbn. rewrite ?Q2R_0. f_equal; [ring|f_equal; ring].
  - apply C34_exit_ex_pf.
Qed.


(** ** C69: the indirect Levenberg-Marquardt step has the requested length *)
Lemma Rnorm_neg : forall v, Rnorm (Rscal (-1) v) = Rnorm v.
Proof. intro v. unfold Rnorm. rewrite Rdot_scal_l, Rdot_scal_r. f_equal. ring. Qed.

(** Exact arithmetic, exact least-squares solves. For step size at least 1, or after a
    failed Newton solve, the step is the Newton step. Otherwise the root finder is
    given the function h: excess length, over step_size times the length of the
    Newton step, of the damped step for a given damping; h is non-increasing. With lam
    the number returned by the root finder the step taken is the damped step for lam;
    its length misses the requested one by exactly h(lam). *)
Lemma C69_length_pf :
  forall lsolve (eps fmax : R) rfind (n m : nat) (J : linop RN) (r y : list R) (step : R) st0,
    exact_least_squares n lsolve -> linear_op n m J -> length r = m -> length y = n -> (0 <= eps)%R ->
    let descent := indirect_damped_newton_descent (N:=RN) lsolve eps fmax two_norm rfind in
    let d : list R := fst (d_step descent step (d_query descent y (ResidualJac (N:=RN) r J) st0)) in
    let newton : list R := fst (lsolve J r) in
    let damped lam z := length z = n /\ forall w, length w = n -> w <> z -> (damped_loss J r lam z < damped_loss J r lam w)%R in
    let allowed lam := (0 < lam)%R /\ (eps * lam < 1)%R in
    ((1 <= step)%R \/ snd (lsolve J r) <> successful -> d = Rscal (-1) newton) /\
    ((step < 1)%R -> snd (lsolve J r) = successful ->
       exists h : R -> R,
         (forall lam, allowed lam -> exists z, damped lam z /\ h lam = (Rnorm z - step * Rnorm newton)%R) /\
         (forall lam1 lam2, allowed lam1 -> allowed lam2 -> (lam1 < lam2)%R -> (h lam2 <= h lam1)%R) /\
         (allowed (rfind h) -> damped (rfind h) d) /\
         (Rnorm d = step * Rnorm newton + h (rfind h))%R).
Proof.
  intros lsolve eps fmax rfind n m J r y step st0 HE HA Hr Hy He descent d newton damped allowed.
  set (i := ResidualJac (N:=RN) r J).
  set (h := fun lam : R => (two_norm (N:=RN) (fst (damped_newton_step (N:=RN) lsolve eps fmax n (Q2R 1 / lam)%R i)) - two_norm (N:=RN) newton * step)%R).
  assert (ED : d = Rscal (-1) (if results_eqb (snd (lsolve J r)) successful && Rltb step 1
                               then fst (damped_newton_step (N:=RN) lsolve eps fmax n (Q2R 1 / rfind h)%R i) else newton)).
  { unfold d, descent. cbn [indirect_damped_newton_descent d_step d_query newton_step]. unfold h, newton. destruct (lsolve J r) as [nw res] eqn:El. cbn [indirect_damped_step fst snd].
    change (@length (T RN) y) with (@length R y). rewrite Hy. cbn [nltb RN nofQ]. rewrite Q2R_1. destruct (results_eqb res successful && Rltb step 1).
    - unfold i. cbn [nsub nmul ndiv RN]. destruct (damped_newton_step (N:=RN) lsolve eps fmax n (1 / _)%R _) as [sol res']. cbn [fst]. apply vneg_RN.
    - cbn [fst]. apply vneg_RN. }
  assert (ST : forall lam, allowed lam -> damped lam (Rscal (-1) (fst (damped_newton_step (N:=RN) lsolve eps fmax n (Q2R 1 / lam)%R i)))).
  { intros lam [H1 H2]. rewrite Q2R_1.
    assert (Hs : (0 <= eps < 1 / lam)%R) by (split; [exact He|]; apply (Rmult_lt_reg_r lam); [exact H1|]; unfold Rdiv; rewrite Rmult_assoc, Rinv_l by lra; lra).
    destruct (damped_step_min lsolve eps fmax n m J r (1 / lam)%R HE HA Hr Hs) as [L M]. fold i in L, M.
    replace (/ (1 / lam))%R with lam in M by (field; lra). split; [exact L|]. exact (proj2 (damped_minimiser n m J r lam HA Hr H1 _ L M)). }
  split.
  - intro H. rewrite ED. destruct H as [H|H].
    + replace (Rltb step 1) with false by (symmetry; apply Rltb_false; exact H). rewrite andb_false_r. reflexivity.
    + destruct (results_eqb (snd (lsolve J r)) successful) eqn:E; [apply results_eqb_eq in E; contradiction|reflexivity].
  - intros H1 H2. exists h. rewrite (proj2 (Rltb_true _ _) H1), H2 in ED. cbn [results_eqb andb] in ED.
    assert (HH : forall lam, h lam = (Rnorm (Rscal (-1) (fst (damped_newton_step (N:=RN) lsolve eps fmax n (Q2R 1 / lam)%R i))) - step * Rnorm newton)%R).
    { intro lam. unfold h. rewrite !two_norm_RN, Rnorm_neg. ring. }
    split; [|split; [|split]].
    + intros lam Hl. eexists. split; [apply (ST lam Hl)|]. apply HH.
    + intros l1 l2 A1 A2 H12. rewrite !HH. destruct (ST l1 A1) as [L1 M1]. destruct (ST l2 A2) as [L2 M2].
      set (a := Rscal (-1) (fst (damped_newton_step (N:=RN) lsolve eps fmax n (Q2R 1 / l1)%R i))) in *.
      set (b := Rscal (-1) (fst (damped_newton_step (N:=RN) lsolve eps fmax n (Q2R 1 / l2)%R i))) in *.
      destruct (list_eq_dec Req_EM_T b a) as [E|NE]; [rewrite E; lra|].
      specialize (M1 b L2 NE). specialize (M2 a L1 (not_eq_sym NE)). unfold damped_loss in M1, M2.
      assert (Rnorm b <= Rnorm a)%R; [|lra]. unfold Rnorm. apply sqrt_le_1_alt.
      destruct (Rle_dec (Rdot b b) (Rdot a a)) as [|NN]; [assumption|]. exfalso.
      assert (0 < (l2 - l1) * (Rdot b b - Rdot a a))%R by (apply Rmult_lt_0_compat; lra). lra.
    + intro Hl. rewrite ED. apply ST. exact Hl.
    + rewrite HH, ED. ring.
Qed.

(** One unknown, J = [1], r = [1], step size 1/2, a root finder returning 1: the Newton
    step has length 1, the damped step for lam = 1 is -1/2, as long as requested. *)
Example C69_length_ex_pf :
  let J := MatOp (N:=RN) 1 [[1]]%R in let r := [1]%R in
  let descent := indirect_damped_newton_descent (N:=RN) lsolve1 0%R 1000%R two_norm (fun _ => 1%R) in
  let d : list R := fst (d_step descent (1 / 2)%R (d_query descent [5%R] (ResidualJac (N:=RN) r J) (0, Eval (N:=RN) 0%R, [], 0%R, successful))) in
  exact_least_squares 1 lsolve1 /\ linear_op 1 1 J /\ snd (lsolve1 J r) = successful /\
  d = [(-1 / 2)%R] /\ (Rnorm d = 1 / 2 * Rnorm (fst (lsolve1 J r)))%R.
Proof.
  intros J r descent d.
  assert (HE : exact_least_squares 1 lsolve1) by apply C32_levenberg_marquardt_ex_pf.
  assert (HJ : linear_op 1 1 J /\ transpose_op 1 J) by (apply mat_linear; repeat constructor).
  destruct HJ as (HJ & HT). split; [exact HE|]. split; [exact HJ|]. split; [reflexivity|].
  assert (E1 : fst (lsolve1 J r) = [1%R]).
  { destruct (HE 1 J r HJ eq_refl) as [L M]. destruct (fst (lsolve1 J r)) as [|x [|]]; try discriminate. specialize (M [1%R] eq_refl). cbn in M. f_equal. nra. }
  destruct (C69_length_pf lsolve1 0 1000 (fun _ => 1%R) 1 1 J r [5%R] (1 / 2) (0, Eval (N:=RN) 0%R, [], 0%R, successful) HE HJ eq_refl eq_refl ltac:(lra)) as [_ K].
  destruct (K ltac:(lra) eq_refl) as (h & H1 & H2 & H3 & H4). fold descent in H3, H4. fold d in H3, H4. cbv beta in H3, H4.
  destruct (H3 ltac:(lra)) as [L M].
  assert (ED : d = [(-1 / 2)%R]).
  { destruct d as [|x [|]]; try discriminate. destruct (Req_dec x (-1 / 2)) as [->|NE]; [reflexivity|]. exfalso.
    specialize (M [(-1 / 2)%R] eq_refl ltac:(congruence)). unfold damped_loss in M. cbn in M. nra. }
  split; [exact ED|]. rewrite ED, E1. unfold Rnorm. cbn.
  replace (-1 / 2 * (-1 / 2) + 0)%R with ((1 / 2) * (1 / 2))%R by field. replace (1 * 1 + 0)%R with (1 * 1)%R by ring. rewrite !sqrt_square by lra. field.
Qed.
