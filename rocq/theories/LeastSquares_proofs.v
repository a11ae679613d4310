(** Monotonicity of the least-squares solvers built on the classical trust
    region: LevenbergMarquardt, IndirectLevenbergMarquardt and Dogleg (C32). *)

From Coq Require Import String List Bool Arith Lia ZArith QArith Qreals Reals Lra Psatz.
From Coq Require Classical_Prop.
From Verif Require Import Num NumFacts NumDiv NumSq Vec Results Iterate Spec_Iterate Iterate_proofs.
From Verif Require Import Spec_Vec VecFacts Spec_Lin LinFacts NumF64 NumF64_facts.
From Verif Require Import Search Spec_Search Descent Minimisers QuasiNewton Solvers FixedPoint_proofs Minimisers_proofs Spec_Examples.
From Verif Require Import TrustRegion_proofs.
Import ListNotations.
Local Open Scope nat_scope.

Lemma sub_as_add : forall a b : list R, Rsub_v a b = Radd_v a (Rscal (-1) b).
Proof. induction a as [|x a IH]; intros [|y b]; cbn; [reflexivity..|]. f_equal; [lra|]. apply IH. Qed.

Lemma op_sub : forall n m A (x y : list R), linear_op n m A -> length x = n -> length y = n ->
  op_mv A (Rsub_v x y) = Rsub_v (op_mv A x) (op_mv A y).
Proof.
  intros n m A x y (L1 & L2 & L3) Hx Hy. rewrite sub_as_add, L2, L3, <- sub_as_add; auto.
  rewrite Rscal_length; exact Hy.
Qed.

Lemma op_zero : forall n m A, linear_op n m A -> op_mv A (zerov n) = zerov m.
Proof.
  intros n m A (L1 & L2 & L3).
  assert (E : zerov n = Rscal 0 (zerov n)).
  { clear. unfold zerov, Rscal. induction n as [|k IH]; cbn; [reflexivity|]. f_equal; [lra|exact IH]. }
  rewrite E, L3 by apply zerov_length. unfold Rscal, zerov.
  rewrite <- (L1 (repeat 0%R n)) by apply repeat_length.
  generalize (op_mv A (repeat 0%R n)) as v. induction v as [|a v IH]; cbn; [reflexivity|]. rewrite IH. f_equal. lra.
Qed.

Lemma damped_mv : forall n m A (lam : R) x,
  op_mv (damped_jac (N:=RN) n A lam m) x = @app R (op_mv A x) (Rscal (sqrt lam) x).
Proof. intros n m A lam x. cbn [damped_jac op_mv]. rewrite vscale_RN. reflexivity. Qed.

Lemma damped_linear : forall n m A (lam : R), linear_op n m A ->
  linear_op n (m + n) (damped_jac (N:=RN) n A lam m).
Proof.
  intros n m A lam (L1 & L2 & L3). split; [|split].
  - intros x Hx. rewrite damped_mv, app_length, Rscal_length, Hx, L1; auto.
  - intros x y Hx Hy. rewrite !damped_mv, L2 by assumption.
    assert (HL : length (op_mv A x) = length (op_mv A y)) by (rewrite !L1; auto).
    revert HL. generalize (op_mv A x) as u. generalize (op_mv A y) as v. intros v u HL.
    transitivity (Radd_v u v ++ Radd_v (Rscal (sqrt lam) x) (Rscal (sqrt lam) y)).
    + f_equal. clear - Hx Hy. subst n. revert x Hy. induction y as [|b y IH]; intros [|a x] Hy; cbn in *; try discriminate; auto.
      f_equal; [lra|]. apply IH. now injection Hy.
    + clear - HL. revert v HL. induction u as [|a u IH]; intros [|b v] HL; try discriminate HL; [reflexivity|].
      cbn. f_equal. apply IH. now injection HL.
  - intros c x Hx. rewrite !damped_mv, L3 by assumption. unfold Rscal. rewrite map_app. f_equal.
    rewrite !map_map. apply map_ext. intro a. cbn. lra.
Qed.

Lemma Rdot_app : forall a b c d : list R, length a = length c -> Rdot (a ++ b) (c ++ d) = (Rdot a c + Rdot b d)%R.
Proof.
  induction a as [|x a IH]; intros b [|y c] d H; try discriminate H; cbn; [lra|].
  rewrite IH by (now injection H). lra.
Qed.

Lemma Rsub_app : forall a b c d : list R, length a = length c -> Rsub_v (a ++ b) (c ++ d) = Rsub_v a c ++ Rsub_v b d.
Proof.
  induction a as [|x a IH]; intros b [|y c] d H; try discriminate H; cbn; [reflexivity|].
  rewrite IH by (now injection H). reflexivity.
Qed.

(** The damped residual: |[J; sqrt(l) I] z - [r; 0]|^2 = |J z - r|^2 + l |z|^2. *)
Lemma damped_norm : forall n m A (lam : R) (r z : list R), linear_op n m A -> length r = m -> length z = n -> (0 <= lam)%R ->
  let v := Rsub_v (op_mv (damped_jac (N:=RN) n A lam m) z) (r ++ zerov n) in
  Rdot v v = (Rdot (Rsub_v (op_mv A z) r) (Rsub_v (op_mv A z) r) + lam * Rdot z z)%R.
Proof.
  intros n m A lam r z (L1 & _) Hr Hz Hl v. unfold v. rewrite damped_mv.
  rewrite Rsub_app by (rewrite L1; auto). rewrite Rdot_app by reflexivity. f_equal.
  rewrite <- (Rscal_length (sqrt lam) z) in Hz. 
  rewrite <- Hz. rewrite Rsub_v_0_r, Rdot_scal_l, Rdot_scal_r, <- Rmult_assoc, sqrt_sqrt; auto.
Qed.

Lemma neg_residual : forall u r : list R, length u = length r ->
  Rdot (Radd_v (Rscal (-1) u) r) (Radd_v (Rscal (-1) u) r) = Rdot (Rsub_v u r) (Rsub_v u r).
Proof.
  induction u as [|a u IH]; intros [|b r] H; try discriminate H; cbn; [reflexivity|].
  rewrite IH by (now injection H). lra.
Qed.

Lemma zero_residual : forall m (r : list R), length r = m ->
  Rdot (Rsub_v (zerov m) r) (Rsub_v (zerov m) r) = Rdot r r.
Proof.
  intros m r <-. induction r as [|b r IH]; [reflexivity|]. cbn. fold (zerov (length r)). rewrite IH. lra.
Qed.

Lemma predict_neg : forall n m A (r z : list R), linear_op n m A -> length r = m -> length z = n ->
  classical_predict (N:=RN) (vneg (N:=RN) z) (ResidualJac (N:=RN) r A) =
  (/ 2 * (Rdot (Rsub_v (op_mv A z) r) (Rsub_v (op_mv A z) r) - Rdot r r))%R.
Proof.
  intros n m A r z HA Hr Hz. pose proof HA as (L1 & _ & L3). cbn [classical_predict].
  rewrite !sum_squares_RN, vadd_RN, vneg_RN, L3 by exact Hz.
  rewrite neg_residual by (rewrite L1; auto). cbn. rewrite Q2R_half. reflexivity.
Qed.

(** An exact solution of the damped problem never predicts an increase. *)
Lemma damped_predict : forall n m lsolve eps fmax A (r : list R) (step : R), exact_least_squares n lsolve ->
  linear_op n m A -> length r = m -> (0 <= eps)%R -> (0 < fmax)%R ->
  let d : list R := fst (damped_newton_step (N:=RN) lsolve eps fmax n step (ResidualJac (N:=RN) r A)) in
  length d = n /\ (classical_predict (N:=RN) (vneg (N:=RN) d) (ResidualJac (N:=RN) r A) <= 0)%R.
Proof.
  intros n m lsolve eps fmax A r step HE HA Hr He Hf d. cbn [damped_newton_step] in d.
  set (lam := lm_param (N:=RN) eps fmax step) in *.
  assert (Hl : (0 < (lam : R))%R).
  { unfold lam, lm_param. cbn. destruct (Rltb eps step) eqn:E; [|exact Hf]. apply Rltb_true in E.
    rewrite Q2R_1. apply Rdiv_lt_0_compat; lra. }
  assert (Hz0 : vfull (N:=RN) n (nofQ (n:=RN) 0) = zerov n) by (unfold vfull, zerov; cbn; rewrite Q2R_0; reflexivity).
  destruct (HE (m + n) (damped_jac (N:=RN) n A lam m) (r ++ zerov n)) as [K1 K2].
  { apply damped_linear; exact HA. }
  { rewrite app_length, zerov_length. congruence. }
  assert (Ed : d = fst (lsolve (damped_jac (N:=RN) n A lam m) (r ++ zerov n))).
  { unfold d. rewrite Hz0. change (Datatypes.length r) with (@length R r). rewrite Hr. reflexivity. }
  rewrite Ed. split; [exact K1|]. set (z := fst (lsolve _ _)) in *.
  specialize (K2 (zerov n) (zerov_length n)).
  rewrite (damped_norm n m), (damped_norm n m) in K2 by (auto using zerov_length; lra).
  rewrite (op_zero n m A HA), zero_residual in K2 by exact Hr.
  rewrite (predict_neg n m) by auto.
  rewrite Rdot_0_r in K2. pose proof (Rmult_le_pos lam (Rdot z z) (Rlt_le _ _ Hl) (Rdot_pos z)). lra.
Qed.

Lemma undamped_predict : forall n m lsolve A (r : list R), exact_least_squares n lsolve ->
  linear_op n m A -> length r = m ->
  let d : list R := fst (lsolve A r) in
  length d = n /\ (classical_predict (N:=RN) (vneg (N:=RN) d) (ResidualJac (N:=RN) r A) <= 0)%R /\
  (forall w : list R, length w = n -> (classical_predict (N:=RN) (vneg (N:=RN) d) (ResidualJac (N:=RN) r A) <=
                              classical_predict (N:=RN) (vneg (N:=RN) w) (ResidualJac (N:=RN) r A))%R).
Proof.
  intros n m lsolve A r HE HA Hr d. destruct (HE m A r HA Hr) as [K1 K2]. fold d in K1, K2.
  split; [exact K1|].
  assert (K : forall w : list R, length w = n -> (classical_predict (N:=RN) (vneg (N:=RN) d) (ResidualJac (N:=RN) r A) <=
                              classical_predict (N:=RN) (vneg (N:=RN) w) (ResidualJac (N:=RN) r A))%R).
  { intros w Hw. rewrite !(predict_neg n m) by auto. specialize (K2 w Hw). lra. }
  split; [|exact K].
  eapply Rle_trans; [apply (K (zerov n)), zerov_length|].
  rewrite (predict_neg n m) by auto using zerov_length. rewrite (op_zero n m A HA), zero_residual by exact Hr. lra.
Qed.

Lemma convex_dot : forall m (u v r : list R) (t : R), length u = m -> length v = m -> length r = m -> (0 <= t <= 1)%R ->
  let w := Radd_v u (Rscal t (Rsub_v v u)) in
  (Rdot w r + / 2 * Rdot w w <= (1 - t) * (Rdot u r + / 2 * Rdot u u) + t * (Rdot v r + / 2 * Rdot v v))%R.
Proof.
  intros m u v r t Hu Hv Hr Ht w. unfold w.
  assert (Hw : length (Rscal t (Rsub_v v u)) = m) by (rewrite Rscal_length; apply Rsub_v_length; auto).
  rewrite sq_add by congruence.
  rewrite Rdot_add_l by congruence. rewrite !Rdot_scal_l, !Rdot_scal_r.
  pose proof (Rdot_pos (Rsub_v v u)) as Hp.
  rewrite !Rdot_sub_r, !Rdot_sub_l, (Rdot_comm v u) in * by congruence.
  set (uu := Rdot u u) in *. set (uv := Rdot u v) in *. set (vv := Rdot v v) in *.
  set (ur := Rdot u r). set (vr := Rdot v r).
  assert (0 <= t * (1 - t) * (vv - uv - (uv - uu)))%R by (apply Rmult_le_pos; [apply Rmult_le_pos|]; lra).
  lra.
Qed.

Lemma predict_convex : forall n m A (r a b : list R) (t : R), linear_op n m A -> length r = m -> length a = n -> length b = n ->
  (0 <= t <= 1)%R ->
  let q d := classical_predict (N:=RN) d (ResidualJac (N:=RN) r A) in
  (q (Radd_v a (Rscal t (Rsub_v b a))) <= (1 - t) * q a + t * q b)%R.
Proof.
  intros n m A r a b t HA Hr Ha Hb Ht q. unfold q. pose proof HA as (L1 & L2 & L3).
  assert (Hba : length (Rsub_v b a) = n) by (apply Rsub_v_length; assumption).
  rewrite !(predict_ls n m) by (auto; apply Radd_v_length; auto; rewrite Rscal_length; auto).
  rewrite L2, L3, (op_sub n m) by (auto; rewrite Rscal_length; auto).
  apply (convex_dot m); auto.
Qed.

Lemma two_norm_pos : forall v : list R, (0 <= two_norm (N:=RN) v)%R.
Proof. intro v. unfold two_norm. apply sqrt_pos. Qed.

Lemma nisnan_RN : forall x : R, nisnan (N:=RN) x = false.
Proof. intro x. unfold nisnan. cbn. rewrite (proj2 (Reqb_true x x) eq_refl). reflexivity. Qed.

Lemma nmax_RN : forall a b : R, nmax (N:=RN) a b = Rmax a b.
Proof.
  intros a b. unfold nmax. rewrite !nisnan_RN. cbn. destruct (Rltb a b) eqn:E; rb.
  - rewrite Rmax_right; lra.
  - rewrite Rmax_left; lra.
Qed.

Lemma nmin_RN : forall a b : R, nmin (N:=RN) a b = Rmin a b.
Proof.
  intros a b. unfold nmin. rewrite !nisnan_RN. cbn. destruct (Rltb b a) eqn:E; rb.
  - rewrite Rmin_right; lra.
  - rewrite Rmin_left; lra.
Qed.

Lemma nclip_RN : forall x l u : R, (l <= u)%R -> (l <= nclip (N:=RN) x l u <= u)%R.
Proof.
  intros x l u H. unfold nclip. rewrite nmin_RN, nmax_RN. unfold Rmin, Rmax.
  repeat destruct (Rle_dec _ _); lra.
Qed.

(** Exact arithmetic, exact linear solves (each solve returns a least-squares
    solution), the Jacobian a linear map: along a run of LevenbergMarquardt the
    sum of squares never increases. *)
Lemma C32_levenberg_marquardt_pf :
  forall (Aux : Type) (P : ar_tols RN) (eps fmax : R) lsolve jac_of (fn : list R -> list R * Aux)
         (n m : nat) (y0 : list R) fs auxs st0,
    (0 <= eps)%R -> (0 < fmax)%R -> exact_least_squares n lsolve ->
    (forall y : list R, length y = n -> length (fst (fn y)) = m /\ linear_op n m (jac_of fn y)) ->
    length y0 = n ->
    let s := LevenbergMarquardt (N:=RN) P jac_of lsolve eps fmax in
    s_init s fn y0 fs auxs = Ret st0 ->
    let y := y_at s fn y0 st0 (auxs fill0) in
    let loss z := Rdot (fst (fn z)) (fst (fn z)) in
    forall j k, j <= k -> (loss (y k) <= loss (y j))%R.
Proof.
  intros Aux P eps fmax lsolve jac_of fn n m y0 fs auxs st0 He Hf HE HJ Hn s Hi y loss.
  unfold s in Hi. apply gn_init_inv in Hi. subst st0.
  apply (mono_all P (tr_default (N:=RN)) (damped_newton_descent lsolve eps fmax) jac_of fn n y0 fs auxs Hn).
  - cbn. unfold Q2R. cbn. lra.
  - cbn. unfold Q2R. cbn. lra.
  - cbn. unfold Q2R. cbn. lra.
  - intros z step st Hz _ i d. destruct (HJ z Hz) as [Hr HA].
    destruct (damped_predict n m lsolve eps fmax (jac_of fn z) (fst (fn z)) step HE HA Hr He Hf) as [K1 K2].
    unfold d, i. cbn [damped_newton_descent d_step d_query fst snd].
    change (Datatypes.length z) with (@length R z). rewrite Hz.
    destruct (damped_newton_step _ _ _ _ _ _) as [sol res]. cbn [fst] in *. split; [|exact K2].
    unfold vneg. rewrite map_length. exact K1.
Qed.

(** The same for IndirectLevenbergMarquardt, whatever the inner root find
    returns. *)
Lemma C32_indirect_levenberg_marquardt_pf :
  forall (Aux : Type) (P : ar_tols RN) (eps fmax : R) lsolve rfind jac_of (fn : list R -> list R * Aux)
         (n m : nat) (y0 : list R) fs auxs st0,
    (0 <= eps)%R -> (0 < fmax)%R -> exact_least_squares n lsolve ->
    (forall y : list R, length y = n -> length (fst (fn y)) = m /\ linear_op n m (jac_of fn y)) ->
    length y0 = n ->
    let s := IndirectLevenbergMarquardt (N:=RN) P jac_of lsolve eps fmax rfind in
    s_init s fn y0 fs auxs = Ret st0 ->
    let y := y_at s fn y0 st0 (auxs fill0) in
    let loss z := Rdot (fst (fn z)) (fst (fn z)) in
    forall j k, j <= k -> (loss (y k) <= loss (y j))%R.
Proof.
  intros Aux P eps fmax lsolve rfind jac_of fn n m y0 fs auxs st0 He Hf HE HJ Hn s Hi y loss.
  unfold s in Hi. apply gn_init_inv in Hi. subst st0.
  apply (mono_all P (tr_default (N:=RN)) (indirect_damped_newton_descent lsolve eps fmax two_norm rfind) jac_of fn n y0 fs auxs Hn).
  - cbn. unfold Q2R. cbn. lra.
  - cbn. unfold Q2R. cbn. lra.
  - cbn. unfold Q2R. cbn. lra.
  - intros z step st Hz _ i d. destruct (HJ z Hz) as [Hr HA].
    destruct (undamped_predict n m lsolve (jac_of fn z) (fst (fn z)) HE HA Hr) as (U1 & U2 & _).
    unfold d, i. cbn [indirect_damped_newton_descent d_step d_query newton_step].
    destruct (lsolve (jac_of fn z) (fst (fn z))) as [nw res]. cbn [fst] in U1, U2.
    cbn [indirect_damped_step].
    change (Datatypes.length z) with (@length R z). rewrite Hz.
    match goal with |- context [if ?b then _ else _] => destruct b end.
    + match goal with |- context [damped_newton_step lsolve eps fmax n ?a ?c] =>
        pose proof (damped_predict n m lsolve eps fmax (jac_of fn z) (fst (fn z)) a HE HA Hr He Hf) as [K1 K2];
        destruct (damped_newton_step lsolve eps fmax n a c) as [sol res'] end.
      cbn [fst] in *. split; [|exact K2]. unfold vneg. rewrite map_length. exact K1.
    + cbn [fst]. split; [|exact U2]. unfold vneg. rewrite map_length. exact U1.
Qed.

Lemma vneg_length : forall v : list R, length (vneg (N:=RN) v : list R) = length v.
Proof. intro v. unfold vneg. apply map_length. Qed.

Lemma vneg_neg : forall v : list R, v = vneg (N:=RN) (vneg (N:=RN) v).
Proof. intro v. unfold vneg. rewrite map_map. rewrite <- (map_id v) at 1. apply map_ext. intro a. cbn. lra. Qed.

Lemma predict_zero : forall n m A (r : list R), linear_op n m A -> length r = m ->
  classical_predict (N:=RN) (zerov n) (ResidualJac (N:=RN) r A) = 0%R.
Proof.
  intros n m A r HA Hr. rewrite (predict_ls n m) by (auto using zerov_length). rewrite (op_zero n m A HA), !Rdot_0_l. lra.
Qed.

Lemma shrink : forall t a b : R, (0 <= t <= 1)%R -> (0 <= b)%R -> (a + / 2 * b <= 0)%R ->
  (t * a + / 2 * (t * (t * b)) <= 0)%R.
Proof.
  intros t a b Ht Hb H.
  assert (0 <= t * (- (a + / 2 * b)))%R by (apply Rmult_le_pos; lra).
  assert (0 <= t * (1 - t) * b)%R by (apply Rmult_le_pos; [apply Rmult_le_pos|]; lra). lra.
Qed.

(** A point of the dogleg path never predicts an increase. *)
Lemma dogleg_predict : forall n m lsolve (eps : R) A (r : list R) (step : R), exact_least_squares n lsolve ->
  linear_op n m A -> transpose_op n A -> length r = m -> (0 <= eps)%R -> (0 < step)%R ->
  let d : list R := fst (dogleg_step (N:=RN) eps two_norm None step (dogleg_query (N:=RN) lsolve eps two_norm (ResidualJac (N:=RN) r A))) in
  length d = n /\ (classical_predict (N:=RN) d (ResidualJac (N:=RN) r A) <= 0)%R.
Proof.
  intros n m lsolve eps A r step HE HA [T1 T2] Hr He Hs d. pose proof HA as (L1 & L2 & L3).
  destruct (undamped_predict n m lsolve A r HE HA Hr) as (U1 & U2 & U3).
  set (q d := classical_predict (N:=RN) d (ResidualJac (N:=RN) r A)) in *.
  unfold d. unfold dogleg_query. cbn [newton_step info_grad]. cbv zeta.
  destruct (lsolve A r) as [nsol res]. cbn [fst] in *.
  set (g := op_mvT A r : list R). assert (Lg : length g = n) by apply T1.
  set (scaling := if nltb (n:=RN) eps _ then _ else _).
  set (c := vscale (N:=RN) (nneg (n:=RN) scaling) g : list R).
  assert (Lc : length c = n) by (unfold c, vscale; rewrite map_length; exact Lg).
  assert (Lv : length (vneg (N:=RN) nsol : list R) = n) by (rewrite vneg_length; exact U1).
  set (nw := vneg (N:=RN) nsol : list R) in *.
  assert (Qc : (q c <= 0)%R).
  { unfold q, c. rewrite vscale_RN. rewrite (predict_ls n m) by (auto; rewrite Rscal_length; exact Lg).
    rewrite L3 by exact Lg. rewrite !Rdot_scal_l, !Rdot_scal_r.
    assert (E1 : Rdot (op_mv A g) r = Rdot g g) by (rewrite Rdot_comm; symmetry; exact (T2 r g Lg)).
    rewrite E1. change (nneg (n:=RN) scaling) with (- scaling)%R. unfold scaling.
    rewrite !sum_squares_RN. cbn [nltb RN ndiv nofQ].
    change (op_mvT A r) with g. set (dn := Rdot (op_mv A g) (op_mv A g)).
    destruct (Rltb eps dn) eqn:E; [|rewrite Q2R_0; lra]. apply Rltb_true in E.
    set (gg := Rdot g g).
    apply Rle_trans with (- (/2) * (gg * gg / dn))%R.
    - right. field. lra.
    - assert (0 <= gg * gg / dn)%R; [|lra].
      apply Rmult_le_pos; [apply Rle_0_sqr|]. apply Rlt_le, Rinv_0_lt_compat. lra. }
  unfold dogleg_step. cbn [dl_newton dl_cauchy dl_newton_norm dl_cauchy_norm dl_result].
  set (ss := nmul (n:=RN) (two_norm (N:=RN) nsol) step).
  assert (Hss : (0 <= ss)%R) by (apply Rmult_le_pos; [apply two_norm_pos|lra]).
  cbn [nltb RN].
  destruct (Rltb ss (two_norm (N:=RN) c)) eqn:E1; [apply Rltb_true in E1|destruct (Rltb step (nofQ (n:=RN) 1))].
  - cbn [fst]. unfold scaled_cauchy. cbn [dl_newton dl_cauchy dl_newton_norm dl_cauchy_norm dl_result].
    cbn [nltb RN].
    destruct (Rltb eps (two_norm (N:=RN) c)) eqn:E2.
    + apply Rltb_true in E2.
      assert (Hcn : (0 < two_norm (N:=RN) c)%R) by (eapply Rle_lt_trans; [exact He|exact E2]).
      revert E1 Hcn. generalize (two_norm (N:=RN) c : R). clearbody ss. change (T RN) with R. intros cn E1 Hcn.
      assert (Em : forall v : list R, vwhere (N:=RN) true (map (fun x : R => x / cn * ss)%R v) (vfull (N:=RN) (length v) (nofQ (n:=RN) 0)) = Rscal (ss / cn) v).
      { intro v. unfold vwhere, vfull, Rscal. induction v as [|a v IH]; cbn; [reflexivity|]. f_equal; [|exact IH].
        field. apply Rgt_not_eq. exact Hcn. }
      rewrite Em. rewrite Rscal_length. split; [exact Lc|]. fold (q (Rscal (ss / cn) c)). unfold q in Qc |- *.
      rewrite (predict_ls n m) in Qc |- * by (auto; rewrite Rscal_length; exact Lc).
      rewrite L3 by exact Lc. rewrite !Rdot_scal_l, !Rdot_scal_r.
      set (t := (ss / cn)%R). assert (Ht : (0 <= t <= 1)%R).
      { unfold t. split; [apply Rmult_le_pos; [exact Hss|apply Rlt_le, Rinv_0_lt_compat; exact Hcn]|].
        apply (Rmult_le_reg_r cn); [exact Hcn|]. unfold Rdiv.
        rewrite Rmult_assoc, Rinv_l by (apply Rgt_not_eq; exact Hcn). rewrite Rmult_1_r, Rmult_1_l. left. exact E1. }
      apply shrink; [exact Ht|apply Rdot_pos|exact Qc].
    + match goal with |- context [vwhere false ?u ?w] => assert (Em : vwhere (N:=RN) false u w = zerov n) end.
      { unfold vwhere, vfull. change (Datatypes.length c) with (@length R c). rewrite Lc.
        cbn [nofQ RN]. rewrite Q2R_0. fold (zerov n).
        assert (G : forall u w : list R, length u = length w -> vmap2 (fun _ y : R => y) u w = w).
        { induction u as [|x u IH]; intros [|y w] H; try discriminate H; cbn; [reflexivity|]. f_equal. apply IH. now injection H. }
        apply G. rewrite map_length, zerov_length. exact Lc. }
      rewrite Em. split; [apply zerov_length|]. right. apply (predict_zero n m); auto.
  - unfold dogleg_mix. cbv zeta. cbn [fst snd]. unfold dogleg_interpolate. cbn [dl_newton dl_cauchy].
    set (t := dogleg_t _ _).
    assert (Ht : (1 <= (t : R) <= 2)%R).
    { unfold t, dogleg_t. cbv zeta. match goal with |- context [if ?b then _ else _] => destruct b end.
      - pose proof (fun x => nclip_RN x (Q2R 1) (Q2R 2)) as K. rewrite Q2R_1, Q2R_2 in K. 
        cbn [nofQ RN]. rewrite Q2R_1, Q2R_2. apply K. lra.
      - pose proof (fun x => nclip_RN x (Q2R 1) (Q2R 2)) as K. rewrite Q2R_1, Q2R_2 in K. 
        cbn [nofQ RN]. rewrite Q2R_1, Q2R_2. apply K. lra. }
    rewrite vadd_RN, vscale_RN, vsub_RN. split.
    + apply Radd_v_length; [exact Lc|]. rewrite Rscal_length. apply Rsub_v_length; assumption.
    + eapply Rle_trans; [apply (predict_convex n m); auto|].
      * change (nsub (n:=RN) t (nofQ (n:=RN) 1)) with (t - Q2R 1)%R. rewrite Q2R_1. lra.
      * change (nsub (n:=RN) t (nofQ (n:=RN) 1)) with (t - Q2R 1)%R. rewrite Q2R_1. fold (q c) (q nw).
        change (q nw <= 0)%R in U2.
        assert (0 <= (1 - (t - 1)) * (- q c))%R by (apply Rmult_le_pos; lra).
        assert (0 <= (t - 1) * (- q nw))%R by (apply Rmult_le_pos; lra). lra.
  - cbn [fst]. split; [exact Lv|exact U2].
Qed.

(** The same for Dogleg (two-norm trust region); here the transposed Jacobian
    must be right as well. *)
Lemma C32_dogleg_pf :
  forall (Aux : Type) (P : ar_tols RN) (eps : R) lsolve jac_of (fn : list R -> list R * Aux)
         (n m : nat) (y0 : list R) fs auxs st0,
    (0 <= eps)%R -> exact_least_squares n lsolve ->
    (forall y : list R, length y = n -> length (fst (fn y)) = m /\ linear_op n m (jac_of fn y) /\ transpose_op n (jac_of fn y)) ->
    length y0 = n ->
    let s := Dogleg (N:=RN) P jac_of lsolve eps in
    s_init s fn y0 fs auxs = Ret st0 ->
    let y := y_at s fn y0 st0 (auxs fill0) in
    let loss z := Rdot (fst (fn z)) (fst (fn z)) in
    forall j k, j <= k -> (loss (y k) <= loss (y j))%R.
Proof.
  intros Aux P eps lsolve jac_of fn n m y0 fs auxs st0 He HE HJ Hn s Hi y loss.
  unfold s in Hi. apply gn_init_inv in Hi. subst st0.
  apply (mono_all P (tr_default (N:=RN)) (dogleg_descent lsolve eps two_norm None) jac_of fn n y0 fs auxs Hn).
  - cbn. unfold Q2R. cbn. lra.
  - cbn. unfold Q2R. cbn. lra.
  - cbn. unfold Q2R. cbn. lra.
  - intros z step st Hz Hs i d. destruct (HJ z Hz) as (Hr & HA & HT).
    exact (dogleg_predict n m lsolve eps (jac_of fn z) (fst (fn z)) step HE HA HT Hr He Hs).
Qed.

(** One unknown, any number of residuals: a linear solver meeting the
    hypothesis, and a nonlinear problem with its Jacobian. *)
Definition lsolve1 (A : linop RN) (b : list R) : list R * results :=
  let c := op_mv A [1%R] in
  ([if Req_EM_T (Rdot c c) 0 then 0%R else (Rdot c b / Rdot c c)%R], successful).
Definition twores (v : list R) : list R * unit :=
  match v with [x] => ([x * x - 2; x - 1]%R, tt) | _ => ([0; 0]%R, tt) end.
Definition twores_jac (f : list R -> list R * unit) (v : list R) : linop RN :=
  MatOp (N:=RN) 1 (match v with [x] => [[2 * x]; [1]]%R | _ => [[0]; [0]]%R end).

Lemma quad_min : forall a b c x : R, (0 <= a)%R -> (a = 0 -> b = 0)%R ->
  let z := (if Req_EM_T a 0 then 0 else b / a)%R in
  (z * (z * a) - 2 * (z * b) + c <= x * (x * a) - 2 * (x * b) + c)%R.
Proof.
  intros a b c x Ha Hb z. unfold z. destruct (Req_EM_T a 0) as [E|E].
  - rewrite E, (Hb E). lra.
  - apply Rminus_le.
    replace (_ - _)%R with (- (a * Rsqr (x - b / a)))%R by (unfold Rsqr; field; exact E).
    assert (0 <= a * Rsqr (x - b / a))%R by (apply Rmult_le_pos; [exact Ha|apply Rle_0_sqr]). lra.
Qed.

Lemma sq_sub : forall a b : list R, length a = length b ->
  Rdot (Rsub_v a b) (Rsub_v a b) = (Rdot a a - 2 * Rdot a b + Rdot b b)%R.
Proof. intros a b H. rewrite Rdot_sub_l, !Rdot_sub_r by exact H. rewrite (Rdot_comm b a). lra. Qed.

Example C32_levenberg_marquardt_ex_pf :
  exact_least_squares 1 lsolve1 /\
  (forall y, length y = 1 ->
     length (fst (twores y)) = 2 /\ linear_op 1 2 (twores_jac twores y) /\ transpose_op 1 (twores_jac twores y)).
Proof.
  split.
  - intros m A b HA Hb z. split; [reflexivity|]. intros [|x [|? ?]] Hw; try discriminate Hw.
    destruct HA as (L1 & L2 & L3).
    assert (E : forall a : R, op_mv A [a] = Rscal a (op_mv A [1%R])).
    { intro a. rewrite <- (L3 a [1%R] eq_refl). cbn. rewrite Rmult_1_r. reflexivity. }
    pose proof (L1 [1%R] eq_refl) as Lc.
    unfold z, lsolve1. cbn [fst]. rewrite (E x). rewrite (E (if Req_EM_T _ _ then _ else _)).
    set (c := op_mv A [1%R] : list R) in *.
    rewrite !sq_sub by (rewrite Rscal_length; congruence).
    rewrite !Rdot_scal_l, !Rdot_scal_r.
    apply quad_min; [apply Rdot_pos|]. intro H0. rewrite (Rdot_0_inv c H0). apply Rdot_0_l.
  - intros [|x [|? ?]] H; try discriminate H. split; [reflexivity|].
    apply mat_linear. repeat constructor.
Qed.
