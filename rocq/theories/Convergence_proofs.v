(** Global convergence: Levenberg-Marquardt (C71). *)

From Coq Require Import String List Bool Arith Lia ZArith QArith Qreals Reals Lra Psatz.
From Verif Require Import Num NumFacts Vec Results Iterate Spec_Iterate Iterate_proofs.
From Verif Require Import Spec_Vec VecFacts Spec_Lin LinFacts.
From Verif Require Import Search Spec_Search Descent Minimisers Solvers Minimisers_proofs.
From Verif Require Import TrustRegion_proofs LeastSquares_proofs Dogleg_proofs Spec_Steps Steps_proofs Spec_Convergence.
Import ListNotations.
Local Open Scope nat_scope.

(** ** Facts about one damped step *)

Section Step.
  Local Open Scope R_scope.
  Variables (n m : nat) (A : linop RN) (r : list R).
  Hypothesis HA : linear_op n m A.
  Hypothesis HT : transpose_op n A.
  Hypothesis Hr : length r = m.
  Variables (step : R) (d : list R).
  Hypothesis Hs : 0 < step.
  Hypothesis Hd : length d = n.
  Hypothesis HD : forall w, length w = n -> damped_loss A r (/ step) d <= damped_loss A r (/ step) w.
  Let g : list R := op_mvT A r.

  Lemma inv_step : 0 < / step.
  Proof. apply Rinv_0_lt_compat; exact Hs. Qed.

  Lemma step_slope : Rdot g d = - Rdot (op_mv A d) (op_mv A d) - / step * Rdot d d.
  Proof.
    destruct (damped_minimiser n m A r (/ step) HA Hr inv_step d Hd HD) as [Z _].
    specialize (Z d Hd). pose proof HA as (L1 & _). pose proof (L1 d Hd) as E.
    rewrite Rdot_add_l in Z by (rewrite Hr; exact E).
    unfold g. rewrite (proj2 HT) by exact Hd. lra.
  Qed.

  Lemma step_predict : classical_predict (N:=RN) d (ResidualJac (N:=RN) r A) =
    - / 2 * Rdot (op_mv A d) (op_mv A d) - / step * Rdot d d.
  Proof.
    rewrite (predict_ls n m) by assumption. rewrite (Rdot_comm (op_mv A d) r).
    assert (E : Rdot r (op_mv A d) = Rdot g d) by (unfold g; rewrite (proj2 HT) by exact Hd; reflexivity).
    rewrite E, step_slope. lra.
  Qed.

  Lemma step_gradient : forall B, (forall v, length v = n -> Rdot (op_mv A v) (op_mv A v) <= B * Rdot v v) ->
    0 <= B ->
    classical_predict (N:=RN) d (ResidualJac (N:=RN) r A) <= - / 2 * (Rdot g g / (B + / step)).
  Proof.
    intros B HB B0. pose proof inv_step as I. pose proof HA as (L1 & _ & L3).
    assert (LG : length g = n) by apply HT.
    set (t := / (B + / step)). assert (T0 : 0 < t) by (apply Rinv_0_lt_compat; lra).
    specialize (HD (Rscal (- t) g) ltac:(rewrite Rscal_length; exact LG)).
    unfold damped_loss in HD. rewrite L3 in HD by exact LG.
    assert (E1 : Rdot (op_mv A g) r = Rdot g g).
    { rewrite Rdot_comm. symmetry. unfold g at 1. apply (proj2 HT). exact LG. }
    rewrite (sq_add (op_mv A d)) in HD by (rewrite L1 by exact Hd; auto).
    rewrite (sq_add (Rscal _ _)) in HD by (rewrite Rscal_length, L1 by exact LG; auto).
    rewrite !Rdot_scal_l, !Rdot_scal_r, E1 in HD.
    rewrite (predict_ls n m) by assumption.
    pose proof (HB g LG) as HBg. pose proof (Rdot_pos d).
    assert (0 <= / step * Rdot d d) by (apply Rmult_le_pos; lra).
    assert (Q : t * (t * Rdot (op_mv A g) (op_mv A g)) + / step * (t * (t * Rdot g g)) <= t * Rdot g g).
    { assert (TG : t * Rdot g g = t * t * ((B + / step) * Rdot g g)).
      { unfold t. field. split; [lra|]. intro X. assert (0 < B * step + 1); [|lra].
        assert (0 <= B * step) by (apply Rmult_le_pos; lra). lra. }
      assert (H9 : t * t * Rdot (op_mv A g) (op_mv A g) <= t * t * (B * Rdot g g)).
      { apply Rmult_le_compat_l; [|exact HBg]. apply Rlt_le, Rmult_lt_0_compat; exact T0. }
      clear - H9 TG. clearbody t. rewrite TG at 2. lra. }
    unfold Rdiv. fold t. clearbody t. lra.
  Qed.
End Step.

(** [cauchy_termination] is false only if some coordinate or some residual moved by at
    least the absolute tolerance. *)
Lemma cauchy_false_vec : forall (rtol atol : R) (y d f e : list R), (0 <= rtol)%R -> (0 < atol)%R ->
  cauchy_termination (N:=RN) rtol atol max_norm y d f e = false ->
  (exists i a, nth_error d i = Some a /\ (atol <= Rabs a)%R) \/
  (exists i a, nth_error e i = Some a /\ (atol <= Rabs a)%R).
Proof.
  intros rtol atol y d f e Hr Ha H.
  assert (X : forall v : list R, (forall i a, nth_error v i = Some a -> (Rabs a < atol)%R) \/
     exists i a, nth_error v i = Some a /\ (atol <= Rabs a)%R).
  { induction v as [|x v IH].
    - left. intros [|i] a E; discriminate E.
    - destruct (Rle_dec atol (Rabs x)) as [Q|Q]; [right; exists 0, x; auto|].
      destruct IH as [IH|(i & a & E & B)]; [left|right; exists (S i), a; auto].
      intros [|i] a E; cbn in E; [injection E as <-; lra|eauto]. }
  assert (P : forall b, (0 <= rtol * Rabs b)%R) by (intro b; apply Rmult_le_pos; [lra|apply Rabs_pos]).
  destruct (X d) as [D|D]; [|left; exact D]. destruct (X e) as [F|F]; [|right; exact F].
  exfalso. rewrite cauchy_RN in H; [discriminate|exact Hr|exact Ha| |];
    intros i a b E _; [specialize (D i a E)|specialize (F i a E)]; pose proof (P b); lra.
Qed.

(** How the step counters of the Gauss-Newton family move *)
Lemma gn_counts : forall (N : Num) (Aux : Type) (P : ar_tols N) search descent jac_of (fn : list N -> list N * Aux) y st y' st' a',
  gn_step P search descent jac_of fn y st = (y', st', a') ->
  forall step acc sr sst,
    se_step search (gn_first_step st) y (gn_y_eval st) (gn_f_info st)
      (ResidualJac (fst (fn (gn_y_eval st))) (jac_of fn (gn_y_eval st))) (gn_search_state st) = (step, acc, sr, sst) ->
    gn_num_accepted_steps st' = gn_num_accepted_steps st + (if acc then 1 else 0).
Proof.
  intros N Aux P search descent jac_of fn y st y' st' a' H step acc sr sst E. unfold gn_step in H.
  destruct (fn (gn_y_eval st)) as [fe ae]. cbn [fst] in E. rewrite E in H.
  destruct acc; cbn in H;
    (match type of H with (let '(_, _) := ?x in _) = _ => destruct x as [u v] end);
    injection H as _ <- _; reflexivity.
Qed.

Section LM.
  Context {Aux : Type}.
  Variables (P : ar_tols RN) (eps fmax : R) (lsolve : linop RN -> list R -> list R * results).
  Variable jac_of : (list R -> list R * Aux) -> list R -> linop RN.
  Variable fn : list R -> list R * Aux.
  Variables (n m : nat) (y0 : list R) (fs : fillv -> list R) (auxs : fillv -> Aux).
  Hypothesis He : (0 <= eps)%R.
  Hypothesis Hf : (0 < fmax)%R.
  Hypothesis HE : exact_least_squares n lsolve.
  Let r (x : list R) : list R := fst (fn x).
  Let J (x : list R) : linop RN := jac_of fn x.
  Hypothesis HP : residual_problem n m r J.
  Hypothesis Hn : length y0 = n.
  Let descent := damped_newton_descent (N:=RN) lsolve eps fmax.
  Let search := classical_trust_region (N:=RN) tr_default.
  Let s := gauss_newton_solver (N:=RN) P search descent jac_of.
  Let st0 := gn_st0 (N:=RN) search descent y0 fs auxs.
  Let Yk : nat -> list R := y_at s fn y0 st0 (auxs fill0).
  Let Sk := st_at s fn y0 st0 (auxs fill0).
  Let radius (k : nat) : R := gn_search_state (Sk k).
  Let acc (k : nat) : nat := gn_num_accepted_steps (Sk k).
  Let f := half_squares r.
  Let info (x : list R) := ResidualJac (N:=RN) (r x) (J x).

  Lemma lm_descends : forall y (step : R) st, length y = n -> (0 < step)%R ->
    let i := ResidualJac (N:=RN) (fst (fn y)) (jac_of fn y) in
    let d := fst (d_step descent step (d_query descent y i st)) in
    length d = n /\ (classical_predict (N:=RN) d i <= 0)%R.
  Proof.
    intros z step st Hz _ i d. destruct (HP z Hz) as (Hr & HA & _).
    destruct (damped_predict n m lsolve eps fmax (jac_of fn z) (fst (fn z)) step HE HA Hr He Hf) as [K1 K2].
    unfold d, i, descent. cbn [damped_newton_descent d_step d_query fst snd].
    change (Datatypes.length z) with (@length R z). rewrite Hz.
    destruct (damped_newton_step _ _ _ _ _ _) as [sol res]. cbn [fst] in *. split; [|exact K2].
    unfold vneg. rewrite map_length. exact K1.
  Qed.

  Lemma lm_inv : forall k, length (Yk k) = n /\ (0 < radius k)%R /\
    (0 < k -> exists st', gn_y_eval (Sk k) = vadd (N:=RN) (Yk k)
       (fst (d_step descent (radius k) (d_query descent (Yk k) (info (Yk k)) st')))).
  Proof.
    intro k.
    destruct (mono_inv P (tr_default (N:=RN)) descent jac_of fn n y0 fs auxs Hn
      ltac:(cbn; unfold Q2R; cbn; lra) ltac:(cbn; unfold Q2R; cbn; lra) lm_descends k) as (I1 & I2 & _ & I4).
    split; [exact I1|]. split; [exact I2|]. intro Hk. destruct (I4 Hk) as (st' & E1 & E2). exists st'.
    rewrite E1 in E2. exact E2.
  Qed.

  Lemma first_accepted : Yk 1 = y0 /\ acc 1 = 1 /\ radius 1 = 1%R.
  Proof.
    destruct (gn_step_cases _ _ _ _ _ _ _ _ _ _ (gn_trace_S (N:=RN) P search descent jac_of fn y0 fs auxs 0))
      as (step & ac & sr & sst & Es & E1 & E2 & E3 & E4 & E6 & E5).
    pose proof (gn_counts _ _ _ _ _ _ _ _ _ _ _ _ (gn_trace_S (N:=RN) P search descent jac_of fn y0 fs auxs 0) _ _ _ _ Es) as C.
    unfold search in Es. cbn [se_step classical_trust_region] in Es. unfold tr_step in Es. cbv zeta in Es.
    change (gn_first_step _) with true in Es. cbn [negb] in Es. rewrite orb_true_r, andb_false_r in Es.
    injection Es as Es <- _ Es'. destruct E5 as (E5 & _). split; [exact E5|].
    split; [exact C|]. unfold radius. refine (eq_trans E2 (eq_trans (eq_sym Es') _)). cbn. rewrite Q2R_1. lra.
  Qed.

  Lemma lm_step : forall k, (eps < radius (S k))%R -> exists d : list R, length d = n /\
    (forall w, length w = n -> damped_loss (J (Yk (S k))) (r (Yk (S k))) (/ radius (S k)) d <=
                               damped_loss (J (Yk (S k))) (r (Yk (S k))) (/ radius (S k)) w)%R /\
    gn_y_eval (Sk (S k)) = Radd_v (Yk (S k)) d /\
    let change := (f (Radd_v (Yk (S k)) d) - f (Yk (S k)))%R in
    let pred : R := classical_predict (N:=RN) d (info (Yk (S k))) in
    ((change <= 1 / 100 * pred)%R /\ Yk (S (S k)) = Radd_v (Yk (S k)) d /\ acc (S (S k)) = S (acc (S k)) /\
     (radius (S (S k)) = radius (S k) \/ radius (S (S k)) = 7 / 2 * radius (S k))%R /\
     gn_terminate (Sk (S (S k))) = cauchy_termination (N:=RN) (ar_rtol P) (ar_atol P) (ar_norm P)
       (Yk (S (S k))) (Rsub_v (Yk (S (S k))) (Yk (S k))) (r (Yk (S (S k))))
       (Rsub_v (r (Yk (S (S k)))) (r (Yk (S k))))) \/
    ((1 / 100 * pred < change)%R /\ Yk (S (S k)) = Yk (S k) /\ acc (S (S k)) = acc (S k) /\
     radius (S (S k)) = (/ 4 * radius (S k))%R /\ gn_terminate (Sk (S (S k))) = false).
  Proof.
    intros k HEps. destruct (lm_inv (S k)) as (I1 & I2 & I4). destruct (I4 ltac:(lia)) as (st' & Ey). clear I4.
    destruct (HP (Yk (S k)) I1) as (Hr & HA & HT).
    destruct (damped_step_min lsolve eps fmax n m (J (Yk (S k))) (r (Yk (S k))) (radius (S k)) HE HA Hr
      (conj He HEps)) as (D1 & D2).
    assert (ED : fst (d_step descent (radius (S k)) (d_query descent (Yk (S k)) (info (Yk (S k))) st')) =
      Rscal (-1) (fst (damped_newton_step (N:=RN) lsolve eps fmax n (radius (S k)) (info (Yk (S k)))))).
    { unfold descent. cbn [damped_newton_descent d_step d_query fst snd].
      change (@length (T RN) (Yk (S k))) with (@length R (Yk (S k))). rewrite I1.
      destruct (damped_newton_step _ _ _ _ _ _) as [sol res]. cbn [fst]. apply vneg_RN. }
    rewrite ED in Ey. fold (info (Yk (S k))) in D1, D2.
    exists (Rscal (-1) (fst (damped_newton_step (N:=RN) lsolve eps fmax n (radius (S k)) (info (Yk (S k)))))).
    split; [exact D1|]. split; [exact D2|].
    set (d := Rscal (-1) (fst (damped_newton_step (N:=RN) _ _ _ _ _ _))) in *. clearbody d. clear D2 ED.
    rewrite vadd_RN in Ey. split; [exact Ey|].
    assert (HA1 : accepts_first search) by exact (proj1 (proj2 (accepts_first_builtin RN)) (tr_default (N:=RN))).
    destruct (gn_first (N:=RN) P search descent jac_of fn y0 fs auxs HA1 (S k)) as [F1 F2].
    destruct (F2 ltac:(lia)) as [Ff _].
    destruct (gn_step_cases _ _ _ _ _ _ _ _ _ _ (gn_trace_S (N:=RN) P search descent jac_of fn y0 fs auxs (S k)))
      as (step & ac & sr & sst & Es & E1 & E2 & E3 & E4 & E6 & E5).
    pose proof (gn_counts _ _ _ _ _ _ _ _ _ _ _ _ (gn_trace_S (N:=RN) P search descent jac_of fn y0 fs auxs (S k)) _ _ _ _ Es) as C.
    change (acc (S (S k)) = acc (S k) + (if ac then 1 else 0)) in C.
    change (radius (S (S k)) = sst) in E2.
    replace (gn_first_step _) with false in Es
      by (symmetry; apply not_true_iff_false; intro F; apply F1 in F; discriminate).
    rewrite Ff in Es, E5.
    assert (Es' : se_step search false (Yk (S k)) (Radd_v (Yk (S k)) d) (info (Yk (S k)))
       (info (Radd_v (Yk (S k)) d)) (radius (S k)) = (step, ac, sr, sst)).
    { rewrite <- Ey. exact Es. }
    clear Es. unfold search in Es'. set (TD := tr_default (N:=RN)) in Es'.
    assert (LC : tr_low_cutoff TD = (1 / 100)%R) by (unfold TD; cbn; unfold Q2R; cbn; lra).
    assert (HC : tr_high_constant TD = (7 / 2)%R) by (unfold TD; cbn; unfold Q2R; cbn; lra).
    assert (KC : tr_low_constant TD = (/ 4)%R) by (unfold TD; cbn; unfold Q2R; cbn; lra).
    clearbody TD. cbn [se_step classical_trust_region] in Es'. unfold tr_step in Es'. cbv zeta in Es'.
    rewrite <- (vadd_RN (Yk (S k)) d) in Es'. rewrite vsub_vadd in Es' by (exact (eq_trans D1 (eq_sym I1))).
    rewrite vadd_RN in Es'.
    assert (Ef : forall x, as_min (N:=RN) (info x) = f x).
    { intro x. unfold info. cbn [as_min]. rewrite sum_squares_RN. cbn [nofQ nmul RN]. rewrite Q2R_half. reflexivity. }
    rewrite !Ef in Es'. intros change pred.
    injection Es' as Q1 Q2 _ Q4. rewrite orb_false_r in Q2. rewrite Q2 in Q4, Q1. clear Q1. rewrite <- Q4 in E2. clear Q4.
    rewrite LC in Q2. rewrite HC, KC in E2.
    destruct ac.
    - left. apply Rleb_true in Q2. split; [exact Q2|]. destruct E5 as (Y1 & _ & _ & _ & T1).
      change (Yk (S (S k)) = gn_y_eval (Sk (S k))) in Y1. rewrite Ey in Y1. split; [exact Y1|].
      split; [rewrite C; lia|]. split.
      + destruct (_ && _) in E2; [right; exact E2|left; rewrite E2; cbn; rewrite Q2R_1; ring].
      + rewrite !vsub_RN in T1. exact T1.
    - right. apply Rleb_false in Q2. split; [exact Q2|]. destruct E5 as (Y1 & _ & _ & _ & T1).
      split; [exact Y1|]. split; [rewrite C; lia|]. split; [exact E2|exact T1].
  Qed.

  Variable L : R.
  Hypothesis HL : (0 < L)%R.
  Let g := ls_gradient r J.
  Hypothesis HS : smooth n L f g.
  Let rho := Rmin 1 (99 / (200 * L)).
  Hypothesis Hrho : (eps < rho)%R.

  Lemma lm_must_accept : forall k (d : list R), length d = n -> (0 < radius k)%R ->
    (forall w, length w = n -> damped_loss (J (Yk k)) (r (Yk k)) (/ radius k) d <=
                               damped_loss (J (Yk k)) (r (Yk k)) (/ radius k) w)%R ->
    (radius k <= 99 / (50 * L))%R ->
    (f (Radd_v (Yk k) d) - f (Yk k) <= 1 / 100 * classical_predict (N:=RN) d (info (Yk k)))%R.
  Proof.
    intros k d Ld R0 HD RL. destruct (lm_inv k) as (I1 & _). destruct (HP (Yk k) I1) as (Hr & HA & HT).
    pose proof (step_slope n m (J (Yk k)) (r (Yk k)) HA HT Hr (radius k) d R0 Ld HD) as S1.
    pose proof (step_predict n m (J (Yk k)) (r (Yk k)) HA HT Hr (radius k) d R0 Ld HD) as S2.
    unfold info. rewrite S2. pose proof (proj2 HS (Yk k) d I1 Ld) as S3.
    change (g (Yk k)) with (op_mvT (J (Yk k)) (r (Yk k))) in S3. rewrite S1 in S3.
    pose proof (Rdot_pos d) as D0. pose proof (Rdot_pos (op_mv (J (Yk k)) d)) as D1.
    assert (Q : (L / 2 <= 99 / 100 * / radius k)%R).
    { apply (Rmult_le_reg_r (radius k)); [exact R0|].
      replace (99 / 100 * / radius k * radius k)%R with (L / 2 * (99 / (50 * L)))%R by (field; lra).
      apply Rmult_le_compat_l; lra. }
    pose proof (Rmult_le_compat_r _ _ _ D0 Q) as Q'. lra.
  Qed.

  Lemma lm_radius : forall k, (rho <= radius (S k))%R.
  Proof.
    assert (R1 : (rho <= 1)%R) by apply Rmin_l.
    assert (R2 : (rho <= 99 / (200 * L))%R) by apply Rmin_r.
    induction k as [|k IH].
    - rewrite (proj2 (proj2 first_accepted)). exact R1.
    - destruct (lm_inv (S k)) as (I1 & I2 & _).
      destruct (lm_step k ltac:(lra)) as (d & Ld & HD & EY & [(_ & _ & _ & [E|E] & _)|(C & _ & _ & E & _)]); rewrite E; try lra.
      destruct (Rle_dec (radius (S k)) (99 / (50 * L))) as [Q|Q].
      + exfalso. pose proof (lm_must_accept (S k) d Ld I2 HD Q). cbv zeta in C. lra.
      + replace (99 / (200 * L))%R with (/ 4 * (99 / (50 * L)))%R in R2 by (field; lra). lra.
  Qed.

  Lemma lm_eps : forall k, (eps < radius (S k))%R.
  Proof. intro k. pose proof (lm_radius k). lra. Qed.

  Lemma lm_count : forall k, exists b, S k = acc (S k) + b /\ (radius (S k) * 4 ^ b <= 4 ^ acc (S k))%R.
  Proof.
    induction k as [|k (b & E1 & E2)].
    - exists 0. destruct first_accepted as (_ & A & B). rewrite A, B. split; [reflexivity|]. cbn. lra.
    - destruct (lm_inv (S k)) as (_ & I2 & _). assert (P0 : (0 < 4 ^ b)%R) by (apply pow_lt; lra).
      assert (P1 : (0 < radius (S k) * 4 ^ b)%R) by (apply Rmult_lt_0_compat; assumption).
      destruct (lm_step k (lm_eps k)) as (d & Ld & HD & EY & [(_ & _ & A & E & _)|(_ & _ & A & E & _)]); rewrite A.
      + exists b. split; [lia|]. cbn [pow]. destruct E as [E|E]; rewrite E; nra.
      + exists (S b). split; [lia|]. rewrite E. cbn [pow]. lra.
  Qed.

  Lemma lm_count_le : forall q k, (1 <= 4 ^ q * rho)%R -> k <= 2 * acc k + q.
  Proof.
    intros q [|k] Hq; [lia|]. destruct (lm_count k) as (b & E1 & E2). pose proof (lm_radius k) as R.
    assert (b <= acc (S k) + q); [|lia].
    destruct (le_lt_dec b (acc (S k) + q)) as [?|X]; [assumption|exfalso].
    assert (P1 : (4 ^ (acc (S k) + q) < 4 ^ b)%R) by (apply Rlt_pow; [lra|exact X]).
    rewrite pow_add in P1. assert (P2 : (0 < 4 ^ b)%R) by (apply pow_lt; lra).
    assert (P3 : (0 < 4 ^ acc (S k))%R) by (apply pow_lt; lra).
    assert (P4 : (0 < 4 ^ q)%R) by (apply pow_lt; lra).
    assert (rho * 4 ^ b <= 4 ^ acc (S k))%R by (eapply Rle_trans; [apply Rmult_le_compat_r; [lra|exact R]|exact E2]).
    assert (Q1 : (4 ^ q * (rho * 4 ^ b) <= 4 ^ q * 4 ^ acc (S k))%R) by (apply Rmult_le_compat_l; lra).
    assert (Q2 : (1 * 4 ^ b <= 4 ^ q * rho * 4 ^ b)%R) by (apply Rmult_le_compat_r; lra).
    lra.
  Qed.

  Lemma f_nonneg : forall x, (0 <= f x)%R.
  Proof. intro x. unfold f, half_squares. pose proof (Rdot_pos (r x)). lra. Qed.

  (** If every accepted step lowers f by delta, few steps can be taken. *)
  Lemma lm_budget : forall (good : nat -> Prop) (delta : R) q K, (0 < delta)%R -> (1 <= 4 ^ q * rho)%R ->
    (forall k, good k \/ ~ good k) ->
    (forall k, ~ good k -> acc (S (S k)) = S (acc (S k)) -> (f (Yk (S (S k))) <= f (Yk (S k)) - delta)%R) ->
    (f y0 < INR K * delta)%R ->
    exists k, k < 2 * K + 1 + q /\ good k.
  Proof.
    intros good delta q K D0 Hq Dec HG HK.
    assert (X : forall j, (exists k, k < j /\ good k) \/
       (f (Yk (S j)) <= f y0 - (INR (acc (S j)) - 1) * delta)%R).
    { induction j as [|j [(k & K1 & K2)|IH]].
      - right. destruct first_accepted as (E1 & E2 & _). rewrite E1, E2. cbn. lra.
      - left. exists k. split; [lia|exact K2].
      - destruct (Dec j) as [G|G]; [left; exists j; auto|]. right.
        destruct (lm_step j (lm_eps j)) as (d & Ld & HD & EY & [(_ & _ & A & _)|(_ & Y & A & _)]).
        + pose proof (HG j G A). rewrite A, S_INR. lra.
        + rewrite Y, A. exact IH. }
    destruct (X (2 * K + 1 + q)) as [(k & K1 & K2)|X']; [eauto|exfalso].
    pose proof (lm_count_le q (S (2 * K + 1 + q)) Hq) as C.
    assert (C' : S K <= acc (S (2 * K + 1 + q))) by lia. apply le_INR in C'. rewrite S_INR in C'.
    pose proof (f_nonneg (Yk (S (2 * K + 1 + q)))).
    assert (INR K * delta <= (INR (acc (S (2 * K + 1 + q))) - 1) * delta)%R by (apply Rmult_le_compat_r; lra). lra.
  Qed.

  Lemma lm_gradient : forall B tau q K, (0 <= B)%R -> jac_bounded n B J -> (0 < tau)%R -> (1 <= 4 ^ q * rho)%R ->
    (f y0 < INR K * (tau / (200 * (B + / rho))))%R ->
    exists k, k <= 2 * K + 1 + q /\ (Rdot (g (Yk k)) (g (Yk k)) < tau)%R.
  Proof.
    intros B tau q K B0 HB T0 Hq HK.
    assert (R0 : (0 < rho)%R) by lra. assert (I0 : (0 < / rho)%R) by (apply Rinv_0_lt_compat; exact R0).
    destruct (lm_budget (fun k => (Rdot (g (Yk (S k))) (g (Yk (S k))) < tau)%R)
      (tau / (200 * (B + / rho)))%R q K) as (k & K1 & K2); auto.
    - apply Rdiv_lt_0_compat; lra.
    - intro k. destruct (Rlt_dec (Rdot (g (Yk (S k))) (g (Yk (S k)))) tau); auto.
    - intros k G A. apply Rnot_lt_le in G.
      destruct (lm_inv (S k)) as (I1 & I2 & _). destruct (HP (Yk (S k)) I1) as (Hr & HA & HT).
      destruct (lm_step k (lm_eps k)) as (d & Ld & HD & EY & [(C & Y & _)|(_ & _ & A' & _)]); [|rewrite A' in A; lia].
      cbv zeta in C. rewrite Y.
      pose proof (step_gradient n m _ _ HA HT Hr (radius (S k)) d I2 Ld HD B (fun v => HB _ v I1) B0) as Q.
      fold (info (Yk (S k))) in Q. change (op_mvT (J (Yk (S k))) (r (Yk (S k)))) with (g (Yk (S k))) in Q.
      pose proof (lm_radius k) as LR.
      assert (I1' : (/ radius (S k) <= / rho)%R) by (apply Rinv_le_contravar; assumption).
      assert (I2' : (0 < / radius (S k))%R) by (apply Rinv_0_lt_compat; exact I2).
      assert (Q2 : (tau / (B + / rho) <= Rdot (g (Yk (S k))) (g (Yk (S k))) / (B + / radius (S k)))%R).
      { apply Rmult_le_compat; [lra|apply Rlt_le, Rinv_0_lt_compat; lra|exact G|].
        apply Rinv_le_contravar; lra. }
      replace (tau / (200 * (B + / rho)))%R with (1 / 100 * (/ 2 * (tau / (B + / rho))))%R by (field; split; [lra|nra]).
      lra.
    - exists (S k). split; [lia|exact K2].
  Qed.

  Hypothesis Hrtol : (0 <= (ar_rtol P : R))%R.
  Hypothesis Hatol : (0 < (ar_atol P : R))%R.
  Hypothesis Hnorm : ar_norm P = max_norm (N:=RN).

  Lemma lm_terminates : forall B sigma q K, (0 < B)%R -> (0 < sigma)%R -> residual_lipschitz n B r ->
    jac_injective n sigma J -> (1 <= 4 ^ q * rho)%R ->
    (f y0 < INR K * (sigma / 200 * Rmin (ar_atol P * ar_atol P) (ar_atol P * ar_atol P / B)))%R ->
    exists k, k <= 2 * K + 2 + q /\ gn_terminate (Sk k) = true.
  Proof.
    intros B sigma q K B0 S0 HB HI Hq HK. set (a := ar_atol P : R) in *. change (0 < a)%R in Hatol.
    assert (W0 : (0 < Rmin (a * a) (a * a / B))%R).
    { apply Rmin_glb_lt; [nra|]. apply Rdiv_lt_0_compat; nra. }
    destruct (lm_budget (fun k => gn_terminate (Sk (S (S k))) = true)
      (sigma / 200 * Rmin (a * a) (a * a / B))%R q K) as (k & K1 & K2); auto.
    - apply Rmult_lt_0_compat; lra.
    - intro k. destruct (gn_terminate (Sk (S (S k)))); auto.
    - intros k G A. apply not_true_is_false in G.
      destruct (lm_inv (S k)) as (I1 & I2 & _). destruct (HP (Yk (S k)) I1) as (Hr & HA & HT).
      destruct (lm_step k (lm_eps k)) as (d & Ld & HD & EY & [(C & Y & _ & _ & T)|(_ & _ & A' & _)]); [|rewrite A' in A; lia].
      cbv zeta in C. rewrite G, Hnorm in T. symmetry in T. apply cauchy_false_vec in T; [|exact Hrtol|exact Hatol].
      fold a in T. rewrite Y in T |- *.
      assert (ED : Rsub_v (Radd_v (Yk (S k)) d) (Yk (S k)) = d).
      { rewrite <- vsub_RN, <- vadd_RN. apply vsub_vadd. exact (eq_trans Ld (eq_sym I1)). }
      rewrite ED in T.
      assert (SQ : forall (v : list R) i b, nth_error v i = Some b -> (a <= Rabs b)%R -> (a * a <= Rdot v v)%R).
      { intros v i b Hb Hab. pose proof (Rdot_nth_le _ _ _ Hb).
        assert (a * a <= Rabs b * Rabs b)%R by (apply Rmult_le_compat; lra).
        rewrite <- Rabs_mult, Rabs_pos_eq in H0 by apply Rle_0_sqr. lra. }
      assert (WD : (Rmin (a * a) (a * a / B) <= Rdot d d)%R).
      { destruct T as [(i & b & Hb & Hab)|(i & b & Hb & Hab)].
        - eapply Rle_trans; [apply Rmin_l|]. exact (SQ d i b Hb Hab).
        - eapply Rle_trans; [apply Rmin_r|]. pose proof (SQ _ i b Hb Hab) as Q.
          pose proof (HB (Yk (S k)) d I1 Ld) as Q2.
          apply (Rmult_le_reg_l B); [exact B0|]. replace (B * (a * a / B))%R with (a * a)%R by (field; lra). lra. }
      pose proof (step_predict n m _ _ HA HT Hr (radius (S k)) d I2 Ld HD) as SP.
      fold (info (Yk (S k))) in SP. rewrite SP in C. pose proof (HI (Yk (S k)) d I1 Ld) as Q3.
      pose proof (inv_step (radius (S k)) I2) as IR. pose proof (Rdot_pos d).
      assert (0 <= / radius (S k) * Rdot d d)%R by (apply Rmult_le_pos; lra).
      assert (sigma * Rmin (a * a) (a * a / B) <= sigma * Rdot d d)%R by (apply Rmult_le_compat_l; lra). lra.
    - exists (S (S k)). split; [lia|exact K2].
  Qed.
End LM.

(** Exact arithmetic, exact least-squares solves, 1/2 |r|^2 below its tangent
    parabolas of curvature L: LevenbergMarquardt accepts every trial made with a
    trust-region radius of at most 1.98 / L; hence the radius never falls below
    rho = min (1, 0.495 / L); and of the first k steps at most half, plus q with
    4^q rho >= 1, are rejected. *)
Lemma C71_radius_pf :
  forall (Aux : Type) (P : ar_tols RN) (eps fmax : R) lsolve jac_of (fn : list R -> list R * Aux)
         (n m : nat) (L : R) (y0 : list R) fs auxs st0,
    let r x := fst (fn x) in let J := jac_of fn in
    (0 <= eps)%R -> (0 < fmax)%R -> exact_least_squares n lsolve ->
    residual_problem n m r J -> (0 < L)%R -> smooth n L (half_squares r) (ls_gradient r J) ->
    let rho := Rmin 1 (99 / (200 * L)) in
    (eps < rho)%R -> length y0 = n ->
    let s := LevenbergMarquardt (N:=RN) P jac_of lsolve eps fmax in
    s_init s fn y0 fs auxs = Ret st0 ->
    let y := y_at s fn y0 st0 (auxs fill0) in
    let st := st_at s fn y0 st0 (auxs fill0) in
    let radius k : R := gn_search_state (st k) in
    let accepted k : nat := gn_num_accepted_steps (st k) in
    (forall k, (radius (S k) <= 99 / (50 * L))%R ->
       y (S (S k)) = gn_y_eval (st (S k)) /\ accepted (S (S k)) = S (accepted (S k))) /\
    (forall k, (rho <= radius (S k))%R) /\
    (forall q k, (1 <= 4 ^ q * rho)%R -> k <= 2 * accepted k + q).
Proof.
  intros Aux P eps fmax lsolve jac_of fn n m L y0 fs auxs st0 r J He Hf HE HP HL HS rho Hrho Hn s Hi y st radius accepted.
  unfold s in Hi. apply gn_init_inv in Hi. subst st0.
  assert (LR := lm_radius P eps fmax lsolve jac_of fn n m y0 fs auxs He Hf HE HP Hn L HL HS Hrho).
  split; [|split].
  - intros k Hk. destruct (lm_step P eps fmax lsolve jac_of fn n m y0 fs auxs He Hf HE HP Hn k) as (d & Ld & HD & EY & X).
    { eapply Rlt_le_trans; [exact Hrho|exact (LR k)]. }
    destruct X as [(_ & Y & A & _)|(C & _)].
    + split; [exact (eq_trans Y (eq_sym EY))|exact A].
    + exfalso. revert C. apply Rle_not_lt.
      apply (lm_must_accept P eps fmax lsolve jac_of fn n m y0 fs auxs He Hf HE HP Hn L HL HS (S k) d Ld).
      * eapply Rle_lt_trans; [exact He|]. eapply Rlt_le_trans; [exact Hrho|exact (LR k)].
      * exact HD.
      * exact Hk.
  - exact LR.
  - exact (lm_count_le P eps fmax lsolve jac_of fn n m y0 fs auxs He Hf HE HP Hn L HL HS Hrho).
Qed.

(** If moreover |J v|^2 <= B |v|^2 everywhere, the gradient J^T r becomes small: if
    1/2 |r(y0)|^2 < K tau / (200 (B + 1/rho)), then one of the first 2 K + 1 + q
    iterates has |J^T r|^2 < tau. *)
Lemma C71_gradient_pf :
  forall (Aux : Type) (P : ar_tols RN) (eps fmax : R) lsolve jac_of (fn : list R -> list R * Aux)
         (n m : nat) (L : R) (y0 : list R) fs auxs st0 (B tau : R) (q K : nat),
    let r x := fst (fn x) in let J := jac_of fn in
    (0 <= eps)%R -> (0 < fmax)%R -> exact_least_squares n lsolve ->
    residual_problem n m r J -> (0 < L)%R -> smooth n L (half_squares r) (ls_gradient r J) ->
    let rho := Rmin 1 (99 / (200 * L)) in
    (eps < rho)%R -> length y0 = n ->
    (0 <= B)%R -> jac_bounded n B J -> (0 < tau)%R -> (1 <= 4 ^ q * rho)%R ->
    (half_squares r y0 < INR K * (tau / (200 * (B + / rho))))%R ->
    let s := LevenbergMarquardt (N:=RN) P jac_of lsolve eps fmax in
    s_init s fn y0 fs auxs = Ret st0 ->
    exists k, k <= 2 * K + 1 + q /\
      let x : list R := y_at s fn y0 st0 (auxs fill0) k in
      (Rdot (ls_gradient r J x) (ls_gradient r J x) < tau)%R.
Proof.
  intros Aux P eps fmax lsolve jac_of fn n m L y0 fs auxs st0 B tau q K r J He Hf HE HP HL HS rho Hrho Hn B0 HB T0 Hq HK s Hi.
  unfold s in Hi. apply gn_init_inv in Hi. subst st0.
  exact (lm_gradient P eps fmax lsolve jac_of fn n m y0 fs auxs He Hf HE HP Hn L HL HS Hrho B tau q K B0 HB T0 Hq HK).
Qed.

(** If the residuals are Lipschitz, |r(x+d) - r(x)|^2 <= B |d|^2, the Jacobian has
    uniformly full column rank, sigma |v|^2 <= |J v|^2, and every linear solve reports
    success, then LevenbergMarquardt succeeds within 2 K + 2 + q steps, where
    1/2 |r(y0)|^2 < K (sigma / 200) min (atol^2, atol^2 / B), at a point no worse than
    y0. *)
Lemma C71_terminates_pf :
  forall (Aux : Type) (rtol atol eps fmax : R) lsolve jac_of (fn : list R -> list R * Aux)
         (n m : nat) (L : R) (y0 : list R) fs auxs (B sigma : R) (q K : nat),
    let r x := fst (fn x) in let J := jac_of fn in
    (0 <= eps)%R -> (0 < fmax)%R -> exact_least_squares n lsolve -> (forall A b, snd (lsolve A b) = successful) ->
    residual_problem n m r J -> (0 < L)%R -> smooth n L (half_squares r) (ls_gradient r J) ->
    let rho := Rmin 1 (99 / (200 * L)) in
    (eps < rho)%R -> length y0 = n -> (0 <= rtol)%R -> (0 < atol)%R ->
    (0 < B)%R -> residual_lipschitz n B r -> (0 < sigma)%R -> jac_injective n sigma J ->
    (1 <= 4 ^ q * rho)%R ->
    (half_squares r y0 < INR K * (sigma / 200 * Rmin (atol * atol) (atol * atol / B)))%R ->
    let s := LevenbergMarquardt (N:=RN) (mkTols rtol atol max_norm) jac_of lsolve eps fmax in
    exists k, k <= 2 * K + 2 + q /\
      forall fuel budget throw, k < fuel -> (forall j, budget = Some j -> k <= j) ->
        exists sol, iterative_solve (vallfinite (N:=RN)) s fn fuel budget throw y0 fs auxs = Ret sol /\
          result sol = successful /\ (half_squares r (value sol) <= half_squares r y0)%R /\
          hd_error (sol_stats sol) = Some ("num_steps"%string, Some (Z.of_nat k)).
Proof.
  intros Aux rtol atol eps fmax lsolve jac_of fn n m L y0 fs auxs B sigma q K r J He Hf HE HR HP HL HS rho Hrho Hn Hrt Hat B0 HB S0 HI Hq HK s.
  set (P := mkTols (N:=RN) rtol atol max_norm) in *.
  set (st0 := gn_st0 (classical_trust_region (N:=RN) tr_default) (damped_newton_descent (N:=RN) lsolve eps fmax) y0 fs auxs).
  assert (Hi : s_init s fn y0 fs auxs = Ret st0) by reflexivity.
  destruct (lm_terminates P eps fmax lsolve jac_of fn n m y0 fs auxs He Hf HE HP Hn L HL HS Hrho Hrt Hat eq_refl
    B sigma q K B0 S0 HB HI Hq HK) as (k0 & K0 & T).
  assert (SR : forall k, says_result s fn y0 st0 (auxs fill0) k = successful).
  { intros [|k]; [reflexivity|].
    destruct (C64_levenberg_marquardt_pf RN Aux P lsolve eps fmax jac_of fn y0 fs auxs st0 Hi k) as (A & lam & _ & _ & _ & E).
    exact (eq_trans E (HR _ _)). }
  assert (AF : forall v : list R, vallfinite (N:=RN) v = true).
  { intro v. unfold vallfinite. induction v; auto. }
  destruct (solve_succeeds (vallfinite (N:=RN)) s fn y0 st0 _ fs auxs eq_refl Hi SR (fun k => AF _) (ex_intro _ k0 T))
    as (k1 & K1 & K2 & K3).
  assert (k1 <= k0).
  { destruct (le_lt_dec k1 k0) as [?|Q]; [assumption|]. specialize (K2 _ Q).
    change (gn_terminate (st_at s fn y0 st0 (auxs fill0) k0) = false) in K2.
    pose proof (eq_trans (eq_sym T) K2). discriminate. }
  exists k1. split; [lia|]. intros fuel budget throw Hfu Hb. destruct (K3 fuel budget throw Hfu Hb) as (K4 & K5).
  eexists. split; [exact K4|]. split; [exact K5|]. split; [|reflexivity].
  unfold half_squares. apply Rmult_le_compat_l; [lra|].
  apply (C32_levenberg_marquardt_pf Aux P eps fmax lsolve jac_of fn n m y0 fs auxs st0 He Hf HE
    (fun z Hz => conj (proj1 (HP z Hz)) (proj1 (proj2 (HP z Hz)))) Hn Hi 0 k1). lia.
Qed.

(** Residuals x and sqrt (1 + x^2), Jacobian column (1, x / sqrt (1 + x^2)):
    1/2 |r|^2 = x^2 + 1/2, L = 2, B = 2, sigma = 1. *)
Definition hyperbola (v : list R) : list R * unit :=
  match v with [x] => ([x; sqrt (1 + x * x)], tt) | _ => ([0; 0]%R, tt) end.
Definition hyperbola_jac (_ : list R -> list R * unit) (v : list R) : linop RN :=
  MatOp (N:=RN) 1 (match v with [x] => [[1]; [x / sqrt (1 + x * x)]]%R | _ => [[0]; [0]]%R end).

Lemma hyp_pos : forall x : R, (0 < sqrt (1 + x * x))%R /\ (sqrt (1 + x * x) * sqrt (1 + x * x) = 1 + x * x)%R.
Proof.
  intro x. assert (0 <= x * x)%R by apply Rle_0_sqr. split; [apply sqrt_lt_R0; lra|apply sqrt_sqrt; lra].
Qed.

Example C71_terminates_ex_pf :
  let r x := fst (hyperbola x) in let J := hyperbola_jac hyperbola in
  residual_problem 1 2 r J /\ smooth 1 2 (half_squares r) (ls_gradient r J) /\
  jac_bounded 1 2 J /\ residual_lipschitz 1 2 r /\ jac_injective 1 1 J /\
  let s := LevenbergMarquardt (N:=RN) (mkTols (N:=RN) (1/10)%R 1%R max_norm) hyperbola_jac lsolve1 (1/100)%R 1000%R in
  exists k, k <= 2 * 2000 + 2 + 2 /\
    forall fuel budget throw, k < fuel -> (forall j, budget = Some j -> k <= j) ->
      exists sol, iterative_solve (vallfinite (N:=RN)) s hyperbola fuel budget throw [2%R] (fun _ => [0; 0]%R) (fun _ => tt) = Ret sol /\
        result sol = successful.
Proof.
  intros r J.
  assert (HP : residual_problem 1 2 r J).
  { intros [|x [|? ?]] H; try discriminate H. split; [reflexivity|]. apply mat_linear. repeat constructor. }
  assert (EF : forall x, half_squares r [x] = (x * x + / 2)%R).
  { intro x. unfold half_squares, r. cbn. destruct (hyp_pos x) as [_ E].
    replace (x * x + (sqrt (1 + x * x) * sqrt (1 + x * x) + 0))%R with (x * x + (1 + x * x))%R by lra. lra. }
  assert (EG : forall x, ls_gradient r J [x] = [(2 * x)%R]).
  { intro x. unfold ls_gradient, J, r. cbn. f_equal. rewrite ?Q2R_0. destruct (hyp_pos x) as [E1 _]. field. lra. }
  assert (EJ : forall x v, op_mv (J [x]) [v] = [v; x / sqrt (1 + x * x) * v]%R).
  { intros x v. unfold J. cbn. rewrite ?Q2R_0. f_equal; [ring|]. f_equal. ring. }
  assert (C : forall x, (0 <= (x / sqrt (1 + x * x)) * (x / sqrt (1 + x * x)) <= 1)%R).
  { intro x. split; [apply Rle_0_sqr|]. destruct (hyp_pos x) as [E1 E2].
    replace (x / sqrt (1 + x * x) * (x / sqrt (1 + x * x)))%R with (x * x / (sqrt (1 + x * x) * sqrt (1 + x * x)))%R by (field; lra).
    rewrite E2. assert (0 <= x * x)%R by apply Rle_0_sqr. apply (Rmult_le_reg_r (1 + x * x)); [lra|].
    unfold Rdiv. rewrite Rmult_assoc, Rinv_l by lra. lra. }
  assert (HS : smooth 1 2 (half_squares r) (ls_gradient r J)).
  { split; [intros [|x [|? ?]] H; try discriminate H; rewrite EG; reflexivity|].
    intros [|x [|? ?]] [|d [|? ?]] H1 H2; try discriminate. cbn [Radd_v]. rewrite !EF, EG. cbn. right. field. }
  assert (HB : jac_bounded 1 2 J).
  { intros [|x [|? ?]] [|v [|? ?]] H1 H2; try discriminate. rewrite EJ. cbn. specialize (C x).
    assert (0 <= v * v)%R by apply Rle_0_sqr. set (c := (x / sqrt (1 + x * x))%R) in *.
    assert (c * c * (v * v) <= 1 * (v * v))%R by (apply Rmult_le_compat_r; lra). lra. }
  assert (HI : jac_injective 1 1 J).
  { intros [|x [|? ?]] [|v [|? ?]] H1 H2; try discriminate. rewrite EJ. cbn. specialize (C x).
    assert (0 <= v * v)%R by apply Rle_0_sqr. set (c := (x / sqrt (1 + x * x))%R) in *.
    assert (0 <= c * c * (v * v))%R by (apply Rmult_le_pos; lra). lra. }
  assert (HLp : residual_lipschitz 1 2 r).
  { intros [|x [|? ?]] [|d [|? ?]] H1 H2; try discriminate. unfold r. cbn.
    destruct (hyp_pos x) as [E1 E2]. destruct (hyp_pos (x + d)) as [F1 F2].
    set (a := sqrt (1 + x * x)) in *. set (b := sqrt (1 + (x + d) * (x + d))) in *.
    assert (Q : (x * (x + d) + 1 <= a * b)%R).
    { destruct (Rle_dec (x * (x + d) + 1) 0) as [N|N]; [assert (0 < a * b)%R by (apply Rmult_lt_0_compat; assumption); lra|].
      apply Rsqr_incr_0_var; [|apply Rlt_le, Rmult_lt_0_compat; assumption]. unfold Rsqr.
      replace (a * b * (a * b))%R with ((a * a) * (b * b))%R by ring. rewrite E2, F2.
      assert (0 <= d * d)%R by apply Rle_0_sqr. lra. }
    replace ((b - a) * (b - a))%R with (b * b + a * a - 2 * (a * b))%R by ring. rewrite E2, F2. lra. }
  split; [exact HP|]. split; [exact HS|]. split; [exact HB|]. split; [exact HLp|]. split; [exact HI|]. intro s.
  assert (RH : Rmin 1 (99 / (200 * 2)) = (99 / 400)%R) by (rewrite Rmin_right by lra; lra).
  destruct (C71_terminates_pf unit (1/10) 1 (1/100) 1000 lsolve1 hyperbola_jac hyperbola 1 2 2 [2%R] (fun _ => [0; 0]%R) (fun _ => tt)
    2 1 2 2000 ltac:(lra) ltac:(lra) (proj1 C32_levenberg_marquardt_ex_pf) (fun _ _ => eq_refl) HP ltac:(lra) HS
    ltac:(rewrite RH; lra) eq_refl ltac:(lra) ltac:(lra) ltac:(lra) HLp ltac:(lra) HI) as (k & K1 & K2).
  - rewrite RH. cbn. lra.
  - change (half_squares r [2%R] < INR 2000 * (1 / 200 * Rmin (1 * 1) (1 * 1 / 2)))%R. rewrite EF.
    rewrite Rmin_right by lra. replace (INR 2000) with 2000%R; [lra|]. rewrite INR_IZR_INZ. reflexivity.
  - exists k. split; [exact K1|]. intros fuel budget throw H1 H2. destruct (K2 fuel budget throw H1 H2) as (sol & E1 & E2 & _). eauto.
Qed.

(** ** C72: steepest descent with Armijo backtracking *)

Section ArmijoRun.
  Context {Aux : Type}.
  Variables (P : ar_tols RN) (de sl ini : R).
  Variable grad_of : (list R -> R * Aux) -> list R -> list R.
  Variable fn : list R -> R * Aux.
  Variables (n : nat) (L : R) (f : list R -> R) (g : list R -> list R) (y0 : list R) (fs : fillv -> R) (auxs : fillv -> Aux).
  Hypothesis HV : (0 < de < 1 /\ 0 < sl < 1 /\ 0 < ini)%R.
  Hypothesis HL : (0 < L)%R.
  Hypothesis HS : smooth n L f g.
  Hypothesis Hf : forall x, fst (fn x) = f x.
  Hypothesis Hg : forall x, grad_of fn x = g x.
  Hypothesis Hn : length y0 = n.
  Let descent := steepest_descent (N:=RN) None.
  Let search := armijo (N:=RN) de sl ini.
  Let s := gradient_descent_solver (N:=RN) P search descent grad_of.
  Let st0 := gd_st0 (N:=RN) search descent y0 fs auxs.
  Let Yk : nat -> list R := y_at s fn y0 st0 (auxs fill0).
  Let Sk := st_at s fn y0 st0 (auxs fill0).
  Let t (k : nat) : R := gd_search_state (Sk k).

  Definition armijo_ok (x : list R) (t : R) : Prop :=
    (f (Radd_v x (Rscal (- t) (g x))) <= f x - sl * t * Rdot (g x) (g x))%R.

  Lemma armijo_first : Yk 1 = y0 /\ t 1 = ini /\
    gd_y_eval (Sk 1) = Radd_v (Yk 1) (Rscal (- t 1) (g (Yk 1))) /\ gd_descent_state (Sk 1) = g (Yk 1).
  Proof.
    destruct (gd_step_cases _ _ _ _ _ _ _ _ _ _ (gd_trace_S (N:=RN) P search descent grad_of fn y0 fs auxs 0))
      as (step & ac & sr & sst & Es & E1 & E2 & E3 & E4 & E6 & E5).
    cbn in Es. injection Es as <- <- _ <-. destruct E5 as (E5 & _ & _ & E5d & _).
    assert (T1 : t 1 = ini) by exact E2.
    split; [exact E5|]. split; [exact T1|].
    assert (ED : gd_descent_state (Sk 1) = g (Yk 1)) by (refine (eq_trans E5d _); exact (Hg _)).
    split; [|exact ED]. refine (eq_trans E3 _).
    refine (eq_trans (vadd_RN _ _) _). f_equal. refine (eq_trans (vscale_RN _ _) _). rewrite T1. f_equal. exact ED.
  Qed.

  Lemma armijo_cases : forall k, length (Yk (S k)) = n -> (0 < t (S k))%R ->
    gd_y_eval (Sk (S k)) = Radd_v (Yk (S k)) (Rscal (- t (S k)) (g (Yk (S k)))) ->
    gd_descent_state (Sk (S k)) = g (Yk (S k)) ->
    (gd_y_eval (Sk (S (S k))) = Radd_v (Yk (S (S k))) (Rscal (- t (S (S k))) (g (Yk (S (S k))))) /\
     gd_descent_state (Sk (S (S k))) = g (Yk (S (S k)))) /\
    ((armijo_ok (Yk (S k)) (t (S k)) /\ Yk (S (S k)) = Radd_v (Yk (S k)) (Rscal (- t (S k)) (g (Yk (S k)))) /\
      t (S (S k)) = ini /\
      gd_terminate (Sk (S (S k))) = cauchy_termination (N:=RN) (ar_rtol P) (ar_atol P) (ar_norm P)
        (Yk (S (S k))) (Rsub_v (Yk (S (S k))) (Yk (S k))) [f (Yk (S (S k)))] [(f (Yk (S (S k))) - f (Yk (S k)))%R]) \/
     (~ armijo_ok (Yk (S k)) (t (S k)) /\ Yk (S (S k)) = Yk (S k) /\ t (S (S k)) = (de * t (S k))%R /\
      gd_terminate (Sk (S (S k))) = false)).
  Proof.
    intros k LY T0 EY ED. pose proof (proj1 HS _ LY) as LG.
    assert (HA1 : accepts_first search) by exact (proj1 (accepts_first_builtin RN) de sl ini).
    destruct (gd_first (N:=RN) P search descent grad_of fn y0 fs auxs HA1 (S k)) as [F1 F2].
    destruct (F2 ltac:(lia)) as [Ff _]. 
    destruct (gd_step_cases _ _ _ _ _ _ _ _ _ _ (gd_trace_S (N:=RN) P search descent grad_of fn y0 fs auxs (S k)))
      as (step & ac & sr & sst & Es & E1 & E2 & E3 & E4 & E6 & E5).
    change (t (S (S k)) = sst) in E2.
    assert (EF : gd_first_step (Sk (S k)) = false).
    { apply not_true_iff_false; intro F; apply F1 in F; discriminate. }
    assert (Es' : se_step search false (Yk (S k)) (Radd_v (Yk (S k)) (Rscal (- t (S k)) (g (Yk (S k)))))
       (EvalGrad (N:=RN) (f (Yk (S k))) (g (Yk (S k))))
       (Eval (N:=RN) (f (Radd_v (Yk (S k)) (Rscal (- t (S k)) (g (Yk (S k))))))) (t (S k)) = (step, ac, sr, sst)).
    { rewrite <- EY, <- EF, <- !Hf, <- Hg. rewrite Ff in Es. exact Es. }
    assert (F5 : gd_f_info (Sk (S k)) = EvalGrad (N:=RN) (f (Yk (S k))) (g (Yk (S k)))).
    { refine (eq_trans Ff _). rewrite <- Hf, <- Hg. reflexivity. }
    clear Es Ff. unfold search in Es'. cbn [se_step armijo] in Es'. unfold armijo_step in Es'. cbv zeta in Es'.
    rewrite <- (vadd_RN (Yk (S k))) in Es'. rewrite vsub_vadd in Es' by (rewrite Rscal_length; exact (eq_trans LG (eq_sym LY))).
    rewrite vadd_RN in Es'. cbn [compute_grad_dot as_min orb] in Es'. rewrite vdot_RN, Rdot_scal_r in Es'.
    pose proof (Rdot_pos (g (Yk (S k)))) as G0.
    assert (RED : nleb (n:=RN) (- t (S k) * Rdot (g (Yk (S k))) (g (Yk (S k))))%R (nofQ (n:=RN) 0) = true).
    { cbn. apply Rleb_true. rewrite Q2R_0. assert (0 <= t (S k) * Rdot (g (Yk (S k))) (g (Yk (S k))))%R by (apply Rmult_le_pos; lra). lra. }
    rewrite RED, andb_true_r in Es'.
    injection Es' as Q1 Q2 _ Q4. rewrite Q2 in Q1, Q4.
    assert (ET : step = t (S (S k))) by congruence.
    assert (OK : ac = true <-> armijo_ok (Yk (S k)) (t (S k))).
    { rewrite <- Q2. cbn [nleb nsub nmul RN]. rewrite Rleb_true. unfold armijo_ok. split; intro; lra. }
    assert (DD : gd_descent_state (Sk (S (S k))) = g (Yk (S (S k)))).
    { destruct ac.
      - destruct E5 as (_ & _ & _ & E5 & _). refine (eq_trans E5 _). exact (Hg _).
      - destruct E5 as (E5y & _ & _ & E5 & _). refine (eq_trans E5 _). refine (eq_trans ED _). f_equal. symmetry. exact E5y. }
    split.
    { split; [|exact DD]. refine (eq_trans E3 _). rewrite ET.
      refine (eq_trans (vadd_RN _ _) _). f_equal. refine (eq_trans (vscale_RN _ _) _). f_equal. exact DD. }
    destruct ac.
    - left. destruct E5 as (E5y & _ & _ & _ & E5). split; [apply OK; reflexivity|].
      split; [exact (eq_trans E5y EY)|]. split; [congruence|].
      change (gd_terminate (Sk (S (S k))) = if gd_first_step (Sk (S k)) then false else
        cauchy_termination (N:=RN) (ar_rtol P) (ar_atol P) (ar_norm P) (Yk (S (S k))) (vsub (N:=RN) (Yk (S (S k))) (Yk (S k)))
          [fst (fn (Yk (S (S k))))] [nsub (n:=RN) (fst (fn (Yk (S (S k))))) (as_min (gd_f_info (Sk (S k))))]) in E5.
      rewrite EF, F5, vsub_RN, Hf in E5. exact E5.
    - right. destruct E5 as (E5y & _ & _ & _ & E5). split; [intro X; apply OK in X; discriminate|].
      split; [exact E5y|]. split; [|exact E5]. rewrite E2, <- Q4. reflexivity.
  Qed.

  Lemma armijo_inv : forall k, length (Yk (S k)) = n /\ (0 < t (S k) <= ini)%R /\
    gd_y_eval (Sk (S k)) = Radd_v (Yk (S k)) (Rscal (- t (S k)) (g (Yk (S k)))) /\
    gd_descent_state (Sk (S k)) = g (Yk (S k)).
  Proof.
    induction k as [|k (I1 & I2 & I3 & I4)].
    - destruct armijo_first as (E1 & E2 & E3 & E4). split; [rewrite E1; exact Hn|]. split; [rewrite E2; lra|auto].
    - destruct (armijo_cases k I1 ltac:(lra) I3 I4) as ((C1 & C2) & C).
      pose proof (proj1 HS _ I1) as LG.
      split; [|split; [|auto]].
      + destruct C as [(_ & Y & _)|(_ & Y & _)]; rewrite Y; [|exact I1].
        apply Radd_v_length; [exact I1|rewrite Rscal_length; exact LG].
      + destruct C as [(_ & _ & T & _)|(_ & _ & T & _)]; rewrite T; [lra|]. nra.
  Qed.

  Lemma armijo_step_k : forall k,
    (armijo_ok (Yk (S k)) (t (S k)) /\ Yk (S (S k)) = Radd_v (Yk (S k)) (Rscal (- t (S k)) (g (Yk (S k)))) /\
      t (S (S k)) = ini /\
      gd_terminate (Sk (S (S k))) = cauchy_termination (N:=RN) (ar_rtol P) (ar_atol P) (ar_norm P)
        (Yk (S (S k))) (Rsub_v (Yk (S (S k))) (Yk (S k))) [f (Yk (S (S k)))] [(f (Yk (S (S k))) - f (Yk (S k)))%R]) \/
     (~ armijo_ok (Yk (S k)) (t (S k)) /\ Yk (S (S k)) = Yk (S k) /\ t (S (S k)) = (de * t (S k))%R /\
      gd_terminate (Sk (S (S k))) = false).
  Proof.
    intro k. destruct (armijo_inv k) as (I1 & I2 & I3 & I4). exact (proj2 (armijo_cases k I1 (proj1 I2) I3 I4)).
  Qed.

  Lemma armijo_small_ok : forall x u, length x = n -> (0 < u)%R -> (u * L <= 2 * (1 - sl))%R -> armijo_ok x u.
  Proof.
    intros x u LX U0 UL. unfold armijo_ok. pose proof (proj1 HS x LX) as LG.
    eapply Rle_trans; [apply (proj2 HS); [exact LX|rewrite Rscal_length; exact LG]|].
    rewrite Rdot_scal_r, Rdot_scal_l, Rdot_scal_r. pose proof (Rdot_pos (g x)) as G0.
    assert (0 <= u * Rdot (g x) (g x) * (2 * (1 - sl) - u * L))%R.
    { apply Rmult_le_pos; [apply Rmult_le_pos|]; lra. }
    lra.
  Qed.

  (** If every accepted step outside [good] lowers f by delta, few steps are taken. *)
  Lemma armijo_budget : forall (good : nat -> Prop) (delta low : R) q K, (0 < delta)%R ->
    (ini * de ^ q * L <= 2 * (1 - sl))%R ->
    (forall x, length x = n -> (low <= f x)%R) ->
    (forall k, good k \/ ~ good k) ->
    (forall k, ~ good k -> armijo_ok (Yk (S k)) (t (S k)) ->
      Yk (S (S k)) = Radd_v (Yk (S k)) (Rscal (- t (S k)) (g (Yk (S k)))) -> (f (Yk (S (S k))) <= f (Yk (S k)) - delta)%R) ->
    (f y0 - low < INR K * delta)%R ->
    exists k, k < K * (q + 1) /\ good k.
  Proof.
    intros good delta low q K D0 Hq Hlow Dec HG HK.
    assert (X : forall k, (exists j, j < k /\ good j) \/
      exists a j, k <= a * (q + 1) + j /\ j <= q /\ t (S k) = (ini * de ^ j)%R /\ (f (Yk (S k)) <= f y0 - INR a * delta)%R).
    { induction k as [|k [(j & J1 & J2)|(a & j & A1 & A2 & A3 & A4)]].
      - right. exists 0, 0. destruct armijo_first as (E1 & E2 & _). rewrite E1, E2. split; [lia|]. split; [lia|].
        cbn. split; lra.
      - left. exists j. split; [lia|exact J2].
      - destruct (Dec k) as [G|G]; [left; exists k; auto|]. right.
        destruct (armijo_step_k k) as [(C1 & C2 & C3 & _)|(C1 & C2 & C3 & _)].
        + exists (S a), 0. split; [lia|]. split; [lia|]. split; [rewrite C3; cbn; lra|].
          pose proof (HG k G C1 C2). rewrite S_INR. lra.
        + exists a, (S j). split; [lia|]. split.
          * destruct (Nat.eq_dec j q) as [->|N]; [exfalso|lia]. apply C1. rewrite A3. destruct (armijo_inv k) as (I1 & I2 & _).
            apply armijo_small_ok; [exact I1| |exact Hq]. rewrite <- A3. apply I2.
          * split; [rewrite C3, A3; cbn; ring|]. rewrite C2. exact A4. }
    destruct (X (K * (q + 1))) as [?|(a & j & A1 & A2 & A3 & A4)]; [assumption|exfalso].
    assert (C' : K <= a) by nia. apply le_INR in C'.
    pose proof (Hlow _ (proj1 (armijo_inv (K * (q + 1))))).
    assert (INR K * delta <= INR a * delta)%R by (apply Rmult_le_compat_r; lra). lra.
  Qed.
End ArmijoRun.

(** Steepest descent with BacktrackingArmijo (decrease de, slope sl, initial step ini)
    on an L-smooth f, exact arithmetic. From the iterate y with step size t, the next
    iterate is y - t g(y) and the step size returns to ini if
    f(y - t g(y)) <= f(y) - sl t |g(y)|^2; otherwise the iterate stays and t is
    multiplied by de. Steps with t L <= 2 (1 - sl) always pass the test, so t never
    falls below min (ini, 2 de (1 - sl) / L), and at most q consecutive steps are
    rejected if ini de^q L <= 2 (1 - sl). *)
Lemma C72_backtracking_pf :
  forall (Aux : Type) (P : ar_tols RN) (de sl ini : R) grad_of (fn : list R -> R * Aux)
         (n : nat) (L : R) (f : list R -> R) (g : list R -> list R) (y0 : list R) fs auxs st0,
    (0 < de < 1 /\ 0 < sl < 1 /\ 0 < ini)%R -> (0 < L)%R -> smooth n L f g ->
    (forall x, fst (fn x) = f x) -> (forall x, grad_of fn x = g x) -> length y0 = n ->
    let s := gradient_descent_solver (N:=RN) P (armijo (N:=RN) de sl ini) (steepest_descent None) grad_of in
    s_init s fn y0 fs auxs = Ret st0 ->
    let y : nat -> list R := y_at s fn y0 st0 (auxs fill0) in
    let t (k : nat) : R := gd_search_state (st_at s fn y0 st0 (auxs fill0) k) in
    let moved k : list R := Radd_v (y k) (Rscal (- t k) (g (y k))) in
    let passes k := (f (moved k) <= f (y k) - sl * t k * Rdot (g (y k)) (g (y k)))%R in
    y 1 = y0 /\ t 1 = ini /\
    (forall k, (passes (S k) /\ y (S (S k)) = moved (S k) /\ t (S (S k)) = ini) \/
               (~ passes (S k) /\ y (S (S k)) = y (S k) /\ t (S (S k)) = (de * t (S k))%R)) /\
    (forall k, (t (S k) * L <= 2 * (1 - sl))%R -> passes (S k)) /\
    (forall k, (Rmin ini (2 * de * (1 - sl) / L) <= t (S k) <= ini)%R) /\
    (forall q k, (ini * de ^ q * L <= 2 * (1 - sl))%R -> t (S k) = ini ->
       exists j, j <= q /\ y (S (k + j)) = y (S k) /\ passes (S (k + j))).
Proof.
  intros Aux P de sl ini grad_of fn n L f g y0 fs auxs st0 HV HL HS Hf Hg Hn s Hi y t moved passes.
  apply gd_init_inv in Hi. subst st0.
  pose proof (armijo_first P de sl ini grad_of fn g y0 fs auxs Hg) as (F1 & F2 & _).
  pose proof (armijo_step_k P de sl ini grad_of fn n L f g y0 fs auxs HV HS Hf Hg Hn) as ST.
  pose proof (armijo_inv P de sl ini grad_of fn n L f g y0 fs auxs HV HS Hf Hg Hn) as IN.
  split; [exact F1|]. split; [exact F2|].
  assert (A : forall k, (passes (S k) /\ y (S (S k)) = moved (S k) /\ t (S (S k)) = ini) \/
               (~ passes (S k) /\ y (S (S k)) = y (S k) /\ t (S (S k)) = (de * t (S k))%R)).
  { intro k. destruct (ST k) as [(C1 & C2 & C3 & _)|(C1 & C2 & C3 & _)]; [left|right]; auto. }
  assert (B : forall k, (t (S k) * L <= 2 * (1 - sl))%R -> passes (S k)).
  { intros k H. destruct (IN k) as (I1 & I2 & _).
    exact (armijo_small_ok sl n L f g HS (y (S k)) (t (S k)) I1 (proj1 I2) H). }
  split; [exact A|]. split; [exact B|]. split.
  - intro k. split; [|apply IN]. induction k as [|k IH]; [eapply Rle_trans; [apply Rmin_l|right; symmetry; exact F2]|].
    destruct (A k) as [(_ & _ & E)|(N & _ & E)]; rewrite E; [apply Rmin_l|].
    eapply Rle_trans; [apply Rmin_r|].
    assert (Q : (2 * (1 - sl) < t (S k) * L)%R).
    { apply Rnot_le_lt. intro Q. apply N, B, Q. }
    apply (Rmult_le_reg_r L); [exact HL|]. replace (2 * de * (1 - sl) / L * L)%R with (de * (2 * (1 - sl)))%R by (field; lra).
    rewrite Rmult_assoc. apply Rmult_le_compat_l; lra.
  - intros q k Hq Hk.
    assert (X : forall m, (exists j, j < m /\ y (S (k + j)) = y (S k) /\ passes (S (k + j))) \/
      (y (S (k + m)) = y (S k) /\ t (S (k + m)) = (ini * de ^ m)%R)).
    { induction m as [|m [(j & J1 & J2)|(J1 & J2)]].
      - right. rewrite Nat.add_0_r. cbn. split; [reflexivity|]. lra.
      - left. exists j. split; [lia|exact J2].
      - rewrite Nat.add_succ_r. destruct (A (k + m)) as [(C1 & _)|(C1 & C2 & C3)].
        + left. exists m. auto.
        + right. split; [congruence|]. rewrite C3, J2. cbn. ring. }
    destruct (X q) as [(j & J1 & J2)|(J1 & J2)].
    + exists j. split; [lia|exact J2].
    + exists q. split; [lia|]. split; [exact J1|]. apply B. rewrite J2. exact Hq.
Qed.

(** If f is bounded below by low and f(y0) - low < K sl tmin tau with
    tmin = min (ini, 2 de (1 - sl) / L), one of the first K (q + 1) iterates has
    |g|^2 < tau. *)
Lemma C72_gradient_pf :
  forall (Aux : Type) (P : ar_tols RN) (de sl ini : R) grad_of (fn : list R -> R * Aux)
         (n : nat) (L low tau : R) (f : list R -> R) (g : list R -> list R) (y0 : list R) fs auxs st0 (q K : nat),
    (0 < de < 1 /\ 0 < sl < 1 /\ 0 < ini)%R -> (0 < L)%R -> smooth n L f g ->
    (forall x, length x = n -> low <= f x)%R ->
    (forall x, fst (fn x) = f x) -> (forall x, grad_of fn x = g x) -> length y0 = n ->
    (ini * de ^ q * L <= 2 * (1 - sl))%R -> (0 < tau)%R ->
    (f y0 - low < INR K * (sl * Rmin ini (2 * de * (1 - sl) / L) * tau))%R ->
    let s := gradient_descent_solver (N:=RN) P (armijo (N:=RN) de sl ini) (steepest_descent None) grad_of in
    s_init s fn y0 fs auxs = Ret st0 ->
    exists k, k <= K * (q + 1) /\
      let x : list R := y_at s fn y0 st0 (auxs fill0) k in (Rdot (g x) (g x) < tau)%R.
Proof.
  intros Aux P de sl ini grad_of fn n L low tau f g y0 fs auxs st0 q K HV HL HS Hlow Hf Hg Hn Hq T0 HK s Hi.
  pose proof (C72_backtracking_pf Aux P de sl ini grad_of fn n L f g y0 fs auxs st0 HV HL HS Hf Hg Hn Hi) as (_ & _ & _ & _ & LB & _).
  apply gd_init_inv in Hi. subst st0.
  assert (M0 : (0 < Rmin ini (2 * de * (1 - sl) / L))%R).
  { apply Rmin_glb_lt; [lra|]. apply Rdiv_lt_0_compat; [|exact HL]. apply Rmult_lt_0_compat; lra. }
  set (tm := Rmin ini (2 * de * (1 - sl) / L)) in *.
  destruct (armijo_budget P de sl ini grad_of fn n L f g y0 fs auxs HV HS Hf Hg Hn
    (fun k => let x := y_at s fn y0 (gd_st0 (armijo (N:=RN) de sl ini) (steepest_descent (N:=RN) None) y0 fs auxs) (auxs fill0) (S k) in (Rdot (g x) (g x) < tau)%R)
    (sl * tm * tau) low q K) as (k & K1 & K2).
  - repeat apply Rmult_lt_0_compat; lra.
  - exact Hq.
  - exact Hlow.
  - intro k. cbv zeta. destruct (Rlt_dec (Rdot (g (y_at s fn y0 (gd_st0 (armijo (N:=RN) de sl ini) (steepest_descent (N:=RN) None) y0 fs auxs) (auxs fill0) (S k))) (g (y_at s fn y0 (gd_st0 (armijo (N:=RN) de sl ini) (steepest_descent (N:=RN) None) y0 fs auxs) (auxs fill0) (S k)))) tau); auto.
  - intros k NG OK Y. cbv zeta in NG. apply Rnot_lt_le in NG. specialize (LB k). cbv zeta in LB.
    rewrite Y. eapply Rle_trans; [exact OK|]. apply Rplus_le_compat_l, Ropp_le_contravar.
    rewrite !Rmult_assoc. apply Rmult_le_compat_l; [lra|]. apply Rmult_le_compat; [lra|lra|apply LB|exact NG].
  - exact HK.
  - exists (S k). split; [lia|exact K2].
Qed.

(** With the default termination (max_norm, atol > 0, rtol >= 0) the solve succeeds
    within K (q + 1) + 1 steps if f(y0) - low < K min (sl atol^2 / ini, atol), at a
    point no worse than y0. *)
Lemma C72_terminates_pf :
  forall (Aux : Type) (rtol atol de sl ini : R) grad_of (fn : list R -> R * Aux)
         (n : nat) (L low : R) (f : list R -> R) (g : list R -> list R) (y0 : list R) fs auxs (q K : nat),
    (0 < de < 1 /\ 0 < sl < 1 /\ 0 < ini)%R -> (0 < L)%R -> smooth n L f g ->
    (forall x, length x = n -> low <= f x)%R ->
    (forall x, fst (fn x) = f x) -> (forall x, grad_of fn x = g x) -> length y0 = n ->
    (ini * de ^ q * L <= 2 * (1 - sl))%R -> (0 < atol)%R -> (0 <= rtol)%R ->
    (f y0 - low < INR K * Rmin (sl * (atol * atol) / ini) atol)%R ->
    let s := gradient_descent_solver (N:=RN) (mkTols rtol atol max_norm) (armijo (N:=RN) de sl ini) (steepest_descent None) grad_of in
    exists k, k <= K * (q + 1) + 1 /\
      forall fuel budget throw, k < fuel -> (forall m, budget = Some m -> k <= m) ->
        exists sol, iterative_solve (vallfinite (N:=RN)) s fn fuel budget throw y0 fs auxs = Ret sol /\
          result sol = successful /\ (f (value sol) <= f y0)%R /\
          hd_error (sol_stats sol) = Some ("num_steps"%string, Some (Z.of_nat k)).
Proof.
  intros Aux rtol atol de sl ini grad_of fn n L low f g y0 fs auxs q K HV HL HS Hlow Hf Hg Hn Hq Ha Hr HK s.
  set (P := mkTols (N:=RN) rtol atol max_norm) in *.
  set (st0 := gd_st0 (armijo (N:=RN) de sl ini) (steepest_descent (N:=RN) None) y0 fs auxs).
  assert (Hi : s_init s fn y0 fs auxs = Ret st0) by reflexivity.
  pose proof (armijo_first P de sl ini grad_of fn g y0 fs auxs Hg) as (F1 & F2 & _).
  pose proof (armijo_step_k P de sl ini grad_of fn n L f g y0 fs auxs HV HS Hf Hg Hn) as ST.
  pose proof (armijo_inv P de sl ini grad_of fn n L f g y0 fs auxs HV HS Hf Hg Hn) as IN.
  set (y := y_at s fn y0 st0 (auxs fill0)).
  assert (D0 : (0 < Rmin (sl * (atol * atol) / ini) atol)%R).
  { apply Rmin_glb_lt; [|exact Ha]. apply Rdiv_lt_0_compat; [|lra]. repeat apply Rmult_lt_0_compat; lra. }
  assert (T : exists k, k < K * (q + 1) /\ says_terminate s fn y0 st0 (auxs fill0) (S (S k)) = true).
  { apply (armijo_budget P de sl ini grad_of fn n L f g y0 fs auxs HV HS Hf Hg Hn
      (fun k => says_terminate s fn y0 st0 (auxs fill0) (S (S k)) = true) _ low q K D0 Hq Hlow); [| |exact HK].
    - intro k. destruct (says_terminate _ _ _ _ _ _); auto.
    - intros k NG OK Y. apply not_true_iff_false in NG. destruct (IN k) as (LY & T0 & _).
      change (length (y (S k)) = n) in LY. pose proof (proj1 HS _ LY) as LG.
      destruct (ST k) as [(_ & _ & _ & C)|(C & _)]; [|contradiction (C OK)].
      assert (NG' := eq_trans (eq_sym C) NG). clear C NG. apply cauchy_false_RN in NG'; [|exact Hr|exact Ha].
      change (y_at (gradient_descent_solver (N:=RN) P (armijo (N:=RN) de sl ini) (steepest_descent None) grad_of) fn y0 (gd_st0 (armijo (N:=RN) de sl ini) (steepest_descent (N:=RN) None) y0 fs auxs) (auxs fill0)) with y in NG', OK, Y, T0 |- *.
      match type of T0 with (0 < ?z <= _)%R => set (tk := z : R) in * end.
      assert (OK' : (f (y (S (S k))) <= f (y (S k)) - sl * tk * Rdot (g (y (S k))) (g (y (S k))))%R).
      { rewrite Y. exact OK. }
      pose proof (Rdot_pos (g (y (S k)))) as G0.
      assert (M : (0 <= sl * tk * Rdot (g (y (S k))) (g (y (S k))))%R).
      { apply Rmult_le_pos; [|exact G0]. apply Rmult_le_pos; lra. }
      destruct NG' as [(i & a & Ei & Hi')|H].
      + assert (E3 : Rsub_v (y (S (S k))) (y (S k)) = Rscal (- tk) (g (y (S k)))).
        { rewrite Y, <- vadd_RN, <- vsub_RN. apply vsub_vadd. rewrite Rscal_length. exact (eq_trans LG (eq_sym LY)). }
        rewrite E3 in Ei. pose proof (Rdot_nth_le _ _ _ Ei) as B. rewrite Rdot_scal_l, Rdot_scal_r in B.
        assert (B2 : (atol * atol <= a * a)%R).
        { replace (a * a)%R with (Rabs a * Rabs a)%R by (rewrite <- Rabs_mult; apply Rabs_pos_eq, Rle_0_sqr).
          clear - Ha Hi'. apply Rmult_le_compat; try exact Hi'; lra. }
        eapply Rle_trans; [exact OK'|]. apply Rplus_le_compat_l, Ropp_le_contravar.
        eapply Rle_trans; [apply Rmin_l|].
        apply (Rmult_le_reg_r ini); [lra|]. replace (sl * (atol * atol) / ini * ini)%R with (sl * (atol * atol))%R by (field; lra).
        replace (sl * tk * Rdot (g (y (S k))) (g (y (S k))) * ini)%R with (sl * (tk * Rdot (g (y (S k))) (g (y (S k))) * ini))%R by ring.
        apply Rmult_le_compat_l; [lra|].
        eapply Rle_trans; [exact B2|]. eapply Rle_trans; [exact B|].
        clear - T0 G0. revert T0 G0. generalize (Rdot (g (y (S k))) (g (y (S k)))), (tk : R). intros G u T0 G0.
        assert (0 <= u * G * (ini - u))%R by (apply Rmult_le_pos; [apply Rmult_le_pos|]; lra). lra.
      + pose proof (Rmin_r (sl * (atol * atol) / ini) atol) as RM. revert H OK' M RM.
        generalize (Rmin (sl * (atol * atol) / ini) atol) (sl * tk * Rdot (g (y (S k))) (g (y (S k))))%R (f (y (S (S k)))) (f (y (S k))).
        clear. intros a b c d H OK M RM. cbn in H. rewrite Rabs_left1 in H by lra. lra. }
  destruct T as (k0 & K0 & T).
  assert (SR : forall k, says_result s fn y0 st0 (auxs fill0) k = successful).
  { intros [|k]; [reflexivity|].
    pose proof (gd_step_cases _ _ _ _ _ _ _ _ _ _ (gd_trace_S P (armijo (N:=RN) de sl ini) (steepest_descent (N:=RN) None) grad_of fn y0 fs auxs k))
      as (sz & acc & sr & sst & Es & E1 & E2 & E3 & E4 & E6 & E5).
    refine (eq_trans E6 _).
    pose proof (f_equal (fun t => snd (fst t)) Es) as Q. cbn [fst snd] in Q. cbn in Q. subst sr. reflexivity. }
  assert (AF : forall v : list R, vallfinite (N:=RN) v = true).
  { intro v. unfold vallfinite. induction v; auto. }
  destruct (solve_succeeds (vallfinite (N:=RN)) s fn y0 st0 _ fs auxs eq_refl Hi SR (fun k => AF _) (ex_intro _ _ T))
    as (k1 & K1 & K2 & K3).
  assert (k1 <= S (S k0)).
  { destruct (le_lt_dec k1 (S (S k0))) as [?|Q]; [assumption|]. specialize (K2 _ Q). congruence. }
  exists k1. split; [lia|]. intros fuel budget throw Hfu Hb. destruct (K3 fuel budget throw Hfu Hb) as (K4 & K5).
  eexists. split; [exact K4|]. split; [exact K5|]. split; [|reflexivity].
  change (f (y k1) <= f y0)%R. destruct k1 as [|k1]; [cbn; lra|]. clear - F1 ST IN HV. induction k1 as [|k1 IH].
  - right. exact (f_equal f F1).
  - eapply Rle_trans; [|exact IH]. destruct (ST k1) as [(C1 & C2 & _)|(_ & C2 & _)].
    + destruct (IN k1) as (_ & T0 & _). pose proof (Rdot_pos (g (y (S k1)))) as G0.
      eapply Rle_trans; [right; exact (f_equal f C2)|]. eapply Rle_trans; [exact C1|].
      match type of T0 with (0 < ?z <= _)%R => assert (M : (0 <= sl * z * Rdot (g (y (S k1))) (g (y (S k1))))%R) end.
      { apply Rmult_le_pos; [apply Rmult_le_pos; lra|exact G0]. }
      eapply Rle_trans; [apply Rplus_le_compat_l, Ropp_le_contravar; exact M|]. rewrite Ropp_0, Rplus_0_r. apply Rle_refl.
    + right. exact (f_equal f C2).
Qed.

(** f(x) = x^2 with L = 2, decrease 1/2, slope 1/10, initial step 4 (at most 3
    consecutive rejections, since 4 / 8 * 2 <= 9 / 5), tolerance 1/10, from x = 1. *)
Example C72_terminates_ex_pf :
  smooth 1 2 square1 square1_grad /\ (forall x, length x = 1 -> (0 <= square1 x)%R) /\
  let s := gradient_descent_solver (N:=RN) (Aux:=unit) (mkTols (N:=RN) (1/10)%R (1/10)%R max_norm)
             (armijo (N:=RN) (1/2)%R (1/10)%R 4%R) (steepest_descent None) (fun _ => square1_grad) in
  exists k, k <= 4001 * 4 + 1 /\
    forall fuel budget throw, k < fuel -> (forall m, budget = Some m -> k <= m) ->
      exists sol, iterative_solve (vallfinite (N:=RN)) s (fun v => (square1 v, tt)) fuel budget throw [1%R] (fun _ => 0%R) (fun _ => tt) = Ret sol /\
        result sol = successful.
Proof.
  destruct C65_terminates_ex_pf as (HS & HB & _). split; [exact HS|]. split; [exact HB|]. intro s.
  destruct (C72_terminates_pf unit (1/10) (1/10) (1/2) (1/10) 4 (fun _ => square1_grad) (fun v => (square1 v, tt)) 1 2 0
    square1 square1_grad [1%R] (fun _ => 0%R) (fun _ => tt) 3 4001 ltac:(lra) ltac:(lra) HS HB (fun _ => eq_refl) (fun _ => eq_refl) eq_refl
    ltac:(lra) ltac:(lra) ltac:(lra)) as (k & K1 & K2).
  { rewrite Rmin_left by lra. replace (INR 4001) with 4001%R by (rewrite INR_IZR_INZ; reflexivity). cbn. lra. }
  exists k. split; [exact K1|]. intros fuel budget throw H1 H2. destruct (K2 fuel budget throw H1 H2) as (sol & E1 & E2 & _). eauto.
Qed.
