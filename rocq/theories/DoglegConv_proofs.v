(** Global convergence: Dogleg (C77). *)

From Coq Require Import String List Bool Arith Lia ZArith QArith Qreals Reals Lra Psatz.
From Verif Require Import Num NumFacts Vec Results Iterate Spec_Iterate Iterate_proofs.
From Verif Require Import Spec_Vec VecFacts Spec_Lin LinFacts.
From Verif Require Import Search Spec_Search Descent Minimisers Solvers Minimisers_proofs.
From Verif Require Import TrustRegion_proofs LeastSquares_proofs Dogleg_proofs Spec_Steps Steps_proofs Spec_Convergence Convergence_proofs.
Import ListNotations.
Local Open Scope nat_scope.

(** ** A Gauss-Newton run with the classical trust region, for any descent *)

Section Run.
  Context {Aux : Type}.
  Variable P : ar_tols RN.
  Variable descent : Descent RN.
  Variable jac_of : (list R -> list R * Aux) -> list R -> linop RN.
  Variable fn : list R -> list R * Aux.
  Variables (n : nat) (y0 : list R) (fs : fillv -> list R) (auxs : fillv -> Aux).
  Let r (x : list R) : list R := fst (fn x).
  Let J (x : list R) : linop RN := jac_of fn x.
  Hypothesis Hn : length y0 = n.
  Let search := classical_trust_region (N:=RN) tr_default.
  Let s := gauss_newton_solver (N:=RN) P search descent jac_of.
  Let st0 := gn_st0 (N:=RN) search descent y0 fs auxs.
  Let Yk : nat -> list R := y_at s fn y0 st0 (auxs fill0).
  Let Sk := st_at s fn y0 st0 (auxs fill0).
  Let radius (k : nat) : R := gn_search_state (Sk k).
  Let acc (k : nat) : nat := gn_num_accepted_steps (Sk k).
  Let f := half_squares r.
  Let info (x : list R) := ResidualJac (N:=RN) (r x) (J x).
  Let dir (x : list R) (step : R) st : list R := fst (d_step descent step (d_query descent x (info x) st)).

  Hypothesis HD : forall y (step : R) st, length y = n -> (0 < step)%R ->
    let i := ResidualJac (N:=RN) (fst (fn y)) (jac_of fn y) in
    let d := fst (d_step descent step (d_query descent y i st)) in
    length d = n /\ (classical_predict (N:=RN) d i <= 0)%R.

  Lemma run_inv : forall k, length (Yk k) = n /\ (0 < radius k)%R /\
    (0 < k -> exists st', gn_y_eval (Sk k) = vadd (N:=RN) (Yk k) (dir (Yk k) (radius k) st')).
  Proof.
    intro k.
    destruct (mono_inv P (tr_default (N:=RN)) descent jac_of fn n y0 fs auxs Hn
      ltac:(cbn; unfold Q2R; cbn; lra) ltac:(cbn; unfold Q2R; cbn; lra) HD k) as (I1 & I2 & _ & I4).
    split; [exact I1|]. split; [exact I2|]. intro Hk. destruct (I4 Hk) as (st' & E1 & E2). exists st'.
    rewrite E1 in E2. exact E2.
  Qed.

  Lemma run_first : Yk 1 = y0 /\ acc 1 = 1 /\ radius 1 = 1%R.
  Proof.
    destruct (gn_step_cases _ _ _ _ _ _ _ _ _ _ (gn_trace_S (N:=RN) P search descent jac_of fn y0 fs auxs 0))
      as (step & ac & sr & sst & Es & E1 & E2 & E3 & E4 & E6 & E5).
    pose proof (gn_counts _ _ _ _ _ _ _ _ _ _ _ _ (gn_trace_S (N:=RN) P search descent jac_of fn y0 fs auxs 0) _ _ _ _ Es) as C.
    unfold search in Es. cbn [se_step classical_trust_region] in Es. unfold tr_step in Es. cbv zeta in Es.
    change (gn_first_step _) with true in Es. cbn [negb] in Es. rewrite orb_true_r, andb_false_r in Es.
    injection Es as Es <- _ Es'. destruct E5 as (E5 & _). split; [exact E5|].
    split; [exact C|]. unfold radius. refine (eq_trans E2 (eq_trans (eq_sym Es') _)). cbn. rewrite Q2R_1. lra.
  Qed.

  Lemma run_step : forall k, exists st', let d := dir (Yk (S k)) (radius (S k)) st' in
    length d = n /\ gn_y_eval (Sk (S k)) = Radd_v (Yk (S k)) d /\
    let change := (f (Radd_v (Yk (S k)) d) - f (Yk (S k)))%R in
    let pred : R := classical_predict (N:=RN) d (info (Yk (S k))) in
    ((change <= 1 / 100 * pred)%R /\ Yk (S (S k)) = Radd_v (Yk (S k)) d /\ acc (S (S k)) = S (acc (S k)) /\
     (radius (S (S k)) = radius (S k) \/ radius (S (S k)) = 7 / 2 * radius (S k))%R /\
     gn_terminate (Sk (S (S k))) = cauchy_termination (N:=RN) (ar_rtol P) (ar_atol P) (ar_norm P)
       (Yk (S (S k))) (Rsub_v (Yk (S (S k))) (Yk (S k))) (r (Yk (S (S k))))
       (Rsub_v (r (Yk (S (S k)))) (r (Yk (S k))))) \/
    ((1 / 100 * pred < change)%R /\ Yk (S (S k)) = Yk (S k) /\ acc (S (S k)) = acc (S k) /\
     radius (S (S k)) = (/ 4 * radius (S k))%R /\ gn_terminate (Sk (S (S k))) = false).
  Proof.
    intro k. destruct (run_inv (S k)) as (I1 & I2 & I4). destruct (I4 ltac:(lia)) as (st' & Ey). clear I4.
    exists st'. intro d. destruct (HD (Yk (S k)) (radius (S k)) st' I1 I2) as [D1 _].
    change (length d = n) in D1. fold d in Ey. clearbody d.
    rewrite vadd_RN in Ey. split; [exact D1|]. split; [exact Ey|].
    assert (HA1 : accepts_first search) by exact (proj1 (proj2 (accepts_first_builtin RN)) (tr_default (N:=RN))).
    destruct (gn_first (N:=RN) P search descent jac_of fn y0 fs auxs HA1 (S k)) as [F1 F2].
    destruct (F2 ltac:(lia)) as [Ff _].
    destruct (gn_step_cases _ _ _ _ _ _ _ _ _ _ (gn_trace_S (N:=RN) P search descent jac_of fn y0 fs auxs (S k)))
      as (step & ac & sr & sst & Es & E1 & E2 & E3 & E4 & E6 & E5).
    pose proof (gn_counts _ _ _ _ _ _ _ _ _ _ _ _ (gn_trace_S (N:=RN) P search descent jac_of fn y0 fs auxs (S k)) _ _ _ _ Es) as C.
    change (acc (S (S k)) = acc (S k) + (if ac then 1 else 0)) in C.
    change (radius (S (S k)) = sst) in E2.
    replace (gn_first_step _) with false in Es
      by (symmetry; apply not_true_iff_false; intro F; apply F1 in F; discriminate).
    rewrite Ff in Es, E5.
    assert (Es' : se_step search false (Yk (S k)) (Radd_v (Yk (S k)) d) (info (Yk (S k)))
       (info (Radd_v (Yk (S k)) d)) (radius (S k)) = (step, ac, sr, sst)).
    { rewrite <- Ey. exact Es. }
    clear Es. unfold search in Es'. set (TD := tr_default (N:=RN)) in Es'.
    assert (LC : tr_low_cutoff TD = (1 / 100)%R) by (unfold TD; cbn; unfold Q2R; cbn; lra).
    assert (HC : tr_high_constant TD = (7 / 2)%R) by (unfold TD; cbn; unfold Q2R; cbn; lra).
    assert (KC : tr_low_constant TD = (/ 4)%R) by (unfold TD; cbn; unfold Q2R; cbn; lra).
    clearbody TD. cbn [se_step classical_trust_region] in Es'. unfold tr_step in Es'. cbv zeta in Es'.
    rewrite <- (vadd_RN (Yk (S k)) d) in Es'. rewrite vsub_vadd in Es' by (exact (eq_trans D1 (eq_sym I1))).
    rewrite vadd_RN in Es'.
    assert (Ef : forall x, as_min (N:=RN) (info x) = f x).
    { intro x. unfold info. cbn [as_min]. rewrite sum_squares_RN. cbn [nofQ nmul RN]. rewrite Q2R_half. reflexivity. }
    rewrite !Ef in Es'. intros change pred.
    injection Es' as Q1 Q2 _ Q4. rewrite orb_false_r in Q2. rewrite Q2 in Q4, Q1. clear Q1. rewrite <- Q4 in E2. clear Q4.
    rewrite LC in Q2. rewrite HC, KC in E2.
    destruct ac.
    - left. apply Rleb_true in Q2. split; [exact Q2|]. destruct E5 as (Y1 & _ & _ & _ & T1).
      change (Yk (S (S k)) = gn_y_eval (Sk (S k))) in Y1. rewrite Ey in Y1. split; [exact Y1|].
      split; [rewrite C; lia|]. split.
      + destruct (_ && _) in E2; [right; exact E2|left; rewrite E2; cbn; rewrite Q2R_1; ring].
      + rewrite !vsub_RN in T1. exact T1.
    - right. apply Rleb_false in Q2. split; [exact Q2|]. destruct E5 as (Y1 & _ & _ & _ & T1).
      split; [exact Y1|]. split; [rewrite C; lia|]. split; [exact E2|exact T1].
  Qed.

  Variable w : R.
  Hypothesis Hw : (0 < w)%R.
  Hypothesis must_accept : forall x (step : R) st, length x = n -> (Rmin 1 (w / 4) <= step < w)%R ->
    (f (Radd_v x (dir x step st)) - f x <= 1 / 100 * classical_predict (N:=RN) (dir x step st) (info x))%R.
  Let rho := Rmin 1 (w / 4).

  Lemma run_rho : (0 < rho)%R.
  Proof. unfold rho. apply Rmin_glb_lt; lra. Qed.

  Lemma run_radius : forall k, (rho <= radius (S k))%R.
  Proof.
    assert (R1 : (rho <= 1)%R) by apply Rmin_l.
    assert (R2 : (rho <= w / 4)%R) by apply Rmin_r.
    induction k as [|k IH].
    - rewrite (proj2 (proj2 run_first)). exact R1.
    - destruct (run_inv (S k)) as (I1 & I2 & _).
      destruct (run_step k) as (st' & Ld & EY & [(_ & _ & _ & [E|E] & _)|(C & _ & _ & E & _)]); rewrite E; try lra.
      destruct (Rlt_dec (radius (S k)) w) as [Q|Q].
      + exfalso. pose proof (must_accept (Yk (S k)) (radius (S k)) st' I1 (conj IH Q)). lra.
      + lra.
  Qed.

  Lemma run_accept : forall k, (radius (S k) < w)%R ->
    Yk (S (S k)) = gn_y_eval (Sk (S k)) /\ acc (S (S k)) = S (acc (S k)).
  Proof.
    intros k Hk. destruct (run_inv (S k)) as (I1 & I2 & _).
    destruct (run_step k) as (st' & Ld & EY & [(_ & E & A & _)|(C & _)]).
    - rewrite EY. auto.
    - exfalso. pose proof (must_accept (Yk (S k)) (radius (S k)) st' I1 (conj (run_radius k) Hk)) as M. lra.
  Qed.

  Lemma run_count : forall k, exists b, S k = acc (S k) + b /\ (radius (S k) * 4 ^ b <= 4 ^ acc (S k))%R.
  Proof.
    induction k as [|k (b & E1 & E2)].
    - exists 0. destruct run_first as (_ & A & B). rewrite A, B. split; [reflexivity|]. cbn. lra.
    - destruct (run_inv (S k)) as (_ & I2 & _). assert (P0 : (0 < 4 ^ b)%R) by (apply pow_lt; lra).
      assert (P1 : (0 < radius (S k) * 4 ^ b)%R) by (apply Rmult_lt_0_compat; assumption).
      destruct (run_step k) as (st' & Ld & EY & [(_ & _ & A & E & _)|(_ & _ & A & E & _)]); rewrite A.
      + exists b. split; [lia|]. cbn [pow]. destruct E as [E|E]; rewrite E; nra.
      + exists (S b). split; [lia|]. rewrite E. cbn [pow]. lra.
  Qed.

  Lemma run_count_le : forall q k, (1 <= 4 ^ q * rho)%R -> k <= 2 * acc k + q.
  Proof.
    intros q [|k] Hq; [lia|]. destruct (run_count k) as (b & E1 & E2). pose proof (run_radius k) as R.
    assert (b <= acc (S k) + q); [|lia].
    destruct (le_lt_dec b (acc (S k) + q)) as [?|X]; [assumption|exfalso].
    assert (P1 : (4 ^ (acc (S k) + q) < 4 ^ b)%R) by (apply Rlt_pow; [lra|exact X]).
    rewrite pow_add in P1. assert (P2 : (0 < 4 ^ b)%R) by (apply pow_lt; lra).
    assert (P3 : (0 < 4 ^ acc (S k))%R) by (apply pow_lt; lra).
    assert (P4 : (0 < 4 ^ q)%R) by (apply pow_lt; lra).
    assert (rho * 4 ^ b <= 4 ^ acc (S k))%R by (eapply Rle_trans; [apply Rmult_le_compat_r; [lra|exact R]|exact E2]).
    assert (Q1 : (4 ^ q * (rho * 4 ^ b) <= 4 ^ q * 4 ^ acc (S k))%R) by (apply Rmult_le_compat_l; lra).
    assert (Q2 : (1 * 4 ^ b <= 4 ^ q * rho * 4 ^ b)%R) by (apply Rmult_le_compat_r; lra).
    lra.
  Qed.

  (** If every accepted step lowers f by delta, few steps can be taken. *)
  Lemma run_budget : forall (good : nat -> Prop) (delta : R) q K, (0 < delta)%R -> (1 <= 4 ^ q * rho)%R ->
    (forall k, good k \/ ~ good k) ->
    (forall k, ~ good k -> acc (S (S k)) = S (acc (S k)) -> (f (Yk (S (S k))) <= f (Yk (S k)) - delta)%R) ->
    (f y0 < INR K * delta)%R ->
    exists k, k < 2 * K + 1 + q /\ good k.
  Proof.
    intros good delta q K D0 Hq Dec HG HK.
    assert (X : forall j, (exists k, k < j /\ good k) \/
       (f (Yk (S j)) <= f y0 - (INR (acc (S j)) - 1) * delta)%R).
    { induction j as [|j [(k & K1 & K2)|IH]].
      - right. destruct run_first as (E1 & E2 & _). rewrite E1, E2. cbn. lra.
      - left. exists k. split; [lia|exact K2].
      - destruct (Dec j) as [G|G]; [left; exists j; auto|]. right.
        destruct (run_step j) as (st' & Ld & EY & [(_ & _ & A & _)|(_ & Y & A & _)]).
        + pose proof (HG j G A). rewrite A, S_INR. lra.
        + rewrite Y, A. exact IH. }
    destruct (X (2 * K + 1 + q)) as [(k & K1 & K2)|X']; [eauto|exfalso].
    pose proof (run_count_le q (S (2 * K + 1 + q)) Hq) as C.
    assert (C' : S K <= acc (S (2 * K + 1 + q))) by lia. apply le_INR in C'. rewrite S_INR in C'.
    assert (0 <= f (Yk (S (2 * K + 1 + q))))%R.
    { unfold f, half_squares. pose proof (Rdot_pos (r (Yk (S (2 * K + 1 + q))))). lra. }
    assert (INR K * delta <= (INR (acc (S (2 * K + 1 + q))) - 1) * delta)%R by (apply Rmult_le_compat_r; lra). lra.
  Qed.

  (** Accepted steps predicting a decrease of at least [delta] lead to a point with [good]. *)
  Lemma run_reach : forall (good : list R -> Prop) (delta : R) q K, (0 < delta)%R -> (1 <= 4 ^ q * rho)%R ->
    (forall x, good x \/ ~ good x) ->
    (forall x step st, length x = n -> (rho <= step)%R -> ~ good x ->
       (classical_predict (N:=RN) (dir x step st) (info x) <= - (100 * delta))%R) ->
    (f y0 < INR K * delta)%R ->
    exists k, k <= 2 * K + 1 + q /\ good (Yk k).
  Proof.
    intros good delta q K D0 Hq Dec HG HK.
    destruct (run_budget (fun k => good (Yk (S k))) delta q K) as (k & K1 & K2); auto.
    - intros k G A. destruct (run_step k) as (st' & Ld & EY & [(C & Y & _)|(_ & _ & A' & _)]); [|rewrite A' in A; lia].
      destruct (run_inv (S k)) as (I1 & _).
      pose proof (HG (Yk (S k)) (radius (S k)) st' I1 (run_radius k) G). rewrite Y. lra.
    - exists (S k). split; [lia|exact K2].
  Qed.

  Hypothesis Hrtol : (0 <= (ar_rtol P : R))%R.
  Hypothesis Hatol : (0 < (ar_atol P : R))%R.
  Hypothesis Hnorm : ar_norm P = max_norm (N:=RN).

  (** If the predicted decrease is at least [c] times the squared length of the step,
      the run terminates. *)
  Lemma run_terminates : forall B c q K, (0 < B)%R -> (0 < c)%R -> residual_lipschitz n B r ->
    (1 <= 4 ^ q * rho)%R ->
    (forall x step st, length x = n -> (rho <= step)%R ->
       (classical_predict (N:=RN) (dir x step st) (info x) <= - (100 * c * Rdot (dir x step st) (dir x step st)))%R) ->
    (f y0 < INR K * (c * Rmin (ar_atol P * ar_atol P) (ar_atol P * ar_atol P / B)))%R ->
    exists k, k <= 2 * K + 2 + q /\ gn_terminate (Sk k) = true.
  Proof.
    intros B c q K B0 S0 HB Hq HI HK. set (a := ar_atol P : R) in *. change (0 < a)%R in Hatol.
    assert (W0 : (0 < Rmin (a * a) (a * a / B))%R).
    { apply Rmin_glb_lt; [nra|]. apply Rdiv_lt_0_compat; nra. }
    destruct (run_budget (fun k => gn_terminate (Sk (S (S k))) = true)
      (c * Rmin (a * a) (a * a / B))%R q K) as (k & K1 & K2); auto.
    - apply Rmult_lt_0_compat; lra.
    - intro k. destruct (gn_terminate (Sk (S (S k)))); auto.
    - intros k G A. apply not_true_is_false in G.
      destruct (run_inv (S k)) as (I1 & I2 & _).
      destruct (run_step k) as (st' & Ld & EY & [(C & Y & _ & _ & T)|(_ & _ & A' & _)]); [|rewrite A' in A; lia].
      specialize (HI (Yk (S k)) (radius (S k)) st' I1 (run_radius k)).
      set (d := dir (Yk (S k)) (radius (S k)) st') in *. clearbody d.
      rewrite G, Hnorm in T. symmetry in T. apply cauchy_false_vec in T; [|exact Hrtol|exact Hatol].
      fold a in T. rewrite Y in T |- *.
      assert (ED : Rsub_v (Radd_v (Yk (S k)) d) (Yk (S k)) = d).
      { rewrite <- vsub_RN, <- vadd_RN. apply vsub_vadd. exact (eq_trans Ld (eq_sym I1)). }
      rewrite ED in T.
      assert (SQ : forall (v : list R) i b, nth_error v i = Some b -> (a <= Rabs b)%R -> (a * a <= Rdot v v)%R).
      { intros v i b Hb Hab. pose proof (Rdot_nth_le _ _ _ Hb).
        assert (a * a <= Rabs b * Rabs b)%R by (apply Rmult_le_compat; lra).
        rewrite <- Rabs_mult, Rabs_pos_eq in H0 by apply Rle_0_sqr. lra. }
      assert (WD : (Rmin (a * a) (a * a / B) <= Rdot d d)%R).
      { destruct T as [(i & b & Hb & Hab)|(i & b & Hb & Hab)].
        - eapply Rle_trans; [apply Rmin_l|]. exact (SQ d i b Hb Hab).
        - eapply Rle_trans; [apply Rmin_r|]. pose proof (SQ _ i b Hb Hab) as Q.
          pose proof (HB (Yk (S k)) d I1 Ld) as Q2.
          apply (Rmult_le_reg_l B); [exact B0|]. replace (B * (a * a / B))%R with (a * a)%R by (field; lra). lra. }
      assert (c * Rmin (a * a) (a * a / B) <= c * Rdot d d)%R by (apply Rmult_le_compat_l; lra). lra.
    - exists (S (S k)). split; [lia|exact K2].
  Qed.
End Run.

(** ** One dogleg step *)

Lemma Rdot_CS : forall a b : list R, length a = length b -> (Rdot a b * Rdot a b <= Rdot a a * Rdot b b)%R.
Proof.
  intros a b L. pose proof (Rdot_pos a) as A0. pose proof (Rdot_pos b) as B0.
  destruct (Req_EM_T (Rdot b b) 0) as [E|E].
  { apply Rdot_0_inv in E. rewrite E, !Rdot_0_r. lra. }
  set (t := (- Rdot a b / Rdot b b)%R).
  pose proof (Rdot_pos (Radd_v a (Rscal t b))) as Q. rewrite sq_add in Q by (rewrite Rscal_length; exact L).
  rewrite !Rdot_scal_l, !Rdot_scal_r in Q.
  assert (K : (Rdot b b * (Rdot a a + 2 * (t * Rdot a b) + t * (t * Rdot b b)) = Rdot a a * Rdot b b - Rdot a b * Rdot a b)%R).
  { unfold t. field. exact E. }
  assert (0 <= Rdot b b * (Rdot a a + 2 * (t * Rdot a b) + t * (t * Rdot b b)))%R by (apply Rmult_le_pos; assumption). lra.
Qed.

Lemma seg_sq : forall (c v : list R) (u M : R), length c = length v -> (0 <= u <= 1)%R ->
  (Rdot c c <= M)%R -> (Rdot v v <= M)%R ->
  (Rdot (Radd_v c (Rscal u (Rsub_v v c))) (Radd_v c (Rscal u (Rsub_v v c))) <= M)%R.
Proof.
  intros c v u M L U C V. assert (LS : length (Rsub_v v c) = length c) by (rewrite L; apply Rsub_v_length; auto).
  rewrite sq_add by (rewrite Rscal_length; auto). rewrite !Rdot_scal_l, !Rdot_scal_r.
  rewrite !Rdot_sub_r by auto. rewrite !Rdot_sub_l by auto. rewrite (Rdot_comm v c).
  pose proof (Rdot_pos (Rsub_v v c)) as Q. rewrite sq_sub in Q by auto. rewrite (Rdot_comm v c) in Q.
  set (cc := Rdot c c) in *. set (vv := Rdot v v) in *. set (cv := Rdot c v) in *.
  assert (0 <= u * (1 - u) * (vv - 2 * cv + cc))%R by (apply Rmult_le_pos; [apply Rmult_le_pos; lra|exact Q]).
  assert (0 <= u * (M - vv))%R by (apply Rmult_le_pos; lra).
  assert (0 <= (1 - u) * (M - cc))%R by (apply Rmult_le_pos; lra). lra.
Qed.

Section Dog.
  Local Open Scope R_scope.
  Variables (n m : nat) (A : linop RN) (r y : list R) (lsolve : linop RN -> list R -> list R * results) (eps step : R).
  Variable st0 : DSt (dogleg_descent (N:=RN) lsolve eps two_norm None).
  Hypothesis HE : exact_least_squares n lsolve.
  Hypothesis HA : linear_op n m A.
  Hypothesis HT : transpose_op n A.
  Hypothesis Hr : length r = m.
  Hypothesis He : 0 <= eps.
  Hypothesis Hs : 0 < step.
  Let descent := dogleg_descent (N:=RN) lsolve eps two_norm None.
  Let st := d_query descent y (ResidualJac (N:=RN) r A) st0.
  Let d : list R := fst (d_step descent step st).
  Let g : list R := op_mvT A r.
  Let nw : list R := Rscal (-1) (fst (lsolve A r)).
  Let dn : R := Rdot (op_mv A g) (op_mv A g).
  Let alpha : R := if Rltb eps dn then Rdot g g / dn else 0.
  Let c : list R := Rscal (- alpha) g.
  Let D : R := Rnorm nw * step.

  Lemma dog_lens : length g = n /\ length nw = n /\ length c = n.
  Proof.
    assert (Lg : length g = n) by apply HT. split; [exact Lg|].
    destruct (HE m A r HA Hr) as [K1 _]. split; [unfold nw; rewrite Rscal_length; exact K1|].
    unfold c. rewrite Rscal_length. exact Lg.
  Qed.

  Lemma dog_points : dl_newton st = nw /\ dl_cauchy st = c.
  Proof.
    unfold st, descent. cbn [dogleg_descent d_query]. unfold dogleg_query. cbn [newton_step info_grad]. cbv zeta.
    unfold nw, c, alpha, dn, g. destruct (lsolve A r) as [v res]. cbn [dl_newton dl_cauchy fst]. split; [apply vneg_RN|].
    rewrite vscale_RN, !sum_squares_RN. cbn [nltb RN ndiv nofQ nneg]. destruct (Rltb _ _); [reflexivity|].
    rewrite Q2R_0. reflexivity.
  Qed.

  Lemma dog_norms : dl_newton_norm st = Rnorm nw /\ dl_cauchy_norm st = Rnorm c.
  Proof.
    pose proof dog_points as (E1 & E2). rewrite <- E1, <- E2.
    unfold st, descent. cbn [dogleg_descent d_query]. unfold dogleg_query. cbv zeta.
    destruct (newton_step lsolve _) as [sol res]. cbn [dl_newton dl_cauchy dl_newton_norm dl_cauchy_norm].
    split; [|apply two_norm_RN]. rewrite two_norm_RN, vneg_RN.
    unfold Rnorm. rewrite Rdot_scal_l, Rdot_scal_r. f_equal. lra.
  Qed.

  Lemma dog_cases :
    (D < Rnorm c /\ eps < Rnorm c /\ d = Rscal (D / Rnorm c) c) \/
    (D < Rnorm c /\ Rnorm c <= eps /\ d = zerov n) \/
    (Rnorm c <= D /\ step < 1 /\ exists u, 0 <= u <= 1 /\ d = Radd_v c (Rscal u (Rsub_v nw c)) /\
       (c = zerov n -> Rnorm nw <> 0 -> u = step)) \/
    (Rnorm c <= D /\ 1 <= step /\ d = nw).
  Proof.
    destruct dog_lens as (Lg & Ln & Lc). destruct dog_points as (E1 & E2). destruct dog_norms as (N1 & N2).
    unfold d, descent. cbn [dogleg_descent d_step]. unfold dogleg_step. rewrite N1, N2.
    change (nmul (n:=RN) (Rnorm nw) step) with D. cbn [nltb RN nofQ].
    destruct (Rltb D (Rnorm c)) eqn:F1; [apply Rltb_true in F1|apply Rltb_false in F1].
    - cbn [fst]. unfold scaled_cauchy. rewrite N2, E2. cbn [nltb RN].
      destruct (Rltb eps (Rnorm c)) eqn:F2; [apply Rltb_true in F2; left|apply Rltb_false in F2; right; left].
      + split; [exact F1|]. split; [exact F2|].
        assert (Em : forall v : list R, vwhere (N:=RN) true (map (fun x : R => x / Rnorm c * D)%R v) (vfull (N:=RN) (length v) (nofQ (n:=RN) 0)) = Rscal (D / Rnorm c) v).
        { intro v. unfold vwhere, vfull, Rscal. induction v as [|x v IH]; cbn; [reflexivity|]. f_equal; [|exact IH].
          field. pose proof (Rnorm_pos c). lra. }
        apply Em.
      + split; [exact F1|]. split; [exact F2|].
        unfold vwhere, vfull. change (Datatypes.length c) with (@length R c). rewrite Lc.
        cbn [nofQ RN]. rewrite Q2R_0. fold (zerov n).
        assert (G : forall u w : list R, length u = length w -> vmap2 (fun _ y : R => y) u w = w).
        { induction u as [|x u IH]; intros [|z w] H; try discriminate H; cbn; [reflexivity|]. f_equal. apply IH. now injection H. }
        apply G. rewrite map_length, zerov_length. exact Lc.
    - right; right. rewrite Q2R_1. destruct (Rltb step 1) eqn:F2; [apply Rltb_true in F2; left|apply Rltb_false in F2; right].
      + split; [exact F1|]. split; [exact F2|]. cbn [fst dogleg_mix]. unfold dogleg_interpolate. cbn [fst].
        rewrite E1, E2.
        assert (Et : dogleg_t (N:=RN) st D = let a := Rdot (Rsub_v nw c) (Rsub_v nw c) in let ip := Rdot c (Rsub_v nw c) in
           let b := (2 * (ip - a))%R in let k := (Rnorm c * Rnorm c - 2 * ip + a - D * D)%R in
           if Rleb 0 b then nclip (N:=RN) (/ 2 * (- b + sqrt (b * b - 4 * a * k)) / a)%R 1%R 2%R
           else nclip (N:=RN) (2 * k / (- b - sqrt (b * b - 4 * a * k)))%R 1%R 2%R).
        { unfold dogleg_t. cbv zeta. rewrite E1, E2, N2.
          rewrite sum_squares_RN, vdot_RN, vsub_RN. cbn [nofQ RN nleb nmul nsub nadd ndiv nneg nsqrt].
          rewrite Q2R_0, Q2R_1, Q2R_2, Q2R_half. replace (Q2R 4) with 4%R by (unfold Q2R; cbn; lra). reflexivity. }
        cbv zeta in Et.
        exists (dogleg_t (N:=RN) st D - 1). split; [|split].
        * rewrite Et. destruct (Rleb 0 _);
            match goal with |- context [nclip (N:=RN) ?x _ _] => pose proof (nclip_RN x 1 2 ltac:(lra)) as K end; lra.
        * rewrite vadd_RN, vscale_RN, vsub_RN. cbn [nsub RN nofQ]. rewrite Q2R_1. reflexivity.
        * intros Z HN. rewrite Et.
          assert (ES : Rsub_v nw c = nw).
          { rewrite Z. assert (G : forall (v : list R) k, length v = k -> Rsub_v v (zerov k) = v).
            { induction v as [|x v IH]; intros [|k] H; try discriminate H; cbn; [reflexivity|]. f_equal; [lra|]. apply IH. now injection H. }
            apply G. exact Ln. }
          rewrite ES. assert (EC : Rdot c nw = 0 /\ Rnorm c = 0).
          { rewrite Z, Rdot_0_l. split; [reflexivity|]. unfold Rnorm. rewrite Rdot_0_l. apply sqrt_0. }
          destruct EC as [EC1 EC2]. rewrite EC1, EC2. pose proof (Rnorm_sq nw) as NS. pose proof (Rnorm_pos nw) as NP.
          assert (NP' : 0 < Rnorm nw) by lra. unfold D.
          rewrite <- NS. set (v := Rnorm nw) in *.
          assert (Eb : Rleb 0 (2 * (0 - v * v)) = false) by (apply Rleb_false; nra).
          rewrite Eb.
          replace (2 * (0 - v * v) * (2 * (0 - v * v)) - 4 * (v * v) * (0 * 0 - 2 * 0 + v * v - v * step * (v * step)))%R
            with ((2 * v * v * step) * (2 * v * v * step))%R by ring.
          rewrite sqrt_square by (assert (0 <= v * v * step) by (apply Rmult_le_pos; [nra|lra]); lra).
          replace (2 * (0 * 0 - 2 * 0 + v * v - v * step * (v * step)) / (- (2 * (0 - v * v)) - 2 * v * v * step))%R with (1 + step)%R.
          2:{ field. assert (0 < v * v * (1 - step)) by (apply Rmult_lt_0_compat; [nra|lra]). nra. }
          rewrite clip_id by lra. lra.
      + split; [exact F1|]. split; [exact F2|]. exact E1.
  Qed.

  Lemma newton_orth : forall e, length e = n -> Rdot (op_mv A nw) (op_mv A e) = - Rdot g e.
  Proof.
    intros e Le. destruct dog_lens as (Lg & Ln & _). pose proof HA as (L1 & L2 & L3).
    destruct (undamped_predict n m lsolve A r HE HA Hr) as (U1 & _ & U3).
    rewrite vneg_RN in U3. fold nw in U3.
    assert (Z : Rdot (op_mv A nw) (op_mv A e) + Rdot g e = 0); [|lra].
    assert (Eg : Rdot g e = Rdot (op_mv A e) r) by (rewrite (Rdot_comm (op_mv A e)); apply (proj2 HT); exact Le).
    rewrite Eg.
    apply (no_slope (Rdot (op_mv A e) (op_mv A e))); [apply Rdot_pos|]. intro t.
    assert (LE : length (Radd_v nw (Rscal t e)) = n) by (apply Radd_v_length; [|rewrite Rscal_length]; assumption).
    assert (K : classical_predict (N:=RN) nw (ResidualJac (N:=RN) r A) <= classical_predict (N:=RN) (Radd_v nw (Rscal t e)) (ResidualJac (N:=RN) r A)).
    { specialize (U3 (vneg (N:=RN) (Radd_v nw (Rscal t e))) ltac:(rewrite vneg_length; exact LE)).
      rewrite <- vneg_neg in U3. exact U3. }
    rewrite !(predict_ls n m) in K by assumption. rewrite L2 in K by (try rewrite Rscal_length; assumption).
    rewrite L3 in K by assumption. pose proof (L1 nw Ln) as M1. pose proof (L1 e Le) as M2.
    rewrite sq_add in K by (rewrite Rscal_length; congruence). rewrite Rdot_add_l in K by (rewrite Rscal_length; congruence).
    rewrite !Rdot_scal_l, !Rdot_scal_r in K. lra.
  Qed.

  Variables B sigma : R.
  Hypothesis HS : 0 < sigma.
  Hypothesis HB : forall v, length v = n -> Rdot (op_mv A v) (op_mv A v) <= B * Rdot v v.
  Hypothesis HI : forall v, length v = n -> sigma * Rdot v v <= Rdot (op_mv A v) (op_mv A v).
  Hypothesis HSB : sigma <= B.
  Let JN := Rdot (op_mv A nw) (op_mv A nw).
  Let q (v : list R) : R := classical_predict (N:=RN) v (ResidualJac (N:=RN) r A).

  Lemma dog_newton : Rdot g nw = - JN /\ Rdot g g <= B * JN /\ sigma * Rnorm nw <= Rnorm g /\ Rnorm g <= B * Rnorm nw.
  Proof.
    destruct dog_lens as (Lg & Ln & _). pose proof HA as (L1 & _).
    pose proof (newton_orth nw Ln) as E1. fold JN in E1. pose proof (newton_orth g Lg) as E2.
    pose proof (HB nw Ln) as B1. fold JN in B1. pose proof (HI nw Ln) as I1. fold JN in I1.
    pose proof (HB g Lg) as B2. pose proof (Rdot_pos g) as G0. pose proof (Rdot_pos nw) as N0.
    assert (J0 : 0 <= JN) by apply Rdot_pos.
    assert (C1 : Rdot g g * Rdot g g <= JN * (B * Rdot g g)).
    { pose proof (Rdot_CS (op_mv A nw) (op_mv A g) ltac:(rewrite !L1; auto)) as C. rewrite E2 in C. fold JN in C.
      assert (JN * Rdot (op_mv A g) (op_mv A g) <= JN * (B * Rdot g g)) by (apply Rmult_le_compat_l; assumption). lra. }
    assert (Q1 : Rdot g g <= B * JN).
    { destruct (Req_EM_T (Rdot g g) 0) as [Z|Z]; [rewrite Z; apply Rmult_le_pos; lra|].
      apply (Rmult_le_reg_r (Rdot g g)); [lra|]. lra. }
    assert (C2 : JN * JN <= Rdot g g * Rdot nw nw).
    { pose proof (Rdot_CS g nw ltac:(congruence)) as C. replace (Rdot g nw) with (- JN) in C by lra. lra. }
    split; [lra|]. split; [exact Q1|]. split.
    - rewrite <- (Rnorm_scal sigma nw) by lra. apply Rnorm_le; [apply Rnorm_pos|]. rewrite Rnorm_sq.
      rewrite Rdot_scal_l, Rdot_scal_r.
      destruct (Req_EM_T (Rdot nw nw) 0) as [Z|Z]; [rewrite Z; lra|].
      apply (Rmult_le_reg_r (Rdot nw nw)); [lra|].
      assert (sigma * Rdot nw nw * (sigma * Rdot nw nw) <= JN * JN).
      { apply Rmult_le_compat; try assumption; apply Rmult_le_pos; lra. } lra.
    - rewrite <- (Rnorm_scal B nw) by lra. unfold Rnorm. apply sqrt_le_1_alt. rewrite Rdot_scal_l, Rdot_scal_r.
      assert (B * JN <= B * (B * Rdot nw nw)) by (apply Rmult_le_compat_l; lra). lra.
  Qed.

  (** The Cauchy point *)
  Lemma dog_cauchy : Rdot g g <> 0 -> eps < dn -> 0 < dn /\ 0 < alpha /\ alpha * dn = Rdot g g /\ Rnorm c = alpha * Rnorm g /\ 1 <= B * alpha /\ sigma * alpha <= 1.
  Proof.
    intros G0 E. destruct dog_lens as (Lg & _). pose proof (Rdot_pos g) as G1. assert (D0 : 0 < dn) by lra.
    assert (EA : alpha * dn = Rdot g g).
    { unfold alpha. rewrite (proj2 (Rltb_true _ _) E). field. lra. }
    assert (A0 : 0 < alpha).
    { unfold alpha. rewrite (proj2 (Rltb_true _ _) E). apply Rdiv_lt_0_compat; lra. }
    pose proof (HB g Lg) as B2. fold dn in B2. pose proof (HI g Lg) as I2. fold dn in I2.
    split; [exact D0|]. split; [exact A0|]. split; [exact EA|]. split; [|split].
    - unfold c. rewrite <- (Rnorm_scal alpha g) by lra. unfold Rnorm. rewrite !Rdot_scal_l, !Rdot_scal_r. f_equal. lra.
    - apply (Rmult_le_reg_r dn); [exact D0|]. rewrite Rmult_assoc, EA. lra.
    - apply (Rmult_le_reg_r dn); [exact D0|]. rewrite Rmult_assoc, EA. lra.
  Qed.

  Lemma dog_zero_grad : Rdot g g = 0 -> Rnorm nw = 0 /\ nw = zerov n /\ c = zerov n.
  Proof.
    intro G0. destruct dog_lens as (Lg & Ln & Lc). destruct dog_newton as (_ & _ & N1 & _).
    assert (Z : Rnorm g = 0) by (unfold Rnorm; rewrite G0; apply sqrt_0). rewrite Z in N1.
    pose proof (Rnorm_pos nw) as N0. assert (NZ : Rnorm nw = 0) by nra. split; [exact NZ|]. split.
    - apply (f_equal (fun x => x * x)) in NZ. rewrite Rnorm_sq, Rmult_0_l in NZ. apply Rdot_0_inv in NZ.
      rewrite NZ. f_equal. exact Ln.
    - assert (CZ : Rdot c c = 0) by (unfold c; rewrite Rdot_scal_l, Rdot_scal_r, G0; ring).
      apply Rdot_0_inv in CZ. rewrite CZ. f_equal. exact Lc.
  Qed.

  Lemma dog_no_cauchy : dn <= eps -> c = zerov n.
  Proof.
    intro E. destruct dog_lens as (Lg & _). unfold c, alpha. rewrite (proj2 (Rltb_false _ _) E), Rscal_0, Lg. reflexivity.
  Qed.

  Lemma Rnorm_zero : forall k, Rnorm (zerov k) = 0.
  Proof. intro k. unfold Rnorm. rewrite Rdot_0_l. apply sqrt_0. Qed.

  Lemma seg_zero : forall k u (v : list R), length v = k -> Radd_v (zerov k) (Rscal u (Rsub_v v (zerov k))) = Rscal u v.
  Proof.
    intros k u v. revert k. induction v as [|x v IH]; intros [|k] H; try discriminate H; cbn; [reflexivity|].
    f_equal; [ring|]. apply IH. now injection H.
  Qed.

  (** The step is no longer than |g| / sigma. *)
  Lemma dog_length : length d = n /\ sigma * sigma * Rdot d d <= Rdot g g.
  Proof.
    destruct dog_lens as (Lg & Ln & Lc). destruct dog_newton as (_ & _ & N1 & _).
    pose proof (Rdot_pos g) as G0. pose proof (Rnorm_pos nw) as N0. pose proof (Rnorm_pos g) as G1.
    assert (S2 : 0 < sigma * sigma) by (apply Rmult_lt_0_compat; exact HS).
    assert (QN : Rdot nw nw <= Rdot g g / (sigma * sigma)).
    { apply (Rmult_le_reg_r (sigma * sigma)); [exact S2|]. unfold Rdiv. rewrite Rmult_assoc, Rinv_l by lra.
      rewrite <- !Rnorm_sq. replace (Rnorm nw * Rnorm nw * (sigma * sigma)) with ((sigma * Rnorm nw) * (sigma * Rnorm nw)) by ring.
      rewrite Rmult_1_r. apply Rmult_le_compat; try assumption; apply Rmult_le_pos; lra. }
    assert (QC : Rdot c c <= Rdot g g / (sigma * sigma)).
    { destruct (Req_EM_T (Rdot g g) 0) as [Z|Z].
      { destruct (dog_zero_grad Z) as (_ & _ & ->). rewrite Rdot_0_l, Z. unfold Rdiv. lra. }
      destruct (Rlt_dec eps dn) as [E|E].
      - destruct (dog_cauchy Z E) as (_ & A0 & _ & _ & _ & A1).
        unfold c. rewrite Rdot_scal_l, Rdot_scal_r.
        apply (Rmult_le_reg_r (sigma * sigma)); [exact S2|]. unfold Rdiv. rewrite (Rmult_assoc (Rdot g g)), Rinv_l by lra.
        replace (- alpha * (- alpha * Rdot g g) * (sigma * sigma)) with ((sigma * alpha) * (sigma * alpha) * Rdot g g) by ring.
        rewrite Rmult_1_r. assert (sigma * alpha * (sigma * alpha) <= 1 * 1).
        { apply Rmult_le_compat; try assumption; apply Rmult_le_pos; lra. }
        assert (sigma * alpha * (sigma * alpha) * Rdot g g <= 1 * 1 * Rdot g g) by (apply Rmult_le_compat_r; assumption). lra.
      - rewrite dog_no_cauchy, Rdot_0_l by lra. apply Rmult_le_pos; [exact G0|]. apply Rlt_le, Rinv_0_lt_compat. exact S2. }
    assert (X : length d = n /\ Rdot d d <= Rdot g g / (sigma * sigma)).
    { destruct dog_cases as [(F1 & F2 & E)|[(F1 & F2 & E)|[(F1 & F2 & u & U & E & _)|(F1 & F2 & E)]]]; rewrite E.
      - split; [rewrite Rscal_length; exact Lc|]. rewrite Rdot_scal_l, Rdot_scal_r.
        assert (C0 : 0 < Rnorm c) by lra.
        assert (T : 0 <= D / Rnorm c <= 1).
        { split; [apply Rmult_le_pos; [apply Rmult_le_pos; lra|apply Rlt_le, Rinv_0_lt_compat; exact C0]|].
          apply (Rmult_le_reg_r (Rnorm c)); [exact C0|]. unfold Rdiv. rewrite Rmult_assoc, Rinv_l by lra. lra. }
        set (t := D / Rnorm c) in *. pose proof (Rdot_pos c).
        assert (t * t * Rdot c c <= 1 * 1 * Rdot c c) by (apply Rmult_le_compat_r; [assumption|apply Rmult_le_compat; lra]). lra.
      - split; [apply zerov_length|]. rewrite Rdot_0_l. apply Rmult_le_pos; [exact G0|]. apply Rlt_le, Rinv_0_lt_compat. exact S2.
      - split; [apply Radd_v_length; [exact Lc|]; rewrite Rscal_length; apply Rsub_v_length; assumption|].
        apply seg_sq; auto. congruence.
      - split; [exact Ln|exact QN]. }
    destruct X as (X1 & X2). split; [exact X1|].
    apply (Rmult_le_compat_l (sigma * sigma)) in X2; [|lra].
    replace (sigma * sigma * (Rdot g g / (sigma * sigma))) with (Rdot g g) in X2 by (field; lra). exact X2.
  Qed.

  Lemma q_eq : forall v, length v = n -> q v = Rdot g v + / 2 * Rdot (op_mv A v) (op_mv A v).
  Proof.
    intros v Lv. unfold q. rewrite (predict_ls n m) by assumption. f_equal.
    rewrite (Rdot_comm (op_mv A v)). symmetry. apply (proj2 HT). exact Lv.
  Qed.

  Lemma q_scal : forall t v, length v = n -> 0 <= t <= 1 -> q (Rscal t v) <= t * q v.
  Proof.
    intros t v Lv Ht. pose proof HA as (_ & _ & L3). rewrite !q_eq by (rewrite ?Rscal_length; exact Lv).
    rewrite L3 by exact Lv. rewrite !Rdot_scal_l, !Rdot_scal_r. pose proof (Rdot_pos (op_mv A v)).
    assert (0 <= t * (1 - t) * Rdot (op_mv A v) (op_mv A v)) by (apply Rmult_le_pos; [apply Rmult_le_pos|]; lra). lra.
  Qed.

  Lemma q_newton : q nw <= - / 2 * (Rdot g g / B).
  Proof.
    destruct dog_lens as (_ & Ln & _). destruct dog_newton as (N1 & N2 & _). rewrite q_eq by exact Ln. fold JN. rewrite N1.
    assert (Rdot g g / B <= JN); [|lra]. apply (Rmult_le_reg_r B); [lra|]. unfold Rdiv. rewrite Rmult_assoc, Rinv_l by lra. lra.
  Qed.

  Lemma q_cauchy : Rdot g g <> 0 -> eps < dn -> q c = - / 2 * (alpha * Rdot g g) /\ q c <= - / 2 * (Rdot g g / B).
  Proof.
    intros Z E. destruct dog_lens as (Lg & _ & Lc). destruct (dog_cauchy Z E) as (D0 & A0 & EA & _ & A1 & _).
    pose proof HA as (_ & _ & L3). rewrite q_eq by exact Lc. unfold c. rewrite L3 by exact Lg.
    rewrite !Rdot_scal_l, !Rdot_scal_r. fold dn.
    assert (X : - alpha * Rdot g g + / 2 * (- alpha * (- alpha * dn)) = - / 2 * (alpha * Rdot g g)) by (rewrite <- EA; field).
    rewrite X. split; [reflexivity|]. pose proof (Rdot_pos g).
    assert (Rdot g g / B <= alpha * Rdot g g); [|lra].
    apply (Rmult_le_reg_r B); [lra|]. unfold Rdiv. rewrite Rmult_assoc, Rinv_l by lra.
    assert (1 * Rdot g g <= B * alpha * Rdot g g) by (apply Rmult_le_compat_r; assumption). lra.
  Qed.

  (** The predicted decrease, unless the Cauchy step is below eps and cut off *)
  Lemma dog_model : (d = zerov n /\ Rdot g g <= B * B * (eps * eps)) \/ q d <= - / 2 * (Rmin 1 step * (Rdot g g / B)).
  Proof.
    destruct dog_lens as (Lg & Ln & Lc). pose proof (Rdot_pos g) as G0. pose proof (Rnorm_pos nw) as N0.
    pose proof (Rnorm_pos g) as G1. destruct dog_newton as (_ & _ & _ & N2).
    assert (GB : 0 <= Rdot g g / B) by (apply Rmult_le_pos; [exact G0|apply Rlt_le, Rinv_0_lt_compat; lra]).
    assert (M1 : Rmin 1 step <= 1) by apply Rmin_l. assert (M2 : Rmin 1 step <= step) by apply Rmin_r.
    assert (M0 : 0 < Rmin 1 step) by (apply Rmin_glb_lt; lra).
    assert (X1 : Rmin 1 step * (Rdot g g / B) <= 1 * (Rdot g g / B)) by (apply Rmult_le_compat_r; assumption).
    assert (X2 : Rmin 1 step * (Rdot g g / B) <= step * (Rdot g g / B)) by (apply Rmult_le_compat_r; assumption).
    pose proof q_newton as QN.
    destruct dog_cases as [(F1 & F2 & E)|[(F1 & F2 & E)|[(F1 & F2 & u & U & E & Us)|(F1 & F2 & E)]]]; rewrite E.
    - right. assert (C0 : 0 < Rnorm c) by lra.
      assert (CZ : c <> zerov n) by (intro Z; rewrite Z, Rnorm_zero in C0; lra).
      assert (GZ : Rdot g g <> 0) by (intro Z; destruct (dog_zero_grad Z) as (_ & _ & Z'); auto).
      assert (ED : eps < dn).
      { destruct (Rlt_dec eps dn) as [K|K]; [exact K|]. exfalso. apply CZ, dog_no_cauchy. lra. }
      assert (T : 0 <= D / Rnorm c <= 1).
      { split; [apply Rmult_le_pos; [apply Rmult_le_pos; lra|apply Rlt_le, Rinv_0_lt_compat; exact C0]|].
        apply (Rmult_le_reg_r (Rnorm c)); [exact C0|]. unfold Rdiv. rewrite Rmult_assoc, Rinv_l by lra. lra. }
      pose proof (q_scal _ c Lc T) as Q. destruct (q_cauchy GZ ED) as (Q1 & _).
      destruct (dog_cauchy GZ ED) as (D0 & A0 & EA & EN & A1 & _). rewrite Q1 in Q. rewrite EN in *.
      assert (GP : 0 < Rnorm g).
      { destruct G1 as [G1|G1]; [exact G1|]. exfalso. apply GZ. rewrite <- Rnorm_sq, <- G1. ring. }
      assert (EQ : D / (alpha * Rnorm g) * (- / 2 * (alpha * Rdot g g)) = - / 2 * (D * Rnorm g)).
      { rewrite <- Rnorm_sq. field. lra. }
      rewrite EQ in Q.
      assert (step * (Rdot g g / B) <= D * Rnorm g); [|lra].
      unfold D. rewrite <- Rnorm_sq.
      assert (K : Rnorm g / B <= Rnorm nw).
      { apply (Rmult_le_reg_r B); [lra|]. unfold Rdiv. rewrite Rmult_assoc, Rinv_l by lra. lra. }
      replace (step * (Rnorm g * Rnorm g / B)) with (step * Rnorm g * (Rnorm g / B)) by (field; lra).
      replace (Rnorm nw * step * Rnorm g) with (step * Rnorm g * Rnorm nw) by ring.
      apply Rmult_le_compat_l; [apply Rmult_le_pos; lra|exact K].
    - left. split; [reflexivity|].
      assert (D0 : 0 <= D) by (apply Rmult_le_pos; lra).
      assert (C0 : 0 < Rnorm c) by lra.
      assert (CZ : c <> zerov n) by (intro Z; rewrite Z, Rnorm_zero in C0; lra).
      assert (GZ : Rdot g g <> 0) by (intro Z; destruct (dog_zero_grad Z) as (_ & _ & Z'); auto).
      assert (ED : eps < dn).
      { destruct (Rlt_dec eps dn) as [K|K]; [exact K|]. exfalso. apply CZ, dog_no_cauchy. lra. }
      destruct (dog_cauchy GZ ED) as (_ & A0 & _ & EN & A1 & _). rewrite EN in F2.
      assert (K : Rnorm g <= B * eps).
      { assert (1 * Rnorm g <= B * alpha * Rnorm g) by (apply Rmult_le_compat_r; assumption).
        assert (B * (alpha * Rnorm g) <= B * eps) by (apply Rmult_le_compat_l; lra). lra. }
      rewrite <- Rnorm_sq. replace (B * B * (eps * eps)) with ((B * eps) * (B * eps)) by ring.
      apply Rmult_le_compat; assumption.
    - right. destruct (Rlt_dec eps dn) as [ED|ED].
      + destruct (Req_EM_T (Rdot g g) 0) as [Z|Z].
        * destruct (dog_zero_grad Z) as (_ & -> & ->). rewrite seg_zero by apply zerov_length. rewrite Z in *.
          assert (EZ : Rscal u (zerov n) = zerov n).
          { clear. induction n; cbn; [reflexivity|]. f_equal; [ring|assumption]. }
          rewrite EZ. unfold q. rewrite (predict_zero n m) by assumption. unfold Rdiv. lra.
        * destruct (q_cauchy Z ED) as (_ & QC).
          eapply Rle_trans; [apply (predict_convex n m); auto|]. cbv beta. fold (q c) (q nw).
          assert (0 <= (1 - u) * (- / 2 * (Rdot g g / B) - q c)) by (apply Rmult_le_pos; lra).
          assert (0 <= u * (- / 2 * (Rdot g g / B) - q nw)) by (apply Rmult_le_pos; lra). lra.
      + assert (CZ : c = zerov n) by (apply dog_no_cauchy; lra). specialize (Us CZ).
        rewrite CZ, seg_zero by exact Ln.
        destruct (Req_EM_T (Rnorm nw) 0) as [NZ|NZ].
        * rewrite NZ in N2. assert (Rnorm g = 0) by lra.
          assert (Z : Rdot g g = 0) by (rewrite <- Rnorm_sq, H; ring).
          destruct (dog_zero_grad Z) as (_ & -> & _). rewrite Z in *.
          assert (EZ : Rscal u (zerov n) = zerov n).
          { clear. induction n; cbn; [reflexivity|]. f_equal; [ring|assumption]. }
          rewrite EZ. unfold q. rewrite (predict_zero n m) by assumption. unfold Rdiv. lra.
        * rewrite (Us NZ) in *. pose proof (q_scal step nw Ln U) as Q.
          assert (step * q nw <= step * (- / 2 * (Rdot g g / B))) by (apply Rmult_le_compat_l; lra). lra.
    - right. lra.
  Qed.

  (** Steps taken with a small radius are nearly steepest descent or short Newton steps. *)
  Lemma dog_small : forall L, 0 < L -> step < sigma / B -> step <= 99 * sigma / (50 * L) ->
    99 / 100 * Rdot g d + L / 2 * Rdot d d <= 0.
  Proof.
    intros L HL S1 S2. destruct dog_lens as (Lg & Ln & Lc). destruct dog_newton as (N1 & _ & N3 & N4).
    pose proof (Rdot_pos g) as G0. pose proof (Rnorm_pos nw) as N0. pose proof (Rnorm_pos g) as G1.
    assert (SB : sigma / B <= 1).
    { apply (Rmult_le_reg_r B); [lra|]. unfold Rdiv. rewrite Rmult_assoc, Rinv_l by lra. lra. }
    assert (SL : L / 2 * step <= 99 / 100 * sigma).
    { apply Rle_trans with (L / 2 * (99 * sigma / (50 * L))); [apply Rmult_le_compat_l; lra|]. right. field. lra. }
    assert (Zd : forall v : list R, v = zerov n -> 99 / 100 * Rdot g v + L / 2 * Rdot v v <= 0).
    { intros v ->. rewrite Rdot_0_r, Rdot_0_l. lra. }
    destruct dog_cases as [(F1 & F2 & E)|[(F1 & F2 & E)|[(F1 & F2 & u & U & E & Us)|(F1 & F2 & E)]]]; rewrite E.
    - assert (C0 : 0 < Rnorm c) by lra.
      assert (CZ : c <> zerov n) by (intro Z; rewrite Z, Rnorm_zero in C0; lra).
      assert (GZ : Rdot g g <> 0) by (intro Z; destruct (dog_zero_grad Z) as (_ & _ & Z'); auto).
      assert (ED : eps < dn).
      { destruct (Rlt_dec eps dn) as [K|K]; [exact K|]. exfalso. apply CZ, dog_no_cauchy. lra. }
      destruct (dog_cauchy GZ ED) as (D0 & A0 & EA & EN & A1 & _).
      assert (GP : 0 < Rnorm g).
      { destruct G1 as [G1|G1]; [exact G1|]. exfalso. apply GZ. rewrite <- Rnorm_sq, <- G1. ring. }
      rewrite EN. unfold c. rewrite !Rdot_scal_l, !Rdot_scal_r, <- Rnorm_sq.
      replace (99 / 100 * (D / (alpha * Rnorm g) * (- alpha * (Rnorm g * Rnorm g))) +
         L / 2 * (D / (alpha * Rnorm g) * (- alpha * (D / (alpha * Rnorm g) * (- alpha * (Rnorm g * Rnorm g))))))
        with (D * (L / 2 * D - 99 / 100 * Rnorm g)) by (field; lra).
      assert (K : L / 2 * D <= 99 / 100 * Rnorm g).
      { unfold D. replace (L / 2 * (Rnorm nw * step)) with (L / 2 * step * Rnorm nw) by ring.
        assert (L / 2 * step * Rnorm nw <= 99 / 100 * sigma * Rnorm nw) by (apply Rmult_le_compat_r; assumption). lra. }
      assert (0 <= D) by (apply Rmult_le_pos; lra).
      assert (0 <= D * (99 / 100 * Rnorm g - L / 2 * D)) by (apply Rmult_le_pos; lra). lra.
    - apply Zd. reflexivity.
    - destruct (Req_EM_T (Rdot g g) 0) as [Z|Z].
      { apply Zd. destruct (dog_zero_grad Z) as (_ & -> & ->). rewrite seg_zero by apply zerov_length.
        clear. induction n; cbn; [reflexivity|]. f_equal; [ring|assumption]. }
      assert (GP : 0 < Rnorm g).
      { destruct G1 as [G1|G1]; [exact G1|]. exfalso. apply Z. rewrite <- Rnorm_sq, <- G1. ring. }
      destruct (Rlt_dec eps dn) as [ED|ED].
      + exfalso. destruct (dog_cauchy Z ED) as (_ & A0 & _ & EN & A1 & _). rewrite EN in F1. unfold D in F1.
        assert (K1 : Rnorm nw * step < Rnorm g / B).
        { destruct (Req_EM_T (Rnorm nw) 0) as [NZ|NZ].
          - rewrite NZ, Rmult_0_l. apply Rdiv_lt_0_compat; lra.
          - apply Rlt_le_trans with (Rnorm nw * (sigma / B)); [apply Rmult_lt_compat_l; lra|].
            replace (Rnorm nw * (sigma / B)) with (sigma * Rnorm nw / B) by (field; lra).
            apply Rmult_le_compat_r; [apply Rlt_le, Rinv_0_lt_compat; lra|exact N3]. }
        assert (K2 : Rnorm g / B <= alpha * Rnorm g).
        { apply (Rmult_le_reg_r B); [lra|]. unfold Rdiv. rewrite Rmult_assoc, Rinv_l by lra.
          assert (1 * Rnorm g <= B * alpha * Rnorm g) by (apply Rmult_le_compat_r; lra). lra. }
        lra.
      + assert (CZ : c = zerov n) by (apply dog_no_cauchy; lra). specialize (Us CZ).
        assert (NZ : Rnorm nw <> 0) by (intro NZ; rewrite NZ in N4; lra).
        rewrite (Us NZ). rewrite CZ, seg_zero by exact Ln. rewrite !Rdot_scal_l, !Rdot_scal_r, N1.
        pose proof (HI nw Ln) as I1. fold JN in I1. pose proof (Rdot_pos nw) as P0.
        assert (L / 2 * step * Rdot nw nw <= 99 / 100 * sigma * Rdot nw nw) by (apply Rmult_le_compat_r; assumption).
        assert (0 <= step * (99 / 100 * JN - L / 2 * step * Rdot nw nw)) by (apply Rmult_le_pos; lra). lra.
    - lra.
  Qed.
End Dog.

(** ** C77 *)

Lemma dogleg_descends : forall (Aux : Type) lsolve (eps : R) jac_of (fn : list R -> list R * Aux) (n m : nat),
  (0 <= eps)%R -> exact_least_squares n lsolve -> residual_problem n m (fun x => fst (fn x)) (jac_of fn) ->
  let descent := dogleg_descent (N:=RN) lsolve eps two_norm None in
  forall y (step : R) st, length y = n -> (0 < step)%R ->
    let i := ResidualJac (N:=RN) (fst (fn y)) (jac_of fn y) in
    let d := fst (d_step descent step (d_query descent y i st)) in
    length d = n /\ (classical_predict (N:=RN) d i <= 0)%R.
Proof.
  intros Aux lsolve eps jac_of fn n m He HE HP descent y step st Hy Hs i d. destruct (HP y Hy) as (Hr & HA & HT).
  exact (dogleg_predict n m lsolve eps (jac_of fn y) (fst (fn y)) step HE HA HT Hr He Hs).
Qed.

Lemma dogleg_must_accept : forall (Aux : Type) lsolve (eps : R) jac_of (fn : list R -> list R * Aux) (n m : nat) (L B sigma : R),
  let r x := fst (fn x) in let J := jac_of fn in
  (0 <= eps)%R -> exact_least_squares n lsolve -> residual_problem n m r J ->
  (0 < L)%R -> smooth n L (half_squares r) (ls_gradient r J) ->
  (0 < sigma <= B)%R -> jac_bounded n B J -> jac_injective n sigma J ->
  let descent := dogleg_descent (N:=RN) lsolve eps two_norm None in
  forall x (step : R) st, length x = n -> (Rmin 1 (Rmin (sigma / B) (99 * sigma / (50 * L)) / 4) <= step < Rmin (sigma / B) (99 * sigma / (50 * L)))%R ->
    let i := ResidualJac (N:=RN) (r x) (J x) in
    let d : list R := fst (d_step descent step (d_query descent x i st)) in
    (half_squares r (Radd_v x d) - half_squares r x <= 1 / 100 * classical_predict (N:=RN) d i)%R.
Proof.
  intros Aux lsolve eps jac_of fn n m L B sigma r J He HE HP HL HS [S0 SB] HB HI descent x step st Hx [Hs' Hw] i d.
  assert (Hs : (0 < step)%R).
  { apply Rlt_le_trans with (2 := Hs'). apply Rmin_glb_lt; [lra|]. apply Rdiv_lt_0_compat; [|lra].
    apply Rmin_glb_lt; apply Rdiv_lt_0_compat; lra. }
  clear Hs'.
  destruct (HP x Hx) as (Hr & HA & HT).
  destruct (dog_length n m (J x) (r x) x lsolve eps step st HE HA HT Hr He Hs B sigma S0 (fun v => HB x v Hx) (fun v => HI x v Hx) SB) as (Ld & _).
  pose proof (dog_small n m (J x) (r x) x lsolve eps step st HE HA HT Hr He Hs B sigma S0 (fun v => HB x v Hx) (fun v => HI x v Hx) SB L HL
    (Rlt_le_trans _ _ _ Hw (Rmin_l _ _)) (Rlt_le _ _ (Rlt_le_trans _ _ _ Hw (Rmin_r _ _)))) as K.
  pose proof (q_eq n m (J x) (r x) HA HT Hr d Ld) as E. fold d i descent in Ld, K, E.
  pose proof (proj2 HS x d Hx Ld) as S3. unfold ls_gradient in S3. pose proof (Rdot_pos (op_mv (J x) d)).
  change (99 / 100 * Rdot (op_mvT (J x) (r x)) d + L / 2 * Rdot d d <= 0)%R in K.
  change (classical_predict (N:=RN) d i = Rdot (op_mvT (J x) (r x)) d + / 2 * Rdot (op_mv (J x) d) (op_mv (J x) d))%R in E.
  rewrite E. lra.
Qed.

(** Exact arithmetic, exact least-squares solves, 1/2 |r|^2 below its tangent
    parabolas of curvature L, and sigma |v|^2 <= |J v|^2 <= B |v|^2 everywhere: Dogleg
    accepts every trial made with a trust-region radius below
    w = min (sigma / B, 1.98 sigma / L) (the trust region has radius times the length of
    the Newton step); hence the radius never falls below rho = min (1, w / 4); and of the
    first k steps at most half, plus q with 4^q rho >= 1, are rejected. *)
Lemma C77_radius_pf :
  forall (Aux : Type) (P : ar_tols RN) (eps : R) lsolve jac_of (fn : list R -> list R * Aux)
         (n m : nat) (L B sigma : R) (y0 : list R) fs auxs st0,
    let r x := fst (fn x) in let J := jac_of fn in
    (0 <= eps)%R -> exact_least_squares n lsolve ->
    residual_problem n m r J -> (0 < L)%R -> smooth n L (half_squares r) (ls_gradient r J) ->
    (0 < sigma <= B)%R -> jac_bounded n B J -> jac_injective n sigma J -> length y0 = n ->
    let w := Rmin (sigma / B) (99 * sigma / (50 * L)) in
    let rho := Rmin 1 (w / 4) in
    let s := Dogleg (N:=RN) P jac_of lsolve eps in
    s_init s fn y0 fs auxs = Ret st0 ->
    let y := y_at s fn y0 st0 (auxs fill0) in
    let st := st_at s fn y0 st0 (auxs fill0) in
    let radius k : R := gn_search_state (st k) in
    let accepted k : nat := gn_num_accepted_steps (st k) in
    (forall k, (radius (S k) < w)%R ->
       y (S (S k)) = gn_y_eval (st (S k)) /\ accepted (S (S k)) = S (accepted (S k))) /\
    (forall k, (rho <= radius (S k))%R) /\
    (forall q k, (1 <= 4 ^ q * rho)%R -> k <= 2 * accepted k + q).
Proof.
  intros Aux P eps lsolve jac_of fn n m L B sigma y0 fs auxs st0 r J He HE HP HL HS HSB HB HI Hn w rho s Hi y st radius accepted.
  unfold s in Hi. apply gn_init_inv in Hi. subst st0.
  pose proof (dogleg_descends Aux lsolve eps jac_of fn n m He HE HP) as HD. cbv zeta in HD.
  pose proof (dogleg_must_accept Aux lsolve eps jac_of fn n m L B sigma He HE HP HL HS HSB HB HI) as HM. cbv zeta in HM.
  assert (Hw : (0 < w)%R) by (apply Rmin_glb_lt; apply Rdiv_lt_0_compat; lra).
  split; [|split].
  - exact (run_accept P _ jac_of fn n y0 fs auxs Hn HD w HM).
  - exact (run_radius P _ jac_of fn n y0 fs auxs Hn HD w HM).
  - exact (run_count_le P _ jac_of fn n y0 fs auxs Hn HD w HM).
Qed.

(** The gradient J^T r becomes as small as the cut-off eps of the descent allows: for
    tau > B^2 eps^2, if 1/2 |r(y0)|^2 < K rho tau / (200 B), then one of the first
    2 K + 1 + q iterates has |J^T r|^2 < tau. *)
Lemma C77_gradient_pf :
  forall (Aux : Type) (P : ar_tols RN) (eps : R) lsolve jac_of (fn : list R -> list R * Aux)
         (n m : nat) (L B sigma tau : R) (y0 : list R) fs auxs st0 (q K : nat),
    let r x := fst (fn x) in let J := jac_of fn in
    (0 <= eps)%R -> exact_least_squares n lsolve ->
    residual_problem n m r J -> (0 < L)%R -> smooth n L (half_squares r) (ls_gradient r J) ->
    (0 < sigma <= B)%R -> jac_bounded n B J -> jac_injective n sigma J -> length y0 = n ->
    let w := Rmin (sigma / B) (99 * sigma / (50 * L)) in
    let rho := Rmin 1 (w / 4) in
    (B * B * (eps * eps) < tau)%R -> (1 <= 4 ^ q * rho)%R ->
    (half_squares r y0 < INR K * (rho * tau / (200 * B)))%R ->
    let s := Dogleg (N:=RN) P jac_of lsolve eps in
    s_init s fn y0 fs auxs = Ret st0 ->
    exists k, k <= 2 * K + 1 + q /\
      let x : list R := y_at s fn y0 st0 (auxs fill0) k in
      (Rdot (ls_gradient r J x) (ls_gradient r J x) < tau)%R.
Proof.
  intros Aux P eps lsolve jac_of fn n m L B sigma tau y0 fs auxs st0 q K r J He HE HP HL HS HSB HB HI Hn w rho Ht Hq HK s Hi.
  unfold s in Hi. apply gn_init_inv in Hi. subst st0.
  pose proof (dogleg_descends Aux lsolve eps jac_of fn n m He HE HP) as HD. cbv zeta in HD.
  pose proof (dogleg_must_accept Aux lsolve eps jac_of fn n m L B sigma He HE HP HL HS HSB HB HI) as HM. cbv zeta in HM.
  assert (Hw : (0 < w)%R) by (apply Rmin_glb_lt; apply Rdiv_lt_0_compat; lra).
  assert (R0 : (0 < rho)%R) by (apply Rmin_glb_lt; lra). assert (R1 : (rho <= 1)%R) by apply Rmin_l.
  assert (T0 : (0 < tau)%R) by (assert (0 <= B * B * (eps * eps))%R by (apply Rmult_le_pos; apply Rle_0_sqr); lra).
  apply (run_reach P _ jac_of fn n y0 fs auxs Hn HD w HM
    (fun x => (Rdot (ls_gradient r J x) (ls_gradient r J x) < tau)%R) (rho * tau / (200 * B))%R q K); auto.
  - apply Rdiv_lt_0_compat; [apply Rmult_lt_0_compat; assumption|lra].
  - intro x. destruct (Rlt_dec (Rdot (ls_gradient r J x) (ls_gradient r J x)) tau); auto.
  - intros x step st Hx Hs G. apply Rnot_lt_le in G. fold w rho in Hs. destruct (HP x Hx) as (Hr & HA & HT).
    destruct HSB as [S0 SB].
    destruct (dog_model n m (J x) (r x) x lsolve eps step st HE HA HT Hr He ltac:(lra) B sigma S0 (fun v => HB x v Hx) (fun v => HI x v Hx) SB)
      as [(_ & Q)|Q].
    + exfalso. unfold ls_gradient in G. lra.
    + eapply Rle_trans; [exact Q|]. unfold ls_gradient in G.
      assert (M : (rho <= Rmin 1 step)%R) by (apply Rmin_glb; assumption).
      replace (100 * (rho * tau / (200 * B)))%R with (/ 2 * (rho * (tau / B)))%R by (field; lra).
      assert (IB : (0 < / B)%R) by (apply Rinv_0_lt_compat; lra).
      assert (rho * (tau / B) <= Rmin 1 step * (Rdot (op_mvT (J x) (r x)) (op_mvT (J x) (r x)) / B))%R; [|lra].
      apply Rmult_le_compat; [lra|apply Rmult_le_pos; lra|exact M|]. apply Rmult_le_compat_r; lra.
Qed.

(** If moreover the residuals are Lipschitz, |r(x+d) - r(x)|^2 <= B |d|^2, and every
    linear solve reports success, then Dogleg succeeds within 2 K + 2 + q steps, where
    1/2 |r(y0)|^2 < K (rho sigma^2 / (200 B)) min (atol^2, atol^2 / B), at a point no worse
    than y0. *)
Lemma C77_terminates_pf :
  forall (Aux : Type) (rtol atol eps : R) lsolve jac_of (fn : list R -> list R * Aux)
         (n m : nat) (L B sigma : R) (y0 : list R) fs auxs (q K : nat),
    let r x := fst (fn x) in let J := jac_of fn in
    (0 <= eps)%R -> exact_least_squares n lsolve -> (forall A b, snd (lsolve A b) = successful) ->
    residual_problem n m r J -> (0 < L)%R -> smooth n L (half_squares r) (ls_gradient r J) ->
    (0 < sigma <= B)%R -> jac_bounded n B J -> jac_injective n sigma J -> residual_lipschitz n B r ->
    length y0 = n -> (0 <= rtol)%R -> (0 < atol)%R ->
    let w := Rmin (sigma / B) (99 * sigma / (50 * L)) in
    let rho := Rmin 1 (w / 4) in
    (1 <= 4 ^ q * rho)%R ->
    (half_squares r y0 < INR K * (rho * (sigma * sigma) / (200 * B) * Rmin (atol * atol) (atol * atol / B)))%R ->
    let s := Dogleg (N:=RN) (mkTols rtol atol max_norm) jac_of lsolve eps in
    exists k, k <= 2 * K + 2 + q /\
      forall fuel budget throw, k < fuel -> (forall j, budget = Some j -> k <= j) ->
        exists sol, iterative_solve (vallfinite (N:=RN)) s fn fuel budget throw y0 fs auxs = Ret sol /\
          result sol = successful /\ (half_squares r (value sol) <= half_squares r y0)%R /\
          hd_error (sol_stats sol) = Some ("num_steps"%string, Some (Z.of_nat k)).
Proof.
  intros Aux rtol atol eps lsolve jac_of fn n m L B sigma y0 fs auxs q K r J He HE HR HP HL HS HSB HB HI HLp Hn Hrt Hat w rho Hq HK s.
  set (P := mkTols (N:=RN) rtol atol max_norm) in *.
  set (st0 := gn_st0 (classical_trust_region (N:=RN) tr_default) (dogleg_descent (N:=RN) lsolve eps two_norm None) y0 fs auxs).
  assert (Hi : s_init s fn y0 fs auxs = Ret st0) by reflexivity.
  pose proof (dogleg_descends Aux lsolve eps jac_of fn n m He HE HP) as HD. cbv zeta in HD.
  pose proof (dogleg_must_accept Aux lsolve eps jac_of fn n m L B sigma He HE HP HL HS HSB HB HI) as HM. cbv zeta in HM.
  assert (Hw : (0 < w)%R) by (apply Rmin_glb_lt; apply Rdiv_lt_0_compat; lra).
  assert (R0 : (0 < rho)%R) by (apply Rmin_glb_lt; lra). assert (R1 : (rho <= 1)%R) by apply Rmin_l.
  assert (C0 : (0 < rho * (sigma * sigma) / (200 * B))%R).
  { apply Rdiv_lt_0_compat; [|lra]. apply Rmult_lt_0_compat; [exact R0|]. apply Rmult_lt_0_compat; lra. }
  destruct (run_terminates P _ jac_of fn n y0 fs auxs Hn HD w HM Hrt Hat eq_refl B (rho * (sigma * sigma) / (200 * B)) q K
    ltac:(lra) C0 HLp Hq) as (k0 & K0 & T).
  { intros x step st Hx Hs. fold w rho in Hs. destruct (HP x Hx) as (Hr & HA & HT). destruct HSB as [S0 SB].
    assert (Hs0 : (0 < step)%R) by lra.
    destruct (dog_length n m (J x) (r x) x lsolve eps step st HE HA HT Hr He Hs0 B sigma S0 (fun v => HB x v Hx) (fun v => HI x v Hx) SB) as (_ & Q1).
    destruct (dog_model n m (J x) (r x) x lsolve eps step st HE HA HT Hr He Hs0 B sigma S0 (fun v => HB x v Hx) (fun v => HI x v Hx) SB)
      as [(Ez & _)|Q2].
    - pose proof (predict_zero n m (J x) (r x) HA Hr) as PZ. change (r x) with (fst (fn x)) in *. change (J x) with (jac_of fn x) in *.
      rewrite Ez, PZ, Rdot_0_l. lra.
    - eapply Rle_trans; [exact Q2|]. change (r x) with (fst (fn x)) in *. change (J x) with (jac_of fn x) in *.
      match type of Q1 with (_ * Rdot ?v _ <= ?G)%R => set (dd := Rdot v v) in *; set (gg := G) in * end.
      assert (M : (rho <= Rmin 1 step)%R) by (apply Rmin_glb; assumption).
      replace (100 * (rho * (sigma * sigma) / (200 * B)) * dd)%R with (/ 2 * (rho * (sigma * sigma * dd / B)))%R by (field; lra).
      assert (IB : (0 < / B)%R) by (apply Rinv_0_lt_compat; lra).
      assert (DD : (0 <= dd)%R) by apply Rdot_pos.
      assert (rho * (sigma * sigma * dd / B) <= Rmin 1 step * (gg / B))%R; [|lra].
      apply Rmult_le_compat; [lra| |exact M|apply Rmult_le_compat_r; lra].
      apply Rmult_le_pos; [|lra]. apply Rmult_le_pos; [apply Rle_0_sqr|exact DD]. }
  { exact HK. }
  assert (SR : forall k, says_result s fn y0 st0 (auxs fill0) k = successful).
  { intros [|k]; [reflexivity|].
    exact (eq_trans (C64_dogleg_pf RN Aux P lsolve eps jac_of fn y0 fs auxs st0 Hi k) (HR _ _)). }
  assert (AF : forall v : list R, vallfinite (N:=RN) v = true).
  { intro v. unfold vallfinite. induction v; auto. }
  destruct (solve_succeeds (vallfinite (N:=RN)) s fn y0 st0 _ fs auxs eq_refl Hi SR (fun k => AF _) (ex_intro _ k0 T))
    as (k1 & K1 & K2 & K3).
  assert (k1 <= k0).
  { destruct (le_lt_dec k1 k0) as [?|Q]; [assumption|]. specialize (K2 _ Q).
    change (gn_terminate (st_at s fn y0 st0 (auxs fill0) k0) = false) in K2.
    pose proof (eq_trans (eq_sym T) K2). discriminate. }
  exists k1. split; [lia|]. intros fuel budget throw Hfu Hb. destruct (K3 fuel budget throw Hfu Hb) as (K4 & K5).
  eexists. split; [exact K4|]. split; [exact K5|]. split; [|reflexivity].
  unfold half_squares. apply Rmult_le_compat_l; [lra|].
  apply (C32_dogleg_pf Aux P eps lsolve jac_of fn n m y0 fs auxs st0 He HE HP Hn Hi 0 k1). lia.
Qed.

(** The hyperbola of C71 (L = 2, B = 2, sigma = 1, so w = 1/2 and rho = 1/8) from x = 2. *)
Example C77_terminates_ex_pf :
  let r x := fst (hyperbola x) in let J := hyperbola_jac hyperbola in
  residual_problem 1 2 r J /\ smooth 1 2 (half_squares r) (ls_gradient r J) /\
  jac_bounded 1 2 J /\ residual_lipschitz 1 2 r /\ jac_injective 1 1 J /\
  let s := Dogleg (N:=RN) (mkTols (N:=RN) (1/10)%R 1%R max_norm) hyperbola_jac lsolve1 (1/100)%R in
  exists k, k <= 2 * Z.to_nat 30000 + 2 + 2 /\
    forall fuel budget throw, k < fuel -> (forall j, budget = Some j -> k <= j) ->
      exists sol, iterative_solve (vallfinite (N:=RN)) s hyperbola fuel budget throw [2%R] (fun _ => [0; 0]%R) (fun _ => tt) = Ret sol /\
        result sol = successful.
Proof.
  intros r J. destruct C71_terminates_ex_pf as (HP & HS & HB & HLp & HI & _).
  split; [exact HP|]. split; [exact HS|]. split; [exact HB|]. split; [exact HLp|]. split; [exact HI|]. intro s.
  assert (W : Rmin (1 / 2) (99 * 1 / (50 * 2)) = (1 / 2)%R) by (rewrite Rmin_left by lra; lra).
  assert (RH : Rmin 1 (Rmin (1 / 2) (99 * 1 / (50 * 2)) / 4) = (1 / 8)%R) by (rewrite W, Rmin_right by lra; lra).
  assert (EF : half_squares (fun x => fst (hyperbola x)) [2%R] = (9 / 2)%R).
  { unfold half_squares. cbn. destruct (hyp_pos 2) as [_ E]. lra. }
  destruct (C77_terminates_pf unit (1/10) 1 (1/100) lsolve1 hyperbola_jac hyperbola 1 2 2 2 1 [2%R] (fun _ => [0; 0]%R) (fun _ => tt)
    2 (Z.to_nat 30000) ltac:(lra) (proj1 C32_levenberg_marquardt_ex_pf) (fun _ _ => eq_refl) HP ltac:(lra) HS
    ltac:(lra) HB HI HLp eq_refl ltac:(lra) ltac:(lra)) as (k & K1 & K2).
  - rewrite RH. cbn. lra.
  - rewrite RH, EF.
    rewrite Rmin_right by lra. replace (INR (Z.to_nat 30000)) with 30000%R; [lra|]. rewrite INR_IZR_INZ, Z2Nat.id by lia. reflexivity.
  - exists k. split; [exact K1|]. intros fuel budget throw H1 H2. destruct (K2 fuel budget throw H1 H2) as (sol & E1 & E2 & _). eauto.
Qed.
