(** Levenberg-Marquardt on underdetermined problems converges to a zero of the residuals (C127). *)

From Coq Require Import String List Bool Arith Lia ZArith QArith Qreals Reals Lra Psatz.
From Verif Require Import Num NumFacts Vec Results Iterate Spec_Iterate Iterate_proofs.
From Verif Require Import Spec_Vec VecFacts Spec_Lin LinFacts Spec_Solvable SolvableFacts.
From Verif Require Import Search Spec_Search Descent Minimisers Solvers Minimisers_proofs.
From Verif Require Import TrustRegion_proofs LeastSquares_proofs Dogleg_proofs Spec_Steps Steps_proofs Spec_Convergence Convergence_proofs DoglegConv_proofs.
From Verif Require Import Spec_Rates Rates_proofs Spec_Success Success_proofs LMLocal_proofs Spec_Convex Convex_proofs Nonexpansive_proofs Spec_Related Related_proofs Spec_Limit Limit_proofs Path_proofs Spec_LMPath.
Import ListNotations.
Local Open Scope R_scope.

(** The slope along a damped step is at least sqrt(sigma) |d| |r|. *)
Lemma onto_slope : forall n m (A : linop RN) (r : list R) (step sigma : R) (d : list R),
  linear_op n m A -> transpose_op n A -> length r = m -> 0 < step -> length d = n ->
  (forall w, length w = n -> damped_loss A r (/ step) d <= damped_loss A r (/ step) w) ->
  (forall u, length u = m -> sigma * Rdot u u <= Rdot (op_mvT A u) (op_mvT A u)) -> 0 < sigma ->
  sigma * Rdot d d * Rdot r r <= (Rdot (op_mv A d) (op_mv A d) + / step * Rdot d d) * (Rdot (op_mv A d) (op_mv A d) + / step * Rdot d d).
Proof.
  intros n m A r step sigma d HA HT Hr Hs Hd HD HO S0.
  assert (I0 : 0 < / step) by (apply Rinv_0_lt_compat; exact Hs). set (lam := / step) in *.
  destruct (damped_minimiser n m A r lam HA Hr I0 d Hd HD) as [Z _].
  assert (LA : length (op_mv A d : list R) = m) by (apply HA; exact Hd). set (j := op_mv A d : list R) in *.
  assert (LU : length (Radd_v j r) = m) by (apply Radd_v_length; assumption). set (u := Radd_v j r) in *.
  pose proof (HO u LU) as O. set (p := op_mvT A u : list R) in *.
  assert (LP : length p = n) by apply HT.
  assert (Z1 : Rdot u j = - lam * Rdot d d) by (pose proof (Z d Hd) as Q; fold j in Q; lra).
  assert (PD : Rdot p d = Rdot u j) by (apply (proj2 HT); exact Hd).
  assert (PP : Rdot p p = lam * lam * Rdot d d).
  { pose proof (Z p LP) as Q. pose proof (proj2 HT u p LP) as Q2. fold p in Q2. rewrite <- Q2 in Q. rewrite (Rdot_comm d p), PD, Z1 in Q. lra. }
  rewrite PP in O.
  assert (RR : Rdot r r = Rdot u u + 2 * (lam * Rdot d d) + Rdot j j).
  { assert (U1 : Rdot u j = Rdot j j + Rdot r j) by (unfold u; apply Rdot_add_l; congruence).
    assert (U2 : Rdot u u = Rdot j j + 2 * Rdot r j + Rdot r r).
    { unfold u. rewrite Rdot_add_l, !Rdot_add_r by congruence. rewrite (Rdot_comm j r). ring. }
    lra. }
  pose proof (Rdot_CS u j ltac:(congruence)) as C. rewrite Z1 in C.
  pose proof (Rdot_pos d) as D0. pose proof (Rdot_pos u) as U0. pose proof (Rdot_pos j) as J0.
  set (dd := Rdot d d) in *. set (uu := Rdot u u) in *. set (jj := Rdot j j) in *. clearbody dd uu jj lam. rewrite RR. clear - C O D0 U0 J0 S0 I0.
  assert (K : sigma * dd <= jj).
  { destruct (Rle_lt_or_eq_dec 0 dd D0) as [D1|D1]; [|rewrite <- D1; lra].
    assert (LL : 0 < lam * lam * dd) by (apply Rmult_lt_0_compat; [nra|exact D1]).
    apply (Rmult_le_reg_l (lam * lam * dd)); [exact LL|].
    assert (Q : sigma * uu * jj <= lam * lam * dd * jj) by (apply Rmult_le_compat_r; lra).
    assert (Q2 : sigma * (lam * lam * dd * dd) <= sigma * (uu * jj)).
    { apply Rmult_le_compat_l; [lra|]. replace (lam * lam * dd * dd) with ((- lam * dd) * (- lam * dd)) by ring. revert C. unfold Rsqr. cbn [pow]. intro C. lra. }
    lra. }
  assert (K1 : dd * (sigma * uu) <= dd * (lam * lam * dd)) by (apply Rmult_le_compat_l; lra).
  assert (K2 : 2 * (lam * dd) * (sigma * dd) <= 2 * (lam * dd) * jj) by (apply Rmult_le_compat_l; [nra|exact K]).
  assert (K3 : jj * (sigma * dd) <= jj * jj) by (apply Rmult_le_compat_l; lra).
  lra.
Qed.

Lemma add_zero_back : forall x : list R, Radd_v x (zerov (length x)) = x.
Proof.
  induction x as [|a x IH]; [reflexivity|]. change (Radd_v (a :: x) (zerov (length (a :: x)))) with ((a + 0) :: Radd_v x (zerov (length x))).
  rewrite IH, Rplus_0_r. reflexivity.
Qed.

(** |J^T r|^2 <= B |r|^2. *)
Lemma mvT_bound : forall n m (A : linop RN) (r : list R) (B : R), linear_op n m A -> transpose_op n A -> length r = m -> 0 <= B ->
  (forall v, length v = n -> Rdot (op_mv A v) (op_mv A v) <= B * Rdot v v) ->
  Rdot (op_mvT A r) (op_mvT A r) <= B * Rdot r r.
Proof.
  intros n m A r B HA HT Hr B0 HB. set (g := op_mvT A r : list R). assert (LG : length g = n) by apply HT.
  pose proof (proj2 HT r g LG) as E. fold g in E. pose proof (HB g LG) as Q.
  assert (LA : length (op_mv A g : list R) = m) by (apply HA; exact LG).
  pose proof (Rdot_CS r (op_mv A g) ltac:(congruence)) as C. rewrite <- E in C.
  pose proof (Rdot_pos g) as G0. pose proof (Rdot_pos r) as R0.
  set (gg := Rdot g g) in *. set (rr := Rdot r r) in *. set (aa := Rdot (op_mv A g) (op_mv A g)) in *. clearbody gg rr aa.
  assert (C1 : gg * gg <= rr * aa) by (revert C; unfold Rsqr; cbn [pow]; intro C; lra).
  destruct (Rle_lt_or_eq_dec 0 gg G0) as [G1|G1]; [|rewrite <- G1; apply Rmult_le_pos; assumption].
  apply (Rmult_le_reg_l gg); [exact G1|]. assert (rr * aa <= rr * (B * gg)) by (apply Rmult_le_compat_l; assumption). lra.
Qed.

(** LevenbergMarquardt, exact arithmetic and least-squares solves, on residuals whose Jacobian has full row rank everywhere
    (sigma |u|^2 <= |J^T u|^2 <= B |u|^2; usually there are more unknowns than residuals, so no solution is isolated and J^T J is singular) and
    1/2 |r|^2 L-smooth: the residuals have a zero, the iterates converge to one, at a linear rate, and the path after step k stays
    within a distance of order |r(y_k)|. That a zero exists is not assumed. *)
Lemma C127_levenberg_marquardt_pf :
  forall (Aux : Type) (P : ar_tols RN) (eps fmax : R) lsolve jac_of (fn : list R -> list R * Aux)
         (n m : nat) (L B sigma : R) (y0 : list R) fs auxs st0 (q : nat),
    let r x := fst (fn x) in let J := jac_of fn in
    0 <= eps -> 0 < fmax -> exact_least_squares n lsolve ->
    residual_problem n m r J -> smooth n L (half_squares r) (ls_gradient r J) -> 0 < L ->
    0 < B -> jac_bounded n B J -> 0 < sigma -> jac_onto n m sigma J ->
    let rho := Rmin 1 (99 / (200 * L)) in
    eps < rho -> length y0 = n -> 1 <= 4 ^ q * rho ->
    let s := LevenbergMarquardt (N:=RN) P jac_of lsolve eps fmax in
    s_init s fn y0 fs auxs = Ret st0 ->
    let y : nat -> list R := y_at s fn y0 st0 (auxs fill0) in
    let far := 80000 * B / (sigma * sigma) in
    let theta := 1 - Rmin sigma L / (100 * (B + / rho)) in
    (forall k j, (k <= j)%nat -> dist2 (y (S j)) (y (S k)) <= far * half_squares r (y (S k))) /\
    exists z, length z = n /\ r z = repeat 0 m /\ tends_to y z /\
      (forall k, dist2 (y (S k)) z <= far * half_squares r (y (S k))) /\
      0 <= theta < 1 /\ forall j, dist2 (y (2 * j + 2 + q)%nat) z <= far * half_squares r y0 * theta ^ j.
Proof.
  intros Aux P eps fmax lsolve jac_of fn n m L B sigma y0 fs auxs st0 q r J He Hf HE HP HS HL B0 HB S0 HO rho Hrho Hn Hq s Hi y far theta.
  set (f := half_squares r) in *. set (g := ls_gradient r J) in *.
  assert (HD0 : dominated n sigma 0 f g).
  { intros x Lx. destruct (HP x Lx) as (Hr & _). pose proof (HO x (r x) Lx Hr) as Q. split.
    - unfold f, half_squares. pose proof (Rdot_pos (r x)). lra.
    - unfold f, g, half_squares, ls_gradient. lra. }
  set (mu := Rmin sigma L). assert (MU : 0 < mu <= L) by (unfold mu; split; [apply Rmin_glb_lt; lra|apply Rmin_r]).
  assert (HDm : dominated n mu 0 f g).
  { intros x Lx. destruct (HD0 x Lx) as (Q1 & Q2). split; [exact Q1|]. assert (mu <= sigma) by apply Rmin_l.
    assert (mu * (f x - 0) <= sigma * (f x - 0)) by (apply Rmult_le_compat_r; lra). lra. }
  destruct (C83_levenberg_marquardt_pf Aux P eps fmax lsolve jac_of fn n m L B mu 0 y0 fs auxs st0 q He Hf HE HP HS (Rlt_le _ _ B0) HB MU HDm Hrho Hn Hq Hi) as (TH & RATE').
  assert (RATE : forall j, f (y (2 * j + 2 + q)%nat) - 0 <= theta ^ j * (f y0 - 0)) by exact RATE'. clear RATE'.
  change (0 <= theta < 1) in TH.
  unfold s in Hi. apply gn_init_inv in Hi. subst st0.
  set (w := (99 / (50 * L))%R).
  assert (ER : Rmin 1 (w / 4) = rho) by (unfold rho, w; f_equal; field; lra).
  assert (W0 : 0 < w) by (apply Rdiv_lt_0_compat; lra).
  set (descent := damped_newton_descent (N:=RN) lsolve eps fmax).
  assert (HD : forall y (step : R) st, length y = n -> (0 < step)%R ->
    let i := ResidualJac (N:=RN) (fst (fn y)) (jac_of fn y) in
    let d := fst (d_step descent step (d_query descent y i st)) in
    length d = n /\ (classical_predict (N:=RN) d i <= 0)%R).
  { intros z step st Hz _ i d. destruct (HP z Hz) as (Hr & HA & _).
    destruct (damped_predict n m lsolve eps fmax (jac_of fn z) (fst (fn z)) step HE HA Hr He Hf) as [K1 K2].
    unfold d, i, descent. cbn [damped_newton_descent d_step d_query fst snd].
    change (Datatypes.length z) with (@length R z). rewrite Hz.
    destruct (damped_newton_step _ _ _ _ _ _) as [sol res]. cbn [fst] in *. split; [|exact K2].
    unfold vneg. rewrite map_length. exact K1. }
  assert (DM : forall (x : list R) (step : R) st, length x = n -> (eps < step)%R ->
    let d : list R := fst (d_step descent step (d_query descent x (ResidualJac (N:=RN) (r x) (J x)) st)) in
    length d = n /\ forall v, length v = n -> (damped_loss (J x) (r x) (/ step) d <= damped_loss (J x) (r x) (/ step) v)%R).
  { intros x step st Hx Hs d. destruct (HP x Hx) as (Hr & HA & _).
    assert (ED : d = Rscal (-1) (fst (damped_newton_step (N:=RN) lsolve eps fmax n step (ResidualJac (N:=RN) (r x) (J x))))).
    { unfold d, descent. cbn [damped_newton_descent d_step d_query fst snd].
      change (@length (T RN) x) with (@length R x). rewrite Hx.
      destruct (damped_newton_step _ _ _ _ _ _) as [sol res]. cbn [fst]. apply vneg_RN. }
    rewrite ED. exact (damped_step_min lsolve eps fmax n m (J x) (r x) step HE HA Hr (conj He Hs)). }
  assert (HMA : forall (x : list R) (step : R) st, length x = n -> (Rmin 1 (w / 4) <= step < w)%R ->
    let d : list R := fst (d_step descent step (d_query descent x (ResidualJac (N:=RN) (r x) (J x)) st)) in
    (half_squares r (Radd_v x d) - half_squares r x <= 1 / 100 * classical_predict (N:=RN) d (ResidualJac (N:=RN) (r x) (J x)))%R).
  { intros x step st Hx [S1 S2] d. rewrite ER in S1. destruct (HP x Hx) as (Hr & HA & HT').
    destruct (DM x step st Hx ltac:(lra)) as [Ld Dm]. fold d in Ld, Dm.
    assert (T0 : (0 < step)%R) by lra.
    pose proof (step_slope n m (J x) (r x) HA HT' Hr step d T0 Ld Dm) as Q1.
    pose proof (step_predict n m (J x) (r x) HA HT' Hr step d T0 Ld Dm) as Q2. rewrite Q2.
    pose proof (proj2 HS x d Hx Ld) as Q3. unfold g, ls_gradient in Q3. rewrite Q1 in Q3. unfold f in Q3.
    pose proof (Rdot_pos d) as D0. pose proof (Rdot_pos (op_mv (J x) d)) as D1.
    assert (Q : (L / 2 <= 99 / 100 * / step)%R).
    { apply (Rmult_le_reg_r step); [exact T0|].
      replace (99 / 100 * / step * step)%R with (L / 2 * (99 / (50 * L)))%R by (field; lra).
      apply Rmult_le_compat_l; [lra|unfold w in S2; lra]. }
    pose proof (Rmult_le_compat_r _ _ _ D0 Q) as Q'. lra. }
  assert (LY : forall k, length (y (S k)) = n) by (intro k; exact (proj1 (run_inv P descent jac_of fn n y0 fs auxs Hn HD (S k)))).
  assert (V0 : 0 < sigma / B) by (apply Rdiv_lt_0_compat; assumption).
  set (v := sqrt (sigma / B)). assert (v0 : 0 < v) by (apply sqrt_lt_R0; exact V0). assert (vv : v * v = sigma / B) by (apply sqrt_sqrt; lra).
  set (sl := v / 200). assert (Hsl : 0 < sl) by (unfold sl; lra).
  assert (ONE : forall (x d : list R) (step : R), length x = n -> length d = n -> 0 < step ->
    (forall u, length u = n -> damped_loss (J x) (r x) (/ step) d <= damped_loss (J x) (r x) (/ step) u) ->
    f (Radd_v x d) - f x <= 1 / 100 * classical_predict (N:=RN) d (ResidualJac (N:=RN) (r x) (J x)) ->
    Radd_v x d = x \/ exists t, 0 < t /\ dist2 (Radd_v x d) x <= t * t * Rdot (g x) (g x) /\ f (Radd_v x d) <= f x - sl * t * Rdot (g x) (g x)).
  { intros x d step Lx Ld T0 Dm Q. destruct (HP x Lx) as (Hr & HA & HT').
    pose proof (onto_slope n m (J x) (r x) step sigma d HA HT' Hr T0 Ld Dm (fun u Lu => HO x u Lx Lu) S0) as K.
    pose proof (mvT_bound n m (J x) (r x) B HA HT' Hr (Rlt_le _ _ B0) (fun u Lu => HB x u Lx Lu)) as G. change (Rdot (g x) (g x) <= B * Rdot (r x) (r x)) in G.
    pose proof (step_predict n m (J x) (r x) HA HT' Hr step d T0 Ld Dm) as Q2. rewrite Q2 in Q. clear Q2.
    pose proof (step_slope n m (J x) (r x) HA HT' Hr step d T0 Ld Dm) as Q1. change (op_mvT (J x) (r x)) with (g x) in Q1.
    assert (I0 : 0 < / step) by (apply Rinv_0_lt_compat; exact T0).
    pose proof (Rdot_pos d) as D0. pose proof (Rdot_pos (op_mv (J x) d)) as J0.
    destruct (Rle_lt_or_eq_dec 0 _ D0) as [D1|D1].
    2:{ left. symmetry in D1. apply Rdot_0_inv in D1. rewrite D1, Ld, <- Lx. apply add_zero_back. }
    right. set (D := Rdot (op_mv (J x) d) (op_mv (J x) d) + / step * Rdot d d) in *.
    assert (LD : 0 < / step * Rdot d d) by (apply Rmult_lt_0_compat; assumption).
    assert (DP : 0 < D) by (unfold D; lra).
    assert (LG : length (g x) = n) by (apply HS; exact Lx).
    set (G1 := Rnorm (g x)). set (N1 := Rnorm d).
    assert (GG : G1 * G1 = Rdot (g x) (g x)) by apply Rnorm_sq. assert (NN : N1 * N1 = Rdot d d) by apply Rnorm_sq.
    assert (G0 : 0 <= G1) by apply Rnorm_pos. assert (N0 : 0 <= N1) by apply Rnorm_pos.
    assert (GP : 0 < G1).
    { destruct (Rle_lt_or_eq_dec 0 G1 G0) as [Z|Z]; [exact Z|exfalso]. pose proof (Rnorm_dot (g x) d ltac:(congruence)) as C. fold G1 in C. rewrite <- Z in C.
      assert (Rdot (g x) d = - D) by (unfold D; lra). rewrite H in C. rewrite Rabs_Ropp, Rabs_pos_eq in C by lra. lra. }
    assert (NP : 0 < N1). { destruct (Rle_lt_or_eq_dec 0 N1 N0) as [Z|Z]; [exact Z|exfalso]. rewrite <- Z in NN. lra. }
    exists (N1 / G1). split; [apply Rdiv_lt_0_compat; assumption|]. rewrite <- GG. split.
    - replace (N1 / G1 * (N1 / G1) * (G1 * G1)) with (N1 * N1) by (field; lra). rewrite NN. right. unfold dist2. rewrite add_sub_back by congruence. reflexivity.
    - replace (sl * (N1 / G1) * (G1 * G1)) with (v * N1 * G1 / 200) by (unfold sl; field; lra).
      assert (KEY : v * N1 * G1 <= D).
      { apply Rsqr_incr_0_var; [|lra]. unfold Rsqr. replace (v * N1 * G1 * (v * N1 * G1)) with (v * v * (N1 * N1) * (G1 * G1)) by ring. rewrite vv, NN, GG.
        eapply Rle_trans; [|exact K]. replace (sigma * Rdot d d * Rdot (r x) (r x)) with (sigma / B * Rdot d d * (B * Rdot (r x) (r x))) by (field; lra).
        apply Rmult_le_compat_l; [apply Rmult_le_pos; lra|exact G]. }
      unfold D in KEY. lra. }
  assert (STEP : forall k, y (S (S k)) = y (S k) \/ exists t, step_down sl f g (fun k => y (S k)) k t).
  { intro k. pose proof (run_radius P descent jac_of fn n y0 fs auxs Hn HD w HMA k) as RR. rewrite ER in RR.
    destruct (run_step P descent jac_of fn n y0 fs auxs Hn HD k) as (st' & Ld & EY & [(C & Y & _)|(_ & Y & _)]); [|left; exact Y].
    match type of RR with (_ <= ?z)%R => set (rad := z : R) in * end.
    set (d := fst (d_step descent rad (d_query descent (y (S k)) (ResidualJac (N:=RN) (r (y (S k))) (J (y (S k)))) st')) : list R).
    change (y (S (S k)) = Radd_v (y (S k)) d) in Y.
    change (f (Radd_v (y (S k)) d) - f (y (S k)) <= 1 / 100 * classical_predict (N:=RN) d (ResidualJac (N:=RN) (r (y (S k))) (J (y (S k))))) in C.
    destruct (DM (y (S k)) rad st' (LY k) ltac:(lra)) as [Ld' Dm]. fold d in Ld', Dm.
    unfold step_down. cbv beta. rewrite Y. exact (ONE (y (S k)) d rad (LY k) Ld' ltac:(lra) Dm C). }
  assert (EF : 2 / (sl * sl * sigma) = far).
  { unfold far, sl. replace (v / 200 * (v / 200) * sigma) with (v * v * sigma / 40000) by field. rewrite vv. field. lra. }
  clear HMA DM HD ONE. clearbody y.
  assert (C0 : 0 < far) by (unfold far; apply Rdiv_lt_0_compat; nra).
  assert (F0 : 0 <= f y0 - 0) by (pose proof (proj1 (HD0 _ Hn)); lra).
  split.
  { intros k j H. rewrite <- EF, <- (B_sq sigma sl S0 Hsl). replace (f (y (S k))) with (f (y (S k)) - 0) by ring.
    exact (path_sq n L sigma 0 sl f g (fun k => y (S k)) HS HD0 S0 Hsl LY STEP k j H). }
  destruct (path_limit n L sigma 0 sl f g (fun k => y (S k)) HS HD0 HL S0 Hsl LY STEP) as (z & Lz & Fz & Dz).
  { intros e Hpe. destruct (pow_small _ _ e TH F0 Hpe) as (k & Hk). exists (2 * k + 1 + q)%nat. specialize (RATE k).
    replace (S (2 * k + 1 + q)) with (2 * k + 2 + q)%nat by lia. lra. }
  rewrite EF in Dz.
  assert (Dz' : forall k, dist2 (y (S k)) z <= far * f (y (S k))) by (intro k; specialize (Dz k); rewrite Rminus_0_r in Dz; exact Dz).
  assert (DR : forall j, dist2 (y (2 * j + 2 + q)%nat) z <= far * f y0 * theta ^ j).
  { intro j. replace (2 * j + 2 + q)%nat with (S (2 * j + 1 + q)) by lia. eapply Rle_trans; [apply Dz'|].
    replace (far * f y0 * theta ^ j) with (far * (theta ^ j * f y0)) by ring. apply Rmult_le_compat_l; [lra|].
    specialize (RATE j). rewrite !Rminus_0_r in RATE. replace (S (2 * j + 1 + q)) with (2 * j + 2 + q)%nat by lia. exact RATE. }
  exists z. split; [exact Lz|]. split.
  { unfold f, half_squares in Fz. assert (Z : Rdot (r z) (r z) = 0) by lra. apply Rdot_0_inv in Z. rewrite (proj1 (HP z Lz)) in Z. exact Z. }
  split; [|split; [exact Dz'|split; [exact TH|exact DR]]].
  assert (MON : forall k, f (y (S (S k))) <= f (y (S k))).
  { intro k. destruct (STEP k) as [C2|(u & U0 & _ & C2)]; [rewrite C2; lra|].
    pose proof (Rdot_pos (g (y (S k)))) as G0.
    assert (0 <= sl * u * Rdot (g (y (S k))) (g (y (S k)))) by (apply Rmult_le_pos; [apply Rmult_le_pos|]; lra). lra. }
  apply tends_shift. intros e Hpe.
  destruct (pow_small (far * f y0) theta e TH ltac:(apply Rmult_le_pos; lra) Hpe) as (K & HK).
  exists (2 * K + 1 + q)%nat. intros k Hk.
  assert (MK : f (y (S k)) <= f (y (2 * K + 2 + q)%nat)).
  { replace (2 * K + 2 + q)%nat with (S (2 * K + 1 + q)) by lia. clear - MON Hk. induction Hk as [|k Hk IH]; [lra|]. eapply Rle_trans; [apply MON|exact IH]. }
  eapply Rle_lt_trans; [apply Dz'|]. eapply Rle_lt_trans; [|exact HK].
  replace (theta ^ K * (far * f y0)) with (far * (theta ^ K * f y0)) by ring. apply Rmult_le_compat_l; [lra|].
  specialize (RATE K). rewrite !Rminus_0_r in RATE. lra.
Qed.

(** It also stops. Every linear solve reporting success, LevenbergMarquardt with max_norm reports success within 4 K + 3 q + 6 steps, where
    max(far, 8) theta^K 1/2 |r(y0)|^2 < atol^2; its answer is within squared distance far 1/2 |r(y0)|^2 of y0, and within far 1/2 |r(answer)|^2 of a zero
    of the residuals. C71 needs full column rank instead. *)
Lemma C127_terminates_pf :
  forall (Aux : Type) (rtol atol eps fmax : R) lsolve jac_of (fn : list R -> list R * Aux)
         (n m : nat) (L B sigma : R) (y0 : list R) fs auxs (q K : nat),
    let r x := fst (fn x) in let J := jac_of fn in
    0 <= eps -> 0 < fmax -> exact_least_squares n lsolve -> (forall A b, snd (lsolve A b) = successful) ->
    residual_problem n m r J -> smooth n L (half_squares r) (ls_gradient r J) -> 0 < L ->
    0 < B -> jac_bounded n B J -> 0 < sigma -> jac_onto n m sigma J ->
    let rho := Rmin 1 (99 / (200 * L)) in
    eps < rho -> length y0 = n -> 0 <= rtol -> 0 < atol -> 1 <= 4 ^ q * rho ->
    let far := 80000 * B / (sigma * sigma) in
    let theta := 1 - Rmin sigma L / (100 * (B + / rho)) in
    Rmax far 8 * (theta ^ K * half_squares r y0) < atol * atol ->
    let s := LevenbergMarquardt (N:=RN) (mkTols rtol atol max_norm) jac_of lsolve eps fmax in
    exists k, (k <= 4 * K + 3 * q + 6)%nat /\
      forall fuel budget throw, (k < fuel)%nat -> (forall j, budget = Some j -> (k <= j)%nat) ->
        exists sol, iterative_solve (vallfinite (N:=RN)) s fn fuel budget throw y0 fs auxs = Ret sol /\ result sol = successful /\
          dist2 (value sol) y0 <= far * half_squares r y0 /\
          exists z, length z = n /\ r z = repeat 0 m /\ dist2 (value sol) z <= far * half_squares r (value sol).
Proof.
  intros Aux rtol atol eps fmax lsolve jac_of fn n m L B sigma y0 fs auxs q K r J He Hf HE HR HP HS HL B0 HB S0 HO rho Hrho Hn Hrt Hat Hq far theta HK s.
  set (P := mkTols (N:=RN) rtol atol max_norm) in *.
  set (st0 := gn_st0 (classical_trust_region (N:=RN) tr_default) (damped_newton_descent (N:=RN) lsolve eps fmax) y0 fs auxs).
  assert (Hi : s_init s fn y0 fs auxs = Ret st0) by reflexivity.
  set (f := half_squares r) in *. set (y := y_at s fn y0 st0 (auxs fill0) : nat -> list R).
  destruct (C127_levenberg_marquardt_pf Aux P eps fmax lsolve jac_of fn n m L B sigma y0 fs auxs st0 q He Hf HE HP HS HL B0 HB S0 HO Hrho Hn Hq Hi)
    as (PATH' & z & Lz & Rz & _ & Dz' & TH & _). fold s in PATH', Dz'.
  assert (PATH : forall k j, (k <= j)%nat -> dist2 (y (S j)) (y (S k)) <= far * f (y (S k))) by exact PATH'.
  assert (Dz : forall k, dist2 (y (S k)) z <= far * f (y (S k))) by exact Dz'. clear PATH' Dz'. change (0 <= theta < 1) in TH.
  set (mu := Rmin sigma L). assert (MU : 0 < mu <= L) by (unfold mu; split; [apply Rmin_glb_lt; lra|apply Rmin_r]).
  assert (HDm : dominated n mu 0 f (ls_gradient r J)).
  { intros x Lx. destruct (HP x Lx) as (Hr & _). pose proof (HO x (r x) Lx Hr) as Q. pose proof (Rdot_pos (r x)) as Q0. split.
    - unfold f, half_squares. lra.
    - assert (M : mu <= sigma) by apply Rmin_l. pose proof (Rmult_le_compat_r _ _ _ Q0 M). unfold f, half_squares, ls_gradient. lra. }
  destruct (C83_levenberg_marquardt_pf Aux P eps fmax lsolve jac_of fn n m L B mu 0 y0 fs auxs st0 q He Hf HE HP HS (Rlt_le _ _ B0) HB MU HDm Hrho Hn Hq Hi) as (_ & RATE').
  assert (RATE : f (y (2 * K + 2 + q)%nat) - 0 <= theta ^ K * (f y0 - 0)) by exact (RATE' K). clear RATE'.
  assert (MON : forall i j, (i <= j)%nat -> f (y j) <= f (y i)).
  { intros i j Hij. unfold f, half_squares. apply Rmult_le_compat_l; [lra|].
    exact (C32_levenberg_marquardt_pf Aux P eps fmax lsolve jac_of fn n m y0 fs auxs st0 He Hf HE
      (fun z Hz => conj (proj1 (HP z Hz)) (proj1 (proj2 (HP z Hz)))) Hn Hi i j Hij). }
  set (st := st_at s fn y0 st0 (auxs fill0)). set (acc := fun k => gn_num_accepted_steps (st k)).
  destruct (C71_radius_pf Aux P eps fmax lsolve jac_of fn n m L y0 fs auxs st0 He Hf HE HP HL HS Hrho Hn Hi) as (_ & RAD & CNT').
  assert (CNT : forall k, (k <= 2 * acc k + q)%nat) by (intro k; exact (CNT' q k Hq)). clear CNT'.
  assert (ACC : forall k, (acc (S k) <= S k)%nat).
  { intro k. destruct (lm_count P eps fmax lsolve jac_of fn n m y0 fs auxs He Hf HE HP Hn L HL HS Hrho k) as (b & E & _).
    change (S k = acc (S k) + b)%nat in E. lia. }
  assert (ST : forall k, (acc (S (S k)) = S (acc (S k)) /\ gn_terminate (st (S (S k))) = cauchy_termination (N:=RN) rtol atol max_norm
       (y (S (S k))) (Rsub_v (y (S (S k))) (y (S k))) (r (y (S (S k)))) (Rsub_v (r (y (S (S k)))) (r (y (S k))))) \/ acc (S (S k)) = acc (S k)).
  { intro k. destruct (lm_step P eps fmax lsolve jac_of fn n m y0 fs auxs He Hf HE HP Hn k) as (d & _ & _ & _ & X).
    { eapply Rlt_le_trans; [exact Hrho|exact (RAD k)]. }
    destruct X as [(_ & _ & A & _ & T)|(_ & _ & A & _)]; [left; split; [exact A|exact T]|right; exact A]. }
  assert (LY : forall k, length (y k) = n).
  { intro k. destruct (lm_inv P eps fmax lsolve jac_of fn n m y0 fs auxs He Hf HE HP Hn k) as (I1 & _). exact I1. }
  assert (Y1 : y 1%nat = y0).
  { exact (proj1 (first_accepted P eps fmax lsolve jac_of fn y0 fs auxs)). }
  assert (F0 : forall k, 0 <= f (y k)) by (intro k; unfold f, half_squares; pose proof (Rdot_pos (r (y k))); lra).
  set (i := (2 * K + 1 + q)%nat).
  assert (FOUND : forall j, (exists k, (i <= k <= i + j)%nat /\ acc (S (S k)) = S (acc (S k))) \/ acc (S (i + S j)) = acc (S i)).
  { intro j. induction j as [|j [(k & Hk & A)|IH]].
    - replace (i + 1)%nat with (S i) by lia. destruct (ST i) as [(A & _)|A]; [left; exists i; split; [lia|exact A]|right; exact A].
    - left. exists k. split; [lia|exact A].
    - replace (i + S (S j))%nat with (S (i + S j)) by lia.
      destruct (ST (i + S j)%nat) as [(A & _)|A]; [left; exists (i + S j)%nat; split; [lia|exact A]|right; rewrite A; exact IH]. }
  assert (TERM : exists k0, (k0 <= 4 * K + 3 * q + 6)%nat /\ gn_terminate (st k0) = true).
  { destruct (FOUND (i + q + 1)%nat) as [(k & Hk & A)|A].
    2:{ exfalso. pose proof (CNT (S (i + S (i + q + 1)))) as C. rewrite A in C. pose proof (ACC i). lia. }
    exists (S (S k)). split; [unfold i in Hk; lia|]. destruct (ST k) as [(_ & T)|A']; [|lia]. rewrite T. clear T.
    assert (FK : f (y (S k)) <= theta ^ K * f y0).
    { eapply Rle_trans; [apply (MON (2 * K + 2 + q)%nat); unfold i in Hk; lia|]. rewrite !Rminus_0_r in RATE. exact RATE. }
    assert (M8 : 8 * f (y (S k)) < atol * atol).
    { eapply Rle_lt_trans; [|exact HK]. eapply Rle_trans; [apply Rmult_le_compat_l; [lra|exact FK]|].
      apply Rmult_le_compat_r; [specialize (F0 (S k)); lra|apply Rmax_r]. }
    assert (MF : far * f (y (S k)) < atol * atol).
    { eapply Rle_lt_trans; [|exact HK]. eapply Rle_trans; [apply Rmult_le_compat_r; [apply F0|apply (Rmax_l far 8)]|].
      apply Rmult_le_compat_l; [|exact FK]. pose proof (Rmax_r far 8). lra. }
    assert (SQ : forall (v : list R) t b, nth_error v t = Some b -> (atol <= Rabs b)%R -> (atol * atol <= Rdot v v)%R).
    { intros v t b Hb Hab. pose proof (Rdot_nth_le _ _ _ Hb) as Q.
      assert (Q2 : (atol * atol <= Rabs b * Rabs b)%R) by (apply Rmult_le_compat; lra).
      rewrite <- Rabs_mult, Rabs_pos_eq in Q2 by apply Rle_0_sqr. lra. }
    match goal with |- ?c = true => destruct c eqn:T; [reflexivity|exfalso] end.
    apply cauchy_false_vec in T; [|exact Hrt|exact Hat]. destruct T as [(t & b & Hb & Hab)|(t & b & Hb & Hab)].
    - pose proof (SQ _ _ _ Hb Hab) as Q. pose proof (PATH k (S k) ltac:(lia)) as Q2. unfold dist2 in Q2. lra.
    - pose proof (SQ _ _ _ Hb Hab) as Q. pose proof (MON (S k) (S (S k)) ltac:(lia)) as Q2.
      pose proof (proj1 (HP _ (LY (S k)))) as L1. pose proof (proj1 (HP _ (LY (S (S k))))) as L2.
      unfold f, half_squares in Q2, M8. set (u := r (y (S k))) in *. set (u' := r (y (S (S k)))) in *.
      pose proof (Rdot_pos (Radd_v u' u)) as Q3.
      rewrite Rdot_sub_l, !Rdot_sub_r in Q by congruence. rewrite Rdot_add_l, !Rdot_add_r in Q3 by congruence. lra. }
  assert (SR : forall k, says_result s fn y0 st0 (auxs fill0) k = successful).
  { intros [|k]; [reflexivity|].
    destruct (C64_levenberg_marquardt_pf RN Aux P lsolve eps fmax jac_of fn y0 fs auxs st0 Hi k) as (A & lam & _ & _ & _ & E).
    exact (eq_trans E (HR _ _)). }
  assert (AF : forall v : list R, vallfinite (N:=RN) v = true).
  { intro v. unfold vallfinite. induction v; auto. }
  destruct TERM as (k0 & K0 & T).
  destruct (solve_succeeds (vallfinite (N:=RN)) s fn y0 st0 _ fs auxs eq_refl Hi SR (fun k => AF _) (ex_intro _ k0 T))
    as (k1 & K1 & K2 & K3).
  assert (k1 <= k0)%nat.
  { destruct (le_lt_dec k1 k0) as [?|Q]; [assumption|]. specialize (K2 _ Q).
    change (gn_terminate (st k0) = false) in K2. pose proof (eq_trans (eq_sym T) K2). discriminate. }
  exists k1. split; [lia|]. intros fuel budget throw Hfu Hb. destruct (K3 fuel budget throw Hfu Hb) as (K4 & K5).
  eexists. split; [exact K4|]. split; [exact K5|].
  destruct k1 as [|k1]; [exfalso; change (gn_terminate st0 = true) in K1; discriminate K1|].
  split.
  - pose proof (PATH 0%nat k1 ltac:(lia)) as Q. rewrite Y1 in Q. exact Q.
  - exists z. split; [exact Lz|]. split; [exact Rz|]. exact (Dz k1).
Qed.

Lemma on_line_hyps : residual_problem 2 1 (fun x => fst (on_line x)) (on_line_jac on_line) /\
  smooth 2 2 (half_squares (fun x => fst (on_line x))) (ls_gradient (fun x => fst (on_line x)) (on_line_jac on_line)) /\
  jac_bounded 2 2 (on_line_jac on_line) /\ jac_onto 2 1 2 (on_line_jac on_line).
Proof.
  split; [|split; [|split]].
  - intros [|a [|b [|? ?]]] Lx; try discriminate. split; [reflexivity|]. split; [split; [|split]|split].
    + reflexivity.
    + intros [|c [|d [|? ?]]] [|c' [|d' [|? ?]]] H1 H2; try discriminate. apply (f_equal (fun z => [z])). cbn. ring.
    + intros t [|c [|d [|? ?]]] H1; try discriminate. apply (f_equal (fun z => [z])). cbn. ring.
    + reflexivity.
    + intros x [|c [|d [|? ?]]] H1; try discriminate. destruct x as [|u [|? ?]]; cbn; ring.
  - split.
    + intros x Lx. reflexivity.
    + intros [|a [|b [|? ?]]] [|c [|d [|? ?]]] H1 H2; try discriminate. unfold half_squares. cbn. pose proof (pow2_ge_0 (c - d)) as H. cbn [pow] in H. lra.
  - intros x [|c [|d [|? ?]]] H1 H2; try discriminate. unfold half_squares. cbn. pose proof (pow2_ge_0 (c - d)) as H. cbn [pow] in H. lra.
  - intros x [|u [|? ?]] H1 H2; try discriminate. cbn. lra.
Qed.

Example C127_levenberg_marquardt_ex_pf :
  let s := LevenbergMarquardt (N:=RN) (mkTols (N:=RN) (1/1000) (1/1000) max_norm) on_line_jac (least_squares 2) (1/100) 1000 in
  exists st0, s_init s on_line [5; -7] (fun _ => [0]) (fun _ => tt) = Ret st0 /\
  exists a b, a + b = 1 /\ tends_to (y_at s on_line [5; -7] st0 tt) [a; b].
Proof.
  intro s. eexists. split; [reflexivity|]. destruct on_line_hyps as (H1 & H2 & H3 & H4).
  assert (M1 : Rmin 1 (99 / (200 * 2)) = 99 / 400) by (rewrite Rmin_right; lra).
  destruct (C127_levenberg_marquardt_pf unit (mkTols (N:=RN) (1/1000) (1/1000) max_norm) (1/100) 1000 (least_squares 2) on_line_jac on_line 2 1 2 2 2 [5; -7]
    (fun _ => [0]) (fun _ => tt) _ 2%nat ltac:(lra) ltac:(lra) (proj1 (least_squares_exact 2)) H1 H2 ltac:(lra) ltac:(lra) H3 ltac:(lra) H4 ltac:(rewrite M1; lra) eq_refl
    ltac:(rewrite M1; lra) eq_refl) as (_ & z & Lz & Rz & TZ & _).
  destruct z as [|a [|b [|? ?]]]; try discriminate Lz. exists a, b. split; [|exact TZ]. cbn in Rz. injection Rz as Rz. lra.
Qed.

Example C127_terminates_ex_pf :
  let s := LevenbergMarquardt (N:=RN) (mkTols (N:=RN) (1/1000) (1/1000) max_norm) on_line_jac (least_squares 2) (1/100) 1000 in
  exists k, forall fuel throw, (k < fuel)%nat ->
    exists sol, iterative_solve (vallfinite (N:=RN)) s on_line fuel None throw [5; -7] (fun _ => [0]) (fun _ => tt) = Ret sol /\ result sol = successful /\
      dist2 (value sol) [5; -7] <= 80000 * 2 / (2 * 2) * (9 / 2).
Proof.
  intro s. destruct on_line_hyps as (H1 & H2 & H3 & H4).
  assert (M1 : Rmin 1 (99 / (200 * 2)) = 99 / 400) by (rewrite Rmin_right; lra).
  assert (F : half_squares (fun x => fst (on_line x)) [5; -7] = 9 / 2) by (unfold half_squares; cbn; lra).
  assert (M2 : Rmin 2 2 = 2) by (apply Rmin_left; lra).
  destruct (pow_small (Rmax (80000 * 2 / (2 * 2)) 8 * (9 / 2)) (1 - Rmin 2 2 / (100 * (2 + / Rmin 1 (99 / (200 * 2))))) (1 / 1000 * (1 / 1000))) as (K & HK).
  { rewrite M1, M2. lra. }
  { rewrite Rmax_left by lra. lra. }
  { lra. }
  destruct (C127_terminates_pf unit (1/1000) (1/1000) (1/100) 1000 (least_squares 2) on_line_jac on_line 2 1 2 2 2 [5; -7]
    (fun _ => [0]) (fun _ => tt) 2%nat K ltac:(lra) ltac:(lra) (proj1 (least_squares_exact 2)) (proj2 (least_squares_exact 2)) H1 H2 ltac:(lra) ltac:(lra) H3 ltac:(lra) H4
    ltac:(rewrite M1; lra) eq_refl ltac:(lra) ltac:(lra) ltac:(rewrite M1; lra)) as (k & _ & T).
  { rewrite F. eapply Rle_lt_trans; [|exact HK]. right. ring. }
  exists k. intros fuel throw Hk. destruct (T fuel None throw Hk ltac:(discriminate)) as (sol & A & R' & D & _).
  exists sol. split; [exact A|]. split; [exact R'|]. rewrite <- F. exact D.
Qed.
