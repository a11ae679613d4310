(** The dogleg step in a trust region of any norm (C76). *)

From Coq Require Import String List Bool Arith Lia ZArith QArith Qreals Reals Lra Psatz FunctionalExtensionality.
From Verif Require Import Num NumFacts Vec Results Iterate Spec_Iterate Iterate_proofs Bisection Spec_Bisection Bisection_proofs.
From Verif Require Import Spec_Vec VecFacts Spec_Lin LinFacts Search Spec_Search Descent LeastSquares_proofs Dogleg_proofs Steps_proofs.
From Verif Require Import DoglegRoot Spec_DoglegRoot.
Import ListNotations.
Local Open Scope nat_scope.

Lemma seg_diff : forall (c n : list R), length c = length n -> forall s t : R,
  Radd_v c (Rscal (s - 1) (Rsub_v n c)) = Radd_v (Radd_v c (Rscal (t - 1) (Rsub_v n c))) (Rscal (s - t) (Rsub_v n c)).
Proof.
  induction c as [|a c IH]; intros [|b n] L s t; cbn in *; try discriminate; [reflexivity|].
  f_equal; [ring|]. apply IH. lia.
Qed.
Lemma seg_ends : forall (c n : list R), length c = length n ->
  Radd_v c (Rscal (1 - 1) (Rsub_v n c)) = c /\ Radd_v c (Rscal (2 - 1) (Rsub_v n c)) = n.
Proof.
  induction c as [|a c IH]; intros [|b n] L; cbn in *; try discriminate; [split; reflexivity|].
  destruct (IH n) as [E1 E2]; [lia|]. split; f_equal; try lra; assumption.
Qed.

Section Path.
  Variable nm : list R -> R.
  Hypothesis HN : is_norm nm.
  Variables c n : list R.
  Hypothesis L : length c = length n.
  Let p (t : R) : list R := Radd_v c (Rscal (t - 1) (Rsub_v n c)).
  Let W := nm (Rsub_v n c).

  Lemma nm_pos : forall x, (0 <= nm x)%R.
  Proof.
    intro x. destruct HN as [H1 H2]. pose proof (H1 x (Rscal (-1) x)) as K. rewrite Rscal_length in K. specialize (K eq_refl).
    assert (E : Radd_v x (Rscal (-1) x) = Rscal 0 x).
    { unfold Rscal. clear. induction x as [|a x IH]; cbn; [reflexivity|]. f_equal; [lra|exact IH]. }
    rewrite E, !H2, Rabs_R0 in K. unfold Rabs in K. destruct (Rcase_abs (-1)); lra.
  Qed.

  Lemma path_diff : forall s t, p s = Radd_v (p t) (Rscal (s - t) (Rsub_v n c)).
  Proof.
    intros s t. apply seg_diff. exact L.
  Qed.

  Lemma path_length : forall t, length (p t) = length n.
  Proof. intro t. unfold p. apply Radd_v_length; [exact L|]. rewrite Rscal_length. apply Rsub_v_length; auto. Qed.

  Lemma path_lip : forall s t, (Rabs (nm (p s) - nm (p t)) <= Rabs (s - t) * W)%R.
  Proof.
    intros s t. pose proof HN as [H1 H2].
    assert (K : forall s t, (nm (p s) - nm (p t) <= Rabs (s - t) * W)%R).
    { intros a b. rewrite (path_diff a b). assert (Q1 : length (p b) = length (Rscal (a - b) (Rsub_v n c))).
      { rewrite path_length, Rscal_length. symmetry. apply Rsub_v_length; auto. }
      pose proof (H1 _ _ Q1) as K. rewrite H2 in K. fold W in K. lra. }
    apply Rabs_le. split; [|apply K]. pose proof (K t s) as K'. rewrite Rabs_minus_sym in K'. lra.
  Qed.

  Lemma path_ends : p 1 = c /\ p 2 = n.
  Proof.
    apply seg_ends. exact L.
  Qed.

  Lemma path_continuous : forall D, continuity (fun t => nm (p t) - D)%R.
  Proof.
    intros D t e He. assert (HW : (0 <= W)%R) by apply nm_pos.
    exists (e / (W + 1))%R. split; [apply Rdiv_lt_0_compat; lra|].
    intros x [_ Hx]. cbn in Hx |- *. unfold R_dist in *.
    replace (nm (p x) - D - (nm (p t) - D))%R with (nm (p x) - nm (p t))%R by ring.
    eapply Rle_lt_trans; [apply path_lip|]. apply Rle_lt_trans with (Rabs (x - t) * (W + 1))%R.
    - apply Rmult_le_compat_l; [apply Rabs_pos|lra].
    - apply Rmult_lt_reg_r with (/ (W + 1))%R; [apply Rinv_0_lt_compat; lra|]. rewrite Rmult_assoc, Rinv_r by lra. rewrite Rmult_1_r. exact Hx.
  Qed.
End Path.

Lemma rtrace_in : forall f flip y l u k,
  (1 <= y <= 2)%R -> (1 <= l <= 2)%R -> (1 <= u <= 2)%R ->
  let '(y', l', u') := rtrace f flip (y, l, u) k in (1 <= y' <= 2)%R /\ (1 <= l' <= 2)%R /\ (1 <= u' <= 2)%R.
Proof.
  intros f flip y l u k Hy Hl Hu. induction k as [|k IH]; cbn [rtrace]; [auto|].
  destruct (rtrace f flip (y, l, u) k) as [[y' l'] u']. destruct IH as (H1 & H2 & H3). unfold rstep. destruct (xorb _ _); lra.
Qed.

Lemma dogleg_root_success : forall h rtol atol, continuity h -> (h 1 < 0 <= h 2)%R -> (0 < atol)%R -> (0 <= rtol)%R ->
  exists k, forall fuel ms, k < fuel -> (forall m, ms = Some m -> k <= m) ->
    exists sol v r, dogleg_root rtol atol fuel ms h = Ret sol /\ result sol = successful /\ value sol = Fin v /\
      (1 <= v <= 2)%R /\ h r = 0%R /\ (Rabs (v - r) < / 2 * (atol + 2 * rtol))%R.
Proof.
  intros h rtol atol HC HB Ha Hr.
  destruct (C15_converges_pf h rtol atol 1 2 (3 / 2) 0 (fun _ => NaN) HC Ha Hr (or_introl HB)) as [k Hk].
  exists k. intros fuel ms Hf Hm. destruct (Hk fuel ms false Hf Hm) as (sol & E & ER).
  assert (E' : dogleg_root rtol atol fuel ms h = Ret sol) by exact E.
  destruct (C14_success_near_root_pf h rtol atol 1 2 (3 / 2) fuel (fun _ => NaN) fuel ms false sol HC E' ER) as (v & y & r & Ev & Hy & Hr0 & H1 & H2).
  exists sol, v, r. split; [exact E'|]. split; [exact ER|]. split; [exact Ev|].
  set (s := bisection (N:=XR) (Aux:=unit) (Fin rtol) (Fin atol) Detect false fuel (Fin 1%R) (Fin 2%R)).
  assert (E2 : iterative_solve xisfin s (lift h) fuel ms false (Fin (3 / 2)%R) (fun _ => NaN) (fun _ => tt) = Ret (sol : Solution xr unit (St s))) by exact E'.
  destruct (solve_ret_init _ _ _ _ _ _ _ _ _ _ E2) as [st0 Hi].
  destruct (init_lift_detect _ _ _ _ _ _ _ _ _ _ Hi) as (flip & -> & _).
  assert (In : forall j, exists z, y_at s (lift h) (Fin (3 / 2)%R)
                 (mkBis (N:=XR) (Fin 1%R) (Fin 2%R) flip PInf) tt j = Fin z /\ (1 <= z <= 2)%R).
  { intro j. destruct (trace_lift h (Fin rtol) (Fin atol) Detect false fuel (Fin 1%R) (Fin 2%R) (3 / 2) 1 2 flip PInf j) as (T & _).
    eexists; split; [exact T|]. pose proof (rtrace_in h flip (3 / 2) 1 2 j) as K. destruct (rtrace h flip _ j) as [[a b] d]. apply K; lra. }
  assert (Yb : (1 <= y <= 2)%R).
  { destruct (Hy _ Hi) as [j Hj]. destruct (In j) as (z & E1 & E3). pose proof (eq_trans (eq_sym Hj) E1) as E4. injection E4 as ->. exact E3. }
  assert (Vb : (1 <= v <= 2)%R).
  { destruct (C03_success_sound_pf _ _ _ xisfin _ _ _ _ _ _ ms fuel false sol Hi E2 ER) as (j & _ & _ & _ & _ & _ & EV).
    cbn [s_post bisection] in EV. injection EV as EV _. destruct (In j) as (z & E1 & E3).
    pose proof (eq_trans (eq_sym Ev) (eq_trans EV E1)) as E4. injection E4 as ->. exact E3. }
  split; [exact Vb|]. split; [exact Hr0|]. rewrite (Rabs_pos_eq y) in H1 by lra. nra.
Qed.

Lemma dogleg_fields : forall lsolve (eps : R) (i : finfo RN) y st0 nm rf, is_norm nm ->
  let st := d_query (dogleg_descent (N:=RN) lsolve eps nm rf) y i st0 in
  dl_newton_norm st = nm (dl_newton st) /\ dl_cauchy_norm st = nm (dl_cauchy st).
Proof.
  intros lsolve eps i y st0 nm rf [H1 H2] st. unfold st. cbn [dogleg_descent d_query]. unfold dogleg_query. cbv zeta.
  destruct (newton_step lsolve i) as [sol res]. cbn [dl_newton dl_cauchy dl_newton_norm dl_cauchy_norm].
  split; [|reflexivity]. rewrite vneg_RN, H2. unfold Rabs. destruct (Rcase_abs (-1)); lra.
Qed.

Lemma interp_RN : forall (c n : list R) (t : R), dogleg_interpolate (N:=RN) c n t = Radd_v c (Rscal (t - 1) (Rsub_v n c)).
Proof. intros c n t. unfold dogleg_interpolate. rewrite vadd_RN, vscale_RN, vsub_RN. cbn [nsub RN nofQ]. rewrite Q2R_1. reflexivity. Qed.

(** Exact arithmetic, a trust region in any norm and the default root finder, radius
    D = step_size times the norm of the Newton step. (1) If the Cauchy step is longer than D
    (and than eps), the step is its positive multiple of norm exactly D. (2) If not
    and step_size >= 1, the step is the Newton step. (3) If the Cauchy step is shorter
    than D and step_size < 1 then, given enough iterations, the root find succeeds, and
    the step lies on the segment from the Cauchy to the Newton step, its norm being D
    up to half the tolerance atol + 2 rtol times the length of the segment. *)
Lemma C76_radius_pf :
  forall (nm : list R -> R) lsolve (eps rtol atol step : R) (i : finfo RN) y st0,
    is_norm nm -> (0 <= eps)%R -> (0 < step)%R -> (0 < atol)%R -> (0 <= rtol)%R ->
    let descent fuel ms := dogleg_descent (N:=RN) lsolve eps nm (Some (dogleg_rfind rtol atol fuel ms)) in
    let st fuel ms := d_query (descent fuel ms) y i st0 in
    let c : list R := dl_cauchy (st 0 None) in
    let n : list R := dl_newton (st 0 None) in
    let D := (nm n * step)%R in
    length c = length n ->
    exists k, forall fuel ms, k < fuel -> (forall m, ms = Some m -> k <= m) ->
      let d : list R := fst (d_step (descent fuel ms) step (st fuel ms)) in
      let res := snd (d_step (descent fuel ms) step (st fuel ms)) in
      ((D < nm c)%R -> (eps < nm c)%R -> res = snd (newton_step lsolve i) /\ d = Rscal (D / nm c) c /\ nm d = D) /\
      ((nm c <= D)%R -> (1 <= step)%R -> res = snd (newton_step lsolve i) /\ d = n) /\
      ((nm c < D)%R -> (step < 1)%R -> res = snd (newton_step lsolve i) /\
         exists t, (0 <= t <= 1)%R /\ d = Radd_v c (Rscal t (Rsub_v n c)) /\
           (Rabs (nm d - D) <= / 2 * (atol + 2 * rtol) * nm (Rsub_v n c))%R).
Proof.
  intros nm lsolve eps rtol atol step i y st0 HN He Hs Ha Hr descent st c n D L.
  set (p := fun t : R => Radd_v c (Rscal (t - 1) (Rsub_v n c))).
  set (h := fun t : R => (nm (p t) - D)%R).
  assert (K : exists k, forall fuel ms, k < fuel -> (forall m, ms = Some m -> k <= m) -> (nm c < D)%R -> (step < 1)%R ->
    exists sol v r, dogleg_root rtol atol fuel ms h = Ret sol /\ result sol = successful /\ value sol = Fin v /\
      (1 <= v <= 2)%R /\ h r = 0%R /\ (Rabs (v - r) < / 2 * (atol + 2 * rtol))%R).
  { destruct (Rlt_le_dec (nm c) D) as [H1|H1]; [|exists 0; intros; lra].
    destruct (Rlt_le_dec step 1) as [H2|H2]; [|exists 0; intros; lra].
    destruct (dogleg_root_success h rtol atol) as [k Hk]; auto.
    - apply path_continuous; auto.
    - destruct (path_ends c n L) as [E1 E2]. unfold h, p. rewrite E1, E2. pose proof (nm_pos nm HN n). unfold D in *. nra.
    - exists k. intros fuel ms Hf Hm _ _. apply Hk; auto. }
  destruct K as [k Hk]. exists k. intros fuel ms Hf Hm d res.
  destruct (dogleg_fields lsolve eps i y st0 nm (Some (dogleg_rfind rtol atol fuel ms)) HN) as [En Ec].
  fold (descent fuel ms) in En, Ec. fold (st fuel ms) in En, Ec.
  change (dl_newton (st fuel ms)) with n in En. change (dl_cauchy (st fuel ms)) with c in Ec.
  assert (Er : dl_result (st fuel ms) = snd (newton_step lsolve i)).
  { unfold st, descent. cbn [dogleg_descent d_query]. unfold dogleg_query. cbv zeta. destruct (newton_step lsolve i). reflexivity. }
  assert (R0 : (if results_eqb (snd (newton_step lsolve i)) successful then successful else snd (newton_step lsolve i)) = snd (newton_step lsolve i)).
  { destruct (results_eqb _ _) eqn:E; [|reflexivity]. apply results_eqb_eq in E. auto. }
  assert (ED : d_step (descent fuel ms) step (st fuel ms) = dogleg_step (N:=RN) eps nm (Some (dogleg_rfind rtol atol fuel ms)) step (st fuel ms)) by reflexivity.
  unfold dogleg_step in ED. rewrite En, Ec in ED. cbn [nltb RN nmul nofQ] in ED. fold D in ED. rewrite Er, Q2R_1 in ED.
  split; [|split].
  - intros H1 H2. rewrite (proj2 (Rltb_true _ _) H1) in ED. unfold res, d. rewrite ED. cbn [fst snd]. split; [exact R0|].
    unfold scaled_cauchy. rewrite Ec. cbn [nltb RN]. rewrite (proj2 (Rltb_true _ _) H2).
    change (dl_cauchy (st fuel ms)) with c.
    assert (E : vwhere (N:=RN) true (map (fun x : R => ndiv (n:=RN) x (nm c) * D)%R c) (vfull (N:=RN) (length c) (nofQ 0)) = Rscal (D / nm c) c).
    { clear. unfold vwhere, vfull, Rscal. cbn [ndiv RN]. set (m := nm c). clearbody m. induction c as [|a c' IH]; cbn; [reflexivity|]. f_equal; [unfold Rdiv; ring|exact IH]. }
    split; [exact E|]. etransitivity; [exact (f_equal nm E)|]. rewrite (proj2 HN). rewrite Rabs_pos_eq.
    + field. lra.
    + pose proof (nm_pos nm HN n). apply Rmult_le_pos; [apply Rmult_le_pos; lra|apply Rlt_le, Rinv_0_lt_compat; lra].
  - intros H1 H2. rewrite (proj2 (Rltb_false _ _) H1), (proj2 (Rltb_false _ _) H2) in ED. unfold res, d. rewrite ED. split; [exact R0|reflexivity].
  - intros H1 H2. rewrite (proj2 (Rltb_false _ _) (Rlt_le _ _ H1)), (proj2 (Rltb_true _ _) H2) in ED.
    destruct (Hk fuel ms Hf Hm H1 H2) as (sol & v & r & E1 & E2 & E3 & Hv & Hr0 & Hd).
    assert (EF : forall g, (forall t : R, g t = h t) -> dogleg_rfind rtol atol fuel ms g = (v, successful)).
    { intros g Hg. replace g with h by (apply functional_extensionality; intro t; symmetry; apply Hg).
      unfold dogleg_rfind. rewrite E1, E2, E3. reflexivity. }
    unfold dogleg_mix in ED. change (dl_cauchy (st fuel ms)) with c in ED. change (dl_newton (st fuel ms)) with n in ED.
    match type of ED with context [dogleg_rfind rtol atol fuel ms ?g] => rewrite (EF g) in ED by (intro t; unfold h, p; rewrite interp_RN; reflexivity) end.
    unfold res, d. rewrite ED. cbn [fst snd]. split; [exact R0|].
    exists (v - 1)%R. split; [lra|]. rewrite interp_RN. split; [reflexivity|].
    fold (p v). replace D with (nm (p r)) by (unfold h in Hr0; lra).
    eapply Rle_trans; [apply path_lip; auto|]. apply Rmult_le_compat_r; [apply nm_pos; exact HN|lra].
Qed.

(** On the boundary itself the root find raises: if the Cauchy step is exactly as long
    as the radius and step_size < 1 (for example when the residual is 0, so that both
    steps are 0), Bisection does not see a sign change between t = 1 and t = 2, and
    raises a RuntimeError although throw=False is passed. *)
Lemma C76_boundary_raises_pf :
  forall (nm : list R -> R) (c n : list R) (step rtol atol : R) fuel ms,
    is_norm nm -> length c = length n -> (0 < step < 1)%R -> nm c = (nm n * step)%R ->
    dogleg_root rtol atol fuel ms (fun t => nm (Radd_v c (Rscal (t - 1) (Rsub_v n c))) - nm n * step)%R = Raise RuntimeError.
Proof.
  intros nm c n step rtol atol fuel ms HN L Hs E. unfold dogleg_root, iterative_solve, iterate.
  cbn [s_init bisection]. unfold bis_init. cbn [lift fst nltb XR xltb nofQ]. destruct (path_ends c n L) as [E1 E2].
  rewrite E1, E2, Q2R_0. pose proof (nm_pos nm HN n) as Hn.
  rewrite (proj2 (Rltb_false (nm c - nm n * step)%R 0)) by lra. rewrite (proj2 (Rltb_false (nm n - nm n * step)%R 0)) by nra. reflexivity.
Qed.

Lemma max_norm_is_norm : is_norm (max_norm (N:=RN)).
Proof.
  split.
  - intros x y L. rewrite !max_norm_RN. revert y L. unfold Rmax_norm. induction x as [|a x IH]; intros [|b y] L; cbn in *; try discriminate; [lra|].
    specialize (IH y ltac:(lia)). pose proof (Rabs_triang a b) as T.
    set (u := fold_right (fun x m => Rmax (Rabs x) m) 0%R x) in *. set (v := fold_right (fun x m => Rmax (Rabs x) m) 0%R y) in *.
    pose proof (Rmax_l (Rabs a) u). pose proof (Rmax_r (Rabs a) u). pose proof (Rmax_l (Rabs b) v). pose proof (Rmax_r (Rabs b) v).
    apply Rmax_lub; [lra|]. lra.
  - intros k x. rewrite !max_norm_RN. unfold Rmax_norm. induction x as [|a x IH]; cbn; [lra|].
    change (map (Rmult k) x) with (Rscal k x). rewrite IH, Rabs_mult. apply RmaxRmult. apply Rabs_pos.
Qed.

(** The hypotheses hold for the maximum norm with J = diag(1, 2), r = (1, 1): the Newton
    step (-1, -1/2) has norm 1 and the Cauchy step -(5/17)(1, 2) norm 10/17, so that
    step_size 1/2, 3/4 and 1 are the three cases, and step_size 10/17 raises. *)
Example C76_radius_ex_pf :
  let lsolve := fun (_ : linop RN) (b : list R) => ([1; /2]%R, successful) in
  let nm := max_norm (N:=RN) in
  let st := d_query (dogleg_descent (N:=RN) lsolve 0%R nm None) [0; 0]%R
              (ResidualJac (N:=RN) [1; 1]%R (MatOp (N:=RN) 2 [[1; 0]; [0; 2]]%R))
              (mkDogleg (N:=RN) [] [] 0%R 0%R successful) in
  let c : list R := dl_cauchy st in
  let n : list R := dl_newton st in
  is_norm nm /\ length c = length n /\ nm n = 1%R /\ nm c = (10 / 17)%R /\
  (nm n * / 2 < nm c)%R /\ (nm c < nm n * (3 / 4))%R /\
  dogleg_root (1 / 1000) (1 / 1000) 300 (Some 256) (fun t => nm (Radd_v c (Rscal (t - 1) (Rsub_v n c))) - nm n * (10 / 17))%R = Raise RuntimeError.
Proof.
  intros lsolve nm st c n. pose proof max_norm_is_norm as HN. fold nm in HN.
  assert (En : n = [-1; - / 2]%R).
  { unfold n, st. cbn [dogleg_descent d_query]. unfold dogleg_query. cbv zeta. cbn [newton_step lsolve dl_newton]. rewrite vneg_RN. unfold Rscal. cbn [map]. repeat f_equal; lra. }
  assert (Ec : c = [- (5 / 17); - (10 / 17)]%R).
  { unfold c, st. cbn [dogleg_descent d_query]. unfold dogleg_query. cbv zeta. cbn [newton_step lsolve dl_cauchy info_grad op_mv op_mvT].
    rewrite !sum_squares_RN, vscale_RN. cbn. rewrite ?Q2R_0.
    match goal with |- context [Rltb 0 ?x] => replace x with 17%R by ring end. rewrite (proj2 (Rltb_true 0 17)) by lra. cbn.
    repeat f_equal; field. }
  assert (Nn : nm n = 1%R).
  { unfold nm. rewrite max_norm_RN, En. unfold Rmax_norm. cbn. rewrite !Rabs_left by lra. unfold Rmax. repeat destruct (Rle_dec _ _); lra. }
  assert (Nc : nm c = (10 / 17)%R).
  { unfold nm. rewrite max_norm_RN, Ec. unfold Rmax_norm. cbn. rewrite !Rabs_left by lra. unfold Rmax. repeat destruct (Rle_dec _ _); lra. }
  assert (L : length c = length n) by (rewrite En, Ec; reflexivity).
  repeat split; auto; try (rewrite Nn, Nc; lra); try apply HN.
  apply C76_boundary_raises_pf; auto; [lra|rewrite Nn, Nc; lra].
Qed.
