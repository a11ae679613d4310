(** The dogleg step (C34). *)

From Coq Require Import String List Bool Arith Lia ZArith QArith Qreals Reals Lra Psatz.
From Verif Require Import Num NumFacts Vec Results Spec_Vec VecFacts Spec_Lin LinFacts NumF64.
From Verif Require Import Search Spec_Search Descent TrustRegion_proofs LeastSquares_proofs.
Import ListNotations.
Local Open Scope nat_scope.

(** ** The quadratic *)
Section Quad.
  Local Open Scope R_scope.
  Variables A B C : R.
  Hypothesis HA : 0 < A.
  Hypothesis H1 : A + B + C <= 0.
  Hypothesis H2 : 0 < 4 * A + 2 * B + C.
  Let D := B * B - 4 * A * C.
  Let s := sqrt D.
  Let t := / 2 * (- B + s) / A.

  Lemma quad_s : 0 <= s /\ s * s = D /\ 2 * A + B <= s /\ - (2 * A + B) <= s /\ s < 4 * A + B.
  Proof.
    assert (HD : (2 * A + B) * (2 * A + B) <= D).
    { unfold D. assert (A * (A + B + C) <= 0) by nra. lra. }
    assert (H0 : 0 <= D) by (pose proof (Rle_0_sqr (2 * A + B)) as K; unfold Rsqr in K; lra).
    assert (Hs : 0 <= s) by apply sqrt_pos.
    assert (Hss : s * s = D) by (apply sqrt_sqrt; exact H0).
    assert (Ha : 2 * A + B <= s) by (apply Rnot_lt_le; intro K; nra).
    assert (Hb : - (2 * A + B) <= s) by (apply Rnot_lt_le; intro K; nra).
    assert (Hc : D < (4 * A + B) * (4 * A + B)).
    { unfold D. assert (0 < A * (4 * A + 2 * B + C)) by (apply Rmult_lt_0_compat; assumption). lra. }
    repeat split; try assumption.
    assert (0 < 4 * A + B).
    { apply Rnot_le_lt. intro K. nra. }
    apply Rnot_le_lt. intro K. nra.
  Qed.

  Lemma quad_t : 1 <= t < 2.
  Proof.
    destruct quad_s as (S0 & S1 & S2 & S3 & S4). unfold t.
    split.
    - apply (Rmult_le_reg_r A); [exact HA|]. unfold Rdiv. rewrite (Rmult_assoc _ (/ A)), Rinv_l by lra. lra.
    - apply (Rmult_lt_reg_r A); [exact HA|]. unfold Rdiv. rewrite (Rmult_assoc _ (/ A)), Rinv_l by lra. lra.
  Qed.

  Lemma quad_factor : forall x, A * (x * x) + B * x + C = A * (x - t) * (x - / 2 * (- B - s) / A).
  Proof.
    intro x. destruct quad_s as (S0 & S1 & _). unfold t.
    assert (E : C = (B * B - s * s) / (4 * A)) by (rewrite S1; unfold D; field; lra).
    rewrite E. field. lra.
  Qed.

  Lemma quad_low : / 2 * (- B - s) / A <= 1.
  Proof.
    destruct quad_s as (S0 & S1 & S2 & S3 & S4).
    apply (Rmult_le_reg_r A); [exact HA|]. unfold Rdiv. rewrite (Rmult_assoc _ (/ A)), Rinv_l by lra. lra.
  Qed.

  Lemma quad_sign : (forall x, 1 <= x <= t -> A * (x * x) + B * x + C <= 0) /\
                    (forall x, t < x -> 0 < A * (x * x) + B * x + C).
  Proof.
    pose proof quad_low as L. pose proof quad_t as T.
    split; intros x Hx; rewrite quad_factor.
    - set (l := / 2 * (- B - s) / A) in *. assert (0 <= A * (t - x) * (x - l)); [|nra].
      apply Rmult_le_pos; [apply Rmult_le_pos|]; lra.
    - apply Rmult_lt_0_compat; [apply Rmult_lt_0_compat|]; lra.
  Qed.

  Lemma quad_other : B < 0 -> C <> 0 -> 2 * C / (- B - s) = t.
  Proof.
    intros HB HC. destruct quad_s as (S0 & S1 & _). unfold t.
    assert (N : - B - s <> 0).
    { intro K. assert (s = - B) by lra. rewrite H in S1. unfold D in S1. 
      assert (A * C = 0) by lra. apply Rmult_integral in H0. lra. }
    apply (Rmult_eq_reg_r (- B - s)); [|exact N]. unfold Rdiv. rewrite Rmult_assoc, Rinv_l, Rmult_1_r by exact N.
    assert (E : C = (B * B - s * s) / (4 * A)) by (rewrite S1; unfold D; field; lra).
    rewrite E. field. lra.
  Qed.
End Quad.

Lemma Rnorm_le : forall v D, (0 <= D)%R -> (Rnorm v <= D <-> Rdot v v <= D * D)%R.
Proof.
  intros v D HD. unfold Rnorm. pose proof (Rdot_pos v) as Hp. split; intro H.
  - pose proof (sqrt_pos (Rdot v v)). pose proof (sqrt_sqrt _ Hp). nra.
  - rewrite <- (sqrt_square D HD). apply sqrt_le_1_alt. exact H.
Qed.

Lemma Rnorm_sq : forall v, (Rnorm v * Rnorm v)%R = Rdot v v.
Proof. intro v. apply sqrt_sqrt, Rdot_pos. Qed.

Lemma Rnorm_pos : forall v, (0 <= Rnorm v)%R.
Proof. intro v. apply sqrt_pos. Qed.

Lemma Rnorm_scal : forall t v, (0 <= t)%R -> Rnorm (Rscal t v) = (t * Rnorm v)%R.
Proof.
  intros t v Ht. unfold Rnorm. rewrite Rdot_scal_l, Rdot_scal_r.
  rewrite <- Rmult_assoc, sqrt_mult by (try apply Rdot_pos; nra). rewrite sqrt_square; auto.
Qed.

Lemma two_norm_RN : forall v : list R, two_norm (N:=RN) v = Rnorm v.
Proof. intro v. unfold two_norm, Rnorm. rewrite sum_squares_RN. reflexivity. Qed.

Lemma path_sq : forall (c n : list R) t, length c = length n ->
  let w := Radd_v c (Rscal (t - 1) (Rsub_v n c)) in
  let a := Rdot (Rsub_v n c) (Rsub_v n c) in
  let ip := Rdot c (Rsub_v n c) in
  Rdot w w = (a * (t * t) + 2 * (ip - a) * t + (Rdot c c - 2 * ip + a))%R.
Proof.
  intros c n t L w a ip. unfold w. rewrite sq_add.
  - rewrite !Rdot_scal_l, !Rdot_scal_r. fold a ip. lra.
  - rewrite Rscal_length. symmetry. apply Rsub_v_length; congruence.
Qed.

Lemma clip_id : forall x l u : R, (l <= x <= u)%R -> nclip (N:=RN) x l u = x.
Proof. intros x l u H. unfold nclip. rewrite nmin_RN, nmax_RN, Rmax_left, Rmin_left; lra. Qed.

(** ** Each region *)
Section Regions.
  Local Open Scope R_scope.
  Variables (c n : list R) (Delta : R).
  Hypothesis HD : 0 <= Delta.
  Hypothesis L : length c = length n.
  Let a := Rdot (Rsub_v n c) (Rsub_v n c).
  Let ip := Rdot c (Rsub_v n c).
  Let b := 2 * (ip - a).
  Let k := Rnorm c * Rnorm c - 2 * ip + a - Delta * Delta.

  Lemma path_norm : forall t, 1 < t -> Rdot (dogleg_path c n t) (dogleg_path c n t) = a * (t * t) + b * t + k + Delta * Delta.
  Proof.
    intros t Ht. unfold dogleg_path. destruct (Rle_dec t 1); [lra|]. rewrite path_sq by exact L.
    fold a ip. unfold b, k. rewrite Rnorm_sq. lra.
  Qed.

  Lemma path_end : dogleg_path c n 2 = n.
  Proof.
    unfold dogleg_path. destruct (Rle_dec 2 1); [lra|]. clear - L. revert n L.
    induction c as [|x v IH]; intros [|y w] H; try discriminate H; cbn; [reflexivity|].
    f_equal; [lra|]. apply IH. now injection H.
  Qed.

  Lemma small_first : 0 <= Delta < Rnorm c -> first_exit Delta c n (Rscal (Delta / Rnorm c) c).
  Proof.
    intros [_ H]. assert (Hc : 0 < Rnorm c) by lra.
    assert (Ht : 0 <= Delta / Rnorm c < 1).
    { split; [apply Rmult_le_pos; [exact HD|apply Rlt_le, Rinv_0_lt_compat; exact Hc]|].
      apply (Rmult_lt_reg_r (Rnorm c)); [exact Hc|]. unfold Rdiv. rewrite Rmult_assoc, Rinv_l by lra. lra. }
    exists (Delta / Rnorm c). split; [lra|]. split; [|split].
    - unfold dogleg_path. destruct (Rle_dec _ 1); [reflexivity|lra].
    - intros s Hs. unfold dogleg_path. destruct (Rle_dec s 1); [|lra]. rewrite Rnorm_scal by lra.
      apply Rle_trans with (Delta / Rnorm c * Rnorm c); [apply Rmult_le_compat_r; lra|].
      right. field. lra.
    - right. exists 1. split; [lra|]. intros s Hs. unfold dogleg_path. destruct (Rle_dec s 1); [|lra].
      rewrite Rnorm_scal by lra.
      apply Rle_lt_trans with (Delta / Rnorm c * Rnorm c); [right; field; lra|].
      apply Rmult_lt_compat_r; lra.
  Qed.

  Lemma inside_first : Rnorm c <= Delta -> forall s, 0 <= s <= 1 -> Rnorm (dogleg_path c n s) <= Delta.
  Proof.
    intros H s Hs. unfold dogleg_path. destruct (Rle_dec s 1); [|lra]. rewrite Rnorm_scal by lra.
    pose proof (Rnorm_pos c). nra.
  Qed.

  Lemma big_first : Rnorm c <= Delta -> Rnorm n <= Delta -> first_exit Delta c n n.
  Proof.
    intros H1 H2. exists 2. split; [lra|]. split; [symmetry; apply path_end|]. split; [|left; reflexivity].
    intros s Hs. destruct (Rle_dec s 1) as [Hs1|Hs1]; [apply inside_first; auto; lra|].
    apply Rnorm_le; [exact HD|]. rewrite path_norm by lra.
    assert (Q1 : a + b + k <= 0).
    { unfold b, k. pose proof (Rnorm_pos c). assert (Rnorm c * Rnorm c <= Delta * Delta) by nra. lra. }
    assert (Q2 : 4 * a + 2 * b + k <= 0).
    { assert (E := path_norm 2 ltac:(lra)). rewrite path_end in E.
      apply Rnorm_le in H2; [|exact HD]. lra. }
    assert (Ha : 0 <= a) by apply Rdot_pos.
    assert (0 <= a * ((s - 1) * (2 - s))) by (apply Rmult_le_pos; [exact Ha|apply Rmult_le_pos; lra]). nra.
  Qed.

  Lemma mix_first : Rnorm c <= Delta < Rnorm n -> (a <= ip \/ Rnorm (Rsub_v (Rscal 2 c) n) <> Delta) ->
    let t := if Rleb 0 b then / 2 * (- b + sqrt (b * b - 4 * a * k)) / a
                         else 2 * k / (- b - sqrt (b * b - 4 * a * k)) in
    1 <= t <= 2 /\ first_exit Delta c n (Radd_v c (Rscal (t - 1) (Rsub_v n c))).
  Proof.
    intros [H1 H2] HN t.
    assert (Q1 : a + b + k <= 0).
    { unfold b, k. pose proof (Rnorm_pos c). assert (Rnorm c * Rnorm c <= Delta * Delta) by nra. lra. }
    assert (Q2 : 0 < 4 * a + 2 * b + k).
    { assert (E := path_norm 2 ltac:(lra)). rewrite path_end in E.
      assert (Delta * Delta < Rnorm n * Rnorm n) by nra. rewrite Rnorm_sq in H. lra. }
    assert (Ha : 0 < a).
    { assert (0 <= a) by apply Rdot_pos. destruct H as [H|H]; [exact H|]. exfalso.
      symmetry in H. apply Rdot_0_inv in H. unfold b, k, ip in *. rewrite H in *. rewrite Rdot_0_r in *.
      unfold a in *. rewrite H, Rdot_0_r in *. lra. }
    assert (Et : t = / 2 * (- b + sqrt (b * b - 4 * a * k)) / a).
    { unfold t. destruct (Rleb 0 b) eqn:E; [reflexivity|]. apply Rleb_false in E.
      apply quad_other; auto. intro K.
      destruct HN as [HN|HN]; [unfold b in E; lra|]. apply HN.
      assert (E2 : Rsub_v (Rscal 2 c) n = Rsub_v c (Rsub_v n c)).
      { clear - L. revert n L. induction c as [|x v IH]; intros [|y w] H; try discriminate H; cbn; [reflexivity|].
        f_equal; [lra|]. apply IH. now injection H. }
      rewrite E2. unfold Rnorm. rewrite sq_sub by (symmetry; apply Rsub_v_length; congruence).
      fold ip a. replace (Rdot c c - 2 * ip + a) with (Delta * Delta) by (rewrite <- Rnorm_sq; unfold k in K; lra).
      apply sqrt_square. exact HD. }
    destruct (quad_t a b k Ha Q1 Q2) as [T1 T2]. destruct (quad_sign a b k Ha Q1 Q2) as [S1 S2].
    rewrite <- Et in *. clearbody t. split; [lra|].
    exists t. split; [lra|]. split; [|split].
    - unfold dogleg_path. destruct (Rle_dec t 1); [|reflexivity].
      replace t with 1 by lra. replace (1 - 1) with 0 by lra. clear - L. revert n L.
      induction c as [|x v IH]; intros [|y w] H; try discriminate H; cbn; [reflexivity|].
      f_equal; [lra|]. apply IH. now injection H.
    - intros s Hs. destruct (Rle_dec s 1) as [Hs1|Hs1]; [apply inside_first; auto; lra|].
      apply Rnorm_le; [exact HD|]. rewrite path_norm by lra. specialize (S1 s). lra.
    - right. exists 2. split; [exact T2|]. intros s Hs. apply Rnot_le_lt. intro K.
      apply Rnorm_le in K; [|exact HD]. rewrite path_norm in K by lra. specialize (S2 s). lra.
  Qed.
End Regions.

(** Exact arithmetic, two-norm trust region of radius D = step_size |newton|.
    Full claim: the step is where the dogleg path leaves the ball (so its norm is
    at most D).  Proved when newton is not 0, a Cauchy step longer than D is
    longer than eps, and the quadratic is not degenerate (its constant term
    |2 cauchy - newton|^2 - D^2 is not 0, or its middle coefficient is not
    negative).  Missing: newton = 0, and the degenerate quadratic, where the code
    computes 0/0; see C34_nan_refuted. *)
Lemma C34_exit_partial_pf :
  forall lsolve (eps : R) (i : finfo RN) y st0 (step : R),
    (0 <= eps)%R -> (0 < step)%R ->
    let descent := dogleg_descent (N:=RN) lsolve eps two_norm None in
    let st := d_query descent y i st0 in
    let c : list R := dl_cauchy st in
    let n : list R := dl_newton st in
    let D := (Rnorm n * step)%R in
    length c = length n ->
    Rnorm n <> 0%R ->
    ((D < Rnorm c)%R -> (eps < Rnorm c)%R) ->
    (Rdot (Rsub_v n c) (Rsub_v n c) <= Rdot c (Rsub_v n c) \/ Rnorm (Rsub_v (Rscal 2 c) n) <> D)%R ->
    let d := fst (d_step descent step st) in
    first_exit D c n d /\ (Rnorm d <= D)%R.
Proof.
  intros lsolve eps i y st0 step He Hs descent st c n D L Hn Hsm HN d.
  assert (K : first_exit D c n d).
  2:{ split; [exact K|]. destruct K as (t & Ht & -> & K & _). apply K. lra. }
  assert (En : dl_newton_norm st = Rnorm n /\ dl_cauchy_norm st = Rnorm c).
  { unfold n, c, st, descent. cbn [dogleg_descent d_query]. unfold dogleg_query. cbv zeta.
    destruct (newton_step lsolve i) as [sol res]. cbn [dl_newton dl_cauchy dl_newton_norm dl_cauchy_norm].
    split; [|apply two_norm_RN]. rewrite two_norm_RN, vneg_RN.
    unfold Rnorm. rewrite Rdot_scal_l, Rdot_scal_r. f_equal. lra. }
  destruct En as [En Ec].
  assert (HD : (0 <= D)%R) by (apply Rmult_le_pos; [apply Rnorm_pos|lra]).
  assert (Hnp : (0 < Rnorm n)%R) by (pose proof (Rnorm_pos n); lra).
  unfold d, descent. cbn [dogleg_descent d_step]. unfold dogleg_step. rewrite En, Ec.
  change (nmul (n:=RN) (Rnorm n) step) with D. cbn [nltb RN nofQ]. 
  destruct (Rltb D (Rnorm c)) eqn:E1; [apply Rltb_true in E1|apply Rltb_false in E1].
  - cbn [fst]. unfold scaled_cauchy. fold c. rewrite Ec. cbn [nltb RN].
    rewrite (proj2 (Rltb_true eps (Rnorm c)) (Hsm E1)).
    assert (Em : forall v : list R, vwhere (N:=RN) true (map (fun x : R => x / Rnorm c * D)%R v) (vfull (N:=RN) (length v) (nofQ (n:=RN) 0)) = Rscal (D / Rnorm c) v).
    { intro v. unfold vwhere, vfull, Rscal. induction v as [|x v IH]; cbn; [reflexivity|]. f_equal; [|exact IH].
      field. lra. }
    rewrite Em. apply small_first; auto.
  - rewrite Q2R_1. destruct (Rltb step 1) eqn:E2; [apply Rltb_true in E2|apply Rltb_false in E2].
    + cbn [fst dogleg_mix]. unfold dogleg_interpolate. cbn [fst].
      assert (HDn : (D < Rnorm n)%R) by (unfold D; rewrite <- (Rmult_1_r (Rnorm n)) at 2; apply Rmult_lt_compat_l; assumption).
      destruct (mix_first c n D HD L (conj E1 HDn) HN) as [T K].
      assert (Et : dogleg_t (N:=RN) st D = let a := Rdot (Rsub_v n c) (Rsub_v n c) in let ip := Rdot c (Rsub_v n c) in
         let b := (2 * (ip - a))%R in let k := (Rnorm c * Rnorm c - 2 * ip + a - D * D)%R in
         if Rleb 0 b then (/ 2 * (- b + sqrt (b * b - 4 * a * k)) / a)%R else (2 * k / (- b - sqrt (b * b - 4 * a * k)))%R).
      { cbv zeta in T |- *. unfold dogleg_t. cbv zeta. fold c n. rewrite Ec.
        rewrite sum_squares_RN, vdot_RN, vsub_RN. cbn [nofQ RN nleb nmul nsub nadd ndiv nneg nsqrt].
        rewrite Q2R_0, Q2R_1, Q2R_2, Q2R_half. replace (Q2R 4) with 4%R by (unfold Q2R; cbn; lra).
        destruct (Rleb 0 _).
        - apply clip_id. exact T.
        - apply clip_id. exact T. }
      cbv zeta in Et, K. rewrite Et. fold c n. rewrite vadd_RN, vscale_RN, vsub_RN.
      cbn [nsub RN nofQ]. rewrite Q2R_1. exact K.
    + cbn [fst]. apply big_first; auto. apply Rle_trans with (Rnorm n * 1)%R; [rewrite Rmult_1_r; apply Rle_refl|]. apply Rmult_le_compat_l; [lra|exact E2].
Qed.

(** A Cauchy step no longer than eps that does not fit gives the zero step. *)
Lemma C34_tiny_cauchy_pf :
  forall (eps step : R) (st : dogleg_state (N:=RN)),
    let c : list R := dl_cauchy st in
    (dl_newton_norm st * step < dl_cauchy_norm st)%R -> (dl_cauchy_norm st <= eps)%R ->
    fst (dogleg_step (N:=RN) eps two_norm None step st) = zerov (length c).
Proof.
  intros eps step st c H1 H2. unfold dogleg_step. cbn [nltb RN nmul].
  rewrite (proj2 (Rltb_true _ _) H1). cbn [fst]. unfold scaled_cauchy. fold c. cbn [nltb RN].
  rewrite (proj2 (Rltb_false _ _) H2). unfold vwhere, vfull. cbn [nofQ RN]. rewrite Q2R_0.
  change (Datatypes.length c) with (@length R c).
  generalize c. intro v. induction v as [|x v IH]; cbn; [reflexivity|]. f_equal. exact IH.
Qed.

(** The claim fails in binary64, and the step is NaN, (1) at a solution (residual
    0, so newton = cauchy = 0) once the radius factor is below 1; (2) with cauchy =
    1, newton = 4 and step_size 1/2, where the constant term of the quadratic is
    exactly 0. *)
Lemma C34_nan_refuted_pf :
  exists (lsolve : linop F64 -> list f64 -> list f64 * results) (eps : f64) (i : finfo F64) (y : list f64) st0
         (st2 : dogleg_state (N:=F64)),
    let descent := dogleg_descent (N:=F64) lsolve eps two_norm None in
    let isnan v := existsb (nisnan (N:=F64)) v in
    isnan (fst (d_step descent (nofQ (n:=F64) (1#4)) (d_query descent y i st0))) = true /\
    map (fun x => neqb (n:=F64) x (nofQ (n:=F64) 1)) (dl_cauchy st2) = [true] /\
    map (fun x => neqb (n:=F64) x (nofQ (n:=F64) 4)) (dl_newton st2) = [true] /\
    neqb (n:=F64) (dl_newton_norm st2) (two_norm (N:=F64) (dl_newton st2)) = true /\
    neqb (n:=F64) (dl_cauchy_norm st2) (two_norm (N:=F64) (dl_cauchy st2)) = true /\
    isnan (fst (d_step descent (nofQ (n:=F64) (1#2)) st2)) = true.
Proof.
  exists (fun _ b => (b, successful)), (f64_ofQ (1 # 4503599627370496)),
    (ResidualJac (N:=F64) [f64_ofZ 0] (MatOp 1 [[f64_ofZ 1]])), [f64_ofZ 0],
    (mkDogleg (N:=F64) [] [] (f64_ofZ 0) (f64_ofZ 0) successful),
    (mkDogleg (N:=F64) [f64_ofZ 4] [f64_ofZ 1] (f64_ofZ 4) (f64_ofZ 1) successful).
  vm_compute. repeat split; reflexivity.
Qed.

(** The hypotheses hold and the interpolation branch is taken with J = diag(1, 2),
    r = (1, 1): newton = (-1, -1/2), cauchy = -(5/17)(1, 2), step_size = 3/4. *)
Example C34_exit_ex_pf :
  let lsolve := fun (_ : linop RN) (b : list R) => ([1; /2]%R, successful) in
  let descent := dogleg_descent (N:=RN) lsolve 0%R two_norm None in
  let st := d_query descent [0; 0]%R (ResidualJac (N:=RN) [1; 1]%R (MatOp (N:=RN) 2 [[1; 0]; [0; 2]]%R))
              (d_init descent [0; 0]%R (Residual (N:=RN) [])) in
  dl_newton st = [-1; -/2]%R /\ dl_cauchy st = [-5/17; -10/17]%R /\
  (Rnorm (dl_cauchy st) < Rnorm (dl_newton st) * (3/4) < Rnorm (dl_newton st))%R /\
  Rnorm (Rsub_v (Rscal 2 (dl_cauchy st)) (dl_newton st)) <> (Rnorm (dl_newton st) * (3/4))%R.
Proof.
  intros lsolve descent st.
  assert (E1 : dl_newton st = [-1; -/2]%R) by (cbn; reflexivity).
  assert (E2 : dl_cauchy st = [-5/17; -10/17]%R).
  { unfold st, descent. cbn. unfold Q2R. cbn. 
    match goal with |- context [Rltb 0 ?x] => replace (Rltb 0 x) with true by (symmetry; apply Rltb_true; lra) end.
    f_equal; [field|f_equal; field]. }
  rewrite E1, E2. split; [reflexivity|]. split; [reflexivity|]. split.
  - split.
    + replace (Rnorm [-1; - / 2] * (3/4))%R with (Rnorm (Rscal (3/4) [-1; -/2]))%R by (rewrite Rnorm_scal; lra).
      unfold Rnorm. cbn. apply sqrt_lt_1; lra.
    + assert (0 < Rnorm [-1; -/2])%R by (unfold Rnorm; apply sqrt_lt_R0; cbn; lra). lra.
  - replace (Rnorm [-1; - / 2] * (3/4))%R with (Rnorm (Rscal (3/4) [-1; -/2]))%R by (rewrite Rnorm_scal; lra).
    unfold Rnorm. intro H. apply sqrt_inj in H; cbn in *; lra.
Qed.
