(** Near a zero-residual point Dogleg and IndirectLevenbergMarquardt are Gauss-Newton (C102). *)

From Coq Require Import String List Bool Arith Lia ZArith QArith Qreals Reals Lra Psatz.
From Verif Require Import Num NumFacts Vec Results Iterate Spec_Iterate Iterate_proofs.
From Verif Require Import Spec_Vec VecFacts Spec_Lin LinFacts.
From Verif Require Import Search Spec_Search Descent Minimisers Solvers Minimisers_proofs.
From Verif Require Import TrustRegion_proofs LeastSquares_proofs Dogleg_proofs Spec_Steps Steps_proofs Spec_Convergence Convergence_proofs.
From Verif Require Import GaussNewton_proofs DoglegConv_proofs IndirectConv_proofs GaussNewtonConv_proofs LMLocal_proofs.
Import ListNotations.
Local Open Scope nat_scope.

(** ** Any descent taking the Newton step when the radius is at least 1 *)
Section NewtonRun.
  Local Open Scope R_scope.
  Context {Aux : Type}.
  Variables (P : ar_tols RN) (lsolve : linop RN -> list R -> list R * results).
  Variable descent : Descent RN.
  Variable jac_of : (list R -> list R * Aux) -> list R -> linop RN.
  Variable fn : list R -> list R * Aux.
  Variables (n m : nat) (y0 root : list R) (fs : fillv -> list R) (auxs : fillv -> Aux) (sigma b gamma rho : R).
  Let r (x : list R) : list R := fst (fn x).
  Let J (x : list R) : linop RN := jac_of fn x.
  Let near x := length x = n /\ Rnorm (Rsub_v x root) <= rho.
  Hypothesis HE : exact_least_squares n lsolve.
  Hypothesis HP : residual_problem n m r J.
  Hypothesis Lroot : length root = n.
  Hypothesis Hroot : r root = zerov m.
  Hypothesis S0 : 0 < sigma.
  Hypothesis b0 : 0 <= b.
  Hypothesis g0 : 0 <= gamma.
  Hypothesis HJ : forall x v, near x -> length v = n ->
    sigma * Rdot v v <= Rdot (op_mv (J x) v) (op_mv (J x) v) /\ Rdot (op_mv (J x) v) (op_mv (J x) v) <= b * b * Rdot v v.
  Hypothesis HL : forall x x', near x -> near x' ->
    Rnorm (Rsub_v (Rsub_v (r x') (r x)) (op_mv (J x) (Rsub_v x' x))) <= gamma * Rdot (Rsub_v x' x) (Rsub_v x' x).
  Hypothesis Hsmall : b * gamma * rho + 3 * (gamma * rho) * (gamma * rho) < sigma / 200.
  Hypothesis Ly0 : length y0 = n.
  Let nw (x : list R) : list R := Rscal (-1) (fst (lsolve (J x) (r x))).
  Hypothesis HD : forall y (step : R) st, length y = n -> 0 < step ->
    let i := ResidualJac (N:=RN) (fst (fn y)) (jac_of fn y) in
    let d := fst (d_step descent step (d_query descent y i st)) in
    length d = n /\ classical_predict (N:=RN) d i <= 0.
  Hypothesis HN : forall y (step : R) st, length y = n -> 1 <= step ->
    fst (d_step descent step (d_query descent y (ResidualJac (N:=RN) (fst (fn y)) (jac_of fn y)) st)) = nw y.
  Let search := classical_trust_region (N:=RN) tr_default.
  Let s := gauss_newton_solver (N:=RN) P search descent jac_of.
  Let st0 := gn_st0 (N:=RN) search descent y0 fs auxs.
  Let Y (k : nat) : list R := y_at s fn y0 st0 (auxs fill0) (S k).
  Let Sk k := st_at s fn y0 st0 (auxs fill0) (S k).
  Let radius (k : nat) : R := gn_search_state (Sk k).
  Let acc (k : nat) : nat := gn_num_accepted_steps (Sk k).
  Let e k := Rnorm (Rsub_v (Y k) root).

  Lemma ns_step : forall k, near (Y k) -> 1 <= radius k ->
    Y (S k) = Radd_v (Y k) (nw (Y k)) /\ near (Y (S k)) /\ acc (S k) = S (acc k) /\ 1 <= radius (S k) /\
    sigma * e (S k) <= b * gamma * (e k * e k) /\ e (S k) <= e k /\
    gn_terminate (Sk (S k)) = cauchy_termination (N:=RN) (ar_rtol P) (ar_atol P) (ar_norm P)
       (Y (S k)) (Rsub_v (Y (S k)) (Y k)) (r (Y (S k))) (Rsub_v (r (Y (S k))) (r (Y k))) /\
    Rnorm (Rsub_v (Y (S k)) (Y k)) <= e k + e (S k).
  Proof.
    intros k Hk HR. pose proof Hk as (LY & DY). destruct (HP _ LY) as (Lr & HA & HT).
    destruct (run_step P descent jac_of fn n y0 fs auxs Ly0 HD k) as (st' & X). cbv zeta in X.
    pose proof (HN (Y k) (radius k) st' LY HR) as EN.
    change (fst (d_step descent (radius k) (d_query descent (Y k) (ResidualJac (N:=RN) (r (Y k)) (J (Y k))) st')) = nw (Y k)) in EN.
    set (d := nw (Y k)) in *. destruct X as (Ld & _ & X).
    assert (Ld' : length d = n) by (rewrite <- EN; exact Ld). clear Ld.
    assert (HZ : forall v, length v = n -> Rdot (Radd_v (op_mv (J (Y k)) d) (r (Y k))) (op_mv (J (Y k)) v) + 0 * Rdot d v = 0).
    { intros v Lv. pose proof HA as (L1 & _). rewrite Rdot_add_l by (rewrite L1 by exact Ld'; auto).
      pose proof (newton_orth n m (J (Y k)) (r (Y k)) lsolve 0 HE HA HT Lr v Lv) as O. fold (nw (Y k)) in O. fold d in O.
      pose proof (proj2 HT (r (Y k)) v Lv) as T. rewrite O. lra. }
    assert (l0 : 0 <= 0) by lra.
    destruct (os_change n m r J root sigma b gamma rho HP Lroot Hroot S0 b0 g0 HJ HL Hsmall (Y k) d 0 Hk l0 Ld' HZ) as (C1 & _).
    pose proof (os_contract n m r J root sigma b gamma rho HP Lroot Hroot b0 g0 HJ HL (Y k) d 0 Hk l0 Ld' HZ) as C4.
    pose proof (os_closer n m r J root sigma b gamma rho HP Lroot Hroot S0 b0 g0 HJ HL Hsmall (Y k) d 0 Hk l0 Ld' HZ) as (C5 & C6).
    pose proof (os_d n root rho Lroot (Y k) d Hk Ld') as C7.
    destruct X as [(_ & Y1 & A1 & R1 & T1)|(C & _)].
    2:{ exfalso. revert C. apply Rle_not_lt.
        change (half_squares r (Radd_v (Y k) (fst (d_step descent (radius k) (d_query descent (Y k) (ResidualJac (N:=RN) (r (Y k)) (J (Y k))) st')))) - half_squares r (Y k)
          <= 1 / 100 * classical_predict (N:=RN) (fst (d_step descent (radius k) (d_query descent (Y k) (ResidualJac (N:=RN) (r (Y k)) (J (Y k))) st'))) (ResidualJac (N:=RN) (r (Y k)) (J (Y k)))).
        rewrite EN. exact C1. }
    change (Y (S k) = Radd_v (Y k) (fst (d_step descent (radius k) (d_query descent (Y k) (ResidualJac (N:=RN) (r (Y k)) (J (Y k))) st')))) in Y1.
    rewrite EN in Y1. change (acc (S k) = S (acc k)) in A1.
    change (radius (S k) = radius k \/ radius (S k) = 7 / 2 * radius k) in R1.
    assert (ES : e (S k) = Rnorm (Rsub_v (Radd_v (Y k) d) root)) by (unfold e; rewrite Y1; reflexivity).
    split; [exact Y1|]. rewrite ES, Y1. split; [exact C6|]. split; [exact A1|].
    split; [destruct R1 as [R1|R1]; rewrite R1; lra|]. split; [unfold e; lra|]. split; [exact C5|]. split; [rewrite <- Y1; exact T1|].
    rewrite sub_same by congruence. exact C7.
  Qed.

  Lemma ns_first : Y 0 = y0 /\ acc 0 = 1%nat /\ radius 0 = 1.
  Proof. exact (run_first P descent jac_of fn y0 fs auxs). Qed.

  Hypothesis Hy0 : near y0.

  Lemma ns_inv : forall k, near (Y k) /\ 1 <= radius k /\ acc k = S k.
  Proof.
    induction k as [|k (I1 & I2 & I3)].
    - destruct ns_first as (E1 & E2 & E3). rewrite E1, E2, E3. split; [exact Hy0|]. split; [lra|reflexivity].
    - destruct (ns_step k I1 I2) as (_ & C2 & C3 & C4 & _). split; [exact C2|]. split; [exact C4|congruence].
  Qed.

  Lemma ns_newton : forall k, Y (S k) = Radd_v (Y k) (nw (Y k)).
  Proof. intro k. destruct (ns_inv k) as (I1 & I2 & _). apply (ns_step k I1 I2). Qed.

  Lemma ns_quadratic : forall k, e (S k) <= b * gamma / sigma * (e k * e k).
  Proof.
    intro k. destruct (ns_inv k) as (I1 & I2 & _). destruct (ns_step k I1 I2) as (_ & _ & _ & _ & C & _).
    apply (Rmult_le_reg_l sigma); [exact S0|]. eapply Rle_trans; [exact C|]. right. field. lra.
  Qed.

  Lemma ns_linear : forall k, e (S k) <= / 200 * e k.
  Proof.
    intro k. destruct (ns_inv k) as (I1 & I2 & _). destruct (ns_step k I1 I2) as (_ & _ & _ & _ & C & _). destruct I1 as (_ & D). fold (e k) in D.
    assert (e0 : 0 <= e k) by apply Rnorm_pos. assert (GG : 0 <= (gamma * rho) * (gamma * rho)) by apply Rle_0_sqr.
    assert (Q1 : b * gamma * e k <= b * gamma * rho) by (apply Rmult_le_compat_l; [apply Rmult_le_pos; assumption|exact D]).
    assert (Q2 : b * gamma * e k * e k <= sigma / 200 * e k) by (apply Rmult_le_compat_r; lra).
    apply (Rmult_le_reg_l sigma); [exact S0|]. lra.
  Qed.

  Lemma ns_rate : forall k, e k <= rho * (/ 200) ^ k.
  Proof.
    induction k as [|k IH].
    - unfold e. rewrite (proj1 ns_first). destruct Hy0 as (_ & H). cbn [pow]. lra.
    - eapply Rle_trans; [apply ns_linear|]. cbn [pow]. lra.
  Qed.

  (* the same iterates as the Gauss-Newton solver *)
  Lemma ns_gauss_newton : forall st0', s_init (GaussNewton (N:=RN) P jac_of lsolve) fn y0 fs auxs = Ret st0' ->
    forall k, y_at (GaussNewton (N:=RN) P jac_of lsolve) fn y0 st0' (auxs fill0) (S k) = Y k.
  Proof.
    intros st0' Hi. pose proof (fun k => C53_iteration_pf RN Aux P lsolve jac_of fn y0 fs auxs st0' k Hi) as C. cbv zeta in C.
    induction k as [|k IH].
    - rewrite (proj1 ns_first). exact (proj1 (C 0%nat)).
    - rewrite ns_newton, <- IH. rewrite (proj2 (C k)) at 1. rewrite vadd_RN, vscale_RN. cbn [nneg nofQ RN]. rewrite Q2R_1. reflexivity.
  Qed.

  Hypothesis Hrtol : 0 <= (ar_rtol P : R).
  Hypothesis Hatol : 0 < (ar_atol P : R).
  Hypothesis Hnorm : ar_norm P = max_norm (N:=RN).

  Lemma ns_terminates : forall K, 2 * rho * (/ 200) ^ K < (ar_atol P : R) -> 2 * (b + 2 * gamma * rho) * rho * (/ 200) ^ K < (ar_atol P : R) ->
    gn_terminate (Sk (S K)) = true.
  Proof.
    intros K H1 H2. set (a := ar_atol P : R) in *. destruct (ns_inv K) as (N & HRd & _). destruct (ns_step K N HRd) as (_ & N' & _ & _ & _ & D & T & W).
    destruct (gn_terminate (Sk (S K))) eqn:ET; [reflexivity|exfalso].
    symmetry in T. rewrite Hnorm in T. apply cauchy_false_vec in T; [|exact Hrtol|exact Hatol]. fold a in T.
    pose proof (ns_rate K) as RK. assert (R0 : 0 <= rho) by (destruct N as (_ & Q); pose proof (Rnorm_pos (Rsub_v (Y K) root)); lra).
    set (qK := (/ 200) ^ K) in *.
    assert (W1 : Rnorm (Rsub_v (Y (S K)) (Y K)) <= 2 * rho * qK) by lra.
    pose proof N as (LY & DY). pose proof N' as (LY' & DY'). destruct (HP _ LY) as (Lr & (L1 & _) & _). destruct (HP _ LY') as (Lr' & _).
    set (d := Rsub_v (Y (S K)) (Y K)) in *. assert (Ld : length d = n) by (apply Rsub_v_length; assumption).
    pose proof (HL _ _ N N') as HH. fold d in HH.
    assert (W2 : Rnorm (Rsub_v (r (Y (S K))) (r (Y K))) <= (b + 2 * gamma * rho) * Rnorm d).
    { set (u := Rsub_v (r (Y (S K))) (r (Y K))) in *. assert (Lu : length u = m) by (apply Rsub_v_length; assumption).
      assert (Eu : u = Radd_v (op_mv (J (Y K)) d) (Rsub_v u (op_mv (J (Y K)) d))).
      { assert (GE : forall p w : list R, length p = length w -> p = Radd_v w (Rsub_v p w)).
        { induction p as [|x p IH]; intros [|y w] E; try discriminate; [reflexivity|]. cbn. f_equal; [ring|]. apply IH. apply eq_add_S. exact E. }
        apply GE. rewrite L1 by exact Ld. exact Lu. }
      rewrite Eu at 1. eapply Rle_trans; [apply Rnorm_add; rewrite (Rsub_v_length _ _ m); [apply L1; exact Ld|exact Lu|apply L1; exact Ld]|].
      assert (Q1 : Rnorm (op_mv (J (Y K)) d) <= b * Rnorm d) by (apply Rnorm_bound; [exact b0|apply (HJ _ _ N Ld)]).
      assert (Q2 : gamma * Rdot d d <= 2 * gamma * rho * Rnorm d).
      { rewrite <- Rnorm_sq. replace (2 * gamma * rho * Rnorm d) with (gamma * (2 * rho * Rnorm d)) by ring. apply Rmult_le_compat_l; [exact g0|].
        apply Rmult_le_compat_r; [apply Rnorm_pos|]. fold (e K) in DY. fold (e (S K)) in DY'. lra. }
      lra. }
    assert (C0 : 0 <= b + 2 * gamma * rho) by (assert (0 <= 2 * gamma * rho) by (repeat apply Rmult_le_pos; lra); lra).
    assert (W3 : Rnorm (Rsub_v (r (Y (S K))) (r (Y K))) < a).
    { eapply Rle_lt_trans; [exact W2|]. eapply Rle_lt_trans; [apply Rmult_le_compat_l; [exact C0|exact W1]|]. lra. }
    assert (SQ : forall (v : list R) i c, nth_error v i = Some c -> a <= Rabs c -> a <= Rnorm v).
    { intros v i c Hc Hac. pose proof (Rdot_nth_le _ _ _ Hc) as G. unfold Rnorm. rewrite <- (sqrt_square a) by lra. apply sqrt_le_1_alt.
      assert (a * a <= Rabs c * Rabs c) by (apply Rmult_le_compat; lra). rewrite <- Rabs_mult, Rabs_pos_eq in H by apply Rle_0_sqr. lra. }
    destruct T as [(i & c & Hc & Hac)|(i & c & Hc & Hac)]; pose proof (SQ _ i c Hc Hac) as G; lra.
  Qed.

  Lemma ns_succeeds : forall K, 2 * rho * (/ 200) ^ K < (ar_atol P : R) -> 2 * (b + 2 * gamma * rho) * rho * (/ 200) ^ K < (ar_atol P : R) ->
    (forall k, says_result s fn y0 st0 (auxs fill0) k = successful) -> s_init s fn y0 fs auxs = Ret st0 ->
    exists k, (1 <= k <= K + 2)%nat /\
      forall fuel budget throw, (k < fuel)%nat -> (forall j, budget = Some j -> (k <= j)%nat) ->
        exists sol, iterative_solve (vallfinite (N:=RN)) s fn fuel budget throw y0 fs auxs = Ret sol /\
          result sol = successful /\ Rnorm (Rsub_v (value sol) root) <= rho * (/ 200) ^ (Nat.pred k) /\
          hd_error (sol_stats sol) = Some ("num_steps"%string, Some (Z.of_nat k)).
  Proof.
    intros K H1 H2 SR Hi. pose proof (ns_terminates K H1 H2) as T.
    assert (AF : forall v : list R, vallfinite (N:=RN) v = true).
    { intro v. unfold vallfinite. induction v; auto. }
    destruct (solve_succeeds (vallfinite (N:=RN)) s fn y0 st0 _ fs auxs eq_refl Hi SR (fun k => AF _) (ex_intro _ (S (S K)) T))
      as (k1 & K1 & K2 & K3).
    assert (k1 <= S (S K))%nat.
    { destruct (le_lt_dec k1 (S (S K))) as [?|Q]; [assumption|]. specialize (K2 _ Q).
      change (gn_terminate (st_at s fn y0 st0 (auxs fill0) (S (S K))) = false) in K2.
      pose proof (eq_trans (eq_sym T) K2). discriminate. }
    assert (1 <= k1)%nat by (destruct k1; [discriminate K1|lia]).
    exists k1. split; [lia|]. intros fuel budget throw Hfu Hb. destruct (K3 fuel budget throw Hfu Hb) as (K4 & K5).
    eexists. split; [exact K4|]. split; [exact K5|]. split; [|reflexivity].
    destruct k1 as [|k1]; [lia|]. exact (ns_rate k1).
  Qed.
End NewtonRun.

(** The Cauchy point is no longer than the Newton step *)
Lemma cauchy_le_newton : forall (n m : nat) (A : linop RN) (r : list R) lsolve (eps : R),
  exact_least_squares n lsolve -> linear_op n m A -> transpose_op n A -> length r = m -> (0 <= eps)%R ->
  let g : list R := op_mvT A r in
  let dn := Rdot (op_mv A g) (op_mv A g) in
  (Rnorm (Rscal (- (if Rltb eps dn then Rdot g g / dn else 0)) g) <= Rnorm (Rscal (-1) (fst (lsolve A r))))%R.
Proof.
  intros n m A r lsolve eps HE HA HT Hr He g dn. set (nw := Rscal (-1) (fst (lsolve A r))).
  destruct (dog_lens n m A r lsolve eps HE HA HT Hr) as (Lg & Ln & _). fold g in Lg. fold nw in Ln. pose proof HA as (L1 & _).
  destruct (Rltb eps dn) eqn:E.
  2:{ rewrite Rscal_0, Rnorm_zero. apply Rnorm_pos. }
  apply Rltb_true in E. assert (D0 : (0 < dn)%R) by lra.
  pose proof (newton_orth n m A r lsolve eps HE HA HT Hr g Lg) as O1. fold nw g in O1.
  pose proof (newton_orth n m A r lsolve eps HE HA HT Hr nw Ln) as O2. fold nw g in O2.
  set (G := Rnorm g). set (W := Rnorm nw). assert (G0 : (0 <= G)%R) by apply Rnorm_pos. assert (W0 : (0 <= W)%R) by apply Rnorm_pos.
  pose proof (Rnorm_sq g) as EG. fold G in EG.
  assert (EL : Rnorm (Rscal (- (Rdot g g / dn)) g) = (G * G / dn * G)%R).
  { unfold Rnorm at 1. rewrite Rdot_scal_l, Rdot_scal_r, <- EG.
    replace (- (G * G / dn) * (- (G * G / dn) * (G * G)))%R with ((G * G / dn * G) * (G * G / dn * G))%R by ring.
    apply sqrt_square. apply Rmult_le_pos; [|exact G0]. apply Rmult_le_pos; [apply Rmult_le_pos; exact G0|apply Rlt_le, Rinv_0_lt_compat; exact D0]. }
  rewrite EL. fold W.
  assert (C1 : (Rdot g g * Rdot g g <= Rdot (op_mv A nw) (op_mv A nw) * dn)%R).
  { pose proof (Rdot_CS (op_mv A nw) (op_mv A g) ltac:(rewrite !L1 by assumption; reflexivity)) as C. rewrite O1 in C. fold dn in C. lra. }
  assert (C2 : (Rdot (op_mv A nw) (op_mv A nw) <= G * W)%R).
  { rewrite O2. assert (L : length g = length nw) by congruence. pose proof (Rnorm_dot g nw L) as C. fold G W in C. pose proof (Rle_abs (- Rdot g nw)) as Q. rewrite Rabs_Ropp in Q. lra. }
  rewrite <- EG in C1.
  destruct (Rle_lt_or_eq_dec 0 G G0) as [G1|G1]; [|rewrite <- G1, Rmult_0_r; exact W0].
  assert (C3 : (G * G * (G * G) <= G * W * dn)%R) by (eapply Rle_trans; [exact C1|]; apply Rmult_le_compat_r; lra).
  assert (C4 : (G * G * G <= W * dn)%R) by (apply (Rmult_le_reg_l G); [exact G1|]; lra).
  apply (Rmult_le_reg_r dn); [exact D0|]. replace (G * G / dn * G * dn)%R with (G * G * G)%R by (field; lra). exact C4.
Qed.

(** With a radius of at least 1 the dogleg step is the Newton step *)
Lemma dogleg_full : forall (n m : nat) (A : linop RN) (r y : list R) lsolve (eps step : R) st,
  exact_least_squares n lsolve -> linear_op n m A -> transpose_op n A -> length r = m -> (0 <= eps)%R -> (1 <= step)%R ->
  let descent := dogleg_descent (N:=RN) lsolve eps two_norm None in
  fst (d_step descent step (d_query descent y (ResidualJac (N:=RN) r A) st)) = Rscal (-1) (fst (lsolve A r)).
Proof.
  intros n m A r y lsolve eps step st HE HA HT Hr He Hs descent. assert (Hs0 : (0 < step)%R) by lra.
  pose proof (cauchy_le_newton n m A r lsolve eps HE HA HT Hr He) as C. cbv zeta in C.
  pose proof (Rnorm_pos (Rscal (-1) (fst (lsolve A r)))) as N0.
  assert (D : (Rnorm (Rscal (-1) (fst (lsolve A r))) <= Rnorm (Rscal (-1) (fst (lsolve A r))) * step)%R).
  { rewrite <- (Rmult_1_r (Rnorm (Rscal (-1) (fst (lsolve A r))))) at 1. apply Rmult_le_compat_l; assumption. }
  destruct (dog_cases n m A r y lsolve eps step st HE HA HT Hr He Hs0) as [(Q & _)|[(Q & _)|[(_ & Q & _)|(_ & _ & E)]]].
  - exfalso. lra.
  - exfalso. lra.
  - exfalso. lra.
  - exact E.
Qed.

(** Dogleg in exact arithmetic with exact least-squares solves, started within rho of a zero of the residuals near which
    sigma |v|^2 <= |J v|^2 <= b^2 |v|^2 and the linearisation error is at most gamma |x' - x|^2, with
    b gamma rho + 3 gamma^2 rho^2 < sigma / 200: no step is rejected, the iterates are those of the Gauss-Newton solver, and the distance
    to the zero falls quadratically: |y_(k+1) - root| <= b gamma / sigma |y_k - root|^2 (and at least by a factor 200 per step). *)
Lemma C102_dogleg_pf :
  forall (Aux : Type) (P : ar_tols RN) (eps : R) lsolve jac_of (fn : list R -> list R * Aux)
         (n m : nat) (y0 root : list R) fs auxs (sigma b gamma rho : R) st0 st0',
    let r x := fst (fn x) in let J := jac_of fn in
    let near x := length x = n /\ (Rnorm (Rsub_v x root) <= rho)%R in
    (0 <= eps)%R -> exact_least_squares n lsolve -> residual_problem n m r J ->
    length root = n -> r root = zerov m -> (0 < sigma)%R -> (0 <= b)%R -> (0 <= gamma)%R ->
    (forall x v, near x -> length v = n ->
       sigma * Rdot v v <= Rdot (op_mv (J x) v) (op_mv (J x) v) /\ Rdot (op_mv (J x) v) (op_mv (J x) v) <= b * b * Rdot v v)%R ->
    (forall x x', near x -> near x' ->
       Rnorm (Rsub_v (Rsub_v (r x') (r x)) (op_mv (J x) (Rsub_v x' x))) <= gamma * Rdot (Rsub_v x' x) (Rsub_v x' x))%R ->
    (b * gamma * rho + 3 * (gamma * rho) * (gamma * rho) < sigma / 200)%R -> near y0 ->
    let s := Dogleg (N:=RN) P jac_of lsolve eps in
    let s' := GaussNewton (N:=RN) P jac_of lsolve in
    s_init s fn y0 fs auxs = Ret st0 -> s_init s' fn y0 fs auxs = Ret st0' ->
    let y k : list R := y_at s fn y0 st0 (auxs fill0) (S k) in
    let st k := st_at s fn y0 st0 (auxs fill0) (S k) in
    let e k := Rnorm (Rsub_v (y k) root) in
    y 0 = y0 /\
    (forall k, gn_num_accepted_steps (st k) = S k) /\ (forall k, (1 <= (gn_search_state (st k) : R))%R) /\
    (forall k, y_at s' fn y0 st0' (auxs fill0) (S k) = y k) /\
    (forall k, e (S k) <= b * gamma / sigma * (e k * e k))%R /\ (forall k, e k <= rho * (/ 200) ^ k)%R.
Proof.
  intros Aux P eps lsolve jac_of fn n m y0 root fs auxs sigma b gamma rho st0 st0' r J near He HE HP Lroot Hroot S0 b0 g0 HJ HL Hsmall Hy0 s s' Hi Hi' y st e.
  unfold s in Hi. apply gn_init_inv in Hi. subst st0.
  pose proof (dogleg_descends Aux lsolve eps jac_of fn n m He HE HP) as HD. cbv zeta in HD.
  assert (HN : forall x (step : R) st, length x = n -> (1 <= step)%R ->
    fst (d_step (dogleg_descent (N:=RN) lsolve eps two_norm None) step
      (d_query (dogleg_descent (N:=RN) lsolve eps two_norm None) x (ResidualJac (N:=RN) (fst (fn x)) (jac_of fn x)) st)) = Rscal (-1) (fst (lsolve (jac_of fn x) (fst (fn x))))).
  { intros x step st' Lx Hs. destruct (HP x Lx) as (Lr & HA & HT). exact (dogleg_full n m _ _ x lsolve eps step st' HE HA HT Lr He Hs). }
  pose proof (ns_inv P lsolve (dogleg_descent (N:=RN) lsolve eps two_norm None) jac_of fn n m y0 root fs auxs sigma b gamma rho HE HP Lroot Hroot S0 b0 g0 HJ HL Hsmall (proj1 Hy0) HD HN Hy0) as INV.
  split; [exact (proj1 (ns_first P _ jac_of fn y0 fs auxs))|].
  split; [intro k; apply (INV k)|]. split; [intro k; apply (INV k)|].
  split; [exact (ns_gauss_newton P lsolve _ jac_of fn n m y0 root fs auxs sigma b gamma rho HE HP Lroot Hroot S0 b0 g0 HJ HL Hsmall (proj1 Hy0) HD HN Hy0 st0' Hi')|].
  split; [exact (ns_quadratic P lsolve _ jac_of fn n m y0 root fs auxs sigma b gamma rho HE HP Lroot Hroot S0 b0 g0 HJ HL Hsmall (proj1 Hy0) HD HN Hy0)|].
  exact (ns_rate P lsolve _ jac_of fn n m y0 root fs auxs sigma b gamma rho HE HP Lroot Hroot S0 b0 g0 HJ HL Hsmall (proj1 Hy0) HD HN Hy0).
Qed.

(** The same for IndirectLevenbergMarquardt, whatever its inner root finder (which is never asked). *)
Lemma C102_indirect_levenberg_marquardt_pf :
  forall (Aux : Type) (P : ar_tols RN) (eps fmax : R) lsolve rfind jac_of (fn : list R -> list R * Aux)
         (n m : nat) (y0 root : list R) fs auxs (sigma b gamma rho : R) st0 st0',
    let r x := fst (fn x) in let J := jac_of fn in
    let near x := length x = n /\ (Rnorm (Rsub_v x root) <= rho)%R in
    (0 <= eps)%R -> (0 < fmax)%R -> exact_least_squares n lsolve -> residual_problem n m r J ->
    length root = n -> r root = zerov m -> (0 < sigma)%R -> (0 <= b)%R -> (0 <= gamma)%R ->
    (forall x v, near x -> length v = n ->
       sigma * Rdot v v <= Rdot (op_mv (J x) v) (op_mv (J x) v) /\ Rdot (op_mv (J x) v) (op_mv (J x) v) <= b * b * Rdot v v)%R ->
    (forall x x', near x -> near x' ->
       Rnorm (Rsub_v (Rsub_v (r x') (r x)) (op_mv (J x) (Rsub_v x' x))) <= gamma * Rdot (Rsub_v x' x) (Rsub_v x' x))%R ->
    (b * gamma * rho + 3 * (gamma * rho) * (gamma * rho) < sigma / 200)%R -> near y0 ->
    let s := IndirectLevenbergMarquardt (N:=RN) P jac_of lsolve eps fmax rfind in
    let s' := GaussNewton (N:=RN) P jac_of lsolve in
    s_init s fn y0 fs auxs = Ret st0 -> s_init s' fn y0 fs auxs = Ret st0' ->
    let y k : list R := y_at s fn y0 st0 (auxs fill0) (S k) in
    let st k := st_at s fn y0 st0 (auxs fill0) (S k) in
    let e k := Rnorm (Rsub_v (y k) root) in
    y 0 = y0 /\
    (forall k, gn_num_accepted_steps (st k) = S k) /\ (forall k, (1 <= (gn_search_state (st k) : R))%R) /\
    (forall k, y_at s' fn y0 st0' (auxs fill0) (S k) = y k) /\
    (forall k, e (S k) <= b * gamma / sigma * (e k * e k))%R /\ (forall k, e k <= rho * (/ 200) ^ k)%R.
Proof.
  intros Aux P eps fmax lsolve rfind jac_of fn n m y0 root fs auxs sigma b gamma rho st0 st0' r J near He Hf HE HP Lroot Hroot S0 b0 g0 HJ HL Hsmall Hy0 s s' Hi Hi' y st e.
  unfold s in Hi. apply gn_init_inv in Hi. subst st0.
  pose proof (ind_descends Aux eps fmax lsolve rfind jac_of fn n m He Hf HE HP) as HD. cbv zeta in HD.
  assert (HN : forall x (step : R) st, length x = n -> (1 <= step)%R ->
    fst (d_step (indirect_damped_newton_descent (N:=RN) lsolve eps fmax two_norm rfind) step
      (d_query (indirect_damped_newton_descent (N:=RN) lsolve eps fmax two_norm rfind) x (ResidualJac (N:=RN) (fst (fn x)) (jac_of fn x)) st)) = Rscal (-1) (fst (lsolve (jac_of fn x) (fst (fn x))))).
  { intros x step st' Lx Hs. destruct (HP x Lx) as (Lr & HA & HT).
    exact (proj1 (C69_length_pf lsolve eps fmax rfind n m _ _ x step st' HE HA Lr Lx He) (or_introl Hs)). }
  pose proof (ns_inv P lsolve (indirect_damped_newton_descent (N:=RN) lsolve eps fmax two_norm rfind) jac_of fn n m y0 root fs auxs sigma b gamma rho HE HP Lroot Hroot S0 b0 g0 HJ HL Hsmall (proj1 Hy0) HD HN Hy0) as INV.
  split; [exact (proj1 (ns_first P _ jac_of fn y0 fs auxs))|].
  split; [intro k; apply (INV k)|]. split; [intro k; apply (INV k)|].
  split; [exact (ns_gauss_newton P lsolve _ jac_of fn n m y0 root fs auxs sigma b gamma rho HE HP Lroot Hroot S0 b0 g0 HJ HL Hsmall (proj1 Hy0) HD HN Hy0 st0' Hi')|].
  split; [exact (ns_quadratic P lsolve _ jac_of fn n m y0 root fs auxs sigma b gamma rho HE HP Lroot Hroot S0 b0 g0 HJ HL Hsmall (proj1 Hy0) HD HN Hy0)|].
  exact (ns_rate P lsolve _ jac_of fn n m y0 root fs auxs sigma b gamma rho HE HP Lroot Hroot S0 b0 g0 HJ HL Hsmall (proj1 Hy0) HD HN Hy0).
Qed.

(** If every linear solve reports success, Dogleg succeeds within K + 2 steps once 2 rho / 200^K and 2 (b + 2 gamma rho) rho / 200^K are below
    atol, within rho / 200^(k-1) of the zero after k steps. *)
Lemma C102_dogleg_terminates_pf :
  forall (Aux : Type) (rtol atol eps : R) lsolve jac_of (fn : list R -> list R * Aux)
         (n m : nat) (y0 root : list R) fs auxs (sigma b gamma rho : R) (K : nat),
    let r x := fst (fn x) in let J := jac_of fn in
    let near x := length x = n /\ (Rnorm (Rsub_v x root) <= rho)%R in
    (0 <= eps)%R -> exact_least_squares n lsolve -> (forall A c, snd (lsolve A c) = successful) -> residual_problem n m r J ->
    length root = n -> r root = zerov m -> (0 < sigma)%R -> (0 <= b)%R -> (0 <= gamma)%R ->
    (forall x v, near x -> length v = n ->
       sigma * Rdot v v <= Rdot (op_mv (J x) v) (op_mv (J x) v) /\ Rdot (op_mv (J x) v) (op_mv (J x) v) <= b * b * Rdot v v)%R ->
    (forall x x', near x -> near x' ->
       Rnorm (Rsub_v (Rsub_v (r x') (r x)) (op_mv (J x) (Rsub_v x' x))) <= gamma * Rdot (Rsub_v x' x) (Rsub_v x' x))%R ->
    (b * gamma * rho + 3 * (gamma * rho) * (gamma * rho) < sigma / 200)%R -> near y0 -> (0 <= rtol)%R -> (0 < atol)%R ->
    (2 * rho * (/ 200) ^ K < atol)%R -> (2 * (b + 2 * gamma * rho) * rho * (/ 200) ^ K < atol)%R ->
    let s := Dogleg (N:=RN) (mkTols rtol atol max_norm) jac_of lsolve eps in
    exists k, 1 <= k <= K + 2 /\
      forall fuel budget throw, k < fuel -> (forall j, budget = Some j -> k <= j) ->
        exists sol, iterative_solve (vallfinite (N:=RN)) s fn fuel budget throw y0 fs auxs = Ret sol /\
          result sol = successful /\ (Rnorm (Rsub_v (value sol) root) <= rho * (/ 200) ^ pred k)%R /\
          hd_error (sol_stats sol) = Some ("num_steps"%string, Some (Z.of_nat k)).
Proof.
  intros Aux rtol atol eps lsolve jac_of fn n m y0 root fs auxs sigma b gamma rho K r J near He HE HR HP Lroot Hroot S0 b0 g0 HJ HL Hsmall Hy0 Hrt Hat H1 H2 s.
  set (P := mkTols (N:=RN) rtol atol max_norm) in *.
  set (st0 := gn_st0 (classical_trust_region (N:=RN) tr_default) (dogleg_descent (N:=RN) lsolve eps two_norm None) y0 fs auxs).
  assert (Hi : s_init s fn y0 fs auxs = Ret st0) by reflexivity.
  pose proof (dogleg_descends Aux lsolve eps jac_of fn n m He HE HP) as HD. cbv zeta in HD.
  assert (HN : forall x (step : R) st, length x = n -> (1 <= step)%R ->
    fst (d_step (dogleg_descent (N:=RN) lsolve eps two_norm None) step
      (d_query (dogleg_descent (N:=RN) lsolve eps two_norm None) x (ResidualJac (N:=RN) (fst (fn x)) (jac_of fn x)) st)) = Rscal (-1) (fst (lsolve (jac_of fn x) (fst (fn x))))).
  { intros x step st' Lx Hs. destruct (HP x Lx) as (Lr & HA & HT). exact (dogleg_full n m _ _ x lsolve eps step st' HE HA HT Lr He Hs). }
  assert (SR : forall k, says_result s fn y0 st0 (auxs fill0) k = successful).
  { intros [|k]; [reflexivity|].
    exact (eq_trans (C64_dogleg_pf RN Aux P lsolve eps jac_of fn y0 fs auxs st0 Hi k) (HR _ _)). }
  exact (ns_succeeds P lsolve (dogleg_descent (N:=RN) lsolve eps two_norm None) jac_of fn n m y0 root fs auxs sigma b gamma rho HE HP Lroot Hroot S0 b0 g0 HJ HL Hsmall (proj1 Hy0) HD HN Hy0 Hrt Hat eq_refl K H1 H2 SR Hi).
Qed.

(** The same for IndirectLevenbergMarquardt. *)
Lemma C102_indirect_terminates_pf :
  forall (Aux : Type) (rtol atol eps fmax : R) lsolve (rfind : (R -> R) -> R) jac_of (fn : list R -> list R * Aux)
         (n m : nat) (y0 root : list R) fs auxs (sigma b gamma rho : R) (K : nat),
    let r x := fst (fn x) in let J := jac_of fn in
    let near x := length x = n /\ (Rnorm (Rsub_v x root) <= rho)%R in
    (0 <= eps)%R -> (0 < fmax)%R -> exact_least_squares n lsolve -> (forall A c, snd (lsolve A c) = successful) -> residual_problem n m r J ->
    length root = n -> r root = zerov m -> (0 < sigma)%R -> (0 <= b)%R -> (0 <= gamma)%R ->
    (forall x v, near x -> length v = n ->
       sigma * Rdot v v <= Rdot (op_mv (J x) v) (op_mv (J x) v) /\ Rdot (op_mv (J x) v) (op_mv (J x) v) <= b * b * Rdot v v)%R ->
    (forall x x', near x -> near x' ->
       Rnorm (Rsub_v (Rsub_v (r x') (r x)) (op_mv (J x) (Rsub_v x' x))) <= gamma * Rdot (Rsub_v x' x) (Rsub_v x' x))%R ->
    (b * gamma * rho + 3 * (gamma * rho) * (gamma * rho) < sigma / 200)%R -> near y0 -> (0 <= rtol)%R -> (0 < atol)%R ->
    (2 * rho * (/ 200) ^ K < atol)%R -> (2 * (b + 2 * gamma * rho) * rho * (/ 200) ^ K < atol)%R ->
    let s := IndirectLevenbergMarquardt (N:=RN) (mkTols rtol atol max_norm) jac_of lsolve eps fmax rfind in
    exists k, 1 <= k <= K + 2 /\
      forall fuel budget throw, k < fuel -> (forall j, budget = Some j -> k <= j) ->
        exists sol, iterative_solve (vallfinite (N:=RN)) s fn fuel budget throw y0 fs auxs = Ret sol /\
          result sol = successful /\ (Rnorm (Rsub_v (value sol) root) <= rho * (/ 200) ^ pred k)%R /\
          hd_error (sol_stats sol) = Some ("num_steps"%string, Some (Z.of_nat k)).
Proof.
  intros Aux rtol atol eps fmax lsolve rfind jac_of fn n m y0 root fs auxs sigma b gamma rho K r J near He Hf HE HR HP Lroot Hroot S0 b0 g0 HJ HL Hsmall Hy0 Hrt Hat H1 H2 s.
  set (P := mkTols (N:=RN) rtol atol max_norm) in *.
  set (st0 := gn_st0 (classical_trust_region (N:=RN) tr_default) (indirect_damped_newton_descent (N:=RN) lsolve eps fmax two_norm rfind) y0 fs auxs).
  assert (Hi : s_init s fn y0 fs auxs = Ret st0) by reflexivity.
  pose proof (ind_descends Aux eps fmax lsolve rfind jac_of fn n m He Hf HE HP) as HD. cbv zeta in HD.
  assert (HN : forall x (step : R) st, length x = n -> (1 <= step)%R ->
    fst (d_step (indirect_damped_newton_descent (N:=RN) lsolve eps fmax two_norm rfind) step
      (d_query (indirect_damped_newton_descent (N:=RN) lsolve eps fmax two_norm rfind) x (ResidualJac (N:=RN) (fst (fn x)) (jac_of fn x)) st)) = Rscal (-1) (fst (lsolve (jac_of fn x) (fst (fn x))))).
  { intros x step st' Lx Hs. destruct (HP x Lx) as (Lr & HA & HT). exact (proj1 (C69_length_pf lsolve eps fmax rfind n m _ _ x step st' HE HA Lr Lx He) (or_introl Hs)). }
  assert (SR : forall k, says_result s fn y0 st0 (auxs fill0) k = successful).
  { intros [|k]; [reflexivity|].
    destruct (C64_indirect_levenberg_marquardt_pf RN Aux P lsolve eps fmax rfind jac_of fn y0 fs auxs st0 Hi k) as [Z1 Z2].
    destruct (nltb _ _) eqn:EL in Z1, Z2.
    - destruct (Z2 (HR _ _) eq_refl) as (stack & _ & _ & E). exact (eq_trans E (HR _ _)).
    - destruct (Z1 (or_intror eq_refl)) as [_ E]. exact (eq_trans E (HR _ _)). }
  exact (ns_succeeds P lsolve (indirect_damped_newton_descent (N:=RN) lsolve eps fmax two_norm rfind) jac_of fn n m y0 root fs auxs sigma b gamma rho HE HP Lroot Hroot S0 b0 g0 HJ HL Hsmall (proj1 Hy0) HD HN Hy0 Hrt Hat eq_refl K H1 H2 SR Hi).
Qed.


Example C102_dogleg_ex_pf :
  let s := Dogleg (N:=RN) (mkTols (N:=RN) (1/10)%R (1/100)%R max_norm) para_jac lsolve1 (1/100)%R in
  let s' := GaussNewton (N:=RN) (mkTols (N:=RN) (1/10)%R (1/100)%R max_norm) para_jac lsolve1 in
  exists st0 st0', s_init s para [(1 / 400)%R] (fun _ => [0%R]) (fun _ => tt) = Ret st0 /\ s_init s' para [(1 / 400)%R] (fun _ => [0%R]) (fun _ => tt) = Ret st0' /\
  let e k := Rnorm (Rsub_v (y_at s para [(1 / 400)%R] st0 tt (S k) : list R) [0%R]) in
  (forall k, y_at s' para [(1 / 400)%R] st0' tt (S k) = y_at s para [(1 / 400)%R] st0 tt (S k)) /\
  forall k, (e (S k) <= 201 / 200 * 1 / (99 / 100) * (e k * e k))%R.
Proof.
  intros s s'. eexists. eexists. split; [reflexivity|]. split; [reflexivity|]. intro e. destruct para_hyps as (H1 & H2 & H3 & H4 & H5 & H6).
  destruct (C102_dogleg_pf unit (mkTols (N:=RN) (1/10)%R (1/100)%R max_norm) (1/100)%R lsolve1 para_jac para 1 1 [(1 / 400)%R] [0%R] (fun _ => [0%R]) (fun _ => tt)
    (99/100)%R (201/200)%R 1%R (1/400)%R _ _ ltac:(lra) (proj1 C32_levenberg_marquardt_ex_pf) H1 eq_refl H2 ltac:(lra) ltac:(lra) ltac:(lra) H3 H4 H5 H6 eq_refl eq_refl)
    as (_ & _ & _ & K1 & K2 & _).
  split; [exact K1|exact K2].
Qed.

Example C102_dogleg_terminates_ex_pf :
  let s := Dogleg (N:=RN) (mkTols (N:=RN) (1/10)%R (1/1000)%R max_norm) para_jac lsolve1 (1/100)%R in
  exists k, 1 <= k <= 3 /\
    forall fuel budget throw, k < fuel -> (forall j, budget = Some j -> k <= j) ->
      exists sol, iterative_solve (vallfinite (N:=RN)) s para fuel budget throw [(1 / 400)%R] (fun _ => [0%R]) (fun _ => tt) = Ret sol /\
        result sol = successful.
Proof.
  intro s. destruct para_hyps as (H1 & H2 & H3 & H4 & H5 & H6).
  destruct (C102_dogleg_terminates_pf unit (1/10)%R (1/1000)%R (1/100)%R lsolve1 para_jac para 1 1 [(1 / 400)%R] [0%R] (fun _ => [0%R]) (fun _ => tt)
    (99/100)%R (201/200)%R 1%R (1/400)%R 1 ltac:(lra) (proj1 C32_levenberg_marquardt_ex_pf) (fun _ _ => eq_refl) H1 eq_refl H2 ltac:(lra) ltac:(lra) ltac:(lra) H3 H4 H5 H6 ltac:(lra) ltac:(lra)
    ltac:(cbn [pow]; lra) ltac:(cbn [pow]; lra)) as (k & HK & HS).
  exists k. split; [lia|]. intros fuel budget throw Hfu Hb. destruct (HS fuel budget throw Hfu Hb) as (sol & E1 & E2 & _). exists sol. auto.
Qed.

Example C102_indirect_levenberg_marquardt_ex_pf :
  let s := IndirectLevenbergMarquardt (N:=RN) (mkTols (N:=RN) (1/10)%R (1/100)%R max_norm) para_jac lsolve1 (1/100)%R 1000%R rational_root in
  let s' := GaussNewton (N:=RN) (mkTols (N:=RN) (1/10)%R (1/100)%R max_norm) para_jac lsolve1 in
  exists st0 st0', s_init s para [(1 / 400)%R] (fun _ => [0%R]) (fun _ => tt) = Ret st0 /\ s_init s' para [(1 / 400)%R] (fun _ => [0%R]) (fun _ => tt) = Ret st0' /\
  let e k := Rnorm (Rsub_v (y_at s para [(1 / 400)%R] st0 tt (S k) : list R) [0%R]) in
  (forall k, y_at s' para [(1 / 400)%R] st0' tt (S k) = y_at s para [(1 / 400)%R] st0 tt (S k)) /\
  forall k, (e (S k) <= 201 / 200 * 1 / (99 / 100) * (e k * e k))%R.
Proof.
  intros s s'. eexists. eexists. split; [reflexivity|]. split; [reflexivity|]. intro e. destruct para_hyps as (H1 & H2 & H3 & H4 & H5 & H6).
  destruct (C102_indirect_levenberg_marquardt_pf unit (mkTols (N:=RN) (1/10)%R (1/100)%R max_norm) (1/100)%R 1000%R lsolve1 rational_root para_jac para 1 1 [(1 / 400)%R] [0%R] (fun _ => [0%R]) (fun _ => tt)
    (99/100)%R (201/200)%R 1%R (1/400)%R _ _ ltac:(lra) ltac:(lra) (proj1 C32_levenberg_marquardt_ex_pf) H1 eq_refl H2 ltac:(lra) ltac:(lra) ltac:(lra) H3 H4 H5 H6 eq_refl eq_refl)
    as (_ & _ & _ & K1 & K2 & _).
  split; [exact K1|exact K2].
Qed.

Example C102_indirect_terminates_ex_pf :
  let s := IndirectLevenbergMarquardt (N:=RN) (mkTols (N:=RN) (1/10)%R (1/1000)%R max_norm) para_jac lsolve1 (1/100)%R 1000%R rational_root in
  exists k, 1 <= k <= 3 /\
    forall fuel budget throw, k < fuel -> (forall j, budget = Some j -> k <= j) ->
      exists sol, iterative_solve (vallfinite (N:=RN)) s para fuel budget throw [(1 / 400)%R] (fun _ => [0%R]) (fun _ => tt) = Ret sol /\
        result sol = successful.
Proof.
  intro s. destruct para_hyps as (H1 & H2 & H3 & H4 & H5 & H6).
  destruct (C102_indirect_terminates_pf unit (1/10)%R (1/1000)%R (1/100)%R 1000%R lsolve1 rational_root para_jac para 1 1 [(1 / 400)%R] [0%R] (fun _ => [0%R]) (fun _ => tt)
    (99/100)%R (201/200)%R 1%R (1/400)%R 1 ltac:(lra) ltac:(lra) (proj1 C32_levenberg_marquardt_ex_pf) (fun _ _ => eq_refl) H1 eq_refl H2 ltac:(lra) ltac:(lra) ltac:(lra) H3 H4 H5 H6 ltac:(lra) ltac:(lra)
    ltac:(cbn [pow]; lra) ltac:(cbn [pow]; lra)) as (k & HK & HS).
  exists k. split; [lia|]. intros fuel budget throw Hfu Hb. destruct (HS fuel budget throw Hfu Hb) as (sol & E1 & E2 & _). exists sol. auto.
Qed.
