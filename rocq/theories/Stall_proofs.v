(** An accepted step that does not move (C104). *)

From Coq Require Import String List Bool Arith Lia ZArith QArith Qreals Reals Lra Psatz.
From Verif Require Import Num NumF64 NumFacts Vec Results Iterate Spec_Iterate Iterate_proofs Spec_Examples.
From Verif Require Import Spec_Vec VecFacts Spec_Lin LinFacts.
From Verif Require Import Search Spec_Search Descent Minimisers Solvers Minimisers_proofs.
From Verif Require Import TrustRegion_proofs LeastSquares_proofs Dogleg_proofs Spec_Steps Steps_proofs Spec_Convergence Convergence_proofs.
From Verif Require Import GaussNewton_proofs DoglegConv_proofs IndirectConv_proofs GaussNewtonConv_proofs Spec_IndirectConv Certificate_proofs LMLocal_proofs TrustLocal_proofs TrustGlobal_proofs.
Import ListNotations.
Local Open Scope nat_scope.

Lemma add_stays : forall (n : nat) (x d : list R), length x = n -> length d = n -> Radd_v x d = x -> d = zerov n.
Proof.
  induction n as [|n IH]; intros [|a x] [|b d]; cbn [length]; intros H1 H2 H; try discriminate; [reflexivity|].
  cbn [Radd_v] in H. injection H as Ha H. change (zerov (S n)) with (0%R :: zerov n). f_equal; [lra|].
  apply (IH x d); [lia|lia|exact H].
Qed.

Lemma no_direction : forall (n : nat) (g : list R), length g = n -> (forall v, length v = n -> Rdot g v = 0%R) -> g = zerov n.
Proof.
  intros n g Lg H. rewrite <- Lg. apply Rnorm_0. unfold Rnorm. rewrite (H g Lg). apply sqrt_0.
Qed.

Lemma zero_dot : forall (n : nat) (v : list R), Rdot (zerov n) v = 0%R.
Proof. induction n as [|n IH]; intros [|a v]; try reflexivity. change (zerov (S n)) with (0%R :: zerov n). cbn [Rdot]. rewrite IH. lra. Qed.

(** From the normal equations with any damping *)
Lemma damped_zero : forall (n m : nat) (A : linop RN) (r : list R) (lam : R), linear_op n m A -> transpose_op n A -> length r = m ->
  (forall v, length v = n -> (Rdot (Radd_v (op_mv A (zerov n)) r) (op_mv A v) + lam * Rdot (zerov n) v = 0)%R) ->
  op_mvT A r = zerov n.
Proof.
  intros n m A r lam HA (T1 & T2) Lr H. pose proof HA as (L1 & L2 & L3).
  apply no_direction; [apply T1|]. intros v Lv. rewrite T2 by exact Lv. specialize (H v Lv). rewrite zero_dot in H.
  assert (Z : op_mv A (zerov n) = zerov m).
  { rewrite <- (L1 (zerov n)) by apply zerov_length. 
    apply Rnorm_0. unfold Rnorm. replace (Rdot (op_mv A (zerov n)) (op_mv A (zerov n))) with 0%R; [apply sqrt_0|].
    assert (E : zerov n = Rscal 0 (zerov n)).
    { clear. induction n as [|n IH]; [reflexivity|]. change (zerov (S n)) with (0%R :: zerov n). cbn [Rscal map]. f_equal; [lra|exact IH]. }
    rewrite E at 1. rewrite L3 by apply zerov_length. rewrite Rdot_scal_l. lra. }
  rewrite Z in H. rewrite (Rdot_add_l) in H by (rewrite zerov_length, Lr; reflexivity). rewrite zero_dot in H. lra.
Qed.

(** ** The pieces *)
Lemma newton_zero : forall (n m : nat) (A : linop RN) (r : list R) lsolve, exact_least_squares n lsolve -> linear_op n m A -> transpose_op n A ->
  length r = m -> Rdot (op_mv A (Rscal (-1) (fst (lsolve A r)))) (op_mv A (Rscal (-1) (fst (lsolve A r)))) = 0%R -> op_mvT A r = zerov n.
Proof.
  intros n m A r lsolve HE HA HT Lr H. set (nw := Rscal (-1) (fst (lsolve A r))) in *.
  apply no_direction; [apply (proj1 HT)|]. intros v Lv.
  pose proof (newton_orth n m A r lsolve 0%R HE HA HT Lr v Lv) as O. fold nw in O.
  assert (Z : op_mv A nw = zerov (length (op_mv A nw : list R))) by (apply Rnorm_0; unfold Rnorm; rewrite H; apply sqrt_0).
  rewrite Z in O. rewrite zero_dot in O. lra.
Qed.

Lemma dogleg_zero : forall (n m : nat) (A : linop RN) (r y : list R) lsolve (eps step : R) st,
  exact_least_squares n lsolve -> linear_op n m A -> transpose_op n A -> length r = m -> (0 <= eps)%R -> (0 < step)%R ->
  let descent := dogleg_descent (N:=RN) lsolve eps two_norm None in
  fst (d_step descent step (d_query descent y (ResidualJac (N:=RN) r A) st)) = zerov n ->
  let g : list R := op_mvT A r in let dn := Rdot (op_mv A g) (op_mv A g) in
  let cauchy := Rscal (- (if Rltb eps dn then Rdot g g / dn else 0))%R g in
  g = zerov n \/ ((step < 1)%R /\ (Rnorm cauchy <= eps)%R).
Proof.
  intros n m A r y lsolve eps step st HE HA HT Lr He Hs descent Hd g dn cauchy.
  set (nw := Rscal (-1) (fst (lsolve A r))).
  assert (NZ : Rdot (op_mv A nw) (op_mv A nw) = 0%R -> g = zerov n) by exact (newton_zero n m A r lsolve HE HA HT Lr).
  assert (Z0 : op_mv A (zerov n) = zerov m).
  { pose proof HA as (L1 & _ & L3). rewrite <- (L1 (zerov n)) by apply zerov_length. apply Rnorm_0. unfold Rnorm.
    replace (Rdot (op_mv A (zerov n)) (op_mv A (zerov n))) with 0%R; [apply sqrt_0|].
    assert (E : zerov n = Rscal 0 (zerov n)).
    { clear. induction n as [|n IH]; [reflexivity|]. change (zerov (S n)) with (0%R :: zerov n). cbn [Rscal map]. f_equal; [lra|exact IH]. }
    rewrite E at 1. rewrite L3 by apply zerov_length. rewrite Rdot_scal_l. lra. }
  assert (NW : nw = zerov n -> g = zerov n).
  { intro E. apply NZ. rewrite E, Z0. apply zero_dot. }
  destruct (dog_lens n m A r lsolve eps HE HA HT Lr) as (Lg & Ln & Lc). fold nw in Ln.
  destruct (dog_cases n m A r y lsolve eps step st HE HA HT Lr He Hs) as [(F1 & F2 & E)|[(F1 & F2 & _)|[(F1 & F2 & u & U & E & Us)|(F1 & F2 & E)]]].
  - left. fold g dn cauchy nw in F1, F2, E. fold descent in E. rewrite Hd in E.
    assert (C0 : (Rdot cauchy cauchy <> 0)%R). { intro Q. unfold Rnorm in F2. rewrite Q, sqrt_0 in F2. lra. }
    assert (Q : (Rnorm nw * step / Rnorm cauchy * Rdot cauchy cauchy = 0)%R).
    { rewrite <- Rdot_scal_l, <- E. apply zero_dot. }
    apply Rmult_integral in Q. destruct Q as [Q|Q]; [|contradiction].
    apply NW. rewrite <- Ln. apply Rnorm_0. unfold Rdiv in Q. apply Rmult_integral in Q. destruct Q as [Q|Q].
    + apply Rmult_integral in Q. destruct Q; [assumption|lra].
    + exfalso. apply (Rinv_neq_0_compat (Rnorm cauchy)); [lra|exact Q].
  - right. fold g dn cauchy nw in F1, F2. split; [|exact F2].
    destruct (Rlt_le_dec step 1) as [?|S1]; [assumption|exfalso].
    pose proof (cauchy_le_newton n m A r lsolve eps HE HA HT Lr He) as CN. cbv zeta in CN. fold g dn cauchy in CN.
    change (Rnorm cauchy <= Rnorm nw)%R in CN.
    pose proof (Rnorm_pos nw). assert (Rnorm nw * 1 <= Rnorm nw * step)%R by (apply Rmult_le_compat_l; assumption). lra.
  - left. fold g dn cauchy nw in E, Us. fold descent in E. rewrite Hd in E.
    assert (SL : Rdot g nw = (- Rdot (op_mv A nw) (op_mv A nw))%R).
    { pose proof (newton_orth n m A r lsolve 0%R HE HA HT Lr nw Ln) as O. fold nw in O. fold g in O. lra. }
    set (al := (if Rltb eps dn then Rdot g g / dn else 0)%R) in *.
    assert (AL : (0 <= al)%R).
    { unfold al. destruct (Rltb eps dn) eqn:Eb; [|lra]. apply Rltb_true in Eb. pose proof (Rdot_pos g).
      apply Rmult_le_pos; [lra|]. apply Rlt_le, Rinv_0_lt_compat. lra. }
    assert (SC : Rdot g cauchy = (- (al * Rdot g g))%R) by (unfold cauchy; rewrite Rdot_scal_r; ring).
    assert (Lc' : length cauchy = n) by (unfold cauchy; rewrite Rscal_length; exact Lg).
    assert (Q : (- (1 - u) * (al * Rdot g g) - u * Rdot (op_mv A nw) (op_mv A nw) = 0)%R).
    { transitivity (Rdot g (zerov n)); [|rewrite (Rdot_comm g (zerov n)); apply zero_dot]. rewrite E.
      rewrite Rdot_add_r by (rewrite Rscal_length, (Rsub_v_length _ _ n); auto).
      rewrite Rdot_scal_r, Rdot_sub_r by (rewrite Ln, Lc'; reflexivity). rewrite SC, SL. ring. }
    pose proof (Rdot_pos g) as P1. pose proof (Rdot_pos (op_mv A nw)) as P2.
    assert (P3 : (0 <= (1 - u) * (al * Rdot g g))%R) by (apply Rmult_le_pos; [lra|apply Rmult_le_pos; assumption]).
    assert (P4 : (0 <= u * Rdot (op_mv A nw) (op_mv A nw))%R) by (apply Rmult_le_pos; lra).
    destruct (Req_dec u 0) as [U0|U0].
    + subst u. assert (CZ : cauchy = zerov n).
      { rewrite <- Lc'. apply Rnorm_0. unfold Rnorm. replace (Rdot cauchy cauchy) with 0%R; [apply sqrt_0|].
        transitivity (Rdot (zerov n) cauchy); [symmetry; apply zero_dot|]. rewrite E.
        rewrite Rdot_add_l by (rewrite Rscal_length, (Rsub_v_length _ _ n); auto). rewrite Rdot_scal_l. ring. }
      destruct (Req_dec (Rnorm nw) 0) as [NN|NN]; [|specialize (Us CZ NN); lra].
      apply NW. rewrite <- Ln. apply Rnorm_0. exact NN.
    + apply NZ. apply (Rmult_eq_reg_l u); [lra|exact U0].
  - left. apply NW. fold descent in E. rewrite Hd in E. symmetry. exact E.
Qed.

Lemma still_terminates : forall (rtol atol : R) (y f : list R), (0 <= rtol)%R -> (0 < atol)%R ->
  cauchy_termination (N:=RN) rtol atol max_norm y (Rsub_v y y) f (Rsub_v f f) = true.
Proof.
  intros rtol atol y f Hr Ha.
  assert (G : forall (v : list R) i a b, nth_error (Rsub_v v v) i = Some a -> nth_error v i = Some b -> (Rabs a < atol + rtol * Rabs b)%R).
  { intros v i a b H1 _. assert (a = 0%R).
    { revert i H1. induction v as [|x v IH]; intros [|i] H1; cbn in H1; try discriminate; [injection H1; intros; lra|exact (IH i H1)]. }
    subst a. rewrite Rabs_R0. assert (0 <= rtol * Rabs b)%R by (apply Rmult_le_pos; [exact Hr|apply Rabs_pos]). lra. }
  apply cauchy_RN; try assumption; apply G.
Qed.

(** One accepted step without movement, in any run under the trust region *)
Section Still.
  Context {Aux : Type}.
  Variables (rtol atol : R) (descent : Descent RN) (jac_of : (list R -> list R * Aux) -> list R -> linop RN) (fn : list R -> list R * Aux).
  Variables (n : nat) (y0 : list R) (fs : fillv -> list R) (auxs : fillv -> Aux).
  Let P := mkTols (N:=RN) rtol atol max_norm.
  Let search := classical_trust_region (N:=RN) tr_default.
  Let s := gauss_newton_solver (N:=RN) P search descent jac_of.
  Let st0 := gn_st0 (N:=RN) search descent y0 fs auxs.
  Let Y : nat -> list R := y_at s fn y0 st0 (auxs fill0).
  Let Sk := st_at s fn y0 st0 (auxs fill0).
  Hypothesis Hr : (0 <= rtol)%R.
  Hypothesis Ha : (0 < atol)%R.
  Hypothesis Ly0 : length y0 = n.
  Hypothesis HD : forall y (step : R) st, length y = n -> (0 < step)%R ->
    let i := ResidualJac (N:=RN) (fst (fn y)) (jac_of fn y) in
    let d := fst (d_step descent step (d_query descent y i st)) in
    length d = n /\ (classical_predict (N:=RN) d i <= 0)%R.

  Lemma still_step : forall k, gn_num_accepted_steps (Sk (S (S k))) = S (gn_num_accepted_steps (Sk (S k))) -> Y (S (S k)) = Y (S k) ->
    gn_terminate (Sk (S (S k))) = true /\ length (Y (S k)) = n /\ (0 < (gn_search_state (Sk (S k)) : R))%R /\
    exists st, fst (d_step descent (gn_search_state (Sk (S k)))
      (d_query descent (Y (S k)) (ResidualJac (N:=RN) (fst (fn (Y (S k)))) (jac_of fn (Y (S k)))) st)) = zerov n.
  Proof.
    intros k HA HY. destruct (run_inv P descent jac_of fn n y0 fs auxs Ly0 HD (S k)) as (I1 & I2 & _).
    destruct (run_step P descent jac_of fn n y0 fs auxs Ly0 HD k) as (st' & D1 & _ & [(_ & E1 & _ & _ & E2)|(_ & _ & E & _)]).
    - cbv zeta in D1. split; [|split; [exact I1|split; [exact I2|]]].
      + refine (eq_trans E2 _). change (cauchy_termination (N:=RN) rtol atol max_norm (Y (S (S k))) (Rsub_v (Y (S (S k))) (Y (S k)))
          (fst (fn (Y (S (S k))))) (Rsub_v (fst (fn (Y (S (S k))))) (fst (fn (Y (S k))))) = true). rewrite HY. apply still_terminates; assumption.
      + exists st'. apply (add_stays n (Y (S k))); [exact I1|exact D1|]. exact (eq_trans (eq_sym E1) HY).
    - exfalso. assert (Q : gn_num_accepted_steps (Sk (S (S k))) = gn_num_accepted_steps (Sk (S k))) by exact E. lia.
  Qed.
End Still.

Lemma lm_damped : forall lsolve (eps fmax : R) (n m : nat) (A : linop RN) (r y : list R) (step : R) st, exact_least_squares n lsolve ->
  linear_op n m A -> length r = m -> (0 <= eps)%R -> (0 < fmax)%R -> length y = n ->
  let descent := damped_newton_descent (N:=RN) lsolve eps fmax in
  fst (d_step descent step (d_query descent y (ResidualJac (N:=RN) r A) st)) = zerov n -> transpose_op n A -> op_mvT A r = zerov n.
Proof.
  intros lsolve eps fmax n m A r y step st HE HL Lr He Hf Ly descent D HT.
  pose proof (damped_step_some lsolve eps fmax n m A r step HE HL Lr He Hf) as K. cbv zeta in K.
  unfold descent in D. cbn [damped_newton_descent d_step d_query fst snd] in D.
  pose proof Ly as EL. change (@length (T RN) y = n) in EL. rewrite EL in D.
  destruct (damped_newton_step (N:=RN) lsolve eps fmax n step (ResidualJac (N:=RN) r A)) as [sol res].
  cbn [fst] in *. rewrite vneg_RN in D. rewrite D in K. destruct K as (_ & lam & _ & K).
  exact (damped_zero n m A r lam HL HT Lr K).
Qed.

(** [LevenbergMarquardt], over the reals with exact least-squares solves: when a step (after the first) is accepted and leaves y where it was, the gradient
    J^T r at y is exactly zero, and the solver stops there. *)
Lemma C104_levenberg_marquardt_pf :
  forall (Aux : Type) (rtol atol eps fmax : R) lsolve jac_of (fn : list R -> list R * Aux) (n m : nat) (y0 : list R) fs auxs st0,
    let r x := fst (fn x) in let J := jac_of fn in
    (0 <= rtol)%R -> (0 < atol)%R -> (0 <= eps)%R -> (0 < fmax)%R -> exact_least_squares n lsolve -> residual_problem n m r J -> length y0 = n ->
    let s := LevenbergMarquardt (N:=RN) (mkTols rtol atol max_norm) jac_of lsolve eps fmax in
    s_init s fn y0 fs auxs = Ret st0 ->
    let y k : list R := y_at s fn y0 st0 (auxs fill0) k in
    let st k := st_at s fn y0 st0 (auxs fill0) k in
    forall k, 0 < k -> gn_num_accepted_steps (st (S k)) = S (gn_num_accepted_steps (st k)) -> y (S k) = y k ->
      ls_gradient r J (y k) = zerov n /\ gn_terminate (st (S k)) = true.
Proof.
  intros Aux rtol atol eps fmax lsolve jac_of fn n m y0 fs auxs st0 r J Hr Ha He Hf HE HP Ly0 s Hi y st k Hk HA HY.
  unfold s in Hi. apply gn_init_inv in Hi. subst st0. destruct k as [|k]; [lia|].
  destruct (still_step rtol atol (damped_newton_descent (N:=RN) lsolve eps fmax) jac_of fn n y0 fs auxs Hr Ha Ly0
    (lm_descends eps fmax lsolve jac_of fn n m He Hf HE HP) k HA HY) as (HTm & Ly & R0 & st' & D).
  split; [|exact HTm]. destruct (HP _ Ly) as (Lr & HL & HT).
  exact (lm_damped lsolve eps fmax n m _ _ _ _ st' HE HL Lr He Hf Ly D HT).
Qed.

(** The same for [IndirectLevenbergMarquardt], whatever its inner root finder returns. *)
Lemma C104_indirect_levenberg_marquardt_pf :
  forall (Aux : Type) (rtol atol eps fmax : R) lsolve rfind jac_of (fn : list R -> list R * Aux) (n m : nat) (y0 : list R) fs auxs st0,
    let r x := fst (fn x) in let J := jac_of fn in
    (0 <= rtol)%R -> (0 < atol)%R -> (0 <= eps)%R -> (0 < fmax)%R -> exact_least_squares n lsolve -> residual_problem n m r J -> length y0 = n ->
    let s := IndirectLevenbergMarquardt (N:=RN) (mkTols rtol atol max_norm) jac_of lsolve eps fmax rfind in
    s_init s fn y0 fs auxs = Ret st0 ->
    let y k : list R := y_at s fn y0 st0 (auxs fill0) k in
    let st k := st_at s fn y0 st0 (auxs fill0) k in
    forall k, 0 < k -> gn_num_accepted_steps (st (S k)) = S (gn_num_accepted_steps (st k)) -> y (S k) = y k ->
      ls_gradient r J (y k) = zerov n /\ gn_terminate (st (S k)) = true.
Proof.
  intros Aux rtol atol eps fmax lsolve rfind jac_of fn n m y0 fs auxs st0 r J Hr Ha He Hf HE HP Ly0 s Hi y st k Hk HA HY.
  unfold s in Hi. apply gn_init_inv in Hi. subst st0. destruct k as [|k]; [lia|].
  destruct (still_step rtol atol (indirect_damped_newton_descent (N:=RN) lsolve eps fmax two_norm rfind) jac_of fn n y0 fs auxs Hr Ha Ly0
    (ind_descends Aux eps fmax lsolve rfind jac_of fn n m He Hf HE HP) k HA HY) as (HTm & Ly & R0 & st' & D).
  split; [|exact HTm]. destruct (HP _ Ly) as (Lr & HL & HT).
  destruct (indirect_damped Aux lsolve eps fmax rfind jac_of fn n m He Hf HE HP _ _ st' Ly R0) as (lam & _ & K).
  rewrite D in K. exact (damped_zero n m _ _ lam HL HT Lr K).
Qed.

(** The same for [Dogleg], except that it may also stand still with a step size below 1 at a point whose Cauchy step is no longer than eps. *)
Lemma C104_dogleg_pf :
  forall (Aux : Type) (rtol atol eps : R) lsolve jac_of (fn : list R -> list R * Aux) (n m : nat) (y0 : list R) fs auxs st0,
    let r x := fst (fn x) in let J := jac_of fn in
    let cauchy x : list R := let g := op_mvT (J x) (r x) in let dn := Rdot (op_mv (J x) g) (op_mv (J x) g) in
      Rscal (- (if Rltb eps dn then Rdot g g / dn else 0))%R g in
    (0 <= rtol)%R -> (0 < atol)%R -> (0 <= eps)%R -> exact_least_squares n lsolve -> residual_problem n m r J -> length y0 = n ->
    let s := Dogleg (N:=RN) (mkTols rtol atol max_norm) jac_of lsolve eps in
    s_init s fn y0 fs auxs = Ret st0 ->
    let y k : list R := y_at s fn y0 st0 (auxs fill0) k in
    let st k := st_at s fn y0 st0 (auxs fill0) k in
    forall k, 0 < k -> gn_num_accepted_steps (st (S k)) = S (gn_num_accepted_steps (st k)) -> y (S k) = y k ->
      (ls_gradient r J (y k) = zerov n \/ ((gn_search_state (st k) : R) < 1 /\ Rnorm (cauchy (y k)) <= eps)%R) /\ gn_terminate (st (S k)) = true.
Proof.
  intros Aux rtol atol eps lsolve jac_of fn n m y0 fs auxs st0 r J cauchy Hr Ha He HE HP Ly0 s Hi y st k Hk HA HY.
  unfold s in Hi. apply gn_init_inv in Hi. subst st0. destruct k as [|k]; [lia|].
  destruct (still_step rtol atol (dogleg_descent (N:=RN) lsolve eps two_norm None) jac_of fn n y0 fs auxs Hr Ha Ly0
    (dogleg_descends Aux lsolve eps jac_of fn n m He HE HP) k HA HY) as (HTm & Ly & R0 & st' & D).
  split; [|exact HTm]. destruct (HP _ Ly) as (Lr & HL & HT).
  exact (dogleg_zero n m _ _ _ lsolve eps _ st' HE HL HT Lr He R0 D).
Qed.

(** [GaussNewton]: the gradient is zero wherever a step (after the first) leaves y where it was. *)
Lemma C104_gauss_newton_pf :
  forall (Aux : Type) P lsolve jac_of (fn : list R -> list R * Aux) (n m : nat) (y0 : list R) fs auxs st0,
    let r x := fst (fn x) in let J := jac_of fn in
    exact_least_squares n lsolve -> residual_problem n m r J -> length y0 = n ->
    let s := GaussNewton (N:=RN) P jac_of lsolve in
    s_init s fn y0 fs auxs = Ret st0 ->
    let y k : list R := y_at s fn y0 st0 (auxs fill0) k in
    forall k, 0 < k -> y (S k) = y k -> ls_gradient r J (y k) = zerov n.
Proof.
  intros Aux P lsolve jac_of fn n m y0 fs auxs st0 r J HE HP Ly0 s Hi y k Hk HY. destruct k as [|k]; [lia|].
  assert (LY : forall j, length (y (S j)) = n).
  { induction j as [|j IH].
    - destruct (C53_iteration_pf RN Aux P lsolve jac_of fn y0 fs auxs st0 0 Hi) as [E _]. exact (eq_trans (f_equal (@length R) E) Ly0).
    - destruct (C53_iteration_pf RN Aux P lsolve jac_of fn y0 fs auxs st0 j Hi) as [_ E]. fold s in E.
      change (y (S (S j)) = vadd (N:=RN) (y (S j)) (vscale (N:=RN) (nneg (n:=RN) (nofQ (n:=RN) 1)) (fst (lsolve (J (y (S j))) (r (y (S j))))))) in E.
      destruct (HP _ IH) as (Lr & HL & _). destruct (HE m (J (y (S j))) (r (y (S j))) HL Lr) as (Lz & _).
      rewrite E, vadd_RN, vscale_RN. rewrite (Radd_v_length _ _ n); [reflexivity|exact IH|]. rewrite Rscal_length. exact Lz. }
  pose proof (LY k) as Ly. destruct (HP _ Ly) as (Lr & HL & HT). destruct (HE m (J (y (S k))) (r (y (S k))) HL Lr) as (Lz & _).
  destruct (C53_iteration_pf RN Aux P lsolve jac_of fn y0 fs auxs st0 k Hi) as [_ E]. fold s in E.
  change (y (S (S k)) = vadd (N:=RN) (y (S k)) (vscale (N:=RN) (nneg (n:=RN) (nofQ (n:=RN) 1)) (fst (lsolve (J (y (S k))) (r (y (S k))))))) in E.
  rewrite vadd_RN, vscale_RN in E. replace (nneg (n:=RN) (nofQ (n:=RN) 1)) with (-1)%R in E by (cbn; rewrite Q2R_1; reflexivity).
  rewrite HY in E.
  assert (Z : Rscal (-1) (fst (lsolve (J (y (S k))) (r (y (S k))))) = zerov n).
  { apply (add_stays n (y (S k))); [exact Ly|rewrite Rscal_length; exact Lz|symmetry; exact E]. }
  apply (newton_zero n m (J (y (S k))) (r (y (S k))) lsolve HE HL HT Lr). rewrite Z.
  pose proof HL as (L1 & _ & L3).
  assert (EZ : zerov n = Rscal 0 (zerov n)).
  { clear. induction n as [|n IH]; [reflexivity|]. change (zerov (S n)) with (0%R :: zerov n). cbn [Rscal map]. f_equal; [lra|exact IH]. }
  rewrite EZ at 1. rewrite L3 by apply zerov_length. rewrite Rdot_scal_l. lra.
Qed.

(** Without the cutoff's exception the claim fails for Dogleg, already in binary64 with its own eps: with the residual 1 + 2^52 y + (2^55 y)^3 and tolerances 10^-30
    it reports success after three steps, returning the start y0 = 0 with residual 1, gradient 2^52 and both tests met by a step of length zero, although
    at -2^-55 the residual is -1/8. *)
Lemma C104_dogleg_refuted_pf :
  exists (fn : list f64 -> list f64 * unit) jac_of (tol : f64) (y0 better : list f64) sol,
    iterative_solve vallfinite (Dogleg (N:=F64) (mkTols (N:=F64) tol tol max_norm) jac_of column64 eps64) fn
      50 None true y0 (fun _ => [f64_ofQ 0]) (fun _ => tt) = Ret sol /\
    result sol = successful /\ hd_error (sol_stats sol) = Some ("num_steps"%string, Some 3%Z) /\
    let is (v : list f64) q := map (fun x => neqb (n:=F64) x (f64_ofQ q)) v = [true] in
    is y0 0%Q /\ value sol = y0 /\ is (fst (fn y0)) 1%Q /\ is (op_mvT (jac_of fn y0) (fst (fn y0))) 4503599627370496%Q /\
    is better (-1 # 36028797018963968)%Q /\ is (fst (fn better)) (-1 # 8)%Q.
Proof.
  set (k52 := f64_ofQ 4503599627370496). set (k55 := f64_ofQ 36028797018963968).
  set (fn := fun v : list f64 => (map (fun y => let x := nmul (n:=F64) k55 y in
     nadd (n:=F64) (nadd (n:=F64) (f64_ofQ 1) (nmul (n:=F64) k52 y)) (nmul (n:=F64) x (nmul (n:=F64) x x))) v, tt)).
  set (jac := fun (_ : list f64 -> list f64 * unit) (v : list f64) => MatOp (N:=F64) 1 (map (fun y => let x := nmul (n:=F64) k55 y in
     [nadd (n:=F64) k52 (nmul (n:=F64) (nmul (n:=F64) (f64_ofQ 3) k55) (nmul (n:=F64) x x))]) v)).
  set (tol := f64_ofQ (1 # 1000000000000000000000000000000)).
  set (s := Dogleg (N:=F64) (mkTols (N:=F64) tol tol max_norm) jac column64 eps64).
  set (y0 := [f64_ofQ 0]).
  assert (H : succeeds_after 3 (iterative_solve vallfinite s fn 50 None true y0 (fun _ => [f64_ofQ 0]) (fun _ => tt)) = true)
    by (vm_compute; reflexivity).
  apply succeeds_after_inv in H. destruct H as (sol & H1 & H2 & H3).
  exists fn, jac, tol, y0, [f64_ofQ (-1 # 36028797018963968)], sol.
  split; [exact H1|]. split; [exact H2|]. split; [exact H3|]. intro is.
  split; [vm_compute; reflexivity|]. split; [|repeat split; vm_compute; reflexivity].
  destruct (solve_ret_init _ _ _ _ _ _ _ _ _ _ H1) as [st0 Hi].
  destruct (iterative_solve_inv vallfinite s fn y0 st0 tt (fun _ => [f64_ofQ 0]) (fun _ => tt) eq_refl Hi 50 None true sol H1)
    as (k & _ & _ & -> & _).
  pose proof Hi as Hi'. apply gn_init_inv in Hi'. subst st0.
  set (st0 := gn_st0 (classical_trust_region (N:=F64) tr_default) (dogleg_descent (N:=F64) column64 eps64 two_norm None) y0 (fun _ => [f64_ofQ 0]) (fun _ : fillv => tt)) in *.
  pose proof (steps_taken _ _ _ vallfinite s fn y0 st0 (fun _ => tt) None k) as Hs.
  assert (Hk : k = 3).
  { assert (E : Some ("num_steps"%string, Some (Z.of_nat k)) = Some ("num_steps"%string, Some 3%Z)) by exact (eq_trans (eq_sym Hs) H3).
    injection E as E. lia. }
  subst k. vm_compute. reflexivity.
Qed.

(** Residuals x, sqrt(1 + x^2) - 1 (C101), from 2: standing still means being at the zero. *)
Lemma cup_still : forall x : list R, length x = 1 -> ls_gradient (fun x => fst (cup x)) (hyperbola_jac cup) x = zerov 1 -> x = [0%R].
Proof.
  intros x Lx H. destruct cup_hyps as (_ & _ & _ & H4 & H5 & _). specialize (H4 x Lx). specialize (H5 x Lx). cbv zeta in H4, H5.
  pose proof (Rdot_pos (fst (cup x))). pose proof (Rdot_pos (Rsub_v x [0%R])).
  rewrite H, zero_dot in H4. apply (at_root 1 [0%R] x eq_refl Lx). unfold Rnorm.
  replace (Rdot (Rsub_v x [0%R]) (Rsub_v x [0%R])) with 0%R by lra. apply sqrt_0.
Qed.

Example C104_levenberg_marquardt_ex_pf :
  let s := LevenbergMarquardt (N:=RN) (mkTols (N:=RN) (1/10)%R 1%R max_norm) hyperbola_jac lsolve1 (1/100)%R 1000%R in
  exists st0, s_init s cup [2%R] (fun _ => [0; 0]%R) (fun _ => tt) = Ret st0 /\
  let y k : list R := y_at s cup [2%R] st0 tt k in let st k := st_at s cup [2%R] st0 tt k in
  forall k, 0 < k -> gn_num_accepted_steps (st (S k)) = S (gn_num_accepted_steps (st k)) -> y (S k) = y k -> y k = [0%R].
Proof.
  intro s. eexists. split; [reflexivity|]. intros y st k Hk HA HY.
  destruct cup_hyps as (H1 & _).
  destruct (C104_levenberg_marquardt_pf unit (1/10)%R 1%R (1/100)%R 1000%R lsolve1 hyperbola_jac cup 1 2 [2%R] (fun _ => [0; 0]%R) (fun _ => tt) _
    ltac:(lra) ltac:(lra) ltac:(lra) ltac:(lra) (proj1 C32_levenberg_marquardt_ex_pf) H1 eq_refl eq_refl k Hk HA HY) as (G & _).
  apply cup_still; [|exact G].
  exact (proj1 (run_inv (mkTols (N:=RN) (1/10)%R 1%R max_norm) _ hyperbola_jac cup 1 [2%R] (fun _ => [0; 0]%R) (fun _ => tt) eq_refl
    (lm_descends (1/100)%R 1000%R lsolve1 hyperbola_jac cup 1 2 ltac:(lra) ltac:(lra) (proj1 C32_levenberg_marquardt_ex_pf) H1) k)).
Qed.

Example C104_indirect_levenberg_marquardt_ex_pf :
  let s := IndirectLevenbergMarquardt (N:=RN) (mkTols (N:=RN) (1/10)%R 1%R max_norm) hyperbola_jac lsolve1 (1/100)%R 1000%R rational_root in
  exists st0, s_init s cup [2%R] (fun _ => [0; 0]%R) (fun _ => tt) = Ret st0 /\
  let y k : list R := y_at s cup [2%R] st0 tt k in let st k := st_at s cup [2%R] st0 tt k in
  forall k, 0 < k -> gn_num_accepted_steps (st (S k)) = S (gn_num_accepted_steps (st k)) -> y (S k) = y k -> y k = [0%R].
Proof.
  intro s. eexists. split; [reflexivity|]. intros y st k Hk HA HY.
  destruct cup_hyps as (H1 & _).
  destruct (C104_indirect_levenberg_marquardt_pf unit (1/10)%R 1%R (1/100)%R 1000%R lsolve1 rational_root hyperbola_jac cup 1 2 [2%R] (fun _ => [0; 0]%R) (fun _ => tt) _
    ltac:(lra) ltac:(lra) ltac:(lra) ltac:(lra) (proj1 C32_levenberg_marquardt_ex_pf) H1 eq_refl eq_refl k Hk HA HY) as (G & _).
  apply cup_still; [|exact G].
  exact (proj1 (run_inv (mkTols (N:=RN) (1/10)%R 1%R max_norm) _ hyperbola_jac cup 1 [2%R] (fun _ => [0; 0]%R) (fun _ => tt) eq_refl
    (ind_descends unit (1/100)%R 1000%R lsolve1 rational_root hyperbola_jac cup 1 2 ltac:(lra) ltac:(lra) (proj1 C32_levenberg_marquardt_ex_pf) H1) k)).
Qed.

(** with eps = 0 there is no exception *)
Example C104_dogleg_ex_pf :
  let s := Dogleg (N:=RN) (mkTols (N:=RN) (1/10)%R 1%R max_norm) hyperbola_jac lsolve1 0%R in
  exists st0, s_init s cup [2%R] (fun _ => [0; 0]%R) (fun _ => tt) = Ret st0 /\
  let y k : list R := y_at s cup [2%R] st0 tt k in let st k := st_at s cup [2%R] st0 tt k in
  forall k, 0 < k -> gn_num_accepted_steps (st (S k)) = S (gn_num_accepted_steps (st k)) -> y (S k) = y k ->
    gn_terminate (st (S k)) = true.
Proof.
  intro s. eexists. split; [reflexivity|]. intros y st k Hk HA HY. destruct cup_hyps as (H1 & _).
  destruct (C104_dogleg_pf unit (1/10)%R 1%R 0%R lsolve1 hyperbola_jac cup 1 2 [2%R] (fun _ => [0; 0]%R) (fun _ => tt) _
    ltac:(lra) ltac:(lra) ltac:(lra) (proj1 C32_levenberg_marquardt_ex_pf) H1 eq_refl eq_refl k Hk HA HY) as (_ & T).
  exact T.
Qed.

(** residual y: the second step lands on the zero, the third stands still *)
Example C104_gauss_newton_ex_pf :
  let fn (v : list R) := (v, tt) in
  let jac (_ : list R -> list R * unit) (_ : list R) := MatOp (N:=RN) 1 [[1%R]] in
  let s := GaussNewton (N:=RN) (mkTols (N:=RN) (1/10)%R 1%R max_norm) jac lsolve1 in
  exists st0, s_init s fn [2%R] (fun _ => [0%R]) (fun _ => tt) = Ret st0 /\
  let y k : list R := y_at s fn [2%R] st0 tt k in y 1 = [2%R] /\ y 2 = [0%R] /\ y 3 = y 2.
Proof.
  intros fn jac s. eexists. split; [reflexivity|]. intro y.
  assert (ST : forall x : R, fst (lsolve1 (jac fn [x]) [x]) = [x]).
  { intro x. unfold lsolve1, jac. cbn. destruct (Req_EM_T _ 0) as [E|E].
    - exfalso. revert E. rewrite ?Q2R_0. lra.
    - f_equal. rewrite ?Q2R_0. field. }
  assert (IT := fun k => C53_iteration_pf RN unit (mkTols (N:=RN) (1/10)%R 1%R max_norm) lsolve1 jac fn [2%R] (fun _ => [0%R]) (fun _ => tt) _ k eq_refl).
  assert (Y1 : y 1 = [2%R]) by exact (proj1 (IT 0)).
  assert (NX : forall k (x : R), y (S k) = [x] -> y (S (S k)) = [0%R]).
  { intros k x E. refine (eq_trans (proj2 (IT k)) _). change (vadd (N:=RN) (y (S k)) (vscale (N:=RN) (nneg (n:=RN) (nofQ (n:=RN) 1)) (fst (lsolve1 (jac fn (y (S k))) (y (S k))))) = [0%R]).
    rewrite E, ST. cbn. rewrite Q2R_1. f_equal. lra. }
  split; [exact Y1|]. pose proof (NX 0 _ Y1) as Y2. split; [exact Y2|]. rewrite Y2. exact (NX 1 _ Y2).
Qed.
