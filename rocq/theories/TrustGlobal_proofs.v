(** IndirectLevenbergMarquardt and Dogleg converge globally, and ultimately quadratically (C103). *)

From Coq Require Import Classical String List Bool Arith Lia ZArith QArith Qreals Reals Lra Psatz.
From Verif Require Import Num NumFacts Vec Results Iterate Spec_Iterate Iterate_proofs.
From Verif Require Import Spec_Vec VecFacts Spec_Lin LinFacts.
From Verif Require Import Search Spec_Search Descent Minimisers Solvers Minimisers_proofs.
From Verif Require Import TrustRegion_proofs LeastSquares_proofs Dogleg_proofs Spec_Steps Steps_proofs Spec_Convergence Convergence_proofs.
From Verif Require Import GaussNewton_proofs DoglegConv_proofs IndirectConv_proofs GaussNewtonConv_proofs Spec_IndirectConv Spec_Rates Rates_proofs LMLocal_proofs TrustLocal_proofs.
Import ListNotations.
Local Open Scope nat_scope.

(** Whatever step size it is given, the damped step solves the normal equations for some positive damping *)
Lemma damped_step_some : forall lsolve (eps fmax : R) n m A (r : list R) (step : R), exact_least_squares n lsolve ->
  linear_op n m A -> length r = m -> (0 <= eps)%R -> (0 < fmax)%R ->
  let d := Rscal (-1) (fst (damped_newton_step (N:=RN) lsolve eps fmax n step (ResidualJac (N:=RN) r A))) in
  length d = n /\ exists lam, (0 <= lam)%R /\ forall v, length v = n -> (Rdot (Radd_v (op_mv A d) r) (op_mv A v) + lam * Rdot d v = 0)%R.
Proof.
  intros lsolve eps fmax n m A r step HE HA Hr He Hf d. cbn [damped_newton_step] in d.
  set (lam := lm_param (N:=RN) eps fmax step) in *.
  assert (Hl : (0 < (lam : R))%R).
  { unfold lam, lm_param. cbn. destruct (Rltb eps step) eqn:E; [|exact Hf]. apply Rltb_true in E.
    rewrite Q2R_1. apply Rdiv_lt_0_compat; lra. }
  pose proof (HE (m + n)%nat (damped_jac (N:=RN) n A lam m) (r ++ zerov n) (damped_linear n m A _ HA)
    ltac:(rewrite app_length, zerov_length; lia)) as [K1 K2].
  assert (ED : d = Rscal (-1) (fst (lsolve (damped_jac (N:=RN) n A lam m) (r ++ zerov n)))).
  { unfold d. change (@length (T RN) r) with (@length R r). rewrite Hr.
    unfold vfull, zerov. cbn [nofQ RN]. rewrite Q2R_0. reflexivity. }
  rewrite ED. set (z := fst (lsolve _ _)) in *. split; [rewrite Rscal_length; exact K1|].
  exists (lam : R). split; [lra|]. apply (damped_minimiser n m A r (lam : R) HA Hr Hl); [rewrite Rscal_length; exact K1|].
  intros w Hw. specialize (K2 (Rscal (-1) w) ltac:(rewrite Rscal_length; exact Hw)).
  rewrite !(damped_norm n m) in K2 by (auto; try lra; rewrite Rscal_length; exact Hw).
  rewrite !(neg_sub_add n m) in K2 by (auto; rewrite Rscal_length; exact Hw).
  rewrite scal_neg_neg in K2. exact K2.
Qed.

(** ** A descent whose every step solves damped normal equations, and is Newton's at radius 1 *)
Section DampedRun.
  Local Open Scope R_scope.
  Context {Aux : Type}.
  Variables (P : ar_tols RN) (lsolve : linop RN -> list R -> list R * results).
  Variable descent : Descent RN.
  Variable jac_of : (list R -> list R * Aux) -> list R -> linop RN.
  Variable fn : list R -> list R * Aux.
  Variables (n m : nat) (y0 root : list R) (fs : fillv -> list R) (auxs : fillv -> Aux) (sigma b gamma rho : R).
  Let r (x : list R) : list R := fst (fn x).
  Let J (x : list R) : linop RN := jac_of fn x.
  Let near x := length x = n /\ Rnorm (Rsub_v x root) <= rho.
  Hypothesis HE : exact_least_squares n lsolve.
  Hypothesis HP : residual_problem n m r J.
  Hypothesis Lroot : length root = n.
  Hypothesis Hroot : r root = zerov m.
  Hypothesis S0 : 0 < sigma.
  Hypothesis b0 : 0 <= b.
  Hypothesis g0 : 0 <= gamma.
  Hypothesis HJ : forall x v, near x -> length v = n ->
    sigma * Rdot v v <= Rdot (op_mv (J x) v) (op_mv (J x) v) /\ Rdot (op_mv (J x) v) (op_mv (J x) v) <= b * b * Rdot v v.
  Hypothesis HL : forall x x', near x -> near x' ->
    Rnorm (Rsub_v (Rsub_v (r x') (r x)) (op_mv (J x) (Rsub_v x' x))) <= gamma * Rdot (Rsub_v x' x) (Rsub_v x' x).
  Hypothesis Hsmall : b * gamma * rho + 3 * (gamma * rho) * (gamma * rho) < sigma / 200.
  Hypothesis Ly0 : length y0 = n.
  Let nw (x : list R) : list R := Rscal (-1) (fst (lsolve (J x) (r x))).
  Hypothesis HD : forall y (step : R) st, length y = n -> 0 < step ->
    let i := ResidualJac (N:=RN) (fst (fn y)) (jac_of fn y) in
    let d := fst (d_step descent step (d_query descent y i st)) in
    length d = n /\ classical_predict (N:=RN) d i <= 0.
  Hypothesis HN : forall y (step : R) st, length y = n -> 1 <= step ->
    fst (d_step descent step (d_query descent y (ResidualJac (N:=RN) (fst (fn y)) (jac_of fn y)) st)) = nw y.
  Hypothesis HG : forall y (step : R) st, length y = n -> 0 < step ->
    let d := fst (d_step descent step (d_query descent y (ResidualJac (N:=RN) (fst (fn y)) (jac_of fn y)) st)) in
    exists lam, 0 <= lam /\ forall v, length v = n -> Rdot (Radd_v (op_mv (J y) d) (r y)) (op_mv (J y) v) + lam * Rdot d v = 0.
  Variable j0 : nat.
  Let search := classical_trust_region (N:=RN) tr_default.
  Let s := gauss_newton_solver (N:=RN) P search descent jac_of.
  Let st0 := gn_st0 (N:=RN) search descent y0 fs auxs.
  Let Y (k : nat) : list R := y_at s fn y0 st0 (auxs fill0) (S (j0 + k)).
  Let Sk k := st_at s fn y0 st0 (auxs fill0) (S (j0 + k)).
  Let radius (k : nat) : R := gn_search_state (Sk k).
  Let acc (k : nat) : nat := gn_num_accepted_steps (Sk k).
  Let e k := Rnorm (Rsub_v (Y k) root).
  Hypothesis Hy0 : near (Y 0).

  Lemma dr_S : forall k, S (S (j0 + k)) = S (j0 + S k).
  Proof. intro k. rewrite Nat.add_succ_r. reflexivity. Qed.

  Lemma dr_add0 : forall v : list R, Radd_v v (zerov (length v)) = v.
  Proof. induction v as [|a v IH]; [reflexivity|]. cbn [length]. unfold zerov. cbn [repeat Radd_v]. f_equal; [ring|exact IH]. Qed.

  Lemma dr_zero : forall x, length x = n -> Rnorm (Rsub_v x root) = 0 -> x = root.
  Proof.
    intros x Lx H. apply sub_zero; [congruence|].
    replace (length x) with (length (Rsub_v x root)) by (rewrite (Rsub_v_length _ _ n); auto). apply Rnorm_0. exact H.
  Qed.

  Lemma dr_step : forall k, near (Y k) ->
    near (Y (S k)) /\ e (S k) <= e k /\ acc (S k) = S (acc k) /\ 0 < radius k /\ radius k <= radius (S k) /\
    (Y k = root \/ radius (S k) = 7 / 2 * radius k).
  Proof.
    intros k Hk. pose proof Hk as (LY & DY). destruct (HP _ LY) as (Lr & HA & HT).
    destruct (run_inv P descent jac_of fn n y0 fs auxs Ly0 HD (S (j0 + k))) as (_ & R0 & _). change (0 < radius k) in R0.
    destruct (run_step P descent jac_of fn n y0 fs auxs Ly0 HD (j0 + k)) as (st' & X). cbv zeta in X.
    destruct (HG (Y k) (radius k) st' LY R0) as (lam & l0 & HZ).
    set (d := fst (d_step descent (radius k) (d_query descent (Y k) (ResidualJac (N:=RN) (fst (fn (Y k))) (jac_of fn (Y k))) st'))) in *.
    destruct X as (Ld & EY & X). change (length d = n) in Ld.
    change (gn_y_eval (Sk k) = Radd_v (Y k) d) in EY. rewrite (dr_S k) in X.
    destruct (os_change n m r J root sigma b gamma rho HP Lroot Hroot S0 b0 g0 HJ HL Hsmall (Y k) d lam Hk l0 Ld HZ) as (C1 & C2 & C3).
    pose proof (os_closer n m r J root sigma b gamma rho HP Lroot Hroot S0 b0 g0 HJ HL Hsmall (Y k) d lam Hk l0 Ld HZ) as (C5 & C6).
    destruct X as [(_ & Y1 & A1 & R1 & T1)|(C & _)].
    2:{ exfalso. revert C. apply Rle_not_lt. exact C1. }
    change (Y (S k) = Radd_v (Y k) d) in Y1. change (acc (S k) = S (acc k)) in A1.
    change (radius (S k) = radius k \/ radius (S k) = 7 / 2 * radius k) in R1.
    assert (ES : e (S k) = Rnorm (Rsub_v (Radd_v (Y k) d) root)) by (unfold e; rewrite Y1; reflexivity).
    rewrite ES, Y1. split; [exact C6|]. split; [exact C5|]. split; [exact A1|]. split; [exact R0|].
    split; [destruct R1 as [R1|R1]; rewrite R1; lra|].
    pose proof (Rdot_pos d) as D0. destruct (Rle_lt_or_eq_dec 0 _ D0) as [D1|D1].
    - right. destruct (C3 D1) as (G1 & G2). exact (eq_trans (f_equal _ (eq_sym (dr_S k))) (lm_good P descent jac_of fn n y0 fs auxs (j0 + k) d LY Ld EY G1 G2)).
    - left. assert (Z : d = zerov n) by (rewrite <- Ld; apply Rnorm_0; unfold Rnorm; rewrite <- D1; apply sqrt_0).
      assert (HZ0 : forall v, length v = n -> Rdot (Radd_v (op_mv (J (Y k)) d) (r (Y k))) (op_mv (J (Y k)) v) + 0 * Rdot d v = 0).
      { intros v Lv. pose proof (HZ v Lv) as Q. rewrite Z in Q at 2. rewrite (Rdot_comm (zerov n) v), Rdot_0_r in Q. lra. }
      pose proof (os_contract n m r J root sigma b gamma rho HP Lroot Hroot b0 g0 HJ HL (Y k) d 0 Hk ltac:(lra) Ld HZ0) as C4.
      rewrite Z in C4. rewrite <- LY in C4. rewrite dr_add0 in C4.
      apply dr_zero; [exact LY|]. set (E := Rnorm (Rsub_v (Y k) root)) in *. assert (E0 : 0 <= E) by apply Rnorm_pos.
      assert (Q1 : b * gamma * E <= b * gamma * rho) by (apply Rmult_le_compat_l; [apply Rmult_le_pos; assumption|exact DY]).
      assert (GG : 0 <= (gamma * rho) * (gamma * rho)) by apply Rle_0_sqr.
      assert (Q2 : b * gamma * E * E <= sigma / 200 * E) by (apply Rmult_le_compat_r; lra).
      assert (Q3 : sigma * E <= 0) by (assert (0 <= sigma * E) by (apply Rmult_le_pos; lra); lra).
      destruct (Rle_lt_or_eq_dec 0 E E0) as [E1|E1]; [|symmetry; exact E1]. assert (0 < sigma * E) by (apply Rmult_lt_0_compat; assumption). lra.
  Qed.

  Lemma dr_inv : forall k, near (Y k) /\ acc k = (acc 0 + k)%nat.
  Proof.
    induction k as [|k (I1 & I2)]; [split; [exact Hy0|lia]|].
    destruct (dr_step k I1) as (C1 & _ & C2 & _). split; [exact C1|]. rewrite C2, I2. lia.
  Qed.

  Lemma dr_root : forall k, Y k = root -> Y (S k) = root.
  Proof.
    intros k H. destruct (dr_inv k) as (I1 & _). destruct (dr_step k I1) as ((L & _) & C & _).
    apply dr_zero; [exact L|]. unfold e in C. rewrite H, (zero_diff n root Lroot), Rnorm_zero in C.
    pose proof (Rnorm_pos (Rsub_v (Y (S k)) root)). lra.
  Qed.

  Lemma dr_grow : forall k, Y k = root \/ radius k = radius 0 * (7 / 2) ^ k.
  Proof.
    induction k as [|k [I|I]]; [right; cbn [pow]; ring|left; apply dr_root; exact I|].
    destruct (dr_inv k) as (N & _). destruct (dr_step k N) as (_ & _ & _ & _ & _ & [C|C]); [left; apply dr_root; exact C|].
    right. rewrite C, I. cbn [pow]. ring.
  Qed.

  Lemma dr_reach : exists K, forall k, (K <= k)%nat -> Y k = root \/ 1 <= radius k.
  Proof.
    destruct (dr_step 0 Hy0) as (_ & _ & _ & R0 & _).
    destruct (pow_lt_1_zero (2 / 7) ltac:(rewrite Rabs_pos_eq; lra) (radius 0) R0) as (K & HK). exists K. intros k Hk.
    destruct (dr_grow k) as [G|G]; [left; exact G|right]. specialize (HK k Hk). rewrite Rabs_pos_eq in HK by (apply pow_le; lra).
    rewrite G. assert (E : (2 / 7) ^ k * (7 / 2) ^ k = 1).
    { rewrite <- Rpow_mult_distr. replace (2 / 7 * (7 / 2)) with 1 by field. apply pow1. }
    rewrite <- E. apply Rmult_le_compat_r; [apply pow_le; lra|lra].
  Qed.

  Lemma dr_quadratic : exists K, forall k, (K <= k)%nat ->
    Y (S k) = Radd_v (Y k) (nw (Y k)) /\ e (S k) <= b * gamma / sigma * (e k * e k) /\ e (S k) <= / 200 * e k.
  Proof.
    destruct dr_reach as (K & HK). exists K. intros k Hk. destruct (dr_inv k) as (N & _). pose proof N as (LY & DY).
    assert (GG : 0 <= (gamma * rho) * (gamma * rho)) by apply Rle_0_sqr. assert (e0 : 0 <= e k) by apply Rnorm_pos.
    destruct (HK k Hk) as [I|I].
    - assert (EK : e k = 0) by (unfold e; rewrite I, (zero_diff n root Lroot); apply Rnorm_zero).
      assert (EK' : e (S k) = 0) by (unfold e; rewrite (dr_root k I), (zero_diff n root Lroot); apply Rnorm_zero).
      rewrite EK, EK'. split; [|split; lra]. rewrite (dr_root k I). rewrite I in LY |- *.
      destruct (HP _ LY) as (Lr & HA & HT). destruct (dog_lens n m (J root) (r root) lsolve 0 HE HA HT Lr) as (_ & Ln & _). fold (nw root) in Ln.
      pose proof (newton_orth n m (J root) (r root) lsolve 0 HE HA HT Lr (nw root) Ln) as O. fold (nw root) in O.
      pose proof (proj2 HT (r root) (nw root) Ln) as T. rewrite T, Hroot in O.
      assert (Z : Rdot (zerov m) (op_mv (J root) (nw root)) = 0) by (rewrite Rdot_comm; apply Rdot_0_r). rewrite Z in O.
      rewrite I in N. destruct (HJ root (nw root) N Ln) as (J1 & _). rewrite O in J1.
      assert (ZZ : nw root = zerov n).
      { rewrite <- Ln. apply Rnorm_0. unfold Rnorm. pose proof (Rdot_pos (nw root)) as Q. replace (Rdot (nw root) (nw root)) with 0; [apply sqrt_0|].
        destruct (Rle_lt_or_eq_dec 0 _ Q) as [Q1|Q1]; [|exact Q1]. assert (0 < sigma * Rdot (nw root) (nw root)) by (apply Rmult_lt_0_compat; assumption). lra. }
      rewrite ZZ, <- Lroot. symmetry. apply dr_add0.
    - destruct (ns_step P lsolve descent jac_of fn n m y0 root fs auxs sigma b gamma rho HE HP Lroot Hroot S0 b0 g0 HJ HL Hsmall Ly0 HD HN (j0 + k) N I)
        as (C1 & _ & _ & _ & C2 & _). rewrite (dr_S k) in C1, C2.
      change (Y (S k) = Radd_v (Y k) (nw (Y k))) in C1. change (sigma * e (S k) <= b * gamma * (e k * e k)) in C2.
      split; [exact C1|]. fold (e k) in DY. split; apply (Rmult_le_reg_l sigma); try exact S0.
      + eapply Rle_trans; [exact C2|]. right. field. lra.
      + assert (Q1 : b * gamma * e k <= b * gamma * rho) by (apply Rmult_le_compat_l; [apply Rmult_le_pos; assumption|exact DY]).
        assert (Q2 : b * gamma * e k * e k <= sigma / 200 * e k) by (apply Rmult_le_compat_r; lra). lra.
  Qed.
End DampedRun.

Lemma indirect_damped : forall (Aux : Type) lsolve (eps fmax : R) rfind jac_of (fn : list R -> list R * Aux) (n m : nat),
  (0 <= eps)%R -> (0 < fmax)%R -> exact_least_squares n lsolve -> residual_problem n m (fun x => fst (fn x)) (jac_of fn) ->
  let descent := indirect_damped_newton_descent (N:=RN) lsolve eps fmax two_norm rfind in
  forall y (step : R) st, length y = n -> (0 < step)%R ->
    let d : list R := fst (d_step descent step (d_query descent y (ResidualJac (N:=RN) (fst (fn y)) (jac_of fn y)) st)) in
    exists lam, (0 <= lam)%R /\
      forall v, length v = n -> (Rdot (Radd_v (op_mv (jac_of fn y) d) (fst (fn y))) (op_mv (jac_of fn y) v) + lam * Rdot d v = 0)%R.
Proof.
  intros Aux lsolve eps fmax rfind jac_of fn n m He Hf HE HP descent y step st Ly Hs d. destruct (HP y Ly) as (Lr & HA & HT).
  unfold d, descent. cbn [indirect_damped_newton_descent d_step d_query newton_step].
  destruct (lsolve (jac_of fn y) (fst (fn y))) as [nw res] eqn:El. cbn [indirect_damped_step].
  pose proof Ly as Ly2. change (@length (T RN) y = n) in Ly2. rewrite Ly2.
  match goal with |- context [if ?b then _ else _] => destruct b end.
  - match goal with |- context [damped_newton_step lsolve eps fmax n ?a ?c] =>
      pose proof (damped_step_some lsolve eps fmax n m (jac_of fn y) (fst (fn y)) a HE HA Lr He Hf) as [K1 K2];
      destruct (damped_newton_step lsolve eps fmax n a c) as [sol res'] end.
    cbn [fst] in *. rewrite vneg_RN. exact K2.
  - exists 0%R. split; [lra|]. cbn [fst]. rewrite vneg_RN. intros v Lv.
    pose proof (newton_orth n m (jac_of fn y) (fst (fn y)) lsolve 0 HE HA HT Lr v Lv) as O.
    destruct (dog_lens n m (jac_of fn y) (fst (fn y)) lsolve 0 HE HA HT Lr) as (_ & Ln & _).
    rewrite El in O, Ln. cbn [fst] in O, Ln. pose proof HA as (L1 & _). rewrite Rdot_add_l by (rewrite L1 by exact Ln; auto).
    pose proof (proj2 HT (fst (fn y)) v Lv) as T. rewrite O. lra.
Qed.

(** IndirectLevenbergMarquardt in exact arithmetic with exact least-squares solves, whatever its inner root finder returns: any run, from any start,
    whose iterate j+1 is within rho of a zero of the residuals (the conditions of C101 and C102 holding there) rejects no further step, comes no
    farther from the zero, multiplies its step size by 7/2 at every step until the step size reaches 1 (or the iterate is the zero), and from then on takes the
    Newton step: its convergence becomes quadratic, |y_(k+1) - root| <= b gamma / sigma |y_k - root|^2. *)
Lemma C103_entering_pf :
  forall (Aux : Type) (P : ar_tols RN) (eps fmax : R) lsolve rfind jac_of (fn : list R -> list R * Aux)
         (n m : nat) (y0 root : list R) fs auxs (sigma b gamma rho : R) st0 (j : nat),
    let r x := fst (fn x) in let J := jac_of fn in
    let near x := length x = n /\ (Rnorm (Rsub_v x root) <= rho)%R in
    (0 <= eps)%R -> (0 < fmax)%R -> exact_least_squares n lsolve -> residual_problem n m r J ->
    length root = n -> r root = zerov m -> (0 < sigma)%R -> (0 <= b)%R -> (0 <= gamma)%R ->
    (forall x v, near x -> length v = n ->
       sigma * Rdot v v <= Rdot (op_mv (J x) v) (op_mv (J x) v) /\ Rdot (op_mv (J x) v) (op_mv (J x) v) <= b * b * Rdot v v)%R ->
    (forall x x', near x -> near x' ->
       Rnorm (Rsub_v (Rsub_v (r x') (r x)) (op_mv (J x) (Rsub_v x' x))) <= gamma * Rdot (Rsub_v x' x) (Rsub_v x' x))%R ->
    (b * gamma * rho + 3 * (gamma * rho) * (gamma * rho) < sigma / 200)%R -> length y0 = n ->
    let s := IndirectLevenbergMarquardt (N:=RN) P jac_of lsolve eps fmax rfind in
    s_init s fn y0 fs auxs = Ret st0 ->
    let y k : list R := y_at s fn y0 st0 (auxs fill0) (S (j + k)) in
    let st k := st_at s fn y0 st0 (auxs fill0) (S (j + k)) in
    let radius k : R := gn_search_state (st k) in
    near (y 0) ->
    let e k := Rnorm (Rsub_v (y k) root) in
    (forall k, gn_num_accepted_steps (st k) = gn_num_accepted_steps (st 0) + k) /\
    (forall k, e (S k) <= e k)%R /\
    (forall k, y k = root \/ radius k = (radius 0%nat * (7 / 2) ^ k)%R) /\
    exists K, forall k, K <= k ->
      y (S k) = Rsub_v (y k) (fst (lsolve (J (y k)) (r (y k)))) /\ (e (S k) <= b * gamma / sigma * (e k * e k))%R /\ (e (S k) <= / 200 * e k)%R.
Proof.
  intros Aux P eps fmax lsolve rfind jac_of fn n m y0 root fs auxs sigma b gamma rho st0 j r J near He Hf HE HP Lroot Hroot S0 b0 g0 HJ HL Hsmall Ly0 s Hi y st radius Hy e.
  unfold s in Hi. apply gn_init_inv in Hi. subst st0.
  pose proof (ind_descends Aux eps fmax lsolve rfind jac_of fn n m He Hf HE HP) as HD. cbv zeta in HD.
  assert (HN : forall x (step : R) st, length x = n -> (1 <= step)%R ->
    fst (d_step (indirect_damped_newton_descent (N:=RN) lsolve eps fmax two_norm rfind) step
      (d_query (indirect_damped_newton_descent (N:=RN) lsolve eps fmax two_norm rfind) x (ResidualJac (N:=RN) (fst (fn x)) (jac_of fn x)) st)) = Rscal (-1) (fst (lsolve (jac_of fn x) (fst (fn x))))).
  { intros x step st' Lx Hs. destruct (HP x Lx) as (Lr & HA & HT).
    exact (proj1 (C69_length_pf lsolve eps fmax rfind n m _ _ x step st' HE HA Lr Lx He) (or_introl Hs)). }
  pose proof (indirect_damped Aux lsolve eps fmax rfind jac_of fn n m He Hf HE HP) as HG. cbv zeta in HG.
  pose proof (dr_inv P (indirect_damped_newton_descent (N:=RN) lsolve eps fmax two_norm rfind) jac_of fn n m y0 root fs auxs sigma b gamma rho HP Lroot Hroot S0 b0 g0 HJ HL Hsmall Ly0 HD HG j Hy) as INV.
  split; [intro k; apply (INV k)|].
  split; [intro k; exact (proj1 (proj2 (dr_step P (indirect_damped_newton_descent (N:=RN) lsolve eps fmax two_norm rfind) jac_of fn n m y0 root fs auxs sigma b gamma rho HP Lroot Hroot S0 b0 g0 HJ HL Hsmall Ly0 HD HG j k (proj1 (INV k)))))|].
  split; [exact (dr_grow P (indirect_damped_newton_descent (N:=RN) lsolve eps fmax two_norm rfind) jac_of fn n m y0 root fs auxs sigma b gamma rho HP Lroot Hroot S0 b0 g0 HJ HL Hsmall Ly0 HD HG j Hy)|].
  destruct (dr_quadratic P lsolve (indirect_damped_newton_descent (N:=RN) lsolve eps fmax two_norm rfind) jac_of fn n m y0 root fs auxs sigma b gamma rho HE HP Lroot Hroot S0 b0 g0 HJ HL Hsmall Ly0 HD HN HG j Hy) as (K & HK).
  exists K. intros k Hk. destruct (HK k Hk) as (C1 & C2). split; [|exact C2].
  destruct (INV k) as ((LY & _) & _). destruct (HP _ LY) as (Lr & HA & HT).
  destruct (dog_lens n m (J (y k)) (r (y k)) lsolve 0 HE HA HT Lr) as (_ & Ln & _). rewrite Rscal_length in Ln.
  rewrite Rsub_add by exact (eq_trans LY (eq_sym Ln)). exact C1.
Qed.

(** Globally: under C83's conditions for IndirectLevenbergMarquardt (1/2 |r|^2 smooth, sigma0 |v|^2 <= |J v|^2 <= B |v|^2 and |J^T r|^2 >= mu |r|^2
    everywhere, an inner root finder accurate to half the radius), residuals bounding the distance to their zero and the local conditions
    near it: from every start the run comes within rho of the root, never rejects a step afterwards, and converges quadratically. *)
Lemma C103_global_pf :
  forall (Aux : Type) (P : ar_tols RN) (eps fmax : R) lsolve rfind jac_of (fn : list R -> list R * Aux)
         (n m : nat) (y0 root : list R) fs auxs (L B sigma0 mu c sigma b gamma rho : R) st0,
    let r x := fst (fn x) in let J := jac_of fn in
    let near x := length x = n /\ (Rnorm (Rsub_v x root) <= rho)%R in
    (0 <= eps)%R -> (0 < fmax)%R -> exact_least_squares n lsolve -> (forall A b, snd (lsolve A b) = successful) -> residual_problem n m r J ->
    smooth n L (half_squares r) (ls_gradient r J) -> (0 < sigma0 <= B)%R -> jac_bounded n B J -> jac_injective n sigma0 J ->
    (0 < mu <= L)%R -> (forall x, length x = n -> mu * Rdot (r x) (r x) <= Rdot (ls_gradient r J x) (ls_gradient r J x))%R ->
    finds_damping eps (2 * sigma0 / (3 * (B + 50 * L / 99)) / 4) n r J (fun x => Rnorm (fst (lsolve (J x) (r x)))) rfind ->
    (0 < c)%R -> (forall x, length x = n -> c * Rdot (Rsub_v x root) (Rsub_v x root) <= Rdot (r x) (r x))%R ->
    length root = n -> r root = zerov m -> (0 < sigma)%R -> (0 <= b)%R -> (0 <= gamma)%R -> (0 < rho)%R ->
    (forall x v, near x -> length v = n ->
       sigma * Rdot v v <= Rdot (op_mv (J x) v) (op_mv (J x) v) /\ Rdot (op_mv (J x) v) (op_mv (J x) v) <= b * b * Rdot v v)%R ->
    (forall x x', near x -> near x' ->
       Rnorm (Rsub_v (Rsub_v (r x') (r x)) (op_mv (J x) (Rsub_v x' x))) <= gamma * Rdot (Rsub_v x' x) (Rsub_v x' x))%R ->
    (b * gamma * rho + 3 * (gamma * rho) * (gamma * rho) < sigma / 200)%R -> length y0 = n ->
    let s := IndirectLevenbergMarquardt (N:=RN) P jac_of lsolve eps fmax rfind in
    s_init s fn y0 fs auxs = Ret st0 ->
    let y k : list R := y_at s fn y0 st0 (auxs fill0) k in
    let st k := st_at s fn y0 st0 (auxs fill0) k in
    let e k := Rnorm (Rsub_v (y k) root) in
    exists j, near (y (S j)) /\
      (forall k, S j <= k -> gn_num_accepted_steps (st (S k)) = S (gn_num_accepted_steps (st k))) /\
      exists K, forall k, K <= k -> (e (S k) <= b * gamma / sigma * (e k * e k))%R /\ (e (S k) <= / 200 * e k)%R.
Proof.
  intros Aux P eps fmax lsolve rfind jac_of fn n m y0 root fs auxs L B sigma0 mu c sigma b gamma rho st0 r J near He Hf HE Hok HP HS HB0 HB HI HM Hdom HF C0 Herr Lroot Hroot S0 b0 g0 R0 HJ HL Hsmall Ly0 s Hi y st e.
  assert (HD : dominated n mu 0 (half_squares r) (ls_gradient r J)).
  { intros x Lx. unfold half_squares. pose proof (Rdot_pos (r x)). split; [lra|]. specialize (Hdom x Lx). lra. }
  set (rt := (2 * sigma0 / (3 * (B + 50 * L / 99)) / 4)%R) in *.
  assert (rt0 : (0 < rt)%R).
  { unfold rt. apply Rdiv_lt_0_compat; [|lra]. apply Rdiv_lt_0_compat; lra. }
  destruct (pow_lt_1_zero (/ 4) ltac:(rewrite Rabs_pos_eq; lra) rt rt0) as (q & Hq). specialize (Hq q (Nat.le_refl q)).
  assert (Hq' : (1 <= 4 ^ q * rt)%R).
  { rewrite pow_inv, Rabs_pos_eq in Hq by (apply Rlt_le, Rinv_0_lt_compat, pow_lt; lra).
    assert (P4 : (0 < 4 ^ q)%R) by (apply pow_lt; lra).
    apply (Rmult_le_reg_l (/ 4 ^ q)); [apply Rinv_0_lt_compat; exact P4|]. rewrite <- Rmult_assoc, Rinv_l, Rmult_1_l, Rmult_1_r by lra. lra. }
  destruct (C83_indirect_levenberg_marquardt_pf Aux P eps fmax lsolve rfind jac_of fn n m L B sigma0 mu 0 y0 fs auxs st0 q He Hf HE Hok HP HS HB0 HB HI Ly0 HM HD HF Hq' Hi) as (Th & Rate).
  fold rt in Th, Rate. set (theta := (1 - mu * rt / (300 * B))%R) in *.
  pose proof (proj1 (HD y0 Ly0)) as F0. set (F := half_squares r y0) in *.
  assert (T0 : (0 < c * (rho * rho) / (2 * (F + 1)))%R).
  { apply Rdiv_lt_0_compat; [apply Rmult_lt_0_compat; [exact C0|apply Rmult_lt_0_compat; exact R0]|lra]. }
  destruct (pow_lt_1_zero theta ltac:(rewrite Rabs_pos_eq; lra) _ T0) as (i & Hi0). specialize (Hi0 i (Nat.le_refl i)).
  rewrite Rabs_pos_eq in Hi0 by (apply pow_le; lra).
  set (j := 2 * i + 1 + q). exists j.
  assert (EJ : S j = 2 * i + 2 + q) by (unfold j; lia).
  assert (LY : length (y (S j)) = n).
  { pose proof Hi as Hi'. unfold s in Hi'. apply gn_init_inv in Hi'. unfold y. rewrite Hi'.
    pose proof (ind_descends Aux eps fmax lsolve rfind jac_of fn n m He Hf HE HP) as HDs. cbv zeta in HDs.
    apply (run_inv P (indirect_damped_newton_descent (N:=RN) lsolve eps fmax two_norm rfind) jac_of fn n y0 fs auxs Ly0 HDs (S j)). }
  assert (NY : near (y (S j))).
  { split; [exact LY|]. pose proof (Rate i) as Q. rewrite <- EJ in Q. change (half_squares r (y (S j)) - 0 <= theta ^ i * (F - 0))%R in Q.
    pose proof (Herr _ LY) as Q2. unfold half_squares in Q. rewrite <- (Rnorm_sq (Rsub_v (y (S j)) root)) in Q2.
    set (E := Rnorm (Rsub_v (y (S j)) root)) in *. assert (E0 : (0 <= E)%R) by apply Rnorm_pos.
    assert (Q3 : (theta ^ i * F <= c * (rho * rho) / 2)%R).
    { apply (Rle_trans _ (c * (rho * rho) / (2 * (F + 1)) * (F + 1))).
      - apply Rmult_le_compat; [apply pow_le; lra|lra|lra|lra].
      - right. field. lra. }
    destruct (Rle_dec E rho) as [?|N]; [assumption|exfalso].
    assert (c * (rho * rho) < c * (E * E))%R by (apply Rmult_lt_compat_l; [exact C0|]; nra). lra. }
  split; [exact NY|].
  assert (EK : S j = S (j + 0)) by lia.
  assert (NY' : near (y (S (j + 0)))) by (rewrite <- EK; exact NY).
  destruct (C103_entering_pf Aux P eps fmax lsolve rfind jac_of fn n m y0 root fs auxs sigma b gamma rho st0 j He Hf HE HP Lroot Hroot S0 b0 g0 HJ HL Hsmall Ly0 Hi NY')
    as (A1 & _ & _ & K & HK).
  split.
  - intros k Hk. pose proof (A1 (k - S j)) as Q1. pose proof (A1 (S (k - S j))) as Q2.
    replace (S (j + (k - S j))) with k in Q1 by lia. replace (S (j + S (k - S j))) with (S k) in Q2 by lia.
    change (gn_num_accepted_steps (st k) = gn_num_accepted_steps (st (S (j + 0))) + (k - S j)) in Q1.
    change (gn_num_accepted_steps (st (S k)) = gn_num_accepted_steps (st (S (j + 0))) + S (k - S j)) in Q2. lia.
  - exists (S j + K). intros k Hk. destruct (HK (k - S j) ltac:(lia)) as (_ & C).
    replace (S (j + (k - S j))) with k in C by lia. replace (S (j + S (k - S j))) with (S k) in C by lia. exact C.
Qed.

Lemma one_damping : forall (r : list R -> list R) (J : list R -> linop RN),
  residual_problem 1 2 r J -> jac_bounded 1 2 J -> jac_injective 1 1 J ->
  finds_damping (1 / 100) (33 / 596) 1 r J (fun x => Rnorm (fst (lsolve1 (J x) (r x)))) rational_root.
Proof.
  intros r J HP HB HI x step h Hx Hs Hh. destruct (HP x Hx) as (Hr & HA & _).
  specialize (HB x [1%R] Hx eq_refl). specialize (HI x [1%R] Hx eq_refl).
  pose proof HA as (L1 & L2 & L3).
  assert (E : forall a : R, op_mv (J x) [a] = Rscal a (op_mv (J x) [1%R])).
  { intro b. rewrite <- (L3 b [1%R] eq_refl). cbn. rewrite Rmult_1_r. reflexivity. }
  pose proof (L1 [1%R] eq_refl) as Lc. unfold lsolve1 in Hh |- *. cbn [fst] in Hh |- *.
  set (c := op_mv (J x) [1%R] : list R) in *. set (a := Rdot c c) in *. set (g := Rdot c (r x)) in *.
  change (a <= 2 * (1 * 1 + 0))%R in HB. change (1 * (1 * 1 + 0) <= a)%R in HI.
  rewrite Rnorm_1 in *. destruct (Req_EM_T a 0) as [Z|_]; [lra|].
  assert (AG : Rabs (g / a) = (Rabs g / a)%R) by (unfold Rdiv; rewrite Rabs_mult, (Rabs_pos_eq (/ a)); [reflexivity|apply Rlt_le, Rinv_0_lt_compat; lra]).
  rewrite AG in *. clear AG.
  assert (H : forall lam, (0 < lam)%R -> (1 / 100 * lam < 1)%R -> h lam = (Rabs g / (a + lam) - step * (Rabs g / a))%R).
  { intros lam H1 H2. destruct (Hh lam H1 H2) as (z & Lz & M & ->).
    destruct z as [|z [|? ?]]; try discriminate Lz. rewrite Rnorm_1. f_equal.
    destruct (damped_minimiser 1 2 (J x) (r x) lam HA Hr H1 [z] eq_refl) as [N _].
    { intros v Lv. destruct (list_eq_dec Req_EM_T v [z]) as [->|NE]; [lra|]. apply Rlt_le, M; assumption. }
    specialize (N [1%R] eq_refl). rewrite E in N. fold c in N.
    rewrite Rdot_add_l in N by (rewrite Rscal_length; congruence). rewrite Rdot_scal_l in N. fold a in N.
    rewrite (Rdot_comm (r x)) in N. fold g in N. change (z * a + g + lam * (z * 1 + 0) = 0)%R in N.
    assert (AL : (a + lam <> 0)%R) by lra.
    assert (EZ : z = (- g / (a + lam))%R).
    { apply (Rmult_eq_reg_r (a + lam)); [|exact AL]. replace (- g / (a + lam) * (a + lam))%R with (- g)%R by (field; exact AL). lra. }
    rewrite EZ. unfold Rdiv. rewrite Rabs_mult, Rabs_Ropp, (Rabs_pos_eq (/ (a + lam))); [reflexivity|].
    apply Rlt_le, Rinv_0_lt_compat. lra. }
  destruct (Req_EM_T g 0) as [Z|NZ].
  - assert (h0 : forall lam, (0 < lam)%R -> (1 / 100 * lam < 1)%R -> h lam = 0%R).
    { intros lam H1 H2. rewrite (H lam H1 H2), Z, Rabs_R0. unfold Rdiv. ring. }
    assert (RR : rational_root h = 1%R).
    { unfold rational_root. rewrite (h0 1%R), (h0 2%R) by lra. destruct (Req_EM_T _ 0); lra. }
    rewrite RR, (h0 1%R), Z, Rabs_R0 by lra. unfold Rdiv. lra.
  - assert (G0 : (0 < Rabs g)%R) by (apply Rabs_pos_lt; exact NZ).
    assert (RR : rational_root h = (a / step - a)%R).
    { apply (rational_root_exact h a (Rabs g) step); [lra|exact G0|lra|].
      intros lam [-> | [-> | ->]]; apply H; lra. }
    assert (S1 : (1 < / step)%R) by (rewrite <- Rinv_1; apply Rinv_lt_contravar; lra).
    assert (S2 : (/ step <= 596 / 33)%R).
    { replace (596 / 33)%R with (/ (33 / 596))%R by (field; lra). apply Rinv_le_contravar; lra. }
    assert (B1 : (0 < a / step - a)%R) by (unfold Rdiv; nra).
    assert (B2 : (1 / 100 * (a / step - a) < 1)%R) by (unfold Rdiv; nra).
    rewrite RR. split; [exact B1|]. split; [exact B2|]. rewrite (H _ B1 B2).
    replace (Rabs g / (a + (a / step - a)) - step * (Rabs g / a))%R with 0%R by (field; lra).
    rewrite Rabs_R0. apply Rmult_le_pos; [lra|]. apply Rmult_le_pos; [lra|]. apply Rmult_le_pos; [lra|]. apply Rlt_le, Rinv_0_lt_compat. lra.
Qed.

Lemma cup_injective : jac_injective 1 1 (hyperbola_jac cup).
Proof. destruct C71_terminates_ex_pf as (_ & _ & _ & _ & HI & _). exact HI. Qed.

(** x and sqrt (1 + x^2) - 1 (C101) from 2 *)
Example C103_global_ex_pf :
  let s := IndirectLevenbergMarquardt (N:=RN) (mkTols (N:=RN) (1/10)%R 1%R max_norm) hyperbola_jac lsolve1 (1/100)%R 1000%R rational_root in
  exists st0, s_init s cup [2%R] (fun _ => [0; 0]%R) (fun _ => tt) = Ret st0 /\
  let e k := Rnorm (Rsub_v (y_at s cup [2%R] st0 tt k : list R) [0%R]) in
  (exists j, (e (S j) <= 1 / 1000)%R) /\ exists K, forall k, K <= k -> (e (S k) <= 3 * (e k * e k))%R.
Proof.
  intro s. eexists. split; [reflexivity|]. intro e. destruct cup_hyps as (H1 & H2 & H3 & H4 & H5 & H6 & H7 & H8).
  assert (RH : (2 * 1 / (3 * (2 + 50 * 2 / 99)) / 4 = 33 / 596)%R) by field.
  destruct (C103_global_pf unit (mkTols (N:=RN) (1/10)%R 1%R max_norm) (1/100)%R 1000%R lsolve1 rational_root hyperbola_jac cup 1 2 [2%R] [0%R] (fun _ => [0; 0]%R) (fun _ => tt)
    2%R 2%R 1%R (/ 2)%R 1%R 1%R (3/2)%R 2%R (1/1000)%R _ ltac:(lra) ltac:(lra) (proj1 C32_levenberg_marquardt_ex_pf) (fun _ _ => eq_refl) H1 H2 ltac:(lra) H3 cup_injective
    ltac:(lra) H4 ltac:(rewrite RH; exact (one_damping _ _ H1 H3 cup_injective)) ltac:(lra) H5 eq_refl H6
    ltac:(lra) ltac:(lra) ltac:(lra) ltac:(lra) H7 H8 ltac:(lra) eq_refl eq_refl) as (j & (_ & A) & _ & K & HK).
  split; [exists j; exact A|]. exists K. intros k Hk. destruct (HK k Hk) as (C & _). replace 3%R with (3 / 2 * 2 / 1)%R by field. exact C.
Qed.

(** the same residuals from 1/1000, inside the neighbourhood, with an inner root finder that always answers 7 *)
Example C103_entering_ex_pf :
  let s := IndirectLevenbergMarquardt (N:=RN) (mkTols (N:=RN) (1/10)%R 1%R max_norm) hyperbola_jac lsolve1 (1/100)%R 1000%R (fun _ => 7%R) in
  exists st0, s_init s cup [(1/1000)%R] (fun _ => [0; 0]%R) (fun _ => tt) = Ret st0 /\
  let e k := Rnorm (Rsub_v (y_at s cup [(1/1000)%R] st0 tt (S k) : list R) [0%R]) in
  (forall k, (e (S k) <= e k)%R) /\ exists K, forall k, K <= k -> (e (S k) <= / 200 * e k)%R.
Proof.
  intro s. set (st0 := gn_st0 (N:=RN) (classical_trust_region (N:=RN) tr_default) (indirect_damped_newton_descent (N:=RN) lsolve1 (1/100)%R 1000%R two_norm (fun _ => 7%R)) [(1/1000)%R] (fun _ => [0; 0]%R) (fun _ : fillv => tt)).
  exists st0. split; [reflexivity|]. intro e. destruct cup_hyps as (H1 & H2 & H3 & H4 & H5 & H6 & H7 & H8).
  assert (Hi : s_init s cup [(1/1000)%R] (fun _ => [0; 0]%R) (fun _ => tt) = Ret st0) by reflexivity.
  assert (N0 : length (y_at s cup [(1/1000)%R] st0 tt (S (0 + 0)) : list R) = 1%nat /\ (Rnorm (Rsub_v (y_at s cup [(1/1000)%R] st0 tt (S (0 + 0)) : list R) [0%R]) <= 1 / 1000)%R).
  { pose proof (proj1 (ns_first (mkTols (N:=RN) (1/10)%R 1%R max_norm) (indirect_damped_newton_descent (N:=RN) lsolve1 (1/100)%R 1000%R two_norm (fun _ => 7%R)) hyperbola_jac cup [(1/1000)%R] (fun _ => [0; 0]%R) (fun _ => tt))) as E.
    assert (E' : (y_at s cup [(1/1000)%R] st0 tt (S (0 + 0)) : list R) = [(1/1000)%R]) by exact E.
    rewrite E'. split; [reflexivity|]. cbn [Rsub_v]. rewrite Rnorm_1. rewrite Rabs_pos_eq; lra. }
  destruct (C103_entering_pf unit (mkTols (N:=RN) (1/10)%R 1%R max_norm) (1/100)%R 1000%R lsolve1 (fun _ => 7%R) hyperbola_jac cup 1 2 [(1/1000)%R] [0%R] (fun _ => [0; 0]%R) (fun _ => tt)
    1%R (3/2)%R 2%R (1/1000)%R st0 0 ltac:(lra) ltac:(lra) (proj1 C32_levenberg_marquardt_ex_pf) H1 eq_refl H6
    ltac:(lra) ltac:(lra) ltac:(lra) H7 H8 ltac:(lra) eq_refl Hi N0) as (_ & A & _ & K & HK).
  split; [exact A|]. exists K. intros k Hk. apply (HK k Hk).
Qed.

Lemma at_root : forall (n : nat) (root x : list R), length root = n -> length x = n -> Rnorm (Rsub_v x root) = 0%R -> x = root.
Proof.
  intros n root x Lroot Lx H. apply sub_zero; [congruence|].
  replace (length x) with (length (Rsub_v x root)) by (rewrite (Rsub_v_length _ _ n); auto). apply Rnorm_0. exact H.
Qed.
(** ** Dogleg: the model does not rise along the step *)
Lemma dog_slope : forall (n m : nat) (A : linop RN) (r y : list R) lsolve (eps step sigma : R) st,
  exact_least_squares n lsolve -> linear_op n m A -> transpose_op n A -> length r = m -> (0 <= eps)%R -> (0 < step)%R -> (0 < sigma)%R ->
  (forall v, length v = n -> sigma * Rdot v v <= Rdot (op_mv A v) (op_mv A v))%R ->
  let descent := dogleg_descent (N:=RN) lsolve eps two_norm None in
  let d : list R := fst (d_step descent step (d_query descent y (ResidualJac (N:=RN) r A) st)) in
  let g : list R := op_mvT A r in
  let dn := Rdot (op_mv A g) (op_mv A g) in
  (Rdot (Radd_v (op_mv A d) r) (op_mv A d) <= 0)%R /\
  (d = zerov n -> Rscal (-1) (fst (lsolve A r)) = zerov n \/ (Rnorm (Rscal (- (if Rltb eps dn then Rdot g g / dn else 0)) g) <= eps)%R).
Proof.
  intros n m A r y lsolve eps step sigma st HE HA HT Hr He Hs S0 HI descent d g dn.
  destruct (dog_lens n m A r lsolve eps HE HA HT Hr) as (Lg & Ln & Lc). pose proof HA as (L1 & L2 & L3).
  pose proof (newton_orth n m A r lsolve eps HE HA HT Hr) as O.
  pose proof (dog_cases n m A r y lsolve eps step st HE HA HT Hr He Hs) as CS.
  set (nw := Rscal (-1) (fst (lsolve A r)) : list R) in *. fold g in Lg, Lc, O, CS. fold dn in Lc, CS.
  set (al := (if Rltb eps dn then Rdot g g / dn else 0)%R) in *. set (c := Rscal (- al) g : list R) in *.
  change (fst (d_step _ step _)) with d in CS.
  assert (SL : forall v, length v = n -> (Rdot (Radd_v (op_mv A v) r) (op_mv A v) = Rdot (op_mv A v) (op_mv A v) + Rdot g v)%R).
  { intros v Lv. rewrite Rdot_add_l by (rewrite L1 by exact Lv; auto). f_equal. symmetry. exact (proj2 HT r v Lv). }
  assert (CC : (Rdot (op_mv A c) (op_mv A c) + Rdot g c = 0)%R).
  { unfold c. rewrite L3 by exact Lg. rewrite Rdot_scal_l, !Rdot_scal_r. fold dn. unfold al.
    destruct (Rltb eps dn) eqn:E; [|ring]. apply Rltb_true in E. field. lra. }
  assert (XC : (Rdot (op_mv A nw) (op_mv A c) = Rdot (op_mv A c) (op_mv A c))%R) by (rewrite (O c Lc); lra).
  set (a := Rdot (op_mv A c) (op_mv A c)) in *. set (h := Rdot (op_mv A nw) (op_mv A nw)).
  assert (a0 : (0 <= a)%R) by apply Rdot_pos. assert (h0 : (0 <= h)%R) by apply Rdot_pos.
  assert (NZ : h = 0%R -> nw = zerov n).
  { intro Z. pose proof (HI nw Ln) as Q. fold h in Q. rewrite Z in Q. rewrite <- Ln. apply Rnorm_0. unfold Rnorm.
    pose proof (Rdot_pos nw) as Q0. replace (Rdot nw nw) with 0%R; [apply sqrt_0|].
    destruct (Rle_lt_or_eq_dec 0 _ Q0) as [Q1|Q1]; [|exact Q1]. assert (0 < sigma * Rdot nw nw)%R by (apply Rmult_lt_0_compat; assumption). lra. }
  assert (NN : Rnorm nw = 0%R -> nw = zerov n) by (intro Z; rewrite <- Ln; apply Rnorm_0; exact Z).
  clearbody d. destruct CS as [(Q1 & Q2 & Ed)|[(Q1 & Q2 & Ed)|[(Q1 & Q2 & u & Hu & Ed & Q3)|(Q1 & Q2 & Ed)]]].
  - set (D := (Rnorm nw * step)%R) in *. assert (D0 : (0 <= D)%R) by (apply Rmult_le_pos; [apply Rnorm_pos|lra]).
    set (t := (D / Rnorm c)%R) in *. assert (T0 : (0 <= t)%R) by (apply Rmult_le_pos; [exact D0|apply Rlt_le, Rinv_0_lt_compat; lra]).
    assert (T1 : (t <= 1)%R) by (apply (Rmult_le_reg_r (Rnorm c)); [lra|]; unfold t, Rdiv; rewrite Rmult_assoc, Rinv_l by lra; lra).
    assert (Ld : length d = n) by (rewrite Ed, Rscal_length; exact Lc). split.
    + rewrite (SL d Ld), Ed. rewrite L3 by exact Lc. rewrite Rdot_scal_l, !Rdot_scal_r. fold a.
      replace (t * (t * a) + t * Rdot g c)%R with (t * (t * a) + t * (a + Rdot g c) - t * a)%R by ring. rewrite CC.
      assert (0 <= t * ((1 - t) * a))%R by (apply Rmult_le_pos; [exact T0|apply Rmult_le_pos; lra]). lra.
    + intro Z. left. apply NN. assert (E : Rnorm d = 0%R) by (rewrite Z; apply Rnorm_zero).
      assert (E2 : Rdot d d = 0%R) by (rewrite <- Rnorm_sq, E; ring). rewrite Ed, Rdot_scal_l, Rdot_scal_r, <- Rnorm_sq in E2.
      assert (E3 : (t * Rnorm c = D)%R) by (unfold t; field; lra). replace (t * (t * (Rnorm c * Rnorm c)))%R with (D * D)%R in E2 by (rewrite <- E3; ring).
      assert (E4 : D = 0%R) by (apply Rsqr_0_uniq; exact E2). unfold D in E4. apply Rmult_integral in E4. destruct E4; [assumption|lra].
  - assert (Ld : length d = n) by (rewrite Ed; apply zerov_length). split; [|intro; right; exact Q2].
    rewrite (SL d Ld), Ed, (op_zero n m A HA), !Rdot_0_r. lra.
  - assert (EA : op_mv A d = Radd_v (op_mv A c) (Rscal u (op_mv A (Rsub_v nw c)))).
    { rewrite Ed, L2 by (try exact Lc; rewrite Rscal_length; apply Rsub_v_length; assumption). f_equal. apply L3. apply Rsub_v_length; assumption. }
    assert (LB : length (Rsub_v nw c) = n) by (apply Rsub_v_length; assumption).
    assert (Ld : length d = n) by (rewrite Ed; apply Radd_v_length; [exact Lc|rewrite Rscal_length; exact LB]).
    assert (EB : op_mv A (Rsub_v nw c) = Radd_v (op_mv A nw) (Rscal (-1) (op_mv A c))).
    { rewrite Rsub_add by congruence. rewrite L2 by (rewrite ?Rscal_length; assumption). f_equal. apply L3. exact Lc. }
    assert (LL : forall v, length v = n -> length (op_mv A v) = m) by exact L1.
    assert (B1 : (Rdot (op_mv A (Rsub_v nw c)) (op_mv A c) = 0)%R).
    { rewrite EB, Rdot_add_l by (rewrite Rscal_length, !LL by assumption; reflexivity). rewrite Rdot_scal_l, XC. unfold a. ring. }
    assert (B2 : (Rdot (op_mv A (Rsub_v nw c)) (op_mv A (Rsub_v nw c)) = h - a)%R).
    { rewrite EB at 2. rewrite Rdot_comm, Rdot_add_l by (rewrite Rscal_length, !LL by assumption; reflexivity). rewrite Rdot_scal_l.
      rewrite (Rdot_comm (op_mv A c) (op_mv A (Rsub_v nw c))), B1. rewrite EB, (Rdot_comm (op_mv A nw)), Rdot_add_l by (rewrite Rscal_length, !LL by assumption; reflexivity).
      rewrite Rdot_scal_l, (Rdot_comm (op_mv A c) (op_mv A nw)), XC. unfold h. ring. }
    pose proof (Rdot_pos (op_mv A (Rsub_v nw c))) as B3. rewrite B2 in B3.
    assert (DD : (Rdot (op_mv A d) (op_mv A d) = a + u * (u * (h - a)))%R).
    { rewrite EA. rewrite sq_add by (rewrite Rscal_length, !LL by assumption; reflexivity). rewrite !Rdot_scal_r, Rdot_scal_l, B2, (Rdot_comm (op_mv A c) (op_mv A (Rsub_v nw c))), B1. unfold a. ring. }
    assert (GD : (Rdot g d = - (a + u * (h - a)))%R).
    { replace (Rdot g d) with (- Rdot (op_mv A nw) (op_mv A d))%R by (rewrite (O d Ld); ring). rewrite EA, (Rdot_comm (op_mv A nw)).
      rewrite Rdot_add_l by (rewrite Rscal_length, !LL by assumption; reflexivity). rewrite Rdot_scal_l, (Rdot_comm (op_mv A c) (op_mv A nw)), XC.
      replace (Rdot (op_mv A (Rsub_v nw c)) (op_mv A nw)) with (h - a)%R; [ring|].
      rewrite EB, Rdot_add_l by (rewrite Rscal_length, !LL by assumption; reflexivity). rewrite Rdot_scal_l, (Rdot_comm (op_mv A c) (op_mv A nw)), XC. unfold h. ring. }
    split.
    + rewrite (SL d Ld), DD, GD. assert (0 <= u * ((1 - u) * (h - a)))%R by (apply Rmult_le_pos; [lra|apply Rmult_le_pos; lra]). lra.
    + intro Z. left. rewrite Z, (op_zero n m A HA), Rdot_0_r in DD.
      destruct (Rle_lt_or_eq_dec 0 u (proj1 Hu)) as [U1|U1].
      * assert (U2 : (0 <= u * (u * (h - a)))%R) by (apply Rmult_le_pos; [lra|apply Rmult_le_pos; lra]).
        assert (A1 : a = 0%R) by lra. apply NZ. rewrite A1 in DD. rewrite Rplus_0_l, Rminus_0_r in DD. symmetry in DD.
        apply Rmult_integral in DD. destruct DD as [DD|DD]; [lra|]. apply Rmult_integral in DD. destruct DD; [lra|assumption].
      * assert (Zc : c = zerov n).
        { assert (SZ : forall v : list R, Rscal 0 v = zerov (length v)).
          { induction v as [|z v IH]; [reflexivity|]. cbn [length Rscal map]. unfold zerov. cbn [repeat]. f_equal; [ring|exact IH]. }
          rewrite <- U1 in Ed. rewrite SZ, LB in Ed. rewrite <- Lc in Ed. rewrite dr_add0 in Ed. congruence. }
        destruct (Req_EM_T (Rnorm nw) 0) as [W|W]; [apply NN; exact W|]. specialize (Q3 Zc W). lra.
  - assert (Ld : length d = n) by (rewrite Ed; exact Ln). split; [|intro Z; left; congruence].
    rewrite (SL d Ld), Ed. pose proof (O nw Ln) as O'. lra.
Qed.

(** ** One step along which the model does not rise *)
Section Slope.
  Local Open Scope R_scope.
  Variables (n m : nat) (r : list R -> list R) (J : list R -> linop RN) (root : list R) (sigma b gamma rho : R).
  Let near x := length x = n /\ Rnorm (Rsub_v x root) <= rho.
  Hypothesis HP : residual_problem n m r J.
  Hypothesis Lroot : length root = n.
  Hypothesis Hroot : r root = zerov m.
  Hypothesis S0 : 0 < sigma.
  Hypothesis b0 : 0 <= b.
  Hypothesis g0 : 0 <= gamma.
  Hypothesis HJ : forall x v, near x -> length v = n ->
    sigma * Rdot v v <= Rdot (op_mv (J x) v) (op_mv (J x) v) /\ Rdot (op_mv (J x) v) (op_mv (J x) v) <= b * b * Rdot v v.
  Hypothesis HL : forall x x', near x -> near x' ->
    Rnorm (Rsub_v (Rsub_v (r x') (r x)) (op_mv (J x) (Rsub_v x' x))) <= gamma * Rdot (Rsub_v x' x) (Rsub_v x' x).
  Hypothesis Hsmall : b * gamma * rho + 3 * (gamma * rho) * (gamma * rho) < sigma / 200.
  Let p := sqrt sigma.

  Lemma sl_p : 0 < p /\ p * p = sigma.
  Proof. split; [apply sqrt_lt_R0; exact S0|apply sqrt_sqrt; lra]. Qed.

  Lemma sl_gr : forall x, near x -> 0 <= rho /\ 0 <= gamma * rho <= p / 2.
  Proof.
    intros x (_ & H). assert (R0 : 0 <= rho) by (pose proof (Rnorm_pos (Rsub_v x root)); lra). split; [exact R0|].
    assert (G : 0 <= gamma * rho) by (apply Rmult_le_pos; assumption). split; [exact G|].
    destruct sl_p as (P1 & P2). apply Rsqr_incr_0_var; [|lra]. unfold Rsqr.
    assert (0 <= b * gamma * rho) by (rewrite Rmult_assoc; apply Rmult_le_pos; assumption). lra.
  Qed.

  Lemma sl_up : forall x, near x -> Rnorm (r x) <= (b + gamma * rho) * Rnorm (Rsub_v x root).
  Proof.
    intros x Hx. pose proof Hx as (Lx & Dx). destruct (HP x Lx) as (Lr & (L1 & _) & _). destruct (sl_gr x Hx) as (R0 & G).
    pose proof (os_h n m r J root gamma rho HP Lroot Hroot HL x x Hx Lx) as H. set (e := Rnorm (Rsub_v x root)) in *. assert (e0 : 0 <= e) by apply Rnorm_pos.
    assert (LE : length (Rsub_v x root) = n) by (apply Rsub_v_length; assumption).
    assert (GE : forall u w : list R, length u = length w -> u = Radd_v w (Rsub_v u w)).
    { induction u as [|a u IH]; intros [|c w] E; try discriminate; [reflexivity|]. cbn. f_equal; [ring|]. apply IH. apply eq_add_S. exact E. }
    rewrite (GE (r x) (op_mv (J x) (Rsub_v x root))) by (rewrite L1 by exact LE; exact Lr).
    eapply Rle_trans; [apply Rnorm_add; rewrite (Rsub_v_length _ _ m); auto|].
    assert (Q1 : Rnorm (op_mv (J x) (Rsub_v x root)) <= b * e) by (apply Rnorm_bound; [exact b0|apply (HJ _ _ Hx LE)]).
    assert (Q2 : gamma * (e * e) <= gamma * rho * e) by (rewrite <- Rmult_assoc; apply Rmult_le_compat_r; [exact e0|apply Rmult_le_compat_l; assumption]).
    lra.
  Qed.

  Lemma sl_low : forall x, near x -> p / 2 * Rnorm (Rsub_v x root) <= Rnorm (r x).
  Proof.
    intros x Hx. pose proof Hx as (Lx & Dx). destruct (HP x Lx) as (Lr & (L1 & _) & _). destruct (sl_gr x Hx) as (R0 & G). destruct sl_p as (P1 & P2).
    pose proof (os_h n m r J root gamma rho HP Lroot Hroot HL x x Hx Lx) as H. set (e := Rnorm (Rsub_v x root)) in *. assert (e0 : 0 <= e) by apply Rnorm_pos.
    assert (LE : length (Rsub_v x root) = n) by (apply Rsub_v_length; assumption).
    assert (Q0 : p * e <= Rnorm (op_mv (J x) (Rsub_v x root))).
    { destruct (HJ _ _ Hx LE) as (Q & _). apply Rsqr_incr_0_var; [|apply Rnorm_pos]. unfold Rsqr. rewrite Rnorm_sq.
      replace (p * e * (p * e)) with (p * p * (e * e)) by ring. rewrite P2. unfold e. rewrite Rnorm_sq. exact Q. }
    assert (GE : forall u w : list R, length u = length w -> w = Radd_v u (Rscal (-1) (Rsub_v u w))).
    { induction u as [|a u IH]; intros [|c w] E; try discriminate; [reflexivity|]. cbn. f_equal; [ring|]. apply IH. apply eq_add_S. exact E. }
    assert (Q1 : Rnorm (op_mv (J x) (Rsub_v x root)) <= Rnorm (r x) + gamma * (e * e)).
    { rewrite (GE (r x) (op_mv (J x) (Rsub_v x root))) at 1 by (rewrite L1 by exact LE; exact Lr).
      eapply Rle_trans; [apply Rnorm_add; rewrite Rscal_length, (Rsub_v_length _ _ m); auto|]. rewrite Rnorm_neg. lra. }
    assert (Q2 : gamma * (e * e) <= p / 2 * e).
    { rewrite <- Rmult_assoc. apply Rmult_le_compat_r; [exact e0|]. eapply Rle_trans; [apply Rmult_le_compat_l; [exact g0|exact Dx]|]. lra. }
    lra.
  Qed.

  Variables (x d : list R).
  Hypothesis Hx : near x.
  Hypothesis Ld : length d = n.
  Hypothesis HZ : Rdot (Radd_v (op_mv (J x) d) (r x)) (op_mv (J x) d) <= 0.

  Lemma sl_len : p * Rnorm d <= Rnorm (r x).
  Proof.
    pose proof Hx as (Lx & Dx). destruct (HP x Lx) as (Lr & (L1 & _) & _). destruct sl_p as (P1 & P2).
    set (w := op_mv (J x) d) in *. assert (Lw : length w = m) by (apply L1; exact Ld).
    rewrite Rdot_add_l in HZ by exact (eq_trans Lw (eq_sym Lr)). pose proof (Rnorm_dot (r x) w (eq_trans Lr (eq_sym Lw))) as C. pose proof (Rle_abs (- Rdot (r x) w)) as C2. rewrite Rabs_Ropp in C2.
    rewrite <- (Rnorm_sq w) in HZ. assert (w0 : 0 <= Rnorm w) by apply Rnorm_pos. assert (r0 : 0 <= Rnorm (r x)) by apply Rnorm_pos.
    assert (Q : Rnorm w <= Rnorm (r x)).
    { destruct (Rle_lt_or_eq_dec 0 _ w0) as [W|W]; [|lra]. apply (Rmult_le_reg_r (Rnorm w)); [exact W|]. lra. }
    eapply Rle_trans; [|exact Q]. destruct (HJ _ _ Hx Ld) as (J1 & _). fold w in J1.
    apply Rsqr_incr_0_var; [|exact w0]. unfold Rsqr. rewrite Rnorm_sq. replace (p * Rnorm d * (p * Rnorm d)) with (p * p * (Rnorm d * Rnorm d)) by ring.
    rewrite P2, Rnorm_sq. exact J1.
  Qed.

  Hypothesis Hx' : near (Radd_v x d).

  Lemma sl_change :
    let change := half_squares r (Radd_v x d) - half_squares r x in
    let pred : R := classical_predict (N:=RN) d (ResidualJac (N:=RN) (r x) (J x)) in
    change <= 1 / 100 * pred /\ pred <= 0 /\ (0 < Rdot d d -> change < 99 / 100 * pred /\ pred < 0).
  Proof.
    intros change pred. pose proof Hx as (Lx & Dx). destruct (HP x Lx) as (Lr & HA & HT). pose proof HA as (L1 & L2 & _).
    pose proof Hx' as (Lx' & Dx'). destruct (HP _ Lx') as (Lr' & _). destruct (sl_gr x Hx) as (R0 & G).
    assert (SP : pred <= - / 2 * Rdot (op_mv (J x) d) (op_mv (J x) d)).
    { pose proof HZ as Z. rewrite Rdot_add_l in Z by (rewrite L1 by exact Ld; auto).
      unfold pred. rewrite (predict_ls n m) by assumption. rewrite (Rdot_comm (op_mv (J x) d) (r x)). lra. }
    pose proof (HL x (Radd_v x d) Hx Hx') as H. rewrite (sub_same x d) in H by congruence.
    set (A := J x) in *. set (h' := Rsub_v (Rsub_v (r (Radd_v x d)) (r x)) (op_mv A d)) in *.
    assert (Lh' : length h' = m) by (apply Rsub_v_length; [apply Rsub_v_length; assumption|apply L1; exact Ld]).
    set (w := Radd_v (op_mv A d) (r x)) in *. assert (Lw : length w = m) by (apply Radd_v_length; [apply L1; exact Ld|exact Lr]).
    assert (Er : r (Radd_v x d) = Radd_v w h') by (apply add_back; rewrite ?L1 by exact Ld; congruence).
    assert (EW : Rdot w w = Rdot (r x) (r x) + 2 * pred).
    { unfold w at 1 2. rewrite sq_add by (rewrite L1 by exact Ld; auto). unfold pred. rewrite (predict_ls n m) by assumption. lra. }
    assert (EC : change = pred + (Rdot w h' + / 2 * Rdot h' h')).
    { unfold change, half_squares. rewrite Er, sq_add by congruence. lra. }
    pose proof (Rdot_pos (op_mv A d)) as AD.
    assert (Nw : Rnorm w <= Rnorm (r x)) by (unfold Rnorm; apply sqrt_le_1_alt; lra).
    pose proof (sl_up x Hx) as Up. set (e := Rnorm (Rsub_v x root)) in *.
    assert (W : Rnorm w <= (b + gamma * rho) * rho).
    { eapply Rle_trans; [exact Nw|]. eapply Rle_trans; [exact Up|]. apply Rmult_le_compat_l; [lra|exact Dx]. }
    set (D := Rnorm d) in *. assert (D0 : 0 <= D) by apply Rnorm_pos. rewrite <- (Rnorm_sq d) in H |- *. fold D in H |- *.
    pose proof (os_d n root rho Lroot x d Hx Ld) as Dle. fold D e in Dle.
    assert (P1 := Rnorm_dot w h' ltac:(congruence)). assert (P2 := Rle_abs (Rdot w h')).
    pose proof (Rnorm_pos h') as h0. pose proof (Rnorm_pos w) as w0. rewrite <- (Rnorm_sq h') in EC.
    assert (DD : 0 <= D * D) by (apply Rle_0_sqr). assert (gD : 0 <= gamma * (D * D)) by (apply Rmult_le_pos; assumption).
    assert (T1 : Rnorm w * Rnorm h' <= ((b + gamma * rho) * rho) * (gamma * (D * D))) by (apply Rmult_le_compat; assumption).
    assert (D2 : D <= 2 * rho) by lra.
    assert (T2 : Rnorm h' * Rnorm h' <= gamma * (D * D) * (gamma * (4 * (rho * rho)))).
    { apply Rmult_le_compat; try assumption. eapply Rle_trans; [exact H|]. apply Rmult_le_compat_l; [exact g0|].
      replace (4 * (rho * rho)) with (2 * rho * (2 * rho)) by ring. apply Rmult_le_compat; assumption. }
    assert (T3 : Rdot w h' + / 2 * (Rnorm h' * Rnorm h') <= (b * gamma * rho + 3 * (gamma * rho) * (gamma * rho)) * (D * D)).
    { replace ((b * gamma * rho + 3 * (gamma * rho) * (gamma * rho)) * (D * D)) with
        (((b + gamma * rho) * rho) * (gamma * (D * D)) + / 2 * (gamma * (D * D) * (gamma * (4 * (rho * rho))))) by field. lra. }
    destruct (HJ x d Hx Ld) as (J1 & _). fold A in J1. rewrite <- (Rnorm_sq d) in J1. fold D in J1.
    assert (SD : 0 <= sigma * (D * D)) by (apply Rmult_le_pos; lra).
    assert (T4 : (b * gamma * rho + 3 * (gamma * rho) * (gamma * rho)) * (D * D) <= sigma / 200 * (D * D)) by (apply Rmult_le_compat_r; lra).
    split; [lra|]. split; [lra|]. intro DP.
    assert (T5 : (b * gamma * rho + 3 * (gamma * rho) * (gamma * rho)) * (D * D) < sigma / 200 * (D * D)) by (apply Rmult_lt_compat_r; lra).
    assert (SD' : 0 < sigma * (D * D)) by (apply Rmult_lt_0_compat; lra). split; lra.
  Qed.
End Slope.

(** ** Dogleg near a zero *)
Section DoglegRun.
  Local Open Scope R_scope.
  Context {Aux : Type}.
  Variables (P : ar_tols RN) (eps : R) (lsolve : linop RN -> list R -> list R * results).
  Variable jac_of : (list R -> list R * Aux) -> list R -> linop RN.
  Variable fn : list R -> list R * Aux.
  Variables (n m : nat) (y0 root : list R) (fs : fillv -> list R) (auxs : fillv -> Aux) (sigma b gamma rho : R).
  Let r (x : list R) : list R := fst (fn x).
  Let J (x : list R) : linop RN := jac_of fn x.
  Let near x := length x = n /\ Rnorm (Rsub_v x root) <= rho.
  Hypothesis He : 0 <= eps.
  Hypothesis HE : exact_least_squares n lsolve.
  Hypothesis HP : residual_problem n m r J.
  Hypothesis Lroot : length root = n.
  Hypothesis Hroot : r root = zerov m.
  Hypothesis S0 : 0 < sigma.
  Hypothesis b0 : 0 <= b.
  Hypothesis g0 : 0 <= gamma.
  Hypothesis HJ : forall x v, near x -> length v = n ->
    sigma * Rdot v v <= Rdot (op_mv (J x) v) (op_mv (J x) v) /\ Rdot (op_mv (J x) v) (op_mv (J x) v) <= b * b * Rdot v v.
  Hypothesis HL : forall x x', near x -> near x' ->
    Rnorm (Rsub_v (Rsub_v (r x') (r x)) (op_mv (J x) (Rsub_v x' x))) <= gamma * Rdot (Rsub_v x' x) (Rsub_v x' x).
  Hypothesis Hsmall : b * gamma * rho + 3 * (gamma * rho) * (gamma * rho) < sigma / 200.
  Hypothesis Ly0 : length y0 = n.
  Let nw (x : list R) : list R := Rscal (-1) (fst (lsolve (J x) (r x))).
  Let cauchy (x : list R) : list R :=
    let g := op_mvT (J x) (r x) in let dn := Rdot (op_mv (J x) g) (op_mv (J x) g) in Rscal (- (if Rltb eps dn then Rdot g g / dn else 0)) g.
  Variable j0 : nat.
  Let descent := dogleg_descent (N:=RN) lsolve eps two_norm None.
  Let search := classical_trust_region (N:=RN) tr_default.
  Let s := gauss_newton_solver (N:=RN) P search descent jac_of.
  Let st0 := gn_st0 (N:=RN) search descent y0 fs auxs.
  Let Y (k : nat) : list R := y_at s fn y0 st0 (auxs fill0) (S (j0 + k)).
  Let Sk k := st_at s fn y0 st0 (auxs fill0) (S (j0 + k)).
  Let radius (k : nat) : R := gn_search_state (Sk k).
  Let acc (k : nat) : nat := gn_num_accepted_steps (Sk k).
  Let e k := Rnorm (Rsub_v (Y k) root).
  Hypothesis Hy0 : near (Y 0).
  Hypothesis Hin : 3 * (b + gamma * rho) * e 0 <= sqrt sigma * rho.

  Let HD : forall y (step : R) st, length y = n -> 0 < step ->
    let i := ResidualJac (N:=RN) (fst (fn y)) (jac_of fn y) in
    let d := fst (d_step descent step (d_query descent y i st)) in
    length d = n /\ classical_predict (N:=RN) d i <= 0 := dogleg_descends Aux lsolve eps jac_of fn n m He HE HP.

  Lemma gr_step : forall k, near (Y k) -> Rnorm (r (Y k)) <= Rnorm (r (Y 0)) ->
    near (Y (S k)) /\ Rnorm (r (Y (S k))) <= Rnorm (r (Y k)) /\ acc (S k) = S (acc k) /\ 0 < radius k /\ radius k <= radius (S k) /\
    (radius (S k) = 7 / 2 * radius k \/ (Y (S k) = Y k /\ radius (S k) = radius k) /\ (nw (Y k) = zerov n \/ radius k < 1 /\ Rnorm (cauchy (Y k)) <= eps)).
  Proof.
    intros k Hk Hr. pose proof Hk as (LY & DY). destruct (HP _ LY) as (Lr & HA & HT).
    destruct (run_inv P descent jac_of fn n y0 fs auxs Ly0 HD (S (j0 + k))) as (_ & R0 & _). change (0 < radius k) in R0.
    destruct (run_step P descent jac_of fn n y0 fs auxs Ly0 HD (j0 + k)) as (st' & X). cbv zeta in X.
    destruct (dog_slope n m (J (Y k)) (r (Y k)) (Y k) lsolve eps (radius k) sigma st' HE HA HT Lr He R0 S0 (fun v Lv => proj1 (HJ (Y k) v Hk Lv))) as (HZ & D0).
    assert (FULL : 1 <= radius k -> fst (d_step descent (radius k) (d_query descent (Y k) (ResidualJac (N:=RN) (r (Y k)) (J (Y k))) st')) = nw (Y k))
      by (intro Hs; exact (dogleg_full n m (J (Y k)) (r (Y k)) (Y k) lsolve eps (radius k) st' HE HA HT Lr He Hs)).
    change (dogleg_descent (N:=RN) lsolve eps two_norm None) with descent in HZ, D0.
    set (d := fst (d_step descent (radius k) (d_query descent (Y k) (ResidualJac (N:=RN) (r (Y k)) (J (Y k))) st'))) in *.
    destruct X as (Ld & EY & X). change (length d = n) in Ld.
    change (gn_y_eval (Sk k) = Radd_v (Y k) d) in EY. rewrite (dr_S j0 k) in X.
    change (d = zerov n -> nw (Y k) = zerov n \/ Rnorm (cauchy (Y k)) <= eps) in D0.
    destruct (sl_p sigma S0) as (P1 & P2). set (p := sqrt sigma) in *.
    destruct (sl_gr n root sigma b gamma rho S0 b0 g0 Hsmall (Y k) Hk) as (Rh & G).
    pose proof (sl_len n m r J root sigma b rho HP S0 HJ (Y k) d Hk Ld HZ) as C1. fold p in C1.
    pose proof (sl_low n m r J root sigma b gamma rho HP Lroot Hroot S0 b0 g0 HJ HL Hsmall (Y k) Hk) as C2. fold p (e k) in C2.
    pose proof (sl_up n m r J root sigma b gamma rho HP Lroot Hroot S0 b0 g0 HJ HL Hsmall (Y 0) Hy0) as C3. fold (e 0%nat) in C3.
    assert (Hk' : near (Radd_v (Y k) d)).
    { split; [apply Radd_v_length; assumption|]. rewrite add_sub_comm by (first [exact (eq_trans LY (eq_sym Ld)) | exact (eq_trans Lroot (eq_sym Ld))]).
      eapply Rle_trans; [apply Rnorm_add; rewrite (Rsub_v_length _ _ n); auto|]. fold (e k).
      apply (Rmult_le_reg_l p); [exact P1|]. lra. }
    destruct (sl_change n m r J root sigma b gamma rho HP Lroot Hroot S0 b0 g0 HJ HL Hsmall (Y k) d Hk Ld HZ Hk') as (C5 & C6 & C7).
    assert (HR : Rnorm (r (Radd_v (Y k) d)) <= Rnorm (r (Y k))).
    { unfold Rnorm. apply sqrt_le_1_alt. unfold half_squares in C5. lra. }
    assert (LOW : Rdot d d = 0 -> nw (Y k) = zerov n \/ radius k < 1 /\ Rnorm (cauchy (Y k)) <= eps).
    { intro Z. assert (Zd : d = zerov n) by (rewrite <- Ld; apply Rnorm_0; unfold Rnorm; rewrite Z; apply sqrt_0).
      destruct (Rlt_le_dec (radius k) 1) as [Q|Q]; [destruct (D0 Zd) as [W|W]; auto|]. left. rewrite <- (FULL Q). exact Zd. }
    destruct X as [(_ & Y1 & A1 & R1 & T1)|(C & _)].
    2:{ exfalso. revert C. apply Rle_not_lt. exact C5. }
    change (Y (S k) = Radd_v (Y k) d) in Y1. change (acc (S k) = S (acc k)) in A1.
    change (radius (S k) = radius k \/ radius (S k) = 7 / 2 * radius k) in R1.
    rewrite Y1. split; [exact Hk'|]. split; [exact HR|]. split; [exact A1|]. split; [exact R0|].
    split; [destruct R1 as [R1|R1]; rewrite R1; lra|].
    pose proof (Rdot_pos d) as D1. destruct (Rle_lt_or_eq_dec 0 _ D1) as [D2|D2].
    - left. destruct (C7 D2) as (G1 & G2). exact (eq_trans (f_equal _ (eq_sym (dr_S j0 k))) (lm_good P descent jac_of fn n y0 fs auxs (j0 + k) d LY Ld EY G1 G2)).
    - destruct R1 as [R1|R1]; [right|left; exact R1]. split; [split; [|exact R1]|apply LOW; symmetry; exact D2].
      assert (Zd : d = zerov n) by (rewrite <- Ld; apply Rnorm_0; unfold Rnorm; rewrite <- D2; apply sqrt_0).
      rewrite Zd, <- LY. apply dr_add0.
  Qed.

  Lemma gr_inv : forall k, near (Y k) /\ Rnorm (r (Y k)) <= Rnorm (r (Y 0)) /\ acc k = (acc 0 + k)%nat.
  Proof.
    induction k as [|k (I1 & I2 & I3)]; [split; [exact Hy0|split; [lra|lia]]|].
    destruct (gr_step k I1 I2) as (C1 & C2 & C3 & _). split; [exact C1|]. split; [lra|]. rewrite C3, I3. lia.
  Qed.

  (* a vanishing Newton step near the zero means being there *)
  Lemma gr_newton : forall x, near x -> nw x = zerov n -> x = root.
  Proof.
    intros x Hx Z. pose proof Hx as (Lx & Dx). destruct (HP _ Lx) as (Lr & HA & HT).
    destruct (dog_lens n m (J x) (r x) lsolve 0 HE HA HT Lr) as (_ & Ln & _). fold (nw x) in Ln.
    assert (HZ0 : forall v, length v = n -> Rdot (Radd_v (op_mv (J x) (nw x)) (r x)) (op_mv (J x) v) + 0 * Rdot (nw x) v = 0).
    { intros v Lv. pose proof HA as (L1 & _). rewrite Rdot_add_l by (rewrite L1 by exact Ln; auto).
      pose proof (newton_orth n m (J x) (r x) lsolve 0 HE HA HT Lr v Lv) as O. fold (nw x) in O. pose proof (proj2 HT (r x) v Lv) as T. rewrite O. lra. }
    pose proof (os_contract n m r J root sigma b gamma rho HP Lroot Hroot b0 g0 HJ HL x (nw x) 0 Hx ltac:(lra) Ln HZ0) as C4.
    rewrite Z in C4. rewrite <- Lx in C4. rewrite dr_add0 in C4.
    apply (at_root n root x Lroot Lx). set (E := Rnorm (Rsub_v x root)) in *. assert (E0 : 0 <= E) by apply Rnorm_pos.
    assert (Q1 : b * gamma * E <= b * gamma * rho) by (apply Rmult_le_compat_l; [apply Rmult_le_pos; assumption|exact Dx]).
    assert (GG : 0 <= (gamma * rho) * (gamma * rho)) by apply Rle_0_sqr.
    assert (Q2 : b * gamma * E * E <= sigma / 200 * E) by (apply Rmult_le_compat_r; lra).
    assert (Q3 : sigma * E <= 0) by (assert (0 <= sigma * E) by (apply Rmult_le_pos; lra); lra).
    destruct (Rle_lt_or_eq_dec 0 E E0) as [E1|E1]; [|symmetry; exact E1]. assert (0 < sigma * E) by (apply Rmult_lt_0_compat; assumption). lra.
  Qed.

  Lemma gr_root : forall k, Y k = root -> Y (S k) = root.
  Proof.
    intros k H. destruct (gr_inv k) as (N & RR & _). destruct (gr_step k N RR) as (N' & C & _). destruct (sl_p sigma S0) as (P1 & _).
    pose proof (sl_low n m r J root sigma b gamma rho HP Lroot Hroot S0 b0 g0 HJ HL Hsmall (Y (S k)) N') as C2.
    rewrite H, Hroot, Rnorm_zero in C. apply (at_root n root _ Lroot); [exact (proj1 N')|].
    pose proof (Rnorm_pos (Rsub_v (Y (S k)) root)) as Q. destruct (Rle_lt_or_eq_dec 0 _ Q) as [Q1|Q1]; [|symmetry; exact Q1].
    assert (0 < sqrt sigma / 2 * Rnorm (Rsub_v (Y (S k)) root)) by (apply Rmult_lt_0_compat; lra). lra.
  Qed.

  Lemma gr_grow : (exists i, Y (S i) = Y i /\ radius i < 1 /\ Rnorm (cauchy (Y i)) <= eps) \/
    forall k, Y k = root \/ radius k = radius 0 * (7 / 2) ^ k.
  Proof.
    destruct (classic (exists i, Y (S i) = Y i /\ radius i < 1 /\ Rnorm (cauchy (Y i)) <= eps)) as [H|H]; [left; exact H|right].
    induction k as [|k [I|I]]; [right; cbn [pow]; ring|left; apply gr_root; exact I|].
    destruct (gr_inv k) as (N & RR & _). destruct (gr_step k N RR) as (_ & _ & _ & _ & _ & [C|((C1 & C2) & [C|(C3 & C)])]).
    - right. rewrite C, I. cbn [pow]. ring.
    - left. apply gr_root. apply gr_newton; assumption.
    - exfalso. apply H. exists k. auto.
  Qed.

  Lemma gr_quadratic : (exists i, Y (S i) = Y i /\ radius i < 1 /\ Rnorm (cauchy (Y i)) <= eps) \/
    exists K, forall k, (K <= k)%nat -> e (S k) <= b * gamma / sigma * (e k * e k) /\ e (S k) <= / 200 * e k.
  Proof.
    destruct gr_grow as [H|GR]; [left; exact H|right].
    destruct (gr_step 0 Hy0 ltac:(lra)) as (_ & _ & _ & R0 & _).
    destruct (pow_lt_1_zero (2 / 7) ltac:(rewrite Rabs_pos_eq; lra) (radius 0) R0) as (K & HK). exists K. intros k Hk.
    specialize (HK k Hk). rewrite Rabs_pos_eq in HK by (apply pow_le; lra). destruct (gr_inv k) as (N & _). pose proof N as (LY & DY).
    assert (GG : 0 <= (gamma * rho) * (gamma * rho)) by apply Rle_0_sqr. assert (e0 : 0 <= e k) by apply Rnorm_pos.
    destruct (GR k) as [I|I].
    - assert (EK : e k = 0) by (unfold e; rewrite I, (zero_diff n root Lroot); apply Rnorm_zero).
      assert (EK' : e (S k) = 0) by (unfold e; rewrite (gr_root k I), (zero_diff n root Lroot); apply Rnorm_zero).
      rewrite EK, EK'. split; lra.
    - assert (I1 : 1 <= radius k).
      { rewrite I. assert (E : (2 / 7) ^ k * (7 / 2) ^ k = 1).
        { rewrite <- Rpow_mult_distr. replace (2 / 7 * (7 / 2)) with 1 by field. apply pow1. }
        rewrite <- E. apply Rmult_le_compat_r; [apply pow_le; lra|lra]. }
      assert (HN : forall x (step : R) st, length x = n -> 1 <= step ->
        fst (d_step descent step (d_query descent x (ResidualJac (N:=RN) (fst (fn x)) (jac_of fn x)) st)) = nw x).
      { intros x step st' Lx Hs. destruct (HP x Lx) as (Lr & HA & HT). exact (dogleg_full n m _ _ x lsolve eps step st' HE HA HT Lr He Hs). }
      destruct (ns_step P lsolve descent jac_of fn n m y0 root fs auxs sigma b gamma rho HE HP Lroot Hroot S0 b0 g0 HJ HL Hsmall Ly0 HD HN (j0 + k) N I1)
        as (_ & _ & _ & _ & C2 & _). rewrite (dr_S j0 k) in C2.
      change (sigma * e (S k) <= b * gamma * (e k * e k)) in C2. fold (e k) in DY. split; apply (Rmult_le_reg_l sigma); try exact S0.
      + eapply Rle_trans; [exact C2|]. right. field. lra.
      + assert (Q1 : b * gamma * e k <= b * gamma * rho) by (apply Rmult_le_compat_l; [apply Rmult_le_pos; assumption|exact DY]).
        assert (Q2 : b * gamma * e k * e k <= sigma / 200 * e k) by (apply Rmult_le_compat_r; lra). lra.
  Qed.
End DoglegRun.

(** Dogleg in exact arithmetic with exact least-squares solves: any run, from any start, whose iterate j+1 is within rho of a zero of the residuals (the
    conditions of C101 and C102 holding there) and so close that 3 (b + gamma rho) |y - root| <= sqrt sigma rho: it stays within rho and rejects
    no further step; and either it once takes a zero step, its step size being below 1 and the Cauchy point no longer than eps (the cutoff in
    DoglegDescent), or its convergence becomes quadratic, |y_(k+1) - root| <= b gamma / sigma |y_k - root|^2. *)
Lemma C103_dogleg_entering_pf :
  forall (Aux : Type) (P : ar_tols RN) (eps : R) lsolve jac_of (fn : list R -> list R * Aux)
         (n m : nat) (y0 root : list R) fs auxs (sigma b gamma rho : R) st0 (j : nat),
    let r x := fst (fn x) in let J := jac_of fn in
    let near x := length x = n /\ (Rnorm (Rsub_v x root) <= rho)%R in
    let cauchy x : list R := let g := op_mvT (J x) (r x) in let dn := Rdot (op_mv (J x) g) (op_mv (J x) g) in
      Rscal (- (if Rltb eps dn then Rdot g g / dn else 0))%R g in
    (0 <= eps)%R -> exact_least_squares n lsolve -> residual_problem n m r J ->
    length root = n -> r root = zerov m -> (0 < sigma)%R -> (0 <= b)%R -> (0 <= gamma)%R ->
    (forall x v, near x -> length v = n ->
       sigma * Rdot v v <= Rdot (op_mv (J x) v) (op_mv (J x) v) /\ Rdot (op_mv (J x) v) (op_mv (J x) v) <= b * b * Rdot v v)%R ->
    (forall x x', near x -> near x' ->
       Rnorm (Rsub_v (Rsub_v (r x') (r x)) (op_mv (J x) (Rsub_v x' x))) <= gamma * Rdot (Rsub_v x' x) (Rsub_v x' x))%R ->
    (b * gamma * rho + 3 * (gamma * rho) * (gamma * rho) < sigma / 200)%R -> length y0 = n ->
    let s := Dogleg (N:=RN) P jac_of lsolve eps in
    s_init s fn y0 fs auxs = Ret st0 ->
    let y k : list R := y_at s fn y0 st0 (auxs fill0) (S (j + k)) in
    let st k := st_at s fn y0 st0 (auxs fill0) (S (j + k)) in
    let e k := Rnorm (Rsub_v (y k) root) in
    near (y 0) -> (3 * (b + gamma * rho) * e 0%nat <= sqrt sigma * rho)%R ->
    (forall k, near (y k)) /\
    (forall k, gn_num_accepted_steps (st k) = gn_num_accepted_steps (st 0) + k) /\
    ((exists k, y (S k) = y k /\ ((gn_search_state (st k) : R) < 1)%R /\ (Rnorm (cauchy (y k)) <= eps)%R) \/
     exists K, forall k, K <= k -> (e (S k) <= b * gamma / sigma * (e k * e k))%R /\ (e (S k) <= / 200 * e k)%R).
Proof.
  intros Aux P eps lsolve jac_of fn n m y0 root fs auxs sigma b gamma rho st0 j r J near cauchy He HE HP Lroot Hroot S0 b0 g0 HJ HL Hsmall Ly0 s Hi y st e Hy Hin.
  unfold s in Hi. apply gn_init_inv in Hi. subst st0.
  pose proof (gr_inv P eps lsolve jac_of fn n m y0 root fs auxs sigma b gamma rho He HE HP Lroot Hroot S0 b0 g0 HJ HL Hsmall Ly0 j Hy Hin) as INV.
  split; [intro k; apply (INV k)|]. split; [intro k; apply (INV k)|].
  exact (gr_quadratic P eps lsolve jac_of fn n m y0 root fs auxs sigma b gamma rho He HE HP Lroot Hroot S0 b0 g0 HJ HL Hsmall Ly0 j Hy Hin).
Qed.

(** Globally: under C83's conditions for Dogleg with low = 0, residuals bounding the distance to their zero, the local conditions near it, and eps small enough
    for C83's rate to lead within delta <= rho of the zero (3 (b + gamma rho) delta <= sqrt sigma rho): every run comes that close and rejects no further step, and
    ends quadratically or in a zero step with a Cauchy point no longer than eps. *)
Lemma C103_dogleg_global_pf :
  forall (Aux : Type) (P : ar_tols RN) (eps : R) lsolve jac_of (fn : list R -> list R * Aux)
         (n m : nat) (y0 root : list R) fs auxs (L B sigma0 mu c sigma b gamma rho delta : R) st0,
    let r x := fst (fn x) in let J := jac_of fn in
    let near x := length x = n /\ (Rnorm (Rsub_v x root) <= rho)%R in
    let cauchy x : list R := let g := op_mvT (J x) (r x) in let dn := Rdot (op_mv (J x) g) (op_mv (J x) g) in
      Rscal (- (if Rltb eps dn then Rdot g g / dn else 0))%R g in
    (0 <= eps)%R -> exact_least_squares n lsolve -> residual_problem n m r J ->
    smooth n L (half_squares r) (ls_gradient r J) -> (0 < sigma0 <= B)%R -> jac_bounded n B J -> jac_injective n sigma0 J ->
    (0 < mu <= L)%R -> (forall x, length x = n -> mu * Rdot (r x) (r x) <= Rdot (ls_gradient r J x) (ls_gradient r J x))%R ->
    (0 < c)%R -> (forall x, length x = n -> c * Rdot (Rsub_v x root) (Rsub_v x root) <= Rdot (r x) (r x))%R ->
    length root = n -> r root = zerov m -> (0 < sigma)%R -> (0 <= b)%R -> (0 <= gamma)%R ->
    (forall x v, near x -> length v = n ->
       sigma * Rdot v v <= Rdot (op_mv (J x) v) (op_mv (J x) v) /\ Rdot (op_mv (J x) v) (op_mv (J x) v) <= b * b * Rdot v v)%R ->
    (forall x x', near x -> near x' ->
       Rnorm (Rsub_v (Rsub_v (r x') (r x)) (op_mv (J x) (Rsub_v x' x))) <= gamma * Rdot (Rsub_v x' x) (Rsub_v x' x))%R ->
    (b * gamma * rho + 3 * (gamma * rho) * (gamma * rho) < sigma / 200)%R -> length y0 = n ->
    (0 < delta <= rho)%R -> (3 * (b + gamma * rho) * delta <= sqrt sigma * rho)%R -> (B * B * (eps * eps) / mu <= c * (delta * delta))%R ->
    let s := Dogleg (N:=RN) P jac_of lsolve eps in
    s_init s fn y0 fs auxs = Ret st0 ->
    let y k : list R := y_at s fn y0 st0 (auxs fill0) k in
    let st k := st_at s fn y0 st0 (auxs fill0) k in
    let e k := Rnorm (Rsub_v (y k) root) in
    exists j, (e (S j) <= delta)%R /\ (forall k, S j <= k -> near (y k)) /\
      (forall k, S j <= k -> gn_num_accepted_steps (st (S k)) = S (gn_num_accepted_steps (st k))) /\
      ((exists k, S j <= k /\ y (S k) = y k /\ (Rnorm (cauchy (y k)) <= eps)%R) \/
       exists K, forall k, K <= k -> (e (S k) <= b * gamma / sigma * (e k * e k))%R /\ (e (S k) <= / 200 * e k)%R).
Proof.
  intros Aux P eps lsolve jac_of fn n m y0 root fs auxs L B sigma0 mu c sigma b gamma rho delta st0 r J near cauchy He HE HP HS HB0 HB HI HM Hdom C0 Herr Lroot Hroot S0 b0 g0 HJ HL Hsmall Ly0 Hdl Hin Heps s Hi y st e.
  assert (HD : dominated n mu 0 (half_squares r) (ls_gradient r J)).
  { intros x Lx. unfold half_squares. pose proof (Rdot_pos (r x)). split; [lra|]. specialize (Hdom x Lx). lra. }
  set (rt := Rmin 1 (Rmin (sigma0 / B) (99 * sigma0 / (50 * L)) / 4)) in *.
  assert (rt0 : (0 < rt)%R).
  { unfold rt. apply Rmin_glb_lt; [lra|]. apply Rdiv_lt_0_compat; [|lra]. apply Rmin_glb_lt; apply Rdiv_lt_0_compat; lra. }
  destruct (pow_lt_1_zero (/ 4) ltac:(rewrite Rabs_pos_eq; lra) rt rt0) as (q & Hq). specialize (Hq q (Nat.le_refl q)).
  assert (Hq' : (1 <= 4 ^ q * rt)%R).
  { rewrite pow_inv, Rabs_pos_eq in Hq by (apply Rlt_le, Rinv_0_lt_compat, pow_lt; lra).
    assert (P4 : (0 < 4 ^ q)%R) by (apply pow_lt; lra).
    apply (Rmult_le_reg_l (/ 4 ^ q)); [apply Rinv_0_lt_compat; exact P4|]. rewrite <- Rmult_assoc, Rinv_l, Rmult_1_l, Rmult_1_r by lra. lra. }
  destruct (C83_dogleg_pf Aux P eps lsolve jac_of fn n m L B sigma0 mu 0 y0 fs auxs st0 q He HE HP HS HB0 HB HI Ly0 HM HD Hq' Hi) as (Th & Rate).
  fold rt in Th, Rate. set (theta := (1 - mu * rt / (100 * B))%R) in *.
  pose proof (proj1 (HD y0 Ly0)) as F0. set (F := half_squares r y0) in *.
  assert (T0 : (0 < c * (delta * delta) / (2 * (F + 1)))%R).
  { apply Rdiv_lt_0_compat; [apply Rmult_lt_0_compat; [exact C0|apply Rmult_lt_0_compat; lra]|lra]. }
  destruct (pow_lt_1_zero theta ltac:(rewrite Rabs_pos_eq; lra) _ T0) as (i & Hi0). specialize (Hi0 i (Nat.le_refl i)).
  rewrite Rabs_pos_eq in Hi0 by (apply pow_le; lra).
  set (j := 2 * i + 1 + q). exists j.
  assert (EJ : S j = 2 * i + 2 + q) by (unfold j; lia).
  assert (LY : length (y (S j)) = n).
  { pose proof Hi as Hi'. unfold s in Hi'. apply gn_init_inv in Hi'. unfold y. rewrite Hi'.
    pose proof (dogleg_descends Aux lsolve eps jac_of fn n m He HE HP) as HDs. cbv zeta in HDs.
    apply (run_inv P (dogleg_descent (N:=RN) lsolve eps two_norm None) jac_of fn n y0 fs auxs Ly0 HDs (S j)). }
  assert (ED : (e (S j) <= delta)%R).
  { pose proof (Rate i) as Q. rewrite <- EJ in Q. change (half_squares r (y (S j)) - 0 <= Rmax (theta ^ i * (F - 0)) (B * B * (eps * eps) / (2 * mu)))%R in Q.
    pose proof (Herr _ LY) as Q2. unfold half_squares in Q. rewrite <- (Rnorm_sq (Rsub_v (y (S j)) root)) in Q2.
    fold (e (S j)) in Q2. assert (E0 : (0 <= e (S j))%R) by apply Rnorm_pos. set (E := e (S j)) in *.
    assert (Q3 : (theta ^ i * F <= c * (delta * delta) / 2)%R).
    { apply (Rle_trans _ (c * (delta * delta) / (2 * (F + 1)) * (F + 1))).
      - apply Rmult_le_compat; [apply pow_le; lra|lra|lra|lra].
      - right. field. lra. }
    assert (Q4 : (B * B * (eps * eps) / (2 * mu) <= c * (delta * delta) / 2)%R).
    { replace (B * B * (eps * eps) / (2 * mu))%R with (B * B * (eps * eps) / mu / 2)%R by (field; lra). lra. }
    assert (Q5 : (Rmax (theta ^ i * (F - 0)) (B * B * (eps * eps) / (2 * mu)) <= c * (delta * delta) / 2)%R) by (apply Rmax_lub; [rewrite Rminus_0_r|]; assumption).
    destruct (Rle_dec E delta) as [?|N]; [assumption|exfalso].
    assert (c * (delta * delta) < c * (E * E))%R by (apply Rmult_lt_compat_l; [exact C0|]; nra). lra. }
  split; [exact ED|].
  assert (EK : S j = S (j + 0)) by lia.
  assert (NY' : near (y (S (j + 0)))) by (rewrite <- EK; split; [exact LY|]; fold (e (S j)); lra).
  assert (R0 : (0 <= gamma * rho)%R) by (apply Rmult_le_pos; lra).
  assert (IN' : (3 * (b + gamma * rho) * e (S (j + 0)) <= sqrt sigma * rho)%R).
  { rewrite <- EK. eapply Rle_trans; [|exact Hin]. apply Rmult_le_compat_l; [lra|exact ED]. }
  destruct (C103_dogleg_entering_pf Aux P eps lsolve jac_of fn n m y0 root fs auxs sigma b gamma rho st0 j He HE HP Lroot Hroot S0 b0 g0 HJ HL Hsmall Ly0 Hi NY' IN')
    as (A0 & A1 & A2).
  split; [|split].
  - intros k Hk. pose proof (A0 (k - S j)) as Q. replace (S (j + (k - S j))) with k in Q by lia. exact Q.
  - intros k Hk. pose proof (A1 (k - S j)) as Q1. pose proof (A1 (S (k - S j))) as Q2.
    replace (S (j + (k - S j))) with k in Q1 by lia. replace (S (j + S (k - S j))) with (S k) in Q2 by lia.
    change (gn_num_accepted_steps (st k) = gn_num_accepted_steps (st (S (j + 0))) + (k - S j)) in Q1.
    change (gn_num_accepted_steps (st (S k)) = gn_num_accepted_steps (st (S (j + 0))) + S (k - S j)) in Q2. lia.
  - destruct A2 as [(k & K1 & _ & K3)|(K & HK)].
    + left. exists (S (j + k)). split; [lia|]. replace (S (S (j + k))) with (S (j + S k)) by lia. split; [exact K1|exact K3].
    + right. exists (S j + K). intros k Hk. pose proof (HK (k - S j) ltac:(lia)) as C.
      replace (S (j + (k - S j))) with k in C by lia. replace (S (j + S (k - S j))) with (S k) in C by lia. exact C.
Qed.

(** from 1/10000 *)
Example C103_dogleg_entering_ex_pf :
  let s := Dogleg (N:=RN) (mkTols (N:=RN) (1/10)%R 1%R max_norm) hyperbola_jac lsolve1 0%R in
  exists st0, s_init s cup [(1/10000)%R] (fun _ => [0; 0]%R) (fun _ => tt) = Ret st0 /\
  let e k := Rnorm (Rsub_v (y_at s cup [(1/10000)%R] st0 tt (S k) : list R) [0%R]) in
  forall k, (e k <= 1 / 1000)%R.
Proof.
  intro s. set (st0 := gn_st0 (N:=RN) (classical_trust_region (N:=RN) tr_default) (dogleg_descent (N:=RN) lsolve1 0%R two_norm None) [(1/10000)%R] (fun _ => [0; 0]%R) (fun _ : fillv => tt)).
  exists st0. split; [reflexivity|]. intro e. destruct cup_hyps as (H1 & H2 & H3 & H4 & H5 & H6 & H7 & H8).
  assert (Hi : s_init s cup [(1/10000)%R] (fun _ => [0; 0]%R) (fun _ => tt) = Ret st0) by reflexivity.
  assert (E' : (y_at s cup [(1/10000)%R] st0 tt (S (0 + 0)) : list R) = [(1/10000)%R])
    by exact (proj1 (ns_first (mkTols (N:=RN) (1/10)%R 1%R max_norm) (dogleg_descent (N:=RN) lsolve1 0%R two_norm None) hyperbola_jac cup [(1/10000)%R] (fun _ => [0; 0]%R) (fun _ => tt))).
  assert (EN : Rnorm (Rsub_v [(1/10000)%R] [0%R]) = (1 / 10000)%R) by (cbn [Rsub_v]; rewrite Rnorm_1, Rabs_pos_eq; lra).
  assert (N0 : length (y_at s cup [(1/10000)%R] st0 tt (S (0 + 0)) : list R) = 1%nat /\ (Rnorm (Rsub_v (y_at s cup [(1/10000)%R] st0 tt (S (0 + 0)) : list R) [0%R]) <= 1 / 1000)%R).
  { rewrite E'. split; [reflexivity|]. rewrite EN. lra. }
  assert (N1 : (3 * (3 / 2 + 2 * (1 / 1000)) * Rnorm (Rsub_v (y_at s cup [(1/10000)%R] st0 tt (S (0 + 0)) : list R) [0%R]) <= sqrt 1 * (1 / 1000))%R).
  { rewrite E', EN, sqrt_1. lra. }
  destruct (C103_dogleg_entering_pf unit (mkTols (N:=RN) (1/10)%R 1%R max_norm) 0%R lsolve1 hyperbola_jac cup 1 2 [(1/10000)%R] [0%R] (fun _ => [0; 0]%R) (fun _ => tt)
    1%R (3/2)%R 2%R (1/1000)%R st0 0 ltac:(lra) (proj1 C32_levenberg_marquardt_ex_pf) H1 eq_refl H6
    ltac:(lra) ltac:(lra) ltac:(lra) H7 H8 ltac:(lra) eq_refl Hi N0 N1) as (A & _).
  intro k. apply (A k).
Qed.

(** from 2 *)
Example C103_dogleg_global_ex_pf :
  let s := Dogleg (N:=RN) (mkTols (N:=RN) (1/10)%R 1%R max_norm) hyperbola_jac lsolve1 (1/100000)%R in
  exists st0, s_init s cup [2%R] (fun _ => [0; 0]%R) (fun _ => tt) = Ret st0 /\
  let e k := Rnorm (Rsub_v (y_at s cup [2%R] st0 tt k : list R) [0%R]) in
  exists j, (e (S j) <= 1 / 10000)%R /\ forall k, S j <= k -> (e k <= 1 / 1000)%R.
Proof.
  intro s. eexists. split; [reflexivity|]. intro e. destruct cup_hyps as (H1 & H2 & H3 & H4 & H5 & H6 & H7 & H8).
  destruct (C103_dogleg_global_pf unit (mkTols (N:=RN) (1/10)%R 1%R max_norm) (1/100000)%R lsolve1 hyperbola_jac cup 1 2 [2%R] [0%R] (fun _ => [0; 0]%R) (fun _ => tt)
    2%R 2%R 1%R (/ 2)%R 1%R 1%R (3/2)%R 2%R (1/1000)%R (1/10000)%R _ ltac:(lra) (proj1 C32_levenberg_marquardt_ex_pf) H1 H2 ltac:(lra) H3 cup_injective
    ltac:(lra) H4 ltac:(lra) H5 eq_refl H6
    ltac:(lra) ltac:(lra) ltac:(lra) H7 H8 ltac:(lra) eq_refl ltac:(lra) ltac:(rewrite sqrt_1; lra) ltac:(lra) eq_refl) as (j & A & B & _).
  exists j. split; [exact A|]. intros k Hk. apply (B k Hk).
Qed.
