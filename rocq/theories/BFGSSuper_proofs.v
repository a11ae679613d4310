(** BFGS converges superlinearly (C106). *)

From Coq Require Import String List Bool Arith Lia ZArith QArith Qreals Reals Lra Psatz.
From Verif Require Import Num NumFacts Vec Results Iterate Spec_Iterate Iterate_proofs.
From Verif Require Import Spec_Vec VecFacts Spec_Lin LinFacts.
From Verif Require Import Search Spec_Search Descent Minimisers QuasiNewton Solvers Minimisers_proofs Progress_proofs TrustRegion_proofs LeastSquares_proofs BFGS_proofs QNRun_proofs.
From Verif Require Import Spec_Steps Steps_proofs LogDet Spec_BFGSConv Convergence_proofs Cholesky.
From Verif Require Import BFGSConv_proofs Frame Spec_BFGSSuper.
From Verif Require Dogleg_proofs LMLocal_proofs DoglegConv_proofs.
Import ListNotations.
Import Dogleg_proofs LMLocal_proofs.
Local Open Scope R_scope.

(** ** Real numbers *)

(** A nonnegative quantity that a potential pays for tends to 0 *)
Lemma vanishing : forall (A u : nat -> R) K0,
  (forall k, (K0 <= k)%nat -> 0 <= A k /\ 0 <= u k /\ A (S k) <= A k - u k) ->
  forall delta, 0 < delta -> exists K, (K0 <= K)%nat /\ forall k, (K <= k)%nat -> u k <= delta.
Proof.
  intros A u K0 H delta D.
  set (A' := fun j => A (K0 + j)%nat).
  assert (DEC : Un_decreasing A').
  { intro j. unfold A'. rewrite Nat.add_succ_r. destruct (H (K0 + j)%nat ltac:(lia)) as (_ & H1 & H2). lra. }
  assert (LB : has_lb A').
  { exists 0. intros z (j & ->). unfold opp_seq, A'. destruct (H (K0 + j)%nat ltac:(lia)). lra. }
  destruct (decreasing_cv A' DEC LB) as (l & CV).
  destruct (CV delta D) as (N & HN). exists (K0 + N)%nat. split; [lia|]. intros k Hk.
  specialize (HN (k - K0)%nat ltac:(lia)). unfold R_dist in HN.
  pose proof (decreasing_ineq A' l DEC CV (k - K0)%nat) as I1. pose proof (decreasing_ineq A' l DEC CV (S (k - K0))) as I2.
  unfold A' in *. replace (K0 + (k - K0))%nat with k in * by lia. replace (K0 + S (k - K0))%nat with (S k) in * by lia.
  destruct (H k ltac:(lia)) as (_ & _ & H2). rewrite Rabs_pos_eq in HN by lra. lra.
Qed.

Lemma ln_gap_up : forall delta z, 0 < delta -> 1 + delta <= z -> delta - ln (1 + delta) <= z - 1 - ln z.
Proof.
  intros delta z D Hz.
  assert (E : ln z = ln (1 + delta) + ln (z / (1 + delta))).
  { rewrite <- ln_mult by (first [lra|apply Rdiv_lt_0_compat; lra]). f_equal. field. lra. }
  pose proof (ln_le_sub1 (z / (1 + delta)) ltac:(apply Rdiv_lt_0_compat; lra)) as Q.
  assert (z - z / (1 + delta) = delta * (z / (1 + delta))) by (field; lra).
  assert (1 <= z / (1 + delta)).
  { apply (Rmult_le_reg_r (1 + delta)); [lra|]. unfold Rdiv. rewrite Rmult_assoc, Rinv_l by lra. lra. }
  assert (delta * 1 <= delta * (z / (1 + delta))) by (apply Rmult_le_compat_l; lra). lra.
Qed.
Lemma ln_gap_down : forall delta z, 0 < delta < 1 -> 0 < z <= 1 - delta -> - delta - ln (1 - delta) <= z - 1 - ln z.
Proof.
  intros delta z D Hz.
  assert (E : ln z = ln (1 - delta) + ln (z / (1 - delta))).
  { rewrite <- ln_mult by (first [lra|apply Rdiv_lt_0_compat; lra]). f_equal. field. lra. }
  pose proof (ln_le_sub1 (z / (1 - delta)) ltac:(apply Rdiv_lt_0_compat; lra)) as Q.
  assert (z / (1 - delta) - z = delta * (z / (1 - delta))) by (field; lra).
  assert (z / (1 - delta) <= 1).
  { apply (Rmult_le_reg_r (1 - delta)); [lra|]. unfold Rdiv. rewrite Rmult_assoc, Rinv_l by lra. lra. }
  assert (delta * (z / (1 - delta)) <= delta * 1) by (apply Rmult_le_compat_l; lra). lra.
Qed.
Lemma ln_lt_sub1 : forall x, 0 < x -> x <> 1 -> ln x < x - 1.
Proof.
  intros x H N. assert (ln x <> 0).
  { intro E. apply N. rewrite <- (exp_ln x H), E. apply exp_0. }
  pose proof (exp_ineq1 (ln x) H0) as E. rewrite exp_ln in E by exact H. lra.
Qed.
Lemma close_to_one : forall delta, 0 < delta < 1 -> exists kappa, 0 < kappa <= delta /\
  forall z, 0 < z -> z - 1 - ln z < kappa -> 1 - delta < z < 1 + delta.
Proof.
  intros delta D.
  pose proof (ln_lt_sub1 (1 + delta) ltac:(lra) ltac:(lra)) as P1. pose proof (ln_lt_sub1 (1 - delta) ltac:(lra) ltac:(lra)) as P2.
  exists (Rmin delta (Rmin (delta - ln (1 + delta)) (- delta - ln (1 - delta)))).
  split. { split; [repeat apply Rmin_glb_lt; lra|apply Rmin_l]. }
  intros z Z H.
  pose proof (Rmin_r delta (Rmin (delta - ln (1 + delta)) (- delta - ln (1 - delta)))).
  pose proof (Rmin_l (delta - ln (1 + delta)) (- delta - ln (1 - delta))).
  pose proof (Rmin_r (delta - ln (1 + delta)) (- delta - ln (1 - delta))).
  split; apply Rnot_le_lt; intro Q.
  - pose proof (ln_gap_down delta z D ltac:(lra)). lra.
  - pose proof (ln_gap_up delta z ltac:(lra) ltac:(lra)). lra.
Qed.

(** ** Geometry at the solution *)
Lemma Rnorm_0_v : forall n, Rnorm (zerov n) = 0.
Proof. intro n. unfold Rnorm. rewrite Rdot_0_l. apply sqrt_0. Qed.
Lemma Rnorm_neg : forall t v, Rnorm (Rscal t v) = Rabs t * Rnorm v.
Proof.
  intros t v. unfold Rnorm. rewrite Rdot_scal_l, Rdot_scal_r.
  replace (t * (t * Rdot v v)) with ((t * t) * Rdot v v) by ring.
  rewrite sqrt_mult by (first [apply Rle_0_sqr|apply Rdot_pos]). f_equal. apply sqrt_Rsqr_abs.
Qed.
Lemma Rnorm_mult_le : forall (v u : list R) c, 0 < c -> c * Rdot v v <= Rdot u u -> sqrt c * Rnorm v <= Rnorm u.
Proof.
  intros v u c C H. unfold Rnorm. rewrite <- sqrt_mult by (first [lra|apply Rdot_pos]). apply sqrt_le_1_alt. exact H.
Qed.

Section Geometry.
  Variables (n : nat) (m L : R) (f : list R -> R) (g : list R -> list R).
  Hypothesis Hm : 0 < m.
  Hypothesis HL : 0 < L.
  Hypothesis HS : smooth n L f g.
  Hypothesis HC : strongly_convex n m f g.
  Variables (xs : list R) (A : list (list R)) (Lip rho : R).
  Hypothesis Lxs : length xs = n.
  Hypothesis Gxs : g xs = zerov n.
  Hypothesis HLip : 0 <= Lip.
  Hypothesis Hrho : 0 < rho.
  Hypothesis HA : hessian_at n Lip rho A xs g.

  Lemma grad_norm : forall x, length x = n -> m * Rnorm (Rsub_v x xs) <= Rnorm (g x) /\ Rnorm (g x) <= L * Rnorm (Rsub_v x xs).
  Proof.
    intros x Lx. assert (LD : length (Rsub_v x xs) = n) by (apply Rsub_v_length; assumption).
    pose proof (curvature n m L f g HS HC xs (Rsub_v x xs) Lxs LD) as C1.
    pose proof (cocoercive n m L f g Hm HL HS HC xs (Rsub_v x xs) Lxs LD) as C2. cbv zeta in C2.
    rewrite (add_sub n) in C1, C2 by assumption.
    assert (E : Rsub_v (g x) (g xs) = g x).
    { rewrite Gxs. pose proof (proj1 HS x Lx) as LG. revert LG. generalize (g x). clear. intro v. revert n.
      induction v as [|a v IH]; intros [|n] LG; try discriminate; [reflexivity|]. cbn. fold (zerov n). rewrite IH by (cbn in LG; lia). f_equal. ring. }
    rewrite E in C1, C2. set (v := Rsub_v x xs) in *. pose proof (proj1 HS x Lx) as LG.
    pose proof (Rnorm_dot (g x) v ltac:(congruence)) as CS. pose proof (Rle_abs (Rdot (g x) v)).
    rewrite <- (Rnorm_sq v) in C1. rewrite <- (Rnorm_sq (g x)) in C2.
    pose proof (Rnorm_pos v) as P1. pose proof (Rnorm_pos (g x)) as P2. set (a := Rnorm v) in *. set (b := Rnorm (g x)) in *.
    split.
    - destruct (Req_dec a 0) as [Z|N]; [rewrite Z; lra|]. apply (Rmult_le_reg_r a); [lra|]. lra.
    - destruct (Req_dec b 0) as [Z|N]; [rewrite Z; apply Rmult_le_pos; lra|]. apply (Rmult_le_reg_r b); [lra|].
      assert (L * Rdot (g x) v <= L * (b * a)) by (apply Rmult_le_compat_l; lra). lra.
  Qed.

  Lemma A_low : forall v, length v = n -> m * Rdot v v <= Rdot (mvec A v) v.
  Proof.
    intros v Lv. destruct HA as (MA & SA & HR).
    destruct (Req_dec (Rnorm v) 0) as [Z|N].
    { pose proof (Rnorm_0 v Z) as E. rewrite E. rewrite Lv. rewrite !Rdot_0_r. lra. }
    pose proof (Rnorm_pos v) as P0. set (N0 := Rnorm v) in *. assert (P : 0 < N0) by lra.
    assert (SQ : Rdot v v = N0 * N0) by (unfold N0; symmetry; apply Rnorm_sq).
    apply Rnot_lt_le. intro Q. set (gap := m * Rdot v v - Rdot (mvec A v) v). assert (G0 : 0 < gap) by (unfold gap; lra).
    set (b := Lip * (N0 * (N0 * N0)) + 1). assert (B0 : 0 < b).
    { unfold b. assert (0 <= Lip * (N0 * (N0 * N0))); [|lra]. repeat apply Rmult_le_pos; lra. }
    set (t := Rmin (rho / N0) (gap / (2 * b))).
    assert (T0 : 0 < t) by (apply Rmin_glb_lt; apply Rdiv_lt_0_compat; lra).
    assert (T1 : t * N0 <= rho).
    { assert (t <= rho / N0) by apply Rmin_l. apply (Rmult_le_compat_r N0) in H; [|lra].
      unfold Rdiv in H. rewrite Rmult_assoc, Rinv_l, Rmult_1_r in H by lra. exact H. }
    assert (T2 : t * b <= gap / 2).
    { assert (t <= gap / (2 * b)) by apply Rmin_r. apply (Rmult_le_compat_r b) in H; [|lra].
      replace (gap / (2 * b) * b) with (gap / 2) in H by (field; lra). exact H. }
    assert (Ltv : length (Rscal t v) = n) by (rewrite Rscal_length; exact Lv).
    pose proof (HR xs (Rscal t v) Lxs Ltv) as H.
    rewrite (sub_add n) in H by assumption.
    assert (Exx : Rnorm (Rsub_v xs xs) = 0).
    { rewrite Rsub_v_self, Lxs. apply Rnorm_0_v. }
    rewrite Exx, (Rnorm_scal t v) in H by lra. fold N0 in H. specialize (H ltac:(lra) T1).
    pose proof (curvature n m L f g HS HC xs (Rscal t v) Lxs Ltv) as C1.
    set (dg := Rsub_v (g (Radd_v xs (Rscal t v))) (g xs)) in *.
    assert (Ldg : length dg = n) by (apply Rsub_v_length; apply (proj1 HS); [apply Radd_v_length|]; assumption).
    assert (LAt : length (mvec A (Rscal t v)) = n) by (eapply mvec_len; exact MA).
    set (r := Rsub_v dg (mvec A (Rscal t v))) in *. assert (Lr : length r = n) by (apply Rsub_v_length; assumption).
    assert (E : Rdot dg (Rscal t v) = Rdot r (Rscal t v) + t * t * Rdot (mvec A v) v).
    { unfold r. rewrite Rdot_sub_l by congruence. rewrite mvec_scal, !Rdot_scal_l, !Rdot_scal_r. ring. }
    pose proof (Rnorm_dot r (Rscal t v) ltac:(congruence)) as CS. rewrite (Rnorm_scal t v) in CS by lra. fold N0 in CS.
    pose proof (Rle_abs (Rdot r (Rscal t v))) as AB.
    assert (K : Rnorm r * (t * N0) <= t * t * (t * (Lip * (N0 * (N0 * N0))))).
    { eapply Rle_trans; [apply Rmult_le_compat_r; [apply Rmult_le_pos; lra|exact H]|]. right. ring. }
    rewrite E, Rdot_scal_l, Rdot_scal_r in C1.
    assert (t * t * gap <= t * t * (t * (Lip * (N0 * (N0 * N0))))) by (unfold gap; lra).
    assert (t * (Lip * (N0 * (N0 * N0))) <= t * b) by (apply Rmult_le_compat_l; [lra|unfold b; lra]).
    assert (TT : 0 < t * t) by (apply Rmult_lt_0_compat; lra).
    assert (gap <= t * (Lip * (N0 * (N0 * N0)))) by (apply (Rmult_le_reg_l (t * t)); assumption). lra.
  Qed.

  Lemma A_spd : spd n A.
  Proof.
    destruct HA as (MA & SA & _). split; [exact MA|]. split; [exact SA|]. intros v Lv Nv.
    pose proof (A_low v Lv) as Q.
    assert (0 < Rdot v v). { pose proof (Rdot_pos v). destruct (Req_dec (Rdot v v) 0) as [Z|N]; [|lra].
      exfalso. apply Nv. rewrite <- Lv. apply Rdot_0_inv. exact Z. }
    assert (0 < m * Rdot v v) by (apply Rmult_lt_0_compat; assumption). rewrite (Rdot_comm v (mvec A v)). lra.
  Qed.

  Definition big : R := trace n (mform A) + 1.
  Lemma big_pos : 0 < big.
  Proof. unfold big. pose proof (trace_pos n _ (mform_good n A A_spd)). lra. Qed.
  Lemma A_high : forall v, length v = n -> mform A v v <= big * Rdot v v.
  Proof.
    intros v Lv. pose proof (trace_mat_bound n A v A_spd Lv) as T.
    assert (LA : length (mvec A v) = n) by (eapply mvec_len; apply A_spd).
    pose proof (DoglegConv_proofs.Rdot_CS (mvec A v) v ltac:(congruence)) as CS.
    unfold mform. rewrite (Rdot_comm v (mvec A v)) in T. set (a := Rdot (mvec A v) v) in *.
    assert (A0 : 0 <= a).
    { unfold a. pose proof (A_low v Lv). pose proof (Rdot_pos v). assert (0 <= m * Rdot v v) by (apply Rmult_le_pos; lra). lra. }
    pose proof (Rdot_pos v) as P. pose proof big_pos.
    destruct (Req_dec a 0) as [Z|N]; [rewrite Z; apply Rmult_le_pos; lra|].
    apply (Rmult_le_reg_l a); [lra|]. eapply Rle_trans; [exact CS|].
    assert (Rdot (mvec A v) (mvec A v) <= big * a).
    { eapply Rle_trans; [exact T|]. apply Rmult_le_compat_r; [exact A0|unfold big; lra]. }
    eapply Rle_trans; [apply Rmult_le_compat_r; [exact P|exact H0]|]. right. ring.
  Qed.

  Variables (c dd : list R -> list R).
  Hypothesis F : frame n (mform A) c dd.
  Notation ad := (adj n c).
  Notation nu := (fun s => Rnorm (dd s)).

  Lemma adj_small : forall r v, length r = n -> is_adj n c r v -> sqrt m * Rnorm v <= Rnorm r.
  Proof.
    intros r v Lr (Lv & E). apply Rnorm_mult_le; [exact Hm|].
    pose proof (E v Lv) as E1. pose proof (c_len n _ c dd F v Lv) as Lc.
    pose proof (DoglegConv_proofs.Rdot_CS r (c v) ltac:(congruence)) as CS. rewrite <- E1 in CS.
    pose proof (A_low (c v) Lc) as Q. change (Rdot (mvec A (c v)) (c v)) with (mform A (c v) (c v)) in Q.
    rewrite (proj2 (proj2 F) v v Lv Lv) in Q. pose proof (Rdot_pos v) as P. pose proof (Rdot_pos r) as P'.
    destruct (Req_dec (Rdot v v) 0) as [Z|N]; [rewrite Z, Rmult_0_r; exact P'|].
    apply (Rmult_le_reg_r (Rdot v v)); [lra|].
    assert (m * (Rdot r r * Rdot (c v) (c v)) = Rdot r r * (m * Rdot (c v) (c v))) by ring.
    assert (m * (Rdot v v * Rdot v v) <= m * (Rdot r r * Rdot (c v) (c v))) by (apply Rmult_le_compat_l; lra).
    assert (Rdot r r * (m * Rdot (c v) (c v)) <= Rdot r r * Rdot v v) by (apply Rmult_le_compat_l; lra). lra.
  Qed.
  Lemma adj_large : forall u v, length u = n -> is_adj n c u v -> Rnorm u <= sqrt big * Rnorm v.
  Proof.
    intros u v Lu HV. pose proof (adj_dot n _ c dd F u v u Lu HV) as E. destruct HV as (Lv & _).
    pose proof (d_len n _ c dd F u Lu) as Ldu.
    pose proof (DoglegConv_proofs.Rdot_CS v (dd u) ltac:(congruence)) as CS. rewrite <- E in CS.
    rewrite (d_sq n _ c dd F u Lu) in CS. pose proof (A_high u Lu) as Q. pose proof big_pos as BP.
    unfold Rnorm. rewrite <- sqrt_mult by (first [lra|apply Rdot_pos]). apply sqrt_le_1_alt.
    pose proof (Rdot_pos u) as P. pose proof (Rdot_pos v) as P'.
    destruct (Req_dec (Rdot u u) 0) as [Z|N]; [rewrite Z; apply Rmult_le_pos; lra|].
    apply (Rmult_le_reg_r (Rdot u u)); [lra|]. eapply Rle_trans; [exact CS|].
    eapply Rle_trans; [apply Rmult_le_compat_l; [exact P'|exact Q]|]. right. ring.
  Qed.
  Lemma nu_low : forall s, length s = n -> sqrt m * Rnorm s <= nu s.
  Proof. intros s Ls. apply Rnorm_mult_le; [exact Hm|]. rewrite (d_sq n _ c dd F s Ls). apply (A_low s Ls). Qed.
  Lemma nu_sq : forall s, length s = n -> nu s * nu s = mform A s s.
  Proof. intros s Ls. cbv beta. rewrite Rnorm_sq. apply (d_sq n _ c dd F s Ls). Qed.
  Lemma nu_scal : forall t s, length s = n -> nu (Rscal t s) = Rabs t * nu s.
  Proof.
    intros t s Ls. apply Rsqr_inj; [apply Rnorm_pos|apply Rmult_le_pos; [apply Rabs_pos|apply Rnorm_pos]|].
    unfold Rsqr. rewrite (nu_sq (Rscal t s)) by (rewrite Rscal_length; exact Ls).
    replace (Rabs t * nu s * (Rabs t * nu s)) with ((Rabs t * Rabs t) * (nu s * nu s)) by ring. rewrite (nu_sq s Ls).
    replace (Rabs t * Rabs t) with (t * t). 2:{ rewrite <- Rabs_mult. symmetry. apply Rabs_pos_eq, Rle_0_sqr. }
    unfold mform. rewrite mvec_scal, Rdot_scal_l, Rdot_scal_r. ring.
  Qed.

  (** The gradient's change along s, against A s *)
  Definition resid (x s : list R) : list R := Rsub_v (Rsub_v (g (Radd_v x s)) (g x)) (mvec A s).
  Definition eta (x s : list R) : R := Lip / m * (Rnorm (Rsub_v x xs) + Rnorm (Rsub_v (Radd_v x s) xs)).
  Lemma eta_pos : forall x s, 0 <= eta x s.
  Proof.
    intros x s. unfold eta. apply Rmult_le_pos; [apply Rmult_le_pos; [exact HLip|left; apply Rinv_0_lt_compat; exact Hm]|].
    pose proof (Rnorm_pos (Rsub_v x xs)). pose proof (Rnorm_pos (Rsub_v (Radd_v x s) xs)). lra.
  Qed.
  Lemma resid_len : forall x s, length x = n -> length s = n -> length (resid x s) = n.
  Proof.
    intros x s Lx Ls. apply Rsub_v_length; [apply Rsub_v_length; apply (proj1 HS); [apply Radd_v_length|]; assumption|].
    eapply mvec_len; apply HA.
  Qed.
  Lemma resid_small : forall x s, length x = n -> length s = n ->
    Rnorm (Rsub_v x xs) <= rho -> Rnorm (Rsub_v (Radd_v x s) xs) <= rho ->
    Rnorm (ad (resid x s)) <= eta x s * nu s.
  Proof.
    intros x s Lx Ls H1 H2. pose proof (resid_len x s Lx Ls) as Lr.
    pose proof (adj_small _ _ Lr (adj_is n _ c dd F _ Lr)) as K1.
    pose proof (proj2 (proj2 HA) x s Lx Ls H1 H2) as K2. change (Rsub_v (Rsub_v (g (Radd_v x s)) (g x)) (mvec A s)) with (resid x s) in K2.
    pose proof (nu_low s Ls) as K3. cbv beta in *. unfold eta.
    set (e := Rnorm (Rsub_v x xs) + Rnorm (Rsub_v (Radd_v x s) xs)) in *.
    assert (E0 : 0 <= e) by (unfold e; pose proof (Rnorm_pos (Rsub_v x xs)); pose proof (Rnorm_pos (Rsub_v (Radd_v x s) xs)); lra).
    pose proof (sqrt_lt_R0 m Hm) as SP. assert (SS : sqrt m * sqrt m = m) by (apply sqrt_sqrt; lra).
    apply (Rmult_le_reg_l m); [exact Hm|]. replace (m * (Lip / m * e * Rnorm (dd s))) with (Lip * e * Rnorm (dd s)) by (field; lra).
    rewrite <- SS at 1.
    assert (sqrt m * (sqrt m * Rnorm (ad (resid x s))) <= sqrt m * (Lip * e * Rnorm s)) by (apply Rmult_le_compat_l; lra).
    assert (Lip * e * (sqrt m * Rnorm s) <= Lip * e * Rnorm (dd s)).
    { apply Rmult_le_compat_l; [apply Rmult_le_pos; assumption|exact K3]. }
    lra.
  Qed.
  Lemma adj_A : forall s, length s = n -> is_adj n c (mvec A s) (dd s).
  Proof. intros s Ls. apply (adj_form n (mform A) c dd F); [exact Ls|]. intros z Lz. reflexivity. Qed.
End Geometry.
(** ** The sequences of a run *)
Section Super.
  Variables (n : nat) (m L : R) (f : list R -> R) (g : list R -> list R).
  Hypothesis Hm : 0 < m.
  Hypothesis HL : 0 < L.
  Hypothesis HS : smooth n L f g.
  Hypothesis HC : strongly_convex n m f g.
  Variables (y : nat -> list R) (t : nat -> R) (B : nat -> list (list R)) (h : nat -> list R) (acc : nat -> bool).
  Hypothesis Ly : forall k, length (y k) = n.
  Hypothesis Lh : forall k, length (h k) = n.
  Hypothesis RB : forall k, exists H, spd n H /\ spd n (B k) /\ inverses n H (B k).
  Hypothesis Rdir : forall k, mvec (B k) (h k) = g (y k).
  Hypothesis t0 : t 0%nat = 1.
  Hypothesis B0 : B 0%nat = identity_mat (N:=RN) n.
  Hypothesis Rstep : forall k,
    (acc k = true /\ f (y (S k)) <= f (y k) - 1 / 10 * t k * Rdot (g (y k)) (h k) /\
     y (S k) = Radd_v (y k) (Rscal (- t k) (h k)) /\ t (S k) = 1 /\
     B (S k) = newB false 0 (Rsub_v (g (y (S k))) (g (y k))) (Rsub_v (y (S k)) (y k)) (B k)) \/
    (acc k = false /\ f (y k) - 1 / 10 * t k * Rdot (g (y k)) (h k) < f (Radd_v (y k) (Rscal (- t k) (h k))) /\
     y (S k) = y k /\ t (S k) = / 2 * t k /\ B (S k) = B k /\ h (S k) = h k).
  Variables (xs : list R) (A : list (list R)) (Lip rho : R).
  Hypothesis Lxs : length xs = n.
  Hypothesis Gxs : g xs = zerov n.
  Hypothesis HLip : 0 <= Lip.
  Hypothesis Hrho : 0 < rho.
  Hypothesis HA : hessian_at n Lip rho A xs g.
  Variables (c dd : list R -> list R).
  Hypothesis F : frame n (mform A) c dd.

  Let a k := Rdot (g (y k)) (h k).
  Let gg k := Rdot (g (y k)) (g (y k)).
  Let e k := Rnorm (Rsub_v (y k) xs).
  Let sg k := mform A (h k) (h k).
  Let Pk k := Rdot (adj n c (g (y k))) (adj n c (g (y k))) / a k.
  Let Qk k := a k / sg k.
  Let phi k := Pk k - 1 - ln (Qk k).
  Let Psi k := trace n (along c (mform (B k))) - logdet n (along c (mform (B k))).

  Let Lg k : length (g (y k)) = n := proj1 HS (y k) (Ly k).
  Let Ap k (P : 0 < gg k) : 0 < a k := a_pos n g y B h Lh RB Rdir k P.

  Lemma sg_pos : forall k, 0 < gg k -> 0 < sg k.
  Proof.
    intros k P. pose proof (hh_pos n g y B h Lh Rdir k P) as Q.
    pose proof (A_low n m L f g HS HC xs A Lip rho Lxs HLip Hrho HA (h k) (Lh k)) as W. unfold sg, mform.
    assert (0 < m * Rdot (h k) (h k)) by (apply Rmult_lt_0_compat; assumption). lra.
  Qed.
  Lemma PQ : forall k, 0 < gg k -> 0 < Qk k <= Pk k.
  Proof.
    intros k P. pose proof (sg_pos k P) as S0. pose proof (Ap k P) as A0. unfold Qk, Pk.
    split; [apply Rdiv_lt_0_compat; assumption|].
    pose proof (adj_is n _ c dd F (g (y k)) (Lg k)) as AJ.
    pose proof (adj_dot n _ c dd F _ _ (h k) (Lh k) AJ) as E. destruct AJ as (Lw & _). fold (a k) in E.
    pose proof (DoglegConv_proofs.Rdot_CS (adj n c (g (y k))) (dd (h k)) ltac:(rewrite Lw; symmetry; apply (d_len n _ c dd F), Lh)) as CS.
    rewrite <- E, (d_sq n _ c dd F (h k) (Lh k)) in CS. fold (sg k) in CS.
    apply (Rmult_le_reg_r (sg k * a k)); [apply Rmult_lt_0_compat; assumption|].
    replace (a k / sg k * (sg k * a k)) with (a k * a k) by (field; lra).
    match goal with |- _ <= ?w / _ * _ => replace (w / a k * (sg k * a k)) with (w * sg k) by (field; lra) end. exact CS.
  Qed.
  Lemma phi_pos : forall k, 0 < gg k -> 0 <= phi k /\ Pk k - Qk k <= phi k /\ Qk k - 1 - ln (Qk k) <= phi k.
  Proof.
    intros k P. destruct (PQ k P) as (Q0 & Q1). pose proof (ln_le_sub1 (Qk k) Q0). unfold phi. repeat split; lra.
  Qed.

  Lemma Psi_pos : forall k, 0 <= Psi k.
  Proof.
    intro k. destruct (RB k) as (H & _ & SBk & _).
    pose proof (logdet_le n _ (along_good n _ c dd F _ (mform_good n (B k) SBk))) as Q. pose proof (pos_INR n). unfold Psi. lra.
  Qed.

  Let s k := Rscal (- t k) (h k).
  Let et k := eta m xs Lip (y k) (s k).
  Let et_eq k (Ac : acc k = true) : Radd_v (y k) (s k) = y (S k).
  Proof. unfold s. destruct (Rstep k) as [(_ & _ & E & _)|(Z & _)]; [symmetry; exact E|congruence]. Qed.

  (** One accepted step pays phi and earns at most 10 eta *)
  Lemma Psi_update : forall k, acc k = true -> 0 < gg k -> e k <= rho -> e (S k) <= rho -> et k <= / 2 ->
    Psi (S k) <= Psi k + 10 * et k - phi k.
  Proof.
    intros k Ac P E1 E2 ET.
    destruct (step_facts n m L 0 f g Hm HL HS HC y t B h acc Ly Lh Rstep k Ac) as (Es & Ls & Ld & S2 & C1 & _).
    pose proof (et_eq k Ac) as EY. fold (s k) in Es.
    set (s' := Rsub_v (y (S k)) (y k)) in *. set (d := Rsub_v (g (y (S k))) (g (y k))) in *.
    pose proof (t_pos 0 f g y t B h acc t0 Rstep k) as T.
    pose proof (hh_pos n g y B h Lh Rdir k P) as HH.
    assert (SS : 0 < Rdot s' s'). { rewrite S2. repeat apply Rmult_lt_0_compat; lra. }
    assert (I1 : 0 < Rdot d s') by (assert (0 < m * Rdot s' s') by (apply Rmult_lt_0_compat; assumption); lra).
    destruct (Rstep k) as [(_ & _ & _ & _ & EB)|(Z & _)]; [|congruence].
    fold d s' in EB. unfold newB in EB. rewrite (proj2 (Rltb_true 0 (Rdot d s')) I1) in EB. cbv iota in EB.
    rewrite (Rdot_comm d s') in *.
    destruct (RB k) as (H & S1 & SBk & HI).
    assert (LBs : length (mvec (B k) s') = n) by (eapply mvec_len; apply SBk).
    pose proof (adj_is n _ c dd F d Ld) as AD. pose proof (adj_is n _ c dd F _ LBs) as AW.
    unfold Psi. rewrite EB.
    rewrite (frame_trace n _ c dd F (B k) d s' SBk Ld _ _ AD AW), (frame_logdet n _ c dd F (B k) H d s' SBk S1 HI Ld Ls I1 _ _ AD AW).
    clear EB. set (i := Rdot s' d) in *.
    (* the terms with B *)
    assert (EBs : mvec (B k) s' = Rscal (- t k) (g (y k))) by (rewrite Es; unfold s; rewrite mvec_scal, Rdir; reflexivity).
    assert (F1 : Rdot s' (mvec (B k) s') = t k * t k * a k).
    { rewrite EBs, Es. unfold s. rewrite Rdot_scal_l, Rdot_scal_r, Rdot_comm. unfold a. ring. }
    assert (F2 : Rdot (adj n c (mvec (B k) s')) (adj n c (mvec (B k) s')) = t k * t k * Rdot (adj n c (g (y k))) (adj n c (g (y k)))).
    { assert (E : adj n c (mvec (B k) s') = Rscal (- t k) (adj n c (g (y k)))).
      { pose proof (adj_scal n c (g (y k)) _ (- t k) (adj_is n _ c dd F (g (y k)) (Lg k))) as AS. rewrite <- EBs in AS.
        apply (dot_unique n); [apply AW|apply AS|]. intros z Lz. rewrite (proj2 AW z Lz), (proj2 AS z Lz). reflexivity. }
      rewrite E, Rdot_scal_l, Rdot_scal_r. ring. }
    assert (T2 : 0 < t k * t k) by (apply Rmult_lt_0_compat; lra). pose proof (Ap k P) as A0. pose proof (sg_pos k P) as S0.
    rewrite F1, F2. replace (t k * t k * Rdot (adj n c (g (y k))) (adj n c (g (y k))) / (t k * t k * a k)) with (Pk k) by (unfold Pk; field; lra).
    (* the terms with d *)
    set (x := dd s'). assert (Lx : length x = n) by (apply (d_len n _ c dd F); exact Ls).
    set (r := resid g A (y k) s').
    assert (Lr : length r = n) by (apply (resid_len n L f g HS xs A Lip rho HA); auto).
    assert (Lys : Radd_v (y k) s' = y (S k)) by (rewrite Es; exact EY).
    assert (RS : Rnorm (adj n c r) <= et k * Rnorm x).
    { unfold r, et. rewrite <- Es. apply (resid_small n m L f g Hm HS HC xs A Lip rho Lxs HLip Hrho HA c dd F); auto.
      rewrite Lys. exact E2. }
    assert (LA : length (mvec A s') = n) by (eapply mvec_len; apply HA).
    assert (Er : r = Rsub_v d (mvec A s')) by (unfold r, resid; rewrite Lys; reflexivity).
    assert (ER : d = Radd_v (mvec A s') r).
    { rewrite Er. symmetry. apply (add_sub n); assumption. }
    pose proof (adj_A n A c dd F s' Ls) as AA.
    pose proof (adj_is n _ c dd F r Lr) as AR.
    assert (EAD : adj n c d = Radd_v x (adj n c r)).
    { pose proof (adj_add n c _ _ _ _ LA Lr AA AR) as Q. rewrite <- ER in Q. fold x in Q.
      apply (dot_unique n); [apply AD|apply Q|]. intros z Lz. rewrite (proj2 AD z Lz), (proj2 Q z Lz). reflexivity. }
    assert (LAr : length (adj n c r) = n) by apply AR.
    set (N := Rnorm x). assert (NN : N * N = t k * t k * sg k).
    { unfold N. rewrite Rnorm_sq. unfold x. rewrite (d_sq n _ c dd F s' Ls). unfold mform. rewrite Es. unfold s, sg, mform.
      rewrite mvec_scal, Rdot_scal_l, Rdot_scal_r. ring. }
    assert (N0 : 0 < N * N) by (rewrite NN; apply Rmult_lt_0_compat; assumption).
    pose proof (Rnorm_pos x) as Np. fold N in Np, RS.
    pose proof (eta_pos m Hm xs Lip HLip (y k) (s k)) as EP. fold (et k) in EP. set (z := et k) in *.
    assert (D1 : Rnorm (adj n c d) <= (1 + z) * N).
    { rewrite EAD. eapply Rle_trans; [apply Rnorm_add; congruence|]. fold N. lra. }
    assert (D2 : Rdot (adj n c d) (adj n c d) <= (1 + z) * (1 + z) * (N * N)).
    { rewrite <- Rnorm_sq. pose proof (Rnorm_pos (adj n c d)).
      replace ((1 + z) * (1 + z) * (N * N)) with ((1 + z) * N * ((1 + z) * N)) by ring. apply Rmult_le_compat; assumption. }
    assert (D3 : (1 - z) * (N * N) <= i).
    { unfold i. rewrite Rdot_comm, ER, Rdot_add_l by congruence.
      assert (X1 : Rdot (mvec A s') s' = N * N).
      { unfold N. rewrite Rnorm_sq. unfold x. rewrite (d_sq n _ c dd F s' Ls). reflexivity. }
      rewrite X1, (adj_dot n _ c dd F r _ s' Ls AR). fold x.
      pose proof (Rnorm_dot (adj n c r) x ltac:(congruence)) as CS. fold N in CS.
      pose proof (Rle_abs (- Rdot (adj n c r) x)) as AB. rewrite Rabs_Ropp in AB.
      assert (Rnorm (adj n c r) * N <= z * N * N) by (apply Rmult_le_compat_r; assumption). lra. }
    assert (Z1 : / 2 <= 1 - z) by lra.
    assert (I2 : 0 < (1 - z) * (N * N)) by (apply Rmult_lt_0_compat; lra).
    assert (G1 : Rdot (adj n c d) (adj n c d) / i <= 1 + 8 * z).
    { apply (Rmult_le_reg_r i); [exact I1|]. unfold Rdiv. rewrite Rmult_assoc, Rinv_l, Rmult_1_r by lra.
      eapply Rle_trans; [exact D2|]. apply Rle_trans with ((1 + 8 * z) * ((1 - z) * (N * N))).
      - replace ((1 + 8 * z) * ((1 - z) * (N * N))) with ((1 + 8 * z) * (1 - z) * (N * N)) by ring. apply Rmult_le_compat_r; [lra|]. nra.
      - apply Rmult_le_compat_l; lra. }
    assert (G2 : ln (N * N) - 2 * z <= ln i).
    { assert (ln ((1 - z) * (N * N)) <= ln i).
      { destruct D3 as [D3|D3]; [left; apply ln_increasing; assumption|rewrite D3; lra]. }
      rewrite ln_mult in H0 by lra.
      pose proof (ln_le_sub1 (/ (1 - z)) ltac:(apply Rinv_0_lt_compat; lra)) as Q. rewrite ln_Rinv in Q by lra.
      assert (/ (1 - z) - 1 = z * / (1 - z)) by (field; lra).
      assert (/ (1 - z) <= 2).
      { rewrite <- (Rinv_inv 2). apply Rinv_le_contravar; lra. }
      assert (z * / (1 - z) <= z * 2) by (apply Rmult_le_compat_l; assumption). lra. }
    rewrite NN in G2. rewrite ln_mult in G2 by assumption. rewrite ln_mult by assumption.
    unfold phi. assert (EQ : ln (Qk k) = ln (a k) - ln (sg k)).
    { unfold Qk, Rdiv. rewrite ln_mult, ln_Rinv; try lra. apply Rinv_0_lt_compat. exact S0. }
    rewrite EQ. lra.
  Qed.
  Lemma Psi_same : forall k, acc k = false \/ gg k <= 0 -> Psi (S k) = Psi k.
  Proof.
    intros k H. assert (B (S k) = B k); [|unfold Psi; rewrite H0; reflexivity].
    destruct (Rstep k) as [(Ac & _ & EY & _ & EB)|(_ & _ & _ & _ & EB & _)]; [|exact EB].
    destruct H as [H|H]; [congruence|]. rewrite EB. unfold newB.
    assert (Z : h k = zerov n).
    { destruct (RB k) as (Hm' & S1 & SBk & HI). assert (GZ : g (y k) = zerov n).
      { rewrite <- (Lg k). apply Rdot_0_inv. pose proof (Rdot_pos (g (y k))). unfold gg in H. lra. }
      pose proof (Rdir k) as RD. rewrite GZ in RD.
      destruct (list_eq_dec Req_EM_T (h k) (zerov n)) as [Z|N]; [exact Z|].
      pose proof (proj2 (proj2 SBk) (h k) (Lh k) N) as Q. rewrite RD, Rdot_0_r in Q. lra. }
    assert (Ey : Rsub_v (y (S k)) (y k) = zerov n).
    { rewrite EY, Z, Rscal_zerov, (sub_add n) by (auto; apply zerov_length). reflexivity. }
    rewrite Ey, Rdot_0_r. rewrite (proj2 (Rltb_false 0 0) ltac:(lra)). reflexivity.
  Qed.
  Lemma h_zero : forall k, gg k <= 0 -> h k = zerov n /\ e k = 0.
  Proof.
    intros k H. assert (GZ : g (y k) = zerov n).
    { rewrite <- (Lg k). apply Rdot_0_inv. pose proof (Rdot_pos (g (y k))). unfold gg in H. lra. }
    split.
    - destruct (RB k) as (Hm' & S1 & SBk & HI). pose proof (Rdir k) as RD. rewrite GZ in RD.
      destruct (list_eq_dec Req_EM_T (h k) (zerov n)) as [Z|N]; [exact Z|].
      pose proof (proj2 (proj2 SBk) (h k) (Lh k) N) as Q. rewrite RD, Rdot_0_r in Q. lra.
    - pose proof (proj1 (grad_norm n m L f g Hm HL HS HC xs Lxs Gxs (y k) (Ly k))) as Q. rewrite GZ, Rnorm_0_v in Q.
      unfold e. pose proof (Rnorm_pos (Rsub_v (y k) xs)). apply Rle_antisym; [|assumption].
      apply (Rmult_le_reg_l m); [exact Hm|]. lra.
  Qed.
  Lemma next_accepted : forall k, exists j, (k <= j)%nat /\ acc j = true /\ y j = y k /\ h j = h k.
  Proof.
    intro k. destruct (accepts_again n L 0 f g HL HS y t B h acc Ly Lh RB Rdir t0 Rstep k) as (j & J1 & J2 & _).
    assert (X : forall N, (exists j, (k <= j)%nat /\ acc j = true /\ y j = y k /\ h j = h k) \/ (y (k + N)%nat = y k /\ h (k + N)%nat = h k)).
    { induction N as [|N [IH|(I1 & I2)]]; [right; rewrite Nat.add_0_r; auto|left; exact IH|].
      destruct (Rstep (k + N)) as [(Ac & _)|(_ & _ & Z1 & _ & _ & Z2)].
      - left. exists (k + N)%nat. split; [lia|auto].
      - right. rewrite Nat.add_succ_r. split; congruence. }
    destruct (X (j - k)%nat) as [?|(I1 & I2)]; [assumption|]. replace (k + (j - k))%nat with j in * by lia. eauto.
  Qed.

  Lemma e_sq : forall k, m / 2 * (e k * e k) <= f (y k) - f xs.
  Proof. intro k. unfold e. rewrite Rnorm_sq. apply (above_minimiser n m f g); auto. Qed.
  Lemma e_pos : forall k, 0 <= e k.
  Proof. intro k. apply Rnorm_pos. Qed.
  Lemma e_rate : exists E r, 0 <= E /\ 0 <= r < 1 /\ forall k, e k <= E * r ^ count acc k.
  Proof.
    destruct (rate n m L 0 f g Hm HL (Rle_refl 0) HS HC y t B h acc Ly Lh RB Rdir t0 B0 Rstep xs Lxs Gxs _ (Rle_refl _)) as (HR & R).
    set (rh := rho_of m L 0 _) in *.
    pose proof (V_nonneg n m L f g Hm HS HC y Ly xs Lxs Gxs 0) as V0. cbv beta in V0, R. set (V := f (y 0%nat) - f xs) in *.
    assert (W : 0 <= 2 / m * V) by (apply Rmult_le_pos; [left; apply Rdiv_lt_0_compat; lra|exact V0]).
    exists (sqrt (2 / m * V)), (sqrt rh). split; [apply sqrt_pos|]. split.
    { split; [apply sqrt_pos|]. rewrite <- sqrt_1. apply sqrt_lt_1; lra. }
    intro k. apply Rsqr_incr_0_var; [|apply Rmult_le_pos; [apply sqrt_pos|apply pow_le, sqrt_pos]]. unfold Rsqr.
    set (cc := count acc k).
    replace (sqrt (2 / m * V) * sqrt rh ^ cc * (sqrt (2 / m * V) * sqrt rh ^ cc)) with
      ((sqrt (2 / m * V) * sqrt (2 / m * V)) * (sqrt rh ^ cc * sqrt rh ^ cc)) by ring.
    rewrite <- Rpow_mult_distr, !sqrt_sqrt by lra.
    pose proof (e_sq k) as Q. specialize (R k). fold cc in R.
    apply (Rmult_le_reg_l (m / 2)); [lra|]. eapply Rle_trans; [exact Q|]. eapply Rle_trans; [exact R|].
    right. field. lra.
  Qed.
  Lemma e_small : forall tau, 0 < tau -> exists K, forall k, (K <= k)%nat -> e k <= tau.
  Proof.
    intros tau T0.
    destruct (converges n m L 0 f g Hm HL (Rle_refl 0) HS HC y t B h acc Ly Lh RB Rdir t0 B0 Rstep xs Lxs Gxs (m / 2 * (tau * tau))) as (K & HK).
    { repeat apply Rmult_lt_0_compat; lra. }
    exists K. intros k Hk. specialize (HK k Hk). pose proof (e_sq k). apply Rsqr_incr_0_var; [|lra]. unfold Rsqr.
    apply (Rmult_le_reg_l (m / 2)); lra.
  Qed.

  (** phi tends to 0 *)
  Lemma phi_vanishes : forall delta, 0 < delta -> exists K, forall k, (K <= k)%nat -> 0 < gg k -> phi k <= delta.
  Proof.
    intros delta D0. destruct e_rate as (E & r & E0 & R0 & RT).
    set (cap := Rmin rho (m / (4 * (Lip + 1)))).
    assert (Cp : 0 < cap) by (apply Rmin_glb_lt; [exact Hrho|apply Rdiv_lt_0_compat; lra]).
    destruct (e_small cap Cp) as (K0 & HK0).
    set (W := 20 * (Lip / m) * E).
    assert (Lm : 0 <= Lip / m) by (apply Rmult_le_pos; [exact HLip|left; apply Rinv_0_lt_compat; exact Hm]).
    assert (W0 : 0 <= W) by (unfold W; apply Rmult_le_pos; [lra|exact E0]).
    set (Lam := fun k => Psi k + W / (1 - r) * r ^ count acc k).
    set (u := fun k => if acc k then (if Rlt_dec 0 (gg k) then phi k else 0) else 0).
    destruct (vanishing Lam u K0) with (delta := delta) as (K & HK & HU); [|exact D0|].
    { intros k Hk. assert (Wr : 0 <= W / (1 - r)) by (apply Rmult_le_pos; [exact W0|left; apply Rinv_0_lt_compat; lra]).
      assert (Rp : 0 <= r ^ count acc k) by (apply pow_le; lra).
      split; [|split].
      - unfold Lam. pose proof (Psi_pos k). assert (0 <= W / (1 - r) * r ^ count acc k) by (apply Rmult_le_pos; assumption). lra.
      - unfold u. destruct (acc k); [|lra]. destruct (Rlt_dec 0 (gg k)) as [G|G]; [apply phi_pos; exact G|lra].
      - unfold Lam, u. cbn [count]. destruct (acc k) eqn:Ac.
        + rewrite Nat.add_1_r. cbn [pow].
          assert (X : W / (1 - r) * (r * r ^ count acc k) = W / (1 - r) * r ^ count acc k - W * r ^ count acc k) by (field; lra).
          rewrite X. assert (WR : 0 <= W * r ^ count acc k) by (apply Rmult_le_pos; assumption).
          destruct (Rlt_dec 0 (gg k)) as [G|G].
          * assert (Ee : eta m xs Lip (y k) (s k) = Lip / m * (e k + e (S k))) by (unfold eta; rewrite (et_eq k Ac); reflexivity).
            pose proof (HK0 k Hk) as Q1. pose proof (HK0 (S k) ltac:(lia)) as Q2.
            assert (C1 : cap <= rho) by apply Rmin_l. assert (C2 : cap <= m / (4 * (Lip + 1))) by apply Rmin_r.
            assert (ET : et k <= / 2).
            { unfold et. rewrite Ee. apply Rle_trans with (Lip / m * (2 * (m / (4 * (Lip + 1))))).
              - apply Rmult_le_compat_l; [exact Lm|lra].
              - replace (Lip / m * (2 * (m / (4 * (Lip + 1))))) with (/ 2 * (Lip * / (Lip + 1))) by (field; lra).
                assert (Lip * / (Lip + 1) <= 1); [|lra]. apply (Rmult_le_reg_r (Lip + 1)); [lra|].
                rewrite Rmult_assoc, Rinv_l by lra. lra. }
            pose proof (Psi_update k Ac G ltac:(lra) ltac:(lra) ET) as U.
            assert (10 * et k <= W * r ^ count acc k).
            { unfold et. rewrite Ee. unfold W.
              assert (e k + e (S k) <= 2 * (E * r ^ count acc k)).
              { pose proof (RT k) as T1. pose proof (RT (S k)) as T2. cbn [count] in T2. rewrite Ac, Nat.add_1_r in T2. cbn [pow] in T2.
                assert (r * r ^ count acc k <= 1 * r ^ count acc k) by (apply Rmult_le_compat_r; lra).
                assert (E * (r * r ^ count acc k) <= E * r ^ count acc k) by (apply Rmult_le_compat_l; lra). lra. }
              assert (Lip / m * (e k + e (S k)) <= Lip / m * (2 * (E * r ^ count acc k))) by (apply Rmult_le_compat_l; assumption). lra. }
            lra.
          * rewrite (Psi_same k) by (right; lra). lra.
        + rewrite Nat.add_0_r, (Psi_same k) by (left; exact Ac). lra. }
    exists K. intros k Hk G. destruct (next_accepted k) as (j & J1 & J2 & J3 & J4).
    specialize (HU j ltac:(lia)). unfold u in HU. rewrite J2 in HU.
    assert (Gj : gg j = gg k) by (unfold gg; rewrite J3; reflexivity).
    destruct (Rlt_dec 0 (gg j)) as [Q|Q]; [|lra].
    assert (phi j = phi k) by (unfold phi, Pk, Qk, a, sg; rewrite J3, J4; reflexivity). lra.
  Qed.

  (** ** The full step, when phi is small *)
  Let KK := sqrt (big n A) / m * (2 * L / sqrt m).
  Let e' k := Lip / m * ((2 + 2 * L / m) * e k).

  Lemma shift : forall x d : list R, length x = n -> length d = n -> Rsub_v (Radd_v x d) xs = Radd_v (Rsub_v x xs) d.
  Proof.
    revert Lxs. clear. revert n xs. intros n xs Lxs x. revert n xs Lxs.
    induction x as [|p x IH]; intros [|n] [|q xs] Lxs [|v d] Lx Ld; try discriminate; [reflexivity|].
    cbn. f_equal; [ring|]. apply (IH n); cbn in *; lia.
  Qed.
  Lemma regroup : forall p q w : list R, length p = n -> length q = n -> length w = n ->
    p = Radd_v (Rsub_v q w) (Rsub_v (Rsub_v p q) (Rscal (-1) w)).
  Proof.
    clear. intros p. revert n. induction p as [|x p IH]; intros [|n] [|z q] [|v w] Lp Lq Lw; try discriminate; [reflexivity|].
    cbn. f_equal; [ring|]. apply (IH n); cbn in *; lia.
  Qed.
  Lemma halves : forall (x d : list R) p q, length x = n -> length d = n ->
    Radd_v (Radd_v x (Rscal p d)) (Rscal q d) = Radd_v x (Rscal (p + q) d).
  Proof.
    clear. intros x. revert n. induction x as [|z x IH]; intros [|n] [|v d] p q Lx Ld; try discriminate; [reflexivity|].
    cbn. f_equal; [ring|]. apply (IH n); cbn in *; lia.
  Qed.
  Lemma add_0s : forall (x d : list R), length x = n -> length d = n -> Radd_v x (Rscal 0 d) = x.
  Proof.
    clear. intros x. revert n. induction x as [|z x IH]; intros [|n] [|v d] Lx Ld; try discriminate; [reflexivity|].
    cbn. f_equal; [ring|]. apply (IH n); cbn in *; lia.
  Qed.

  Lemma unit_step : forall k delta, 0 < gg k -> 0 < delta <= / 20 -> 1 - delta < Qk k < 1 + delta -> Pk k - Qk k <= delta ->
    (1 + 2 * L / m) * e k <= rho -> e' k <= / 20 ->
    let z := Radd_v (y k) (Rscal (-1) (h k)) in
    f z <= f (y k) - 1 / 10 * a k /\ Rnorm (Rsub_v z xs) <= KK * (sqrt (3 * delta) + e' k) * e k.
  Proof.
    intros k delta G D0 HQ HP HR HE z.
    set (x := y k) in *. set (hk := h k) in *. assert (Lx : length x = n) by apply Ly. assert (Lk : length hk = n) by apply Lh.
    pose proof (sg_pos k G) as S0. pose proof (Ap k G) as A0.
    set (nu := Rnorm (dd hk)). assert (NN : nu * nu = sg k) by (unfold nu; rewrite Rnorm_sq; apply (d_sq n _ c dd F hk Lk)).
    pose proof (Rnorm_pos (dd hk)) as Np. fold nu in Np.
    assert (N0 : 0 < nu) by (destruct (Req_dec nu 0) as [Z|N]; [rewrite Z in NN; lra|lra]).
    pose proof (sqrt_lt_R0 m Hm) as SP. assert (SS : sqrt m * sqrt m = m) by (apply sqrt_sqrt; lra). set (sm := sqrt m) in *.
    pose proof (nu_low n m L f g Hm HS HC xs A Lip rho Lxs HLip Hrho HA c dd F hk Lk) as NL. cbv beta in NL. fold sm nu in NL.
    pose proof (proj2 (grad_norm n m L f g Hm HL HS HC xs Lxs Gxs x Lx)) as GN. change (Rnorm (Rsub_v x xs)) with (e k) in GN.
    pose proof (e_pos k) as EP.
    assert (EQ : a k = Qk k * (nu * nu)) by (rewrite NN; unfold Qk; field; lra).
    assert (LGx : length (g x) = n) by apply Lg.
    assert (NU : sm * nu <= 2 * L * e k).
    { pose proof (Rnorm_dot (g x) hk ltac:(congruence)) as CS. pose proof (Rle_abs (Rdot (g x) hk)) as AB.
      change (Rdot (g x) hk) with (a k) in *.
      assert (sm * a k <= Rnorm (g x) * nu).
      { apply Rle_trans with (sm * (Rnorm (g x) * Rnorm hk)); [apply Rmult_le_compat_l; lra|].
        replace (sm * (Rnorm (g x) * Rnorm hk)) with (Rnorm (g x) * (sm * Rnorm hk)) by ring.
        apply Rmult_le_compat_l; [apply Rnorm_pos|exact NL]. }
      assert (sm * Qk k * nu <= Rnorm (g x)).
      { apply (Rmult_le_reg_r nu); [exact N0|]. rewrite EQ in H. lra. }
      assert (sm * nu * / 2 <= sm * nu * Qk k) by (apply Rmult_le_compat_l; [apply Rmult_le_pos; lra|lra]). lra. }
    assert (NH : Rnorm hk <= 2 * L / m * e k).
    { apply (Rmult_le_reg_l m); [exact Hm|]. replace (m * (2 * L / m * e k)) with (2 * L * e k) by (field; lra).
      rewrite <- SS. assert (sm * (sm * Rnorm hk) <= sm * nu) by (apply Rmult_le_compat_l; lra). lra. }
    assert (Lm0 : 0 <= 2 * L / m) by (apply Rmult_le_pos; [lra|left; apply Rinv_0_lt_compat; exact Hm]).
    assert (Lm : 0 <= Lip / m) by (apply Rmult_le_pos; [exact HLip|left; apply Rinv_0_lt_compat; exact Hm]).
    (* points x - p h, 0 <= p <= 1 *)
    assert (PT : forall p, 0 <= p <= 1 -> let v := Rscal (- p) hk in
      length v = n /\ Rnorm (Rsub_v (Radd_v x v) xs) <= (1 + 2 * L / m) * e k /\
      length (resid g A x v) = n /\ Rnorm (adj n c (resid g A x v)) <= e' k * (p * nu) /\
      g (Radd_v x v) = Radd_v (Rsub_v (g x) (Rscal p (mvec A hk))) (resid g A x v) /\
      a k - p * sg k - e' k * p * sg k <= Rdot (g (Radd_v x v)) hk).
    { intros p Hp v. assert (Lv : length v = n) by (unfold v; rewrite Rscal_length; exact Lk). split; [exact Lv|].
      assert (Nv : Rnorm v = p * Rnorm hk). { unfold v. rewrite Rnorm_neg, Rabs_Ropp, Rabs_pos_eq by lra. reflexivity. }
      assert (B1 : Rnorm (Rsub_v (Radd_v x v) xs) <= (1 + 2 * L / m) * e k).
      { rewrite shift by assumption. eapply Rle_trans; [apply Rnorm_add; rewrite Lv; apply Rsub_v_length; assumption|].
        rewrite Nv. change (Rnorm (Rsub_v x xs)) with (e k). pose proof (Rnorm_pos hk).
        assert (p * Rnorm hk <= 1 * Rnorm hk) by (apply Rmult_le_compat_r; lra). lra. }
      split; [exact B1|].
      pose proof (resid_len n L f g HS xs A Lip rho HA x v Lx Lv) as Lr. split; [exact Lr|].
      assert (RS : Rnorm (adj n c (resid g A x v)) <= e' k * (p * nu)).
      { eapply Rle_trans; [apply (resid_small n m L f g Hm HS HC xs A Lip rho Lxs HLip Hrho HA c dd F x v Lx Lv)|].
        - change (Rnorm (Rsub_v x xs)) with (e k). assert (0 <= 2 * L / m * e k) by (apply Rmult_le_pos; assumption). lra.
        - lra.
        - cbv beta. unfold v at 2. rewrite (nu_scal n A c dd F) by exact Lk. rewrite Rabs_Ropp, Rabs_pos_eq by lra. fold nu.
          apply Rmult_le_compat_r; [apply Rmult_le_pos; lra|]. unfold eta, e'. change (Rnorm (Rsub_v x xs)) with (e k).
          apply Rmult_le_compat_l; [exact Lm|]. lra. }
      split; [exact RS|].
      assert (LAh : length (mvec A hk) = n) by (eapply mvec_len; apply HA).
      assert (LGv : length (g (Radd_v x v)) = n) by (apply (proj1 HS), Radd_v_length; assumption).
      assert (EG : g (Radd_v x v) = Radd_v (Rsub_v (g x) (Rscal p (mvec A hk))) (resid g A x v)).
      { unfold resid. replace (mvec A v) with (Rscal (-1) (Rscal p (mvec A hk))).
        - apply regroup; try assumption. rewrite Rscal_length. exact LAh.
        - unfold v. rewrite mvec_scal. clear. induction (mvec A hk) as [|q w IH]; [reflexivity|]. cbn. f_equal; [ring|exact IH]. }
      split; [exact EG|]. rewrite EG. rewrite Rdot_add_l by (rewrite Lr; apply Rsub_v_length; [exact LGx|rewrite Rscal_length; exact LAh]).
      rewrite Rdot_sub_l by (rewrite Rscal_length; congruence). rewrite Rdot_scal_l.
      change (Rdot (g x) hk) with (a k). change (Rdot (mvec A hk) hk) with (sg k).
      pose proof (adj_is n _ c dd F _ Lr) as AR. rewrite (adj_dot n _ c dd F _ _ hk Lk AR).
      pose proof (Rnorm_dot (adj n c (resid g A x v)) (dd hk) ltac:(rewrite (proj1 AR); symmetry; apply (d_len n _ c dd F); exact Lk)) as CS.
      pose proof (Rle_abs (- Rdot (adj n c (resid g A x v)) (dd hk))) as AB. rewrite Rabs_Ropp in AB. fold nu in CS.
      assert (Rnorm (adj n c (resid g A x v)) * nu <= e' k * (p * nu) * nu) by (apply Rmult_le_compat_r; lra).
      rewrite <- NN. lra. }
    assert (Ez : z = Radd_v x (Rscal (- (1)) hk)) by reflexivity.
    destruct (PT 1 ltac:(lra)) as (L1 & Z1 & Lr1 & R1 & G1 & W1). destruct (PT (/ 2) ltac:(lra)) as (L2 & Z2 & Lr2 & R2 & G2 & W2).
    cbv zeta in *. rewrite <- Ez in *. set (z2 := Radd_v x (Rscal (- / 2) hk)) in *.
    assert (Lz : length z = n) by (rewrite Ez; apply Radd_v_length; assumption).
    assert (Lz2 : length z2 = n) by (apply Radd_v_length; assumption).
    assert (Lh2 : length (Rscal (/ 2) hk) = n) by (rewrite Rscal_length; exact Lk).
    assert (E1 : Radd_v z (Rscal (/ 2) hk) = z2).
    { rewrite Ez, halves by assumption. unfold z2. f_equal. f_equal. lra. }
    assert (E2 : Radd_v z2 (Rscal (/ 2) hk) = x).
    { unfold z2. rewrite halves by assumption. replace (- / 2 + / 2) with 0 by lra. apply add_0s; assumption. }
    split.
    - pose proof (HC z (Rscal (/ 2) hk) Lz Lh2) as C1. pose proof (HC z2 (Rscal (/ 2) hk) Lz2 Lh2) as C2.
      rewrite E1, Rdot_scal_r in C1. rewrite E2, Rdot_scal_r in C2.
      pose proof (Rdot_pos (Rscal (/ 2) hk)) as PP. assert (0 <= m / 2 * Rdot (Rscal (/ 2) hk) (Rscal (/ 2) hk)) by (apply Rmult_le_pos; lra).
      assert (SG : 19 / 20 * sg k <= a k). { rewrite EQ, NN. apply Rmult_le_compat_r; lra. }
      assert (e' k * sg k <= / 20 * sg k) by (apply Rmult_le_compat_r; lra). lra.
    - pose proof (proj1 (grad_norm n m L f g Hm HL HS HC xs Lxs Gxs z Lz)) as GZ.
      set (wt := adj n c (g x)). pose proof (adj_is n _ c dd F (g x) LGx) as AW. fold wt in AW.
      assert (LAh : length (mvec A hk) = n) by (eapply mvec_len; apply HA).
      pose proof (adj_A n A c dd F hk Lk) as AA.
      pose proof (adj_is n _ c dd F _ Lr1) as AR. set (rt := adj n c (resid g A x (Rscal (- (1)) hk))) in *.
      assert (E1s : Rscal 1 (mvec A hk) = mvec A hk).
      { clear. induction (mvec A hk) as [|q w IH]; [reflexivity|]. cbn. f_equal; [ring|exact IH]. }
      rewrite E1s in G1.
      pose proof (adj_sub n c _ _ _ _ LGx LAh AW AA) as AS.
      assert (LS : length (Rsub_v (g x) (mvec A hk)) = n) by (apply Rsub_v_length; assumption).
      pose proof (adj_add n c _ _ _ _ LS Lr1 AS AR) as AG. rewrite <- G1 in AG.
      pose proof (adj_large n m L f g Hm HS HC xs A Lip rho Lxs HLip Hrho HA c dd F (g z) _ (proj1 HS z Lz) AG) as LG.
      assert (Ldh : length (dd hk) = n) by (apply (d_len n _ c dd F); exact Lk).
      assert (WD : Rnorm (Rsub_v wt (dd hk)) <= sqrt (3 * delta) * nu).
      { apply Rnorm_le; [apply Rmult_le_pos; [apply sqrt_pos|lra]|].
        replace (sqrt (3 * delta) * nu * (sqrt (3 * delta) * nu)) with ((sqrt (3 * delta) * sqrt (3 * delta)) * (nu * nu)) by ring.
        rewrite sqrt_sqrt by lra.
        rewrite Rdot_sub_l, !Rdot_sub_r by (rewrite ?(proj1 AW), ?Ldh; try reflexivity; rewrite Rsub_v_length with (n := n); try apply AW; auto).
        rewrite (Rdot_comm (dd hk) wt), <- (adj_dot n _ c dd F _ _ hk Lk AW). change (Rdot (g x) hk) with (a k).
        rewrite <- (Rnorm_sq (dd hk)). fold nu.
        assert (EP' : Rdot wt wt = Pk k * a k) by (unfold Pk; fold x; fold wt; field; lra).
        rewrite EP', EQ.
        assert ((Pk k - Qk k) * Qk k <= delta * (1 + delta)).
        { destruct (PQ k G). apply Rmult_le_compat; lra. }
        assert ((Qk k - 1) * (Qk k - 1) <= delta * delta).
        { change ((Qk k - 1) * (Qk k - 1)) with (Rsqr (Qk k - 1)). change (delta * delta) with (Rsqr delta). apply Rsqr_le_abs_1.
          rewrite (Rabs_pos_eq delta) by lra. apply Rabs_le. lra. }
        assert (Pk k * Qk k - 2 * Qk k + 1 <= 3 * delta).
        { assert (delta * delta <= / 20 * delta) by (apply Rmult_le_compat_r; lra). lra. }
        assert ((Pk k * Qk k - 2 * Qk k + 1) * (nu * nu) <= 3 * delta * (nu * nu)) by (apply Rmult_le_compat_r; [rewrite NN; lra|assumption]). lra. }
      assert (AG' : Rnorm (Radd_v (Rsub_v wt (dd hk)) rt) <= (sqrt (3 * delta) + e' k) * nu).
      { eapply Rle_trans; [apply Rnorm_add; rewrite (proj1 AR); apply Rsub_v_length; [apply AW|exact Ldh]|]. lra. }
      pose proof (sqrt_pos (big n A)) as BP.
      assert (T1 : m * Rnorm (Rsub_v z xs) <= sqrt (big n A) * ((sqrt (3 * delta) + e' k) * nu)).
      { eapply Rle_trans; [exact GZ|]. eapply Rle_trans; [exact LG|]. apply Rmult_le_compat_l; assumption. }
      assert (T2 : nu <= 2 * L / sm * e k).
      { apply (Rmult_le_reg_l sm); [exact SP|]. replace (sm * (2 * L / sm * e k)) with (2 * L * e k) by (field; lra). exact NU. }
      assert (CP : 0 <= sqrt (3 * delta) + e' k).
      { pose proof (sqrt_pos (3 * delta)). assert (0 <= e' k); [|lra]. unfold e'. apply Rmult_le_pos; [exact Lm|apply Rmult_le_pos; lra]. }
      apply (Rmult_le_reg_l m); [exact Hm|]. eapply Rle_trans; [exact T1|].
      replace (m * (KK * (sqrt (3 * delta) + e' k) * e k)) with (sqrt (big n A) * ((sqrt (3 * delta) + e' k) * (2 * L / sm * e k))) by (unfold KK; fold sm; field; lra).
      apply Rmult_le_compat_l; [exact BP|]. apply Rmult_le_compat_l; assumption.
  Qed.

  Lemma superlinear : forall w, 0 < w -> exists K, forall k, (K <= k)%nat ->
    acc k = true /\ y (S k) = Radd_v (y k) (Rscal (-1) (h k)) /\ e (S k) <= w * e k.
  Proof.
    intros w W0.
    assert (SP : 0 < sqrt m) by (apply sqrt_lt_R0; exact Hm).
    assert (KP : 0 <= KK).
    { unfold KK. apply Rmult_le_pos; apply Rmult_le_pos; try (left; apply Rinv_0_lt_compat; assumption); [apply sqrt_pos|lra]. }
    set (q := w / (2 * (KK + 1))). assert (Q0 : 0 < q) by (apply Rdiv_lt_0_compat; lra).
    set (delta := Rmin (/ 20) (q * q / 3)).
    assert (D0 : 0 < delta) by (apply Rmin_glb_lt; [lra|]; apply Rdiv_lt_0_compat; [apply Rmult_lt_0_compat|]; lra).
    assert (D1 : delta <= / 20) by apply Rmin_l. assert (D2 : delta <= q * q / 3) by apply Rmin_r.
    destruct (close_to_one delta ltac:(lra)) as (kappa & K0 & CL).
    destruct (phi_vanishes (kappa / 2) ltac:(lra)) as (K1 & HK1).
    set (bb := Lip / m * (2 + 2 * L / m)).
    assert (Lm0 : 0 <= 2 * L / m) by (apply Rmult_le_pos; [lra|left; apply Rinv_0_lt_compat; exact Hm]).
    assert (Bp : 0 <= bb).
    { unfold bb. apply Rmult_le_pos; [|lra]. apply Rmult_le_pos; [exact HLip|left; apply Rinv_0_lt_compat; exact Hm]. }
    set (cap := Rmin (rho / (1 + 2 * L / m)) (Rmin (/ 20) q / (bb + 1))).
    assert (QM : 0 < Rmin (/ 20) q) by (apply Rmin_glb_lt; lra).
    assert (Cp : 0 < cap) by (apply Rmin_glb_lt; apply Rdiv_lt_0_compat; lra).
    destruct (e_small cap Cp) as (K2 & HK2).
    destruct (next_accepted (Nat.max K1 K2)) as (j & J1 & J2 & _).
    assert (ST : forall k, (Nat.max K1 K2 <= k)%nat -> t k = 1 ->
      acc k = true /\ y (S k) = Radd_v (y k) (Rscal (-1) (h k)) /\ e (S k) <= w * e k).
    { intros k Hk T1. destruct (Rlt_dec 0 (gg k)) as [G|G].
      - pose proof (HK1 k ltac:(lia) G) as PH. destruct (phi_pos k G) as (F0 & F1 & F2). destruct (PQ k G) as (G1 & G2).
        pose proof (CL (Qk k) G1 ltac:(lra)) as HQ.
        pose proof (HK2 k ltac:(lia)) as EC. pose proof (e_pos k) as EP.
        assert (C1 : (1 + 2 * L / m) * e k <= rho).
        { assert (X : cap <= rho / (1 + 2 * L / m)) by apply Rmin_l.
          apply Rle_trans with ((1 + 2 * L / m) * (rho / (1 + 2 * L / m))); [apply Rmult_le_compat_l; lra|]. right. field. split; [lra|]. assert (0 < m + 2 * L) by lra. lra. }
        assert (C2 : e' k <= Rmin (/ 20) q).
        { assert (X : cap <= Rmin (/ 20) q / (bb + 1)) by apply Rmin_r. unfold e'. rewrite <- Rmult_assoc. fold bb.
          apply Rle_trans with ((bb + 1) * (Rmin (/ 20) q / (bb + 1))); [|right; field; lra].
          apply Rmult_le_compat; lra. }
        pose proof (Rmin_l (/ 20) q) as M1. pose proof (Rmin_r (/ 20) q) as M2.
        destruct (unit_step k delta G ltac:(lra) HQ ltac:(lra) C1 ltac:(lra)) as (U1 & U2). cbv zeta in U1, U2.
        destruct (Rstep k) as [(Ac & _ & EY & _)|(_ & RJ & _)].
        + rewrite T1 in EY. split; [exact Ac|]. split; [exact EY|]. unfold e at 1. rewrite EY. eapply Rle_trans; [exact U2|].
          apply Rmult_le_compat_r; [exact EP|].
          assert (SD : sqrt (3 * delta) <= q).
          { rewrite <- (sqrt_square q) by lra. apply sqrt_le_1_alt. lra. }
          apply Rle_trans with (KK * (2 * q)); [apply Rmult_le_compat_l; lra|].
          apply Rle_trans with ((KK + 1) * (2 * q)); [apply Rmult_le_compat_r; lra|]. right. unfold q. field. lra.
        + exfalso. rewrite T1 in RJ. unfold a in U1. change (- (1)) with (-1) in RJ. lra.
      - destruct (h_zero k ltac:(lra)) as (Z1 & Z2).
        destruct (Rstep k) as [(Ac & _ & EY & _)|(_ & RJ & _)].
        + rewrite T1 in EY. split; [exact Ac|]. split; [exact EY|]. rewrite Z1 in EY.
          assert (y (S k) = y k). { rewrite EY. rewrite Rscal_zerov. rewrite <- (Rscal_zerov 0 n). apply add_0s; [apply Ly|apply zerov_length]. }
          unfold e at 1. rewrite H. fold (e k). rewrite Z2. lra.
        + exfalso. rewrite Z1, Rdot_0_r in RJ. rewrite Rscal_zerov in RJ.
          replace (Radd_v (y k) (zerov n)) with (y k) in RJ; [lra|]. rewrite <- (Rscal_zerov 0 n). symmetry. apply add_0s; [apply Ly|apply zerov_length]. }
    assert (TJ : t (S j) = 1).
    { destruct (Rstep j) as [(_ & _ & _ & T1 & _)|(Z & _)]; [exact T1|congruence]. }
    exists (S j). intros k Hk. apply ST; [lia|].
    replace k with (S j + (k - S j))%nat by lia. generalize (k - S j)%nat. intro i.
    induction i as [|i IH]; [rewrite Nat.add_0_r; exact TJ|].
    destruct (ST (S j + i)%nat ltac:(lia) IH) as (Ac & _). rewrite Nat.add_succ_r.
    destruct (Rstep (S j + i)) as [(_ & _ & _ & T1 & _)|(Z & _)]; [exact T1|congruence].
  Qed.
End Super.

(** ** The run of the solver *)
Section LinkS.
  Context {Aux : Type}.
  Variables (P : ar_tols RN) (eps : R).
  Variable lsolve : linop RN -> list R -> list R * results.
  Variable grad_of : (list R -> R * Aux) -> list R -> list R.
  Variable fn : list R -> R * Aux.
  Variables (n : nat) (f : list R -> R) (g : list R -> list R) (y0 : list R) (fs : fillv -> R) (auxs : fillv -> Aux).
  Hypothesis He : 0 <= eps.
  Hypothesis HE : exact_solve n lsolve.
  Hypothesis Hf : forall x, fst (fn x) = f x.
  Hypothesis Hg : forall x, grad_of fn x = g x.
  Hypothesis L0 : length y0 = n.
  Let search := armijo_default (N:=RN).
  Let descent := newton_descent (N:=RN) lsolve None.
  Let s := BFGS (N:=RN) P grad_of lsolve eps false.
  Let st0 := qn_st0 (N:=RN) search descent (qn_init_hessian (N:=RN) false) y0 fs auxs.
  Let Yk : nat -> list R := y_at s fn y0 st0 (auxs fill0).
  Let Sk : nat -> qn_state (N:=RN) (Aux:=Aux) search descent (HSt:=unit) := st_at s fn y0 st0 (auxs fill0).
  Let y k : list R := Yk (S k).
  Let t k : R := qn_search_state (Sk (S k)).
  Let B k : list (list R) := info_matrix (qn_f_info (Sk (S k))).
  Let h k : list R := fst (qn_descent_state (Sk (S k))).
  Let acc k : bool := Nat.ltb (qn_num_accepted_steps (Sk (S k))) (qn_num_accepted_steps (Sk (S (S k)))).

  Variables (m L : R).
  Hypothesis Hm : 0 < m.
  Hypothesis HL : 0 < L.
  Hypothesis HS : smooth n L f g.
  Hypothesis HC : strongly_convex n m f g.
  Variable xs : list R.
  Hypothesis Lxs : length xs = n.
  Hypothesis Gxs : g xs = zerov n.

  Let AT k := at_k P eps lsolve grad_of fn n f g y0 fs auxs He HE Hf Hg (proj1 HS) L0 k.
  Let Ly k : length (y k) = n := proj1 (AT k).
  Let Lh k : length (h k) = n := proj1 (proj2 (AT k)).
  Let RBk k := RB_k P eps lsolve grad_of fn n f g y0 fs auxs He HE Hf Hg (proj1 HS) L0 k.
  Let Rdir k : mvec (B k) (h k) = g (y k) := proj1 (proj2 (proj2 (proj2 (AT k)))).
  Let Rst k := proj2 (proj2 (run_k P eps lsolve grad_of fn n f g y0 fs auxs He HE Hf Hg (proj1 HS) L0 k)).
  Let T0 : t 0%nat = 1 := first_t P eps lsolve grad_of fn y0 fs auxs.
  Let B00 := first_y P eps lsolve grad_of fn n y0 fs auxs He L0.
  Let ACC := accepted_count P eps lsolve grad_of fn n y0 fs auxs L0.

  Lemma acc_counts : forall k, acc k = true -> qn_num_accepted_steps (Sk (S (S k))) = S (qn_num_accepted_steps (Sk (S k))).
  Proof.
    intros k Ac. refine (eq_trans (ACC (S k)) _). refine (eq_trans _ (f_equal S (eq_sym (ACC k)))).
    cbn [count]. unfold acc, Sk, s, st0, search, descent in Ac. rewrite Ac. lia.
  Qed.

  Lemma link_super : eps = 0 -> forall A Lip rho, 0 <= Lip -> 0 < rho -> hessian_at n Lip rho A xs g ->
    forall w, 0 < w -> exists K, forall k, (K <= k)%nat ->
      qn_num_accepted_steps (Sk (S (S k))) = S (qn_num_accepted_steps (Sk (S k))) /\
      Rnorm (Rsub_v (Yk (S (S k))) xs) <= w * Rnorm (Rsub_v (Yk (S k)) xs).
  Proof.
    intros E0 A Lip rho HLip Hrho HA w W0.
    pose proof (A_spd n m L f g Hm HS HC xs A Lip rho Lxs HLip Hrho HA) as SA.
    destruct (has_frame n (mform A) (mform_good n A SA)) as (c & dd & F).
    assert (RS : forall k,
      (acc k = true /\ f (y (S k)) <= f (y k) - 1 / 10 * t k * Rdot (g (y k)) (h k) /\
       y (S k) = Radd_v (y k) (Rscal (- t k) (h k)) /\ t (S k) = 1 /\
       B (S k) = newB false 0 (Rsub_v (g (y (S k))) (g (y k))) (Rsub_v (y (S k)) (y k)) (B k)) \/
      (acc k = false /\ f (y k) - 1 / 10 * t k * Rdot (g (y k)) (h k) < f (Radd_v (y k) (Rscal (- t k) (h k))) /\
       y (S k) = y k /\ t (S k) = / 2 * t k /\ B (S k) = B k /\ h (S k) = h k)).
    { intro k. pose proof (Rst k) as Q. rewrite <- E0. exact Q. }
    destruct (superlinear n m L f g Hm HL HS HC y t B h acc Ly Lh RBk Rdir T0 (proj2 B00) RS xs A Lip rho Lxs Gxs HLip Hrho HA c dd F w W0) as (K & HK).
    exists K. intros k Hk. destruct (HK k Hk) as (Ac & _ & Q). split; [apply acc_counts; exact Ac|exact Q].
  Qed.

  Lemma link_frozen : 0 < eps -> exists K, forall k, (K <= k)%nat -> B (S k) = B k.
  Proof.
    intro E0. set (tau := m / 18 * (eps / L)). assert (TP : 0 < tau) by (apply Rmult_lt_0_compat; [lra|apply Rdiv_lt_0_compat; assumption]).
    destruct (converges n m L eps f g Hm HL He HS HC y t B h acc Ly Lh RBk Rdir T0 (proj2 B00) Rst xs Lxs Gxs tau TP) as (K & HK).
    exists K. intros k Hk. destruct (Rst k) as [(Ac & _ & _ & _ & EB)|(_ & _ & _ & _ & EB & _)]; [|exact EB].
    refine (eq_trans EB _). change (newB false eps (Rsub_v (g (y (S k))) (g (y k))) (Rsub_v (y (S k)) (y k)) (B k) = B k).
    unfold newB. rewrite (proj2 (Rltb_false _ _)); [reflexivity|]. apply Rnot_lt_le. intro Q.
    destruct (step_facts n m L eps f g Hm HL HS HC y t B h acc Ly Lh Rst k Ac) as (_ & _ & _ & _ & _ & _ & C3 & S).
    specialize (HK k Hk). pose proof (V_nonneg n m L f g Hm HS HC y Ly xs Lxs Gxs (Datatypes.S k)) as V0. cbv beta in V0.
    set (ss := Rdot (Rsub_v (y (Datatypes.S k)) (y k)) (Rsub_v (y (Datatypes.S k)) (y k))) in *.
    assert (X : m / 18 * (eps / L) < m / 18 * ss).
    { apply Rmult_lt_compat_l; [lra|]. apply (Rmult_lt_reg_l L); [exact HL|]. replace (L * (eps / L)) with eps by (field; lra). lra. }
    fold tau in X. lra.
  Qed.
End LinkS.

Lemma mat_ext : forall n (H H' : list (list R)), mat n n H -> mat n n H' ->
  (forall x, length x = n -> mvec H x = mvec H' x) -> H = H'.
Proof.
  intros n H H' (L1 & F1) (L2 & F2) E.
  assert (LL : length H = length H') by congruence. clear L1 L2. revert H' F2 E LL.
  induction H as [|r H IH]; intros [|r' H'] F2 E LL; try discriminate; [reflexivity|].
  pose proof (Forall_inv F1) as R1. pose proof (Forall_inv_tail F1) as R2. pose proof (Forall_inv F2) as R3. pose proof (Forall_inv_tail F2) as R4.
  f_equal.
  - apply (dot_unique n); [exact R1|exact R3|]. intros x Lx. specialize (E x Lx). cbn in E. injection E as E _. exact E.
  - apply IH; [exact R2|exact R4| |cbn in LL; lia]. intros x Lx. specialize (E x Lx). cbn in E. injection E as _ E. exact E.
Qed.

(** BFGS converges superlinearly.  If f is L-smooth and mu-strongly convex, its gradient has the
    derivative A at the minimiser xs, up to a second-order error near xs, and the update is skipped
    only for zero curvature (eps = 0), then from every start every evaluated point is eventually
    accepted and the error eventually shrinks at every step by as large a factor as one likes. *)
Lemma C106_superlinear_pf :
  forall (Aux : Type) (P : ar_tols RN) (mu L Lip rho : R) lsolve grad_of (fn : list R -> R * Aux) (n : nat)
         (f : list R -> R) (g : list R -> list R) (A : list (list R)) (y0 xs : list R) fs auxs (use_inverse : bool) st0,
    0 < mu -> 0 < L -> 0 <= Lip -> 0 < rho ->
    smooth n L f g -> strongly_convex n mu f g -> hessian_at n Lip rho A xs g ->
    (forall x, fst (fn x) = f x) -> (forall x, grad_of fn x = g x) -> exact_solve n lsolve ->
    length y0 = n -> length xs = n -> (forall x, length x = n -> f xs <= f x) ->
    let s := BFGS (N:=RN) P grad_of lsolve 0 use_inverse in
    s_init s fn y0 fs auxs = Ret st0 ->
    let y : nat -> list R := y_at s fn y0 st0 (auxs fill0) in
    let accepted k := qn_num_accepted_steps (st_at s fn y0 st0 (auxs fill0) k) in
    forall w, 0 < w -> exists K, forall k, (K <= k)%nat ->
      accepted (S k) = S (accepted k) /\
      Rnorm (Rsub_v (y (S k)) xs) <= w * Rnorm (Rsub_v (y k) xs).
Proof.
  intros Aux P mu L Lip rho lsolve grad_of fn n f g A y0 xs fs auxs ui st0 Hm HL HLip Hrho HS HC HA Hf Hg HE L0 Lxs HM s Hi y accepted w W0.
  pose proof (minimiser_stationary n L f g xs HL HS Lxs HM) as Gxs.
  pose proof (both_variants Aux P 0 lsolve grad_of fn n g y0 fs auxs ui st0 _ (Rle_refl 0) HE Hg (proj1 HS) L0 Hi eq_refl) as BV.
  destruct (link_super P 0 lsolve grad_of fn n f g y0 fs auxs (Rle_refl 0) HE Hf Hg L0 mu L Hm HL HS HC xs Lxs Gxs eq_refl A Lip rho HLip Hrho HA w W0) as (K & HK).
  exists (S K). intros [|k] Hk; [lia|]. destruct (HK k ltac:(lia)) as (Q1 & Q2).
  destruct (BV (S k)) as (E1 & _ & _ & E2). destruct (BV (S (S k))) as (E3 & _ & _ & E4).
  split.
  - refine (eq_trans E4 _). refine (eq_trans _ (f_equal S (eq_sym E2))). exact Q1.
  - refine (eq_ind_r (fun v => Rnorm (Rsub_v v xs) <= _) _ E3). refine (eq_ind_r (fun v => _ <= w * Rnorm (Rsub_v v xs)) _ E1). exact Q2.
Qed.

(** With a positive threshold (the code's machine epsilon) the matrix changes only finitely often. *)
Lemma C106_frozen_pf :
  forall (Aux : Type) (P : ar_tols RN) (mu L eps : R) lsolve grad_of (fn : list R -> R * Aux) (n : nat)
         (f : list R -> R) (g : list R -> list R) (y0 xs : list R) fs auxs (use_inverse : bool) st0,
    0 < mu -> 0 < L -> 0 < eps ->
    smooth n L f g -> strongly_convex n mu f g ->
    (forall x, fst (fn x) = f x) -> (forall x, grad_of fn x = g x) -> exact_solve n lsolve ->
    length y0 = n -> length xs = n -> (forall x, length x = n -> f xs <= f x) ->
    let s := BFGS (N:=RN) P grad_of lsolve eps use_inverse in
    s_init s fn y0 fs auxs = Ret st0 ->
    let matrix k := info_matrix (qn_f_info (st_at s fn y0 st0 (auxs fill0) k)) in
    exists K, forall k, (K <= k)%nat -> matrix k = matrix K.
Proof.
  intros Aux P mu L eps lsolve grad_of fn n f g y0 xs fs auxs ui st0 Hm HL He HS HC Hf Hg HE L0 Lxs HM s Hi matrix.
  pose proof (minimiser_stationary n L f g xs HL HS Lxs HM) as Gxs.
  assert (He' : 0 <= eps) by lra.
  destruct (link_frozen P eps lsolve grad_of fn n f g y0 fs auxs He' HE Hf Hg L0 mu L Hm HL HS HC xs Lxs Gxs He) as (K & HK).
  assert (ST : forall k, (S K <= k)%nat -> matrix (S k) = matrix k).
  { intros [|k] Hk; [lia|]. specialize (HK k ltac:(lia)).
    apply qn_init_inv in Hi. subst st0. destruct ui; [|exact HK].
    assert (HG : forall x, length x = n -> length (grad_of fn x) = n) by (intros x Lx; rewrite Hg; apply (proj1 HS); exact Lx).
    destruct (rel_run P eps false lsolve grad_of fn n y0 fs auxs He' HE HG L0 (S k)) as (_ & _ & H1 & B1 & f1 & g1 & SH1 & SB1 & I1 & _ & _ & T1 & F1 & _).
    destruct (rel_run P eps false lsolve grad_of fn n y0 fs auxs He' HE HG L0 (S (S k))) as (_ & _ & H2 & B2 & f2 & g2 & SH2 & SB2 & I2 & _ & _ & T2 & F2 & _).
    assert (EB : B2 = B1).
    { refine (eq_trans (eq_trans _ HK) _).
      - symmetry. refine (eq_trans (f_equal info_matrix F2) _). reflexivity.
      - refine (eq_trans (f_equal info_matrix F1) _). reflexivity. }
    assert (E2 : matrix (S (S k)) = H2) by (refine (eq_trans (f_equal info_matrix T2) _); reflexivity).
    assert (E1 : matrix (S k) = H1) by (refine (eq_trans (f_equal info_matrix T1) _); reflexivity).
    rewrite E1, E2. apply (mat_ext n); [apply SH2|apply SH1|]. intros x Lx. subst B2.
    assert (LH : length (mvec H1 x) = n) by (eapply mvec_len; apply SH1).
    rewrite <- (proj1 (I2 (mvec H1 x) LH)). rewrite (proj2 (I1 x Lx)). reflexivity. }
  exists (S K). intros k Hk. replace k with (S K + (k - S K))%nat by lia. generalize (k - S K)%nat. intro i.
  induction i as [|i IH]; [rewrite Nat.add_0_r; reflexivity|]. rewrite Nat.add_succ_r. rewrite ST by lia. exact IH.
Qed.

Lemma bowl_facts : smooth 1 (3 / 2) bowl bowl_grad /\ strongly_convex 1 (3 / 2) bowl bowl_grad /\
  hessian_at 1 0 1 [[3 / 2]] [0] bowl_grad.
Proof.
  split; [split|split; [|split; [|split]]].
  - intros [|a [|? ?]] H; try discriminate H. reflexivity.
  - intros [|a [|? ?]] [|b [|? ?]] H1 H2; try discriminate H1; try discriminate H2. cbn. lra.
  - intros [|a [|? ?]] [|b [|? ?]] H1 H2; try discriminate H1; try discriminate H2. cbn. lra.
  - split; [reflexivity|]. repeat constructor.
  - intros [|a [|? ?]] [|b [|? ?]] H1 H2; try discriminate H1; try discriminate H2. cbn. ring.
  - intros [|a [|? ?]] [|b [|? ?]] H1 H2 _ _; try discriminate H1; try discriminate H2. rewrite !Rmult_0_l. right.
    unfold Rnorm. rewrite <- sqrt_0. f_equal. cbn. ring.
Qed.

(** With any positive threshold superlinear convergence fails: on 3/4 x^2, started so close to the
    minimiser that the curvature test skips every update, every step is accepted and the error is
    halved each time, for ever. *)
Lemma C106_threshold_pf :
  smooth 1 (3 / 2) bowl bowl_grad /\ strongly_convex 1 (3 / 2) bowl bowl_grad /\ hessian_at 1 0 1 [[3 / 2]] [0] bowl_grad /\
  forall (P : ar_tols RN) (eps x0 : R) lsolve (use_inverse : bool) st0,
    0 < eps -> 4 * (x0 * x0) <= eps -> exact_solve 1 lsolve ->
    let fn v := (bowl v, tt) in
    let s := BFGS (N:=RN) P (fun _ => bowl_grad) lsolve eps use_inverse in
    s_init s fn [x0] (fun _ => 0) (fun _ => tt) = Ret st0 ->
    let y : nat -> list R := y_at s fn [x0] st0 tt in
    let accepted k := qn_num_accepted_steps (st_at s fn [x0] st0 tt k) in
    forall k, accepted (S (S k)) = S (accepted (S k)) /\ y (S k) = [(- / 2) ^ k * x0].
Proof.
  destruct bowl_facts as (HS & HC & HH). split; [exact HS|]. split; [exact HC|]. split; [exact HH|].
  intros P eps x0 lsolve ui st0 He Hx HE fn s Hi y accepted.
  assert (He' : 0 <= eps) by lra.
  pose proof (both_variants unit P eps lsolve (fun _ => bowl_grad) fn 1%nat bowl_grad [x0] (fun _ => 0) (fun _ => tt) ui st0 _ He' HE (fun _ => eq_refl) (proj1 HS) eq_refl Hi eq_refl) as BV.
  set (s' := BFGS (N:=RN) (Aux:=unit) P (fun _ => bowl_grad) lsolve eps false) in *.
  set (st0' := qn_st0 (N:=RN) (Aux:=unit) armijo_default (newton_descent (N:=RN) lsolve None) (qn_init_hessian (N:=RN) false) [x0] (fun _ => 0) (fun _ => tt)) in *.
  pose proof (fun k => at_k P eps lsolve (fun _ => bowl_grad) fn 1%nat bowl bowl_grad [x0] (fun _ => 0) (fun _ => tt) He' HE (fun _ => eq_refl) (fun _ => eq_refl) (proj1 HS) eq_refl k) as AT.
  pose proof (fun k => run_k P eps lsolve (fun _ => bowl_grad) fn 1%nat bowl bowl_grad [x0] (fun _ => 0) (fun _ => tt) He' HE (fun _ => eq_refl) (fun _ => eq_refl) (proj1 HS) eq_refl k) as RK.
  pose proof (first_t P eps lsolve (fun _ => bowl_grad) fn [x0] (fun _ => 0) (fun _ => tt)) as T0.
  pose proof (first_y P eps lsolve (fun _ => bowl_grad) fn 1%nat [x0] (fun _ => 0) (fun _ => tt) He' eq_refl) as (Y0 & B0).
  pose proof (acc_counts P eps lsolve (fun _ => bowl_grad) fn 1%nat [x0] (fun _ => 0) (fun _ => tt) eq_refl [0] eq_refl) as AC.
  fold s' in AT, RK, T0, Y0, B0, AC. 
  set (Y := fun k => y_at s' fn [x0] st0' tt (S k) : list R).
  set (tk := fun k => qn_search_state (st_at s' fn [x0] st0' tt (S k)) : R).
  set (Bk := fun k => info_matrix (qn_f_info (st_at s' fn [x0] st0' tt (S k))) : list (list R)).
  set (hk := fun k => fst (qn_descent_state (st_at s' fn [x0] st0' tt (S k))) : list R).
  set (acc := fun k => Nat.ltb (qn_num_accepted_steps (st_at s' fn [x0] st0' tt (S k))) (qn_num_accepted_steps (st_at s' fn [x0] st0' tt (S (S k))))).
  change (tk 0%nat = 1) in T0. change (Y 0%nat = [x0]) in Y0. change (Bk 0%nat = identity_mat (N:=RN) 1) in B0.
  assert (AT' : forall k, length (hk k) = 1%nat /\ mvec (Bk k) (hk k) = bowl_grad (Y k)).
  { intro k. destruct (AT k) as (_ & A1 & _ & A2 & _). split; [exact A1|exact A2]. }
  assert (RK' : forall k, (acc k = true /\ bowl (Y (S k)) <= bowl (Y k) - 1 / 10 * tk k * Rdot (bowl_grad (Y k)) (hk k) /\
     Y (S k) = Radd_v (Y k) (Rscal (- tk k) (hk k)) /\ tk (S k) = 1 /\
     Bk (S k) = newB false eps (Rsub_v (bowl_grad (Y (S k))) (bowl_grad (Y k))) (Rsub_v (Y (S k)) (Y k)) (Bk k)) \/
    (acc k = false /\ bowl (Y k) - 1 / 10 * tk k * Rdot (bowl_grad (Y k)) (hk k) < bowl (Radd_v (Y k) (Rscal (- tk k) (hk k))) /\
     Y (S k) = Y k /\ tk (S k) = / 2 * tk k /\ Bk (S k) = Bk k /\ hk (S k) = hk k)).
  { intro k. destruct (RK k) as (_ & _ & Q). exact Q. }
  assert (M : forall k, Y k = [(- / 2) ^ k * x0] /\ Bk k = identity_mat (N:=RN) 1 /\ tk k = 1 /\ acc k = true).
  { assert (ONE : forall k, Y k = [(- / 2) ^ k * x0] -> Bk k = identity_mat (N:=RN) 1 -> tk k = 1 ->
      acc k = true /\ Y (S k) = [(- / 2) ^ S k * x0] /\ Bk (S k) = identity_mat (N:=RN) 1 /\ tk (S k) = 1).
    { intros k E1 E2 E3. destruct (AT' k) as (A1 & A2). rewrite E2, identity_mv, E1 in A2 by exact A1. cbn [bowl_grad] in A2.
      set (x := (- / 2) ^ k * x0) in *.
      assert (XS : x * x <= x0 * x0).
      { unfold x. replace ((- / 2) ^ k * x0 * ((- / 2) ^ k * x0)) with ((- / 2 * - / 2) ^ k * (x0 * x0)) by (rewrite Rpow_mult_distr; ring).
        assert ((- / 2 * - / 2) ^ k <= 1) by (rewrite <- (pow1 k); apply pow_incr; lra).
        pose proof (Rle_0_sqr x0) as SQ. unfold Rsqr in SQ.
        assert ((- / 2 * - / 2) ^ k * (x0 * x0) <= 1 * (x0 * x0)) by (apply Rmult_le_compat_r; assumption). lra. }
      pose proof (Rle_0_sqr x) as XX. unfold Rsqr in XX.
      destruct (RK' k) as [(Ac & _ & EY & ET & EB)|(_ & RJ & _)].
      - split; [exact Ac|]. rewrite E1, E3, A2 in EY. cbn in EY.
        assert (EY' : Y (S k) = [(- / 2) ^ S k * x0]).
        { rewrite EY. f_equal. cbn [pow]. unfold x. field. }
        split; [exact EY'|]. split; [|exact ET]. rewrite EB, E2. unfold newB.
        rewrite (proj2 (Rltb_false _ _)); [reflexivity|].
        rewrite EY, E1. cbn. lra.
      - exfalso. rewrite E1, E3, A2 in RJ. cbn in RJ. lra. }
    induction k as [|k (I1 & I2 & I3 & I4)].
    - assert (Y0' : Y 0%nat = [(- / 2) ^ 0 * x0]) by (rewrite Y0; f_equal; cbn; ring).
      destruct (ONE 0%nat Y0' B0 T0) as (Q & _). auto.
    - destruct (ONE k I1 I2 I3) as (_ & J1 & J2 & J3). destruct (ONE (S k) J1 J2 J3) as (J4 & _). auto. }
  intro k. destruct (M k) as (M1 & _ & _ & M4).
  destruct (BV (S k)) as (E1 & _ & _ & E2). destruct (BV (S (S k))) as (_ & _ & _ & E4).
  split; [|refine (eq_trans E1 _); exact M1].
  refine (eq_trans E4 _). refine (eq_trans _ (f_equal S (eq_sym E2))). exact (AC k M4).
Qed.

(** The coupled two-unknown x0^2 + x0 x1 + x1^2, with the Cholesky solver. *)
Lemma quad2_hessian : hessian_at 2 0 1 [[2; 1]; [1; 2]] [0; 0] quad2_grad.
Proof.
  split; [split; [reflexivity|repeat constructor]|]. split.
  - intros [|a [|b [|? ?]]] [|c [|d [|? ?]]] H1 H2; try discriminate H1; try discriminate H2. cbn. ring.
  - intros [|a [|b [|? ?]]] [|c [|d [|? ?]]] H1 H2 _ _; try discriminate H1; try discriminate H2. rewrite !Rmult_0_l. right.
    unfold Rnorm. rewrite <- sqrt_0. f_equal. cbn. ring.
Qed.

Example C106_superlinear_ex_pf : forall P use_inverse st0,
    let s := BFGS (N:=RN) (Aux:=unit) P (fun _ => quad2_grad) cholesky_solve 0 use_inverse in
    s_init s (fun v => (quad2 v, tt)) [5; -3] (fun _ => 0) (fun _ => tt) = Ret st0 ->
    exists K, forall k, (K <= k)%nat ->
      Rnorm (Rsub_v (y_at s (fun v => (quad2 v, tt)) [5; -3] st0 tt (S k)) [0; 0]) <=
      1 / 1000 * Rnorm (Rsub_v (y_at s (fun v => (quad2 v, tt)) [5; -3] st0 tt k) [0; 0]).
Proof.
  intros P ui st0 s Hi. destruct quad2_facts as (HS & HC & HM).
  destruct (C106_superlinear_pf unit P 1 3 0 1 cholesky_solve (fun _ => quad2_grad) (fun v => (quad2 v, tt)) 2%nat quad2 quad2_grad [[2; 1]; [1; 2]] [5; -3] [0; 0] (fun _ => 0) (fun _ => tt) ui st0
    ltac:(lra) ltac:(lra) ltac:(lra) ltac:(lra) HS HC quad2_hessian (fun _ => eq_refl) (fun _ => eq_refl) (C39_exact_solve_ex_pf 2) eq_refl eq_refl HM Hi (1 / 1000) ltac:(lra)) as (K & HK).
  exists K. intros k Hk. exact (proj2 (HK k Hk)).
Qed.

Example C106_frozen_ex_pf : forall P use_inverse st0,
    let s := BFGS (N:=RN) (Aux:=unit) P (fun _ => quad2_grad) cholesky_solve (1 / 100) use_inverse in
    s_init s (fun v => (quad2 v, tt)) [5; -3] (fun _ => 0) (fun _ => tt) = Ret st0 ->
    exists K, forall k, (K <= k)%nat ->
      info_matrix (qn_f_info (st_at s (fun v => (quad2 v, tt)) [5; -3] st0 tt k)) =
      info_matrix (qn_f_info (st_at s (fun v => (quad2 v, tt)) [5; -3] st0 tt K)).
Proof.
  intros P ui st0 s Hi. destruct quad2_facts as (HS & HC & HM).
  exact (C106_frozen_pf unit P 1 3 (1 / 100) cholesky_solve (fun _ => quad2_grad) (fun v => (quad2 v, tt)) 2%nat quad2 quad2_grad [5; -3] [0; 0] (fun _ => 0) (fun _ => tt) ui st0
    ltac:(lra) ltac:(lra) ltac:(lra) HS HC (fun _ => eq_refl) (fun _ => eq_refl) (C39_exact_solve_ex_pf 2) eq_refl eq_refl HM Hi).
Qed.

Example C106_threshold_ex_pf : forall P use_inverse st0,
    let s := BFGS (N:=RN) (Aux:=unit) P (fun _ => bowl_grad) cholesky_solve (1 / 100) use_inverse in
    s_init s (fun v => (bowl v, tt)) [1 / 20] (fun _ => 0) (fun _ => tt) = Ret st0 ->
    forall k, y_at s (fun v => (bowl v, tt)) [1 / 20] st0 tt (S k) = [(- / 2) ^ k * (1 / 20)].
Proof.
  intros P ui st0 s Hi k.
  exact (proj2 (proj2 (proj2 (proj2 C106_threshold_pf)) P (1 / 100) (1 / 20) cholesky_solve ui st0 ltac:(lra) ltac:(lra) (C39_exact_solve_ex_pf 1) Hi k)).
Qed.
