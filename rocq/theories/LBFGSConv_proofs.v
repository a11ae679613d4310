(** Global, linear convergence of L-BFGS on smooth strongly convex problems (C85). *)

From Coq Require Import String List Bool Arith Lia ZArith QArith Qreals Reals Lra Psatz.
From Verif Require Import Num NumFacts Vec Results Iterate Spec_Iterate Iterate_proofs.
From Verif Require Import Spec_Vec VecFacts Spec_Lin LinFacts.
From Verif Require Import Search Spec_Search Descent Minimisers QuasiNewton Solvers Minimisers_proofs Progress_proofs TrustRegion_proofs LeastSquares_proofs BFGS_proofs.
From Verif Require Import LinAlg LBFGS Spec_LBFGS LBFGSFacts LBFGS_proofs Cholesky.
From Verif Require Import Spec_Steps Steps_proofs Spec_BFGSConv Spec_LBFGSConv Convergence_proofs BFGSConv_proofs.
From Verif Require DoglegConv_proofs.
Import ListNotations.
Local Open Scope R_scope.

(** ** Bounds on the matrices of the recursions *)
Definition good (n : nat) (mu L : R) (p : list R * list R) : Prop :=
  curved n p /\ mu * Rdot (fst p) (fst p) <= Rdot (snd p) (fst p) /\ Rdot (snd p) (snd p) <= L * Rdot (snd p) (fst p).

Lemma Forall_good_curved : forall n mu L ps, Forall (good n mu L) ps -> Forall (curved n) ps.
Proof. intros n mu L ps H. eapply Forall_impl; [|exact H]. intros p G. apply G. Qed.

Lemma dot_CS : forall n (a b : list R), length a = n -> length b = n -> Rdot a b * Rdot a b <= Rdot a a * Rdot b b.
Proof. intros n a b La Lb. apply DoglegConv_proofs.Rdot_CS. congruence. Qed.

Lemma inverse_le : forall n mu L lam0 g0 ps, 0 < mu -> 0 < L -> / mu <= lam0 -> g0 <= lam0 -> Forall (good n mu L) ps ->
  forall x, length x = n -> length (inverse_of_pairs g0 ps x) = n /\
    Rdot x (inverse_of_pairs g0 ps x) <= (3 + 2 * (L / mu)) ^ length ps * lam0 * Rdot x x.
Proof.
  intros n mu L lam0 g0 ps Hm HL Hl Hg HF. induction HF as [|[s d] ps ((Ls & Ld & Hi) & G1 & G2) HF IH]; intros x Lx.
  - cbn [inverse_of_pairs length pow]. rewrite Rscal_length, Rdot_scal_r. split; [exact Lx|].
    rewrite Rmult_1_l. apply Rmult_le_compat_r; [apply Rdot_pos|exact Hg].
  - cbn [fst snd] in *. cbn [inverse_of_pairs]. set (rho := / Rdot d s).
    set (Vx := Rsub_v x (Rscal (rho * Rdot s x) d)).
    assert (LV : length Vx = n) by (apply Rsub_v_length; [exact Lx|rewrite Rscal_length; exact Ld]).
    destruct (IH Vx LV) as [LH BH]. set (H := inverse_of_pairs g0 ps Vx) in *.
    assert (L1 : length (Rsub_v H (Rscal (rho * Rdot d H) s)) = n) by (apply Rsub_v_length; [exact LH|rewrite Rscal_length; exact Ls]).
    split; [apply Radd_v_length; [exact L1|rewrite Rscal_length; exact Ls]|].
    rewrite Rdot_add_r by (rewrite L1, Rscal_length; congruence).
    rewrite Rdot_sub_r by (rewrite Rscal_length; congruence). rewrite !Rdot_scal_r.
    assert (E : Rdot Vx H = Rdot x H - rho * Rdot s x * Rdot d H).
    { unfold Vx. rewrite Rdot_sub_l by (rewrite Rscal_length; congruence). rewrite Rdot_scal_l. reflexivity. }
    rewrite (Rdot_comm x s).
    replace (Rdot x H - rho * Rdot d H * Rdot s x + rho * Rdot s x * Rdot s x) with (Rdot Vx H + rho * (Rdot s x * Rdot s x)) by (rewrite E; ring).
    assert (R0 : 0 < rho) by (apply Rinv_0_lt_compat; exact Hi).
    pose proof (dot_CS n s x Ls Lx) as CS. pose proof (Rdot_pos x) as X0. pose proof (Rdot_pos s) as S0. pose proof (Rdot_pos d) as D0.
    set (q := Rdot d s) in *. set (X := Rdot x x) in *. set (ss := Rdot s s) in *. set (dd := Rdot d d) in *.
    assert (Z1 : rho * (Rdot s x * Rdot s x) <= / mu * X).
    { unfold rho. apply (Rmult_le_reg_l (mu * q)); [apply Rmult_lt_0_compat; assumption|].
      replace (mu * q * (/ q * (Rdot s x * Rdot s x))) with (mu * (Rdot s x * Rdot s x)) by (field; lra).
      replace (mu * q * (/ mu * X)) with (q * X) by (field; lra).
      apply (Rle_trans _ (mu * (ss * X))); [apply Rmult_le_compat_l; lra|].
      rewrite <- Rmult_assoc. apply Rmult_le_compat_r; assumption. }
    assert (Z2 : Rdot Vx Vx <= (2 + 2 * (L / mu)) * X).
    { unfold Vx. rewrite sq_sub by (rewrite Rscal_length; congruence). rewrite Rdot_scal_l, !Rdot_scal_r. fold X dd.
      assert (P : 0 <= Rdot (Radd_v x (Rscal (rho * Rdot s x) d)) (Radd_v x (Rscal (rho * Rdot s x) d))) by apply Rdot_pos.
      rewrite sq_add in P by (rewrite Rscal_length; congruence). rewrite Rdot_scal_l, !Rdot_scal_r in P. fold X dd in P.
      assert (K : rho * Rdot s x * (rho * Rdot s x * dd) <= L / mu * X).
      { apply (Rle_trans _ (L * (rho * (Rdot s x * Rdot s x)))).
        - replace (rho * Rdot s x * (rho * Rdot s x * dd)) with (rho * (Rdot s x * Rdot s x) * (rho * dd)) by ring.
          rewrite (Rmult_comm L). apply Rmult_le_compat_l.
          + apply Rmult_le_pos; [lra|]. apply Rle_0_sqr.
          + unfold rho. apply (Rmult_le_reg_l q); [exact Hi|]. rewrite <- Rmult_assoc, Rinv_r, Rmult_1_l by lra. lra.
        - unfold Rdiv. rewrite Rmult_assoc. apply Rmult_le_compat_l; [lra|exact Z1]. }
      lra. }
    assert (K0 : 0 < L / mu) by (apply Rdiv_lt_0_compat; assumption).
    set (c := 3 + 2 * (L / mu)) in *. set (C := c ^ length ps) in *.
    assert (C1 : 1 <= C) by (apply pow_R1_Rle; unfold c; lra).
    assert (Im : 0 < / mu) by (apply Rinv_0_lt_compat; exact Hm).
    assert (CL : / mu <= C * lam0) by (apply (Rle_trans _ (1 * lam0)); [lra|apply Rmult_le_compat_r; lra]).
    assert (Y1 : C * lam0 * Rdot Vx Vx <= C * lam0 * ((c - 1) * X)).
    { apply Rmult_le_compat_l; [lra|]. unfold c. lra. }
    assert (Y2 : / mu * X <= C * lam0 * X) by (apply Rmult_le_compat_r; assumption).
    cbn [length pow]. fold C. lra.
Qed.

Lemma hessian_le : forall n mu L g0 ps, 0 < L -> 0 < g0 -> Forall (good n mu L) ps ->
  forall x, length x = n -> Rdot x (hessian_of_pairs (/ g0) ps x) <= (/ g0 + INR (length ps) * L) * Rdot x x.
Proof.
  intros n mu L g0 ps HL Hg HF. induction HF as [|[s d] ps ((Ls & Ld & Hi) & G1 & G2) HF IH]; intros x Lx.
  - cbn [hessian_of_pairs length INR]. rewrite Rdot_scal_r. lra.
  - cbn [fst snd] in *. cbn [hessian_of_pairs].
    destruct (pairs_matrices n g0 ps Hg (Forall_good_curved _ _ _ _ HF)) as (H & B & _ & (B1 & B2 & B3) & _ & _ & EB & _).
    pose proof (IH x Lx) as IHx. rewrite !EB in * by assumption.
    assert (LB : forall z, length (mvec B z) = n) by (intro z; eapply mvec_len; eauto).
    rewrite Rdot_add_r. 2:{ rewrite Rscal_length, Ld. apply Rsub_v_length; [apply LB|rewrite Rscal_length; apply LB]. }
    rewrite Rdot_sub_r by (rewrite Rscal_length, !LB; reflexivity). rewrite !Rdot_scal_r.
    assert (E1 : Rdot x (mvec B s) = Rdot s (mvec B x)).
    { rewrite (Rdot_comm s). symmetry. apply B2; assumption. }
    rewrite E1, (Rdot_comm x d).
    assert (SN : s <> zerov n) by (intro E; rewrite E, Rdot_0_r in Hi; lra).
    pose proof (B3 s Ls SN) as Q.
    assert (Y1 : 0 <= Rdot s (mvec B x) / Rdot s (mvec B s) * Rdot s (mvec B x)).
    { unfold Rdiv. replace (Rdot s (mvec B x) * / Rdot s (mvec B s) * Rdot s (mvec B x))
        with (/ Rdot s (mvec B s) * (Rdot s (mvec B x) * Rdot s (mvec B x))) by ring.
      apply Rmult_le_pos; [left; apply Rinv_0_lt_compat; exact Q|apply Rle_0_sqr]. }
    assert (Y2 : Rdot d x / Rdot d s * Rdot d x <= L * Rdot x x).
    { apply (Rmult_le_reg_l (Rdot d s)); [exact Hi|].
      replace (Rdot d s * (Rdot d x / Rdot d s * Rdot d x)) with (Rdot d x * Rdot d x) by (field; lra).
      eapply Rle_trans; [apply (dot_CS n); assumption|].
      replace (Rdot d s * (L * Rdot x x)) with (L * Rdot d s * Rdot x x) by ring.
      apply Rmult_le_compat_r; [apply Rdot_pos|exact G2]. }
    change (length ((s, d) :: ps)) with (S (length ps)). rewrite S_INR. lra.
Qed.

Lemma scale_bounds : forall n mu L ps, 0 < mu -> 0 < L -> Forall (good n mu L) ps ->
  0 < initial_scale ps /\ initial_scale ps <= Rmax 1 (/ mu) /\ / initial_scale ps <= Rmax 1 L.
Proof.
  intros n mu L ps Hm HL HF. split; [apply (initial_scale_pos n), (Forall_good_curved n mu L); exact HF|].
  destruct HF as [|[s d] ps ((Ls & Ld & Hi) & G1 & G2) HF]; cbn [initial_scale fst snd] in *.
  - split; [apply Rmax_l|]. rewrite Rinv_1. apply Rmax_l.
  - rewrite (Rdot_comm s d). pose proof (dot_CS n d s Ld Ls) as CS.
    assert (D0 : 0 < Rdot d d).
    { destruct (Rdot_pos d) as [Q|Q]; [exact Q|]. rewrite <- Q, Rmult_0_l in CS. pose proof (Rmult_lt_0_compat _ _ Hi Hi). lra. }
    split.
    + eapply Rle_trans; [|apply Rmax_r]. apply (Rmult_le_reg_l (mu * Rdot d d * Rdot d s)).
      { repeat apply Rmult_lt_0_compat; assumption. }
      replace (mu * Rdot d d * Rdot d s * (Rdot d s / Rdot d d)) with (mu * (Rdot d s * Rdot d s)) by (field; lra).
      replace (mu * Rdot d d * Rdot d s * / mu) with (Rdot d d * Rdot d s) by (field; lra).
      apply (Rle_trans _ (mu * (Rdot d d * Rdot s s))); [apply Rmult_le_compat_l; lra|].
      replace (mu * (Rdot d d * Rdot s s)) with (Rdot d d * (mu * Rdot s s)) by ring. apply Rmult_le_compat_l; lra.
    + eapply Rle_trans; [|apply Rmax_r]. unfold Rdiv. rewrite Rinv_mult, Rinv_inv.
      apply (Rmult_le_reg_l (Rdot d s)); [exact Hi|]. rewrite <- Rmult_assoc, Rinv_r, Rmult_1_l by lra. lra.
Qed.


(** The Newton direction of a history of good pairs *)
Lemma direction_bounds : forall n mu L (M : nat) ps gv, 0 < mu -> 0 < L -> Forall (good n mu L) ps -> (length ps <= M)%nat -> length gv = n ->
  let hv := inverse_of_pairs (initial_scale ps) ps gv in
  length hv = n /\ Rdot gv gv <= hessian_bound M L * Rdot gv hv /\ Rdot hv hv <= inverse_bound M mu L * Rdot gv hv.
Proof.
  intros n mu L M ps gv Hm HL HF HM Lgv hv.
  destruct (scale_bounds n mu L ps Hm HL HF) as (S0 & S1 & S2).
  destruct (pairs_matrices n _ ps S0 (Forall_good_curved _ _ _ _ HF)) as (H & B & (H1 & H2 & H3) & (B1 & B2 & B3) & HI & EH & EB & _).
  assert (Im : 0 < / mu) by (apply Rinv_0_lt_compat; exact Hm).
  pose proof (inverse_le n mu L (Rmax 1 (/ mu)) _ ps Hm HL (Rmax_r _ _) S1 HF) as BI.
  pose proof (hessian_le n mu L _ ps HL S0 HF) as BB.
  destruct (BI gv Lgv) as [Lhv _]. fold hv in Lhv.
  assert (Ehv : hv = mvec H gv) by (apply EH; exact Lgv).
  assert (Egv : mvec B hv = gv) by (rewrite Ehv; apply HI; exact Lgv).
  assert (K0 : 0 < L / mu) by (apply Rdiv_lt_0_compat; assumption).
  assert (BI' : forall x, length x = n -> Rdot x (mvec H x) <= inverse_bound M mu L * Rdot x x).
  { intros x Lx. rewrite <- EH by exact Lx. eapply Rle_trans; [apply BI; exact Lx|].
    apply Rmult_le_compat_r; [apply Rdot_pos|]. unfold inverse_bound. apply Rmult_le_compat_r.
    - pose proof (Rmax_l 1 (/ mu)). lra.
    - apply Rle_pow; [lra|exact HM]. }
  assert (BB' : forall x, length x = n -> Rdot x (mvec B x) <= hessian_bound M L * Rdot x x).
  { intros x Lx. rewrite <- EB by exact Lx. eapply Rle_trans; [apply BB; exact Lx|].
    apply Rmult_le_compat_r; [apply Rdot_pos|]. unfold hessian_bound. apply Rplus_le_compat; [exact S2|].
    apply Rmult_le_compat_r; [lra|]. apply le_INR. exact HM. }
  assert (l0 : 0 < inverse_bound M mu L).
  { unfold inverse_bound. apply Rmult_lt_0_compat; [apply pow_lt; lra|]. pose proof (Rmax_l 1 (/ mu)). lra. }
  assert (L0 : 0 < hessian_bound M L).
  { unfold hessian_bound. pose proof (Rmax_l 1 L). pose proof (pos_INR M). assert (0 <= INR M * L) by (apply Rmult_le_pos; lra). lra. }
  assert (PSD : forall A x, spd n A -> length x = n -> 0 <= Rdot x (mvec A x)).
  { intros A x (_ & _ & PA) Lx. destruct (list_eq_dec Req_EM_T x (zerov n)) as [->|N]; [rewrite Rdot_0_l; lra|left; auto]. }
  split; [exact Lhv|].
  set (a := Rdot gv hv). set (lam := inverse_bound M mu L) in *. set (Lam := hessian_bound M L) in *.
  split.
  - pose proof (PSD B (Rsub_v hv (Rscal (/ Lam) gv)) (conj B1 (conj B2 B3)) ltac:(apply Rsub_v_length; [exact Lhv|rewrite Rscal_length; exact Lgv])) as Q.
    rewrite (mvec_sub B n n) in Q by (rewrite ?Rscal_length; assumption). rewrite mvec_scal, Egv in Q.
    assert (LBg : length (mvec B gv) = n) by (eapply mvec_len; eauto).
    rewrite Rdot_sub_l in Q by (rewrite Rscal_length; congruence).
    rewrite !Rdot_sub_r in Q by (rewrite Rscal_length; congruence).
    rewrite !Rdot_scal_l, !Rdot_scal_r, (Rdot_comm hv gv) in Q. fold a in Q.
    assert (E : Rdot hv (mvec B gv) = Rdot gv gv).
    { rewrite (Rdot_comm hv). rewrite B2 by assumption. rewrite Egv. reflexivity. }
    rewrite E in Q. pose proof (BB' gv Lgv) as U.
    assert (U' : / Lam * (/ Lam * Rdot gv (mvec B gv)) <= / Lam * Rdot gv gv).
    { apply Rmult_le_compat_l; [left; apply Rinv_0_lt_compat; exact L0|].
      apply (Rmult_le_reg_l Lam); [exact L0|]. rewrite <- Rmult_assoc, Rinv_r, Rmult_1_l by lra. exact U. }
    apply (Rmult_le_reg_l (/ Lam)); [apply Rinv_0_lt_compat; exact L0|]. rewrite <- Rmult_assoc, Rinv_l, Rmult_1_l by lra. lra.
  - pose proof (PSD H (Rsub_v gv (Rscal (/ lam) hv)) (conj H1 (conj H2 H3)) ltac:(apply Rsub_v_length; [exact Lgv|rewrite Rscal_length; exact Lhv])) as Q.
    rewrite (mvec_sub H n n) in Q by (rewrite ?Rscal_length; assumption). rewrite mvec_scal, <- Ehv in Q.
    assert (LBg : length (mvec H hv) = n) by (eapply mvec_len; eauto).
    rewrite Rdot_sub_l in Q by (rewrite Rscal_length; congruence).
    rewrite !Rdot_sub_r in Q by (rewrite Rscal_length; congruence).
    rewrite !Rdot_scal_l, !Rdot_scal_r in Q. fold a in Q.
    assert (E : Rdot gv (mvec H hv) = Rdot hv hv).
    { rewrite (Rdot_comm gv). rewrite H2 by assumption. rewrite <- Ehv. reflexivity. }
    rewrite E in Q. pose proof (BI' hv Lhv) as U.
    assert (U' : / lam * (/ lam * Rdot hv (mvec H hv)) <= / lam * Rdot hv hv).
    { apply Rmult_le_compat_l; [left; apply Rinv_0_lt_compat; exact l0|].
      apply (Rmult_le_reg_l lam); [exact l0|]. rewrite <- Rmult_assoc, Rinv_r, Rmult_1_l by lra. exact U. }
    apply (Rmult_le_reg_l (/ lam)); [apply Rinv_0_lt_compat; exact l0|]. rewrite <- Rmult_assoc, Rinv_l, Rmult_1_l by lra. lra.
Qed.

(** ** The run, as sequences *)
Section Bounded.
  Variables (n : nat) (mu L lam Lam : R) (f : list R -> R) (g : list R -> list R).
  Hypothesis Hm : 0 < mu <= L.
  Hypothesis Hl : 0 < lam.
  Hypothesis HLam : L <= Lam.
  Hypothesis HS : smooth n L f g.
  Hypothesis HC : strongly_convex n mu f g.
  Variables (y : nat -> list R) (t : nat -> R) (h : nat -> list R) (acc : nat -> bool).
  Hypothesis Ly : forall k, length (y k) = n.
  Hypothesis Lh : forall k, length (h k) = n.
  Hypothesis Bg : forall k, Rdot (g (y k)) (g (y k)) <= Lam * Rdot (g (y k)) (h k).
  Hypothesis Bh : forall k, Rdot (h k) (h k) <= lam * Rdot (g (y k)) (h k).
  Hypothesis t0 : t 0%nat = 1.
  Hypothesis Rstep : forall k,
    (acc k = true /\ f (y (S k)) <= f (y k) - 1 / 10 * t k * Rdot (g (y k)) (h k) /\
     y (S k) = Radd_v (y k) (Rscal (- t k) (h k)) /\ t (S k) = 1) \/
    (acc k = false /\ f (y k) - 1 / 10 * t k * Rdot (g (y k)) (h k) < f (Radd_v (y k) (Rscal (- t k) (h k))) /\
     y (S k) = y k /\ t (S k) = / 2 * t k).
  Variable xs : list R.
  Hypothesis Lxs : length xs = n.
  Hypothesis Gxs : g xs = zerov n.

  Let a k := Rdot (g (y k)) (h k).
  Let V k := f (y k) - f xs.
  Lemma ba_nonneg : forall k, 0 <= a k.
  Proof.
    intro k. pose proof (Bh k) as Q. fold (a k) in Q. pose proof (Rdot_pos (h k)).
    apply Rnot_lt_le. intro N. assert (0 < lam * - a k) by (apply Rmult_lt_0_compat; lra). lra.
  Qed.
  Lemma bt_pos : forall k, 0 < t k <= 1.
  Proof.
    induction k as [|k IH]; [rewrite t0; lra|].
    destruct (Rstep k) as [(_ & _ & _ & ->)|(_ & _ & _ & ->)]; lra.
  Qed.
  Lemma breject : forall k, acc k = false -> 18 / 10 < L * lam * t k.
  Proof.
    intros k Ac. destruct (Rstep k) as [(Z & _)|(_ & Q & _)]; [congruence|]. fold (a k) in Q.
    pose proof (proj2 HS (y k) (Rscal (- t k) (h k)) (Ly k) ltac:(rewrite Rscal_length; apply Lh)) as U.
    rewrite Rdot_scal_r, Rdot_scal_l, Rdot_scal_r in U. fold (a k) in U. pose proof (bt_pos k) as T.
    pose proof (Bh k) as Bk. fold (a k) in Bk. pose proof (ba_nonneg k) as A0.
    assert (X : t k * (18 / 10 * a k) < t k * (L * t k * (lam * a k))).
    { apply (Rlt_le_trans _ (t k * (L * t k * Rdot (h k) (h k)))); [lra|].
      apply Rmult_le_compat_l; [lra|]. apply Rmult_le_compat_l; [apply Rmult_le_pos; lra|exact Bk]. }
    apply Rmult_lt_reg_l in X; [|lra].
    assert (AP : 0 < a k).
    { destruct A0 as [A0|A0]; [exact A0|]. rewrite <- A0 in X. lra. }
    apply (Rmult_lt_reg_r (a k)); [exact AP|]. lra.
  Qed.
  Let tmin := Rmin 1 (9 / (10 * L * lam)).
  Lemma tmin_pos : 0 < tmin.
  Proof. apply Rmin_glb_lt; [lra|]. apply Rdiv_lt_0_compat; [lra|]. apply Rmult_lt_0_compat; lra. Qed.
  Lemma bt_low : forall k, tmin <= t k.
  Proof.
    induction k as [|k IH]; [rewrite t0; apply Rmin_l|].
    destruct (Rstep k) as [(_ & _ & _ & ->)|(Ac & _ & _ & ->)]; [apply Rmin_l|].
    eapply Rle_trans; [apply Rmin_r|]. pose proof (breject k Ac) as B.
    assert (P : 0 < L * lam) by (apply Rmult_lt_0_compat; lra).
    apply (Rmult_le_reg_l (L * lam)); [exact P|].
    replace (L * lam * (9 / (10 * L * lam))) with (9 / 10) by (field; lra). lra.
  Qed.
  Lemma bdescends : forall k, f (y (S k)) <= f (y k).
  Proof.
    intro k. destruct (Rstep k) as [(_ & D & _)|(_ & _ & -> & _)]; [|lra]. fold (a k) in D.
    pose proof (bt_pos k). pose proof (ba_nonneg k). assert (0 <= t k * a k) by (apply Rmult_le_pos; lra). lra.
  Qed.
  Lemma bmono : forall i j, (i <= j)%nat -> V j <= V i.
  Proof. intros i j H. induction H as [|j H IH]; [lra|]. pose proof (bdescends j). unfold V in *. lra. Qed.
  Lemma bV_nonneg : forall k, 0 <= V k.
  Proof. exact (V_nonneg n mu L f g ltac:(lra) HS HC y Ly xs Lxs Gxs). Qed.

  Let theta := 1 - mu * tmin / (5 * Lam).
  Lemma theta_range : 0 <= theta < 1.
  Proof.
    unfold theta. pose proof tmin_pos as T. assert (T1 : tmin <= 1) by apply Rmin_l.
    assert (P : 0 < mu * tmin) by (apply Rmult_lt_0_compat; lra).
    assert (Q : mu * tmin <= Lam * 1) by (apply Rmult_le_compat; lra).
    assert (0 < mu * tmin / (5 * Lam)) by (apply Rdiv_lt_0_compat; lra).
    assert (mu * tmin / (5 * Lam) <= 1 / 5); [|lra].
    apply (Rmult_le_reg_r (5 * Lam)); [lra|]. unfold Rdiv at 1. rewrite Rmult_assoc, Rinv_l by lra. lra.
  Qed.
  Lemma bcontract : forall k, acc k = true -> V (S k) <= theta * V k.
  Proof.
    intros k Ac. destruct (Rstep k) as [(_ & D & _)|(Z & _)]; [|congruence]. fold (a k) in D.
    pose proof (gradient_dominates n mu L f g ltac:(lra) HS HC (y k) xs (Ly k) Lxs) as G.
    pose proof (Bg k) as Bk. fold (a k) in Bk. fold (V k) in G. pose proof (bt_low k) as T. pose proof tmin_pos as T0.
    pose proof (ba_nonneg k) as A0.
    assert (X : 2 * mu / Lam * V k <= a k).
    { apply (Rmult_le_reg_l Lam); [lra|]. replace (Lam * (2 * mu / Lam * V k)) with (2 * mu * V k) by (field; lra). lra. }
    assert (Y : tmin * (2 * mu / Lam * V k) <= t k * a k).
    { apply (Rle_trans _ (tmin * a k)); [apply Rmult_le_compat_l; lra|apply Rmult_le_compat_r; lra]. }
    unfold theta. replace ((1 - mu * tmin / (5 * Lam)) * V k) with (V k - 1 / 10 * (tmin * (2 * mu / Lam * V k))) by (field; lra).
    unfold V at 1 2. lra.
  Qed.

  Variable q : nat.
  Hypothesis Hq : L * lam <= 9 / 5 * 2 ^ q.
  Lemma baccepts : forall k, exists j, (k <= j <= k + q)%nat /\ acc j = true.
  Proof.
    intro k.
    assert (X : forall N, (exists j, (k <= j < k + N)%nat /\ acc j = true) \/ t (k + N)%nat * 2 ^ N <= 1).
    { induction N as [|N [(j & J1 & J2)|IH]]; [right|left; exists j; split; [lia|exact J2]|].
      - rewrite Nat.add_0_r. cbn. pose proof (bt_pos k). lra.
      - destruct (acc (k + N)%nat) eqn:Ac; [left; exists (k + N)%nat; split; [lia|exact Ac]|].
        right. destruct (Rstep (k + N)) as [(Z & _)|(_ & _ & _ & E)]; [congruence|].
        rewrite Nat.add_succ_r, E. cbn [pow]. lra. }
    destruct (X q) as [(j & J1 & J2)|T]; [exists j; split; [lia|exact J2]|].
    exists (k + q)%nat. split; [lia|]. destruct (acc (k + q)%nat) eqn:Ac; [reflexivity|].
    pose proof (breject _ Ac) as B. pose proof (bt_pos (k + q)) as [P _].
    assert (Z : L * lam * t (k + q)%nat <= 9 / 5 * 2 ^ q * t (k + q)%nat) by (apply Rmult_le_compat_r; lra). lra.
  Qed.
  Lemma brate : forall k, V (k * (q + 1))%nat <= theta ^ k * V 0%nat.
  Proof.
    pose proof theta_range as TR. induction k as [|k IH]; [cbn; lra|].
    destruct (baccepts (k * (q + 1))) as (j & J1 & J2).
    apply (Rle_trans _ (V (S j))); [apply bmono; cbn; lia|].
    eapply Rle_trans; [apply bcontract; exact J2|]. cbn [pow]. rewrite Rmult_assoc. apply Rmult_le_compat_l; [lra|].
    eapply Rle_trans; [apply bmono|exact IH]. lia.
  Qed.
  (** An accepted step within a known number of steps that moves and improves little *)
  Lemma bsmall : forall atol K, 0 < atol -> theta ^ K * V 0%nat < Rmin atol (atol * atol / (10 * lam)) ->
    exists j, (j < (K + 1) * (q + 1))%nat /\ acc j = true /\ f (y j) - f (y (S j)) < atol /\ f (y (S j)) <= f (y j) /\
      Rdot (Rsub_v (y (S j)) (y j)) (Rsub_v (y (S j)) (y j)) < atol * atol.
  Proof.
    intros atol K A0 HK. destruct (baccepts (K * (q + 1))) as (j & J1 & J2). exists j.
    split; [lia|]. split; [exact J2|].
    assert (VJ : V j < Rmin atol (atol * atol / (10 * lam))).
    { eapply Rle_lt_trans; [|exact HK]. eapply Rle_trans; [apply (bmono (K * (q + 1)) j); lia|apply brate]. }
    pose proof (Rmin_l atol (atol * atol / (10 * lam))) as M1. pose proof (Rmin_r atol (atol * atol / (10 * lam))) as M2.
    pose proof (bV_nonneg (S j)) as V0. split; [unfold V in *; lra|]. split; [apply bdescends|].
    destruct (Rstep j) as [(_ & D & E & _)|(Z & _)]; [|congruence]. fold (a j) in D.
    rewrite E, (sub_add n) by (rewrite ?Rscal_length; auto). rewrite Rdot_scal_l, Rdot_scal_r.
    pose proof (bt_pos j) as T. pose proof (Bh j) as Bj. fold (a j) in Bj. pose proof (ba_nonneg j) as AN.
    assert (TA : t j * a j <= 10 * V j) by (unfold V in *; lra).
    assert (U : t j * (t j * Rdot (h j) (h j)) <= lam * (t j * a j)).
    { assert (Z1 : t j * Rdot (h j) (h j) <= lam * (t j * a j)).
      { replace (lam * (t j * a j)) with (t j * (lam * a j)) by ring. apply Rmult_le_compat_l; lra. }
      pose proof (Rdot_pos (h j)). assert (0 <= t j * Rdot (h j) (h j)) by (apply Rmult_le_pos; lra).
      assert (t j * (t j * Rdot (h j) (h j)) <= 1 * (t j * Rdot (h j) (h j))) by (apply Rmult_le_compat_r; lra). lra. }
    assert (W : lam * (t j * a j) < atol * atol).
    { apply (Rle_lt_trans _ (10 * lam * V j)).
      - replace (10 * lam * V j) with (lam * (10 * V j)) by ring. apply Rmult_le_compat_l; lra.
      - replace (atol * atol) with (10 * lam * (atol * atol / (10 * lam))) by (field; lra).
        apply Rmult_lt_compat_l; lra. }
    lra.
  Qed.
End Bounded.

(** ** The run of the solver *)
Section LLink.
  Context {Aux : Type}.
  Variables (P : ar_tols RN) (eps mu L : R) (M : nat).
  Variable lsolve : linop RN -> list R -> list R * results.
  Variable grad_of : (list R -> R * Aux) -> list R -> list R.
  Variable fn : list R -> R * Aux.
  Variables (n : nat) (f : list R -> R) (g : list R -> list R) (y0 : list R) (fs : fillv -> R) (auxs : fillv -> Aux).
  Hypothesis Hm : 0 < mu <= L.
  Hypothesis HM : (0 < M)%nat.
  Hypothesis He : 0 <= eps.
  Hypothesis Hf : forall x, fst (fn x) = f x.
  Hypothesis Hg : forall x, grad_of fn x = g x.
  Hypothesis HS : smooth n L f g.
  Hypothesis HC : strongly_convex n mu f g.
  Hypothesis L0 : length y0 = n.
  Let search := armijo_default (N:=RN).
  Let descent := newton_descent (N:=RN) lsolve None.
  Let init := lbfgs_init (N:=RN) M true.
  Let upd := lbfgs_update (N:=RN) eps M true.
  Let s := LBFGS (N:=RN) P grad_of lsolve eps M true.
  Let st0 := qn_st0 (N:=RN) search descent init y0 fs auxs.
  Let Yk : nat -> list R := y_at s fn y0 st0 (auxs fill0).
  Let Sk : nat -> qn_state (N:=RN) (Aux:=Aux) search descent (HSt:=lbfgs_state RN) := st_at s fn y0 st0 (auxs fill0).
  Let y k : list R := Yk (S k).
  Let t k : R := qn_search_state (Sk (S k)).
  Let h k : list R := fst (qn_descent_state (Sk (S k))).
  Let acc k : bool := Nat.ltb (qn_num_accepted_steps (Sk (S k))) (qn_num_accepted_steps (Sk (S (S k)))).
  Let cases k := qn_step_cases _ _ _ _ _ _ _ _ _ _ _ (qn_trace_S (N:=RN) P search descent grad_of init upd fn y0 fs auxs k).

  Definition dir (ps : list (list R * list R)) (v : list R) : list R :=
    inverse_of_pairs (initial_scale (firstn M ps)) (firstn M ps) v.
  Lemma op_dir : forall ps hs v, holds_pairs true M n ps hs -> Forall (good n mu L) ps -> length v = n ->
    op_mv (lbfgs_operator (N:=RN) M hs) v = dir ps v.
  Proof.
    intros ps hs v (s' & -> & OK) HF Lv. cbn [lbfgs_operator op_mv].
    apply (inv_operator_ok M n HM ps s' v OK (Forall_good_curved _ _ _ _ HF) Lv).
  Qed.
  Lemma dir_facts : forall ps v, Forall (good n mu L) ps -> length v = n ->
    length (dir ps v) = n /\ Rdot v v <= hessian_bound M L * Rdot v (dir ps v) /\ Rdot (dir ps v) (dir ps v) <= inverse_bound M mu L * Rdot v (dir ps v).
  Proof.
    intros ps v HF Lv. apply (direction_bounds n mu L M); [lra|lra|apply firstn_Forall; exact HF|rewrite firstn_length; lia|exact Lv].
  Qed.

  Definition holds (k : nat) : Prop := exists ps fv gv, Forall (good n mu L) ps /\ length gv = n /\ length (Yk k) = n /\
    holds_pairs true M n ps (qn_hessian_update_state (Sk k)) /\
    qn_f_info (Sk k) = holds_op true (mkPoint (Yk k) fv gv) (lbfgs_operator (N:=RN) M (qn_hessian_update_state (Sk k))) /\
    length (qn_y_eval (Sk k) : list R) = n /\
    (k = 0%nat -> qn_y_eval (Sk k) = Yk k) /\
    ((0 < k)%nat -> fv = f (Yk k) /\ gv = g (Yk k) /\ qn_descent_state (Sk k) = (dir ps gv, successful)).

  Lemma pair_good : forall x z, length x = n -> length z = n ->
    let s := Rsub_v z x in let d := Rsub_v (g z) (g x) in eps < Rdot s d -> good n mu L (s, d).
  Proof.
    intros x z Lx Lz sv d Hc. assert (Ls : length sv = n) by (apply Rsub_v_length; assumption).
    pose proof (curvature n mu L f g HS HC x sv Lx Ls) as C1.
    pose proof (cocoercive n mu L f g ltac:(lra) ltac:(lra) HS HC x sv Lx Ls) as C2. cbv zeta in C2.
    unfold sv in C1 at 3, C2. rewrite !(BFGSConv_proofs.add_sub n) in C1, C2 by assumption. fold sv d in C1, C2.
    split; [split; [exact Ls|]; split; [apply Rsub_v_length; apply (proj1 HS); assumption|]|split; [exact C1|exact C2]].
    cbn [fst snd]. rewrite Rdot_comm. lra.
  Qed.

  Lemma holds_all : forall k, holds k.
  Proof.
    induction k as [|k IH].
    - set (z := vfull (N:=RN) n (nofQ (n:=RN) 0)).
      assert (Sz : sized n (mkPoint y0 (fs fill0) z)) by (split; [exact L0|unfold z, vfull; apply repeat_length]).
      destruct (lbfgs_init_ok M n true _ HM Sz) as (tT & IT & OT). cbn [pt_y pt_f pt_g] in IT.
      exists [], (fs fill0), z. split; [constructor|]. split; [apply Sz|]. split; [exact L0|].
      assert (EE : (qn_f_info (Sk 0), qn_hessian_update_state (Sk 0)) = lbfgs_init (N:=RN) M true y0 (fs fill0) z).
      { unfold z. rewrite <- L0. symmetry. refine (eq_trans (surjective_pairing _) _). reflexivity. }
      rewrite IT in EE. pose proof (f_equal fst EE) as E1. pose proof (f_equal snd EE) as E2. cbn [fst snd] in E1, E2.
      split; [refine (eq_ind_r _ OT E2)|]. split; [refine (eq_trans E1 _); f_equal; f_equal; symmetry; exact E2|].
      split; [exact L0|]. split; [reflexivity|lia].
    - destruct IH as (ps & fv & gv & HF & Lgv & LY & HP & EI & LE & EY0 & EK).
      destruct (cases k) as (step & ac & sr & sst & Es & E1 & E2 & E3 & E7 & E4 & E6 & E5).
      assert (YE : forall v, length (Yk (S k)) = n -> fst (qn_descent_state (Sk (S k))) = v -> length v = n -> length (qn_y_eval (Sk (S k)) : list R) = n).
      { intros v A B C. change (length (qn_y_eval (Sk (S k)) : list R) = n).
        rewrite (E3 : qn_y_eval (Sk (S k)) = _). cbn [descent newton_descent d_step fst].
        rewrite vadd_RN, vscale_RN. apply Radd_v_length; [exact A|]. rewrite Rscal_length. rewrite <- C. exact (f_equal (@length R) B). }
      destruct ac.
      + destruct E5 as (Ey & Eu & _ & Ed & _).
        change (Yk (S k) = qn_y_eval (Sk k)) in Ey.
        change ((qn_f_info (Sk (S k)), qn_hessian_update_state (Sk (S k))) =
          upd (Yk k) (Yk (S k)) (qn_f_info (Sk k)) (fst (fn (Yk (S k)))) (grad_of fn (Yk (S k))) (qn_hessian_update_state (Sk k))) in Eu.
        rewrite Hf, Hg in Eu.
        assert (LY' : length (Yk (S k)) = n) by (rewrite Ey; exact LE).
        set (p := mkPoint (Yk k) fv gv) in *. set (p' := mkPoint (Yk (S k)) (f (Yk (S k))) (g (Yk (S k)))).
        assert (Sp : sized n p) by (split; assumption).
        assert (Sq : sized n p') by (split; [exact LY'|apply (proj1 HS); exact LY']).
        destruct (lbfgs_update_ok M n eps true ps _ p p' HM Sp Sq HP) as (tT & UT & OT).
        change (upd (Yk k) (Yk (S k)) (holds_op true p (lbfgs_operator (N:=RN) M (qn_hessian_update_state (Sk k)))) (f (Yk (S k))) (g (Yk (S k))) (qn_hessian_update_state (Sk k)) = (holds_op true p' (lbfgs_operator (N:=RN) M tT), tT)) in UT.
        rewrite EI, UT in Eu. injection Eu as U1 U2. subst tT.
        assert (HF' : Forall (good n mu L) (if Rlt_dec eps (Rdot (Rsub_v (pt_y p') (pt_y p)) (Rsub_v (pt_g p') (pt_g p)))
            then (Rsub_v (pt_y p') (pt_y p), Rsub_v (pt_g p') (pt_g p)) :: ps else ps)).
        { destruct (Rlt_dec _ _) as [Hc|Hc]; [|exact HF]. constructor; [|exact HF].
          cbn [p p' pt_y pt_g] in *. destruct k as [|k].
          - exfalso. rewrite Ey, (EY0 eq_refl), Rsub_v_self, Rdot_0_l in Hc. lra.
          - destruct (EK ltac:(lia)) as (_ & -> & _). apply pair_good; assumption. }
        set (ps' := if Rlt_dec _ _ then _ else _) in *.
        assert (DS : qn_descent_state (Sk (S k)) = (dir ps' (g (Yk (S k))), successful)).
        { refine (eq_trans Ed _). change (d_query descent (Yk (S k)) (qn_f_info (Sk (S k))) (qn_descent_state (Sk k)) = (dir ps' (g (Yk (S k))), successful)).
          cbn [descent newton_descent d_query]. rewrite U1. cbn [holds_op newton_step normalise]. f_equal. apply op_dir; [exact OT|exact HF'|apply Sq]. }
        destruct (dir_facts ps' (g (Yk (S k))) HF' ltac:(apply Sq)) as (LD & _).
        exists ps', (f (Yk (S k))), (g (Yk (S k))). split; [exact HF'|]. split; [apply Sq|]. split; [exact LY'|]. split; [exact OT|].
        split; [exact U1|]. split; [apply (YE _ LY' (f_equal fst DS)); exact LD|]. split; [discriminate|]. intros _. auto.
      + destruct E5 as (Ey & Eu & _ & Ed & _).
        destruct k as [|k]; [cbn in Es; discriminate (f_equal (fun z => snd (fst (fst z))) Es)|].
        destruct (EK ltac:(lia)) as (K1 & K2 & K3).
        change (Yk (S (S k)) = Yk (S k)) in Ey.
        change (qn_descent_state (Sk (S (S k))) = qn_descent_state (Sk (S k))) in Ed.
        change ((qn_f_info (Sk (S (S k))), qn_hessian_update_state (Sk (S (S k)))) = (qn_f_info (Sk (S k)), qn_hessian_update_state (Sk (S k)))) in Eu.
        injection Eu as U1 U2. rewrite K3 in Ed.
        destruct (dir_facts ps gv HF Lgv) as (LD & _).
        exists ps, fv, gv. rewrite U1, U2, Ey. split; [exact HF|]. split; [exact Lgv|]. split; [exact LY|]. split; [exact HP|].
        split; [exact EI|]. split; [apply (YE (dir ps gv)); [rewrite Ey; exact LY|rewrite Ed; reflexivity|exact LD]|].
        split; [discriminate|]. intros _. auto.
  Qed.

  Lemma lat_k : forall k, length (y k) = n /\ length (h k) = n /\
    Rdot (g (y k)) (g (y k)) <= hessian_bound M L * Rdot (g (y k)) (h k) /\
    Rdot (h k) (h k) <= inverse_bound M mu L * Rdot (g (y k)) (h k) /\
    (exists op, qn_f_info (Sk (S k)) = holds_op true (mkPoint (y k) (f (y k)) (g (y k))) op) /\
    qn_descent_state (Sk (S k)) = (h k, successful).
  Proof.
    intro k. destruct (holds_all (S k)) as (ps & fv & gv & HF & Lgv & LY & HP & EI & LE & _ & EK).
    destruct (EK ltac:(lia)) as (-> & -> & ED). destruct (dir_facts ps _ HF Lgv) as (LD & D1 & D2).
    assert (Eh : h k = dir ps (g (Yk (S k)))) by (unfold h; rewrite ED; reflexivity).
    unfold y. rewrite Eh. split; [exact LY|]. split; [exact LD|]. split; [exact D1|]. split; [exact D2|].
    split; [eexists; exact EI|exact ED].
  Qed.

  Lemma lfirst_t : t 0%nat = 1.
  Proof.
    destruct (cases 0) as (step & ac & sr & sst & Es & E1 & E2 & E3 & E7 & E4 & E6 & E5).
    cbn in Es. injection Es as _ _ _ <-. refine (eq_trans E2 _). apply Q2R_1.
  Qed.
  Lemma lfirst_y : y 0%nat = y0.
  Proof.
    destruct (cases 0) as (step & ac & sr & sst & Es & E1 & E2 & E3 & E7 & E4 & E6 & E5).
    cbn in Es. injection Es as _ <- _ _. destruct E5 as (Ey & _). exact Ey.
  Qed.

  Lemma leval_k : forall k, qn_y_eval (Sk (S k)) = Radd_v (y k) (Rscal (- t k) (h k)).
  Proof.
    intro k. destruct (lat_k k) as (_ & _ & _ & _ & _ & ED).
    destruct (cases k) as (step & ac & sr & sst & Es & E1 & E2 & E3 & E7 & E4 & E6 & E5).
    assert (T1 : sst = step).
    { cbn [se_step search armijo_default armijo] in Es. unfold armijo_step in Es. cbv zeta in Es. injection Es as <- _ _ <-. reflexivity. }
    assert (T2 : step = t k) by (rewrite <- T1; symmetry; exact E2).
    refine (eq_trans E3 _). refine (eq_trans (vadd_RN _ _) _). f_equal.
    refine (eq_trans (f_equal (fun z => fst (d_step descent step z)) ED) _).
    cbn [descent newton_descent d_step fst]. rewrite vscale_RN, T2. reflexivity.
  Qed.

  Lemma lresult_k : forall k, qn_result (Sk k) = successful.
  Proof.
    intros [|k]; [reflexivity|]. destruct (lat_k k) as (_ & _ & _ & _ & _ & ED).
    destruct (cases k) as (step & ac & sr & sst & Es & E1 & E2 & E3 & E7 & E4 & E6 & E5).
    assert (SR : sr = successful).
    { cbn [se_step search armijo_default armijo] in Es. unfold armijo_step in Es. cbv zeta in Es. injection Es as _ _ <- _. reflexivity. }
    subst sr. refine (eq_trans E6 _). cbn [results_eqb].
    refine (eq_trans (f_equal (fun z => snd (d_step descent step z)) ED) _). reflexivity.
  Qed.

  Lemma lfirst_false : forall k, qn_first_step (Sk (S k)) = false.
  Proof.
    intro k. destruct (cases k) as (step & ac & sr & sst & Es & E1 & E2 & E3 & E7 & E4 & E6 & E5). exact E1.
  Qed.

  Lemma lterm_k : forall k, acc k = true -> qn_terminate (Sk (S (S k))) =
    cauchy_termination (N:=RN) (ar_rtol P) (ar_atol P) (ar_norm P) (y (S k)) (Rsub_v (y (S k)) (y k)) [f (y (S k))] [f (y (S k)) - f (y k)].
  Proof.
    intros k Ac. destruct (lat_k k) as (_ & _ & _ & _ & (op & EI) & _).
    destruct (cases (S k)) as (step & ac & sr & sst & Es & E1 & E2 & E3 & E7 & E4 & E6 & E5).
    destruct ac.
    2:{ exfalso. unfold acc in Ac. apply Nat.ltb_lt in Ac.
        change (qn_num_accepted_steps (Sk (S (S k))) = qn_num_accepted_steps (Sk (S k)) + 0)%nat in E7. lia. }
    destruct E5 as (_ & _ & _ & _ & ET).
    change (qn_terminate (Sk (S (S k))) = if qn_first_step (Sk (S k)) then false else
        cauchy_termination (N:=RN) (ar_rtol P) (ar_atol P) (ar_norm P) (y (S k)) (vsub (N:=RN) (y (S k)) (y k))
          [fst (fn (y (S k)))] [nsub (n:=RN) (fst (fn (y (S k)))) (as_min (qn_f_info (Sk (S k))))]) in ET.
    rewrite lfirst_false, EI, vsub_RN, Hf in ET. exact ET.
  Qed.

  Lemma lstep_k : forall k, 0 < t k ->
    (acc k = true /\ f (y (S k)) <= f (y k) - 1 / 10 * t k * Rdot (g (y k)) (h k) /\
     y (S k) = Radd_v (y k) (Rscal (- t k) (h k)) /\ t (S k) = 1) \/
    (acc k = false /\ f (y k) - 1 / 10 * t k * Rdot (g (y k)) (h k) < f (Radd_v (y k) (Rscal (- t k) (h k))) /\
     y (S k) = y k /\ t (S k) = / 2 * t k).
  Proof.
    intros k T0. destruct (lat_k k) as (Lyk & Lhk & _ & BH & (op & EI) & ED). pose proof (leval_k k) as EY.
    destruct (cases (S k)) as (step & ac & sr & sst & Es & E1 & E2 & E3 & E7 & E4 & E6 & E5).
    change (t (S k) = sst) in E2.
    change (qn_num_accepted_steps (Sk (S (S k))) = qn_num_accepted_steps (Sk (S k)) + (if ac then 1 else 0))%nat in E7.
    change (se_step search (qn_first_step (Sk (S k))) (y k) (qn_y_eval (Sk (S k))) (qn_f_info (Sk (S k)))
       (Eval (N:=RN) (fst (fn (qn_y_eval (Sk (S k)))))) (t k) = (step, ac, sr, sst)) in Es.
    assert (AC : acc k = ac).
    { unfold acc. rewrite E7. destruct ac; [apply Nat.ltb_lt; lia|apply Nat.ltb_ge; lia]. }
    rewrite lfirst_false, EI, EY, Hf in Es.
    cbn [se_step search armijo_default armijo] in Es. unfold armijo_step in Es. cbv zeta in Es.
    rewrite <- (vadd_RN (y k)) in Es. rewrite vsub_vadd in Es by (rewrite Rscal_length; congruence). rewrite vadd_RN in Es.
    cbn [holds_op compute_grad_dot as_min orb pt_f pt_g] in Es. rewrite vdot_RN, Rdot_scal_r in Es.
    assert (A0 : 0 <= Rdot (g (y k)) (h k)).
    { pose proof (Rdot_pos (h k)). apply Rnot_lt_le. intro N.
      assert (lp : 0 < inverse_bound M mu L).
      { unfold inverse_bound. apply Rmult_lt_0_compat; [apply pow_lt|pose proof (Rmax_l 1 (/ mu)); lra].
        assert (0 < L / mu) by (apply Rdiv_lt_0_compat; lra). lra. }
      assert (0 < inverse_bound M mu L * - Rdot (g (y k)) (h k)) by (apply Rmult_lt_0_compat; lra). lra. }
    set (av := Rdot (g (y k)) (h k)) in *.
    assert (RED : nleb (n:=RN) (- t k * av)%R (nofQ (n:=RN) 0) = true).
    { cbn. apply Rleb_true. rewrite Q2R_0. assert (0 <= t k * av) by (apply Rmult_le_pos; lra). lra. }
    rewrite RED, andb_true_r in Es. injection Es as Q1' Q2' _ Q4. rewrite Q2' in Q4.
    cbn [nofQ RN] in Q4. rewrite Q2R_1, Q1 in Q4.
    cbn [nleb nsub nmul nofQ RN] in Q2'. rewrite Q2 in Q2'.
    destruct ac.
    - left. destruct E5 as (Ey & _). apply Rleb_true in Q2'.
      assert (Ey' : y (S k) = Radd_v (y k) (Rscal (- t k) (h k))) by (refine (eq_trans Ey _); exact EY).
      split; [exact AC|]. split; [rewrite Ey'; lra|]. split; [exact Ey'|congruence].
    - right. destruct E5 as (Ey & _). apply Rleb_false in Q2'.
      split; [exact AC|]. split; [lra|]. split; [exact Ey|]. rewrite E2, <- Q4. reflexivity.
  Qed.

  Lemma lt_pos : forall k, 0 < t k.
  Proof.
    induction k as [|k IH]; [rewrite lfirst_t; lra|].
    destruct (lstep_k k IH) as [(_ & _ & _ & ->)|(_ & _ & _ & ->)]; lra.
  Qed.

  Variable xs : list R.
  Hypothesis Lxs : length xs = n.
  Hypothesis Gxs : g xs = zerov n.
  Variable q : nat.
  Hypothesis Hq : L * inverse_bound M mu L <= 9 / 5 * 2 ^ q.
  Let theta := accepted_factor M mu L.

  Lemma lam_pos : 0 < inverse_bound M mu L.
  Proof.
    unfold inverse_bound. apply Rmult_lt_0_compat; [apply pow_lt|pose proof (Rmax_l 1 (/ mu)); lra].
    assert (0 < L / mu) by (apply Rdiv_lt_0_compat; lra). lra.
  Qed.
  Lemma Lam_low : L <= hessian_bound M L.
  Proof.
    unfold hessian_bound. pose proof (Rmax_r 1 L). pose proof (pos_INR M). assert (0 <= INR M * L) by (apply Rmult_le_pos; lra). lra.
  Qed.
  Let Ly k := proj1 (lat_k k).
  Let Lh k := proj1 (proj2 (lat_k k)).
  Let Bg k := proj1 (proj2 (proj2 (lat_k k))).
  Let Bh k := proj1 (proj2 (proj2 (proj2 (lat_k k)))).
  Let Rstep k := lstep_k k (lt_pos k).

  Lemma llink_theta : 0 <= theta < 1.
  Proof. exact (theta_range mu L (inverse_bound M mu L) (hessian_bound M L) Hm lam_pos Lam_low). Qed.
  Lemma llink_rate : forall k, f (Yk (S (k * (q + 1)))) - f xs <= theta ^ k * (f y0 - f xs).
  Proof.
    intro k. rewrite <- lfirst_y.
    exact (brate n mu L (inverse_bound M mu L) (hessian_bound M L) f g Hm lam_pos Lam_low HS HC y t h acc Ly Lh Bg Bh lfirst_t Rstep xs Lxs q Hq k).
  Qed.
  Lemma llink_descends : forall k, f (Yk (S (S k))) <= f (Yk (S k)).
  Proof. exact (bdescends (inverse_bound M mu L) f g lam_pos y t h acc Bh lfirst_t Rstep). Qed.
  Lemma llink_terminates : forall K, 0 < ar_atol P -> 0 <= ar_rtol P -> ar_norm P = max_norm ->
    theta ^ K * (f y0 - f xs) < Rmin (ar_atol P) (ar_atol P * ar_atol P / (10 * inverse_bound M mu L)) ->
    exists k, (k <= (K + 1) * (q + 1) + 1)%nat /\ qn_terminate (Sk k) = true.
  Proof.
    intros K Ha Hr Hn HK. rewrite <- lfirst_y in HK.
    destruct (bsmall n mu L (inverse_bound M mu L) (hessian_bound M L) f g Hm lam_pos Lam_low HS HC y t h acc Ly Lh Bg Bh lfirst_t Rstep xs Lxs Gxs q Hq
      (ar_atol P) K Ha HK) as (j & J0 & J1 & J2 & J3 & J4).
    exists (S (S j)). split; [lia|]. pose proof (lterm_k j J1) as T. rewrite Hn in T.
    destruct (qn_terminate (Sk (S (S j)))) eqn:E; [reflexivity|]. symmetry in T.
    apply cauchy_false_vec in T; [|exact Hr|exact Ha]. exfalso.
    destruct T as [(i & a & Ei & Q)|(i & a & Ei & Q)].
    - pose proof (Rdot_nth_le _ _ _ Ei) as X.
      assert (Rabs a * Rabs a = a * a) by (rewrite <- Rabs_mult; apply Rabs_pos_eq, Rle_0_sqr).
      assert (ar_atol P * ar_atol P <= Rabs a * Rabs a) by (apply Rmult_le_compat; lra). lra.
    - destruct i as [|[|i]]; try discriminate Ei. cbn in Ei. injection Ei as <-. rewrite Rabs_left1 in Q by lra. lra.
  Qed.
End LLink.

(** Both variants make the same run *)
Lemma lboth_variants : forall (Aux : Type) (P : ar_tols RN) (eps : R) lsolve grad_of (fn : list R -> R * Aux)
    (n M : nat) (g : list R -> list R) (y0 : list R) fs auxs (ui : bool) st stT,
  (0 < M)%nat -> 0 <= eps -> exact_solve_op n lsolve -> (forall x, grad_of fn x = g x) -> (forall x, length x = n -> length (g x) = n) -> length y0 = n ->
  s_init (LBFGS (N:=RN) P grad_of lsolve eps M ui) fn y0 fs auxs = Ret st ->
  s_init (LBFGS (N:=RN) P grad_of lsolve eps M true) fn y0 fs auxs = Ret stT ->
  forall k,
    y_at (LBFGS (N:=RN) P grad_of lsolve eps M ui) fn y0 st (auxs fill0) k = y_at (LBFGS (N:=RN) P grad_of lsolve eps M true) fn y0 stT (auxs fill0) k /\
    says_terminate (LBFGS (N:=RN) P grad_of lsolve eps M ui) fn y0 st (auxs fill0) k = says_terminate (LBFGS (N:=RN) P grad_of lsolve eps M true) fn y0 stT (auxs fill0) k /\
    says_result (LBFGS (N:=RN) P grad_of lsolve eps M ui) fn y0 st (auxs fill0) k = says_result (LBFGS (N:=RN) P grad_of lsolve eps M true) fn y0 stT (auxs fill0) k.
Proof.
  intros Aux P eps lsolve grad_of fn n M g y0 fs auxs ui st stT HM He HE Hg HGl L0 Hi HiT k.
  assert (HG : forall x, length x = n -> length (grad_of fn x) = n) by (intros x Lx; rewrite Hg; apply HGl; exact Lx).
  destruct ui.
  - apply qn_init_inv in Hi. apply qn_init_inv in HiT. subst st stT. auto.
  - destruct (C39_lbfgs_same_run_pf Aux P eps lsolve grad_of fn n M y0 fs auxs HM He HE HG L0 stT st HiT Hi k) as (A & _ & B & C).
    split; [symmetry; exact A|]. split; [symmetry; exact B|symmetry; exact C].
Qed.

(** L-BFGS converges globally and linearly, with explicit constants: if f is L-smooth and
    mu-strongly convex, then every q+1 consecutive steps, 2^q >= (5/9) L inverse_bound, shrink
    f - min f at least by [accepted_factor] < 1, which depends only on mu, L and the history
    length: neither on the number of unknowns nor on y0 nor on how far the run has got. *)
Lemma C85_rate_pf :
  forall (Aux : Type) (P : ar_tols RN) (mu L eps : R) (M q : nat) lsolve grad_of (fn : list R -> R * Aux) (n : nat)
         (f : list R -> R) (g : list R -> list R) (y0 xs : list R) fs auxs (use_inverse : bool) st0,
    0 < mu <= L -> (0 < M)%nat -> 0 <= eps -> L * inverse_bound M mu L <= 9 / 5 * 2 ^ q ->
    smooth n L f g -> strongly_convex n mu f g ->
    (forall x, fst (fn x) = f x) -> (forall x, grad_of fn x = g x) -> exact_solve_op n lsolve ->
    length y0 = n -> length xs = n -> (forall x, length x = n -> f xs <= f x) ->
    let s := LBFGS (N:=RN) P grad_of lsolve eps M use_inverse in
    s_init s fn y0 fs auxs = Ret st0 ->
    let y : nat -> list R := y_at s fn y0 st0 (auxs fill0) in
    0 <= accepted_factor M mu L < 1 /\
    forall k, f (y (S (k * (q + 1)))) - f xs <= accepted_factor M mu L ^ k * (f y0 - f xs).
Proof.
  intros Aux P mu L eps M q lsolve grad_of fn n f g y0 xs fs auxs ui st0 Hm HM He Hq HS HC Hf Hg HE L0 Lxs Hx s Hi y.
  pose proof (minimiser_stationary n L f g xs ltac:(lra) HS Lxs Hx) as Gxs.
  split; [exact (llink_theta mu L M Hm)|]. intro k.
  pose proof (lboth_variants Aux P eps lsolve grad_of fn n M g y0 fs auxs ui st0 _ HM He HE Hg (proj1 HS) L0 Hi eq_refl (S (k * (q + 1)))) as (B & _).
  refine (eq_ind_r (fun z => f z - f xs <= _) _ B).
  exact (llink_rate P eps mu L M lsolve grad_of fn n f g y0 fs auxs Hm HM He Hf Hg HS HC L0 xs Lxs q Hq k).
Qed.

Lemma q_exists : forall a, exists q, a <= 9 / 5 * 2 ^ q.
Proof.
  intro a. destruct (Pow_x_infinity 2 ltac:(rewrite Rabs_pos_eq; lra) (5 / 9 * a)) as [q Hq].
  exists q. specialize (Hq q (le_n q)). rewrite Rabs_pos_eq in Hq by (apply pow_le; lra). lra.
Qed.

(** The iterates converge: f(y_k) comes within every tau > 0 of the minimum and stays there, and so
    does y_k within every tau of the minimiser; f never increases after the first step. *)
Lemma C85_converges_pf :
  forall (Aux : Type) (P : ar_tols RN) (mu L eps : R) (M : nat) lsolve grad_of (fn : list R -> R * Aux) (n : nat)
         (f : list R -> R) (g : list R -> list R) (y0 xs : list R) fs auxs (use_inverse : bool) st0,
    0 < mu <= L -> (0 < M)%nat -> 0 <= eps ->
    smooth n L f g -> strongly_convex n mu f g ->
    (forall x, fst (fn x) = f x) -> (forall x, grad_of fn x = g x) -> exact_solve_op n lsolve ->
    length y0 = n -> length xs = n -> (forall x, length x = n -> f xs <= f x) ->
    let s := LBFGS (N:=RN) P grad_of lsolve eps M use_inverse in
    s_init s fn y0 fs auxs = Ret st0 ->
    let y : nat -> list R := y_at s fn y0 st0 (auxs fill0) in
    y 1%nat = y0 /\ (forall k, f (y (S (S k))) <= f (y (S k))) /\
    forall tau, 0 < tau -> exists K, forall k, (K <= k)%nat ->
      f (y k) - f xs <= tau /\ Rdot (Rsub_v (y k) xs) (Rsub_v (y k) xs) <= tau.
Proof.
  intros Aux P mu L eps M lsolve grad_of fn n f g y0 xs fs auxs ui st0 Hm HM He HS HC Hf Hg HE L0 Lxs Hx s Hi y.
  pose proof (minimiser_stationary n L f g xs ltac:(lra) HS Lxs Hx) as Gxs.
  destruct (q_exists (L * inverse_bound M mu L)) as [q Hq].
  destruct (C85_rate_pf Aux P mu L eps M q lsolve grad_of fn n f g y0 xs fs auxs ui st0 Hm HM He Hq HS HC Hf Hg HE L0 Lxs Hx Hi) as (T0 & RT).
  assert (YE : forall k, y k = y_at (LBFGS P grad_of lsolve eps M true) fn y0 (qn_st0 (N:=RN) armijo_default (newton_descent (N:=RN) lsolve None) (lbfgs_init (N:=RN) M true) y0 fs auxs) (auxs fill0) k).
  { intro k. exact (proj1 (lboth_variants Aux P eps lsolve grad_of fn n M g y0 fs auxs ui st0 _ HM He HE Hg (proj1 HS) L0 Hi eq_refl k)). }
  split; [rewrite YE; exact (lfirst_y P eps M lsolve grad_of fn y0 fs auxs)|].
  assert (DS : forall k, f (y (S (S k))) <= f (y (S k))).
  { intro k. rewrite !YE. exact (llink_descends P eps mu L M lsolve grad_of fn n f g y0 fs auxs Hm HM He Hf Hg HS HC L0 k). }
  split; [exact DS|]. intros tau TP.
  assert (MONO : forall i j, (i <= j)%nat -> f (y (S j)) <= f (y (S i))).
  { intros i j Hij. induction Hij as [|j Hij IH]; [lra|]. eapply Rle_trans; [apply DS|exact IH]. }
  set (v := Rmin tau (mu / 2 * tau)).
  assert (V0 : 0 < v) by (apply Rmin_glb_lt; [exact TP|apply Rmult_lt_0_compat; lra]).
  set (D := f y0 - f xs). assert (D0 : 0 <= D) by (unfold D; specialize (Hx y0 L0); lra).
  destruct (pow_lt_1_zero (accepted_factor M mu L) ltac:(rewrite Rabs_pos_eq; lra) (v / (D + 1)) ltac:(apply Rdiv_lt_0_compat; lra)) as [K HK].
  exists (S (K * (q + 1))). intros [|k] Hk; [inversion Hk|]. apply le_S_n in Hk.
  assert (Fk : f (y (S k)) - f xs <= v).
  { specialize (HK K (le_n K)). rewrite Rabs_pos_eq in HK by (apply pow_le; lra).
    pose proof (MONO _ _ Hk). pose proof (RT K) as R. fold D y in R.
    assert (accepted_factor M mu L ^ K * D <= v / (D + 1) * (D + 1)).
    { apply Rmult_le_compat; [apply pow_le; lra|exact D0|lra|lra]. }
    assert (VE : v / (D + 1) * (D + 1) = v) by (field; lra). rewrite VE in *. clear - H H0 R.
    eapply Rle_trans; [|exact H0]. eapply Rle_trans; [|exact R]. unfold Rminus. apply Rplus_le_compat_r. exact H. }
  assert (LY : length (y (S k)) = n).
  { rewrite YE. exact (proj1 (lat_k P eps mu L M lsolve grad_of fn n f g y0 fs auxs Hm HM He Hf Hg HS HC L0 k)). }
  pose proof (above_minimiser n mu f g xs _ HC Lxs Gxs LY) as AB.
  split; [eapply Rle_trans; [exact Fk|apply Rmin_l]|].
  apply (Rmult_le_reg_l (mu / 2)); [lra|]. eapply Rle_trans; [exact AB|]. eapply Rle_trans; [exact Fk|apply Rmin_r].
Qed.

(** With the default termination (max_norm, atol > 0, rtol >= 0) L-BFGS stops within
    (K+1)(q+1)+1 steps, K any number with accepted_factor^K (f y0 - min f) below
    min(atol, atol^2 / (10 inverse_bound)), reports success and returns a point no worse than y0. *)
Lemma C85_terminates_pf :
  forall (Aux : Type) (rtol atol mu L eps : R) (M q K : nat) lsolve grad_of (fn : list R -> R * Aux) (n : nat)
         (f : list R -> R) (g : list R -> list R) (y0 xs : list R) fs auxs (use_inverse : bool),
    0 < mu <= L -> (0 < M)%nat -> 0 <= eps -> 0 < atol -> 0 <= rtol ->
    L * inverse_bound M mu L <= 9 / 5 * 2 ^ q ->
    accepted_factor M mu L ^ K * (f y0 - f xs) < Rmin atol (atol * atol / (10 * inverse_bound M mu L)) ->
    smooth n L f g -> strongly_convex n mu f g ->
    (forall x, fst (fn x) = f x) -> (forall x, grad_of fn x = g x) -> exact_solve_op n lsolve ->
    length y0 = n -> length xs = n -> (forall x, length x = n -> f xs <= f x) ->
    let s := LBFGS (N:=RN) (mkTols rtol atol max_norm) grad_of lsolve eps M use_inverse in
    exists k, (k <= (K + 1) * (q + 1) + 1)%nat /\
    forall fuel budget throw, (k < fuel)%nat -> (forall m, budget = Some m -> (k <= m)%nat) ->
      exists sol, iterative_solve (vallfinite (N:=RN)) s fn fuel budget throw y0 fs auxs = Ret sol /\
        result sol = successful /\ f (value sol) <= f y0 /\
        hd_error (sol_stats sol) = Some ("num_steps"%string, Some (Z.of_nat k)).
Proof.
  intros Aux rtol atol mu L eps M q K lsolve grad_of fn n f g y0 xs fs auxs ui Hm HM He Ha Hr Hq HK HS HC Hf Hg HE L0 Lxs Hx s.
  set (P := mkTols (N:=RN) rtol atol max_norm) in *.
  pose proof (minimiser_stationary n L f g xs ltac:(lra) HS Lxs Hx) as Gxs.
  set (st0 := qn_st0 (N:=RN) armijo_default (newton_descent (N:=RN) lsolve None) (lbfgs_init (N:=RN) M ui) y0 fs auxs).
  assert (Hi : s_init s fn y0 fs auxs = Ret st0) by (unfold s, st0; clear; destruct ui; reflexivity).
  pose proof (lboth_variants Aux P eps lsolve grad_of fn n M g y0 fs auxs ui st0 _ HM He HE Hg (proj1 HS) L0 Hi eq_refl) as BV.
  destruct (llink_terminates P eps mu L M lsolve grad_of fn n f g y0 fs auxs Hm HM He Hf Hg HS HC L0 xs Lxs Gxs q Hq K Ha Hr eq_refl HK) as (k0 & Kb & T).
  assert (T' : says_terminate s fn y0 st0 (auxs fill0) k0 = true).
  { destruct (BV k0) as (_ & B & _). refine (eq_trans B _). exact T. }
  assert (SR : forall k, says_result s fn y0 st0 (auxs fill0) k = successful).
  { intro k. destruct (BV k) as (_ & _ & B). refine (eq_trans B _).
    exact (lresult_k P eps mu L M lsolve grad_of fn n f g y0 fs auxs Hm HM He Hf Hg HS HC L0 k). }
  assert (AF : forall v : list R, vallfinite (N:=RN) v = true).
  { intro v. unfold vallfinite. induction v; auto. }
  destruct (solve_succeeds (vallfinite (N:=RN)) s fn y0 st0 _ fs auxs eq_refl Hi SR (fun k => AF _) (ex_intro _ _ T'))
    as (k1 & K1 & K2 & K3).
  exists k1. split.
  { apply Nat.le_trans with k0; [|exact Kb]. destruct (le_lt_dec k1 k0) as [|Hlt]; [assumption|].
    specialize (K2 k0 Hlt). rewrite T' in K2. discriminate K2. }
  intros fuel budget throw Hfu Hb. destruct (K3 fuel budget throw Hfu Hb) as (K4 & K5).
  eexists. split; [exact K4|]. split; [exact K5|]. split; [|reflexivity].
  destruct (C85_converges_pf Aux P mu L eps M lsolve grad_of fn n f g y0 xs fs auxs ui st0 Hm HM He HS HC Hf Hg HE L0 Lxs Hx Hi) as (Y1 & DS & _).
  change (f (y_at s fn y0 st0 (auxs fill0) k1) <= f y0). destruct k1 as [|k1]; [cbn; lra|].
  clear - Y1 DS. induction k1 as [|k1 IH]; [right; exact (f_equal f Y1)|]. eapply Rle_trans; [apply DS|exact IH].
Qed.

(** The two-unknown x0^2 + x0 x1 + x1^2 with history length 2 and the Cholesky solver. *)
Lemma quad2_bounds : inverse_bound 2 1 3 = 81 /\ hessian_bound 2 3 = 9 /\ accepted_factor 2 1 3 = 1 - / 12150.
Proof.
  assert (A : inverse_bound 2 1 3 = 81).
  { unfold inverse_bound. rewrite Rmax_left by lra. field. }
  assert (B : hessian_bound 2 3 = 9).
  { unfold hessian_bound. rewrite Rmax_right by lra. cbn. ring. }
  split; [exact A|]. split; [exact B|]. unfold accepted_factor, least_fraction. rewrite A, B, Rmin_right by lra. field.
Qed.

Example C85_rate_ex_pf :
  smooth 2 3 quad2 quad2_grad /\ strongly_convex 2 1 quad2 quad2_grad /\ exact_solve_op 2 cholesky_solve /\
  forall P use_inverse st0,
    let s := LBFGS (N:=RN) (Aux:=unit) P (fun _ => quad2_grad) cholesky_solve (1/100) 2 use_inverse in
    s_init s (fun v => (quad2 v, tt)) [5; -3] (fun _ => 0) (fun _ => tt) = Ret st0 ->
    forall k, quad2 (y_at s (fun v => (quad2 v, tt)) [5; -3] st0 tt (S (k * 9))) <= (1 - / 12150) ^ k * 19.
Proof.
  destruct quad2_facts as (HS & HC & HM). destruct quad2_bounds as (QA & QB & QC).
  split; [exact HS|]. split; [exact HC|]. split; [apply C39_lbfgs_ex_pf|].
  intros P ui st0 s Hi k.
  destruct (C85_rate_pf unit P 1 3 (1/100) 2 8 cholesky_solve (fun _ => quad2_grad) (fun v => (quad2 v, tt)) 2%nat quad2 quad2_grad [5; -3] [0; 0] (fun _ => 0) (fun _ => tt) ui st0
    ltac:(lra) ltac:(lia) ltac:(lra) ltac:(rewrite QA; lra) HS HC (fun _ => eq_refl) (fun _ => eq_refl) (C39_lbfgs_ex_pf 2) eq_refl eq_refl HM Hi) as (_ & Q).
  specialize (Q k). rewrite QC in Q.
  assert (E0 : quad2 [0; 0] = 0) by (cbn; ring). assert (E1 : quad2 [5; -3] = 19) by (cbn; ring).
  rewrite E0, E1, !Rminus_0_r in Q. exact Q.
Qed.

Example C85_converges_ex_pf : forall P use_inverse st0,
    let s := LBFGS (N:=RN) (Aux:=unit) P (fun _ => quad2_grad) cholesky_solve (1/100) 2 use_inverse in
    s_init s (fun v => (quad2 v, tt)) [5; -3] (fun _ => 0) (fun _ => tt) = Ret st0 ->
    forall tau, 0 < tau -> exists K, forall k, (K <= k)%nat -> quad2 (y_at s (fun v => (quad2 v, tt)) [5; -3] st0 tt k) <= tau.
Proof.
  intros P ui st0 s Hi tau T0. destruct quad2_facts as (HS & HC & HM).
  destruct (C85_converges_pf unit P 1 3 (1/100) 2 cholesky_solve (fun _ => quad2_grad) (fun v => (quad2 v, tt)) 2%nat quad2 quad2_grad [5; -3] [0; 0] (fun _ => 0) (fun _ => tt) ui st0
    ltac:(lra) ltac:(lia) ltac:(lra) HS HC (fun _ => eq_refl) (fun _ => eq_refl) (C39_lbfgs_ex_pf 2) eq_refl eq_refl HM Hi) as (_ & _ & Q).
  destruct (Q tau T0) as [K HK]. exists K. intros k Hk. destruct (HK k Hk) as [X _].
  assert (E0 : quad2 [0; 0] = 0) by (cbn; ring). rewrite E0, Rminus_0_r in X. exact X.
Qed.

Example C85_terminates_ex_pf : forall use_inverse,
    let s := LBFGS (N:=RN) (Aux:=unit) (mkTols (1/1000) (1/1000) max_norm) (fun _ => quad2_grad) cholesky_solve (1/100) 2 use_inverse in
    exists K, (1 - / 12150) ^ K * 19 < / 810000000 /\
    exists k, (k <= (K + 1) * 9 + 1)%nat /\ forall fuel throw, (k < fuel)%nat ->
      exists sol, iterative_solve (vallfinite (N:=RN)) s (fun v => (quad2 v, tt)) fuel None throw [5; -3] (fun _ => 0) (fun _ => tt) = Ret sol /\
        result sol = successful /\ quad2 (value sol) <= 19.
Proof.
  intros ui s. destruct quad2_facts as (HS & HC & HM). destruct quad2_bounds as (QA & QB & QC).
  assert (E0 : quad2 [0; 0] = 0) by (cbn; ring). assert (E5 : quad2 [5; -3] = 19) by (cbn; ring).
  destruct (pow_lt_1_zero (1 - / 12150) ltac:(rewrite Rabs_pos_eq; lra) (/ 810000000 / 19) ltac:(lra)) as [K HK].
  specialize (HK K (le_n K)). rewrite Rabs_pos_eq in HK by (apply pow_le; lra).
  assert (HK' : (1 - / 12150) ^ K * 19 < / 810000000) by lra. exists K. split; [exact HK'|].
  destruct (C85_terminates_pf unit (1/1000) (1/1000) 1 3 (1/100) 2 8 K cholesky_solve (fun _ => quad2_grad) (fun v => (quad2 v, tt)) 2%nat quad2 quad2_grad [5; -3] [0; 0] (fun _ => 0) (fun _ => tt) ui
    ltac:(lra) ltac:(lia) ltac:(lra) ltac:(lra) ltac:(lra) ltac:(rewrite QA; lra)
    ltac:(rewrite QA, QC, E0, E5, Rminus_0_r; apply Rmin_glb_lt; lra) HS HC (fun _ => eq_refl) (fun _ => eq_refl) (C39_lbfgs_ex_pf 2) eq_refl eq_refl HM) as (k & Kb & HKk).
  exists k. split; [exact Kb|]. intros fuel throw Hfu. destruct (HKk fuel None throw Hfu ltac:(discriminate)) as (sol & E1 & E2 & E3 & _).
  exists sol. split; [exact E1|]. split; [exact E2|]. rewrite <- E5. exact E3.
Qed.
