(** Global, linear convergence of BFGS on smooth strongly convex problems (C84). *)

From Coq Require Import String List Bool Arith Lia ZArith QArith Qreals Reals Lra Psatz.
From Verif Require Import Num NumFacts Vec Results Iterate Spec_Iterate Iterate_proofs.
From Verif Require Import Spec_Vec VecFacts Spec_Lin LinFacts.
From Verif Require Import Search Spec_Search Descent Minimisers QuasiNewton Solvers Minimisers_proofs Progress_proofs TrustRegion_proofs LeastSquares_proofs BFGS_proofs QNRun_proofs.
From Verif Require Import Spec_Steps Steps_proofs LogDet Spec_BFGSConv Convergence_proofs Cholesky.
From Verif Require DoglegConv_proofs.
Import ListNotations.
Local Open Scope R_scope.

Lemma sub_add : forall n (x d : list R), length x = n -> length d = n -> Rsub_v (Radd_v x d) x = d.
Proof.
  intros n x d Lx Ld. rewrite <- vadd_RN, <- vsub_RN. apply vsub_vadd. congruence.
Qed.
Lemma add_sub : forall n (x z : list R), length x = n -> length z = n -> Radd_v x (Rsub_v z x) = z.
Proof.
  intros n x. revert n. induction x as [|a x IH]; intros n [|b z] Lx Lz; cbn in *; try congruence; try lia; try reflexivity.
  f_equal; [ring|]. apply (IH (length x)); lia.
Qed.
Lemma dot_opp : forall n (x z : list R), length x = n -> length z = n ->
  forall u, Rdot u (Rsub_v z x) = - Rdot u (Rsub_v x z).
Proof. intros n x z Lx Lz u. rewrite !Rdot_sub_r by congruence. ring. Qed.

(** ** Smooth strongly convex functions *)
Section Convex.
  Variables (n : nat) (m L : R) (f : list R -> R) (g : list R -> list R).
  Hypothesis Hm : 0 < m.
  Hypothesis HL : 0 < L.
  Hypothesis HS : smooth n L f g.
  Hypothesis HC : strongly_convex n m f g.

  Lemma curvature : forall x d, length x = n -> length d = n ->
    m * Rdot d d <= Rdot (Rsub_v (g (Radd_v x d)) (g x)) d.
  Proof.
    intros x d Lx Ld. assert (Lxd : length (Radd_v x d) = n) by (apply Radd_v_length; assumption).
    pose proof (HC x d Lx Ld) as H1. pose proof (HC (Radd_v x d) (Rscal (-1) d) Lxd ltac:(rewrite Rscal_length; exact Ld)) as H2.
    assert (E : Radd_v (Radd_v x d) (Rscal (-1) d) = x).
    { clear - Lx Ld. revert d n Lx Ld. induction x as [|a x IH]; intros [|b d] n Lx Ld; cbn in *; try congruence; try lia; auto.
      f_equal; [ring|]. apply (IH d (length x)); lia. }
    rewrite E, Rdot_scal_r, Rdot_scal_l, Rdot_scal_r in H2.
    rewrite Rdot_sub_l by (rewrite !(proj1 HS) by assumption; reflexivity). lra.
  Qed.

  (** f(z) >= f(x) + g(x).(z-x) + |g(z)-g(x)|^2 / (2L) *)
  Lemma above_tangent : forall x z, length x = n -> length z = n ->
    f x + Rdot (g x) (Rsub_v z x) + / (2 * L) * Rdot (Rsub_v (g z) (g x)) (Rsub_v (g z) (g x)) <= f z.
  Proof.
    intros x z Lx Lz. pose proof (proj1 HS x Lx) as LGx. pose proof (proj1 HS z Lz) as LGz.
    set (w := Rsub_v (g z) (g x)). assert (Lw : length w = n) by (apply Rsub_v_length; assumption).
    set (e := Rscal (- / L) w). assert (Le : length e = n) by (unfold e; rewrite Rscal_length; exact Lw).
    pose proof (proj2 HS z e Lz Le) as U.
    assert (Lze : length (Radd_v z e) = n) by (apply Radd_v_length; assumption).
    assert (Ld : length (Rsub_v (Radd_v z e) x) = n) by (apply Rsub_v_length; assumption).
    pose proof (HC x (Rsub_v (Radd_v z e) x) Lx Ld) as C. rewrite (add_sub n) in C by assumption.
    pose proof (Rdot_pos (Rsub_v (Radd_v z e) x)) as P0.
    assert (0 <= m / 2 * Rdot (Rsub_v (Radd_v z e) x) (Rsub_v (Radd_v z e) x)) by (apply Rmult_le_pos; lra).
    assert (E1 : Rdot (g x) (Rsub_v (Radd_v z e) x) = Rdot (g x) (Rsub_v z x) + Rdot (g x) e).
    { rewrite !Rdot_sub_r, Rdot_add_r by congruence. ring. }
    assert (E2 : Rdot (g z) e - Rdot (g x) e = - / L * Rdot w w).
    { rewrite <- Rdot_sub_l by congruence. fold w. unfold e. rewrite Rdot_scal_r. reflexivity. }
    assert (E3 : L / 2 * Rdot e e = / (2 * L) * Rdot w w).
    { unfold e. rewrite Rdot_scal_l, Rdot_scal_r. field. lra. }
    assert (E4 : / (2 * L) = / L / 2) by (field; lra). rewrite E4 in *.
    rewrite E1 in C. rewrite E3 in U. lra.
  Qed.

  Lemma cocoercive : forall x d, length x = n -> length d = n ->
    let w := Rsub_v (g (Radd_v x d)) (g x) in Rdot w w <= L * Rdot w d.
  Proof.
    intros x d Lx Ld w. assert (Lxd : length (Radd_v x d) = n) by (apply Radd_v_length; assumption).
    pose proof (proj1 HS x Lx) as LG. pose proof (proj1 HS _ Lxd) as LG'.
    pose proof (above_tangent x (Radd_v x d) Lx Lxd) as H1. pose proof (above_tangent (Radd_v x d) x Lxd Lx) as H2.
    rewrite (dot_opp n (Radd_v x d) x Lxd Lx) in H2. rewrite (sub_add n x d Lx Ld) in H1, H2.
    fold w in H1. assert (E : Rdot (Rsub_v (g x) (g (Radd_v x d))) (Rsub_v (g x) (g (Radd_v x d))) = Rdot w w).
    { rewrite (dot_opp n _ _ LG' LG). rewrite Rdot_comm, (dot_opp n _ _ LG' LG). fold w. ring. }
    rewrite E in H2.
    assert (E2 : Rdot w d = Rdot (g (Radd_v x d)) d - Rdot (g x) d) by (unfold w; rewrite Rdot_sub_l by congruence; reflexivity).
    assert (K : / L * Rdot w w <= Rdot w d).
    { rewrite E2. replace (/ L) with (/ (2 * L) + / (2 * L)) by (field; lra). lra. }
    apply (Rmult_le_compat_l L) in K; [|lra]. rewrite <- Rmult_assoc, Rinv_r, Rmult_1_l in K by lra. exact K.
  Qed.

  (** The gradient bounds the excess over any value *)
  Lemma gradient_dominates : forall x z, length x = n -> length z = n -> 2 * m * (f x - f z) <= Rdot (g x) (g x).
  Proof.
    intros x z Lx Lz. assert (Ld : length (Rsub_v z x) = n) by (apply Rsub_v_length; assumption).
    pose proof (HC x (Rsub_v z x) Lx Ld) as C. rewrite (add_sub n) in C by assumption.
    set (d := Rsub_v z x) in *. pose proof (proj1 HS x Lx) as LG.
    pose proof (Rdot_pos (Radd_v (g x) (Rscal m d))) as Q.
    rewrite sq_add in Q by (rewrite Rscal_length; congruence). rewrite Rdot_scal_l, !Rdot_scal_r in Q. nra.
  Qed.

  Lemma m_le_L : forall x d : list R, length x = n -> length d = n -> 0 < Rdot d d -> m <= L.
  Proof.
    intros x d Lx Ld P. pose proof (HC x d Lx Ld). pose proof (proj2 HS x d Lx Ld).
    apply (Rmult_le_reg_r (Rdot d d)); [exact P|]. lra.
  Qed.
End Convex.

Fixpoint count (b : nat -> bool) (k : nat) : nat :=
  match k with O => O | S j => (count b j + if b j then 1 else 0)%nat end.

Lemma ln_half : forall z, 0 < z -> ln z <= z / 2.
Proof.
  intros z Hz. pose proof (ln_le_sub1 (z / 2) ltac:(lra)) as H. unfold Rdiv in H at 1. rewrite ln_mult, ln_Rinv in H by lra.
  assert (ln 2 <= 1) by (pose proof (ln_le_sub1 2); lra). lra.
Qed.

(** ** The run, as sequences *)
Section Seq.
  Variables (n : nat) (m L eps : R) (f : list R -> R) (g : list R -> list R).
  Hypothesis Hm : 0 < m.
  Hypothesis HL : 0 < L.
  Hypothesis He : 0 <= eps.
  Hypothesis HS : smooth n L f g.
  Hypothesis HC : strongly_convex n m f g.
  Variables (y : nat -> list R) (t : nat -> R) (B : nat -> list (list R)) (h : nat -> list R) (acc : nat -> bool).
  Hypothesis Ly : forall k, length (y k) = n.
  Hypothesis Lh : forall k, length (h k) = n.
  Hypothesis RB : forall k, exists H, spd n H /\ spd n (B k) /\ inverses n H (B k).
  Hypothesis Rdir : forall k, mvec (B k) (h k) = g (y k).
  Hypothesis t0 : t 0%nat = 1.
  Hypothesis B0 : B 0%nat = identity_mat (N:=RN) n.
  Hypothesis Rstep : forall k,
    (acc k = true /\ f (y (S k)) <= f (y k) - 1 / 10 * t k * Rdot (g (y k)) (h k) /\
     y (S k) = Radd_v (y k) (Rscal (- t k) (h k)) /\ t (S k) = 1 /\
     B (S k) = newB false eps (Rsub_v (g (y (S k))) (g (y k))) (Rsub_v (y (S k)) (y k)) (B k)) \/
    (acc k = false /\ f (y k) - 1 / 10 * t k * Rdot (g (y k)) (h k) < f (Radd_v (y k) (Rscal (- t k) (h k))) /\
     y (S k) = y k /\ t (S k) = / 2 * t k /\ B (S k) = B k /\ h (S k) = h k).

  Let a k := Rdot (g (y k)) (h k).
  Let hh k := Rdot (h k) (h k).
  Let gg k := Rdot (g (y k)) (g (y k)).
  Let w k := - (gg k / a k) + ln (a k / hh k).
  Let psi k := trace n (mform (B k)) - logdet n (mform (B k)) - INR n.

  Lemma SB : forall k, spd n (B k).
  Proof. intro k. destruct (RB k) as (H & _ & S & _). exact S. Qed.
  Lemma Lg : forall k, length (g (y k)) = n.
  Proof. intro k. apply (proj1 HS), Ly. Qed.
  Lemma aB : forall k, a k = Rdot (h k) (mvec (B k) (h k)).
  Proof. intro k. unfold a. rewrite Rdir. apply Rdot_comm. Qed.
  Lemma a_nonneg : forall k, 0 <= a k.
  Proof.
    intro k. rewrite aB. destruct (list_eq_dec Req_EM_T (h k) (zerov n)) as [E|N]; [rewrite E, Rdot_0_l; lra|].
    left. apply (SB k); [apply Lh|exact N].
  Qed.
  Lemma t_pos : forall k, 0 < t k <= 1.
  Proof.
    induction k as [|k IH]; [rewrite t0; lra|].
    destruct (Rstep k) as [(_ & _ & _ & -> & _)|(_ & _ & _ & -> & _)]; lra.
  Qed.
  Lemma h_nz : forall k, 0 < gg k -> h k <> zerov n.
  Proof. intros k P E. unfold gg in P. rewrite <- Rdir, E, mvec_0, Rdot_0_r in P. lra. Qed.
  Lemma a_pos : forall k, 0 < gg k -> 0 < a k.
  Proof. intros k P. rewrite aB. apply (SB k); [apply Lh|apply h_nz; exact P]. Qed.
  Lemma hh_pos : forall k, 0 < gg k -> 0 < hh k.
  Proof.
    intros k P. destruct (Rdot_pos (h k)) as [Q|Q]; [exact Q|]. symmetry in Q. apply Rdot_0_inv in Q.
    rewrite Lh in Q. contradiction (h_nz k P Q).
  Qed.
  Lemma a_CS : forall k, a k * a k <= hh k * gg k.
  Proof.
    intro k. unfold a, hh, gg. pose proof (DoglegConv_proofs.Rdot_CS (g (y k)) (h k) (eq_trans (Lg k) (eq_sym (Lh k)))) as C.
    rewrite (Rmult_comm (Rdot (h k) (h k))). exact C.
  Qed.

  Lemma t_low : forall k, t k = 1 \/ 9 / 10 * a k <= L * t k * hh k.
  Proof.
    induction k as [|k IH]; [left; exact t0|].
    destruct (Rstep k) as [(_ & _ & _ & -> & _)|(_ & Q & E1 & E2 & _ & E4)]; [left; reflexivity|right].
    unfold a, hh. rewrite E1, E2, E4. fold (a k) (hh k). fold (a k) in Q.
    pose proof (proj2 HS (y k) (Rscal (- t k) (h k)) (Ly k) ltac:(rewrite Rscal_length; apply Lh)) as U.
    rewrite Rdot_scal_r, Rdot_scal_l, Rdot_scal_r in U. fold (a k) (hh k) in U. pose proof (t_pos k) as T.
    apply (Rmult_le_reg_l (t k)); [apply T|]. lra.
  Qed.

  Lemma w_le : forall k, 0 < gg k -> w k <= -1.
  Proof.
    intros k P. unfold w. pose proof (a_pos k P) as A. pose proof (hh_pos k P) as Hh. pose proof (a_CS k) as C.
    assert (Q : 0 < a k / hh k) by (apply Rdiv_lt_0_compat; assumption).
    assert (Z : a k / hh k <= gg k / a k).
    { apply (Rmult_le_reg_r (hh k * a k)); [apply Rmult_lt_0_compat; assumption|].
      replace (a k / hh k * (hh k * a k)) with (a k * a k) by (field; lra).
      replace (gg k / a k * (hh k * a k)) with (hh k * gg k) by (field; lra). exact C. }
    pose proof (ln_le_sub1 (a k / hh k) Q). lra.
  Qed.

  Let kap := 1 / 10 * Rmin 1 (9 / (10 * L)).
  Lemma kap_pos : 0 < kap.
  Proof. unfold kap. apply Rmult_lt_0_compat; [lra|]. apply Rmin_glb_lt; [lra|]. apply Rdiv_lt_0_compat; lra. Qed.

  Lemma decrease_good : forall k A, acc k = true -> 0 < gg k -> 0 < A -> - A <= w k ->
    f (y (S k)) <= f (y k) - kap * (exp (- A) / (2 * A)) * gg k.
  Proof.
    intros k A Ac P A0 W. destruct (Rstep k) as [(_ & D & _)|(Z & _)]; [|congruence]. fold (a k) in D.
    eapply Rle_trans; [exact D|]. apply Rplus_le_compat_l, Ropp_le_contravar.
    pose proof (a_pos k P) as Ap. pose proof (hh_pos k P) as Hh. pose proof (w_le k P) as W1.
    set (z := gg k / a k). set (q := a k / hh k).
    assert (Z0 : 0 < z) by (apply Rdiv_lt_0_compat; assumption).
    assert (Q0 : 0 < q) by (apply Rdiv_lt_0_compat; assumption).
    assert (W' : - A <= - z + ln q) by exact W.
    assert (QZ : q <= z).
    { apply (Rmult_le_reg_r (hh k * a k)); [apply Rmult_lt_0_compat; assumption|]. unfold q, z.
      replace (a k / hh k * (hh k * a k)) with (a k * a k) by (field; lra).
      replace (gg k / a k * (hh k * a k)) with (hh k * gg k) by (field; lra). apply a_CS. }
    assert (LQ : ln q <= ln z) by (destruct QZ as [QZ|QZ]; [left; apply ln_increasing; assumption|rewrite QZ; lra]).
    pose proof (ln_half z Z0) as LZ.
    assert (ZA : z <= 2 * A) by lra.
    assert (EQ : exp (- A) <= q).
    { rewrite <- (exp_ln q Q0). destruct (Req_dec (- A) (ln q)) as [->|N]; [lra|]. left. apply exp_increasing. lra. }
    assert (E1 : exp (- A) <= 1).
    { rewrite <- exp_0. left. apply exp_increasing. lra. }
    assert (E0 : 0 < exp (- A)) by apply exp_pos.
    assert (G : gg k = a k * z) by (unfold z; field; lra).
    assert (KK : exp (- A) / (2 * A) * gg k <= exp (- A) * a k).
    { rewrite G. replace (exp (- A) / (2 * A) * (a k * z)) with (exp (- A) * a k * (z / (2 * A))) by (field; lra).
      rewrite <- (Rmult_1_r (exp (- A) * a k)) at 2. apply Rmult_le_compat_l; [apply Rmult_le_pos; lra|].
      apply (Rmult_le_reg_r (2 * A)); [lra|]. unfold Rdiv. rewrite Rmult_assoc, Rinv_l by lra. lra. }
    pose proof (Rmin_l 1 (9 / (10 * L))) as M1. pose proof (Rmin_r 1 (9 / (10 * L))) as M2.
    assert (M0 : 0 < Rmin 1 (9 / (10 * L))) by (apply Rmin_glb_lt; [lra|apply Rdiv_lt_0_compat; lra]).
    rewrite Rmult_assoc. unfold kap. set (r := Rmin 1 (9 / (10 * L))) in *.
    assert (goal : r * (exp (- A) * a k) <= t k * a k).
    { pose proof (Rmult_lt_0_compat _ _ E0 Ap) as EA.
      destruct (t_low k) as [->|T].
      - rewrite Rmult_1_l. apply (Rle_trans _ (1 * (1 * a k))); [|lra].
        apply Rmult_le_compat; [lra|lra|exact M1|]. apply Rmult_le_compat_r; lra.
      - rewrite <- Rmult_assoc. apply Rmult_le_compat_r; [lra|].
        assert (T' : 9 / (10 * L) * q <= t k).
        { unfold q. apply (Rmult_le_reg_r (L * hh k)); [apply Rmult_lt_0_compat; assumption|].
          replace (9 / (10 * L) * (a k / hh k) * (L * hh k)) with (9 / 10 * a k) by (field; lra). lra. }
        eapply Rle_trans; [|exact T']. apply Rmult_le_compat; lra. }
    assert (r * (exp (- A) / (2 * A) * gg k) <= r * (exp (- A) * a k)) by (apply Rmult_le_compat_l; lra).
    lra.
  Qed.

  Lemma psi_nonneg : forall k, 0 <= psi k.
  Proof. intro k. unfold psi. pose proof (logdet_le n _ (mform_good n _ (SB k))). lra. Qed.
  Lemma psi_0 : psi 0%nat = 0.
  Proof. unfold psi. rewrite B0, trace_identity, logdet_identity. ring. Qed.

  Lemma w_ge : forall k, 0 < gg k -> - (1 + psi k) <= w k.
  Proof.
    intros k P. destruct (RB k) as (H & S1 & S2 & HI). pose proof (hh_pos k P) as Hh. pose proof (a_pos k P) as Ap.
    assert (Hi : 0 < Rdot (h k) (h k)) by exact Hh.
    pose proof (upd_trace n (B k) (h k) (h k) S2 (Lh k)) as T.
    pose proof (upd_logdet n (B k) H (h k) (h k) S2 S1 HI (Lh k) (Lh k) Hi) as D.
    assert (SB' : spd n (bfgs_direct (N:=RN) (Rdot (h k) (h k)) (h k) (h k) (B k))).
    { apply D_spd; auto; apply S2. }
    pose proof (logdet_le n _ (mform_good n _ SB')) as K. rewrite T, D in K.
    rewrite Rdir in K. rewrite (Rdot_comm (h k) (g (y k))) in K. fold (a k) (hh k) (gg k) in K.
    replace (hh k / hh k) with 1 in K by (field; lra). unfold w, psi.
    assert (E : ln (a k / hh k) = ln (a k) - ln (hh k)).
    { unfold Rdiv. rewrite ln_mult, ln_Rinv; try lra. apply Rinv_0_lt_compat. exact Hh. }
    rewrite E. lra.
  Qed.

  (** The step and the change of gradient *)
  Lemma step_facts : forall k, acc k = true ->
    let s := Rsub_v (y (S k)) (y k) in let d := Rsub_v (g (y (S k))) (g (y k)) in
    s = Rscal (- t k) (h k) /\ length s = n /\ length d = n /\ Rdot s s = t k * t k * hh k /\
    m * Rdot s s <= Rdot d s /\ Rdot d d <= L * Rdot d s /\ Rdot d s <= L * Rdot s s /\
    m / 18 * Rdot s s <= f (y k) - f (y (S k)).
  Proof.
    intros k Ac s d. destruct (Rstep k) as [(_ & D & E & _)|(Z & _)]; [|congruence].
    assert (Lt : length (Rscal (- t k) (h k)) = n) by (rewrite Rscal_length; apply Lh).
    assert (Es : s = Rscal (- t k) (h k)) by (unfold s; rewrite E; apply (sub_add n); auto).
    assert (Ls : length s = n) by (rewrite Es; exact Lt).
    assert (Ey : y (S k) = Radd_v (y k) s) by (rewrite Es; exact E).
    assert (Ld : length d = n) by (apply Rsub_v_length; apply Lg).
    assert (S2 : Rdot s s = t k * t k * hh k) by (rewrite Es, Rdot_scal_l, Rdot_scal_r; unfold hh; ring).
    split; [exact Es|]. split; [exact Ls|]. split; [exact Ld|]. split; [exact S2|].
    assert (C1 : m * Rdot s s <= Rdot d s).
    { unfold d. rewrite Ey. apply (curvature n m L f); auto. }
    assert (C2 : Rdot d d <= L * Rdot d s).
    { unfold d. rewrite Ey. apply (cocoercive n m L f g Hm HL HS HC (y k) s); auto. }
    split; [exact C1|]. split; [exact C2|]. split.
    - pose proof (DoglegConv_proofs.Rdot_CS d s (eq_trans Ld (eq_sym Ls))) as CS. pose proof (Rdot_pos s) as P. pose proof (Rdot_pos d).
      assert (0 <= m * Rdot s s) by (apply Rmult_le_pos; lra).
      destruct (Req_dec (Rdot d s) 0) as [Z|N]; [rewrite Z; apply Rmult_le_pos; lra|].
      apply (Rmult_le_reg_l (Rdot d s)); [lra|]. eapply Rle_trans; [exact CS|].
      replace (Rdot d s * (L * Rdot s s)) with (L * Rdot d s * Rdot s s) by ring. apply Rmult_le_compat_r; lra.
    - pose proof (HC (y k) s (Ly k) Ls) as C. rewrite <- Ey in C.
      assert (GS : Rdot (g (y k)) s = - t k * a k) by (rewrite Es, Rdot_scal_r; reflexivity).
      rewrite GS in C. fold (a k) in D. lra.
  Qed.

  Lemma psi_update : forall k, acc k = true -> 0 < gg k ->
    eps < Rdot (Rsub_v (g (y (S k))) (g (y k))) (Rsub_v (y (S k)) (y k)) ->
    psi (S k) <= psi k + (L - ln m) + w k.
  Proof.
    intros k Ac P HE. destruct (step_facts k Ac) as (Es & Ls & Ld & S2 & C1 & C2 & C3 & _).
    set (s := Rsub_v (y (S k)) (y k)) in *. set (d := Rsub_v (g (y (S k))) (g (y k))) in *.
    destruct (Rstep k) as [(_ & _ & _ & _ & EB)|(Z & _)]; [|congruence].
    fold d s in EB. unfold newB in EB. assert (RT : Rltb eps (Rdot d s) = true) by (apply Rltb_true; exact HE).
    rewrite RT in EB. rewrite (Rdot_comm d s) in *.
    destruct (RB k) as (H & S1 & SBk & HI). assert (I0 : 0 < Rdot s d) by lra.
    unfold psi. rewrite EB, (upd_trace n (B k) d s SBk Ld), (upd_logdet n (B k) H d s SBk S1 HI Ld Ls I0).
    assert (EBs : mvec (B k) s = Rscal (- t k) (g (y k))) by (rewrite Es, mvec_scal, Rdir; reflexivity).
    assert (E1 : Rdot (mvec (B k) s) (mvec (B k) s) = t k * t k * gg k).
    { rewrite EBs, Rdot_scal_l, Rdot_scal_r. unfold gg. ring. }
    assert (E2 : Rdot s (mvec (B k) s) = t k * t k * a k).
    { rewrite EBs, Es, Rdot_scal_l, Rdot_scal_r, Rdot_comm. unfold a. ring. }
    rewrite E1, E2. pose proof (t_pos k) as T. pose proof (a_pos k P) as Ap. pose proof (hh_pos k P) as Hh.
    assert (T2 : 0 < t k * t k) by (apply Rmult_lt_0_compat; lra).
    replace (t k * t k * gg k / (t k * t k * a k)) with (gg k / a k) by (field; lra).
    assert (F1 : Rdot d d / Rdot s d <= L).
    { apply (Rmult_le_reg_r (Rdot s d)); [exact I0|]. unfold Rdiv. rewrite Rmult_assoc, Rinv_l by lra. lra. }
    assert (F2 : ln m + ln (t k * t k * hh k) <= ln (Rdot s d)).
    { assert (X0 : 0 < t k * t k * hh k) by (apply Rmult_lt_0_compat; assumption).
      rewrite <- ln_mult by assumption. rewrite S2 in C1.
      destruct C1 as [C1|C1]; [left; apply ln_increasing; [apply Rmult_lt_0_compat; assumption|exact C1]|rewrite C1; lra]. }
    rewrite (ln_mult (t k * t k) (a k)) by assumption. rewrite (ln_mult (t k * t k) (hh k)) in F2 by assumption.
    assert (E : ln (a k / hh k) = ln (a k) - ln (hh k)).
    { unfold Rdiv. rewrite ln_mult, ln_Rinv; try lra. apply Rinv_0_lt_compat. exact Hh. }
    unfold w. rewrite E. lra.
  Qed.

  Lemma psi_same : forall k, acc k = false \/
    ~ eps < Rdot (Rsub_v (g (y (S k))) (g (y k))) (Rsub_v (y (S k)) (y k)) -> psi (S k) = psi k.
  Proof.
    intros k H. unfold psi. replace (B (S k)) with (B k); [reflexivity|].
    destruct (Rstep k) as [(E & _ & _ & _ & EB)|(_ & _ & _ & _ & EB & _)]; [|congruence].
    destruct H as [H|H]; [congruence|]. rewrite EB. unfold newB.
    match goal with |- context [Rltb ?u ?v] => assert (X : Rltb u v = false) by (apply Rltb_false; lra); rewrite X end. reflexivity.
  Qed.

  Lemma descends : forall k, f (y (S k)) <= f (y k).
  Proof.
    intro k. destruct (Rstep k) as [(_ & D & _)|(_ & _ & E & _)]; [|rewrite E; lra].
    fold (a k) in D. pose proof (a_nonneg k). pose proof (t_pos k).
    assert (0 <= 1 / 10 * t k * a k) by (apply Rmult_le_pos; lra). lra.
  Qed.

  (** ** The rate *)
  Variable xs : list R.
  Hypothesis Lxs : length xs = n.
  Hypothesis Gxs : g xs = zerov n.
  Let V k := f (y k) - f xs.
  Lemma V_nonneg : forall k, 0 <= V k.
  Proof.
    intro k. unfold V. pose proof (gradient_dominates n m L f g Hm HS HC xs (y k) Lxs (Ly k)) as D.
    rewrite Gxs, Rdot_0_l in D. apply Rnot_lt_le. intro Q.
    assert (0 < 2 * m * (f xs - f (y k))); [|lra]. apply Rmult_lt_0_compat; lra.
  Qed.
  Lemma gg_V : forall k, 2 * m * V k <= gg k.
  Proof. intro k. unfold V, gg. apply (gradient_dominates n m L); auto. Qed.

  Definition factor (A : R) : R := Rmin (/ 2) (kap * (exp (- A) / (2 * A)) * (2 * m)).
  Lemma factor_range : forall A, 0 < A -> 0 < factor A <= / 2.
  Proof.
    intros A A0. unfold factor. split; [|apply Rmin_l]. apply Rmin_glb_lt; [lra|].
    pose proof kap_pos as KP. pose proof (exp_pos (- A)).
    apply Rmult_lt_0_compat; [apply Rmult_lt_0_compat; [exact KP|apply Rdiv_lt_0_compat; lra]|lra].
  Qed.
  Lemma good_contracts : forall k A, acc k = true -> 0 < gg k -> 0 < A -> - A <= w k ->
    V (S k) <= (1 - factor A) * V k.
  Proof.
    intros k A Ac P A0 W. pose proof (decrease_good k A Ac P A0 W) as D. pose proof (gg_V k) as GV. pose proof (V_nonneg k) as V0.
    pose proof kap_pos as KP. pose proof (exp_pos (- A)) as EP.
    assert (X0 : 0 < kap * (exp (- A) / (2 * A))).
    { apply Rmult_lt_0_compat; [exact KP|]. apply Rdiv_lt_0_compat; lra. }
    assert (factor A * V k <= kap * (exp (- A) / (2 * A)) * gg k).
    { apply (Rle_trans _ (kap * (exp (- A) / (2 * A)) * (2 * m) * V k)).
      - apply Rmult_le_compat_r; [exact V0|apply Rmin_r].
      - rewrite (Rmult_assoc _ (2 * m)). apply Rmult_le_compat_l; lra. }
    unfold V in *. lra.
  Qed.

  Lemma V_zero_stays : forall k j, V k <= 0 -> V (k + j)%nat <= 0.
  Proof.
    intros k j H. induction j as [|j IH]; [rewrite Nat.add_0_r; exact H|].
    rewrite Nat.add_succ_r. pose proof (descends (k + j)). unfold V in *. lra.
  Qed.

  Let C := Rmax 1 (L - ln m).

  (** eps = 0: every accepted step is an update, and at least half of them are good *)
  Lemma rate_eps0 : eps = 0 -> forall k, V k <= 0 \/ exists G b, count acc k = (G + b)%nat /\
    V k <= (1 - factor (2 * C)) ^ G * V 0%nat /\ psi k <= INR (G + b) * C - INR b * (2 * C).
  Proof.
    intros E0. assert (C1 : 1 <= C) by apply Rmax_l. assert (C2 : L - ln m <= C) by apply Rmax_r.
    pose proof (factor_range (2 * C) ltac:(lra)) as FR.
    induction k as [|k [IH|(G & b & I1 & I2 & I3)]].
    - right. exists 0%nat, 0%nat. cbn. rewrite psi_0. split; [reflexivity|]. lra.
    - left. pose proof (descends k). unfold V in *. lra.
    - destruct (Rle_dec (V k) 0) as [Z|NZ]; [left; pose proof (descends k); unfold V in *; lra|]. right.
      assert (P : 0 < gg k).
      { eapply Rlt_le_trans; [|apply gg_V]. apply Rmult_lt_0_compat; lra. }
      cbn [count]. destruct (acc k) eqn:Ac.
      + assert (HE : eps < Rdot (Rsub_v (g (y (S k))) (g (y k))) (Rsub_v (y (S k)) (y k))).
        { destruct (step_facts k Ac) as (_ & _ & _ & S2 & K1 & _). rewrite E0.
          eapply Rlt_le_trans; [|exact K1]. rewrite S2. pose proof (t_pos k). pose proof (hh_pos k P).
          repeat apply Rmult_lt_0_compat; lra. }
        pose proof (psi_update k Ac P HE) as PU. pose proof (w_le k P) as W1.
        destruct (Rle_dec (- (2 * C)) (w k)) as [W|W].
        * exists (S G), b. split; [lia|]. pose proof (good_contracts k (2 * C) Ac P ltac:(lra) W) as GC. split.
          { eapply Rle_trans; [exact GC|]. cbn [pow]. rewrite Rmult_assoc. apply Rmult_le_compat_l; lra. }
          { cbn [Nat.add]. rewrite S_INR. lra. }
        * exists G, (S b). split; [lia|]. split.
          { pose proof (descends k). unfold V in *. lra. }
          { rewrite Nat.add_succ_r, !S_INR. lra. }
      + exists G, b. rewrite (psi_same k (or_introl Ac)). split; [lia|]. split; [|exact I3].
        pose proof (descends k). unfold V in *. lra.
  Qed.

  Lemma sqrt_pow2 : forall c G, 0 <= c -> sqrt c ^ (2 * G) = c ^ G.
  Proof. intros c G Hc. rewrite pow_mult. f_equal. cbn. rewrite Rmult_1_r. apply sqrt_sqrt. exact Hc. Qed.

  Lemma pow_dec : forall c i j, 0 <= c <= 1 -> (i <= j)%nat -> c ^ j <= c ^ i.
  Proof.
    intros c i j Hc Hij. induction Hij as [|j Hij IH]; [lra|]. cbn [pow].
    assert (0 <= c ^ j) by (apply pow_le; lra). nra.
  Qed.

  (** eps > 0: few updates, so the matrices stay well conditioned *)
  Let delta := m / 18 * (eps / L).
  Variable Vb : R.
  Hypothesis HVb : V 0%nat <= Vb.
  Let bigpsi := Vb / delta * C.
  Lemma psi_bounded : 0 < eps -> forall k, V k <= 0 \/ exists U, INR U * delta <= V 0%nat - V k /\ psi k <= INR U * C.
  Proof.
    intros E0. assert (C1 : 1 <= C) by apply Rmax_l. assert (C2 : L - ln m <= C) by apply Rmax_r.
    assert (D0 : 0 < delta) by (unfold delta; apply Rmult_lt_0_compat; [lra|apply Rdiv_lt_0_compat; assumption]).
    induction k as [|k [IH|(U & I1 & I2)]].
    - right. exists 0%nat. cbn. rewrite psi_0. lra.
    - left. pose proof (descends k). unfold V in *. lra.
    - destruct (Rle_dec (V k) 0) as [Z|NZ]; [left; pose proof (descends k); unfold V in *; lra|]. right.
      assert (P : 0 < gg k).
      { eapply Rlt_le_trans; [|apply gg_V]. apply Rmult_lt_0_compat; lra. }
      pose proof (descends k) as DS.
      destruct (acc k) eqn:Ac.
      + destruct (Rlt_dec eps (Rdot (Rsub_v (g (y (S k))) (g (y k))) (Rsub_v (y (S k)) (y k)))) as [HE|HE].
        * exists (S U). pose proof (psi_update k Ac P HE) as PU. pose proof (w_le k P) as W1.
          destruct (step_facts k Ac) as (_ & _ & _ & _ & _ & _ & K3 & K4). rewrite S_INR. split; [|lra].
          assert (delta <= f (y k) - f (y (S k))); [|unfold V in *; lra].
          eapply Rle_trans; [|exact K4]. unfold delta. apply Rmult_le_compat_l; [lra|].
          apply (Rmult_le_reg_l L); [exact HL|]. replace (L * (eps / L)) with eps by (field; lra). lra.
        * exists U. rewrite (psi_same k (or_intror HE)). split; [unfold V in *; lra|exact I2].
      + exists U. rewrite (psi_same k (or_introl Ac)). split; [unfold V in *; lra|exact I2].
  Qed.

  Lemma rate_eps : 0 < eps -> forall k, V k <= (1 - factor (1 + bigpsi)) ^ (count acc k) * V 0%nat.
  Proof.
    intros E0. assert (C1 : 1 <= C) by apply Rmax_l.
    assert (D0 : 0 < delta) by (unfold delta; apply Rmult_lt_0_compat; [lra|apply Rdiv_lt_0_compat; assumption]).
    pose proof (V_nonneg 0) as V0.
    assert (BP : 0 <= bigpsi).
    { unfold bigpsi. apply Rmult_le_pos; [|lra]. apply Rmult_le_pos; [lra|]. left. apply Rinv_0_lt_compat. exact D0. }
    pose proof (factor_range (1 + bigpsi) ltac:(lra)) as FR.
    assert (PN : forall j, 0 <= (1 - factor (1 + bigpsi)) ^ j * V 0%nat).
    { intro j. apply Rmult_le_pos; [apply pow_le; lra|exact V0]. }
    induction k as [|k IH]; [cbn; lra|].
    destruct (Rle_dec (V k) 0) as [Z|NZ].
    { eapply Rle_trans; [|apply PN]. pose proof (descends k). unfold V in *. lra. }
    assert (P : 0 < gg k).
    { eapply Rlt_le_trans; [|apply gg_V]. apply Rmult_lt_0_compat; lra. }
    cbn [count]. destruct (acc k) eqn:Ac.
    - destruct (psi_bounded E0 k) as [Z|(U & I1 & I2)]; [lra|].
      assert (W : - (1 + bigpsi) <= w k).
      { eapply Rle_trans; [|apply w_ge; exact P]. apply Ropp_le_contravar, Rplus_le_compat_l.
        eapply Rle_trans; [exact I2|]. unfold bigpsi. apply Rmult_le_compat_r; [lra|].
        apply (Rmult_le_reg_r delta); [exact D0|]. unfold Rdiv. rewrite Rmult_assoc, Rinv_l by lra.
        pose proof (V_nonneg k). lra. }
      pose proof (good_contracts k (1 + bigpsi) Ac P ltac:(lra) W) as GC.
      rewrite Nat.add_1_r. cbn [pow]. eapply Rle_trans; [exact GC|]. rewrite Rmult_assoc. apply Rmult_le_compat_l; lra.
    - rewrite Nat.add_0_r. eapply Rle_trans; [|exact IH]. pose proof (descends k). unfold V. lra.
  Qed.

  Definition rho_of : R := if Rlt_dec 0 eps then 1 - factor (1 + bigpsi) else sqrt (1 - factor (2 * C)).
  Lemma rate : 0 <= rho_of < 1 /\ forall k, V k <= rho_of ^ (count acc k) * V 0%nat.
  Proof.
    assert (C1 : 1 <= C) by apply Rmax_l. pose proof (V_nonneg 0) as V0.
    unfold rho_of. destruct (Rlt_dec 0 eps) as [E|E].
    - split; [|apply rate_eps; exact E].
      assert (D0 : 0 < delta) by (unfold delta; apply Rmult_lt_0_compat; [lra|apply Rdiv_lt_0_compat; assumption]).
      assert (BP : 0 <= bigpsi).
      { unfold bigpsi. apply Rmult_le_pos; [|lra]. apply Rmult_le_pos; [lra|]. left. apply Rinv_0_lt_compat. exact D0. }
      pose proof (factor_range (1 + bigpsi) ltac:(lra)). lra.
    - pose proof (factor_range (2 * C) ltac:(lra)) as FR. set (c := 1 - factor (2 * C)) in *.
      assert (S1 : 0 <= sqrt c < 1).
      { split; [apply sqrt_pos|]. rewrite <- sqrt_1. apply sqrt_lt_1; unfold c; lra. }
      split; [exact S1|]. intro k.
      destruct (rate_eps0 (Rle_antisym _ _ (Rnot_lt_le _ _ E) He) k) as [Z|(G & b & I1 & I2 & I3)].
      + eapply Rle_trans; [exact Z|]. apply Rmult_le_pos; [apply pow_le; lra|exact V0].
      + eapply Rle_trans; [exact I2|]. apply Rmult_le_compat_r; [exact V0|].
        fold c. rewrite <- sqrt_pow2 by (unfold c; lra). apply pow_dec; [lra|].
        pose proof (psi_nonneg k) as PN. rewrite plus_INR in I3.
        assert (INR b <= INR G).
        { apply (Rmult_le_reg_r C); [lra|]. lra. }
        apply INR_le in H. lia.
  Qed.
End Seq.

Section Often.
  Variables (n : nat) (m L eps : R) (f : list R -> R) (g : list R -> list R).
  Hypothesis Hm : 0 < m.
  Hypothesis HL : 0 < L.
  Hypothesis He : 0 <= eps.
  Hypothesis HS : smooth n L f g.
  Hypothesis HC : strongly_convex n m f g.
  Variables (y : nat -> list R) (t : nat -> R) (B : nat -> list (list R)) (h : nat -> list R) (acc : nat -> bool).
  Hypothesis Ly : forall k, length (y k) = n.
  Hypothesis Lh : forall k, length (h k) = n.
  Hypothesis RB : forall k, exists H, spd n H /\ spd n (B k) /\ inverses n H (B k).
  Hypothesis Rdir : forall k, mvec (B k) (h k) = g (y k).
  Hypothesis t0 : t 0%nat = 1.
  Hypothesis B0 : B 0%nat = identity_mat (N:=RN) n.
  Hypothesis Rstep : forall k,
    (acc k = true /\ f (y (S k)) <= f (y k) - 1 / 10 * t k * Rdot (g (y k)) (h k) /\
     y (S k) = Radd_v (y k) (Rscal (- t k) (h k)) /\ t (S k) = 1 /\
     B (S k) = newB false eps (Rsub_v (g (y (S k))) (g (y k))) (Rsub_v (y (S k)) (y k)) (B k)) \/
    (acc k = false /\ f (y k) - 1 / 10 * t k * Rdot (g (y k)) (h k) < f (Radd_v (y k) (Rscal (- t k) (h k))) /\
     y (S k) = y k /\ t (S k) = / 2 * t k /\ B (S k) = B k /\ h (S k) = h k).

  Lemma accepts_again : forall k, exists j, (k <= j)%nat /\ acc j = true /\ y j = y k.
  Proof.
    intro k.
    pose proof (t_pos eps f g y t B h acc t0 Rstep k) as T.
    pose proof (a_nonneg n g y B h Lh RB Rdir k) as A.
    set (a := Rdot (g (y k)) (h k)) in *.
    assert (X : forall N, (exists j, (k <= j)%nat /\ acc j = true /\ y j = y k) \/
      (y (k + N)%nat = y k /\ h (k + N)%nat = h k /\ t (k + N)%nat = t k * (/ 2) ^ N)).
    { induction N as [|N [IH|(I1 & I2 & I3)]]; [right|left; exact IH|].
      - rewrite Nat.add_0_r. cbn. rewrite Rmult_1_r. auto.
      - destruct (Rstep (k + N)) as [(Ac & _)|(_ & _ & E1 & E2 & _ & E3)].
        + left. exists (k + N)%nat. split; [lia|]. auto.
        + right. rewrite Nat.add_succ_r. split; [congruence|]. split; [congruence|]. rewrite E2, I3. cbn. ring. }
    assert (Q : exists N, L * (t k * (/ 2) ^ N) * Rdot (h k) (h k) <= 18 / 10 * a).
    { destruct (Req_dec (Rdot (h k) (h k)) 0) as [Z|NZ].
      - exists 0%nat. rewrite Z, Rmult_0_r. lra.
      - assert (P : 0 < Rdot (h k) (h k)) by (pose proof (Rdot_pos (h k)); lra).
        assert (A0 : 0 < a).
        { unfold a. rewrite <- Rdir, Rdot_comm. destruct (RB k) as (H & _ & SBk & _). apply SBk; [apply Lh|].
          intro E. rewrite E, Rdot_0_l in NZ. lra. }
        set (D := L * t k * Rdot (h k) (h k)). assert (D0 : 0 < D) by (unfold D; repeat apply Rmult_lt_0_compat; lra).
        destruct (pow_lt_1_zero (/ 2) ltac:(rewrite Rabs_pos_eq; lra) (18 / 10 * a / D) ltac:(apply Rdiv_lt_0_compat; lra)) as [N HN].
        exists N. specialize (HN N ltac:(lia)). rewrite Rabs_pos_eq in HN by (apply pow_le; lra).
        apply (Rmult_lt_compat_l D) in HN; [|exact D0].
        replace (D * (18 / 10 * a / D)) with (18 / 10 * a) in HN by (field; lra). unfold D in HN. lra. }
    destruct Q as [N HN]. destruct (X N) as [?|(I1 & I2 & I3)]; [assumption|].
    destruct (Rstep (k + N)) as [(Ac & _)|(_ & R & _)].
    - exists (k + N)%nat. split; [lia|]. auto.
    - exfalso. rewrite I1, I2, I3 in R. fold a in R.
      pose proof (proj2 HS (y k) (Rscal (- (t k * (/ 2) ^ N)) (h k)) (Ly k) ltac:(rewrite Rscal_length; apply Lh)) as U.
      rewrite Rdot_scal_r, Rdot_scal_l, Rdot_scal_r in U. fold a in U.
      assert (T' : 0 < t k * (/ 2) ^ N) by (apply Rmult_lt_0_compat; [lra|apply pow_lt; lra]).
      set (u := t k * (/ 2) ^ N) in *.
      assert (u * (L * u * Rdot (h k) (h k)) <= u * (18 / 10 * a)) by (apply Rmult_le_compat_l; lra). lra.
  Qed.

  Lemma count_mono : forall i j, (i <= j)%nat -> (count acc i <= count acc j)%nat.
  Proof. intros i j H. induction H; [lia|]. cbn [count]. lia. Qed.
  Lemma count_grows : forall N, exists k, (N <= count acc k)%nat.
  Proof.
    induction N as [|N [k IH]]; [exists 0%nat; lia|]. destruct (accepts_again k) as (j & J1 & J2 & _).
    exists (S j). cbn [count]. rewrite J2. pose proof (count_mono k j J1). lia.
  Qed.

  Variable xs : list R.
  Hypothesis Lxs : length xs = n.
  Hypothesis Gxs : g xs = zerov n.

  Lemma converges : forall tau, 0 < tau -> exists K, forall k, (K <= k)%nat -> f (y k) - f xs <= tau.
  Proof.
    intros tau T0.
    destruct (rate n m L eps f g Hm HL He HS HC y t B h acc Ly Lh RB Rdir t0 B0 Rstep xs Lxs Gxs _ (Rle_refl _)) as (HR & R). set (rho := rho_of m L eps _) in *.
    pose proof (V_nonneg n m L f g Hm HS HC y Ly xs Lxs Gxs 0) as V0. cbv beta in V0.
    set (V := f (y 0%nat) - f xs) in *.
    destruct (pow_lt_1_zero rho ltac:(rewrite Rabs_pos_eq; lra) (tau / (V + 1)) ltac:(apply Rdiv_lt_0_compat; lra)) as [N HN].
    destruct (count_grows N) as [K HK]. exists K. intros k Hk.
    eapply Rle_trans; [apply R|]. fold V. pose proof (count_mono K k Hk).
    specialize (HN (count acc k) ltac:(lia)). rewrite Rabs_pos_eq in HN by (apply pow_le; lra).
    assert (0 <= rho ^ count acc k) by (apply pow_le; lra).
    assert (rho ^ count acc k * (V + 1) <= tau).
    { left. apply (Rmult_lt_compat_r (V + 1)) in HN; [|lra]. unfold Rdiv in HN. rewrite Rmult_assoc, Rinv_l, Rmult_1_r in HN by lra. exact HN. }
    lra.
  Qed.

  (** Some accepted step moves and improves by less than a tolerance *)
  Lemma small_step : forall atol, 0 < atol -> exists j, acc j = true /\
    f (y j) - f (y (S j)) < atol /\ f (y (S j)) <= f (y j) /\
    Rdot (Rsub_v (y (S j)) (y j)) (Rsub_v (y (S j)) (y j)) < atol * atol.
  Proof.
    intros atol A0. set (tau := Rmin (atol / 2) (m / 18 * (atol * atol) / 2)).
    assert (P2 : 0 < m / 18 * (atol * atol)) by (repeat apply Rmult_lt_0_compat; lra).
    assert (T0 : 0 < tau) by (apply Rmin_glb_lt; lra).
    destruct (converges tau T0) as [K HK]. destruct (accepts_again K) as (j & J1 & J2 & _).
    exists j. split; [exact J2|]. specialize (HK j J1).
    pose proof (V_nonneg n m L f g Hm HS HC y Ly xs Lxs Gxs (S j)) as V0. cbv beta in V0.
    pose proof (Rmin_l (atol / 2) (m / 18 * (atol * atol) / 2)) as M1. pose proof (Rmin_r (atol / 2) (m / 18 * (atol * atol) / 2)) as M2.
    fold tau in M1, M2.
    pose proof (descends n eps f g y t B h acc Lh RB Rdir t0 Rstep j) as D.
    destruct (step_facts n m L eps f g Hm HL HS HC y t B h acc Ly Lh Rstep j J2) as (_ & _ & _ & _ & _ & _ & _ & S).
    split; [lra|]. split; [exact D|]. apply (Rmult_lt_reg_l (m / 18)); [lra|]. lra.
  Qed.
End Often.

(** ** The run of the solver *)
Section Link.
  Context {Aux : Type}.
  Variables (P : ar_tols RN) (eps : R).
  Variable lsolve : linop RN -> list R -> list R * results.
  Variable grad_of : (list R -> R * Aux) -> list R -> list R.
  Variable fn : list R -> R * Aux.
  Variables (n : nat) (f : list R -> R) (g : list R -> list R) (y0 : list R) (fs : fillv -> R) (auxs : fillv -> Aux).
  Hypothesis He : 0 <= eps.
  Hypothesis HE : exact_solve n lsolve.
  Hypothesis Hf : forall x, fst (fn x) = f x.
  Hypothesis Hg : forall x, grad_of fn x = g x.
  Hypothesis HGl : forall x, length x = n -> length (g x) = n.
  Hypothesis L0 : length y0 = n.
  Let search := armijo_default (N:=RN).
  Let descent := newton_descent (N:=RN) lsolve None.
  Let s := BFGS (N:=RN) P grad_of lsolve eps false.
  Let st0 := qn_st0 (N:=RN) search descent (qn_init_hessian (N:=RN) false) y0 fs auxs.
  Let Yk : nat -> list R := y_at s fn y0 st0 (auxs fill0).
  Let Sk : nat -> qn_state (N:=RN) (Aux:=Aux) search descent (HSt:=unit) := st_at s fn y0 st0 (auxs fill0).
  Let y k : list R := Yk (S k).
  Let t k : R := qn_search_state (Sk (S k)).
  Let B k : list (list R) := info_matrix (qn_f_info (Sk (S k))).
  Let h k : list R := fst (qn_descent_state (Sk (S k))).
  Let acc k : bool := Nat.ltb (qn_num_accepted_steps (Sk (S k))) (qn_num_accepted_steps (Sk (S (S k)))).

  Lemma HG' : forall x, length x = n -> length (grad_of fn x) = n.
  Proof. intros x Lx. rewrite Hg. apply HGl. exact Lx. Qed.

  Lemma at_k : forall k, length (y k) = n /\ length (h k) = n /\
    (exists H, spd n H /\ spd n (B k) /\ inverses n H (B k) /\ h k = mvec H (g (y k))) /\
    mvec (B k) (h k) = g (y k) /\ qn_f_info (Sk (S k)) = qn_holds false n (mkPoint (y k) (f (y k)) (g (y k))) (B k) /\
    qn_descent_state (Sk (S k)) = (h k, successful).
  Proof.
    intro k.
    destruct (run_matrix false Aux P eps lsolve grad_of fn n y0 fs auxs false He HE HG' L0 (S k))
      as (H & M & fv & gv & SH & SM & HI & Lgv & Lyk & EI & EK).
    destruct (EK ltac:(lia)) as (Ef & Eg & ED).
    change (length (y k) = n) in Lyk. change (fv = fst (fn (y k))) in Ef. change (gv = grad_of fn (y k)) in Eg.
    rewrite Hf in Ef. rewrite Hg in Eg. subst fv gv.
    change (qn_f_info (Sk (S k)) = qn_holds false n (mkPoint (y k) (f (y k)) (g (y k))) M) in EI.
    change (qn_descent_state (Sk (S k)) = (mvec H (g (y k)), successful)) in ED.
    assert (EB : B k = M) by (unfold B; rewrite EI; reflexivity).
    assert (Eh : h k = mvec H (g (y k))) by (unfold h; rewrite ED; reflexivity).
    rewrite EB, Eh. split; [exact Lyk|]. split; [eapply mvec_len; apply SH|].
    split; [exists H; auto|]. split; [apply HI; exact Lgv|]. split; [exact EI|exact ED].
  Qed.

  Lemma Q1 : Q2R (1 # 2) = / 2. Proof. unfold Q2R. cbn. lra. Qed.
  Lemma Q2 : Q2R (1 # 10) = 1 / 10. Proof. unfold Q2R. cbn. lra. Qed.

  Lemma eval_k : forall k, qn_y_eval (Sk (S k)) = Radd_v (y k) (Rscal (- t k) (h k)).
  Proof.
    intro k. destruct (at_k k) as (_ & _ & _ & _ & _ & ED).
    destruct (qn_step_cases _ _ _ _ _ _ _ _ _ _ _ (qn_trace_S (N:=RN) P search descent grad_of (qn_init_hessian (N:=RN) false) (bfgs_update (N:=RN) eps false) fn y0 fs auxs k))
      as (step & ac & sr & sst & Es & E1 & E2 & E3 & E7 & E4 & E6 & E5).
    assert (T1 : sst = step).
    { cbn [se_step search armijo_default armijo] in Es. unfold armijo_step in Es. cbv zeta in Es. injection Es as <- _ _ <-. reflexivity. }
    assert (T2 : step = t k) by (rewrite <- T1; symmetry; exact E2).
    refine (eq_trans E3 _). refine (eq_trans (vadd_RN _ _) _). f_equal.
    refine (eq_trans (f_equal (fun z => fst (d_step descent step z)) ED) _).
    cbn [descent newton_descent d_step fst]. rewrite vscale_RN, T2. reflexivity.
  Qed.

  Lemma first_t : t 0%nat = 1.
  Proof.
    destruct (qn_step_cases _ _ _ _ _ _ _ _ _ _ _ (qn_trace_S (N:=RN) P search descent grad_of (qn_init_hessian (N:=RN) false) (bfgs_update (N:=RN) eps false) fn y0 fs auxs 0))
      as (step & ac & sr & sst & Es & E1 & E2 & E3 & E7 & E4 & E6 & E5).
    cbn in Es. injection Es as _ _ _ <-. refine (eq_trans E2 _). apply Q2R_1.
  Qed.
  Lemma first_y : y 0%nat = y0 /\ B 0%nat = identity_mat (N:=RN) n.
  Proof.
    destruct (qn_step_cases _ _ _ _ _ _ _ _ _ _ _ (qn_trace_S (N:=RN) P search descent grad_of (qn_init_hessian (N:=RN) false) (bfgs_update (N:=RN) eps false) fn y0 fs auxs 0))
      as (step & ac & sr & sst & Es & E1 & E2 & E3 & E7 & E4 & E6 & E5).
    cbn in Es. injection Es as _ <- _ _. destruct E5 as (Ey & Eu & _).
    assert (Ey' : y 0%nat = y0) by exact Ey. split; [exact Ey'|].
    pose proof (upd_eval false eps false n (mkPoint y0 (fs fill0) (vfull (N:=RN) n (nofQ (n:=RN) 0)))
      (mkPoint (y 0%nat) (fst (fn (y 0%nat))) (grad_of fn (y 0%nat))) [] (identity_mat (N:=RN) n) L0) as U.
    cbv zeta in U. cbn [pt_y pt_f pt_g] in U.
    assert (EE : (qn_f_info (Sk 1), tt) = upd false eps false y0 (y 0%nat)
       (qn_holds false n (mkPoint y0 (fs fill0) (vfull (N:=RN) n (nofQ (n:=RN) 0))) (identity_mat (N:=RN) n))
       (fst (fn (y 0%nat))) (grad_of fn (y 0%nat)) tt).
    { assert (EH : qn_hessian_update_state (Sk 1) = tt) by (destruct (qn_hessian_update_state (Sk 1)); reflexivity).
      rewrite <- EH. refine (eq_trans Eu _). cbn [upd]. rewrite <- L0. reflexivity. }
    rewrite EE in U || rewrite U in EE. injection EE as EE.
    unfold B. rewrite EE. cbn [qn_holds info_matrix]. unfold newB. rewrite Ey', Rsub_v_self, Rdot_0_r.
    assert (X : Rltb eps 0 = false) by (apply Rltb_false; lra). rewrite X. reflexivity.
  Qed.

  Lemma term_k : forall k, acc k = true -> qn_terminate (Sk (S (S k))) =
    cauchy_termination (N:=RN) (ar_rtol P) (ar_atol P) (ar_norm P) (y (S k)) (Rsub_v (y (S k)) (y k)) [f (y (S k))] [f (y (S k)) - f (y k)].
  Proof.
    intros k Ac. destruct (at_k k) as (_ & _ & _ & _ & EI & _).
    destruct (qn_step_cases _ _ _ _ _ _ _ _ _ _ _ (qn_trace_S (N:=RN) P search descent grad_of (qn_init_hessian (N:=RN) false) (bfgs_update (N:=RN) eps false) fn y0 fs auxs (S k)))
      as (step & ac & sr & sst & Es & E1 & E2 & E3 & E7 & E4 & E6 & E5).
    destruct ac.
    2:{ exfalso. unfold acc in Ac. apply Nat.ltb_lt in Ac.
        change (qn_num_accepted_steps (Sk (S (S k))) = qn_num_accepted_steps (Sk (S k)) + 0)%nat in E7. lia. }
    destruct E5 as (_ & _ & _ & _ & ET).
    pose proof (proj1 (qn_first (N:=RN) P search descent grad_of (qn_init_hessian (N:=RN) false) (bfgs_update (N:=RN) eps false) fn y0 fs auxs
      (proj1 (accepts_first_builtin RN) _ _ _) (proj1 (keeps_builtin RN eps false)) (S k))) as F1.
    change (qn_first_step (Sk (S k)) = true <-> S k = 0%nat) in F1.
    change (qn_terminate (Sk (S (S k))) = if qn_first_step (Sk (S k)) then false else
        cauchy_termination (N:=RN) (ar_rtol P) (ar_atol P) (ar_norm P) (y (S k)) (vsub (N:=RN) (y (S k)) (y k))
          [fst (fn (y (S k)))] [nsub (n:=RN) (fst (fn (y (S k)))) (as_min (qn_f_info (Sk (S k))))]) in ET.
    assert (EF : qn_first_step (Sk (S k)) = false).
    { apply not_true_iff_false. intro F. apply F1 in F. discriminate. }
    rewrite EF, EI, vsub_RN, Hf in ET. exact ET.
  Qed.

  Lemma result_k : forall k, qn_result (Sk k) = successful.
  Proof.
    intros [|k]; [reflexivity|]. destruct (at_k k) as (_ & _ & _ & _ & _ & ED).
    destruct (qn_step_cases _ _ _ _ _ _ _ _ _ _ _ (qn_trace_S (N:=RN) P search descent grad_of (qn_init_hessian (N:=RN) false) (bfgs_update (N:=RN) eps false) fn y0 fs auxs k))
      as (step & ac & sr & sst & Es & E1 & E2 & E3 & E7 & E4 & E6 & E5).
    assert (SR : sr = successful).
    { cbn [se_step search armijo_default armijo] in Es. unfold armijo_step in Es. cbv zeta in Es. injection Es as _ _ <- _. reflexivity. }
    subst sr. refine (eq_trans E6 _). cbn [results_eqb].
    refine (eq_trans (f_equal (fun z => snd (d_step descent step z)) ED) _). reflexivity.
  Qed.

  Lemma step_k : forall k, 0 <= Rdot (g (y k)) (h k) -> 0 < t k ->
    (acc k = true /\ f (y (S k)) <= f (y k) - 1 / 10 * t k * Rdot (g (y k)) (h k) /\
     y (S k) = Radd_v (y k) (Rscal (- t k) (h k)) /\ t (S k) = 1 /\
     B (S k) = newB false eps (Rsub_v (g (y (S k))) (g (y k))) (Rsub_v (y (S k)) (y k)) (B k)) \/
    (acc k = false /\ f (y k) - 1 / 10 * t k * Rdot (g (y k)) (h k) < f (Radd_v (y k) (Rscal (- t k) (h k))) /\
     y (S k) = y k /\ t (S k) = / 2 * t k /\ B (S k) = B k /\ h (S k) = h k).
  Proof.
    intros k A0 T0. destruct (at_k k) as (Lyk & Lhk & _ & _ & EI & ED). pose proof (eval_k k) as EY.
    pose proof (proj1 (qn_first (N:=RN) P search descent grad_of (qn_init_hessian (N:=RN) false) (bfgs_update (N:=RN) eps false) fn y0 fs auxs
      (proj1 (accepts_first_builtin RN) _ _ _) (proj1 (keeps_builtin RN eps false)) (S k))) as F1.
    change (qn_first_step (Sk (S k)) = true <-> S k = 0%nat) in F1.
    assert (EF : qn_first_step (Sk (S k)) = false).
    { apply not_true_iff_false. intro F. apply F1 in F. discriminate. }
    destruct (qn_step_cases _ _ _ _ _ _ _ _ _ _ _ (qn_trace_S (N:=RN) P search descent grad_of (qn_init_hessian (N:=RN) false) (bfgs_update (N:=RN) eps false) fn y0 fs auxs (S k)))
      as (step & ac & sr & sst & Es & E1 & E2 & E3 & E7 & E4 & E6 & E5).
    change (t (S k) = sst) in E2.
    change (qn_num_accepted_steps (Sk (S (S k))) = qn_num_accepted_steps (Sk (S k)) + (if ac then 1 else 0))%nat in E7.
    change (se_step search (qn_first_step (Sk (S k))) (y k) (qn_y_eval (Sk (S k))) (qn_f_info (Sk (S k)))
       (Eval (N:=RN) (fst (fn (qn_y_eval (Sk (S k)))))) (t k) = (step, ac, sr, sst)) in Es.
    assert (AC : acc k = ac).
    { unfold acc. rewrite E7. destruct ac; [apply Nat.ltb_lt; lia|apply Nat.ltb_ge; lia]. }
    rewrite EF, EI, EY, Hf in Es.
    cbn [se_step search armijo_default armijo] in Es. unfold armijo_step in Es. cbv zeta in Es.
    rewrite <- (vadd_RN (y k)) in Es. rewrite vsub_vadd in Es by (rewrite Rscal_length; congruence). rewrite vadd_RN in Es.
    cbn [qn_holds compute_grad_dot as_min orb pt_f pt_g] in Es. rewrite vdot_RN, Rdot_scal_r in Es.
    set (av := Rdot (g (y k)) (h k)) in *.
    assert (RED : nleb (n:=RN) (- t k * av)%R (nofQ (n:=RN) 0) = true).
    { cbn. apply Rleb_true. rewrite Q2R_0. assert (0 <= t k * av) by (apply Rmult_le_pos; lra). lra. }
    rewrite RED, andb_true_r in Es. injection Es as Q1' Q2' _ Q4. rewrite Q2' in Q4.
    cbn [nofQ RN] in Q4. rewrite Q2R_1, Q1 in Q4.
    cbn [nleb nsub nmul nofQ RN] in Q2'. rewrite Q2 in Q2'.
    destruct ac.
    - left. destruct E5 as (Ey & Eu & _ & _). apply Rleb_true in Q2'.
      assert (Ey' : y (S k) = Radd_v (y k) (Rscal (- t k) (h k))) by (refine (eq_trans Ey _); exact EY).
      split; [exact AC|]. split; [rewrite Ey'; lra|]. split; [exact Ey'|]. split; [congruence|].
      pose proof (upd_eval false eps false n (mkPoint (y k) (f (y k)) (g (y k))) (mkPoint (y (S k)) (fst (fn (y (S k)))) (grad_of fn (y (S k)))) [] (B k) Lyk) as U.
      cbv zeta in U. cbn [pt_y pt_f pt_g] in U.
      change ((qn_f_info (Sk (S (S k))), qn_hessian_update_state (Sk (S (S k)))) =
        upd false eps false (y k) (y (S k)) (qn_f_info (Sk (S k))) (fst (fn (y (S k)))) (grad_of fn (y (S k))) (qn_hessian_update_state (Sk (S k)))) in Eu.
      assert (EH : qn_hessian_update_state (Sk (S k)) = tt) by (destruct (qn_hessian_update_state (Sk (S k))); reflexivity).
      rewrite EI, EH, U in Eu. injection Eu as Eu _. unfold B at 1. rewrite Eu, Hg. reflexivity.
    - right. destruct E5 as (Ey & Eu & _ & Ed & _). apply Rleb_false in Q2'.
      split; [exact AC|]. split; [lra|]. split; [exact Ey|]. split; [rewrite E2, <- Q4; reflexivity|].
      change (qn_descent_state (Sk (S (S k))) = qn_descent_state (Sk (S k))) in Ed.
      change ((qn_f_info (Sk (S (S k))), qn_hessian_update_state (Sk (S (S k)))) = (qn_f_info (Sk (S k)), qn_hessian_update_state (Sk (S k)))) in Eu.
      injection Eu as Eu _. split; [unfold B; rewrite Eu; reflexivity|unfold h; rewrite Ed; reflexivity].
  Qed.

  Lemma run_k : forall k, 0 < t k /\ 0 <= Rdot (g (y k)) (h k) /\
    ((acc k = true /\ f (y (S k)) <= f (y k) - 1 / 10 * t k * Rdot (g (y k)) (h k) /\
     y (S k) = Radd_v (y k) (Rscal (- t k) (h k)) /\ t (S k) = 1 /\
     B (S k) = newB false eps (Rsub_v (g (y (S k))) (g (y k))) (Rsub_v (y (S k)) (y k)) (B k)) \/
    (acc k = false /\ f (y k) - 1 / 10 * t k * Rdot (g (y k)) (h k) < f (Radd_v (y k) (Rscal (- t k) (h k))) /\
     y (S k) = y k /\ t (S k) = / 2 * t k /\ B (S k) = B k /\ h (S k) = h k)).
  Proof.
    assert (A : forall k, 0 <= Rdot (g (y k)) (h k)).
    { intro k. destruct (at_k k) as (_ & Lhk & (H & _ & SBk & _) & E & _). rewrite <- E, Rdot_comm.
      destruct (list_eq_dec Req_EM_T (h k) (zerov n)) as [Z|N]; [rewrite Z, Rdot_0_l; lra|]. left. apply SBk; assumption. }
    assert (T : forall k, 0 < t k).
    { induction k as [|k IH]; [rewrite first_t; lra|].
      destruct (step_k k (A k) IH) as [(_ & _ & _ & -> & _)|(_ & _ & _ & -> & _)]; lra. }
    intro k. split; [apply T|]. split; [apply A|]. apply step_k; auto.
  Qed.

  Lemma accepted_count : forall k, qn_num_accepted_steps (Sk (S k)) = S (count acc k).
  Proof.
    induction k as [|k IH].
    - destruct (qn_step_cases _ _ _ _ _ _ _ _ _ _ _ (qn_trace_S (N:=RN) P search descent grad_of (qn_init_hessian (N:=RN) false) (bfgs_update (N:=RN) eps false) fn y0 fs auxs 0))
        as (step & ac & sr & sst & Es & E1 & E2 & E3 & E7 & E4 & E6 & E5).
      cbn in Es. injection Es as _ <- _ _. exact E7.
    - destruct (qn_step_cases _ _ _ _ _ _ _ _ _ _ _ (qn_trace_S (N:=RN) P search descent grad_of (qn_init_hessian (N:=RN) false) (bfgs_update (N:=RN) eps false) fn y0 fs auxs (S k)))
        as (step & ac & sr & sst & Es & E1 & E2 & E3 & E7 & E4 & E6 & E5).
      change (qn_num_accepted_steps (Sk (S (S k))) = qn_num_accepted_steps (Sk (S k)) + (if ac then 1 else 0))%nat in E7.
      cbn [count]. unfold acc at 2. rewrite E7, IH. destruct ac.
      + replace (S (count acc k) <? S (count acc k) + 1)%nat with true by (symmetry; apply Nat.ltb_lt; lia). lia.
      + replace (S (count acc k) <? S (count acc k) + 0)%nat with false by (symmetry; apply Nat.ltb_ge; lia). lia.
  Qed.

  Variables (m L : R).
  Hypothesis Hm : 0 < m.
  Hypothesis HL : 0 < L.
  Hypothesis HS : smooth n L f g.
  Hypothesis HC : strongly_convex n m f g.
  Variable xs : list R.
  Hypothesis Lxs : length xs = n.
  Hypothesis Gxs : g xs = zerov n.

  Let Ly k := proj1 (at_k k).
  Let Lh k := proj1 (proj2 (at_k k)).
  Lemma RB_k : forall k, exists H, spd n H /\ spd n (B k) /\ inverses n H (B k).
  Proof. intro k. destruct (at_k k) as (_ & _ & (H & S1 & S2 & S3 & _) & _). eauto. Qed.
  Let Rdir k := proj1 (proj2 (proj2 (proj2 (at_k k)))).
  Let Rstep k := proj2 (proj2 (run_k k)).

  Lemma link_rate : forall Vb, f y0 - f xs <= Vb -> forall k,
    f (Yk (S k)) - f xs <= rho_of m L eps Vb ^ (qn_num_accepted_steps (Sk (S k)) - 1) * (f y0 - f xs).
  Proof.
    intros Vb HV k. rewrite accepted_count. cbn [Nat.sub]. rewrite Nat.sub_0_r. rewrite <- (proj1 first_y) in HV |- * .
    exact (proj2 (rate n m L eps f g Hm HL He HS HC y t B h acc Ly Lh RB_k Rdir first_t (proj2 first_y) Rstep xs Lxs Gxs Vb HV) k).
  Qed.
  Lemma link_converges : forall tau, 0 < tau -> exists K, forall k, (K <= k)%nat -> f (Yk (S k)) - f xs <= tau.
  Proof.
    exact (converges n m L eps f g Hm HL He HS HC y t B h acc Ly Lh RB_k Rdir first_t (proj2 first_y) Rstep xs Lxs Gxs).
  Qed.
  Lemma link_descends : forall k, f (Yk (S (S k))) <= f (Yk (S k)).
  Proof. exact (descends n eps f g y t B h acc Lh RB_k Rdir first_t Rstep). Qed.
  Lemma link_first : Yk 1 = y0.
  Proof. exact (proj1 first_y). Qed.
  Lemma link_terminates : 0 < ar_atol P -> 0 <= ar_rtol P -> ar_norm P = max_norm ->
    exists k, qn_terminate (Sk k) = true.
  Proof.
    intros Ha Hr Hn.
    destruct (small_step n m L eps f g Hm HL He HS HC y t B h acc Ly Lh RB_k Rdir first_t (proj2 first_y) Rstep xs Lxs Gxs
      (ar_atol P) Ha) as (j & J1 & J2 & J3 & J4).
    exists (S (S j)). pose proof (term_k j J1) as T. rewrite Hn in T.
    destruct (qn_terminate (Sk (S (S j)))) eqn:E; [reflexivity|]. symmetry in T.
    apply cauchy_false_vec in T; [|exact Hr|exact Ha]. exfalso.
    destruct T as [(i & a & Ei & Q)|(i & a & Ei & Q)].
    - pose proof (Rdot_nth_le _ _ _ Ei) as X.
      assert (Rabs a * Rabs a = a * a) by (rewrite <- Rabs_mult; apply Rabs_pos_eq, Rle_0_sqr).
      assert (ar_atol P * ar_atol P <= Rabs a * Rabs a) by (apply Rmult_le_compat; lra). lra.
    - destruct i as [|[|i]]; try discriminate Ei. cbn in Ei. injection Ei as <-. rewrite Rabs_left1 in Q by lra. lra.
  Qed.
End Link.

Lemma rho_range : forall m L eps Vb, 0 < m -> 0 < L -> 0 <= Vb -> 0 <= rho_of m L eps Vb < 1.
Proof.
  intros m L eps Vb Hm HL HV. unfold rho_of. cbv zeta.
  assert (C1 : 1 <= Rmax 1 (L - ln m)) by apply Rmax_l. set (C := Rmax 1 (L - ln m)) in *.
  destruct (Rlt_dec 0 eps) as [E|E].
  - assert (D0 : 0 < m / 18 * (eps / L)) by (apply Rmult_lt_0_compat; [lra|apply Rdiv_lt_0_compat; assumption]).
    assert (BP : 0 <= Vb / (m / 18 * (eps / L)) * C).
    { apply Rmult_le_pos; [|lra]. apply Rmult_le_pos; [lra|]. left. apply Rinv_0_lt_compat. exact D0. }
    pose proof (factor_range m L Hm HL (1 + Vb / (m / 18 * (eps / L)) * C) ltac:(lra)). lra.
  - pose proof (factor_range m L Hm HL (2 * C) ltac:(lra)) as FR.
    split; [apply sqrt_pos|].
    assert (Q : sqrt (1 - factor m L (2 * C)) < sqrt 1) by (apply sqrt_lt_1; lra). rewrite sqrt_1 in Q. exact Q.
Qed.

Lemma minimiser_stationary : forall n L f g xs, 0 < L -> smooth n L f g -> length xs = n ->
  (forall x, length x = n -> f xs <= f x) -> g xs = zerov n.
Proof.
  intros n L f g xs HL HS Lx HM.
  pose proof (proj1 HS xs Lx) as Lg.
  pose proof (proj2 HS xs (Rscal (- / L) (g xs)) Lx ltac:(rewrite Rscal_length; exact Lg)) as U.
  rewrite Rdot_scal_r, Rdot_scal_l, Rdot_scal_r in U.
  pose proof (HM (Radd_v xs (Rscal (- / L) (g xs))) ltac:(apply Radd_v_length; [exact Lx|rewrite Rscal_length; exact Lg])) as M.
  replace (L / 2 * (- / L * (- / L * Rdot (g xs) (g xs)))) with (/ 2 * (/ L * Rdot (g xs) (g xs))) in U by (field; lra).
  assert (Q : Rdot (g xs) (g xs) <= 0).
  { apply (Rmult_le_reg_l (/ L)); [apply Rinv_0_lt_compat; exact HL|]. lra. }
  pose proof (Rdot_pos (g xs)). rewrite <- Lg. apply Rdot_0_inv. lra.
Qed.

Lemma above_minimiser : forall n m f g (xs x : list R), strongly_convex n m f g -> length xs = n -> g xs = zerov n -> length x = n ->
  m / 2 * Rdot (Rsub_v x xs) (Rsub_v x xs) <= f x - f xs.
Proof.
  intros n m f g xs x HC Lxs Gxs Lx. assert (LD : length (Rsub_v x xs) = n) by (apply Rsub_v_length; assumption).
  pose proof (HC xs (Rsub_v x xs) Lxs LD) as Q. rewrite Gxs, Rdot_0_l in Q.
  replace (Radd_v xs (Rsub_v x xs)) with x in Q; [lra|]. symmetry. apply (BFGSConv_proofs.add_sub n); assumption.
Qed.

(** The accepted steps of the run of either variant, as one sequence *)
Lemma both_variants : forall (Aux : Type) (P : ar_tols RN) (eps : R) lsolve grad_of (fn : list R -> R * Aux)
    (n : nat) (g : list R -> list R) (y0 : list R) fs auxs (ui : bool) st stF,
  0 <= eps -> exact_solve n lsolve -> (forall x, grad_of fn x = g x) -> (forall x, length x = n -> length (g x) = n) -> length y0 = n ->
  s_init (BFGS (N:=RN) P grad_of lsolve eps ui) fn y0 fs auxs = Ret st ->
  s_init (BFGS (N:=RN) P grad_of lsolve eps false) fn y0 fs auxs = Ret stF ->
  forall k,
    y_at (BFGS (N:=RN) P grad_of lsolve eps ui) fn y0 st (auxs fill0) k = y_at (BFGS (N:=RN) P grad_of lsolve eps false) fn y0 stF (auxs fill0) k /\
    says_terminate (BFGS (N:=RN) P grad_of lsolve eps ui) fn y0 st (auxs fill0) k = says_terminate (BFGS (N:=RN) P grad_of lsolve eps false) fn y0 stF (auxs fill0) k /\
    says_result (BFGS (N:=RN) P grad_of lsolve eps ui) fn y0 st (auxs fill0) k = says_result (BFGS (N:=RN) P grad_of lsolve eps false) fn y0 stF (auxs fill0) k /\
    qn_num_accepted_steps (st_at (BFGS (N:=RN) P grad_of lsolve eps ui) fn y0 st (auxs fill0) k) =
    qn_num_accepted_steps (st_at (BFGS (N:=RN) P grad_of lsolve eps false) fn y0 stF (auxs fill0) k).
Proof.
  intros Aux P eps lsolve grad_of fn n g y0 fs auxs ui st stF He HE Hg HGl L0 Hi HiF k.
  assert (HG : forall x, length x = n -> length (grad_of fn x) = n) by (intros x Lx; rewrite Hg; apply HGl; exact Lx).
  apply qn_init_inv in Hi. apply qn_init_inv in HiF. subst st stF.
  destruct ui; [|auto].
  destruct (rel_run P eps false lsolve grad_of fn n y0 fs auxs He HE HG L0 k) as (K1 & K2 & K3).
  destruct K3 as (H & B & f' & g' & _ & _ & _ & _ & _ & _ & _ & _ & _ & _ & _ & _ & _ & T1 & T2 & T3 & _).
  exact (conj K1 (conj T1 (conj T2 T3))).
Qed.

(** BFGS converges globally and linearly in its accepted steps: if f has an L-Lipschitz
    gradient (is L-smooth) and is mu-strongly convex, then f(y) - min f shrinks at every accepted
    step after the first, on average, by a factor rho < 1, which depends only on mu, L, eps and a
    bound Vb on the initial excess, not on the number of unknowns.  No curvature (Wolfe)
    condition is tested by the backtracking search. *)
Lemma C84_rate_pf :
  forall (mu L eps Vb : R), 0 < mu -> 0 < L -> 0 <= eps -> 0 <= Vb ->
  exists rho, 0 <= rho < 1 /\
  forall (Aux : Type) (P : ar_tols RN) lsolve grad_of (fn : list R -> R * Aux) (n : nat)
         (f : list R -> R) (g : list R -> list R) (y0 xs : list R) fs auxs (use_inverse : bool) st0,
    smooth n L f g -> strongly_convex n mu f g ->
    (forall x, fst (fn x) = f x) -> (forall x, grad_of fn x = g x) -> exact_solve n lsolve ->
    length y0 = n -> length xs = n -> (forall x, length x = n -> f xs <= f x) -> f y0 - f xs <= Vb ->
    let s := BFGS (N:=RN) P grad_of lsolve eps use_inverse in
    s_init s fn y0 fs auxs = Ret st0 ->
    let y : nat -> list R := y_at s fn y0 st0 (auxs fill0) in
    let accepted k := qn_num_accepted_steps (st_at s fn y0 st0 (auxs fill0) k) in
    forall k, (1 <= accepted (S k))%nat /\
      f (y (S k)) - f xs <= rho ^ (accepted (S k) - 1) * (f y0 - f xs) /\
      mu / 2 * Rdot (Rsub_v (y (S k)) xs) (Rsub_v (y (S k)) xs) <= f (y (S k)) - f xs.
Proof.
  intros mu L eps Vb Hm HL He HV. exists (rho_of mu L eps Vb). split; [apply rho_range; assumption|].
  intros Aux P lsolve grad_of fn n f g y0 xs fs auxs ui st0 HS HC Hf Hg HE L0 Lxs HM HB s Hi y accepted k.
  pose proof (minimiser_stationary n L f g xs HL HS Lxs HM) as Gxs.
  pose proof (both_variants Aux P eps lsolve grad_of fn n g y0 fs auxs ui st0 _ He HE Hg (proj1 HS) L0 Hi eq_refl (S k)) as (B1 & _ & _ & B2).
  change (y (S k) = y_at (BFGS P grad_of lsolve eps false) fn y0 (qn_st0 (N:=RN) armijo_default (newton_descent (N:=RN) lsolve None) (qn_init_hessian (N:=RN) false) y0 fs auxs) (auxs fill0) (S k)) in B1.
  change (accepted (S k) = qn_num_accepted_steps (st_at (BFGS P grad_of lsolve eps false) fn y0 (qn_st0 (N:=RN) armijo_default (newton_descent (N:=RN) lsolve None) (qn_init_hessian (N:=RN) false) y0 fs auxs) (auxs fill0) (S k))) in B2.
  rewrite B1, B2. clear B1 B2 y accepted s Hi.
  pose proof (link_rate P eps lsolve grad_of fn n f g y0 fs auxs He HE Hf Hg (proj1 HS) L0 mu L Hm HL HS HC xs Lxs Gxs Vb HB k) as R.
  pose proof (accepted_count P eps lsolve grad_of fn n y0 fs auxs L0 k) as AC.
  destruct (at_k P eps lsolve grad_of fn n f g y0 fs auxs He HE Hf Hg (proj1 HS) L0 k) as (LY & _).
  split; [refine (eq_ind_r (fun z => (1 <= z)%nat) _ AC); apply le_n_S, Nat.le_0_l|]. split; [exact R|].
  apply (above_minimiser n mu f g); assumption.
Qed.

(** The iterates converge: f(y_k) comes within every tau > 0 of the minimum and stays there, and so
    does y_k within every tau of the minimiser; f never increases after the first step. *)
Lemma C84_converges_pf :
  forall (Aux : Type) (P : ar_tols RN) (mu L eps : R) lsolve grad_of (fn : list R -> R * Aux) (n : nat)
         (f : list R -> R) (g : list R -> list R) (y0 xs : list R) fs auxs (use_inverse : bool) st0,
    0 < mu -> 0 < L -> 0 <= eps ->
    smooth n L f g -> strongly_convex n mu f g ->
    (forall x, fst (fn x) = f x) -> (forall x, grad_of fn x = g x) -> exact_solve n lsolve ->
    length y0 = n -> length xs = n -> (forall x, length x = n -> f xs <= f x) ->
    let s := BFGS (N:=RN) P grad_of lsolve eps use_inverse in
    s_init s fn y0 fs auxs = Ret st0 ->
    let y : nat -> list R := y_at s fn y0 st0 (auxs fill0) in
    y 1%nat = y0 /\ (forall k, f (y (S (S k))) <= f (y (S k))) /\
    forall tau, 0 < tau -> exists K, forall k, (K <= k)%nat ->
      f (y k) - f xs <= tau /\ Rdot (Rsub_v (y k) xs) (Rsub_v (y k) xs) <= tau.
Proof.
  intros Aux P mu L eps lsolve grad_of fn n f g y0 xs fs auxs ui st0 Hm HL He HS HC Hf Hg HE L0 Lxs HM s Hi y.
  pose proof (minimiser_stationary n L f g xs HL HS Lxs HM) as Gxs.
  assert (YE : forall k, y k = y_at (BFGS P grad_of lsolve eps false) fn y0 (qn_st0 (N:=RN) armijo_default (newton_descent (N:=RN) lsolve None) (qn_init_hessian (N:=RN) false) y0 fs auxs) (auxs fill0) k).
  { intro k. exact (proj1 (both_variants Aux P eps lsolve grad_of fn n g y0 fs auxs ui st0 _ He HE Hg (proj1 HS) L0 Hi eq_refl k)). }
  split; [rewrite YE; exact (link_first P eps lsolve grad_of fn n y0 fs auxs He L0)|].
  split; [intro k; rewrite !YE; exact (link_descends P eps lsolve grad_of fn n f g y0 fs auxs He HE Hf Hg (proj1 HS) L0 k)|].
  intros tau T0.
  destruct (link_converges P eps lsolve grad_of fn n f g y0 fs auxs He HE Hf Hg (proj1 HS) L0 mu L Hm HL HS HC xs Lxs Gxs
    (Rmin tau (mu / 2 * tau))) as [K HK].
  { apply Rmin_glb_lt; [exact T0|apply Rmult_lt_0_compat; lra]. }
  exists (S K). intros [|k] Hk; [inversion Hk|]. specialize (HK k (le_S_n _ _ Hk)). rewrite YE.
  destruct (at_k P eps lsolve grad_of fn n f g y0 fs auxs He HE Hf Hg (proj1 HS) L0 k) as (LY & _).
  pose proof (above_minimiser n mu f g xs _ HC Lxs Gxs LY) as AB.
  split; [eapply Rle_trans; [exact HK|apply Rmin_l]|].
  apply (Rmult_le_reg_l (mu / 2)); [lra|]. eapply Rle_trans; [exact AB|]. eapply Rle_trans; [exact HK|apply Rmin_r].
Qed.

(** With the default termination (max_norm, atol > 0, rtol >= 0) BFGS stops, reports success and
    returns a point no worse than y0, from every starting point. *)
Lemma C84_terminates_pf :
  forall (Aux : Type) (rtol atol mu L eps : R) lsolve grad_of (fn : list R -> R * Aux) (n : nat)
         (f : list R -> R) (g : list R -> list R) (y0 xs : list R) fs auxs (use_inverse : bool),
    0 < mu -> 0 < L -> 0 <= eps -> 0 < atol -> 0 <= rtol ->
    smooth n L f g -> strongly_convex n mu f g ->
    (forall x, fst (fn x) = f x) -> (forall x, grad_of fn x = g x) -> exact_solve n lsolve ->
    length y0 = n -> length xs = n -> (forall x, length x = n -> f xs <= f x) ->
    let s := BFGS (N:=RN) (mkTols rtol atol max_norm) grad_of lsolve eps use_inverse in
    exists k, forall fuel budget throw, (k < fuel)%nat -> (forall m, budget = Some m -> (k <= m)%nat) ->
      exists sol, iterative_solve (vallfinite (N:=RN)) s fn fuel budget throw y0 fs auxs = Ret sol /\
        result sol = successful /\ f (value sol) <= f y0 /\
        hd_error (sol_stats sol) = Some ("num_steps"%string, Some (Z.of_nat k)).
Proof.
  intros Aux rtol atol mu L eps lsolve grad_of fn n f g y0 xs fs auxs ui Hm HL He Ha Hr HS HC Hf Hg HE L0 Lxs HM s.
  set (P := mkTols (N:=RN) rtol atol max_norm) in *.
  pose proof (minimiser_stationary n L f g xs HL HS Lxs HM) as Gxs.
  set (st0 := qn_st0 (N:=RN) armijo_default (newton_descent (N:=RN) lsolve None) (qn_init_hessian (N:=RN) ui) y0 fs auxs).
  assert (Hi : s_init s fn y0 fs auxs = Ret st0) by (unfold s, st0; clear; destruct ui; reflexivity).
  pose proof (both_variants Aux P eps lsolve grad_of fn n g y0 fs auxs ui st0 _ He HE Hg (proj1 HS) L0 Hi eq_refl) as BV.
  destruct (link_terminates P eps lsolve grad_of fn n f g y0 fs auxs He HE Hf Hg (proj1 HS) L0 mu L Hm HL HS HC xs Lxs Gxs Ha Hr eq_refl) as [k0 T].
  assert (T' : says_terminate s fn y0 st0 (auxs fill0) k0 = true).
  { destruct (BV k0) as (_ & B & _). refine (eq_trans B _). exact T. }
  assert (SR : forall k, says_result s fn y0 st0 (auxs fill0) k = successful).
  { intro k. destruct (BV k) as (_ & _ & B & _). refine (eq_trans B _).
    exact (result_k P eps lsolve grad_of fn n f g y0 fs auxs He HE Hf Hg (proj1 HS) L0 k). }
  assert (AF : forall v : list R, vallfinite (N:=RN) v = true).
  { intro v. unfold vallfinite. induction v; auto. }
  destruct (solve_succeeds (vallfinite (N:=RN)) s fn y0 st0 _ fs auxs eq_refl Hi SR (fun k => AF _) (ex_intro _ _ T'))
    as (k1 & K1 & K2 & K3).
  exists k1. intros fuel budget throw Hfu Hb. destruct (K3 fuel budget throw Hfu Hb) as (K4 & K5).
  eexists. split; [exact K4|]. split; [exact K5|]. split; [|reflexivity].
  destruct (C84_converges_pf Aux P mu L eps lsolve grad_of fn n f g y0 xs fs auxs ui st0 Hm HL He HS HC Hf Hg HE L0 Lxs HM Hi) as (Y1 & DS & _).
  change (f (y_at s fn y0 st0 (auxs fill0) k1) <= f y0). destruct k1 as [|k1]; [cbn; lra|].
  clear - Y1 DS. induction k1 as [|k1 IH]; [right; exact (f_equal f Y1)|]. eapply Rle_trans; [apply DS|exact IH].
Qed.

(** The one-unknown x^2, and the coupled two-unknown x0^2 + x0 x1 + x1^2, with the Cholesky solver. *)
Lemma quad2_facts : smooth 2 3 quad2 quad2_grad /\ strongly_convex 2 1 quad2 quad2_grad /\
  (forall x, length x = 2%nat -> quad2 [0; 0] <= quad2 x).
Proof.
  split; [split|split].
  - intros [|a [|b [|? ?]]] H; try discriminate H. reflexivity.
  - intros [|a [|b [|? ?]]] [|c [|d [|? ?]]] H1 H2; try discriminate H1; try discriminate H2. cbn.
    pose proof (Rle_0_sqr (c - d)) as Q. unfold Rsqr in Q. lra.
  - intros [|a [|b [|? ?]]] [|c [|d [|? ?]]] H1 H2; try discriminate H1; try discriminate H2. cbn.
    pose proof (Rle_0_sqr (c + d)) as Q. unfold Rsqr in Q. lra.
  - intros [|a [|b [|? ?]]] H; try discriminate H. cbn.
    pose proof (Rle_0_sqr (a + b)) as Q. pose proof (Rle_0_sqr a) as Qa. pose proof (Rle_0_sqr b) as Qb. unfold Rsqr in *. lra.
Qed.

Example C84_rate_ex_pf :
  smooth 2 3 quad2 quad2_grad /\ strongly_convex 2 1 quad2 quad2_grad /\ exact_solve 2 cholesky_solve /\
  exists rho, 0 <= rho < 1 /\ forall P use_inverse st0,
    let s := BFGS (N:=RN) (Aux:=unit) P (fun _ => quad2_grad) cholesky_solve (1/100) use_inverse in
    s_init s (fun v => (quad2 v, tt)) [1; 0] (fun _ => 0) (fun _ => tt) = Ret st0 ->
    forall k, quad2 (y_at s (fun v => (quad2 v, tt)) [1; 0] st0 tt (S k)) <=
      rho ^ (qn_num_accepted_steps (st_at s (fun v => (quad2 v, tt)) [1; 0] st0 tt (S k)) - 1).
Proof.
  destruct quad2_facts as (HS & HC & HM). split; [exact HS|]. split; [exact HC|]. split; [apply C39_exact_solve_ex_pf|].
  destruct (C84_rate_pf 1 3 (1/100) 1 ltac:(lra) ltac:(lra) ltac:(lra) ltac:(lra)) as (rho & HR & R).
  exists rho. split; [exact HR|]. intros P ui st0 s Hi k.
  destruct (R unit P cholesky_solve (fun _ => quad2_grad) (fun v => (quad2 v, tt)) 2%nat quad2 quad2_grad [1; 0] [0; 0] (fun _ => 0) (fun _ => tt) ui st0
    HS HC (fun _ => eq_refl) (fun _ => eq_refl) (C39_exact_solve_ex_pf 2) eq_refl eq_refl HM ltac:(cbn; lra) Hi k) as (_ & Q & _).
  assert (E0 : quad2 [0; 0] = 0) by (cbn; ring). assert (E1 : quad2 [1; 0] = 1) by (cbn; ring).
  rewrite E0, E1, !Rminus_0_r, Rmult_1_r in Q. exact Q.
Qed.

Example C84_converges_ex_pf : forall P use_inverse st0,
    let s := BFGS (N:=RN) (Aux:=unit) P (fun _ => quad2_grad) cholesky_solve (1/100) use_inverse in
    s_init s (fun v => (quad2 v, tt)) [5; -3] (fun _ => 0) (fun _ => tt) = Ret st0 ->
    forall tau, 0 < tau -> exists K, forall k, (K <= k)%nat -> quad2 (y_at s (fun v => (quad2 v, tt)) [5; -3] st0 tt k) <= tau.
Proof.
  intros P ui st0 s Hi tau T0. destruct quad2_facts as (HS & HC & HM).
  destruct (C84_converges_pf unit P 1 3 (1/100) cholesky_solve (fun _ => quad2_grad) (fun v => (quad2 v, tt)) 2%nat quad2 quad2_grad [5; -3] [0; 0] (fun _ => 0) (fun _ => tt) ui st0
    ltac:(lra) ltac:(lra) ltac:(lra) HS HC (fun _ => eq_refl) (fun _ => eq_refl) (C39_exact_solve_ex_pf 2) eq_refl eq_refl HM Hi) as (_ & _ & Q).
  destruct (Q tau T0) as [K HK]. exists K. intros k Hk. destruct (HK k Hk) as [X _].
  assert (E0 : quad2 [0; 0] = 0) by (cbn; ring). rewrite E0, Rminus_0_r in X. exact X.
Qed.

Example C84_terminates_ex_pf : forall use_inverse,
    let s := BFGS (N:=RN) (Aux:=unit) (mkTols (1/1000) (1/1000) max_norm) (fun _ => quad2_grad) cholesky_solve (1/100) use_inverse in
    exists k, forall fuel throw, (k < fuel)%nat ->
      exists sol, iterative_solve (vallfinite (N:=RN)) s (fun v => (quad2 v, tt)) fuel None throw [5; -3] (fun _ => 0) (fun _ => tt) = Ret sol /\
        result sol = successful /\ quad2 (value sol) <= 19.
Proof.
  intros ui s. destruct quad2_facts as (HS & HC & HM).
  destruct (C84_terminates_pf unit (1/1000) (1/1000) 1 3 (1/100) cholesky_solve (fun _ => quad2_grad) (fun v => (quad2 v, tt)) 2%nat quad2 quad2_grad [5; -3] [0; 0] (fun _ => 0) (fun _ => tt) ui
    ltac:(lra) ltac:(lra) ltac:(lra) ltac:(lra) ltac:(lra) HS HC (fun _ => eq_refl) (fun _ => eq_refl) (C39_exact_solve_ex_pf 2) eq_refl eq_refl HM) as (k & K).
  exists k. intros fuel throw Hfu. destruct (K fuel None throw Hfu ltac:(discriminate)) as (sol & E1 & E2 & E3 & _).
  exists sol. split; [exact E1|]. split; [exact E2|]. assert (E5 : quad2 [5; -3] = 19) by (cbn; ring). rewrite <- E5. exact E3.
Qed.
