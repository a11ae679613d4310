(** Global, linear convergence of nonlinear conjugate gradients (C109). *)

From Coq Require Import String List Bool Arith Lia ZArith QArith Qreals Reals Lra Psatz.
From Verif Require Import Num NumFacts Vec Results Iterate Spec_Iterate Iterate_proofs.
From Verif Require Import Spec_Vec VecFacts Spec_Lin LinFacts.
From Verif Require Import Search Spec_Search Descent Minimisers QuasiNewton Solvers Minimisers_proofs Progress_proofs LeastSquares_proofs TrustRegion_proofs CG_proofs.
From Verif Require Import Spec_Steps Steps_proofs Spec_BFGSConv Convergence_proofs BFGSConv_proofs Spec_CGConv.
Import ListNotations.
Local Open Scope R_scope.

(** d1 is a Polak-Ribiere direction at a point with gradient g1, after the direction d0 at a point with gradient g0 *)
Definition follows (g1 g0 d0 d1 : list R) : Prop :=
  d1 = Rscal (-1) g1 \/
  exists b, 0 <= b /\ b * Rdot g0 g0 <= Rabs (Rdot g1 (Rsub_v g1 g0)) /\
    d1 = Radd_v (Rscal (-1) g1) (Rscal b d0) /\ Rdot g1 d1 < 0.

Lemma CS : forall n (a b : list R), length a = n -> length b = n -> (Rdot a b) ^ 2 <= Rdot a a * Rdot b b.
Proof.
  intros n a b La Lb. pose proof (Rdot_pos a). pose proof (Rdot_pos b).
  assert (Q : forall t, 0 <= Rdot a a + 2 * t * Rdot a b + t * t * Rdot b b).
  { intro t. pose proof (Rdot_pos (Radd_v a (Rscal t b))) as P. rewrite sq_add in P by (rewrite Rscal_length; congruence).
    rewrite Rdot_scal_l, !Rdot_scal_r in P. lra. }
  destruct (Req_dec (Rdot b b) 0) as [Z|Z].
  - assert (E : Rdot a b = 0) by (rewrite (Rdot_0_inv b Z); apply Rdot_0_r). rewrite E, Z. lra.
  - specialize (Q (- Rdot a b / Rdot b b)).
    replace (Rdot a a + 2 * (- Rdot a b / Rdot b b) * Rdot a b + - Rdot a b / Rdot b b * (- Rdot a b / Rdot b b) * Rdot b b)
      with (Rdot a a - Rdot a b ^ 2 / Rdot b b) in Q by (field; exact Z).
    assert (Rdot a b ^ 2 / Rdot b b * Rdot b b <= Rdot a a * Rdot b b) by (apply Rmult_le_compat_r; lra).
    replace (Rdot a b ^ 2 / Rdot b b * Rdot b b) with (Rdot a b ^ 2) in H1 by (field; exact Z). exact H1.
Qed.

Lemma sq_add_le : forall n (a b : list R), length a = n -> length b = n ->
  Rdot (Radd_v a b) (Radd_v a b) <= 2 * Rdot a a + 2 * Rdot b b.
Proof.
  intros n a b La Lb. pose proof (Rdot_pos (Radd_v a (Rscal (-1) b))) as P.
  rewrite sq_add in P by (rewrite Rscal_length; congruence). rewrite sq_add by congruence.
  rewrite Rdot_scal_l, !Rdot_scal_r in P. lra.
Qed.

Section Seq.
  Variables (n : nat) (m L de sl ini : R) (f : list R -> R) (g : list R -> list R).
  Hypothesis Hm : 0 < m.
  Hypothesis HL : 0 < L.
  Hypothesis HV : 0 < de < 1 /\ 0 < sl < 1 /\ 0 < ini.
  Hypothesis HS : smooth n L f g.
  Hypothesis HC : strongly_convex n m f g.
  Variables (y : nat -> list R) (t : nat -> R) (d : nat -> list R) (acc : nat -> bool).
  Hypothesis Ly : forall k, length (y k) = n.
  Hypothesis Ld : forall k, length (d k) = n.
  Hypothesis t0 : t 0%nat = ini.
  Hypothesis d0 : d 0%nat = Rscal (-1) (g (y 0%nat)).
  Hypothesis Rstep : forall k,
    (acc k = true /\ f (y (S k)) <= f (y k) + sl * t k * Rdot (g (y k)) (d k) /\
     y (S k) = Radd_v (y k) (Rscal (t k) (d k)) /\ t (S k) = ini /\
     follows (g (y (S k))) (g (y k)) (d k) (d (S k))) \/
    (acc k = false /\ f (y k) + sl * t k * Rdot (g (y k)) (d k) < f (Radd_v (y k) (Rscal (t k) (d k))) /\
     y (S k) = y k /\ t (S k) = de * t k /\ d (S k) = d k).
  Variable xs : list R.
  Hypothesis Lxs : length xs = n.
  Hypothesis Gxs : g xs = zerov n.

  Let G k := Rdot (g (y k)) (g (y k)).
  Let D k := Rdot (d k) (d k).
  Let a k := - Rdot (g (y k)) (d k).
  Let V k := f (y k) - f xs.

  Lemma cLg : forall k, length (g (y k)) = n.
  Proof. intro k. apply HS, Ly. Qed.
  Lemma cG_pos : forall k, 0 <= G k. Proof. intro k. apply Rdot_pos. Qed.
  Lemma cD_pos : forall k, 0 <= D k. Proof. intro k. apply Rdot_pos. Qed.

  Lemma ct_pos : forall k, 0 < t k.
  Proof.
    induction k as [|k IH]; [rewrite t0; lra|].
    destruct (Rstep k) as [(_ & _ & _ & -> & _)|(_ & _ & _ & -> & _)]; [lra|]. apply Rmult_lt_0_compat; lra.
  Qed.
  (** The direction is downhill or zero together with the gradient. *)
  Lemma ca_pos : forall k, d k = Rscal (-1) (g (y k)) \/ 0 < a k.
  Proof.
    induction k as [|k IH]; [left; exact d0|].
    destruct (Rstep k) as [(_ & _ & _ & _ & [F|(b & _ & _ & _ & F)])|(_ & _ & E1 & _ & E2)].
    - left. exact F.
    - right. unfold a. lra.
    - unfold a. rewrite E1, E2. exact IH.
  Qed.
  Lemma ca_nonneg : forall k, 0 <= a k.
  Proof.
    intro k. destruct (ca_pos k) as [E|E]; [|lra]. unfold a. rewrite E, Rdot_scal_r.
    pose proof (Rdot_pos (g (y k))). lra.
  Qed.
  Lemma cV_nonneg : forall k, 0 <= V k.
  Proof.
    intro k. pose proof (above_minimiser n m f g xs (y k) HC Lxs Gxs (Ly k)).
    pose proof (Rdot_pos (Rsub_v (y k) xs)). unfold V.
    assert (0 <= m / 2 * Rdot (Rsub_v (y k) xs) (Rsub_v (y k) xs)) by (apply Rmult_le_pos; lra). lra.
  Qed.
  Lemma cgg_V : forall k, 2 * m * V k <= G k.
  Proof. intro k. apply (gradient_dominates n m L f g Hm HS HC (y k) xs); [apply Ly|exact Lxs]. Qed.
  Lemma cdescends : forall k, V (S k) <= V k.
  Proof.
    intro k. unfold V. destruct (Rstep k) as [(_ & A & _)|(_ & _ & -> & _)]; [|lra].
    pose proof (ca_nonneg k) as Q. pose proof (ct_pos k). unfold a in Q.
    assert (0 <= sl * t k * (- Rdot (g (y k)) (d k))) by (apply Rmult_le_pos; [apply Rmult_le_pos; lra|lra]). lra.
  Qed.

  (** A step size below ini was reached by a rejection. *)
  Lemma ct_low : forall k, t k = ini \/ 2 * de * (1 - sl) * a k <= L * t k * D k.
  Proof.
    induction k as [|k IH]; [left; exact t0|].
    destruct (Rstep k) as [(_ & _ & _ & E & _)|(_ & R & E1 & E2 & E3)]; [left; exact E|]. right.
    unfold a, D. rewrite E1, E2, E3. pose proof (ct_pos k) as T.
    pose proof (proj2 HS (y k) (Rscal (t k) (d k)) (Ly k) ltac:(rewrite Rscal_length; apply Ld)) as U.
    rewrite Rdot_scal_r, Rdot_scal_l, Rdot_scal_r in U. set (s := Rdot (g (y k)) (d k)) in *. set (q := Rdot (d k) (d k)) in *.
    assert (K : t k * (2 * (1 - sl) * - s) <= t k * (L * t k * q)) by lra.
    apply Rmult_le_reg_l in K; [|exact T]. apply (Rmult_le_compat_l de) in K; lra.
  Qed.

  (** What an accepted step gains bounds its length. *)
  Lemma cstep_length : forall k, acc k = true -> m / 2 * (t k * t k * D k) <= (/ sl - 1) * (V k - V (S k)).
  Proof.
    intros k Ac. destruct (Rstep k) as [(_ & A & E & _)|(X & _)]; [|congruence].
    pose proof (HC (y k) (Rscal (t k) (d k)) (Ly k) ltac:(rewrite Rscal_length; apply Ld)) as U.
    rewrite <- E in U. rewrite Rdot_scal_r, Rdot_scal_l, Rdot_scal_r in U. unfold V, D.
    set (s := Rdot (g (y k)) (d k)) in *. set (q := Rdot (d k) (d k)) in *.
    assert (K : t k * - s <= / sl * (f (y k) - f (y (S k)))).
    { apply (Rmult_le_reg_l sl); [lra|]. rewrite <- (Rmult_assoc sl (/ sl)), Rinv_r by lra. lra. }
    lra.
  Qed.

  Definition cA : R := L * L * ((/ sl - 1) / (m * m)).
  Lemma cA_pos : 0 < cA.
  Proof.
    unfold cA. assert (1 < / sl) by (rewrite <- Rinv_1; apply Rinv_lt_contravar; lra).
    apply Rmult_lt_0_compat; [nra|]. apply Rdiv_lt_0_compat; [lra|nra].
  Qed.

  Lemma cdir : forall k r rho, acc k = true -> 0 < G k -> 0 <= r -> 0 <= rho -> D k <= r * G k -> V k - V (S k) <= rho * V k ->
    D (S k) <= (2 + 2 * (cA * rho * r)) * G (S k) /\ (cA * rho * r <= / 4 -> G (S k) <= 2 * a (S k)).
  Proof.
    intros k r rho Ac G0 r0 rho0 HD Hrho.
    assert (AR : 0 <= cA * rho * r) by (pose proof cA_pos; apply Rmult_le_pos; [apply Rmult_le_pos|]; lra).
    pose proof (cG_pos (S k)) as G1. pose proof (cD_pos k) as D0. pose proof (cstep_length k Ac) as SLen.
    destruct (Rstep k) as [(_ & A & E & _ & F)|(X & _)]; [|congruence].
    destruct F as [F|(b & b0 & Hb & F & Fd)].
    { unfold D, a. rewrite F, Rdot_scal_l, !Rdot_scal_r. fold (G (S k)).
      replace (-1 * (-1 * G (S k))) with (G (S k)) by ring.
      assert (0 <= (cA * rho * r) * G (S k)) by (apply Rmult_le_pos; lra). split; [lra|]. intros _. lra. }
    set (w := Rsub_v (g (y (S k))) (g (y k))) in *.
    assert (Lw : length w = n) by (apply Rsub_v_length; apply cLg).
    (* |w|^2 <= L^2 |t d|^2 *)
    assert (W : Rdot w w <= L * L * (t k * t k * D k)).
    { assert (Lt : length (Rscal (t k) (d k)) = n) by (rewrite Rscal_length; apply Ld).
      pose proof (cocoercive n m L f g Hm HL HS HC (y k) (Rscal (t k) (d k)) (Ly k) Lt) as C. cbv zeta in C.
      rewrite <- E in C. fold w in C. pose proof (CS n w (Rscal (t k) (d k)) Lw Lt) as Q.
      set (z := Rdot w (Rscal (t k) (d k))) in *.
      rewrite Rdot_scal_l, Rdot_scal_r in Q. fold (D k) in Q.
      set (ww := Rdot w w) in *. set (dd := t k * (t k * D k)) in *.
      replace (L * L * (t k * t k * D k)) with (L * L * dd) by (unfold dd; ring).
      pose proof (Rdot_pos w) as P. fold ww in P.
      assert (ww * ww <= (L * z) * (L * z)) by (apply Rmult_le_compat; lra).
      destruct (Req_dec ww 0) as [Z|Z]; [|].
      - rewrite Z. assert (0 <= dd) by (unfold dd; pose proof (ct_pos k); repeat apply Rmult_le_pos; lra). nra.
      - apply (Rmult_le_reg_l ww); [lra|]. nra. }
    (* |t d|^2 <= E rho G *)
    assert (ST : t k * t k * D k <= (/ sl - 1) / (m * m) * rho * G k).
    { assert (S1 : 0 < / sl - 1) by (assert (1 < / sl) by (rewrite <- Rinv_1; apply Rinv_lt_contravar; lra); lra).
      pose proof (cgg_V k) as GV. set (c := / sl - 1) in *.
      assert (m / 2 * (t k * t k * D k) <= c * (rho * V k)).
      { eapply Rle_trans; [exact SLen|]. apply Rmult_le_compat_l; lra. }
      assert (X1 : c * rho * (2 * m * V k) <= c * rho * G k) by (apply Rmult_le_compat_l; [apply Rmult_le_pos; lra|exact GV]).
      apply (Rmult_le_reg_l (m * m)); [nra|].
      replace (m * m * (c / (m * m) * rho * G k)) with (c * rho * G k) by (field; lra).
      assert (m * (m / 2 * (t k * t k * D k)) <= m * (c * (rho * V k))) by (apply Rmult_le_compat_l; lra). lra. }
    set (B2 := b * b * D k).
    assert (HB : B2 <= cA * rho * r * G (S k)).
    { assert (Q : (Rdot (g (y (S k))) w) ^ 2 <= G (S k) * Rdot w w) by (apply (CS n); [apply cLg|exact Lw]).
      assert (b2 : (b * G k) ^ 2 <= (Rdot (g (y (S k))) w) ^ 2).
      { rewrite <- (pow2_abs (Rdot _ w)). apply pow_incr. split; [apply Rmult_le_pos; lra|exact Hb]. }
      apply (Rmult_le_reg_l (G k * G k)); [nra|].
      assert (X1 : (b * G k) ^ 2 * D k <= G (S k) * (L * L * (t k * t k * D k)) * D k).
      { apply Rmult_le_compat_r; [exact D0|]. eapply Rle_trans; [exact b2|]. eapply Rle_trans; [exact Q|]. apply Rmult_le_compat_l; assumption. }
      assert (X2 : G (S k) * (L * L * (t k * t k * D k)) * D k <= G (S k) * (L * L * ((/ sl - 1) / (m * m) * rho * G k)) * (r * G k)).
      { apply Rmult_le_compat; [|exact D0| |exact HD].
        - pose proof (ct_pos k). repeat apply Rmult_le_pos; lra.
        - apply Rmult_le_compat_l; [exact G1|]. apply Rmult_le_compat_l; [nra|exact ST]. }
      unfold cA, B2. lra. }
    split.
    - unfold D. rewrite F. eapply Rle_trans; [apply (sq_add_le n); rewrite Rscal_length; [apply cLg|apply Ld]|].
      rewrite !Rdot_scal_l, !Rdot_scal_r. fold (D k). fold (G (S k)). unfold B2 in HB. lra.
    - intro H4. unfold a. rewrite F, Rdot_add_r by (rewrite !Rscal_length, cLg, Ld; reflexivity). rewrite !Rdot_scal_r. fold (G (S k)).
      pose proof (CS n (g (y (S k))) (d k) (cLg _) (Ld k)) as Q. fold (G (S k)) (D k) in Q. set (z := Rdot (g (y (S k))) (d k)) in *.
      assert (X : (b * z) ^ 2 <= (G (S k) / 2) ^ 2).
      { assert (b * b * z ^ 2 <= b * b * (G (S k) * D k)) by (apply Rmult_le_compat_l; nra).
        assert (G (S k) * B2 <= G (S k) * (/ 4 * G (S k))).
        { apply Rmult_le_compat_l; [exact G1|]. eapply Rle_trans; [exact HB|]. apply Rmult_le_compat_r; assumption. }
        unfold B2 in *. nra. }
      assert (b * z <= G (S k) / 2) by (apply Rnot_lt_le; intro Hlt; nra). lra.
  Qed.

  Definition crho : R := Rmin (/ 2) (Rmin (/ (48 * cA)) (Rmin (sl * ini * m) (sl * de * (1 - sl) * m / (8 * L)))).
  Lemma crho_range : 0 < crho <= / 2 /\ cA * crho <= / 48 /\ crho <= sl * ini * m /\ crho <= sl * de * (1 - sl) * m / (8 * L).
  Proof.
    pose proof cA_pos as A0. destruct HV as (V1 & V2 & V3).
    assert (P1 : 0 < sl * ini * m) by (repeat apply Rmult_lt_0_compat; lra).
    assert (P2 : 0 < sl * de * (1 - sl) * m / (8 * L)) by (apply Rdiv_lt_0_compat; [repeat apply Rmult_lt_0_compat; lra|lra]).
    assert (P3 : 0 < / (48 * cA)) by (apply Rinv_0_lt_compat; lra).
    unfold crho. set (u := Rmin (sl * ini * m) (sl * de * (1 - sl) * m / (8 * L))).
    assert (0 < u) by (apply Rmin_glb_lt; assumption).
    pose proof (Rmin_l (sl * ini * m) (sl * de * (1 - sl) * m / (8 * L))). pose proof (Rmin_r (sl * ini * m) (sl * de * (1 - sl) * m / (8 * L))).
    fold u in H0, H1. set (v := Rmin (/ (48 * cA)) u). assert (0 < v) by (apply Rmin_glb_lt; assumption).
    pose proof (Rmin_l (/ (48 * cA)) u). pose proof (Rmin_r (/ (48 * cA)) u). fold v in H3, H4.
    pose proof (Rmin_l (/ 2) v). pose proof (Rmin_r (/ 2) v). assert (0 < Rmin (/ 2) v) by (apply Rmin_glb_lt; lra).
    split; [lra|]. split; [|lra].
    apply Rle_trans with (cA * / (48 * cA)); [apply Rmult_le_compat_l; lra|]. right. field. lra.
  Qed.

  Lemma cgood : forall k, acc k = true -> G k <= 2 * a k -> D k <= 8 * G k -> crho * V k <= V k - V (S k).
  Proof.
    intros k Ac HG HD. destruct crho_range as (R1 & _ & R2 & R3). pose proof (cV_nonneg k) as V0. pose proof (cgg_V k) as GV.
    pose proof (ct_pos k) as T. destruct HV as (V1 & V2 & V3).
    assert (A : sl * t k * a k <= V k - V (S k)).
    { destruct (Rstep k) as [(_ & A & _)|(X & _)]; [|congruence]. unfold a, V. lra. }
    eapply Rle_trans; [|exact A]. destruct (ct_low k) as [E|E].
    - rewrite E. apply Rle_trans with (sl * ini * m * V k); [apply Rmult_le_compat_r; assumption|].
      rewrite !Rmult_assoc. apply Rmult_le_compat_l; [lra|]. apply Rmult_le_compat_l; lra.
    - apply Rle_trans with (sl * de * (1 - sl) * m / (8 * L) * V k); [apply Rmult_le_compat_r; assumption|].
      apply (Rmult_le_reg_l (16 * L)); [lra|].
      replace (16 * L * (sl * de * (1 - sl) * m / (8 * L) * V k)) with (sl * (de * (1 - sl) * (2 * m * V k))) by (field; lra).
      assert (X1 : de * (1 - sl) * (2 * m * V k) <= de * (1 - sl) * (2 * a k)).
      { apply Rmult_le_compat_l; [apply Rmult_le_pos; lra|lra]. }
      assert (X2 : L * t k * D k <= L * t k * (16 * a k)) by (apply Rmult_le_compat_l; [apply Rmult_le_pos; lra|lra]).
      assert (sl * (de * (1 - sl) * (2 * m * V k)) <= sl * (L * t k * (16 * a k))) by (apply Rmult_le_compat_l; lra). lra.
  Qed.

  Variable p : nat.
  Hypothesis Hp : (1 <= p)%nat /\ (1 - crho) ^ p * (2 + 2 * cA) <= 2 / 3.

  Lemma cinv : forall k, V k <= 0 \/ exists j r, 8 <= r /\ D k <= r * G k /\ V k ^ p * r <= (2 / 3) ^ j * (8 * V 0%nat ^ p) /\
    ((count acc k <= 2 * j)%nat \/ ((count acc k <= 2 * j + 1)%nat /\ r = 8 /\ G k <= 2 * a k)).
  Proof.
    induction k as [|k [IH|(j & r & R8 & HD & W & C)]].
    - right. exists 0%nat, 8. split; [lra|]. split.
      { unfold D. rewrite d0, Rdot_scal_l, Rdot_scal_r. fold (G 0%nat). pose proof (cG_pos 0). lra. }
      split; [cbn [pow]; lra|]. left. cbn. lia.
    - left. pose proof (cdescends k). lra.
    - destruct (acc k) eqn:Ac.
      2:{ right. exists j, r. destruct (Rstep k) as [(X & _)|(_ & _ & E1 & _ & E2)]; [congruence|].
          unfold D, G, V, a. rewrite E1, E2. cbn [count]. rewrite Ac, Nat.add_0_r. auto. }
      destruct (Rle_dec (V k) 0) as [Z|NZ]; [left; pose proof (cdescends k); lra|].
      assert (V0 : 0 < V k) by lra. assert (G0 : 0 < G k) by (pose proof (cgg_V k); assert (0 < 2 * m * V k) by (repeat apply Rmult_lt_0_compat; lra); lra).
      pose proof (cV_nonneg (S k)) as V1. pose proof (cdescends k) as VD. destruct crho_range as (R1 & R2 & _).
      pose proof cA_pos as A0. right. cbn [count]. rewrite Ac.
      assert (GOOD : crho * V k <= V k - V (S k) -> (count acc k <= 2 * j + 1)%nat ->
        exists j0 r0, 8 <= r0 /\ D (S k) <= r0 * G (S k) /\ V (S k) ^ p * r0 <= (2 / 3) ^ j0 * (8 * V 0%nat ^ p) /\
        ((count acc k + 1 <= 2 * j0)%nat \/ ((count acc k + 1 <= 2 * j0 + 1)%nat /\ r0 = 8 /\ G (S k) <= 2 * a (S k)))).
      { intros Hg Hc. exists (S j), ((2 + 2 * cA) * r).
        assert (R8' : 1 * r <= (2 + 2 * cA) * r) by (apply Rmult_le_compat_r; lra).
        split; [lra|]. split.
        { destruct (cdir k r 1 Ac G0 ltac:(lra) ltac:(lra) HD ltac:(lra)) as (Q & _). eapply Rle_trans; [exact Q|].
          apply Rmult_le_compat_r; [apply cG_pos|]. lra. }
        split; [|left; lia].
        assert (P1 : V (S k) ^ p <= ((1 - crho) * V k) ^ p) by (apply pow_incr; lra). rewrite Rpow_mult_distr in P1.
        assert (0 <= V k ^ p) by (apply pow_le; lra).
        apply Rle_trans with ((1 - crho) ^ p * V k ^ p * ((2 + 2 * cA) * r)); [apply Rmult_le_compat_r; lra|].
        replace ((1 - crho) ^ p * V k ^ p * ((2 + 2 * cA) * r)) with ((1 - crho) ^ p * (2 + 2 * cA) * (V k ^ p * r)) by ring.
        apply Rle_trans with (2 / 3 * (V k ^ p * r)).
        - apply Rmult_le_compat_r; [apply Rmult_le_pos; lra|]. apply Hp.
        - cbn [pow]. lra. }
      destruct (Rle_dec (crho * V k) (V k - V (S k))) as [Hg|Hb]; [apply GOOD; [exact Hg|destruct C as [C|[C _]]; lia]|].
      destruct C as [C|(C & Er & Ga)]; [|exfalso; apply Hb, cgood; [exact Ac|exact Ga|rewrite <- Er; exact HD]].
      destruct (cdir k r crho Ac G0 ltac:(lra) ltac:(lra) HD ltac:(lra)) as (Q1 & Q2).
      assert (Ar : cA * crho * r <= / 48 * r) by (apply Rmult_le_compat_r; lra).
      assert (PV : 0 <= V (S k) ^ p <= V k ^ p) by (split; [apply pow_le; lra|apply pow_incr; lra]).
      destruct (Rle_dec r 12) as [H12|H12].
      + exists j, 8. split; [lra|]. split.
        { eapply Rle_trans; [exact Q1|]. apply Rmult_le_compat_r; [apply cG_pos|]. lra. }
        split.
        { eapply Rle_trans; [|exact W]. apply Rmult_le_compat; lra. }
        right. split; [lia|]. split; [reflexivity|]. apply Q2. lra.
      + exists (S j), (2 / 3 * r). split; [lra|]. split.
        { eapply Rle_trans; [exact Q1|]. apply Rmult_le_compat_r; [apply cG_pos|]. lra. }
        split; [|left; lia]. cbn [pow].
        assert (V (S k) ^ p * r <= V k ^ p * r) by (apply Rmult_le_compat_r; lra). lra.
  Qed.

  Definition csig : R := 1 - / (6 * INR p).
  Lemma csig_range : 0 <= csig < 1 /\ 2 / 3 <= (csig ^ 2) ^ p.
  Proof.
    destruct Hp as (P1 & _). assert (P2 : 1 <= INR p) by (apply (le_INR 1); exact P1).
    assert (I : 0 < / (6 * INR p) <= / 6).
    { split; [apply Rinv_0_lt_compat; lra|]. apply Rinv_le_contravar; lra. }
    unfold csig. split; [lra|]. rewrite <- pow_mult.
    pose proof (poly (2 * p) (- / (6 * INR p)) ) as Be.
    assert (Q : 1 + INR (2 * p) * - / (6 * INR p) <= (1 + - / (6 * INR p)) ^ (2 * p)).
    { clear Be. generalize (2 * p)%nat. intro N. set (e := / (6 * INR p)) in *. induction N as [|N IH]; [cbn; lra|].
      rewrite S_INR. cbn [pow]. pose proof (pos_INR N).
      assert (0 <= (1 + - e) ^ N) by (apply pow_le; lra).
      destruct (Rle_dec 0 (1 + INR N * - e)) as [Pn|Nn].
      - assert ((1 + - e) * (1 + INR N * - e) <= (1 + - e) * (1 + - e) ^ N) by (apply Rmult_le_compat_l; lra). nra.
      - assert (0 <= (1 + - e) * (1 + - e) ^ N) by (apply Rmult_le_pos; lra). lra. }
    rewrite mult_INR in Q. cbn [INR] in Q. replace ((1 + 1) * INR p * - / (6 * INR p)) with (- / 3) in Q by (field; lra).
    unfold Rminus. lra.
  Qed.

  Lemma crate : forall k, V k <= csig ^ (count acc k - 1) * V 0%nat.
  Proof.
    intro k. destruct csig_range as (S1 & S2). pose proof (cV_nonneg 0) as V0. pose proof (cV_nonneg k) as Vk.
    destruct (cinv k) as [Z|(j & r & R8 & _ & W & C)].
    { assert (0 <= csig ^ (count acc k - 1) * V 0%nat) by (apply Rmult_le_pos; [apply pow_le; lra|lra]). lra. }
    assert (X : V k ^ p <= ((csig ^ 2) ^ j * V 0%nat) ^ p).
    { rewrite Rpow_mult_distr, <- pow_mult, (Nat.mul_comm j p), pow_mult.
      assert (Pk : 0 <= V k ^ p) by (apply pow_le; lra). assert (P0 : 0 <= V 0%nat ^ p) by (apply pow_le; lra).
      assert (V k ^ p * 8 <= V k ^ p * r) by (apply Rmult_le_compat_l; lra).
      assert ((2 / 3) ^ j <= ((csig ^ 2) ^ p) ^ j) by (apply pow_incr; lra).
      assert ((2 / 3) ^ j * V 0%nat ^ p <= ((csig ^ 2) ^ p) ^ j * V 0%nat ^ p) by (apply Rmult_le_compat_r; lra). lra. }
    assert (Y : V k <= (csig ^ 2) ^ j * V 0%nat).
    { apply Rnot_lt_le. intro H. destruct Hp as (P1 & _).
      assert (N0 : 0 <= (csig ^ 2) ^ j * V 0%nat) by (apply Rmult_le_pos; [apply pow_le, pow_le; lra|lra]).
      assert (ST : forall q u v, 0 <= u < v -> u ^ (S q) < v ^ (S q)).
      { clear. induction q as [|q IH]; intros u v H; [cbn; lra|]. specialize (IH u v H).
        change (u * u ^ S q < v * v ^ S q). assert (0 <= u ^ S q) by (apply pow_le; lra). nra. }
      destruct p as [|q]; [lia|]. pose proof (ST q _ _ (conj N0 H)). lra. }
    eapply Rle_trans; [exact Y|]. apply Rmult_le_compat_r; [lra|]. rewrite <- pow_mult.
    apply pow_dec; [lra|]. destruct C as [C|[C _]]; lia.
  Qed.

  Lemma caccepts_again : forall k, exists j, (k <= j)%nat /\ acc j = true /\ y j = y k.
  Proof.
    intro k. pose proof (ct_pos k) as T. pose proof (ca_nonneg k) as A.
    assert (X : forall N, (exists j, (k <= j)%nat /\ acc j = true /\ y j = y k) \/
      (y (k + N)%nat = y k /\ d (k + N)%nat = d k /\ t (k + N)%nat = t k * de ^ N)).
    { induction N as [|N [IH|(I1 & I2 & I3)]]; [right|left; exact IH|].
      - rewrite Nat.add_0_r. cbn. rewrite Rmult_1_r. auto.
      - destruct (Rstep (k + N)) as [(Ac & _)|(_ & _ & E1 & E2 & E3)].
        + left. exists (k + N)%nat. split; [lia|]. auto.
        + right. rewrite Nat.add_succ_r. split; [congruence|]. split; [congruence|]. rewrite E2, I3. cbn. ring. }
    assert (Q : exists N, L * (t k * de ^ N) * D k <= 2 * (1 - sl) * a k).
    { destruct (Req_dec (D k) 0) as [Z|NZ].
      - exists 0%nat. rewrite Z, Rmult_0_r. apply Rmult_le_pos; lra.
      - assert (P : 0 < D k) by (pose proof (cD_pos k); lra).
        assert (A0 : 0 < a k).
        { destruct (ca_pos k) as [E|E]; [|exact E]. unfold a, D in *. rewrite E in *. rewrite Rdot_scal_l, Rdot_scal_r in P. rewrite Rdot_scal_r. lra. }
        set (z := L * t k * D k). assert (D0 : 0 < z) by (unfold z; repeat apply Rmult_lt_0_compat; lra).
        destruct (pow_lt_1_zero de ltac:(rewrite Rabs_pos_eq; lra) (2 * (1 - sl) * a k / z)
          ltac:(apply Rdiv_lt_0_compat; [repeat apply Rmult_lt_0_compat; lra|lra])) as [N HN].
        exists N. specialize (HN N ltac:(lia)). rewrite Rabs_pos_eq in HN by (apply pow_le; lra).
        apply (Rmult_lt_compat_l z) in HN; [|exact D0].
        replace (z * (2 * (1 - sl) * a k / z)) with (2 * (1 - sl) * a k) in HN by (field; lra). unfold z in HN. lra. }
    destruct Q as [N HN]. destruct (X N) as [?|(I1 & I2 & I3)]; [assumption|].
    destruct (Rstep (k + N)) as [(Ac & _)|(_ & R & _)].
    - exists (k + N)%nat. split; [lia|]. auto.
    - exfalso. rewrite I1, I2, I3 in R.
      pose proof (proj2 HS (y k) (Rscal (t k * de ^ N) (d k)) (Ly k) ltac:(rewrite Rscal_length; apply Ld)) as U.
      rewrite Rdot_scal_r, Rdot_scal_l, Rdot_scal_r in U. fold (D k) in U. unfold a in HN, A. set (s := Rdot (g (y k)) (d k)) in *.
      assert (T' : 0 < t k * de ^ N) by (apply Rmult_lt_0_compat; [lra|apply pow_lt; lra]).
      set (u := t k * de ^ N) in *.
      assert (u * (L * u * D k) <= u * (2 * (1 - sl) * - s)) by (apply Rmult_le_compat_l; lra). lra.
  Qed.
  Lemma ccount_grows : forall N, exists k, (N <= count acc k)%nat.
  Proof.
    induction N as [|N [k IH]]; [exists 0%nat; lia|]. destruct (caccepts_again k) as (j & J1 & J2 & _).
    exists (S j). cbn [count]. rewrite J2. pose proof (count_mono acc k j J1). lia.
  Qed.

  Lemma cconverges : forall tau, 0 < tau -> exists K, forall k, (K <= k)%nat -> V k <= tau.
  Proof.
    intros tau T0. destruct csig_range as (HR & _). pose proof (cV_nonneg 0) as V0.
    destruct (pow_lt_1_zero csig ltac:(rewrite Rabs_pos_eq; lra) (tau / (V 0%nat + 1)) ltac:(apply Rdiv_lt_0_compat; lra)) as [N HN].
    destruct (ccount_grows (S N)) as [K HK]. exists K. intros k Hk.
    eapply Rle_trans; [apply crate|]. pose proof (count_mono acc K k Hk).
    specialize (HN (count acc k - 1)%nat ltac:(lia)). rewrite Rabs_pos_eq in HN by (apply pow_le; lra).
    set (c := csig ^ (count acc k - 1)) in *. assert (0 <= c) by (apply pow_le; lra).
    assert (c * (V 0%nat + 1) <= tau).
    { left. apply (Rmult_lt_compat_r (V 0%nat + 1)) in HN; [|lra]. unfold Rdiv in HN. rewrite Rmult_assoc, Rinv_l, Rmult_1_r in HN by lra. exact HN. }
    lra.
  Qed.

  Lemma csmall_step : forall atol, 0 < atol -> exists j, acc j = true /\
    f (y j) - f (y (S j)) < atol /\ f (y (S j)) <= f (y j) /\
    Rdot (Rsub_v (y (S j)) (y j)) (Rsub_v (y (S j)) (y j)) < atol * atol.
  Proof.
    intros atol A0. assert (S1 : 0 < / sl - 1) by (assert (1 < / sl) by (rewrite <- Rinv_1; apply Rinv_lt_contravar; lra); lra).
    set (c := m / 2 / (/ sl - 1)). assert (c0 : 0 < c) by (apply Rdiv_lt_0_compat; lra).
    assert (P2 : 0 < c * (atol * atol)) by (apply Rmult_lt_0_compat; [exact c0|nra]).
    set (tau := Rmin (atol / 2) (c * (atol * atol) / 2)). assert (T0 : 0 < tau) by (apply Rmin_glb_lt; lra).
    destruct (cconverges tau T0) as [K HK]. destruct (caccepts_again K) as (j & J1 & J2 & _).
    exists j. split; [exact J2|]. specialize (HK j J1).
    pose proof (cV_nonneg (S j)) as V0. pose proof (cdescends j) as VD.
    pose proof (Rmin_l (atol / 2) (c * (atol * atol) / 2)) as M1. pose proof (Rmin_r (atol / 2) (c * (atol * atol) / 2)) as M2.
    fold tau in M1, M2. pose proof (cstep_length j J2) as SL. unfold V in *.
    split; [lra|]. split; [lra|].
    destruct (Rstep j) as [(_ & _ & E & _)|(X & _)]; [|congruence].
    rewrite E. rewrite (BFGSConv_proofs.sub_add n) by (try rewrite Rscal_length; auto). rewrite Rdot_scal_l, Rdot_scal_r.
    fold (D j). rewrite <- Rmult_assoc.
    apply (Rmult_lt_reg_l (m / 2)); [lra|]. eapply Rle_lt_trans; [exact SL|].
    apply Rle_lt_trans with ((/ sl - 1) * (c * (atol * atol) / 2)); [apply Rmult_le_compat_l; lra|].
    unfold c. replace ((/ sl - 1) * (m / 2 / (/ sl - 1) * (atol * atol) / 2)) with (m / 2 * (atol * atol) / 2) by (field; lra).
    assert (0 < m / 2 * (atol * atol)) by (repeat apply Rmult_lt_0_compat; lra). lra.
  Qed.
End Seq.

(** ** The run of the solver *)

Lemma pr_follows : forall n (eps : R) v (g1 g0 d0 : list R), 0 <= eps -> length g1 = n -> length g0 = n -> length d0 = n ->
  let q := cg_query (N:=RN) (polak_ribiere (N:=RN) eps) (EvalGrad (N:=RN) v g1) (d0, g0) in
  follows g1 g0 d0 (fst q) /\ length (fst q : list R) = n /\ snd q = g1.
Proof.
  intros n eps v g1 g0 d0 He L1 L0 Ld q.
  set (b := polak_ribiere (N:=RN) eps g1 g0 d0).
  set (cand := Radd_v (Rscal (-1) g1) (Rscal b d0)).
  assert (Lc : length cand = n) by (unfold cand; apply Radd_v_length; [exact (eq_trans (Rscal_length _ _) L1)|exact (eq_trans (Rscal_length _ _) Ld)]).
  assert (Q : q = (vwhere (N:=RN) (Rltb (Rdot g1 cand) 0) cand (Rscal (-1) g1), g1)).
  { unfold q, cg_query. cbv zeta. cbn [info_grad]. fold b. change (vscale (N:=RN) b d0) with (Rscal b d0). rewrite (vneg_RN g1), vadd_RN, vdot_RN. fold cand.
    cbn [nltb nofQ RN]. rewrite Q2R_0. reflexivity. }
  rewrite Q. cbn [fst snd]. rewrite vwhere_eq by exact (eq_trans Lc (eq_sym (eq_trans (Rscal_length _ _) L1))).
  split; [|split; [|reflexivity]].
  2:{ destruct (Rltb _ _); [exact Lc|rewrite Rscal_length; exact L1]. }
  destruct (Rltb (Rdot g1 cand) 0) eqn:E; [|left; reflexivity]. apply Rltb_true in E.
  right. exists b.
  assert (B : b = 0 \/ (0 < Rdot g0 g0 /\ b = Rmax (Rdot g1 (Rsub_v g1 g0) / Rdot g0 g0) 0)).
  { unfold b, polak_ribiere. cbv zeta. rewrite sum_squares_RN, vdot_RN, vsub_RN. cbn [nltb ndiv nmax nofQ RN].
    destruct (Rltb eps (Rdot g0 g0)) eqn:X; [right|left; rewrite Q2R_0; reflexivity].
    apply Rltb_true in X. rewrite Q2R_0. split; [lra|]. unfold nmax, nisnan. cbn [neqb nltb RN].
    rewrite !(proj2 (Reqb_true _ _) eq_refl). cbn [negb]. destruct (Rltb _ 0) eqn:Y.
    - apply Rltb_true in Y. rewrite Rmax_right by lra. reflexivity.
    - apply Rltb_false in Y. rewrite Rmax_left by lra. reflexivity. }
  split; [|split; [|split; [reflexivity|exact E]]].
  - destruct B as [->|(_ & ->)]; [lra|apply Rmax_r].
  - pose proof (Rabs_pos (Rdot g1 (Rsub_v g1 g0))). destruct B as [->|(P & ->)]; [lra|].
    unfold Rmax. destruct (Rle_dec _ 0); [lra|].
    replace (Rdot g1 (Rsub_v g1 g0) / Rdot g0 g0 * Rdot g0 g0) with (Rdot g1 (Rsub_v g1 g0)) by (field; lra). apply Rle_abs.
Qed.

Section Link.
  Context {Aux : Type}.
  Variables (P : ar_tols RN) (eps de sl ini : R).
  Variable grad_of : (list R -> R * Aux) -> list R -> list R.
  Variable fn : list R -> R * Aux.
  Variables (n : nat) (f : list R -> R) (g : list R -> list R) (y0 : list R) (fs : fillv -> R) (auxs : fillv -> Aux).
  Hypothesis He : 0 <= eps.
  Hypothesis HV : 0 < de < 1 /\ 0 < sl < 1 /\ 0 < ini.
  Hypothesis Hf : forall x, fst (fn x) = f x.
  Hypothesis Hg : forall x, grad_of fn x = g x.
  Hypothesis HGl : forall x, length x = n -> length (g x) = n.
  Hypothesis L0 : length y0 = n.
  Let search := armijo (N:=RN) de sl ini.
  Let descent := nonlinear_cg_descent (N:=RN) (polak_ribiere (N:=RN) eps).
  Let s := gradient_descent_solver (N:=RN) P search descent grad_of.
  Let st0 := gd_st0 (N:=RN) search descent y0 fs auxs.
  Let Yk : nat -> list R := y_at s fn y0 st0 (auxs fill0).
  Let Sk := st_at s fn y0 st0 (auxs fill0).
  Let y k : list R := Yk (S k).
  Let t k : R := gd_search_state (Sk (S k)).
  Let d k : list R := fst (gd_descent_state (Sk (S k))).
  Let acc k : bool := snd (fst (fst (se_step search (gd_first_step (Sk (S k))) (y k) (gd_y_eval (Sk (S k))) (gd_f_info (Sk (S k)))
    (Eval (N:=RN) (fst (fn (gd_y_eval (Sk (S k)))))) (gd_search_state (Sk (S k)))))).

  Lemma cl_first : y 0%nat = y0 /\ t 0%nat = ini /\ d 0%nat = Rscal (-1) (g (y 0%nat)) /\
    snd (gd_descent_state (Sk 1)) = g (y 0%nat).
  Proof.
    destruct (gd_step_cases _ _ _ _ _ _ _ _ _ _ (gd_trace_S (N:=RN) P search descent grad_of fn y0 fs auxs 0))
      as (step & ac & sr & sst & Es & E1 & E2 & E3 & E4 & E6 & E5).
    cbn in Es. injection Es as <- <- _ <-. destruct E5 as (E5 & _ & _ & E5d & _).
    assert (Ey : y 0%nat = y0) by exact E5. split; [exact Ey|]. split; [exact E2|].
    assert (LG : length (g (y 0%nat)) = n) by (apply HGl; rewrite Ey; exact L0).
    change (gd_descent_state (Sk 1) = cg_query (N:=RN) (polak_ribiere (N:=RN) eps) (EvalGrad (N:=RN) (fst (fn (y 0%nat))) (grad_of fn (y 0%nat)))
      (vfull (N:=RN) (length y0) (nofQ (n:=RN) 0), vfull (N:=RN) (length y0) (nofQ (n:=RN) 0))) in E5d.
    rewrite Hg in E5d.
    assert (Z : vfull (N:=RN) (length y0) (nofQ (n:=RN) 0) = zerov n).
    { unfold vfull, zerov. cbn [nofQ RN]. rewrite Q2R_0, L0. reflexivity. }
    rewrite Z in E5d. assert (LZ : length (zerov n) = n) by apply repeat_length.
    destruct (pr_follows n eps (fst (fn (y 0%nat))) (g (y 0%nat)) (zerov n) (zerov n) He LG LZ LZ) as (F & _ & F2).
    apply (fun z => eq_ind _ (fun q => follows (g (y 0%nat)) (zerov n) (zerov n) (fst q)) z _ (eq_sym E5d)) in F.
    split; [|exact (eq_trans (f_equal snd E5d) F2)].
    destruct F as [F|(b & _ & _ & F & _)]; [exact F|]. refine (eq_trans F _).
    clear - LG. rewrite <- LG. clear LG. induction (g (y 0%nat)) as [|u v IH]; [reflexivity|]. cbn. f_equal; [ring|exact IH].
  Qed.

  Lemma cl_step : forall k, length (y k) = n -> length (d k) = n -> snd (gd_descent_state (Sk (S k))) = g (y k) -> 0 < t k ->
    gd_y_eval (Sk (S k)) = Radd_v (y k) (Rscal (t k) (d k)) -> 0 <= - Rdot (g (y k)) (d k) ->
    length (y (S k)) = n /\ length (d (S k)) = n /\ snd (gd_descent_state (Sk (S (S k)))) = g (y (S k)) /\
    gd_y_eval (Sk (S (S k))) = Radd_v (y (S k)) (Rscal (t (S k)) (d (S k))) /\ gd_result (Sk (S (S k))) = successful /\
    ((acc k = true /\ f (y (S k)) <= f (y k) + sl * t k * Rdot (g (y k)) (d k) /\
     y (S k) = Radd_v (y k) (Rscal (t k) (d k)) /\ t (S k) = ini /\
     follows (g (y (S k))) (g (y k)) (d k) (d (S k)) /\
     gd_terminate (Sk (S (S k))) = cauchy_termination (N:=RN) (ar_rtol P) (ar_atol P) (ar_norm P)
        (y (S k)) (Rsub_v (y (S k)) (y k)) [f (y (S k))] [f (y (S k)) - f (y k)]) \/
    (acc k = false /\ f (y k) + sl * t k * Rdot (g (y k)) (d k) < f (Radd_v (y k) (Rscal (t k) (d k))) /\
     y (S k) = y k /\ t (S k) = de * t k /\ d (S k) = d k)).
  Proof.
    intros k LY LD EG T0 EY A0. pose proof (HGl _ LY) as LG.
    assert (HA1 : accepts_first search) by exact (proj1 (accepts_first_builtin RN) de sl ini).
    destruct (gd_first (N:=RN) P search descent grad_of fn y0 fs auxs HA1 (S k)) as [F1 F2].
    destruct (F2 ltac:(lia)) as [Ff _].
    destruct (gd_step_cases _ _ _ _ _ _ _ _ _ _ (gd_trace_S (N:=RN) P search descent grad_of fn y0 fs auxs (S k)))
      as (step & ac & sr & sst & Es & E1 & E2 & E3 & E4 & E6 & E5).
    assert (AC : acc k = ac) by (unfold acc; exact (f_equal (fun p => snd (fst (fst p))) Es)).
    change (t (S k) = sst) in E2.
    assert (EF : gd_first_step (Sk (S k)) = false).
    { apply not_true_iff_false; intro F; apply F1 in F; discriminate. }
    assert (F5 : gd_f_info (Sk (S k)) = EvalGrad (N:=RN) (f (y k)) (g (y k))).
    { refine (eq_trans Ff _). rewrite <- Hf, <- Hg. reflexivity. }
    assert (Es' : se_step search false (y k) (Radd_v (y k) (Rscal (t k) (d k)))
       (EvalGrad (N:=RN) (f (y k)) (g (y k)))
       (Eval (N:=RN) (f (Radd_v (y k) (Rscal (t k) (d k))))) (t k) = (step, ac, sr, sst)).
    { rewrite <- EY, <- EF, <- F5, <- !Hf. exact Es. }
    clear Es Ff. unfold search in Es'. cbn [se_step armijo] in Es'. unfold armijo_step in Es'. cbv zeta in Es'.
    rewrite <- (vadd_RN (y k)) in Es'. rewrite vsub_vadd in Es' by (rewrite Rscal_length; exact (eq_trans LD (eq_sym LY))).
    rewrite vadd_RN in Es'. cbn [compute_grad_dot as_min orb] in Es'. rewrite vdot_RN, Rdot_scal_r in Es'.
    set (q := Rdot (g (y k)) (d k)) in *.
    assert (RED : nleb (n:=RN) (t k * q)%R (nofQ (n:=RN) 0) = true).
    { cbn. apply Rleb_true. rewrite Q2R_0. assert (0 <= t k * - q) by (apply Rmult_le_pos; lra). lra. }
    rewrite RED, andb_true_r in Es'.
    injection Es' as Q1 Q2 SR Q4. rewrite Q2 in Q1, Q4.
    assert (ET : step = t (S k)) by congruence.
    assert (OK : ac = true <-> f (Radd_v (y k) (Rscal (t k) (d k))) <= f (y k) + sl * t k * q).
    { rewrite <- Q2. cbn [nleb nsub nmul RN]. rewrite Rleb_true. split; intro; lra. }
    assert (EV : gd_y_eval (Sk (S (S k))) = Radd_v (y (S k)) (Rscal (t (S k)) (d (S k)))).
    { refine (eq_trans E3 _). rewrite ET. exact (vadd_RN (y (S k)) (Rscal (t (S k)) (d (S k)))). }
    assert (RES : gd_result (Sk (S (S k))) = successful).
    { refine (eq_trans E6 _). rewrite <- SR. reflexivity. }
    destruct ac.
    - destruct E5 as (E5y & _ & _ & E5d & E5).
      assert (Ey : y (S k) = Radd_v (y k) (Rscal (t k) (d k))) by exact (eq_trans E5y EY).
      assert (LY' : length (y (S k)) = n) by (rewrite Ey; apply Radd_v_length; [exact LY|rewrite Rscal_length; exact LD]).
      change (gd_descent_state (Sk (S (S k))) = cg_query (N:=RN) (polak_ribiere (N:=RN) eps) (EvalGrad (N:=RN) (fst (fn (y (S k)))) (grad_of fn (y (S k))))
        (gd_descent_state (Sk (S k)))) in E5d.
      rewrite Hg in E5d.
      assert (DS : gd_descent_state (Sk (S k)) = (d k, g (y k))) by (rewrite <- EG; apply surjective_pairing).
      rewrite DS in E5d.
      destruct (pr_follows n eps (fst (fn (y (S k)))) (g (y (S k))) (g (y k)) (d k) He (HGl _ LY') LG LD) as (F & FL & FG).
      apply (fun z => eq_ind _ (fun q => follows (g (y (S k))) (g (y k)) (d k) (fst q)) z _ (eq_sym E5d)) in F.
      apply (fun z => eq_trans (f_equal (fun q => length (fst q)) E5d) z) in FL. apply (fun z => eq_trans (f_equal snd E5d) z) in FG.
      split; [exact LY'|]. split; [exact FL|]. split; [exact FG|]. split; [exact EV|]. split; [exact RES|]. left.
      split; [exact AC|]. split; [rewrite Ey; apply OK; reflexivity|]. split; [exact Ey|]. split; [congruence|]. split; [exact F|].
      change (gd_terminate (Sk (S (S k))) = if gd_first_step (Sk (S k)) then false else
        cauchy_termination (N:=RN) (ar_rtol P) (ar_atol P) (ar_norm P) (y (S k)) (vsub (N:=RN) (y (S k)) (y k))
          [fst (fn (y (S k)))] [nsub (n:=RN) (fst (fn (y (S k)))) (as_min (gd_f_info (Sk (S k))))]) in E5.
      rewrite EF, F5, vsub_RN, Hf in E5. exact E5.
    - destruct E5 as (E5y & _ & _ & E5d & E5).
      change (gd_descent_state (Sk (S (S k))) = gd_descent_state (Sk (S k))) in E5d.
      assert (Ey : y (S k) = y k) by exact E5y. assert (Ed : d (S k) = d k) by (unfold d; rewrite E5d; reflexivity).
      split; [rewrite Ey; exact LY|]. split; [rewrite Ed; exact LD|]. split; [rewrite E5d, Ey; exact EG|]. split; [exact EV|]. split; [exact RES|].
      right. split; [exact AC|]. split; [apply Rnot_le_lt; intro X; apply OK in X; discriminate|].
      split; [exact Ey|]. split; [congruence|exact Ed].
  Qed.

  Lemma cl_inv : forall k, length (y k) = n /\ length (d k) = n /\ snd (gd_descent_state (Sk (S k))) = g (y k) /\ 0 < t k /\
    gd_y_eval (Sk (S k)) = Radd_v (y k) (Rscal (t k) (d k)) /\ 0 <= - Rdot (g (y k)) (d k).
  Proof.
    induction k as [|k (I1 & I2 & I3 & I4 & I5 & I6)].
    - destruct cl_first as (E1 & E2 & E3 & E4). assert (LY : length (y 0%nat) = n) by (rewrite E1; exact L0).
      assert (LD : length (d 0%nat) = n) by (rewrite E3, Rscal_length; apply HGl; exact LY).
      split; [exact LY|]. split; [exact LD|]. split; [exact E4|]. split; [rewrite E2; apply HV|]. split.
      + destruct (gd_step_cases _ _ _ _ _ _ _ _ _ _ (gd_trace_S (N:=RN) P search descent grad_of fn y0 fs auxs 0))
          as (step & ac & sr & sst & Es & F1 & F2 & F3 & F4 & F6 & F5).
        cbn in Es. injection Es as <- _ _ <-. change (t 0%nat = ini) in F2.
        refine (eq_trans F3 _). rewrite <- F2 at 1. exact (vadd_RN (y 0%nat) (Rscal (t 0%nat) (d 0%nat))).
      + rewrite E3, Rdot_scal_r. pose proof (Rdot_pos (g (y 0%nat))). lra.
    - destruct (cl_step k I1 I2 I3 I4 I5 I6) as (C1 & C2 & C3 & C4 & _ & C5). repeat (split; [assumption|]).
      destruct C5 as [(_ & _ & _ & Et & F & _)|(_ & _ & Ey & Et & Ed)].
      + split; [rewrite Et; apply HV|]. split; [exact C4|]. destruct F as [F|(b & _ & _ & _ & F)]; [|lra].
        rewrite F, Rdot_scal_r. pose proof (Rdot_pos (g (y (S k)))). lra.
      + split; [rewrite Et; apply Rmult_lt_0_compat; [apply HV|exact I4]|]. split; [exact C4|]. rewrite Ey, Ed. exact I6.
  Qed.
  Lemma cl_result : forall k, gd_result (Sk k) = successful.
  Proof.
    intros [|[|k]]; [reflexivity| |].
    - destruct (gd_step_cases _ _ _ _ _ _ _ _ _ _ (gd_trace_S (N:=RN) P search descent grad_of fn y0 fs auxs 0))
          as (step & ac & sr & sst & Es & F1 & F2 & F3 & F4 & F6 & F5).
      cbn in Es. injection Es as _ _ <- _. exact F6.
    - destruct (cl_inv k) as (I1 & I2 & I3 & I4 & I5 & I6). apply (cl_step k I1 I2 I3 I4 I5 I6).
  Qed.
  Let Ly k := proj1 (cl_inv k).
  Let Ld k := proj1 (proj2 (cl_inv k)).
  Lemma cl_Rstep : forall k,
    (acc k = true /\ f (y (S k)) <= f (y k) + sl * t k * Rdot (g (y k)) (d k) /\
     y (S k) = Radd_v (y k) (Rscal (t k) (d k)) /\ t (S k) = ini /\
     follows (g (y (S k))) (g (y k)) (d k) (d (S k))) \/
    (acc k = false /\ f (y k) + sl * t k * Rdot (g (y k)) (d k) < f (Radd_v (y k) (Rscal (t k) (d k))) /\
     y (S k) = y k /\ t (S k) = de * t k /\ d (S k) = d k).
  Proof.
    intro k. destruct (cl_inv k) as (I1 & I2 & I3 & I4 & I5 & I6).
    destruct (cl_step k I1 I2 I3 I4 I5 I6) as (_ & _ & _ & _ & _ & [(A1 & A2 & A3 & A4 & A5 & _)|C]); [left|right]; auto.
  Qed.
  Lemma cl_term : forall k, acc k = true -> gd_terminate (Sk (S (S k))) = cauchy_termination (N:=RN) (ar_rtol P) (ar_atol P) (ar_norm P)
        (y (S k)) (Rsub_v (y (S k)) (y k)) [f (y (S k))] [f (y (S k)) - f (y k)].
  Proof.
    intros k Ac. destruct (cl_inv k) as (I1 & I2 & I3 & I4 & I5 & I6).
    destruct (cl_step k I1 I2 I3 I4 I5 I6) as (_ & _ & _ & _ & _ & [(A1 & A2 & A3 & A4 & A5 & A6)|(X & _)]); [exact A6|congruence].
  Qed.

  Variables (m L : R).
  Hypothesis Hm : 0 < m.
  Hypothesis HL : 0 < L.
  Hypothesis HS : smooth n L f g.
  Hypothesis HC : strongly_convex n m f g.
  Variable xs : list R.
  Hypothesis Lxs : length xs = n.
  Hypothesis Gxs : g xs = zerov n.
  Variable p : nat.
  Hypothesis Hp : (1 <= p)%nat /\ (1 - crho m L de sl ini) ^ p * (2 + 2 * cA m L sl) <= 2 / 3.

  Lemma cl_moves : forall k, (moves Yk (S k) <= count acc k)%nat.
  Proof.
    induction k as [|k IH].
    - cbn [moves]. destruct (list_eq_dec Req_EM_T (Yk 0) (Yk 1)) as [_|N]; [cbn; lia|]. exfalso. apply N.
      symmetry. exact (proj1 cl_first).
    - change (moves Yk (S (S k))) with (moves Yk (S k) + if list_eq_dec Req_EM_T (y k) (y (S k)) then 0 else 1)%nat.
      cbn [count]. destruct (cl_Rstep k) as [(-> & _)|(-> & _ & E & _)]; destruct (list_eq_dec Req_EM_T (y k) (y (S k))); try lia.
      exfalso. apply n0. symmetry. exact E.
  Qed.
  Lemma cl_rate : forall k, f (Yk (S k)) - f xs <= csig p ^ (moves Yk (S k) - 1) * (f y0 - f xs).
  Proof.
    intro k. destruct (csig_range m L de sl ini HV p Hp) as (S1 & _).
    pose proof (crate n m L de sl ini f g Hm HL HV HS HC y t d acc Ly Ld (proj1 (proj2 cl_first)) (proj1 (proj2 (proj2 cl_first))) cl_Rstep xs Lxs Gxs p Hp k) as R.
    cbv beta zeta in R. pose proof (proj1 cl_first) as E. unfold y at 2 in R. unfold y in E. rewrite E in R.
    eapply Rle_trans; [exact R|]. apply Rmult_le_compat_r.
    - pose proof (cV_nonneg n m f g Hm HC y Ly xs Lxs Gxs 0) as V0. cbv beta in V0. unfold y in V0. rewrite E in V0. exact V0.
    - apply pow_dec; [lra|]. pose proof (cl_moves k). lia.
  Qed.
  Lemma cl_converges : forall tau, 0 < tau -> exists K, forall k, (K <= k)%nat -> f (Yk (S k)) - f xs <= tau.
  Proof.
    exact (cconverges n m L de sl ini f g Hm HL HV HS HC y t d acc Ly Ld (proj1 (proj2 cl_first)) (proj1 (proj2 (proj2 cl_first))) cl_Rstep xs Lxs Gxs p Hp).
  Qed.
  Lemma cl_descends : forall k, f (Yk (S (S k))) <= f (Yk (S k)).
  Proof.
    intro k. pose proof (cdescends de sl ini f g HV y t d acc (proj1 (proj2 cl_first)) (proj1 (proj2 (proj2 cl_first))) cl_Rstep xs k) as Q.
    cbv beta in Q. unfold y in Q. lra.
  Qed.
  Lemma cl_terminates : 0 < ar_atol P -> 0 <= ar_rtol P -> ar_norm P = max_norm ->
    exists k, gd_terminate (Sk k) = true.
  Proof.
    intros Ha Hr Hn.
    destruct (csmall_step n m L de sl ini f g Hm HL HV HS HC y t d acc Ly Ld (proj1 (proj2 cl_first)) (proj1 (proj2 (proj2 cl_first))) cl_Rstep xs Lxs Gxs p Hp
      (ar_atol P) Ha) as (j & J1 & J2 & J3 & J4).
    exists (S (S j)). pose proof (cl_term j J1) as T. rewrite Hn in T.
    destruct (gd_terminate (Sk (S (S j)))) eqn:E; [reflexivity|]. symmetry in T.
    apply cauchy_false_vec in T; [|exact Hr|exact Ha]. exfalso.
    destruct T as [(i & a & Ei & Q)|(i & a & Ei & Q)].
    - pose proof (Rdot_nth_le _ _ _ Ei) as X.
      assert (Rabs a * Rabs a = a * a) by (rewrite <- Rabs_mult; apply Rabs_pos_eq, Rle_0_sqr).
      assert (ar_atol P * ar_atol P <= Rabs a * Rabs a) by (apply Rmult_le_compat; lra). lra.
    - destruct i as [|[|i]]; try discriminate Ei. cbn in Ei. injection Ei as <-. rewrite Rabs_left1 in Q by lra. lra.
  Qed.
End Link.

Lemma cp_exists : forall m L de sl ini, 0 < m -> 0 < L -> 0 < de < 1 /\ 0 < sl < 1 /\ 0 < ini ->
  exists p, (1 <= p)%nat /\ (1 - crho m L de sl ini) ^ p * (2 + 2 * cA m L sl) <= 2 / 3.
Proof.
  intros m L de sl ini Hm HL HV. pose proof (cA_pos m L de sl ini Hm HL HV) as A. destruct (crho_range m L de sl ini Hm HL HV) as (R1 & _).
  destruct (pow_lt_1_zero (1 - crho m L de sl ini) ltac:(rewrite Rabs_pos_eq; lra) (2 / 3 / (2 + 2 * cA m L sl)) ltac:(apply Rdiv_lt_0_compat; lra)) as [N HN].
  exists (S N). split; [lia|]. specialize (HN (S N) ltac:(lia)). rewrite Rabs_pos_eq in HN by (apply pow_le; lra).
  left. apply (Rmult_lt_compat_r (2 + 2 * cA m L sl)) in HN; [|lra].
  replace (2 / 3 / (2 + 2 * cA m L sl) * (2 + 2 * cA m L sl)) with (2 / 3) in HN by (field; lra). exact HN.
Qed.

(** Nonlinear conjugate gradients with the Polak-Ribiere formula and Armijo backtracking (the defaults of
    NonlinearCG) converge globally and linearly: if f is L-smooth and mu-strongly convex, then f - min f shrinks
    with every step that moves, on average, by a factor rho < 1 which depends only on mu, L and the parameters of
    the search: neither on the number of unknowns nor on y0 nor on eps.  No Wolfe condition is tested and no
    restart is forced. *)
Lemma C109_rate_pf :
  forall (mu L decrease slope init : R), 0 < mu -> 0 < L -> 0 < decrease < 1 -> 0 < slope < 1 -> 0 < init ->
  exists rho, 0 <= rho < 1 /\
  forall (Aux : Type) (P : ar_tols RN) (eps : R) grad_of (fn : list R -> R * Aux) (n : nat)
         (f : list R -> R) (g : list R -> list R) (y0 xs : list R) fs auxs st0,
    0 <= eps -> smooth n L f g -> strongly_convex n mu f g ->
    (forall x, fst (fn x) = f x) -> (forall x, grad_of fn x = g x) ->
    length y0 = n -> length xs = n -> (forall x, length x = n -> f xs <= f x) ->
    let s := NonlinearCG (N:=RN) P grad_of (polak_ribiere (N:=RN) eps) (armijo (N:=RN) decrease slope init) in
    s_init s fn y0 fs auxs = Ret st0 ->
    let y : nat -> list R := y_at s fn y0 st0 (auxs fill0) in
    forall k, f (y k) - f xs <= rho ^ (moves y k - 1) * (f y0 - f xs) /\
      mu / 2 * Rdot (Rsub_v (y k) xs) (Rsub_v (y k) xs) <= f (y k) - f xs.
Proof.
  intros mu L de sl ini Hm HL V1 V2 V3. destruct (cp_exists mu L de sl ini Hm HL ltac:(auto)) as (p & Hp).
  exists (csig p). split; [exact (proj1 (csig_range mu L de sl ini (conj V1 (conj V2 V3)) p Hp))|].
  intros Aux P eps grad_of fn n f g y0 xs fs auxs st0 He HS HC Hf Hg L0 Lxs HM s Hi y k.
  pose proof (minimiser_stationary n L f g xs HL HS Lxs HM) as Gxs.
  unfold s, NonlinearCG in Hi. apply gd_init_inv in Hi. subst st0.
  destruct k as [|k].
  { change (y 0%nat) with y0. cbn [moves Nat.sub pow]. split; [lra|]. apply (above_minimiser n mu f g); assumption. }
  split.
  - exact (cl_rate P eps de sl ini grad_of fn n f g y0 fs auxs He (conj V1 (conj V2 V3)) Hf Hg (proj1 HS) L0 mu L Hm HL HS HC xs Lxs Gxs p Hp k).
  - apply (above_minimiser n mu f g); try assumption.
    exact (proj1 (cl_inv P eps de sl ini grad_of fn n f g y0 fs auxs He (conj V1 (conj V2 V3)) Hf Hg (proj1 HS) L0 k)).
Qed.

(** The iterates converge, from every starting point: f(y_k) comes within every tau > 0 of the minimum and stays
    there, and so does y_k within every tau of the minimiser; f never increases. *)
Lemma C109_converges_pf :
  forall (Aux : Type) (P : ar_tols RN) (mu L decrease slope init eps : R) grad_of (fn : list R -> R * Aux) (n : nat)
         (f : list R -> R) (g : list R -> list R) (y0 xs : list R) fs auxs st0,
    0 < mu -> 0 < L -> 0 < decrease < 1 -> 0 < slope < 1 -> 0 < init -> 0 <= eps ->
    smooth n L f g -> strongly_convex n mu f g ->
    (forall x, fst (fn x) = f x) -> (forall x, grad_of fn x = g x) ->
    length y0 = n -> length xs = n -> (forall x, length x = n -> f xs <= f x) ->
    let s := NonlinearCG (N:=RN) P grad_of (polak_ribiere (N:=RN) eps) (armijo (N:=RN) decrease slope init) in
    s_init s fn y0 fs auxs = Ret st0 ->
    let y : nat -> list R := y_at s fn y0 st0 (auxs fill0) in
    (forall k, f (y (S k)) <= f (y k)) /\
    forall tau, 0 < tau -> exists K, forall k, (K <= k)%nat ->
      f (y k) - f xs <= tau /\ Rdot (Rsub_v (y k) xs) (Rsub_v (y k) xs) <= tau.
Proof.
  intros Aux P mu L de sl ini eps grad_of fn n f g y0 xs fs auxs st0 Hm HL V1 V2 V3 He HS HC Hf Hg L0 Lxs HM s Hi y.
  destruct (cp_exists mu L de sl ini Hm HL ltac:(auto)) as (p & Hp).
  pose proof (minimiser_stationary n L f g xs HL HS Lxs HM) as Gxs.
  unfold s, NonlinearCG in Hi. apply gd_init_inv in Hi. subst st0.
  split.
  { intros [|k].
    - right. exact (f_equal f (proj1 (cl_first P eps de sl ini grad_of fn n g y0 fs auxs He Hg (proj1 HS) L0))).
    - exact (cl_descends P eps de sl ini grad_of fn n f g y0 fs auxs He (conj V1 (conj V2 V3)) Hf Hg (proj1 HS) L0 xs k). }
  intros tau T0.
  destruct (cl_converges P eps de sl ini grad_of fn n f g y0 fs auxs He (conj V1 (conj V2 V3)) Hf Hg (proj1 HS) L0 mu L Hm HL HS HC xs Lxs Gxs p Hp
    (Rmin tau (mu / 2 * tau))) as [K HK].
  { apply Rmin_glb_lt; [exact T0|apply Rmult_lt_0_compat; lra]. }
  exists (S K). intros [|k] Hk; [inversion Hk|]. specialize (HK k (le_S_n _ _ Hk)).
  destruct (cl_inv P eps de sl ini grad_of fn n f g y0 fs auxs He (conj V1 (conj V2 V3)) Hf Hg (proj1 HS) L0 k) as (LY & _).
  pose proof (above_minimiser n mu f g xs _ HC Lxs Gxs LY) as AB.
  split; [eapply Rle_trans; [exact HK|apply Rmin_l]|].
  apply (Rmult_le_reg_l (mu / 2)); [lra|]. eapply Rle_trans; [exact AB|]. eapply Rle_trans; [exact HK|apply Rmin_r].
Qed.

(** With the default termination (max_norm, atol > 0, rtol >= 0) the solve stops, reports success and returns a
    point no worse than y0, from every starting point. *)
Lemma C109_terminates_pf :
  forall (Aux : Type) (rtol atol mu L decrease slope init eps : R) grad_of (fn : list R -> R * Aux) (n : nat)
         (f : list R -> R) (g : list R -> list R) (y0 xs : list R) fs auxs,
    0 < mu -> 0 < L -> 0 < decrease < 1 -> 0 < slope < 1 -> 0 < init -> 0 <= eps -> 0 < atol -> 0 <= rtol ->
    smooth n L f g -> strongly_convex n mu f g ->
    (forall x, fst (fn x) = f x) -> (forall x, grad_of fn x = g x) ->
    length y0 = n -> length xs = n -> (forall x, length x = n -> f xs <= f x) ->
    let s := NonlinearCG (N:=RN) (mkTols rtol atol max_norm) grad_of (polak_ribiere (N:=RN) eps) (armijo (N:=RN) decrease slope init) in
    exists k, forall fuel budget throw, (k < fuel)%nat -> (forall m, budget = Some m -> (k <= m)%nat) ->
      exists sol, iterative_solve (vallfinite (N:=RN)) s fn fuel budget throw y0 fs auxs = Ret sol /\
        result sol = successful /\ f (value sol) <= f y0 /\
        hd_error (sol_stats sol) = Some ("num_steps"%string, Some (Z.of_nat k)).
Proof.
  intros Aux rtol atol mu L de sl ini eps grad_of fn n f g y0 xs fs auxs Hm HL V1 V2 V3 He Ha Hr HS HC Hf Hg L0 Lxs HM s.
  set (P := mkTols (N:=RN) rtol atol max_norm) in *.
  destruct (cp_exists mu L de sl ini Hm HL ltac:(auto)) as (p & Hp).
  pose proof (minimiser_stationary n L f g xs HL HS Lxs HM) as Gxs.
  set (st0 := gd_st0 (N:=RN) (armijo (N:=RN) de sl ini) (nonlinear_cg_descent (N:=RN) (polak_ribiere (N:=RN) eps)) y0 fs auxs).
  assert (Hi : s_init s fn y0 fs auxs = Ret st0) by reflexivity.
  destruct (cl_terminates P eps de sl ini grad_of fn n f g y0 fs auxs He (conj V1 (conj V2 V3)) Hf Hg (proj1 HS) L0 mu L Hm HL HS HC xs Lxs Gxs p Hp Ha Hr eq_refl) as [k0 T].
  assert (T' : says_terminate s fn y0 st0 (auxs fill0) k0 = true) by exact T.
  assert (SR : forall k, says_result s fn y0 st0 (auxs fill0) k = successful).
  { exact (cl_result P eps de sl ini grad_of fn n f g y0 fs auxs He (conj V1 (conj V2 V3)) Hf Hg (proj1 HS) L0). }
  assert (AF : forall v : list R, vallfinite (N:=RN) v = true).
  { intro v. unfold vallfinite. induction v; auto. }
  destruct (solve_succeeds (vallfinite (N:=RN)) s fn y0 st0 _ fs auxs eq_refl Hi SR (fun k => AF _) (ex_intro _ _ T'))
    as (k1 & K1 & K2 & K3).
  exists k1. intros fuel budget throw Hfu Hb. destruct (K3 fuel budget throw Hfu Hb) as (K4 & K5).
  eexists. split; [exact K4|]. split; [exact K5|]. split; [|reflexivity].
  destruct (C109_converges_pf Aux P mu L de sl ini eps grad_of fn n f g y0 xs fs auxs st0 Hm HL V1 V2 V3 He HS HC Hf Hg L0 Lxs HM Hi) as (DS & _).
  change (f (y_at s fn y0 st0 (auxs fill0) k1) <= f y0).
  clear - DS. induction k1 as [|k1 IH]; [right; reflexivity|]. eapply Rle_trans; [apply DS|exact IH].
Qed.

(** The coupled function x0^2 + x0 x1 + x1^2 with the parameters of the default search. *)
Example C109_rate_ex_pf :
  smooth 2 3 quad2 quad2_grad /\ strongly_convex 2 1 quad2 quad2_grad /\
  exists rho, 0 <= rho < 1 /\ forall P eps st0, 0 <= eps ->
    let s := NonlinearCG (N:=RN) (Aux:=unit) P (fun _ => quad2_grad) (polak_ribiere (N:=RN) eps) (armijo (N:=RN) (1/2) (1/10) 1) in
    s_init s (fun v => (quad2 v, tt)) [1; 0] (fun _ => 0) (fun _ => tt) = Ret st0 ->
    let y := y_at s (fun v => (quad2 v, tt)) [1; 0] st0 tt in
    forall k, quad2 (y k) <= rho ^ (moves y k - 1).
Proof.
  destruct quad2_facts as (HS & HC & HM). split; [exact HS|]. split; [exact HC|].
  destruct (C109_rate_pf 1 3 (1/2) (1/10) 1 ltac:(lra) ltac:(lra) ltac:(lra) ltac:(lra) ltac:(lra)) as (rho & HR & R).
  exists rho. split; [exact HR|]. intros P eps st0 He s Hi y k.
  destruct (R unit P eps (fun _ => quad2_grad) (fun v => (quad2 v, tt)) 2%nat quad2 quad2_grad [1; 0] [0; 0] (fun _ => 0) (fun _ => tt) st0
    He HS HC (fun _ => eq_refl) (fun _ => eq_refl) eq_refl eq_refl HM Hi k) as (Q & _).
  assert (E0 : quad2 [0; 0] = 0) by (cbn; ring). assert (E1 : quad2 [1; 0] = 1) by (cbn; ring).
  rewrite E0, E1, !Rminus_0_r, Rmult_1_r in Q. exact Q.
Qed.

Example C109_converges_ex_pf : forall P st0,
    let s := NonlinearCG (N:=RN) (Aux:=unit) P (fun _ => quad2_grad) (polak_ribiere (N:=RN) (1/100)) (armijo (N:=RN) (1/2) (1/10) 1) in
    s_init s (fun v => (quad2 v, tt)) [5; -3] (fun _ => 0) (fun _ => tt) = Ret st0 ->
    forall tau, 0 < tau -> exists K, forall k, (K <= k)%nat -> quad2 (y_at s (fun v => (quad2 v, tt)) [5; -3] st0 tt k) <= tau.
Proof.
  intros P st0 s Hi tau T0. destruct quad2_facts as (HS & HC & HM).
  destruct (C109_converges_pf unit P 1 3 (1/2) (1/10) 1 (1/100) (fun _ => quad2_grad) (fun v => (quad2 v, tt)) 2%nat quad2 quad2_grad [5; -3] [0; 0] (fun _ => 0) (fun _ => tt) st0
    ltac:(lra) ltac:(lra) ltac:(lra) ltac:(lra) ltac:(lra) ltac:(lra) HS HC (fun _ => eq_refl) (fun _ => eq_refl) eq_refl eq_refl HM Hi) as (_ & Q).
  destruct (Q tau T0) as [K HK]. exists K. intros k Hk. destruct (HK k Hk) as [X _].
  assert (E0 : quad2 [0; 0] = 0) by (cbn; ring). rewrite E0, Rminus_0_r in X. exact X.
Qed.

Example C109_terminates_ex_pf :
    let s := NonlinearCG (N:=RN) (Aux:=unit) (mkTols (1/1000) (1/1000) max_norm) (fun _ => quad2_grad) (polak_ribiere (N:=RN) (1/100)) (armijo (N:=RN) (1/2) (1/10) 1) in
    exists k, forall fuel throw, (k < fuel)%nat ->
      exists sol, iterative_solve (vallfinite (N:=RN)) s (fun v => (quad2 v, tt)) fuel None throw [5; -3] (fun _ => 0) (fun _ => tt) = Ret sol /\
        result sol = successful /\ quad2 (value sol) <= 19.
Proof.
  intros s. destruct quad2_facts as (HS & HC & HM).
  destruct (C109_terminates_pf unit (1/1000) (1/1000) 1 3 (1/2) (1/10) 1 (1/100) (fun _ => quad2_grad) (fun v => (quad2 v, tt)) 2%nat quad2 quad2_grad [5; -3] [0; 0] (fun _ => 0) (fun _ => tt)
    ltac:(lra) ltac:(lra) ltac:(lra) ltac:(lra) ltac:(lra) ltac:(lra) ltac:(lra) ltac:(lra) HS HC (fun _ => eq_refl) (fun _ => eq_refl) eq_refl eq_refl HM) as (k & K).
  exists k. intros fuel throw Hfu. destruct (K fuel None throw Hfu ltac:(discriminate)) as (sol & E1 & E2 & E3 & _).
  exists sol. split; [exact E1|]. split; [exact E2|]. assert (E5 : quad2 [5; -3] = 19) by (cbn; ring). rewrite <- E5. exact E3.
Qed.
