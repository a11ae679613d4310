(** Damped fixed-point iteration of maps that do not increase distances (C114). *)

From Coq Require Import String List Bool Arith Lia ZArith QArith Qreals Reals Lra Psatz ConstructiveEpsilon.
From Verif Require Import Num NumFacts NumDiv Vec Results Iterate Spec_Iterate Iterate_proofs.
From Verif Require Import Spec_Vec VecFacts Spec_Lin LinFacts FixedPoint FixedPoint_proofs Spec_Convex Spec_Nonexpansive.
Import ListNotations.
Local Open Scope R_scope.

(** ** Bounded sequences of vectors have convergent subsequences *)
Definition rises (phi : nat -> nat) : Prop := forall k, (phi k < phi (S k))%nat.
Lemma rises_le : forall phi, rises phi -> forall i j, (i <= j)%nat -> (phi i <= phi j)%nat.
Proof. intros phi H i j L. induction L as [|j L IH]; [lia|]. specialize (H j). lia. Qed.
Lemma rises_ge : forall phi, rises phi -> forall k, (k <= phi k)%nat.
Proof. intros phi H. induction k as [|k IH]; [lia|]. specialize (H k). lia. Qed.
Lemma rises_comp : forall p q, rises p -> rises q -> rises (fun k => p (q k)).
Proof. intros p q Hp Hq k. pose proof (rises_le p Hp (S (q k)) (q (S k)) (Hq k)). specialize (Hp (q k)). lia. Qed.
Lemma bw1 : forall (u : nat -> R) B, (forall k, Rabs (u k) <= B) -> exists phi l, rises phi /\ Un_cv (fun k => u (phi k)) l.
Proof.
  intros u B HB. destruct (Bolzano_Weierstrass u (fun c => - B <= c <= B) (compact_P3 (- B) B)) as (l & Hl).
  { intro k. specialize (HB k). unfold Rabs in HB. destruct (Rcase_abs _); lra. }
  assert (E : forall N e, 0 < e -> exists p, (N <= p)%nat /\ Rabs (u p - l) < e).
  { intros N e He. destruct (Hl (fun z => Rabs (z - l) < e) N) as (p & P1 & P2); [|exists p; auto].
    exists (mkposreal e He). intros z Hz. rewrite ?Ropp_0 in Hz; exact Hz. }
  assert (next : forall N (m : nat), {p : nat | (N <= p)%nat /\ Rabs (u p - l) < / INR (S m)}).
  { intros N m. apply constructive_indefinite_ground_description_nat.
    - intro p. destruct (le_dec N p) as [A|A]; [|right; tauto]. destruct (Rlt_dec (Rabs (u p - l)) (/ INR (S m))); [left; auto|right; tauto].
    - apply E. apply Rinv_0_lt_compat, lt_0_INR. lia. }
  set (phi := fix go (k : nat) := match k with O => proj1_sig (next 0%nat 0%nat) | S j => proj1_sig (next (S (go j)) (S j)) end).
  exists phi, l. split.
  - intro k. change (phi (S k)) with (proj1_sig (next (S (phi k)) (S k))). destruct (next (S (phi k)) (S k)) as (p & P1 & P2). cbn. lia.
  - assert (C : forall k, Rabs (u (phi k) - l) < / INR (S k)).
    { intros [|k]; [cbn [phi]; destruct (next 0%nat 0%nat) as (p & P); cbn [proj1_sig]; apply P|].
      change (phi (S k)) with (proj1_sig (next (S (phi k)) (S k))). destruct (next (S (phi k)) (S k)) as (p & P1 & P2). exact P2. }
    intros e He. destruct (archimed_cor1 e He) as (N & HN & N0). exists N. intros k Hk. unfold R_dist.
    eapply Rlt_trans; [apply C|]. eapply Rle_lt_trans; [|exact HN]. apply Rinv_le_contravar; [apply lt_0_INR; lia|apply le_INR; lia].
Qed.
Lemma bwv : forall n (x : nat -> list R) B, (forall k, length (x k) = n) -> (forall k, Rdot (x k) (x k) <= B) ->
  exists phi z, rises phi /\ length z = n /\ Un_cv (fun k => dist2 (x (phi k)) z) 0.
Proof.
  induction n as [|n IH]; intros x B HL HB.
  - exists (fun k => k), []. split; [intro k; lia|]. split; [reflexivity|]. intros e He. exists 0%nat. intros k _.
    unfold R_dist. specialize (HL k). destruct (x k); [|discriminate HL]. unfold dist2. cbn. rewrite Rminus_0_r, Rabs_R0. exact He.
  - set (a k := hd 0 (x k)). set (y k := tl (x k)).
    assert (X : forall k, x k = a k :: y k) by (intro k; unfold a, y; specialize (HL k); destruct (x k); [discriminate HL|reflexivity]).
    assert (LY : forall k, length (y k) = n) by (intro k; specialize (HL k); rewrite X in HL; injection HL as HL; exact HL).
    assert (DX : forall k, a k * a k + Rdot (y k) (y k) <= B) by (intro k; specialize (HB k); rewrite X in HB; exact HB).
    destruct (bw1 a (Rmax 1 B)) as (p & l & Hp & Hl).
    { intro k. specialize (DX k). pose proof (Rdot_pos (y k)). pose proof (Rmax_l 1 B). pose proof (Rmax_r 1 B). pose proof (Rabs_pos (a k)).
      assert (Rabs (a k) * Rabs (a k) <= B) by (rewrite <- Rabs_mult, Rabs_pos_eq by nra; lra). nra. }
    destruct (IH (fun k => y (p k)) B (fun k => LY _)) as (q & z & Hq & Lz & Hz).
    { intro k. specialize (DX (p k)). nra. }
    exists (fun k => p (q k)), (l :: z). split; [apply rises_comp; assumption|]. split; [cbn; lia|].
    assert (SUB : Un_cv (fun k => a (p (q k))) l).
    { intros e He. destruct (Hl e He) as (N & HN). exists N. intros k Hk. apply HN. pose proof (rises_ge q Hq k). lia. }
    assert (D0 : Un_cv (fun k => a (p (q k)) - l) 0).
    { replace 0 with (l - l) by ring. apply (CV_minus _ (fun _ => l)); [exact SUB|]. intros e He. exists 0%nat. intros. unfold R_dist. rewrite Rminus_diag_eq, Rabs_R0; auto. }
    pose proof (CV_plus _ _ _ _ (CV_mult _ _ _ _ D0 D0) Hz) as Q. replace (0 * 0 + 0) with 0 in Q by ring.
    intros e He. destruct (Q e He) as (N & HN). exists N. intros k Hk. specialize (HN k Hk). rewrite (X (p (q k))). exact HN.
Qed.

(** ** The inequality of Krasnoselskii and Mann *)
Definition mix (d : R) (a b : list R) : list R := vmap2 (fun a b => (1 - d) * a + d * b)%R a b.
Lemma dist2_pos : forall a b, 0 <= dist2 a b. Proof. intros. apply Rdot_pos. Qed.
Lemma dist2_cons : forall a b x z, dist2 (a :: x) (b :: z) = (a - b) * (a - b) + dist2 x z. Proof. reflexivity. Qed.
Lemma dist2_refl : forall a, dist2 a a = 0.
Proof. induction a as [|x a IH]; [reflexivity|]. rewrite dist2_cons, IH. ring. Qed.
Lemma dist2_sym : forall a b, dist2 a b = dist2 b a.
Proof. induction a as [|x a IH]; intros [|y b]; try reflexivity. rewrite !dist2_cons, IH. ring. Qed.
Lemma mix_dist : forall d a b p, length a = length b -> length b = length p ->
  dist2 (mix d a b) p = (1 - d) * dist2 a p + d * dist2 b p - d * (1 - d) * dist2 a b.
Proof.
  intros d a. induction a as [|x a IH]; intros [|y b] [|z p] H1 H2; try discriminate; [unfold dist2; cbn; ring|].
  unfold mix in *. cbn [vmap2]. rewrite !dist2_cons, IH by (cbn in *; lia). ring.
Qed.
Lemma mix_left : forall d a b, length a = length b -> dist2 a (mix d a b) = d * d * dist2 a b.
Proof.
  intros d a. induction a as [|x a IH]; intros [|y b] H1; try discriminate; [unfold dist2; cbn; ring|].
  unfold mix in *. cbn [vmap2]. rewrite !dist2_cons, IH by (cbn in *; lia). ring.
Qed.
Lemma mix_right : forall d a b, length a = length b -> dist2 (mix d a b) b = (1 - d) * (1 - d) * dist2 a b.
Proof.
  intros d a. induction a as [|x a IH]; intros [|y b] H1; try discriminate; [unfold dist2; cbn; ring|].
  unfold mix in *. cbn [vmap2]. rewrite !dist2_cons, IH by (cbn in *; lia). ring.
Qed.
Lemma dist2_weighted : forall d, 0 < d < 1 -> forall a b c, length a = length b -> length b = length c ->
  dist2 a c <= dist2 a b / (1 - d) + dist2 b c / d.
Proof.
  intros d Hd a. induction a as [|x a IH]; intros [|y b] [|z c] H1 H2; try discriminate; [unfold dist2; cbn; lra|].
  rewrite !dist2_cons. specialize (IH b c ltac:(cbn in *; lia) ltac:(cbn in *; lia)).
  assert (K : (x - z) * (x - z) <= (x - y) * (x - y) / (1 - d) + (y - z) * (y - z) / d).
  { apply (Rmult_le_reg_r (d * (1 - d))); [nra|].
    replace (((x - y) * (x - y) / (1 - d) + (y - z) * (y - z) / d) * (d * (1 - d))) with (d * ((x - y) * (x - y)) + (1 - d) * ((y - z) * (y - z))) by (field; lra).
    pose proof (Rle_0_sqr (d * (x - y) - (1 - d) * (y - z))). unfold Rsqr in *. nra. }
  unfold Rdiv in *. lra.
Qed.
Lemma dist2_tri2 : forall a b c, length a = length b -> length b = length c -> dist2 a c <= 2 * dist2 a b + 2 * dist2 b c.
Proof. intros a b c H1 H2. pose proof (dist2_weighted (1/2) ltac:(lra) a b c H1 H2). lra. Qed.
Lemma inf_le_dist2 : forall a b, Rdist_inf a b * Rdist_inf a b <= dist2 a b.
Proof.
  assert (G : forall v, Rmax_norm v * Rmax_norm v <= Rdot v v).
  { induction v as [|x v IH]; [cbn; lra|]. cbn. change (fold_right _ _ v) with (Rmax_norm v). pose proof (Rdot_pos v) as P.
    assert (E : Rabs x * Rabs x = x * x) by (rewrite <- Rabs_mult; apply Rabs_pos_eq; nra).
    unfold Rmax at 1 2. destruct (Rle_dec (Rabs x) (Rmax_norm v)); nra. }
  intros. apply G.
Qed.

Section KM.
  Variables (n : nat) (f : list R -> list R) (d : R) (y0 p : list R).
  Hypothesis HN : nonexpansive n f.
  Hypothesis Hd : 0 < d < 1.
  Hypothesis L0 : length y0 = n.
  Hypothesis Lp : length p = n.
  Hypothesis Hp : f p = p.
  Let x := rorbit d f y0.
  Lemma x_len : forall k, length (x k) = n. Proof. intro k. apply orbit_length; [apply HN|exact L0]. Qed.
  Lemma x_S : forall k, x (S k) = mix d (f (x k)) (x k). Proof. reflexivity. Qed.
  Lemma fx_len : forall k, length (f (x k)) = n. Proof. intro k. apply HN, x_len. Qed.
  Lemma fejer : forall k z, length z = n -> f z = z -> dist2 (x (S k)) z <= dist2 (x k) z - d * (1 - d) * dist2 (f (x k)) (x k).
  Proof.
    intros k z Lz Hz. rewrite x_S, mix_dist by (rewrite ?fx_len, ?x_len; congruence).
    pose proof (proj2 HN (x k) z (x_len k) Lz) as Q. rewrite Hz in Q. nra.
  Qed.
  Lemma residual_S : forall k, dist2 (f (x (S k))) (x (S k)) <= dist2 (f (x k)) (x k).
  Proof.
    intro k. pose proof (dist2_weighted d Hd (f (x (S k))) (f (x k)) (x (S k)) ltac:(rewrite !fx_len; reflexivity) ltac:(rewrite fx_len, x_len; reflexivity)) as W.
    pose proof (proj2 HN (x (S k)) (x k) (x_len _) (x_len _)) as Q.
    rewrite (x_S k) in Q at 2. rewrite mix_right in Q by (rewrite fx_len, x_len; reflexivity).
    rewrite (x_S k) in W at 4. rewrite mix_left in W by (rewrite fx_len, x_len; reflexivity).
    assert (A : dist2 (f (x (S k))) (f (x k)) / (1 - d) <= (1 - d) * dist2 (f (x k)) (x k)).
    { apply (Rmult_le_reg_r (1 - d)); [lra|]. unfold Rdiv. rewrite Rmult_assoc, Rinv_l by lra. nra. }
    replace (d * d * dist2 (f (x k)) (x k) / d) with (d * dist2 (f (x k)) (x k)) in W by (field; lra). lra.
  Qed.
  Lemma residual_le : forall i k, (i <= k)%nat -> dist2 (f (x k)) (x k) <= dist2 (f (x i)) (x i).
  Proof. intros i k H. induction H as [|k H IH]; [lra|]. pose proof (residual_S k). lra. Qed.
  Lemma km_rate : forall k, INR (S k) * (d * (1 - d)) * dist2 (f (x k)) (x k) <= dist2 y0 p.
  Proof.
    assert (HS : forall k, INR k * (d * (1 - d)) * dist2 (f (x k)) (x k) + dist2 (x k) p <= dist2 y0 p).
    { induction k as [|k IH]; [change (x 0%nat) with y0; change (INR 0) with 0; right; ring|]. rewrite S_INR. pose proof (fejer k p Lp Hp). pose proof (residual_S k).
      pose proof (pos_INR k). pose proof (dist2_pos (f (x (S k))) (x (S k))). assert (Q : 0 <= INR k * (d * (1 - d))) by (apply Rmult_le_pos; [assumption|apply Rmult_le_pos; lra]).
      assert (Q1 : 0 <= d * (1 - d)) by (apply Rmult_le_pos; lra).
      pose proof (Rmult_le_compat_l _ _ _ Q (residual_S k)). pose proof (Rmult_le_compat_l _ _ _ Q1 (residual_S k)). lra. }
    intro k. specialize (HS k). rewrite S_INR. pose proof (fejer k p Lp Hp). pose proof (dist2_pos (x (S k)) p). nra.
  Qed.
  Lemma residual_null : forall e, 0 < e -> exists N, forall k, (N <= k)%nat -> dist2 (f (x k)) (x k) < e.
  Proof.
    intros e He. pose proof (dist2_pos y0 p). assert (D : 0 < d * (1 - d)) by nra.
    destruct (archimed_cor1 (e * (d * (1 - d)) / (dist2 y0 p + 1))) as (N & H1 & H2).
    { apply Rdiv_lt_0_compat; nra. }
    exists N. intros k Hk. pose proof (km_rate k) as K. apply le_INR in Hk. rewrite S_INR in K. apply lt_0_INR in H2.
    assert (B : dist2 y0 p + 1 < e * (d * (1 - d)) * INR N).
    { apply (Rmult_lt_compat_r (INR N * (dist2 y0 p + 1))) in H1; [|nra].
      replace (/ INR N * (INR N * (dist2 y0 p + 1))) with (dist2 y0 p + 1) in H1 by (field; lra).
      replace (e * (d * (1 - d)) / (dist2 y0 p + 1) * (INR N * (dist2 y0 p + 1))) with (e * (d * (1 - d)) * INR N) in H1 by (field; lra). exact H1. }
    destruct (Rlt_dec (dist2 (f (x k)) (x k)) e) as [|C]; [assumption|exfalso]. apply Rnot_lt_le in C.
    assert (0 < INR N * (d * (1 - d))) by nra.
    assert (INR N * (d * (1 - d)) * e <= (INR k + 1) * (d * (1 - d)) * dist2 (f (x k)) (x k)).
    { apply Rmult_le_compat; nra. }
    nra.
  Qed.
  Lemma x_bounded : forall k, dist2 (x k) p <= dist2 y0 p.
  Proof. induction k as [|k IH]; [right; reflexivity|]. pose proof (fejer k p Lp Hp). pose proof (Rmult_le_pos (d * (1 - d)) _ ltac:(apply Rmult_le_pos; lra) (dist2_pos (f (x k)) (x k))). lra. Qed.
  Lemma km_limit : exists z, length z = n /\ f z = z /\ Un_cv (fun k => dist2 (x k) z) 0.
  Proof.
    destruct (bwv n x (2 * dist2 y0 p + 2 * Rdot p p) x_len) as (phi & z & Hphi & Lz & Hz).
    { intro k. assert (E : forall v, length v = n -> dist2 v (zerov n) = Rdot v v).
      { clear. intro v. revert n. induction v as [|a v IH]; intros [|m] H; try discriminate; [reflexivity|]. cbn in H. injection H as H. specialize (IH m H).
        change (zerov (S m)) with (0 :: zerov m). rewrite dist2_cons, IH. cbn. ring. }
      assert (L : length (zerov n) = n) by apply repeat_length.
      rewrite <- (E (x k) (x_len k)), <- (E p Lp).
      pose proof (dist2_tri2 (x k) p (zerov n) ltac:(rewrite x_len; congruence) ltac:(congruence)). pose proof (x_bounded k). lra. }
    assert (Fz : f z = z).
    { assert (Z : dist2 (f z) z = 0).
      { apply Rle_antisym; [|apply dist2_pos]. apply le_epsilon. intros e He. rewrite Rplus_0_l.
        destruct (residual_null (e / 16) ltac:(lra)) as (N & HNN). destruct (Hz (e / 16) ltac:(lra)) as (M & HM).
        specialize (HM (Nat.max N M) ltac:(lia)). unfold R_dist in HM. rewrite Rminus_0_r, Rabs_pos_eq in HM by apply dist2_pos.
        set (k := phi (Nat.max N M)) in *. pose proof (rises_ge phi Hphi (Nat.max N M)).
        specialize (HNN k ltac:(unfold k; lia)).
        pose proof (dist2_tri2 (f z) (f (x k)) z ltac:(rewrite fx_len; apply HN, Lz) ltac:(rewrite fx_len; congruence)).
        pose proof (dist2_tri2 (f (x k)) (x k) z ltac:(rewrite fx_len, x_len; reflexivity) ltac:(rewrite x_len; congruence)).
        pose proof (proj2 HN z (x k) Lz (x_len k)) as Q. rewrite (dist2_sym z) in Q. lra. }
      assert (I : forall a b, length a = length b -> dist2 a b = 0 -> a = b).
      { clear. induction a as [|u a IH]; intros [|v b] L E; try discriminate; [reflexivity|]. rewrite dist2_cons in E. pose proof (dist2_pos a b).
        pose proof (Rle_0_sqr (u - v)) as Q. unfold Rsqr in Q.
        assert (u = v) by (apply Rminus_diag_uniq, Rsqr_0_uniq; unfold Rsqr; lra). subst v. f_equal. apply IH; [cbn in L; lia|lra]. }
      apply I; [rewrite (proj1 HN z Lz); congruence|exact Z]. }
    exists z. split; [exact Lz|]. split; [exact Fz|].
    assert (Mono : forall i k, (i <= k)%nat -> dist2 (x k) z <= dist2 (x i) z).
    { intros i k H. induction H as [|k H IH]; [lra|]. pose proof (fejer k z Lz Fz). pose proof (Rmult_le_pos (d * (1 - d)) _ ltac:(apply Rmult_le_pos; lra) (dist2_pos (f (x k)) (x k))). lra. }
    intros e He. destruct (Hz e He) as (M & HM). exists (phi M). intros k Hk. specialize (HM M ltac:(lia)). unfold R_dist in *.
    rewrite Rminus_0_r, Rabs_pos_eq in * by apply dist2_pos. specialize (Mono (phi M) k Hk). lra.
  Qed.
End KM.

(** ** The solver *)
Lemma fp_stops : forall f rtol atol damp y0 aux0 k, 0 < atol -> 0 <= rtol ->
  let s := fixed_point_iteration (N:=XR) (Fin rtol) (Fin atol) (Fin damp) max_norm in
  Rdist_inf (rorbit damp f y0 k) (rorbit damp f y0 (S k)) < atol ->
  says_terminate s (liftv f) (map Fin y0) PInf aux0 (S k) = true.
Proof.
  intros f rtol atol damp y0 aux0 k Ha Hr s HD.
  unfold says_terminate, st_at. cbn [trace s_step s_terminate s fixed_point_iteration fst snd]. fold s.
  rewrite fp_step_eq. cbn [fst snd].
  fold (y_at s (liftv f) (map Fin y0) PInf aux0 k).
  assert (HY : y_at s (liftv f) (map Fin y0) PInf aux0 k = map Fin (rorbit damp f y0 k)) by apply orbit_trace.
  rewrite HY, liftv_Fin. cbn [fst].
  rewrite fp_update_Fin. fold (rupdate damp f (rorbit damp f y0 k)).
  change (rorbit damp f y0 (S k)) with (rupdate damp f (rorbit damp f y0 k)) in HD.
  set (w := rorbit damp f y0 k) in *. set (v := rupdate damp f w) in *.
  apply (max_norm_lt XR_laws); [apply (dl_01 XR XR_div)|]. apply Forall_nth.
  intros i z Hz. unfold vdiv in Hz. apply nth_vmap2 in Hz. destruct Hz as (d & sc & E1 & E2 & ->).
  rewrite vsub_Fin in E1. apply nth_map in E1. destruct E1 as (dr & E1 & ->).
  unfold vscale_tol in E2. apply nth_map in E2. destruct E2 as (vi & E2 & ->).
  apply nth_map in E2. destruct E2 as (vr & E2 & ->).
  cbn [nadd nmul nabs ndiv nltb nofQ XR xabs xmul xadd]. rewrite Q2R_1.
  pose proof (Rabs_pos vr). assert (Hs : (0 < atol + rtol * Rabs vr)%R) by nra.
  rewrite xdiv_fin by lra. cbn [xabs]. apply xltb_fin.
  unfold Rdiv. rewrite Rabs_mult, Rabs_inv, (Rabs_pos_eq (atol + _)) by lra.
  apply (Rmult_lt_reg_r (atol + rtol * Rabs vr)); auto.
  rewrite Rmult_assoc, Rinv_l, Rmult_1_r, Rmult_1_l by lra.
  apply Rle_lt_trans with (Rdist_inf w v); [|nra]. apply (Rmax_norm_nth _ i). exact E1.
Qed.

(** Damped fixed-point iteration of a map that does not increase Euclidean distances and has a fixed point p.
    Every step comes no further from any fixed point; the residual |f(y) - y| never grows and after k steps its
    square is at most |y0 - p|^2 / ((k+1) damp (1 - damp)); and the iterates converge to some fixed point. *)
Lemma C114_converges_pf :
  forall (n : nat) (f : list R -> list R) (rtol atol : xr) (damp : R) norm (y0 p : list R) fs auxs st0,
    nonexpansive n f -> 0 < damp < 1 -> length y0 = n -> length p = n -> f p = p ->
    let s := fixed_point_iteration (N:=XR) rtol atol (Fin damp) norm in
    s_init s (liftv f) (map Fin y0) fs auxs = Ret st0 ->
    exists x : nat -> list R,
      (forall k, y_at s (liftv f) (map Fin y0) st0 (auxs fill0) k = map Fin (x k)) /\
      (forall k q, length q = n -> f q = q -> dist2 (x (S k)) q <= dist2 (x k) q) /\
      (forall k, dist2 (f (x (S k))) (x (S k)) <= dist2 (f (x k)) (x k)) /\
      (forall k, INR (S k) * (damp * (1 - damp)) * dist2 (f (x k)) (x k) <= dist2 y0 p) /\
      exists z, length z = n /\ f z = z /\ Un_cv (fun k => dist2 (x k) z) 0.
Proof.
  intros n f rtol atol damp norm y0 p fs auxs st0 HN Hd L0 Lp Hp s Hi. injection Hi as <-.
  exists (rorbit damp f y0). split; [intro k; apply orbit_trace|]. split.
  { intros k q Lq Hq. pose proof (fejer n f damp y0 HN Hd L0 k q Lq Hq). pose proof (Rmult_le_pos (damp * (1 - damp)) _ ltac:(apply Rmult_le_pos; lra) (dist2_pos (f (rorbit damp f y0 k)) (rorbit damp f y0 k))). lra. }
  split; [exact (residual_S n f damp y0 HN Hd L0)|]. split; [exact (km_rate n f damp y0 p HN Hd L0 Lp Hp)|]. exact (km_limit n f damp y0 p HN Hd L0 Lp Hp).
Qed.

(** The solve therefore succeeds, within N steps once N damp atol^2 exceeds (1 - damp) |y0 - p|^2. *)
Lemma C114_terminates_pf :
  forall (n : nat) (f : list R -> list R) (rtol atol damp : R) (y0 p : list R) fs auxs (N : nat),
    nonexpansive n f -> 0 < damp < 1 -> length y0 = n -> length p = n -> f p = p -> 0 < atol -> 0 <= rtol ->
    (1 - damp) * dist2 y0 p < INR N * damp * atol ^ 2 ->
    let s := fixed_point_iteration (N:=XR) (Fin rtol) (Fin atol) (Fin damp) max_norm in
    exists k, (k <= N)%nat /\ forall fuel ms throw, (k < fuel)%nat -> (forall m, ms = Some m -> (k <= m)%nat) ->
      exists sol, iterative_solve vallfinite s (liftv f) fuel ms throw (map Fin y0) fs auxs = Ret sol /\ result sol = successful /\
        exists v, value sol = map Fin v /\ dist2 v p <= dist2 y0 p /\ dist2 (f v) v <= dist2 (f y0) y0.
Proof.
  intros n f rtol atol damp y0 p fs auxs N HN Hd L0 Lp Hp Ha Hr HB s.
  assert (HY : forall k, y_at s (liftv f) (map Fin y0) PInf (auxs fill0) k = map Fin (rorbit damp f y0 k)) by (intro; apply orbit_trace).
  assert (HF : forall j, vallfinite (asked s (liftv f) (map Fin y0) PInf (auxs fill0) j) = true).
  { intro j. unfold asked. rewrite HY. apply allfin_Fin. }
  destruct N as [|N]; [cbn in HB; pose proof (dist2_pos y0 p); nra|].
  assert (HT : says_terminate s (liftv f) (map Fin y0) PInf (auxs fill0) (S N) = true).
  { apply fp_stops; [exact Ha|exact Hr|].
    pose proof (km_rate n f damp y0 p HN Hd L0 Lp Hp N) as K. set (x := rorbit damp f y0) in *.
    assert (ST : dist2 (x N) (x (S N)) = (1 - damp) * (1 - damp) * dist2 (f (x N)) (x N)).
    { rewrite dist2_sym. unfold x. rewrite x_S. apply mix_right. rewrite (fx_len n f damp y0 HN L0), (x_len n f damp y0 HN L0). reflexivity. }
    pose proof (inf_le_dist2 (x N) (x (S N))) as I. pose proof (Rdist_inf_pos (x N) (x (S N))). rewrite ST in I.
    destruct (Rlt_dec (Rdist_inf (x N) (x (S N))) atol) as [|C]; [assumption|exfalso]. apply Rnot_lt_le in C.
    pose proof (lt_0_INR (S N) ltac:(lia)) as PN. set (r := dist2 (f (x N)) (x N)) in *. set (m := INR (S N)) in *.
    assert (atol ^ 2 <= (1 - damp) * (1 - damp) * r) by (cbn; nra).
    assert (m * damp * atol ^ 2 <= m * damp * ((1 - damp) * (1 - damp) * r)) by (apply Rmult_le_compat_l; nra).
    assert ((1 - damp) * (m * (damp * (1 - damp)) * r) <= (1 - damp) * dist2 y0 p) by (apply Rmult_le_compat_l; lra). nra. }
  destruct (solve_succeeds vallfinite s (liftv f) (map Fin y0) PInf _ fs auxs eq_refl eq_refl (fun _ => eq_refl) HF (ex_intro _ (S N) HT)) as (k & T & M & Sol).
  exists k. split; [destruct (le_lt_dec k (S N)) as [|C]; [assumption|]; rewrite (M _ C) in HT; discriminate HT|].
  intros fuel ms throw Hf Hms. destruct (Sol fuel ms throw Hf Hms) as (E1 & E2). eexists. split; [exact E1|]. split; [exact E2|].
  exists (rorbit damp f y0 k). split; [exact (HY k)|]. split; [apply (x_bounded n f damp y0 p HN Hd L0 Lp Hp)|].
  apply (residual_le n f damp y0 HN Hd L0 0 k). lia.
Qed.

(** Without damping (damp = 0, the default) this fails: the map y -> -y keeps all distances and has the fixed point
    0, but from 1 the iterates are 1, -1, 1, ... and every budget is used up, for all tolerances with rtol + atol <= 2. *)
Lemma C114_undamped_cycles_pf :
  let f (y : list R) := map Ropp y in
  (forall n, nonexpansive n f) /\ f [0] = [0] /\
  forall rtol atol, 0 <= rtol -> 0 < atol -> rtol + atol <= 2 ->
  let s := fixed_point_iteration (N:=XR) (Fin rtol) (Fin atol) (Fin 0) max_norm in
  forall fs auxs m fuel, (m < fuel)%nat ->
    exists sol, iterative_solve vallfinite s (liftv f) fuel (Some m) false [Fin 1] fs auxs = Ret sol /\
      result sol = nonlinear_max_steps_reached.
Proof.
  intro f. split; [|split].
  - intro n. split; [intros x <-; apply map_length|]. intros x z <- Lz. right. symmetry in Lz. revert z Lz.
    induction x as [|a x IH]; intros [|b z] L; try discriminate; [reflexivity|]. unfold f in *. cbn [map]. rewrite !dist2_cons, IH by (cbn in L; lia). ring.
  - cbn. f_equal. ring.
  - intros rtol atol Hr Ha Hs s fs auxs m fuel Hm. set (fn := liftv f).
    assert (HY : forall k, y_at s fn [Fin 1] PInf (auxs fill0) k = map Fin (rorbit 0 f [1] k)) by (intro k; exact (orbit_trace _ _ _ _ _ [1] _ k)).
    assert (X : forall k, exists a, rorbit 0 f [1] k = [a] /\ Rabs a = 1).
    { induction k as [|k (a & E & A)]; [exists 1; split; [reflexivity|apply Rabs_R1]|].
      exists (- a). cbn [rorbit]. rewrite E. split; [unfold rupdate; cbn; f_equal; ring|rewrite Rabs_Ropp; exact A]. }
    assert (NT : forall k, says_terminate s fn [Fin 1] PInf (auxs fill0) k = false).
    { intros [|k]; [reflexivity|]. destruct (says_terminate _ _ _ _ _ _) eqn:E; [exfalso|reflexivity]. destruct (X k) as (a & Xk & A).
      unfold says_terminate, st_at in E. cbn [trace s_step s_terminate s fixed_point_iteration fst snd] in E. fold s in E. rewrite fp_step_eq in E. cbn [fst snd] in E.
      fold (y_at s fn [Fin 1] PInf (auxs fill0) k) in E. rewrite HY, Xk in E. unfold fn in E. rewrite liftv_Fin in E. cbn [fst] in E. rewrite fp_update_Fin in E.
      apply (max_norm_lt XR_laws) in E; [|apply (dl_01 XR XR_div)]. rewrite Forall_nth in E. specialize (E 0%nat _ eq_refl).
      cbn [f map vmap2 nadd nmul nabs nsub ndiv nltb nofQ XR xabs xmul xadd xsub xneg] in E.
      replace ((1 - 0) * - a + 0 * a) with (- a) in E by ring. rewrite Rabs_Ropp, A in E. rewrite xdiv_fin in E by lra. cbn [xabs] in E.
      rewrite xltb_fin, Q2R_1 in E. unfold Rdiv in E. rewrite Rabs_mult, Rabs_inv, (Rabs_pos_eq (atol + _)) in E by lra.
      replace (a + - - a) with (2 * a) in E by ring. rewrite Rabs_mult, A, (Rabs_pos_eq 2) in E by lra.
      apply (Rmult_lt_compat_r (atol + rtol * 1)) in E; [|lra]. rewrite Rmult_assoc, Rinv_l in E by lra. lra. }
    assert (AF : forall k, vallfinite (N:=XR) (asked s fn [Fin 1] PInf (auxs fill0) k) = true).
    { intro k. unfold asked. rewrite HY. apply allfin_Fin. }
    assert (SI : stop_index (vallfinite (N:=XR)) s fn [Fin 1] PInf (auxs fill0) (Some m) m).
    { split; [right; reflexivity|]. split; [|intros m' [= <-]; lia]. intros j _ [H|[H|H]].
      - rewrite NT in H. discriminate H.
      - apply H. reflexivity.
      - rewrite AF in H. discriminate H. }
    pose proof (proj1 (iterative_solve_spec (vallfinite (N:=XR)) s fn [Fin 1] PInf (auxs fill0) fs auxs eq_refl eq_refl fuel (Some m) false) m Hm SI) as E.
    eexists. split; [exact E|].
    rewrite (proj1 (solution_at_fields (vallfinite (N:=XR)) s fn [Fin 1] PInf (auxs fill0) (Some m) m)). unfold final_result. rewrite AF, NT. reflexivity.
Qed.

(** A quarter turn of the plane keeps all distances; undamped it turns for ever, with damp = 1/2 it converges. *)
Example C114_converges_ex_pf :
  let turn (y : list R) := match y with [a; b] => [- b; a] | _ => y end in
  forall rtol atol norm fs auxs st0,
    let s := fixed_point_iteration (N:=XR) rtol atol (Fin (1/2)) norm in
    s_init s (liftv turn) [Fin 3; Fin 4] fs auxs = Ret st0 ->
    exists x : nat -> list R, (forall k, y_at s (liftv turn) [Fin 3; Fin 4] st0 (auxs fill0) k = map Fin (x k)) /\
      (forall k, INR (S k) * (1/4) * dist2 (turn (x k)) (x k) <= 25) /\ Un_cv (fun k => dist2 (x k) [0; 0]) 0.
Proof.
  intros turn rtol atol norm fs auxs st0 s Hi.
  assert (HN : nonexpansive 2 turn).
  { split; [intros [|a [|b [|]]] H; try discriminate; reflexivity|].
    intros [|a [|b [|]]] [|c [|d [|]]] H1 H2; try discriminate. unfold dist2. cbn. right. ring. }
  destruct (C114_converges_pf 2 turn rtol atol (1/2) norm [3; 4] [0; 0] fs auxs st0 HN ltac:(lra) eq_refl eq_refl) as (x & H1 & _ & _ & H4 & z & Lz & Fz & Hz).
  - cbn. f_equal. ring.
  - exact Hi.
  - exists x. split; [exact H1|]. split.
    + intro k. specialize (H4 k). assert (E : dist2 [3; 4] [0; 0] = 25) by (unfold dist2; cbn; ring). rewrite E in H4.
      replace (1 / 2 * (1 - 1 / 2)) with (1/4) in H4 by field. exact H4.
    + destruct z as [|a [|b [|]]]; try discriminate Lz. cbn in Fz. injection Fz as F1 F2. assert (a = 0) by lra. assert (b = 0) by lra. subst. rewrite ?Ropp_0 in Hz; exact Hz.
Qed.
Example C114_terminates_ex_pf :
  let turn (y : list R) := match y with [a; b] => [- b; a] | _ => y end in
  let s := fixed_point_iteration (N:=XR) (Fin 0) (Fin 1) (Fin (1/2)) max_norm in
  exists k, (k <= 26)%nat /\ forall fuel, (k < fuel)%nat ->
    exists sol, iterative_solve vallfinite s (liftv turn) fuel None true [Fin 3; Fin 4] (fun _ => []) (fun _ => tt) = Ret sol /\ result sol = successful.
Proof.
  intros turn s.
  assert (HN : nonexpansive 2 turn).
  { split; [intros [|a [|b [|]]] H; try discriminate; reflexivity|].
    intros [|a [|b [|]]] [|c [|d [|]]] H1 H2; try discriminate. unfold dist2. cbn. right. ring. }
  destruct (C114_terminates_pf 2 turn 0 1 (1/2) [3; 4] [0; 0] (fun _ => []) (fun _ => tt) 26 HN ltac:(lra) eq_refl eq_refl) as (k & K & Q); try lra.
  - cbn. f_equal. ring.
  - assert (E : dist2 [3; 4] [0; 0] = 25) by (unfold dist2; cbn; ring). rewrite E. cbn. lra.
  - exists k. split; [exact K|]. intros fuel Hf. destruct (Q fuel None true Hf ltac:(discriminate)) as (sol & E1 & E2 & _). exists sol. auto.
Qed.
