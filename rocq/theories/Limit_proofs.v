(** The iterates of gradient descent on convex problems converge (C125). *)

From Coq Require Import String List Bool Arith Lia ZArith QArith Qreals Reals Lra Psatz.
From Verif Require Import Num NumFacts Vec Results Iterate Spec_Iterate Iterate_proofs.
From Verif Require Import Spec_Vec VecFacts Spec_Lin LinFacts.
From Verif Require Import Search Spec_Search Descent Minimisers Solvers Minimisers_proofs.
From Verif Require Import TrustRegion_proofs LeastSquares_proofs Spec_Steps Steps_proofs Spec_Convergence Convergence_proofs.
From Verif Require Import Spec_Convex Convex_proofs Nonexpansive_proofs Spec_Limit.
Import ListNotations.
Local Open Scope R_scope.

Section Potential.
  Variables (n : nat) (f : list R -> R) (g : list R -> list R) (xs : list R) (y : nat -> list R) (sl ini : R).
  Hypothesis HC : convex n f g.
  Hypothesis LG : forall x, length x = n -> length (g x) = n.
  Hypothesis Hxs : minimiser n f xs.
  Hypothesis LY : forall k, length (y k) = n.
  Hypothesis Hsl : 0 < sl.
  Hypothesis Hini : 0 < ini.
  Notation gg k := (Rdot (g (y k)) (g (y k))).
  Definition good_step (k : nat) (t : R) : Prop :=
    0 < t <= ini /\ y (S k) = Radd_v (y k) (Rscal (- t) (g (y k))) /\ f (y (S k)) <= f (y k) - sl * t * gg k.
  Hypothesis STEP : forall k, y (S k) = y k \/ exists t, good_step k t.

  Definition V (z : list R) (k : nat) : R := dist2 (y k) z + ini / sl * (f (y k) - f xs).

  Lemma c_pos : 0 < ini / sl. Proof. apply Rdiv_lt_0_compat; assumption. Qed.
  Lemma f_low : forall k, 0 <= f (y k) - f xs. Proof. intro k. pose proof (proj2 Hxs _ (LY k)). lra. Qed.
  Lemma same_min : forall z, minimiser n f z -> f z = f xs.
  Proof. intros z [Lz Hz]. destruct Hxs as [Lx Hx]. apply Rle_antisym; [apply Hz; exact Lx|apply Hx; exact Lz]. Qed.

  Lemma V_good : forall z k t, minimiser n f z -> good_step k t -> V z (S k) <= V z k - 2 * t * (f (y k) - f xs).
  Proof.
    intros z k t Hz ((T0 & T1) & E & D). pose proof (same_min z Hz) as Ez. destruct Hz as [Lz _]. unfold V.
    rewrite E at 1. rewrite (dist_step n) by (try apply LG; try apply LY; exact Lz).
    pose proof (below_tangent n f g (y k) z HC (LY k) Lz) as B. rewrite Ez in B.
    pose proof (Rdot_pos (g (y k))) as G0.
    assert (A1 : 2 * t * (f (y k) - f xs) <= 2 * t * Rdot (g (y k)) (Rsub_v (y k) z)) by (apply Rmult_le_compat_l; lra).
    assert (A2 : t * t * gg k <= ini / sl * (f (y k) - f (y (S k)))).
    { assert (TG : 0 <= t * gg k) by (apply Rmult_le_pos; lra).
      apply Rle_trans with (ini / sl * (sl * t * gg k)).
      - replace (ini / sl * (sl * t * gg k)) with (ini * (t * gg k)) by (field; lra). rewrite Rmult_assoc. apply Rmult_le_compat_r; assumption.
      - apply Rmult_le_compat_l; [left; apply c_pos|lra]. }
    lra.
  Qed.
  Lemma V_dec : forall z k, minimiser n f z -> V z (S k) <= V z k.
  Proof.
    intros z k Hz. destruct (STEP k) as [E|(t & G)]; [unfold V; rewrite E; lra|].
    pose proof (V_good z k t Hz G). pose proof (f_low k). destruct G as ((T0 & _) & _).
    assert (0 <= 2 * t * (f (y k) - f xs)) by (apply Rmult_le_pos; lra). lra.
  Qed.
  Lemma V_mono : forall z i k, minimiser n f z -> (i <= k)%nat -> V z k <= V z i.
  Proof. intros z i k Hz H. induction H as [|k H IH]; [lra|]. pose proof (V_dec z k Hz). lra. Qed.
  Lemma V_pos : forall z k, dist2 (y k) z <= V z k.
  Proof. intros z k. unfold V. pose proof (Rmult_le_pos _ _ (Rlt_le _ _ c_pos) (f_low k)). lra. Qed.

  Hypothesis VALUES : forall e, 0 < e -> exists K, forall k, (K <= k)%nat -> f (y k) - f xs < e.

  Lemma potential_limit : exists z, minimiser n f z /\ tends_to y z.
  Proof.
    destruct Hxs as [Lx Hx].
    destruct (bwv n y (2 * V xs 0 + 2 * Rdot xs xs) LY) as (phi & z & Hphi & Lz & Hz).
    { intro k. assert (E : forall v, length v = n -> dist2 v (zerov n) = Rdot v v).
      { clear. intro v. revert n. induction v as [|a v IH]; intros [|m] H; try discriminate; [reflexivity|]. cbn in H. injection H as H. specialize (IH m H).
        change (zerov (S m)) with (0 :: zerov m). rewrite dist2_cons, IH. cbn. ring. }
      assert (L : length (zerov n) = n) by apply repeat_length.
      rewrite <- (E (y k) (LY k)), <- (E xs Lx).
      pose proof (dist2_tri2 (y k) xs (zerov n) ltac:(rewrite LY; congruence) ltac:(congruence)). pose proof (V_pos xs k). pose proof (V_mono xs 0 k Hxs ltac:(lia)). lra. }
    assert (Mz : minimiser n f z).
    { split; [exact Lz|]. intros x Lxx. apply Rle_trans with (f xs); [|apply Hx; exact Lxx].
      apply le_epsilon. intros e He. pose proof (Rdot_pos (g z)) as G0.
      set (B := Rdot (g z) (g z) + 1).
      destruct (VALUES (e / 2) ltac:(lra)) as (K & HK).
      destruct (Hz (e * e / (4 * B)) ltac:(apply Rdiv_lt_0_compat; unfold B; nra)) as (M & HM).
      specialize (HM (Nat.max K M) ltac:(lia)). unfold R_dist in HM. rewrite Rminus_0_r, Rabs_pos_eq in HM by apply dist2_pos.
      set (k := phi (Nat.max K M)) in *. pose proof (rises_ge phi Hphi (Nat.max K M)). specialize (HK k ltac:(unfold k; lia)).
      pose proof (below_tangent n f g z (y k) HC Lz (LY k)) as T.
      assert (Q : Rdot (g z) (Rsub_v z (y k)) <= e / 2).
      { pose proof (Rdot_pos (Radd_v (Rscal (e / (2 * B)) (g z)) (Rscal (-1) (Rsub_v z (y k))))) as S.
        assert (LD : length (Rsub_v z (y k)) = n) by (apply Rsub_v_length; [exact Lz|apply LY]).
        rewrite Rdot_add_l, !Rdot_add_r in S by (rewrite ?Rscal_length, ?LG by exact Lz; congruence).
        rewrite !Rdot_scal_l, !Rdot_scal_r, (Rdot_comm (Rsub_v z (y k)) (g z)) in S.
        change (Rdot (Rsub_v z (y k)) (Rsub_v z (y k))) with (dist2 z (y k)) in S. rewrite (dist2_sym z) in S.
        set (p := Rdot (g z) (Rsub_v z (y k))) in *. set (d := dist2 (y k) z) in *. clearbody p d k.
        assert (B1 : 1 <= B) by (unfold B; lra). assert (Bg : Rdot (g z) (g z) = B - 1) by (unfold B; ring). rewrite Bg in S. clearbody B.
        assert (D' : d * (4 * B) < e * e). { apply (Rmult_lt_compat_r (4 * B)) in HM; [|lra]. replace (e * e / (4 * B) * (4 * B)) with (e * e) in HM by (field; lra). exact HM. }
        (* 2 u p <= u^2 (B-1) + d with u = e / (2B) *)
        assert (S2 : 2 * (e / (2 * B)) * p <= e / (2 * B) * (e / (2 * B)) * (B - 1) + d) by lra.
        apply (Rmult_le_compat_l B) in S2; [|lra].
        replace (B * (2 * (e / (2 * B)) * p)) with (e * p) in S2 by (field; lra).
        replace (B * (e / (2 * B) * (e / (2 * B)) * (B - 1) + d)) with (e * e / 4 - e * e / (4 * B) + B * d) in S2 by (field; lra).
        assert (0 < e * e / (4 * B)) by (apply Rdiv_lt_0_compat; nra).
        apply (Rmult_le_reg_l e); [exact He|]. lra. }
      lra. }
    exists z. split; [exact Mz|]. intros e He.
    destruct (Hz (e / 2) ltac:(lra)) as (M & HM).
    destruct (VALUES (e / 2 / (ini / sl))) as (K & HK). { apply Rdiv_lt_0_compat; [lra|apply c_pos]. }
    specialize (HM (Nat.max K M) ltac:(lia)). unfold R_dist in HM. rewrite Rminus_0_r, Rabs_pos_eq in HM by apply dist2_pos.
    pose proof (rises_ge phi Hphi (Nat.max K M)) as GE. exists (phi (Nat.max K M)). intros k Hk.
    pose proof (V_mono z _ k Mz Hk) as MM. pose proof (V_pos z k).
    specialize (HK (phi (Nat.max K M)) ltac:(lia)).
    assert (ini / sl * (f (y (phi (Nat.max K M))) - f xs) < e / 2).
    { pose proof c_pos as CP. apply (Rmult_lt_compat_l (ini / sl)) in HK; [|exact CP]. replace (ini / sl * (e / 2 / (ini / sl))) with (e / 2) in HK by (field; lra). exact HK. }
    unfold V in MM at 2. lra.
  Qed.
End Potential.

Lemma tends_shift : forall y z, tends_to (fun k => y (S k)) z -> tends_to y z.
Proof. intros y z H e He. destruct (H e He) as (K & HK). exists (S K). intros [|k] Hk; [lia|]. apply HK. lia. Qed.

(** GradientDescent on a convex L-smooth objective that has a minimiser, learning rate below 2/L, exact arithmetic: the values
    approach the minimum like 1/k and the iterates converge to a minimiser. *)
Lemma C125_gradient_descent_pf :
  forall (Aux : Type) (n : nat) (L : R) (f : list R -> R) (g : list R -> list R)
         (P : ar_tols RN) grad_of (rate : R) (fn : list R -> R * Aux) y0 xs fs auxs st0,
    smooth n L f g -> convex n f g -> 0 < rate -> rate * L < 2 ->
    (forall x, fst (fn x) = f x) -> (forall x, grad_of fn x = g x) -> length y0 = n -> minimiser n f xs ->
    let s := GradientDescent (N:=RN) P grad_of rate in
    s_init s fn y0 fs auxs = Ret st0 ->
    let y : nat -> list R := y_at s fn y0 st0 (auxs fill0) in
    (forall k, f (y (S (S k))) - f xs <= (dist2 y0 xs + rate / (1 - L * rate / 2) * (f y0 - f xs)) / (2 * rate * INR (S k))) /\
    exists z, minimiser n f z /\ tends_to y z.
Proof.
  intros Aux n L f g P grad_of rate fn y0 xs fs auxs st0 HS HC R0 RL Hf Hg Hn Hx s Hi y.
  pose proof (C65_descends_pf Aux n L f g P grad_of rate fn y0 fs auxs st0 HS Hf Hg Hn Hi) as D. cbv zeta in D.
  destruct (C65_iteration_pf RN Aux P grad_of rate fn y0 fs auxs st0 Hi) as (Y1 & YS).
  assert (Y1' : y 1%nat = y0) by exact Y1.
  assert (LY : forall k, length (y (S k)) = n) by (intro k; exact (proj1 (D k))).
  assert (YS' : forall k, y (S (S k)) = Radd_v (y (S k)) (Rscal (- rate) (g (y (S k))))).
  { intro k. refine (eq_trans (YS k) _). refine (eq_trans (vadd_RN _ _) _). f_equal. refine (eq_trans (vscale_RN _ _) _). f_equal. apply Hg. }
  set (sl := 1 - L * rate / 2).
  assert (DK : forall k, f (y (S (S k))) <= f (y (S k)) - sl * rate * Rdot (g (y (S k))) (g (y (S k)))).
  { intro k. pose proof (proj2 (D k)) as Q. fold s y in Q. fold sl in Q. rewrite (Rmult_comm sl). exact Q. }
  clear D YS Y1. clearbody y.
  assert (S0 : 0 < sl) by (unfold sl; lra).
  assert (GOOD : forall k, good_step f g (fun k => y (S k)) sl rate k rate).
  { intro k. split; [lra|]. split; [apply YS'|apply DK]. }
  pose proof (fun z k => V_good n f g xs (fun k => y (S k)) sl rate HC (proj1 HS) Hx LY S0 R0 z k rate) as VG.
  pose proof (f_low n f xs (fun k => y (S k)) Hx LY) as FL.
  pose proof (V_pos n f xs (fun k => y (S k)) sl rate Hx LY S0 R0) as VP.
  assert (DEC : forall k, f (y (S (S k))) <= f (y (S k))).
  { intro k. pose proof (DK k). pose proof (Rdot_pos (g (y (S k)))).
    assert (0 <= sl * rate * Rdot (g (y (S k))) (g (y (S k)))) by (apply Rmult_le_pos; [apply Rmult_le_pos|]; lra). lra. }
  assert (SUM : forall k, 2 * rate * (INR k * (f (y (S k)) - f xs)) + V f xs (fun k => y (S k)) sl rate xs k <= V f xs (fun k => y (S k)) sl rate xs 0).
  { induction k as [|k IH]; [cbn [INR]; lra|]. pose proof (VG xs k Hx (GOOD k)) as Q. cbv beta in Q. pose proof (DEC k). rewrite S_INR. pose proof (pos_INR k).
    assert (A : (INR k + 1) * (f (y (S (S k))) - f xs) <= (INR k + 1) * (f (y (S k)) - f xs)) by (apply Rmult_le_compat_l; lra).
    apply (Rmult_le_compat_l (2 * rate)) in A; [|lra]. lra. }
  assert (V0 : V f xs (fun k => y (S k)) sl rate xs 0 = dist2 y0 xs + rate / sl * (f y0 - f xs)) by (unfold V; rewrite Y1'; reflexivity).
  assert (RATE : forall k, f (y (S (S k))) - f xs <= (dist2 y0 xs + rate / sl * (f y0 - f xs)) / (2 * rate * INR (S k))).
  { intro k. specialize (SUM (S k)). rewrite V0 in SUM. specialize (VP xs (S k)). cbv beta in VP, SUM. pose proof (dist2_pos (y (S (S k))) xs).
    assert (I0 : 0 < INR (S k)) by (apply lt_0_INR; lia).
    set (B := dist2 y0 xs + rate / sl * (f y0 - f xs)) in *.
    apply (Rmult_le_reg_l (2 * rate * INR (S k))). { apply Rmult_lt_0_compat; lra. }
    replace (2 * rate * INR (S k) * (B / (2 * rate * INR (S k)))) with B by (field; split; lra). lra. }
  split; [exact RATE|].
  assert (VAL : forall e, 0 < e -> exists K, forall k, (K <= k)%nat -> f (y (S k)) - f xs < e).
  { intros e He. set (B := dist2 y0 xs + rate / sl * (f y0 - f xs)) in *.
    assert (B0 : 0 <= B). { unfold B. pose proof (dist2_pos y0 xs). pose proof (FL 0%nat) as F0. cbv beta in F0. rewrite Y1' in F0. pose proof (Rmult_le_pos _ _ (Rlt_le _ _ (c_pos sl rate S0 R0)) F0). lra. }
    destruct (archimed_cor1 (e * (2 * rate) / (B + 1))) as (N & H1 & H2). { apply Rdiv_lt_0_compat; [apply Rmult_lt_0_compat; lra|lra]. }
    exists (S N). intros [|k] Hk; [lia|]. eapply Rle_lt_trans; [apply RATE|].
    assert (I1 : INR N <= INR (S k)) by (apply le_INR; lia). apply lt_0_INR in H2.
    apply (Rmult_lt_compat_r (INR N * (B + 1))) in H1; [|apply Rmult_lt_0_compat; lra].
    replace (/ INR N * (INR N * (B + 1))) with (B + 1) in H1 by (field; lra).
    replace (e * (2 * rate) / (B + 1) * (INR N * (B + 1))) with (e * (2 * rate) * INR N) in H1 by (field; lra).
    assert (A : e * (2 * rate) * INR N <= e * (2 * rate) * INR (S k)). { apply Rmult_le_compat_l; [|exact I1]. apply Rmult_le_pos; lra. }
    apply (Rmult_lt_reg_r (2 * rate * INR (S k))). { apply Rmult_lt_0_compat; lra. }
    replace (B / (2 * rate * INR (S k)) * (2 * rate * INR (S k))) with B by (field; split; lra). lra. }
  destruct (potential_limit n f g xs (fun k => y (S k)) sl rate HC (proj1 HS) Hx LY S0 R0 (fun k => or_intror (ex_intro _ rate (GOOD k))) VAL) as (z & Mz & Tz).
  exists z. split; [exact Mz|apply tends_shift; exact Tz].
Qed.

(** Steepest descent with BacktrackingArmijo: its iterates converge to a minimiser as well. *)
Lemma C125_backtracking_pf :
  forall (Aux : Type) (P : ar_tols RN) (de sl ini : R) grad_of (fn : list R -> R * Aux)
         (n : nat) (L : R) (f : list R -> R) (g : list R -> list R) (y0 xs : list R) fs auxs st0,
    0 < de < 1 /\ 0 < sl < 1 /\ 0 < ini -> 0 < L -> smooth n L f g -> convex n f g ->
    (forall x, fst (fn x) = f x) -> (forall x, grad_of fn x = g x) -> length y0 = n -> minimiser n f xs ->
    let s := gradient_descent_solver (N:=RN) P (armijo (N:=RN) de sl ini) (steepest_descent None) grad_of in
    s_init s fn y0 fs auxs = Ret st0 ->
    let y : nat -> list R := y_at s fn y0 st0 (auxs fill0) in
    exists z, minimiser n f z /\ tends_to y z.
Proof.
  intros Aux P de sl ini grad_of fn n L f g y0 xs fs auxs st0 HV HL HS HC Hf Hg Hn Hx s Hi y.
  assert (EQ : exists q, ini * de ^ q * L <= 2 * (1 - sl)).
  { destruct (pow_lt_1_zero de ltac:(rewrite Rabs_pos_eq; lra) (2 * (1 - sl) / (ini * L))) as (q & Hq).
    { apply Rdiv_lt_0_compat; [lra|]. apply Rmult_lt_0_compat; lra. }
    exists q. specialize (Hq q ltac:(lia)). rewrite Rabs_pos_eq in Hq by (apply pow_le; lra).
    assert (IL : 0 < ini * L) by (apply Rmult_lt_0_compat; lra). apply (Rmult_lt_compat_l (ini * L)) in Hq; [|exact IL].
    replace (ini * L * (2 * (1 - sl) / (ini * L))) with (2 * (1 - sl)) in Hq by (field; split; lra). lra. }
  destruct EQ as (q & Hq).
  pose proof (C86_backtracking_pf Aux P de sl ini grad_of fn n L f g y0 xs fs auxs st0 q HV HL HS HC Hf Hg Hn (proj1 Hx) (proj2 Hx) Hq Hi) as RATE.
  cbv zeta in RATE. fold s in RATE.
  pose proof (C72_backtracking_pf Aux P de sl ini grad_of fn n L f g y0 fs auxs st0 HV HL HS Hf Hg Hn Hi) as (Y1' & _ & ST' & _ & LB' & _).
  set (t := fun k : nat => gd_search_state (st_at s fn y0 st0 (auxs fill0) k) : R).
  set (moved := fun k : nat => Radd_v (y k) (Rscal (- t k) (g (y k)))).
  set (gg := fun k : nat => Rdot (g (y k)) (g (y k))).
  assert (ST : forall k, ((f (moved (S k)) <= f (y (S k)) - sl * t (S k) * gg (S k))%R /\ y (S (S k)) = moved (S k) /\ t (S (S k)) = ini) \/
     (~ (f (moved (S k)) <= f (y (S k)) - sl * t (S k) * gg (S k))%R /\ y (S (S k)) = y (S k) /\ t (S (S k)) = (de * t (S k))%R)) by exact ST'.
  assert (LB : forall k, (Rmin ini (2 * de * (1 - sl) / L) <= t (S k) <= ini)%R) by exact LB'.
  assert (LY : forall k, length (y (S k)) = n).
  { intro k. unfold y. apply gd_init_inv in Hi. subst st0.
    exact (proj1 (armijo_inv P de sl ini grad_of fn n L f g y0 fs auxs HV HS Hf Hg Hn k)). }
  clear ST' LB' Y1'. change (y_at s fn y0 st0 (auxs fill0)) with y in RATE. clearbody t y.
  set (tm := Rmin ini (2 * de * (1 - sl) / L)) in *.
  assert (M0 : 0 < tm). { apply Rmin_glb_lt; [lra|]. apply Rdiv_lt_0_compat; [|lra]. apply Rmult_lt_0_compat; lra. }
  assert (STEP : forall k, y (S (S k)) = y (S k) \/ exists u, good_step f g (fun k => y (S k)) sl ini k u).
  { intro k. destruct (ST k) as [(C1 & C2 & _)|(_ & C2 & _)]; [right|left; exact C2]. exists (t (S k)). pose proof (LB k).
    split; [lra|]. split; [exact C2|]. rewrite C2. exact C1. }
  assert (DEC : forall k, f (y (S (S k))) <= f (y (S k))).
  { intro k. destruct (ST k) as [(C1 & C2 & _)|(_ & C2 & _)]; rewrite C2; [|lra].
    pose proof (LB k) as B1. pose proof (Rdot_pos (g (y (S k)))) as G0. fold (gg (S k)) in G0.
    assert (0 <= sl * t (S k) * gg (S k)) by (apply Rmult_le_pos; [apply Rmult_le_pos|]; lra). lra. }
  assert (MON : forall j k, (j <= k)%nat -> f (y (S k)) <= f (y (S j))).
  { intros j k H. induction H as [|k H IH]; [lra|]. eapply Rle_trans; [apply DEC|exact IH]. }
  set (B := / 2 * dist2 y0 xs + Rmax 0 (/ 2 - sl) * (ini / sl) * (f y0 - f xs)) in *.
  assert (B0 : 0 <= B).
  { unfold B. pose proof (dist2_pos y0 xs). pose proof (proj2 Hx y0 Hn). pose proof (Rmax_l 0 (/ 2 - sl)).
    assert (0 < ini / sl) by (apply Rdiv_lt_0_compat; lra).
    assert (0 <= Rmax 0 (/ 2 - sl) * (ini / sl) * (f y0 - f xs)) by (apply Rmult_le_pos; [apply Rmult_le_pos|]; lra). lra. }
  assert (VAL : forall e, 0 < e -> exists K, forall k, (K <= k)%nat -> f (y (S k)) - f xs < e).
  { intros e He. destruct (archimed_cor1 (e * tm / (B + 1))) as (N & H1 & H2). { apply Rdiv_lt_0_compat; [apply Rmult_lt_0_compat; lra|lra]. }
    destruct N as [|N]; [lia|]. exists (S N * (q + 1))%nat. intros k Hk.
    pose proof (MON _ _ Hk). specialize (RATE N). apply lt_0_INR in H2. eapply Rle_lt_trans; [|].
    2:{ eapply Rle_lt_trans; [exact RATE|].
      apply (Rmult_lt_compat_r (INR (S N) * (B + 1))) in H1; [|apply Rmult_lt_0_compat; lra].
      replace (/ INR (S N) * (INR (S N) * (B + 1))) with (B + 1) in H1 by (field; lra).
      replace (e * tm / (B + 1) * (INR (S N) * (B + 1))) with (e * tm * INR (S N)) in H1 by (field; lra).
      apply (Rmult_lt_reg_r (tm * INR (S N))). { apply Rmult_lt_0_compat; lra. }
      replace (B / (tm * INR (S N)) * (tm * INR (S N))) with B by (field; split; lra). lra. }
    lra. }
  destruct (potential_limit n f g xs (fun k => y (S k)) sl ini HC (proj1 HS) Hx LY ltac:(lra) ltac:(lra) STEP VAL) as (z & Mz & Tz).
  exists z. split; [exact Mz|apply tends_shift; exact Tz].
Qed.

(** The bound on the rate is sharp: at exactly 2/L gradient descent on x^2 jumps between 1 and -1 for ever. *)
Lemma C125_rate_two_over_L_pf :
  smooth 1 2 square1 square1_grad /\ convex 1 square1 square1_grad /\ minimiser 1 square1 [0] /\
  forall P st0,
    let s := GradientDescent (N:=RN) (Aux:=unit) P (fun _ => square1_grad) 1 in
    s_init s (fun v => (square1 v, tt)) [1] (fun _ => 0) (fun _ => tt) = Ret st0 ->
    let y : nat -> list R := y_at s (fun v => (square1 v, tt)) [1] st0 tt in
    (forall k, y (S k) = [(-1) ^ k]) /\ ~ exists z, length z = 1%nat /\ tends_to y z.
Proof.
  split. { split; [intros [|a [|? ?]] H; try discriminate; reflexivity|]. intros [|a [|? ?]] [|b [|? ?]] H1 H2; try discriminate. cbn. nra. }
  split. { intros [|a [|? ?]] [|b [|? ?]] H1 H2; try discriminate. cbn. nra. }
  split. { split; [reflexivity|]. intros [|a [|? ?]] H; try discriminate. cbn. nra. }
  intros P st0 s Hi y.
  destruct (C65_iteration_pf RN unit P (fun _ => square1_grad) 1 (fun v => (square1 v, tt)) [1] (fun _ => 0) (fun _ => tt) st0 Hi) as (Y1 & YS).
  assert (Y1' : y 1%nat = [1]) by exact Y1.
  assert (YS' : forall k, y (S (S k)) = Radd_v (y (S k)) (Rscal (- (1)) (square1_grad (y (S k))))).
  { intro k. refine (eq_trans (YS k) _). refine (eq_trans (vadd_RN _ _) _). f_equal; exact (vscale_RN _ _). }
  clear Y1 YS. clearbody y.
  assert (Y : forall k, y (S k) = [(-1) ^ k]).
  { induction k as [|k IH]; [rewrite Y1'; reflexivity|]. rewrite YS', IH. cbn. f_equal. ring. }
  split; [exact Y|]. intros ([|z [|? ?]] & Lz & T); try discriminate Lz.
  destruct (T 1 ltac:(lra)) as (K & HK). pose proof (HK (S (2 * K)) ltac:(lia)) as A. pose proof (HK (S (S (2 * K))) ltac:(lia)) as B.
  rewrite Y in A, B. cbn [pow] in B. rewrite pow_1_even in A, B. cbn in A, B. nra.
Qed.

Example C125_gradient_descent_ex_pf :
  smooth 2 4 valley valley_grad /\ convex 2 valley valley_grad /\ minimiser 2 valley [3; -3] /\ minimiser 2 valley [0; 0] /\
  forall P st0,
    let s := GradientDescent (N:=RN) (Aux:=unit) P (fun _ => valley_grad) (3/8) in
    s_init s (fun v => (valley v, tt)) [1; 0] (fun _ => 0) (fun _ => tt) = Ret st0 ->
    exists z, minimiser 2 valley z /\ tends_to (y_at s (fun v => (valley v, tt)) [1; 0] st0 tt) z.
Proof.
  destruct valley_facts as (HS & HC & HM). split; [exact HS|]. split; [exact HC|].
  assert (M3 : minimiser 2 valley [3; -3]) by (split; [reflexivity|exact HM]).
  split; [exact M3|]. split. { split; [reflexivity|]. intros x Lx. specialize (HM x Lx). cbn in HM |- *. lra. }
  intros P st0 s Hi.
  exact (proj2 (C125_gradient_descent_pf unit 2 4 valley valley_grad P (fun _ => valley_grad) (3/8) (fun v => (valley v, tt)) [1; 0] [3; -3] (fun _ => 0) (fun _ => tt) st0
    HS HC ltac:(lra) ltac:(lra) (fun _ => eq_refl) (fun _ => eq_refl) eq_refl M3 Hi)).
Qed.

Example C125_backtracking_ex_pf :
  smooth 2 4 valley valley_grad /\ convex 2 valley valley_grad /\ minimiser 2 valley [3; -3] /\
  forall P st0,
    let s := gradient_descent_solver (N:=RN) (Aux:=unit) P (armijo (N:=RN) (1/2) (1/10) 1) (steepest_descent None) (fun _ => valley_grad) in
    s_init s (fun v => (valley v, tt)) [1; 0] (fun _ => 0) (fun _ => tt) = Ret st0 ->
    exists z, minimiser 2 valley z /\ tends_to (y_at s (fun v => (valley v, tt)) [1; 0] st0 tt) z.
Proof.
  destruct valley_facts as (HS & HC & HM). split; [exact HS|]. split; [exact HC|].
  assert (M3 : minimiser 2 valley [3; -3]) by (split; [reflexivity|exact HM]).
  split; [exact M3|]. intros P st0 s Hi.
  exact (C125_backtracking_pf unit P (1/2) (1/10) 1 (fun _ => valley_grad) (fun v => (valley v, tt)) 2 4 valley valley_grad [1; 0] [3; -3] (fun _ => 0) (fun _ => tt) st0
    ltac:(lra) ltac:(lra) HS HC (fun _ => eq_refl) (fun _ => eq_refl) eq_refl M3 Hi).
Qed.
