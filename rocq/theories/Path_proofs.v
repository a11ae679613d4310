(** Finite paths: gradient descent converges without convexity where the gradient dominates the excess (C126). *)

From Coq Require Import String List Bool Arith Lia ZArith QArith Qreals Reals Lra Psatz.
From Verif Require Import Num NumFacts Vec Results Iterate Spec_Iterate Iterate_proofs.
From Verif Require Import Spec_Vec VecFacts Spec_Lin LinFacts.
From Verif Require Import Search Spec_Search Descent Minimisers Solvers Minimisers_proofs.
From Verif Require Import TrustRegion_proofs LeastSquares_proofs Dogleg_proofs Spec_Steps Steps_proofs Spec_Convergence Convergence_proofs.
From Verif Require Import Spec_Rates Rates_proofs Spec_Success Success_proofs LMLocal_proofs Spec_Convex Convex_proofs Nonexpansive_proofs Spec_Related Related_proofs Spec_Limit Limit_proofs.
Import ListNotations.
Local Open Scope R_scope.

Lemma sub_chain : forall a b c : list R, length a = length b -> length b = length c -> Rsub_v a c = Radd_v (Rsub_v a b) (Rsub_v b c).
Proof.
  induction a as [|x a IH]; intros [|z b] [|w c] H1 H2; try discriminate; [reflexivity|]. cbn in H1, H2.
  change (Rsub_v (x :: a) (w :: c)) with ((x - w) :: Rsub_v a c). change (Rsub_v (x :: a) (z :: b)) with ((x - z) :: Rsub_v a b).
  change (Rsub_v (z :: b) (w :: c)) with ((z - w) :: Rsub_v b c). change (Radd_v ((x - z) :: Rsub_v a b) ((z - w) :: Rsub_v b c)) with ((x - z + (z - w)) :: Radd_v (Rsub_v a b) (Rsub_v b c)).
  rewrite (IH b c) by lia. f_equal. ring.
Qed.
Lemma add_sub_back : forall a d : list R, length a = length d -> Rsub_v (Radd_v a d) a = d.
Proof. induction a as [|x a IH]; intros [|z d] H; try discriminate; [reflexivity|]. cbn in *. f_equal; [ring|apply IH; lia]. Qed.
Lemma to_there : forall a z : list R, length a = length z -> Radd_v a (Rsub_v z a) = z.
Proof. induction a as [|x a IH]; intros [|w z] H; try discriminate; [reflexivity|]. cbn in *. f_equal; [ring|apply IH; lia]. Qed.

Lemma move_sq : forall n t (a d : list R), length a = n -> length d = n -> dist2 (Radd_v a (Rscal t d)) a = t * t * Rdot d d.
Proof. intros n t a d La Ld. unfold dist2. rewrite add_sub_back by (rewrite Rscal_length; congruence). rewrite Rdot_scal_l, Rdot_scal_r. ring. Qed.

Section Path.
  Variables (n : nat) (L mu low sl : R) (f : list R -> R) (g : list R -> list R) (y : nat -> list R).
  Hypothesis HS : smooth n L f g.
  Hypothesis HD : dominated n mu low f g.
  Hypothesis HL : 0 < L.
  Hypothesis Hmu : 0 < mu.
  Hypothesis Hsl : 0 < sl.
  Hypothesis LY : forall k, length (y k) = n.
  Definition step_down (k : nat) (t : R) : Prop :=
    0 < t /\ dist2 (y (S k)) (y k) <= t * t * Rdot (g (y k)) (g (y k)) /\ f (y (S k)) <= f (y k) - sl * t * Rdot (g (y k)) (g (y k)).
  Hypothesis STEP : forall k, y (S k) = y k \/ exists t, step_down k t.
  Let F (k : nat) : R := f (y k) - low.
  Let B : R := 2 / (sl * sqrt (2 * mu)).

  Lemma F_pos : forall k, 0 <= F k. Proof. intro k. unfold F. pose proof (proj1 (HD _ (LY k))). lra. Qed.
  Lemma s_pos : 0 < sqrt (2 * mu). Proof. apply sqrt_lt_R0. lra. Qed.
  Lemma B_pos : 0 < B. Proof. apply Rdiv_lt_0_compat; [lra|]. apply Rmult_lt_0_compat; [exact Hsl|apply s_pos]. Qed.
  Lemma B_sq : B * B = 2 / (sl * sl * mu).
  Proof.
    unfold B. pose proof s_pos. replace (2 / (sl * sqrt (2 * mu)) * (2 / (sl * sqrt (2 * mu)))) with (4 / (sl * sl * (sqrt (2 * mu) * sqrt (2 * mu)))) by (field; lra).
    rewrite sqrt_sqrt by lra. field. lra.
  Qed.

  Lemma path_step : forall k, Rnorm (Rsub_v (y (S k)) (y k)) <= B * (sqrt (F k) - sqrt (F (S k))).
  Proof.
    intro k. destruct (STEP k) as [E|(t & T0 & E & D)].
    - unfold F. rewrite E. replace (B * _) with 0 by ring. unfold Rnorm. change (Rdot _ _) with (dist2 (y k) (y k)). rewrite dist2_refl, sqrt_0. lra.
    - assert (LG : length (g (y k)) = n) by (apply HS, LY).
      assert (N : Rnorm (Rsub_v (y (S k)) (y k)) <= t * Rnorm (g (y k))).
      { apply Rnorm_le; [apply Rmult_le_pos; [lra|apply Rnorm_pos]|]. replace (t * Rnorm (g (y k)) * (t * Rnorm (g (y k)))) with (t * t * (Rnorm (g (y k)) * Rnorm (g (y k)))) by ring.
        rewrite Rnorm_sq. exact E. }
      eapply Rle_trans; [exact N|]. clear N. set (G := Rnorm (g (y k))) in *.
      assert (GG : G * G = Rdot (g (y k)) (g (y k))) by apply Rnorm_sq. assert (G0 : 0 <= G) by apply Rnorm_pos.
      set (a := sqrt (F k)). set (b := sqrt (F (S k))). set (s := sqrt (2 * mu)).
      assert (S0 : 0 < s) by apply s_pos.
      assert (a0 : 0 <= a) by apply sqrt_pos. assert (b0 : 0 <= b) by apply sqrt_pos.
      assert (aa : a * a = F k) by (apply sqrt_sqrt, F_pos). assert (bb : b * b = F (S k)) by (apply sqrt_sqrt, F_pos).
      assert (SA : s * a <= G).
      { apply Rsqr_incr_0_var; [|exact G0]. unfold Rsqr. rewrite GG. replace (s * a * (s * a)) with (s * s * (a * a)) by ring.
        rewrite aa. unfold s. rewrite sqrt_sqrt by lra. apply HD, LY. }
      assert (DD : sl * t * (G * G) <= a * a - b * b). { rewrite aa, bb, GG. unfold F. lra. }
      assert (ST : 0 < sl * t) by (apply Rmult_lt_0_compat; assumption).
      assert (AB : b <= a). { apply Rsqr_incr_0_var; [|exact a0]. unfold Rsqr. assert (0 <= sl * t * (G * G)) by (apply Rmult_le_pos; nra). lra. }
      assert (KEY : sl * s * (t * G) <= 2 * (a - b)).
      { destruct (Rle_lt_or_eq_dec 0 G G0) as [G1|G1].
        - apply (Rmult_le_reg_r G); [exact G1|].
          assert (Q1 : (a - b) * (s * (a + b)) <= (a - b) * (2 * G)) by (apply Rmult_le_compat_l; [lra|]; assert (s * b <= s * a) by (apply Rmult_le_compat_l; lra); lra).
          assert (Q2 : s * (sl * t * (G * G)) <= s * (a * a - b * b)) by (apply Rmult_le_compat_l; lra). lra.
        - rewrite <- G1. lra. }
      apply (Rmult_le_reg_l (sl * s)). { apply Rmult_lt_0_compat; assumption. }
      unfold B. fold s. replace (sl * s * (2 / (sl * s) * (a - b))) with (2 * (a - b)) by (field; lra). exact KEY.
  Qed.
  Lemma path : forall k j, Rnorm (Rsub_v (y (j + k)%nat) (y k)) <= B * (sqrt (F k) - sqrt (F (j + k)%nat)).
  Proof.
    intros k j. induction j as [|j IH]; cbn [Nat.add].
    - replace (B * _) with 0 by ring. unfold Rnorm. change (Rdot _ _) with (dist2 (y k) (y k)). rewrite dist2_refl, sqrt_0. lra.
    - rewrite (sub_chain _ (y (j + k)%nat)) by (rewrite !LY; reflexivity).
      eapply Rle_trans; [apply Rnorm_add; rewrite !(fun a b => Rsub_v_length a b n) by apply LY; reflexivity|]. pose proof (path_step (j + k)). lra.
  Qed.
  Lemma path_sq : forall k j, (k <= j)%nat -> dist2 (y j) (y k) <= B * B * F k.
  Proof.
    intros k j H. pose proof (path k (j - k)) as P. replace (j - k + k)%nat with j in P by lia.
    pose proof B_pos. pose proof (sqrt_pos (F j)). pose proof (sqrt_pos (F k)).
    assert (P' : Rnorm (Rsub_v (y j) (y k)) <= B * sqrt (F k)). { assert (0 <= B * sqrt (F j)) by (apply Rmult_le_pos; lra). lra. }
    apply Rnorm_le in P'; [|apply Rmult_le_pos; lra].
    replace (B * sqrt (F k) * (B * sqrt (F k))) with (B * B * (sqrt (F k) * sqrt (F k))) in P' by ring. rewrite sqrt_sqrt in P' by apply F_pos. exact P'.
  Qed.

  Hypothesis VALUES : forall e, 0 < e -> exists k, F k < e.

  Lemma grad_small : forall x, length x = n -> Rdot (g x) (g x) <= 2 * L * (f x - low).
  Proof.
    intros x Lx. pose proof (proj2 HS x (Rscal (- / L) (g x)) Lx ltac:(rewrite Rscal_length; apply HS; exact Lx)) as D.
    rewrite Rdot_scal_r, Rdot_scal_l, Rdot_scal_r in D.
    assert (LX : length (Radd_v x (Rscal (- / L) (g x))) = n) by (apply Radd_v_length; [exact Lx|rewrite Rscal_length; apply HS; exact Lx]).
    pose proof (proj1 (HD _ LX)) as D2. set (G := Rdot (g x) (g x)) in *.
    assert (D3 : G / (2 * L) <= f x - low). { replace (f x + - / L * G + L / 2 * (- / L * (- / L * G))) with (f x - G / (2 * L)) in D by (field; lra). lra. }
    apply (Rmult_le_compat_l (2 * L)) in D3; [|lra]. replace (2 * L * (G / (2 * L))) with G in D3 by (field; lra). exact D3.
  Qed.

  Lemma path_limit : exists z, length z = n /\ f z = low /\ forall k, dist2 (y k) z <= 2 / (sl * sl * mu) * (f (y k) - low).
  Proof.
    destruct (bwv n y (2 * (B * B * F 0) + 2 * Rdot (y 0%nat) (y 0%nat)) LY) as (phi & z & Hphi & Lz & Hz).
    { intro k. assert (E : forall v, length v = n -> dist2 v (zerov n) = Rdot v v).
      { clear. intro v. revert n. induction v as [|a v IH]; intros [|m] H; try discriminate; [reflexivity|]. cbn in H. injection H as H. specialize (IH m H).
        change (zerov (S m)) with (0 :: zerov m). rewrite dist2_cons, IH. cbn. ring. }
      assert (LZ : length (zerov n) = n) by apply repeat_length.
      rewrite <- !E by apply LY.
      pose proof (dist2_tri2 (y k) (y 0%nat) (zerov n) ltac:(rewrite !LY; congruence) ltac:(rewrite LY; congruence)). pose proof (path_sq 0 k ltac:(lia)). lra. }
    assert (DZ : forall k, dist2 (y k) z <= B * B * F k).
    { intro k. assert (NZ : Rnorm (Rsub_v (y k) z) <= B * sqrt (F k)).
      { apply le_epsilon. intros e He. destruct (Hz (e * e) ltac:(nra)) as (M & HM). specialize (HM (Nat.max k M) ltac:(lia)).
        unfold R_dist in HM. rewrite Rminus_0_r, Rabs_pos_eq in HM by apply dist2_pos.
        pose proof (rises_ge phi Hphi (Nat.max k M)) as GE. set (j := phi (Nat.max k M)) in *.
        pose proof (path_sq k j ltac:(lia)) as P. rewrite dist2_sym in P.
        rewrite (sub_chain _ (y j)) by (rewrite !LY; congruence).
        eapply Rle_trans; [apply Rnorm_add; rewrite !(fun a b => Rsub_v_length a b n) by first [apply LY|exact Lz]; reflexivity|]. apply Rplus_le_compat.
        - pose proof B_pos. pose proof (sqrt_pos (F k)). apply Rnorm_le; [apply Rmult_le_pos; lra|].
          replace (B * sqrt (F k) * (B * sqrt (F k))) with (B * B * (sqrt (F k) * sqrt (F k))) by ring. rewrite sqrt_sqrt by apply F_pos. exact P.
        - apply Rnorm_le; [lra|]. left. exact HM. }
      pose proof B_pos. pose proof (sqrt_pos (F k)). apply Rnorm_le in NZ; [|apply Rmult_le_pos; lra].
      replace (B * sqrt (F k) * (B * sqrt (F k))) with (B * B * (sqrt (F k) * sqrt (F k))) in NZ by ring. rewrite sqrt_sqrt in NZ by apply F_pos. exact NZ. }
    exists z. split; [exact Lz|]. split; [|intro k; rewrite <- B_sq; apply DZ].
    apply Rle_antisym; [|apply HD; exact Lz]. apply le_epsilon. intros e He.
    set (C := 1 + L + B * B / 2 + L / 2 * (B * B)). assert (B0 : 0 < B * B) by (pose proof B_pos; nra).
    assert (C0 : 0 < C). { unfold C. assert (0 < L / 2 * (B * B)) by (apply Rmult_lt_0_compat; lra). lra. }
    destruct (VALUES (e / C) ltac:(apply Rdiv_lt_0_compat; assumption)) as (k & Hk).
    pose proof (proj2 HS (y k) (Rsub_v z (y k)) (LY k) ltac:(apply Rsub_v_length; [exact Lz|apply LY])) as D.
    rewrite to_there in D by (rewrite LY; congruence).
    change (Rdot (Rsub_v z (y k)) (Rsub_v z (y k))) with (dist2 z (y k)) in D. rewrite (dist2_sym z) in D.
    pose proof (Rdot_pos (Rsub_v (g (y k)) (Rsub_v z (y k)))) as Q.
    assert (YQ : Rdot (g (y k)) (Rsub_v z (y k)) <= (Rdot (g (y k)) (g (y k)) + dist2 (y k) z) / 2).
    { assert (LG : length (g (y k)) = n) by (apply HS, LY). assert (LR : length (Rsub_v z (y k)) = n) by (apply Rsub_v_length; [exact Lz|apply LY]).
      assert (DD : Rdot (Rsub_v z (y k)) (Rsub_v z (y k)) = dist2 (y k) z) by exact (dist2_sym z (y k)).
      set (d := Rsub_v z (y k)) in *. clearbody d. rewrite Rdot_sub_l, !Rdot_sub_r in Q by congruence. rewrite DD, (Rdot_comm d (g (y k))) in Q. lra. }
    pose proof (grad_small (y k) (LY k)) as GS. fold (F k) in GS. pose proof (DZ k) as DK.
    assert (D4 : L / 2 * dist2 (y k) z <= L / 2 * (B * B * F k)) by (apply Rmult_le_compat_l; lra).
    apply (Rmult_lt_compat_l C) in Hk; [|exact C0]. replace (C * (e / C)) with e in Hk by (field; lra).
    assert (EF : f (y k) = F k + low) by (unfold F; ring). unfold C in Hk. lra.
  Qed.
End Path.

Lemma pow_small : forall a th C, 0 <= th < 1 -> 0 <= a -> 0 < C -> exists k, th ^ k * a < C.
Proof.
  intros a th C HT Ha HC. destruct (pow_lt_1_zero th ltac:(rewrite Rabs_pos_eq; lra) (C / (a + 1)) ltac:(apply Rdiv_lt_0_compat; lra)) as (k & Hk).
  exists k. specialize (Hk k ltac:(lia)). rewrite Rabs_pos_eq in Hk by (apply pow_le; lra).
  apply (Rmult_lt_compat_r (a + 1)) in Hk; [|lra]. replace (C / (a + 1) * (a + 1)) with C in Hk by (field; lra).
  pose proof (pow_le th k (proj1 HT)). lra.
Qed.

(** GradientDescent, exact arithmetic, learning rate below 2/L, on an L-smooth objective (convex or not) whose gradient dominates its
    excess over [low]: the whole path after step k stays within a distance of order sqrt(f(y_k) - low), the iterates converge to
    a point where [low] is attained, and they do so at a linear rate. *)
Lemma C126_gradient_descent_pf :
  forall (Aux : Type) (n : nat) (L mu low : R) (f : list R -> R) (g : list R -> list R)
         (P : ar_tols RN) grad_of (rate : R) (fn : list R -> R * Aux) y0 fs auxs st0,
    smooth n L f g -> dominated n mu low f g -> 0 < mu <= L -> 0 < rate -> rate * L < 2 ->
    (forall x, fst (fn x) = f x) -> (forall x, grad_of fn x = g x) -> length y0 = n ->
    let s := GradientDescent (N:=RN) P grad_of rate in
    s_init s fn y0 fs auxs = Ret st0 ->
    let y : nat -> list R := y_at s fn y0 st0 (auxs fill0) in
    let sl := 1 - L * rate / 2 in let theta := 1 - 2 * mu * (rate * sl) in
    (forall k j, (k <= j)%nat -> dist2 (y (S j)) (y (S k)) <= 2 / (sl * sl * mu) * (f (y (S k)) - low)) /\
    exists z, length z = n /\ f z = low /\ tends_to y z /\
      0 <= theta < 1 /\ forall k, dist2 (y (S k)) z <= 2 / (sl * sl * mu) * (f y0 - low) * theta ^ k.
Proof.
  intros Aux n L mu low f g P grad_of rate fn y0 fs auxs st0 HS HD HM R0 RL Hf Hg Hn s Hi y sl theta.
  pose proof (C65_descends_pf Aux n L f g P grad_of rate fn y0 fs auxs st0 HS Hf Hg Hn Hi) as D. cbv zeta in D.
  destruct (C65_iteration_pf RN Aux P grad_of rate fn y0 fs auxs st0 Hi) as (_ & YS).
  destruct (C83_gradient_descent_pf Aux n L mu low f g P grad_of rate fn y0 fs auxs st0 HS HD HM (Rlt_le _ _ R0) (Rlt_le _ _ RL) Hf Hg Hn Hi) as (TH & RATE').
  fold s in RATE'. assert (RATE : forall k, f (y (S k)) - low <= theta ^ k * (f y0 - low)) by exact RATE'.
  assert (LY : forall k, length (y (S k)) = n) by (intro k; exact (proj1 (D k))).
  assert (YS' : forall k, y (S (S k)) = Radd_v (y (S k)) (Rscal (- rate) (g (y (S k))))).
  { intro k. refine (eq_trans (YS k) _). refine (eq_trans (vadd_RN _ _) _). f_equal. refine (eq_trans (vscale_RN _ _) _). f_equal. apply Hg. }
  assert (DK : forall k, f (y (S (S k))) <= f (y (S k)) - sl * rate * Rdot (g (y (S k))) (g (y (S k)))).
  { intro k. pose proof (proj2 (D k)) as Q. fold s y in Q. fold sl in Q. rewrite (Rmult_comm sl). exact Q. }
  clear D YS RATE'. clearbody y.
  assert (S0 : 0 < sl) by (unfold sl; lra).
  assert (T1 : 0 <= theta < 1).
  { split; [exact (proj1 TH)|]. unfold theta. assert (0 < mu * (rate * sl)) by (apply Rmult_lt_0_compat; [lra|apply Rmult_lt_0_compat; lra]). lra. }
  assert (STEP : forall k, y (S (S k)) = y (S k) \/ exists t, step_down sl f g (fun k => y (S k)) k t).
  { intro k. right. exists rate. split; [exact R0|]. split; [|apply DK]. rewrite YS'. rewrite (move_sq n) by (try apply HS; apply LY). right. ring. }
  assert (F0 : 0 <= f y0 - low) by (pose proof (proj1 (HD _ Hn)); lra).
  assert (HL : 0 < L) by lra. assert (Hm : 0 < mu) by lra.
  split.
  { intros k j H. rewrite <- (B_sq mu sl Hm S0). exact (path_sq n L mu low sl f g (fun k => y (S k)) HS HD Hm S0 LY STEP k j H). }
  destruct (path_limit n L mu low sl f g (fun k => y (S k)) HS HD HL Hm S0 LY STEP) as (z & Lz & Fz & Dz).
  { intros e He. destruct (pow_small _ _ e T1 F0 He) as (k & Hk). exists k. specialize (RATE k). lra. }
  assert (C0 : 0 < 2 / (sl * sl * mu)) by (apply Rdiv_lt_0_compat; [lra|]; apply Rmult_lt_0_compat; [nra|lra]).
  assert (DR : forall k, dist2 (y (S k)) z <= 2 / (sl * sl * mu) * (f y0 - low) * theta ^ k).
  { intro k. eapply Rle_trans; [apply Dz|]. replace (2 / (sl * sl * mu) * (f y0 - low) * theta ^ k) with (2 / (sl * sl * mu) * (theta ^ k * (f y0 - low))) by ring. apply Rmult_le_compat_l; [lra|apply RATE]. }
  exists z. split; [exact Lz|]. split; [exact Fz|]. split; [|split; [exact T1|exact DR]].
  apply tends_shift. intros e He.
  destruct (pow_small (2 / (sl * sl * mu) * (f y0 - low)) theta e T1 ltac:(apply Rmult_le_pos; lra) He) as (K & HK).
  exists K. intros k Hk. eapply Rle_lt_trans; [apply DR|]. eapply Rle_lt_trans; [|exact HK]. rewrite Rmult_comm. apply Rmult_le_compat_r; [apply Rmult_le_pos; lra|].
  clear - T1 Hk. induction Hk as [|k Hk IH]; [lra|]. cbn [pow]. pose proof (pow_le theta k (proj1 T1)). assert (theta * theta ^ k <= 1 * theta ^ k) by (apply Rmult_le_compat_r; lra). lra.
Qed.

(** The same for steepest descent with BacktrackingArmijo, whatever its decrease factor, slope and first step. *)
Lemma C126_backtracking_pf :
  forall (Aux : Type) (P : ar_tols RN) (de sl ini : R) grad_of (fn : list R -> R * Aux)
         (n : nat) (L mu low : R) (f : list R -> R) (g : list R -> list R) (y0 : list R) fs auxs st0,
    0 < de < 1 /\ 0 < sl < 1 /\ 0 < ini -> smooth n L f g -> dominated n mu low f g -> 0 < mu <= L ->
    (forall x, fst (fn x) = f x) -> (forall x, grad_of fn x = g x) -> length y0 = n ->
    let s := gradient_descent_solver (N:=RN) P (armijo (N:=RN) de sl ini) (steepest_descent None) grad_of in
    s_init s fn y0 fs auxs = Ret st0 ->
    let y : nat -> list R := y_at s fn y0 st0 (auxs fill0) in
    (forall k j, (k <= j)%nat -> dist2 (y (S j)) (y (S k)) <= 2 / (sl * sl * mu) * (f (y (S k)) - low)) /\
    exists z, length z = n /\ f z = low /\ tends_to y z /\
      forall k, dist2 (y (S k)) z <= 2 / (sl * sl * mu) * (f (y (S k)) - low).
Proof.
  intros Aux P de sl ini grad_of fn n L mu low f g y0 fs auxs st0 HV HS HD HM Hf Hg Hn s Hi y.
  assert (HL : 0 < L) by lra. assert (Hm : 0 < mu) by lra.
  assert (EQ : exists q, ini * de ^ q * L <= 2 * (1 - sl)).
  { destruct (pow_small (ini * L) de (2 * (1 - sl)) ltac:(lra) ltac:(apply Rmult_le_pos; lra) ltac:(lra)) as (q & Hq). exists q. lra. }
  destruct EQ as (q & Hq).
  destruct (C83_backtracking_pf Aux P de sl ini grad_of fn n L mu low f g y0 fs auxs st0 q HV HS HD HM Hf Hg Hn Hq Hi) as (TH & RATE').
  fold s in RATE'. set (theta := 1 - _) in TH. assert (RATE : forall k, f (y (S (k * (q + 1)))) - low <= theta ^ k * (f y0 - low)) by exact RATE'.
  pose proof (C72_backtracking_pf Aux P de sl ini grad_of fn n L f g y0 fs auxs st0 HV HL HS Hf Hg Hn Hi) as (_ & _ & ST' & _ & LB' & _).
  set (t := fun k : nat => gd_search_state (st_at s fn y0 st0 (auxs fill0) k) : R).
  set (moved := fun k : nat => Radd_v (y k) (Rscal (- t k) (g (y k)))).
  set (gg := fun k : nat => Rdot (g (y k)) (g (y k))).
  assert (ST : forall k, ((f (moved (S k)) <= f (y (S k)) - sl * t (S k) * gg (S k))%R /\ y (S (S k)) = moved (S k) /\ t (S (S k)) = ini) \/
     (~ (f (moved (S k)) <= f (y (S k)) - sl * t (S k) * gg (S k))%R /\ y (S (S k)) = y (S k) /\ t (S (S k)) = (de * t (S k))%R)) by exact ST'.
  assert (LB : forall k, (Rmin ini (2 * de * (1 - sl) / L) <= t (S k) <= ini)%R) by exact LB'.
  assert (LY : forall k, length (y (S k)) = n).
  { intro k. unfold y. apply gd_init_inv in Hi. subst st0.
    exact (proj1 (armijo_inv P de sl ini grad_of fn n L f g y0 fs auxs HV HS Hf Hg Hn k)). }
  clear ST' LB' RATE'. clearbody t y theta.
  assert (M0 : 0 < Rmin ini (2 * de * (1 - sl) / L)). { apply Rmin_glb_lt; [lra|]. apply Rdiv_lt_0_compat; [|lra]. apply Rmult_lt_0_compat; lra. }
  assert (STEP : forall k, y (S (S k)) = y (S k) \/ exists u, step_down sl f g (fun k => y (S k)) k u).
  { intro k. destruct (ST k) as [(C1 & C2 & _)|(_ & C2 & _)]; [right|left; exact C2]. exists (t (S k)). pose proof (LB k).
    split; [lra|]. rewrite C2. split; [|exact C1]. unfold moved. rewrite (move_sq n) by (try apply HS; apply LY). right. ring. }
  assert (DEC : forall k, f (y (S (S k))) <= f (y (S k))).
  { intro k. destruct (STEP k) as [C2|(u & U0 & _ & C2)]; [rewrite C2; lra|].
    pose proof (Rdot_pos (g (y (S k)))) as G0.
    assert (0 <= sl * u * Rdot (g (y (S k))) (g (y (S k)))) by (apply Rmult_le_pos; [apply Rmult_le_pos|]; lra). lra. }
  assert (MON : forall j k, (j <= k)%nat -> f (y (S k)) <= f (y (S j))).
  { intros j k H. induction H as [|k H IH]; [lra|]. eapply Rle_trans; [apply DEC|exact IH]. }
  assert (S0 : 0 < sl) by lra. assert (F0 : 0 <= f y0 - low) by (pose proof (proj1 (HD _ Hn)); lra).
  split.
  { intros k j H. rewrite <- (B_sq mu sl Hm S0). exact (path_sq n L mu low sl f g (fun k => y (S k)) HS HD Hm S0 LY STEP k j H). }
  destruct (path_limit n L mu low sl f g (fun k => y (S k)) HS HD HL Hm S0 LY STEP) as (z & Lz & Fz & Dz).
  { intros e He. destruct (pow_small _ _ e TH F0 He) as (k & Hk). exists (k * (q + 1))%nat. specialize (RATE k). lra. }
  exists z. split; [exact Lz|]. split; [exact Fz|]. split; [|exact Dz].
  apply tends_shift. intros e He.
  assert (C0 : 0 < 2 / (sl * sl * mu)) by (apply Rdiv_lt_0_compat; [lra|]; apply Rmult_lt_0_compat; [nra|lra]).
  destruct (pow_small (2 / (sl * sl * mu) * (f y0 - low)) theta e TH ltac:(apply Rmult_le_pos; lra) He) as (K & HK).
  exists (K * (q + 1))%nat. intros k Hk. eapply Rle_lt_trans; [apply Dz|]. eapply Rle_lt_trans; [|exact HK].
  replace (theta ^ K * (2 / (sl * sl * mu) * (f y0 - low))) with (2 / (sl * sl * mu) * (theta ^ K * (f y0 - low))) by ring.
  apply Rmult_le_compat_l; [lra|]. pose proof (MON _ _ Hk). specialize (RATE K). lra.
Qed.

(** The same for every gradient-related descent, user-defined ones included, with BacktrackingArmijo or LinearTrustRegion. *)
Lemma C126_gradient_related_pf :
  forall (Aux : Type) (P : ar_tols RN) search (c lo hi ini : R) resets descent (c1 c2 L mu low : R)
         grad_of (fn : list R -> R * Aux) (n : nat) (f : list R -> R) (g : list R -> list R) (y0 : list R) fs auxs st0,
    shrinking_search search c lo hi ini resets -> gradient_related n c1 c2 descent ->
    0 < c1 -> 0 < c2 -> 0 < L -> 0 < mu -> smooth n L f g -> dominated n mu low f g ->
    (forall x, fst (fn x) = f x) -> (forall x, grad_of fn x = g x) -> length y0 = n ->
    let s := gradient_descent_solver (N:=RN) P search descent grad_of in
    s_init s fn y0 fs auxs = Ret st0 ->
    let y : nat -> list R := y_at s fn y0 st0 (auxs fill0) in
    let far := 2 * c2 / (c * c * (c1 * c1) * mu) in
    (forall k j, (k <= j)%nat -> dist2 (y (S j)) (y (S k)) <= far * (f (y (S k)) - low)) /\
    exists z, length z = n /\ f z = low /\ tends_to y z /\ forall k, dist2 (y (S k)) z <= far * (f (y (S k)) - low).
Proof.
  intros Aux P search c lo hi ini resets descent c1 c2 L mu low grad_of fn n f g y0 fs auxs st0 HSe HR Hc1 Hc2 HL Hm HS HD Hf Hg L0 s Hi y far.
  destruct (shrinking_facts _ _ _ _ _ _ HSe) as (HV & HA & size & SF & SS).
  pose proof (tlow_pos L c1 c2 c lo hi ini HL Hc1 Hc2 HV) as TP.
  destruct (pow_small ini lo (tlow L c1 c2 c lo ini) ltac:(lra) ltac:(lra) TP) as (q & Hq).
  destruct (pow_lt_1_zero lo ltac:(rewrite Rabs_pos_eq; lra) (/ hi) ltac:(apply Rinv_0_lt_compat; lra)) as [p0 Hp0].
  set (p := (p0 + q)%nat). specialize (Hp0 p ltac:(lia)). rewrite Rabs_pos_eq in Hp0 by (apply pow_le; lra).
  apply (Rmult_lt_compat_l hi) in Hp0; [|lra]. rewrite Rinv_r in Hp0 by lra.
  destruct (C111_rate_pf Aux P search c lo hi ini resets descent c1 c2 L mu low p q grad_of fn n f g y0 fs auxs st0 HSe HR Hc1 Hc2 HL Hm HS
    (fun x Lx => proj1 (HD x Lx)) (fun x Lx => proj2 (HD x Lx)) Hf Hg L0 ltac:(lra) ltac:(rewrite Rmult_comm; exact Hq) ltac:(intros _; lia) Hi) as (R1 & MON' & RATE').
  set (rho := Rmax 0 _) in R1. assert (R2 : 0 <= rho < 1) by (split; [apply Rmax_l|exact R1]).
  assert (RATE : forall a k, (1 + a * (p + 1) + q <= k)%nat -> f (y k) - low <= rho ^ a * (f y0 - low)) by exact RATE'.
  clear R1 MON' RATE'. pose proof (gd_init_inv _ _ _ _ _ _ _ _ _ Hi) as Hi'. subst st0.
  destruct (l_run P search descent c lo hi ini resets grad_of fn n c1 c2 f g y0 fs auxs size Hc1 ltac:(lra) ltac:(lra) HA SF SS HR Hf Hg (proj1 HS) L0)
    as (t & d & acc & Y1' & LY' & Ld & T0 & Rel' & RS' & _).
  assert (LY : forall k, length (y (S k)) = n) by exact LY'.
  assert (Rel : forall k, c1 * Rdot (g (y (S k))) (g (y (S k))) <= - Rdot (g (y (S k))) (d k) /\ Rdot (d k) (d k) <= c2 * Rdot (g (y (S k))) (g (y (S k)))) by exact Rel'.
  assert (RS : forall k, (acc k = true /\ f (y (S (S k))) <= f (y (S k)) + c * t k * Rdot (g (y (S k))) (d k) /\
       y (S (S k)) = Radd_v (y (S k)) (Rscal (t k) (d k)) /\ (if resets then t (S k) = ini else t k <= t (S k) <= hi * t k)) \/
      (acc k = false /\ f (y (S k)) + c * t k * Rdot (g (y (S k))) (d k) < f (Radd_v (y (S k)) (Rscal (t k) (d k))) /\
       y (S (S k)) = y (S k) /\ t (S k) = lo * t k)) by exact RS'.
  clear Y1' LY' Rel' RS'. clearbody y rho.
  assert (TK : forall k, 0 < t k).
  { induction k as [|k IH]; [rewrite T0; lra|]. destruct (RS k) as [(_ & _ & _ & T)|(_ & _ & _ & T)]; [destruct resets; lra|].
    rewrite T. apply Rmult_lt_0_compat; lra. }
  assert (W0 : 0 < sqrt c2) by (apply sqrt_lt_R0; exact Hc2). assert (WW : sqrt c2 * sqrt c2 = c2) by (apply sqrt_sqrt; lra).
  set (w := sqrt c2) in *. set (sl := c * c1 / w).
  assert (S0 : 0 < sl) by (apply Rdiv_lt_0_compat; [apply Rmult_lt_0_compat; lra|exact W0]).
  assert (STEP : forall k, y (S (S k)) = y (S k) \/ exists u, step_down sl f g (fun k => y (S k)) k u).
  { intro k. destruct (RS k) as [(_ & D & E & _)|(_ & _ & E & _)]; [right|left; exact E]. exists (w * t k). specialize (TK k). destruct (Rel k) as (B1 & B2).
    split; [apply Rmult_lt_0_compat; assumption|]. split.
    - cbv beta. rewrite E, (move_sq n) by (try apply Ld; apply LY).
      replace (w * t k * (w * t k) * Rdot (g (y (S k))) (g (y (S k)))) with (t k * t k * (w * w * Rdot (g (y (S k))) (g (y (S k))))) by ring.
      rewrite WW. apply Rmult_le_compat_l; [nra|exact B2].
    - cbv beta. replace (sl * (w * t k) * Rdot (g (y (S k))) (g (y (S k)))) with (c * t k * (c1 * Rdot (g (y (S k))) (g (y (S k))))) by (unfold sl; field; lra).
      assert (c * t k * (c1 * Rdot (g (y (S k))) (g (y (S k)))) <= c * t k * - Rdot (g (y (S k))) (d k)) by (apply Rmult_le_compat_l; [apply Rmult_le_pos; lra|exact B1]). lra. }
  assert (EF : 2 / (sl * sl * mu) = far). { unfold far, sl. rewrite <- WW. field. repeat split; lra. }
  assert (F0 : 0 <= f y0 - low) by (pose proof (proj1 (HD _ L0)); lra).
  split.
  { intros k j H. rewrite <- EF, <- (B_sq mu sl Hm S0). exact (path_sq n L mu low sl f g (fun k => y (S k)) HS HD Hm S0 LY STEP k j H). }
  destruct (path_limit n L mu low sl f g (fun k => y (S k)) HS HD HL Hm S0 LY STEP) as (z & Lz & Fz & Dz).
  { intros e He. destruct (pow_small _ _ e R2 F0 He) as (a & Ha). exists (a * (p + 1) + q)%nat. specialize (RATE a (S (a * (p + 1) + q)) ltac:(lia)). lra. }
  rewrite EF in Dz. exists z. split; [exact Lz|]. split; [exact Fz|]. split; [|exact Dz].
  apply tends_shift. intros e He.
  assert (C0 : 0 < far). { rewrite <- EF. apply Rdiv_lt_0_compat; [lra|]. apply Rmult_lt_0_compat; [nra|lra]. }
  destruct (pow_small (far * (f y0 - low)) rho e R2 ltac:(apply Rmult_le_pos; lra) He) as (K & HK).
  exists (K * (p + 1) + q)%nat. intros k Hk. eapply Rle_lt_trans; [apply Dz|]. eapply Rle_lt_trans; [|exact HK].
  replace (rho ^ K * (far * (f y0 - low))) with (far * (rho ^ K * (f y0 - low))) by ring.
  apply Rmult_le_compat_l; [lra|]. apply RATE. lia.
Qed.

(** The answer of a successful GradientDescent solve lies within an explicit distance of a point where [low] is attained. *)
Lemma C126_answer_pf :
  forall (Aux : Type) (n : nat) (L mu low : R) (f : list R -> R) (g : list R -> list R) (rtol atol rate : R)
         grad_of (fn : list R -> R * Aux) (y0 : list R) fs auxs allfinite fuel budget throw sol,
    0 <= rtol -> 0 < atol -> 0 < rate -> smooth n L f g -> rate * L <= 2 ->
    0 < mu <= L -> dominated n mu low f g ->
    (forall x, grad_of fn x = g x) -> length y0 = n ->
    let s := GradientDescent (N:=RN) (mkTols rtol atol max_norm) grad_of rate in
    iterative_solve allfinite s fn fuel budget throw y0 fs auxs = Ret sol -> result sol = successful ->
    let tol := tolerances rtol atol (value sol) in
    exists z, length z = n /\ f z = low /\ Rnorm (Rsub_v (value sol) z) <= 2 * Rnorm tol / (mu * rate).
Proof.
  intros Aux n L mu low f g rtol atol rate grad_of fn y0 fs auxs allfinite fuel budget throw sol Hr Ha R0 HS RL HM HD Hg Hn s H HR tol.
  pose proof (C96_gradient_descent_optimum_pf Aux n L mu low f g rtol atol rate grad_of fn y0 fs auxs allfinite fuel budget throw sol Hr Ha R0 HS RL (proj1 HM) HD Hg Hn H HR) as Q.
  cbv zeta in Q. fold tol in Q.
  destruct (C96_gradient_descent_pf Aux n g rtol atol rate grad_of fn y0 fs auxs allfinite fuel budget throw sol Hr Ha R0 (proj1 HS) Hg Hn H HR) as (x & Lx & V & _).
  assert (LV : length (value sol : list R) = n) by (rewrite V; apply Radd_v_length; [exact Lx|rewrite Rscal_length; apply HS; exact Lx]).
  set (v := value sol : list R) in *.
  assert (HL : 0 < L) by lra.
  set (P := mkTols (N:=RN) 1 1 max_norm). set (s' := GradientDescent (N:=RN) (Aux:=unit) P (fun _ => g) (/ L)).
  destruct (s_init s' (fun x => (f x, tt)) v (fun _ => 0) (fun _ => tt)) as [st0| |] eqn:I; try discriminate I.
  destruct (C65_iteration_pf RN unit P (fun _ => g) (/ L) (fun x => (f x, tt)) v (fun _ => 0) (fun _ => tt) st0 I) as (Y1 & _).
  assert (RL1 : / L * L = 1) by (field; lra).
  destruct (C126_gradient_descent_pf unit n L mu low f g P (fun _ => g) (/ L) (fun x => (f x, tt)) v (fun _ => 0) (fun _ => tt) st0
    HS HD HM ltac:(apply Rinv_0_lt_compat; exact HL) ltac:(lra) (fun _ => eq_refl) (fun _ => eq_refl) LV I) as (_ & z & Lz & Fz & _ & _ & Dz).
  exists z. split; [exact Lz|]. split; [exact Fz|]. specialize (Dz 0%nat). cbn [pow] in Dz.
  assert (D1 : dist2 v z <= 2 / ((1 - L * / L / 2) * (1 - L * / L / 2) * mu) * (f v - low) * 1).
  { refine (Rle_trans _ _ _ _ Dz). right. exact (f_equal (fun a => dist2 a z) (eq_sym Y1)). }
  clear Dz Y1 I. replace (2 / ((1 - L * / L / 2) * (1 - L * / L / 2) * mu)) with (8 / mu) in D1 by (field; lra).
  assert (D2 : dist2 v z <= 8 / mu * (Rdot tol tol / (2 * mu * (rate * rate)))).
  { eapply Rle_trans; [exact D1|]. rewrite Rmult_1_r. apply Rmult_le_compat_l; [|exact Q]. apply Rlt_le, Rdiv_lt_0_compat; lra. }
  assert (MR : 0 < mu * rate) by (apply Rmult_lt_0_compat; lra).
  assert (T0 : 0 <= 2 * Rnorm tol / (mu * rate)).
  { apply Rmult_le_pos; [|left; apply Rinv_0_lt_compat; exact MR]. pose proof (Rnorm_pos tol). lra. }
  apply Rnorm_le; [exact T0|]. change (dist2 v z <= 2 * Rnorm tol / (mu * rate) * (2 * Rnorm tol / (mu * rate))).
  replace (2 * Rnorm tol / (mu * rate) * (2 * Rnorm tol / (mu * rate))) with (8 / mu * ((Rnorm tol * Rnorm tol) / (2 * mu * (rate * rate)))) by (field; lra).
  rewrite Rnorm_sq. exact D2.
Qed.

Lemma dip_facts : smooth 1 1 dip dip_grad /\ dominated 1 (1/7) 0 dip dip_grad /\ ~ convex 1 dip dip_grad.
Proof.
  split; [split|split].
  - intros [|a [|? ?]] H; try discriminate H. reflexivity.
  - intros [|a [|? ?]] [|d [|? ?]] H1 H2; try discriminate H1; try discriminate H2.
    change (Radd_v [a] [d]) with [a + d]. cbn [dip dip_grad].
    assert (E : forall u : R, Rdot [u] [d] = u * d) by (intro u; cbn; ring). rewrite !E.
    destruct (Rle_dec a 1), (Rle_dec (a + d) 1); try destruct (Rle_dec a (3/2)); try destruct (Rle_dec (a + d) (3/2)); nra.
  - intros [|a [|? ?]] H; try discriminate H. cbn [dip dip_grad].
    assert (E : forall u : R, Rdot [u] [u] = u * u) by (intro u; cbn; ring). rewrite !E.
    destruct (Rle_dec a 1); try destruct (Rle_dec a (3/2)); split; nra.
  - intro H. specialize (H [1] [1/4] eq_refl eq_refl).
    assert (E1 : dip [1] = 1/2) by (cbn; destruct (Rle_dec 1 1); lra).
    assert (E2 : dip [5/4] = 23/32) by (cbn; destruct (Rle_dec (5/4) 1); [lra|]; destruct (Rle_dec (5/4) (3/2)); lra).
    assert (E3 : dip_grad [1] = [1]) by (cbn; destruct (Rle_dec 1 1); [reflexivity|lra]).
    assert (E4 : Radd_v [1] [1/4] = [5/4]) by (cbn; f_equal; lra).
    rewrite E4, E1, E2, E3 in H. cbn in H. lra.
Qed.

Example C126_gradient_descent_ex_pf :
  smooth 1 1 dip dip_grad /\ dominated 1 (1/7) 0 dip dip_grad /\ ~ convex 1 dip dip_grad /\
  forall P st0,
    let s := GradientDescent (N:=RN) (Aux:=unit) P (fun _ => dip_grad) 1 in
    s_init s (fun v => (dip v, tt)) [5] (fun _ => 0) (fun _ => tt) = Ret st0 ->
    exists z, length z = 1%nat /\ dip z = 0 /\ tends_to (y_at s (fun v => (dip v, tt)) [5] st0 tt) z.
Proof.
  destruct dip_facts as (HS & HD & HC). split; [exact HS|]. split; [exact HD|]. split; [exact HC|]. intros P st0 s Hi.
  destruct (C126_gradient_descent_pf unit 1 1 (1/7) 0 dip dip_grad P (fun _ => dip_grad) 1 (fun v => (dip v, tt)) [5] (fun _ => 0) (fun _ => tt) st0
    HS HD ltac:(lra) ltac:(lra) ltac:(lra) (fun _ => eq_refl) (fun _ => eq_refl) eq_refl Hi) as (_ & z & A & B & C & _).
  exists z. split; [exact A|]. split; [exact B|exact C].
Qed.

Example C126_backtracking_ex_pf :
  smooth 1 1 dip dip_grad /\ dominated 1 (1/7) 0 dip dip_grad /\
  forall P st0,
    let s := gradient_descent_solver (N:=RN) (Aux:=unit) P (armijo (N:=RN) (1/2) (1/10) 3) (steepest_descent None) (fun _ => dip_grad) in
    s_init s (fun v => (dip v, tt)) [5] (fun _ => 0) (fun _ => tt) = Ret st0 ->
    exists z, length z = 1%nat /\ dip z = 0 /\ tends_to (y_at s (fun v => (dip v, tt)) [5] st0 tt) z.
Proof.
  destruct dip_facts as (HS & HD & HC). split; [exact HS|]. split; [exact HD|]. intros P st0 s Hi.
  destruct (C126_backtracking_pf unit P (1/2) (1/10) 3 (fun _ => dip_grad) (fun v => (dip v, tt)) 1 1 (1/7) 0 dip dip_grad [5] (fun _ => 0) (fun _ => tt) st0
    ltac:(lra) HS HD ltac:(lra) (fun _ => eq_refl) (fun _ => eq_refl) eq_refl Hi) as (_ & z & A & B & C & _).
  exists z. split; [exact A|]. split; [exact B|exact C].
Qed.

(** A solve to which this applies: from 5 with atol = 1, and the answer is within 14 (1 + 1/10 |answer|) of 0. *)
Example C126_answer_ex_pf :
  let s := GradientDescent (N:=RN) (Aux:=unit) (mkTols (N:=RN) (1/10) 1 max_norm) (fun _ => dip_grad) 1 in
  exists k, forall fuel throw, (k < fuel)%nat ->
    exists sol, iterative_solve (vallfinite (N:=RN)) s (fun v => (dip v, tt)) fuel None throw [5] (fun _ => 0) (fun _ => tt) = Ret sol /\
      result sol = successful /\
      exists z, length z = 1%nat /\ dip z = 0 /\ Rnorm (Rsub_v (value sol) z) <= 2 * Rnorm (tolerances (1/10) 1 (value sol)) / (1/7 * 1).
Proof.
  destruct dip_facts as (HS & HD & _). intro s.
  assert (E : dip [5] = 35/4) by (cbn; destruct (Rle_dec 5 1); [lra|]; destruct (Rle_dec 5 (3/2)); lra).
  destruct (C65_terminates_pf unit 1 1 0 dip dip_grad (1/10) 1 1 (fun _ => dip_grad) (fun v => (dip v, tt)) [5] (fun _ => 0) (fun _ => tt) 18
    HS (fun x Lx => proj1 (HD x Lx)) (fun _ => eq_refl) (fun _ => eq_refl) eq_refl ltac:(lra) ltac:(lra) ltac:(lra) ltac:(lra)) as (k & _ & T).
  { rewrite E. rewrite Rmin_left by lra. cbn [INR]. lra. }
  exists k. intros fuel throw Hk. destruct (T fuel None throw Hk ltac:(discriminate)) as (sol & A & B & _).
  exists sol. split; [exact A|]. split; [exact B|].
  exact (C126_answer_pf unit 1 1 (1/7) 0 dip dip_grad (1/10) 1 1 (fun _ => dip_grad) (fun v => (dip v, tt)) [5] (fun _ => 0) (fun _ => tt) _ fuel None throw sol
    ltac:(lra) ltac:(lra) ltac:(lra) HS ltac:(lra) ltac:(lra) HD (fun _ => eq_refl) eq_refl A B).
Qed.

(** LinearTrustRegion on the non-convex example, stepping along half the negative gradient *)
Example C126_gradient_related_ex_pf :
  shrinking_search (linear_trust_region (N:=RN) region1) (1/100) (1/4) (7/2) 1 false /\ gradient_related 1 (1/2) 4 stretched_descent /\
  forall P st0,
    let s := gradient_descent_solver (N:=RN) (Aux:=unit) P (linear_trust_region (N:=RN) region1) stretched_descent (fun _ => dip_grad) in
    s_init s (fun v => (dip v, tt)) [5] (fun _ => 0) (fun _ => tt) = Ret st0 ->
    exists z, length z = 1%nat /\ dip z = 0 /\ tends_to (y_at s (fun v => (dip v, tt)) [5] st0 tt) z.
Proof.
  destruct dip_facts as (HS & HD & _). split; [exact region1_shrinking|]. split; [exact (stretched_related 1)|]. intros P st0 s Hi.
  destruct (C126_gradient_related_pf unit P _ (1/100) (1/4) (7/2) 1 false _ (1/2) 4 1 (1/7) 0 (fun _ => dip_grad) (fun v => (dip v, tt)) 1 dip dip_grad [5] (fun _ => 0) (fun _ => tt) st0
    region1_shrinking (stretched_related 1) ltac:(lra) ltac:(lra) ltac:(lra) ltac:(lra) HS HD (fun _ => eq_refl) (fun _ => eq_refl) eq_refl Hi) as (_ & z & A & B & C & _).
  exists z. split; [exact A|]. split; [exact B|exact C].
Qed.
