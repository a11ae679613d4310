(** Convergence of AbstractGradientDescent with any gradient-related descent (C111). *)

From Coq Require Import String List Bool Arith Lia ZArith QArith Qreals Reals Lra Psatz.
From Verif Require Import Num NumFacts Vec Results Iterate Spec_Iterate Iterate_proofs.
From Verif Require Import Spec_Vec VecFacts Spec_Lin LinFacts.
From Verif Require Import Search Spec_Search Descent Minimisers QuasiNewton Solvers Minimisers_proofs Progress_proofs LeastSquares_proofs TrustRegion_proofs CG_proofs.
From Verif Require Import Spec_Steps Steps_proofs Spec_BFGSConv Convergence_proofs BFGSConv_proofs CGConv_proofs Spec_Related.
Import ListNotations.
Local Open Scope R_scope.

Section Seq.
  Variables (n : nat) (L c1 c2 c lo hi ini : R) (resets : bool) (f : list R -> R) (g : list R -> list R).
  Hypothesis HL : 0 < L.
  Hypothesis Hc1 : 0 < c1.
  Hypothesis Hc2 : 0 < c2.
  Hypothesis HV : 0 < c < 1 /\ 0 < lo < 1 /\ 1 <= hi /\ 0 < ini.
  Hypothesis HS : smooth n L f g.
  Variables (y : nat -> list R) (t : nat -> R) (d : nat -> list R) (acc : nat -> bool).
  Let related k := c1 * Rdot (g (y k)) (g (y k)) <= - Rdot (g (y k)) (d k) /\ Rdot (d k) (d k) <= c2 * Rdot (g (y k)) (g (y k)).
  Hypothesis Ly : forall k, length (y k) = n.
  Hypothesis Ld : forall k, length (d k) = n.
  Hypothesis t0 : t 0%nat = ini.
  Hypothesis Rel : forall k, related k.
  Hypothesis Rstep : forall k,
    (acc k = true /\ f (y (S k)) <= f (y k) + c * t k * Rdot (g (y k)) (d k) /\
     y (S k) = Radd_v (y k) (Rscal (t k) (d k)) /\ (if resets then t (S k) = ini else t k <= t (S k) <= hi * t k)) \/
    (acc k = false /\ f (y k) + c * t k * Rdot (g (y k)) (d k) < f (Radd_v (y k) (Rscal (t k) (d k))) /\
     y (S k) = y k /\ t (S k) = lo * t k).

  Definition tlow : R := Rmin ini (2 * lo * (1 - c) * c1 / (L * c2)).
  Lemma tlow_pos : 0 < tlow.
  Proof.
    apply Rmin_glb_lt; [lra|]. apply Rdiv_lt_0_compat; [|apply Rmult_lt_0_compat; lra].
    apply Rmult_lt_0_compat; [|lra]. apply Rmult_lt_0_compat; lra.
  Qed.
  Lemma st_pos : forall k, 0 < t k.
  Proof.
    induction k as [|k IH]; [rewrite t0; lra|]. destruct (Rstep k) as [(_ & _ & _ & E)|(_ & _ & _ & E)].
    - destruct resets; lra.
    - rewrite E. apply Rmult_lt_0_compat; lra.
  Qed.
  Lemma st_low : forall k, tlow <= t k.
  Proof.
    induction k as [|k IH]; [rewrite t0; apply Rmin_l|]. destruct (Rstep k) as [(_ & _ & _ & E)|(_ & F & _ & E)].
    - destruct resets; [rewrite E; apply Rmin_l|lra].
    - rewrite E. pose proof (st_pos k) as T0. eapply Rle_trans; [apply Rmin_r|].
      apply (Rmult_le_reg_r (L * c2)); [apply Rmult_lt_0_compat; lra|].
      replace (2 * lo * (1 - c) * c1 / (L * c2) * (L * c2)) with (lo * (2 * (1 - c) * c1)) by (field; lra).
      replace (lo * t k * (L * c2)) with (lo * (t k * (L * c2))) by ring. apply Rmult_le_compat_l; [lra|].
      pose proof (proj2 HS (y k) (Rscal (t k) (d k)) (Ly k) ltac:(rewrite Rscal_length; apply Ld)) as Q.
      rewrite Rdot_scal_r, Rdot_scal_l, Rdot_scal_r in Q. destruct (Rel k) as (R1 & R2).
      set (G := Rdot (g (y k)) (g (y k))) in *. set (a := Rdot (g (y k)) (d k)) in *. set (D := Rdot (d k) (d k)) in *.
      assert (G0 : 0 <= G) by apply Rdot_pos.
      (* c t a < t a + L/2 t^2 D, so 2 (1-c) (-a) < L t D *)
      assert (X : 2 * (1 - c) * - a < L * t k * D).
      { apply (Rmult_lt_reg_l (t k / 2)); [lra|]. lra. }
      assert (Y1 : 2 * (1 - c) * (c1 * G) <= 2 * (1 - c) * - a) by (apply Rmult_le_compat_l; lra).
      assert (Y2 : L * t k * D <= L * t k * (c2 * G)) by (apply Rmult_le_compat_l; [apply Rmult_le_pos; lra|exact R2]).
      assert (GP : 0 < G) by (destruct G0 as [|E0]; [assumption|]; rewrite <- E0 in *; lra).
      apply (Rmult_le_reg_r G); [exact GP|]. lra.
  Qed.

  Variables (p q : nat).
  Hypothesis Hp : hi * lo ^ p <= 1.
  Hypothesis Hq : ini * lo ^ q < tlow.
  Hypothesis Hpq : resets = true -> (q <= p)%nat.

  Lemma pow_pos_lo : forall j, 0 < lo ^ j. Proof. intro j. apply pow_lt. lra. Qed.

  Lemma s_budget : forall k, exists b, (b + k = count acc k * (p + 1) + q)%nat /\ t k * lo ^ b <= ini * lo ^ q.
  Proof.
    induction k as [|k (b & B1 & B2)].
    - exists q. split; [cbn; lia|]. rewrite t0. lra.
    - pose proof (st_low k) as TL. pose proof (st_pos k) as TP. cbn [count].
      destruct (Rstep k) as [(-> & _ & _ & E)|(-> & _ & _ & E)].
      + exists (b + p)%nat. split; [lia|]. pose proof (pow_pos_lo b). pose proof (pow_pos_lo p). rewrite pow_add. destruct resets.
        * rewrite E. apply Rmult_le_compat_l; [lra|]. rewrite <- pow_add. specialize (Hpq eq_refl).
          replace (b + p)%nat with (q + (b + p - q))%nat by lia. rewrite pow_add. rewrite <- (Rmult_1_r (lo ^ q)) at 2.
          apply Rmult_le_compat_l; [left; apply pow_pos_lo|]. rewrite <- (pow1 (b + p - q)). apply pow_incr. lra.
        * replace (t (S k) * (lo ^ b * lo ^ p)) with (t (S k) * lo ^ p * lo ^ b) by ring.
          eapply Rle_trans; [|exact B2]. apply Rmult_le_compat_r; [lra|].
          eapply Rle_trans; [apply Rmult_le_compat_r; [lra|apply E]|].
          replace (hi * t k * lo ^ p) with (t k * (hi * lo ^ p)) by ring. rewrite <- (Rmult_1_r (t k)) at 2.
          apply Rmult_le_compat_l; lra.
      + destruct b as [|b].
        * exfalso. cbn [pow] in B2. lra.
        * exists b. split; [lia|]. rewrite E. cbn [pow] in B2. lra.
  Qed.
  Lemma s_accepted : forall a k, (a * (p + 1) + q <= k)%nat -> (a <= count acc k)%nat.
  Proof. intros a k H. destruct (s_budget k) as (b & B & _). nia. Qed.
  Lemma s_again : forall k, exists j, (k <= j)%nat /\ acc j = true.
  Proof.
    intro k. pose proof (s_accepted (S k) (S k * (p + 1) + q) (le_n _)) as Q.
    assert (X : forall j, (k <= j)%nat -> (exists i, (k <= i < j)%nat /\ acc i = true) \/ count acc j = count acc k).
    { induction j as [|j IH]; intro H; [right; f_equal; lia|].
      destruct (Nat.eq_dec k (S j)) as [->|N]; [right; reflexivity|]. destruct (IH ltac:(lia)) as [(i & I1 & I2)|E].
      - left. exists i. split; [lia|exact I2].
      - destruct (acc j) eqn:A; [left; exists j; split; [lia|exact A]|]. right. cbn [count]. rewrite A. lia. }
    destruct (X (S k * (p + 1) + q)%nat ltac:(nia)) as [(i & I1 & I2)|E]; [exists i; split; [lia|exact I2]|].
    exfalso. assert (C : forall j, (count acc j <= j)%nat).
    { induction j as [|j IH]; cbn [count]; [lia|]. destruct (acc j); lia. }
    specialize (C k). lia.
  Qed.

  Lemma s_decrease : forall k, acc k = true -> f (y (S k)) <= f (y k) - c * tlow * c1 * Rdot (g (y k)) (g (y k)).
  Proof.
    intros k A. destruct (Rstep k) as [(_ & F & _)|(X & _)]; [|congruence]. destruct (Rel k) as (R1 & _).
    pose proof (st_low k) as TL. pose proof tlow_pos as TP. pose proof (Rdot_pos (g (y k))) as G0.
    set (G := Rdot (g (y k)) (g (y k))) in *. set (a := Rdot (g (y k)) (d k)) in *.
    assert (c1 * G * tlow <= - a * t k) by (apply Rmult_le_compat; try lra; apply Rmult_le_pos; lra).
    assert (c * (c1 * G * tlow) <= c * (- a * t k)) by (apply Rmult_le_compat_l; lra). lra.
  Qed.
  Lemma s_descends : forall k, f (y (S k)) <= f (y k).
  Proof.
    intro k. destruct (Rstep k) as [(A & _)|(_ & _ & E & _)]; [|rewrite E; lra].
    pose proof (s_decrease k A) as Q. pose proof tlow_pos. pose proof (Rdot_pos (g (y k))).
    assert (0 <= c * tlow * c1 * Rdot (g (y k)) (g (y k))).
    { apply Rmult_le_pos; [|assumption]. apply Rmult_le_pos; [|lra]. apply Rmult_le_pos; lra. }
    lra.
  Qed.

  Lemma s_complexity : forall e flow N, 0 < e -> (forall k, flow <= f (y k)) ->
    f (y 0%nat) - flow < INR N * (c * tlow * c1 * e) ->
    exists k, (k <= N * (p + 1) + q)%nat /\ Rdot (g (y k)) (g (y k)) <= e.
  Proof.
    intros e flow N He Hlow HN. pose proof tlow_pos as TP.
    assert (P1 : 0 < c * tlow * c1) by (apply Rmult_lt_0_compat; [apply Rmult_lt_0_compat|]; lra).
    assert (X : forall k, (exists j, (j <= k)%nat /\ Rdot (g (y j)) (g (y j)) <= e) \/
       f (y k) <= f (y 0%nat) - INR (count acc k) * (c * tlow * c1 * e)).
    { induction k as [|k [(j & J1 & J2)|IH]].
      - right. cbn. lra.
      - left. exists j. split; [lia|exact J2].
      - destruct (Rle_dec (Rdot (g (y k)) (g (y k))) e) as [G|G]; [left; exists k; split; [lia|exact G]|right].
        cbn [count]. destruct (acc k) eqn:A.
        + pose proof (s_decrease k A) as D.
          assert (c * tlow * c1 * e <= c * tlow * c1 * Rdot (g (y k)) (g (y k))) by (apply Rmult_le_compat_l; lra).
          rewrite plus_INR. cbn [INR]. lra.
        + destruct (Rstep k) as [(Z & _)|(_ & _ & E & _)]; [congruence|]. rewrite E, Nat.add_0_r. exact IH. }
    destruct (X (N * (p + 1) + q)%nat) as [?|Q]; [assumption|exfalso].
    pose proof (s_accepted N _ (le_n _)) as CA. apply le_INR in CA. specialize (Hlow (N * (p + 1) + q)%nat).
    assert (INR N * (c * tlow * c1 * e) <= INR (count acc (N * (p + 1) + q)) * (c * tlow * c1 * e)).
    { apply Rmult_le_compat_r; [|exact CA]. apply Rmult_le_pos; lra. }
    lra.
  Qed.

  Section PL.
    Variables (mu fmin : R).
    Hypothesis Hmu : 0 < mu.
    Hypothesis Hmin : forall k, fmin <= f (y k).
    Hypothesis HPL : forall k, 2 * mu * (f (y k) - fmin) <= Rdot (g (y k)) (g (y k)).
    Definition srho : R := Rmax 0 (1 - 2 * mu * (c * tlow * c1)).
    Lemma srho_range : 0 <= srho < 1.
    Proof.
      pose proof tlow_pos. assert (0 < c * tlow * c1) by (apply Rmult_lt_0_compat; [apply Rmult_lt_0_compat|]; lra).
      assert (0 < 2 * mu * (c * tlow * c1)) by (apply Rmult_lt_0_compat; lra).
      unfold srho. split; [apply Rmax_l|]. apply Rmax_lub_lt; lra.
    Qed.
    Lemma s_count_rate : forall k, f (y k) - fmin <= srho ^ count acc k * (f (y 0%nat) - fmin).
    Proof.
      pose proof srho_range as SR. pose proof tlow_pos as TP.
      assert (P1 : 0 < c * tlow * c1) by (apply Rmult_lt_0_compat; [apply Rmult_lt_0_compat|]; lra).
      induction k as [|k IH]; [cbn; lra|]. cbn [count]. destruct (acc k) eqn:A.
      - pose proof (s_decrease k A) as D.
        assert (c * tlow * c1 * (2 * mu * (f (y k) - fmin)) <= c * tlow * c1 * Rdot (g (y k)) (g (y k))) by (apply Rmult_le_compat_l; [lra|apply HPL]).
        pose proof (Hmin k). rewrite Nat.add_1_r. cbn [pow]. rewrite Rmult_assoc.
        apply Rle_trans with (srho * (f (y k) - fmin)); [|apply Rmult_le_compat_l; lra].
        assert ((1 - 2 * mu * (c * tlow * c1)) * (f (y k) - fmin) <= srho * (f (y k) - fmin)) by (apply Rmult_le_compat_r; [lra|apply Rmax_r]).
        lra.
      - destruct (Rstep k) as [(Z & _)|(_ & _ & E & _)]; [congruence|]. rewrite E, Nat.add_0_r. exact IH.
    Qed.
    Lemma s_rate : forall a k, (a * (p + 1) + q <= k)%nat -> f (y k) - fmin <= srho ^ a * (f (y 0%nat) - fmin).
    Proof.
      intros a k H. eapply Rle_trans; [apply s_count_rate|]. apply Rmult_le_compat_r; [pose proof (Hmin 0); lra|].
      apply pow_dec; [pose proof srho_range; lra|apply s_accepted; exact H].
    Qed.
    Lemma s_converges : forall tau, 0 < tau -> exists K, forall k, (K <= k)%nat -> f (y k) - fmin <= tau.
    Proof.
      intros tau T0. pose proof srho_range as SR. pose proof (Hmin 0) as M0.
      destruct (pow_lt_1_zero srho ltac:(rewrite Rabs_pos_eq; lra) (tau / (f (y 0%nat) - fmin + 1)) ltac:(apply Rdiv_lt_0_compat; lra)) as [N HN].
      specialize (HN N (le_n N)). rewrite Rabs_pos_eq in HN by (apply pow_le; lra).
      exists (N * (p + 1) + q)%nat. intros k Hk. eapply Rle_trans; [apply (s_rate N k Hk)|].
      assert (0 <= srho ^ N) by (apply pow_le; lra).
      apply (Rmult_lt_compat_r (f (y 0%nat) - fmin + 1)) in HN; [|lra]. unfold Rdiv in HN. rewrite Rmult_assoc, Rinv_l, Rmult_1_r in HN by lra. lra.
    Qed.
  End PL.

  (** strongly convex: accepted steps become short *)
  Lemma s_length : forall mu k, 0 < mu -> strongly_convex n mu f g -> acc k = true ->
    mu ^ 2 * (t k * t k * Rdot (d k) (d k)) <= 4 * Rdot (g (y k)) (g (y k)).
  Proof.
    intros mu k Hm HC A. destruct (Rstep k) as [(_ & F & E & _)|(X & _)]; [|congruence].
    pose proof (HC (y k) (Rscal (t k) (d k)) (Ly k) ltac:(rewrite Rscal_length; apply Ld)) as Q.
    rewrite <- E, Rdot_scal_r, Rdot_scal_l, Rdot_scal_r in Q.
    pose proof (CS n (g (y k)) (d k) ltac:(apply HS, Ly) (Ld k)) as C. pose proof (st_pos k) as T0.
    destruct (Rel k) as (R1 & _). pose proof (Rdot_pos (g (y k))) as G0. pose proof (Rdot_pos (d k)) as D0.
    set (G := Rdot (g (y k)) (g (y k))) in *. set (a := Rdot (g (y k)) (d k)) in *. set (D := Rdot (d k) (d k)) in *.
    assert (A0 : 0 <= - a) by (assert (0 <= c1 * G) by (apply Rmult_le_pos; lra); lra).
    assert (X : mu * (t k * D) <= 2 * - a).
    { apply (Rmult_le_reg_l (t k / 2)); [lra|]. assert (0 <= c * (t k * - a)) by (apply Rmult_le_pos; [lra|apply Rmult_le_pos; lra]). lra. }
    assert (X2 : (mu * (t k * D)) ^ 2 <= (2 * - a) ^ 2).
    { apply pow_incr. split; [|exact X]. apply Rmult_le_pos; [lra|apply Rmult_le_pos; lra]. }
    destruct D0 as [DP|DZ]; [|rewrite <- DZ; lra].
    apply (Rmult_le_reg_r D); [exact DP|]. replace (mu ^ 2 * (t k * t k * D) * D) with ((mu * (t k * D)) ^ 2) by ring.
    eapply Rle_trans; [exact X2|]. replace ((2 * - a) ^ 2) with (4 * a ^ 2) by ring. lra.
  Qed.
End Seq.

(** ** The run of the solver *)

Section Link.
  Context {Aux : Type}.
  Variables (P : ar_tols RN) (search : Search RN) (descent : Descent RN) (c lo hi ini : R) (resets : bool).
  Variable grad_of : (list R -> R * Aux) -> list R -> list R.
  Variable fn : list R -> R * Aux.
  Variables (n : nat) (c1 c2 : R) (f : list R -> R) (g : list R -> list R) (y0 : list R) (fs : fillv -> R) (auxs : fillv -> Aux).
  Variable size : SSt search -> R.
  Hypothesis Hc1 : 0 < c1.
  Hypothesis Hc2 : 0 < c2.
  Hypothesis Hini : 0 < ini.
  Hypothesis Hlo : 0 < lo.
  Hypothesis HA1 : accepts_first search.
  Hypothesis Sfirst : forall y i i', let '(step, ac, sr, st') := se_step search true y y i i' (se_init search y i) in
    size st' = ini /\ step = ini /\ sr = successful.
  Hypothesis Sstep : forall y ye v (gr : list R) v' st, Rdot gr (Rsub_v ye y) <= 0 -> 0 < size st ->
    let '(step, ac, sr, st') := se_step search false y ye (EvalGrad (N:=RN) v gr) (Eval (N:=RN) v') st in
    sr = successful /\ step = size st' /\ (ac = true <-> v' <= v + c * Rdot gr (Rsub_v ye y)) /\
    (if ac then (if resets then size st' = ini else size st <= size st' <= hi * size st) else size st' = lo * size st).
  Hypothesis HR : gradient_related n c1 c2 descent.
  Hypothesis Hf : forall x, fst (fn x) = f x.
  Hypothesis Hg : forall x, grad_of fn x = g x.
  Hypothesis HGl : forall x, length x = n -> length (g x) = n.
  Hypothesis L0 : length y0 = n.
  Let s := gradient_descent_solver (N:=RN) P search descent grad_of.
  Let st0 := gd_st0 (N:=RN) search descent y0 fs auxs.
  Let Yk : nat -> list R := y_at s fn y0 st0 (auxs fill0).
  Let Sk := st_at s fn y0 st0 (auxs fill0).
  Let y k : list R := Yk (S k).
  Let t k : R := size (gd_search_state (Sk (S k))).
  Let d k : list R := fst (d_step descent 1 (gd_descent_state (Sk (S k)))).
  Let acc k : bool := snd (fst (fst (se_step search (gd_first_step (Sk (S k))) (y k) (gd_y_eval (Sk (S k))) (gd_f_info (Sk (S k)))
    (Eval (N:=RN) (fst (fn (gd_y_eval (Sk (S k)))))) (gd_search_state (Sk (S k)))))).
  (** what holds at every iterate *)
  Let inv k := length (y k) = n /\ 0 < t k /\ length (d k) = n /\
    (forall u : R, d_step descent u (gd_descent_state (Sk (S k))) = (Rscal u (d k), successful)) /\
    (c1 * Rdot (g (y k)) (g (y k)) <= - Rdot (g (y k)) (d k) /\ Rdot (d k) (d k) <= c2 * Rdot (g (y k)) (g (y k))) /\
    gd_y_eval (Sk (S k)) = Radd_v (y k) (Rscal (t k) (d k)) /\ gd_result (Sk (S k)) = successful.

  Lemma scal_one : forall v : list R, Rscal 1 v = v.
  Proof. induction v as [|u v IH]; [reflexivity|]. cbn. f_equal; [ring|exact IH]. Qed.

  Lemma queried : forall z v gz dst, length z = n -> gz = g z ->
    let ds := d_query descent z (EvalGrad (N:=RN) v gz) dst in
    let e : list R := fst (d_step descent 1 ds) in
    length e = n /\ (forall u : R, d_step descent u ds = (Rscal u e, successful)) /\
    c1 * Rdot (g z) (g z) <= - Rdot (g z) e /\ Rdot e e <= c2 * Rdot (g z) (g z).
  Proof.
    intros z v gz dst Lz -> ds e. destruct (HR z v (g z) dst Lz (HGl z Lz)) as (e' & E1 & E2 & E3 & E4).
    assert (E : e = e') by (unfold e, ds; rewrite E2; apply scal_one). rewrite E. auto.
  Qed.

  Lemma l_first : y 0%nat = y0 /\ t 0%nat = ini.
  Proof.
    destruct (gd_step_cases _ _ _ _ _ _ _ _ _ _ (gd_trace_S (N:=RN) P search descent grad_of fn y0 fs auxs 0))
      as (step & ac & sr & sst & Es & E1 & E2 & E3 & E4 & E6 & E5).
    assert (Es' : se_step search true y0 y0 (EvalGrad (N:=RN) (fs fill0) y0) (Eval (N:=RN) (fst (fn y0)))
      (se_init search y0 (EvalGrad (N:=RN) (fs fill0) y0)) = (step, ac, sr, sst)) by exact Es.
    pose proof (Sfirst y0 (EvalGrad (N:=RN) (fs fill0) y0) (Eval (N:=RN) (fst (fn y0)))) as F. rewrite Es' in F. destruct F as (F1 & F2 & F3).
    pose proof (HA1 y0 y0 (EvalGrad (N:=RN) (fs fill0) y0) (Eval (N:=RN) (fst (fn y0))) (se_init search y0 (EvalGrad (N:=RN) (fs fill0) y0))) as F4.
    rewrite Es' in F4. cbn [fst snd] in F4. subst ac. destruct E5 as (E5 & _).
    split; [exact E5|]. unfold t. refine (eq_trans (f_equal size E2) F1).
  Qed.

  Lemma inv_0 : inv 0.
  Proof.
    destruct l_first as (Ey & Et). unfold inv. rewrite Et.
    destruct (gd_step_cases _ _ _ _ _ _ _ _ _ _ (gd_trace_S (N:=RN) P search descent grad_of fn y0 fs auxs 0))
      as (step & ac & sr & sst & Es & E1 & E2 & E3 & E4 & E6 & E5).
    assert (Es' : se_step search true y0 y0 (EvalGrad (N:=RN) (fs fill0) y0) (Eval (N:=RN) (fst (fn y0)))
      (se_init search y0 (EvalGrad (N:=RN) (fs fill0) y0)) = (step, ac, sr, sst)) by exact Es.
    pose proof (Sfirst y0 (EvalGrad (N:=RN) (fs fill0) y0) (Eval (N:=RN) (fst (fn y0)))) as F. rewrite Es' in F. destruct F as (F1 & F2 & F3).
    pose proof (HA1 y0 y0 (EvalGrad (N:=RN) (fs fill0) y0) (Eval (N:=RN) (fst (fn y0))) (se_init search y0 (EvalGrad (N:=RN) (fs fill0) y0))) as F4.
    rewrite Es' in F4. cbn [fst snd] in F4. subst ac. destruct E5 as (E5 & _ & _ & E5d & _).
    assert (LY : length (y 0%nat) = n) by (rewrite Ey; exact L0).
    change (gd_descent_state (Sk 1) = d_query descent (y 0%nat) (EvalGrad (N:=RN) (fst (fn (y 0%nat))) (grad_of fn (y 0%nat))) (gd_descent_state (Sk 0))) in E5d.
    destruct (queried (y 0%nat) (fst (fn (y 0%nat))) _ (gd_descent_state (Sk 0)) LY (Hg _)) as (Q1 & Q2 & Q3 & Q4).
    rewrite <- E5d in Q1, Q2, Q3, Q4.
    split; [exact LY|]. split; [exact Hini|]. split; [exact Q1|]. split; [exact Q2|]. split; [split; [exact Q3|exact Q4]|].
    split.
    - refine (eq_trans E3 _). change (vadd (N:=RN) (y 0%nat) (fst (d_step descent step (gd_descent_state (Sk 1)))) = Radd_v (y 0%nat) (Rscal ini (d 0%nat))).
      rewrite F2, Q2. apply vadd_RN.
    - refine (eq_trans E6 _). rewrite F3. cbn. exact (f_equal snd (Q2 step)).
  Qed.

  Lemma l_step : forall k, inv k -> inv (S k) /\
    ((acc k = true /\ f (y (S k)) <= f (y k) + c * t k * Rdot (g (y k)) (d k) /\
     y (S k) = Radd_v (y k) (Rscal (t k) (d k)) /\ (if resets then t (S k) = ini else t k <= t (S k) <= hi * t k) /\
     gd_terminate (Sk (S (S k))) = cauchy_termination (N:=RN) (ar_rtol P) (ar_atol P) (ar_norm P)
        (y (S k)) (Rsub_v (y (S k)) (y k)) [f (y (S k))] [f (y (S k)) - f (y k)]) \/
    (acc k = false /\ f (y k) + c * t k * Rdot (g (y k)) (d k) < f (Radd_v (y k) (Rscal (t k) (d k))) /\
     y (S k) = y k /\ t (S k) = lo * t k)).
  Proof.
    intros k (LY & T0 & LD & DS & (R1 & R2) & EY & _). pose proof (HGl _ LY) as LG.
    destruct (gd_first (N:=RN) P search descent grad_of fn y0 fs auxs HA1 (S k)) as [F1 F2].
    destruct (F2 ltac:(lia)) as [Ff _].
    destruct (gd_step_cases _ _ _ _ _ _ _ _ _ _ (gd_trace_S (N:=RN) P search descent grad_of fn y0 fs auxs (S k)))
      as (step & ac & sr & sst & Es & E1 & E2 & E3 & E4 & E6 & E5).
    assert (AC : acc k = ac) by (unfold acc; exact (f_equal (fun p => snd (fst (fst p))) Es)).
    assert (EF : gd_first_step (Sk (S k)) = false).
    { apply not_true_iff_false; intro F; apply F1 in F; discriminate. }
    assert (F5 : gd_f_info (Sk (S k)) = EvalGrad (N:=RN) (f (y k)) (g (y k))).
    { refine (eq_trans Ff _). rewrite <- Hf, <- Hg. reflexivity. }
    assert (Es' : se_step search false (y k) (Radd_v (y k) (Rscal (t k) (d k)))
       (EvalGrad (N:=RN) (f (y k)) (g (y k)))
       (Eval (N:=RN) (f (Radd_v (y k) (Rscal (t k) (d k))))) (gd_search_state (Sk (S k))) = (step, ac, sr, sst)).
    { rewrite <- EY, <- EF, <- F5, <- !Hf. exact Es. }
    assert (ES : Rsub_v (Radd_v (y k) (Rscal (t k) (d k))) (y k) = Rscal (t k) (d k)).
    { apply (BFGSConv_proofs.sub_add n); [exact LY|rewrite Rscal_length; exact LD]. }
    assert (A0 : 0 <= - Rdot (g (y k)) (d k)).
    { pose proof (Rdot_pos (g (y k))). assert (0 <= c1 * Rdot (g (y k)) (g (y k))) by (apply Rmult_le_pos; lra). lra. }
    pose proof (Sstep (y k) (Radd_v (y k) (Rscal (t k) (d k))) (f (y k)) (g (y k)) (f (Radd_v (y k) (Rscal (t k) (d k)))) (gd_search_state (Sk (S k)))) as SS.
    rewrite ES, Rdot_scal_r, Es' in SS. specialize (SS ltac:(assert (0 <= t k * - Rdot (g (y k)) (d k)) by (apply Rmult_le_pos; lra); lra) T0).
    destruct SS as (SR & ST & OK & SZ).
    assert (TS : t (S k) = size sst) by (unfold t; exact (f_equal size E2)). rewrite <- TS in ST, SZ. change (size (gd_search_state (Sk (S k)))) with (t k) in SZ.
    assert (EVAL : (forall u : R, d_step descent u (gd_descent_state (Sk (S (S k)))) = (Rscal u (d (S k)), successful)) ->
       gd_y_eval (Sk (S (S k))) = Radd_v (y (S k)) (Rscal (t (S k)) (d (S k))) /\ gd_result (Sk (S (S k))) = successful).
    { intro Q. split.
      - refine (eq_trans E3 _). change (vadd (N:=RN) (y (S k)) (fst (d_step descent step (gd_descent_state (Sk (S (S k)))))) = Radd_v (y (S k)) (Rscal (t (S k)) (d (S k)))).
        rewrite ST, Q. apply vadd_RN.
      - refine (eq_trans E6 _). rewrite SR. cbn. exact (f_equal snd (Q step)). }
    destruct ac.
    - destruct E5 as (E5y & _ & _ & E5d & E5).
      assert (Ey : y (S k) = Radd_v (y k) (Rscal (t k) (d k))) by exact (eq_trans E5y EY).
      assert (LY' : length (y (S k)) = n) by (rewrite Ey; apply Radd_v_length; [exact LY|rewrite Rscal_length; exact LD]).
      change (gd_descent_state (Sk (S (S k))) = d_query descent (y (S k)) (EvalGrad (N:=RN) (fst (fn (y (S k)))) (grad_of fn (y (S k)))) (gd_descent_state (Sk (S k)))) in E5d.
      destruct (queried (y (S k)) (fst (fn (y (S k)))) _ (gd_descent_state (Sk (S k))) LY' (Hg _)) as (Q1 & Q2 & Q3 & Q4).
      rewrite <- E5d in Q1, Q2, Q3, Q4. destruct (EVAL Q2) as (V1 & V2).
      split.
      + split; [exact LY'|]. split; [destruct resets; lra|]. split; [exact Q1|]. split; [exact Q2|]. split; [split; [exact Q3|exact Q4]|]. split; [exact V1|exact V2].
      + left. split; [exact AC|]. split; [|split; [exact Ey|split; [exact SZ|]]].
        * rewrite Ey. rewrite Rmult_assoc. apply OK. reflexivity.
        * change (gd_terminate (Sk (S (S k))) = if gd_first_step (Sk (S k)) then false else
            cauchy_termination (N:=RN) (ar_rtol P) (ar_atol P) (ar_norm P) (y (S k)) (vsub (N:=RN) (y (S k)) (y k))
              [fst (fn (y (S k)))] [nsub (n:=RN) (fst (fn (y (S k)))) (as_min (gd_f_info (Sk (S k))))]) in E5.
          rewrite EF, F5, vsub_RN, Hf in E5. exact E5.
    - destruct E5 as (E5y & _ & _ & E5d & E5).
      assert (Ey : y (S k) = y k) by exact E5y.
      change (gd_descent_state (Sk (S (S k))) = gd_descent_state (Sk (S k))) in E5d.
      assert (Ed : d (S k) = d k) by (unfold d; rewrite E5d; reflexivity).
      assert (Q2 : forall u : R, d_step descent u (gd_descent_state (Sk (S (S k)))) = (Rscal u (d (S k)), successful)) by (intro u; rewrite E5d, Ed; apply DS).
      destruct (EVAL Q2) as (V1 & V2). split.
      + unfold inv. rewrite Ey, Ed. rewrite Ey, Ed in V1. rewrite Ed in Q2.
        split; [exact LY|]. split; [rewrite SZ; apply Rmult_lt_0_compat; lra|]. split; [exact LD|]. split; [exact Q2|]. split; [split; [exact R1|exact R2]|]. split; [exact V1|exact V2].
      + right. split; [exact AC|]. split; [|split; [exact Ey|exact SZ]].
        apply Rnot_le_lt. intro X. rewrite Rmult_assoc in X. apply OK in X. discriminate.
  Qed.
  Lemma l_inv : forall k, inv k.
  Proof. induction k as [|k IH]; [exact inv_0|exact (proj1 (l_step k IH))]. Qed.
  Lemma l_result : forall k, gd_result (Sk k) = successful.
  Proof. intros [|k]; [reflexivity|]. apply (l_inv k). Qed.
  Lemma l_Rstep : forall k,
    (acc k = true /\ f (y (S k)) <= f (y k) + c * t k * Rdot (g (y k)) (d k) /\
     y (S k) = Radd_v (y k) (Rscal (t k) (d k)) /\ (if resets then t (S k) = ini else t k <= t (S k) <= hi * t k)) \/
    (acc k = false /\ f (y k) + c * t k * Rdot (g (y k)) (d k) < f (Radd_v (y k) (Rscal (t k) (d k))) /\
     y (S k) = y k /\ t (S k) = lo * t k).
  Proof. intro k. destruct (l_step k (l_inv k)) as (_ & [(A1 & A2 & A3 & A4 & _)|A]); [left|right]; auto. Qed.
  Lemma l_term : forall k, acc k = true -> gd_terminate (Sk (S (S k))) = cauchy_termination (N:=RN) (ar_rtol P) (ar_atol P) (ar_norm P)
        (y (S k)) (Rsub_v (y (S k)) (y k)) [f (y (S k))] [f (y (S k)) - f (y k)].
  Proof. intros k A. destruct (l_step k (l_inv k)) as (_ & [(_ & _ & _ & _ & Q)|(X & _)]); [exact Q|congruence]. Qed.
  Lemma l_Ly : forall k, length (y k) = n. Proof. intro k. apply l_inv. Qed.
  Lemma l_Ld : forall k, length (d k) = n. Proof. intro k. apply l_inv. Qed.
  Lemma l_Rel : forall k, c1 * Rdot (g (y k)) (g (y k)) <= - Rdot (g (y k)) (d k) /\ Rdot (d k) (d k) <= c2 * Rdot (g (y k)) (g (y k)).
  Proof. intro k. apply l_inv. Qed.

  (** everything the claims need about the run *)
  Lemma l_run : exists (t' : nat -> R) (d' : nat -> list R) (acc' : nat -> bool),
    Yk 1%nat = y0 /\ (forall k, length (Yk (S k)) = n) /\ (forall k, length (d' k) = n) /\ t' 0%nat = ini /\
    (forall k, c1 * Rdot (g (Yk (S k))) (g (Yk (S k))) <= - Rdot (g (Yk (S k))) (d' k) /\ Rdot (d' k) (d' k) <= c2 * Rdot (g (Yk (S k))) (g (Yk (S k)))) /\
    (forall k, (acc' k = true /\ f (Yk (S (S k))) <= f (Yk (S k)) + c * t' k * Rdot (g (Yk (S k))) (d' k) /\
       Yk (S (S k)) = Radd_v (Yk (S k)) (Rscal (t' k) (d' k)) /\ (if resets then t' (S k) = ini else t' k <= t' (S k) <= hi * t' k)) \/
      (acc' k = false /\ f (Yk (S k)) + c * t' k * Rdot (g (Yk (S k))) (d' k) < f (Radd_v (Yk (S k)) (Rscal (t' k) (d' k))) /\
       Yk (S (S k)) = Yk (S k) /\ t' (S k) = lo * t' k)) /\
    (forall k, gd_result (Sk k) = successful) /\
    (forall k, acc' k = true -> gd_terminate (Sk (S (S k))) = cauchy_termination (N:=RN) (ar_rtol P) (ar_atol P) (ar_norm P)
        (Yk (S (S k))) (Rsub_v (Yk (S (S k))) (Yk (S k))) [f (Yk (S (S k)))] [f (Yk (S (S k))) - f (Yk (S k))]).
  Proof.
    exists t, d, acc. split; [exact (proj1 l_first)|]. split; [exact l_Ly|]. split; [exact l_Ld|]. split; [exact (proj2 l_first)|].
    split; [exact l_Rel|]. split; [exact l_Rstep|]. split; [exact l_result|exact l_term].
  Qed.
End Link.

Lemma shrinking_facts : forall search c lo hi ini resets, shrinking_search search c lo hi ini resets ->
  (0 < c < 1 /\ 0 < lo < 1 /\ 1 <= hi /\ 0 < ini) /\ accepts_first search /\ exists size : SSt search -> R,
  (forall y i i', let '(step, ac, sr, st') := se_step search true y y i i' (se_init search y i) in
    size st' = ini /\ step = ini /\ sr = successful) /\
  (forall y ye v (gr : list R) v' st, Rdot gr (Rsub_v ye y) <= 0 -> 0 < size st ->
    let '(step, ac, sr, st') := se_step search false y ye (EvalGrad (N:=RN) v gr) (Eval (N:=RN) v') st in
    sr = successful /\ step = size st' /\ (ac = true <-> v' <= v + c * Rdot gr (Rsub_v ye y)) /\
    (if ac then (if resets then size st' = ini else size st <= size st' <= hi * size st) else size st' = lo * size st)).
Proof.
  intros search c lo hi ini resets H. destruct H as [de sl i H1 H2 H3|T0 H1 H2 H3].
  - split; [lra|]. split; [apply (proj1 (accepts_first_builtin RN))|]. exists (fun x : R => x). split.
    + intros y i0 i'. cbn. auto.
    + intros y ye v gr v' st A B. cbn [se_step armijo]. unfold armijo_step. cbv zeta. cbn [compute_grad_dot as_min orb].
      rewrite vsub_RN, vdot_RN.
      assert (RED : nleb (n:=RN) (Rdot gr (Rsub_v ye y)) (nofQ (n:=RN) 0) = true) by (cbn; apply Rleb_true; rewrite Q2R_0; exact A).
      rewrite RED, andb_true_r. split; [reflexivity|]. split; [reflexivity|]. split.
      * cbn [nleb nsub nmul RN]. rewrite Rleb_true. split; intro; lra.
      * clear RED. destruct (nleb _ _); reflexivity.
  - split; [lra|]. split; [apply (proj1 (proj2 (proj2 (accepts_first_builtin RN))))|]. exists (fun x : R => x). split.
    + intros y i0 i'. cbn [se_step se_init linear_trust_region]. unfold tr_step. cbv zeta. rewrite orb_true_r. cbn [negb]. rewrite andb_false_r.
      assert (E : nmul (n:=RN) (nofQ (n:=RN) 1) (nofQ (n:=RN) 1) = 1) by (cbn; rewrite Q2R_1; ring).
      rewrite E. auto.
    + intros y ye v gr v' st A B. cbn [se_step linear_trust_region]. unfold tr_step. cbv zeta. unfold linear_predict. cbn [compute_grad_dot as_min].
      rewrite orb_false_r. cbn [negb]. rewrite andb_true_r.
      rewrite vsub_RN, vdot_RN. split; [reflexivity|]. split; [reflexivity|]. split.
      * cbn [nleb nsub nmul RN]. rewrite Rleb_true. split; intro; lra.
      * destruct (nleb _ _); [cbn [fst snd]|cbn; reflexivity].
        destruct (andb _ _).
        -- cbn [nmul RN]. split; [|lra]. rewrite <- (Rmult_1_l st) at 1. apply Rmult_le_compat_r; lra.
        -- cbn. rewrite Q2R_1, Rmult_1_l. split; [lra|]. rewrite <- (Rmult_1_l st) at 1. apply Rmult_le_compat_r; lra.
Qed.

(** How soon a user-defined descent finds a nearly stationary point.  f need not be convex: only its gradient is
    L-Lipschitz and its values are at least flow.  The descent is any one whose directions are related to the
    gradient by the constants c1 and c2; the search is BacktrackingArmijo or LinearTrustRegion.  Then some iterate
    among the first 1 + N (p+1) + q has |gradient|^2 <= e, where N is proportional to 1/e. *)
Lemma C111_complexity_pf :
  forall (Aux : Type) (P : ar_tols RN) search (c lo hi ini : R) resets descent (c1 c2 L e flow : R) (N p q : nat)
         grad_of (fn : list R -> R * Aux) (n : nat) (f : list R -> R) (g : list R -> list R) (y0 : list R) fs auxs st0,
    shrinking_search search c lo hi ini resets -> gradient_related n c1 c2 descent ->
    0 < c1 -> 0 < c2 -> 0 < L -> 0 < e -> smooth n L f g -> (forall x, length x = n -> flow <= f x) ->
    (forall x, fst (fn x) = f x) -> (forall x, grad_of fn x = g x) -> length y0 = n ->
    let least := Rmin ini (2 * lo * (1 - c) * c1 / (L * c2)) in
    hi * lo ^ p <= 1 -> ini * lo ^ q < least -> (resets = true -> (q <= p)%nat) ->
    f y0 - flow < INR N * (c * least * c1 * e) ->
    let s := gradient_descent_solver (N:=RN) P search descent grad_of in
    s_init s fn y0 fs auxs = Ret st0 ->
    let y : nat -> list R := y_at s fn y0 st0 (auxs fill0) in
    exists k, (k <= 1 + N * (p + 1) + q)%nat /\ Rdot (g (y k)) (g (y k)) <= e.
Proof.
  intros Aux P search c lo hi ini resets descent c1 c2 L e flow N p q grad_of fn n f g y0 fs auxs st0
    HSe HR Hc1 Hc2 HL He HS Hlow Hf Hg L0 least Hp Hq Hpq HN s Hi y.
  destruct (shrinking_facts _ _ _ _ _ _ HSe) as (HV & HA & size & SF & SS).
  apply gd_init_inv in Hi. subst st0.
  destruct (l_run P search descent c lo hi ini resets grad_of fn n c1 c2 f g y0 fs auxs size Hc1 ltac:(lra) ltac:(lra) HA SF SS HR Hf Hg (proj1 HS) L0)
    as (t & d & acc & Y1 & Ly & Ld & T0 & Rel & RS & _).
  destruct (s_complexity n L c1 c2 c lo hi ini resets f g HL Hc1 Hc2 HV HS (fun k => y (S k)) t d acc Ly Ld T0 Rel RS p q Hp Hq Hpq e flow N He
    (fun k => Hlow _ (Ly k))) as (k & K1 & K2).
  { assert (E : f (y 1%nat) = f y0) by exact (f_equal f Y1). rewrite E. exact HN. }
  exists (S k). split; [lia|exact K2].
Qed.

(** The linear rate, for functions that satisfy the Polyak-Lojasiewicz inequality with mu (which strongly convex
    functions do, and some functions that are not convex): the gap to the smallest value shrinks by the factor
    1 - 2 mu c least c1 at least once in p + 1 steps, whatever the number of unknowns; f never increases. *)
Lemma C111_rate_pf :
  forall (Aux : Type) (P : ar_tols RN) search (c lo hi ini : R) resets descent (c1 c2 L mu fmin : R) (p q : nat)
         grad_of (fn : list R -> R * Aux) (n : nat) (f : list R -> R) (g : list R -> list R) (y0 : list R) fs auxs st0,
    shrinking_search search c lo hi ini resets -> gradient_related n c1 c2 descent ->
    0 < c1 -> 0 < c2 -> 0 < L -> 0 < mu -> smooth n L f g -> (forall x, length x = n -> fmin <= f x) ->
    (forall x, length x = n -> 2 * mu * (f x - fmin) <= Rdot (g x) (g x)) ->
    (forall x, fst (fn x) = f x) -> (forall x, grad_of fn x = g x) -> length y0 = n ->
    let least := Rmin ini (2 * lo * (1 - c) * c1 / (L * c2)) in
    hi * lo ^ p <= 1 -> ini * lo ^ q < least -> (resets = true -> (q <= p)%nat) ->
    let s := gradient_descent_solver (N:=RN) P search descent grad_of in
    s_init s fn y0 fs auxs = Ret st0 ->
    let y : nat -> list R := y_at s fn y0 st0 (auxs fill0) in
    let rho := Rmax 0 (1 - 2 * mu * (c * least * c1)) in
    rho < 1 /\
    (forall k, f (y (S k)) <= f (y k)) /\
    (forall a k, (1 + a * (p + 1) + q <= k)%nat -> f (y k) - fmin <= rho ^ a * (f y0 - fmin)).
Proof.
  intros Aux P search c lo hi ini resets descent c1 c2 L mu fmin p q grad_of fn n f g y0 fs auxs st0
    HSe HR Hc1 Hc2 HL Hmu HS Hlow HPL Hf Hg L0 least Hp Hq Hpq s Hi y rho.
  destruct (shrinking_facts _ _ _ _ _ _ HSe) as (HV & HA & size & SF & SS).
  apply gd_init_inv in Hi. subst st0.
  destruct (l_run P search descent c lo hi ini resets grad_of fn n c1 c2 f g y0 fs auxs size Hc1 ltac:(lra) ltac:(lra) HA SF SS HR Hf Hg (proj1 HS) L0)
    as (t & d & acc & Y1 & Ly & Ld & T0 & Rel & RS & _).
  split; [exact (proj2 (srho_range L c1 c2 c lo hi ini HL Hc1 Hc2 HV mu Hmu))|]. split.
  - intros [|k]; [right; exact (f_equal f Y1)|].
    exact (s_descends n L c1 c2 c lo hi ini resets f g HL Hc1 Hc2 HV HS (fun k => y (S k)) t d acc Ly Ld T0 Rel RS k).
  - intros a [|k] H; [lia|].
    pose proof (s_rate n L c1 c2 c lo hi ini resets f g HL Hc1 Hc2 HV HS (fun k => y (S k)) t d acc Ly Ld T0 Rel RS p q Hp Hq Hpq mu fmin Hmu
      (fun k => Hlow _ (Ly k)) (fun k => HPL _ (Ly k)) a k ltac:(lia)) as Q.
    cbv beta in Q. assert (E : f (y 1%nat) = f y0) by exact (f_equal f Y1). rewrite E in Q. exact Q.
Qed.

Lemma gradient_bounded : forall n L f g fmin x, 0 < L -> smooth n L f g -> (forall z, length z = n -> fmin <= f z) -> length x = n ->
  Rdot (g x) (g x) <= 2 * L * (f x - fmin).
Proof.
  intros n L f g fmin x HL HS HM Lx. pose proof (proj1 HS x Lx) as Lg.
  pose proof (proj2 HS x (Rscal (- / L) (g x)) Lx ltac:(rewrite Rscal_length; exact Lg)) as Q.
  pose proof (HM (Radd_v x (Rscal (- / L) (g x))) ltac:(apply Radd_v_length; [exact Lx|rewrite Rscal_length; exact Lg])) as M.
  rewrite Rdot_scal_r, Rdot_scal_l, Rdot_scal_r in Q. set (G := Rdot (g x) (g x)) in *.
  assert (E : - / L * G + L / 2 * (- / L * (- / L * G)) = - (G / (2 * L))) by (field; lra).
  assert (G / (2 * L) <= f x - fmin) by lra.
  apply (Rmult_le_reg_r (/ (2 * L))); [apply Rinv_0_lt_compat; lra|].
  replace (2 * L * (f x - fmin) * / (2 * L)) with (f x - fmin) by (field; lra). exact H.
Qed.

(** On strongly convex functions such a solve stops by itself, with the default termination (max_norm, atol > 0,
    rtol >= 0), reports success and returns a point no worse than y0, from every starting point. *)
Lemma C111_terminates_pf :
  forall (Aux : Type) (rtol atol : R) search (c lo hi ini : R) resets descent (c1 c2 L mu : R)
         grad_of (fn : list R -> R * Aux) (n : nat) (f : list R -> R) (g : list R -> list R) (y0 xs : list R) fs auxs st0,
    shrinking_search search c lo hi ini resets -> gradient_related n c1 c2 descent ->
    0 < c1 -> 0 < c2 -> 0 < L -> 0 < mu -> 0 < atol -> 0 <= rtol -> smooth n L f g -> strongly_convex n mu f g ->
    (forall x, fst (fn x) = f x) -> (forall x, grad_of fn x = g x) ->
    length y0 = n -> length xs = n -> (forall x, length x = n -> f xs <= f x) ->
    let s := gradient_descent_solver (N:=RN) (mkTols rtol atol max_norm) search descent grad_of in
    s_init s fn y0 fs auxs = Ret st0 ->
    exists k, forall fuel budget throw, (k < fuel)%nat -> (forall m, budget = Some m -> (k <= m)%nat) ->
      exists sol, iterative_solve (vallfinite (N:=RN)) s fn fuel budget throw y0 fs auxs = Ret sol /\
        result sol = successful /\ f (value sol) <= f y0 /\
        hd_error (sol_stats sol) = Some ("num_steps"%string, Some (Z.of_nat k)).
Proof.
  intros Aux rtol atol search c lo hi ini resets descent c1 c2 L mu grad_of fn n f g y0 xs fs auxs st0
    HSe HR Hc1 Hc2 HL Hmu Ha Hr HS HC Hf Hg L0 Lxs HM s Hi.
  destruct (shrinking_facts _ _ _ _ _ _ HSe) as (HV & HA & size & SF & SS).
  set (P := mkTols (N:=RN) rtol atol max_norm) in *.
  pose proof (gd_init_inv _ _ _ _ _ _ _ _ _ Hi) as Hi'. subst st0.
  destruct (l_run P search descent c lo hi ini resets grad_of fn n c1 c2 f g y0 fs auxs size Hc1 ltac:(lra) ltac:(lra) HA SF SS HR Hf Hg (proj1 HS) L0)
    as (t & d & acc & Y1 & Ly & Ld & T0 & Rel & RS & RES & TM).
  set (Y := y_at s fn y0 (gd_st0 search descent y0 fs auxs) (auxs fill0)) in *.
  pose proof (tlow_pos L c1 c2 c lo hi ini HL Hc1 Hc2 HV) as TP.
  destruct (pow_lt_1_zero lo ltac:(rewrite Rabs_pos_eq; lra) (tlow L c1 c2 c lo ini / ini) ltac:(apply Rdiv_lt_0_compat; lra)) as [q Hq].
  specialize (Hq q (le_n q)). rewrite Rabs_pos_eq in Hq by (apply pow_le; lra).
  apply (Rmult_lt_compat_l ini) in Hq; [|lra]. replace (ini * (tlow L c1 c2 c lo ini / ini)) with (tlow L c1 c2 c lo ini) in Hq by (field; lra).
  destruct (pow_lt_1_zero lo ltac:(rewrite Rabs_pos_eq; lra) (/ hi) ltac:(apply Rinv_0_lt_compat; lra)) as [p0 Hp0].
  set (p := (p0 + q)%nat). specialize (Hp0 p ltac:(lia)). rewrite Rabs_pos_eq in Hp0 by (apply pow_le; lra).
  apply (Rmult_lt_compat_l hi) in Hp0; [|lra]. rewrite Rinv_r in Hp0 by lra.
  assert (HPL : forall k, 2 * mu * (f (Y (S k)) - f xs) <= Rdot (g (Y (S k))) (g (Y (S k)))).
  { intro k. exact (gradient_dominates n mu L f g Hmu HS HC _ xs (Ly k) Lxs). }
  assert (Hmin : forall k, f xs <= f (Y (S k))) by (intro k; apply HM, Ly).
  assert (TRM : exists k, says_terminate s fn y0 (gd_st0 search descent y0 fs auxs) (auxs fill0) k = true).
  { set (w := mu ^ 2 * (atol * atol) / (8 * L)).
    assert (w0 : 0 < w) by (apply Rdiv_lt_0_compat; [|lra]; apply Rmult_lt_0_compat; [apply pow_lt; lra|apply Rmult_lt_0_compat; lra]).
    set (tau := Rmin (atol / 2) (w / 2)). assert (T1 : 0 < tau) by (apply Rmin_glb_lt; lra).
    destruct (s_converges n L c1 c2 c lo hi ini resets f g HL Hc1 Hc2 HV HS (fun k => Y (S k)) t d acc Ly Ld T0 Rel RS p q ltac:(lra) Hq ltac:(lia) mu (f xs) Hmu
      Hmin HPL tau T1) as [K HK].
    destruct (s_again n L c1 c2 c lo hi ini resets f g HL Hc2 HV HS (fun k => Y (S k)) t d acc Ly Ld T0 Rel RS p q ltac:(lra) Hq ltac:(lia) K) as (j & J1 & J2).
    specialize (HK j J1). cbv beta in HK.
    pose proof (s_descends n L c1 c2 c lo hi ini resets f g HL Hc1 Hc2 HV HS (fun k => Y (S k)) t d acc Ly Ld T0 Rel RS j) as DE. cbv beta in DE.
    pose proof (s_length n L c1 c2 c lo hi ini resets f g Hc1 HV HS (fun k => Y (S k)) t d acc Ly Ld T0 Rel RS mu j Hmu HC J2) as SL. cbv beta in SL.
    pose proof (gradient_bounded n L f g (f xs) (Y (S j)) HL HS HM (Ly j)) as GB.
    pose proof (Rmin_l (atol / 2) (w / 2)) as M1. pose proof (Rmin_r (atol / 2) (w / 2)) as M2. fold tau in M1, M2.
    pose proof (Hmin (S j)) as V0.
    assert (GB2 : 2 * L * (f (Y (S j)) - f xs) <= 2 * L * (w / 2)) by (apply Rmult_le_compat_l; lra).
    assert (EW : 4 * (2 * L * (w / 2)) = mu ^ 2 * (atol * atol) / 2) by (unfold w; field; lra).
    assert (m2 : 0 < mu ^ 2) by (apply pow_lt; lra). assert (a2 : 0 < atol * atol) by (apply Rmult_lt_0_compat; lra).
    assert (ma : 0 < mu ^ 2 * (atol * atol)) by (apply Rmult_lt_0_compat; lra).
    assert (ST : t j * t j * Rdot (d j) (d j) < atol * atol) by (apply (Rmult_lt_reg_l (mu ^ 2)); lra).
    assert (ED : Rsub_v (Y (S (S j))) (Y (S j)) = Rscal (t j) (d j)).
    { destruct (RS j) as [(_ & _ & E & _)|(X & _)]; [|congruence]. refine (eq_trans (f_equal (fun z => Rsub_v z (Y (S j))) E) _).
      apply (BFGSConv_proofs.sub_add n); [apply Ly|rewrite Rscal_length; apply Ld]. }
    exists (S (S j)). specialize (TM j J2).
    match goal with |- says_terminate _ _ _ _ _ ?k = true => change (gd_terminate (st_at s fn y0 (gd_st0 search descent y0 fs auxs) (auxs fill0) k) = true) end.
    fold s in TM. fold Y in TM.
    destruct (gd_terminate (st_at s fn y0 (gd_st0 search descent y0 fs auxs) (auxs fill0) (S (S j)))) eqn:E; [reflexivity|].
    assert (T2 : false = cauchy_termination (N:=RN) rtol atol max_norm (Y (S (S j))) (Rsub_v (Y (S (S j))) (Y (S j))) [f (Y (S (S j)))] [f (Y (S (S j))) - f (Y (S j))]).
    { exact TM. }
    symmetry in T2. apply cauchy_false_vec in T2; [|exact Hr|exact Ha]. exfalso.
    destruct T2 as [(i & a & Ei & Q)|(i & a & Ei & Q)].
    - pose proof (Rdot_nth_le _ _ _ Ei) as X. rewrite ED, Rdot_scal_l, Rdot_scal_r in X.
      assert (Rabs a * Rabs a = a * a) by (rewrite <- Rabs_mult; apply Rabs_pos_eq, Rle_0_sqr).
      assert (atol * atol <= Rabs a * Rabs a) by (apply Rmult_le_compat; lra). lra.
    - destruct i as [|[|i]]; try discriminate Ei. cbn in Ei. injection Ei as <-. rewrite Rabs_left1 in Q by lra. lra. }
  assert (AF : forall v : list R, vallfinite (N:=RN) v = true).
  { intro v. unfold vallfinite. induction v; auto. }
  destruct (solve_succeeds (vallfinite (N:=RN)) s fn y0 _ _ fs auxs eq_refl Hi RES (fun k => AF _) TRM)
    as (k1 & K1 & K2 & K3).
  exists k1. intros fuel budget throw Hfu Hb. destruct (K3 fuel budget throw Hfu Hb) as (K4 & K5).
  eexists. split; [exact K4|]. split; [exact K5|]. split; [|reflexivity].
  change (f (Y k1) <= f y0). destruct k1 as [|k1]; [right; reflexivity|]. rewrite <- Y1. fold s. fold Y.
  clear K1 K2 K3 K4 K5 Hfu Hb. induction k1 as [|k1 IH]; [lra|]. eapply Rle_trans; [|exact IH].
  exact (s_descends n L c1 c2 c lo hi ini resets f g HL Hc1 Hc2 HV HS (fun k => Y (S k)) t d acc Ly Ld T0 Rel RS k1).
Qed.

(** The built-in steepest descent and a descent that scales the unknowns differently are gradient-related, and the
    default linear trust region is among the searches. *)
Lemma steepest_related : forall n, gradient_related n 1 1 (steepest_descent (N:=RN) None).
Proof.
  intros n y v gr st Ly Lg. exists (Rscal (-1) gr). split; [rewrite Rscal_length; exact Lg|]. split.
  - intro t. cbn. f_equal. change (vscale (N:=RN) (- t) gr = Rscal t (Rscal (-1) gr)).
    clear. induction gr as [|a r IH]; [reflexivity|]. cbn. f_equal; [ring|exact IH].
  - rewrite Rdot_scal_l, !Rdot_scal_r. lra.
Qed.
Lemma stretched_related : forall n, gradient_related n (1/2) 4 stretched_descent.
Proof.
  intros n y v gr st Ly Lg. exists (stretched gr).
  assert (X : forall r : list R, length (map (fun x => -2 * x) r) = length r /\ Rdot r (map (fun x => -2 * x) r) = -2 * Rdot r r /\
    Rdot (map (fun x => -2 * x) r) (map (fun x => -2 * x) r) = 4 * Rdot r r).
  { induction r as [|a r (I1 & I2 & I3)]; [cbn; split; [reflexivity|split; ring]|]. cbn. cbn in I2, I3.
    split; [f_equal; exact I1|]. unfold Rdot in *. cbn. cbn in I2, I3. split; [rewrite I2|rewrite I3]; ring. }
  split; [|split; [reflexivity|]].
  - destruct gr as [|a r]; [exact Lg|]. cbn in *. rewrite (proj1 (X r)). exact Lg.
  - destruct gr as [|a r]; [cbn; lra|]. destruct (X r) as (_ & X2 & X3). pose proof (Rdot_pos r) as RP.
    assert (RC : forall (a b : R) u w, Rdot (a :: u) (b :: w) = a * b + Rdot u w) by reflexivity.
    cbn [stretched]. rewrite !RC, X2, X3. pose proof (Rle_0_sqr a) as SA. unfold Rsqr in SA. lra.
Qed.
Definition region1 : tr_params RN := mkTr (N:=RN) (99/100) (1/100) (7/2) (1/4).
Lemma region1_shrinking : shrinking_search (linear_trust_region (N:=RN) region1) (1/100) (1/4) (7/2) 1 false.
Proof. apply (is_linear_trust_region region1); cbn; lra. Qed.

(** The coupled function x0^2 + x0 x1 + x1^2 (L = 3, mu = 1, minimum 0). *)
Example C111_complexity_ex_pf : forall P st0,
  let s := gradient_descent_solver (N:=RN) (Aux:=unit) P (linear_trust_region (N:=RN) region1) (steepest_descent (N:=RN) None) (fun _ => quad2_grad) in
  s_init s (fun v => (quad2 v, tt)) [5; -3] (fun _ => 0) (fun _ => tt) = Ret st0 ->
  let y : nat -> list R := y_at s (fun v => (quad2 v, tt)) [5; -3] st0 tt in
  exists k, (k <= 1 + 300 * 2 + 2)%nat /\ Rdot (quad2_grad (y k)) (quad2_grad (y k)) <= 40.
Proof.
  intros P st0 s Hi y. destruct quad2_facts as (HS & HC & HM).
  assert (E0 : quad2 [0; 0] = 0) by (cbn; ring). assert (E1 : quad2 [5; -3] = 19) by (cbn; ring).
  assert (LE : Rmin 1 (2 * (1/4) * (1 - 1/100) * 1 / (3 * 1)) = 33/200) by (rewrite Rmin_right; lra).
  refine (C111_complexity_pf unit P _ (1/100) (1/4) (7/2) 1 false _ 1 1 3 40 0 300 1 2 (fun _ => quad2_grad) (fun v => (quad2 v, tt)) 2%nat quad2 quad2_grad [5; -3]
    (fun _ => 0) (fun _ => tt) st0 region1_shrinking (steepest_related 2) _ _ _ _ HS _ (fun _ => eq_refl) (fun _ => eq_refl) eq_refl _ _ _ _ Hi); try lra.
  - intros x Hx. rewrite <- E0. apply HM. exact Hx.
  - rewrite LE. cbn. lra.
Qed.

Example C111_rate_ex_pf : forall P st0,
  let s := gradient_descent_solver (N:=RN) (Aux:=unit) P (linear_trust_region (N:=RN) region1) stretched_descent (fun _ => quad2_grad) in
  s_init s (fun v => (quad2 v, tt)) [1; 0] (fun _ => 0) (fun _ => tt) = Ret st0 ->
  let y : nat -> list R := y_at s (fun v => (quad2 v, tt)) [1; 0] st0 tt in
  forall a k, (1 + a * 2 + 3 <= k)%nat -> quad2 (y k) <= (1 - 33/160000) ^ a.
Proof.
  intros P st0 s Hi y a k Hk. destruct quad2_facts as (HS & HC & HM).
  assert (E0 : quad2 [0; 0] = 0) by (cbn; ring). assert (E1 : quad2 [1; 0] = 1) by (cbn; ring).
  assert (LE : Rmin 1 (2 * (1/4) * (1 - 1/100) * (1/2) / (3 * 4)) = 33/1600) by (rewrite Rmin_right; lra).
  assert (RO : Rmax 0 (1 - 2 * 1 * (1/100 * Rmin 1 (2 * (1/4) * (1 - 1/100) * (1/2) / (3 * 4)) * (1/2))) = 1 - 33/160000) by (rewrite LE, Rmax_right; lra).
  pose proof (C111_rate_pf unit P _ (1/100) (1/4) (7/2) 1 false _ (1/2) 4 3 1 0 1 3 (fun _ => quad2_grad) (fun v => (quad2 v, tt)) 2%nat quad2 quad2_grad [1; 0]
    (fun _ => 0) (fun _ => tt) st0 region1_shrinking (stretched_related 2) ltac:(lra) ltac:(lra) ltac:(lra) ltac:(lra) HS) as Q.
  cbv zeta in Q. rewrite RO in Q. rewrite E1 in Q.
  assert (Q' : quad2 (y k) - 0 <= (1 - 33/160000) ^ a * (1 - 0)).
  { refine (proj2 (proj2 (Q _ _ (fun _ => eq_refl) (fun _ => eq_refl) eq_refl _ _ _ Hi)) a k Hk); try lra; try discriminate.
    - intros x Hx. rewrite <- E0. apply HM. exact Hx.
    - intros x Hx. rewrite <- E0. exact (gradient_dominates 2 1 3 quad2 quad2_grad ltac:(lra) HS HC x [0; 0] Hx eq_refl). }
  lra.
Qed.

Example C111_terminates_ex_pf :
  let s := gradient_descent_solver (N:=RN) (Aux:=unit) (mkTols (1/1000) (1/1000) max_norm) (linear_trust_region (N:=RN) region1) stretched_descent (fun _ => quad2_grad) in
  exists k, forall fuel throw, (k < fuel)%nat ->
    exists sol, iterative_solve (vallfinite (N:=RN)) s (fun v => (quad2 v, tt)) fuel None throw [5; -3] (fun _ => 0) (fun _ => tt) = Ret sol /\
      result sol = successful /\ quad2 (value sol) <= 19.
Proof.
  intros s. destruct quad2_facts as (HS & HC & HM).
  destruct (C111_terminates_pf unit (1/1000) (1/1000) _ (1/100) (1/4) (7/2) 1 false _ (1/2) 4 3 1 (fun _ => quad2_grad) (fun v => (quad2 v, tt)) 2%nat quad2 quad2_grad [5; -3] [0; 0]
    (fun _ => 0) (fun _ => tt) _ region1_shrinking (stretched_related 2)
    ltac:(lra) ltac:(lra) ltac:(lra) ltac:(lra) ltac:(lra) ltac:(lra) HS HC (fun _ => eq_refl) (fun _ => eq_refl) eq_refl eq_refl HM eq_refl) as (k & K).
  exists k. intros fuel throw Hfu. destruct (K fuel None throw Hfu ltac:(discriminate)) as (sol & E1 & E2 & E3 & _).
  exists sol. split; [exact E1|]. split; [exact E2|]. assert (E5 : quad2 [5; -3] = 19) by (cbn; ring). rewrite <- E5. exact E3.
Qed.
