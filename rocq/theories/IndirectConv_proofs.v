(** Global convergence: IndirectLevenbergMarquardt (C82). *)

From Coq Require Import String List Bool Arith Lia ZArith QArith Qreals Reals Lra Psatz.
From Verif Require Import Num NumFacts Vec Results Iterate Spec_Iterate Iterate_proofs.
From Verif Require Import Spec_Vec VecFacts Spec_Lin LinFacts.
From Verif Require Import Search Spec_Search Descent Minimisers Solvers Minimisers_proofs.
From Verif Require Import TrustRegion_proofs LeastSquares_proofs Dogleg_proofs Spec_Steps Steps_proofs Spec_Convergence Convergence_proofs DoglegConv_proofs Spec_IndirectConv.
Import ListNotations.
Local Open Scope nat_scope.

Section Ind.
  Local Open Scope R_scope.
  Variables (n m : nat) (A : linop RN) (r y : list R) (lsolve : linop RN -> list R -> list R * results) (eps fmax step : R).
  Variable rfind : (R -> R) -> R.
  Variable st0 : DSt (indirect_damped_newton_descent (N:=RN) lsolve eps fmax two_norm rfind).
  Hypothesis HE : exact_least_squares n lsolve.
  Hypothesis HA : linear_op n m A.
  Hypothesis HT : transpose_op n A.
  Hypothesis Hr : length r = m.
  Hypothesis Hy : length y = n.
  Hypothesis He : 0 <= eps.
  Hypothesis Hs : 0 < step.
  Hypothesis HR : snd (lsolve A r) = successful.
  Let descent := indirect_damped_newton_descent (N:=RN) lsolve eps fmax two_norm rfind.
  Let d : list R := fst (d_step descent step (d_query descent y (ResidualJac (N:=RN) r A) st0)).
  Let g : list R := op_mvT A r.
  Let nw : list R := Rscal (-1) (fst (lsolve A r)).
  Hypothesis HF : forall h, step < 1 ->
    (forall lam, 0 < lam -> eps * lam < 1 ->
       exists z, length z = n /\
         (forall w, length w = n -> w <> z -> damped_loss A r lam z < damped_loss A r lam w) /\
         h lam = Rnorm z - step * Rnorm (fst (lsolve A r))) ->
    0 < rfind h /\ eps * rfind h < 1 /\ Rabs (h (rfind h)) <= / 2 * (step * Rnorm (fst (lsolve A r))).

  Lemma ind_cases : (1 <= step /\ d = nw) \/
    (step < 1 /\ length d = n /\ exists lam, 0 < lam /\
       (forall e : list R, length e = n -> Rdot (op_mv A d) (op_mv A e) + lam * Rdot d e = - Rdot g e) /\
       / 2 * (step * Rnorm nw) <= Rnorm d <= 3 / 2 * (step * Rnorm nw)).
  Proof.
    destruct (C69_length_pf lsolve eps fmax rfind n m A r y step st0 HE HA Hr Hy He) as [K1 K2].
    destruct (Rlt_dec step 1) as [S1|S1].
    - right. split; [exact S1|]. destruct (K2 S1 HR) as (h & H1 & _ & H3 & H4). fold descent in H3, H4. fold d in H3, H4.
      destruct (HF h S1) as (F1 & F2 & F3).
      { intros lam L1 L2. destruct (H1 lam (conj L1 L2)) as (z & (Z1 & Z2) & Z3). exists z. auto. }
      destruct (H3 (conj F1 F2)) as (Ld & Dm). split; [exact Ld|].
      exists (rfind h). split; [exact F1|].
      assert (EN : Rnorm nw = Rnorm (fst (lsolve A r))) by apply Rnorm_neg.
      split.
      + destruct (damped_minimiser n m A r (rfind h) HA Hr F1 d Ld) as [Z _].
        { intros w Lw. destruct (list_eq_dec Req_EM_T w d) as [->|NE]; [lra|]. apply Rlt_le, Dm; assumption. }
        intros e Le. specialize (Z e Le). pose proof HA as (L1 & _).
        rewrite Rdot_add_l in Z by (rewrite L1; congruence).
        pose proof (proj2 HT r e) as T. specialize (T Le). fold g in T.
        assert (Rdot r (op_mv A e) = Rdot g e) by (symmetry; exact T). lra.
      + rewrite EN. change (Rnorm d = step * Rnorm (fst (lsolve A r)) + h (rfind h)) in H4. rewrite H4.
        assert (F4 := Rle_abs (h (rfind h))). assert (F5 := Rle_abs (- h (rfind h))). rewrite Rabs_Ropp in F5. lra.
    - left. split; [lra|]. exact (K1 (or_introl (Rnot_lt_le _ _ S1))).
  Qed.

  Variables B sigma : R.
  Hypothesis HS : 0 < sigma.
  Hypothesis HB : forall v, length v = n -> Rdot (op_mv A v) (op_mv A v) <= B * Rdot v v.
  Hypothesis HI : forall v, length v = n -> sigma * Rdot v v <= Rdot (op_mv A v) (op_mv A v).
  Hypothesis HSB : sigma <= B.
  Let q (v : list R) : R := classical_predict (N:=RN) v (ResidualJac (N:=RN) r A).

  Let dd := Rdot d d.
  Let gg := Rdot g g.

  (** The damped case: estimates in terms of the damping *)
  Lemma ind_damped : forall lam, 0 < lam -> length d = n ->
    (forall e : list R, length e = n -> Rdot (op_mv A d) (op_mv A e) + lam * Rdot d e = - Rdot g e) ->
    (sigma + lam) * dd <= - Rdot g d /\ lam * Rnorm d <= Rnorm g /\ sigma * Rnorm d <= Rnorm g /\
    Rnorm g <= (B + lam) * Rnorm d /\ gg <= (B + lam) * - Rdot g d /\ q d <= / 2 * Rdot g d.
  Proof.
    intros lam H0 Ld HN. pose proof HA as (L1 & _ & _).
    assert (Lg : length g = n) by (apply (proj1 HT); exact Hr).
    pose proof (HN d Ld) as E1. pose proof (HN g Lg) as E2. fold dd in E1. fold gg in E2.
    pose proof (HB d Ld) as B1. pose proof (HI d Ld) as I1. pose proof (HB g Lg) as B2. fold dd in B1, I1. fold gg in B2.
    assert (D0 : 0 <= dd) by apply Rdot_pos. assert (G0 : 0 <= gg) by apply Rdot_pos.
    pose proof (Rnorm_pos d) as ND. pose proof (Rnorm_pos g) as NG.
    pose proof (Rnorm_sq d) as SD. pose proof (Rnorm_sq g) as SG. fold dd in SD. fold gg in SG.
    pose proof (Rdot_pos (op_mv A d)) as AD0.
    assert (CS : - Rdot g d <= Rnorm g * Rnorm d).
    { pose proof (Rdot_CS g d (eq_trans Lg (eq_sym Ld))) as C. fold dd gg in C. rewrite <- SD, <- SG in C.
      destruct (Rle_dec (- Rdot g d) 0) as [Q|Q].
      - apply Rle_trans with 0; [exact Q|]. apply Rmult_le_pos; assumption.
      - apply Rsqr_incr_0_var; [unfold Rsqr; lra|apply Rmult_le_pos; assumption]. }
    assert (K1 : (sigma + lam) * dd <= - Rdot g d) by lra.
    assert (LD : 0 <= lam * dd) by (apply Rmult_le_pos; lra).
    assert (SDD : 0 <= sigma * dd) by (apply Rmult_le_pos; lra).
    assert (X : forall a, 0 <= a -> a * dd <= - Rdot g d -> a * Rnorm d <= Rnorm g).
    { intros a A0 Q. destruct ND as [ND|ND]; [|rewrite <- ND; lra].
      apply (Rmult_le_reg_r (Rnorm d)); [exact ND|]. rewrite Rmult_assoc, SD. lra. }
    split; [exact K1|]. split; [apply X; lra|]. split; [apply X; lra|].
    assert (CM : gg * gg <= - Rdot g d * (Rdot (op_mv A g) (op_mv A g) + lam * gg)).
    { set (u := op_mv A d ++ Rscal (sqrt lam) d). set (v := op_mv A g ++ Rscal (sqrt lam) g).
      assert (SL : sqrt lam * sqrt lam = lam) by (apply sqrt_sqrt; lra).
      assert (LA : length (op_mv A d) = length (op_mv A g)) by (rewrite !L1; auto).
      pose proof (Rdot_CS u v ltac:(unfold u, v; rewrite !app_length, !Rscal_length; lia)) as C.
      unfold u, v in C. rewrite (Rdot_app (op_mv A d) _ (op_mv A g) _ LA), (Rdot_app (op_mv A d) _ (op_mv A d) _ eq_refl), (Rdot_app (op_mv A g) _ (op_mv A g) _ eq_refl) in C. rewrite !Rdot_scal_l, !Rdot_scal_r in C.
      replace (sqrt lam * (sqrt lam * Rdot d g)) with (lam * Rdot d g) in C by (rewrite <- SL at 1; ring).
      replace (sqrt lam * (sqrt lam * Rdot d d)) with (lam * dd) in C by (unfold dd; rewrite <- SL at 1; ring).
      replace (sqrt lam * (sqrt lam * Rdot g g)) with (lam * gg) in C by (unfold gg; rewrite <- SL at 1; ring).
      rewrite E2, E1 in C. lra. }
    assert (K5 : gg <= (B + lam) * - Rdot g d).
    { destruct (Req_EM_T gg 0) as [Z|Z].
      - rewrite Z. apply Rmult_le_pos; lra.
      - apply (Rmult_le_reg_r gg); [lra|]. apply (Rle_trans _ _ _ CM).
        replace ((B + lam) * - Rdot g d * gg) with (- Rdot g d * ((B + lam) * gg)) by ring.
        apply Rmult_le_compat_l; lra. }
    split; [|split; [exact K5|]].
    - destruct NG as [NG|NG]; [|rewrite <- NG; apply Rmult_le_pos; lra].
      apply (Rmult_le_reg_r (Rnorm g)); [exact NG|]. rewrite SG. apply (Rle_trans _ _ _ K5).
      replace ((B + lam) * Rnorm d * Rnorm g) with ((B + lam) * (Rnorm g * Rnorm d)) by ring.
      apply Rmult_le_compat_l; lra.
    - unfold q. rewrite (q_eq n m A r HA HT Hr d Ld). fold g. lra.
  Qed.

  Lemma ind_newton : length nw = n /\ Rdot g nw = - Rdot (op_mv A nw) (op_mv A nw) /\
    sigma * Rnorm nw <= Rnorm g /\ Rnorm g <= B * Rnorm nw /\ q nw <= - / 2 * (gg / B).
  Proof.
    destruct (dog_newton n m A r lsolve eps HE HA HT Hr B sigma HS HB HI HSB) as (N1 & N2 & N3 & N4).
    destruct (dog_lens n m A r lsolve eps HE HA HT Hr) as (_ & Ln & _).
    pose proof (q_newton n m A r lsolve eps HE HA HT Hr B sigma HS HB HI HSB). auto.
  Qed.

  Lemma ind_length : length d = n /\ sigma * sigma * dd <= gg.
  Proof.
    assert (X : forall v, sigma * Rnorm v <= Rnorm g -> sigma * sigma * Rdot v v <= gg).
    { intros v Q. unfold gg. rewrite <- !Rnorm_sq. pose proof (Rnorm_pos v).
      replace (sigma * sigma * (Rnorm v * Rnorm v)) with ((sigma * Rnorm v) * (sigma * Rnorm v)) by ring.
      assert (0 <= sigma * Rnorm v) by (apply Rmult_le_pos; lra). apply Rmult_le_compat; assumption. }
    destruct ind_newton as (Ln & _ & N3 & _).
    destruct ind_cases as [(S1 & E)|(S1 & Ld & lam & H0 & HN & _)].
    - unfold dd. rewrite E. split; [exact Ln|apply X; exact N3].
    - destruct (ind_damped lam H0 Ld HN) as (_ & _ & K & _). split; [exact Ld|apply X; exact K].
  Qed.

  Lemma ind_model : q d <= - / 6 * (Rmin 1 step * (gg / B)).
  Proof.
    assert (G0 : 0 <= gg) by apply Rdot_pos.
    assert (IB : 0 < / B) by (apply Rinv_0_lt_compat; lra).
    assert (GB : 0 <= gg / B) by (apply Rmult_le_pos; lra).
    destruct ind_newton as (Ln & _ & N3 & N4 & N5).
    destruct ind_cases as [(S1 & E)|(S1 & Ld & lam & H0 & HN & HD)].
    - rewrite E, Rmin_left by exact S1. lra.
    - destruct (ind_damped lam H0 Ld HN) as (_ & K2 & _ & _ & K5 & K6). rewrite Rmin_right by lra.
      assert (GP : 0 <= - Rdot g d).
      { destruct (Rle_dec 0 (- Rdot g d)) as [?|Q]; [assumption|exfalso].
        assert ((B + lam) * - Rdot g d < 0); [|lra]. apply Rnot_le_lt in Q.
        assert (0 < (B + lam) * Rdot g d) by (apply Rmult_lt_0_compat; lra). lra. }
      destruct (Req_EM_T gg 0) as [Z|Z]; [rewrite Z; unfold Rdiv; rewrite Rmult_0_l, Rmult_0_r, Rmult_0_r; lra|].
      pose proof (Rnorm_pos g) as NG. pose proof (Rnorm_sq g) as SG. fold gg in SG.
      assert (GN : 0 < Rnorm g) by (destruct NG as [?|Q]; [assumption|exfalso; apply Z; rewrite <- SG, <- Q; ring]).
      assert (LS : lam * step <= 2 * B).
      { apply (Rmult_le_reg_r (Rnorm g)); [exact GN|].
        apply Rle_trans with (lam * step * (B * Rnorm nw)).
        - apply Rmult_le_compat_l; [apply Rmult_le_pos; lra|exact N4].
        - replace (lam * step * (B * Rnorm nw)) with (2 * B * (lam * (/ 2 * (step * Rnorm nw)))) by field.
          apply Rmult_le_compat_l; [lra|]. apply Rle_trans with (lam * Rnorm d); [|exact K2].
          apply Rmult_le_compat_l; lra. }
      assert (S3 : step * (B + lam) <= 3 * B).
      { assert (step * B <= 1 * B) by (apply Rmult_le_compat_r; lra). lra. }
      assert (step * gg <= 3 * B * - Rdot g d).
      { apply Rle_trans with (step * ((B + lam) * - Rdot g d)); [apply Rmult_le_compat_l; lra|].
        rewrite <- Rmult_assoc. apply Rmult_le_compat_r; assumption. }
      assert (step * (gg / B) <= 3 * - Rdot g d).
      { apply (Rmult_le_reg_r B); [lra|]. replace (step * (gg / B) * B) with (step * gg) by (field; lra). lra. }
      lra.
  Qed.

  Lemma ind_small : forall L, 0 < L -> step < 2 * sigma / (3 * (B + 50 * L / 99)) ->
    99 / 100 * Rdot g d + L / 2 * dd <= / 200 * Rdot (op_mv A d) (op_mv A d).
  Proof.
    intros L HL S2. assert (W0 : 0 < B + 50 * L / 99) by lra.
    assert (S3 : 3 * step * (B + 50 * L / 99) < 2 * sigma).
    { apply (Rmult_lt_compat_r (3 * (B + 50 * L / 99))) in S2; [|lra].
      unfold Rdiv at 2 in S2. rewrite Rmult_assoc, Rinv_l in S2 by lra. lra. }
    assert (S4 : step < 1).
    { destruct (Rlt_dec step 1) as [?|Q]; [assumption|exfalso].
      assert (3 * 1 * (B + 50 * L / 99) <= 3 * step * (B + 50 * L / 99)) by (apply Rmult_le_compat_r; lra). lra. }
    destruct ind_newton as (Ln & _ & N3 & N4 & _).
    destruct ind_cases as [(S1 & E)|(S1 & Ld & lam & H0 & HN & HD)]; [lra|].
    destruct (ind_damped lam H0 Ld HN) as (_ & _ & K3 & K4 & _).
    pose proof (HN d Ld) as E1. fold dd in E1. pose proof (Rdot_pos (op_mv A d)) as AD0.
    assert (D0 : 0 <= dd) by apply Rdot_pos.
    pose proof (Rnorm_pos g) as NG. pose proof (Rnorm_pos d) as ND. pose proof (Rnorm_pos nw) as NN.
    destruct NG as [NG|NG].
    - assert (X : 2 * sigma <= 3 * step * (B + lam)).
      { apply (Rmult_le_reg_r (Rnorm g)); [exact NG|].
        apply Rle_trans with (2 * sigma * ((B + lam) * (3 / 2 * (step * Rnorm nw)))).
        - apply Rmult_le_compat_l; [lra|]. apply (Rle_trans _ _ _ K4). apply Rmult_le_compat_l; lra.
        - replace (2 * sigma * ((B + lam) * (3 / 2 * (step * Rnorm nw)))) with (3 * step * (B + lam) * (sigma * Rnorm nw)) by field.
          apply Rmult_le_compat_l; [|exact N3]. apply Rmult_le_pos; lra. }
      assert (LL : 50 * L / 99 < lam).
      { destruct (Rlt_dec (50 * L / 99) lam) as [?|Q]; [assumption|exfalso]. apply Rnot_lt_le in Q.
        assert (3 * step * (B + lam) <= 3 * step * (B + 50 * L / 99)) by (apply Rmult_le_compat_l; lra). lra. }
      assert (50 * L / 99 * dd <= lam * dd) by (apply Rmult_le_compat_r; lra). lra.
    - assert (Z : Rnorm d = 0) by (apply Rle_antisym; [|exact ND]; apply (Rmult_le_reg_l sigma); lra).
      assert (Z2 : dd = 0) by (unfold dd; rewrite <- Rnorm_sq, Z; ring). rewrite Z2 in *. lra.
  Qed.
End Ind.

(** ** C82 *)

Section IndRun.
  Local Open Scope R_scope.
  Variables (Aux : Type) (eps fmax : R) (lsolve : linop RN -> list R -> list R * results) (rfind : (R -> R) -> R).
  Variables (jac_of : (list R -> list R * Aux) -> list R -> linop RN) (fn : list R -> list R * Aux) (n m : nat) (L B sigma : R).
  Let r (x : list R) : list R := fst (fn x).
  Let J : list R -> linop RN := jac_of fn.
  Let w := 2 * sigma / (3 * (B + 50 * L / 99)).
  Let rho := w / 4.
  Hypothesis He : 0 <= eps.
  Hypothesis Hf : 0 < fmax.
  Hypothesis HE : exact_least_squares n lsolve.
  Hypothesis HR : forall A b, snd (lsolve A b) = successful.
  Hypothesis HP : residual_problem n m r J.
  Hypothesis HL : 0 < L.
  Hypothesis HS : smooth n L (half_squares r) (ls_gradient r J).
  Hypothesis HSB : 0 < sigma <= B.
  Hypothesis HB : jac_bounded n B J.
  Hypothesis HI : jac_injective n sigma J.
  Hypothesis HF : finds_damping eps rho n r J (fun x => Rnorm (fst (lsolve (J x) (r x)))) rfind.
  Let descent := indirect_damped_newton_descent (N:=RN) lsolve eps fmax two_norm rfind.

  Lemma ind_w : 0 < w < 1.
  Proof.
    unfold w. destruct HSB as [S0 SB]. assert (0 < 3 * (B + 50 * L / 99)) by lra. split.
    - apply Rdiv_lt_0_compat; lra.
    - apply (Rmult_lt_reg_r (3 * (B + 50 * L / 99))); [assumption|].
      unfold Rdiv at 1. rewrite Rmult_assoc, Rinv_l by lra. lra.
  Qed.

  Lemma ind_rho : Rmin 1 (w / 4) = rho /\ 0 < rho < 1.
  Proof. pose proof ind_w. unfold rho. rewrite Rmin_right by lra. lra. Qed.

  Lemma ind_HF : forall x step, length x = n -> rho <= step -> forall h, step < 1 ->
    (forall lam, 0 < lam -> eps * lam < 1 ->
       exists z, length z = n /\
         (forall v, length v = n -> v <> z -> damped_loss (J x) (r x) lam z < damped_loss (J x) (r x) lam v) /\
         h lam = Rnorm z - step * Rnorm (fst (lsolve (J x) (r x)))) ->
    0 < rfind h /\ eps * rfind h < 1 /\ Rabs (h (rfind h)) <= / 2 * (step * Rnorm (fst (lsolve (J x) (r x)))).
  Proof. intros x step Hx Hs h H1 H2. exact (HF x step h Hx (conj Hs H1) H2). Qed.

  Lemma ind_descends : forall y (step : R) st, length y = n -> 0 < step ->
    let i := ResidualJac (N:=RN) (fst (fn y)) (jac_of fn y) in
    let d := fst (d_step descent step (d_query descent y i st)) in
    length d = n /\ classical_predict (N:=RN) d i <= 0.
  Proof.
    intros z step st Hz _ i d. destruct (HP z Hz) as (Hr & HA & _).
    destruct (undamped_predict n m lsolve (jac_of fn z) (fst (fn z)) HE HA Hr) as (U1 & U2 & _).
    unfold d, i, descent. cbn [indirect_damped_newton_descent d_step d_query newton_step].
    destruct (lsolve (jac_of fn z) (fst (fn z))) as [nw res]. cbn [fst] in U1, U2.
    cbn [indirect_damped_step].
    change (Datatypes.length z) with (@length R z). rewrite Hz.
    match goal with |- context [if ?b then _ else _] => destruct b end.
    + match goal with |- context [damped_newton_step lsolve eps fmax n ?a ?c] =>
        pose proof (damped_predict n m lsolve eps fmax (jac_of fn z) (fst (fn z)) a HE HA Hr He Hf) as [K1 K2];
        destruct (damped_newton_step lsolve eps fmax n a c) as [sol res'] end.
      cbn [fst] in *. split; [|exact K2]. unfold vneg. rewrite map_length. exact K1.
    + cbn [fst]. split; [|exact U2]. unfold vneg. rewrite map_length. exact U1.
  Qed.

  Lemma ind_must_accept : forall x (step : R) st, length x = n -> Rmin 1 (w / 4) <= step < w ->
    let i := ResidualJac (N:=RN) (r x) (J x) in
    let d : list R := fst (d_step descent step (d_query descent x i st)) in
    half_squares r (Radd_v x d) - half_squares r x <= 1 / 100 * classical_predict (N:=RN) d i.
  Proof.
    intros x step st Hx [H1 H2] i d. destruct ind_rho as [ER R0]. rewrite ER in H1. assert (Hs : 0 < step) by lra.
    destruct (HP x Hx) as (Hr & HA & HT). destruct HSB as [S0 SB].
    destruct (ind_length n m (J x) (r x) x lsolve eps fmax step rfind st HE HA HT Hr Hx He (HR _ _) (ind_HF x step Hx H1)
      B sigma S0 (fun v => HB x v Hx) (fun v => HI x v Hx) SB) as (Ld & _).
    pose proof (ind_small n m (J x) (r x) x lsolve eps fmax step rfind st HE HA HT Hr Hx He Hs (HR _ _) (ind_HF x step Hx H1)
      B sigma S0 (fun v => HB x v Hx) (fun v => HI x v Hx) SB L HL H2) as K.
    pose proof (q_eq n m (J x) (r x) HA HT Hr d Ld) as E. fold descent in Ld, K, E. fold i in Ld, K, E. fold d in Ld, K, E.
    pose proof (proj2 HS x d Hx Ld) as S3. unfold ls_gradient in S3.
    change (classical_predict (N:=RN) d i = Rdot (op_mvT (J x) (r x)) d + / 2 * Rdot (op_mv (J x) d) (op_mv (J x) d))%R in E.
    rewrite E. lra.
  Qed.

  Lemma ind_decrease : forall x step st, length x = n -> Rmin 1 (w / 4) <= step ->
    let i := ResidualJac (N:=RN) (r x) (J x) in
    let d : list R := fst (d_step descent step (d_query descent x i st)) in
    let gg := Rdot (ls_gradient r J x) (ls_gradient r J x) in
    classical_predict (N:=RN) d i <= - / 6 * (rho * (gg / B)) /\ sigma * sigma * Rdot d d <= gg.
  Proof.
    intros x step st Hx H1 i d gg. destruct ind_rho as [ER R0]. rewrite ER in H1. assert (Hs : 0 < step) by lra.
    destruct (HP x Hx) as (Hr & HA & HT). destruct HSB as [S0 SB].
    destruct (ind_length n m (J x) (r x) x lsolve eps fmax step rfind st HE HA HT Hr Hx He (HR _ _) (ind_HF x step Hx H1)
      B sigma S0 (fun v => HB x v Hx) (fun v => HI x v Hx) SB) as (_ & K1).
    pose proof (ind_model n m (J x) (r x) x lsolve eps fmax step rfind st HE HA HT Hr Hx He Hs (HR _ _) (ind_HF x step Hx H1)
      B sigma S0 (fun v => HB x v Hx) (fun v => HI x v Hx) SB) as K2.
    split; [|exact K1]. eapply Rle_trans; [exact K2|]. fold gg.
    change (Rdot (op_mvT (J x) (r x)) (op_mvT (J x) (r x))) with gg.
    assert (G0 : 0 <= gg) by apply Rdot_pos. assert (IB : 0 < / B) by (apply Rinv_0_lt_compat; lra).
    assert (GB : 0 <= gg / B) by (apply Rmult_le_pos; lra).
    assert (rho * (gg / B) <= Rmin 1 step * (gg / B)); [|lra].
    apply Rmult_le_compat_r; [exact GB|]. apply Rmin_glb; lra.
  Qed.
End IndRun.

(** Exact arithmetic; exact least-squares solves reporting success; 1/2 |r|^2 below its
    tangent parabolas of curvature L; sigma |v|^2 <= |J v|^2 <= B |v|^2 everywhere; and an
    inner root find that meets the requested step length up to a factor between 1/2 and 3/2
    for every radius from rho to 1.  Then IndirectLevenbergMarquardt accepts every trial
    made with a radius below w = 2 sigma / (3 (B + 50 L / 99)) (the requested length is
    radius times the length of the Newton step); hence the radius never falls below
    rho = w / 4; and of the first k steps at least (k - q) / 2 are accepted, where
    4^q rho >= 1. *)
Lemma C82_radius_pf :
  forall (Aux : Type) (P : ar_tols RN) (eps fmax : R) lsolve rfind jac_of (fn : list R -> list R * Aux)
         (n m : nat) (L B sigma : R) (y0 : list R) fs auxs st0,
    let r x := fst (fn x) in let J := jac_of fn in
    (0 <= eps)%R -> (0 < fmax)%R -> exact_least_squares n lsolve -> (forall A b, snd (lsolve A b) = successful) ->
    residual_problem n m r J -> (0 < L)%R -> smooth n L (half_squares r) (ls_gradient r J) ->
    (0 < sigma <= B)%R -> jac_bounded n B J -> jac_injective n sigma J -> length y0 = n ->
    let w := (2 * sigma / (3 * (B + 50 * L / 99)))%R in
    let rho := (w / 4)%R in
    finds_damping eps rho n r J (fun x => Rnorm (fst (lsolve (J x) (r x)))) rfind ->
    let s := IndirectLevenbergMarquardt (N:=RN) P jac_of lsolve eps fmax rfind in
    s_init s fn y0 fs auxs = Ret st0 ->
    let y := y_at s fn y0 st0 (auxs fill0) in
    let st := st_at s fn y0 st0 (auxs fill0) in
    let radius k : R := gn_search_state (st k) in
    let accepted k : nat := gn_num_accepted_steps (st k) in
    (forall k, (radius (S k) < w)%R ->
       y (S (S k)) = gn_y_eval (st (S k)) /\ accepted (S (S k)) = S (accepted (S k))) /\
    (forall k, (rho <= radius (S k))%R) /\
    (forall q k, (1 <= 4 ^ q * rho)%R -> k <= 2 * accepted k + q).
Proof.
  intros Aux P eps fmax lsolve rfind jac_of fn n m L B sigma y0 fs auxs st0 r J He Hf HE HR HP HL HS HSB HB HI Hn w rho HF s Hi y st radius accepted.
  unfold s in Hi. apply gn_init_inv in Hi. subst st0.
  pose proof (ind_descends Aux eps fmax lsolve rfind jac_of fn n m He Hf HE HP) as HD. cbv zeta in HD.
  pose proof (ind_must_accept Aux eps fmax lsolve rfind jac_of fn n m L B sigma He HE HR HP HL HS HSB HB HI HF) as HM. cbv zeta in HM.
  destruct (ind_w L B sigma HL HSB) as [Hw _].
  destruct (ind_rho L B sigma HL HSB) as [ER _].
  change (Rmin 1 (w / 4) = rho) in ER.
  split; [|split].
  - exact (run_accept P _ jac_of fn n y0 fs auxs Hn HD w HM).
  - rewrite <- ER. exact (run_radius P _ jac_of fn n y0 fs auxs Hn HD w HM).
  - rewrite <- ER. exact (run_count_le P _ jac_of fn n y0 fs auxs Hn HD w HM).
Qed.

(** The gradient J^T r becomes as small as one likes: if 1/2 |r(y0)|^2 <
    K rho tau / (600 B), then one of the first 2 K + 1 + q iterates has |J^T r|^2 < tau. *)
Lemma C82_gradient_pf :
  forall (Aux : Type) (P : ar_tols RN) (eps fmax : R) lsolve rfind jac_of (fn : list R -> list R * Aux)
         (n m : nat) (L B sigma tau : R) (y0 : list R) fs auxs st0 (q K : nat),
    let r x := fst (fn x) in let J := jac_of fn in
    (0 <= eps)%R -> (0 < fmax)%R -> exact_least_squares n lsolve -> (forall A b, snd (lsolve A b) = successful) ->
    residual_problem n m r J -> (0 < L)%R -> smooth n L (half_squares r) (ls_gradient r J) ->
    (0 < sigma <= B)%R -> jac_bounded n B J -> jac_injective n sigma J -> length y0 = n ->
    let w := (2 * sigma / (3 * (B + 50 * L / 99)))%R in
    let rho := (w / 4)%R in
    finds_damping eps rho n r J (fun x => Rnorm (fst (lsolve (J x) (r x)))) rfind ->
    (0 < tau)%R -> (1 <= 4 ^ q * rho)%R ->
    (half_squares r y0 < INR K * (rho * tau / (600 * B)))%R ->
    let s := IndirectLevenbergMarquardt (N:=RN) P jac_of lsolve eps fmax rfind in
    s_init s fn y0 fs auxs = Ret st0 ->
    exists k, k <= 2 * K + 1 + q /\
      let x : list R := y_at s fn y0 st0 (auxs fill0) k in
      (Rdot (ls_gradient r J x) (ls_gradient r J x) < tau)%R.
Proof.
  intros Aux P eps fmax lsolve rfind jac_of fn n m L B sigma tau y0 fs auxs st0 q K r J He Hf HE HR HP HL HS HSB HB HI Hn w rho HF Ht Hq HK s Hi.
  unfold s in Hi. apply gn_init_inv in Hi. subst st0.
  pose proof (ind_descends Aux eps fmax lsolve rfind jac_of fn n m He Hf HE HP) as HD. cbv zeta in HD.
  pose proof (ind_must_accept Aux eps fmax lsolve rfind jac_of fn n m L B sigma He HE HR HP HL HS HSB HB HI HF) as HM. cbv zeta in HM.
  pose proof (ind_decrease Aux eps fmax lsolve rfind jac_of fn n m L B sigma He HE HR HP HL HSB HB HI HF) as HQ. cbv zeta in HQ.
  destruct (ind_w L B sigma HL HSB) as [Hw _].
  destruct (ind_rho L B sigma HL HSB) as [ER R0].
  change (Rmin 1 (w / 4) = rho) in ER. change (0 < rho < 1)%R in R0.
  apply (run_reach P _ jac_of fn n y0 fs auxs Hn HD w HM
    (fun x => (Rdot (ls_gradient r J x) (ls_gradient r J x) < tau)%R) (rho * tau / (600 * B))%R q K).
  - apply Rdiv_lt_0_compat; [apply Rmult_lt_0_compat; lra|lra].
  - rewrite ER. exact Hq.
  - intro x. destruct (Rlt_dec (Rdot (ls_gradient r J x) (ls_gradient r J x)) tau); auto.
  - intros x step st Hx Hs G. apply Rnot_lt_le in G. destruct (HQ x step st Hx Hs) as [Q _].
    eapply Rle_trans; [exact Q|]. change (2 * sigma / (3 * (B + 50 * L / 99)) / 4)%R with rho.
    replace (100 * (rho * tau / (600 * B)))%R with (/ 6 * (rho * (tau / B)))%R by (field; lra).
    assert (IB : (0 < / B)%R) by (apply Rinv_0_lt_compat; lra).
    match goal with |- (_ * (_ * (?G / B)) <= _)%R => change G with (Rdot (ls_gradient r J x) (ls_gradient r J x)) end.
    assert (rho * (tau / B) <= rho * (Rdot (ls_gradient r J x) (ls_gradient r J x) / B))%R; [|lra].
    apply Rmult_le_compat_l; [lra|]. apply Rmult_le_compat_r; lra.
  - exact HK.
Qed.

(** If moreover the residuals are Lipschitz, |r(x+d) - r(x)|^2 <= B |d|^2, then
    IndirectLevenbergMarquardt succeeds within 2 K + 2 + q steps, where
    1/2 |r(y0)|^2 < K (rho sigma^2 / (600 B)) min (atol^2, atol^2 / B), at a point no worse
    than y0. *)
Lemma C82_terminates_pf :
  forall (Aux : Type) (rtol atol eps fmax : R) lsolve rfind jac_of (fn : list R -> list R * Aux)
         (n m : nat) (L B sigma : R) (y0 : list R) fs auxs (q K : nat),
    let r x := fst (fn x) in let J := jac_of fn in
    (0 <= eps)%R -> (0 < fmax)%R -> exact_least_squares n lsolve -> (forall A b, snd (lsolve A b) = successful) ->
    residual_problem n m r J -> (0 < L)%R -> smooth n L (half_squares r) (ls_gradient r J) ->
    (0 < sigma <= B)%R -> jac_bounded n B J -> jac_injective n sigma J -> residual_lipschitz n B r ->
    length y0 = n -> (0 <= rtol)%R -> (0 < atol)%R ->
    let w := (2 * sigma / (3 * (B + 50 * L / 99)))%R in
    let rho := (w / 4)%R in
    finds_damping eps rho n r J (fun x => Rnorm (fst (lsolve (J x) (r x)))) rfind ->
    (1 <= 4 ^ q * rho)%R ->
    (half_squares r y0 < INR K * (rho * (sigma * sigma) / (600 * B) * Rmin (atol * atol) (atol * atol / B)))%R ->
    let s := IndirectLevenbergMarquardt (N:=RN) (mkTols rtol atol max_norm) jac_of lsolve eps fmax rfind in
    exists k, k <= 2 * K + 2 + q /\
      forall fuel budget throw, k < fuel -> (forall j, budget = Some j -> k <= j) ->
        exists sol, iterative_solve (vallfinite (N:=RN)) s fn fuel budget throw y0 fs auxs = Ret sol /\
          result sol = successful /\ (half_squares r (value sol) <= half_squares r y0)%R /\
          hd_error (sol_stats sol) = Some ("num_steps"%string, Some (Z.of_nat k)).
Proof.
  intros Aux rtol atol eps fmax lsolve rfind jac_of fn n m L B sigma y0 fs auxs q K r J He Hf HE HR HP HL HS HSB HB HI HLp Hn Hrt Hat w rho HF Hq HK s.
  set (P := mkTols (N:=RN) rtol atol max_norm) in *.
  set (st0 := gn_st0 (classical_trust_region (N:=RN) tr_default) (indirect_damped_newton_descent (N:=RN) lsolve eps fmax two_norm rfind) y0 fs auxs).
  assert (Hi : s_init s fn y0 fs auxs = Ret st0) by reflexivity.
  pose proof (ind_descends Aux eps fmax lsolve rfind jac_of fn n m He Hf HE HP) as HD. cbv zeta in HD.
  pose proof (ind_must_accept Aux eps fmax lsolve rfind jac_of fn n m L B sigma He HE HR HP HL HS HSB HB HI HF) as HM. cbv zeta in HM.
  pose proof (ind_decrease Aux eps fmax lsolve rfind jac_of fn n m L B sigma He HE HR HP HL HSB HB HI HF) as HQ. cbv zeta in HQ.
  destruct (ind_w L B sigma HL HSB) as [Hw _].
  destruct (ind_rho L B sigma HL HSB) as [ER R0].
  change (Rmin 1 (w / 4) = rho) in ER. change (0 < rho < 1)%R in R0.
  assert (C0 : (0 < rho * (sigma * sigma) / (600 * B))%R).
  { apply Rdiv_lt_0_compat; [|lra]. apply Rmult_lt_0_compat; [lra|]. apply Rmult_lt_0_compat; lra. }
  destruct (run_terminates P _ jac_of fn n y0 fs auxs Hn HD w HM Hrt Hat eq_refl B (rho * (sigma * sigma) / (600 * B)) q K
    ltac:(lra) C0 HLp) as (k0 & K0 & T).
  { rewrite ER. exact Hq. }
  { intros x step st Hx Hs. destruct (HQ x step st Hx Hs) as [Q1 Q2]. eapply Rle_trans; [exact Q1|].
    change (2 * sigma / (3 * (B + 50 * L / 99)) / 4)%R with rho.
    match type of Q2 with (_ * Rdot ?v _ <= ?G)%R => set (dd := Rdot v v) in *; set (gg := G) in * end.
    replace (100 * (rho * (sigma * sigma) / (600 * B)) * dd)%R with (/ 6 * (rho * (sigma * sigma * dd / B)))%R by (field; lra).
    assert (IB : (0 < / B)%R) by (apply Rinv_0_lt_compat; lra).
    assert (rho * (sigma * sigma * dd / B) <= rho * (gg / B))%R; [|lra].
    apply Rmult_le_compat_l; [lra|]. apply Rmult_le_compat_r; lra. }
  { exact HK. }
  assert (SR : forall k, says_result s fn y0 st0 (auxs fill0) k = successful).
  { intros [|k]; [reflexivity|].
    destruct (C64_indirect_levenberg_marquardt_pf RN Aux P lsolve eps fmax rfind jac_of fn y0 fs auxs st0 Hi k) as [Z1 Z2].
    destruct (nltb _ _) eqn:EL in Z1, Z2.
    - destruct (Z2 (HR _ _) eq_refl) as (stack & _ & _ & E). exact (eq_trans E (HR _ _)).
    - destruct (Z1 (or_intror eq_refl)) as [_ E]. exact (eq_trans E (HR _ _)). }
  assert (AF : forall v : list R, vallfinite (N:=RN) v = true).
  { intro v. unfold vallfinite. induction v; auto. }
  destruct (solve_succeeds (vallfinite (N:=RN)) s fn y0 st0 _ fs auxs eq_refl Hi SR (fun k => AF _) (ex_intro _ k0 T))
    as (k1 & K1 & K2 & K3).
  assert (k1 <= k0).
  { destruct (le_lt_dec k1 k0) as [?|Q]; [assumption|]. specialize (K2 _ Q).
    change (gn_terminate (st_at s fn y0 st0 (auxs fill0) k0) = false) in K2.
    pose proof (eq_trans (eq_sym T) K2). discriminate. }
  exists k1. split; [lia|]. intros fuel budget throw Hfu Hb. destruct (K3 fuel budget throw Hfu Hb) as (K4 & K5).
  eexists. split; [exact K4|]. split; [exact K5|]. split; [|reflexivity].
  unfold half_squares. apply Rmult_le_compat_l; [lra|].
  apply (C32_indirect_levenberg_marquardt_pf Aux P eps fmax lsolve rfind jac_of fn n m y0 fs auxs st0 He Hf HE
    (fun y Hy => conj (proj1 (HP y Hy)) (proj1 (proj2 (HP y Hy)))) Hn Hi 0 k1). lia.
Qed.

(** A root finder for functions G / (a + lam) - c: it reads a, G and c off the values at 1,
    2 and 3. *)
Definition rational_root (h : R -> R) : R :=
  let p := (h 1 - h 2)%R in
  let u := (2 * (h 2 - h 3) / (p - (h 2 - h 3)))%R in
  let G := (p * u * (u + 1))%R in
  if Req_EM_T p 0 then 1%R else (G / (G / u - h 1) - u + 1)%R.

Lemma rational_root_exact : forall h (a G s : R), (1 <= a)%R -> (0 < G)%R -> (0 < s < 1)%R ->
  (forall lam, (lam = 1 \/ lam = 2 \/ lam = 3)%R -> h lam = (G / (a + lam) - s * (G / a))%R) ->
  rational_root h = (a / s - a)%R.
Proof.
  intros h a G s Ha HG Hs Hh. unfold rational_root. rewrite (Hh 1%R), (Hh 2%R), (Hh 3%R) by auto.
  assert (P : (G / (a + 1) - s * (G / a) - (G / (a + 2) - s * (G / a)) = G / ((a + 1) * (a + 2)))%R) by (field; lra).
  assert (Q : (G / (a + 2) - s * (G / a) - (G / (a + 3) - s * (G / a)) = G / ((a + 2) * (a + 3)))%R) by (field; lra).
  rewrite P, Q. clear P Q.
  assert (P0 : (0 < G / ((a + 1) * (a + 2)))%R) by (apply Rdiv_lt_0_compat; nra).
  destruct (Req_EM_T _ 0) as [Z|_]; [lra|].
  assert (U : (2 * (G / ((a + 2) * (a + 3))) / (G / ((a + 1) * (a + 2)) - G / ((a + 2) * (a + 3))) = a + 1)%R).
  { assert (D : (G / ((a + 1) * (a + 2)) - G / ((a + 2) * (a + 3)) = 2 * G / ((a + 1) * (a + 2) * (a + 3)))%R) by (field; lra).
    rewrite D. field. repeat split; lra. }
  rewrite U. clear U.
  replace (G / ((a + 1) * (a + 2)) * (a + 1) * (a + 1 + 1))%R with G by (field; lra).
  replace (G / (a + 1) - (G / (a + 1) - s * (G / a)))%R with (s * (G / a))%R by ring.
  field. lra.
Qed.

Lemma Rnorm_1 : forall v : R, Rnorm [v] = Rabs v.
Proof. intro v. unfold Rnorm. cbn. rewrite Rplus_0_r. exact (sqrt_Rsqr_abs v). Qed.

Lemma hyperbola_damping : let r x := fst (hyperbola x) in let J := hyperbola_jac hyperbola in
  finds_damping (1 / 100) (33 / 596) 1 r J (fun x => Rnorm (fst (lsolve1 (J x) (r x)))) rational_root.
Proof.
  intros r J x step h Hx Hs Hh. destruct C71_terminates_ex_pf as (HP & _ & HB & _ & HI & _).
  fold r J in HP, HB, HI. destruct (HP x Hx) as (Hr & HA & _).
  specialize (HB x [1%R] Hx eq_refl). specialize (HI x [1%R] Hx eq_refl).
  pose proof HA as (L1 & L2 & L3).
  assert (E : forall a : R, op_mv (J x) [a] = Rscal a (op_mv (J x) [1%R])).
  { intro b. rewrite <- (L3 b [1%R] eq_refl). cbn. rewrite Rmult_1_r. reflexivity. }
  pose proof (L1 [1%R] eq_refl) as Lc. unfold lsolve1 in Hh |- *. cbn [fst] in Hh |- *.
  set (c := op_mv (J x) [1%R] : list R) in *. set (a := Rdot c c) in *. set (g := Rdot c (r x)) in *.
  change (a <= 2 * (1 * 1 + 0))%R in HB. change (1 * (1 * 1 + 0) <= a)%R in HI.
  rewrite Rnorm_1 in *. destruct (Req_EM_T a 0) as [Z|_]; [lra|].
  assert (AG : Rabs (g / a) = (Rabs g / a)%R) by (unfold Rdiv; rewrite Rabs_mult, (Rabs_pos_eq (/ a)); [reflexivity|apply Rlt_le, Rinv_0_lt_compat; lra]).
  rewrite AG in *. clear AG.
  assert (H : forall lam, (0 < lam)%R -> (1 / 100 * lam < 1)%R -> h lam = (Rabs g / (a + lam) - step * (Rabs g / a))%R).
  { intros lam H1 H2. destruct (Hh lam H1 H2) as (z & Lz & M & ->).
    destruct z as [|z [|? ?]]; try discriminate Lz. rewrite Rnorm_1. f_equal.
    destruct (damped_minimiser 1 2 (J x) (r x) lam HA Hr H1 [z] eq_refl) as [N _].
    { intros v Lv. destruct (list_eq_dec Req_EM_T v [z]) as [->|NE]; [lra|]. apply Rlt_le, M; assumption. }
    specialize (N [1%R] eq_refl). rewrite E in N. fold c in N.
    rewrite Rdot_add_l in N by (rewrite Rscal_length; congruence). rewrite Rdot_scal_l in N. fold a in N.
    rewrite (Rdot_comm (r x)) in N. fold g in N. change (z * a + g + lam * (z * 1 + 0) = 0)%R in N.
    assert (AL : (a + lam <> 0)%R) by lra.
    assert (EZ : z = (- g / (a + lam))%R).
    { apply (Rmult_eq_reg_r (a + lam)); [|exact AL]. replace (- g / (a + lam) * (a + lam))%R with (- g)%R by (field; exact AL). lra. }
    rewrite EZ. unfold Rdiv. rewrite Rabs_mult, Rabs_Ropp, (Rabs_pos_eq (/ (a + lam))); [reflexivity|].
    apply Rlt_le, Rinv_0_lt_compat. lra. }
  destruct (Req_EM_T g 0) as [Z|NZ].
  - assert (h0 : forall lam, (0 < lam)%R -> (1 / 100 * lam < 1)%R -> h lam = 0%R).
    { intros lam H1 H2. rewrite (H lam H1 H2), Z, Rabs_R0. unfold Rdiv. ring. }
    assert (RR : rational_root h = 1%R).
    { unfold rational_root. rewrite (h0 1%R), (h0 2%R) by lra. destruct (Req_EM_T _ 0); lra. }
    rewrite RR, (h0 1%R), Z, Rabs_R0 by lra. unfold Rdiv. lra.
  - assert (G0 : (0 < Rabs g)%R) by (apply Rabs_pos_lt; exact NZ).
    assert (RR : rational_root h = (a / step - a)%R).
    { apply (rational_root_exact h a (Rabs g) step); [lra|exact G0|lra|].
      intros lam [-> | [-> | ->]]; apply H; lra. }
    assert (S1 : (1 < / step)%R) by (rewrite <- Rinv_1; apply Rinv_lt_contravar; lra).
    assert (S2 : (/ step <= 596 / 33)%R).
    { replace (596 / 33)%R with (/ (33 / 596))%R by (field; lra). apply Rinv_le_contravar; lra. }
    assert (B1 : (0 < a / step - a)%R) by (unfold Rdiv; nra).
    assert (B2 : (1 / 100 * (a / step - a) < 1)%R) by (unfold Rdiv; nra).
    rewrite RR. split; [exact B1|]. split; [exact B2|]. rewrite (H _ B1 B2).
    replace (Rabs g / (a + (a / step - a)) - step * (Rabs g / a))%R with 0%R by (field; lra).
    rewrite Rabs_R0. apply Rmult_le_pos; [lra|]. apply Rmult_le_pos; [lra|]. apply Rmult_le_pos; [lra|]. apply Rlt_le, Rinv_0_lt_compat. lra.
Qed.

(** The hyperbola of C71 (L = 2, B = 2, sigma = 1, so w = 33/149 and rho = 33/596) from x = 2,
    with a root finder that solves the inner problem exactly. *)
Example C82_terminates_ex_pf :
  let r x := fst (hyperbola x) in let J := hyperbola_jac hyperbola in
  residual_problem 1 2 r J /\ smooth 1 2 (half_squares r) (ls_gradient r J) /\
  jac_bounded 1 2 J /\ residual_lipschitz 1 2 r /\ jac_injective 1 1 J /\
  finds_damping (1 / 100) (33 / 596) 1 r J (fun x => Rnorm (fst (lsolve1 (J x) (r x)))) rational_root /\
  let s := IndirectLevenbergMarquardt (N:=RN) (mkTols (N:=RN) (1/10)%R 1%R max_norm) hyperbola_jac lsolve1 (1/100)%R 1000%R rational_root in
  exists k, k <= 2 * Z.to_nat 200000 + 2 + 3 /\
    forall fuel budget throw, k < fuel -> (forall j, budget = Some j -> k <= j) ->
      exists sol, iterative_solve (vallfinite (N:=RN)) s hyperbola fuel budget throw [2%R] (fun _ => [0; 0]%R) (fun _ => tt) = Ret sol /\
        result sol = successful.
Proof.
  intros r J. destruct C71_terminates_ex_pf as (HP & HS & HB & HLp & HI & _).
  split; [exact HP|]. split; [exact HS|]. split; [exact HB|]. split; [exact HLp|]. split; [exact HI|].
  split; [exact hyperbola_damping|]. intro s.
  assert (RH : (2 * 1 / (3 * (2 + 50 * 2 / 99)) / 4 = 33 / 596)%R) by field.
  assert (EF : half_squares (fun x => fst (hyperbola x)) [2%R] = (9 / 2)%R).
  { unfold half_squares. cbn. destruct (hyp_pos 2) as [_ E]. lra. }
  destruct (C82_terminates_pf unit (1/10) 1 (1/100) 1000 lsolve1 rational_root hyperbola_jac hyperbola 1 2 2 2 1 [2%R] (fun _ => [0; 0]%R) (fun _ => tt)
    3 (Z.to_nat 200000) ltac:(lra) ltac:(lra) (proj1 C32_levenberg_marquardt_ex_pf) (fun _ _ => eq_refl) HP ltac:(lra) HS
    ltac:(lra) HB HI HLp eq_refl ltac:(lra) ltac:(lra)) as (k & K1 & K2).
  - rewrite RH. exact hyperbola_damping.
  - rewrite RH. cbn. lra.
  - rewrite RH, EF.
    rewrite Rmin_right by lra. replace (INR (Z.to_nat 200000)) with 200000%R; [lra|]. rewrite INR_IZR_INZ, Z2Nat.id by lia. reflexivity.
  - exists k. split; [exact K1|]. intros fuel budget throw H1 H2. destruct (K2 fuel budget throw H1 H2) as (sol & E1 & E2 & _). eauto.
Qed.
