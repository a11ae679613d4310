(** Local superlinear convergence of Levenberg-Marquardt (C101). *)

From Coq Require Import String List Bool Arith Lia ZArith QArith Qreals Reals Lra Psatz.
From Verif Require Import Num NumFacts Vec Results Iterate Spec_Iterate Iterate_proofs.
From Verif Require Import Spec_Vec VecFacts Spec_Lin LinFacts.
From Verif Require Import Search Spec_Search Descent Minimisers Solvers Minimisers_proofs.
From Verif Require Import TrustRegion_proofs LeastSquares_proofs Dogleg_proofs Spec_Steps Steps_proofs Spec_Convergence Convergence_proofs.
From Verif Require Import GaussNewton_proofs DoglegConv_proofs IndirectConv_proofs GaussNewtonConv_proofs Spec_Rates Rates_proofs.
Import ListNotations.
Local Open Scope nat_scope.

(** ** Norms *)

Lemma Rnorm_dot : forall a b : list R, length a = length b -> (Rabs (Rdot a b) <= Rnorm a * Rnorm b)%R.
Proof.
  intros a b L. pose proof (Rdot_CS a b L) as C. rewrite <- !Rnorm_sq in C.
  pose proof (Rnorm_pos a). pose proof (Rnorm_pos b). assert (0 <= Rnorm a * Rnorm b)%R by (apply Rmult_le_pos; assumption).
  apply Rsqr_incr_0_var; [|assumption]. rewrite <- Rsqr_abs. unfold Rsqr. lra.
Qed.

Lemma Rnorm_add : forall a b : list R, length a = length b -> (Rnorm (Radd_v a b) <= Rnorm a + Rnorm b)%R.
Proof.
  intros a b L. pose proof (Rnorm_pos a). pose proof (Rnorm_pos b). apply Rnorm_le; [lra|].
  rewrite sq_add by exact L. pose proof (Rnorm_dot a b L) as C. pose proof (Rle_abs (Rdot a b)).
  rewrite <- (Rnorm_sq a), <- (Rnorm_sq b). nra.
Qed.

Lemma Rnorm_bound : forall (v u : list R) b, (0 <= b)%R -> (Rdot v v <= b * b * Rdot u u)%R -> (Rnorm v <= b * Rnorm u)%R.
Proof.
  intros v u b Hb H. apply Rnorm_le; [apply Rmult_le_pos; [exact Hb|apply Rnorm_pos]|].
  rewrite <- (Rnorm_sq u) in H. lra.
Qed.

Lemma Rnorm_0 : forall v : list R, Rnorm v = 0%R -> v = zerov (length v).
Proof.
  intros v H. pose proof (Rnorm_sq v) as S. rewrite H, Rmult_0_l in S. symmetry in S. clear H.
  induction v as [|x v IH]; [reflexivity|]. cbn [Rdot] in S. pose proof (Rdot_pos v). assert (0 <= x * x)%R by apply Rle_0_sqr.
  cbn [length]. unfold zerov. cbn [repeat]. f_equal; [apply Rsqr_0_uniq; unfold Rsqr; lra|]. apply IH. lra.
Qed.

(** ** Vector identities *)

Lemma neg_diff : forall a c : list R, length a = length c -> Rsub_v (Rsub_v (zerov (length a)) a) (Rscal (-1) c) = Rscal (-1) (Rsub_v a c).
Proof.
  induction a as [|x a IH]; intros [|y c] H; try discriminate; [reflexivity|].
  cbn. f_equal; [ring|]. apply IH. apply eq_add_S. exact H.
Qed.
Lemma swap_sub : forall a b : list R, length a = length b -> Rsub_v b a = Rscal (-1) (Rsub_v a b).
Proof.
  induction a as [|x a IH]; intros [|y b] H; try discriminate; [reflexivity|].
  cbn. f_equal; [ring|]. apply IH. apply eq_add_S. exact H.
Qed.
Lemma regroup : forall u v w : list R, length u = length v -> length w = length v ->
  Radd_v v w = Radd_v (Radd_v u v) (Rsub_v w u).
Proof.
  induction u as [|x u IH]; intros [|y v] [|z w] H1 H2; try discriminate; [reflexivity|].
  cbn. f_equal; [ring|]. apply IH; apply eq_add_S; assumption.
Qed.
Lemma add_sub_comm : forall x d c : list R, length x = length d -> length c = length d ->
  Rsub_v (Radd_v x d) c = Radd_v (Rsub_v x c) d.
Proof.
  induction x as [|a x IH]; intros [|b d] [|c' c] H1 H2; try discriminate; [reflexivity|].
  cbn. f_equal; [ring|]. apply IH; apply eq_add_S; assumption.
Qed.
Lemma add_back : forall r' r u : list R, length r' = length r -> length u = length r ->
  r' = Radd_v (Radd_v u r) (Rsub_v (Rsub_v r' r) u).
Proof.
  induction r' as [|a r' IH]; intros [|b r] [|c u] H1 H2; try discriminate; [reflexivity|].
  cbn. f_equal; [ring|]. apply IH; apply eq_add_S; assumption.
Qed.
Lemma sub_same : forall x d : list R, length x = length d -> Rsub_v (Radd_v x d) x = d.
Proof. intros x d H. rewrite <- vsub_RN, <- vadd_RN. apply vsub_vadd. symmetry. exact H. Qed.
Lemma zero_diff : forall n (x : list R), length x = n -> Rsub_v x x = zerov n.
Proof. intros n x <-. induction x as [|a x IH]; [reflexivity|]. cbn. unfold zerov. cbn [repeat]. f_equal; [ring|exact IH]. Qed.
Lemma sub_zero : forall a b : list R, length a = length b -> Rsub_v a b = zerov (length a) -> a = b.
Proof.
  induction a as [|x a IH]; intros [|y b] H E; try discriminate; [reflexivity|].
  cbn in E. unfold zerov in E. cbn [repeat] in E. injection E as E1 E2. f_equal; [lra|]. apply IH; [apply eq_add_S; exact H|exact E2].
Qed.

(** ** One step near a zero *)
Section OneStep.
  Local Open Scope R_scope.
  Variables (n m : nat) (r : list R -> list R) (J : list R -> linop RN) (root : list R) (sigma b gamma rho : R).
  Let near x := length x = n /\ Rnorm (Rsub_v x root) <= rho.
  Hypothesis HP : residual_problem n m r J.
  Hypothesis Lroot : length root = n.
  Hypothesis Hroot : r root = zerov m.
  Hypothesis S0 : 0 < sigma.
  Hypothesis b0 : 0 <= b.
  Hypothesis g0 : 0 <= gamma.
  Hypothesis HJ : forall x v, near x -> length v = n ->
    sigma * Rdot v v <= Rdot (op_mv (J x) v) (op_mv (J x) v) /\ Rdot (op_mv (J x) v) (op_mv (J x) v) <= b * b * Rdot v v.
  Hypothesis HL : forall x x', near x -> near x' ->
    Rnorm (Rsub_v (Rsub_v (r x') (r x)) (op_mv (J x) (Rsub_v x' x))) <= gamma * Rdot (Rsub_v x' x) (Rsub_v x' x).
  Hypothesis Hsmall : b * gamma * rho + 3 * (gamma * rho) * (gamma * rho) < sigma / 200.
  Variables (x d : list R) (lam : R).
  Hypothesis Hx : near x.
  Hypothesis Hlam : 0 <= lam.
  Hypothesis Ld : length d = n.
  (* the normal equations of the (damped) linear least-squares problem *)
  Hypothesis HZ : forall v, length v = n -> Rdot (Radd_v (op_mv (J x) d) (r x)) (op_mv (J x) v) + lam * Rdot d v = 0.
  Let e := Rnorm (Rsub_v x root).
  Let e' := Rnorm (Rsub_v (Radd_v x d) root).

  Lemma os_rho : 0 <= rho.
  Proof. destruct Hx as (_ & H). pose proof (Rnorm_pos (Rsub_v x root)). lra. Qed.
  Lemma os_root : near root.
  Proof. split; [exact Lroot|]. rewrite (zero_diff n root Lroot), Rnorm_zero. exact os_rho. Qed.

  Lemma os_h : Rnorm (Rsub_v (r x) (op_mv (J x) (Rsub_v x root))) <= gamma * (e * e).
  Proof.
    destruct Hx as (Lx & _). destruct (HP x Lx) as (Lr & (L1 & L2 & L3) & _).
    pose proof (HL x root Hx os_root) as H. rewrite Hroot in H.
    rewrite (swap_sub x root) in H by congruence.
    assert (LE : length (Rsub_v x root) = n) by (apply Rsub_v_length; assumption).
    rewrite L3 in H by exact LE. rewrite <- Lr in H at 1. rewrite neg_diff in H by (rewrite L1 by exact LE; exact Lr).
    rewrite Rnorm_neg in H. unfold e. rewrite Rnorm_sq.
    replace (Rdot (Rscal (-1) (Rsub_v x root)) (Rscal (-1) (Rsub_v x root))) with (Rdot (Rsub_v x root) (Rsub_v x root)) in H
      by (rewrite Rdot_scal_l, Rdot_scal_r; ring). exact H.
  Qed.

  Lemma os_E : length (Rsub_v x root) = n /\ Rsub_v (Radd_v x d) root = Radd_v (Rsub_v x root) d /\ length (Rsub_v (Radd_v x d) root) = n.
  Proof.
    destruct Hx as (Lx & _). split; [apply Rsub_v_length; assumption|]. split; [apply add_sub_comm; congruence|].
    apply Rsub_v_length; [apply Radd_v_length; assumption|exact Lroot].
  Qed.

  (* residual of the linearised problem at the new point *)
  Lemma os_w : Radd_v (op_mv (J x) d) (r x) =
    Radd_v (op_mv (J x) (Rsub_v (Radd_v x d) root)) (Rsub_v (r x) (op_mv (J x) (Rsub_v x root))).
  Proof.
    destruct os_E as (LE & EE & LE'). destruct Hx as (Lx & _). destruct (HP x Lx) as (Lr & (L1 & L2 & _) & _).
    rewrite EE, L2 by assumption. apply regroup; rewrite ?L1 by assumption; auto.
  Qed.

  Lemma os_contract : (sigma + lam) * e' <= (lam + b * gamma * e) * e.
  Proof.
    destruct os_E as (LE & EE & LE'). pose proof Hx as (Lx & _). destruct (HP x Lx) as (Lr & HA & HT). pose proof HA as (L1 & L2 & _).
    set (E := Rsub_v x root) in *. set (E' := Rsub_v (Radd_v x d) root) in *. set (A := J x) in *.
    set (h := Rsub_v (r x) (op_mv A E)). assert (Lh : length h = m) by (apply Rsub_v_length; [exact Lr|apply L1; exact LE]).
    pose proof (HZ E' LE') as Z. fold A in Z.
    unfold A in Z at 1. rewrite os_w in Z. fold A E E' h in Z.
    rewrite Rdot_add_l in Z by (rewrite L1 by exact LE'; auto).
    assert (Dd : Rdot d E' = Rdot E' E' - Rdot E E').
    { rewrite EE at 2. rewrite Rdot_add_l by congruence. lra. }
    rewrite Dd in Z. destruct (HJ x E' Hx LE') as (J1 & J2). fold A in J1, J2.
    pose proof (Rnorm_bound _ _ b b0 J2) as J3. fold e' in J3.
    pose proof os_h as Hh. fold E A in Hh. fold h in Hh.
    assert (C1 := Rnorm_dot h (op_mv A E') ltac:(rewrite L1 by exact LE'; exact Lh)).
    assert (C2 := Rnorm_dot E E' ltac:(congruence)). fold e e' in C2.
    assert (e0 : 0 <= e) by apply Rnorm_pos. assert (e0' : 0 <= e') by apply Rnorm_pos.
    assert (C3 : Rnorm h * Rnorm (op_mv A E') <= gamma * (e * e) * (b * e')) by (apply Rmult_le_compat; try apply Rnorm_pos; assumption).
    assert (Q : sigma * (e' * e') + lam * (e' * e') <= gamma * (e * e) * (b * e') + lam * (e * e')).
    { pose proof Hlam as l0. rewrite <- (Rnorm_sq E') in J1, Z. fold e' in J1, Z.
      assert (A1 := Rle_abs (- Rdot h (op_mv A E'))). rewrite Rabs_Ropp in A1.
      assert (A2 := Rle_abs (Rdot E E')). assert (A3 : lam * Rdot E E' <= lam * (e * e')) by (apply Rmult_le_compat_l; lra). lra. }
    destruct (Rle_lt_or_eq_dec 0 e' e0') as [e1|e1].
    - apply (Rmult_le_reg_r e'); [exact e1|]. lra.
    - rewrite <- e1, Rmult_0_r. apply Rmult_le_pos; [|exact e0]. pose proof Hlam as l0. assert (0 <= b * gamma * e) by (repeat apply Rmult_le_pos; assumption). lra.
  Qed.

  Lemma os_closer : e' <= e /\ near (Radd_v x d).
  Proof.
    pose proof os_contract as C. pose proof Hlam as l0. destruct Hx as (Lx & Dx). fold e in Dx.
    assert (e0 : 0 <= e) by apply Rnorm_pos. assert (e0' : 0 <= e') by apply Rnorm_pos. pose proof os_rho as R0.
    assert (b * gamma * e <= b * gamma * rho) by (apply Rmult_le_compat_l; [apply Rmult_le_pos; assumption|exact Dx]).
    assert (GG : 0 <= (gamma * rho) * (gamma * rho)) by apply Rle_0_sqr.
    assert ((lam + b * gamma * e) * e <= (lam + sigma) * e) by (apply Rmult_le_compat_r; lra).
    assert (e' <= e) by (apply (Rmult_le_reg_l (sigma + lam)); lra).
    split; [assumption|]. split; [apply Radd_v_length; assumption|]. fold e'. lra.
  Qed.

  Lemma os_d : Rnorm d <= e + e'.
  Proof.
    destruct os_E as (LE & EE & LE'). destruct Hx as (Lx & _).
    assert (Ed : d = Radd_v (Rsub_v (Radd_v x d) root) (Rscal (-1) (Rsub_v x root))).
    { rewrite <- Rsub_add by congruence. rewrite EE. symmetry. apply sub_same. congruence. }
    rewrite Ed. eapply Rle_trans; [apply Rnorm_add; rewrite Rscal_length; congruence|]. rewrite Rnorm_neg. unfold e, e'. lra.
  Qed.

  Lemma os_change :
    let change := half_squares r (Radd_v x d) - half_squares r x in
    let pred : R := classical_predict (N:=RN) d (ResidualJac (N:=RN) (r x) (J x)) in
    change <= 1 / 100 * pred /\ pred <= 0 /\ (0 < Rdot d d -> change < 99 / 100 * pred /\ pred < 0).
  Proof.
    intros change pred. destruct os_E as (LE & EE & LE'). pose proof Hx as (Lx & Dx). destruct (HP x Lx) as (Lr & HA & HT). pose proof HA as (L1 & L2 & _).
    destruct os_closer as (C1 & C2). pose proof C2 as (Lx' & _). destruct (HP _ Lx') as (Lr' & _).
    assert (SP : pred = - / 2 * Rdot (op_mv (J x) d) (op_mv (J x) d) - lam * Rdot d d).
    { pose proof (HZ d Ld) as Z. rewrite Rdot_add_l in Z by (rewrite L1 by exact Ld; auto).
      unfold pred. rewrite (predict_ls n m) by assumption. rewrite (Rdot_comm (op_mv (J x) d) (r x)). lra. }
    pose proof (HL x (Radd_v x d) Hx C2) as H. rewrite (sub_same x d) in H by congruence.
    set (A := J x) in *. set (h' := Rsub_v (Rsub_v (r (Radd_v x d)) (r x)) (op_mv A d)) in *.
    assert (Lh' : length h' = m) by (apply Rsub_v_length; [apply Rsub_v_length; assumption|apply L1; exact Ld]).
    set (w := Radd_v (op_mv A d) (r x)). assert (Lw : length w = m) by (apply Radd_v_length; [apply L1; exact Ld|exact Lr]).
    assert (Er : r (Radd_v x d) = Radd_v w h') by (apply add_back; rewrite ?L1 by exact Ld; congruence).
    assert (EC : change = pred + (Rdot w h' + / 2 * Rdot h' h')).
    { unfold change, half_squares. rewrite Er, sq_add by congruence. unfold w at 1 2. rewrite sq_add by (rewrite L1 by exact Ld; auto).
      unfold pred. rewrite (predict_ls n m) by assumption. lra. }
    assert (Nw : Rnorm w <= b * e' + gamma * (e * e)).
    { unfold w, A. rewrite os_w. eapply Rle_trans; [apply Rnorm_add; rewrite Rsub_v_length with (n:=m); [apply L1; exact LE'|exact Lr|apply L1; exact LE]|].
      apply Rplus_le_compat; [|exact os_h]. apply Rnorm_bound; [exact b0|]. apply (HJ x _ Hx LE'). }
    set (D := Rnorm d) in *. assert (D0 : 0 <= D) by apply Rnorm_pos. rewrite <- (Rnorm_sq d) in H, SP |- *. fold D in H, SP |- *.
    pose proof os_d as Dle. fold D in Dle. fold e in Dx. assert (e0 : 0 <= e) by apply Rnorm_pos. assert (e0' : 0 <= e') by apply Rnorm_pos.
    assert (P1 := Rnorm_dot w h' ltac:(congruence)). assert (P2 := Rle_abs (Rdot w h')).
    pose proof (Rnorm_pos h') as h0. pose proof (Rnorm_pos w) as w0. rewrite <- (Rnorm_sq h') in EC.
    assert (W : Rnorm w <= b * rho + gamma * (rho * rho)).
    { assert (b * e' <= b * rho) by (apply Rmult_le_compat_l; lra). assert (e * e <= rho * rho) by nra.
      assert (gamma * (e * e) <= gamma * (rho * rho)) by (apply Rmult_le_compat_l; lra). lra. }
    pose proof os_rho as R0. assert (DD : 0 <= D * D) by (apply Rle_0_sqr).
    assert (gD : 0 <= gamma * (D * D)) by (apply Rmult_le_pos; assumption).
    assert (T1 : Rnorm w * Rnorm h' <= (b * rho + gamma * (rho * rho)) * (gamma * (D * D))) by (apply Rmult_le_compat; assumption).
    assert (T2 : Rnorm h' * Rnorm h' <= gamma * (D * D) * (gamma * (4 * (rho * rho)))).
    { apply Rmult_le_compat; try assumption. eapply Rle_trans; [exact H|]. apply Rmult_le_compat_l; [exact g0|]. nra. }
    assert (T3 : Rdot w h' + / 2 * (Rnorm h' * Rnorm h') <= (b * gamma * rho + 3 * (gamma * rho) * (gamma * rho)) * (D * D)).
    { replace ((b * gamma * rho + 3 * (gamma * rho) * (gamma * rho)) * (D * D)) with
        ((b * rho + gamma * (rho * rho)) * (gamma * (D * D)) + / 2 * (gamma * (D * D) * (gamma * (4 * (rho * rho))))) by field. lra. }
    destruct (HJ x d Hx Ld) as (J1 & _). fold A in J1. rewrite <- (Rnorm_sq d) in J1. fold D in J1.
    assert (LD : 0 <= lam * (D * D)) by (apply Rmult_le_pos; [exact Hlam|exact DD]).
    assert (SD : 0 <= sigma * (D * D)) by (apply Rmult_le_pos; lra).
    assert (T4 : (b * gamma * rho + 3 * (gamma * rho) * (gamma * rho)) * (D * D) <= sigma / 200 * (D * D)) by (apply Rmult_le_compat_r; lra).
    split; [lra|]. split; [lra|]. intro DP.
    assert (T5 : (b * gamma * rho + 3 * (gamma * rho) * (gamma * rho)) * (D * D) < sigma / 200 * (D * D)) by (apply Rmult_lt_compat_r; lra).
    assert (SD' : 0 < sigma * (D * D)) by (apply Rmult_lt_0_compat; lra). split; lra.
  Qed.
End OneStep.

(** ** The radius on good steps *)
Section Grow.
  Context {Aux : Type}.
  Variables (P : ar_tols RN) (descent : Descent RN).
  Variable jac_of : (list R -> list R * Aux) -> list R -> linop RN.
  Variable fn : list R -> list R * Aux.
  Variables (n : nat) (y0 : list R) (fs : fillv -> list R) (auxs : fillv -> Aux).
  Let r (x : list R) : list R := fst (fn x).
  Let J (x : list R) : linop RN := jac_of fn x.
  Let search := classical_trust_region (N:=RN) tr_default.
  Let s := gauss_newton_solver (N:=RN) P search descent jac_of.
  Let st0 := gn_st0 (N:=RN) search descent y0 fs auxs.
  Let Yk : nat -> list R := y_at s fn y0 st0 (auxs fill0).
  Let Sk := st_at s fn y0 st0 (auxs fill0).
  Let radius (k : nat) : R := gn_search_state (Sk k).
  Let f := half_squares r.
  Let info (x : list R) := ResidualJac (N:=RN) (r x) (J x).

  Lemma lm_good : forall k (d : list R), length (Yk (S k)) = n -> length d = n -> gn_y_eval (Sk (S k)) = Radd_v (Yk (S k)) d ->
    let change := (f (Radd_v (Yk (S k)) d) - f (Yk (S k)))%R in
    let pred : R := classical_predict (N:=RN) d (info (Yk (S k))) in
    (change < 99 / 100 * pred)%R -> (pred < 0)%R -> radius (S (S k)) = (7 / 2 * radius (S k))%R.
  Proof.
    intros k d I1 D1 Ey change pred Hg Hp.
    assert (HA1 : accepts_first search) by exact (proj1 (proj2 (accepts_first_builtin RN)) (tr_default (N:=RN))).
    destruct (gn_first (N:=RN) P search descent jac_of fn y0 fs auxs HA1 (S k)) as [F1 F2].
    destruct (F2 (Nat.lt_0_succ k)) as [Ff _].
    destruct (gn_step_cases _ _ _ _ _ _ _ _ _ _ (gn_trace_S (N:=RN) P search descent jac_of fn y0 fs auxs (S k)))
      as (step & ac & sr & sst & Es & E1 & E2 & E3 & E4 & E6 & E5).
    change (radius (S (S k)) = sst) in E2.
    replace (gn_first_step _) with false in Es
      by (symmetry; apply not_true_iff_false; intro F; apply F1 in F; discriminate).
    rewrite Ff in Es.
    assert (Es' : se_step search false (Yk (S k)) (Radd_v (Yk (S k)) d) (info (Yk (S k)))
       (info (Radd_v (Yk (S k)) d)) (radius (S k)) = (step, ac, sr, sst)).
    { rewrite <- Ey. exact Es. }
    clear Es. unfold search in Es'. set (TD := tr_default (N:=RN)) in Es'.
    assert (LC : tr_low_cutoff TD = (1 / 100)%R) by (unfold TD; cbn; unfold Q2R; cbn; lra).
    assert (HH : tr_high_cutoff TD = (99 / 100)%R) by (unfold TD; cbn; unfold Q2R; cbn; lra).
    assert (HC : tr_high_constant TD = (7 / 2)%R) by (unfold TD; cbn; unfold Q2R; cbn; lra).
    clearbody TD. cbn [se_step classical_trust_region] in Es'. unfold tr_step in Es'. cbv zeta in Es'.
    rewrite <- (vadd_RN (Yk (S k)) d) in Es'. rewrite vsub_vadd in Es' by (exact (eq_trans D1 (eq_sym I1))).
    rewrite vadd_RN in Es'.
    assert (Ef : forall x, as_min (N:=RN) (info x) = f x).
    { intro x. unfold info. cbn [as_min]. rewrite sum_squares_RN. cbn [nofQ nmul RN]. rewrite Q2R_half. reflexivity. }
    rewrite !Ef in Es'. rewrite LC, HH, HC in Es'.
    injection Es' as _ _ _ Q4.
    change (nsub (n:=RN) (f (Radd_v (Yk (S k)) d)) (f (Yk (S k)))) with change in Q4.
    change (classical_predict (N:=RN) d (info (Yk (S k)))) with pred in Q4.
    rewrite orb_false_r in Q4. cbn [negb] in Q4. rewrite andb_true_r in Q4.
    assert (B1 : nleb (n:=RN) change (nmul (n:=RN) (1 / 100)%R pred) = true) by (apply Rleb_true; change (change <= 1 / 100 * pred)%R; lra).
    assert (B2 : nltb (n:=RN) change (nmul (n:=RN) (99 / 100)%R pred) = true) by (apply Rltb_true; exact Hg).
    assert (B3 : nltb (n:=RN) pred (nofQ (n:=RN) 0) = true) by (apply Rltb_true; change (pred < Q2R 0)%R; rewrite Q2R_0; exact Hp).
    rewrite E2, <- Q4. clear - B1 B2 B3.
    match goal with |- Rmult (if ?a then (if ?c then _ else _) else _) _ = _ => replace a with true by (symmetry; exact B1); replace c with true by (symmetry; apply andb_true_intro; split; [exact B2|exact B3]) end.
    reflexivity.
  Qed.
End Grow.

(** ** The iteration *)
Section Local.
  Local Open Scope R_scope.
  Context {Aux : Type}.
  Variables (P : ar_tols RN) (eps fmax : R) (lsolve : linop RN -> list R -> list R * results).
  Variable jac_of : (list R -> list R * Aux) -> list R -> linop RN.
  Variable fn : list R -> list R * Aux.
  Variables (n m : nat) (y0 root : list R) (fs : fillv -> list R) (auxs : fillv -> Aux) (sigma b gamma rho : R).
  Let r (x : list R) : list R := fst (fn x).
  Let J (x : list R) : linop RN := jac_of fn x.
  Let near x := length x = n /\ Rnorm (Rsub_v x root) <= rho.
  Hypothesis He : 0 <= eps.
  Hypothesis Hf : 0 < fmax.
  Hypothesis HE : exact_least_squares n lsolve.
  Hypothesis HP : residual_problem n m r J.
  Hypothesis Lroot : length root = n.
  Hypothesis Hroot : r root = zerov m.
  Hypothesis S0 : 0 < sigma.
  Hypothesis b0 : 0 <= b.
  Hypothesis g0 : 0 <= gamma.
  Hypothesis HJ : forall x v, near x -> length v = n ->
    sigma * Rdot v v <= Rdot (op_mv (J x) v) (op_mv (J x) v) /\ Rdot (op_mv (J x) v) (op_mv (J x) v) <= b * b * Rdot v v.
  Hypothesis HL : forall x x', near x -> near x' ->
    Rnorm (Rsub_v (Rsub_v (r x') (r x)) (op_mv (J x) (Rsub_v x' x))) <= gamma * Rdot (Rsub_v x' x) (Rsub_v x' x).
  Hypothesis Hsmall : b * gamma * rho + 3 * (gamma * rho) * (gamma * rho) < sigma / 200.
  Hypothesis Ly0 : length y0 = n.
  Variable j0 : nat.
  Let descent := damped_newton_descent (N:=RN) lsolve eps fmax.
  Let search := classical_trust_region (N:=RN) tr_default.
  Let s := gauss_newton_solver (N:=RN) P search descent jac_of.
  Let st0 := gn_st0 (N:=RN) search descent y0 fs auxs.
  Let Y (k : nat) : list R := y_at s fn y0 st0 (auxs fill0) (S (j0 + k)).
  Let Sk k := st_at s fn y0 st0 (auxs fill0) (S (j0 + k)).
  Let radius (k : nat) : R := gn_search_state (Sk k).
  Let acc (k : nat) : nat := gn_num_accepted_steps (Sk k).
  Let e k := Rnorm (Rsub_v (Y k) root).
  (* an iterate close to the root *)
  Hypothesis Hy0 : near (Y 0).
  Hypothesis HR0 : eps < radius 0.
  Let q := (/ radius 0 + b * gamma * rho) / (/ radius 0 + sigma).

  Lemma ll_S : forall k, S (S (j0 + k)) = S (j0 + S k).
  Proof. intro k. rewrite Nat.add_succ_r. reflexivity. Qed.

  Lemma ll_step : forall k, near (Y k) -> radius 0 <= radius k ->
    (sigma + / radius k) * e (S k) <= (/ radius k + b * gamma * e k) * e k /\
    near (Y (S k)) /\ acc (S k) = S (acc k) /\ radius 0 <= radius (S k) /\
    (radius (S k) = 7 / 2 * radius k \/ Y (S k) = Y k) /\
    e (S k) <= e k /\
    gn_terminate (Sk (S k)) = cauchy_termination (N:=RN) (ar_rtol P) (ar_atol P) (ar_norm P)
       (Y (S k)) (Rsub_v (Y (S k)) (Y k)) (r (Y (S k))) (Rsub_v (r (Y (S k))) (r (Y k))) /\
    Rnorm (Rsub_v (Y (S k)) (Y k)) <= e k + e (S k).
  Proof.
    intros k HN HR. pose proof HN as (LY & DY). assert (R0 : 0 < radius k) by lra.
    destruct (lm_step P eps fmax lsolve jac_of fn n m y0 fs auxs He Hf HE HP Ly0 (j0 + k)) as (d & Ld & HD & EY & X).
    { change (eps < radius k). lra. }
    change (forall w, length w = n -> damped_loss (J (Y k)) (r (Y k)) (/ radius k) d <= damped_loss (J (Y k)) (r (Y k)) (/ radius k) w) in HD.
    assert (l0 : 0 < / radius k) by (apply Rinv_0_lt_compat; exact R0).
    destruct (HP _ LY) as (Lr & HA & _). destruct (damped_minimiser n m (J (Y k)) (r (Y k)) (/ radius k) HA Lr l0 d Ld HD) as [HZ _].
    assert (l1 : 0 <= / radius k) by lra.
    destruct (os_change n m r J root sigma b gamma rho HP Lroot Hroot S0 b0 g0 HJ HL Hsmall (Y k) d (/ radius k) HN l1 Ld HZ) as (C1 & C2 & C3).
    pose proof (os_contract n m r J root sigma b gamma rho HP Lroot Hroot b0 g0 HJ HL (Y k) d (/ radius k) HN l1 Ld HZ) as C4.
    pose proof (os_closer n m r J root sigma b gamma rho HP Lroot Hroot S0 b0 g0 HJ HL Hsmall (Y k) d (/ radius k) HN l1 Ld HZ) as (C5 & C6).
    pose proof (os_d n root rho Lroot (Y k) d HN Ld) as C7.
    cbv zeta in X. rewrite (ll_S k) in X. destruct X as [(_ & Y1 & A1 & R1 & T1)|(C & _)].
    2:{ exfalso. revert C. apply Rle_not_lt. exact C1. }
    change (Y (S k) = Radd_v (Y k) d) in Y1. change (acc (S k) = S (acc k)) in A1.
    change (radius (S k) = radius k \/ radius (S k) = 7 / 2 * radius k) in R1.
    assert (ES : e (S k) = Rnorm (Rsub_v (Radd_v (Y k) d) root)) by (unfold e; rewrite Y1; reflexivity).
    rewrite ES. split; [exact C4|]. rewrite Y1. split; [exact C6|]. split; [exact A1|].
    split; [destruct R1 as [R1|R1]; rewrite R1; lra|]. split; [|split; [exact C5|split]].
    - pose proof (Rdot_pos d) as D0. destruct (Rle_lt_or_eq_dec 0 _ D0) as [D1|D1].
      + left. destruct (C3 D1) as (G1 & G2). exact (eq_trans (f_equal _ (eq_sym (ll_S k))) (lm_good P descent jac_of fn n y0 fs auxs (j0 + k) d LY Ld EY G1 G2)).
      + right. assert (Z : d = zerov n).
        { rewrite <- Ld. apply Rnorm_0. unfold Rnorm. rewrite <- D1. apply sqrt_0. }
        rewrite Z. clear - LY. rewrite <- LY. generalize (Y k). intro v. induction v as [|a v IH]; [reflexivity|].
        cbn [length]. unfold zerov. cbn [repeat Radd_v]. f_equal; [ring|exact IH].
    - rewrite <- Y1. exact T1.
    - rewrite sub_same by congruence. exact C7.
  Qed.

  Lemma ll_zero : forall k, near (Y k) -> e k = 0 <-> Y k = root.
  Proof.
    intros k (LY & _). split; intro H.
    - apply sub_zero; [congruence|]. replace (length (Y k)) with (length (Rsub_v (Y k) root)) by (rewrite (Rsub_v_length _ _ n); auto). apply Rnorm_0. exact H.
    - unfold e. rewrite H, (zero_diff n root Lroot). apply Rnorm_zero.
  Qed.

  Lemma ll_inv : forall k, near (Y k) /\ radius 0 <= radius k /\ acc k = (acc 0 + k)%nat /\ (Y k = root \/ radius k = radius 0 * (7 / 2) ^ k).
  Proof.
    induction k as [|k (IH1 & IH2 & IH3 & IH4)].
    - split; [exact Hy0|]. split; [lra|]. split; [rewrite Nat.add_0_r; reflexivity|]. right. cbn [pow]. ring.
    - destruct (ll_step k IH1 IH2) as (C1 & C2 & C3 & C4 & C5 & C6 & _). split; [exact C2|]. split; [exact C4|]. split; [rewrite C3, IH3, Nat.add_succ_r; reflexivity|].
      assert (K : Y k = root -> Y (S k) = root).
      { intro H. apply (ll_zero (S k) C2). apply (ll_zero k IH1) in H. pose proof (Rnorm_pos (Rsub_v (Y (S k)) root)) as N0. fold (e (S k)) in N0. lra. }
      destruct IH4 as [IH4|IH4]; [left; exact (K IH4)|].
      destruct C5 as [C5|C5]; [right; rewrite C5, IH4; cbn [pow]; ring|]. left. apply K. apply (ll_zero k IH1).
      assert (EE : e (S k) = e k) by (unfold e; rewrite C5; reflexivity). rewrite EE in C1.
      pose proof (Rnorm_pos (Rsub_v (Y k) root)) as N0. fold (e k) in N0. destruct IH1 as (_ & D1). fold (e k) in D1.
      assert (Q1 : b * gamma * e k <= b * gamma * rho) by (apply Rmult_le_compat_l; [apply Rmult_le_pos; assumption|exact D1]).
      assert (GG : 0 <= (gamma * rho) * (gamma * rho)) by apply Rle_0_sqr.
      destruct (Rle_lt_or_eq_dec 0 (e k) N0) as [N1|N1]; [exfalso|symmetry; exact N1].
      assert (Q2 : b * gamma * e k < sigma) by lra.
      assert (Q3 : (/ radius k + b * gamma * e k) * e k < (/ radius k + sigma) * e k) by (apply Rmult_lt_compat_r; lra). lra.
  Qed.

  Lemma ll_rho : 0 <= rho.
  Proof. destruct Hy0 as (_ & H). pose proof (Rnorm_pos (Rsub_v (Y 0) root)). lra. Qed.
  Lemma ll_r0 : 0 < / radius 0.
  Proof. apply Rinv_0_lt_compat. lra. Qed.
  Lemma ll_t : 0 <= b * gamma * rho < sigma.
  Proof.
    pose proof ll_rho. split; [repeat apply Rmult_le_pos; assumption|].
    assert (GG : 0 <= (gamma * rho) * (gamma * rho)) by apply Rle_0_sqr. lra.
  Qed.
  Lemma ll_q : 0 <= q < 1.
  Proof.
    pose proof ll_t. pose proof ll_r0. unfold q. split; [apply Rmult_le_pos; [lra|apply Rlt_le, Rinv_0_lt_compat; lra]|].
    apply (Rmult_lt_reg_r (/ radius 0 + sigma)); [lra|]. unfold Rdiv. rewrite Rmult_assoc, Rinv_l by lra. lra.
  Qed.

  Lemma ll_linear : forall k, e (S k) <= q * e k.
  Proof.
    intro k. destruct (ll_inv k) as (N & HRd & _). destruct (ll_step k N HRd) as (C & _).
    assert (l0 : 0 < / radius k <= / radius 0) by (split; [apply Rinv_0_lt_compat; lra|apply Rinv_le_contravar; lra]).
    set (l := / radius k) in *. 
    pose proof (Rnorm_pos (Rsub_v (Y k) root)) as N0. fold (e k) in N0. destruct N as (_ & D). fold (e k) in D. pose proof ll_t as t0.
    assert (Q1 : b * gamma * e k <= b * gamma * rho) by (apply Rmult_le_compat_l; [apply Rmult_le_pos; assumption|exact D]).
    set (t := b * gamma * rho) in *.
    assert (Q2 : (l + b * gamma * e k) * e k <= (l + t) * e k) by (apply Rmult_le_compat_r; lra).
    assert (Q3 : l + t <= (sigma + l) * q).
    { unfold q. fold t. set (l1 := / radius 0) in *. apply (Rmult_le_reg_r (l1 + sigma)); [lra|]. unfold Rdiv. rewrite !Rmult_assoc, Rinv_l, Rmult_1_r by lra.
      assert (0 <= (sigma - t) * (l1 - l)) by (apply Rmult_le_pos; lra). lra. }
    assert (Q4 : (l + t) * e k <= (sigma + l) * q * e k) by (apply Rmult_le_compat_r; assumption).
    apply (Rmult_le_reg_l (sigma + l)); [lra|]. lra.
  Qed.

  Lemma ll_rate : forall k, e k <= rho * q ^ k.
  Proof.
    induction k as [|k IH].
    - destruct Hy0 as (_ & H). fold (e 0) in H. cbn [pow]. lra.
    - eapply Rle_trans; [apply ll_linear|]. cbn [pow]. replace (rho * (q * q ^ k)) with (q * (rho * q ^ k)) by ring.
      apply Rmult_le_compat_l; [apply ll_q|exact IH].
  Qed.

  Lemma ll_super : forall k, e (S k) <= (/ radius 0 * (2 / 7) ^ k + b * gamma * e k) / sigma * e k.
  Proof.
    intro k. destruct (ll_inv k) as (N & HRd & _ & Z). destruct (ll_step k N HRd) as (C & _).
    pose proof (Rnorm_pos (Rsub_v (Y k) root)) as N0. fold (e k) in N0.
    pose proof (Rnorm_pos (Rsub_v (Y (S k)) root)) as N1. fold (e (S k)) in N1.
    assert (l0 : 0 < / radius k) by (apply Rinv_0_lt_compat; lra).
    assert (Q : sigma * e (S k) <= (/ radius 0 * (2 / 7) ^ k + b * gamma * e k) * e k).
    { destruct Z as [Z|Z].
      - apply (ll_zero k N) in Z. rewrite Z in *. assert (0 <= / radius k * e (S k)) by (apply Rmult_le_pos; lra). lra.
      - assert (E : / radius k = / radius 0 * (2 / 7) ^ k).
        { rewrite Z, Rinv_mult, <- pow_inv. f_equal. f_equal. field. }
        assert (E0 : 0 <= / radius k * e (S k)) by (apply Rmult_le_pos; lra). rewrite E in C, E0. lra. }
    apply (Rmult_le_reg_l sigma); [exact S0|]. eapply Rle_trans; [exact Q|]. right. field. lra.
  Qed.

  Lemma ll_limit : forall theta, 0 < theta -> exists K, forall k, (K <= k)%nat -> e (S k) <= theta * e k.
  Proof.
    intros theta T0. pose proof ll_q as Hq. pose proof ll_rho as R0.
    set (c := 1 + b * gamma * rho). assert (c0 : 0 < c) by (unfold c; pose proof ll_t; lra).
    destruct (pow_lt_1_zero (2 / 7) ltac:(rewrite Rabs_pos_eq; lra) (radius 0 * (theta * sigma / 2))) as (K1 & H1).
    { apply Rmult_lt_0_compat; [lra|]. apply Rmult_lt_0_compat; [apply Rmult_lt_0_compat; assumption|lra]. }
    destruct (pow_lt_1_zero q ltac:(rewrite Rabs_pos_eq; lra) (theta * sigma / (2 * c))) as (K2 & H2).
    { apply Rdiv_lt_0_compat; [apply Rmult_lt_0_compat; assumption|lra]. }
    exists (Nat.max K1 K2). intros k Hk. eapply Rle_trans; [apply ll_super|].
    apply Rmult_le_compat_r; [apply Rnorm_pos|].
    specialize (H1 k ltac:(lia)). specialize (H2 k ltac:(lia)).
    rewrite Rabs_pos_eq in H1, H2 by (apply pow_le; lra).
    assert (B : b * gamma * e k <= theta * sigma / 2).
    { apply (Rle_trans _ (b * gamma * (rho * q ^ k))).
      - apply Rmult_le_compat_l; [apply Rmult_le_pos; assumption|apply ll_rate].
      - apply (Rle_trans _ (c * (theta * sigma / (2 * c)))); [|right; field; lra].
        replace (b * gamma * (rho * q ^ k)) with (b * gamma * rho * q ^ k) by ring.
        apply Rmult_le_compat; [apply ll_t|apply pow_le; lra|unfold c; lra|lra]. }
    assert (H1' : / radius 0 * (2 / 7) ^ k < theta * sigma / 2).
    { apply (Rmult_lt_reg_l (radius 0)); [lra|]. rewrite <- Rmult_assoc, Rinv_r, Rmult_1_l by lra. exact H1. }
    apply (Rmult_le_reg_r sigma); [exact S0|]. unfold Rdiv. rewrite Rmult_assoc, Rinv_l, Rmult_1_r by lra. lra.
  Qed.

  Hypothesis Hrtol : 0 <= (ar_rtol P : R).
  Hypothesis Hatol : 0 < (ar_atol P : R).
  Hypothesis Hnorm : ar_norm P = max_norm (N:=RN).

  Lemma ll_terminates : forall K, 2 * rho * q ^ K < (ar_atol P : R) -> 2 * (b + 2 * gamma * rho) * rho * q ^ K < (ar_atol P : R) ->
    gn_terminate (Sk (S K)) = true.
  Proof.
    intros K H1 H2. set (a := ar_atol P : R) in *. destruct (ll_inv K) as (N & HRd & _). destruct (ll_step K N HRd) as (_ & N' & _ & _ & _ & D & T & W).
    destruct (gn_terminate (Sk (S K))) eqn:ET; [reflexivity|exfalso].
    symmetry in T. rewrite Hnorm in T. apply cauchy_false_vec in T; [|exact Hrtol|exact Hatol]. fold a in T.
    pose proof (ll_rate K) as RK. pose proof ll_rho as R0.
    assert (W1 : Rnorm (Rsub_v (Y (S K)) (Y K)) <= 2 * rho * q ^ K) by lra.
    pose proof N as (LY & DY). pose proof N' as (LY' & DY'). destruct (HP _ LY) as (Lr & (L1 & _) & _). destruct (HP _ LY') as (Lr' & _).
    set (d := Rsub_v (Y (S K)) (Y K)) in *. assert (Ld : length d = n) by (apply Rsub_v_length; assumption).
    pose proof (HL _ _ N N') as HH. fold d in HH.
    assert (W2 : Rnorm (Rsub_v (r (Y (S K))) (r (Y K))) <= (b + 2 * gamma * rho) * Rnorm d).
    { set (u := Rsub_v (r (Y (S K))) (r (Y K))) in *. assert (Lu : length u = m) by (apply Rsub_v_length; assumption).
      assert (Eu : u = Radd_v (op_mv (J (Y K)) d) (Rsub_v u (op_mv (J (Y K)) d))).
      { assert (GE : forall p w : list R, length p = length w -> p = Radd_v w (Rsub_v p w)).
        { induction p as [|x p IH]; intros [|y w] E; try discriminate; [reflexivity|]. cbn. f_equal; [ring|]. apply IH. apply eq_add_S. exact E. }
        apply GE. rewrite L1 by exact Ld. exact Lu. }
      rewrite Eu at 1. eapply Rle_trans; [apply Rnorm_add; rewrite (Rsub_v_length _ _ m); [apply L1; exact Ld|exact Lu|apply L1; exact Ld]|].
      assert (Q1 : Rnorm (op_mv (J (Y K)) d) <= b * Rnorm d) by (apply Rnorm_bound; [exact b0|apply (HJ _ _ N Ld)]).
      assert (Q2 : gamma * Rdot d d <= 2 * gamma * rho * Rnorm d).
      { rewrite <- Rnorm_sq. replace (2 * gamma * rho * Rnorm d) with (gamma * (2 * rho * Rnorm d)) by ring. apply Rmult_le_compat_l; [exact g0|].
        apply Rmult_le_compat_r; [apply Rnorm_pos|]. fold (e K) in DY. fold (e (S K)) in DY'. lra. }
      lra. }
    assert (C0 : 0 <= b + 2 * gamma * rho) by (assert (0 <= 2 * gamma * rho) by (repeat apply Rmult_le_pos; lra); lra).
    assert (W3 : Rnorm (Rsub_v (r (Y (S K))) (r (Y K))) < a).
    { eapply Rle_lt_trans; [exact W2|]. eapply Rle_lt_trans; [apply Rmult_le_compat_l; [exact C0|exact W1]|]. lra. }
    assert (SQ : forall (v : list R) i c, nth_error v i = Some c -> a <= Rabs c -> a <= Rnorm v).
    { intros v i c Hc Hac. pose proof (Rdot_nth_le _ _ _ Hc) as G. unfold Rnorm. rewrite <- (sqrt_square a) by lra. apply sqrt_le_1_alt.
      assert (a * a <= Rabs c * Rabs c) by (apply Rmult_le_compat; lra). rewrite <- Rabs_mult, Rabs_pos_eq in H by apply Rle_0_sqr. lra. }
    destruct T as [(i & c & Hc & Hac)|(i & c & Hc & Hac)]; pose proof (SQ _ i c Hc Hac) as G; lra.
  Qed.
End Local.

(** Levenberg-Marquardt in exact arithmetic with exact least-squares solves, from any start.  Let [root] be a zero of the residuals near
    which sigma |v|^2 <= |J v|^2 <= b^2 |v|^2 and the linearisation error of the residuals is at most gamma |x' - x|^2, with rho small:
    b gamma rho + 3 gamma^2 rho^2 < sigma / 200.  Once an iterate is within rho of the root (and the radius above the cut-off eps), no
    step is rejected any more; while the iterate is not at the root the radius grows by 7/2 at each step; the distance to the root shrinks
    by a fixed factor, and superlinearly. *)
Lemma C101_entering_pf :
  forall (Aux : Type) (P : ar_tols RN) (eps fmax : R) lsolve jac_of (fn : list R -> list R * Aux)
         (n m : nat) (y0 root : list R) fs auxs (sigma b gamma rho : R) st0 (j : nat),
    let r x := fst (fn x) in let J := jac_of fn in
    let near x := length x = n /\ (Rnorm (Rsub_v x root) <= rho)%R in
    (0 <= eps)%R -> (0 < fmax)%R -> exact_least_squares n lsolve -> residual_problem n m r J ->
    length root = n -> r root = zerov m -> (0 < sigma)%R -> (0 <= b)%R -> (0 <= gamma)%R ->
    (forall x v, near x -> length v = n ->
       sigma * Rdot v v <= Rdot (op_mv (J x) v) (op_mv (J x) v) /\ Rdot (op_mv (J x) v) (op_mv (J x) v) <= b * b * Rdot v v)%R ->
    (forall x x', near x -> near x' ->
       Rnorm (Rsub_v (Rsub_v (r x') (r x)) (op_mv (J x) (Rsub_v x' x))) <= gamma * Rdot (Rsub_v x' x) (Rsub_v x' x))%R ->
    (b * gamma * rho + 3 * (gamma * rho) * (gamma * rho) < sigma / 200)%R -> length y0 = n ->
    let s := LevenbergMarquardt (N:=RN) P jac_of lsolve eps fmax in
    s_init s fn y0 fs auxs = Ret st0 ->
    let y k : list R := y_at s fn y0 st0 (auxs fill0) (S (j + k)) in
    let st k := st_at s fn y0 st0 (auxs fill0) (S (j + k)) in
    let radius k : R := gn_search_state (st k) in
    near (y 0) -> (eps < radius 0%nat)%R ->
    let e k := Rnorm (Rsub_v (y k) root) in
    let l := (/ radius 0%nat)%R in let q := ((l + b * gamma * rho) / (l + sigma))%R in
    (forall k, gn_num_accepted_steps (st k) = gn_num_accepted_steps (st 0) + k) /\
    (forall k, y k = root \/ radius k = (radius 0%nat * (7 / 2) ^ k)%R) /\
    (q < 1)%R /\ (forall k, e (S k) <= q * e k)%R /\
    (forall k, e (S k) <= (l * (2 / 7) ^ k + b * gamma * e k) / sigma * e k)%R /\
    (forall theta, (0 < theta)%R -> exists K, forall k, K <= k -> (e (S k) <= theta * e k)%R).
Proof.
  intros Aux P eps fmax lsolve jac_of fn n m y0 root fs auxs sigma b gamma rho st0 j r J near He Hf HE HP Lroot Hroot S0 b0 g0 HJ HL Hsmall Ly0 s Hi y st radius Hy0 HR0 e l q.
  unfold s in Hi. apply gn_init_inv in Hi. subst st0.
  pose proof (ll_inv P eps fmax lsolve jac_of fn n m y0 root fs auxs sigma b gamma rho He Hf HE HP Lroot Hroot S0 b0 g0 HJ HL Hsmall Ly0 j Hy0 HR0) as INV.
  split; [intro k; apply (INV k)|]. split; [intro k; apply (INV k)|].
  split; [exact (proj2 (ll_q P eps fmax lsolve jac_of fn n y0 root fs auxs sigma b gamma rho He S0 b0 g0 Hsmall j Hy0 HR0))|].
  split; [exact (ll_linear P eps fmax lsolve jac_of fn n m y0 root fs auxs sigma b gamma rho He Hf HE HP Lroot Hroot S0 b0 g0 HJ HL Hsmall Ly0 j Hy0 HR0)|].
  split; [exact (ll_super P eps fmax lsolve jac_of fn n m y0 root fs auxs sigma b gamma rho He Hf HE HP Lroot Hroot S0 b0 g0 HJ HL Hsmall Ly0 j Hy0 HR0)|].
  exact (ll_limit P eps fmax lsolve jac_of fn n m y0 root fs auxs sigma b gamma rho He Hf HE HP Lroot Hroot S0 b0 g0 HJ HL Hsmall Ly0 j Hy0 HR0).
Qed.

(** In particular when started within rho of a zero [root] of the residuals near
    which sigma |v|^2 <= |J v|^2 <= b^2 |v|^2 and the linearisation error of the residuals is at most gamma |x' - x|^2, with rho small:
    b gamma rho + 3 gamma^2 rho^2 < sigma / 200.  No step is rejected; while the iterate is not at the root the radius grows by 7/2 at each
    step; the distance to the root shrinks by at least the factor (1 + b gamma rho) / (1 + sigma), and superlinearly: the factor of the
    k-th step is at most ((2/7)^k + b gamma |y_k - root|) / sigma, which tends to 0. *)
Lemma C101_superlinear_pf :
  forall (Aux : Type) (P : ar_tols RN) (eps fmax : R) lsolve jac_of (fn : list R -> list R * Aux)
         (n m : nat) (y0 root : list R) fs auxs (sigma b gamma rho : R) st0,
    let r x := fst (fn x) in let J := jac_of fn in
    let near x := length x = n /\ (Rnorm (Rsub_v x root) <= rho)%R in
    (0 <= eps < 1)%R -> (0 < fmax)%R -> exact_least_squares n lsolve -> residual_problem n m r J ->
    length root = n -> r root = zerov m -> (0 < sigma)%R -> (0 <= b)%R -> (0 <= gamma)%R ->
    (forall x v, near x -> length v = n ->
       sigma * Rdot v v <= Rdot (op_mv (J x) v) (op_mv (J x) v) /\ Rdot (op_mv (J x) v) (op_mv (J x) v) <= b * b * Rdot v v)%R ->
    (forall x x', near x -> near x' ->
       Rnorm (Rsub_v (Rsub_v (r x') (r x)) (op_mv (J x) (Rsub_v x' x))) <= gamma * Rdot (Rsub_v x' x) (Rsub_v x' x))%R ->
    (b * gamma * rho + 3 * (gamma * rho) * (gamma * rho) < sigma / 200)%R -> near y0 ->
    let s := LevenbergMarquardt (N:=RN) P jac_of lsolve eps fmax in
    s_init s fn y0 fs auxs = Ret st0 ->
    let y k : list R := y_at s fn y0 st0 (auxs fill0) (S k) in
    let st k := st_at s fn y0 st0 (auxs fill0) (S k) in
    let e k := Rnorm (Rsub_v (y k) root) in
    let q := ((1 + b * gamma * rho) / (1 + sigma))%R in
    y 0 = y0 /\
    (forall k, gn_num_accepted_steps (st k) = S k) /\
    (forall k, y k = root \/ gn_search_state (st k) = ((7 / 2) ^ k)%R) /\
    (q < 1)%R /\ (forall k, e (S k) <= q * e k)%R /\
    (forall k, e (S k) <= ((2 / 7) ^ k + b * gamma * e k) / sigma * e k)%R /\
    (forall theta, (0 < theta)%R -> exists K, forall k, K <= k -> (e (S k) <= theta * e k)%R).
Proof.
  intros Aux P eps fmax lsolve jac_of fn n m y0 root fs auxs sigma b gamma rho st0 r J near He Hf HE HP Lroot Hroot S0 b0 g0 HJ HL Hsmall Hy0 s Hi y st e q.
  pose proof Hi as Hi'. unfold s in Hi'. apply gn_init_inv in Hi'.
  destruct (first_accepted P eps fmax lsolve jac_of fn y0 fs auxs) as (F1 & F2 & F3).
  fold (gn_st0 (N:=RN) (classical_trust_region (N:=RN) tr_default) (damped_newton_descent (N:=RN) lsolve eps fmax) y0 fs auxs) in F1, F2, F3.
  rewrite <- Hi' in F1, F2, F3. change (y 0%nat = y0) in F1. change (gn_num_accepted_steps (st 0%nat) = 1) in F2. change ((gn_search_state (st 0%nat) : R) = 1%R) in F3.
  assert (Hy0' : near (y 0%nat)) by (rewrite F1; exact Hy0).
  assert (HR0 : (eps < (gn_search_state (st 0%nat) : R))%R) by (rewrite F3; lra).
  destruct (C101_entering_pf Aux P eps fmax lsolve jac_of fn n m y0 root fs auxs sigma b gamma rho st0 0 (proj1 He) Hf HE HP Lroot Hroot S0 b0 g0 HJ HL Hsmall (proj1 Hy0) Hi Hy0' HR0)
    as (A1 & A2 & A3 & A4 & A5 & A6).
  change (forall k, gn_num_accepted_steps (st k) = gn_num_accepted_steps (st 0%nat) + k) in A1.
  change (forall k, y k = root \/ (gn_search_state (st k) : R) = ((gn_search_state (st 0%nat) : R) * (7 / 2) ^ k)%R) in A2.
  change ((/ (gn_search_state (st 0%nat) : R) + b * gamma * rho) / (/ (gn_search_state (st 0%nat) : R) + sigma) < 1)%R in A3.
  change (forall k, e (S k) <= (/ (gn_search_state (st 0%nat) : R) + b * gamma * rho) / (/ (gn_search_state (st 0%nat) : R) + sigma) * e k)%R in A4.
  change (forall k, e (S k) <= (/ (gn_search_state (st 0%nat) : R) * (2 / 7) ^ k + b * gamma * e k) / sigma * e k)%R in A5.
  rewrite F3, Rinv_1 in A3, A4, A5. rewrite F3 in A2.
  split; [exact F1|]. split; [intro k; rewrite A1, F2; reflexivity|]. split; [intro k; rewrite <- (Rmult_1_l ((7 / 2) ^ k)); apply A2|].
  split; [exact A3|]. split; [exact A4|]. split; [|exact A6].
  intro k. specialize (A5 k). rewrite Rmult_1_l in A5. exact A5.
Qed.

(** If every linear solve reports success, the solve then succeeds within K + 2 steps once 2 rho q^K and 2 (b + 2 gamma rho) rho q^K are
    below atol, at a point within rho q^(k-1) of the root, k being the number of steps. *)
Lemma C101_terminates_pf :
  forall (Aux : Type) (rtol atol eps fmax : R) lsolve jac_of (fn : list R -> list R * Aux)
         (n m : nat) (y0 root : list R) fs auxs (sigma b gamma rho : R) (K : nat),
    let r x := fst (fn x) in let J := jac_of fn in
    let near x := length x = n /\ (Rnorm (Rsub_v x root) <= rho)%R in
    (0 <= eps < 1)%R -> (0 < fmax)%R -> exact_least_squares n lsolve -> (forall A c, snd (lsolve A c) = successful) -> residual_problem n m r J ->
    length root = n -> r root = zerov m -> (0 < sigma)%R -> (0 <= b)%R -> (0 <= gamma)%R ->
    (forall x v, near x -> length v = n ->
       sigma * Rdot v v <= Rdot (op_mv (J x) v) (op_mv (J x) v) /\ Rdot (op_mv (J x) v) (op_mv (J x) v) <= b * b * Rdot v v)%R ->
    (forall x x', near x -> near x' ->
       Rnorm (Rsub_v (Rsub_v (r x') (r x)) (op_mv (J x) (Rsub_v x' x))) <= gamma * Rdot (Rsub_v x' x) (Rsub_v x' x))%R ->
    (b * gamma * rho + 3 * (gamma * rho) * (gamma * rho) < sigma / 200)%R -> near y0 -> (0 <= rtol)%R -> (0 < atol)%R ->
    let q := ((1 + b * gamma * rho) / (1 + sigma))%R in
    (2 * rho * q ^ K < atol)%R -> (2 * (b + 2 * gamma * rho) * rho * q ^ K < atol)%R ->
    let s := LevenbergMarquardt (N:=RN) (mkTols rtol atol max_norm) jac_of lsolve eps fmax in
    exists k, 1 <= k <= K + 2 /\
      forall fuel budget throw, k < fuel -> (forall j, budget = Some j -> k <= j) ->
        exists sol, iterative_solve (vallfinite (N:=RN)) s fn fuel budget throw y0 fs auxs = Ret sol /\
          result sol = successful /\ (Rnorm (Rsub_v (value sol) root) <= rho * q ^ pred k)%R /\
          hd_error (sol_stats sol) = Some ("num_steps"%string, Some (Z.of_nat k)).
Proof.
  intros Aux rtol atol eps fmax lsolve jac_of fn n m y0 root fs auxs sigma b gamma rho K r J near He Hf HE HR HP Lroot Hroot S0 b0 g0 HJ HL Hsmall Hy0 Hrt Hat q H1 H2 s.
  set (P := mkTols (N:=RN) rtol atol max_norm) in *.
  set (st0 := gn_st0 (classical_trust_region (N:=RN) tr_default) (damped_newton_descent (N:=RN) lsolve eps fmax) y0 fs auxs).
  assert (Hi : s_init s fn y0 fs auxs = Ret st0) by reflexivity.
  destruct (first_accepted P eps fmax lsolve jac_of fn y0 fs auxs) as (F1 & _ & F3).
  fold (gn_st0 (N:=RN) (classical_trust_region (N:=RN) tr_default) (damped_newton_descent (N:=RN) lsolve eps fmax) y0 fs auxs) in F1, F3. fold st0 in F1, F3.
  change (y_at s fn y0 st0 (auxs fill0) 1 = y0) in F1. change ((gn_search_state (st_at s fn y0 st0 (auxs fill0) 1) : R) = 1%R) in F3.
  assert (Hy0' : near (y_at s fn y0 st0 (auxs fill0) 1)) by (rewrite F1; exact Hy0).
  assert (HR0 : (eps < (gn_search_state (st_at s fn y0 st0 (auxs fill0) 1) : R))%R) by (rewrite F3; lra).
  assert (EQ : ((/ (gn_search_state (st_at s fn y0 st0 (auxs fill0) 1) : R) + b * gamma * rho) / (/ (gn_search_state (st_at s fn y0 st0 (auxs fill0) 1) : R) + sigma))%R = q).
  { rewrite F3, Rinv_1. reflexivity. }
  pose proof (ll_terminates P eps fmax lsolve jac_of fn n m y0 root fs auxs sigma b gamma rho (proj1 He) Hf HE HP Lroot Hroot S0 b0 g0 HJ HL Hsmall (proj1 Hy0) 0 Hy0' HR0 Hrt Hat eq_refl K) as T.
  pose proof (ll_rate P eps fmax lsolve jac_of fn n m y0 root fs auxs sigma b gamma rho (proj1 He) Hf HE HP Lroot Hroot S0 b0 g0 HJ HL Hsmall (proj1 Hy0) 0 Hy0' HR0) as RT.
  cbn [Nat.add] in T, RT. cbv zeta in T, RT.
  unfold s, st0, LevenbergMarquardt in EQ. rewrite EQ in T, RT. specialize (T H1 H2).
  assert (SR : forall k, says_result s fn y0 st0 (auxs fill0) k = successful).
  { intros [|k]; [reflexivity|].
    destruct (C64_levenberg_marquardt_pf RN Aux P lsolve eps fmax jac_of fn y0 fs auxs st0 Hi k) as (A & lam & _ & _ & _ & E).
    exact (eq_trans E (HR _ _)). }
  assert (AF : forall v : list R, vallfinite (N:=RN) v = true).
  { intro v. unfold vallfinite. induction v; auto. }
  destruct (solve_succeeds (vallfinite (N:=RN)) s fn y0 st0 _ fs auxs eq_refl Hi SR (fun k => AF _) (ex_intro _ (S (S K)) T))
    as (k1 & K1 & K2 & K3).
  assert (k1 <= S (S K)).
  { destruct (le_lt_dec k1 (S (S K))) as [?|Q]; [assumption|]. specialize (K2 _ Q).
    change (gn_terminate (st_at s fn y0 st0 (auxs fill0) (S (S K))) = false) in K2.
    pose proof (eq_trans (eq_sym T) K2). discriminate. }
  assert (1 <= k1) by (destruct k1; [discriminate K1|lia]).
  exists k1. split; [lia|]. intros fuel budget throw Hfu Hb. destruct (K3 fuel budget throw Hfu Hb) as (K4 & K5).
  eexists. split; [exact K4|]. split; [exact K5|]. split; [|reflexivity].
  destruct k1 as [|k1]; [lia|]. exact (RT k1).
Qed.

(** x + x^2 = 0 from 1/400 *)
Definition para (v : list R) : list R * unit := match v with [x] => ([x + x * x]%R, tt) | _ => ([0%R], tt) end.
Definition para_jac (_ : list R -> list R * unit) (v : list R) : linop RN :=
  MatOp (N:=RN) 1 (match v with [x] => [[1 + 2 * x]]%R | _ => [[0]]%R end).

Lemma para_hyps :
  let r x := fst (para x) in let J := para_jac para in
  let near x := length x = 1 /\ (Rnorm (Rsub_v x [0]) <= 1 / 400)%R in
  residual_problem 1 1 r J /\ r [0%R] = zerov 1 /\
  (forall x v, near x -> length v = 1%nat ->
     99 / 100 * Rdot v v <= Rdot (op_mv (J x) v) (op_mv (J x) v) /\ Rdot (op_mv (J x) v) (op_mv (J x) v) <= 201 / 200 * (201 / 200) * Rdot v v)%R /\
  (forall x x', near x -> near x' ->
     Rnorm (Rsub_v (Rsub_v (r x') (r x)) (op_mv (J x) (Rsub_v x' x))) <= 1 * Rdot (Rsub_v x' x) (Rsub_v x' x))%R /\
  (201 / 200 * 1 * (1 / 400) + 3 * (1 * (1 / 400)) * (1 * (1 / 400)) < 99 / 100 / 200)%R /\ near [(1 / 400)%R].
Proof.
  intros r J near.
  assert (EJ : forall x v : R, op_mv (J [x]) [v] = [(1 + 2 * x) * v]%R).
  { intros x v. unfold J. cbn. rewrite ?Q2R_0. f_equal. ring. }
  split; [|split; [|split; [|split; [|split]]]].
  - intros [|x [|? ?]] H; try discriminate H. split; [reflexivity|]. apply mat_linear. repeat constructor.
  - unfold r, zerov. cbn. f_equal. ring.
  - intros [|x [|? ?]] [|v [|? ?]] (Lx & Dx) Lv; try discriminate. rewrite EJ. cbn [Rsub_v] in Dx. rewrite Rnorm_1, Rminus_0_r in Dx.
    pose proof (Rle_abs x) as A1. pose proof (Rle_abs (- x)) as A2. rewrite Rabs_Ropp in A2. assert (Dx' : (- (1 / 400) <= x <= 1 / 400)%R) by lra. clear A1 A2 Dx. cbn [Rdot]. rewrite !Rplus_0_r. replace ((1 + 2 * x) * v * ((1 + 2 * x) * v))%R with ((1 + 2 * x) * (1 + 2 * x) * (v * v))%R by ring.
    assert (0 <= v * v)%R by apply Rle_0_sqr. split; apply Rmult_le_compat_r; try assumption; nra.
  - intros [|x [|? ?]] [|x' [|? ?]] (Lx & _) (Lx' & _); try discriminate. cbn [Rsub_v]. rewrite EJ. unfold r. cbn [fst para Rsub_v Rdot].
    rewrite Rnorm_1. right. rewrite Rplus_0_r, Rmult_1_l.
    replace (x' + x' * x' - (x + x * x) - (1 + 2 * x) * (x' - x))%R with ((x' - x) * (x' - x))%R by ring. apply Rabs_pos_eq. apply Rle_0_sqr.
  - lra.
  - split; [reflexivity|]. cbn [Rsub_v]. rewrite Rnorm_1, Rabs_pos_eq by lra. lra.
Qed.

Example C101_superlinear_ex_pf :
  let s := LevenbergMarquardt (N:=RN) (mkTols (N:=RN) (1/10)%R (1/100)%R max_norm) para_jac lsolve1 (1/100)%R 1000%R in
  exists st0, s_init s para [(1 / 400)%R] (fun _ => [0%R]) (fun _ => tt) = Ret st0 /\
  let e k := Rnorm (Rsub_v (y_at s para [(1 / 400)%R] st0 tt (S k) : list R) [0%R]) in
  forall theta, (0 < theta)%R -> exists K, forall k, K <= k -> (e (S k) <= theta * e k)%R.
Proof.
  intro s. eexists. split; [reflexivity|]. intro e. destruct para_hyps as (H1 & H2 & H3 & H4 & H5 & H6).
  exact (proj2 (proj2 (proj2 (proj2 (proj2 (proj2 (C101_superlinear_pf unit _ (1/100)%R 1000%R lsolve1 para_jac para 1 1 [(1 / 400)%R] [0%R] (fun _ => [0%R]) (fun _ => tt)
    (99/100)%R (201/200)%R 1%R (1/400)%R _ ltac:(lra) ltac:(lra) (proj1 C32_levenberg_marquardt_ex_pf) H1 eq_refl H2 ltac:(lra) ltac:(lra) ltac:(lra) H3 H4 H5 H6 eq_refl))))))).
Qed.

Example C101_terminates_ex_pf :
  let s := LevenbergMarquardt (N:=RN) (mkTols (N:=RN) (1/10)%R (1/1000)%R max_norm) para_jac lsolve1 (1/100)%R 1000%R in
  exists k, 1 <= k <= 6 /\
    forall fuel budget throw, k < fuel -> (forall j, budget = Some j -> k <= j) ->
      exists sol, iterative_solve (vallfinite (N:=RN)) s para fuel budget throw [(1 / 400)%R] (fun _ => [0%R]) (fun _ => tt) = Ret sol /\
        result sol = successful.
Proof.
  intro s. destruct para_hyps as (H1 & H2 & H3 & H4 & H5 & H6).
  assert (Q : ((1 + 201 / 200 * 1 * (1 / 400)) / (1 + 99 / 100) <= 51 / 100)%R) by lra.
  assert (Q4 : (((1 + 201 / 200 * 1 * (1 / 400)) / (1 + 99 / 100)) ^ 4 <= (51 / 100) ^ 4)%R) by (apply pow_incr; lra).
  destruct (C101_terminates_pf unit (1/10)%R (1/1000)%R (1/100)%R 1000%R lsolve1 para_jac para 1 1 [(1 / 400)%R] [0%R] (fun _ => [0%R]) (fun _ => tt)
    (99/100)%R (201/200)%R 1%R (1/400)%R 4 ltac:(lra) ltac:(lra) (proj1 C32_levenberg_marquardt_ex_pf) (fun _ _ => eq_refl) H1 eq_refl H2 ltac:(lra) ltac:(lra) ltac:(lra) H3 H4 H5 H6 ltac:(lra) ltac:(lra)
    ltac:(cbn [pow] in Q4 |- *; lra) ltac:(cbn [pow] in Q4 |- *; lra)) as (k & HK & HS).
  exists k. split; [lia|]. intros fuel budget throw Hfu Hb. destruct (HS fuel budget throw Hfu Hb) as (sol & E1 & E2 & _). exists sol. auto.
Qed.

(** Globally: for least squares with 1/2 |r|^2 smooth and |J^T r|^2 >= mu |r|^2 everywhere (C83's setting), residuals bounding the distance
    to their zero (c |x - root|^2 <= |r x|^2) and the local conditions above near it, Levenberg-Marquardt comes within rho of the root from
    every start, after which it never rejects a step, and its convergence is superlinear. *)
Lemma C101_global_pf :
  forall (Aux : Type) (P : ar_tols RN) (eps fmax : R) lsolve jac_of (fn : list R -> list R * Aux)
         (n m : nat) (y0 root : list R) fs auxs (L B mu c sigma b gamma rho : R) st0,
    let r x := fst (fn x) in let J := jac_of fn in
    let near x := length x = n /\ (Rnorm (Rsub_v x root) <= rho)%R in
    (0 <= eps)%R -> (0 < fmax)%R -> exact_least_squares n lsolve -> residual_problem n m r J ->
    smooth n L (half_squares r) (ls_gradient r J) -> (0 <= B)%R -> jac_bounded n B J ->
    (0 < mu <= L)%R -> (forall x, length x = n -> mu * Rdot (r x) (r x) <= Rdot (ls_gradient r J x) (ls_gradient r J x))%R ->
    (eps < Rmin 1 (99 / (200 * L)))%R ->
    (0 < c)%R -> (forall x, length x = n -> c * Rdot (Rsub_v x root) (Rsub_v x root) <= Rdot (r x) (r x))%R ->
    length root = n -> r root = zerov m -> (0 < sigma)%R -> (0 <= b)%R -> (0 <= gamma)%R -> (0 < rho)%R ->
    (forall x v, near x -> length v = n ->
       sigma * Rdot v v <= Rdot (op_mv (J x) v) (op_mv (J x) v) /\ Rdot (op_mv (J x) v) (op_mv (J x) v) <= b * b * Rdot v v)%R ->
    (forall x x', near x -> near x' ->
       Rnorm (Rsub_v (Rsub_v (r x') (r x)) (op_mv (J x) (Rsub_v x' x))) <= gamma * Rdot (Rsub_v x' x) (Rsub_v x' x))%R ->
    (b * gamma * rho + 3 * (gamma * rho) * (gamma * rho) < sigma / 200)%R -> length y0 = n ->
    let s := LevenbergMarquardt (N:=RN) P jac_of lsolve eps fmax in
    s_init s fn y0 fs auxs = Ret st0 ->
    let y k : list R := y_at s fn y0 st0 (auxs fill0) k in
    let st k := st_at s fn y0 st0 (auxs fill0) k in
    let e k := Rnorm (Rsub_v (y k) root) in
    exists j, near (y (S j)) /\ (eps < (gn_search_state (st (S j)) : R))%R /\
      (forall k, S j <= k -> gn_num_accepted_steps (st (S k)) = S (gn_num_accepted_steps (st k))) /\
      (forall theta, (0 < theta)%R -> exists K, forall k, K <= k -> (e (S k) <= theta * e k)%R) /\
      (forall delta, (0 < delta)%R -> exists K, forall k, K <= k -> (e k < delta)%R).
Proof.
  intros Aux P eps fmax lsolve jac_of fn n m y0 root fs auxs L B mu c sigma b gamma rho st0 r J near He Hf HE HP HS B0 HB HM Hdom Heps C0 Herr Lroot Hroot S0 b0 g0 R0 HJ HL Hsmall Ly0 s Hi y st e.
  assert (HD : dominated n mu 0 (half_squares r) (ls_gradient r J)).
  { intros x Lx. unfold half_squares. pose proof (Rdot_pos (r x)). split; [lra|]. specialize (Hdom x Lx). lra. }
  set (rt := Rmin 1 (99 / (200 * L))) in *. assert (rt0 : (0 < rt)%R) by lra.
  destruct (pow_lt_1_zero (/ 4) ltac:(rewrite Rabs_pos_eq; lra) rt rt0) as (q & Hq). specialize (Hq q (Nat.le_refl q)).
  assert (Hq' : (1 <= 4 ^ q * rt)%R).
  { rewrite pow_inv, Rabs_pos_eq in Hq by (apply Rlt_le, Rinv_0_lt_compat, pow_lt; lra).
    assert (P4 : (0 < 4 ^ q)%R) by (apply pow_lt; lra).
    apply (Rmult_le_reg_l (/ 4 ^ q)); [apply Rinv_0_lt_compat; exact P4|]. rewrite <- Rmult_assoc, Rinv_l, Rmult_1_l, Rmult_1_r by lra. lra. }
  destruct (C83_levenberg_marquardt_pf Aux P eps fmax lsolve jac_of fn n m L B mu 0 y0 fs auxs st0 q He Hf HE HP HS B0 HB HM HD Heps Ly0 Hq' Hi) as (Th & Rate).
  fold rt in Th, Rate. set (theta := (1 - mu / (100 * (B + / rt)))%R) in *.
  pose proof (proj1 (HD y0 Ly0)) as F0.
  set (F := half_squares r y0) in *.
  assert (T0 : (0 < c * (rho * rho) / (2 * (F + 1)))%R).
  { apply Rdiv_lt_0_compat; [apply Rmult_lt_0_compat; [exact C0|apply Rmult_lt_0_compat; exact R0]|lra]. }
  destruct (pow_lt_1_zero theta ltac:(rewrite Rabs_pos_eq; lra) _ T0) as (i & Hi0). specialize (Hi0 i (Nat.le_refl i)).
  rewrite Rabs_pos_eq in Hi0 by (apply pow_le; lra).
  set (j := 2 * i + 1 + q). exists j.
  assert (EJ : S j = 2 * i + 2 + q) by (unfold j; lia).
  assert (LY : length (y (S j)) = n).
  { pose proof Hi as Hi'. unfold s in Hi'. apply gn_init_inv in Hi'. unfold y. rewrite Hi'.
    apply (lm_inv P eps fmax lsolve jac_of fn n m y0 fs auxs He Hf HE HP Ly0 (S j)). }
  assert (NY : near (y (S j))).
  { split; [exact LY|]. pose proof (Rate i) as Q. rewrite <- EJ in Q. change (half_squares r (y (S j)) - 0 <= theta ^ i * (F - 0))%R in Q.
    pose proof (Herr _ LY) as Q2. unfold half_squares in Q. rewrite <- (Rnorm_sq (Rsub_v (y (S j)) root)) in Q2.
    set (E := Rnorm (Rsub_v (y (S j)) root)) in *. assert (E0 : (0 <= E)%R) by apply Rnorm_pos.
    assert (Q3 : (theta ^ i * F <= c * (rho * rho) / 2)%R).
    { apply (Rle_trans _ (c * (rho * rho) / (2 * (F + 1)) * (F + 1))).
      - apply Rmult_le_compat; [apply pow_le; lra|lra|lra|lra].
      - right. field. lra. }
    destruct (Rle_dec E rho) as [?|N]; [assumption|exfalso].
    assert (c * (rho * rho) < c * (E * E))%R by (apply Rmult_lt_compat_l; [exact C0|]; nra). lra. }
  assert (HR : (eps < (gn_search_state (st (S j)) : R))%R).
  { destruct (C71_radius_pf Aux P eps fmax lsolve jac_of fn n m L y0 fs auxs st0 He Hf HE HP ltac:(lra) HS Heps Ly0 Hi) as (_ & Q & _).
    eapply Rlt_le_trans; [exact Heps|exact (Q j)]. }
  split; [exact NY|]. split; [exact HR|].
  assert (EK : S j = S (j + 0)) by lia.
  assert (NY' : near (y (S (j + 0)))) by (rewrite <- EK; exact NY).
  assert (HR' : (eps < (gn_search_state (st (S (j + 0))) : R))%R) by (rewrite <- EK; exact HR).
  destruct (C101_entering_pf Aux P eps fmax lsolve jac_of fn n m y0 root fs auxs sigma b gamma rho st0 j He Hf HE HP Lroot Hroot S0 b0 g0 HJ HL Hsmall Ly0 Hi NY' HR')
    as (A1 & _ & A3 & A4 & _ & A6).
  split; [|split].
  - intros k Hk. pose proof (A1 (k - S j)) as Q1. pose proof (A1 (S (k - S j))) as Q2.
    replace (S (j + (k - S j))) with k in Q1 by lia. replace (S (j + S (k - S j))) with (S k) in Q2 by lia.
    change (gn_num_accepted_steps (st k) = gn_num_accepted_steps (st (S (j + 0))) + (k - S j)) in Q1.
    change (gn_num_accepted_steps (st (S k)) = gn_num_accepted_steps (st (S (j + 0))) + S (k - S j)) in Q2. lia.
  - intros th Hth. destruct (A6 th Hth) as (K & HK). exists (S j + K). intros k Hk. specialize (HK (k - S j) ltac:(lia)).
    replace (S (j + (k - S j))) with k in HK by lia. replace (S (j + S (k - S j))) with (S k) in HK by lia. exact HK.
  - intros delta D0. set (q1 := ((/ (gn_search_state (st (S (j + 0))) : R) + b * gamma * rho) / (/ (gn_search_state (st (S (j + 0))) : R) + sigma))%R).
    change (q1 < 1)%R in A3. change (forall k, e (S (j + S k)) <= q1 * e (S (j + k)))%R in A4.
    assert (l0 : (0 < / (gn_search_state (st (S (j + 0))) : R))%R) by (apply Rinv_0_lt_compat; lra).
    assert (q0 : (0 <= q1)%R).
    { unfold q1. apply Rmult_le_pos; [|apply Rlt_le, Rinv_0_lt_compat; lra].
      assert (0 <= b * gamma * rho)%R by (repeat apply Rmult_le_pos; lra). lra. }
    assert (RT : forall k, (e (S (j + k)) <= rho * q1 ^ k)%R).
    { induction k as [|k IH]; [cbn [pow]; destruct NY' as (_ & Q); fold (e (S (j + 0))) in Q; lra|].
      eapply Rle_trans; [apply A4|]. cbn [pow]. replace (rho * (q1 * q1 ^ k))%R with (q1 * (rho * q1 ^ k))%R by ring. apply Rmult_le_compat_l; assumption. }
    destruct (pow_lt_1_zero q1 ltac:(rewrite Rabs_pos_eq; lra) (delta / rho) ltac:(apply Rdiv_lt_0_compat; lra)) as (K & HK).
    exists (S j + K). intros k Hk. specialize (HK (k - S j) ltac:(lia)). rewrite Rabs_pos_eq in HK by (apply pow_le; exact q0).
    specialize (RT (k - S j)). replace (S (j + (k - S j))) with k in RT by lia.
    eapply Rle_lt_trans; [exact RT|]. apply (Rmult_lt_compat_l rho) in HK; [|exact R0]. replace (rho * (delta / rho))%R with delta in HK by (field; lra). exact HK.
Qed.

(** x and sqrt (1 + x^2) - 1, both 0 at 0, from 2 *)
Definition cup (v : list R) : list R * unit := match v with [x] => ([x; sqrt (1 + x * x) - 1]%R, tt) | _ => ([0; 0]%R, tt) end.
Lemma cup_hyps :
  let r x := fst (cup x) in let J := hyperbola_jac cup in
  let near x := length x = 1 /\ (Rnorm (Rsub_v x [0]) <= 1 / 1000)%R in
  residual_problem 1 2 r J /\ smooth 1 2 (half_squares r) (ls_gradient r J) /\ jac_bounded 1 2 J /\
  (forall x, length x = 1%nat -> / 2 * Rdot (r x) (r x) <= Rdot (ls_gradient r J x) (ls_gradient r J x))%R /\
  (forall x, length x = 1%nat -> 1 * Rdot (Rsub_v x [0]) (Rsub_v x [0]) <= Rdot (r x) (r x))%R /\
  r [0%R] = zerov 2 /\
  (forall x v, near x -> length v = 1%nat ->
     1 * Rdot v v <= Rdot (op_mv (J x) v) (op_mv (J x) v) /\ Rdot (op_mv (J x) v) (op_mv (J x) v) <= 3 / 2 * (3 / 2) * Rdot v v)%R /\
  (forall x x', near x -> near x' ->
     Rnorm (Rsub_v (Rsub_v (r x') (r x)) (op_mv (J x) (Rsub_v x' x))) <= 2 * Rdot (Rsub_v x' x) (Rsub_v x' x))%R.
Proof.
  intros r J near.
  assert (EJ : forall x v, op_mv (J [x]) [v] = [v; x / sqrt (1 + x * x) * v]%R).
  { intros x v. unfold J. cbn. rewrite ?Q2R_0. f_equal; [ring|]. f_equal. ring. }
  assert (C : forall x, (0 <= (x / sqrt (1 + x * x)) * (x / sqrt (1 + x * x)) <= 1)%R).
  { intro x. split; [apply Rle_0_sqr|]. destruct (hyp_pos x) as [E1 E2].
    replace (x / sqrt (1 + x * x) * (x / sqrt (1 + x * x)))%R with (x * x / (sqrt (1 + x * x) * sqrt (1 + x * x)))%R by (field; lra).
    rewrite E2. assert (0 <= x * x)%R by apply Rle_0_sqr. apply (Rmult_le_reg_r (1 + x * x)); [lra|].
    unfold Rdiv. rewrite Rmult_assoc, Rinv_l by lra. lra. }
  assert (S1 : forall x, (1 <= sqrt (1 + x * x))%R).
  { intro x. rewrite <- sqrt_1 at 1. apply sqrt_le_1_alt. assert (0 <= x * x)%R by apply Rle_0_sqr. lra. }
  assert (ER : forall x, Rdot (r [x]) (r [x]) = (2 * (x * x) + 2 - 2 * sqrt (1 + x * x))%R).
  { intro x. unfold r. cbn. destruct (hyp_pos x) as [_ E]. set (a := sqrt (1 + x * x)) in *.
    replace (x * x + ((a - 1) * (a - 1) + 0))%R with (x * x + (a * a - 2 * a + 1))%R by ring. rewrite E. ring. }
  assert (EG : forall x, ls_gradient r J [x] = [(x * (2 - / sqrt (1 + x * x)))%R]).
  { intro x. unfold ls_gradient, J, r. cbn. f_equal. rewrite ?Q2R_0. destruct (hyp_pos x) as [E1 _]. field. lra. }
  assert (tangent : forall x d, (sqrt (1 + x * x) + x / sqrt (1 + x * x) * d <= sqrt (1 + (x + d) * (x + d)))%R).
  { intros x d. destruct (hyp_pos x) as [E1 E2]. destruct (hyp_pos (x + d)) as [F1 F2].
    set (a := sqrt (1 + x * x)) in *. set (b := sqrt (1 + (x + d) * (x + d))) in *.
    assert (Q : (a * a + x * d <= a * b)%R).
    { destruct (Rle_dec (a * a + x * d) 0) as [N|N]; [assert (0 < a * b)%R by (apply Rmult_lt_0_compat; assumption); lra|].
      apply Rsqr_incr_0_var; [|apply Rlt_le, Rmult_lt_0_compat; assumption]. unfold Rsqr.
      replace (a * b * (a * b))%R with ((a * a) * (b * b))%R by ring. rewrite E2, F2.
      assert (0 <= d * d)%R by apply Rle_0_sqr. lra. }
    apply (Rmult_le_reg_l a); [exact E1|]. replace (a * (a + x / a * d))%R with (a * a + x * d)%R by (field; lra). exact Q. }
  split; [intros [|x [|? ?]] H; try discriminate H; split; [reflexivity|]; apply mat_linear; repeat constructor|].
  split; [|split; [|split; [|split; [|split; [|split]]]]].
  - split; [intros [|x [|? ?]] H; try discriminate H; rewrite EG; reflexivity|].
    intros [|x [|? ?]] [|d [|? ?]] H1 H2; try discriminate. cbn [Radd_v]. unfold half_squares. rewrite !ER, EG. cbn.
    pose proof (tangent x d) as T. destruct (hyp_pos x) as [E1 _]. replace (x / sqrt (1 + x * x))%R with (x * / sqrt (1 + x * x))%R in T by reflexivity. lra.
  - intros [|x [|? ?]] [|v [|? ?]] H1 H2; try discriminate. rewrite EJ. cbn. specialize (C x).
    assert (0 <= v * v)%R by apply Rle_0_sqr. set (c := (x / sqrt (1 + x * x))%R) in *.
    assert (c * c * (v * v) <= 1 * (v * v))%R by (apply Rmult_le_compat_r; lra). lra.
  - intros [|x [|? ?]] H; try discriminate H. rewrite ER, EG. cbn. specialize (S1 x). set (a := sqrt (1 + x * x)) in *.
    assert (I : (0 < / a <= 1)%R) by (split; [apply Rinv_0_lt_compat; lra|rewrite <- Rinv_1; apply Rinv_le_contravar; lra]).
    assert (0 <= x * x)%R by apply Rle_0_sqr. set (u := (2 - / a)%R) in *. assert (1 <= u)%R by (unfold u; lra).
    assert (x * x * 1 <= x * x * (u * u))%R by (apply Rmult_le_compat_l; [assumption|]; nra). lra.
  - intros [|x [|? ?]] H; try discriminate H. unfold r. cbn. rewrite ?Rminus_0_r. set (a := sqrt (1 + x * x)).
    assert (0 <= (a - 1) * (a - 1))%R by apply Rle_0_sqr. lra.
  - unfold r, zerov. cbn. f_equal. f_equal. rewrite Rmult_0_r, Rplus_0_r, sqrt_1. lra.
  - intros [|x [|? ?]] [|v [|? ?]] (H1 & _) H2; try discriminate. rewrite EJ. cbn. specialize (C x).
    assert (0 <= v * v)%R by apply Rle_0_sqr. set (c := (x / sqrt (1 + x * x))%R) in *.
    assert (c * c * (v * v) <= 1 * (v * v))%R by (apply Rmult_le_compat_r; lra). assert (0 <= c * c * (v * v))%R by (apply Rmult_le_pos; lra). lra.
  - intros [|x [|? ?]] [|x' [|? ?]] (Lx & _) (Lx' & _); try discriminate. cbn [Rsub_v]. rewrite EJ. unfold r. cbn [fst cup Rsub_v Rdot].
    set (d := (x' - x)%R). replace x' with (x + d)%R by (unfold d; ring). replace (x + d - x - d)%R with 0%R by ring.
    pose proof (tangent x d) as T1. pose proof (tangent (x + d)%R (- d)%R) as T2. replace (x + d + - d)%R with x in T2 by ring.
    destruct (hyp_pos x) as [E1 E2]. destruct (hyp_pos (x + d)) as [F1 F2]. pose proof (S1 x) as A1. pose proof (S1 (x + d)%R) as B1.
    set (a := sqrt (1 + x * x)) in *. set (b := sqrt (1 + (x + d) * (x + d))) in *.
    set (u := (b - 1 - (a - 1) - x / a * d)%R). assert (U0 : (0 <= u)%R) by (unfold u; lra).
    assert (U1 : (u <= 2 * (d * d))%R).
    { unfold u. assert (Q1 : (b - a <= (x + d) / b * d)%R) by lra.
      assert (Q2 : ((x + d) / b * d - x / a * d <= 2 * (d * d))%R).
      { apply (Rmult_le_reg_r (a * b)); [apply Rmult_lt_0_compat; assumption|].
        replace (((x + d) / b * d - x / a * d) * (a * b))%R with (d * d * a + x * d * (a - b))%R by (field; lra).
        assert (AB : (Rabs (a - b) <= Rabs d)%R).
        { apply Rsqr_le_abs_0. unfold Rsqr.
          assert (Q : (x * (x + d) + 1 <= a * b)%R).
          { apply (Rmult_le_compat_l a) in T1; [|lra]. replace (a * (a + x / a * d))%R with (a * a + x * d)%R in T1 by (field; lra). rewrite E2 in T1. lra. }
          replace ((a - b) * (a - b))%R with (a * a + b * b - 2 * (a * b))%R by ring. rewrite E2, F2. lra. }
        assert (AX : (Rabs x <= a)%R).
        { apply Rsqr_incr_0_var; [|lra]. rewrite <- Rsqr_abs. unfold Rsqr. rewrite E2. lra. }
        assert (Q3 : (x * d * (a - b) <= a * (d * d))%R).
        { eapply Rle_trans; [apply Rle_abs|]. rewrite !Rabs_mult. replace (a * (d * d))%R with (a * (Rabs d * Rabs d))%R.
          - rewrite Rmult_assoc. apply Rmult_le_compat; try apply Rabs_pos; [apply Rmult_le_pos; apply Rabs_pos|exact AX|apply Rmult_le_compat_l; [apply Rabs_pos|exact AB]].
          - f_equal. rewrite <- Rabs_mult. apply Rabs_pos_eq. apply Rle_0_sqr. }
        assert (0 <= d * d)%R by apply Rle_0_sqr. assert (d * d * a * 1 <= d * d * a * b)%R by (apply Rmult_le_compat_l; [apply Rmult_le_pos; lra|exact B1]). lra. }
      lra. }
    assert (EN : Rnorm [0%R; u] = u).
    { apply Rsqr_inj; [apply Rnorm_pos|exact U0|]. unfold Rsqr. rewrite Rnorm_sq. cbn. ring. }
    replace (d - d)%R with 0%R by ring. rewrite EN. lra.
Qed.

Example C101_global_ex_pf :
  let s := LevenbergMarquardt (N:=RN) (mkTols (N:=RN) (1/10)%R 1%R max_norm) hyperbola_jac lsolve1 (1/100)%R 1000%R in
  let st0 := gn_st0 (N:=RN) (classical_trust_region (N:=RN) tr_default) (damped_newton_descent (N:=RN) lsolve1 (1/100)%R 1000%R) [2%R] (fun _ => [0; 0]%R) (fun _ => tt) in
  let y k := y_at s cup [2%R] st0 tt k in let e k := Rnorm (Rsub_v (y k) [0%R]) in
  s_init s cup [2%R] (fun _ => [0; 0]%R) (fun _ => tt) = Ret st0 /\
  (exists j, (e (S j) <= 1 / 1000)%R) /\
  (forall theta, (0 < theta)%R -> exists K, forall k, K <= k -> (e (S k) <= theta * e k)%R).
Proof.
  intros s st0 y e. assert (Hi : s_init s cup [2%R] (fun _ => [0; 0]%R) (fun _ => tt) = Ret st0) by reflexivity. split; [exact Hi|].
  destruct cup_hyps as (H1 & H2 & H3 & H4 & H5 & H6 & H7 & H8).
  assert (Hm : (1 / 100 < Rmin 1 (99 / (200 * 2)))%R) by (apply Rmin_glb_lt; lra).
  destruct (C101_global_pf unit (mkTols (N:=RN) (1/10)%R 1%R max_norm) (1/100)%R 1000%R lsolve1 hyperbola_jac cup 1 2 [2%R] [0%R] _ _ 2%R 2%R (/ 2)%R 1%R
    1%R (3/2)%R 2%R (1/1000)%R st0 ltac:(lra) ltac:(lra) (proj1 C32_levenberg_marquardt_ex_pf) H1 H2 ltac:(lra) H3 ltac:(lra) H4 Hm ltac:(lra) H5 eq_refl H6
    ltac:(lra) ltac:(lra) ltac:(lra) ltac:(lra) H7 H8 ltac:(lra) eq_refl Hi) as (j & (_ & A) & _ & _ & B & _).
  split; [exists j; exact A|exact B].
Qed.

Example C101_entering_ex_pf :
  let s := LevenbergMarquardt (N:=RN) (mkTols (N:=RN) (1/10)%R 1%R max_norm) hyperbola_jac lsolve1 (1/100)%R 1000%R in
  let st0 := gn_st0 (N:=RN) (classical_trust_region (N:=RN) tr_default) (damped_newton_descent (N:=RN) lsolve1 (1/100)%R 1000%R) [2%R] (fun _ => [0; 0]%R) (fun _ => tt) in
  let y k := y_at s cup [2%R] st0 tt k in let radius k : R := gn_search_state (st_at s cup [2%R] st0 tt k) in
  exists j, (length (y (S (j + 0))) = 1%nat /\ (Rnorm (Rsub_v (y (S (j + 0))) [0%R]) <= 1 / 1000)%R) /\ (1 / 100 < radius (S (j + 0)))%R /\
    forall k, y (S (j + k)) = [0%R] \/ radius (S (j + k)) = (radius (S (j + 0)) * (7 / 2) ^ k)%R.
Proof.
  intros s st0 y radius. assert (Hi : s_init s cup [2%R] (fun _ => [0; 0]%R) (fun _ => tt) = Ret st0) by reflexivity.
  destruct cup_hyps as (H1 & H2 & H3 & H4 & H5 & H6 & H7 & H8).
  assert (Hm : (1 / 100 < Rmin 1 (99 / (200 * 2)))%R) by (apply Rmin_glb_lt; lra).
  destruct (C101_global_pf unit (mkTols (N:=RN) (1/10)%R 1%R max_norm) (1/100)%R 1000%R lsolve1 hyperbola_jac cup 1 2 [2%R] [0%R] _ _ 2%R 2%R (/ 2)%R 1%R
    1%R (3/2)%R 2%R (1/1000)%R st0 ltac:(lra) ltac:(lra) (proj1 C32_levenberg_marquardt_ex_pf) H1 H2 ltac:(lra) H3 ltac:(lra) H4 Hm ltac:(lra) H5 eq_refl H6
    ltac:(lra) ltac:(lra) ltac:(lra) ltac:(lra) H7 H8 ltac:(lra) eq_refl Hi) as (j & A & A2 & _).
  assert (EK : S j = S (j + 0)) by lia. rewrite EK in A, A2. exists j. split; [exact A|]. split; [exact A2|].
  destruct (C101_entering_pf unit (mkTols (N:=RN) (1/10)%R 1%R max_norm) (1/100)%R 1000%R lsolve1 hyperbola_jac cup 1 2 [2%R] [0%R] _ _
    1%R (3/2)%R 2%R (1/1000)%R st0 j ltac:(lra) ltac:(lra) (proj1 C32_levenberg_marquardt_ex_pf) H1 eq_refl H6
    ltac:(lra) ltac:(lra) ltac:(lra) H7 H8 ltac:(lra) eq_refl Hi A A2) as (_ & B & _).
  exact B.
Qed.
