(** The root find inside IndirectLevenbergMarquardt (C121). *)

From Coq Require Import String List Bool Arith Lia ZArith QArith Qreals Reals Lra Psatz.
From Coquelicot Require Import Coquelicot.
From Verif Require Import Num NumFacts Vec Results Iterate Spec_Iterate Iterate_proofs.
From Verif Require Import Spec_Vec VecFacts Spec_Lin LinFacts.
From Verif Require Import Search Spec_Search Descent Minimisers Solvers.
From Verif Require Import LeastSquares_proofs Dogleg_proofs Spec_Steps Steps_proofs Spec_Convergence Convergence_proofs DoglegConv_proofs Spec_IndirectConv IndirectConv_proofs LMLocal_proofs.
From Verif Require Import NewtonChord Spec_NewtonChord NewtonChord_proofs InnerRoot Spec_Inner.
Import ListNotations.
Local Open Scope nat_scope.

Lemma add_zero_app : forall k (u p q : list R), length u = k -> Radd_v (u ++ p) (zerov k ++ q) = u ++ Radd_v p q.
Proof.
  induction k as [|k IH]; intros [|a u] p q Lu; try discriminate; [reflexivity|]. cbn. f_equal; [ring|]. apply IH. exact (eq_add_S _ _ Lu).
Qed.

(** ** The length of the damped step as a function of the damping *)
Section Secular.
  Local Open Scope R_scope.
  Variables (n m : nat) (A : linop RN) (lsolve : linop RN -> list R -> list R * results) (sigma B : R).
  Hypothesis HA : linear_op n m A.
  Hypothesis HE : exact_least_squares n lsolve.
  Hypothesis HS : 0 < sigma <= B.
  Hypothesis HI : forall v : list R, length v = n -> sigma * Rdot v v <= Rdot (op_mv A v) (op_mv A v).
  Hypothesis HB : forall v : list R, length v = n -> Rdot (op_mv A v) (op_mv A v) <= B * Rdot v v.

  Let E (l : R) (x e : list R) : R := Rdot (op_mv A x) (op_mv A e) + l * Rdot x e.
  Definition solves (l : R) (x : list R) (F : list R -> R) : Prop := length x = n /\ forall e : list R, length e = n -> E l x e = F e.

  Lemma E_comm : forall l x e, E l x e = E l e x.
  Proof. intros l x e. unfold E. rewrite (Rdot_comm (op_mv A x)), (Rdot_comm x). reflexivity. Qed.
  Lemma E_pos : forall l x, length x = n -> 0 <= l -> 0 <= (l + sigma) * Rdot x x <= E l x x.
  Proof. intros l x Lx Hl. unfold E. pose proof (HI x Lx). pose proof (Rdot_pos x). split; [apply Rmult_le_pos; lra|lra]. Qed.
  Lemma comb_length : forall (x y : list R) t, length x = n -> length y = n -> length (Radd_v x (Rscal t y)) = n.
  Proof. intros x y t Lx Ly. apply Radd_v_length; [exact Lx|rewrite Rscal_length; exact Ly]. Qed.
  Lemma dot_comb : forall (x y : list R) t e, length x = n -> length y = n -> Rdot (Radd_v x (Rscal t y)) e = Rdot x e + t * Rdot y e.
  Proof. intros x y t e Lx Ly. rewrite Rdot_add_l by (rewrite Rscal_length; congruence). rewrite Rdot_scal_l. reflexivity. Qed.
  Lemma E_comb : forall l (x y : list R) t e, length x = n -> length y = n -> E l (Radd_v x (Rscal t y)) e = E l x e + t * E l y e.
  Proof.
    intros l x y t e Lx Ly. unfold E. rewrite dot_comb by assumption. destruct HA as (L1 & L2 & L3).
    rewrite L2, L3 by (rewrite ?Rscal_length; assumption).
    assert (Lu : length (op_mv A x : list R) = m) by (apply L1; exact Lx). assert (Lv : length (op_mv A y : list R) = m) by (apply L1; exact Ly).
    revert Lu Lv. generalize (op_mv A x : list R) as u. generalize (op_mv A y : list R) as v. generalize (op_mv A e : list R) as w. intros w v u Lu Lv.
    rewrite Rdot_add_l by (rewrite Rscal_length; congruence). rewrite Rdot_scal_l. ring.
  Qed.
  Lemma solves_comb : forall l x y F G t, solves l x F -> solves l y G -> solves l (Radd_v x (Rscal t y)) (fun e => F e + t * G e).
  Proof.
    intros l x y F G t (Lx & Hx) (Ly & Hy). split; [apply comb_length; assumption|]. intros e Le.
    rewrite E_comb by assumption. rewrite Hx, Hy by exact Le. reflexivity.
  Qed.
  Lemma E_shift : forall l l' x e, E l' x e = E l x e + (l' - l) * Rdot x e.
  Proof. intros. unfold E. ring. Qed.
  Lemma solves_same : forall l x y F G, 0 <= l -> solves l x F -> solves l y G -> (forall e : list R, length e = n -> F e = G e) -> x = y.
  Proof.
    intros l x y F G Hl (Lx & Hx) (Ly & Hy) FG.
    assert (Z : E l (Radd_v x (Rscal (-1) y)) (Radd_v x (Rscal (-1) y)) = 0).
    { rewrite E_comb by assumption. rewrite Hx, Hy, FG by (apply comb_length; assumption). ring. }
    pose proof (comb_length x y (-1) Lx Ly) as LD. pose proof (E_pos l _ LD Hl) as P. rewrite Z in P.
    assert (D0 : Rdot (Radd_v x (Rscal (-1) y)) (Radd_v x (Rscal (-1) y)) = 0).
    { destruct P as [P1 P2]. assert (Q : (l + sigma) * Rdot (Radd_v x (Rscal (-1) y)) (Radd_v x (Rscal (-1) y)) = 0) by lra.
      apply Rmult_integral in Q. destruct Q; lra. }
    apply Rdot_0_inv in D0. rewrite LD in D0. clear - D0 Lx Ly. revert n x y Lx Ly D0.
    induction n as [|k IH]; intros [|a x] [|b y] Lx Ly D0; try discriminate; [reflexivity|].
    cbn in D0. injection D0 as D1 D2. f_equal; [lra|]. apply IH; [exact (eq_add_S _ _ Lx)|exact (eq_add_S _ _ Ly)|exact D2].
  Qed.

  Lemma solve_exists : forall l (v : list R), 0 < l -> length v = n -> exists x, solves l x (Rdot v).
  Proof.
    intros l v Hl Lv. set (h := l / 2). assert (Hh : 0 < h) by (unfold h; lra).
    set (K := damped_jac (N:=RN) n A h m). pose proof (damped_linear n m A h HA) as HK. fold K in HK.
    set (b := zerov m ++ Rscal (- / sqrt h) v).
    assert (Lb : length b = (m + n)%nat) by (unfold b; rewrite app_length, zerov_length, Rscal_length, Lv; reflexivity).
    assert (Hp : 0 < / h) by (apply Rinv_0_lt_compat; exact Hh).
    destruct (damped_step_min lsolve 0 1 n (m + n) K b (/ h) HE HK Lb ltac:(lra)) as [L M].
    rewrite Rinv_inv in M. set (x := Rscal (-1) _) in *.
    destruct (damped_minimiser n (m + n) K b h HK Lb Hh x L M) as [Z _]. exists x. split; [exact L|]. intros e Le. specialize (Z e Le).
    unfold K in Z. rewrite !damped_mv in Z. unfold b in Z.
    assert (Lx' : length (op_mv A x : list R) = m) by (apply HA; exact L). assert (Le' : length (op_mv A e : list R) = m) by (apply HA; exact Le).
    unfold E. revert Z Lx' Le'. generalize (op_mv A x : list R) as u. generalize (op_mv A e : list R) as w. intros w u Z Lu Lw.
    assert (AP : Radd_v (u ++ Rscal (sqrt h) x) (zerov m ++ Rscal (- / sqrt h) v) = u ++ Radd_v (Rscal (sqrt h) x) (Rscal (- / sqrt h) v)).
    { apply add_zero_app. exact Lu. }
    rewrite AP in Z. rewrite Rdot_app in Z by congruence. rewrite Rdot_add_l in Z by (rewrite !Rscal_length; congruence).
    rewrite !Rdot_scal_l, !Rdot_scal_r in Z.
    assert (SQ : 0 < sqrt h) by (apply sqrt_lt_R0; exact Hh).
    replace (- / sqrt h * (sqrt h * Rdot v e)) with (- Rdot v e) in Z by (field; lra).
    replace (sqrt h * (sqrt h * Rdot x e)) with (sqrt h * sqrt h * Rdot x e) in Z by ring. rewrite sqrt_sqrt in Z by lra.
    replace l with (h + h) by (unfold h; field). lra.
  Qed.

  (** a solution is not longer than the right-hand side over l + sigma *)
  Lemma solve_small : forall l x v, 0 <= l -> length v = n -> solves l x (Rdot v) -> (l + sigma) * Rnorm x <= Rnorm v.
  Proof.
    intros l x v Hl Lv (Lx & Hx). pose proof (E_pos l x Lx Hl) as [_ P]. rewrite Hx in P by exact Lx.
    pose proof (Rnorm_dot v x ltac:(congruence)) as C. pose proof (Rle_abs (Rdot v x)). rewrite <- Rnorm_sq in P.
    pose proof (Rnorm_pos x) as Px. pose proof (Rnorm_pos v).
    destruct (Req_dec (Rnorm x) 0) as [-> |NE]; [lra|]. apply Rmult_le_reg_r with (Rnorm x); lra.
  Qed.

  Section Pair.
    Variables (l u : R) (G : list R -> R) (z w q c d : list R).
    Hypothesis Hl : 0 < l.
    Hypothesis Hu : 0 < u.
    Hypothesis Hz : solves l z G.
    Hypothesis Hw : solves u w G.
    Hypothesis Hq : solves l q (Rdot z).
    Hypothesis Hc : solves l c (Rdot w).
    Hypothesis Hd : solves l d (Rdot c).
    Let t := u - l.

    Lemma pair_w : w = Radd_v z (Rscal (- t) c).
    Proof.
      apply (solves_same l _ _ (fun e => G e + - t * Rdot w e) (fun e => G e + - t * Rdot w e) (Rlt_le _ _ Hl)); [|exact (solves_comb l z c _ _ (- t) Hz Hc)|reflexivity].
      destruct Hw as (Lw & Ew). split; [exact Lw|]. intros e Le. rewrite (E_shift u l), Ew by exact Le. unfold t. ring.
    Qed.
    Lemma pair_c : c = Radd_v q (Rscal (- t) d).
    Proof.
      apply (solves_same l _ _ _ _ (Rlt_le _ _ Hl) Hc (solves_comb l q d _ _ (- t) Hq Hd)). intros e Le.
      rewrite pair_w. destruct Hz as (Lz & _). destruct Hc as (Lc & _). apply dot_comb; assumption.
    Qed.
    Lemma pair_lengths : length z = n /\ length w = n /\ length q = n /\ length c = n /\ length d = n.
    Proof. exact (conj (proj1 Hz) (conj (proj1 Hw) (conj (proj1 Hq) (conj (proj1 Hc) (proj1 Hd))))). Qed.

    Lemma pair_cq : 0 <= Rdot c q.
    Proof.
      destruct pair_lengths as (Lz & Lw & Lq & Lc & Ld). destruct (Rle_dec 0 t) as [T|T].
      - assert (Q : Rdot q c = Rdot c c + t * Rdot d c).
        { rewrite pair_c at 2. rewrite dot_comb by assumption. ring. }
        rewrite Rdot_comm, Q. pose proof (Rdot_pos c). rewrite (Rdot_comm d c). destruct Hd as (_ & Ed). rewrite <- (Ed d Ld).
        pose proof (E_pos l d Ld (Rlt_le _ _ Hl)). assert (0 <= t * E l d d) by (apply Rmult_le_pos; lra). lra.
      - destruct (solve_exists u z Hu Lz) as (s & Hs). destruct (solve_exists l s Hl (proj1 Hs)) as (y & Hy).
        pose proof (proj1 Hs) as Ls. pose proof (proj1 Hy) as Ly.
        assert (Ew : w = Radd_v z (Rscal (- t) s)).
        { apply (solves_same u _ _ G (fun e => (G e + t * Rdot z e) + - t * Rdot z e) (Rlt_le _ _ Hu) Hw); [|intros; ring].
          apply (solves_comb u z s (fun e => G e + t * Rdot z e)); [|exact Hs]. split; [exact Lz|]. intros e Le.
          rewrite (E_shift l u), (proj2 Hz) by exact Le. reflexivity. }
        assert (Ec : c = Radd_v q (Rscal (- t) y)).
        { apply (solves_same l _ _ _ _ (Rlt_le _ _ Hl) Hc (solves_comb l q y _ _ (- t) Hq Hy)). intros e Le. rewrite Ew. apply dot_comb; assumption. }
        assert (Eq' : forall e : list R, length e = n -> Rdot q e = Rdot s e + t * Rdot y e).
        { intros e Le. assert (Q : q = Radd_v s (Rscal t y)).
          { apply (solves_same l _ _ _ (fun e => (Rdot z e - t * Rdot s e) + t * Rdot s e) (Rlt_le _ _ Hl) Hq); [|intros; ring].
            apply (solves_comb l s y (fun e => Rdot z e - t * Rdot s e)); [|exact Hy]. split; [exact Ls|]. intros e' Le'.
            rewrite (E_shift u l), (proj2 Hs) by exact Le'. unfold t. ring. }
          rewrite Q at 1. apply dot_comb; assumption. }
        assert (Py : Rdot q y = E u y y).
        { rewrite (Eq' y Ly), (E_shift l u), (proj2 Hy y Ly). reflexivity. }
        rewrite Ec at 1. rewrite dot_comb by assumption. rewrite (Rdot_comm y q), Py. pose proof (E_pos u y Ly (Rlt_le _ _ Hu)). pose proof (Rdot_pos q).
        assert (0 <= - t * E u y y) by (apply Rmult_le_pos; lra). lra.
    Qed.

    (** the tangent lies below *)
    Lemma pair_tangent : Rdot z z - t * Rdot z q <= Rnorm w * Rnorm z.
    Proof.
      destruct pair_lengths as (Lz & Lw & Lq & Lc & Ld).
      assert (W : Rdot w z = Rdot z z - t * Rdot c z) by (rewrite pair_w at 1; rewrite dot_comb by assumption; ring).
      assert (Q : Rdot c z = Rdot w q).
      { rewrite (Rdot_comm c z). rewrite <- (proj2 Hq c Lc), E_comm. apply (proj2 Hc q Lq). }
      assert (V : Rdot w q = Rdot z q - t * Rdot c q) by (rewrite pair_w at 1; rewrite dot_comb by assumption; ring).
      pose proof (Rnorm_dot w z ltac:(congruence)) as C. pose proof (Rle_abs (Rdot w z)).
      assert (0 <= t * t * Rdot c q) by (apply Rmult_le_pos; [nra|exact pair_cq]). rewrite Q, V in W. nra.
    Qed.

    Lemma pair_slope : (l + sigma) * Rdot z q <= Rdot z z <= (l + B) * Rdot z q /\ 0 <= Rdot z q.
    Proof.
      destruct pair_lengths as (Lz & Lw & Lq & Lc & Ld).
      assert (ZQ : Rdot z q = Rdot (op_mv A q) (op_mv A q) + l * Rdot q q) by (rewrite <- (proj2 Hq q Lq); reflexivity).
      pose proof (HI q Lq) as I1. pose proof (HB q Lq) as B1. pose proof (Rdot_pos q) as Q0.
      assert (P0 : 0 <= Rdot z q) by (rewrite ZQ; pose proof (Rdot_pos (op_mv A q)); assert (0 <= l * Rdot q q) by (apply Rmult_le_pos; lra); lra).
      split; [split|exact P0].
      - pose proof (Rdot_CS z q ltac:(congruence)) as C.
        assert (QZ : (l + sigma) * Rdot q q <= Rdot z q) by (rewrite ZQ; lra).
        assert (ls : 0 < l + sigma) by lra.
        destruct (Req_dec (Rdot z q) 0) as [Z|NZ]; [rewrite Z, Rmult_0_r; apply Rdot_pos|].
        apply Rmult_le_reg_r with (Rdot z q); [lra|].
        assert (Rdot z q * Rdot z q <= Rdot z z * Rdot q q) by (lra).
        pose proof (Rdot_pos z). assert (Rdot z z * ((l + sigma) * Rdot q q) <= Rdot z z * Rdot z q) by (apply Rmult_le_compat_l; lra). nra.
      - set (s := / (l + B)). assert (Hs : 0 < s) by (apply Rinv_0_lt_compat; lra).
        pose proof (E_pos l (Radd_v q (Rscal (- s) z)) ltac:(apply comb_length; assumption) (Rlt_le _ _ Hl)) as [P1 P2].
        assert (P3 : 0 <= E l (Radd_v q (Rscal (- s) z)) (Radd_v q (Rscal (- s) z))) by lra.
        rewrite E_comb in P3 by assumption. rewrite (E_comm l q), (E_comm l z), !E_comb in P3 by assumption.
        rewrite (E_comm l z q), (proj2 Hq q Lq), (proj2 Hq z Lz) in P3.
        assert (EZ : E l z z <= (l + B) * Rdot z z) by (unfold E; pose proof (HB z Lz); lra).
        assert (s * s * E l z z <= s * s * ((l + B) * Rdot z z)) by (apply Rmult_le_compat_l; [nra|exact EZ]).
        replace (s * s * ((l + B) * Rdot z z)) with (s * Rdot z z) in H by (unfold s; field; lra).
        assert (F : s * Rdot z z <= Rdot z q) by lra.
        apply Rmult_le_reg_l with s; [exact Hs|]. replace (s * ((l + B) * Rdot z q)) with (Rdot z q) by (unfold s; field; lra). exact F.
    Qed.

    (** the second-order remainder *)
    Lemma pair_upper : 0 < Rnorm z -> Rnorm w <= Rnorm z - t * (Rdot z q / Rnorm z) + t * t * (Rdot q q / (2 * Rnorm z) + Rnorm w / (l * l)).
    Proof.
      intro PZ. destruct pair_lengths as (Lz & Lw & Lq & Lc & Ld).
      assert (W : w = Radd_v (Radd_v z (Rscal (- t) q)) (Rscal (t * t) d)).
      { rewrite pair_w at 1. rewrite pair_c at 1. clear - Lz Lq Ld. generalize t as s. intro s. revert n z q d Lz Lq Ld.
        induction n as [|k IH]; intros [|a z] [|b q] [|e d] Lz Lq Ld; try discriminate; [reflexivity|]. cbn. f_equal; [ring|]. apply IH; apply eq_add_S; assumption. }
      pose proof (Rnorm_add (Radd_v z (Rscal (- t) q)) (Rscal (t * t) d) ltac:(rewrite comb_length, Rscal_length by assumption; congruence)) as TR.
      rewrite <- W in TR. rewrite Rnorm_scal in TR by nra.
      pose proof (solve_small l d c (Rlt_le _ _ Hl) Lc Hd) as Sd. pose proof (solve_small l c w (Rlt_le _ _ Hl) Lw Hc) as Sc.
      pose proof (Rnorm_pos d) as Pd. pose proof (Rnorm_pos c) as Pc. pose proof (Rnorm_pos w) as Pw.
      assert (DW : Rnorm d <= Rnorm w / (l * l)).
      { apply Rmult_le_reg_r with (l * l); [nra|]. replace (Rnorm w / (l * l) * (l * l)) with (Rnorm w) by (field; lra).
        assert (l * Rnorm d <= Rnorm c) by nra. assert (l * Rnorm c <= Rnorm w) by nra. assert (l * (l * Rnorm d) <= l * Rnorm c) by (apply Rmult_le_compat_l; lra). lra. }
      assert (ZQ : Rnorm (Radd_v z (Rscal (- t) q)) <= Rnorm z - t * (Rdot z q / Rnorm z) + t * t * (Rdot q q / (2 * Rnorm z))).
      { assert (SQ : Rdot (Radd_v z (Rscal (- t) q)) (Radd_v z (Rscal (- t) q)) = Rdot z z - 2 * t * Rdot z q + t * t * Rdot q q).
        { rewrite dot_comb by assumption. rewrite (Rdot_comm z), (Rdot_comm q). rewrite !dot_comb by assumption. rewrite (Rdot_comm q z). ring. }
        pose proof (Rnorm_sq (Radd_v z (Rscal (- t) q))) as SN. rewrite SQ, <- (Rnorm_sq z) in SN.
        set (a := Rnorm (Radd_v z (Rscal (- t) q))) in *. set (b := Rnorm z) in *.
        apply Rmult_le_reg_r with (2 * b); [lra|].
        replace ((b - t * (Rdot z q / b) + t * t * (Rdot q q / (2 * b))) * (2 * b)) with (2 * (b * b) - 2 * t * Rdot z q + t * t * Rdot q q) by (field; lra).
        assert (0 <= (a - b) * (a - b)) by apply Rle_0_sqr. lra. }
      assert (t * t * Rnorm d <= t * t * (Rnorm w / (l * l))) by (apply Rmult_le_compat_l; [nra|exact DW]). lra.
    Qed.
  End Pair.

  (** damped steps for two dampings *)
  Lemma solve_ratio : forall l u z w (g : list R), 0 <= l <= u -> length g = n -> solves l z (Rdot g) -> solves u w (Rdot g) ->
    Rnorm z * (l + sigma) <= Rnorm w * (u + sigma).
  Proof.
    intros l u z w g [Hl Hu] Lg (Lz & Ez) (Lw & Ew).
    assert (HX : solves l (Radd_v z (Rscal (-1) w)) (Rdot (Rscal (u - l) w))).
    { split; [apply comb_length; assumption|]. intros e Le. rewrite E_comb by assumption. rewrite Ez, (E_shift u l), Ew by exact Le. rewrite Rdot_scal_l. ring. }
    pose proof (solve_small l _ _ Hl ltac:(rewrite Rscal_length; exact Lw) HX) as S. rewrite Rnorm_scal in S by lra.
    assert (Z : z = Radd_v (Radd_v z (Rscal (-1) w)) w).
    { clear - Lz Lw. revert n z w Lz Lw. induction n as [|k IH]; intros [|a z] [|b w] Lz Lw; try discriminate; [reflexivity|]. cbn. f_equal; [ring|]. apply IH; apply eq_add_S; assumption. }
    pose proof (Rnorm_add (Radd_v z (Rscal (-1) w)) w ltac:(rewrite comb_length by assumption; congruence)) as TR. rewrite <- Z in TR.
    pose proof (Rnorm_pos w). assert (Rnorm z * (l + sigma) <= (Rnorm (Radd_v z (Rscal (-1) w)) + Rnorm w) * (l + sigma)) by (apply Rmult_le_compat_r; lra). lra.
  Qed.
End Secular.

Section Length.
  Local Open Scope R_scope.
  Variables (n m : nat) (A : linop RN) (r : list R) (lsolve : linop RN -> list R -> list R * results) (sigma B : R).
  Hypothesis HA : linear_op n m A.
  Hypothesis HT : transpose_op n A.
  Hypothesis Hr : length r = m.
  Hypothesis HE : exact_least_squares n lsolve.
  Hypothesis HS : 0 < sigma <= B.
  Hypothesis HI : forall v : list R, length v = n -> sigma * Rdot v v <= Rdot (op_mv A v) (op_mv A v).
  Hypothesis HB : forall v : list R, length v = n -> Rdot (op_mv A v) (op_mv A v) <= B * Rdot v v.

  Definition zf (l : R) : list R := Rscal (-1) (fst (damped_newton_step (N:=RN) lsolve 0%R 1%R n (/ l) (ResidualJac (N:=RN) r A))).
  Definition Nf (l : R) : R := Rnorm (zf l).
  Let g : list R := Rscal (-1) (op_mvT A r).
  Let zn : list R := fst (lsolve A r).
  Let sol := solves n A.

  Lemma g_length : length g = n.
  Proof. unfold g. rewrite Rscal_length. apply HT. Qed.
  Lemma g_dot : forall e : list R, length e = n -> Rdot g e = - Rdot r (op_mv A e).
  Proof. intros e Le. unfold g. rewrite Rdot_scal_l. assert (Q : Rdot (op_mvT A r) e = Rdot r (op_mv A e)) by (apply HT; exact Le). rewrite Q. ring. Qed.

  Lemma zf_min : forall l, 0 < l -> length (zf l) = n /\ forall w, length w = n -> damped_loss A r l (zf l) <= damped_loss A r l w.
  Proof.
    intros l Hl. assert (Hp : 0 < / l) by (apply Rinv_0_lt_compat; exact Hl).
    destruct (damped_step_min lsolve 0 1 n m A r (/ l) HE HA Hr ltac:(lra)) as [L M]. rewrite Rinv_inv in M. split; [exact L|exact M].
  Qed.
  Lemma min_solves : forall l z, 0 < l -> length z = n -> (forall w, length w = n -> damped_loss A r l z <= damped_loss A r l w) -> sol l z (Rdot g).
  Proof.
    intros l z Hl L M. destruct (damped_minimiser n m A r l HA Hr Hl z L M) as [Z _]. split; [exact L|]. intros e Le. specialize (Z e Le).
    rewrite g_dot by exact Le. assert (Lz : length (op_mv A z : list R) = m) by (apply HA; exact L). rewrite Rdot_add_l in Z by (rewrite Hr; exact Lz). lra.
  Qed.
  Lemma zf_solves : forall l, 0 < l -> sol l (zf l) (Rdot g).
  Proof. intros l Hl. destruct (zf_min l Hl) as [L M]. apply min_solves; assumption. Qed.
  Lemma Nf_unique : forall l z, 0 < l -> length z = n -> (forall w, length w = n -> w <> z -> damped_loss A r l z < damped_loss A r l w) -> Rnorm z = Nf l.
  Proof.
    intros l z Hl L M. unfold Nf. f_equal. apply (solves_same n m A sigma B HA HS HI l z (zf l) (Rdot g) (Rdot g) (Rlt_le _ _ Hl)); [|apply zf_solves; exact Hl|reflexivity].
    apply min_solves; [exact Hl|exact L|]. intros w Lw. destruct (list_eq_dec Req_EM_T w z) as [-> |NE]; [lra|]. apply Rlt_le, M; assumption.
  Qed.
  Lemma zn_solves : sol 0 (Rscal (-1) zn) (Rdot g).
  Proof.
    destruct (HE m A r HA Hr) as [L M]. fold zn in L, M. split; [rewrite Rscal_length; exact L|]. intros e Le. rewrite g_dot by exact Le.
    destruct HA as (L1 & L2 & L3). rewrite L3 by exact L. rewrite !Rdot_scal_l.
    assert (Z : Rdot (Rsub_v (op_mv A zn) r) (op_mv A e) = 0).
    { apply (no_slope (Rdot (op_mv A e) (op_mv A e))); [apply Rdot_pos|]. intro t.
      pose proof (M (Radd_v zn (Rscal t e)) ltac:(apply Radd_v_length; [exact L|rewrite Rscal_length; exact Le])) as K.
      rewrite L2, L3 in K by (rewrite ?Rscal_length; assumption).
      assert (Lz : length (op_mv A zn : list R) = m) by (apply L1; exact L). assert (Lv : length (op_mv A e : list R) = m) by (apply L1; exact Le).
      revert K Lz Lv. generalize (op_mv A zn : list R) as p. generalize (op_mv A e : list R) as v. intros v p K Lp Lv.
      assert (EQ : Rsub_v (Radd_v p (Rscal t v)) r = Radd_v (Rsub_v p r) (Rscal t v)).
      { clear - Lp Lv Hr. revert m p v r Lp Lv Hr. induction m as [|k IH]; intros [|a p] [|b v] [|c r] Lp Lv Hr; try discriminate; [reflexivity|]. cbn. f_equal; [ring|]. apply IH; apply eq_add_S; assumption. }
      assert (Lpr : length (Rsub_v p r) = m) by (apply Rsub_v_length; assumption).
      rewrite EQ in K. rewrite Rdot_add_l, !Rdot_add_r in K by (rewrite Rscal_length; congruence). rewrite !Rdot_scal_l, !Rdot_scal_r in K.
      rewrite (Rdot_comm v (Rsub_v p r)) in K. lra. }
    assert (Lz : length (op_mv A zn : list R) = m) by (apply L1; exact L). rewrite Rdot_sub_l in Z by (rewrite Hr; exact Lz). lra.
  Qed.
  Lemma zn_norm : Rnorm (Rscal (-1) zn) = Rnorm zn.
  Proof. apply Rnorm_neg. Qed.

  Lemma Nf_ratio : forall l u, 0 < l <= u -> Nf l * (l + sigma) <= Nf u * (u + sigma).
  Proof. intros l u [Hl Hu]. exact (solve_ratio n m A sigma B HA HS HI l u (zf l) (zf u) g (conj (Rlt_le _ _ Hl) Hu) g_length (zf_solves l Hl) (zf_solves u ltac:(lra))). Qed.
  Lemma Nf_newton : forall l, 0 < l -> Rnorm zn * sigma <= Nf l * (l + sigma).
  Proof.
    intros l Hl. pose proof (solve_ratio n m A sigma B HA HS HI 0 l (Rscal (-1) zn) (zf l) g (conj (Rle_refl 0) (Rlt_le _ _ Hl)) g_length zn_solves (zf_solves l Hl)) as Q.
    rewrite zn_norm, Rplus_0_l in Q. exact Q.
  Qed.
  Lemma Nf_small : forall l, 0 < l -> l * Nf l <= B * Rnorm zn.
  Proof.
    intros l Hl. pose proof (solve_small n A sigma B HS HI l (zf l) g (Rlt_le _ _ Hl) g_length (zf_solves l Hl)) as S. fold (Nf l) in S.
    assert (P : 0 <= Nf l) by apply Rnorm_pos. assert (G : Rnorm g <= B * Rnorm zn); [|nra].
    rewrite <- zn_norm. set (x := Rscal (-1) zn). destruct zn_solves as (Lx & Ex). fold x in Lx, Ex.
    pose proof (Ex g g_length) as Q. cbn in Q. rewrite Rmult_0_l, Rplus_0_r in Q. pose proof (HB x Lx) as Bx. pose proof (HB g g_length) as Bg.
    set (ax := op_mv A x : list R) in *. set (ag := op_mv A g : list R) in *.
    assert (Lm : length ax = length ag) by (unfold ax, ag; rewrite !(proj1 HA); [reflexivity|exact g_length|exact Lx]).
    pose proof (Rdot_CS ax ag Lm) as C. rewrite Q in C.
    apply Rnorm_bound; [lra|]. pose proof (Rdot_pos g) as Pg. pose proof (Rdot_pos x) as Px. pose proof (Rdot_pos ax). pose proof (Rdot_pos ag).
    assert (Rdot ax ax * Rdot ag ag <= (B * Rdot x x) * (B * Rdot g g)) by (apply Rmult_le_compat; assumption).
    destruct (Req_dec (Rdot g g) 0) as [Z|NZ]; [rewrite Z; apply Rmult_le_pos; [nra|exact Px]|].
    apply Rmult_le_reg_r with (Rdot g g); [lra|]. lra.
  Qed.

  Lemma Nf_mono : forall l u, 0 < l <= u -> Nf u <= Nf l.
  Proof.
    intros l u [Hl Hu]. assert (Hu' : 0 < u) by lra.
    pose proof (zf_solves l Hl) as Sz. pose proof (zf_solves u Hu') as Sw.
    destruct (solve_exists n m A lsolve HA HE u (zf u) Hu' (proj1 Sw)) as (q & Hq).
    destruct (solve_exists n m A lsolve HA HE u (zf l) Hu' (proj1 Sz)) as (c & Hc).
    destruct (solve_exists n m A lsolve HA HE u c Hu' (proj1 Hc)) as (d & Hd).
    pose proof (pair_tangent n m A lsolve sigma B HA HE HS HI u l (Rdot g) (zf u) (zf l) q c d Hu' Hl Sw Sz Hq Hc Hd) as T.
    pose proof (pair_slope n m A sigma B HA HS HI HB u l (Rdot g) (zf u) (zf l) q c d Hu' Sw Sz Hq Hc Hd) as [_ P].
    fold (Nf l) (Nf u) in T. pose proof (Rnorm_sq (zf u)) as SQ. fold (Nf u) in SQ. assert (0 <= Nf u) by apply Rnorm_pos.
    assert (0 <= (u - l) * Rdot (zf u) q) by (apply Rmult_le_pos; lra).
    destruct (Req_dec (Nf u) 0) as [-> |NE]; [apply Rnorm_pos|]. apply Rmult_le_reg_r with (Nf u); lra.
  Qed.

  Lemma derive_of_square : forall (f : R -> R) l d C b, 0 < b -> (forall h, Rabs h <= b -> Rabs (f (l + h) - f l - h * d) <= C * (h * h)) -> is_derive f l d.
  Proof.
    intros f l d C b Hb H. apply is_derive_Reals. intros e He.
    assert (C0 : 0 <= C).
    { specialize (H b ltac:(rewrite Rabs_pos_eq; lra)). assert (P := Rabs_pos (f (l + b) - f l - b * d)). apply Rmult_le_reg_r with (b * b); nra. }
    assert (P : 0 < Rmin b (e / (C + 1))) by (apply Rmin_pos; [exact Hb|apply Rdiv_lt_0_compat; lra]).
    exists (mkposreal _ P). intros h NZ Hh. cbn in Hh. pose proof (Rmin_l b (e / (C + 1))). pose proof (Rmin_r b (e / (C + 1))).
    specialize (H h ltac:(lra)). assert (Ph : 0 < Rabs h) by (apply Rabs_pos_lt; exact NZ).
    replace ((f (l + h) - f l) / h - d) with ((f (l + h) - f l - h * d) / h) by (field; exact NZ).
    unfold Rdiv. rewrite Rabs_mult, Rabs_inv. apply Rmult_lt_reg_r with (Rabs h); [exact Ph|]. rewrite Rmult_assoc, Rinv_l, Rmult_1_r by lra.
    eapply Rle_lt_trans; [exact H|]. rewrite <- (Rabs_pos_eq (h * h)) by nra. rewrite Rabs_mult, <- Rmult_assoc. apply Rmult_lt_compat_r; [exact Ph|].
    assert (Q : (C + 1) * (e / (C + 1)) = e) by (field; lra). assert ((C + 1) * Rabs h < (C + 1) * (e / (C + 1))) by (apply Rmult_lt_compat_l; lra). nra.
  Qed.

  Lemma Nf_point : forall l, 0 < l -> 0 < Nf l -> exists d, is_derive Nf l d /\ (forall u, 0 < u -> Nf l + (u - l) * d <= Nf u) /\
    (l + sigma) * - d <= Nf l <= (l + B) * - d.
  Proof.
    intros l Hl PN. pose proof (zf_solves l Hl) as Sz. destruct (solve_exists n m A lsolve HA HE l (zf l) Hl (proj1 Sz)) as (q & Hq).
    assert (PR : forall u, 0 < u -> exists c d, solves n A l c (Rdot (zf u)) /\ solves n A l d (Rdot c)).
    { intros u Hu. destruct (solve_exists n m A lsolve HA HE l (zf u) Hl (proj1 (zf_solves u Hu))) as (c & Hc).
      destruct (solve_exists n m A lsolve HA HE l c Hl (proj1 Hc)) as (d & Hd). eauto. }
    set (zq := Rdot (zf l) q). set (d := - (zq / Nf l)). exists d.
    assert (TAN : forall u, 0 < u -> Nf l + (u - l) * d <= Nf u).
    { intros u Hu. destruct (PR u Hu) as (c & dd & Hc & Hd).
      pose proof (pair_tangent n m A lsolve sigma B HA HE HS HI l u (Rdot g) (zf l) (zf u) q c dd Hl Hu Sz (zf_solves u Hu) Hq Hc Hd) as T.
      fold (Nf l) (Nf u) zq in T. pose proof (Rnorm_sq (zf l)) as SQ. fold (Nf l) in SQ. apply Rmult_le_reg_r with (Nf l); [exact PN|].
      replace ((Nf l + (u - l) * d) * Nf l) with (Nf l * Nf l - (u - l) * zq) by (unfold d; field; lra). lra. }
    split; [|split; [exact TAN|]].
    - apply (derive_of_square Nf l d (Rdot q q / (2 * Nf l) + 2 * Nf l / (l * l)) (l / 2)); [lra|]. intros h Hh.
      assert (Hu : 0 < l + h) by (pose proof (Rle_abs (- h)) as Q; rewrite Rabs_Ropp in Q; lra).
      destruct (PR (l + h) Hu) as (c & dd & Hc & Hd).
      pose proof (pair_upper n m A sigma B HA HS HI l (l + h) (Rdot g) (zf l) (zf (l + h)) q c dd Hl Sz (zf_solves _ Hu) Hq Hc Hd PN) as U.
      fold (Nf l) (Nf (l + h)) zq in U. pose proof (TAN (l + h) Hu) as T. replace (l + h - l) with h in * by ring.
      assert (N2 : Nf (l + h) <= 2 * Nf l).
      { destruct (Rle_dec 0 h) as [P|P]; [pose proof (Nf_mono l (l + h) ltac:(lra)); lra|].
        pose proof (Nf_ratio (l + h) l ltac:(lra)) as Q. assert (Q0 : 0 <= Nf (l + h)) by apply Rnorm_pos.
        pose proof (Rle_abs (- h)) as Q1; rewrite Rabs_Ropp in Q1.
        assert (Nf (l + h) * ((l + sigma) / 2) <= Nf (l + h) * (l + h + sigma)) by (apply Rmult_le_compat_l; lra).
        apply Rmult_le_reg_r with ((l + sigma) / 2); lra. }
      assert (L2 : 0 < / (l * l)) by (apply Rinv_0_lt_compat; nra).
      assert (Nf (l + h) / (l * l) <= 2 * Nf l / (l * l)) by (apply Rmult_le_compat_r; lra).
      assert (h * h * (Nf (l + h) / (l * l)) <= h * h * (2 * Nf l / (l * l))) by (apply Rmult_le_compat_l; [nra|assumption]).
      replace (Nf l - h * (zq / Nf l)) with (Nf l + h * d) in U by (unfold d; ring).
      assert (NN : 0 <= (Rdot q q / (2 * Nf l) + 2 * Nf l / (l * l)) * (h * h)).
      { apply Rmult_le_pos; [|nra]. assert (0 <= Rdot q q / (2 * Nf l)) by (apply Rmult_le_pos; [apply Rdot_pos|apply Rlt_le, Rinv_0_lt_compat; lra]).
        assert (0 <= 2 * Nf l / (l * l)) by (apply Rmult_le_pos; lra). lra. }
      apply Rabs_le. split; lra.
    - destruct (PR l Hl) as (c & dd & Hc & Hd).
      pose proof (pair_slope n m A sigma B HA HS HI HB l l (Rdot g) (zf l) (zf l) q c dd Hl Sz Sz Hq Hc Hd) as [[S1 S2] _]. fold zq in S1, S2.
      pose proof (Rnorm_sq (zf l)) as SQ. fold (Nf l) in SQ. unfold d.
      split; (apply Rmult_le_reg_r with (Nf l); [exact PN|]).
      + replace ((l + sigma) * - - (zq / Nf l) * Nf l) with ((l + sigma) * zq) by (field; lra). lra.
      + replace ((l + B) * - - (zq / Nf l) * Nf l) with ((l + B) * zq) by (field; lra). lra.
  Qed.
End Length.

(** ** Newton's iteration for the damping *)
Section Iter.
  Local Open Scope R_scope.
  Variables (N D : R -> R) (sigma B Delta zn s : R).
  Let lower := 1 / 100000.
  Hypothesis HN : forall l, 0 < l -> 0 < N l.
  Hypothesis HD : forall l, 0 < l -> (forall u, 0 < u -> N l + (u - l) * D l <= N u) /\ (l + sigma) * - D l <= N l <= (l + B) * - D l.
  Hypothesis HR : forall l u, 0 < l <= u -> N l * (l + sigma) <= N u * (u + sigma).
  Hypothesis HM : forall l u, 0 < l <= u -> N u <= N l.
  Hypothesis HZ : forall l, 0 < l -> zn * sigma <= N l * (l + sigma).
  Hypothesis HL : forall l, 0 < l -> l * N l <= B * zn.
  Hypothesis HS : 3 / 100 <= sigma <= B.
  Hypothesis Hs : 0 < s < 1.
  Hypothesis Hzn : 0 < zn.
  Hypothesis HDelta : Delta = s * zn.

  Definition next (l : R) : R := Rmax (l - (N l - Delta) / D l) (1 / 100000).
  Definition good (l : R) : Prop := lower <= l /\ (Delta <= N l \/ l = lower).
  Lemma D_neg : forall l, 0 < l -> D l < 0.
  Proof. intros l Hl. destruct (HD l Hl) as [_ [_ H]]. pose proof (HN l Hl). apply Rnot_le_lt. intro P. assert (0 <= (l + B) * D l) by (apply Rmult_le_pos; lra). lra. Qed.
  Lemma Delta_pos : 0 < Delta.
  Proof. rewrite HDelta. apply Rmult_lt_0_compat; lra. Qed.
  Lemma lower_pos : 0 < lower. Proof. unfold lower. lra. Qed.

  Lemma next_good : forall l, 0 < l -> good (next l).
  Proof.
    intros l Hl. unfold next, good. fold lower. pose proof lower_pos. split; [apply Rmax_r|].
    destruct (Rle_dec lower (l - (N l - Delta) / D l)) as [G|G]; [left; rewrite Rmax_left by exact G|right; apply Rmax_right; lra].
    destruct (HD l Hl) as [T _]. specialize (T (l - (N l - Delta) / D l) ltac:(lra)). pose proof (D_neg l Hl).
    replace (N l + (l - (N l - Delta) / D l - l) * D l) with Delta in T by (field; lra). exact T.
  Qed.
  Lemma good_pos : forall l, good l -> 0 < l.
  Proof. intros l [G _]. pose proof lower_pos. lra. Qed.
  Lemma good_le : forall l, good l -> l <= B / s.
  Proof.
    intros l G. pose proof (good_pos l G) as P. destruct G as [_ [G| ->]].
    - pose proof (HL l P) as Q. rewrite HDelta in G. apply Rmult_le_reg_r with (s * zn); [apply Rmult_lt_0_compat; lra|].
      replace (B / s * (s * zn)) with (B * zn) by (field; lra). assert (l * (s * zn) <= l * N l) by (apply Rmult_le_compat_l; lra). lra.
    - apply Rmult_le_reg_r with s; [lra|]. replace (B / s * s) with B by (field; lra). unfold lower. nra.
  Qed.
  Lemma good_half : forall l, good l -> Delta / 2 <= N l.
  Proof.
    intros l G. pose proof Delta_pos. destruct G as [_ [G| ->]]; [lra|]. pose proof (HZ lower lower_pos) as Q.
    assert (P : 0 < lower + sigma) by (unfold lower; lra). apply Rmult_le_reg_r with (lower + sigma); [exact P|]. rewrite HDelta.
    assert (s * zn <= zn) by nra. assert (lower <= sigma) by (unfold lower; lra).
    assert (s * zn / 2 * (lower + sigma) <= zn / 2 * (sigma + sigma)) by (apply Rmult_le_compat; lra). lra.
  Qed.

  (** a step from the left of the root *)
  Lemma left_step : forall l, lower <= l -> Delta <= N l -> l <= next l /\ next l - l = (N l - Delta) / - D l /\ (N l - Delta) / N l * (l + sigma) <= next l - l.
  Proof.
    intros l Hl G. pose proof lower_pos. assert (P : 0 < l) by lra. pose proof (D_neg l P) as DN. pose proof (HN l P) as NP.
    assert (Q : 0 <= (N l - Delta) / - D l) by (apply Rmult_le_pos; [lra|apply Rlt_le, Rinv_0_lt_compat; lra]).
    assert (E : next l - l = (N l - Delta) / - D l).
    { unfold next. fold lower. rewrite Rmax_left; [field; lra|]. replace (l - (N l - Delta) / D l) with (l + (N l - Delta) / - D l) by (field; lra). lra. }
    split; [lra|]. split; [exact E|]. rewrite E. destruct (HD l P) as [_ [S _]].
    replace ((N l - Delta) / N l * (l + sigma)) with ((N l - Delta) * ((l + sigma) / N l)) by (field; lra). apply Rmult_le_compat_l; [lra|].
    apply Rmult_le_reg_r with (N l * - D l); [apply Rmult_lt_0_compat; lra|].
    replace ((l + sigma) / N l * (N l * - D l)) with ((l + sigma) * - D l) by (field; lra).
    replace (/ - D l * (N l * - D l)) with (N l) by (field; lra). exact S.
  Qed.
  Lemma stay : forall l, good l -> N l < Delta -> next l = l.
  Proof.
    intros l [_ [G| ->]] H; [lra|]. unfold next. fold lower. apply Rmax_right. pose proof (D_neg lower lower_pos).
    assert (0 < (N lower - Delta) / D lower); [|lra]. replace ((N lower - Delta) / D lower) with ((Delta - N lower) / - D lower) by (field; lra).
    apply Rdiv_lt_0_compat; lra.
  Qed.
  Lemma next_le : forall l, good l -> N (next l) <= N l.
  Proof.
    intros l G. destruct (Rle_dec Delta (N l)) as [H|H].
    - destruct (left_step l (proj1 G) H) as [Q _]. apply HM. pose proof (good_pos l G). lra.
    - rewrite (stay l G ltac:(lra)). lra.
  Qed.
  Lemma next_grow : forall l, good l -> 3 / 2 * Delta < N l -> 4 / 3 * (l + sigma) <= next l + sigma.
  Proof.
    intros l G H. pose proof Delta_pos. destruct (left_step l (proj1 G) ltac:(lra)) as (_ & _ & Q).
    assert (/ 3 <= (N l - Delta) / N l) by (apply Rmult_le_reg_r with (N l); [lra|]; replace ((N l - Delta) / N l * N l) with (N l - Delta) by (field; lra); lra).
    pose proof (good_pos l G). assert (/ 3 * (l + sigma) <= (N l - Delta) / N l * (l + sigma)) by (apply Rmult_le_compat_r; lra). lra.
  Qed.

  Fixpoint lam (k : nat) : R := match k with O => 1 | S j => next (lam j) end.
  Lemma lam_good : forall k, good (lam (S k)).
  Proof. induction k as [|k IH]; apply next_good; [cbn; lra|exact (good_pos _ IH)]. Qed.
  Lemma lam_pos : forall k, 0 < lam k.
  Proof. intros [|k]; [cbn; lra|]. apply good_pos, lam_good. Qed.
  Lemma lam_close : forall k, N (lam (S k)) <= 3 / 2 * Delta \/ (4 / 3) ^ k * sigma <= lam (S k) + sigma.
  Proof.
    induction k as [|k IH]; [right; pose proof (good_pos _ (lam_good 0)); cbn [pow]; lra|].
    destruct (Rle_dec (N (lam (S k))) (3 / 2 * Delta)) as [Q|Q].
    - left. cbn [lam]. pose proof (next_le _ (lam_good k)). cbn [lam] in *. lra.
    - right. destruct IH as [IH|IH]; [contradiction|]. pose proof (next_grow _ (lam_good k) ltac:(lra)) as G.
      change (lam (S (S k))) with (next (lam (S k))). cbn [pow]. lra.
  Qed.

  Lemma lam_stop : forall k, Rabs (lam k - lam (S k)) < 1 / 100 + 1 / 100 * Rabs (lam k) -> N (lam (S k)) <= 3 / 2 * Delta.
  Proof.
    intros k T. pose proof Delta_pos as DP. pose proof (lam_pos k) as P. rewrite (Rabs_pos_eq (lam k)) in T by lra.
    destruct (Rle_dec Delta (N (lam k))) as [H|H].
    - assert (LK : lower <= lam k) by (destruct k as [|k]; [cbn; unfold lower; lra|apply lam_good]).
      destruct (left_step (lam k) LK H) as (Q & _ & SS). change (next (lam k)) with (lam (S k)) in Q, SS.
      rewrite Rabs_left1 in T by lra. pose proof (HM (lam k) (lam (S k)) ltac:(lra)).
      assert (F : (N (lam k) - Delta) / N (lam k) <= / 3).
      { apply Rmult_le_reg_r with (lam k + sigma); [lra|]. lra. }
      pose proof (HN (lam k) P) as NP.
      assert (N (lam k) - Delta <= / 3 * N (lam k)).
      { replace (N (lam k) - Delta) with ((N (lam k) - Delta) / N (lam k) * N (lam k)) by (field; lra). apply Rmult_le_compat_r; lra. }
      lra.
    - destruct k as [|k].
      + cbn [lam] in *. pose proof (D_neg 1 ltac:(lra)) as DN. unfold next in T |- *.
        assert (Q : 0 < (N 1 - Delta) / D 1) by (replace ((N 1 - Delta) / D 1) with ((Delta - N 1) / - D 1) by (field; lra); apply Rdiv_lt_0_compat; lra).
        set (x := 1 - (N 1 - Delta) / D 1) in *. destruct (Rle_dec (1 / 100000) x) as [LX|LX].
        * rewrite Rmax_left in T |- * by exact LX. rewrite Rabs_pos_eq in T by (unfold x; lra).
          pose proof (HR x 1 ltac:(unfold x in *; lra)) as RT. apply Rmult_le_reg_r with (x + sigma); [lra|]. nra.
        * rewrite Rmax_right in T by lra. rewrite Rabs_pos_eq in T by lra. lra.
      + cbn [lam]. pose proof (stay _ (lam_good k) ltac:(cbn [lam] in *; lra)) as Q. cbn [lam] in Q, H |- *. rewrite Q. lra.
  Qed.

  (** after step k+1 the length is within half of the requested one if the test was met or it was the 32nd step *)
  Lemma lam_answer : forall k, k = 31%nat \/ Rabs (lam k - lam (S k)) < 1 / 100 + 1 / 100 * Rabs (lam k) -> B / s + sigma < (4 / 3) ^ 31 * sigma ->
    0 < lam (S k) <= B / s /\ Rabs (N (lam (S k)) - Delta) <= / 2 * Delta.
  Proof.
    intros k H HK. pose proof (lam_good k) as G. split; [split; [exact (good_pos _ G)|exact (good_le _ G)]|]. pose proof (good_half _ G). pose proof Delta_pos.
    assert (U : N (lam (S k)) <= 3 / 2 * Delta).
    { destruct H as [-> |T]; [|exact (lam_stop k T)]. destruct (lam_close 31) as [Q|Q]; [exact Q|]. pose proof (good_le _ G). lra. }
    apply Rabs_le. lra.
  Qed.
End Iter.

(** ** The root find on the extended reals follows a real sequence *)
Section Run.
  Variable jac : (list xr -> list xr * unit) -> list xr -> R.
  Variable lsolve : R -> list xr -> list xr * results.
  Variable h : R -> R.
  Variable la : nat -> R.
  Let fn : list xr -> list xr * unit := liftv (fun v => [h (nth 0 v 0%R)]).
  Hypothesis HL : scalar_division lsolve.
  Hypothesis H0 : la 0%nat = 1%R.
  Hypothesis HS : forall k, (jac fn [Fin (la k)] <> 0 \/ h (la k) = 0)%R /\
    la (S k) = Rmax (la k - (if Req_EM_T (h (la k)) 0 then 0 else h (la k) / jac fn [Fin (la k)])) (1 / 100000).
  Let P : nc_params (N:=XR) := inner_params (N:=XR).
  Let fs : fillv -> list xr := fun v => [match v with fill0 => Fin (Q2R 0) | fill1 => Fin (Q2R 1) | fillinf => PInf end].
  Let y0 : list xr := [Fin (Q2R 1)].
  Let st0 := nc_st0 jac P fn y0 fs.
  Let s := newton_chord jac lsolve P.

  Lemma run_sol : forall k, lin_sol jac lsolve true fn y0 [Fin (la k)] = ([Fin (if Req_EM_T (h (la k)) 0 then 0 else h (la k) / jac fn [Fin (la k)])%R], successful).
  Proof.
    intro k. unfold lin_sol. destruct (HS k) as [Q _].
    change (lsolve (jac fn [Fin (la k)]) [Fin (h (la k))] = ([Fin (if Req_EM_T (h (la k)) 0 then 0 else h (la k) / jac fn [Fin (la k)])%R], successful)).
    apply HL. exact Q.
  Qed.
  Lemma run_y : forall k, y_at s fn y0 st0 tt k = [Fin (la k)].
  Proof.
    induction k as [|k IH].
    - change ([Fin (Q2R 1)] = [Fin (la 0)]). rewrite H0. do 2 f_equal. unfold Q2R. cbn. lra.
    - refine (eq_trans (nc_y_S jac lsolve P fn y0 fs tt k) _). fold s st0.
      change (nc_is_newton P) with true. 
      refine (eq_trans (f_equal (fun y => nc_clip P (vsub y (fst (lin_sol jac lsolve true fn y0 y)))) IH) _). cbn beta. rewrite run_sol. cbn [fst].
      destruct (HS k) as [_ ->]. generalize (if Req_EM_T (h (la k)) 0 then 0%R else (h (la k) / jac fn [Fin (la k)])%R). intro q.
      unfold nc_clip. cbn -[Q2R Rmax nmax]. fold (Rminus (la k) q). generalize (la k - q)%R. intro x.
      replace (Q2R (1 # 100000)) with (1 / 100000)%R by (unfold Q2R; cbn; lra).
      f_equal. unfold nmax, nisnan. cbn. unfold Reqb, Rltb. destruct (Req_EM_T x x); [|congruence]. destruct (Req_EM_T (1 / 100000) (1 / 100000)); [|congruence]. cbn.
      destruct (Rlt_dec x (1 / 100000)); [rewrite Rmax_right by lra|rewrite Rmax_left by lra]; reflexivity.
  Qed.
  Lemma term_ok : forall y (st : nc_state (N:=XR) (M:=R)), nc_result st = successful ->
    nc_terminate (N:=XR) P y st =
    (let f := match nc_f st with Some f => f | None => [] end in
     cauchy_termination (N:=XR) (Fin (Q2R (1#100))) (Fin (Q2R (1#100))) (max_norm (N:=XR)) y (nc_diff st) (vfull (List.length f) (Fin (Q2R 0))) f, successful).
  Proof. intros y st H. unfold nc_terminate. rewrite H. reflexivity. Qed.
  Lemma run_st : forall k, nc_result (st_at s fn y0 st0 tt k) = successful.
  Proof.
    intros [|k]; [reflexivity|].
    refine (eq_trans (f_equal (fun st => nc_result st) (nc_st_S jac lsolve P fn y0 fs tt k)) _). cbn [nc_result].
    refine (eq_trans (f_equal (fun y => snd (lin_sol jac lsolve true fn y0 y)) (run_y k)) _). exact (f_equal snd (run_sol k)).
  Qed.
  Lemma run_res : forall k, says_result s fn y0 st0 tt k = successful.
  Proof. intro k. unfold says_result. exact (f_equal snd (term_ok (asked s fn y0 st0 tt k) _ (run_st k))). Qed.
  Lemma run_fin : forall k, vallfinite (N:=XR) (asked s fn y0 st0 tt k) = true.
  Proof. intro k. unfold asked. refine (eq_trans (f_equal (vallfinite (N:=XR)) (run_y (pred k))) _). reflexivity. Qed.
  Lemma cauchy1 : forall x d f f2, cauchy_termination (N:=XR) (Fin (Q2R (1#100))) (Fin (Q2R (1#100))) (max_norm (N:=XR)) [Fin x] [Fin d] f f2 = true ->
    (Rabs d < 1 / 100 + 1 / 100 * Rabs x)%R.
  Proof.
    intros x d f f2 H. unfold cauchy_termination in H. apply andb_true_iff in H. destruct H as [H _].
    assert (E : Q2R (1 # 100) = (1 / 100)%R) by (unfold Q2R; cbn; lra). pose proof (Rabs_pos x). pose proof (Rabs_pos d).
    cbn -[Q2R Rabs nmax] in H. rewrite !E in H. 
    destruct (Req_EM_T (1 / 100 + 1 / 100 * Rabs x) 0) as [Z|Z]; [exfalso; lra|].
    set (q := (Rabs d / (1 / 100 + 1 / 100 * Rabs x))%R) in *.
    assert (Q : (q < 1)%R).
    { unfold nmax, nisnan in H. cbn -[Q2R Rabs] in H. unfold Reqb, Rltb in H. replace (Q2R 0) with 0%R in H by (unfold Q2R; cbn; lra). replace (Q2R 1) with 1%R in H by (unfold Q2R; cbn; lra).
      repeat match type of H with context[Req_EM_T ?a ?b] => destruct (Req_EM_T a b); try congruence; cbn -[Q2R Rabs] in H end.
      assert (A : Rabs q = q) by (apply Rabs_pos_eq; unfold q; apply Rmult_le_pos; [lra|apply Rlt_le, Rinv_0_lt_compat; lra]).
      rewrite ?A in H.
      repeat match type of H with context[Rlt_dec ?a ?b] => destruct (Rlt_dec a b); try congruence; cbn -[Q2R Rabs] in H end; unfold Rltb in H; repeat match type of H with context[Rlt_dec ?a ?b] => destruct (Rlt_dec a b); try congruence end; lra. }
    unfold q in Q. apply Rmult_lt_reg_r with (/ (1 / 100 + 1 / 100 * Rabs x))%R; [apply Rinv_0_lt_compat; lra|]. rewrite Rinv_r by lra. exact Q.
  Qed.
  Lemma run_diff : forall k, nc_diff (st_at s fn y0 st0 tt (S k)) = [Fin (la k - la (S k))%R].
  Proof.
    intro k. refine (eq_trans (f_equal (fun st => nc_diff st) (nc_st_S jac lsolve P fn y0 fs tt k)) _). cbn [nc_diff].
    change (has_box P) with true. cbn iota. fold s st0.
    refine (eq_trans (f_equal2 (fun a b => vsub a b) (run_y k) (run_y (S k))) _). reflexivity.
  Qed.
  Lemma run_term : forall k, says_terminate s fn y0 st0 tt k = true -> exists j, k = S j /\ (Rabs (la j - la (S j)) < 1 / 100 + 1 / 100 * Rabs (la j))%R.
  Proof.
    intros k H. unfold says_terminate in H.
    pose proof (eq_trans (eq_sym (f_equal fst (term_ok (asked s fn y0 st0 tt k) _ (run_st k)))) H) as T. cbn [fst] in T. clear H.
    destruct k as [|k].
    - exfalso. change (cauchy_termination (N:=XR) (Fin (Q2R (1#100))) (Fin (Q2R (1#100))) (max_norm (N:=XR)) y0 [PInf] [Fin (Q2R 0)] [PInf] = true) in T.
      unfold cauchy_termination in T. apply andb_true_iff in T. destruct T as [T _]. cbn -[Q2R Rabs nmax] in T.
      assert (E : Q2R (1 # 100) = (1 / 100)%R) by (unfold Q2R; cbn; lra). rewrite !E in T. pose proof (Rabs_pos (Q2R 1)).
      destruct (Rlt_dec (1 / 100 + 1 / 100 * Rabs (Q2R 1)) 0) as [Z|Z]; [lra|].
      unfold nmax, nisnan in T. cbn -[Q2R] in T. unfold Reqb in T. destruct (Req_EM_T (Q2R 0) (Q2R 0)); [|congruence]. cbn -[Q2R] in T. discriminate.
    - exists k. split; [reflexivity|].
      rewrite run_diff in T.
      assert (A : asked s fn y0 st0 tt (S k) = [Fin (la k)]) by (unfold asked; exact (run_y k)). rewrite A in T.
      exact (cauchy1 _ _ _ _ T).
  Qed.

  Lemma cauchy1_rev : forall x d f, (Rabs d < 1 / 100 + 1 / 100 * Rabs x)%R -> (Rabs f < 1 / 100)%R ->
    cauchy_termination (N:=XR) (Fin (Q2R (1#100))) (Fin (Q2R (1#100))) (max_norm (N:=XR)) [Fin x] [Fin d] [Fin (Q2R 0)] [Fin f] = true.
  Proof.
    assert (G : forall x d, (Rabs d < 1 / 100 + 1 / 100 * Rabs x)%R ->
      nltb (n:=XR) (max_norm (N:=XR) (vdiv (vabs [Fin d]) (vscale_tol (N:=XR) (Fin (Q2R (1#100))) (Fin (Q2R (1#100))) [Fin x]))) (nofQ 1) = true).
    { intros x d H. assert (E : Q2R (1 # 100) = (1 / 100)%R) by (unfold Q2R; cbn; lra). pose proof (Rabs_pos x). pose proof (Rabs_pos d).
      cbn -[Q2R Rabs nmax]. rewrite !E. destruct (Req_EM_T (1 / 100 + 1 / 100 * Rabs x) 0) as [Z|Z]; [exfalso; lra|].
      set (q := (Rabs d / (1 / 100 + 1 / 100 * Rabs x))%R).
      assert (A : (0 <= q < 1)%R).
      { split; [unfold q; apply Rmult_le_pos; [lra|apply Rlt_le, Rinv_0_lt_compat; lra]|].
        unfold q. apply Rmult_lt_reg_r with (1 / 100 + 1 / 100 * Rabs x)%R; [lra|]. unfold Rdiv at 1. rewrite Rmult_assoc, Rinv_l by lra. lra. }
      unfold nmax, nisnan. cbn -[Q2R Rabs]. rewrite (Rabs_pos_eq q) by lra. replace (Q2R 0) with 0%R by (unfold Q2R; cbn; lra). replace (Q2R 1) with 1%R by (unfold Q2R; cbn; lra).
      unfold Reqb, Rltb. destruct (Req_EM_T q q); [|congruence]. destruct (Req_EM_T 0 0); [|congruence]. cbn.
      destruct (Rlt_dec q 0); [exfalso; lra|]. cbn. unfold Rltb. destruct (Rlt_dec q 1); [reflexivity|exfalso; lra]. }
    intros x d f H1 H2. unfold cauchy_termination. apply andb_true_iff. split; [apply G; exact H1|].
    apply G. replace (Q2R 0) with 0%R by (unfold Q2R; cbn; lra). rewrite Rabs_R0. lra.
  Qed.
  Lemma run_test : forall j, (Rabs (la j - la (S j)) < 1 / 100 + 1 / 100 * Rabs (la j))%R -> (Rabs (h (la j)) < 1 / 100)%R -> says_terminate s fn y0 st0 tt (S j) = true.
  Proof.
    intros j H1 H2. unfold says_terminate. refine (eq_trans (f_equal fst (term_ok (asked s fn y0 st0 tt (S j)) _ (run_st (S j)))) _). cbn [fst].
    rewrite run_diff. assert (A : asked s fn y0 st0 tt (S j) = [Fin (la j)]) by (unfold asked; exact (run_y j)). rewrite A.
    assert (F : nc_f (st_at s fn y0 st0 tt (S j)) = Some [Fin (h (la j))]).
    { refine (eq_trans (f_equal (fun st => nc_f st) (nc_st_S jac lsolve P fn y0 fs tt j)) _). cbn [nc_f]. change (nc_cauchy P) with true. cbn iota. fold s st0.
      refine (eq_trans (f_equal (fun y => Some (fst (fn y))) (run_y j)) _). reflexivity. }
    rewrite F. exact (cauchy1_rev _ _ _ H1 H2).
  Qed.

  Lemma run_answer : exists k, (k <= 31)%nat /\ inner_damping jac lsolve h = la (S k) /\
    (k = 31%nat \/ (Rabs (la k - la (S k)) < 1 / 100 + 1 / 100 * Rabs (la k))%R) /\
    (forall j, (j < k)%nat -> (Rabs (la j - la (S j)) < 1 / 100 + 1 / 100 * Rabs (la j))%R -> (Rabs (h (la j)) < 1 / 100)%R -> False).
  Proof.
    destruct (stop_index_exists (vallfinite (N:=XR)) s fn y0 st0 tt 32) as (k & Hk & HI).
    destruct (iterative_solve_spec (vallfinite (N:=XR)) s fn y0 st0 tt fs (fun _ => tt) eq_refl eq_refl 33 (Some 32%nat) false) as [Q _].
    specialize (Q k ltac:(lia) HI). cbn [andb] in Q.
    assert (E : inner_damping jac lsolve h = la k).
    { unfold inner_damping, inner_root. 
      match goal with |- match ?t with _ => _ end = _ => replace t with (Ret (solution_at (vallfinite (N:=XR)) s fn y0 st0 tt (Some 32%nat) k)) by (symmetry; exact Q) end.
      change (toR (nth 0 (y_at s fn y0 st0 tt k) NaN) = la k). rewrite run_y. reflexivity. }
    pose proof (proj1 (proj2 HI)) as HI2.
    assert (C : exists j, k = S j /\ (j = 31%nat \/ (Rabs (la j - la (S j)) < 1 / 100 + 1 / 100 * Rabs (la j))%R)).
    { destruct HI as ([[T|[T|T]]|T] & _).
      - destruct (run_term k T) as (j & -> & B). eauto.
      - exfalso. apply T, run_res.
      - rewrite run_fin in T. discriminate.
      - injection T as <-. exists 31%nat. auto. }
    destruct C as (j & -> & C). exists j. split; [lia|]. split; [exact E|]. split; [exact C|].
    intros i Hi T1 T2. apply (HI2 (S i) ltac:(lia)). left. apply run_test; assumption.
  Qed.
End Run.

(** The default root find of IndirectLevenbergMarquardt does what C82 asks of it: Newton's method from lambda = 1 with
    rtol = atol = 1/100, lower bound 1/100000 and at most 32 steps returns an allowed damping for which the step is within half
    the requested length, if every |J v|^2 is between sigma |v|^2 and B |v|^2, sigma >= 3/100 and
    B / rho + sigma < (4/3)^31 sigma. *)
Lemma C121_finds_damping_pf :
  forall (sjac : (list xr -> list xr * unit) -> list xr -> R) slsolve lsolve (n m : nat) (r : list R -> list R) (J : list R -> linop RN) (eps rho sigma B : R),
    scalar_derivative sjac -> scalar_division slsolve ->
    exact_least_squares n lsolve -> residual_problem n m r J ->
    (3 / 100 <= sigma <= B)%R -> jac_bounded n B J -> jac_injective n sigma J ->
    (0 <= eps)%R -> (0 < rho)%R -> (eps * Rmax 1 (B / rho) < 1)%R -> (B / rho + sigma < (4 / 3) ^ 31 * sigma)%R ->
    finds_damping eps rho n r J (fun x => Rnorm (fst (lsolve (J x) (r x)))) (inner_damping sjac slsolve).
Proof.
  intros sjac slsolve lsolve n m r J eps rho sigma B HJ HL HE HP HS HB HI He Hrho HEB HK x step h Hx Hstep Hh.
  destruct (HP x Hx) as (Hr & HA1 & HT).
  assert (HS' : (0 < sigma <= B)%R) by lra.
  pose proof (fun v Hv => HB x v Hx Hv) as HB'. pose proof (fun v Hv => HI x v Hx Hv) as HI'.
  set (zn := Rnorm (fst (lsolve (J x) (r x)))) in *.
  set (N := Nf n (J x) (r x) lsolve).
  assert (BR : (B / step <= B / rho)%R).
  { apply Rmult_le_compat_l; [lra|]. apply Rinv_le_contravar; lra. }
  assert (M1 : (eps * 1 < 1)%R) by (eapply Rle_lt_trans; [apply Rmult_le_compat_l; [exact He|apply (Rmax_l 1 (B / rho))]|exact HEB]).
  assert (M2 : forall l, (l <= B / rho)%R -> (eps * l < 1)%R).
  { intros l Hl. eapply Rle_lt_trans; [apply Rmult_le_compat_l; [exact He|]|exact HEB]. eapply Rle_trans; [exact Hl|apply Rmax_r]. }
  assert (EH : forall l, (0 < l)%R -> (eps * l < 1)%R -> h l = (N l - step * zn)%R).
  { intros l H1 H2. destruct (Hh l H1 H2) as (z & Lz & Hz & ->). f_equal. exact (Nf_unique n m (J x) (r x) lsolve sigma B HA1 HT Hr HE HS' HI' l z H1 Lz Hz). }
  assert (ED : forall l d, (0 < l)%R -> (eps * l < 1)%R -> is_derive N l d -> sjac (liftv (fun v => [h (nth 0 v 0%R)])) [Fin l] = d).
  { intros l d H1 H2 Hd. apply HJ.
    apply is_derive_ext_loc with (f := fun u => (N u - step * zn)%R).
    - assert (O : exists e : posreal, forall u, (Rabs (u - l) < e -> 0 < u /\ eps * u < 1)%R).
      { destruct (Req_dec eps 0) as [Z|Z].
        - exists (mkposreal l H1). cbn. intros u Hu. apply Rabs_def2 in Hu. rewrite Z. lra.
        - assert (Q : (0 < Rmin l ((1 - eps * l) / eps))%R) by (apply Rmin_glb_lt; [lra|apply Rdiv_lt_0_compat; lra]).
          exists (mkposreal _ Q). cbn. intros u Hu. apply Rabs_def2 in Hu.
          pose proof (Rmin_l l ((1 - eps * l) / eps)). pose proof (Rmin_r l ((1 - eps * l) / eps)) as Q2. split; [lra|].
          assert (u - l < (1 - eps * l) / eps)%R by lra.
          assert (eps * (u - l) < eps * ((1 - eps * l) / eps))%R by (apply Rmult_lt_compat_l; lra).
          replace (eps * ((1 - eps * l) / eps))%R with (1 - eps * l)%R in * by (field; exact Z). lra. }
      destruct O as (e & O). exists e. intros u Hu. destruct (O u Hu) as [O1 O2]. symmetry. exact (EH u O1 O2).
    - replace d with (plus d zero) by apply plus_zero_r. refine (is_derive_plus N (fun _ => (- (step * zn))%R) l d zero Hd _). apply (is_derive_const (K:=R_AbsRing) (V:=R_NormedModule)). }
  assert (ZP : (0 <= zn)%R) by (unfold zn; apply sqrt_pos).
  destruct (Req_dec zn 0) as [Z0|NZ].
  - (* the residual's gradient vanishes *)
    assert (N0 : forall l, (0 < l)%R -> N l = 0%R).
    { intros l Hl. pose proof (Nf_small n m (J x) (r x) lsolve sigma B HA1 HT Hr HE HS' HI' HB' l Hl) as Q. fold N zn in Q. rewrite Z0 in Q.
      assert (0 <= N l)%R by (unfold N, Nf; apply sqrt_pos). assert (l * N l <= 0)%R by lra. nra. }
    assert (H1 : h 1%R = 0%R) by (rewrite EH by lra; rewrite N0 by lra; rewrite Z0; ring).
    destruct (run_answer sjac slsolve h (fun _ => 1%R) HL eq_refl) as (k & _ & -> & _).
    { intro k. split; [right; exact H1|]. destruct (Req_EM_T (h 1%R) 0%R) as [_|NE]; [|contradiction]. rewrite Rmax_left; lra. }
    split; [lra|]. split; [lra|]. rewrite H1, Rabs_R0, Z0. lra.
  - assert (ZP' : (0 < zn)%R) by lra.
    assert (HN : forall l, (0 < l)%R -> (0 < N l)%R).
    { intros l Hl. pose proof (Nf_newton n m (J x) (r x) lsolve sigma B HA1 HT Hr HE HS' HI' l Hl) as Q. fold N zn in Q.
      assert (0 < zn * sigma)%R by (apply Rmult_lt_0_compat; lra). apply Rnot_le_lt. intro C.
      assert (N l * (l + sigma) <= 0 * (l + sigma))%R by (apply Rmult_le_compat_r; lra). lra. }
    set (D := Derive N).
    assert (HD : forall l, (0 < l)%R -> is_derive N l (D l) /\ ((forall u, (0 < u)%R -> (N l + (u - l) * D l <= N u)%R) /\ ((l + sigma) * - D l <= N l <= (l + B) * - D l)%R)).
    { intros l Hl. destruct (Nf_point n m (J x) (r x) lsolve sigma B HA1 HT Hr HE HS' HI' HB' l Hl (HN l Hl)) as (d & D1 & D2 & D3).
      fold N in D1, D2, D3. unfold D. rewrite (is_derive_unique N l d D1). auto. }
    pose proof (fun l Hl => proj2 (HD l Hl)) as HD2.
    pose proof (Nf_ratio n m (J x) (r x) lsolve sigma B HA1 HT Hr HE HS' HI') as HR. fold N in HR.
    pose proof (Nf_mono n m (J x) (r x) lsolve sigma B HA1 HT Hr HE HS' HI' HB') as HM. fold N in HM.
    pose proof (Nf_newton n m (J x) (r x) lsolve sigma B HA1 HT Hr HE HS' HI') as HZ. fold N zn in HZ.
    pose proof (Nf_small n m (J x) (r x) lsolve sigma B HA1 HT Hr HE HS' HI' HB') as HSm. fold N zn in HSm.
    set (Delta := (step * zn)%R) in *.
    set (la := lam N D Delta).
    assert (LP : forall k, (0 < la k)%R) by (intro k; apply (lam_pos N D sigma B Delta step); auto; lra).
    assert (LE : forall k, (eps * la k < 1)%R).
    { intros [|k]; [exact M1|]. apply M2. eapply Rle_trans; [|exact BR].
      apply (good_le N sigma B Delta zn step); auto; try lra. apply (lam_good N D sigma B Delta step); auto; lra. }
    destruct (run_answer sjac slsolve h la HL eq_refl) as (k & _ & -> & T & _).
    { intro k. pose proof (LP k) as P1. pose proof (LE k) as P2. destruct (HD (la k) P1) as [D1 _]. rewrite (ED (la k) (D (la k)) P1 P2 D1).
      pose proof (D_neg N D sigma B step HN HD2 HS ltac:(lra) (la k) P1) as DN. split; [left; lra|].
      change (la (S k)) with (next N D Delta (la k)). unfold next. rewrite (EH (la k) P1 P2). fold Delta.
      f_equal. f_equal. destruct (Req_EM_T (N (la k) - Delta) 0) as [E|_]; [rewrite E; field; lra|reflexivity]. }
    destruct (lam_answer N D sigma B Delta zn step HN HD2 HR HM HZ HSm HS ltac:(lra) ZP' eq_refl k T ltac:(lra)) as [[A1 A2] A3]. fold la in A1, A2, A3.
    split; [exact A1|]. split; [exact (LE (S k))|]. rewrite (EH _ A1 (LE (S k))). fold Delta. exact A3.
Qed.

(** ** One variable: residual a z - b *)
Section Line.
  Local Open Scope R_scope.
  Variables (a b s : R).
  Hypothesis Ha : 0 < a.
  Hypothesis Hb : 0 < b.
  Hypothesis Hs : 0 < s.
  Definition line_h (l : R) : R := a * b / (a * a + l) - s * (b / a).
  Lemma line_length : forall l, 0 <= l -> step_length 1 (times_op a) [- b] l (a * b / (a * a + l)).
  Proof.
    intros l Hl. assert (P : 0 < a * a) by nra. exists [a * b / (a * a + l)]. split; [reflexivity|]. split.
    - intros v Lv NE. destruct v as [|v [|? ?]]; try discriminate Lv. assert (NE' : v <> a * b / (a * a + l)) by congruence.
      unfold damped_loss, times_op, Rscal, op_mv, Rdot, Radd_v. cbn.
      set (z := a * b / (a * a + l)) in *. assert (E : a * b = (a * a + l) * z) by (unfold z; field; lra).
      assert (Q : 0 < (v - z) * (v - z)) by (destruct (Rdichotomy v z NE'); nra).
      assert (0 < (a * a + l) * ((v - z) * (v - z))) by (apply Rmult_lt_0_compat; lra). nra.
    - rewrite Rnorm_1, Rabs_pos_eq; [reflexivity|]. apply Rlt_le, Rdiv_lt_0_compat; nra.
  Qed.
  Lemma line_compares : compares_length 1 (times_op a) [- b] (b / a) s line_h.
  Proof.
    split.
    - replace (b / a) with (a * b / (a * a + 0)) by (field; lra). apply line_length. lra.
    - intros l Hl. replace (line_h l + s * (b / a)) with (a * b / (a * a + l)) by (unfold line_h; ring). apply line_length. lra.
  Qed.
  Definition line_next (l : R) : R := Rmax (2 * l + a * a - s * ((a * a + l) * (a * a + l) / (a * a))) (1 / 100000).
  Fixpoint line_lam (k : nat) : R := match k with O => 1 | S j => line_next (line_lam j) end.
  Lemma line_lam_pos : forall k, 0 < line_lam k.
  Proof. intros [|k]; cbn [line_lam]; [lra|]. unfold line_next. eapply Rlt_le_trans; [|apply Rmax_r]. lra. Qed.
  Lemma line_run : forall sjac slsolve, scalar_derivative sjac -> scalar_division slsolve ->
    exists k, (k <= 31)%nat /\ inner_damping sjac slsolve line_h = line_lam (S k) /\
    (k = 31%nat \/ Rabs (line_lam k - line_lam (S k)) < 1 / 100 + 1 / 100 * Rabs (line_lam k)) /\
    (forall j, (j < k)%nat -> Rabs (line_lam j - line_lam (S j)) < 1 / 100 + 1 / 100 * Rabs (line_lam j) -> Rabs (line_h (line_lam j)) < 1 / 100 -> False).
  Proof.
    intros sjac slsolve HJ HL. apply run_answer; [exact HL|reflexivity|]. intro k. pose proof (line_lam_pos k) as P. cbn [line_lam]. unfold line_next. set (l := line_lam k) in *.
    assert (Q : 0 < a * a) by nra.
    rewrite (HJ line_h l (- (a * b) / ((a * a + l) * (a * a + l)))).
    2: { unfold line_h. auto_derive; [lra|]. field. lra. }
    assert (N : - (a * b) / ((a * a + l) * (a * a + l)) < 0).
    { unfold Rdiv. assert (0 < / ((a * a + l) * (a * a + l))) by (apply Rinv_0_lt_compat; apply Rmult_lt_0_compat; lra).
      assert (0 < a * b) by (apply Rmult_lt_0_compat; lra). set (i := / _) in *. assert (0 < a * b * i) by (apply Rmult_lt_0_compat; lra). lra. }
    split; [left; lra|]. f_equal.
    assert (E : line_h l / (- (a * b) / ((a * a + l) * (a * a + l))) = - (l + a * a - s * ((a * a + l) * (a * a + l) / (a * a)))).
    { unfold line_h. field. repeat split; lra. }
    destruct (Req_EM_T (line_h l) 0) as [Z|_]; [|lra].
    rewrite Z in E. unfold Rdiv in E at 1. lra.
  Qed.
End Line.

(** Badly scaled problems: the lower bound 1/100000 on the damping makes the step arbitrarily many times shorter than
    requested. *)
Lemma C121_too_short_pf :
  forall sjac slsolve, scalar_derivative sjac -> scalar_division slsolve ->
  forall K : R, (0 < K)%R -> exists a newton h, (0 < newton)%R /\ compares_length 1 (times_op a) [(-1)%R] newton (1 / 2) h /\
    let requested := (1 / 2 * newton)%R in
    let found := (h (inner_damping sjac slsolve h) + requested)%R in
    (K * found < requested)%R.
Proof.
  intros sjac slsolve HJ HL K HK. set (a := (1 / (1000 * (K + 1)))%R).
  assert (Ha : (0 < a)%R) by (unfold a; apply Rdiv_lt_0_compat; lra).
  assert (EA : (a * (1000 * (K + 1)) = 1)%R) by (unfold a; field; lra).
  clearbody a. assert (AK : (0 < a * K)%R) by (apply Rmult_lt_0_compat; lra). assert (EK : (1000 * a + 1000 * (a * K) = 1)%R) by (rewrite <- EA; ring).
  assert (A1 : (a <= 1 / 1000)%R) by lra.
  assert (AA : (0 < a * a <= 1 / 1000000)%R) by (split; [apply Rmult_lt_0_compat; lra|]; replace (1 / 1000000)%R with (1 / 1000 * (1 / 1000))%R by lra; apply Rmult_le_compat; lra).
  exists a, (1 / a)%R, (line_h a 1 (1 / 2)). split; [apply Rdiv_lt_0_compat; lra|]. split; [apply line_compares; lra|].
  destruct (line_run a 1 (1 / 2) Ha ltac:(lra) sjac slsolve HJ HL) as (k & _ & E & _).
  assert (L : forall j, line_lam a (1 / 2) (S j) = (1 / 100000)%R).
  { assert (G : forall l, (1 / 100000 <= l)%R -> line_next a (1 / 2) l = (1 / 100000)%R).
    { intros l Hl. unfold line_next. apply Rmax_right.
      assert (Q : (4 * (a * a + l) <= (a * a + l) * (a * a + l) / (a * a))%R).
      { apply Rmult_le_reg_r with (a * a)%R; [lra|]. replace ((a * a + l) * (a * a + l) / (a * a) * (a * a))%R with ((a * a + l) * (a * a + l))%R by (field; lra).
        replace (4 * (a * a + l) * (a * a))%R with ((a * a + l) * (4 * (a * a)))%R by ring. apply Rmult_le_compat_l; lra. }
      lra. }
    induction j as [|j IH]; [apply G; cbn; lra|]. change (line_lam a (1 / 2) (S (S j))) with (line_next a (1 / 2) (line_lam a (1 / 2) (S j))). rewrite IH. apply G. lra. }
  rewrite L in E. cbv zeta. rewrite E. unfold line_h.
  replace (a * 1 / (a * a + 1 / 100000) - 1 / 2 * (1 / a) + 1 / 2 * (1 / a))%R with (a / (a * a + 1 / 100000))%R by (field; lra).
  apply Rmult_lt_reg_r with (a * (a * a + 1 / 100000))%R; [apply Rmult_lt_0_compat; lra|].
  replace (K * (a / (a * a + 1 / 100000)) * (a * (a * a + 1 / 100000)))%R with (K * a * a)%R by (field; lra).
  replace (1 / 2 * (1 / a) * (a * (a * a + 1 / 100000)))%R with (1 / 2 * (a * a + 1 / 100000))%R by (field; lra).
  assert (KA : (K * a <= 1 / 1000)%R) by lra. assert (K * a * a <= 1 / 1000 * (1 / 1000))%R by (apply Rmult_le_compat; lra). lra.
Qed.

(** The budget of 32 steps: on the residual z - 1 with a small enough trust region the step is arbitrarily many times longer
    than requested. *)
Lemma C121_too_long_pf :
  forall sjac slsolve, scalar_derivative sjac -> scalar_division slsolve ->
  forall K : R, (0 < K)%R -> exists step newton h, (0 < step < 1)%R /\ (0 < newton)%R /\ compares_length 1 (times_op 1) [(-1)%R] newton step h /\
    let requested := (step * newton)%R in
    let found := (h (inner_damping sjac slsolve h) + requested)%R in
    (K * requested < found)%R.
Proof.
  intros sjac slsolve HJ HL K HK. set (M := (2 ^ 33)%R). assert (HM : (1 <= M)%R) by (unfold M; apply pow_R1_Rle; lra).
  set (s := (1 / ((K + 1) * M))%R).
  assert (KM : (1 < (K + 1) * M)%R) by nra.
  assert (Hs : (0 < s < 1)%R).
  { unfold s. split; [apply Rdiv_lt_0_compat; lra|]. apply Rmult_lt_reg_r with ((K + 1) * M)%R; [lra|]. replace (1 / ((K + 1) * M) * ((K + 1) * M))%R with 1%R by (field; lra). lra. }
  exists s, 1%R, (line_h 1 1 s). split; [exact Hs|]. split; [lra|].
  split. { pose proof (line_compares 1 1 s ltac:(lra) ltac:(lra)) as Q. replace (1 / 1)%R with 1%R in Q by field. exact Q. }
  destruct (line_run 1 1 s ltac:(lra) ltac:(lra) sjac slsolve HJ HL) as (k & Hk & E & _).
  assert (L : forall j, (line_lam 1 s j + 1 <= 2 ^ (S j))%R).
  { induction j as [|j IH]; [cbn; lra|]. cbn [line_lam]. pose proof (line_lam_pos 1 s j) as P. set (l := line_lam 1 s j) in *. change (2 ^ (S (S j)))%R with (2 * 2 ^ (S j))%R.
    unfold line_next. apply Rmax_case.
    - assert (0 <= s * ((1 * 1 + l) * (1 * 1 + l) / (1 * 1)))%R; [|lra]. apply Rmult_le_pos; [lra|]. unfold Rdiv. rewrite Rmult_1_l, Rinv_1, Rmult_1_r. apply Rle_0_sqr.
    - lra. }
  specialize (L (S k)). pose proof (line_lam_pos 1 s (S k)) as P. cbv zeta. rewrite E. unfold line_h. set (l := line_lam 1 s (S k)) in *.
  assert (U : (1 + l <= M)%R). { unfold M. eapply Rle_trans; [|apply (Rle_pow 2 (S (S k)) 33); [lra|lia]]. lra. }
  replace (1 * 1 / (1 * 1 + l) - s * (1 / 1) + s * 1)%R with (/ (1 + l))%R by (field; lra).
  apply Rlt_le_trans with (/ M)%R; [|apply Rinv_le_contravar; lra].
  replace (K * (s * 1))%R with (K / ((K + 1)) * / M)%R by (unfold s; field; lra).
  rewrite <- (Rmult_1_l (/ M)) at 2. apply Rmult_lt_compat_r; [apply Rinv_0_lt_compat; lra|].
  apply Rmult_lt_reg_r with (K + 1)%R; [lra|]. replace (K / (K + 1) * (K + 1))%R with K by (field; lra). lra.
Qed.

(** The absolute tolerance 1/100: for the residual z/300 - 1/300000, whose Newton step has length 1/1000, and a trust region
    of 1/10000 of that length the root find stops after two steps with a step 2500 times longer than requested. *)
Lemma C121_stops_early_pf :
  forall sjac slsolve, scalar_derivative sjac -> scalar_division slsolve ->
  exists h, compares_length 1 (times_op (1 / 300)) [(- (1 / 300000))%R] (1 / 1000) (1 / 10000) h /\
    let requested := (1 / 10000 * (1 / 1000))%R in
    let found := (h (inner_damping sjac slsolve h) + requested)%R in
    (2500 * requested < found)%R.
Proof.
  intros sjac slsolve HJ HL. set (h := line_h (1 / 300) (1 / 300000) (1 / 10000)). exists h.
  split. { pose proof (line_compares (1 / 300) (1 / 300000) (1 / 10000) ltac:(lra) ltac:(lra)) as Q. replace (1 / 300000 / (1 / 300))%R with (1 / 1000)%R in Q by field. exact Q. }
  destruct (line_run (1 / 300) (1 / 300000) (1 / 10000) ltac:(lra) ltac:(lra) sjac slsolve HJ HL) as (k & Hk & E & T & U).
  fold h in E, U.
  assert (L1 : line_lam (1 / 300) (1 / 10000) 1 = (1 / 100000)%R) by (cbn [line_lam]; unfold line_next; apply Rmax_right; lra).
  assert (L2 : (3 / 100000 <= line_lam (1 / 300) (1 / 10000) 2 <= 32 / 1000000)%R).
  { change (line_lam (1 / 300) (1 / 10000) 2) with (line_next (1 / 300) (1 / 10000) (line_lam (1 / 300) (1 / 10000) 1)). rewrite L1. unfold line_next. rewrite Rmax_left; lra. }
  assert (K1 : k = 1%nat).
  { destruct k as [|[|k]]; [|reflexivity|].
    - exfalso. destruct T as [T|T]; [discriminate|]. rewrite L1 in T. cbn [line_lam] in T. rewrite !Rabs_pos_eq in T by lra. lra.
    - exfalso. apply (U 1%nat ltac:(lia)); rewrite L1.
      + rewrite Rabs_left1, Rabs_pos_eq by lra. lra.
      + unfold h, line_h. rewrite Rabs_pos_eq; lra. }
  subst k. cbv zeta. rewrite E. unfold h, line_h. set (l := line_lam (1 / 300) (1 / 10000) 2) in *.
  replace (1 / 300 * (1 / 300000) / (1 / 300 * (1 / 300) + l) - 1 / 10000 * (1 / 300000 / (1 / 300)) + 1 / 10000 * (1 / 1000))%R with (1 / 300 * (1 / 300000) / (1 / 300 * (1 / 300) + l))%R by (field; lra).
  apply Rmult_lt_reg_r with (1 / 300 * (1 / 300) + l)%R; [lra|].
  replace (1 / 300 * (1 / 300000) / (1 / 300 * (1 / 300) + l) * (1 / 300 * (1 / 300) + l))%R with (1 / 300 * (1 / 300000))%R by (field; lra). lra.
Qed.

(** With these hypotheses IndirectLevenbergMarquardt with its default root find succeeds within 2 K + 2 + q steps, as in
    C82, whose hypothesis on the root finder is replaced by bounds on the Jacobian. *)
Lemma C121_terminates_pf :
  forall (sjac : (list xr -> list xr * unit) -> list xr -> R) slsolve (Aux : Type) (rtol atol eps fmax : R) lsolve jac_of (fn : list R -> list R * Aux)
         (n m : nat) (L B sigma : R) (y0 : list R) fs auxs (q K : nat),
    let r x := fst (fn x) in let J := jac_of fn in
    scalar_derivative sjac -> scalar_division slsolve ->
    (0 <= eps)%R -> (0 < fmax)%R -> exact_least_squares n lsolve -> (forall A b, snd (lsolve A b) = successful) ->
    residual_problem n m r J -> (0 < L)%R -> smooth n L (half_squares r) (ls_gradient r J) ->
    (3 / 100 <= sigma <= B)%R -> jac_bounded n B J -> jac_injective n sigma J -> residual_lipschitz n B r ->
    length y0 = n -> (0 <= rtol)%R -> (0 < atol)%R ->
    let rho := (2 * sigma / (3 * (B + 50 * L / 99)) / 4)%R in
    (eps * Rmax 1 (B / rho) < 1)%R -> (B / rho + sigma < (4 / 3) ^ 31 * sigma)%R ->
    (1 <= 4 ^ q * rho)%R ->
    (half_squares r y0 < INR K * (rho * (sigma * sigma) / (600 * B) * Rmin (atol * atol) (atol * atol / B)))%R ->
    let s := IndirectLevenbergMarquardt (N:=RN) (mkTols rtol atol max_norm) jac_of lsolve eps fmax (inner_damping sjac slsolve) in
    exists k, k <= 2 * K + 2 + q /\
      forall fuel budget throw, k < fuel -> (forall j, budget = Some j -> k <= j) ->
        exists sol, iterative_solve (vallfinite (N:=RN)) s fn fuel budget throw y0 fs auxs = Ret sol /\
          result sol = successful /\ (half_squares r (value sol) <= half_squares r y0)%R /\
          hd_error (sol_stats sol) = Some ("num_steps"%string, Some (Z.of_nat k)).
Proof.
  intros sjac slsolve Aux rtol atol eps fmax lsolve jac_of fn n m L B sigma y0 fs auxs q K r J HJ HDv He Hf HE HR HP HL HS HSB HB HI HLp Hn Hrt Hat rho H1 H2 Hq HK s.
  destruct (ind_rho L B sigma HL ltac:(lra)) as [_ R0]. change (0 < rho < 1)%R in R0.
  exact (C82_terminates_pf Aux rtol atol eps fmax lsolve (inner_damping sjac slsolve) jac_of fn n m L B sigma y0 fs auxs q K He Hf HE HR HP HL HS ltac:(lra) HB HI HLp Hn Hrt Hat
    (C121_finds_damping_pf sjac slsolve lsolve n m r J eps rho sigma B HJ HDv HE HP HSB HB HI He ltac:(lra) H1 H2) Hq HK).
Qed.

Lemma derive_jac_ok : scalar_derivative derive_jac.
Proof. intros f x d H. unfold derive_jac. cbn. exact (is_derive_unique _ _ _ H). Qed.
Lemma divide_ok : scalar_division divide.
Proof. intros a b H. reflexivity. Qed.

(** The hyperbola of C71 and C82 (sigma = 1, B = 2, L = 2, rho = 33/596), with the actual root find. *)
Example C121_terminates_ex_pf :
  let r x := fst (hyperbola x) in let J := hyperbola_jac hyperbola in
  scalar_derivative derive_jac /\ scalar_division divide /\
  finds_damping (1 / 100) (33 / 596) 1 r J (fun x => Rnorm (fst (lsolve1 (J x) (r x)))) (inner_damping derive_jac divide) /\
  let s := IndirectLevenbergMarquardt (N:=RN) (mkTols (N:=RN) (1/10)%R 1%R max_norm) hyperbola_jac lsolve1 (1/100)%R 1000%R (inner_damping derive_jac divide) in
  exists k, k <= 2 * Z.to_nat 200000 + 2 + 3 /\
    forall fuel budget throw, k < fuel -> (forall j, budget = Some j -> k <= j) ->
      exists sol, iterative_solve (vallfinite (N:=RN)) s hyperbola fuel budget throw [2%R] (fun _ => [0; 0]%R) (fun _ => tt) = Ret sol /\
        result sol = successful.
Proof.
  intros r J. destruct C71_terminates_ex_pf as (HP & HS & HB & HLp & HI & _).
  split; [exact derive_jac_ok|]. split; [exact divide_ok|].
  assert (PW : (100 < (4 / 3) ^ 31)%R).
  { apply Rlt_le_trans with ((4 / 3) ^ 17)%R; [cbn; lra|]. apply Rle_pow; [lra|lia]. }
  split.
  { apply (C121_finds_damping_pf derive_jac divide lsolve1 1 2 r J (1 / 100) (33 / 596) 1 2 derive_jac_ok divide_ok (proj1 C32_levenberg_marquardt_ex_pf) HP ltac:(lra) HB HI); try lra.
    rewrite Rmax_right; lra. }
  intro s.
  assert (RH : (2 * 1 / (3 * (2 + 50 * 2 / 99)) / 4 = 33 / 596)%R) by field.
  assert (EF : half_squares (fun x => fst (hyperbola x)) [2%R] = (9 / 2)%R).
  { unfold half_squares. cbn. destruct (hyp_pos 2) as [_ E]. lra. }
  destruct (C121_terminates_pf derive_jac divide unit (1/10) 1 (1/100) 1000 lsolve1 hyperbola_jac hyperbola 1 2 2 2 1 [2%R] (fun _ => [0; 0]%R) (fun _ => tt)
    3 (Z.to_nat 200000) derive_jac_ok divide_ok ltac:(lra) ltac:(lra) (proj1 C32_levenberg_marquardt_ex_pf) (fun _ _ => eq_refl) HP ltac:(lra) HS
    ltac:(lra) HB HI HLp eq_refl ltac:(lra) ltac:(lra)) as (k & K1 & K2).
  - rewrite RH, Rmax_right; lra.
  - rewrite RH. lra.
  - rewrite RH. cbn. lra.
  - rewrite RH, EF.
    rewrite Rmin_right by lra. replace (INR (Z.to_nat 200000)) with 200000%R; [lra|]. rewrite INR_IZR_INZ, Z2Nat.id by lia. reflexivity.
  - exists k. split; [exact K1|]. intros fuel budget throw F1 F2. destruct (K2 fuel budget throw F1 F2) as (sol & S1 & S2 & _). eauto.
Qed.
