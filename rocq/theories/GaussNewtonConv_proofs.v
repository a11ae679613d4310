(** Local convergence of Gauss-Newton (C80). *)

From Coq Require Import String List Bool Arith Lia ZArith QArith Qreals Reals Lra Psatz.
From Verif Require Import Num NumFacts Vec Results Iterate Spec_Iterate Iterate_proofs.
From Verif Require Import Spec_Vec VecFacts Spec_Lin LinFacts.
From Verif Require Import Search Spec_Search Descent Minimisers Solvers Minimisers_proofs.
From Verif Require Import TrustRegion_proofs LeastSquares_proofs Dogleg_proofs Spec_Steps Steps_proofs Spec_Convergence Convergence_proofs.
From Verif Require Import GaussNewton_proofs DoglegConv_proofs.
Import ListNotations.
Local Open Scope nat_scope.

Lemma tri_sq : forall (a b : list R) (al be : R), length a = length b -> (0 <= al)%R -> (0 <= be)%R ->
  (Rdot a a <= al * al)%R -> (Rdot b b <= be * be)%R ->
  (Rdot (Rsub_v a b) (Rsub_v a b) <= (al + be) * (al + be))%R.
Proof.
  intros a b al be L A0 B0 HA HB. rewrite sq_sub by exact L.
  pose proof (Rdot_CS a b L) as C. pose proof (Rdot_pos a) as Pa. pose proof (Rdot_pos b) as Pb.
  assert (K : (Rdot a b * Rdot a b <= (al * be) * (al * be))%R).
  { eapply Rle_trans; [exact C|]. replace (al * be * (al * be))%R with (al * al * (be * be))%R by ring.
    apply Rmult_le_compat; assumption. }
  assert (AB : (0 <= al * be)%R) by (apply Rmult_le_pos; assumption).
  assert (Q : (- Rdot a b <= al * be)%R) by nra. nra.
Qed.

Lemma Rsub_sub : forall a b c : list R, length a = length c -> length b = length c ->
  Rsub_v (Rsub_v a c) (Rsub_v b c) = Rsub_v a b.
Proof.
  induction a as [|x a IH]; intros [|y b] [|z c] H1 H2; try discriminate; [reflexivity|].
  cbn. f_equal; [ring|]. apply IH; apply eq_add_S; assumption.
Qed.

Lemma Rsub_add : forall a b : list R, length a = length b -> Rsub_v a b = Radd_v a (Rscal (-1) b).
Proof.
  induction a as [|x a IH]; intros [|y b] H; try discriminate; [reflexivity|].
  cbn. f_equal; [ring|]. apply IH. apply eq_add_S. exact H.
Qed.

Lemma Rsub_swap : forall a b c : list R, length a = length c -> length b = length c ->
  Rsub_v (Rsub_v a b) c = Rsub_v (Rsub_v a c) b.
Proof.
  induction a as [|x a IH]; intros [|y b] [|z c] H1 H2; try discriminate; [reflexivity|].
  cbn. f_equal; [ring|]. apply IH; apply eq_add_S; assumption.
Qed.

(** One step: the error after it, seen through the Jacobian, is the projection of the
    linearisation error. *)
Lemma gn_contract : forall n m (A : linop RN) (b d : list R) lsolve sigma,
  exact_least_squares n lsolve -> linear_op n m A -> transpose_op n A -> length b = m -> length d = n -> (0 < sigma)%R ->
  (forall v, length v = n -> sigma * Rdot v v <= Rdot (op_mv A v) (op_mv A v))%R ->
  let z : list R := fst (lsolve A b) in
  let h : list R := op_mvT A (Rsub_v b (op_mv A d)) in
  (sigma * sigma * Rdot (Rsub_v d z) (Rsub_v d z) <= Rdot h h)%R.
Proof.
  intros n m A b d lsolve sigma HE HA HT Hb Hd S0 HI z h.
  destruct (HE m A b HA Hb) as [Lz _]. fold z in Lz. pose proof HA as (L1 & L2 & L3).
  set (e := Rsub_v d z). assert (Le : length e = n) by (apply Rsub_v_length; assumption).
  pose proof (newton_orth n m A b lsolve 0%R HE HA HT Hb e Le) as O. cbv beta zeta in O.
  fold z in O. rewrite L3 in O by exact Lz. rewrite Rdot_scal_l in O.
  assert (Oz : Rdot (op_mv A z) (op_mv A e) = Rdot (op_mvT A b) e) by lra.
  assert (E1 : Rdot h e = (Rdot (op_mvT A b) e - Rdot (op_mv A d) (op_mv A e))%R).
  { unfold h. rewrite (proj2 HT _ e Le). rewrite (proj2 HT b e Le). rewrite Rdot_sub_l; [reflexivity|].
    exact (eq_trans Hb (eq_sym (L1 d Hd))). }
  assert (E2 : Rdot (op_mv A e) (op_mv A e) = (Rdot (op_mv A d) (op_mv A e) - Rdot (op_mv A z) (op_mv A e))%R).
  { rewrite <- Rdot_sub_l by (exact (eq_trans (L1 d Hd) (eq_sym (L1 z Lz)))). f_equal.
    unfold e. rewrite Rsub_add by congruence. rewrite L2 by (rewrite ?Rscal_length; assumption). rewrite L3 by exact Lz.
    symmetry. apply Rsub_add. exact (eq_trans (L1 d Hd) (eq_sym (L1 z Lz))). }
  assert (E3 : (Rdot (op_mv A e) (op_mv A e) = - Rdot h e)%R) by lra.
  pose proof (HI e Le) as I. rewrite E3 in I.
  assert (Lh : length h = n) by (apply (proj1 HT)).
  pose proof (Rdot_CS h e ltac:(congruence)) as C. pose proof (Rdot_pos e) as Pe. pose proof (Rdot_pos h) as Ph.
  fold e. set (ee := Rdot e e) in *. set (hh := Rdot h h) in *. set (he := Rdot h e) in *.
  destruct (Req_EM_T ee 0) as [Z|Z]; [rewrite Z; lra|].
  apply (Rmult_le_reg_r ee); [lra|].
  assert (sigma * ee * (sigma * ee) <= he * he)%R by (assert (0 <= sigma * ee)%R by (apply Rmult_le_pos; lra); nra). nra.
Qed.

(** Gauss-Newton in exact arithmetic with exact least-squares solves, started within rho of
    a point [root] near which |J v|^2 >= sigma |v|^2 and the projected linearisation error
    J(x)^T (r(x) - J(x)(x - root)) is at most sigma q |x - root| with q < 1 (so root is a
    stationary point, with a zero or a small residual).  After the first step, which stays
    at y0, every step brings the iterate closer to root by the factor q; if the error is
    quadratic so is the convergence; and the solve succeeds within K + 2 steps once
    2 rho q^K and 2 L rho q^K are below atol, L being a Lipschitz constant of r. *)
Lemma C80_local_convergence_pf :
  forall (Aux : Type) (rtol atol : R) lsolve jac_of (fn : list R -> list R * Aux)
         (n m : nat) (root y0 : list R) (sigma q rho : R) fs auxs,
    let r x := fst (fn x) in let J := jac_of fn in
    let dist2 a b := Rdot (Rsub_v a b) (Rsub_v a b) in
    let near x := length x = n /\ (dist2 x root <= rho * rho)%R in
    let error x := op_mvT (J x) (Rsub_v (r x) (op_mv (J x) (Rsub_v x root))) in
    exact_least_squares n lsolve -> (forall A b, snd (lsolve A b) = successful) ->
    (forall x, near x -> length (r x) = m /\ linear_op n m (J x) /\ transpose_op n (J x)) ->
    (0 < sigma)%R ->
    (forall x v, near x -> length v = n -> sigma * Rdot v v <= Rdot (op_mv (J x) v) (op_mv (J x) v))%R ->
    (0 <= q < 1)%R -> (0 <= rho)%R ->
    (forall x, near x -> Rdot (error x) (error x) <= (sigma * q) * (sigma * q) * dist2 x root)%R ->
    length root = n -> near y0 -> (0 <= rtol)%R -> (0 < atol)%R ->
    let s := GaussNewton (N:=RN) (mkTols rtol atol max_norm) jac_of lsolve in
    forall st0, s_init s fn y0 fs auxs = Ret st0 ->
    let y := y_at s fn y0 st0 (auxs fill0) in
    y 1 = y0 /\
    (forall k, dist2 (y (S (S k))) root <= q * q * dist2 (y (S k)) root)%R /\
    (forall gamma, (forall x, near x -> Rdot (error x) (error x) <= (sigma * gamma) * (sigma * gamma) * (dist2 x root * dist2 x root))%R ->
       forall k, dist2 (y (S (S k))) root <= gamma * gamma * (dist2 (y (S k)) root * dist2 (y (S k)) root))%R /\
    forall L K, (0 <= L)%R ->
      (forall x x', near x -> near x' -> Rdot (Rsub_v (r x) (r x')) (Rsub_v (r x) (r x')) <= L * L * dist2 x x')%R ->
      (2 * rho * q ^ K < atol)%R -> (2 * L * rho * q ^ K < atol)%R ->
      exists k, 1 <= k <= K + 2 /\
        forall fuel budget throw, k < fuel -> (forall j, budget = Some j -> k <= j) ->
          exists sol, iterative_solve (vallfinite (N:=RN)) s fn fuel budget throw y0 fs auxs = Ret sol /\
            result sol = successful /\ (dist2 (value sol) root <= rho * q ^ pred k * (rho * q ^ pred k))%R /\
            hd_error (sol_stats sol) = Some ("num_steps"%string, Some (Z.of_nat k)).
Proof.
  intros Aux rtol atol lsolve jac_of fn n m root y0 sigma q rho fs auxs r J dist2 near error HE HR HP S0 HI Hq Hrho Herr Hroot Hy0 Hrt Hat s st0 Hi y.
  set (P := mkTols (N:=RN) rtol atol max_norm) in *.
  pose proof (fun k => C53_iteration_pf RN Aux P lsolve jac_of fn y0 fs auxs st0 k Hi) as C. cbv zeta in C. fold s in C. fold y in C.
  assert (Y1 : y 1 = y0) by apply (C 0).
  assert (ST : forall x, near x -> forall x' : list R,
    x' = vadd (N:=RN) x (vscale (N:=RN) (nneg (n:=RN) (nofQ (n:=RN) 1)) (fst (lsolve (jac_of fn x) (fst (fn x))))) ->
    length x' = n /\ (sigma * sigma * dist2 x' root <= Rdot (error x) (error x))%R).
  { intros x Hx x' Ex'. destruct (HP x Hx) as (Lr & HA & HT). destruct Hx as (Lx & Dx).
    set (z := fst (lsolve (J x) (r x)) : list R).
    destruct (HE m (J x) (r x) HA Lr) as [Lz _]. fold z in Lz.
    assert (E : x' = Rsub_v x z).
    { rewrite Ex'. change (fst (lsolve (jac_of fn x) (fst (fn x)))) with z. rewrite vadd_RN, vscale_RN. cbn. rewrite Q2R_1.
      symmetry. apply Rsub_add. congruence. }
    assert (Lx' : length x' = n) by (rewrite E; apply Rsub_v_length; assumption). split; [exact Lx'|].
    pose proof (gn_contract n m (J x) (r x) (Rsub_v x root) lsolve sigma HE HA HT Lr ltac:(apply Rsub_v_length; assumption) S0
      (fun v => HI x v (conj Lx Dx))) as G. cbv zeta in G. fold z in G. fold (error x) in G.
    assert (EQ : Rsub_v (Rsub_v x root) z = Rsub_v x' root).
    { rewrite E. apply Rsub_swap; congruence. }
    rewrite EQ in G. exact G. }
  assert (SC : forall a b, (sigma * sigma * a <= sigma * sigma * b)%R -> (a <= b)%R).
  { intros a b H. apply (Rmult_le_reg_l (sigma * sigma)); [apply Rmult_lt_0_compat; exact S0|exact H]. }
  assert (QK : forall k, (0 <= q ^ k)%R) by (intro k; apply pow_le; lra).
  assert (NR : forall k, length (y (S k)) = n /\ (dist2 (y (S k)) root <= rho * q ^ k * (rho * q ^ k))%R /\ near (y (S k))).
  { induction k as [|k (IH1 & IH2 & IH3)].
    - rewrite Y1. destruct Hy0 as [A1 A2]. split; [exact A1|]. split; [cbn; lra|split; assumption].
    - destruct (ST (y (S k)) IH3 _ (proj2 (C k))) as (T1 & T2).
      assert (T3 : (dist2 (y (S (S k))) root <= q * q * dist2 (y (S k)) root)%R).
      { apply SC. eapply Rle_trans; [exact T2|]. eapply Rle_trans; [exact (Herr _ IH3)|]. apply Req_le. ring. }
      assert (T4 : (dist2 (y (S (S k))) root <= rho * q ^ S k * (rho * q ^ S k))%R).
      { eapply Rle_trans; [exact T3|]. cbn [pow]. replace (rho * (q * q ^ k) * (rho * (q * q ^ k)))%R with (q * q * (rho * q ^ k * (rho * q ^ k)))%R by ring.
        apply Rmult_le_compat_l; [apply Rle_0_sqr|exact IH2]. }
      split; [exact T1|]. split; [exact T4|]. split; [exact T1|]. eapply Rle_trans; [exact T3|].
      assert (q * q <= 1)%R by nra. pose proof (Rdot_pos (Rsub_v (y (S k)) root)) as D0. fold (dist2 (y (S k)) root) in D0.
      eapply Rle_trans; [|exact (proj2 IH3)]. nra. }
  split; [exact Y1|]. split; [|split].
  - intro k. destruct (ST (y (S k)) (proj2 (proj2 (NR k))) _ (proj2 (C k))) as (_ & T2).
    apply SC. eapply Rle_trans; [exact T2|]. eapply Rle_trans; [exact (Herr _ (proj2 (proj2 (NR k))))|]. apply Req_le. ring.
  - intros gamma Hg k. destruct (ST (y (S k)) (proj2 (proj2 (NR k))) _ (proj2 (C k))) as (_ & T2).
    apply SC. eapply Rle_trans; [exact T2|]. eapply Rle_trans; [exact (Hg _ (proj2 (proj2 (NR k))))|]. apply Req_le. ring.
  - intros L K L0 HL HK1 HK2.
    pose proof Hi as Hi'. unfold s in Hi'. apply gn_init_inv in Hi'.
    assert (TM : gn_terminate (st_at s fn y0 st0 (auxs fill0) (S (S K))) = true).
    { destruct (gn_terminate (st_at s fn y0 st0 (auxs fill0) (S (S K)))) eqn:ET; [reflexivity|exfalso].
      destruct (accepts_first_builtin RN) as (_ & _ & _ & A4).
      pose proof (proj2 (gn_first P (learning_rate (nofQ (n:=RN) 1)) (newton_descent (N:=RN) lsolve None) jac_of fn y0 fs auxs (A4 _) (S K)) ltac:(lia)) as (FI & _).
      pose proof (gn_step_cases P (learning_rate (nofQ (n:=RN) 1)) (newton_descent (N:=RN) lsolve None) jac_of fn _ _ _ _ _
        (gn_trace_S P (learning_rate (nofQ (n:=RN) 1)) (newton_descent (N:=RN) lsolve None) jac_of fn y0 fs auxs (S K)))
        as (step & acc & sr & sst & Es & _ & _ & _ & _ & _ & E5).
      cbn in Es. injection Es as <- <- <- <-. destruct E5 as (_ & _ & _ & _ & T).
      rewrite <- Hi' in T, FI. fold s in T, FI.
      change (gn_terminate (st_at s fn y0 st0 (auxs fill0) (S (S K))) = cauchy_termination (N:=RN) rtol atol max_norm (y (S (S K))) (vsub (N:=RN) (y (S (S K))) (y (S K)))
        (r (y (S (S K)))) (vsub (N:=RN) (r (y (S (S K)))) (info_residual (gn_f_info (st_at s fn y0 st0 (auxs fill0) (S K)))))) in T.
      rewrite ET in T. symmetry in T. apply cauchy_false_vec in T; [|exact Hrt|exact Hat].
      change (gn_f_info (st_at s fn y0 st0 (auxs fill0) (S K)) = ResidualJac (N:=RN) (r (y (S K))) (J (y (S K)))) in FI.
      rewrite FI in T. cbn [info_residual] in T. rewrite !vsub_RN in T.
      destruct (NR K) as (N1 & N2 & N3). destruct (NR (S K)) as (M1 & M2 & M3).
      assert (R0 : (0 <= rho * q ^ K)%R) by (apply Rmult_le_pos; auto).
      assert (M2' : (dist2 (y (S (S K))) root <= rho * q ^ K * (rho * q ^ K))%R).
      { eapply Rle_trans; [exact M2|]. cbn [pow]. assert (rho * (q * q ^ K) <= rho * q ^ K)%R.
        { replace (rho * (q * q ^ K))%R with (q * (rho * q ^ K))%R by ring. nra. }
        apply Rmult_le_compat; try assumption; replace (rho * (q * q ^ K))%R with (q * (rho * q ^ K))%R by ring; apply Rmult_le_pos; lra. }
      pose proof (tri_sq (Rsub_v (y (S (S K))) root) (Rsub_v (y (S K)) root) _ _
        ltac:(rewrite !(Rsub_v_length _ _ n) by assumption; reflexivity) R0 R0 M2' N2) as D.
      rewrite Rsub_sub in D by (first [exact (eq_trans M1 (eq_sym Hroot))|exact (eq_trans N1 (eq_sym Hroot))]).
      set (b := (2 * rho * q ^ K)%R). assert (B0 : (0 <= b)%R) by (unfold b; lra).
      assert (D' : (dist2 (y (S (S K))) (y (S K)) <= b * b)%R).
      { eapply Rle_trans; [exact D|]. apply Req_le. unfold b. ring. }
      pose proof (HL _ _ M3 N3) as F.
      assert (SQ : forall (v : list R) i c, nth_error v i = Some c -> (atol <= Rabs c)%R -> (atol * atol <= Rdot v v)%R).
      { intros v i c Hc Hac. pose proof (Rdot_nth_le _ _ _ Hc) as G.
        assert (atol * atol <= Rabs c * Rabs c)%R by (apply Rmult_le_compat; lra).
        rewrite <- Rabs_mult, Rabs_pos_eq in H by apply Rle_0_sqr. lra. }
      destruct T as [(i & c & Hc & Hac)|(i & c & Hc & Hac)]; pose proof (SQ _ i c Hc Hac) as G.
      - unfold dist2 in D'. assert (b < atol)%R by exact HK1. assert (b * b < atol * atol)%R by nra. lra.
      - assert (L * L * dist2 (y (S (S K))) (y (S K)) <= L * L * (b * b))%R by (apply Rmult_le_compat_l; [apply Rle_0_sqr|exact D']).
        assert (H1 : (L * b < atol)%R) by (unfold b; lra). assert (0 <= L * b)%R by (apply Rmult_le_pos; assumption).
        assert ((L * b) * (L * b) < atol * atol)%R by nra. nra. }
    assert (SR : forall k, says_result s fn y0 st0 (auxs fill0) k = successful).
    { intros [|k]; [rewrite Hi'; reflexivity|].
      exact (eq_trans (C64_gauss_newton_pf RN Aux P lsolve jac_of fn y0 fs auxs st0 Hi k) (HR _ _)). }
    assert (AF : forall v : list R, vallfinite (N:=RN) v = true).
    { intro v. unfold vallfinite. induction v; auto. }
    destruct (solve_succeeds (vallfinite (N:=RN)) s fn y0 st0 _ fs auxs eq_refl Hi SR (fun k => AF _) (ex_intro _ (S (S K)) TM))
      as (k1 & K1 & K2 & K3).
    assert (U : k1 <= S (S K)).
    { destruct (le_lt_dec k1 (S (S K))) as [?|Q]; [assumption|]. specialize (K2 _ Q).
      change (gn_terminate (st_at s fn y0 st0 (auxs fill0) (S (S K))) = false) in K2. congruence. }
    assert (V : 1 <= k1).
    { destruct k1 as [|k1]; [|lia]. rewrite Hi' in K1. discriminate K1. }
    exists k1. split; [lia|]. intros fuel budget throw Hfu Hb. destruct (K3 fuel budget throw Hfu Hb) as (K4 & K5).
    eexists. split; [exact K4|]. split; [exact K5|]. split; [|reflexivity].
    destruct k1 as [|k1]; [lia|]. exact (proj1 (proj2 (NR k1))).
Qed.

(** Residuals x and (1 + x^2)/2, stationary at 0 where the second is 1/2: from x = 1 the
    distance to 0 halves at every step, and with atol = 1/100 the solve succeeds within 11 steps. *)
Definition bowl (v : list R) : list R * unit :=
  match v with [x] => ([x; (1 + x * x) / 2]%R, tt) | _ => ([0; 0]%R, tt) end.
Definition bowl_jac (_ : list R -> list R * unit) (v : list R) : linop RN :=
  MatOp (N:=RN) 1 (match v with [x] => [[1]; [x]]%R | _ => [[0]; [0]]%R end).

Example C80_local_convergence_ex_pf :
  let s := GaussNewton (N:=RN) (mkTols (N:=RN) 0%R (1/100)%R max_norm) bowl_jac lsolve1 in
  exists k, 1 <= k <= 11 /\
    forall fuel budget throw, k < fuel -> (forall j, budget = Some j -> k <= j) ->
      exists sol, iterative_solve (vallfinite (N:=RN)) s bowl fuel budget throw [1%R] (fun _ => [0; 0]%R) (fun _ => tt) = Ret sol /\
        result sol = successful.
Proof.
  intro s.
  set (st0 := gn_st0 (learning_rate (nofQ (n:=RN) 1)) (newton_descent (N:=RN) lsolve1 None) [1%R] (fun _ => [0; 0]%R) (fun _ => tt)).
  assert (Hi : s_init s bowl [1%R] (fun _ => [0; 0]%R) (fun _ => tt) = Ret st0) by reflexivity.
  assert (ONE : forall x : list R, length x = 1 -> exists t, x = [t]).
  { intros [|t [|? ?]] H; try discriminate. eauto. }
  assert (NR : forall t : R, (Rdot (Rsub_v [t] [0]) (Rsub_v [t] [0]) <= 1 * 1)%R -> (0 <= t * t <= 1)%R).
  { intros t H. cbn in H. pose proof (Rle_0_sqr t) as Q. unfold Rsqr in Q. lra. }
  destruct (C80_local_convergence_pf unit 0 (1/100) lsolve1 bowl_jac bowl 1 2 [0%R] [1%R] 1 (1/2) 1 (fun _ => [0; 0]%R) (fun _ => tt)) with (st0 := st0)
    as (_ & _ & _ & T).
  - exact (proj1 C32_levenberg_marquardt_ex_pf).
  - reflexivity.
  - intros x (Lx & _). destruct (ONE x Lx) as (t & ->). split; [reflexivity|].
    apply mat_linear. repeat constructor.
  - lra.
  - intros x v (Lx & _) Lv. destruct (ONE x Lx) as (t & ->). destruct (ONE v Lv) as (u & ->). cbn.
    pose proof (Rle_0_sqr (t * u)) as Q. unfold Rsqr in Q. lra.
  - lra.
  - lra.
  - intros x (Lx & Dx). destruct (ONE x Lx) as (t & ->). apply NR in Dx. cbn.
    assert (E : (0 <= t * t * (1 - (1 - t * t) * (1 - t * t)))%R) by (apply Rmult_le_pos; nra). nra.
  - reflexivity.
  - split; [reflexivity|]. cbn. lra.
  - lra.
  - lra.
  - exact Hi.
  - destruct (T (3/2)%R 9) as (k & K1 & K2).
    + lra.
    + intros x x' (Lx & Dx) (Lx' & Dx'). destruct (ONE x Lx) as (t & ->). destruct (ONE x' Lx') as (u & ->).
      apply NR in Dx, Dx'. cbn.
      assert (E : (0 <= (t - u) * (t - u) * (5 - (t + u) * (t + u)))%R).
      { apply Rmult_le_pos; [apply Rle_0_sqr|]. pose proof (Rle_0_sqr (t - u)) as Q. unfold Rsqr in Q. lra. }
      lra.
    + cbn. lra.
    + cbn. lra.
    + exists k. split; [lia|]. intros fuel budget throw H1 H2. destruct (K2 fuel budget throw H1 H2) as (sol & E1 & E2 & _). eauto.
Qed.
