(** What success of Dogleg and IndirectLevenbergMarquardt says about the gradient (C96). *)

From Coq Require Import String List Bool Arith Lia ZArith QArith Qreals Reals Lra Psatz.
From Verif Require Import Num NumFacts Vec Results Iterate Spec_Iterate Iterate_proofs FixedPoint_proofs.
From Verif Require Import Spec_Vec VecFacts Spec_Lin LinFacts.
From Verif Require Import Search Spec_Search Descent Minimisers Solvers Minimisers_proofs.
From Verif Require Import TrustRegion_proofs LeastSquares_proofs Dogleg_proofs Spec_Steps Steps_proofs Spec_Convergence Convergence_proofs.
From Verif Require Import Certificate_proofs Spec_Rates Rates_proofs Spec_Success Success_proofs.
From Verif Require Import DoglegConv_proofs Spec_IndirectConv IndirectConv_proofs.
Import ListNotations.
Local Open Scope nat_scope.

(** The last step of a successful run of a Gauss-Newton solver with the classical trust region *)
Lemma trust_last : forall (Aux : Type) (rtol atol : R) (descent : Descent RN) jac_of (fn : list R -> list R * Aux)
    (n m : nat) (y0 : list R) fs auxs (w : R) allfinite fuel budget throw sol,
  let r x := fst (fn x) in let J := jac_of fn in
  let info x := ResidualJac (N:=RN) (r x) (J x) in
  let dir x (step : R) st : list R := fst (d_step descent step (d_query descent x (info x) st)) in
  (0 <= rtol)%R -> (0 < atol)%R -> length y0 = n -> length (r y0) = m -> fs fill0 = zerov m ->
  (forall y (step : R) st, length y = n -> (0 < step)%R ->
     length (dir y step st) = n /\ (classical_predict (N:=RN) (dir y step st) (info y) <= 0)%R) ->
  (forall x (step : R) st, length x = n -> (Rmin 1 (w / 4) <= step < w)%R ->
     (half_squares r (Radd_v x (dir x step st)) - half_squares r x <=
      1 / 100 * classical_predict (N:=RN) (dir x step st) (info x))%R) ->
  let s := gauss_newton_solver (N:=RN) (mkTols rtol atol max_norm) (classical_trust_region (N:=RN) tr_default) descent jac_of in
  s_init s fn y0 fs auxs = Ret (gn_st0 (classical_trust_region (N:=RN) tr_default) descent y0 fs auxs) ->
  iterative_solve allfinite s fn fuel budget throw y0 fs auxs = Ret sol -> result sol = successful ->
  (value sol = y0 /\ forall i a, nth_error (r y0) i = Some a -> ((1 - rtol) * Rabs a < atol)%R) \/
  exists (x : list R) (step : R) st, length x = n /\ (0 < step)%R /\ (Rmin 1 (w / 4) <= step)%R /\
    let d := dir x step st in
    length d = n /\ value sol = Radd_v x d /\ (half_squares r (value sol) <= half_squares r x)%R /\
    let tol := tolerances rtol atol (value sol) in (Rdot d d <= Rdot tol tol)%R.
Proof.
  intros Aux rtol atol descent jac_of fn n m y0 fs auxs w allfinite fuel budget throw sol r J info dir
    Hr Ha Hn Hm Hfs HD HM s Hi H HR.
  set (P := mkTols (N:=RN) rtol atol max_norm) in *.
  set (st0 := gn_st0 (classical_trust_region (N:=RN) tr_default) descent y0 fs auxs).
  destruct (success_inv _ _ _ allfinite s fn y0 st0 fs auxs fuel budget throw sol Hi H HR)
    as (k & _ & _ & -> & _ & HT & _).
  change (gn_terminate (st_at s fn y0 st0 (auxs fill0) k) = true) in HT.
  destruct k as [|[|k]]; [discriminate HT| |].
  - left.
    match goal with |- context [value ?x] => change (value x) with (y_at s fn y0 st0 (auxs fill0) 1) end.
    pose proof (gn_step_cases _ _ _ _ _ _ _ _ _ _ (gn_trace_S (N:=RN) P (classical_trust_region (N:=RN) tr_default) descent jac_of fn y0 fs auxs 0))
      as (step & acc & sr & sst & Es & E1 & E2 & E3 & E4 & E6 & E5).
    destruct acc; [|destruct E5 as (_ & _ & _ & _ & ET); exact (False_ind _ (diff_true_false (eq_trans (eq_sym HT) ET)))].
    destruct E5 as (Ey & _ & _ & _ & ET).
    pose proof (eq_trans (eq_sym ET) HT) as HC. clear ET HT.
    split; [exact Ey|]. rewrite Ey in HC.
    change (cauchy_termination (N:=RN) rtol atol max_norm y0 (vsub (N:=RN) y0 y0) (r y0) (vsub (N:=RN) (r y0) (fs fill0)) = true) in HC.
    rewrite !vsub_RN in HC. apply (cauchy_true_RN rtol atol) in HC; [|exact Hr|exact Ha]. destruct HC as (_ & HC).
    intros i a E.
    assert (E0 : nth_error (Rsub_v (r y0) (fs fill0)) i = Some a).
    { rewrite Hfs. revert E Hm. generalize (r y0). clear. intros v. revert i m.
      induction v as [|x v IH]; intros [|i] [|m] E Lr; try discriminate; cbn in *.
      - injection E as <-. f_equal. ring.
      - apply (IH i m E). congruence. }
    specialize (HC i a a E0 E). lra.
  - right.
    match goal with |- context [value ?x] => change (value x) with (y_at s fn y0 st0 (auxs fill0) (S (S k))) end.
    pose proof (run_radius P descent jac_of fn n y0 fs auxs Hn HD w HM k) as LR.
    destruct (run_step P descent jac_of fn n y0 fs auxs Hn HD k) as (st' & Ld & EY & X).
    destruct (run_inv P descent jac_of fn n y0 fs auxs Hn HD (S k)) as (I1 & I2 & _).
    destruct X as [(C & Y & _ & _ & ET)|(_ & _ & _ & _ & ET)];
      [|exfalso; exact (diff_true_false (eq_trans (eq_sym HT) ET))].
    pose proof (eq_trans (eq_sym ET) HT) as HC. clear ET HT.
    exists (y_at s fn y0 st0 (auxs fill0) (S k)), (gn_search_state (st_at s fn y0 st0 (auxs fill0) (S k))), st'.
    split; [exact I1|]. split; [exact I2|]. split; [exact LR|].
    destruct (HD _ _ st' I1 I2) as (_ & PD).
    change (gauss_newton_solver (N:=RN) P (classical_trust_region (N:=RN) tr_default) descent jac_of) with s in HC, Y, C, I1, I2, LR, PD, Ld.
    fold st0 in HC, Y, C, I1, I2, LR, PD, Ld.
    set (x := y_at s fn y0 st0 (auxs fill0) (S k) : list R) in *.
    set (v := y_at s fn y0 st0 (auxs fill0) (S (S k)) : list R) in *.
    set (rad := gn_search_state (st_at s fn y0 st0 (auxs fill0) (S k)) : R) in *.
    change (length (dir x rad st') = n) in Ld. change (v = Radd_v x (dir x rad st')) in Y.
    change (half_squares r (Radd_v x (dir x rad st')) - half_squares r x <= 1 / 100 * classical_predict (N:=RN) (dir x rad st') (info x))%R in C.
    cbv zeta. set (d := dir x rad st') in *.
    split; [exact Ld|]. split; [exact Y|]. split; [rewrite Y; lra|].
    change (cauchy_termination (N:=RN) rtol atol max_norm v (Rsub_v v x) (r v) (Rsub_v (r v) (r x)) = true) in HC.
    apply (cauchy_true_RN rtol atol) in HC; [|exact Hr|exact Ha]. destruct HC as (HC & _).
    assert (Lv : length v = n) by (rewrite Y; apply Radd_v_length; assumption).
    assert (ED : Rsub_v v x = d) by (rewrite Y; apply (sub_along n); assumption).
    rewrite ED in HC.
    pose proof (dot_bound d (tolerances rtol atol v) 1) as Q. rewrite !Rmult_1_l in Q. apply Q; [|clear Q|lra].
    + unfold tolerances. rewrite map_length. congruence.
    + intros i a b E1 E2. apply nth_tol in E2. destruct E2 as (b' & E2 & ->). specialize (HC i a b' E1 E2). lra.
Qed.

(** A step whose predicted decrease is at least c |g|^2 is at least c |g| long *)
Lemma decrease_length : forall n m (A : linop RN) (r d : list R) (c : R),
  linear_op n m A -> transpose_op n A -> length r = m -> length d = n -> (0 < c)%R ->
  let g : list R := op_mvT A r in
  (classical_predict (N:=RN) d (ResidualJac (N:=RN) r A) <= - (c * Rdot g g))%R ->
  (Rdot g g <= / c * / c * Rdot d d)%R.
Proof.
  intros n m A r d c HA HT Hr Ld Hc g H.
  assert (Lg : length g = n) by (apply (proj1 HT); exact Hr).
  pose proof (q_eq n m A r HA HT Hr d Ld) as E. cbv zeta in E. 
  change (classical_predict (N:=RN) d (ResidualJac (N:=RN) r A) = Rdot g d + / 2 * Rdot (op_mv A d) (op_mv A d))%R in E.
  rewrite E in H. pose proof (Rdot_pos (op_mv A d)) as P.
  pose proof (Rdot_CS g d (eq_trans Lg (eq_sym Ld))) as C.
  pose proof (Rdot_pos g) as G0. pose proof (Rdot_pos d) as D0.
  set (gg := Rdot g g) in *. set (dd := Rdot d d) in *.
  assert (K : (c * gg <= - Rdot g d)%R) by lra.
  assert (K2 : ((c * gg) * (c * gg) <= gg * dd)%R).
  { eapply Rle_trans; [|exact C]. replace (Rdot g d * Rdot g d)%R with ((- Rdot g d) * (- Rdot g d))%R by ring.
    assert (0 <= c * gg)%R by (apply Rmult_le_pos; lra). apply Rmult_le_compat; lra. }
  assert (I : (0 < / c)%R) by (apply Rinv_0_lt_compat; exact Hc).
  destruct G0 as [G0|G0].
  - apply (Rmult_le_reg_l (c * c * gg)); [apply Rmult_lt_0_compat; [apply Rmult_lt_0_compat|]; assumption|].
    replace (c * c * gg * (/ c * / c * dd))%R with (gg * dd)%R by (field; lra). lra.
  - rewrite <- G0. apply Rmult_le_pos; [apply Rmult_le_pos; lra|exact D0].
Qed.

(** [Dogleg] over the reals, with the max norm for the tolerances and the two norm for the
    dogleg path, in the setting of C77 (exact linear solves, Jacobians with
    sigma |v|^2 <= |J v|^2 <= B |v|^2, an L-Lipschitz gradient). If it reports success then
    either the first step already met the tolerances against the zero fill of the state (and
    every residual at y0 is at most atol/(1 - rtol)), or the returned value is no worse than
    a point x where |J^T r|^2 <= max ((2B/rho)^2 |tol|^2, (B eps)^2), tol_i = atol + rtol |y_i|
    at the returned value. *)
Lemma C96_dogleg_pf :
  forall (Aux : Type) (rtol atol eps : R) lsolve jac_of (fn : list R -> list R * Aux)
         (n m : nat) (L B sigma : R) (y0 : list R) fs auxs allfinite fuel budget throw sol,
    let r x := fst (fn x) in let J := jac_of fn in
    (0 <= rtol)%R -> (0 < atol)%R -> (0 <= eps)%R -> exact_least_squares n lsolve ->
    residual_problem n m r J -> (0 < L)%R -> smooth n L (half_squares r) (ls_gradient r J) ->
    (0 < sigma <= B)%R -> jac_bounded n B J -> jac_injective n sigma J -> length y0 = n -> fs fill0 = zerov m ->
    let rho := (Rmin (sigma / B) (99 * sigma / (50 * L)) / 4)%R in
    let s := Dogleg (N:=RN) (mkTols rtol atol max_norm) jac_of lsolve eps in
    iterative_solve allfinite s fn fuel budget throw y0 fs auxs = Ret sol -> result sol = successful ->
    (value sol = y0 /\ forall i a, nth_error (r y0) i = Some a -> ((1 - rtol) * Rabs a < atol)%R) \/
    exists x : list R, length x = n /\ (half_squares r (value sol) <= half_squares r x)%R /\
      let g := ls_gradient r J x in let tol := tolerances rtol atol (value sol) in
      (Rdot g g <= Rmax (4 * (B * B) / (rho * rho) * Rdot tol tol) (B * B * (eps * eps)))%R.
Proof.
  intros Aux rtol atol eps lsolve jac_of fn n m L B sigma y0 fs auxs allfinite fuel budget throw sol r J
    Hr Ha He HE HP HL HS HSB HB HI Hn Hfs rho s H HR.
  pose proof (dogleg_descends Aux lsolve eps jac_of fn n m He HE HP) as HD. cbv zeta in HD.
  pose proof (dogleg_must_accept Aux lsolve eps jac_of fn n m L B sigma He HE HP HL HS HSB HB HI) as HM. cbv zeta in HM.
  set (w := Rmin (sigma / B) (99 * sigma / (50 * L))) in *.
  assert (Hw : (0 < w)%R) by (apply Rmin_glb_lt; apply Rdiv_lt_0_compat; lra).
  assert (W1 : (w <= 1)%R).
  { eapply Rle_trans; [apply Rmin_l|]. apply (Rmult_le_reg_r B); [lra|]. unfold Rdiv. rewrite Rmult_assoc, Rinv_l by lra. lra. }
  destruct (trust_last Aux rtol atol _ jac_of fn n m y0 fs auxs w allfinite fuel budget throw sol
    Hr Ha Hn (proj1 (HP y0 Hn)) Hfs HD HM eq_refl H HR) as [K|(x & step & st & Lx & S0 & S1 & Ld & EV & F & DT)]; [left; exact K|].
  right. exists x. split; [exact Lx|]. split; [exact F|]. cbv zeta.
  assert (ER : Rmin 1 (w / 4) = rho) by (rewrite Rmin_right by lra; reflexivity). rewrite ER in S1.
  assert (R0 : (0 < rho)%R) by (unfold rho; lra). assert (R1 : (rho <= 1)%R) by (unfold rho; lra).
  destruct (HP x Lx) as (Lr & HA & HT). destruct HSB as [G0 SB].
  destruct (dog_model n m (J x) (r x) x lsolve eps step st HE HA HT Lr He S0 B sigma G0 (fun v => HB x v Lx) (fun v => HI x v Lx) SB)
    as [(_ & Q)|Q].
  - eapply Rle_trans; [exact Q|apply Rmax_r].
  - eapply Rle_trans; [|apply Rmax_l].
    match type of Q with (classical_predict ?d _ <= _)%R => set (dd := d) in * end.
    change (length dd = n) in Ld. change (Rdot dd dd <= Rdot (tolerances rtol atol (value sol)) (tolerances rtol atol (value sol)))%R in DT.
    assert (IB : (0 < / B)%R) by (apply Rinv_0_lt_compat; lra).
    assert (C0 : (0 < rho / (2 * B))%R) by (apply Rdiv_lt_0_compat; lra).
    pose proof (decrease_length n m (J x) (r x) dd (rho / (2 * B)) HA HT Lr Ld C0) as G. cbv zeta in G.
    eapply Rle_trans; [apply G|].
    + eapply Rle_trans; [exact Q|]. set (g := op_mvT (J x) (r x) : list R). change (Rdot (op_mvT (J x) (r x)) (op_mvT (J x) (r x))) with (Rdot g g).
      pose proof (Rdot_pos g) as P.
      replace (rho / (2 * B) * Rdot g g)%R with (/ 2 * (rho * (Rdot g g / B)))%R by (field; lra).
      assert (rho * (Rdot g g / B) <= Rmin 1 step * (Rdot g g / B))%R; [|lra].
      apply Rmult_le_compat_r; [apply Rmult_le_pos; lra|]. apply Rmin_glb; assumption.
    + replace (/ (rho / (2 * B)) * / (rho / (2 * B)))%R with (4 * (B * B) / (rho * rho))%R by (field; lra).
      apply Rmult_le_compat_l; [|exact DT].
      apply Rmult_le_pos; [nra|]. apply Rlt_le, Rinv_0_lt_compat. nra.
Qed.

(** The same for [IndirectLevenbergMarquardt], in the setting of C82 (whose root finder
    meets the damping equation up to half its right-hand side). *)
Lemma C96_indirect_levenberg_marquardt_pf :
  forall (Aux : Type) (rtol atol eps fmax : R) lsolve rfind jac_of (fn : list R -> list R * Aux)
         (n m : nat) (L B sigma : R) (y0 : list R) fs auxs allfinite fuel budget throw sol,
    let r x := fst (fn x) in let J := jac_of fn in
    (0 <= rtol)%R -> (0 < atol)%R -> (0 <= eps)%R -> (0 < fmax)%R ->
    exact_least_squares n lsolve -> (forall A b, snd (lsolve A b) = successful) ->
    residual_problem n m r J -> (0 < L)%R -> smooth n L (half_squares r) (ls_gradient r J) ->
    (0 < sigma <= B)%R -> jac_bounded n B J -> jac_injective n sigma J -> length y0 = n -> fs fill0 = zerov m ->
    let rho := (2 * sigma / (3 * (B + 50 * L / 99)) / 4)%R in
    finds_damping eps rho n r J (fun x => Rnorm (fst (lsolve (J x) (r x)))) rfind ->
    let s := IndirectLevenbergMarquardt (N:=RN) (mkTols rtol atol max_norm) jac_of lsolve eps fmax rfind in
    iterative_solve allfinite s fn fuel budget throw y0 fs auxs = Ret sol -> result sol = successful ->
    (value sol = y0 /\ forall i a, nth_error (r y0) i = Some a -> ((1 - rtol) * Rabs a < atol)%R) \/
    exists x : list R, length x = n /\ (half_squares r (value sol) <= half_squares r x)%R /\
      let g := ls_gradient r J x in let tol := tolerances rtol atol (value sol) in
      (Rdot g g <= 36 * (B * B) / (rho * rho) * Rdot tol tol)%R.
Proof.
  intros Aux rtol atol eps fmax lsolve rfind jac_of fn n m L B sigma y0 fs auxs allfinite fuel budget throw sol r J
    Hr Ha He Hf HE HRs HP HL HS HSB HB HI Hn Hfs rho HF s H HR.
  pose proof (ind_descends Aux eps fmax lsolve rfind jac_of fn n m He Hf HE HP) as HD. cbv zeta in HD.
  pose proof (ind_must_accept Aux eps fmax lsolve rfind jac_of fn n m L B sigma He HE HRs HP HL HS HSB HB HI HF) as HM. cbv zeta in HM.
  destruct (ind_rho L B sigma HL HSB) as [ER [R0 R1]].
  destruct (trust_last Aux rtol atol _ jac_of fn n m y0 fs auxs _ allfinite fuel budget throw sol
    Hr Ha Hn (proj1 (HP y0 Hn)) Hfs HD HM eq_refl H HR) as [K|(x & step & st & Lx & S0 & S1 & Ld & EV & F & DT)]; [left; exact K|].
  right. exists x. split; [exact Lx|]. split; [exact F|]. cbv zeta.
  destruct (HP x Lx) as (Lr & HA & HT).
  destruct (ind_decrease Aux eps fmax lsolve rfind jac_of fn n m L B sigma He HE HRs HP HL HSB HB HI HF x step st Lx S1) as [Q _].
  match type of Q with (classical_predict ?d _ <= _)%R => set (dd := d) in * end.
  change (length dd = n) in Ld. change (Rdot dd dd <= Rdot (tolerances rtol atol (value sol)) (tolerances rtol atol (value sol)))%R in DT.
  change (0 < rho)%R in R0. change (rho < 1)%R in R1.
  assert (C0 : (0 < rho / (6 * B))%R) by (apply Rdiv_lt_0_compat; lra).
  pose proof (decrease_length n m (J x) (r x) dd (rho / (6 * B)) HA HT Lr Ld C0) as G. cbv zeta in G.
  eapply Rle_trans; [apply G|].
  - eapply Rle_trans; [exact Q|]. right. unfold ls_gradient, rho, J, r. field.
    assert (0 < 3 * (B + 50 * L / 99))%R by lra. lra.
  - replace (/ (rho / (6 * B)) * / (rho / (6 * B)))%R with (36 * (B * B) / (rho * rho))%R by (field; lra).
    apply Rmult_le_compat_l; [|exact DT].
    apply Rmult_le_pos; [nra|]. apply Rlt_le, Rinv_0_lt_compat. nra.
Qed.

(** The hyperbola of C77 (1/2 |r|^2 = x^2 + 1/2, L = B = 2, sigma = 1, rho = 1/8), tolerances
    1/10 and 1, from x = 2. *)
Example C96_dogleg_ex_pf :
  let r x := fst (hyperbola x) in let J := hyperbola_jac hyperbola in
  let s := Dogleg (N:=RN) (mkTols (N:=RN) (1/10)%R 1%R max_norm) hyperbola_jac lsolve1 (1/100)%R in
  exists fuel sol, iterative_solve (vallfinite (N:=RN)) s hyperbola fuel None true [2%R] (fun _ => [0; 0]%R) (fun _ => tt) = Ret sol /\
    result sol = successful /\
    ((value sol = [2%R] /\ forall i a, nth_error (r [2%R]) i = Some a -> ((1 - 1/10) * Rabs a < 1)%R) \/
     exists x : list R, length x = 1 /\ (half_squares r (value sol) <= half_squares r x)%R /\
       let g := ls_gradient r J x in let tol := tolerances (1/10) 1 (value sol) in
       (Rdot g g <= Rmax (1024 * Rdot tol tol) (4 / 10000))%R).
Proof.
  intros r J s. destruct C77_terminates_ex_pf as (HP & HS & HB & _ & HI & k & K1 & K2).
  assert (RH : (Rmin (1 / 2) (99 * 1 / (50 * 2)) / 4 = 1 / 8)%R) by (rewrite Rmin_left by lra; lra).
  destruct (K2 (S k) None true ltac:(lia) ltac:(discriminate)) as (sol & E1 & E2). exists (S k), sol.
  split; [exact E1|]. split; [exact E2|].
  pose proof (C96_dogleg_pf unit (1/10) 1 (1/100) lsolve1 hyperbola_jac hyperbola 1 2 2 2 1 [2%R]
    (fun _ => [0; 0]%R) (fun _ => tt) _ (S k) None true sol ltac:(lra) ltac:(lra) ltac:(lra)
    (proj1 C32_levenberg_marquardt_ex_pf) HP ltac:(lra) HS ltac:(lra) HB HI eq_refl eq_refl E1 E2) as Q.
  cbv zeta in Q. rewrite RH in Q. destruct Q as [Q|(x & Q1 & Q2 & Q3)]; [left; exact Q|right].
  exists x. split; [exact Q1|]. split; [exact Q2|]. cbv zeta.
  assert (Z : forall t : R, Rmax (4 * (2 * 2) / (1 / 8 * (1 / 8)) * t) (2 * 2 * (1 / 100 * (1 / 100))) = Rmax (1024 * t) (4 / 10000))
    by (intro t; f_equal; field).
  rewrite <- Z. exact Q3.
Qed.

(** The same for IndirectLevenbergMarquardt, with the root finder of C82 (rho = 33/596). *)
Example C96_indirect_levenberg_marquardt_ex_pf :
  let r x := fst (hyperbola x) in let J := hyperbola_jac hyperbola in
  let s := IndirectLevenbergMarquardt (N:=RN) (mkTols (N:=RN) (1/10)%R 1%R max_norm) hyperbola_jac lsolve1 (1/100)%R 1000%R rational_root in
  exists fuel sol, iterative_solve (vallfinite (N:=RN)) s hyperbola fuel None true [2%R] (fun _ => [0; 0]%R) (fun _ => tt) = Ret sol /\
    result sol = successful /\
    ((value sol = [2%R] /\ forall i a, nth_error (r [2%R]) i = Some a -> ((1 - 1/10) * Rabs a < 1)%R) \/
     exists x : list R, length x = 1 /\ (half_squares r (value sol) <= half_squares r x)%R /\
       let g := ls_gradient r J x in let tol := tolerances (1/10) 1 (value sol) in
       (Rdot g g <= 144 / (33 / 596 * (33 / 596)) * Rdot tol tol)%R).
Proof.
  intros r J s. destruct C82_terminates_ex_pf as (HP & HS & HB & _ & HI & HF & k & K1 & K2).
  assert (RH : (2 * 1 / (3 * (2 + 50 * 2 / 99)) / 4 = 33 / 596)%R) by field.
  destruct (K2 (S k) None true ltac:(lia) ltac:(discriminate)) as (sol & E1 & E2). exists (S k), sol.
  split; [exact E1|]. split; [exact E2|].
  assert (HF' : finds_damping (1 / 100) (2 * 1 / (3 * (2 + 50 * 2 / 99)) / 4) 1 r J (fun x => Rnorm (fst (lsolve1 (J x) (r x)))) rational_root)
    by (rewrite RH; exact HF).
  pose proof (C96_indirect_levenberg_marquardt_pf unit (1/10) 1 (1/100) 1000 lsolve1 rational_root hyperbola_jac hyperbola 1 2 2 2 1 [2%R]
    (fun _ => [0; 0]%R) (fun _ => tt) _ (S k) None true sol ltac:(lra) ltac:(lra) ltac:(lra) ltac:(lra)
    (proj1 C32_levenberg_marquardt_ex_pf) (fun _ _ => eq_refl) HP ltac:(lra) HS ltac:(lra) HB HI eq_refl eq_refl HF' E1 E2) as Q.
  cbv zeta in Q. rewrite RH in Q. destruct Q as [Q|(x & Q1 & Q2 & Q3)]; [left; exact Q|right].
  exists x. split; [exact Q1|]. split; [exact Q2|]. cbv zeta.
  replace 144%R with (36 * (2 * 2))%R by ring. exact Q3.
Qed.
