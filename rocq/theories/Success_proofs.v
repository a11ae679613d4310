(** What success says about the gradient and the value of the objective (C96). *)

From Coq Require Import String List Bool Arith Lia ZArith QArith Qreals Reals Lra Psatz.
From Verif Require Import Num NumFacts Vec Results Iterate Spec_Iterate Iterate_proofs FixedPoint_proofs.
From Verif Require Import Spec_Vec VecFacts Spec_Lin LinFacts.
From Verif Require Import Search Spec_Search Descent Minimisers Solvers Minimisers_proofs.
From Verif Require Import TrustRegion_proofs LeastSquares_proofs Dogleg_proofs Spec_Steps Steps_proofs Spec_Convergence Convergence_proofs.
From Verif Require Import Certificate_proofs Spec_Rates Rates_proofs Spec_Success.
Import ListNotations.
Local Open Scope nat_scope.

(** [cauchy_termination] read back over the reals *)
Lemma cauchy_true_RN : forall (rtol atol : R) (y d f e : list R), (0 <= rtol)%R -> (0 < atol)%R ->
  cauchy_termination (N:=RN) rtol atol max_norm y d f e = true ->
  (forall i a b, nth_error d i = Some a -> nth_error y i = Some b -> (Rabs a < atol + rtol * Rabs b)%R) /\
  (forall i a b, nth_error e i = Some a -> nth_error f i = Some b -> (Rabs a < atol + rtol * Rabs b)%R).
Proof.
  intros rtol atol y d f e Hr Ha.
  assert (G : forall u v : list R,
    nltb (n:=RN) (max_norm (N:=RN) (vdiv (N:=RN) (vabs (N:=RN) v) (vscale_tol (N:=RN) rtol atol u))) (nofQ (n:=RN) 1) = true ->
    forall i a b, nth_error v i = Some a -> nth_error u i = Some b -> (Rabs a < atol + rtol * Rabs b)%R).
  { intros u v H i a b E1 E2. rewrite max_norm_RN in H. cbn in H. apply Rltb_true in H. rewrite Q2R_1 in H.
    assert (E : nth_error (vdiv (N:=RN) (vabs (N:=RN) v) (vscale_tol (N:=RN) rtol atol u)) i =
                Some (Rabs a / (atol + rtol * Rabs b))%R).
    { unfold vdiv. apply Certificate_proofs.nth_vmap2.
      - unfold vabs. exact (map_nth_error (nabs (n:=RN)) i v E1).
      - unfold vscale_tol. exact (map_nth_error (fun yi : R => nadd (n:=RN) atol (nmul (n:=RN) rtol (nabs (n:=RN) yi))) i u E2). }
    pose proof (proj1 (Rmax_norm_lt _ 1 Rlt_0_1) H i _ E) as X. pose proof (Rabs_pos b).
    assert (0 <= rtol * Rabs b)%R by (apply Rmult_le_pos; lra).
    pose proof (Rle_abs (Rabs a / (atol + rtol * Rabs b))) as Y.
    apply (Rmult_lt_reg_r (/ (atol + rtol * Rabs b))); [apply Rinv_0_lt_compat; lra|].
    rewrite Rinv_r by lra. unfold Rdiv in X, Y. lra. }
  intro H. unfold cauchy_termination in H. apply andb_true_iff in H. destruct H as (H1 & H2).
  split; intros i a b; [exact (G y d H1 i a b)|exact (G f e H2 i a b)].
Qed.

Lemma le_div : forall a b c : R, (0 < c)%R -> (a * c <= b)%R -> (a <= b / c)%R.
Proof.
  intros a b c C H. apply (Rmult_le_reg_r c); [exact C|]. replace (b / c * c)%R with b by (field; lra). exact H.
Qed.

Lemma dot_bound : forall (v w : list R) (c : R), length v = length w ->
  (forall i a b, nth_error v i = Some a -> nth_error w i = Some b -> (c * Rabs a <= b)%R) -> (0 <= c)%R ->
  (c * c * Rdot v v <= Rdot w w)%R.
Proof.
  induction v as [|x v IH]; intros [|y w] c Hl H C; try discriminate Hl; cbn; [lra|].
  specialize (IH w c (eq_add_S _ _ Hl) (fun i a b E F => H (S i) a b E F) C).
  pose proof (H 0 x y eq_refl eq_refl) as X. pose proof (Rabs_pos x).
  assert (0 <= c * Rabs x)%R by (apply Rmult_le_pos; lra).
  assert (Q : ((c * Rabs x) * (c * Rabs x) <= y * y)%R) by (apply Rmult_le_compat; lra).
  replace ((c * Rabs x) * (c * Rabs x))%R with (c * c * (Rabs x * Rabs x))%R in Q by ring.
  rewrite <- Rabs_mult, (Rabs_pos_eq (x * x)) in Q by apply Rle_0_sqr. lra.
Qed.

Lemma nth_tol : forall rtol atol v i c, nth_error (tolerances rtol atol v) i = Some c ->
  exists b, nth_error v i = Some b /\ c = (atol + rtol * Rabs b)%R.
Proof.
  intros rtol atol v. unfold tolerances. induction v as [|x v IH]; intros [|i] c H; try discriminate; cbn in *.
  - injection H as <-. eauto.
  - eauto.
Qed.

Lemma sub_along : forall n (x d : list R), length x = n -> length d = n -> Rsub_v (Radd_v x d) x = d.
Proof.
  induction n as [|n IH]; intros [|a x] [|b d] Hx Hd; try discriminate; cbn; [reflexivity|].
  f_equal; [ring|]. apply IH; [exact (eq_add_S _ _ Hx)|exact (eq_add_S _ _ Hd)].
Qed.

Lemma nth_scal : forall c (v : list R) i a, nth_error v i = Some a -> nth_error (Rscal c v) i = Some (c * a)%R.
Proof. intros c v i a H. unfold Rscal. exact (map_nth_error (Rmult c) i v H). Qed.

(** Success of steepest descent: the step from x to the returned value was t g(x). *)
Lemma gradient_small : forall n rtol atol t (x gx v : list R), (0 < t)%R -> length x = n -> length gx = n ->
  v = Radd_v x (Rscal (- t) gx) ->
  (forall i a b, nth_error (Rsub_v v x) i = Some a -> nth_error v i = Some b -> (Rabs a < atol + rtol * Rabs b)%R) ->
  (forall i a b, nth_error gx i = Some a -> nth_error v i = Some b -> (t * Rabs a < atol + rtol * Rabs b)%R) /\
  (t * t * Rdot gx gx <= Rdot (tolerances rtol atol v) (tolerances rtol atol v))%R.
Proof.
  intros n rtol atol t x gx v T Lx Lg Ev H.
  assert (E : Rsub_v v x = Rscal (- t) gx) by (rewrite Ev; apply (sub_along n); [exact Lx|rewrite Rscal_length; exact Lg]).
  assert (A : forall i a b, nth_error gx i = Some a -> nth_error v i = Some b -> (t * Rabs a < atol + rtol * Rabs b)%R).
  { intros i a b E1 E2. rewrite E in H. specialize (H i _ b (nth_scal (- t) gx i a E1) E2).
    rewrite Rabs_mult, Rabs_Ropp, (Rabs_pos_eq t) in H by lra. exact H. }
  split; [exact A|].
  assert (Lv : length v = n) by (rewrite Ev; apply Radd_v_length; [exact Lx|rewrite Rscal_length; exact Lg]).
  apply dot_bound; [unfold tolerances; rewrite map_length; congruence| |lra].
  intros i a b E1 E2. apply nth_tol in E2. destruct E2 as (b' & E2 & ->). apply Rlt_le. eapply A; eassumption.
Qed.

Lemma gd_last : forall (Aux : Type) (rtol atol : R) (search : Search RN) (descent : Descent RN) grad_of
    (fn : list R -> R * Aux) (y0 : list R) fs auxs allfinite fuel budget throw sol,
  accepts_first search -> (0 <= rtol)%R -> (0 < atol)%R ->
  let s := gradient_descent_solver (N:=RN) (mkTols rtol atol max_norm) search descent grad_of in
  let st0 := gd_st0 (N:=RN) search descent y0 fs auxs in
  let y : nat -> list R := y_at s fn y0 st0 (auxs fill0) in
  s_init s fn y0 fs auxs = Ret st0 ->
  iterative_solve allfinite s fn fuel budget throw y0 fs auxs = Ret sol -> result sol = successful ->
  exists k, value sol = y (S (S k)) /\ value sol = gd_y_eval (st_at s fn y0 st0 (auxs fill0) (S k)) /\
    forall i a b, nth_error (Rsub_v (value sol) (y (S k))) i = Some a -> nth_error (value sol) i = Some b ->
      (Rabs a < atol + rtol * Rabs b)%R.
Proof.
  intros Aux rtol atol search descent grad_of fn y0 fs auxs allfinite fuel budget throw sol HA Hr Ha s st0 y Hi H HR.
  destruct (success_inv _ _ _ allfinite s fn y0 st0 fs auxs fuel budget throw sol Hi H HR)
    as (k & _ & _ & -> & _ & HT & _).
  destruct k as [|k]; [discriminate HT|].
  pose proof (gd_step_cases _ _ _ _ _ _ _ _ _ _ (gd_trace_S (N:=RN) (mkTols rtol atol max_norm) search descent grad_of fn y0 fs auxs k))
    as (step & acc & sr & sst & Es & E1 & E2 & E3 & E4 & E6 & E5).
  destruct (gd_first (N:=RN) (mkTols rtol atol max_norm) search descent grad_of fn y0 fs auxs HA k) as [F1 F2].
  fold s st0 in E1, E2, E3, E4, E6, E5, Es, F1, F2.
  change (gd_terminate (st_at s fn y0 st0 (auxs fill0) (S k)) = true) in HT.
  destruct acc; [|destruct E5 as (_ & _ & _ & _ & ET); exact (False_ind _ (diff_true_false (eq_trans (eq_sym HT) ET)))].
  destruct E5 as (Ey & _ & _ & _ & ET).
  destruct k as [|k].
  { exfalso. rewrite (proj2 F1 eq_refl) in ET. exact (diff_true_false (eq_trans (eq_sym HT) ET)). }
  assert (EF : gd_first_step (st_at s fn y0 st0 (auxs fill0) (S k)) = false).
  { destruct (gd_first_step _) eqn:E in |- *; [|reflexivity]. apply F1 in E. lia. }
  rewrite EF in ET. destruct (F2 ltac:(lia)) as [Fi _]. rewrite Fi in ET.
  pose proof (eq_trans (eq_sym ET) HT) as HC. clear ET HT.
  cbn [ar_rtol ar_atol ar_norm as_min] in HC. rewrite vsub_RN in HC.
  apply (cauchy_true_RN rtol atol) in HC; [|exact Hr|exact Ha].
  exists k.
  match goal with |- context [value ?x] => change (value x) with (y (S (S k))) end.
  split; [reflexivity|]. split; [exact Ey|]. exact (proj1 HC).
Qed.

(** GradientDescent, exact arithmetic.  On success the returned value is x - rate g(x)
    for a point x at which every entry of rate * g(x) is below the tolerance of the
    corresponding entry of the value. *)
Lemma C96_gradient_descent_pf :
  forall (Aux : Type) (n : nat) (g : list R -> list R) (rtol atol rate : R) grad_of (fn : list R -> R * Aux)
         (y0 : list R) fs auxs allfinite fuel budget throw sol,
    (0 <= rtol)%R -> (0 < atol)%R -> (0 < rate)%R ->
    (forall x, length x = n -> length (g x) = n) -> (forall x, grad_of fn x = g x) -> length y0 = n ->
    let s := GradientDescent (N:=RN) (mkTols rtol atol max_norm) grad_of rate in
    iterative_solve allfinite s fn fuel budget throw y0 fs auxs = Ret sol -> result sol = successful ->
    exists x : list R, length x = n /\ value sol = Radd_v x (Rscal (- rate) (g x)) /\
      forall i a b, nth_error (g x) i = Some a -> nth_error (value sol) i = Some b ->
        (rate * Rabs a < atol + rtol * Rabs b)%R.
Proof.
  intros Aux n g rtol atol rate grad_of fn y0 fs auxs allfinite fuel budget throw sol Hr Ha Ht HL Hg Hn s H HR.
  set (P := mkTols (N:=RN) rtol atol max_norm) in *.
  assert (AF : accepts_first (learning_rate (N:=RN) rate)) by (intros ? ? ? ? ?; reflexivity).
  destruct (gd_last Aux rtol atol _ _ grad_of fn y0 fs auxs allfinite fuel budget throw sol AF Hr Ha eq_refl H HR) as (k & V & _ & T).
  set (st0 := gd_st0 (learning_rate (N:=RN) rate) (steepest_descent (N:=RN) None) y0 fs auxs) in *.
  destruct (C65_iteration_pf RN Aux P grad_of rate fn y0 fs auxs st0 eq_refl) as (E1 & E2).
  set (y := y_at (GradientDescent P grad_of rate) fn y0 st0 (auxs fill0) : nat -> list R) in *.
  assert (E3 : forall k, y (S (S k)) = Radd_v (y (S k)) (Rscal (- rate) (g (y (S k))))).
  { intro j. rewrite E2, vadd_RN, vscale_RN, Hg. reflexivity. }
  assert (LY : forall k, length (y (S k)) = n).
  { induction k0 as [|j IH]; [exact (eq_trans (f_equal (@length R) E1) Hn)|].
    rewrite E3. apply Radd_v_length; [exact IH|]. rewrite Rscal_length. apply HL. exact IH. }
  exists (y (S k)). split; [apply LY|].
  assert (V' : value sol = Radd_v (y (S k)) (Rscal (- rate) (g (y (S k))))) by exact (eq_trans V (E3 k)).
  split; [exact V'|].
  exact (proj1 (gradient_small n rtol atol rate (y (S k)) (g (y (S k))) (value sol) Ht (LY k) (HL _ (LY k)) V' T)).
Qed.

(** Hence, if the objective is L-smooth with rate L <= 2 and its gradient dominates its
    excess over the lower bound [low], the returned value is nearly optimal. *)
Lemma C96_gradient_descent_optimum_pf :
  forall (Aux : Type) (n : nat) (L mu low : R) (f : list R -> R) (g : list R -> list R) (rtol atol rate : R)
         grad_of (fn : list R -> R * Aux) (y0 : list R) fs auxs allfinite fuel budget throw sol,
    (0 <= rtol)%R -> (0 < atol)%R -> (0 < rate)%R -> smooth n L f g -> (rate * L <= 2)%R ->
    (0 < mu)%R -> dominated n mu low f g ->
    (forall x, grad_of fn x = g x) -> length y0 = n ->
    let s := GradientDescent (N:=RN) (mkTols rtol atol max_norm) grad_of rate in
    iterative_solve allfinite s fn fuel budget throw y0 fs auxs = Ret sol -> result sol = successful ->
    let tol := tolerances rtol atol (value sol) in
    (f (value sol) - low <= Rdot tol tol / (2 * mu * (rate * rate)))%R.
Proof.
  intros Aux n L mu low f g rtol atol rate grad_of fn y0 fs auxs allfinite fuel budget throw sol
    Hr Ha Ht HS HLr Hmu HD Hg Hn s H HR tol.
  destruct (C96_gradient_descent_pf Aux n g rtol atol rate grad_of fn y0 fs auxs allfinite fuel budget throw sol
    Hr Ha Ht (proj1 HS) Hg Hn H HR) as (x & Lx & V & B).
  pose proof (proj1 HS x Lx) as Lg.
  assert (F : (f (value sol) <= f x)%R).
  { rewrite V. eapply Rle_trans; [apply (proj2 HS); [exact Lx|rewrite Rscal_length; exact Lg]|].
    rewrite Rdot_scal_r, Rdot_scal_l, Rdot_scal_r. pose proof (Rdot_pos (g x)) as G.
    assert (0 <= rate * (1 - L * rate / 2) * Rdot (g x) (g x))%R.
    { apply Rmult_le_pos; [apply Rmult_le_pos; lra|exact G]. }
    lra. }
  assert (Lv : length (value sol : list R) = n).
  { rewrite V. apply Radd_v_length; [exact Lx|rewrite Rscal_length; exact Lg]. }
  assert (Q : (rate * rate * Rdot (g x) (g x) <= Rdot tol tol)%R).
  { apply dot_bound; [unfold tol, tolerances; rewrite map_length; exact (eq_trans Lg (eq_sym Lv))| |lra].
    intros i a b E1 E2. apply nth_tol in E2. destruct E2 as (b' & E2 & ->). apply Rlt_le. eapply B; eassumption. }
  destruct (HD x Lx) as (_ & D).
  assert (r2 : (0 < rate * rate)%R) by (apply Rmult_lt_0_compat; lra).
  assert (m2 : (0 < 2 * mu * (rate * rate))%R) by (apply Rmult_lt_0_compat; lra).
  apply le_div; [exact m2|].
  assert ((f (value sol) - low) * (2 * mu * (rate * rate)) <= (f x - low) * (2 * mu * (rate * rate)))%R.
  { apply Rmult_le_compat_r; lra. }
  assert (rate * rate * (2 * mu * (f x - low)) <= rate * rate * Rdot (g x) (g x))%R.
  { apply Rmult_le_compat_l; lra. }
  lra.
Qed.

(** Steepest descent with a backtracking Armijo search on an L-smooth f, exact
    arithmetic.  On success the returned value is x - t g(x) for a point x no better than
    it and a step t of at least tmin = min (ini, 2 de (1 - sl) / L), so that every
    entry of tmin * g(x) is below the tolerance. *)
Lemma C96_backtracking_pf :
  forall (Aux : Type) (rtol atol de sl ini : R) grad_of (fn : list R -> R * Aux)
         (n : nat) (L : R) (f : list R -> R) (g : list R -> list R) (y0 : list R) fs auxs allfinite fuel budget throw sol,
    (0 <= rtol)%R -> (0 < atol)%R ->
    (0 < de < 1 /\ 0 < sl < 1 /\ 0 < ini)%R -> (0 < L)%R -> smooth n L f g ->
    (forall x, fst (fn x) = f x) -> (forall x, grad_of fn x = g x) -> length y0 = n ->
    let s := gradient_descent_solver (N:=RN) (mkTols rtol atol max_norm) (armijo (N:=RN) de sl ini) (steepest_descent None) grad_of in
    iterative_solve allfinite s fn fuel budget throw y0 fs auxs = Ret sol -> result sol = successful ->
    let tmin := Rmin ini (2 * de * (1 - sl) / L) in
    exists (x : list R) (t : R), length x = n /\ (tmin <= t <= ini)%R /\
      value sol = Radd_v x (Rscal (- t) (g x)) /\ (f (value sol) <= f x)%R /\
      forall i a b, nth_error (g x) i = Some a -> nth_error (value sol) i = Some b ->
        (t * Rabs a < atol + rtol * Rabs b)%R.
Proof.
  intros Aux rtol atol de sl ini grad_of fn n L f g y0 fs auxs allfinite fuel budget throw sol Hr Ha HV HL HS Hf Hg Hn s H HR tmin.
  set (P := mkTols (N:=RN) rtol atol max_norm) in *.
  assert (AF : accepts_first (armijo (N:=RN) de sl ini)) by exact (proj1 (accepts_first_builtin RN) de sl ini).
  destruct (gd_last Aux rtol atol _ _ grad_of fn y0 fs auxs allfinite fuel budget throw sol AF Hr Ha eq_refl H HR) as (k & V & V2 & T).
  set (st0 := gd_st0 (armijo (N:=RN) de sl ini) (steepest_descent (N:=RN) None) y0 fs auxs) in *.
  pose proof (C72_backtracking_pf Aux P de sl ini grad_of fn n L f g y0 fs auxs st0 HV HL HS Hf Hg Hn eq_refl) as (_ & _ & CS & _ & LB & _).
  destruct (armijo_inv P de sl ini grad_of fn n L f g y0 fs auxs HV HS Hf Hg Hn k) as (I1 & I2 & I3 & _).
  fold st0 in I1, I2, I3. fold s in I1, I2, I3.
  specialize (LB k). specialize (CS k). cbv zeta in LB, CS. fold s in LB, CS.
  set (x := y_at s fn y0 st0 (auxs fill0) (S k) : list R) in *.
  set (t := gd_search_state (st_at s fn y0 st0 (auxs fill0) (S k)) : R) in *.
  exists x, t. split; [exact I1|]. split; [exact LB|].
  assert (V3 : value sol = Radd_v x (Rscal (- t) (g x))) by exact (eq_trans V2 I3).
  split; [exact V3|]. split.
  - destruct CS as [(C & _)|(_ & C & _)].
    + rewrite V3. eapply Rle_trans; [exact C|]. pose proof (Rdot_pos (g x)).
      assert (0 <= sl * t * Rdot (g x) (g x))%R by (apply Rmult_le_pos; [apply Rmult_le_pos; lra|assumption]). lra.
    + right. exact (f_equal f (eq_trans V C)).
  - exact (proj1 (gradient_small n rtol atol t x (g x) (value sol) (proj1 I2) I1 (proj1 HS _ I1) V3 T)).
Qed.

(** Hence, if the gradient dominates the excess, the returned value is nearly optimal. *)
Lemma C96_backtracking_optimum_pf :
  forall (Aux : Type) (rtol atol de sl ini : R) grad_of (fn : list R -> R * Aux)
         (n : nat) (L mu low : R) (f : list R -> R) (g : list R -> list R) (y0 : list R) fs auxs allfinite fuel budget throw sol,
    (0 <= rtol)%R -> (0 < atol)%R ->
    (0 < de < 1 /\ 0 < sl < 1 /\ 0 < ini)%R -> (0 < L)%R -> smooth n L f g -> (0 < mu)%R -> dominated n mu low f g ->
    (forall x, fst (fn x) = f x) -> (forall x, grad_of fn x = g x) -> length y0 = n ->
    let s := gradient_descent_solver (N:=RN) (mkTols rtol atol max_norm) (armijo (N:=RN) de sl ini) (steepest_descent None) grad_of in
    iterative_solve allfinite s fn fuel budget throw y0 fs auxs = Ret sol -> result sol = successful ->
    let tmin := Rmin ini (2 * de * (1 - sl) / L) in
    let tol := tolerances rtol atol (value sol) in
    (f (value sol) - low <= Rdot tol tol / (2 * mu * (tmin * tmin)))%R.
Proof.
  intros Aux rtol atol de sl ini grad_of fn n L mu low f g y0 fs auxs allfinite fuel budget throw sol Hr Ha HV HL HS Hmu HD Hf Hg Hn s H HR tmin tol.
  destruct (C96_backtracking_pf Aux rtol atol de sl ini grad_of fn n L f g y0 fs auxs allfinite fuel budget throw sol
    Hr Ha HV HL HS Hf Hg Hn H HR) as (x & t & Lx & Ht & V & F & B).
  pose proof (proj1 HS x Lx) as Lg.
  assert (M0 : (0 < tmin)%R).
  { apply Rmin_glb_lt; [lra|]. apply Rdiv_lt_0_compat; [|exact HL]. apply Rmult_lt_0_compat; lra. }
  fold tmin in Ht.
  assert (Lv : length (value sol : list R) = n).
  { rewrite V. apply Radd_v_length; [exact Lx|rewrite Rscal_length; exact Lg]. }
  assert (Q : (tmin * tmin * Rdot (g x) (g x) <= Rdot tol tol)%R).
  { apply dot_bound; [unfold tol, tolerances; rewrite map_length; exact (eq_trans Lg (eq_sym Lv))| |lra].
    intros i a b E1 E2. apply nth_tol in E2. destruct E2 as (b' & E2 & ->).
    specialize (B i a b' E1 E2). pose proof (Rabs_pos a).
    assert (tmin * Rabs a <= t * Rabs a)%R by (apply Rmult_le_compat_r; lra). lra. }
  destruct (HD x Lx) as (_ & D).
  assert (r2 : (0 < tmin * tmin)%R) by (apply Rmult_lt_0_compat; lra).
  assert (m2 : (0 < 2 * mu * (tmin * tmin))%R) by (apply Rmult_lt_0_compat; lra).
  apply le_div; [exact m2|].
  assert ((f (value sol) - low) * (2 * mu * (tmin * tmin)) <= (f x - low) * (2 * mu * (tmin * tmin)))%R.
  { apply Rmult_le_compat_r; lra. }
  assert (tmin * tmin * (2 * mu * (f x - low)) <= tmin * tmin * Rdot (g x) (g x))%R.
  { apply Rmult_le_compat_l; lra. }
  lra.
Qed.

(** The gradient at x is bounded by the damped step taken from x. *)
Lemma damped_gradient : forall n m (A : linop RN) (r : list R) (step B : R) (d : list R),
  linear_op n m A -> transpose_op n A -> length r = m -> (0 < step)%R -> length d = n ->
  (forall w, length w = n -> damped_loss A r (/ step) d <= damped_loss A r (/ step) w)%R ->
  (0 <= B)%R -> (forall v, length v = n -> Rdot (op_mv A v) (op_mv A v) <= B * Rdot v v)%R ->
  (Rdot (op_mvT A r) (op_mvT A r) <= (B + / step) * (B + / step) * Rdot d d)%R.
Proof.
  intros n m A r step B d HA HT Hr Hs Hd HD HB0 HB.
  assert (I : (0 < / step)%R) by (apply Rinv_0_lt_compat; exact Hs).
  destruct (damped_minimiser n m A r (/ step) HA Hr I d Hd HD) as [Z _].
  set (g := op_mvT A r : list R). assert (Lg : length g = n) by apply HT.
  specialize (Z g Lg). pose proof HA as (L1 & _).
  assert (E1 : length (op_mv A d : list R) = m) by exact (L1 d Hd).
  assert (E2 : length (op_mv A g : list R) = m) by exact (L1 g Lg).
  rewrite Rdot_add_l in Z by (rewrite Hr; exact E1).
  assert (G : Rdot r (op_mv A g) = Rdot g g) by (symmetry; unfold g at 1; apply (proj2 HT); exact Lg).
  set (M := (B + / step)%R). assert (M0 : (0 < M)%R) by (unfold M; lra).
  (* 0 <= |A (M d + g)|^2 / M and 0 <= |M d + g|^2 *)
  pose proof (Rdot_pos (Radd_v (Rscal M (op_mv A d)) (op_mv A g))) as P1.
  rewrite sq_add in P1 by (rewrite Rscal_length; congruence). rewrite !Rdot_scal_l, Rdot_scal_r in P1.
  pose proof (Rdot_pos (Radd_v (Rscal M d) g)) as P2.
  rewrite sq_add in P2 by (rewrite Rscal_length; congruence). rewrite !Rdot_scal_l, Rdot_scal_r in P2.
  pose proof (HB d Hd) as B1. pose proof (HB g Lg) as B2.
  set (dd := Rdot d d) in *. set (gg := Rdot g g) in *. set (dg := Rdot d g) in *.
  set (Add := Rdot (op_mv A d) (op_mv A d)) in *. set (Agg := Rdot (op_mv A g) (op_mv A g)) in *.
  set (Adg := Rdot (op_mv A d) (op_mv A g)) in *.
  assert (P3 : (0 <= / step * (M * (M * dd) + gg + 2 * (M * dg)))%R) by (apply Rmult_le_pos; lra).
  assert (P4 : (M * M * Add <= M * M * (B * dd))%R).
  { apply Rmult_le_compat_l; [|exact B1]. apply Rlt_le, Rmult_lt_0_compat; exact M0. }
  assert (K : (2 * M * gg <= M * (M * M * dd) + M * gg)%R).
  { assert (Z' : (gg = - Adg - / step * dg)%R) by lra.
    assert (2 * M * gg = - 2 * M * Adg - 2 * M * (/ step * dg))%R by (rewrite Z'; ring).
    assert (M * (M * M * dd) = M * M * (B * dd) + / step * (M * (M * dd)))%R by (unfold M; ring).
    assert (M * gg = B * gg + / step * gg)%R by (unfold M; ring).
    assert (/ step * (M * (M * dd) + gg + 2 * (M * dg)) =
            / step * (M * (M * dd)) + / step * gg + 2 * M * (/ step * dg))%R by ring.
    lra. }
  apply (Rmult_le_reg_l M); [exact M0|]. lra.
Qed.

(** LevenbergMarquardt, exact arithmetic, exact least-squares solves, 1/2 |r|^2 L-smooth,
    |J v|^2 <= B |v|^2.  On success either the solve stopped at y0 because its residuals
    are within tolerance of zero (this is what the comparison with the zeros the residuals
    are initialised with amounts to), or the returned value is no worse than a point x
    with |J^T r|^2 <= (B + 1/rho)^2 |tol|^2, where rho = min (1, 0.495 / L). *)
Lemma C96_levenberg_marquardt_pf :
  forall (Aux : Type) (rtol atol eps fmax : R) lsolve jac_of (fn : list R -> list R * Aux)
         (n m : nat) (L B : R) (y0 : list R) fs auxs allfinite fuel budget throw sol,
    let r x := fst (fn x) in let J := jac_of fn in
    (0 <= rtol)%R -> (0 < atol)%R ->
    (0 <= eps)%R -> (0 < fmax)%R -> exact_least_squares n lsolve ->
    residual_problem n m r J -> (0 < L)%R -> smooth n L (half_squares r) (ls_gradient r J) ->
    let rho := Rmin 1 (99 / (200 * L)) in
    (eps < rho)%R -> (0 <= B)%R -> jac_bounded n B J -> length y0 = n -> fs fill0 = zerov m ->
    let s := LevenbergMarquardt (N:=RN) (mkTols rtol atol max_norm) jac_of lsolve eps fmax in
    iterative_solve allfinite s fn fuel budget throw y0 fs auxs = Ret sol -> result sol = successful ->
    (value sol = y0 /\ forall i a, nth_error (r y0) i = Some a -> ((1 - rtol) * Rabs a < atol)%R) \/
    exists x : list R, length x = n /\ (half_squares r (value sol) <= half_squares r x)%R /\
      let g := ls_gradient r J x in let tol := tolerances rtol atol (value sol) in
      (Rdot g g <= (B + / rho) * (B + / rho) * Rdot tol tol)%R.
Proof.
  intros Aux rtol atol eps fmax lsolve jac_of fn n m L B y0 fs auxs allfinite fuel budget throw sol r J
    Hr Ha He Hf HE HP HL HS rho Hrho B0 HB Hn Hfs s H HR.
  set (P := mkTols (N:=RN) rtol atol max_norm) in *.
  set (st0 := gn_st0 (classical_trust_region (N:=RN) tr_default) (damped_newton_descent (N:=RN) lsolve eps fmax) y0 fs auxs).
  destruct (success_inv _ _ _ allfinite s fn y0 st0 fs auxs fuel budget throw sol eq_refl H HR)
    as (k & _ & _ & -> & _ & HT & _).
  change (gn_terminate (st_at s fn y0 st0 (auxs fill0) k) = true) in HT.
  destruct k as [|[|k]]; [discriminate HT| |].
  - left.
    match goal with |- context [value ?x] => change (value x) with (y_at s fn y0 st0 (auxs fill0) 1) end.
    pose proof (gn_step_cases _ _ _ _ _ _ _ _ _ _ (gn_trace_S (N:=RN) P (classical_trust_region (N:=RN) tr_default) (damped_newton_descent (N:=RN) lsolve eps fmax) jac_of fn y0 fs auxs 0))
      as (step & acc & sr & sst & Es & E1 & E2 & E3 & E4 & E6 & E5).
    destruct acc; [|destruct E5 as (_ & _ & _ & _ & ET); exact (False_ind _ (diff_true_false (eq_trans (eq_sym HT) ET)))].
    destruct E5 as (Ey & _ & _ & _ & ET).
    pose proof (eq_trans (eq_sym ET) HT) as HC. clear ET HT.
    split; [exact Ey|]. rewrite Ey in HC.
    change (cauchy_termination (N:=RN) rtol atol max_norm y0 (vsub (N:=RN) y0 y0) (r y0) (vsub (N:=RN) (r y0) (fs fill0)) = true) in HC.
    rewrite !vsub_RN in HC. apply (cauchy_true_RN rtol atol) in HC; [|exact Hr|exact Ha]. destruct HC as (_ & HC).
    intros i a E. destruct (HP y0 Hn) as (Lr & _).
    assert (E0 : nth_error (Rsub_v (r y0) (fs fill0)) i = Some a).
    { rewrite Hfs. revert E Lr. generalize (r y0). clear. intros v. revert i m.
      induction v as [|x v IH]; intros [|i] [|m] E Lr; try discriminate; cbn in *.
      - injection E as <-. f_equal. ring.
      - apply (IH i m E). congruence. }
    specialize (HC i a a E0 E). lra.
  - right.
    match goal with |- context [value ?x] => change (value x) with (y_at s fn y0 st0 (auxs fill0) (S (S k))) end.
    pose proof (lm_radius P eps fmax lsolve jac_of fn n m y0 fs auxs He Hf HE HP Hn L HL HS Hrho k) as LR.
    destruct (lm_step P eps fmax lsolve jac_of fn n m y0 fs auxs He Hf HE HP Hn k) as (d & Ld & HD & EY & X).
    { eapply Rlt_le_trans; [exact Hrho|exact LR]. }
    destruct (lm_inv P eps fmax lsolve jac_of fn n m y0 fs auxs He Hf HE HP Hn (S k)) as (I1 & I2 & _).
    destruct X as [(C & Y & _ & _ & ET)|(_ & _ & _ & _ & ET)];
      [|exfalso; exact (diff_true_false (eq_trans (eq_sym HT) ET))].
    pose proof (eq_trans (eq_sym ET) HT) as HC. clear ET HT.
    change (gauss_newton_solver (N:=RN) P (classical_trust_region (N:=RN) tr_default) (damped_newton_descent (N:=RN) lsolve eps fmax) jac_of) with s in *.
    fold st0 in HC, Y, C, I1, I2, LR, HD.
    set (x := y_at s fn y0 st0 (auxs fill0) (S k) : list R) in *.
    set (v := y_at s fn y0 st0 (auxs fill0) (S (S k)) : list R) in *.
    set (rad := gn_search_state (st_at s fn y0 st0 (auxs fill0) (S k)) : R) in *.
    change (cauchy_termination (N:=RN) rtol atol max_norm v (Rsub_v v x) (r v) (Rsub_v (r v) (r x)) = true) in HC.
    apply (cauchy_true_RN rtol atol) in HC; [|exact Hr|exact Ha]. destruct HC as (HC & _).
    exists x. split; [exact I1|].
    destruct (HP x I1) as (Lr & HA & HTr).
    pose proof (step_predict n m (J x) (r x) HA HTr Lr rad d I2 Ld HD) as SP.
    assert (R0 : (0 < rho)%R).
    { unfold rho. apply Rmin_glb_lt; [lra|]. apply Rdiv_lt_0_compat; lra. }
    split.
    + assert (Y' : v = Radd_v x d) by exact Y. rewrite Y'.
      change (half_squares r (Radd_v x d) - half_squares r x <= 1 / 100 * classical_predict (N:=RN) d (ResidualJac (N:=RN) (r x) (J x)))%R in C.
      rewrite SP in C. pose proof (Rdot_pos d). pose proof (Rdot_pos (op_mv (J x) d)).
      assert (0 < / rad)%R by (apply Rinv_0_lt_compat; exact I2).
      assert (0 <= / rad * Rdot d d)%R by (apply Rmult_le_pos; lra). lra.
    + cbv zeta. pose proof (damped_gradient n m (J x) (r x) rad B d HA HTr Lr I2 Ld HD B0 (fun w Lw => HB x w I1 Lw)) as G.
      fold (ls_gradient r J x) in G.
      assert (IR : (/ rad <= / rho)%R) by (apply Rinv_le_contravar; [exact R0|exact LR]).
      assert (IP : (0 < / rad)%R) by (apply Rinv_0_lt_compat; exact I2).
      pose proof (Rdot_pos d) as D0.
      assert (Y' : v = Radd_v x d) by exact Y.
      assert (Lv : length v = n) by (rewrite Y'; apply Radd_v_length; assumption).
      assert (ED : Rsub_v v x = d) by (rewrite Y'; apply (sub_along n); assumption).
      rewrite ED in HC.
      assert (DT : (Rdot d d <= Rdot (tolerances rtol atol v) (tolerances rtol atol v))%R).
      { pose proof (dot_bound d (tolerances rtol atol v) 1) as Q. rewrite !Rmult_1_l in Q. apply Q; [|clear Q|lra].
        - unfold tolerances. rewrite map_length. congruence.
        - intros i a b E1 E2. apply nth_tol in E2. destruct E2 as (b' & E2 & ->). specialize (HC i a b' E1 E2). lra. }
      eapply Rle_trans; [exact G|]. apply Rmult_le_compat; [|exact D0| |exact DT].
      * apply Rmult_le_pos; lra.
      * apply Rmult_le_compat; lra.
Qed.

(** Hence, if rtol < 1 and the gradient J^T r dominates the excess of 1/2 |r|^2 over the
    lower bound [low], the returned value is nearly optimal. *)
Lemma C96_levenberg_marquardt_optimum_pf :
  forall (Aux : Type) (rtol atol eps fmax : R) lsolve jac_of (fn : list R -> list R * Aux)
         (n m : nat) (L B mu low : R) (y0 : list R) fs auxs allfinite fuel budget throw sol,
    let r x := fst (fn x) in let J := jac_of fn in
    (0 <= rtol < 1)%R -> (0 < atol)%R ->
    (0 <= eps)%R -> (0 < fmax)%R -> exact_least_squares n lsolve ->
    residual_problem n m r J -> (0 < L)%R -> smooth n L (half_squares r) (ls_gradient r J) ->
    let rho := Rmin 1 (99 / (200 * L)) in
    (eps < rho)%R -> (0 <= B)%R -> jac_bounded n B J -> length y0 = n -> fs fill0 = zerov m ->
    (0 < mu)%R -> dominated n mu low (half_squares r) (ls_gradient r J) ->
    let s := LevenbergMarquardt (N:=RN) (mkTols rtol atol max_norm) jac_of lsolve eps fmax in
    iterative_solve allfinite s fn fuel budget throw y0 fs auxs = Ret sol -> result sol = successful ->
    let tol := tolerances rtol atol (value sol) in
    (half_squares r (value sol) - low <=
     Rmax (INR m / 2 * (atol / (1 - rtol) * (atol / (1 - rtol))) - low)
          ((B + / rho) * (B + / rho) * Rdot tol tol / (2 * mu)))%R.
Proof.
  intros Aux rtol atol eps fmax lsolve jac_of fn n m L B mu low y0 fs auxs allfinite fuel budget throw sol r J
    Hr Ha He Hf HE HP HL HS rho Hrho B0 HB Hn Hfs Hmu HD s H HR tol.
  destruct (C96_levenberg_marquardt_pf Aux rtol atol eps fmax lsolve jac_of fn n m L B y0 fs auxs allfinite fuel budget throw sol
    (proj1 Hr) Ha He Hf HE HP HL HS Hrho B0 HB Hn Hfs H HR) as [(V & W)|(x & Lx & F & G)].
  - eapply Rle_trans; [|apply Rmax_l].
    replace (half_squares r (value sol)) with (half_squares r y0) by exact (f_equal (half_squares r) (eq_sym V)).
    unfold half_squares. destruct (HP y0 Hn) as (Lr & _).
    assert (Q : forall v k, length v = k -> (forall i a, nth_error v i = Some a -> ((1 - rtol) * Rabs a < atol)%R) ->
      (Rdot v v <= INR k * (atol / (1 - rtol) * (atol / (1 - rtol))))%R).
    { clear - Hr Ha. induction v as [|x v IH]; intros k E Q; subst k; [cbn; lra|].
      cbn [length]. rewrite S_INR. cbn [Rdot].
      specialize (IH _ eq_refl (fun i a => Q (S i) a)). pose proof (Q 0 x eq_refl) as X.
      assert (X' : (Rabs x <= atol / (1 - rtol))%R) by (apply le_div; lra).
      pose proof (Rabs_pos x).
      assert (Y : (Rabs x * Rabs x <= atol / (1 - rtol) * (atol / (1 - rtol)))%R) by (apply Rmult_le_compat; lra).
      rewrite <- Rabs_mult, (Rabs_pos_eq (x * x)) in Y by apply Rle_0_sqr. lra. }
    specialize (Q _ _ Lr W). change (fst (fn y0)) with (r y0). lra.
  - eapply Rle_trans; [|apply Rmax_r]. cbv zeta in G. fold rho tol in G.
    destruct (HD x Lx) as (_ & D). apply le_div; [lra|].
    assert (F' : ((half_squares r (value sol) - low) * (2 * mu) <= (half_squares r x - low) * (2 * mu))%R) by (apply Rmult_le_compat_r; [lra|]; apply Rplus_le_compat_r; exact F).
    pose proof (Rle_trans _ _ _ D G). lra.
Qed.

(** f(x) = x^2 (L = mu = 2, low = 0) from x = 1 with rate 1/4 and tolerances 1/10: the
    solve succeeds and returns a point with x^2 <= 4 (1/10 + |x|/10)^2. *)
Example C96_gradient_descent_ex_pf :
  smooth 1 2 square1 square1_grad /\ dominated 1 2 0 square1 square1_grad /\
  let s := GradientDescent (N:=RN) (Aux:=unit) (mkTols (N:=RN) (1/10)%R (1/10)%R max_norm) (fun _ => square1_grad) (1/4)%R in
  exists sol, iterative_solve (vallfinite (N:=RN)) s (fun v => (square1 v, tt)) 100 None true [1%R] (fun _ => 0%R) (fun _ => tt) = Ret sol /\
    result sol = successful /\
    let tol := tolerances (1/10) (1/10) (value sol) in (square1 (value sol) <= 4 * Rdot tol tol)%R.
Proof.
  destruct C65_terminates_ex_pf as (HS & _ & k & K1 & K2).
  destruct C83_gradient_descent_ex_pf as (_ & HD & _).
  split; [exact HS|]. split; [exact HD|]. intro s.
  destruct (K2 100 None true ltac:(lia) ltac:(discriminate)) as (sol & E1 & E2). exists sol.
  split; [exact E1|]. split; [exact E2|].
  pose proof (C96_gradient_descent_optimum_pf unit 1 2 2 0 square1 square1_grad (1/10) (1/10) (1/4) (fun _ => square1_grad)
    (fun v => (square1 v, tt)) [1%R] (fun _ => 0%R) (fun _ => tt) _ 100 None true sol
    ltac:(lra) ltac:(lra) ltac:(lra) HS ltac:(lra) ltac:(lra) HD (fun _ => eq_refl) eq_refl E1 E2) as Q.
  assert (Z : forall v : list R, (square1 v - 0 <= Rdot (tolerances (1/10) (1/10) v) (tolerances (1/10) (1/10) v) / (2 * 2 * (1 / 4 * (1 / 4))) ->
    square1 v <= 4 * Rdot (tolerances (1/10) (1/10) v) (tolerances (1/10) (1/10) v))%R).
  { intros v X. eapply Rle_trans; [|eapply Rle_trans; [exact X|right; field]]. lra. }
  exact (Z _ Q).
Qed.

(** Same with backtracking (decrease 1/2, slope 1/10, initial step 4): tmin = 9/20. *)
Example C96_backtracking_ex_pf :
  let s := gradient_descent_solver (N:=RN) (Aux:=unit) (mkTols (N:=RN) (1/10)%R (1/10)%R max_norm)
             (armijo (N:=RN) (1/2)%R (1/10)%R 4%R) (steepest_descent None) (fun _ => square1_grad) in
  exists fuel sol, iterative_solve (vallfinite (N:=RN)) s (fun v => (square1 v, tt)) fuel None true [1%R] (fun _ => 0%R) (fun _ => tt) = Ret sol /\
    result sol = successful /\
    let tol := tolerances (1/10) (1/10) (value sol) in (square1 (value sol) <= 100 / 81 * Rdot tol tol)%R.
Proof.
  intro s. destruct C72_terminates_ex_pf as (HS & _ & k & K1 & K2).
  destruct C83_gradient_descent_ex_pf as (_ & HD & _).
  destruct (K2 (S k) None true ltac:(lia) ltac:(discriminate)) as (sol & E1 & E2). exists (S k), sol.
  split; [exact E1|]. split; [exact E2|].
  pose proof (C96_backtracking_optimum_pf unit (1/10) (1/10) (1/2) (1/10) 4 (fun _ => square1_grad)
    (fun v => (square1 v, tt)) 1 2 2 0 square1 square1_grad [1%R] (fun _ => 0%R) (fun _ => tt) _ (S k) None true sol
    ltac:(lra) ltac:(lra) ltac:(lra) ltac:(lra) HS ltac:(lra) HD (fun _ => eq_refl) (fun _ => eq_refl) eq_refl E1 E2) as Q.
  assert (Z : forall v : list R, (square1 v - 0 <= Rdot (tolerances (1/10) (1/10) v) (tolerances (1/10) (1/10) v) / (2 * 2 * (2 * (1 / 2) * (1 - 1 / 10) / 2 * (2 * (1 / 2) * (1 - 1 / 10) / 2))) ->
    square1 v <= 100 / 81 * Rdot (tolerances (1/10) (1/10) v) (tolerances (1/10) (1/10) v))%R).
  { intros v X. eapply Rle_trans; [|eapply Rle_trans; [exact X|right; field]]. lra. }
  cbv zeta in Q. rewrite Rmin_right in Q by lra. exact (Z _ Q).
Qed.

(** The hyperbola of C71 (1/2 |r|^2 = x^2 + 1/2, L = B = mu = 2, low = 1/2), tolerances 1/10
    and 1, from x = 2. *)
Example C96_levenberg_marquardt_ex_pf :
  let r x := fst (hyperbola x) in
  let s := LevenbergMarquardt (N:=RN) (mkTols (N:=RN) (1/10)%R 1%R max_norm) hyperbola_jac lsolve1 (1/100)%R 1000%R in
  exists fuel sol, iterative_solve (vallfinite (N:=RN)) s hyperbola fuel None true [2%R] (fun _ => [0; 0]%R) (fun _ => tt) = Ret sol /\
    result sol = successful /\
    let tol := tolerances (1/10) 1 (value sol) in
    (half_squares r (value sol) - 1/2 <= Rmax (100/81 - 1/2) ((2 + 400/99) * (2 + 400/99) * Rdot tol tol / 4))%R.
Proof.
  intros r s. destruct C71_terminates_ex_pf as (HP & HS & HB & _ & _ & k & K1 & K2).
  destruct C83_trust_region_ex_pf as (HD & _).
  assert (RH : Rmin 1 (99 / (200 * 2)) = (99 / 400)%R) by (rewrite Rmin_right by lra; lra).
  destruct (K2 (S k) None true ltac:(lia) ltac:(discriminate)) as (sol & E1 & E2). exists (S k), sol.
  split; [exact E1|]. split; [exact E2|].
  pose proof (C96_levenberg_marquardt_optimum_pf unit (1/10) 1 (1/100) 1000 lsolve1 hyperbola_jac hyperbola 1 2 2 2 2 (1/2) [2%R]
    (fun _ => [0; 0]%R) (fun _ => tt) _ (S k) None true sol ltac:(lra) ltac:(lra) ltac:(lra) ltac:(lra)
    (proj1 C32_levenberg_marquardt_ex_pf) HP ltac:(lra) HS ltac:(rewrite RH; lra) ltac:(lra) HB eq_refl eq_refl ltac:(lra) HD E1 E2) as Q.
  assert (Z : forall v : list R, (half_squares r v - 1 / 2 <=
      Rmax (INR 2 / 2 * (1 / (1 - 1 / 10) * (1 / (1 - 1 / 10))) - 1 / 2)
        ((2 + / (99 / 400)) * (2 + / (99 / 400)) * Rdot (tolerances (1/10) 1 v) (tolerances (1/10) 1 v) / (2 * 2)) ->
    half_squares r v - 1 / 2 <=
      Rmax (100/81 - 1/2) ((2 + 400/99) * (2 + 400/99) * Rdot (tolerances (1/10) 1 v) (tolerances (1/10) 1 v) / 4))%R).
  { intros v X. eapply Rle_trans; [exact X|]. right. f_equal; [cbn; field|field]. }
  rewrite RH in Q. exact (Z _ Q).
Qed.
