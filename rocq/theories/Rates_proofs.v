(** Linear rates of convergence under gradient domination (C83). *)

From Coq Require Import String List Bool Arith Lia ZArith QArith Qreals Reals Lra Psatz.
From Verif Require Import Num NumFacts Vec Results Iterate Spec_Iterate Iterate_proofs.
From Verif Require Import Spec_Vec VecFacts Spec_Lin LinFacts.
From Verif Require Import Search Spec_Search Descent Minimisers Solvers Minimisers_proofs.
From Verif Require Import TrustRegion_proofs LeastSquares_proofs Dogleg_proofs Spec_Steps Steps_proofs Spec_Convergence Convergence_proofs.
From Verif Require Import DoglegConv_proofs Spec_IndirectConv IndirectConv_proofs Spec_Rates.
Import ListNotations.
Local Open Scope nat_scope.

Lemma contract : forall (a b c e theta : R), (0 <= theta)%R -> (a <= b - c)%R -> ((1 - theta) * (b - e) <= c)%R ->
  forall D : R, (b - e <= D)%R -> (a - e <= theta * D)%R.
Proof.
  intros a b c e theta T H1 H2 D H3. assert (theta * (b - e) <= theta * D)%R by (apply Rmult_le_compat_l; lra). lra.
Qed.

(** GradientDescent, exact arithmetic, L-smooth objective satisfying
    2 mu (f - low) <= |g|^2, learning rate between 0 and 2/L: the excess f - low shrinks by
    the factor 1 - 2 mu rate (1 - L rate / 2) in every step after the first. *)
Lemma C83_gradient_descent_pf :
  forall (Aux : Type) (n : nat) (L mu low : R) (f : list R -> R) (g : list R -> list R)
         (P : ar_tols RN) grad_of (rate : R) (fn : list R -> R * Aux) y0 fs auxs st0,
    smooth n L f g -> dominated n mu low f g -> (0 < mu <= L)%R -> (0 <= rate)%R -> (rate * L <= 2)%R ->
    (forall x, fst (fn x) = f x) -> (forall x, grad_of fn x = g x) -> length y0 = n ->
    let s := GradientDescent (N:=RN) P grad_of rate in
    s_init s fn y0 fs auxs = Ret st0 ->
    let y : nat -> list R := y_at s fn y0 st0 (auxs fill0) in
    let theta := (1 - 2 * mu * (rate * (1 - L * rate / 2)))%R in
    (0 <= theta <= 1)%R /\
    forall k, (f (y (S k)) - low <= theta ^ k * (f y0 - low))%R.
Proof.
  intros Aux n L mu low f g P grad_of rate fn y0 fs auxs st0 HS HD HM R0 RL Hf Hg Hn s Hi y theta.
  pose proof (C65_descends_pf Aux n L f g P grad_of rate fn y0 fs auxs st0 HS Hf Hg Hn Hi) as D. cbv zeta in D.
  destruct (C65_iteration_pf RN Aux P grad_of rate fn y0 fs auxs st0 Hi) as (Y1 & _).
  assert (C0 : (0 <= rate * (1 - L * rate / 2))%R) by (apply Rmult_le_pos; lra).
  assert (T : (0 <= theta <= 1)%R).
  { unfold theta. split; [|assert (0 <= mu * (rate * (1 - L * rate / 2)))%R by (apply Rmult_le_pos; lra); lra].
    assert (mu * (rate * (1 - L * rate / 2)) <= L * (rate * (1 - L * rate / 2)))%R by (apply Rmult_le_compat_r; lra).
    assert (0 <= (1 - L * rate) * (1 - L * rate))%R by apply Rle_0_sqr. lra. }
  split; [exact T|]. induction k as [|k IH].
  - unfold y. change (y_at s fn y0 st0 (auxs fill0) 1) with (y_at (GradientDescent P grad_of rate) fn y0 st0 (auxs fill0) 1). rewrite Y1. cbn. lra.
  - destruct (D k) as [LY DK]. cbn [pow]. rewrite Rmult_assoc.
    apply (contract _ _ _ _ theta (proj1 T) DK); [|exact IH].
    destruct (HD _ LY) as [_ Q].
    eapply Rle_trans; [|apply Rmult_le_compat_l; [exact C0|exact Q]]. right. unfold theta, y, s. ring.
Qed.

(** f(x) = x^2, mu = L = 2, rate 1/4: the factor is 1 - 4 / 4 * 3 / 4 = 1/4, so x^2 is at
    most 4^-k from x = 1. *)
Example C83_gradient_descent_ex_pf :
  smooth 1 2 square1 square1_grad /\ dominated 1 2 0 square1 square1_grad /\
  forall P st0,
    let s := GradientDescent (N:=RN) (Aux:=unit) P (fun _ => square1_grad) (1/4)%R in
    s_init s (fun v => (square1 v, tt)) [1%R] (fun _ => 0%R) (fun _ => tt) = Ret st0 ->
    forall k, (square1 (y_at s (fun v => (square1 v, tt)) [1%R] st0 tt (S k)) <= (1/4) ^ k)%R.
Proof.
  assert (HS : smooth 1 2 square1 square1_grad) by exact (proj1 C65_terminates_ex_pf).
  assert (HD : dominated 1 2 0 square1 square1_grad).
  { intros [|x [|? ?]] H; try discriminate H. cbn. pose proof (Rle_0_sqr x) as Q. unfold Rsqr in Q. lra. }
  split; [exact HS|]. split; [exact HD|]. intros P st0 s Hi k.
  destruct (C83_gradient_descent_pf unit 1 2 2 0 square1 square1_grad P (fun _ => square1_grad) (1/4) (fun v => (square1 v, tt))
    [1%R] (fun _ => 0%R) (fun _ => tt) st0 HS HD ltac:(lra) ltac:(lra) ltac:(lra) (fun _ => eq_refl) (fun _ => eq_refl) eq_refl Hi) as [_ Q].
  specialize (Q k). cbv zeta in Q.
  replace (1 - 2 * 2 * (1 / 4 * (1 - 2 * (1 / 4) / 2)))%R with (1 / 4)%R in Q by field.
  assert (E : (square1 [1%R] - 0 = 1)%R) by (cbn; ring). rewrite E, Rmult_1_r in Q.
  change (square1 (y_at s (fun v => (square1 v, tt)) [1%R] st0 tt (S k)) - 0 <= (1 / 4) ^ k)%R in Q. lra.
Qed.

(** Steepest descent with BacktrackingArmijo under the same assumptions: the excess shrinks
    by 1 - 2 mu sl tmin, tmin = min (ini, 2 de (1 - sl) / L), in every q + 1 steps, where
    ini de^q L <= 2 (1 - sl). *)
Lemma C83_backtracking_pf :
  forall (Aux : Type) (P : ar_tols RN) (de sl ini : R) grad_of (fn : list R -> R * Aux)
         (n : nat) (L mu low : R) (f : list R -> R) (g : list R -> list R) (y0 : list R) fs auxs st0 (q : nat),
    (0 < de < 1 /\ 0 < sl < 1 /\ 0 < ini)%R -> smooth n L f g -> dominated n mu low f g -> (0 < mu <= L)%R ->
    (forall x, fst (fn x) = f x) -> (forall x, grad_of fn x = g x) -> length y0 = n ->
    (ini * de ^ q * L <= 2 * (1 - sl))%R ->
    let s := gradient_descent_solver (N:=RN) P (armijo (N:=RN) de sl ini) (steepest_descent None) grad_of in
    s_init s fn y0 fs auxs = Ret st0 ->
    let y : nat -> list R := y_at s fn y0 st0 (auxs fill0) in
    let theta := (1 - 2 * mu * (sl * Rmin ini (2 * de * (1 - sl) / L)))%R in
    (0 <= theta < 1)%R /\
    forall k, (f (y (S (k * (q + 1)))) - low <= theta ^ k * (f y0 - low))%R.
Proof.
  intros Aux P de sl ini grad_of fn n L mu low f g y0 fs auxs st0 q HV HS HD HM Hf Hg Hn Hq s Hi y theta.
  pose proof (C72_backtracking_pf Aux P de sl ini grad_of fn n L f g y0 fs auxs st0 HV ltac:(lra) HS Hf Hg Hn Hi)
    as (Y1' & T1' & ST' & _ & LB' & RJ').
  set (t := fun k : nat => gd_search_state (st_at s fn y0 st0 (auxs fill0) k) : R).
  set (moved := fun k : nat => Radd_v (y k) (Rscal (- t k) (g (y k)))).
  set (gg := fun k : nat => Rdot (g (y k)) (g (y k))).
  assert (Y1 : y 1 = y0) by exact Y1'. assert (T1 : t 1 = ini) by exact T1'.
  assert (ST : forall k, ((f (moved (S k)) <= f (y (S k)) - sl * t (S k) * gg (S k))%R /\ y (S (S k)) = moved (S k) /\ t (S (S k)) = ini) \/
     (~ (f (moved (S k)) <= f (y (S k)) - sl * t (S k) * gg (S k))%R /\ y (S (S k)) = y (S k) /\ t (S (S k)) = (de * t (S k))%R)) by exact ST'.
  assert (LB : forall k, (Rmin ini (2 * de * (1 - sl) / L) <= t (S k) <= ini)%R) by exact LB'.
  assert (RJ : forall k, t (S k) = ini ->
     exists j, j <= q /\ y (S (k + j)) = y (S k) /\ (f (moved (S (k + j))) <= f (y (S (k + j))) - sl * t (S (k + j)) * gg (S (k + j)))%R)
    by exact (fun k => RJ' q k Hq).
  clear Y1' T1' ST' LB' RJ'.
  assert (LY : forall k, length (y (S k)) = n).
  { intro k. unfold y. apply gd_init_inv in Hi. subst st0. clear t moved gg Y1 T1 ST LB RJ.
    exact (proj1 (armijo_inv P de sl ini grad_of fn n L f g y0 fs auxs HV HS Hf Hg Hn k)). }
  assert (GG : forall k, (0 <= gg (S k) /\ 2 * mu * (f (y (S k)) - low) <= gg (S k) /\ low <= f (y (S k)))%R).
  { intro k. split; [apply Rdot_pos|]. destruct (HD _ (LY k)). auto. }
  clearbody gg t y moved.
  set (tm := Rmin ini (2 * de * (1 - sl) / L)) in *.
  assert (M0 : (0 < tm)%R).
  { apply Rmin_glb_lt; [lra|]. apply Rdiv_lt_0_compat; [|lra]. apply Rmult_lt_0_compat; lra. }
  assert (ML : (tm * L <= 2 * de * (1 - sl))%R).
  { assert (Q : (tm <= 2 * de * (1 - sl) / L)%R) by apply Rmin_r. apply (Rmult_le_compat_r L) in Q; [|lra].
    unfold Rdiv in Q. rewrite Rmult_assoc, Rinv_l in Q by lra. lra. }
  assert (T : (0 <= theta < 1)%R).
  { unfold theta. assert (0 < sl * tm)%R by (apply Rmult_lt_0_compat; lra).
    assert (0 < mu * (sl * tm))%R by (apply Rmult_lt_0_compat; lra).
    assert (mu * (sl * tm) <= L * (sl * tm))%R by (apply Rmult_le_compat_r; lra).
    assert (sl * (tm * L) <= sl * (2 * de * (1 - sl)))%R by (apply Rmult_le_compat_l; lra).
    assert (0 <= (1 - 2 * sl) * (1 - 2 * sl))%R by apply Rle_0_sqr.
    assert (0 < sl * (1 - sl))%R by (apply Rmult_lt_0_compat; lra).
    assert (de * (sl * (1 - sl)) <= 1 * (sl * (1 - sl)))%R by (apply Rmult_le_compat_r; lra). lra. }
  split; [exact T|].
  assert (DEC : forall k, (f (y (S (S k))) <= f (y (S k)))%R).
  { intro k. destruct (ST k) as [(C1 & C2 & _)|(_ & C2 & _)]; rewrite C2; [|lra].
    pose proof (LB k) as B1. pose proof (GG k) as G0.
    assert (0 <= sl * t (S k) * gg (S k))%R; [|lra]. apply Rmult_le_pos; [apply Rmult_le_pos; lra|lra]. }
  assert (MON : forall j k, j <= k -> (f (y (S k)) <= f (y (S j)))%R).
  { intros j k H. induction H as [|k H IH]; [lra|]. eapply Rle_trans; [apply DEC|exact IH]. }
  assert (X : forall k, exists i, i <= k * (q + 1) /\ t (S i) = ini /\ (f (y (S i)) - low <= theta ^ k * (f y0 - low))%R).
  { induction k as [|k (i & I1 & I2 & I3)].
    - exists 0. split; [lia|]. split; [exact T1|]. rewrite Y1. cbn. lra.
    - destruct (RJ i I2) as (j & J1 & J2 & J3).
      destruct (ST (i + j)) as [(C1 & C2 & C3)|(C1 & _)]; [|contradiction (C1 J3)].
      exists (S (i + j)). split; [cbn; lia|]. split; [exact C3|].
      rewrite C2. cbn [pow]. rewrite Rmult_assoc.
      apply (contract _ _ _ _ theta (proj1 T) C1); [|rewrite J2; exact I3].
      destruct (GG (i + j)) as (G0 & G1 & G2). pose proof (LB (i + j)) as B1.
      eapply Rle_trans; [|apply Rmult_le_compat_l; [apply Rmult_le_pos; lra|exact G1]].
      replace ((1 - theta) * (f (y (S (i + j))) - low))%R with (sl * tm * (2 * mu * (f (y (S (i + j))) - low)))%R by (unfold theta; ring).
      apply Rmult_le_compat_r; [apply Rmult_le_pos; lra|]. apply Rmult_le_compat_l; lra. }
  intro k. destruct (X k) as (i & I1 & _ & I3). pose proof (MON _ _ I1). lra.
Qed.

(** f(x) = x^2 with mu = L = 2, decrease 1/2, slope 1/10, initial step 4, at most three
    consecutive rejections: tmin = 9/20 and theta = 41/50 for every four steps. *)
Example C83_backtracking_ex_pf :
  smooth 1 2 square1 square1_grad /\ dominated 1 2 0 square1 square1_grad /\
  forall P st0,
    let s := gradient_descent_solver (N:=RN) (Aux:=unit) P (armijo (N:=RN) (1/2)%R (1/10)%R 4%R) (steepest_descent None) (fun _ => square1_grad) in
    s_init s (fun v => (square1 v, tt)) [1%R] (fun _ => 0%R) (fun _ => tt) = Ret st0 ->
    forall k, (square1 (y_at s (fun v => (square1 v, tt)) [1%R] st0 tt (S (k * 4))) <= (41/50) ^ k)%R.
Proof.
  destruct C83_gradient_descent_ex_pf as (HS & HD & _).
  split; [exact HS|]. split; [exact HD|]. intros P st0 s Hi k.
  destruct (C83_backtracking_pf unit P (1/2) (1/10) 4 (fun _ => square1_grad) (fun v => (square1 v, tt)) 1 2 2 0 square1 square1_grad
    [1%R] (fun _ => 0%R) (fun _ => tt) st0 3 ltac:(lra) HS HD ltac:(lra) (fun _ => eq_refl) (fun _ => eq_refl) eq_refl ltac:(cbn; lra) Hi) as [_ Q].
  specialize (Q k). cbv zeta in Q. rewrite Rmin_right in Q by lra.
  replace (1 - 2 * 2 * (1 / 10 * (2 * (1 / 2) * (1 - 1 / 10) / 2)))%R with (41 / 50)%R in Q by field.
  assert (E : (square1 [1%R] - 0 = 1)%R) by (cbn; ring). rewrite E, Rmult_1_r in Q.
  change (square1 (y_at s (fun v => (square1 v, tt)) [1%R] st0 tt (S (k * 4))) - 0 <= (41 / 50) ^ k)%R in Q. lra.
Qed.

(** ** Trust-region solvers *)

Section RunRate.
  Context {Aux : Type}.
  Variable P : ar_tols RN.
  Variable descent : Descent RN.
  Variable jac_of : (list R -> list R * Aux) -> list R -> linop RN.
  Variable fn : list R -> list R * Aux.
  Variables (n : nat) (y0 : list R) (fs : fillv -> list R) (auxs : fillv -> Aux).
  Let r (x : list R) : list R := fst (fn x).
  Let J (x : list R) : linop RN := jac_of fn x.
  Hypothesis Hn : length y0 = n.
  Let search := classical_trust_region (N:=RN) tr_default.
  Let s := gauss_newton_solver (N:=RN) P search descent jac_of.
  Let st0 := gn_st0 (N:=RN) search descent y0 fs auxs.
  Let Yk : nat -> list R := y_at s fn y0 st0 (auxs fill0).
  Let acc (k : nat) : nat := gn_num_accepted_steps (st_at s fn y0 st0 (auxs fill0) k).
  Let f := half_squares r.
  Let g := ls_gradient r J.
  Let info (x : list R) := ResidualJac (N:=RN) (r x) (J x).
  Let dir (x : list R) (step : R) st : list R := fst (d_step descent step (d_query descent x (info x) st)).
  Hypothesis HD : forall y (step : R) st, length y = n -> (0 < step)%R ->
    let i := ResidualJac (N:=RN) (fst (fn y)) (jac_of fn y) in
    let d := fst (d_step descent step (d_query descent y i st)) in
    length d = n /\ (classical_predict (N:=RN) d i <= 0)%R.
  Variable w : R.
  Hypothesis HM : forall x (step : R) st, length x = n -> (Rmin 1 (w / 4) <= step < w)%R ->
    (f (Radd_v x (dir x step st)) - f x <= 1 / 100 * classical_predict (N:=RN) (dir x step st) (info x))%R.
  Let rho := Rmin 1 (w / 4).
  Variables mu low c e0 : R.
  Hypothesis Hmu : (0 < mu)%R.
  Hypothesis Hc : (0 <= c)%R.
  Hypothesis HT : (0 <= 1 - 2 * mu * c)%R.
  Hypothesis Hdom : dominated n mu low f g.
  Hypothesis HQ : forall x step st, length x = n -> (rho <= step)%R ->
    (classical_predict (N:=RN) (dir x step st) (info x) <= - (100 * (c * Rdot (g x) (g x))))%R \/ (Rdot (g x) (g x) <= e0)%R.

  Lemma run_rate_acc : forall k,
    (f (Yk (S k)) - low <= Rmax ((1 - 2 * mu * c) ^ (acc (S k) - 1) * (f y0 - low)) (e0 / (2 * mu)))%R /\ 1 <= acc (S k).
  Proof.
    assert (I2 : (0 < / (2 * mu))%R) by (apply Rinv_0_lt_compat; lra).
    induction k as [|k [IH IA]].
    - destruct (run_first P descent jac_of fn y0 fs auxs) as (Y1 & A1 & _).
      change (Yk 1 = y0) in Y1. change (acc 1 = 1) in A1. rewrite Y1, A1. split; [|lia]. cbn [Nat.sub pow].
      eapply Rle_trans; [|apply Rmax_l]. lra.
    - destruct (run_inv P descent jac_of fn n y0 fs auxs Hn HD (S k)) as (LY & _).
      pose proof (run_radius P descent jac_of fn n y0 fs auxs Hn HD w HM k) as RR.
      destruct (run_step P descent jac_of fn n y0 fs auxs Hn HD k) as (st' & Ld & EY & [(C & Y & A & _)|(_ & Y & A & _)]).
      + change (length (Yk (S k)) = n) in LY.
        match type of RR with (_ <= ?z)%R => set (rad := z : R) in * end.
        change (Yk (S (S k)) = Radd_v (Yk (S k)) (dir (Yk (S k)) rad st')) in Y.
        change (acc (S (S k)) = S (acc (S k))) in A.
        change (f (Radd_v (Yk (S k)) (dir (Yk (S k)) rad st')) - f (Yk (S k)) <= 1 / 100 * classical_predict (N:=RN) (dir (Yk (S k)) rad st') (info (Yk (S k))))%R in C.
        rewrite A. split; [|lia]. replace (S (acc (S k)) - 1) with (S (acc (S k) - 1)) by lia. rewrite Y.
        pose proof (HD (Yk (S k)) rad st' LY) as D.
        assert (R0 : (0 < rad)%R) by exact (proj1 (proj2 (run_inv P descent jac_of fn n y0 fs auxs Hn HD (S k)))).
        specialize (D R0). cbv zeta in D. destruct D as [_ D].
        change (classical_predict (N:=RN) (dir (Yk (S k)) rad st') (info (Yk (S k))) <= 0)%R in D.
        destruct (Hdom (Yk (S k)) LY) as [HL HG].
        assert (E0 : (f (Yk (S k)) - low <= e0 / (2 * mu))%R -> (f (Radd_v (Yk (S k)) (dir (Yk (S k)) rad st')) - low <=
          Rmax ((1 - 2 * mu * c) ^ S (acc (S k) - 1) * (f y0 - low)) (e0 / (2 * mu)))%R).
        { intro Q. eapply Rle_trans; [|apply Rmax_r]. lra. }
        destruct (HQ (Yk (S k)) rad st' LY RR) as [Q|Q].
        * unfold Rmax in IH. destruct (Rle_dec _ (e0 / (2 * mu))) as [Z|Z] in IH; [apply E0; exact IH|].
          eapply Rle_trans; [|apply Rmax_l]. cbn [pow]. rewrite Rmult_assoc.
          apply (contract _ (f (Yk (S k))) (c * Rdot (g (Yk (S k))) (g (Yk (S k)))) _ _ HT); [lra| |exact IH].
          replace ((1 - (1 - 2 * mu * c)) * (f (Yk (S k)) - low))%R with (c * (2 * mu * (f (Yk (S k)) - low)))%R by ring.
          apply Rmult_le_compat_l; assumption.
        * apply E0. apply (Rmult_le_reg_l (2 * mu)); [lra|].
          replace (2 * mu * (e0 / (2 * mu)))%R with e0 by (field; lra). lra.
      + change (Yk (S (S k)) = Yk (S k)) in Y. change (acc (S (S k)) = acc (S k)) in A. rewrite Y, A. auto.
  Qed.

  Lemma run_rate : forall q, (1 <= 4 ^ q * rho)%R -> (1 - 2 * mu * c <= 1)%R -> forall j,
    (f (Yk (2 * j + 2 + q)) - low <= Rmax ((1 - 2 * mu * c) ^ j * (f y0 - low)) (e0 / (2 * mu)))%R.
  Proof.
    intros q Hq HT1 j. replace (2 * j + 2 + q) with (S (2 * j + 1 + q)) by lia.
    destruct (run_rate_acc (2 * j + 1 + q)) as [Q A].
    pose proof (run_count_le P descent jac_of fn n y0 fs auxs Hn HD w HM q (S (2 * j + 1 + q)) Hq) as C.
    change (S (2 * j + 1 + q) <= 2 * acc (S (2 * j + 1 + q)) + q) in C.
    eapply Rle_trans; [exact Q|]. apply Rle_max_compat_r. apply Rmult_le_compat_r.
    - destruct (Hdom y0 Hn). lra.
    - set (a := acc (S (2 * j + 1 + q)) - 1). assert (LA : j <= a) by (unfold a; lia). clearbody a. clear Q A C.
      induction LA as [|a LA IH]; [lra|]. cbn [pow].
      assert (0 <= (1 - 2 * mu * c) ^ a)%R by (apply pow_le; exact HT).
      assert ((1 - 2 * mu * c) * (1 - 2 * mu * c) ^ a <= 1 * (1 - 2 * mu * c) ^ a)%R by (apply Rmult_le_compat_r; lra). lra.
  Qed.
End RunRate.

(** LevenbergMarquardt, exact arithmetic and least-squares solves, 1/2 |r|^2 smooth with
    |J v|^2 <= B |v|^2 and 2 mu (1/2 |r|^2 - low) <= |J^T r|^2: after 2 j + 2 + q steps the
    excess is at most theta^j times the first, theta = 1 - mu / (100 (B + 1/rho)); q and rho
    are those of C71. *)
Lemma C83_levenberg_marquardt_pf :
  forall (Aux : Type) (P : ar_tols RN) (eps fmax : R) lsolve jac_of (fn : list R -> list R * Aux)
         (n m : nat) (L B mu low : R) (y0 : list R) fs auxs st0 (q : nat),
    let r x := fst (fn x) in let J := jac_of fn in
    (0 <= eps)%R -> (0 < fmax)%R -> exact_least_squares n lsolve ->
    residual_problem n m r J -> smooth n L (half_squares r) (ls_gradient r J) ->
    (0 <= B)%R -> jac_bounded n B J -> (0 < mu <= L)%R -> dominated n mu low (half_squares r) (ls_gradient r J) ->
    let rho := Rmin 1 (99 / (200 * L)) in
    (eps < rho)%R -> length y0 = n -> (1 <= 4 ^ q * rho)%R ->
    let s := LevenbergMarquardt (N:=RN) P jac_of lsolve eps fmax in
    s_init s fn y0 fs auxs = Ret st0 ->
    let theta := (1 - mu / (100 * (B + / rho)))%R in
    (0 <= theta < 1)%R /\
    forall j, (half_squares r (y_at s fn y0 st0 (auxs fill0) (2 * j + 2 + q)) - low <= theta ^ j * (half_squares r y0 - low))%R.
Proof.
  intros Aux P eps fmax lsolve jac_of fn n m L B mu low y0 fs auxs st0 q r J He Hf HE HP HS B0 HB HM Hdom rho Hrho Hn Hq s Hi theta.
  unfold s in Hi. apply gn_init_inv in Hi. subst st0.
  set (w := (99 / (50 * L))%R).
  assert (ER : Rmin 1 (w / 4) = rho) by (unfold rho, w; f_equal; field; lra).
  assert (R0 : (0 < rho)%R) by lra. assert (IR : (0 < / rho)%R) by (apply Rinv_0_lt_compat; exact R0).
  assert (IL : (2 * L <= / rho)%R).
  { assert (Q : (rho <= 99 / (200 * L))%R) by apply Rmin_r. apply Rinv_le_contravar in Q; [|exact R0].
    replace (/ (99 / (200 * L)))%R with (200 / 99 * L)%R in Q by (field; lra). lra. }
  set (c := (/ (200 * (B + / rho)))%R).
  assert (C0 : (0 < c)%R) by (apply Rinv_0_lt_compat; lra).
  assert (CE : (c * (200 * (B + / rho)) = 1)%R) by (unfold c; apply Rinv_l; lra).
  assert (TE : (1 - 2 * mu * c = theta)%R) by (unfold theta, c; revert IR IL; generalize (/ rho)%R; intros; field; lra).
  assert (TH : (0 <= theta < 1)%R).
  { rewrite <- TE. assert (0 < mu * c)%R by (apply Rmult_lt_0_compat; lra).
    assert (c * mu <= c * (200 * (B + / rho)))%R by (apply Rmult_le_compat_l; lra).
    assert (c * (2 * mu) <= c * (200 * (B + / rho)))%R by (apply Rmult_le_compat_l; lra). lra. }
  split; [exact TH|].
  set (descent := damped_newton_descent (N:=RN) lsolve eps fmax).
  assert (HD : forall y (step : R) st, length y = n -> (0 < step)%R ->
    let i := ResidualJac (N:=RN) (fst (fn y)) (jac_of fn y) in
    let d := fst (d_step descent step (d_query descent y i st)) in
    length d = n /\ (classical_predict (N:=RN) d i <= 0)%R).
  { intros z step st Hz _ i d. destruct (HP z Hz) as (Hr & HA & _).
    destruct (damped_predict n m lsolve eps fmax (jac_of fn z) (fst (fn z)) step HE HA Hr He Hf) as [K1 K2].
    unfold d, i, descent. cbn [damped_newton_descent d_step d_query fst snd].
    change (Datatypes.length z) with (@length R z). rewrite Hz.
    destruct (damped_newton_step _ _ _ _ _ _) as [sol res]. cbn [fst] in *. split; [|exact K2].
    unfold vneg. rewrite map_length. exact K1. }
  assert (DM : forall (x : list R) (step : R) st, length x = n -> (eps < step)%R ->
    let d : list R := fst (d_step descent step (d_query descent x (ResidualJac (N:=RN) (r x) (J x)) st)) in
    length d = n /\ forall v, length v = n -> (damped_loss (J x) (r x) (/ step) d <= damped_loss (J x) (r x) (/ step) v)%R).
  { intros x step st Hx Hs d. destruct (HP x Hx) as (Hr & HA & _).
    assert (ED : d = Rscal (-1) (fst (damped_newton_step (N:=RN) lsolve eps fmax n step (ResidualJac (N:=RN) (r x) (J x))))).
    { unfold d, descent. cbn [damped_newton_descent d_step d_query fst snd].
      change (@length (T RN) x) with (@length R x). rewrite Hx.
      destruct (damped_newton_step _ _ _ _ _ _) as [sol res]. cbn [fst]. apply vneg_RN. }
    rewrite ED. exact (damped_step_min lsolve eps fmax n m (J x) (r x) step HE HA Hr (conj He Hs)). }
  assert (HMA : forall (x : list R) (step : R) st, length x = n -> (Rmin 1 (w / 4) <= step < w)%R ->
    let d : list R := fst (d_step descent step (d_query descent x (ResidualJac (N:=RN) (r x) (J x)) st)) in
    (half_squares r (Radd_v x d) - half_squares r x <= 1 / 100 * classical_predict (N:=RN) d (ResidualJac (N:=RN) (r x) (J x)))%R).
  { intros x step st Hx [S1 S2] d. rewrite ER in S1. destruct (HP x Hx) as (Hr & HA & HT').
    destruct (DM x step st Hx ltac:(lra)) as [Ld Dm]. fold d in Ld, Dm.
    assert (S0 : (0 < step)%R) by lra.
    pose proof (step_slope n m (J x) (r x) HA HT' Hr step d S0 Ld Dm) as Q1.
    pose proof (step_predict n m (J x) (r x) HA HT' Hr step d S0 Ld Dm) as Q2. rewrite Q2.
    pose proof (proj2 HS x d Hx Ld) as Q3. unfold ls_gradient in Q3. rewrite Q1 in Q3.
    pose proof (Rdot_pos d) as D0. pose proof (Rdot_pos (op_mv (J x) d)) as D1.
    assert (Q : (L / 2 <= 99 / 100 * / step)%R).
    { apply (Rmult_le_reg_r step); [exact S0|].
      replace (99 / 100 * / step * step)%R with (L / 2 * (99 / (50 * L)))%R by (field; lra).
      apply Rmult_le_compat_l; [lra|unfold w in S2; lra]. }
    pose proof (Rmult_le_compat_r _ _ _ D0 Q) as Q'. lra. }
  intro j. rewrite <- TE.
  replace ((1 - 2 * mu * c) ^ j * (half_squares r y0 - low))%R with (Rmax ((1 - 2 * mu * c) ^ j * (half_squares r y0 - low)) (0 / (2 * mu))).
  2:{ apply Rmax_left. replace (0 / (2 * mu))%R with 0%R by (unfold Rdiv; ring).
      apply Rmult_le_pos; [apply pow_le; lra|]. destruct (Hdom y0 Hn). lra. }
  apply (run_rate P descent jac_of fn n y0 fs auxs Hn HD w HMA mu low c 0%R (proj1 HM) (Rlt_le _ _ C0) ltac:(lra) Hdom); [|rewrite ER; exact Hq|lra].
  intros x step st Hx Hs. left. rewrite ER in Hs. destruct (HP x Hx) as (Hr & HA & HT').
  destruct (DM x step st Hx ltac:(lra)) as [Ld Dm].
  assert (S0 : (0 < step)%R) by lra.
  pose proof (step_gradient n m (J x) (r x) HA HT' Hr step _ S0 Ld Dm B (fun v => HB x v Hx) B0) as Q.
  change (Rdot (op_mvT (J x) (r x)) (op_mvT (J x) (r x))) with (Rdot (ls_gradient r J x) (ls_gradient r J x)) in Q.
  eapply Rle_trans; [exact Q|].
  assert (IS : (/ step <= / rho)%R) by (apply Rinv_le_contravar; assumption).
  assert (IS0 : (0 < / step)%R) by (apply Rinv_0_lt_compat; lra).
  pose proof (Rdot_pos (ls_gradient r J x)) as G0. set (gg := Rdot (ls_gradient r J x) (ls_gradient r J x)) in *.
  assert (Q2 : (/ (B + / rho) <= / (B + / step))%R) by (apply Rinv_le_contravar; lra).
  assert (CE2 : (100 * (c * gg) = / 2 * (gg * / (B + / rho)))%R) by (unfold c; revert IR; generalize (/ rho)%R; intros; field; lra).
  change (fst (fn x)) with (r x). change (jac_of fn x) with (J x).
  assert (gg * / (B + / rho) <= gg * / (B + / step))%R by (apply Rmult_le_compat_l; assumption).
  unfold Rdiv in *. change (fun x0 : list R => fst (fn x0)) with r. 
  match goal with |- (_ <= - (100 * (c * ?z)))%R => change z with gg end. lra.
Qed.

(** The same for IndirectLevenbergMarquardt under the assumptions of C82, with
    theta = 1 - mu rho / (300 B). *)
Lemma C83_indirect_levenberg_marquardt_pf :
  forall (Aux : Type) (P : ar_tols RN) (eps fmax : R) lsolve rfind jac_of (fn : list R -> list R * Aux)
         (n m : nat) (L B sigma mu low : R) (y0 : list R) fs auxs st0 (q : nat),
    let r x := fst (fn x) in let J := jac_of fn in
    (0 <= eps)%R -> (0 < fmax)%R -> exact_least_squares n lsolve -> (forall A b, snd (lsolve A b) = successful) ->
    residual_problem n m r J -> smooth n L (half_squares r) (ls_gradient r J) ->
    (0 < sigma <= B)%R -> jac_bounded n B J -> jac_injective n sigma J -> length y0 = n ->
    (0 < mu <= L)%R -> dominated n mu low (half_squares r) (ls_gradient r J) ->
    let rho := (2 * sigma / (3 * (B + 50 * L / 99)) / 4)%R in
    finds_damping eps rho n r J (fun x => Rnorm (fst (lsolve (J x) (r x)))) rfind ->
    (1 <= 4 ^ q * rho)%R ->
    let s := IndirectLevenbergMarquardt (N:=RN) P jac_of lsolve eps fmax rfind in
    s_init s fn y0 fs auxs = Ret st0 ->
    let theta := (1 - mu * rho / (300 * B))%R in
    (0 <= theta < 1)%R /\
    forall j, (half_squares r (y_at s fn y0 st0 (auxs fill0) (2 * j + 2 + q)) - low <= theta ^ j * (half_squares r y0 - low))%R.
Proof.
  intros Aux P eps fmax lsolve rfind jac_of fn n m L B sigma mu low y0 fs auxs st0 q r J He Hf HE HR HP HS HSB HB HI Hn HM Hdom rho HF Hq s Hi theta.
  unfold s in Hi. apply gn_init_inv in Hi. subst st0. assert (HL : (0 < L)%R) by lra.
  pose proof (ind_descends Aux eps fmax lsolve rfind jac_of fn n m He Hf HE HP) as HD. cbv zeta in HD.
  pose proof (ind_must_accept Aux eps fmax lsolve rfind jac_of fn n m L B sigma He HE HR HP HL HS HSB HB HI HF) as HA. cbv zeta in HA.
  pose proof (ind_decrease Aux eps fmax lsolve rfind jac_of fn n m L B sigma He HE HR HP HL HSB HB HI HF) as HQ. cbv zeta in HQ.
  destruct (ind_rho L B sigma HL HSB) as [ER R0]. fold rho in ER, R0, HQ.
  set (w := (2 * sigma / (3 * (B + 50 * L / 99)))%R) in *.
  set (c := (rho / (600 * B))%R).
  assert (C0 : (0 < c)%R) by (apply Rdiv_lt_0_compat; lra).
  assert (TE : (1 - 2 * mu * c = theta)%R) by (unfold theta, c; field; lra).
  assert (RL : (rho * L <= B)%R).
  { assert (W : (rho * (12 * (B + 50 * L / 99)) = 2 * sigma)%R) by (unfold rho, w; field; lra).
    assert (rho * (12 * (50 * L / 99)) <= rho * (12 * (B + 50 * L / 99)))%R by (apply Rmult_le_compat_l; lra).
    assert (0 < rho * L)%R by (apply Rmult_lt_0_compat; lra). lra. }
  assert (TH : (0 <= theta < 1)%R).
  { unfold theta. assert (M : (0 < mu * rho)%R) by (apply Rmult_lt_0_compat; lra).
    assert (rho * mu <= rho * L)%R by (apply Rmult_le_compat_l; lra).
    assert (Q1 : (0 < mu * rho / (300 * B))%R) by (apply Rdiv_lt_0_compat; lra).
    assert (Q2 : (mu * rho / (300 * B) <= 1)%R).
    { apply (Rmult_le_reg_r (300 * B)); [lra|]. unfold Rdiv. rewrite Rmult_assoc, Rinv_l by lra. lra. }
    lra. }
  split; [exact TH|]. intro j. rewrite <- TE.
  replace ((1 - 2 * mu * c) ^ j * (half_squares r y0 - low))%R with (Rmax ((1 - 2 * mu * c) ^ j * (half_squares r y0 - low)) (0 / (2 * mu))).
  2:{ apply Rmax_left. replace (0 / (2 * mu))%R with 0%R by (unfold Rdiv; ring).
      apply Rmult_le_pos; [apply pow_le; lra|]. destruct (Hdom y0 Hn). lra. }
  apply (run_rate P _ jac_of fn n y0 fs auxs Hn HD w HA mu low c 0%R (proj1 HM) (Rlt_le _ _ C0) ltac:(lra) Hdom); [|replace (Rmin 1 (w / 4)) with rho by (symmetry; exact ER); exact Hq|lra].
  intros x step st Hx Hs. left. destruct (HQ x step st Hx Hs) as [Q _].
  eapply Rle_trans; [exact Q|]. right. unfold c.
  match goal with |- _ = (- (100 * (_ * ?z)))%R => change z with (Rdot (ls_gradient r J x) (ls_gradient r J x)) end.
  match goal with |- (_ * (_ * (?z / _)) = _)%R => change z with (Rdot (ls_gradient r J x) (ls_gradient r J x)) end.
  field. lra.
Qed.

(** Dogleg under the assumptions of C77: the excess falls at the rate theta = 1 - mu rho /
    (100 B) until it is at most B^2 eps^2 / (2 mu), eps being the cut-off of the descent. *)
Lemma C83_dogleg_pf :
  forall (Aux : Type) (P : ar_tols RN) (eps : R) lsolve jac_of (fn : list R -> list R * Aux)
         (n m : nat) (L B sigma mu low : R) (y0 : list R) fs auxs st0 (q : nat),
    let r x := fst (fn x) in let J := jac_of fn in
    (0 <= eps)%R -> exact_least_squares n lsolve ->
    residual_problem n m r J -> smooth n L (half_squares r) (ls_gradient r J) ->
    (0 < sigma <= B)%R -> jac_bounded n B J -> jac_injective n sigma J -> length y0 = n ->
    (0 < mu <= L)%R -> dominated n mu low (half_squares r) (ls_gradient r J) ->
    let w := Rmin (sigma / B) (99 * sigma / (50 * L)) in
    let rho := Rmin 1 (w / 4) in
    (1 <= 4 ^ q * rho)%R ->
    let s := Dogleg (N:=RN) P jac_of lsolve eps in
    s_init s fn y0 fs auxs = Ret st0 ->
    let theta := (1 - mu * rho / (100 * B))%R in
    (0 <= theta < 1)%R /\
    forall j, (half_squares r (y_at s fn y0 st0 (auxs fill0) (2 * j + 2 + q)) - low <=
               Rmax (theta ^ j * (half_squares r y0 - low)) (B * B * (eps * eps) / (2 * mu)))%R.
Proof.
  intros Aux P eps lsolve jac_of fn n m L B sigma mu low y0 fs auxs st0 q r J He HE HP HS HSB HB HI Hn HM Hdom w rho Hq s Hi theta.
  unfold s in Hi. apply gn_init_inv in Hi. subst st0. assert (HL : (0 < L)%R) by lra.
  pose proof (dogleg_descends Aux lsolve eps jac_of fn n m He HE HP) as HD. cbv zeta in HD.
  pose proof (dogleg_must_accept Aux lsolve eps jac_of fn n m L B sigma He HE HP HL HS HSB HB HI) as HA. cbv zeta in HA.
  assert (Hw : (0 < w)%R) by (apply Rmin_glb_lt; apply Rdiv_lt_0_compat; lra).
  assert (R0 : (0 < rho)%R) by (apply Rmin_glb_lt; lra).
  set (c := (rho / (200 * B))%R).
  assert (C0 : (0 < c)%R) by (apply Rdiv_lt_0_compat; lra).
  assert (TE : (1 - 2 * mu * c = theta)%R) by (unfold theta, c; field; lra).
  assert (RL : (rho * L <= B)%R).
  { assert (Q : (rho <= w / 4)%R) by apply Rmin_r. assert (Q2 : (w <= 99 * sigma / (50 * L))%R) by apply Rmin_r.
    assert (Q3 : (rho * L <= 99 * sigma / (50 * L) / 4 * L)%R) by (apply Rmult_le_compat_r; lra).
    replace (99 * sigma / (50 * L) / 4 * L)%R with (99 / 200 * sigma)%R in Q3 by (field; lra). lra. }
  assert (TH : (0 <= theta < 1)%R).
  { unfold theta. assert (M : (0 < mu * rho)%R) by (apply Rmult_lt_0_compat; lra).
    assert (rho * mu <= rho * L)%R by (apply Rmult_le_compat_l; lra).
    assert (Q1 : (0 < mu * rho / (100 * B))%R) by (apply Rdiv_lt_0_compat; lra).
    assert (Q2 : (mu * rho / (100 * B) <= 1)%R).
    { apply (Rmult_le_reg_r (100 * B)); [lra|]. unfold Rdiv. rewrite Rmult_assoc, Rinv_l by lra. lra. }
    lra. }
  split; [exact TH|]. intro j. rewrite <- TE.
  apply (run_rate P _ jac_of fn n y0 fs auxs Hn HD w HA mu low c _ (proj1 HM) (Rlt_le _ _ C0) ltac:(lra) Hdom); [|exact Hq|lra].
  intros x step st Hx Hs. change (rho <= step)%R in Hs. destruct (HP x Hx) as (Hr & HAx & HTx). destruct HSB as [S0 SB].
  destruct (dog_model n m (J x) (r x) x lsolve eps step st HE HAx HTx Hr He ltac:(lra) B sigma S0 (fun v => HB x v Hx) (fun v => HI x v Hx) SB)
    as [(_ & Q)|Q]; [right; exact Q|left].
  eapply Rle_trans; [exact Q|]. change (fun x0 : list R => fst (fn x0)) with r. unfold c.
  change (Rdot (op_mvT (J x) (r x)) (op_mvT (J x) (r x))) with (Rdot (ls_gradient r J x) (ls_gradient r J x)).
  pose proof (Rdot_pos (ls_gradient r J x)) as G0. set (gg := Rdot (ls_gradient r J x) (ls_gradient r J x)) in *.
  match goal with |- (_ <= - (100 * (_ * ?z)))%R => change z with gg end.
  assert (M : (rho <= Rmin 1 step)%R) by (apply Rmin_glb; [apply Rmin_l|exact Hs]).
  assert (IB : (0 < / B)%R) by (apply Rinv_0_lt_compat; lra).
  replace (100 * (rho / (200 * B) * gg))%R with (/ 2 * (rho * (gg / B)))%R by (field; lra).
  assert (rho * (gg / B) <= Rmin 1 step * (gg / B))%R; [|lra].
  apply Rmult_le_compat_r; [apply Rmult_le_pos; lra|exact M].
Qed.

(** The hyperbola of C71 has 1/2 |r|^2 = x^2 + 1/2 and gradient 2 x, so mu = L = 2 and low =
    1/2: all three solvers bring x^2 down at their rate (4^2 * 1/8 >= 1 etc.). *)
Example C83_trust_region_ex_pf :
  let r x := fst (hyperbola x) in let J := hyperbola_jac hyperbola in
  dominated 1 2 (1/2) (half_squares r) (ls_gradient r J) /\
  (forall P st0,
    let s := LevenbergMarquardt (N:=RN) P hyperbola_jac lsolve1 (1/100)%R 1000%R in
    s_init s hyperbola [2%R] (fun _ => [0; 0]%R) (fun _ => tt) = Ret st0 ->
    forall j, (half_squares r (y_at s hyperbola [2%R] st0 tt (2 * j + 2 + 2)) - 1/2 <= (1 - 2 / (100 * (2 + / (99 / 400)))) ^ j * 4)%R) /\
  (forall P st0,
    let s := IndirectLevenbergMarquardt (N:=RN) P hyperbola_jac lsolve1 (1/100)%R 1000%R rational_root in
    s_init s hyperbola [2%R] (fun _ => [0; 0]%R) (fun _ => tt) = Ret st0 ->
    forall j, (half_squares r (y_at s hyperbola [2%R] st0 tt (2 * j + 2 + 3)) - 1/2 <= (1 - 2 * (33 / 596) / (300 * 2)) ^ j * 4)%R) /\
  (forall P st0,
    let s := Dogleg (N:=RN) P hyperbola_jac lsolve1 (1/100)%R in
    s_init s hyperbola [2%R] (fun _ => [0; 0]%R) (fun _ => tt) = Ret st0 ->
    forall j, (half_squares r (y_at s hyperbola [2%R] st0 tt (2 * j + 2 + 2)) - 1/2 <=
               Rmax ((1 - 2 * (1 / 8) / (100 * 2)) ^ j * 4) (1 / 10000))%R).
Proof.
  intros r J. destruct C71_terminates_ex_pf as (HP & HS & HB & HLp & HI & _).
  assert (EF : forall x, half_squares r [x] = (x * x + / 2)%R).
  { intro x. unfold half_squares, r. cbn. destruct (hyp_pos x) as [_ E].
    replace (x * x + (sqrt (1 + x * x) * sqrt (1 + x * x) + 0))%R with (x * x + (1 + x * x))%R by lra. lra. }
  assert (HD : dominated 1 2 (1/2) (half_squares r) (ls_gradient r J)).
  { intros [|x [|? ?]] H; try discriminate H. rewrite EF. pose proof (Rle_0_sqr x) as Q. unfold Rsqr in Q. split; [lra|].
    assert (EG : ls_gradient r J [x] = [(2 * x)%R]).
    { unfold ls_gradient, J, r. cbn. f_equal. rewrite ?Q2R_0. destruct (hyp_pos x) as [E1 _]. field. lra. }
    rewrite EG. cbn. lra. }
  split; [exact HD|].
  assert (E4 : (half_squares r [2%R] - 1 / 2 = 4)%R) by (rewrite EF; lra).
  assert (HE := proj1 C32_levenberg_marquardt_ex_pf).
  assert (RH1 : Rmin 1 (99 / (200 * 2)) = (99 / 400)%R) by (rewrite Rmin_right by lra; lra).
  assert (RH2 : (2 * 1 / (3 * (2 + 50 * 2 / 99)) / 4 = 33 / 596)%R) by field.
  assert (RH3 : Rmin 1 (Rmin (1 / 2) (99 * 1 / (50 * 2)) / 4) = (1 / 8)%R).
  { rewrite (Rmin_left (1 / 2)) by lra. rewrite Rmin_right by lra. lra. }
  split; [|split].
  - intros P st0 s Hi j.
    destruct (C83_levenberg_marquardt_pf unit P (1/100) 1000 lsolve1 hyperbola_jac hyperbola 1 2 2 2 2 (1/2) [2%R] (fun _ => [0; 0]%R) (fun _ => tt) st0 2
      ltac:(lra) ltac:(lra) HE HP HS ltac:(lra) HB ltac:(lra) HD ltac:(rewrite RH1; lra) eq_refl ltac:(rewrite RH1; cbn; lra) Hi) as [_ Q].
    specialize (Q j). rewrite RH1 in Q. fold r in Q. rewrite E4 in Q. exact Q.
  - intros P st0 s Hi j.
    destruct (C83_indirect_levenberg_marquardt_pf unit P (1/100) 1000 lsolve1 rational_root hyperbola_jac hyperbola 1 2 2 2 1 2 (1/2) [2%R] (fun _ => [0; 0]%R) (fun _ => tt) st0 3
      ltac:(lra) ltac:(lra) HE (fun _ _ => eq_refl) HP HS ltac:(lra) HB HI eq_refl ltac:(lra) HD ltac:(rewrite RH2; exact hyperbola_damping) ltac:(rewrite RH2; cbn; lra) Hi) as [_ Q].
    specialize (Q j). rewrite RH2 in Q. fold r in Q. rewrite E4 in Q. exact Q.
  - intros P st0 s Hi j.
    destruct (C83_dogleg_pf unit P (1/100) lsolve1 hyperbola_jac hyperbola 1 2 2 2 1 2 (1/2) [2%R] (fun _ => [0; 0]%R) (fun _ => tt) st0 2
      ltac:(lra) HE HP HS ltac:(lra) HB HI eq_refl ltac:(lra) HD ltac:(rewrite RH3; cbn; lra) Hi) as [_ Q].
    specialize (Q j). rewrite RH3 in Q. fold r in Q. rewrite E4 in Q.
    replace (2 * 2 * (1 / 100 * (1 / 100)) / (2 * 2))%R with (1 / 10000)%R in Q by field. exact Q.
Qed.
