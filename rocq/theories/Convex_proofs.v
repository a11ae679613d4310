(** Rates of convergence of gradient descent on convex problems (C86). *)

From Coq Require Import String List Bool Arith Lia ZArith QArith Qreals Reals Lra Psatz.
From Verif Require Import Num NumFacts Vec Results Iterate Spec_Iterate Iterate_proofs.
From Verif Require Import Spec_Vec VecFacts Spec_Lin LinFacts.
From Verif Require Import Search Spec_Search Descent Minimisers Solvers Minimisers_proofs.
From Verif Require Import TrustRegion_proofs LeastSquares_proofs Spec_Steps Steps_proofs Spec_Convergence Convergence_proofs.
From Verif Require Import Spec_Convex.
From Verif Require BFGSConv_proofs.
Import ListNotations.
Local Open Scope R_scope.

(** One step x - t g(x) towards any z, measured by the distance to z. *)
Lemma dist_step : forall n (x gv z : list R) (t : R), length x = n -> length gv = n -> length z = n ->
  dist2 (Radd_v x (Rscal (- t) gv)) z = dist2 x z - 2 * t * Rdot gv (Rsub_v x z) + t * t * Rdot gv gv.
Proof.
  intros n x gv z t Lx Lg Lz. unfold dist2.
  assert (E : Rsub_v (Radd_v x (Rscal (- t) gv)) z = Radd_v (Rsub_v x z) (Rscal (- t) gv)).
  { revert gv z n Lx Lg Lz. induction x as [|a x IH]; intros [|b gv] [|c z] [|n] Lx Lg Lz; try discriminate; [reflexivity|].
    cbn in *. f_equal; [ring|]. apply (IH gv z n); lia. }
  rewrite E. assert (LD : length (Rsub_v x z) = n) by (apply Rsub_v_length; assumption).
  assert (LS : length (Rscal (- t) gv) = n) by (rewrite Rscal_length; exact Lg).
  rewrite Rdot_add_l, !Rdot_add_r by congruence.
  rewrite !Rdot_scal_l, !Rdot_scal_r, (Rdot_comm (Rsub_v x z) gv). ring.
Qed.

Lemma below_tangent : forall n f g (x z : list R), convex n f g -> length x = n -> length z = n ->
  f x - f z <= Rdot (g x) (Rsub_v x z).
Proof.
  intros n f g x z HC Lx Lz. pose proof (HC x (Rsub_v z x) Lx ltac:(apply Rsub_v_length; assumption)) as Q.
  rewrite (BFGSConv_proofs.add_sub n) in Q by assumption.
  assert (E : Rsub_v z x = Rscal (-1) (Rsub_v x z)).
  { assert (LL : length x = length z) by congruence. clear - LL. revert z LL.
    induction x as [|a x IH]; intros [|b z] LL; try discriminate LL; [reflexivity|].
    cbn in *. f_equal; [ring|]. apply IH. lia. }
  rewrite E, Rdot_scal_r in Q. lra.
Qed.

(** The descent inequality every accepted step of either method satisfies: for s t |g|^2 of decrease *)
Lemma step_towards : forall n f g (x z : list R) t sl, convex n f g -> length x = n -> length (g x) = n -> length z = n -> 0 <= t ->
  f (Radd_v x (Rscal (- t) (g x))) <= f x - sl * t * Rdot (g x) (g x) ->
  t * (f (Radd_v x (Rscal (- t) (g x))) - f z) <=
    / 2 * (dist2 x z - dist2 (Radd_v x (Rscal (- t) (g x))) z) + (/ 2 - sl) * (t * (t * Rdot (g x) (g x))).
Proof.
  intros n f g x z t sl HC Lx Lg Lz T0 HD.
  pose proof (below_tangent n f g x z HC Lx Lz) as B. rewrite (dist_step n) by assumption.
  set (xx := f (Radd_v x (Rscal (- t) (g x)))) in *.
  assert (t * (xx - f z) <= t * (Rdot (g x) (Rsub_v x z) - sl * t * Rdot (g x) (g x))) by (apply Rmult_le_compat_l; lra).
  lra.
Qed.

(** GradientDescent on a convex L-smooth objective with learning rate in (0, 1/L], exact arithmetic:
    after k further steps f exceeds its value at any point z by at most |y0 - z|^2 / (2 rate k),
    and the iterates never move away from a minimiser. *)
Lemma C86_gradient_descent_pf :
  forall (Aux : Type) (n : nat) (L : R) (f : list R -> R) (g : list R -> list R)
         (P : ar_tols RN) grad_of (rate : R) (fn : list R -> R * Aux) y0 fs auxs st0,
    smooth n L f g -> convex n f g -> 0 < rate -> rate * L <= 1 ->
    (forall x, fst (fn x) = f x) -> (forall x, grad_of fn x = g x) -> length y0 = n ->
    let s := GradientDescent (N:=RN) P grad_of rate in
    s_init s fn y0 fs auxs = Ret st0 ->
    let y : nat -> list R := y_at s fn y0 st0 (auxs fill0) in
    (forall z k, length z = n -> f (y (S (S k))) - f z <= dist2 y0 z / (2 * rate * INR (S k))) /\
    (forall xs k, length xs = n -> (forall x, length x = n -> f xs <= f x) -> dist2 (y (S (S k))) xs <= dist2 (y (S k)) xs).
Proof.
  intros Aux n L f g P grad_of rate fn y0 fs auxs st0 HS HC R0 RL Hf Hg Hn s Hi y.
  pose proof (C65_descends_pf Aux n L f g P grad_of rate fn y0 fs auxs st0 HS Hf Hg Hn Hi) as D. cbv zeta in D.
  destruct (C65_iteration_pf RN Aux P grad_of rate fn y0 fs auxs st0 Hi) as (Y1 & YS).
  assert (Y1' : y 1%nat = y0) by exact Y1.
  assert (LY : forall k, length (y (S k)) = n) by (intro k; exact (proj1 (D k))).
  assert (YS' : forall k, y (S (S k)) = Radd_v (y (S k)) (Rscal (- rate) (g (y (S k))))).
  { intro k. refine (eq_trans (YS k) _). refine (eq_trans (vadd_RN _ _) _). f_equal. refine (eq_trans (vscale_RN _ _) _). f_equal. apply Hg. }
  assert (DK : forall k, f (y (S (S k))) <= f (y (S k)) - / 2 * rate * Rdot (g (y (S k))) (g (y (S k)))).
  { intro k. pose proof (proj2 (D k)) as Q. fold s y in Q. pose proof (Rdot_pos (g (y (S k)))) as G0.
    assert (/ 2 * rate * Rdot (g (y (S k))) (g (y (S k))) <= rate * (1 - L * rate / 2) * Rdot (g (y (S k))) (g (y (S k)))).
    { apply Rmult_le_compat_r; [exact G0|]. assert (0 <= rate * (1 - L * rate)) by (apply Rmult_le_pos; lra). lra. }
    lra. }
  clear D YS Y1. clearbody y.
  assert (ST : forall z k, length z = n -> rate * (f (y (S (S k))) - f z) <= / 2 * (dist2 (y (S k)) z - dist2 (y (S (S k))) z)).
  { intros z k Lz. pose proof (DK k) as Q. rewrite YS' in Q |- *.
    pose proof (step_towards n f g (y (S k)) z rate (/ 2) HC (LY k) (proj1 HS _ (LY k)) Lz ltac:(lra) Q) as T. lra. }
  assert (DEC : forall k, f (y (S (S k))) <= f (y (S k))).
  { intro k. pose proof (DK k). pose proof (Rdot_pos (g (y (S k)))).
    assert (0 <= / 2 * rate * Rdot (g (y (S k))) (g (y (S k)))) by (apply Rmult_le_pos; lra). lra. }
  split.
  - intros z k Lz.
    assert (SUM : forall k, rate * (INR (S k) * (f (y (S (S k))) - f z)) <= / 2 * (dist2 (y 1%nat) z - dist2 (y (S (S k))) z)).
    { induction k0 as [|j IH]; [cbn [INR]; rewrite Rmult_1_l; apply ST; exact Lz|].
      pose proof (ST z (S j) Lz). pose proof (DEC (S j)). rewrite S_INR. pose proof (pos_INR (S j)).
      assert (INR (S j) * (f (y (S (S (S j)))) - f z) <= INR (S j) * (f (y (S (S j))) - f z)) by (apply Rmult_le_compat_l; lra).
      assert (rate * (INR (S j) * (f (y (S (S (S j)))) - f z)) <= rate * (INR (S j) * (f (y (S (S j))) - f z))) by (apply Rmult_le_compat_l; lra).
      lra. }
    specialize (SUM k). assert (I0 : 0 < INR (S k)) by (apply lt_0_INR; lia).
    assert (D0 : 0 <= dist2 (y (S (S k))) z) by apply Rdot_pos. rewrite Y1' in SUM.
    apply (Rmult_le_reg_l (2 * rate * INR (S k))).
    { apply Rmult_lt_0_compat; lra. }
    replace (2 * rate * INR (S k) * (dist2 y0 z / (2 * rate * INR (S k)))) with (dist2 y0 z) by (field; split; lra). lra.
  - intros xs k Lx Hx. pose proof (ST xs k Lx). specialize (Hx _ (LY (S k))).
    assert (0 <= rate * (f (y (S (S k))) - f xs)) by (apply Rmult_le_pos; lra). lra.
Qed.

(** Steepest descent with BacktrackingArmijo on a convex L-smooth objective, exact arithmetic: after
    k (q+1) further steps f exceeds its minimum by at most 1/(k tmin) times
    |y0 - xs|^2 / 2 + max(0, 1/2 - sl) ini / sl (f(y0) - min f), tmin and q as in C72. *)
Lemma C86_backtracking_pf :
  forall (Aux : Type) (P : ar_tols RN) (de sl ini : R) grad_of (fn : list R -> R * Aux)
         (n : nat) (L : R) (f : list R -> R) (g : list R -> list R) (y0 xs : list R) fs auxs st0 (q : nat),
    0 < de < 1 /\ 0 < sl < 1 /\ 0 < ini -> 0 < L -> smooth n L f g -> convex n f g ->
    (forall x, fst (fn x) = f x) -> (forall x, grad_of fn x = g x) -> length y0 = n ->
    length xs = n -> (forall x, length x = n -> f xs <= f x) ->
    ini * de ^ q * L <= 2 * (1 - sl) ->
    let s := gradient_descent_solver (N:=RN) P (armijo (N:=RN) de sl ini) (steepest_descent None) grad_of in
    s_init s fn y0 fs auxs = Ret st0 ->
    let y : nat -> list R := y_at s fn y0 st0 (auxs fill0) in
    let tmin := Rmin ini (2 * de * (1 - sl) / L) in
    forall k, f (y (S (S k * (q + 1)))) - f xs <=
      (/ 2 * dist2 y0 xs + Rmax 0 (/ 2 - sl) * (ini / sl) * (f y0 - f xs)) / (tmin * INR (S k)).
Proof.
  intros Aux P de sl ini grad_of fn n L f g y0 xs fs auxs st0 q HV HL HS HC Hf Hg Hn Lxs Hx Hq s Hi y tm.
  pose proof (C72_backtracking_pf Aux P de sl ini grad_of fn n L f g y0 fs auxs st0 HV HL HS Hf Hg Hn Hi)
    as (Y1' & T1' & ST' & _ & LB' & RJ').
  set (t := fun k : nat => gd_search_state (st_at s fn y0 st0 (auxs fill0) k) : R).
  set (moved := fun k : nat => Radd_v (y k) (Rscal (- t k) (g (y k)))).
  set (gg := fun k : nat => Rdot (g (y k)) (g (y k))).
  assert (Y1 : y 1%nat = y0) by exact Y1'. assert (T1 : t 1%nat = ini) by exact T1'.
  assert (ST : forall k, ((f (moved (S k)) <= f (y (S k)) - sl * t (S k) * gg (S k))%R /\ y (S (S k)) = moved (S k) /\ t (S (S k)) = ini) \/
     (~ (f (moved (S k)) <= f (y (S k)) - sl * t (S k) * gg (S k))%R /\ y (S (S k)) = y (S k) /\ t (S (S k)) = (de * t (S k))%R)) by exact ST'.
  assert (LB : forall k, (tm <= t (S k) <= ini)%R) by exact LB'.
  assert (RJ : forall k, t (S k) = ini ->
     exists j, (j <= q)%nat /\ y (S (k + j)) = y (S k) /\ (f (moved (S (k + j))) <= f (y (S (k + j))) - sl * t (S (k + j)) * gg (S (k + j)))%R)
    by exact (fun k => RJ' q k Hq).
  clear Y1' T1' ST' LB' RJ'.
  assert (LY : forall k, length (y (S k)) = n).
  { intro k. unfold y. apply gd_init_inv in Hi. subst st0. clear t moved gg Y1 T1 ST LB RJ.
    exact (proj1 (armijo_inv P de sl ini grad_of fn n L f g y0 fs auxs HV HS Hf Hg Hn k)). }
  clearbody t y.
  assert (M0 : 0 < tm).
  { apply Rmin_glb_lt; [lra|]. apply Rdiv_lt_0_compat; [|lra]. apply Rmult_lt_0_compat; lra. }
  set (w := Rmax 0 (/ 2 - sl) * (ini / sl)).
  assert (W0 : 0 <= w).
  { apply Rmult_le_pos; [apply Rmax_l|]. left. apply Rdiv_lt_0_compat; lra. }
  assert (G0 : forall k, 0 <= gg k) by (intro k; apply Rdot_pos).
  assert (DEC : forall k, f (y (S (S k))) <= f (y (S k))).
  { intro k. destruct (ST k) as [(C1 & C2 & _)|(_ & C2 & _)]; rewrite C2; [|lra].
    pose proof (LB k) as B1. pose proof (G0 (S k)).
    assert (0 <= sl * t (S k) * gg (S k)) by (apply Rmult_le_pos; [apply Rmult_le_pos|]; lra). lra. }
  assert (MON : forall j k, (j <= k)%nat -> f (y (S k)) <= f (y (S j))).
  { intros j k H. induction H as [|k H IH]; [lra|]. eapply Rle_trans; [apply DEC|exact IH]. }
  (* one accepted step *)
  assert (ACC : forall k, (f (moved (S k)) <= f (y (S k)) - sl * t (S k) * gg (S k))%R ->
    y (S (S k)) = moved (S k) ->
    tm * (f (y (S (S k))) - f xs) <= / 2 * (dist2 (y (S k)) xs - dist2 (y (S (S k))) xs) + w * (f (y (S k)) - f (y (S (S k))))).
  { intros k C1 C2. pose proof (LB k) as B1. rewrite C2.
    pose proof (step_towards n f g (y (S k)) xs (t (S k)) sl HC (LY k) (proj1 HS _ (LY k)) Lxs ltac:(lra) C1) as Q.
    fold (moved (S k)) in Q. fold (gg (S k)) in Q.
    assert (LM : length (moved (S k)) = n) by (rewrite <- C2; apply LY).
    assert (E1 : tm * (f (moved (S k)) - f xs) <= t (S k) * (f (moved (S k)) - f xs)).
    { apply Rmult_le_compat_r; [specialize (Hx _ LM); lra|lra]. }
    assert (E2 : (/ 2 - sl) * (t (S k) * (t (S k) * gg (S k))) <= Rmax 0 (/ 2 - sl) * (ini * (t (S k) * gg (S k)))).
    { pose proof (G0 (S k)). assert (0 <= t (S k) * gg (S k)) by (apply Rmult_le_pos; lra).
      eapply Rle_trans; [apply Rmult_le_compat_r; [apply Rmult_le_pos; lra|apply (Rmax_r 0)]|].
      apply Rmult_le_compat_l; [apply Rmax_l|]. apply Rmult_le_compat_r; lra. }
    assert (E3 : Rmax 0 (/ 2 - sl) * (ini * (t (S k) * gg (S k))) <= w * (f (y (S k)) - f (moved (S k)))).
    { unfold w. replace (Rmax 0 (/ 2 - sl) * (ini * (t (S k) * gg (S k)))) with (Rmax 0 (/ 2 - sl) * (ini / sl) * (sl * t (S k) * gg (S k))) by (field; lra).
      apply Rmult_le_compat_l; [exact W0|lra]. }
    lra. }
  assert (X : forall k, exists i, (i <= k * (q + 1))%nat /\ t (S i) = ini /\
    tm * (INR k * (f (y (S i)) - f xs)) <= / 2 * (dist2 y0 xs - dist2 (y (S i)) xs) + w * (f y0 - f (y (S i)))).
  { induction k as [|k (i & I1 & I2 & I3)].
    - exists 0%nat. split; [lia|]. split; [exact T1|]. rewrite Y1. cbn. lra.
    - destruct (RJ i I2) as (j & J1 & J2 & J3).
      destruct (ST (i + j)%nat) as [(C1 & C2 & C3)|(C1 & _)]; [|contradiction (C1 J3)].
      exists (S (i + j)). split; [cbn; lia|]. split; [exact C3|].
      pose proof (ACC _ C1 C2) as A. rewrite J2 in A. pose proof (DEC (i + j)%nat) as DD. rewrite J2 in DD.
      rewrite S_INR. pose proof (pos_INR k).
      set (fa := f (y (S (S (i + j))))) in *. set (fb := f (y (S i))) in *. set (fx := f xs) in *.
      assert (INR k * (fa - fx) <= INR k * (fb - fx)) by (apply Rmult_le_compat_l; lra).
      assert (tm * (INR k * (fa - fx)) <= tm * (INR k * (fb - fx))) by (apply Rmult_le_compat_l; lra). lra. }
  intro k. destruct (X (S k)) as (i & I1 & _ & I3). pose proof (MON _ _ I1) as MM.
  assert (I0 : 0 < INR (S k)) by (apply lt_0_INR; lia).
  assert (D0 : 0 <= dist2 (y (S i)) xs) by apply Rdot_pos.
  pose proof (Hx _ (LY i)) as X1. 
  apply (Rmult_le_reg_l (tm * INR (S k))); [apply Rmult_lt_0_compat; assumption|].
  fold w. set (B := / 2 * dist2 y0 xs + w * (f y0 - f xs)).
  replace (tm * INR (S k) * (B / (tm * INR (S k)))) with B by (field; split; lra).
  assert (w * (f y0 - f (y (S i))) <= w * (f y0 - f xs)) by (apply Rmult_le_compat_l; lra).
  assert (tm * INR (S k) * (f (y (S (S k * (q + 1)))) - f xs) <= tm * INR (S k) * (f (y (S i)) - f xs)).
  { apply Rmult_le_compat_l; [apply Rmult_le_pos; lra|lra]. }
  unfold B. lra.
Qed.

Lemma valley_facts : smooth 2 4 valley valley_grad /\ convex 2 valley valley_grad /\
  (forall x, length x = 2%nat -> valley [3; -3] <= valley x).
Proof.
  split; [split|split].
  - intros [|a [|b [|? ?]]] H; try discriminate H. reflexivity.
  - intros [|a [|b [|? ?]]] [|c [|d [|? ?]]] H1 H2; try discriminate H1; try discriminate H2. cbn.
    pose proof (Rle_0_sqr (c - d)) as Q. unfold Rsqr in Q. lra.
  - intros [|a [|b [|? ?]]] [|c [|d [|? ?]]] H1 H2; try discriminate H1; try discriminate H2. cbn.
    pose proof (Rle_0_sqr (c + d)) as Q. unfold Rsqr in Q. lra.
  - intros [|a [|b [|? ?]]] H; try discriminate H. cbn.
    pose proof (Rle_0_sqr (a + b)) as Q. unfold Rsqr in *. lra.
Qed.

(** (x0 + x1)^2, which is convex but has a whole line of minimisers, from (1, 0). *)
Example C86_gradient_descent_ex_pf :
  smooth 2 4 valley valley_grad /\ convex 2 valley valley_grad /\
  forall P st0,
    let s := GradientDescent (N:=RN) (Aux:=unit) P (fun _ => valley_grad) (1/4) in
    s_init s (fun v => (valley v, tt)) [1; 0] (fun _ => 0) (fun _ => tt) = Ret st0 ->
    forall k, valley (y_at s (fun v => (valley v, tt)) [1; 0] st0 tt (S (S k))) <= 1 / INR (S k).
Proof.
  destruct valley_facts as (HS & HC & HM). split; [exact HS|]. split; [exact HC|]. intros P st0 s Hi k.
  destruct (C86_gradient_descent_pf unit 2 4 valley valley_grad P (fun _ => valley_grad) (1/4) (fun v => (valley v, tt)) [1; 0] (fun _ => 0) (fun _ => tt) st0
    HS HC ltac:(lra) ltac:(lra) (fun _ => eq_refl) (fun _ => eq_refl) eq_refl Hi) as (Q & _).
  specialize (Q [1/2; -(1/2)] k eq_refl).
  assert (E0 : valley [1/2; -(1/2)] = 0) by (cbn; field). assert (E1 : dist2 [1; 0] [1/2; -(1/2)] = 1 / 2) by (cbn; field).
  assert (I0 : 0 < INR (S k)) by (apply lt_0_INR; lia).
  rewrite E0, E1, Rminus_0_r in Q. eapply Rle_trans; [exact Q|]. right. field. lra.
Qed.

Example C86_backtracking_ex_pf :
  smooth 2 4 valley valley_grad /\ convex 2 valley valley_grad /\
  forall P st0,
    let s := gradient_descent_solver (N:=RN) (Aux:=unit) P (armijo (N:=RN) (1/2) (1/10) 1) (steepest_descent None) (fun _ => valley_grad) in
    s_init s (fun v => (valley v, tt)) [1; 0] (fun _ => 0) (fun _ => tt) = Ret st0 ->
    forall k, valley (y_at s (fun v => (valley v, tt)) [1; 0] st0 tt (S (S k * 3))) <= 20 / INR (S k).
Proof.
  destruct valley_facts as (HS & HC & HM). split; [exact HS|]. split; [exact HC|]. intros P st0 s Hi k.
  pose proof (C86_backtracking_pf unit P (1/2) (1/10) 1 (fun _ => valley_grad) (fun v => (valley v, tt)) 2 4 valley valley_grad [1; 0] [1/2; -(1/2)] (fun _ => 0) (fun _ => tt) st0 2
    ltac:(lra) ltac:(lra) HS HC (fun _ => eq_refl) (fun _ => eq_refl) eq_refl eq_refl) as Q.
  assert (E0 : valley [1/2; -(1/2)] = 0) by (cbn; field). assert (E1 : dist2 [1; 0] [1/2; -(1/2)] = 1 / 2) by (cbn; field).
  assert (E2 : valley [1; 0] = 1) by (cbn; ring). assert (E3 : valley [3; -3] = 0) by (cbn; ring).
  assert (I0 : 0 < INR (S k)) by (apply lt_0_INR; lia).
  rewrite E3 in HM.
  specialize (Q ltac:(intros x Lx; rewrite E0; apply HM; exact Lx) ltac:(lra) Hi k). cbv zeta in Q.
  rewrite E0, E1, E2, !Rminus_0_r, Rmin_right, Rmax_right in Q by lra.
  change (2 + 1)%nat with 3%nat in Q. eapply Rle_trans; [exact Q|].
  apply (Rmult_le_reg_r (INR (S k))); [exact I0|]. field_simplify; lra.
Qed.
