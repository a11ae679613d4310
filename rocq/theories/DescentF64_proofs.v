(** Gradient descent and Gauss-Newton in binary64 arithmetic (C100). *)

From Coq Require Import String List Bool Arith Lia ZArith QArith Qreals Reals Lra.
From Flocq Require Import Core.
From Flocq.IEEE754 Require Import BinarySingleNaN.
From Verif Require Import Num NumFacts NumDiv Vec Results Iterate Spec_Iterate Iterate_proofs.
From Verif Require Import Spec_Vec VecFacts Spec_Lin LinFacts FixedPoint_proofs.
From Verif Require Import Search Spec_Search Descent Minimisers Minimisers_proofs LeastSquares_proofs Steps_proofs Spec_Coincide Coincide_proofs Solvers.
From Verif Require Import NumF64 NumF64_facts F64Facts FixedPointF64_proofs NewtonF64_proofs Spec_DescentF64.
Import ListNotations.
Local Open Scope R_scope.

(* |a - b| passes the test *)
Lemma diff_small : forall rtol atol a b v delta : f64, fin rtol = true -> fin atol = true -> fin a = true -> fin b = true -> fin v = true ->
  0 <= val rtol <= 1 -> 0 < val atol <= bpow radix2 1022 -> Rabs (val v) <= bpow radix2 1022 ->
  val delta <= val atol / 2 -> Rabs (val a - val b) <= val delta ->
  Bltb (Babs (fdiv (Babs (fsub a b)) (fadd atol (fmul rtol (Babs v))))) (f64_ofQ 1) = true.
Proof.
  intros rtol atol a b v delta Fr Fa F1 F2 Fv Hr Ha VB HD H.
  assert (TW : bpow radix2 1023 = 2 * bpow radix2 1022) by exact (bpow_twice 1022).
  destruct (fsub_val a b F1 F2) as (Fm & Vm); [lra|].
  apply (ratio_small rtol atol (fsub a b) v delta Fr Fa Fm Fv Hr Ha VB HD).
  rewrite Vm. apply Rabs_le_inv in H. apply Rabs_le. split.
  - rewrite <- (rnd_id (- val delta)); [apply rnd_le; lra|]. apply generic_format_opp, val_format.
  - rewrite <- (rnd_id (val delta)) at 1 by apply val_format. apply rnd_le. lra.
Qed.

(* what passing it says *)
Lemma diff_tells : forall rtol atol a b v : f64, fin rtol = true -> fin atol = true -> fin a = true -> fin b = true -> fin v = true ->
  0 <= val rtol <= 1 -> 0 < val atol <= bpow radix2 1022 -> Rabs (val v) <= bpow radix2 1022 ->
  Rabs (val a) <= bpow radix2 1022 -> Rabs (val b) <= bpow radix2 1022 ->
  nltb (n:=F64) (nabs (n:=F64) (ndiv (n:=F64) (nabs (n:=F64) (nsub (n:=F64) a b)) (nadd (n:=F64) atol (nmul (n:=F64) rtol (nabs (n:=F64) v))))) (nofQ (n:=F64) 1) = true ->
  Rabs (val a - val b) <= (1 + bpow radix2 (-50)) * (val atol + val rtol * Rabs (val v)) + bpow radix2 (-1074).
Proof.
  intros rtol atol a b v Fr Fa F1 F2 Fv Hr Ha VB AB BB H. apply (dl_lt1 F64 F64_div) in H.
  change (Bltb (Babs (Babs (fsub a b))) (Babs (fadd atol (fmul rtol (Babs v)))) = true) in H.
  destruct (scale_val rtol atol v Fr Fa Fv Hr ltac:(lra) VB) as (Fs & Vs).
  assert (SP : 0 <= val (fadd atol (fmul rtol (Babs v)))).
  { rewrite Vs. assert (GG : rnd 0 <= rnd (val rtol * Rabs (val v))) by (apply rnd_le; apply Rmult_le_pos; [lra|apply Rabs_pos]).
    rewrite round_0 in GG by typeclasses eauto.
    assert (G0 : rnd 0 <= rnd (val atol + rnd (val rtol * Rabs (val v)))) by (apply rnd_le; lra).
    rewrite round_0 in G0 by typeclasses eauto. exact G0. }
  assert (TW : bpow radix2 1023 = 2 * bpow radix2 1022) by exact (bpow_twice 1022).
  pose proof (Rabs_le_inv _ _ AB). pose proof (Rabs_le_inv _ _ BB).
  destruct (fsub_val a b F1 F2) as (Fm & _); [rewrite TW; apply Rabs_le; lra|].
  apply (close_tol rtol atol v a b Fr Fa Fv F1 F2 Hr ltac:(lra) VB AB BB).
  rewrite Bltb_correct in H; [|rewrite !is_finite_Babs; exact Fm|rewrite is_finite_Babs; exact Fs].
  rewrite !B2R_Babs, Rabs_Rabsolu, (Rabs_pos_eq (val (fadd _ _))) in H by exact SP.
  rewrite Bltb_correct; [|rewrite is_finite_Babs; exact Fm|exact Fs]. rewrite B2R_Babs. exact H.
Qed.

(** A walk y' = y + d(y) on doubles whose exact steps approach a point *)
Section Walk.
  Variables (Y : nat -> list f64) (dir : list f64 -> list f64).
  Variables (n : nat) (root : list R) (r q eps : R).
  Let finite (y : list f64) := Forall (fun x => fin x = true) y.
  Let near (y : list f64) := length y = n /\ finite y /\ Rdist_inf (vals y) root <= r.
  Let B := Rmax_norm root + r.
  Hypothesis Lroot : length root = n.
  Hypothesis Hq : 0 <= q < 1.
  Hypothesis He : 0 <= eps.
  Hypothesis HB : B <= bpow radix2 1021.
  Hypothesis Hroom : q * r + eps + bpow radix2 (-53) * B <= r.
  Hypothesis Hstep : forall y, near y -> length (dir y) = n /\ finite (dir y) /\
      Rdist_inf (Radd_v (vals y) (vals (dir y))) root <= q * Rdist_inf (vals y) root + eps.
  Hypothesis Hy0 : near (Y 0).
  Hypothesis HS : forall k, Y (S k) = vadd (N:=F64) (Y k) (dir (Y k)).
  Let err := eps + bpow radix2 (-53) * B.

  Lemma w_r_pos : 0 <= r.
  Proof. destruct Hy0 as (_ & _ & H). pose proof (Rdist_inf_pos (vals (Y 0)) root). lra. Qed.
  Lemma w_B_pos : 0 <= B.
  Proof. pose proof w_r_pos. pose proof (Rmax_norm_pos root). unfold B. lra. Qed.
  Lemma w_err_pos : 0 <= err.
  Proof. pose proof w_B_pos. unfold err. assert (0 <= bpow radix2 (-53) * B) by (apply Rmult_le_pos; [apply bpow_ge_0|assumption]). lra. Qed.

  Lemma Radd_v_nth : forall (a b : list R) i z, nth_error (Radd_v a b) i = Some z <->
    exists x y, nth_error a i = Some x /\ nth_error b i = Some y /\ z = x + y.
  Proof.
    induction a as [|x a IH]; intros [|y b] [|i] z; cbn [Radd_v nth_error]; split;
      try (intros (u & w & E1 & E2 & _); discriminate); try (intro H; discriminate).
    - intro H. injection H as <-. eauto.
    - intros (u & w & E1 & E2 & ->). injection E1 as <-. injection E2 as <-. reflexivity.
    - intro H. apply IH. exact H.
    - intro H. apply IH in H. exact H.
  Qed.

  Lemma add64 : forall y d : list f64, near y -> length d = n -> finite d ->
    Rdist_inf (Radd_v (vals y) (vals d)) root <= q * Rdist_inf (vals y) root + eps ->
    let v := vadd (N:=F64) y d in
    length v = n /\ finite v /\ Rdist_inf (vals v) root <= q * Rdist_inf (vals y) root + err /\ Rdist_inf (vals v) root <= r.
  Proof.
    intros y d (Ly & Fy & Ny) Ld Fd HN v. pose proof w_B_pos as BP. pose proof w_r_pos as RP.
    assert (b0 : 0 < bpow radix2 (-53)) by apply bpow_gt_0.
    assert (Ladd : length (Radd_v (vals y) (vals d)) = n) by (apply Radd_v_length; rewrite map_length; assumption).
    assert (QR : q * Rdist_inf (vals y) root <= q * r) by (apply Rmult_le_compat_l; lra).
    assert (bB : 0 <= bpow radix2 (-53) * B) by (apply Rmult_le_pos; lra).
    assert (NB : Rmax_norm (Radd_v (vals y) (vals d)) <= B).
    { unfold B. apply (norm_near n root Lroot _ Ladd). lra. }
    assert (TW : bpow radix2 1023 = 4 * bpow radix2 1021) by exact (bpow_plus radix2 2 1021).
    assert (Lv : length v = n) by (unfold v, vadd; rewrite vmap2_length; etransitivity; [exact (f_equal2 Nat.min Ly Ld)|apply Nat.min_id]).
    assert (EV : forall i z, nth_error v i = Some z -> exists a b, nth_error y i = Some a /\ nth_error d i = Some b /\ fin z = true /\
                  Rabs (val z - (val a + val b)) <= bpow radix2 (-53) * B).
    { intros i z Hz. unfold v, vadd in Hz. apply nth_vmap2 in Hz. destruct Hz as (a & b & Ea & Eb & ->).
      assert (Fa : fin a = true) by (eapply Forall_forall in Fy; [exact Fy|eapply nth_error_In; exact Ea]).
      assert (Fb : fin b = true) by (eapply Forall_forall in Fd; [exact Fd|eapply nth_error_In; exact Eb]).
      assert (N1 : Rabs (val a + val b) <= B).
      { eapply Rle_trans; [|exact NB]. apply (Rmax_norm_nth _ i). apply Radd_v_nth. exists (val a), (val b).
        split; [apply vals_nth; exact Ea|]. split; [apply vals_nth; exact Eb|reflexivity]. }
      assert (P21 : 0 < bpow radix2 1021) by apply bpow_gt_0.
      destruct (fadd_val a b Fa Fb) as (Fm & Vm); [lra|].
      exists a, b. split; [exact Ea|]. split; [exact Eb|]. split; [exact Fm|].
      change (Rabs (val (fadd a b) - (val a + val b)) <= bpow radix2 (-53) * B).
      rewrite Vm. destruct (rnd_plus (val a) (val b) (val_format a) (val_format b)) as (e & E1 & E2). rewrite E2.
      replace ((val a + val b) * (1 + e) - (val a + val b)) with (e * (val a + val b)) by ring.
      rewrite Rabs_mult. apply Rmult_le_compat; try apply Rabs_pos; assumption. }
    assert (Fv : finite v).
    { apply Forall_forall. intros z Hz. apply In_nth_error in Hz. destruct Hz as (i & Hz). destruct (EV i z Hz) as (a & b & _ & _ & H & _). exact H. }
    assert (ND : Rdist_inf (vals v) root <= q * Rdist_inf (vals y) root + err).
    { unfold err. pose proof (Rdist_inf_pos (vals y) root) as D0. assert (0 <= q * Rdist_inf (vals y) root) by (apply Rmult_le_pos; lra).
      unfold Rdist_inf at 1. apply Rmax_norm_le; [lra|]. intros i z Hz. apply Rsub_v_nth in Hz. destruct Hz as (u & g & E1 & E2 & ->).
      apply nth_vals in E1. destruct E1 as (zz & E1 & ->). destruct (EV i zz E1) as (a & b & Ea & Eb & _ & H1).
      assert (H2 : Rabs (val a + val b - g) <= q * Rdist_inf (vals y) root + eps).
      { eapply Rle_trans; [|exact HN]. apply (Rmax_norm_nth _ i). apply Rsub_v_nth. exists (val a + val b), g. split; [|auto].
        apply Radd_v_nth. exists (val a), (val b). split; [apply vals_nth; exact Ea|]. split; [apply vals_nth; exact Eb|reflexivity]. }
      replace (val zz - g) with ((val zz - (val a + val b)) + (val a + val b - g)) by ring. eapply Rle_trans; [apply Rabs_triang|]. lra. }
    split; [exact Lv|]. split; [exact Fv|]. split; [exact ND|]. unfold err in ND. lra.
  Qed.

  Lemma w_inv : forall k, near (Y k).
  Proof.
    induction k as [|k IH]; [exact Hy0|]. destruct (Hstep _ IH) as (Ld & Fd & HN). rewrite HS.
    destruct (add64 _ _ IH Ld Fd HN) as (A1 & A2 & _ & A3). split; [exact A1|]. split; [exact A2|exact A3].
  Qed.
  Lemma w_step : forall k, Rdist_inf (vals (Y (S k))) root <= q * Rdist_inf (vals (Y k)) root + err.
  Proof.
    intro k. destruct (Hstep _ (w_inv k)) as (Ld & Fd & HN). rewrite HS. apply (add64 _ _ (w_inv k) Ld Fd HN).
  Qed.
  Lemma w_rate : forall k, Rdist_inf (vals (Y k)) root <= q ^ k * r + err / (1 - q).
  Proof.
    pose proof w_err_pos as E0. assert (EQ : 0 <= err / (1 - q)) by (apply Rmult_le_pos; [lra|apply Rlt_le, Rinv_0_lt_compat; lra]).
    induction k as [|k IH]; [destruct (w_inv 0) as (_ & _ & H); cbn [pow]; lra|].
    pose proof (w_step k) as H. assert (q * Rdist_inf (vals (Y k)) root <= q * (q ^ k * r + err / (1 - q))) by (apply Rmult_le_compat_l; lra).
    replace (q ^ S k * r + err / (1 - q)) with (q * (q ^ k * r + err / (1 - q)) + err) by (cbn [pow]; field; lra). lra.
  Qed.
  Lemma w_bound : forall k, Rmax_norm (vals (Y k)) <= B.
  Proof. intro k. destruct (w_inv k) as (L & _ & H). unfold B. apply (norm_near n root Lroot); [rewrite map_length; exact L|exact H]. Qed.

  (** The termination test, on iterates and on values [fv] *)
  Variables (rtol atol : f64) (fv : list f64 -> list f64) (target : list R) (C epsF M : R).
  Hypothesis Fr : fin rtol = true.
  Hypothesis Fa : fin atol = true.
  Hypothesis Hr : 0 <= val rtol <= 1.
  Hypothesis Ha : 0 < val atol <= bpow radix2 1022.
  Let test k := cauchy_termination (N:=F64) rtol atol (max_norm (N:=F64)) (Y (S k)) (vsub (N:=F64) (Y (S k)) (Y k))
                  (fv (Y (S k))) (vsub (N:=F64) (fv (Y (S k))) (fv (Y k))).

  Lemma w_dist : forall k, Rdist_inf (vals (Y (S k))) (vals (Y k)) <= Rdist_inf (vals (Y (S k))) root + Rdist_inf (vals (Y k)) root.
  Proof.
    intro k. rewrite (Rdist_inf_sym (vals (Y k)) root). destruct (w_inv k) as (L & _ & _). destruct (w_inv (S k)) as (L' & _ & _).
    apply Rdist_inf_tri; rewrite map_length; [exact (eq_trans L' (eq_sym Lroot))|exact (eq_trans Lroot (eq_sym L))].
  Qed.

  Lemma w_success : forall k, test k = true ->
    let tol := (1 + bpow radix2 (-50)) * (val atol + val rtol * Rmax_norm (vals (Y (S k)))) + bpow radix2 (-1074) in
    Rdist_inf (vals (Y (S k))) root <= (q * tol + err) / (1 - q).
  Proof.
    intros k T tol. destruct (w_inv k) as (L & F & _). destruct (w_inv (S k)) as (L' & F' & _).
    pose proof (w_bound k) as Bk. pose proof (w_bound (S k)) as BS. pose proof w_B_pos as B0.
    assert (TW : bpow radix2 1022 = 2 * bpow radix2 1021) by exact (bpow_twice 1021). assert (P21 : 0 < bpow radix2 1021) by apply bpow_gt_0.
    assert (TL : Rdist_inf (vals (Y (S k))) (vals (Y k)) <= tol).
    { unfold test, cauchy_termination in T. apply andb_true_iff in T. destruct T as [T _].
      apply (max_norm_lt F64_laws) in T; [|apply (dl_01 F64 F64_div)]. rewrite Forall_nth in T.
      assert (B50 : 0 < bpow radix2 (-50)) by apply bpow_gt_0. assert (B74 : 0 < bpow radix2 (-1074)) by apply bpow_gt_0.
      assert (RN0 : 0 <= Rmax_norm (vals (Y (S k)))) by apply Rmax_norm_pos.
      assert (R1 : 0 <= val rtol * Rmax_norm (vals (Y (S k)))) by (apply Rmult_le_pos; lra).
      assert (R2 : 0 <= (1 + bpow radix2 (-50)) * (val atol + val rtol * Rmax_norm (vals (Y (S k))))) by (apply Rmult_le_pos; lra).
      unfold Rdist_inf. apply Rmax_norm_le; [unfold tol; lra|]. intros i z Hz. apply Rsub_v_nth in Hz. destruct Hz as (u & u' & E1 & E2 & ->).
      apply nth_vals in E1. destruct E1 as (a & E1 & ->). apply nth_vals in E2. destruct E2 as (b & E2 & ->).
      assert (FA : fin a = true) by (eapply Forall_forall in F'; [exact F'|eapply nth_error_In; exact E1]).
      assert (FB : fin b = true) by (eapply Forall_forall in F; [exact F|eapply nth_error_In; exact E2]).
      pose proof (Rmax_norm_nth _ _ _ (vals_nth _ _ _ E1)) as NA. pose proof (Rmax_norm_nth _ _ _ (vals_nth _ _ _ E2)) as NB.
      eapply Rle_trans; [apply (diff_tells rtol atol a b a Fr Fa FA FB FA Hr Ha); try lra|].
      - apply (T i). unfold vdiv. apply nth_vmap2.
        exists (nabs (n:=F64) (nsub (n:=F64) a b)), (nadd (n:=F64) atol (nmul (n:=F64) rtol (nabs (n:=F64) a))). split; [|split; [|reflexivity]].
        + unfold vabs. apply nth_map. exists (nsub (n:=F64) a b). split; [|reflexivity]. unfold vsub. apply nth_vmap2. exists a, b. auto.
        + unfold vscale_tol. apply nth_map. exists a. auto.
      - unfold tol. apply Rplus_le_compat_r. apply Rmult_le_compat_l; [lra|]. apply Rplus_le_compat_l. apply Rmult_le_compat_l; [lra|exact NA]. }
    pose proof (w_step k) as ST.
    assert (T2 : Rdist_inf (vals (Y k)) root <= tol + Rdist_inf (vals (Y (S k))) root).
    { eapply Rle_trans; [apply (Rdist_inf_tri (vals (Y k)) (vals (Y (S k))) root); rewrite !map_length; [exact (eq_trans L (eq_sym L'))|exact (eq_trans L' (eq_sym Lroot))]|].
      rewrite (Rdist_inf_sym (vals (Y k))). lra. }
    assert (T3 : q * Rdist_inf (vals (Y k)) root <= q * (tol + Rdist_inf (vals (Y (S k))) root)) by (apply Rmult_le_compat_l; lra).
    apply (Rmult_le_reg_r (1 - q)); [lra|]. unfold Rdiv. rewrite Rmult_assoc, Rinv_l, Rmult_1_r by lra. lra.
  Qed.

  Hypothesis Hfv : forall y, near y -> length (fv y) = length target /\ finite (fv y) /\
    Rdist_inf (vals (fv y)) target <= C * Rdist_inf (vals y) root + epsF.
  Hypothesis HC : 0 <= C.
  Hypothesis HM : Rmax_norm target + (C * r + epsF) <= bpow radix2 1022.

  Lemma w_terminates : forall (delta : f64) k E, val delta <= val atol / 2 ->
    Rdist_inf (vals (Y k)) root <= E -> Rdist_inf (vals (Y (S k))) root <= E ->
    2 * E <= val delta -> 2 * (C * E + epsF) <= val delta -> test k = true.
  Proof.
    intros delta k E HD H1 H2 D1 D2. destruct (w_inv k) as (L & F & NY). destruct (w_inv (S k)) as (L' & F' & NY').
    destruct (Hfv _ (w_inv k)) as (Lf & Ff & Nf). destruct (Hfv _ (w_inv (S k))) as (Lf' & Ff' & Nf').
    pose proof (w_bound (S k)) as BS. pose proof (w_dist k) as WD.
    assert (TW : bpow radix2 1022 = 2 * bpow radix2 1021) by exact (bpow_twice 1021). assert (P21 : 0 < bpow radix2 1021) by apply bpow_gt_0.
    assert (CE : C * Rdist_inf (vals (Y k)) root <= C * E) by (apply Rmult_le_compat_l; lra).
    assert (CE' : C * Rdist_inf (vals (Y (S k))) root <= C * E) by (apply Rmult_le_compat_l; lra).
    assert (CR : C * Rdist_inf (vals (Y (S k))) root <= C * r) by (apply Rmult_le_compat_l; lra).
    assert (FD : Rdist_inf (vals (fv (Y (S k)))) (vals (fv (Y k))) <= val delta).
    { eapply Rle_trans; [apply (Rdist_inf_tri _ target); rewrite map_length; [exact Lf'|exact (eq_sym Lf)]|].
      rewrite (Rdist_inf_sym target). lra. }
    assert (FN : Rmax_norm (vals (fv (Y (S k)))) <= bpow radix2 1022).
    { eapply Rle_trans; [|exact HM]. apply (norm_near (length target) target eq_refl); [rewrite map_length; exact Lf'|lra]. }
    unfold test, cauchy_termination. apply andb_true_iff. split.
    - apply (max_norm_lt F64_laws); [apply (dl_01 F64 F64_div)|]. apply Forall_nth.
      intros i z Hz. unfold vdiv in Hz. apply nth_vmap2 in Hz. destruct Hz as (u & sc & E1 & E2 & ->).
      unfold vabs in E1. apply nth_map in E1. destruct E1 as (w & E1 & ->). unfold vsub in E1. apply nth_vmap2 in E1. destruct E1 as (a & b & Ea & Eb & ->).
      unfold vscale_tol in E2. apply nth_map in E2. destruct E2 as (v & E2 & ->).
      assert (FA : fin a = true) by (eapply Forall_forall in F'; [exact F'|eapply nth_error_In; exact Ea]).
      assert (FB : fin b = true) by (eapply Forall_forall in F; [exact F|eapply nth_error_In; exact Eb]).
      assert (FV : fin v = true) by (eapply Forall_forall in F'; [exact F'|eapply nth_error_In; exact E2]).
      pose proof (Rmax_norm_nth _ _ _ (vals_nth _ _ _ E2)) as NV.
      refine (diff_small rtol atol a b v delta Fr Fa FA FB FV Hr Ha _ HD _); [lra|].
      assert (X : Rabs (val a - val b) <= Rdist_inf (vals (Y (S k))) (vals (Y k))).
      { apply (Rmax_norm_nth _ i). apply Rsub_v_nth. exists (val a), (val b). split; [apply vals_nth; exact Ea|]. split; [apply vals_nth; exact Eb|reflexivity]. }
      lra.
    - apply (max_norm_lt F64_laws); [apply (dl_01 F64 F64_div)|]. apply Forall_nth.
      intros i z Hz. unfold vdiv in Hz. apply nth_vmap2 in Hz. destruct Hz as (u & sc & E1 & E2 & ->).
      unfold vabs in E1. apply nth_map in E1. destruct E1 as (w & E1 & ->). unfold vsub in E1. apply nth_vmap2 in E1. destruct E1 as (a & b & Ea & Eb & ->).
      unfold vscale_tol in E2. apply nth_map in E2. destruct E2 as (v & E2 & ->).
      assert (FA : fin a = true) by (eapply Forall_forall in Ff'; [exact Ff'|eapply nth_error_In; exact Ea]).
      assert (FB : fin b = true) by (eapply Forall_forall in Ff; [exact Ff|eapply nth_error_In; exact Eb]).
      assert (FV : fin v = true) by (eapply Forall_forall in Ff'; [exact Ff'|eapply nth_error_In; exact E2]).
      pose proof (Rmax_norm_nth _ _ _ (vals_nth _ _ _ E2)) as NV.
      refine (diff_small rtol atol a b v delta Fr Fa FA FB FV Hr Ha _ HD _); [lra|].
      assert (X : Rabs (val a - val b) <= Rdist_inf (vals (fv (Y (S k)))) (vals (fv (Y k)))).
      { apply (Rmax_norm_nth _ i). apply Rsub_v_nth. exists (val a), (val b). split; [apply vals_nth; exact Ea|]. split; [apply vals_nth; exact Eb|reflexivity]. }
      lra.
  Qed.
End Walk.

(* the rounded step of gradient descent *)
Lemma scaled_step : forall (rate : f64) (y g : list f64) n (root : list R) r q eps,
  fin rate = true -> length root = n -> 0 <= q < 1 -> 0 <= eps -> Rmax_norm root + r <= bpow radix2 1021 -> q * r + eps <= r ->
  near64 n root r y -> length g = n -> finite64 g ->
  Rdist_inf (Rsub_v (vals y) (Rscal (val rate) (vals g))) root <= q * Rdist_inf (vals y) root + eps ->
  let d := vscale (N:=F64) (nneg (n:=F64) rate) g in
  length d = n /\ finite64 d /\
  Rdist_inf (Radd_v (vals y) (vals d)) root <= q * Rdist_inf (vals y) root + (eps + bpow radix2 (-52) * (Rmax_norm root + r) + bpow radix2 (-1075)).
Proof.
  intros rate y g n root r q eps Fr Lr Hq He HB Hroom (Ly & Fy & Ny) Lg Fg H d.
  set (B := Rmax_norm root + r) in *.
  assert (r0 : 0 <= r) by (pose proof (Rdist_inf_pos (vals y) root); lra).
  assert (rB : r <= B) by (unfold B; pose proof (Rmax_norm_pos root); lra).
  assert (TW : bpow radix2 1023 = 4 * bpow radix2 1021) by exact (bpow_plus radix2 2 1021).
  assert (P21 : 0 < bpow radix2 1021) by apply bpow_gt_0. assert (P53 : 0 < bpow radix2 (-53)) by apply bpow_gt_0. assert (P75 : 0 < bpow radix2 (-1075)) by apply bpow_gt_0.
  assert (T52 : bpow radix2 (-52) = 2 * bpow radix2 (-53)) by exact (bpow_twice (-53)).
  set (e := Rdist_inf (vals y) root) in *. assert (e0 : 0 <= e) by apply Rdist_inf_pos.
  assert (qe : q * e <= q * r) by (apply Rmult_le_compat_l; lra).
  assert (qe0 : 0 <= q * e) by (apply Rmult_le_pos; lra).
  assert (EV : forall i a b x, nth_error y i = Some a -> nth_error g i = Some b -> nth_error root i = Some x ->
    fin (fmul (Bopp rate) b) = true /\ Rabs (val (fmul (Bopp rate) b) + val rate * val b) <= bpow radix2 (-52) * B + bpow radix2 (-1075) /\
    Rabs (val a - val rate * val b - x) <= q * e + eps).
  { intros i a b x Ea Eb Ex.
    assert (Fb : fin b = true) by (eapply Forall_forall in Fg; [exact Fg|eapply nth_error_In; exact Eb]).
    assert (N1 : Rabs (val a - x) <= e).
    { apply (Rmax_norm_nth _ i). apply Rsub_v_nth. exists (val a), x. split; [apply vals_nth; exact Ea|]. auto. }
    assert (N2 : Rabs (val a - val rate * val b - x) <= q * e + eps).
    { eapply Rle_trans; [|exact H]. apply (Rmax_norm_nth _ i). apply Rsub_v_nth. exists (val a - val rate * val b), x. split; [|auto].
      apply Rsub_v_nth. exists (val a), (val rate * val b). split; [apply vals_nth; exact Ea|]. split; [|reflexivity].
      unfold Rscal. apply (map_nth_error (Rmult (val rate))). apply vals_nth. exact Eb. }
    assert (N3 : Rabs (val rate * val b) <= 2 * B).
    { replace (val rate * val b) with ((val a - x) + - (val a - val rate * val b - x)) by ring.
      eapply Rle_trans; [apply Rabs_triang|]. rewrite Rabs_Ropp. lra. }
    assert (Fo : fin (Bopp rate) = true) by (rewrite is_finite_Bopp; exact Fr).
    assert (Vo : val (Bopp rate) = - val rate) by apply B2R_Bopp.
    destruct (fmul_val (Bopp rate) b Fo Fb) as (Fm & Vm).
    { rewrite Vo. rewrite <- Ropp_mult_distr_l, Rabs_Ropp. lra. }
    split; [exact Fm|]. split; [|exact N2].
    rewrite Vm, Vo. destruct (rnd_any (- val rate * val b)) as (e1 & eta & E1 & E2 & _ & ->).
    replace (- val rate * val b * (1 + e1) + eta + val rate * val b) with (- (e1 * (val rate * val b)) + eta) by ring.
    eapply Rle_trans; [apply Rabs_triang|]. apply Rplus_le_compat; [|exact E2].
    rewrite Rabs_Ropp, Rabs_mult. rewrite T52. replace (2 * bpow radix2 (-53) * B) with (bpow radix2 (-53) * (2 * B)) by ring.
    apply Rmult_le_compat; try apply Rabs_pos; assumption. }
  assert (IX : forall i b, nth_error g i = Some b -> exists a x, nth_error y i = Some a /\ nth_error root i = Some x).
  { intros i b Eb. assert (IL : (i < n)%nat) by (rewrite <- Lg; apply nth_error_Some; congruence).
    destruct (nth_error y i) as [a|] eqn:Ea.
    2:{ exfalso. apply nth_error_Some in Ea; [exact Ea|]. rewrite Ly. exact IL. }
    destruct (nth_error root i) as [x|] eqn:Ex.
    2:{ exfalso. apply nth_error_Some in Ex; [exact Ex|]. rewrite Lr. exact IL. }
    eauto. }
  assert (Ld : length d = n) by (unfold d, vscale; rewrite map_length; exact Lg).
  assert (Fd : finite64 d).
  { apply Forall_forall. intros z Hz. apply In_nth_error in Hz. destruct Hz as (i & Hz). unfold d, vscale in Hz. apply nth_map in Hz.
    destruct Hz as (b & Eb & ->). destruct (IX i b Eb) as (a & x & Ea & Ex). exact (proj1 (EV i a b x Ea Eb Ex)). }
  split; [exact Ld|]. split; [exact Fd|].
  assert (BB : 0 <= bpow radix2 (-52) * B) by (apply Rmult_le_pos; lra).
  unfold Rdist_inf at 1. apply Rmax_norm_le; [lra|]. intros i z Hz. apply Rsub_v_nth in Hz. destruct Hz as (u & x & E1 & Ex & ->).
  apply Radd_v_nth in E1. destruct E1 as (a' & b' & Ea & Eb & ->). apply nth_vals in Ea. destruct Ea as (a & Ea & ->).
  apply nth_vals in Eb. destruct Eb as (w & Ew & ->). unfold d, vscale in Ew. apply nth_map in Ew. destruct Ew as (b & Eb & ->).
  destruct (EV i a b x Ea Eb Ex) as (_ & K1 & K2).
  change (Rabs (val a + val (fmul (Bopp rate) b) - x) <= q * e + (eps + bpow radix2 (-52) * B + bpow radix2 (-1075))).
  replace (val a + val (fmul (Bopp rate) b) - x) with ((val (fmul (Bopp rate) b) + val rate * val b) + (val a - val rate * val b - x)) by ring.
  eapply Rle_trans; [apply Rabs_triang|]. lra.
Qed.

(** ** GradientDescent *)

Section GD64.
  Context {Aux : Type}.
  Variables (rtol atol rate : f64) (grad_of : (list f64 -> f64 * Aux) -> list f64 -> list f64).
  Variables (fn : list f64 -> f64 * Aux) (y0 : list f64) (fs : fillv -> f64) (auxs : fillv -> Aux).
  Variables (n : nat) (root : list R) (r q eps : R).
  Let B := Rmax_norm root + r.
  Let err := eps + bpow radix2 (-51) * B + bpow radix2 (-1074).
  Hypothesis Frate : fin rate = true.
  Hypothesis Lroot : length root = n.
  Hypothesis Hq : 0 <= q < 1.
  Hypothesis He : 0 <= eps.
  Hypothesis HB : B <= bpow radix2 1021.
  Hypothesis Hroom : q * r + err <= r.
  Hypothesis Hstep : forall y, near64 n root r y ->
    length (grad_of fn y) = n /\ finite64 (grad_of fn y) /\
    Rdist_inf (Rsub_v (vals y) (Rscal (val rate) (vals (grad_of fn y)))) root <= q * Rdist_inf (vals y) root + eps.
  Hypothesis Hy0 : near64 n root r y0.
  Let P := mkTols (N:=F64) rtol atol (max_norm (N:=F64)).
  Let s := GradientDescent (N:=F64) P grad_of rate.
  Let st0 := gd_st0 (N:=F64) (learning_rate (N:=F64) rate) (steepest_descent (N:=F64) None) y0 fs auxs.
  Let Y k : list f64 := y_at s fn y0 st0 (auxs fill0) (S k).
  Let eps1 := eps + bpow radix2 (-52) * B + bpow radix2 (-1075).
  Let dir y := vscale (N:=F64) (nneg (n:=F64) rate) (grad_of fn y).

  Lemma gd_B : 0 <= B.
  Proof. destruct Hy0 as (_ & _ & H). pose proof (Rdist_inf_pos (vals y0) root). pose proof (Rmax_norm_pos root). unfold B. lra. Qed.
  Lemma gd_eps1 : 0 <= eps1 /\ eps1 + bpow radix2 (-53) * B <= err.
  Proof.
    pose proof gd_B as B0. unfold eps1, err. pose proof (bpow_gt_0 radix2 (-52)). pose proof (bpow_gt_0 radix2 (-53)). pose proof (bpow_gt_0 radix2 (-1075)).
    assert (bpow radix2 (-52) = 2 * bpow radix2 (-53)) by exact (bpow_twice (-53)).
    assert (bpow radix2 (-51) = 2 * bpow radix2 (-52)) by exact (bpow_twice (-52)).
    assert (bpow radix2 (-1074) = 2 * bpow radix2 (-1075)) by exact (bpow_twice (-1075)).
    assert (0 <= bpow radix2 (-53) * B) by (apply Rmult_le_pos; lra).
    assert (bpow radix2 (-52) * B = 2 * (bpow radix2 (-53) * B)) by (rewrite H2; ring).
    assert (bpow radix2 (-51) * B = 4 * (bpow radix2 (-53) * B)) by (rewrite H3, H2; ring).
    lra.
  Qed.
  Lemma gd_room : q * r + eps1 + bpow radix2 (-53) * B <= r.
  Proof. pose proof gd_eps1. lra. Qed.
  Lemma gd_dir : forall y, near64 n root r y -> length (dir y) = n /\ finite64 (dir y) /\
    Rdist_inf (Radd_v (vals y) (vals (dir y))) root <= q * Rdist_inf (vals y) root + eps1.
  Proof.
    intros y Hn. destruct (Hstep y Hn) as (L & F & H). apply (scaled_step rate y (grad_of fn y) n root r q eps); auto.
    pose proof gd_eps1 as [E1 E2]. pose proof gd_B. unfold eps1 in E1, E2. pose proof (bpow_gt_0 radix2 (-52)). pose proof (bpow_gt_0 radix2 (-53)). pose proof (bpow_gt_0 radix2 (-1075)).
    assert (0 <= bpow radix2 (-52) * B) by (apply Rmult_le_pos; lra). assert (0 <= bpow radix2 (-53) * B) by (apply Rmult_le_pos; lra). lra.
  Qed.
  Lemma gd_Y : Y 0 = y0 /\ forall k, Y (S k) = vadd (N:=F64) (Y k) (dir (Y k)).
  Proof.
    destruct (C65_iteration_pf F64 Aux P grad_of rate fn y0 fs auxs st0 eq_refl) as (E1 & E2). split; [exact E1|]. intro k. exact (E2 k).
  Qed.
  Lemma gd_Y0 : near64 n root r (Y 0).
  Proof. rewrite (proj1 gd_Y). exact Hy0. Qed.

  Lemma gd_near : forall k, near64 n root r (Y k).
  Proof. exact (w_inv Y dir n root r q eps1 Lroot Hq (proj1 gd_eps1) HB gd_room gd_dir gd_Y0 (proj2 gd_Y)). Qed.
  Lemma gd_step64 : forall k, Rdist_inf (vals (Y (S k))) root <= q * Rdist_inf (vals (Y k)) root + err.
  Proof.
    intro k. pose proof (w_step Y dir n root r q eps1 Lroot Hq (proj1 gd_eps1) HB gd_room gd_dir gd_Y0 (proj2 gd_Y) k) as H.
    fold B in H. pose proof gd_eps1. lra.
  Qed.
  Lemma gd_rate64 : forall k, Rdist_inf (vals (Y k)) root <= q ^ k * r + err / (1 - q).
  Proof.
    intro k. eapply Rle_trans; [exact (w_rate Y dir n root r q eps1 Lroot Hq (proj1 gd_eps1) HB gd_room gd_dir gd_Y0 (proj2 gd_Y) k)|].
    apply Rplus_le_compat_l. apply Rmult_le_compat_r; [apply Rlt_le, Rinv_0_lt_compat; lra|]. exact (proj2 gd_eps1).
  Qed.

  Lemma gd_test : forall k, says_terminate s fn y0 st0 (auxs fill0) (S (S k)) =
    cauchy_termination (N:=F64) rtol atol (max_norm (N:=F64)) (Y (S k)) (vsub (N:=F64) (Y (S k)) (Y k))
      [fst (fn (Y (S k)))] (vsub (N:=F64) [fst (fn (Y (S k)))] [fst (fn (Y k))]).
  Proof.
    intro k.
    destruct (gd_step_cases _ _ _ _ _ _ _ _ _ _ (gd_trace_S P (learning_rate (N:=F64) rate) (steepest_descent (N:=F64) None) grad_of fn y0 fs auxs (S k)))
      as (sz & acc & sr & sst & Es & _ & _ & _ & _ & _ & E5).
    cbn in Es. injection Es as _ <- _ _. destruct E5 as (_ & _ & _ & _ & E5).
    assert (AF : accepts_first (learning_rate (N:=F64) rate)) by (intros ? ? ? ? ?; reflexivity).
    destruct (gd_first P (learning_rate (N:=F64) rate) (steepest_descent (N:=F64) None) grad_of fn y0 fs auxs AF (S k)) as (F1 & F2).
    destruct (F2 (Nat.lt_0_succ k)) as (F3 & _).
    replace (gd_first_step _) with false in E5.
    2:{ symmetry; apply not_true_iff_false; intro F; apply F1 in F; discriminate. }
    rewrite F3 in E5. exact E5.
  Qed.
  Lemma gd_test_true : forall k, says_terminate s fn y0 st0 (auxs fill0) (S (S k)) = true ->
    cauchy_termination (N:=F64) rtol atol (max_norm (N:=F64)) (Y (S k)) (vsub (N:=F64) (Y (S k)) (Y k))
      [fst (fn (Y (S k)))] (vsub (N:=F64) [fst (fn (Y (S k)))] [fst (fn (Y k))]) = true.
  Proof. intros k H. rewrite <- gd_test. exact H. Qed.
  Lemma gd_result64 : forall k, says_result s fn y0 st0 (auxs fill0) k = successful.
  Proof. apply (C64_gradient_methods_pf F64 Aux P grad_of fn y0 fs auxs s st0); [left; exists rate; reflexivity|reflexivity]. Qed.
End GD64.

(** GradientDescent on doubles, as long as its exact steps y - rate g with the computed gradients g approach a point x: within
    r of x such a step is at most q |y - x| + eps away from x.  Then all iterates are finite and within r of x,
    and they approach x by the factor q down to eps plus the rounding of the step. *)
Lemma C100_gradient_descent_pf :
  forall (Aux : Type) (rtol atol rate : f64) grad_of (fn : list f64 -> f64 * Aux) (y0 : list f64) fs auxs st0
         (n : nat) (x : list R) (r q eps : R),
    let B := Rmax_norm x + r in
    let err := eps + bpow radix2 (-51) * B + bpow radix2 (-1074) in
    is_finite rate = true -> length x = n -> 0 <= q < 1 -> 0 <= eps -> B <= bpow radix2 1021 -> q * r + err <= r ->
    (forall y, near64 n x r y ->
       length (grad_of fn y) = n /\ finite64 (grad_of fn y) /\
       Rdist_inf (Rsub_v (map B2R y) (Rscal (B2R rate) (map B2R (grad_of fn y)))) x <= q * Rdist_inf (map B2R y) x + eps) ->
    near64 n x r y0 ->
    let s := GradientDescent (N:=F64) (mkTols (N:=F64) rtol atol (max_norm (N:=F64))) grad_of rate in
    s_init s fn y0 fs auxs = Ret st0 ->
    let y k : list f64 := y_at s fn y0 st0 (auxs fill0) (S k) in
    y 0%nat = y0 /\
    forall k, near64 n x r (y k) /\
      Rdist_inf (map B2R (y (S k))) x <= q * Rdist_inf (map B2R (y k)) x + err /\
      Rdist_inf (map B2R (y k)) x <= q ^ k * r + err / (1 - q).
Proof.
  intros Aux rtol atol rate grad_of fn y0 fs auxs st0 n x r q eps B err Fr Lx Hq He HB Hroom Hst Hy0 s Hi y.
  unfold s in Hi. apply gd_init_inv in Hi. subst st0.
  split; [exact (proj1 (gd_Y rtol atol rate grad_of fn y0 fs auxs))|]. intro k. split; [|split].
  - exact (gd_near rtol atol rate grad_of fn y0 fs auxs n x r q eps Fr Lx Hq He HB Hroom Hst Hy0 k).
  - exact (gd_step64 rtol atol rate grad_of fn y0 fs auxs n x r q eps Fr Lx Hq He HB Hroom Hst Hy0 k).
  - exact (gd_rate64 rtol atol rate grad_of fn y0 fs auxs n x r q eps Fr Lx Hq He HB Hroom Hst Hy0 k).
Qed.

(** What its success means on doubles: the returned point is finite and within (q tol + err) / (1 - q) of x. *)
Lemma C100_gradient_descent_success_pf :
  forall (Aux : Type) (rtol atol rate : f64) grad_of (fn : list f64 -> f64 * Aux) (y0 : list f64) fs auxs
         (n : nat) (x : list R) (r q eps : R) fuel budget throw sol,
    let B := Rmax_norm x + r in
    let err := eps + bpow radix2 (-51) * B + bpow radix2 (-1074) in
    is_finite rate = true -> length x = n -> 0 <= q < 1 -> 0 <= eps -> B <= bpow radix2 1021 -> q * r + err <= r ->
    (forall y, near64 n x r y ->
       length (grad_of fn y) = n /\ finite64 (grad_of fn y) /\
       Rdist_inf (Rsub_v (map B2R y) (Rscal (B2R rate) (map B2R (grad_of fn y)))) x <= q * Rdist_inf (map B2R y) x + eps) ->
    near64 n x r y0 -> tols64 rtol atol ->
    let s := GradientDescent (N:=F64) (mkTols (N:=F64) rtol atol (max_norm (N:=F64))) grad_of rate in
    iterative_solve vallfinite s fn fuel budget throw y0 fs auxs = Ret sol -> result sol = successful ->
    near64 n x r (value sol) /\
    Rdist_inf (map B2R (value sol : list f64)) x <= (q * tol64 rtol atol (value sol) + err) / (1 - q).
Proof.
  intros Aux rtol atol rate grad_of fn y0 fs auxs n x r q eps fuel budget throw sol B err Fr Lx Hq He HB Hroom Hst Hy0 (Tr & Ta & Hr & Ha) s H HR.
  set (st0 := gd_st0 (N:=F64) (learning_rate (N:=F64) rate) (steepest_descent (N:=F64) None) y0 fs auxs).
  destruct (success_inv _ _ _ vallfinite s fn y0 st0 fs auxs fuel budget throw sol eq_refl H HR) as (k & _ & _ & Esol & _ & HT & _).
  destruct k as [|[|k]]; [discriminate HT| |].
  { exfalso.
    destruct (gd_step_cases _ _ _ _ _ _ _ _ _ _ (gd_trace_S (mkTols (N:=F64) rtol atol (max_norm (N:=F64))) (learning_rate (N:=F64) rate) (steepest_descent (N:=F64) None) grad_of fn y0 fs auxs 0))
      as (sz & acc & sr & sst & Es & _ & _ & _ & _ & _ & E5).
    cbn in Es. injection Es as _ <- _ _. destruct E5 as (_ & _ & _ & _ & E5). cbn [gd_first_step gd_st0] in E5.
    exact (diff_true_false (eq_trans (eq_sym HT) E5)). }
  pose proof (gd_test_true rtol atol rate grad_of fn y0 fs auxs k HT) as T.
  assert (EV : value sol = y_at s fn y0 st0 (auxs fill0) (S (S k))) by (rewrite Esol; reflexivity).
  rewrite EV. split; [exact (gd_near rtol atol rate grad_of fn y0 fs auxs n x r q eps Fr Lx Hq He HB Hroom Hst Hy0 (S k))|].
  set (Y := fun k => y_at s fn y0 st0 (auxs fill0) (S k) : list f64).
  destruct (gd_eps1 y0 n x r eps He Hy0) as [E1 E2]. fold B err in E2.
  pose proof (w_success Y (fun y => vscale (N:=F64) (nneg (n:=F64) rate) (grad_of fn y)) n x r q _ Lx Hq E1 HB
    (gd_room y0 n x r q eps He Hroom Hy0)
    (gd_dir rate grad_of fn y0 n x r q eps Fr Lx Hq He HB Hroom Hst Hy0)
    (gd_Y0 rtol atol rate grad_of fn y0 fs auxs n x r Hy0)
    (proj2 (gd_Y rtol atol rate grad_of fn y0 fs auxs)) rtol atol (fun y => [fst (fn y)]) Tr Ta Hr Ha k T) as W.
  eapply Rle_trans; [exact W|]. apply Rmult_le_compat_r; [apply Rlt_le, Rinv_0_lt_compat; lra|]. apply Rplus_le_compat_l. exact E2.
Qed.

(** If moreover the objective is within C |y - x| + epsF of a number fx there, and after K steps twice the remaining distance and twice
    the remaining variation of the objective are below a double delta <= atol / 2, the solve succeeds within K + 2 steps. *)
Lemma C100_gradient_descent_terminates_pf :
  forall (Aux : Type) (rtol atol rate delta : f64) grad_of (fn : list f64 -> f64 * Aux) (y0 : list f64) fs auxs
         (n : nat) (x : list R) (fx r q eps C epsF : R) (K : nat),
    let B := Rmax_norm x + r in
    let err := eps + bpow radix2 (-51) * B + bpow radix2 (-1074) in
    let E := q ^ K * r + err / (1 - q) in
    is_finite rate = true -> length x = n -> 0 <= q < 1 -> 0 <= eps -> B <= bpow radix2 1021 -> q * r + err <= r ->
    (forall y, near64 n x r y ->
       length (grad_of fn y) = n /\ finite64 (grad_of fn y) /\
       Rdist_inf (Rsub_v (map B2R y) (Rscal (B2R rate) (map B2R (grad_of fn y)))) x <= q * Rdist_inf (map B2R y) x + eps) ->
    near64 n x r y0 -> tols64 rtol atol ->
    (forall y, near64 n x r y ->
       is_finite (fst (fn y)) = true /\ Rabs (B2R (fst (fn y)) - fx) <= C * Rdist_inf (map B2R y) x + epsF) ->
    0 <= C -> Rabs fx + (C * r + epsF) <= bpow radix2 1022 ->
    B2R delta <= B2R atol / 2 -> 2 * E <= B2R delta -> 2 * (C * E + epsF) <= B2R delta ->
    let s := GradientDescent (N:=F64) (mkTols (N:=F64) rtol atol (max_norm (N:=F64))) grad_of rate in
    exists k, (1 <= k <= S (S K))%nat /\
      forall fuel budget throw, (k < fuel)%nat -> (forall m, budget = Some m -> (k <= m)%nat) ->
        exists sol, iterative_solve vallfinite s fn fuel budget throw y0 fs auxs = Ret sol /\ result sol = successful.
Proof.
  intros Aux rtol atol rate delta grad_of fn y0 fs auxs n x fx r q eps C epsF K B err E Fr Lx Hq He HB Hroom Hst Hy0 (Tr & Ta & Hr & Ha) Hf HC HM HD D1 D2 s.
  set (st0 := gd_st0 (N:=F64) (learning_rate (N:=F64) rate) (steepest_descent (N:=F64) None) y0 fs auxs).
  set (Y := fun k => y_at s fn y0 st0 (auxs fill0) (S k) : list f64).
  pose proof (gd_near rtol atol rate grad_of fn y0 fs auxs n x r q eps Fr Lx Hq He HB Hroom Hst Hy0) as NEAR.
  destruct (gd_eps1 y0 n x r eps He Hy0) as [E1 E2]. fold B err in E2.
  assert (r0 : 0 <= r) by (destruct Hy0 as (_ & _ & H); pose proof (Rdist_inf_pos (vals y0) x); lra).
  assert (RK : forall j, (K <= j)%nat -> Rdist_inf (vals (Y j)) x <= E).
  { intros j Hj. eapply Rle_trans; [exact (gd_rate64 rtol atol rate grad_of fn y0 fs auxs n x r q eps Fr Lx Hq He HB Hroom Hst Hy0 j)|].
    unfold E. apply Rplus_le_compat_r. apply Rmult_le_compat_r; [exact r0|]. replace j with (K + (j - K))%nat by lia. rewrite pow_add.
    rewrite <- (Rmult_1_r (q ^ K)) at 2. apply Rmult_le_compat_l; [apply pow_le; lra|].
    rewrite <- (pow1 (j - K)). apply pow_incr. lra. }
  assert (TK : says_terminate s fn y0 st0 (auxs fill0) (S (S K)) = true).
  { etransitivity; [exact (gd_test rtol atol rate grad_of fn y0 fs auxs K)|].
    refine (w_terminates Y (fun y => vscale (N:=F64) (nneg (n:=F64) rate) (grad_of fn y)) n x r q _ Lx Hq E1 HB
      (gd_room y0 n x r q eps He Hroom Hy0)
      (gd_dir rate grad_of fn y0 n x r q eps Fr Lx Hq He HB Hroom Hst Hy0)
      (gd_Y0 rtol atol rate grad_of fn y0 fs auxs n x r Hy0)
      (proj2 (gd_Y rtol atol rate grad_of fn y0 fs auxs)) rtol atol (fun y => [fst (fn y)]) [fx] C epsF Tr Ta Hr Ha _ HC _ delta K E HD
      (RK K (le_n K)) (RK (S K) (le_S _ _ (le_n K))) D1 D2).
    - intros y Hy. destruct (Hf y Hy) as (F1 & F2). split; [reflexivity|]. split; [apply Forall_cons; [exact F1|apply Forall_nil]|].
      change (Rdist_inf [val (fst (fn y))] [fx] <= C * Rdist_inf (vals y) x + epsF). rewrite one_dist. exact F2.
    - rewrite one_norm. exact HM. }
  destruct (solve_succeeds (vallfinite (N:=F64)) s fn y0 st0 (auxs fill0) fs auxs eq_refl eq_refl) as (k & Tk & Mn & HSS).
  - exact (gd_result64 rtol atol rate grad_of fn y0 fs auxs).
  - intro k. unfold asked. apply all_finite. destruct (Nat.pred k) as [|j]; [exact (proj1 (proj2 Hy0))|exact (proj1 (proj2 (NEAR j)))].
  - exists (S (S K)). exact TK.
  - exists k. split.
    + split; [destruct k; [discriminate Tk|lia]|].
      destruct (le_lt_dec k (S (S K))) as [H|H]; [exact H|]. rewrite (Mn _ H) in TK. discriminate TK.
    + intros fuel budget throw Hf1 Hm. destruct (HSS fuel budget throw Hf1 Hm) as (A1 & A2). eexists. split; [exact A1|exact A2].
Qed.

(** ** GaussNewton *)

Lemma neg_vals : forall p : list f64, finite64 p ->
  let d := vscale (N:=F64) (nneg (n:=F64) (nofQ (n:=F64) 1)) p in
  length d = length p /\ finite64 d /\ vals d = map Ropp (vals p).
Proof.
  intros p Fp d. split; [unfold d, vscale; apply map_length|].
  induction Fp as [|b p Fb Fp IH]; [split; [apply Forall_nil|reflexivity]|].
  assert (F1 : fin (Bopp (f64_ofQ 1)) = true) by (vm_compute; reflexivity).
  assert (V1 : val (Bopp (f64_ofQ 1)) = - 1) by (rewrite B2R_Bopp, one_val; reflexivity).
  assert (EM : rnd (val (Bopp (f64_ofQ 1)) * val b) = - val b).
  { rewrite V1. replace (-1 * val b) with (- val b) by ring. apply rnd_id. apply generic_format_opp, val_format. }
  assert (FV : fin (fmul (Bopp (f64_ofQ 1)) b) = true /\ val (fmul (Bopp (f64_ofQ 1)) b) = - val b).
  { pose proof (Bmult_correct 53 1024 eq_refl eq_refl mode_NE (Bopp (f64_ofQ 1)) b) as MC. cbv zeta in MC.
    change (round radix2 _ _ (val (Bopp (f64_ofQ 1)) * val b)) with (rnd (val (Bopp (f64_ofQ 1)) * val b)) in MC. rewrite EM in MC.
    rewrite Rlt_bool_true in MC by (rewrite Rabs_Ropp; apply abs_B2R_lt_emax). destruct MC as (M1 & M2 & _). split.
    - refine (eq_trans M2 _). rewrite F1, Fb. reflexivity.
    - exact M1. }
  destruct IH as (I1 & I2). destruct FV as (F2 & V2). split.
  - apply Forall_cons; [exact F2|exact I1].
  - cbn [map]. change (map B2R (vscale (N:=F64) (nneg (n:=F64) (nofQ (n:=F64) 1)) (b :: p)))
      with (val (fmul (Bopp (f64_ofQ 1)) b) :: vals (vscale (N:=F64) (nneg (n:=F64) (nofQ (n:=F64) 1)) p)).
    exact (f_equal2 cons V2 I2).
Qed.

Lemma Radd_opp : forall a b : list R, Radd_v a (map Ropp b) = Rsub_v a b.
Proof. induction a as [|x a IH]; intros [|y b]; cbn; try reflexivity. f_equal; apply IH. Qed.

Section GN64.
  Context {Aux : Type}.
  Variables (rtol atol : f64) (jac_of : (list f64 -> list f64 * Aux) -> list f64 -> linop F64) (lsolve : linop F64 -> list f64 -> list f64 * results).
  Variables (fn : list f64 -> list f64 * Aux) (y0 : list f64) (fs : fillv -> list f64) (auxs : fillv -> Aux).
  Variables (n : nat) (root : list R) (r q eps : R).
  Hypothesis Hstep : forall y, near64 n root r y ->
    exists p, lsolve (jac_of fn y) (fst (fn y)) = (p, successful) /\ length p = n /\ finite64 p /\
      Rdist_inf (Rsub_v (vals y) (vals p)) root <= q * Rdist_inf (vals y) root + eps.
  Hypothesis Hy0 : near64 n root r y0.
  Let P := mkTols (N:=F64) rtol atol (max_norm (N:=F64)).
  Let lr := learning_rate (N:=F64) (nofQ (n:=F64) 1).
  Let nd := newton_descent (N:=F64) lsolve None.
  Let s := GaussNewton (N:=F64) P jac_of lsolve.
  Let st0 := gn_st0 (N:=F64) lr nd y0 fs auxs.
  Let Y k : list f64 := y_at s fn y0 st0 (auxs fill0) (S k).
  Let dir y : list f64 := vscale (N:=F64) (nneg (n:=F64) (nofQ (n:=F64) 1)) (fst (lsolve (jac_of fn y) (fst (fn y)))).

  Lemma gn_dir : forall y, near64 n root r y -> length (dir y) = n /\ finite64 (dir y) /\
    Rdist_inf (Radd_v (vals y) (vals (dir y))) root <= q * Rdist_inf (vals y) root + eps.
  Proof.
    intros y Hn. destruct (Hstep y Hn) as (p & E & L & F & H). unfold dir. rewrite E. cbn [fst].
    destruct (neg_vals p F) as (L' & F' & V). split; [exact (eq_trans L' L)|]. split; [exact F'|]. rewrite V, Radd_opp. exact H.
  Qed.
  Lemma gn_Y : Y 0 = y0 /\ forall k, Y (S k) = vadd (N:=F64) (Y k) (dir (Y k)).
  Proof.
    destruct (accepts_first_builtin F64) as (_ & _ & _ & A4).
    pose proof (gn_trace_S P lr nd jac_of fn y0 fs auxs) as T. split.
    - destruct (gn_step_cases _ _ _ _ _ _ _ _ _ _ (T 0%nat)) as (step & acc & sr & sst & Es & _ & _ & _ & _ & _ & E5).
      cbn in Es. injection Es as _ <- _ _. apply E5.
    - intro k. destruct (gn_step_cases _ _ _ _ _ _ _ _ _ _ (T (S k))) as (step & acc & sr & sst & Es & _ & _ & _ & _ & _ & E5).
      cbn in Es. injection Es as _ <- _ _. destruct E5 as (E5 & _).
      destruct (gn_proposal P lr nd jac_of fn y0 fs auxs (A4 _) ltac:(intros ? ? ? ?; reflexivity) k (y0, successful))
        as (step' & sr' & E & _ & (f & a & b & c & d & e & acc & Es')).
      cbn in Es'. injection Es' as <- _ _.
      etransitivity; [exact E5 |]. etransitivity; [exact E |].
      cbn [nd newton_descent d_step d_query newton_step fst snd]. unfold dir, Y, s, GaussNewton.
      destruct (lsolve _ _) as [v rr] eqn:El. cbn [normalise fst snd]. reflexivity.
  Qed.
  Lemma gn_Y0 : near64 n root r (Y 0).
  Proof. rewrite (proj1 gn_Y). exact Hy0. Qed.

  Lemma gn_test : forall k, says_terminate s fn y0 st0 (auxs fill0) (S (S k)) =
    cauchy_termination (N:=F64) rtol atol (max_norm (N:=F64)) (Y (S k)) (vsub (N:=F64) (Y (S k)) (Y k))
      (fst (fn (Y (S k)))) (vsub (N:=F64) (fst (fn (Y (S k)))) (fst (fn (Y k)))).
  Proof.
    intro k. destruct (accepts_first_builtin F64) as (_ & _ & _ & A4).
    destruct (gn_step_cases _ _ _ _ _ _ _ _ _ _ (gn_trace_S P lr nd jac_of fn y0 fs auxs (S k)))
      as (sz & acc & sr & sst & Es & _ & _ & _ & _ & _ & E5).
    cbn in Es. injection Es as _ <- _ _. destruct E5 as (_ & _ & _ & _ & E5).
    destruct (gn_first P lr nd jac_of fn y0 fs auxs (A4 _) (S k)) as (_ & F2).
    destruct (F2 (Nat.lt_0_succ k)) as (F3 & _).
    rewrite F3 in E5. exact E5.
  Qed.
  Lemma gn_test_true : forall k, says_terminate s fn y0 st0 (auxs fill0) (S (S k)) = true ->
    cauchy_termination (N:=F64) rtol atol (max_norm (N:=F64)) (Y (S k)) (vsub (N:=F64) (Y (S k)) (Y k))
      (fst (fn (Y (S k)))) (vsub (N:=F64) (fst (fn (Y (S k)))) (fst (fn (Y k)))) = true.
  Proof. intros k H. rewrite <- gn_test. exact H. Qed.
  Lemma gn_result64 : (forall k, near64 n root r (Y k)) -> forall k, says_result s fn y0 st0 (auxs fill0) k = successful.
  Proof.
    intros NR [|k]; [reflexivity|].
    etransitivity; [exact (C64_gauss_newton_pf F64 Aux P lsolve jac_of fn y0 fs auxs st0 eq_refl k)|].
    destruct (Hstep _ (NR k)) as (p & E & _). unfold Y in E. exact (f_equal snd E).
  Qed.
End GN64.

(** GaussNewton on doubles, as long as its exact steps y - p with the linear solver's computed answers p approach a point x; the residual
    need not vanish there.  Then all iterates are finite and within r of x, and they approach x by the factor q down to eps plus the
    rounding of the step. *)
Lemma C100_gauss_newton_pf :
  forall (Aux : Type) (rtol atol : f64) jac_of lsolve (fn : list f64 -> list f64 * Aux) (y0 : list f64) fs auxs st0
         (n : nat) (x : list R) (r q eps : R),
    let B := Rmax_norm x + r in
    let err := eps + bpow radix2 (-53) * B in
    length x = n -> 0 <= q < 1 -> 0 <= eps -> B <= bpow radix2 1021 -> q * r + err <= r ->
    (forall y, near64 n x r y ->
       exists p, lsolve (jac_of fn y) (fst (fn y)) = (p, successful) /\ length p = n /\ finite64 p /\
         Rdist_inf (Rsub_v (map B2R y) (map B2R p)) x <= q * Rdist_inf (map B2R y) x + eps) ->
    near64 n x r y0 ->
    let s := GaussNewton (N:=F64) (mkTols (N:=F64) rtol atol (max_norm (N:=F64))) jac_of lsolve in
    s_init s fn y0 fs auxs = Ret st0 ->
    let y k : list f64 := y_at s fn y0 st0 (auxs fill0) (S k) in
    y 0%nat = y0 /\
    forall k, near64 n x r (y k) /\
      Rdist_inf (map B2R (y (S k))) x <= q * Rdist_inf (map B2R (y k)) x + err /\
      Rdist_inf (map B2R (y k)) x <= q ^ k * r + err / (1 - q).
Proof.
  intros Aux rtol atol jac_of lsolve fn y0 fs auxs st0 n x r q eps B err Lx Hq He HB Hroom Hst Hy0 s Hi y.
  unfold s in Hi. apply gn_init_inv in Hi. subst st0.
  assert (Hroom' : q * r + eps + bpow radix2 (-53) * B <= r) by (unfold err in Hroom; lra).
  pose proof (gn_dir jac_of lsolve fn n x r q eps Hst) as DIR.
  pose proof (gn_Y rtol atol jac_of lsolve fn y0 fs auxs) as (YZ & YS).
  pose proof (gn_Y0 rtol atol jac_of lsolve fn y0 fs auxs n x r Hy0) as Y0.
  split; [exact YZ|]. intro k. split; [|split].
  - exact (w_inv y _ n x r q eps Lx Hq He HB Hroom' DIR Y0 YS k).
  - exact (w_step y _ n x r q eps Lx Hq He HB Hroom' DIR Y0 YS k).
  - exact (w_rate y _ n x r q eps Lx Hq He HB Hroom' DIR Y0 YS k).
Qed.

(** What its success means on doubles: the returned point is y0 after a single step (which compares the residual at y0 with a
    placeholder), or it is finite and within (q tol + err) / (1 - q) of x. *)
Lemma C100_gauss_newton_success_pf :
  forall (Aux : Type) (rtol atol : f64) jac_of lsolve (fn : list f64 -> list f64 * Aux) (y0 : list f64) fs auxs
         (n : nat) (x : list R) (r q eps : R) fuel budget throw sol,
    let B := Rmax_norm x + r in
    let err := eps + bpow radix2 (-53) * B in
    length x = n -> 0 <= q < 1 -> 0 <= eps -> B <= bpow radix2 1021 -> q * r + err <= r ->
    (forall y, near64 n x r y ->
       exists p, lsolve (jac_of fn y) (fst (fn y)) = (p, successful) /\ length p = n /\ finite64 p /\
         Rdist_inf (Rsub_v (map B2R y) (map B2R p)) x <= q * Rdist_inf (map B2R y) x + eps) ->
    near64 n x r y0 -> tols64 rtol atol ->
    let s := GaussNewton (N:=F64) (mkTols (N:=F64) rtol atol (max_norm (N:=F64))) jac_of lsolve in
    iterative_solve vallfinite s fn fuel budget throw y0 fs auxs = Ret sol -> result sol = successful ->
    near64 n x r (value sol) /\
    ((hd_error (sol_stats sol) = Some ("num_steps"%string, Some 1%Z) /\ value sol = y0) \/
     Rdist_inf (map B2R (value sol : list f64)) x <= (q * tol64 rtol atol (value sol) + err) / (1 - q)).
Proof.
  intros Aux rtol atol jac_of lsolve fn y0 fs auxs n x r q eps fuel budget throw sol B err Lx Hq He HB Hroom Hst Hy0 (Tr & Ta & Hr & Ha) s H HR.
  assert (Hroom' : q * r + eps + bpow radix2 (-53) * B <= r) by (unfold err in Hroom; lra).
  pose proof (gn_dir jac_of lsolve fn n x r q eps Hst) as DIR.
  pose proof (gn_Y rtol atol jac_of lsolve fn y0 fs auxs) as (YZ & YS).
  pose proof (gn_Y0 rtol atol jac_of lsolve fn y0 fs auxs n x r Hy0) as Y0.
  set (st0 := gn_st0 (N:=F64) (learning_rate (N:=F64) (nofQ (n:=F64) 1)) (newton_descent (N:=F64) lsolve None) y0 fs auxs).
  set (Y := fun k => y_at s fn y0 st0 (auxs fill0) (S k) : list f64).
  destruct (success_inv _ _ _ vallfinite s fn y0 st0 fs auxs fuel budget throw sol eq_refl H HR) as (k & _ & _ & Esol & _ & HT & _).
  pose proof (w_inv Y _ n x r q eps Lx Hq He HB Hroom' DIR Y0 YS) as NEAR.
  destruct k as [|[|k]]; [discriminate HT| |].
  { assert (EV : value sol = y_at s fn y0 st0 (auxs fill0) 1) by (rewrite Esol; reflexivity).
    rewrite EV. split; [exact (NEAR 0%nat)|]. left. split; [rewrite Esol; reflexivity|exact YZ]. }
  pose proof (gn_test_true rtol atol jac_of lsolve fn y0 fs auxs k HT) as T.
  assert (EV : value sol = y_at s fn y0 st0 (auxs fill0) (S (S k))) by (rewrite Esol; reflexivity).
  rewrite EV. split; [exact (NEAR (S k))|]. right.
  exact (w_success Y _ n x r q eps Lx Hq He HB Hroom' DIR Y0 YS rtol atol (fun y => fst (fn y)) Tr Ta Hr Ha k T).
Qed.

(** And with the residual within C |y - x| + epsF of a vector rx, it succeeds within K + 2 steps if after K steps twice the remaining
    distance and twice the remaining variation of the residual are below a double delta <= atol / 2. *)
Lemma C100_gauss_newton_terminates_pf :
  forall (Aux : Type) (rtol atol delta : f64) jac_of lsolve (fn : list f64 -> list f64 * Aux) (y0 : list f64) fs auxs
         (n : nat) (x rx : list R) (r q eps C epsF : R) (K : nat),
    let B := Rmax_norm x + r in
    let err := eps + bpow radix2 (-53) * B in
    let E := q ^ K * r + err / (1 - q) in
    length x = n -> 0 <= q < 1 -> 0 <= eps -> B <= bpow radix2 1021 -> q * r + err <= r ->
    (forall y, near64 n x r y ->
       exists p, lsolve (jac_of fn y) (fst (fn y)) = (p, successful) /\ length p = n /\ finite64 p /\
         Rdist_inf (Rsub_v (map B2R y) (map B2R p)) x <= q * Rdist_inf (map B2R y) x + eps) ->
    near64 n x r y0 -> tols64 rtol atol ->
    (forall y, near64 n x r y ->
       length (fst (fn y)) = length rx /\ finite64 (fst (fn y)) /\
       Rdist_inf (map B2R (fst (fn y))) rx <= C * Rdist_inf (map B2R y) x + epsF) ->
    0 <= C -> Rmax_norm rx + (C * r + epsF) <= bpow radix2 1022 ->
    B2R delta <= B2R atol / 2 -> 2 * E <= B2R delta -> 2 * (C * E + epsF) <= B2R delta ->
    let s := GaussNewton (N:=F64) (mkTols (N:=F64) rtol atol (max_norm (N:=F64))) jac_of lsolve in
    exists k, (1 <= k <= S (S K))%nat /\
      forall fuel budget throw, (k < fuel)%nat -> (forall m, budget = Some m -> (k <= m)%nat) ->
        exists sol, iterative_solve vallfinite s fn fuel budget throw y0 fs auxs = Ret sol /\ result sol = successful.
Proof.
  intros Aux rtol atol delta jac_of lsolve fn y0 fs auxs n x rx r q eps C epsF K B err E Lx Hq He HB Hroom Hst Hy0 (Tr & Ta & Hr & Ha) Hf HC HM HD D1 D2 s.
  assert (Hroom' : q * r + eps + bpow radix2 (-53) * B <= r) by (unfold err in Hroom; lra).
  pose proof (gn_dir jac_of lsolve fn n x r q eps Hst) as DIR.
  pose proof (gn_Y rtol atol jac_of lsolve fn y0 fs auxs) as (YZ & YS).
  pose proof (gn_Y0 rtol atol jac_of lsolve fn y0 fs auxs n x r Hy0) as Y0.
  set (st0 := gn_st0 (N:=F64) (learning_rate (N:=F64) (nofQ (n:=F64) 1)) (newton_descent (N:=F64) lsolve None) y0 fs auxs).
  set (Y := fun k => y_at s fn y0 st0 (auxs fill0) (S k) : list f64).
  pose proof (w_inv Y _ n x r q eps Lx Hq He HB Hroom' DIR Y0 YS) as NEAR.
  assert (r0 : 0 <= r) by (destruct Hy0 as (_ & _ & H); pose proof (Rdist_inf_pos (vals y0) x); lra).
  assert (RK : forall j, (K <= j)%nat -> Rdist_inf (vals (Y j)) x <= E).
  { intros j Hj. eapply Rle_trans; [exact (w_rate Y _ n x r q eps Lx Hq He HB Hroom' DIR Y0 YS j)|].
    unfold E. apply Rplus_le_compat_r. apply Rmult_le_compat_r; [exact r0|]. replace j with (K + (j - K))%nat by lia. rewrite pow_add.
    rewrite <- (Rmult_1_r (q ^ K)) at 2. apply Rmult_le_compat_l; [apply pow_le; lra|].
    rewrite <- (pow1 (j - K)). apply pow_incr. lra. }
  assert (TK : says_terminate s fn y0 st0 (auxs fill0) (S (S K)) = true).
  { etransitivity; [exact (gn_test rtol atol jac_of lsolve fn y0 fs auxs K)|].
    exact (w_terminates Y _ n x r q eps Lx Hq He HB Hroom' DIR Y0 YS rtol atol (fun y => fst (fn y)) rx C epsF Tr Ta Hr Ha Hf HC HM delta K E HD
      (RK K (le_n K)) (RK (S K) (le_S _ _ (le_n K))) D1 D2). }
  destruct (solve_succeeds (vallfinite (N:=F64)) s fn y0 st0 (auxs fill0) fs auxs eq_refl eq_refl) as (k & Tk & Mn & HSS).
  - exact (gn_result64 rtol atol jac_of lsolve fn y0 fs auxs n x r q eps Hst NEAR).
  - intro k. unfold asked. apply all_finite. destruct (Nat.pred k) as [|j]; [exact (proj1 (proj2 Hy0))|exact (proj1 (proj2 (NEAR j)))].
  - exists (S (S K)). exact TK.
  - exists k. split.
    + split; [destruct k; [discriminate Tk|lia]|].
      destruct (le_lt_dec k (S (S K))) as [H|H]; [exact H|]. rewrite (Mn _ H) in TK. discriminate TK.
    + intros fuel budget throw Hf1 Hm. destruct (HSS fuel budget throw Hf1 Hm) as (A1 & A2). eexists. split; [exact A1|exact A2].
Qed.

(** (x - 3)^2 / 2 in doubles from 0 with rate 1/4 *)
Lemma three_val : val (f64_ofQ 3) = 3.
Proof.
  assert (E : B2SF (f64_ofQ 3) = SpecFloat.S754_finite false 6755399441055744 (-51)) by (vm_compute; reflexivity).
  rewrite <- SF2R_B2SF, E. unfold SF2R, F2R. cbn [cond_Zopp Fnum Fexp].
  change (bpow radix2 (-51)) with (/ 2251799813685248). lra.
Qed.
Lemma quarter_val : val (f64_ofQ (1#4)) = / 4.
Proof. refine (eq_trans (pow_val _ (-54) _) _); [vm_compute; reflexivity|reflexivity]. Qed.
Lemma half_val64 : val (f64_ofQ (1#2)) = / 2.
Proof. refine (eq_trans (pow_val _ (-53) _) _); [vm_compute; reflexivity|reflexivity]. Qed.
Lemma zero_val64 : val (f64_ofQ 0) = 0.
Proof. reflexivity. Qed.

Lemma quad64_hyps :
  let B := Rmax_norm [3] + 4 in let err := 0 + bpow radix2 (-51) * B + bpow radix2 (-1074) in
  B = 7 /\ 0 <= err <= / 1048576 * / 1048576 /\
  (forall y, near64 1 [3] 4 y ->
     length (quad64grad quad64 y) = 1%nat /\ finite64 (quad64grad quad64 y) /\
     Rdist_inf (Rsub_v (map B2R y) (Rscal (B2R (f64_ofQ (1#4))) (map B2R (quad64grad quad64 y)))) [3] <= 7 / 8 * Rdist_inf (map B2R y) [3] + 0) /\
  (forall y, near64 1 [3] 4 y ->
     is_finite (fst (quad64 y)) = true /\ Rabs (B2R (fst (quad64 y)) - 0) <= 32 * Rdist_inf (map B2R y) [3] + bpow radix2 (-1074)) /\
  near64 1 [3] 4 [f64_ofQ 0].
Proof.
  intros B err.
  assert (EB : B = 7) by (unfold B; rewrite one_norm, Rabs_pos_eq by lra; lra).
  assert (T74 : bpow radix2 (-1074) = 2 * bpow radix2 (-1075)) by exact (bpow_twice (-1075)).
  assert (P75 : 0 < bpow radix2 (-1075)) by apply bpow_gt_0. assert (P53 : 0 < bpow radix2 (-53)) by apply bpow_gt_0.
  assert (P53' : bpow radix2 (-53) <= / 16) by (change (/ 16) with (bpow radix2 (-4)); apply bpow_le; lia).
  assert (B64 : 128 <= bpow radix2 1023) by (change 128 with (bpow radix2 7); apply bpow_le; lia).
  assert (F3 : fin (f64_ofQ 3) = true) by (vm_compute; reflexivity).
  assert (FH : fin (f64_ofQ (1#2)) = true) by (vm_compute; reflexivity).
  assert (ST : forall a, fin a = true -> Rabs (val a - 3) <= 4 ->
    exists e, Rabs e <= / 16 /\ fin (fsub a (f64_ofQ 3)) = true /\ val (fsub a (f64_ofQ 3)) = (val a - 3) * (1 + e)).
  { intros a Fa Ha. destruct (fsub_val a (f64_ofQ 3) Fa F3) as (F & V); [rewrite three_val; lra|].
    destruct (rnd_plus (val a) (- val (f64_ofQ 3)) (val_format a) ltac:(apply generic_format_opp, val_format)) as (e & He & Ee).
    exists e. split; [lra|]. split; [exact F|]. rewrite V. unfold Rminus at 1. rewrite Ee, three_val. ring. }
  assert (ONE : forall y, near64 1 [3] 4 y -> exists a, y = [a] /\ fin a = true /\ Rabs (val a - 3) <= 4 /\ Rdist_inf (map B2R y) [3] = Rabs (val a - 3)).
  { intros y (Ly & Fy & Ny). destruct y as [|a [|b y]]; try discriminate Ly. exists a. inversion Fy as [|? ? Fa _]; subst.
    change (Rdist_inf [val a] [3] <= 4) in Ny. rewrite one_dist in Ny. split; [reflexivity|]. split; [exact Fa|]. split; [exact Ny|].
    change (Rdist_inf [val a] [3] = Rabs (val a - 3)). apply one_dist. }
  split; [exact EB|]. split; [|split; [|split]].
  - assert (Q : bpow radix2 (-44) <= / 1048576 * / 1048576 * / 16) by (right; change (bpow radix2 (-44)) with (/ 17592186044416); lra).
    assert (E1 : bpow radix2 (-1074) <= bpow radix2 (-44)) by (apply bpow_le; lia).
    assert (E2 : bpow radix2 (-51) <= bpow radix2 (-44)) by (apply bpow_le; lia).
    assert (0 < bpow radix2 (-51)) by apply bpow_gt_0. assert (0 < bpow radix2 (-1074)) by apply bpow_gt_0.
    unfold err. rewrite EB. lra.
  - intros y Hy. destruct (ONE y Hy) as (a & -> & Fa & Ha & ->). destruct (ST a Fa Ha) as (e & He & Fg & Vg).
    split; [reflexivity|]. split; [apply Forall_cons; [exact Fg|apply Forall_nil]|].
    change (Rdist_inf [val a - val (f64_ofQ (1#4)) * val (fsub a (f64_ofQ 3))] [3] <= 7 / 8 * Rabs (val a - 3) + 0).
    rewrite one_dist, Vg, quarter_val. replace (val a - / 4 * ((val a - 3) * (1 + e)) - 3) with ((3 / 4 - / 4 * e) * (val a - 3)) by field.
    rewrite Rabs_mult, Rplus_0_r. apply Rmult_le_compat_r; [apply Rabs_pos|]. apply Rabs_le_inv in He. apply Rabs_le. lra.
  - intros y Hy. destruct (ONE y Hy) as (a & -> & Fa & Ha & ->). destruct (ST a Fa Ha) as (e & He & Fg & Vg).
    set (g := fsub a (f64_ofQ 3)) in *. set (D := Rabs (val a - 3)) in *.
    assert (AE : Rabs (1 + e) <= 17 / 16) by (apply Rabs_le_inv in He; apply Rabs_le; lra).
    assert (Dp : 0 <= D) by apply Rabs_pos.
    assert (GA : Rabs (val g) <= 17 / 16 * D).
    { rewrite Vg, Rabs_mult. fold D. rewrite (Rmult_comm (17/16)). apply Rmult_le_compat_l; [exact Dp|exact AE]. }
    assert (G2 : Rabs (val g * val g) <= 5 * D).
    { rewrite Rabs_mult. pose proof (Rabs_pos (val g)). nra. }
    destruct (fmul_val g g Fg Fg) as (F2 & V2); [lra|].
    assert (M : forall z, Rabs (rnd z) <= 2 * Rabs z + bpow radix2 (-1075)).
    { intro z. destruct (rnd_any z) as (e1 & eta & K1 & K2 & _ & ->). eapply Rle_trans; [apply Rabs_triang|]. apply Rplus_le_compat; [|exact K2].
      rewrite Rabs_mult, Rmult_comm. apply Rmult_le_compat_r; [apply Rabs_pos|]. apply Rabs_le_inv in K1. apply Rabs_le. lra. }
    pose proof (M (val g * val g)) as M2. rewrite <- V2 in M2.
    assert (SM : bpow radix2 (-1075) <= / 16) by (change (/ 16) with (bpow radix2 (-4)); apply bpow_le; lia).
    destruct (fmul_val (f64_ofQ (1#2)) (fmul g g) FH F2) as (F4 & V4).
    { rewrite half_val64, Rabs_mult, (Rabs_pos_eq (/ 2)) by lra. lra. }
    split; [exact F4|]. change (Rabs (val (fmul (f64_ofQ (1#2)) (fmul g g)) - 0) <= 32 * D + bpow radix2 (-1074)).
    rewrite Rminus_0_r, V4. eapply Rle_trans; [apply M|]. rewrite half_val64, Rabs_mult, (Rabs_pos_eq (/ 2)) by lra. lra.
  - split; [reflexivity|]. split; [apply Forall_cons; [vm_compute; reflexivity|apply Forall_nil]|].
    change (Rdist_inf [val (f64_ofQ 0)] [3] <= 4). rewrite one_dist, zero_val64. apply Rabs_le. lra.
Qed.

Example C100_gradient_descent_ex_pf : forall fs (k : nat),
  let s := GradientDescent (N:=F64) (mkTols (N:=F64) (f64_ofQ (1#1024)) (f64_ofQ (1#1024)) (max_norm (N:=F64))) quad64grad (f64_ofQ (1#4)) in
  exists st0, s_init s quad64 [f64_ofQ 0] fs (fun _ => tt) = Ret st0 /\
  let y : list f64 := y_at s quad64 [f64_ofQ 0] st0 tt (S k) in
  finite64 y /\ Rdist_inf (map B2R y) [3] <= (7 / 8) ^ k * 4 + / 1048576.
Proof.
  intros fs k s. eexists. split; [reflexivity|]. intro y. destruct quad64_hyps as (EB & (ER0 & ER) & H1 & _ & H2).
  destruct (C100_gradient_descent_pf unit (f64_ofQ (1#1024)) (f64_ofQ (1#1024)) (f64_ofQ (1#4)) quad64grad quad64 [f64_ofQ 0] fs (fun _ => tt) _
    1 [3] 4 (7/8) 0 ltac:(vm_compute; reflexivity) eq_refl ltac:(lra) ltac:(lra)
    ltac:(rewrite EB; assert (8 <= bpow radix2 1021) by (change 8 with (bpow radix2 3); apply bpow_le; lia); lra)
    ltac:(lra) H1 H2 eq_refl) as (_ & HK).
  destruct (HK k) as ((_ & F & _) & _ & Rt). split; [exact F|]. eapply Rle_trans; [exact Rt|].
  apply Rplus_le_compat_l. unfold Rdiv. replace (/ (1 - 7 * / 8)) with 8 by field. lra.
Qed.

Lemma tols1024 : tols64 (f64_ofQ (1#1024)) (f64_ofQ (1#1024)).
Proof.
  assert (BG : 1 <= bpow radix2 1022) by (change 1 with (bpow radix2 0); apply bpow_le; lia).
  split; [vm_compute; reflexivity|]. split; [vm_compute; reflexivity|]. split.
  - change (0 <= val (f64_ofQ (1#1024)) <= 1). rewrite tol1024_val. lra.
  - change (0 < val (f64_ofQ (1#1024)) <= bpow radix2 1022). rewrite tol1024_val. lra.
Qed.

Example C100_gradient_descent_terminates_ex_pf : forall fs auxs,
  let s := GradientDescent (N:=F64) (mkTols (N:=F64) (f64_ofQ (1#1024)) (f64_ofQ (1#1024)) (max_norm (N:=F64))) quad64grad (f64_ofQ (1#4)) in
  exists k, (1 <= k <= 134)%nat /\
    forall fuel budget throw, (k < fuel)%nat -> (forall m, budget = Some m -> (k <= m)%nat) ->
      exists sol, iterative_solve vallfinite s quad64 fuel budget throw [f64_ofQ 0] fs auxs = Ret sol /\ result sol = successful.
Proof.
  intros fs auxs s. destruct quad64_hyps as (EB & (ER0 & ER) & H1 & H3 & H2).
  assert (PW : (7 / 8) ^ 132 <= / 4194304).
  { change 132%nat with (6 * 22)%nat. rewrite pow_mult. apply (Rle_trans _ ((/ 2) ^ 22)); [apply pow_incr; cbn [pow]; lra|right; cbn [pow]; lra]. }
  assert (PP : 0 <= (7 / 8) ^ 132) by (apply pow_le; lra).
  assert (BG : 8 <= bpow radix2 1021) by (change 8 with (bpow radix2 3); apply bpow_le; lia).
  assert (BH : 256 <= bpow radix2 1022) by (change 256 with (bpow radix2 8); apply bpow_le; lia).
  assert (S7 : bpow radix2 (-1074) <= / 1048576 * / 16) by (apply (Rle_trans _ (bpow radix2 (-24))); [apply bpow_le; lia|right; change (bpow radix2 (-24)) with (/ 16777216); lra]).
  refine (C100_gradient_descent_terminates_pf unit (f64_ofQ (1#1024)) (f64_ofQ (1#1024)) (f64_ofQ (1#4)) (f64_ofQ (1#4096)) quad64grad quad64 [f64_ofQ 0] fs auxs
    1 [3] 0 4 (7/8) 0 32 (bpow radix2 (-1074)) 132 ltac:(vm_compute; reflexivity) eq_refl ltac:(lra) ltac:(lra) _ _ H1 H2 tols1024 H3 ltac:(lra) _ _ _ _).
  - rewrite EB. lra.
  - lra.
  - rewrite Rabs_R0. lra.
  - change (val (f64_ofQ (1#4096)) <= val (f64_ofQ (1#1024)) / 2). rewrite tol1024_val, delta4096_val. lra.
  - rewrite delta4096_val. unfold Rdiv at 2. replace (/ (1 - 7 / 8)) with 8 by field. lra.
  - rewrite delta4096_val. unfold Rdiv at 2. replace (/ (1 - 7 / 8)) with 8 by field. lra.
Qed.

Example C100_gradient_descent_success_ex_pf : forall fs auxs,
  let s := GradientDescent (N:=F64) (mkTols (N:=F64) (f64_ofQ (1#1024)) (f64_ofQ (1#1024)) (max_norm (N:=F64))) quad64grad (f64_ofQ (1#4)) in
  exists fuel sol, iterative_solve vallfinite s quad64 fuel None true [f64_ofQ 0] fs auxs = Ret sol /\ result sol = successful /\
    Rdist_inf (map B2R (value sol : list f64)) [3] <= / 16.
Proof.
  intros fs auxs s. destruct (C100_gradient_descent_terminates_ex_pf fs auxs) as (k & _ & HS).
  destruct (HS (S k) None true ltac:(lia) ltac:(intros m Z; discriminate Z)) as (sol & E & Rs). exists (S k), sol.
  split; [exact E|]. split; [exact Rs|].
  destruct quad64_hyps as (EB & (ER0 & ER) & H1 & H3 & H2).
  assert (BG : 8 <= bpow radix2 1021) by (change 8 with (bpow radix2 3); apply bpow_le; lia).
  destruct (C100_gradient_descent_success_pf unit (f64_ofQ (1#1024)) (f64_ofQ (1#1024)) (f64_ofQ (1#4)) quad64grad quad64 [f64_ofQ 0] fs auxs
    1 [3] 4 (7/8) 0 (S k) None true sol ltac:(vm_compute; reflexivity) eq_refl ltac:(lra) ltac:(lra) ltac:(lra) ltac:(lra) H1 H2 tols1024 E Rs) as ((L & F & NV) & HD).
  eapply Rle_trans; [exact HD|].
  assert (NB : Rmax_norm (map B2R (value sol : list f64)) <= 7).
  { rewrite <- EB. apply (norm_near 1 [3] eq_refl); [rewrite map_length; exact L|exact NV]. }
  unfold tol64. change (B2R (f64_ofQ (1#1024))) with (val (f64_ofQ (1#1024))). rewrite tol1024_val.
  destruct small_bpow as [S1 S2]. assert (0 < bpow radix2 (-50)) by apply bpow_gt_0.
  pose proof (Rmax_norm_pos (map B2R (value sol : list f64))) as N0.
  assert ((1 + bpow radix2 (-50)) * (/ 1024 + / 1024 * Rmax_norm (map B2R (value sol : list f64))) <= (1 + / 1048576) * (/ 1024 + / 1024 * 7)) by (apply Rmult_le_compat; lra).
  unfold Rdiv at 1. replace (/ (1 - 7 / 8)) with 8 by field. lra.
Qed.

(** The residuals (x^2 - 2, 1) in doubles from 1.5 *)
Lemma res64_hyps :
  (forall y, near64 1 [sqrt 2] (/ 4) y ->
     exists p, res64solve (res64jac res64 y) (fst (res64 y)) = (p, successful) /\ length p = 1%nat /\ finite64 p /\
       Rdist_inf (Rsub_v (map B2R y) (map B2R p)) [sqrt 2] <= / 8 * Rdist_inf (map B2R y) [sqrt 2] + bpow radix2 (-48)) /\
  (forall y, near64 1 [sqrt 2] (/ 4) y ->
     length (fst (res64 y)) = 2%nat /\ finite64 (fst (res64 y)) /\
     Rdist_inf (map B2R (fst (res64 y))) [0; 1] <= 4 * Rdist_inf (map B2R y) [sqrt 2] + bpow radix2 (-49)).
Proof.
  split; intros y (Ly & Fy & Ny); destruct y as [|a [|b y]]; try discriminate Ly;
    assert (Fa : fin a = true) by (inversion Fy; assumption);
    change (Rdist_inf [val a] [sqrt 2] <= / 4) in Ny; rewrite one_dist in Ny;
    destruct (sq2_step a Fa Ny) as (S1 & S2 & S3 & S4).
  - eexists. split; [reflexivity|]. split; [reflexivity|]. split; [apply Forall_cons; [exact S2|apply Forall_nil]|].
    change (Rdist_inf [val a - val (fdiv (fsub (fmul a a) (f64_ofQ 2)) (fmul (f64_ofQ 2) a))] [sqrt 2] <= / 8 * Rdist_inf [val a] [sqrt 2] + bpow radix2 (-48)).
    rewrite !one_dist. exact S3.
  - split; [reflexivity|]. split; [apply Forall_cons; [exact S1|apply Forall_cons; [vm_compute; reflexivity|apply Forall_nil]]|].
    change (Rdist_inf [val (fsub (fmul a a) (f64_ofQ 2)); val (f64_ofQ 1)] [0; 1] <= 4 * Rdist_inf [val a] [sqrt 2] + bpow radix2 (-49)).
    rewrite one_dist, one_val. unfold Rdist_inf. cbn [Rsub_v Rmax_norm fold_right]. rewrite Rminus_0_r.
    replace (1 - 1) with 0 by ring. rewrite Rabs_R0, (Rmax_left 0 0) by lra. rewrite Rmax_left by apply Rabs_pos. exact S4.
Qed.

Example C100_gauss_newton_ex_pf : forall fs (k : nat),
  let s := GaussNewton (N:=F64) (mkTols (N:=F64) (f64_ofQ (1#1024)) (f64_ofQ (1#1024)) (max_norm (N:=F64))) res64jac res64solve in
  exists st0, s_init s res64 [f64_ofQ (3#2)] fs (fun _ => tt) = Ret st0 /\
  let y : list f64 := y_at s res64 [f64_ofQ (3#2)] st0 tt (S k) in
  finite64 y /\ Rdist_inf (map B2R y) [sqrt 2] <= (/ 8) ^ k * / 4 + 2 * / 1048576.
Proof.
  intros fs k s. eexists. split; [reflexivity|]. intro y. destruct res64_hyps as (H3 & _). destruct sq2_hyps as (H1 & H2 & _ & H4 & H5 & H6).
  destruct (C100_gauss_newton_pf unit (f64_ofQ (1#1024)) (f64_ofQ (1#1024)) res64jac res64solve res64 [f64_ofQ (3#2)] fs (fun _ => tt) _
    1 [sqrt 2] (/ 4) (/ 8) (bpow radix2 (-48)) eq_refl ltac:(lra) (bpow_ge_0 _ _) H1 ltac:(lra) H3 H4 eq_refl) as (_ & HK).
  destruct (HK k) as ((_ & F & _) & _ & Rt). split; [exact F|]. eapply Rle_trans; [exact Rt|].
  apply Rplus_le_compat_l. unfold Rdiv. replace (/ (1 - / 8)) with (8 / 7) by field. lra.
Qed.

Example C100_gauss_newton_terminates_ex_pf : forall fs auxs,
  let s := GaussNewton (N:=F64) (mkTols (N:=F64) (f64_ofQ (1#1024)) (f64_ofQ (1#1024)) (max_norm (N:=F64))) res64jac res64solve in
  exists k, (1 <= k <= 8)%nat /\
    forall fuel budget throw, (k < fuel)%nat -> (forall m, budget = Some m -> (k <= m)%nat) ->
      exists sol, iterative_solve vallfinite s res64 fuel budget throw [f64_ofQ (3#2)] fs auxs = Ret sol /\ result sol = successful.
Proof.
  intros fs auxs s. destruct res64_hyps as (H3 & H7). destruct sq2_hyps as (H1 & H2 & _ & H4 & H5 & H6).
  assert (PW : (/ 8) ^ 6 <= / 262144) by (cbn [pow]; lra).
  assert (BH : 256 <= bpow radix2 1022) by (change 256 with (bpow radix2 8); apply bpow_le; lia).
  assert (Q : bpow radix2 (-24) <= / 16777216) by (right; reflexivity).
  assert (E2 : bpow radix2 (-49) <= bpow radix2 (-24)) by (apply bpow_le; lia).
  refine (C100_gauss_newton_terminates_pf unit (f64_ofQ (1#1024)) (f64_ofQ (1#1024)) (f64_ofQ (1#4096)) res64jac res64solve res64 [f64_ofQ (3#2)] fs auxs
    1 [sqrt 2] [0; 1] (/ 4) (/ 8) (bpow radix2 (-48)) 4 (bpow radix2 (-49)) 6 eq_refl ltac:(lra) (bpow_ge_0 _ _) H1 ltac:(lra) H3 H4 tols1024 H7 ltac:(lra) _ _ _ _).
  - cbn [Rmax_norm fold_right]. rewrite Rabs_R0, Rabs_R1, (Rmax_left 1 0), (Rmax_right 0 1) by lra. lra.
  - change (val (f64_ofQ (1#4096)) <= val (f64_ofQ (1#1024)) / 2). rewrite tol1024_val, delta4096_val. lra.
  - rewrite delta4096_val. unfold Rdiv. replace (/ (1 - / 8)) with (8 / 7) by field. lra.
  - rewrite delta4096_val. unfold Rdiv. replace (/ (1 - / 8)) with (8 / 7) by field. lra.
Qed.

Example C100_gauss_newton_success_ex_pf : forall fs auxs,
  let s := GaussNewton (N:=F64) (mkTols (N:=F64) (f64_ofQ (1#1024)) (f64_ofQ (1#1024)) (max_norm (N:=F64))) res64jac res64solve in
  exists fuel sol, iterative_solve vallfinite s res64 fuel None true [f64_ofQ (3#2)] fs auxs = Ret sol /\ result sol = successful /\
    ((hd_error (sol_stats sol) = Some ("num_steps"%string, Some 1%Z) /\ value sol = [f64_ofQ (3#2)]) \/
     Rdist_inf (map B2R (value sol : list f64)) [sqrt 2] <= / 2000).
Proof.
  intros fs auxs s. destruct (C100_gauss_newton_terminates_ex_pf fs auxs) as (k & _ & HS).
  destruct (HS (S k) None true ltac:(lia) ltac:(intros m Z; discriminate Z)) as (sol & E & Rs). exists (S k), sol.
  split; [exact E|]. split; [exact Rs|].
  destruct res64_hyps as (H3 & H7). destruct sq2_hyps as (H1 & H2 & _ & H4 & H5 & H6).
  destruct (C100_gauss_newton_success_pf unit (f64_ofQ (1#1024)) (f64_ofQ (1#1024)) res64jac res64solve res64 [f64_ofQ (3#2)] fs auxs
    1 [sqrt 2] (/ 4) (/ 8) (bpow radix2 (-48)) (S k) None true sol eq_refl ltac:(lra) (bpow_ge_0 _ _) H1 ltac:(lra) H3 H4 tols1024 E Rs) as ((L & F & NV) & [HD|HD]);
    [left; exact HD|right].
  eapply Rle_trans; [exact HD|].
  assert (NB : Rmax_norm (map B2R (value sol : list f64)) <= 7 / 4).
  { eapply Rle_trans; [|exact H5]. apply (norm_near 1 [sqrt 2] eq_refl); [rewrite map_length; exact L|exact NV]. }
  unfold tol64. change (B2R (f64_ofQ (1#1024))) with (val (f64_ofQ (1#1024))). rewrite tol1024_val.
  destruct small_bpow as [S1 S2]. assert (0 < bpow radix2 (-50)) by apply bpow_gt_0.
  pose proof (Rmax_norm_pos (map B2R (value sol : list f64))) as N0.
  assert ((1 + bpow radix2 (-50)) * (/ 1024 + / 1024 * Rmax_norm (map B2R (value sol : list f64))) <= (1 + / 1048576) * (/ 1024 + / 1024 * (7 / 4))) by (apply Rmult_le_compat; lra).
  unfold Rdiv at 1. replace (/ (1 - / 8)) with (8 / 7) by field. lra.
Qed.
