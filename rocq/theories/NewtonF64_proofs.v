(** Newton and Chord in binary64 arithmetic (C95). *)

From Coq Require Import String List Bool Arith Lia ZArith QArith Qreals Reals Lra.
From Flocq Require Import Core.
From Flocq.IEEE754 Require Import BinarySingleNaN.
From Verif Require Import Num NumFacts NumDiv Vec Results Iterate Spec_Iterate Iterate_proofs.
From Verif Require Import Spec_Vec VecFacts Spec_Lin LinFacts FixedPoint_proofs NewtonChord Spec_NewtonChord NewtonChord_proofs.
From Verif Require Import NumF64 NumF64_facts F64Facts FixedPointF64_proofs Spec_NewtonF64.
Import ListNotations.
Local Open Scope R_scope.

(* one component of the test is passed *)
Lemma ratio_small : forall rtol atol d v delta : f64, fin rtol = true -> fin atol = true -> fin d = true -> fin v = true ->
  0 <= val rtol <= 1 -> 0 < val atol <= bpow radix2 1022 -> Rabs (val v) <= bpow radix2 1022 ->
  val delta <= val atol / 2 -> Rabs (val d) <= val delta ->
  Bltb (Babs (fdiv (Babs d) (fadd atol (fmul rtol (Babs v))))) (f64_ofQ 1) = true.
Proof.
  intros rtol atol d v delta Fr Fa Fd Fv Hr Ha VB HD H.
  destruct (scale_val rtol atol v Fr Fa Fv Hr ltac:(lra) VB) as (Fs & Vs).
  set (sc := fadd atol (fmul rtol (Babs v))) in *. pose proof big_bpow as BG.
  assert (SC : val atol <= val sc).
  { rewrite Vs. rewrite <- (rnd_id (val atol) (val_format atol)) at 1. apply rnd_le.
    assert (GG : rnd 0 <= rnd (val rtol * Rabs (val v))) by (apply rnd_le; apply Rmult_le_pos; [lra|apply Rabs_pos]).
    rewrite round_0 in GG by typeclasses eauto. lra. }
  assert (Fb : fin (Babs d) = true) by (rewrite is_finite_Babs; exact Fd).
  assert (Vb : val (Babs d) = Rabs (val d)) by apply B2R_Babs.
  assert (QH : Rabs (val (Babs d) / val sc) <= / 2).
  { rewrite Vb. unfold Rdiv. rewrite Rabs_mult, Rabs_Rabsolu, Rabs_inv, (Rabs_pos_eq (val sc)) by lra. apply (Rmult_le_reg_r (val sc)); [lra|].
    rewrite Rmult_assoc, Rinv_l, Rmult_1_r by lra. lra. }
  assert (TW : bpow radix2 1023 = 2 * bpow radix2 1022) by exact (bpow_twice 1022).
  destruct (fdiv_val (Babs d) sc Fb Fs) as (Fq & Vq); [lra|lra|].
  apply ltb_val; [rewrite is_finite_Babs; exact Fq|vm_compute; reflexivity|]. rewrite B2R_Babs, Vq, one_val.
  apply Rle_lt_trans with (/ 2); [|lra]. change (/ 2) with (bpow radix2 (-1)). apply rnd_bound; [lia|exact QH].
Qed.

(* what passing it says *)
Lemma ratio_tells : forall rtol atol d v : f64, fin rtol = true -> fin atol = true -> fin d = true -> fin v = true ->
  0 <= val rtol <= 1 -> 0 < val atol <= bpow radix2 1022 -> Rabs (val v) <= bpow radix2 1022 -> Rabs (val d) <= bpow radix2 1022 ->
  nltb (n:=F64) (nabs (n:=F64) (ndiv (n:=F64) (nabs (n:=F64) d) (nadd (n:=F64) atol (nmul (n:=F64) rtol (nabs (n:=F64) v))))) (nofQ (n:=F64) 1) = true ->
  Rabs (val d) <= (1 + bpow radix2 (-50)) * (val atol + val rtol * Rabs (val v)) + bpow radix2 (-1074).
Proof.
  intros rtol atol d v Fr Fa Fd Fv Hr Ha VB DB H. apply (dl_lt1 F64 F64_div) in H.
  change (Bltb (Babs (Babs d)) (Babs (fadd atol (fmul rtol (Babs v)))) = true) in H.
  destruct (scale_val rtol atol v Fr Fa Fv Hr ltac:(lra) VB) as (Fs & Vs). destruct zero_val as [F0 V0].
  assert (SP : 0 <= val (fadd atol (fmul rtol (Babs v)))).
  { rewrite Vs. assert (GG : rnd 0 <= rnd (val rtol * Rabs (val v))) by (apply rnd_le; apply Rmult_le_pos; [lra|apply Rabs_pos]).
    rewrite round_0 in GG by typeclasses eauto.
    assert (G0 : rnd 0 <= rnd (val atol + rnd (val rtol * Rabs (val v)))) by (apply rnd_le; lra).
    rewrite round_0 in G0 by typeclasses eauto. exact G0. }
  assert (TW : bpow radix2 1023 = 2 * bpow radix2 1022) by exact (bpow_twice 1022). pose proof big_bpow as BG.
  destruct (fsub_val d (f64_ofQ 0) Fd F0) as (Fm & Vm); [rewrite V0, Rminus_0_r; lra|].
  rewrite V0, Rminus_0_r, rnd_id in Vm by apply val_format.
  assert (C' : Bltb (Babs (fsub d (f64_ofQ 0))) (fadd atol (fmul rtol (Babs v))) = true).
  { rewrite Bltb_correct in H; [|rewrite !is_finite_Babs; exact Fd|rewrite is_finite_Babs; exact Fs].
    rewrite !B2R_Babs, Rabs_Rabsolu, (Rabs_pos_eq (val (fadd _ _))) in H by exact SP.
    rewrite Bltb_correct; [|rewrite is_finite_Babs; exact Fm|exact Fs]. rewrite B2R_Babs. rewrite Vm. exact H. }
  pose proof (close_tol rtol atol v d (f64_ofQ 0) Fr Fa Fv Fd F0 Hr ltac:(lra) VB DB ltac:(rewrite V0, Rabs_R0; lra) C') as CT.
  rewrite V0, Rminus_0_r in CT. exact CT.
Qed.

Section Newton64.
  Context {Aux M : Type}.
  Variables (jac : (list f64 -> list f64 * Aux) -> list f64 -> M) (lsolve : M -> list f64 -> list f64 * results) (P : nc_params (N:=F64)).
  Variables (fn : list f64 -> list f64 * Aux) (y0 : list f64) (fs : fillv -> list f64) (aux0 : Aux).
  Variables (n : nat) (root : list R) (r q eps C epsF : R).
  Let finite (y : list f64) := Forall (fun x => fin x = true) y.
  Let near (y : list f64) := length y = n /\ finite y /\ Rdist_inf (vals y) root <= r.
  Let B := Rmax_norm root + r.
  Hypothesis Lroot : length root = n.
  Hypothesis Hq : 0 <= q < 1.
  Hypothesis He : 0 <= eps.
  Hypothesis HB : B <= bpow radix2 1021.
  Hypothesis Hroom : q * r + eps + bpow radix2 (-53) * B <= r.
  Hypothesis Hstep : forall y, near y ->
    exists d, lsolve (jac fn (if nc_is_newton P then y else y0)) (fst (fn y)) = (d, successful) /\ length d = n /\ finite d /\
      Rdist_inf (Rsub_v (vals y) (vals d)) root <= q * Rdist_inf (vals y) root + eps /\
      finite (fst (fn y)) /\ Rmax_norm (vals (fst (fn y))) <= C * Rdist_inf (vals y) root + epsF.
  Hypothesis Hy0 : near y0.
  Hypothesis Hlo : nc_lower P = None.
  Hypothesis Hup : nc_upper P = None.

  Let s := newton_chord (N:=F64) jac lsolve P.
  Let st0 := nc_st0 (N:=F64) jac P fn y0 fs.
  Let Y k : list f64 := y_at s fn y0 st0 aux0 k.
  Let S_ := st_at s fn y0 st0 aux0.
  Let err := eps + bpow radix2 (-53) * B.

  Lemma r_pos : 0 <= r.
  Proof. destruct Hy0 as (_ & _ & H). pose proof (Rdist_inf_pos (vals y0) root). lra. Qed.
  Lemma B_pos : 0 <= B.
  Proof. pose proof r_pos. pose proof (Rmax_norm_pos root). unfold B. lra. Qed.
  Lemma err_pos : 0 <= err.
  Proof. pose proof B_pos. unfold err. assert (0 <= bpow radix2 (-53) * B) by (apply Rmult_le_pos; [apply bpow_ge_0|assumption]). lra. Qed.

  Lemma clip_id : forall v, nc_clip P v = v.
  Proof. intro v. unfold nc_clip. rewrite Hlo, Hup. reflexivity. Qed.

  Lemma norm_near : forall x : list R, length x = n -> forall e, Rdist_inf x root <= e -> Rmax_norm x <= Rmax_norm root + e.
  Proof.
    intros x Lx e H. assert (e0 : 0 <= e) by (pose proof (Rdist_inf_pos x root); lra). pose proof (Rmax_norm_pos root).
    apply Rmax_norm_le; [lra|]. intros i z Hz.
    assert (IL : (i < length root)%nat) by (rewrite Lroot, <- Lx; apply nth_error_Some; congruence).
    destruct (nth_error root i) as [g|] eqn:Eg; [|apply nth_error_Some in IL; congruence].
    assert (N1 : Rabs (z - g) <= e) by (eapply Rle_trans; [|exact H]; apply (Rmax_norm_nth _ i); apply Rsub_v_nth; eauto).
    apply Rmax_norm_nth in Eg. replace z with (z - g + g) by ring. eapply Rle_trans; [apply Rabs_triang|]. lra.
  Qed.

  Lemma sub64 : forall y d : list f64, near y -> length d = n -> finite d ->
    Rdist_inf (Rsub_v (vals y) (vals d)) root <= q * Rdist_inf (vals y) root + eps ->
    let v := vsub (N:=F64) y d in
    length v = n /\ finite v /\ Rdist_inf (vals v) root <= q * Rdist_inf (vals y) root + err /\ Rdist_inf (vals v) root <= r.
  Proof.
    intros y d (Ly & Fy & Ny) Ld Fd HN v. pose proof B_pos as BP. pose proof r_pos as RP.
    assert (b0 : 0 < bpow radix2 (-53)) by apply bpow_gt_0.
    assert (Lsub : length (Rsub_v (vals y) (vals d)) = n) by (apply Rsub_v_length; rewrite map_length; assumption).
    assert (QR : q * Rdist_inf (vals y) root <= q * r) by (apply Rmult_le_compat_l; lra).
    assert (bB : 0 <= bpow radix2 (-53) * B) by (apply Rmult_le_pos; lra).
    assert (NB : Rmax_norm (Rsub_v (vals y) (vals d)) <= B).
    { unfold B. apply (norm_near _ Lsub). lra. }
    assert (TW : bpow radix2 1023 = 4 * bpow radix2 1021) by exact (bpow_plus radix2 2 1021).
    assert (Lv : length v = n) by (unfold v, vsub; rewrite vmap2_length; etransitivity; [exact (f_equal2 Nat.min Ly Ld)|apply Nat.min_id]).
    assert (EV : forall i z, nth_error v i = Some z -> exists a b, nth_error y i = Some a /\ nth_error d i = Some b /\ fin z = true /\
                  Rabs (val z - (val a - val b)) <= bpow radix2 (-53) * B).
    { intros i z Hz. unfold v, vsub in Hz. apply nth_vmap2 in Hz. destruct Hz as (a & b & Ea & Eb & ->).
      assert (Fa : fin a = true) by (eapply Forall_forall in Fy; [exact Fy|eapply nth_error_In; exact Ea]).
      assert (Fb : fin b = true) by (eapply Forall_forall in Fd; [exact Fd|eapply nth_error_In; exact Eb]).
      assert (N1 : Rabs (val a - val b) <= B).
      { eapply Rle_trans; [|exact NB]. apply (Rmax_norm_nth _ i). apply Rsub_v_nth. exists (val a), (val b).
        split; [apply vals_nth; exact Ea|]. split; [apply vals_nth; exact Eb|reflexivity]. }
      assert (P21 : 0 < bpow radix2 1021) by apply bpow_gt_0.
      destruct (fsub_val a b Fa Fb) as (Fm & Vm); [lra|].
      exists a, b. split; [exact Ea|]. split; [exact Eb|]. split; [exact Fm|].
      change (Rabs (val (fsub a b) - (val a - val b)) <= bpow radix2 (-53) * B).
      rewrite Vm. destruct (rnd_minus (val a) (val b) (val_format a) (val_format b)) as (e & E1 & E2). rewrite E2.
      replace ((val a - val b) * (1 + e) - (val a - val b)) with (e * (val a - val b)) by ring.
      rewrite Rabs_mult. apply Rmult_le_compat; try apply Rabs_pos; assumption. }
    assert (Fv : finite v).
    { apply Forall_forall. intros z Hz. apply In_nth_error in Hz. destruct Hz as (i & Hz). destruct (EV i z Hz) as (a & b & _ & _ & H & _). exact H. }
    assert (ND : Rdist_inf (vals v) root <= q * Rdist_inf (vals y) root + err).
    { unfold err. pose proof (Rdist_inf_pos (vals y) root) as D0. assert (0 <= q * Rdist_inf (vals y) root) by (apply Rmult_le_pos; lra).
      unfold Rdist_inf at 1. apply Rmax_norm_le; [lra|]. intros i z Hz. apply Rsub_v_nth in Hz. destruct Hz as (u & g & E1 & E2 & ->).
      apply nth_vals in E1. destruct E1 as (zz & E1 & ->). destruct (EV i zz E1) as (a & b & Ea & Eb & _ & H1).
      assert (H2 : Rabs (val a - val b - g) <= q * Rdist_inf (vals y) root + eps).
      { eapply Rle_trans; [|exact HN]. apply (Rmax_norm_nth _ i). apply Rsub_v_nth. exists (val a - val b), g. split; [|auto].
        apply Rsub_v_nth. exists (val a), (val b). split; [apply vals_nth; exact Ea|]. split; [apply vals_nth; exact Eb|reflexivity]. }
      replace (val zz - g) with ((val zz - (val a - val b)) + (val a - val b - g)) by ring. eapply Rle_trans; [apply Rabs_triang|]. lra. }
    split; [exact Lv|]. split; [exact Fv|]. split; [exact ND|]. unfold err in ND. lra.
  Qed.

  Lemma Y_S : forall k d, lsolve (jac fn (if nc_is_newton P then Y k else y0)) (fst (fn (Y k))) = (d, successful) -> Y (S k) = vsub (N:=F64) (Y k) d.
  Proof.
    intros k d E. unfold Y. refine (eq_trans (nc_y_S (N:=F64) jac lsolve P fn y0 fs aux0 k) _). rewrite clip_id.
    exact (f_equal (fun p => vsub (N:=F64) (Y k) (fst p)) E).
  Qed.

  Lemma inv_newton : forall k, near (Y k).
  Proof.
    induction k as [|k IH]; [exact Hy0|]. destruct (Hstep _ IH) as (d & E & Ld & Fd & HN & _). rewrite (Y_S k d E).
    destruct (sub64 _ _ IH Ld Fd HN) as (A1 & A2 & _ & A3). split; [exact A1|]. split; [exact A2|exact A3].
  Qed.
  Lemma step_newton : forall k, Rdist_inf (vals (Y (S k))) root <= q * Rdist_inf (vals (Y k)) root + err.
  Proof.
    intro k. destruct (Hstep _ (inv_newton k)) as (d & E & Ld & Fd & HN & _). rewrite (Y_S k d E).
    apply (sub64 _ _ (inv_newton k) Ld Fd HN).
  Qed.
  Lemma rate_newton : forall k, Rdist_inf (vals (Y k)) root <= q ^ k * r + err / (1 - q).
  Proof.
    pose proof err_pos as E0. assert (EQ : 0 <= err / (1 - q)) by (apply Rmult_le_pos; [lra|apply Rlt_le, Rinv_0_lt_compat; lra]).
    induction k as [|k IH]; [destruct (inv_newton 0) as (_ & _ & H); cbn [pow]; lra|].
    pose proof (step_newton k) as H. assert (q * Rdist_inf (vals (Y k)) root <= q * (q ^ k * r + err / (1 - q))) by (apply Rmult_le_compat_l; lra).
    replace (q ^ S k * r + err / (1 - q)) with (q * (q ^ k * r + err / (1 - q)) + err) by (cbn [pow]; field; lra). lra.
  Qed.

  (* the computed direction is about the error *)
  Lemma dir_newton : forall k d, length d = n -> Rdist_inf (Rsub_v (vals (Y k)) (vals d)) root <= q * Rdist_inf (vals (Y k)) root + eps ->
    Rmax_norm (vals d) <= (1 + q) * Rdist_inf (vals (Y k)) root + eps /\ (1 - q) * Rdist_inf (vals (Y k)) root <= Rmax_norm (vals d) + eps.
  Proof.
    intros k d Ld HN. destruct (inv_newton k) as (Ly & _ & _). set (e := Rdist_inf (vals (Y k)) root) in *.
    assert (e0 : 0 <= e) by apply Rdist_inf_pos. assert (qe : 0 <= q * e) by (apply Rmult_le_pos; lra).
    split.
    - apply Rmax_norm_le; [lra|]. intros i b Hb.
      assert (IL : (i < n)%nat) by (rewrite <- Ld, <- (map_length val d); apply nth_error_Some; congruence).
      destruct (nth_error root i) as [g|] eqn:Eg; [|rewrite <- Lroot in IL; apply nth_error_Some in IL; congruence].
      destruct (nth_error (vals (Y k)) i) as [a|] eqn:Ea.
      2:{ exfalso. apply nth_error_Some in Ea; [exact Ea|]. rewrite map_length. exact (eq_ind_r (fun m => (i < m)%nat) IL Ly). }
      assert (N1 : Rabs (a - g) <= e) by (apply (Rmax_norm_nth _ i); apply Rsub_v_nth; eauto).
      assert (N2 : Rabs (a - b - g) <= q * e + eps).
      { eapply Rle_trans; [|exact HN]. apply (Rmax_norm_nth _ i). apply Rsub_v_nth. exists (a - b), g. split; [|auto]. apply Rsub_v_nth. eauto. }
      replace b with ((a - g) + - (a - b - g)) by ring. eapply Rle_trans; [apply Rabs_triang|]. rewrite Rabs_Ropp. lra.
    - assert (e <= Rmax_norm (vals d) + (q * e + eps)); [|lra].
      unfold e at 1, Rdist_inf. pose proof (Rmax_norm_pos (vals d)). apply Rmax_norm_le; [lra|]. intros i z Hz.
      apply Rsub_v_nth in Hz. destruct Hz as (a & g & Ea & Eg & ->).
      assert (IL : (i < length (vals d))%nat).
      { rewrite map_length, Ld, <- Lroot. apply nth_error_Some. congruence. }
      destruct (nth_error (vals d) i) as [b|] eqn:Eb; [|apply nth_error_Some in IL; congruence].
      assert (N2 : Rabs (a - b - g) <= q * e + eps).
      { eapply Rle_trans; [|exact HN]. apply (Rmax_norm_nth _ i). apply Rsub_v_nth. exists (a - b), g. split; [|auto]. apply Rsub_v_nth. eauto. }
      apply Rmax_norm_nth in Eb. replace (a - g) with (b + (a - b - g)) by ring. eapply Rle_trans; [apply Rabs_triang|]. lra.
  Qed.

  Hypothesis HCa : nc_cauchy P = true.
  Hypothesis Hnm : nc_norm P = max_norm (N:=F64).

  Lemma st_newton : forall k, exists d, lsolve (jac fn (if nc_is_newton P then Y k else y0)) (fst (fn (Y k))) = (d, successful) /\
    length d = n /\ finite d /\ Rdist_inf (Rsub_v (vals (Y k)) (vals d)) root <= q * Rdist_inf (vals (Y k)) root + eps /\
    finite (fst (fn (Y k))) /\ Rmax_norm (vals (fst (fn (Y k)))) <= C * Rdist_inf (vals (Y k)) root + epsF /\
    s_terminate s fn (Y k) (S_ (S k)) =
      (cauchy_termination (N:=F64) (nc_rtol P) (nc_atol P) (max_norm (N:=F64)) (Y k) d (vfull (N:=F64) (length (fst (fn (Y k)))) (f64_ofQ 0)) (fst (fn (Y k))), successful).
  Proof.
    intro k. destruct (Hstep _ (inv_newton k)) as (d & E & Ld & Fd & HN & FF & NF). exists d.
    split; [exact E|]. split; [exact Ld|]. split; [exact Fd|]. split; [exact HN|]. split; [exact FF|]. split; [exact NF|].
    assert (ES : S_ (S k) = _) by exact (nc_st_S (N:=F64) jac lsolve P fn y0 fs aux0 k). cbv zeta in ES.
    assert (Hbox : has_box P = false) by (unfold has_box; rewrite Hlo, Hup; reflexivity).
    rewrite Hbox, HCa in ES. change (y_at _ _ _ _ _ k) with (Y k) in ES.
    assert (E' : lin_sol (N:=F64) jac lsolve (nc_is_newton P) fn y0 (Y k) = (d, successful)) by exact E.
    rewrite E' in ES. cbn [fst snd] in ES.
    rewrite ES. cbn [s_terminate s newton_chord]. unfold nc_terminate. rewrite HCa. cbn [nc_result nc_step nc_diff nc_f results_eqb negb orb fst].
    rewrite Hnm. reflexivity.
  Qed.

  Lemma terminates_newton : forall (delta : f64) k, fin (nc_rtol P) = true -> fin (nc_atol P) = true ->
    0 <= val (nc_rtol P) <= 1 -> 0 < val (nc_atol P) <= bpow radix2 1022 -> val delta <= val (nc_atol P) / 2 ->
    (1 + q) * Rdist_inf (vals (Y k)) root + eps <= val delta -> C * Rdist_inf (vals (Y k)) root + epsF <= val delta ->
    says_terminate s fn y0 st0 aux0 (S k) = true.
  Proof.
    intros delta k Fr Fa Hr Ha HD H1 H2. unfold says_terminate, asked. cbn [Nat.pred].
    destruct (st_newton k) as (d & _ & Ld & Fd & HN & FF & NF & ET).
    change (fst (s_terminate s fn (Y k) (S_ (S k))) = true). rewrite ET. cbn [fst].
    destruct (inv_newton k) as (Ly & Fy & Ny).
    destruct (dir_newton k d Ld HN) as [DN _].
    assert (NB : Rmax_norm (vals (Y k)) <= B) by (unfold B; apply norm_near; [rewrite map_length; exact Ly|exact Ny]).
    assert (TW : bpow radix2 1022 = 2 * bpow radix2 1021) by exact (bpow_twice 1021). assert (P21 : 0 < bpow radix2 1021) by apply bpow_gt_0.
    unfold cauchy_termination. apply andb_true_iff. split.
    - apply (max_norm_lt F64_laws); [apply (dl_01 F64 F64_div)|]. apply Forall_nth.
      intros i z Hz. unfold vdiv in Hz. apply nth_vmap2 in Hz. destruct Hz as (a & sc & E1 & E2 & ->).
      unfold vabs in E1. apply nth_map in E1. destruct E1 as (b & E1 & ->).
      unfold vscale_tol in E2. apply nth_map in E2. destruct E2 as (v & E2 & ->).
      assert (Fb : fin b = true) by (eapply Forall_forall in Fd; [exact Fd|eapply nth_error_In; exact E1]).
      assert (Fv : fin v = true) by (eapply Forall_forall in Fy; [exact Fy|eapply nth_error_In; exact E2]).
      apply vals_nth in E1. apply vals_nth in E2. apply Rmax_norm_nth in E1. apply Rmax_norm_nth in E2.
      refine (ratio_small (nc_rtol P) (nc_atol P) b v delta Fr Fa Fb Fv Hr Ha _ HD _); lra.
    - apply (max_norm_lt F64_laws); [apply (dl_01 F64 F64_div)|]. apply Forall_nth.
      intros i z Hz. unfold vdiv in Hz. apply nth_vmap2 in Hz. destruct Hz as (a & sc & E1 & E2 & ->).
      unfold vabs in E1. apply nth_map in E1. destruct E1 as (b & E1 & ->).
      unfold vscale_tol in E2. apply nth_map in E2. destruct E2 as (v & E2 & ->). apply nth_error_In in E2. unfold vfull in E2. apply repeat_spec in E2. subst v.
      assert (Fb : fin b = true) by (eapply Forall_forall in FF; [exact FF|eapply nth_error_In; exact E1]).
      apply vals_nth in E1. apply Rmax_norm_nth in E1. destruct zero_val as [F0 V0].
      refine (ratio_small (nc_rtol P) (nc_atol P) b (f64_ofQ 0) delta Fr Fa Fb F0 Hr Ha _ HD _); [rewrite V0, Rabs_R0; lra|lra].
  Qed.
End Newton64.

Lemma inf_ratio : forall sc : f64, fin sc = true -> nltb (n:=F64) (nabs (n:=F64) (ndiv (n:=F64) (nabs (n:=F64) (ninf (n:=F64))) sc)) (nofQ (n:=F64) 1) = false.
Proof. intros [sg|sg| |sg m e B1] H; try discriminate H; destruct sg; reflexivity. Qed.

(** Newton and Chord on doubles, with whatever Jacobians and linear solver, as long as the computed directions are those of an
    inexact Newton method: near the root, y - d is at most q |y - root| + eps away from the root.  All iterates stay finite
    and near, and the error contracts by q down to eps plus the rounding of the update. *)
Lemma C95_iterates_pf :
  forall (Aux M : Type) (jac : (list f64 -> list f64 * Aux) -> list f64 -> M) lsolve (P : nc_params (N:=F64)) fn (y0 : list f64) fs auxs
         (n : nat) (root : list R) (r q eps C epsF : R),
    let finite y := Forall (fun x : f64 => is_finite x = true) y in
    let near y := length y = n /\ finite y /\ Rdist_inf (map B2R y) root <= r in
    let B := Rmax_norm root + r in
    length root = n -> 0 <= q < 1 -> 0 <= eps -> B <= bpow radix2 1021 -> q * r + eps + bpow radix2 (-53) * B <= r ->
    (forall y, near y ->
       exists d, lsolve (jac fn (if nc_is_newton P then y else y0)) (fst (fn y)) = (d, successful) /\ length d = n /\ finite d /\
         Rdist_inf (Rsub_v (map B2R y) (map B2R d)) root <= q * Rdist_inf (map B2R y) root + eps /\
         finite (fst (fn y)) /\ Rmax_norm (map B2R (fst (fn y))) <= C * Rdist_inf (map B2R y) root + epsF) ->
    near y0 -> nc_lower P = None -> nc_upper P = None ->
    let s := newton_chord (N:=F64) jac lsolve P in
    forall st0, s_init s fn y0 fs auxs = Ret st0 ->
    let y k : list f64 := y_at s fn y0 st0 (auxs fill0) k in
    let err := eps + bpow radix2 (-53) * B in
    forall k, near (y k) /\
      Rdist_inf (map B2R (y (S k))) root <= q * Rdist_inf (map B2R (y k)) root + err /\
      Rdist_inf (map B2R (y k)) root <= q ^ k * r + err / (1 - q).
Proof.
  intros Aux M jac lsolve P fn y0 fs auxs n root r q eps C epsF finite near B Lr Hq He HB Hroom Hstep Hy0 Hlo Hup s st0 Hi y err k.
  change (Ret (nc_st0 (N:=F64) jac P fn y0 fs) = Ret st0) in Hi. injection Hi as <-.
  split; [|split].
  - exact (inv_newton jac lsolve P fn y0 fs (auxs fill0) n root r q eps C epsF Lr Hq He HB Hroom Hstep Hy0 Hlo Hup k).
  - exact (step_newton jac lsolve P fn y0 fs (auxs fill0) n root r q eps C epsF Lr Hq He HB Hroom Hstep Hy0 Hlo Hup k).
  - exact (rate_newton jac lsolve P fn y0 fs (auxs fill0) n root r q eps C epsF Lr Hq He HB Hroom Hstep Hy0 Hlo Hup k).
Qed.

(** Under the Cauchy criterion it succeeds within K + 1 steps once the bounds on step and residual that this gives are below
    some double that is at most atol / 2. *)
Lemma C95_terminates_pf :
  forall (Aux M : Type) (jac : (list f64 -> list f64 * Aux) -> list f64 -> M) lsolve (P : nc_params (N:=F64)) fn (y0 : list f64) fs auxs
         (n : nat) (root : list R) (r q eps C epsF : R) (delta : f64) (K : nat),
    let finite y := Forall (fun x : f64 => is_finite x = true) y in
    let near y := length y = n /\ finite y /\ Rdist_inf (map B2R y) root <= r in
    let B := Rmax_norm root + r in
    (0 < n)%nat -> length root = n -> 0 <= q < 1 -> 0 <= eps -> 0 <= C -> B <= bpow radix2 1021 -> q * r + eps + bpow radix2 (-53) * B <= r ->
    (forall y, near y ->
       exists d, lsolve (jac fn (if nc_is_newton P then y else y0)) (fst (fn y)) = (d, successful) /\ length d = n /\ finite d /\
         Rdist_inf (Rsub_v (map B2R y) (map B2R d)) root <= q * Rdist_inf (map B2R y) root + eps /\
         finite (fst (fn y)) /\ Rmax_norm (map B2R (fst (fn y))) <= C * Rdist_inf (map B2R y) root + epsF) ->
    near y0 -> nc_lower P = None -> nc_upper P = None -> nc_cauchy P = true -> nc_norm P = max_norm (N:=F64) ->
    is_finite (nc_rtol P : f64) = true -> is_finite (nc_atol P : f64) = true ->
    0 <= B2R (nc_rtol P) <= 1 -> 0 < B2R (nc_atol P) <= bpow radix2 1022 -> B2R delta <= B2R (nc_atol P) / 2 ->
    let err := eps + bpow radix2 (-53) * B in
    let E := q ^ K * r + err / (1 - q) in
    (1 + q) * E + eps <= B2R delta -> C * E + epsF <= B2R delta ->
    let s := newton_chord (N:=F64) jac lsolve P in
    exists k, (1 <= k <= S K)%nat /\
      forall fuel ms throw, (k < fuel)%nat -> (forall m, ms = Some m -> (k <= m)%nat) ->
        exists sol, iterative_solve vallfinite s fn fuel ms throw y0 fs auxs = Ret sol /\ result sol = successful.
Proof.
  intros Aux M jac lsolve P fn y0 fs auxs n root r q eps C epsF delta K finite near B Hn Lr Hq He HC HB Hroom Hstep Hy0 Hlo Hup HCa Hnm Fr Fa Hr Ha HD err E H1 H2 s.
  set (st0 := nc_st0 (N:=F64) jac P fn y0 fs).
  pose proof (rate_newton jac lsolve P fn y0 fs (auxs fill0) n root r q eps C epsF Lr Hq He HB Hroom Hstep Hy0 Hlo Hup K) as RT.
  fold B err E in RT.
  pose proof (inv_newton jac lsolve P fn y0 fs (auxs fill0) n root r q eps C epsF Lr Hq He HB Hroom Hstep Hy0 Hlo Hup) as INV.
  assert (T : says_terminate s fn y0 st0 (auxs fill0) (S K) = true).
  { apply (terminates_newton jac lsolve P fn y0 fs (auxs fill0) n root r q eps C epsF Lr Hq He HB Hroom Hstep Hy0 Hlo Hup HCa Hnm delta K Fr Fa Hr Ha HD).
    - assert ((1 + q) * Rdist_inf (vals (y_at s fn y0 st0 (auxs fill0) K)) root <= (1 + q) * E) by (apply Rmult_le_compat_l; [lra|exact RT]).
      eapply Rle_trans; [|exact H1]. apply Rplus_le_compat_r. exact H.
    - assert (C * Rdist_inf (vals (y_at s fn y0 st0 (auxs fill0) K)) root <= C * E) by (apply Rmult_le_compat_l; [lra|exact RT]).
      eapply Rle_trans; [|exact H2]. apply Rplus_le_compat_r. exact H. }
  assert (T0 : says_terminate s fn y0 st0 (auxs fill0) 0 = false).
  { unfold says_terminate. change (asked s fn y0 st0 (auxs fill0) 0) with y0. change (st_at s fn y0 st0 (auxs fill0) 0) with st0.
    cbn [s_terminate s newton_chord]. unfold nc_terminate. unfold st0, nc_st0; rewrite HCa; cbn [nc_result nc_step nc_diff nc_f results_eqb negb orb fst].
    unfold cauchy_termination. apply andb_false_iff. left. rewrite Hnm.
    destruct (nltb _ _) eqn:EE; auto. exfalso.
    apply (max_norm_lt F64_laws) in EE; [|apply (dl_01 F64 F64_div)]. rewrite Forall_nth in EE.
    destruct Hy0 as (Ly & Fy & Ny). destruct y0 as [|a y0']; [simpl in Ly; lia|].
    assert (Fa0 : fin a = true) by (inversion Fy; assumption).
    assert (NB : Rmax_norm (vals (a :: y0')) <= B).
    { unfold B. apply (norm_near n root Lr); [rewrite map_length; exact Ly|exact Ny]. }
    assert (TW : bpow radix2 1022 = 2 * bpow radix2 1021) by exact (bpow_twice 1021). assert (P21 : 0 < bpow radix2 1021) by apply bpow_gt_0.
    assert (NA : Rabs (val a) <= bpow radix2 1022).
    { pose proof (Rmax_norm_nth (vals (a :: y0')) 0 (val a) eq_refl). lra. }
    destruct (scale_val (nc_rtol P) (nc_atol P) a Fr Fa Fa0 Hr ltac:(lra) NA) as (Fs & _).
    pose proof (eq_trans (eq_sym (EE 0%nat _ eq_refl)) (inf_ratio _ Fs)) as ZZ. discriminate ZZ. }
  destruct (solve_succeeds (vallfinite (N:=F64)) s fn y0 st0 (auxs fill0) fs auxs eq_refl eq_refl) as (k & Tk & Mn & HSS).
  - intros [|k]; [unfold says_result; cbn [s_terminate s newton_chord]; unfold nc_terminate; rewrite HCa; reflexivity|].
    unfold says_result, asked. cbn [Nat.pred].
    destruct (st_newton jac lsolve P fn y0 fs (auxs fill0) n root r q eps C epsF Lr Hq He HB Hroom Hstep Hy0 Hlo Hup HCa Hnm k) as (d & _ & _ & _ & _ & _ & _ & ET).
    exact (f_equal snd ET).
  - intro k. unfold asked. apply all_finite. apply INV.
  - exists (S K). exact T.
  - exists k. split.
    + split; [destruct k as [|k]; [pose proof (eq_trans (eq_sym Tk) T0) as ZZ; discriminate ZZ|lia]|].
      destruct (le_lt_dec k (S K)) as [Z|Z]; [exact Z|]. pose proof (eq_trans (eq_sym T) (Mn _ Z)) as ZZ. discriminate ZZ.
    + intros fuel ms throw Hf Hm. destruct (HSS fuel ms throw Hf Hm) as [E1 E2]. eexists; split; eauto.
Qed.

(** What success means on doubles: the returned point is finite and within q (tol + eps) / (1 - q) of the root, plus eps and the rounding
    of the update, tol being the requested tolerance up to a relative 2^-50 and an absolute 2^-1074. *)
Lemma C95_success_pf :
  forall (Aux M : Type) (jac : (list f64 -> list f64 * Aux) -> list f64 -> M) lsolve (P : nc_params (N:=F64)) fn (y0 : list f64) fs auxs
         (n : nat) (root : list R) (r q eps C epsF : R) fuel ms throw sol,
    let finite y := Forall (fun x : f64 => is_finite x = true) y in
    let near y := length y = n /\ finite y /\ Rdist_inf (map B2R y) root <= r in
    let B := Rmax_norm root + r in
    (0 < n)%nat -> length root = n -> 0 <= q < 1 -> 0 <= eps -> B <= bpow radix2 1021 -> q * r + eps + bpow radix2 (-53) * B <= r ->
    (forall y, near y ->
       exists d, lsolve (jac fn (if nc_is_newton P then y else y0)) (fst (fn y)) = (d, successful) /\ length d = n /\ finite d /\
         Rdist_inf (Rsub_v (map B2R y) (map B2R d)) root <= q * Rdist_inf (map B2R y) root + eps /\
         finite (fst (fn y)) /\ Rmax_norm (map B2R (fst (fn y))) <= C * Rdist_inf (map B2R y) root + epsF) ->
    near y0 -> nc_lower P = None -> nc_upper P = None -> nc_cauchy P = true -> nc_norm P = max_norm (N:=F64) ->
    is_finite (nc_rtol P : f64) = true -> is_finite (nc_atol P : f64) = true ->
    0 <= B2R (nc_rtol P) <= 1 -> 0 < B2R (nc_atol P) <= bpow radix2 1022 ->
    iterative_solve vallfinite (newton_chord (N:=F64) jac lsolve P) fn fuel ms throw y0 fs auxs = Ret sol -> result sol = successful ->
    let err := eps + bpow radix2 (-53) * B in
    let tol := (1 + bpow radix2 (-50)) * (B2R (nc_atol P) + B2R (nc_rtol P) * B) + bpow radix2 (-1074) in
    near (value sol) /\ Rdist_inf (map B2R (value sol : list f64)) root <= q * (tol + eps) / (1 - q) + err.
Proof.
  intros Aux M jac lsolve P fn y0 fs auxs n root r q eps C epsF fuel ms throw sol finite near B Hn Lr Hq He HB Hroom Hstep Hy0 Hlo Hup HCa Hnm Fr Fa Hr Ha H HR err tol.
  set (s := newton_chord (N:=F64) jac lsolve P) in *.
  set (st0 := nc_st0 (N:=F64) jac P fn y0 fs).
  pose proof (inv_newton jac lsolve P fn y0 fs (auxs fill0) n root r q eps C epsF Lr Hq He HB Hroom Hstep Hy0 Hlo Hup) as INV.
  destruct (success_inv _ _ _ vallfinite s fn y0 st0 fs auxs fuel ms throw sol eq_refl H HR) as (k & _ & HS & Esol & HF & HT & _).
  assert (K0 : k <> O).
  { intros ->. unfold says_terminate in HT. change (asked s fn y0 st0 (auxs fill0) 0) with y0 in HT. change (st_at s fn y0 st0 (auxs fill0) 0) with st0 in HT.
    cbn [s_terminate s newton_chord] in HT. unfold nc_terminate in HT. unfold st0, nc_st0 in HT; rewrite HCa in HT; cbn [nc_result nc_step nc_diff nc_f results_eqb negb orb fst] in HT.
    unfold cauchy_termination in HT. apply andb_true_iff in HT. destruct HT as [EE _]. rewrite Hnm in EE.
    apply (max_norm_lt F64_laws) in EE; [|apply (dl_01 F64 F64_div)]. rewrite Forall_nth in EE.
    destruct Hy0 as (Ly & Fy & Ny). destruct y0 as [|a y0']; [simpl in Ly; lia|].
    assert (Fa0 : fin a = true) by (inversion Fy; assumption).
    assert (NB : Rmax_norm (vals (a :: y0')) <= B).
    { unfold B. apply (norm_near n root Lr); [rewrite map_length; exact Ly|exact Ny]. }
    assert (TW : bpow radix2 1022 = 2 * bpow radix2 1021) by exact (bpow_twice 1021). assert (P21 : 0 < bpow radix2 1021) by apply bpow_gt_0.
    assert (NA : Rabs (val a) <= bpow radix2 1022).
    { pose proof (Rmax_norm_nth (vals (a :: y0')) 0 (val a) eq_refl). lra. }
    destruct (scale_val (nc_rtol P) (nc_atol P) a Fr Fa Fa0 Hr ltac:(lra) NA) as (Fs & _).
    pose proof (eq_trans (eq_sym (EE 0%nat _ eq_refl)) (inf_ratio _ Fs)) as ZZ. discriminate ZZ. }
  destruct k as [|k]; [congruence|].
  set (y := fun k => y_at s fn y0 st0 (auxs fill0) k : list f64).
  assert (EV : value sol = y (S k)) by (rewrite Esol; reflexivity).
  rewrite EV. split; [exact (INV (S k))|].
  pose proof (step_newton jac lsolve P fn y0 fs (auxs fill0) n root r q eps C epsF Lr Hq He HB Hroom Hstep Hy0 Hlo Hup k) as ST.
  change (Rdist_inf (vals (y (S k))) root <= q * Rdist_inf (vals (y k)) root + err) in ST.
  destruct (st_newton jac lsolve P fn y0 fs (auxs fill0) n root r q eps C epsF Lr Hq He HB Hroom Hstep Hy0 Hlo Hup HCa Hnm k) as (d & _ & Ld & Fd & HN & _ & _ & ET).
  destruct (dir_newton jac lsolve P fn y0 fs (auxs fill0) n root r q eps C epsF Lr Hq He HB Hroom Hstep Hy0 Hlo Hup k d Ld HN) as [DN DE].
  change ((1 - q) * Rdist_inf (vals (y k)) root <= Rmax_norm (vals d) + eps) in DE.
  destruct (INV k) as (Ly & Fy & Ny). change (Rdist_inf (vals (y k)) root <= r) in Ny. change (length (y k) = n) in Ly. change (finite (y k)) in Fy.
  assert (NB : Rmax_norm (vals (y k)) <= B).
  { unfold B. apply (norm_near n root Lr); [rewrite map_length; exact Ly|exact Ny]. }
  assert (TW : bpow radix2 1022 = 2 * bpow radix2 1021) by exact (bpow_twice 1021). assert (P21 : 0 < bpow radix2 1021) by apply bpow_gt_0.
  assert (B50 : 0 < bpow radix2 (-50)) by apply bpow_gt_0. assert (B74 : 0 < bpow radix2 (-1074)) by apply bpow_gt_0.
  assert (B0 : 0 <= B) by (pose proof (Rmax_norm_pos (vals (y k))); lra).
  assert (r0 : 0 <= r) by (pose proof (Rdist_inf_pos (vals (y k)) root); lra).
  assert (TL : Rmax_norm (vals d) <= tol).
  { unfold says_terminate, asked in HT. cbn [Nat.pred] in HT. pose proof (eq_trans (eq_sym (f_equal fst ET)) HT) as CT. cbn [fst] in CT.
    unfold cauchy_termination in CT. apply andb_true_iff in CT. destruct CT as [CT _].
    apply (max_norm_lt F64_laws) in CT; [|apply (dl_01 F64 F64_div)]. rewrite Forall_nth in CT.
    assert (R1 : 0 <= val (nc_rtol P) * B) by (apply Rmult_le_pos; lra).
    assert (R2 : 0 <= (1 + bpow radix2 (-50)) * (val (nc_atol P) + val (nc_rtol P) * B)) by (apply Rmult_le_pos; lra).
    apply Rmax_norm_le; [unfold tol; lra|]. intros i z Hz. pose proof (Rmax_norm_nth _ _ _ Hz) as ND. apply nth_vals in Hz. destruct Hz as (b & Eb & ->).
    assert (Fb : fin b = true) by (eapply Forall_forall in Fd; [exact Fd|eapply nth_error_In; exact Eb]).
    assert (IL : (i < length (y k))%nat).
    { rewrite Ly, <- Ld. apply nth_error_Some. intro Z. pose proof (eq_trans (eq_sym Eb) Z) as ZZ. discriminate ZZ. }
    destruct (nth_error (y k) i) as [a|] eqn:Ea; [|apply nth_error_Some in IL; congruence].
    assert (FA : fin a = true) by (eapply Forall_forall in Fy; [exact Fy|eapply nth_error_In; exact Ea]).
    pose proof (Rmax_norm_nth _ _ _ (vals_nth _ _ _ Ea)) as NA.
    assert (DB : Rabs (val b) <= bpow radix2 1022).
    { change (Rmax_norm (vals d) <= (1 + q) * Rdist_inf (vals (y k)) root + eps) in DN.
      assert (q * Rdist_inf (vals (y k)) root <= q * r) by (apply Rmult_le_compat_l; lra).
      assert (0 <= bpow radix2 (-53) * B) by (apply Rmult_le_pos; [apply bpow_ge_0|lra]).
      assert (r <= B) by (unfold B; pose proof (Rmax_norm_pos root); lra). lra. }
    eapply Rle_trans; [refine (ratio_tells (nc_rtol P) (nc_atol P) b a Fr Fa Fb FA Hr Ha _ DB _)|].
    - lra.
    - apply (CT i). unfold vdiv. apply nth_vmap2.
      exists (nabs (n:=F64) b), (nadd (n:=F64) (nc_atol P) (nmul (n:=F64) (nc_rtol P) (nabs (n:=F64) a))). split; [|split; [|reflexivity]].
      + unfold vabs. apply nth_map. exists b. auto.
      + unfold vscale_tol. apply nth_map. exists a. split; [exact Ea|reflexivity].
    - unfold tol. apply Rplus_le_compat_r. apply Rmult_le_compat_l; [lra|]. apply Rplus_le_compat_l. apply Rmult_le_compat_l; lra. }
  assert (EK : Rdist_inf (vals (y k)) root <= (tol + eps) / (1 - q)).
  { apply (Rmult_le_reg_r (1 - q)); [lra|]. unfold Rdiv. rewrite Rmult_assoc, Rinv_l, Rmult_1_r by lra. lra. }
  assert (q * Rdist_inf (vals (y k)) root <= q * ((tol + eps) / (1 - q))) by (apply Rmult_le_compat_l; lra).
  unfold Rdiv in *. rewrite Rmult_assoc. lra.
Qed.

Lemma rnd_err : forall x, Rabs x <= 4 -> Rabs (rnd x - x) <= bpow radix2 (-50).
Proof.
  intros x H. destruct (rnd_any x) as (e & eta & A & B & _ & ->).
  replace (x * (1 + e) + eta - x) with (x * e + eta) by ring.
  assert (Rabs (x * e) <= 4 * bpow radix2 (-53)) by (rewrite Rabs_mult; apply Rmult_le_compat; auto using Rabs_pos).
  pose proof (Rabs_triang (x * e) eta).
  assert (T1 : bpow radix2 (-52) = 2 * bpow radix2 (-53)) by exact (bpow_twice (-53)).
  assert (T2 : bpow radix2 (-51) = 2 * bpow radix2 (-52)) by exact (bpow_twice (-52)).
  assert (T3 : bpow radix2 (-50) = 2 * bpow radix2 (-51)) by exact (bpow_twice (-51)).
  assert (bpow radix2 (-1075) <= bpow radix2 (-53)) by (apply bpow_le; lia).
  assert (0 < bpow radix2 (-53)) by apply bpow_gt_0. lra.
Qed.

Lemma sqrt2_bounds : 7 / 5 <= sqrt 2 <= 3 / 2.
Proof.
  assert (S : sqrt 2 * sqrt 2 = 2) by (apply sqrt_sqrt; lra). pose proof (sqrt_pos 2). split; nra.
Qed.

Lemma sq2_step : forall a : f64, fin a = true -> Rabs (val a - sqrt 2) <= / 4 ->
  let f := fsub (fmul a a) (f64_ofQ 2) in let d := fdiv f (fmul (f64_ofQ 2) a) in
  fin f = true /\ fin d = true /\
  Rabs (val a - val d - sqrt 2) <= / 8 * Rabs (val a - sqrt 2) + bpow radix2 (-48) /\
  Rabs (val f) <= 4 * Rabs (val a - sqrt 2) + bpow radix2 (-49).
Proof.
  intros a Fa H f d. destruct sqrt2_bounds as [L U]. assert (S : sqrt 2 * sqrt 2 = 2) by (apply sqrt_sqrt; lra).
  assert (Ha : 23 / 20 <= val a <= 7 / 4) by (pose proof (Rabs_le_inv _ _ H); lra).
  assert (BG : 64 <= bpow radix2 1023) by (change 64 with (bpow radix2 6); apply bpow_le; lia). set (x := val a) in *. set (w := sqrt 2) in *.
  set (u := bpow radix2 (-50)). assert (U0 : 0 < u) by apply bpow_gt_0.
  assert (U1 : u <= / 1048576) by apply small_bpow.
  assert (U2 : bpow radix2 (-49) = 2 * u) by exact (bpow_twice (-50)).
  assert (U3 : bpow radix2 (-48) = 2 * bpow radix2 (-49)) by exact (bpow_twice (-49)).
  assert (F2 : fin (f64_ofQ 2) = true) by (vm_compute; reflexivity).
  assert (XX : 13 / 10 <= x * x <= 31 / 10) by (clear BG; nra).
  destruct (fmul_val a a Fa Fa) as [Fm Vm]. { change (Rabs (x * x) <= bpow radix2 1023). rewrite Rabs_pos_eq by lra. lra. }
  change (val (fmul a a) = rnd (x * x)) in Vm.
  assert (E1 : Rabs (rnd (x * x) - x * x) <= u) by (apply rnd_err; rewrite Rabs_pos_eq by lra; lra).
  rewrite <- Vm in E1. set (p := val (fmul a a)) in *.
  assert (P1 : - u <= p - x * x <= u) by (pose proof (Rabs_le_inv _ _ E1); lra).
  destruct (fsub_val _ _ Fm F2) as [Ff Vf]. { rewrite two_val. change (Rabs (p - 2) <= bpow radix2 1023). apply Rabs_le. lra. }
  rewrite two_val in Vf. change (val f = rnd (p - 2)) in Vf. change (fin f = true) in Ff.
  assert (E2 : Rabs (rnd (p - 2) - (p - 2)) <= u) by (apply rnd_err; apply Rabs_le; lra).
  rewrite <- Vf in E2.
  assert (P2 : - u <= val f - (p - 2) <= u) by (pose proof (Rabs_le_inv _ _ E2); lra).
  destruct (fmul_val (f64_ofQ 2) a F2 Fa) as [Fd Vd]. { rewrite two_val. change (Rabs (2 * x) <= bpow radix2 1023). rewrite Rabs_pos_eq by lra. lra. }
  rewrite two_val in Vd. change (val (fmul (f64_ofQ 2) a) = rnd (2 * x)) in Vd.
  assert (E3 : Rabs (rnd (2 * x) - 2 * x) <= u) by (apply rnd_err; rewrite Rabs_pos_eq by lra; lra).
  rewrite <- Vd in E3. set (m := val (fmul (f64_ofQ 2) a)) in *.
  assert (P3 : - u <= m - 2 * x <= u) by (pose proof (Rabs_le_inv _ _ E3); lra).
  assert (M0 : m <> 0) by lra.
  set (t := val f / m). assert (TM : t * m = val f) by (unfold t; field; exact M0).
  set (g := (x * x - 2) / (2 * x)). assert (GX : g * (2 * x) = x * x - 2) by (unfold g; field; lra).
  assert (G1 : - 1 <= g <= 1) by (split; nra).
  assert (TG : (t - g) * m = (val f - (p - 2)) + (p - x * x) - g * (m - 2 * x)) by (rewrite Rmult_minus_distr_r, TM; lra).
  assert (GM : - u <= g * (m - 2 * x) <= u) by (split; nra).
  assert (T1 : - (2 * u) <= t - g <= 2 * u) by (split; nra).
  assert (T4 : Rabs t <= 4) by (apply Rabs_le; lra).
  destruct (fdiv_val f (fmul (f64_ofQ 2) a) Ff Fd M0) as [Fq Vq]. { change (Rabs t <= bpow radix2 1023). lra. }
  change (val d = rnd t) in Vq. change (fin d = true) in Fq.
  pose proof (rnd_err t T4) as E4. rewrite <- Vq in E4. fold u in E4. pose proof (Rabs_le_inv _ _ E4) as P4.
  assert (KEY : x - g - w = (x - w) * ((x - w) / (2 * x))).
  { apply (Rmult_eq_reg_r (2 * x)); [|lra].
    replace ((x - w) * ((x - w) / (2 * x)) * (2 * x)) with ((x - w) * (x - w)) by (field; lra).
    replace ((x - g - w) * (2 * x)) with ((x - w) * (2 * x) - g * (2 * x)) by ring. rewrite GX. nra. }
  split; [exact Ff|]. split; [exact Fq|]. split.
  - replace (x - val d - w) with ((x - g - w) + ((t - val d) + (g - t))) by ring. eapply Rle_trans; [apply Rabs_triang|].
    apply Rplus_le_compat; [|rewrite U3, U2; apply Rabs_le; lra].
    rewrite KEY, Rabs_mult, Rmult_comm. apply Rmult_le_compat_r; [apply Rabs_pos|].
    unfold Rdiv. rewrite Rabs_mult, (Rabs_pos_eq (/ (2 * x))) by (left; apply Rinv_0_lt_compat; lra).
    apply (Rmult_le_reg_r (2 * x)); [lra|]. rewrite Rmult_assoc, Rinv_l, Rmult_1_r by lra. lra.
  - replace (val f) with ((x - w) * (x + w) + ((val f - (p - 2)) + (p - x * x))) by (rewrite <- S; ring || nra).
    eapply Rle_trans; [apply Rabs_triang|]. apply Rplus_le_compat; [|rewrite U2; apply Rabs_le; lra].
    rewrite Rabs_mult, Rmult_comm. apply Rmult_le_compat_r; [apply Rabs_pos|]. apply Rabs_le. lra.
Qed.

Lemma threehalves_val : val (f64_ofQ (3#2)) = 3 / 2.
Proof.
  assert (E : B2SF (f64_ofQ (3#2)) = SpecFloat.S754_finite false 6755399441055744 (-52)) by (vm_compute; reflexivity).
  rewrite <- SF2R_B2SF, E. unfold SF2R, F2R. cbn [cond_Zopp Fnum Fexp].
  change (bpow radix2 (-52)) with (/ 4503599627370496). lra.
Qed.

Lemma one_norm : forall x : R, Rmax_norm [x] = Rabs x.
Proof. intro x. cbn [Rmax_norm fold_right]. apply Rmax_left. apply Rabs_pos. Qed.
Lemma one_dist : forall x y : R, Rdist_inf [x] [y] = Rabs (x - y).
Proof. intros x y. apply (one_norm (x - y)). Qed.

Lemma sq2_hyps :
  let finite y := Forall (fun x : f64 => is_finite x = true) y in
  let near y := length y = 1%nat /\ finite y /\ Rdist_inf (map B2R y) [sqrt 2] <= / 4 in
  let B := Rmax_norm [sqrt 2] + / 4 in let q := / 8 in let eps := bpow radix2 (-48) in
  B <= bpow radix2 1021 /\ q * / 4 + eps + bpow radix2 (-53) * B <= / 4 /\
  (forall y, near y ->
     exists d, sq2solve (sq2jac sq2 (if nc_is_newton sq2P then y else [f64_ofQ (3#2)])) (fst (sq2 y)) = (d, successful) /\ length d = 1%nat /\ finite d /\
       Rdist_inf (Rsub_v (map B2R y) (map B2R d)) [sqrt 2] <= q * Rdist_inf (map B2R y) [sqrt 2] + eps /\
       finite (fst (sq2 y)) /\ Rmax_norm (map B2R (fst (sq2 y))) <= 4 * Rdist_inf (map B2R y) [sqrt 2] + bpow radix2 (-49)) /\
  near [f64_ofQ (3#2)] /\ B <= 7 / 4 /\ eps + bpow radix2 (-53) * B <= / 1048576.
Proof.
  intros finite near B q eps. destruct sqrt2_bounds as [L U].
  assert (HB : B <= 7 / 4) by (unfold B; rewrite one_norm, Rabs_pos_eq by lra; lra).
  assert (B0 : 0 <= B) by (unfold B; rewrite one_norm, Rabs_pos_eq by lra; lra).
  assert (Q : bpow radix2 (-24) <= / 16777216) by (right; reflexivity).
  assert (E1 : eps <= bpow radix2 (-24)) by (unfold eps; apply bpow_le; lia).
  assert (E2 : bpow radix2 (-53) <= bpow radix2 (-24)) by (apply bpow_le; lia).
  assert (E3 : bpow radix2 (-53) * B <= / 16777216 * (7 / 4)) by (apply Rmult_le_compat; try lra; apply bpow_ge_0).
  split; [|split; [|split; [|split; [|split]]]].
  - eapply Rle_trans; [exact HB|]. assert (2 <= bpow radix2 1021) by (change 2 with (bpow radix2 1); apply bpow_le; lia). lra.
  - unfold q. lra.
  - intros y (Ly & Fy & Ny). destruct y as [|a [|b y]]; try discriminate Ly.
    assert (Fa : fin a = true) by (inversion Fy; assumption).
    change (Rdist_inf [val a] [sqrt 2] <= / 4) in Ny. rewrite one_dist in Ny.
    destruct (sq2_step a Fa Ny) as (S1 & S2 & S3 & S4).
    exists [fdiv (fsub (fmul a a) (f64_ofQ 2)) (fmul (f64_ofQ 2) a)].
    split; [reflexivity|]. split; [reflexivity|]. split; [apply Forall_cons; [exact S2|apply Forall_nil]|]. split; [|split].
    + change (Rdist_inf [val a - val (fdiv (fsub (fmul a a) (f64_ofQ 2)) (fmul (f64_ofQ 2) a))] [sqrt 2] <= q * Rdist_inf [val a] [sqrt 2] + eps).
      rewrite !one_dist. exact S3.
    + apply Forall_cons; [exact S1|apply Forall_nil].
    + change (Rmax_norm [val (fsub (fmul a a) (f64_ofQ 2))] <= 4 * Rdist_inf [val a] [sqrt 2] + bpow radix2 (-49)). rewrite one_dist, one_norm. exact S4.
  - split; [reflexivity|]. split; [apply Forall_cons; [vm_compute; reflexivity|apply Forall_nil]|].
    change (Rdist_inf [val (f64_ofQ (3#2))] [sqrt 2] <= / 4). rewrite one_dist.
    rewrite threehalves_val. apply Rabs_le. lra.
  - exact HB.
  - lra.
Qed.

(** x^2 - 2 in doubles from 1.5, with tolerances 2^-10. *)
Example C95_iterates_ex_pf : forall fs k,
  let s := newton_chord (N:=F64) sq2jac sq2solve sq2P in
  let y : list f64 := y_at s sq2 [f64_ofQ (3#2)] (nc_st0 (N:=F64) sq2jac sq2P sq2 [f64_ofQ (3#2)] fs) tt k in
  Forall (fun x : f64 => is_finite x = true) y /\
  Rdist_inf (map B2R y) [sqrt 2] <= (/ 8) ^ k * / 4 + (bpow radix2 (-48) + bpow radix2 (-53) * (Rmax_norm [sqrt 2] + / 4)) / (1 - / 8).
Proof.
  intros fs k s y. destruct sq2_hyps as (H1 & H2 & H3 & H4 & _).
  destruct (C95_iterates_pf unit (list f64) sq2jac sq2solve sq2P sq2 [f64_ofQ (3#2)] fs (fun _ => tt) 1 [sqrt 2] (/ 4) (/ 8) (bpow radix2 (-48)) 4 (bpow radix2 (-49))
    eq_refl ltac:(lra) (bpow_ge_0 _ _) H1 H2 H3 H4 eq_refl eq_refl _ eq_refl k) as ((_ & F & _) & _ & Rt).
  split; [exact F|exact Rt].
Qed.

Example C95_terminates_ex_pf : forall fs auxs, exists k, (1 <= k <= 6)%nat /\
  forall fuel ms throw, (k < fuel)%nat -> (forall m, ms = Some m -> (k <= m)%nat) ->
    exists sol, iterative_solve vallfinite (newton_chord (N:=F64) sq2jac sq2solve sq2P) sq2 fuel ms throw [f64_ofQ (3#2)] fs auxs = Ret sol /\
      result sol = successful.
Proof.
  intros fs auxs. destruct sq2_hyps as (H1 & H2 & H3 & H4 & H5 & H6).
  assert (BG : 1 <= bpow radix2 1022) by (change 1 with (bpow radix2 0); apply bpow_le; lia).
  assert (Q : bpow radix2 (-24) <= / 16777216) by (right; reflexivity).
  assert (E1 : bpow radix2 (-48) <= bpow radix2 (-24)) by (apply bpow_le; lia).
  assert (E2 : bpow radix2 (-49) <= bpow radix2 (-24)) by (apply bpow_le; lia).
  assert (PW : (/ 8) ^ 5 <= / 32768) by (cbn [pow]; lra).
  refine (C95_terminates_pf unit (list f64) sq2jac sq2solve sq2P sq2 [f64_ofQ (3#2)] fs auxs 1 [sqrt 2] (/ 4) (/ 8) (bpow radix2 (-48)) 4 (bpow radix2 (-49)) (f64_ofQ (1#4096)) 5
    ltac:(lia) eq_refl ltac:(lra) (bpow_ge_0 _ _) ltac:(lra) H1 H2 H3 H4 eq_refl eq_refl eq_refl eq_refl _ _ _ _ _ _ _).
  - vm_compute; reflexivity.
  - vm_compute; reflexivity.
  - change (0 <= val (f64_ofQ (1#1024)) <= 1). rewrite tol1024_val. lra.
  - change (0 < val (f64_ofQ (1#1024)) <= bpow radix2 1022). rewrite tol1024_val. lra.
  - change (val (f64_ofQ (1#4096)) <= val (f64_ofQ (1#1024)) / 2). rewrite tol1024_val, delta4096_val. lra.
  - rewrite delta4096_val. unfold Rdiv. replace (/ (1 - / 8)) with (8 / 7) by field. lra.
  - rewrite delta4096_val. unfold Rdiv. replace (/ (1 - / 8)) with (8 / 7) by field. lra.
Qed.

Example C95_success_ex_pf : forall fs auxs, exists fuel sol,
  iterative_solve vallfinite (newton_chord (N:=F64) sq2jac sq2solve sq2P) sq2 fuel None true [f64_ofQ (3#2)] fs auxs = Ret sol /\
  result sol = successful /\ Rdist_inf (map B2R (value sol : list f64)) [sqrt 2] <= / 2000.
Proof.
  intros fs auxs. destruct (C95_terminates_ex_pf fs auxs) as (k & _ & HS).
  destruct (HS (S k) None true ltac:(lia) ltac:(intros m Z; discriminate Z)) as (sol & E & Rs). exists (S k), sol.
  split; [exact E|]. split; [exact Rs|].
  destruct sq2_hyps as (H1 & H2 & H3 & H4 & H5 & H6).
  assert (BG : 1 <= bpow radix2 1022) by (change 1 with (bpow radix2 0); apply bpow_le; lia).
  assert (Q : bpow radix2 (-24) <= / 16777216) by (right; reflexivity).
  assert (E1 : bpow radix2 (-48) <= bpow radix2 (-24)) by (apply bpow_le; lia).
  destruct (C95_success_pf unit (list f64) sq2jac sq2solve sq2P sq2 [f64_ofQ (3#2)] fs auxs 1 [sqrt 2] (/ 4) (/ 8) (bpow radix2 (-48)) 4 (bpow radix2 (-49)) (S k) None true sol
    ltac:(lia) eq_refl ltac:(lra) (bpow_ge_0 _ _) H1 H2 H3 H4 eq_refl eq_refl eq_refl eq_refl) as (_ & HD).
  - vm_compute; reflexivity.
  - vm_compute; reflexivity.
  - change (0 <= val (f64_ofQ (1#1024)) <= 1). rewrite tol1024_val. lra.
  - change (0 < val (f64_ofQ (1#1024)) <= bpow radix2 1022). rewrite tol1024_val. lra.
  - exact E.
  - exact Rs.
  - change (nc_atol sq2P) with (f64_ofQ (1#1024)) in HD. change (nc_rtol sq2P) with (f64_ofQ (1#1024)) in HD. rewrite tol1024_val in HD.
    eapply Rle_trans; [exact HD|]. destruct small_bpow as [S1 S2]. unfold Rdiv. replace (/ (1 - / 8)) with (8 / 7) by field.
    assert (0 < bpow radix2 (-50)) by apply bpow_gt_0.
    assert ((1 + bpow radix2 (-50)) * (/ 1024 + / 1024 * (Rmax_norm [sqrt 2] + / 4)) <= (1 + / 1048576) * (/ 1024 + / 1024 * (7 / 4))).
    { apply Rmult_le_compat; try lra. pose proof (Rmax_norm_pos [sqrt 2]). lra. }
    lra.
Qed.
