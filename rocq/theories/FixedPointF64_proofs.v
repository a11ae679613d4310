(** Fixed-point iteration in binary64 arithmetic (C88). *)

From Coq Require Import String List Bool Arith Lia ZArith QArith Qreals Reals Lra.
From Flocq Require Import Core.
From Flocq.IEEE754 Require Import BinarySingleNaN.
From Verif Require Import Num NumFacts NumDiv Vec Results Iterate Spec_Iterate Iterate_proofs.
From Verif Require Import Spec_Vec VecFacts FixedPoint FixedPoint_proofs NumF64 NumF64_facts F64Facts.
Import ListNotations.
Local Open Scope R_scope.

Notation vals := (map val).

(* one component of the damped update, in rounded arithmetic *)
Lemma update_val : forall (d a y : f64) (B : R), fin d = true -> fin a = true -> fin y = true ->
  0 <= val d < 1 -> Rabs (val a) <= B -> Rabs (val y) <= B -> B <= bpow radix2 1022 ->
  let v := fadd (fmul (fsub (f64_ofQ 1) d) a) (fmul d y) in
  fin v = true /\ Rabs (val v - ((1 - val d) * val a + val d * val y)) <= bpow radix2 (-50) * B + bpow radix2 (-1073).
Proof.
  intros d a y B Fd Fa Fy Hd Ha Hy HB v. unfold v.
  assert (F1 : fin (f64_ofQ 1) = true) by (vm_compute; reflexivity). pose proof one_val as V1.
  assert (TW : bpow radix2 1023 = 2 * bpow radix2 1022) by exact (bpow_twice 1022).
  assert (BG : 2 <= bpow radix2 1022) by exact big_bpow.
  assert (B0 : 0 <= B) by (eapply Rle_trans; [apply Rabs_pos|exact Ha]).
  destruct (fsub_val (f64_ofQ 1) d F1 Fd) as (Fc & Vc); [rewrite V1; apply Rabs_le; lra|]. rewrite V1 in Vc.
  assert (C01 : 0 <= rnd (1 - val d) <= 1).
  { assert (G0 : rnd 0 <= rnd (1 - val d)) by (apply rnd_le; lra). rewrite round_0 in G0 by typeclasses eauto.
    assert (G1 : rnd (1 - val d) <= rnd 1) by (apply rnd_le; lra).
    rewrite (rnd_id 1) in G1 by (rewrite <- V1; apply val_format). lra. }
  assert (I1 : is_f64 1) by (rewrite <- V1; apply val_format).
  destruct (rnd_minus 1 (val d) I1 (val_format d)) as (e1 & A1 & E1).
  set (c := rnd (1 - val d)) in *.
  assert (CA : Rabs (c * val a) <= B).
  { rewrite Rabs_mult, (Rabs_pos_eq c) by lra. apply Rle_trans with (1 * Rabs (val a)); [apply Rmult_le_compat_r; [apply Rabs_pos|lra]|lra]. }
  assert (DY : Rabs (val d * val y) <= B).
  { rewrite Rabs_mult, (Rabs_pos_eq (val d)) by lra. apply Rle_trans with (1 * Rabs (val y)); [apply Rmult_le_compat_r; [apply Rabs_pos|lra]|lra]. }
  destruct (fmul_val (fsub (f64_ofQ 1) d) a Fc Fa) as (Fp & Vp); [rewrite Vc; lra|].
  destruct (fmul_val d y Fd Fy) as (Fr & Vr); [lra|]. rewrite Vc in Vp.
  assert (P2 : Rabs (rnd (c * val a)) <= bpow radix2 1022) by (apply rnd_bound; [lia|lra]).
  assert (R2 : Rabs (rnd (val d * val y)) <= bpow radix2 1022) by (apply rnd_bound; [lia|lra]).
  apply Rabs_le_inv in P2. apply Rabs_le_inv in R2.
  destruct (fadd_val _ _ Fp Fr) as (Fs & Vs); [rewrite Vp, Vr, TW; apply Rabs_le; lra|].
  split; [exact Fs|]. rewrite Vs, Vp, Vr.
  assert (IP : is_f64 (rnd (c * val a))) by (apply generic_format_round; typeclasses eauto).
  assert (IR : is_f64 (rnd (val d * val y))) by (apply generic_format_round; typeclasses eauto).
  destruct (rnd_plus _ _ IP IR) as (e4 & A4 & E4). rewrite E4. clear E4 IP IR Vs Fs.
  destruct (rnd_any (c * val a)) as (e2 & t2 & A2 & T2 & _ & E2).
  destruct (rnd_any (val d * val y)) as (e3 & t3 & A3 & T3 & _ & E3).
  assert (B50 : bpow radix2 (-50) = 8 * bpow radix2 (-53)).
  { change (-50)%Z with (3 + -53)%Z. rewrite bpow_plus. reflexivity. }
  assert (T73 : bpow radix2 (-1073) = 4 * bpow radix2 (-1075)).
  { change (-1073)%Z with (2 + -1075)%Z. rewrite bpow_plus. reflexivity. }
  assert (Bs : bpow radix2 (-53) <= / 64).
  { change (/ 64) with (bpow radix2 (-6)). apply bpow_le. lia. }
  rewrite B50, T73. assert (b0 : 0 < bpow radix2 (-53)) by apply bpow_gt_0. assert (t0 : 0 < bpow radix2 (-1075)) by apply bpow_gt_0.
  set (b := bpow radix2 (-53)) in *. set (t := bpow radix2 (-1075)) in *.
  set (p := rnd (c * val a)) in *. set (r := rnd (val d * val y)) in *.
  assert (M : forall x e, Rabs x <= B -> Rabs e <= b -> - (B * b) <= x * e <= B * b).
  { intros x e Hx He. apply Rabs_le_inv. rewrite Rabs_mult. apply Rmult_le_compat; try apply Rabs_pos; assumption. }
  assert (DA : Rabs ((1 - val d) * val a) <= B).
  { rewrite Rabs_mult, (Rabs_pos_eq (1 - val d)) by lra. apply Rle_trans with (1 * Rabs (val a)); [apply Rmult_le_compat_r; [apply Rabs_pos|lra]|lra]. }
  pose proof (M _ _ DA A1) as M1. pose proof (M _ _ CA A2) as M2. pose proof (M _ _ DY A3) as M3.
  apply Rabs_le_inv in T2. apply Rabs_le_inv in T3.
  assert (CE : c * val a = (1 - val d) * val a + (1 - val d) * val a * e1) by (rewrite E1; ring).
  set (w := (1 - val d) * val a + val d * val y).
  assert (PW : - (3 * (B * b) + 2 * t) <= p + r - w <= 3 * (B * b) + 2 * t).
  { unfold w. assert (p = c * val a + c * val a * e2 + t2) by (rewrite E2; ring).
    assert (r = val d * val y + val d * val y * e3 + t3) by (rewrite E3; ring). lra. }
  assert (WB : - B <= w <= B).
  { apply Rabs_le_inv. unfold w. eapply Rle_trans; [apply Rabs_triang|]. rewrite !Rabs_mult, (Rabs_pos_eq (1 - val d)), (Rabs_pos_eq (val d)) by lra.
    assert ((1 - val d) * Rabs (val a) <= (1 - val d) * B) by (apply Rmult_le_compat_l; lra).
    assert (val d * Rabs (val y) <= val d * B) by (apply Rmult_le_compat_l; lra). lra. }
  assert (Bb : B * b <= / 64 * B) by (rewrite (Rmult_comm B); apply Rmult_le_compat_r; lra). assert (Bb0 : 0 <= B * b) by (apply Rmult_le_pos; lra).
  assert (QE : Rabs ((p + r) * e4) <= (B + 3 * (B * b) + 2 * t) * b).
  { rewrite Rabs_mult. apply Rmult_le_compat; try apply Rabs_pos; [apply Rabs_le; lra|exact A4]. }
  apply Rabs_le_inv in QE. assert (tb : t * b <= / 64 * t) by (rewrite (Rmult_comm t); apply Rmult_le_compat_r; lra).
  assert (BBb : B * b * b <= / 64 * (B * b)) by (rewrite (Rmult_comm (B * b)); apply Rmult_le_compat_r; lra).
  replace ((p + r) * (1 + e4) - w) with (p + r - w + (p + r) * e4) by ring.
  apply Rabs_le. lra.
Qed.

Definition damped (d : R) (G : list R -> list R) (x : list R) : list R :=
  map (fun p => (1 - d) * fst p + d * snd p) (combine (G x) x).

Lemma damped_length : forall d G x, length (G x) = length x -> length (damped d G x) = length x.
Proof. intros d G x H. unfold damped. rewrite map_length, combine_length, H. apply Nat.min_id. Qed.
Lemma damped_nth : forall d G x i z, nth_error (damped d G x) i = Some z ->
  exists g xi, nth_error (G x) i = Some g /\ nth_error x i = Some xi /\ z = (1 - d) * g + d * xi.
Proof.
  intros d G x. unfold damped. generalize (G x) as g. induction x as [|a x IH]; intros [|b g] [|i] z; cbn; try discriminate.
  - intro E. injection E as <-. eauto.
  - apply IH.
Qed.

Lemma damped_contract : forall d q G x x', 0 <= d < 1 -> length (G x) = length x -> length (G x') = length x' ->
  Rdist_inf (G x) (G x') <= q * Rdist_inf x x' ->
  Rdist_inf (damped d G x) (damped d G x') <= (d + (1 - d) * q) * Rdist_inf x x'.
Proof.
  intros d q G x x' Hd L1 L2 HC. set (D := Rdist_inf x x') in *.
  assert (P : 0 <= Rdist_inf (G x) (G x')) by apply Rdist_inf_pos.
  assert (P' : 0 <= D) by apply Rdist_inf_pos.
  assert (HC' : (1 - d) * Rdist_inf (G x) (G x') <= (1 - d) * (q * D)) by (apply Rmult_le_compat_l; lra).
  assert (dD : 0 <= d * D) by (apply Rmult_le_pos; lra).
  assert (dG : 0 <= (1 - d) * Rdist_inf (G x) (G x')) by (apply Rmult_le_pos; lra).
  unfold Rdist_inf at 1. apply Rmax_norm_le; [lra|].
  intros i z Hz. apply Rsub_v_nth in Hz. destruct Hz as (u & u' & E1 & E2 & ->).
  apply damped_nth in E1. destruct E1 as (g & xi & G1 & X1 & ->). apply damped_nth in E2. destruct E2 as (g' & xi' & G2 & X2 & ->).
  assert (N1 : Rabs (g - g') <= Rdist_inf (G x) (G x')) by (apply (Rmax_norm_nth _ i); apply Rsub_v_nth; eauto).
  assert (N2 : Rabs (xi - xi') <= D) by (apply (Rmax_norm_nth _ i); apply Rsub_v_nth; eauto).
  replace ((1 - d) * g + d * xi - ((1 - d) * g' + d * xi')) with ((1 - d) * (g - g') + d * (xi - xi')) by ring.
  eapply Rle_trans; [apply Rabs_triang|]. rewrite !Rabs_mult, (Rabs_pos_eq (1 - d)), (Rabs_pos_eq d) by lra.
  assert ((1 - d) * Rabs (g - g') <= (1 - d) * Rdist_inf (G x) (G x')) by (apply Rmult_le_compat_l; lra).
  assert (d * Rabs (xi - xi') <= d * D) by (apply Rmult_le_compat_l; lra). lra.
Qed.

Lemma nth_vals : forall (y : list f64) i z, nth_error (vals y) i = Some z -> exists v, nth_error y i = Some v /\ z = val v.
Proof.
  induction y as [|a y IH]; intros [|i] z; cbn; try discriminate.
  - intro E. injection E as <-. eauto.
  - apply IH.
Qed.
Lemma vals_nth : forall (y : list f64) i v, nth_error y i = Some v -> nth_error (vals y) i = Some (val v).
Proof. intros y i v H. exact (map_nth_error val i y H). Qed.

Section FP64.
  Variables (Aux : Type) (rtol atol damp : f64) (fn : list f64 -> list f64 * Aux) (y0 : list f64) (aux0 : Aux).
  Variables (n : nat) (B B' eps q : R) (G : list R -> list R).
  Let inside (x : list R) := length x = n /\ Rmax_norm x <= B.
  Let d := val damp.
  Let rho := bpow radix2 (-50) * B + bpow radix2 (-1073).
  Hypothesis Fd : fin damp = true.
  Hypothesis Hd : 0 <= val damp < 1.
  Hypothesis He : 0 <= eps.
  Hypothesis HB0 : 0 <= B.
  Hypothesis HB : B <= bpow radix2 1022.
  Hypothesis Hroom : d * B + (1 - d) * (B' + eps) + rho <= B.
  Hypothesis Hfn : forall y, Forall (fun x => fin x = true) y -> inside (vals y) ->
    length (fst (fn y)) = n /\ Forall (fun x => fin x = true) (fst (fn y)) /\ Rdist_inf (vals (fst (fn y))) (G (vals y)) <= eps.
  Hypothesis HG : forall x, inside x -> length (G x) = n /\ Rmax_norm (G x) <= B'.
  Hypothesis Hq : 0 <= q < 1.
  Hypothesis HC : forall x x', inside x -> inside x' -> Rdist_inf (G x) (G x') <= q * Rdist_inf x x'.
  Hypothesis Fy0 : Forall (fun x => fin x = true) y0.
  Hypothesis Hy0 : inside (vals y0).

  Let err := (1 - d) * eps + rho.
  Let Q := d + (1 - d) * q.
  Let s := fixed_point_iteration (N:=F64) (Aux:=Aux) rtol atol damp max_norm.
  Let y k : list f64 := y_at s fn y0 ninf aux0 k.

  Lemma rho_pos : 0 < rho.
  Proof.
    unfold rho. assert (0 < bpow radix2 (-50)) by apply bpow_gt_0. assert (0 < bpow radix2 (-1073)) by apply bpow_gt_0.
    assert (0 <= bpow radix2 (-50) * B) by (apply Rmult_le_pos; lra). lra.
  Qed.
  Lemma AB : B' + eps <= B.
  Proof.
    pose proof rho_pos. unfold d in *. apply (Rmult_le_reg_l (1 - val damp)); [lra|]. lra.
  Qed.

  Lemma y64_S : forall k, y (S k) = fp_update (N:=F64) damp (fst (fn (y k))) (y k).
  Proof. intro k. unfold y, y_at. cbn [trace s_step s fixed_point_iteration]. fold s. rewrite fp_step_eq. reflexivity. Qed.

  Lemma step64 : forall w, Forall (fun x => fin x = true) w -> inside (vals w) ->
    let v := fp_update (N:=F64) damp (fst (fn w)) w in
    Forall (fun x => fin x = true) v /\ inside (vals v) /\ Rdist_inf (vals v) (damped d G (vals w)) <= err.
  Proof.
    intros w Fw Iw v. destruct (Hfn w Fw Iw) as (L1 & F1 & D1). destruct (HG _ Iw) as (LG & NG). destruct Iw as (Lw & Nw).
    rewrite map_length in Lw. pose proof rho_pos as RP. pose proof AB as HAB.
    assert (EV : forall i z, nth_error v i = Some z -> exists a b g, nth_error (fst (fn w)) i = Some a /\ nth_error w i = Some b /\
      nth_error (G (vals w)) i = Some g /\ fin z = true /\
      Rabs (val z - ((1 - d) * val a + d * val b)) <= rho /\ Rabs (val a - g) <= eps /\ Rabs g <= B' /\ Rabs (val b) <= B).
    { intros i z Hz. unfold v, fp_update in Hz. apply nth_vmap2 in Hz. destruct Hz as (a & b & Ea & Eb & ->).
      assert (IL : (i < length (G (vals w)))%nat).
      { rewrite LG, <- Lw. apply nth_error_Some. intro Z. pose proof (eq_trans (eq_sym Eb) Z) as ZZ. discriminate ZZ. }
      destruct (nth_error (G (vals w)) i) as [g|] eqn:Eg; [|apply nth_error_Some in IL; congruence].
      assert (Fa : fin a = true) by (eapply Forall_forall in F1; [exact F1|eapply nth_error_In; exact Ea]).
      assert (Fb : fin b = true) by (eapply Forall_forall in Fw; [exact Fw|eapply nth_error_In; exact Eb]).
      assert (N1 : Rabs (val a - g) <= eps).
      { eapply Rle_trans; [|exact D1]. apply (Rmax_norm_nth _ i). apply Rsub_v_nth. exists (val a), g. split; [apply vals_nth; exact Ea|auto]. }
      assert (N2 : Rabs g <= B') by (eapply Rle_trans; [exact (Rmax_norm_nth _ i _ Eg)|exact NG]).
      assert (N3 : Rabs (val b) <= B) by (eapply Rle_trans; [exact (Rmax_norm_nth _ i _ (vals_nth _ _ _ Eb))|exact Nw]).
      assert (N4 : Rabs (val a) <= B).
      { apply Rle_trans with (Rabs (val a - g) + Rabs g); [|lra]. replace (val a) with (val a - g + g) at 1 by ring. apply Rabs_triang. }
      destruct (update_val damp a b B Fd Fa Fb Hd N4 N3 HB) as (FZ & VZ).
      exists a, b, g. split; [exact Ea|]. split; [exact Eb|]. split; [reflexivity|]. split; [exact FZ|]. split; [exact VZ|]. auto. }
    assert (LV : length v = n).
    { unfold v, fp_update. rewrite vmap2_length. etransitivity; [exact (f_equal2 Nat.min L1 Lw)|]. apply Nat.min_id. }
    split.
    { apply Forall_forall. intros z Hz. apply In_nth_error in Hz. destruct Hz as (i & Hz). destruct (EV i z Hz) as (a & b & g & _ & _ & _ & H & _). exact H. }
    assert (ER : Rdist_inf (vals v) (damped d G (vals w)) <= err).
    { assert (E0 : 0 <= err).
      { unfold err. assert (0 <= (1 - d) * eps) by (apply Rmult_le_pos; unfold d; lra). lra. }
      unfold Rdist_inf. apply Rmax_norm_le; [exact E0|]. intros i z Hz. apply Rsub_v_nth in Hz. destruct Hz as (u & u' & E1 & E2 & ->).
      apply nth_vals in E1. destruct E1 as (zz & E1 & ->). destruct (EV i zz E1) as (a & b & g & Ea & Eb & Eg & _ & H1 & H2 & _).
      apply damped_nth in E2. destruct E2 as (g' & xi & Eg' & Ex & ->). assert (g' = g) by congruence. subst g'.
      apply vals_nth in Eb. assert (xi = val b) by congruence. subst xi.
      replace (val zz - ((1 - d) * g + d * val b)) with ((val zz - ((1 - d) * val a + d * val b)) + (1 - d) * (val a - g)) by ring.
      eapply Rle_trans; [apply Rabs_triang|]. rewrite (Rabs_mult (1 - d)), (Rabs_pos_eq (1 - d)) by (unfold d; lra).
      assert ((1 - d) * Rabs (val a - g) <= (1 - d) * eps) by (apply Rmult_le_compat_l; [unfold d; lra|exact H2]).
      unfold err. lra. }
    split; [|exact ER]. split; [rewrite map_length; exact LV|].
    apply Rmax_norm_le; [exact HB0|]. intros i z Hz. apply nth_vals in Hz. destruct Hz as (zz & E1 & ->).
    destruct (EV i zz E1) as (a & b & g & _ & _ & _ & _ & H1 & H2 & H3 & H4).
    assert (A1 : Rabs (val a) <= B' + eps).
    { apply Rle_trans with (Rabs (val a - g) + Rabs g); [|lra]. replace (val a) with (val a - g + g) at 1 by ring. apply Rabs_triang. }
    replace (val zz) with ((val zz - ((1 - d) * val a + d * val b)) + ((1 - d) * val a + d * val b)) by ring.
    eapply Rle_trans; [apply Rabs_triang|].
    assert (A2 : Rabs ((1 - d) * val a + d * val b) <= (1 - d) * (B' + eps) + d * B).
    { eapply Rle_trans; [apply Rabs_triang|]. rewrite !Rabs_mult, (Rabs_pos_eq (1 - d)), (Rabs_pos_eq d) by (unfold d; lra).
      apply Rplus_le_compat; apply Rmult_le_compat_l; unfold d; lra. }
    lra.
  Qed.

  Lemma inv64 : forall k, Forall (fun x => fin x = true) (y k) /\ inside (vals (y k)).
  Proof.
    induction k as [|k [IH1 IH2]]; [split; assumption|]. rewrite y64_S. destruct (step64 (y k) IH1 IH2) as (A & A' & _). split; assumption.
  Qed.

  Lemma near64 : forall k, Rdist_inf (vals (y (S k))) (damped d G (vals (y k))) <= err.
  Proof. intro k. destruct (inv64 k) as [H1 H2]. rewrite y64_S. apply (step64 (y k) H1 H2). Qed.

  Lemma Q01 : 0 <= Q < 1.
  Proof.
    unfold Q, d. assert (0 <= (1 - val damp) * q) by (apply Rmult_le_pos; lra).
    assert ((1 - val damp) * q < (1 - val damp) * 1) by (apply Rmult_lt_compat_l; lra). lra.
  Qed.

  Lemma len64 : forall k, length (vals (y k)) = n /\ length (damped d G (vals (y k))) = n.
  Proof.
    intro k. destruct (inv64 k) as [_ [H1 H2]]. destruct (HG _ (conj H1 H2)) as [H3 _]. split; [exact H1|].
    rewrite damped_length; congruence.
  Qed.

  Lemma gap64 : forall k, Rdist_inf (vals (y k)) (vals (y (S k))) <= Q ^ k * (2 * B) + 2 * err / (1 - Q).
  Proof.
    pose proof Q01 as HQ. assert (E0 : 0 <= err).
    { unfold err. pose proof rho_pos. assert (0 <= (1 - d) * eps) by (apply Rmult_le_pos; unfold d; lra). lra. }
    assert (EQ : 0 <= 2 * err / (1 - Q)) by (apply Rmult_le_pos; [lra|apply Rlt_le, Rinv_0_lt_compat; lra]).
    induction k as [|k IH].
    - cbn [pow]. destruct (inv64 0) as [_ [L0 N0]]. destruct (inv64 1) as [_ [L1 N1]].
      apply Rle_trans with (2 * B); [|lra]. unfold Rdist_inf. apply Rmax_norm_le; [lra|]. intros i z Hz. apply Rsub_v_nth in Hz. destruct Hz as (u & u' & E1 & E2 & ->).
      apply Rmax_norm_nth in E1. apply Rmax_norm_nth in E2. unfold Rminus. eapply Rle_trans; [apply Rabs_triang|]. rewrite Rabs_Ropp. lra.
    - destruct (len64 k) as (A1 & A2). destruct (len64 (S k)) as (A3 & A4). destruct (len64 (S (S k))) as (A5 & A6).
      pose proof (near64 k) as N1. pose proof (near64 (S k)) as N2.
      destruct (inv64 k) as [_ I1]. destruct (inv64 (S k)) as [_ I2].
      destruct (HG _ I1) as [G1 _]. destruct (HG _ I2) as [G2 _].
      pose proof (damped_contract d q G (vals (y k)) (vals (y (S k))) Hd ltac:(congruence) ltac:(congruence) (HC _ _ I1 I2)) as N3. fold Q in N3.
      pose proof (Rdist_inf_tri (vals (y (S k))) (damped d G (vals (y k))) (vals (y (S (S k)))) ltac:(congruence) ltac:(congruence)) as T1.
      pose proof (Rdist_inf_tri (damped d G (vals (y k))) (damped d G (vals (y (S k)))) (vals (y (S (S k)))) ltac:(congruence) ltac:(congruence)) as T2.
      rewrite (Rdist_inf_sym (damped d G (vals (y (S k)))) (vals (y (S (S k))))) in T2.
      assert (N4 : Q * Rdist_inf (vals (y k)) (vals (y (S k))) <= Q * (Q ^ k * (2 * B) + 2 * err / (1 - Q))) by (apply Rmult_le_compat_l; lra).
      replace (Q ^ S k * (2 * B) + 2 * err / (1 - Q)) with (Q * (Q ^ k * (2 * B) + 2 * err / (1 - Q)) + 2 * err) by (cbn [pow]; field; lra). lra.
  Qed.

  (* the test, passed as soon as the last step is at most delta *)
  Lemma test64 : forall (delta : f64) k, fin rtol = true -> fin atol = true -> fin delta = true ->
    0 <= val rtol <= 1 -> 0 < val atol <= bpow radix2 1022 -> val delta <= val atol / 2 ->
    Rdist_inf (vals (y k)) (vals (y (S k))) <= val delta ->
    says_terminate s fn y0 ninf aux0 (S k) = true.
  Proof.
    intros delta k Fr Fa Fdl Hr Ha HD H.
    unfold says_terminate, st_at. cbn [trace s_step s_terminate s fixed_point_iteration fst snd]. fold s.
    rewrite fp_step_eq. cbn [fst snd]. fold (y_at s fn y0 ninf aux0 k). change (y_at s fn y0 ninf aux0 k) with (y k). rewrite <- y64_S.
    apply (max_norm_lt F64_laws); [apply (dl_01 F64 F64_div)|]. apply Forall_nth.
    intros i z Hz. unfold vdiv in Hz. apply nth_vmap2 in Hz. destruct Hz as (df & sc & E1 & E2 & ->).
    unfold vsub in E1. apply nth_vmap2 in E1. destruct E1 as (a & v & Ea & Ev & ->).
    unfold vscale_tol in E2. apply nth_map in E2. destruct E2 as (v' & Ev' & ->). assert (v' = v) by congruence. subst v'. clear Ev'.
    destruct (inv64 k) as [F1 [_ N1]]. destruct (inv64 (S k)) as [F2 [_ N2]].
    assert (FA : fin a = true) by (eapply Forall_forall in F1; [exact F1|eapply nth_error_In; exact Ea]).
    assert (FV : fin v = true) by (eapply Forall_forall in F2; [exact F2|eapply nth_error_In; exact Ev]).
    apply vals_nth in Ea. apply vals_nth in Ev.
    assert (DV : Rabs (val a - val v) <= val delta).
    { eapply Rle_trans; [|exact H]. apply (Rmax_norm_nth _ i). apply Rsub_v_nth. eauto. }
    apply Rmax_norm_nth in Ea. apply Rmax_norm_nth in Ev.
    assert (VB : Rabs (val v) <= bpow radix2 1022) by lra. assert (AA : Rabs (val a) <= bpow radix2 1022) by lra.
    destruct (scale_val rtol atol v Fr Fa FV Hr ltac:(lra) VB) as (Fs & Vs).
    change (Bltb (Babs (fdiv (fsub a v) (fadd atol (fmul rtol (Babs v))))) (f64_ofQ 1) = true).
    assert (TW : bpow radix2 1023 = 2 * bpow radix2 1022) by exact (bpow_twice 1022). pose proof big_bpow as BG.
    apply Rabs_le_inv in AA. apply Rabs_le_inv in VB. pose proof DV as DV'. apply Rabs_le_inv in DV.
    destruct (fsub_val a v FA FV) as (Fm & Vm); [rewrite TW; apply Rabs_le; lra|].
    set (sc := fadd atol (fmul rtol (Babs v))) in *.
    assert (SC : val atol <= val sc).
    { rewrite Vs. rewrite <- (rnd_id (val atol) (val_format atol)) at 1. apply rnd_le.
      assert (GG : rnd 0 <= rnd (val rtol * Rabs (val v))) by (apply rnd_le; apply Rmult_le_pos; [lra|apply Rabs_pos]).
      rewrite round_0 in GG by typeclasses eauto. lra. }
    assert (DM : Rabs (val (fsub a v)) <= val delta).
    { rewrite Vm. apply Rabs_le. split.
      - rewrite <- (rnd_id (- val delta)) by (apply generic_format_opp; apply val_format). apply rnd_le. lra.
      - rewrite <- (rnd_id (val delta)) by apply val_format. apply rnd_le. lra. }
    assert (QH : Rabs (val (fsub a v) / val sc) <= / 2).
    { unfold Rdiv. rewrite Rabs_mult, Rabs_inv, (Rabs_pos_eq (val sc)) by lra. apply (Rmult_le_reg_r (val sc)); [lra|].
      rewrite Rmult_assoc, Rinv_l, Rmult_1_r by lra. lra. }
    destruct (fdiv_val (fsub a v) sc Fm Fs) as (Fq & Vq); [lra|lra|].
    apply ltb_val; [rewrite is_finite_Babs; exact Fq|vm_compute; reflexivity|]. rewrite B2R_Babs, Vq, one_val.
    apply Rle_lt_trans with (/ 2); [|lra]. change (/ 2) with (bpow radix2 (-1)). apply rnd_bound; [lia|exact QH].
  Qed.
End FP64.

Lemma all_finite : forall y : list f64, Forall (fun x => fin x = true) y -> vallfinite (N:=F64) y = true.
Proof. intros y H. unfold vallfinite. apply forallb_forall. intros x Hx. eapply Forall_forall in H; [exact H|exact Hx]. Qed.

(** Fixed-point iteration on doubles, for a computed function within eps of a map G that contracts by q on the box
    |x| <= B. All iterates stay finite and in the box, each is the damped update of the one before up to
    (1 - damp) eps plus rounding, and consecutive iterates approach each other geometrically down to that error. *)
Lemma C88_iterates_pf :
  forall (Aux : Type) (rtol atol damp : f64) (fn : list f64 -> list f64 * Aux) (y0 : list f64) (aux0 : Aux)
         (n : nat) (B B' eps q : R) (G : list R -> list R),
    let inside x := length x = n /\ Rmax_norm x <= B in
    let finite y := Forall (fun x : f64 => is_finite x = true) y in
    let rho := bpow radix2 (-50) * B + bpow radix2 (-1073) in
    let d := B2R damp in
    is_finite damp = true -> 0 <= d < 1 -> 0 <= eps -> 0 <= B <= bpow radix2 1022 ->
    d * B + (1 - d) * (B' + eps) + rho <= B ->
    (forall y, finite y -> inside (map B2R y) ->
       length (fst (fn y)) = n /\ finite (fst (fn y)) /\ Rdist_inf (map B2R (fst (fn y))) (G (map B2R y)) <= eps) ->
    (forall x, inside x -> length (G x) = n /\ Rmax_norm (G x) <= B') -> 0 <= q < 1 ->
    (forall x x', inside x -> inside x' -> Rdist_inf (G x) (G x') <= q * Rdist_inf x x') ->
    finite y0 -> inside (map B2R y0) ->
    let s := fixed_point_iteration (N:=F64) (Aux:=Aux) rtol atol damp max_norm in
    let y k : list f64 := y_at s fn y0 ninf aux0 k in
    let err := (1 - d) * eps + rho in
    let Q := d + (1 - d) * q in
    forall k,
      finite (y k) /\ inside (map B2R (y k)) /\
      Rdist_inf (map B2R (y (S k))) (map (fun p => (1 - d) * fst p + d * snd p) (combine (G (map B2R (y k))) (map B2R (y k)))) <= err /\
      Rdist_inf (map B2R (y k)) (map B2R (y (S k))) <= Q ^ k * (2 * B) + 2 * err / (1 - Q).
Proof.
  intros Aux rtol atol damp fn y0 aux0 n B B' eps q G inside finite rho d Fd Hd He [HB0 HB] Hroom Hfn HG Hq HC Fy Iy s y err Q k.
  destruct (inv64 Aux rtol atol damp fn y0 aux0 n B B' eps G Fd Hd He HB0 HB Hroom Hfn HG Fy Iy k) as (A1 & A2).
  pose proof (near64 Aux rtol atol damp fn y0 aux0 n B B' eps G Fd Hd He HB0 HB Hroom Hfn HG Fy Iy k) as A3.
  pose proof (gap64 Aux rtol atol damp fn y0 aux0 n B B' eps q G Fd Hd He HB0 HB Hroom Hfn HG Hq HC Fy Iy k) as A4.
  split; [exact A1|]. split; [exact A2|]. split; [exact A3|exact A4].
Qed.

(** It succeeds within K + 1 steps as soon as that bound is below some double that is at most atol / 2. *)
Lemma C88_terminates_pf :
  forall (Aux : Type) (rtol atol damp delta : f64) (fn : list f64 -> list f64 * Aux) (y0 : list f64) fs auxs
         (n : nat) (B B' eps q : R) (G : list R -> list R) (K : nat),
    let inside x := length x = n /\ Rmax_norm x <= B in
    let finite y := Forall (fun x : f64 => is_finite x = true) y in
    let rho := bpow radix2 (-50) * B + bpow radix2 (-1073) in
    let d := B2R damp in
    is_finite damp = true -> 0 <= d < 1 -> 0 <= eps -> 0 <= B <= bpow radix2 1022 ->
    d * B + (1 - d) * (B' + eps) + rho <= B ->
    (forall y, finite y -> inside (map B2R y) ->
       length (fst (fn y)) = n /\ finite (fst (fn y)) /\ Rdist_inf (map B2R (fst (fn y))) (G (map B2R y)) <= eps) ->
    (forall x, inside x -> length (G x) = n /\ Rmax_norm (G x) <= B') -> 0 <= q < 1 ->
    (forall x x', inside x -> inside x' -> Rdist_inf (G x) (G x') <= q * Rdist_inf x x') ->
    finite y0 -> inside (map B2R y0) ->
    is_finite rtol = true -> is_finite atol = true -> is_finite delta = true ->
    0 <= B2R rtol <= 1 -> 0 < B2R atol <= bpow radix2 1022 -> B2R delta <= B2R atol / 2 ->
    let err := (1 - d) * eps + rho in
    let Q := d + (1 - d) * q in
    Q ^ K * (2 * B) + 2 * err / (1 - Q) <= B2R delta ->
    let s := fixed_point_iteration (N:=F64) (Aux:=Aux) rtol atol damp max_norm in
    exists k, (k <= S K)%nat /\
      forall fuel ms throw, (k < fuel)%nat -> (forall m, ms = Some m -> (k <= m)%nat) ->
        exists sol, iterative_solve vallfinite s fn fuel ms throw y0 fs auxs = Ret sol /\ result sol = successful.
Proof.
  intros Aux rtol atol damp delta fn y0 fs auxs n B B' eps q G K inside finite rho d Fd Hd He [HB0 HB] Hroom Hfn HG Hq HC Fy Iy
    Fr Fa Fdl Hr Ha HD err Q HK s.
  pose proof (gap64 Aux rtol atol damp fn y0 (auxs fill0) n B B' eps q G Fd Hd He HB0 HB Hroom Hfn HG Hq HC Fy Iy K) as GP.
  pose proof (test64 Aux rtol atol damp fn y0 (auxs fill0) n B B' eps G Fd Hd He HB0 HB Hroom Hfn HG Fy Iy delta K Fr Fa Fdl Hr Ha HD
    (Rle_trans _ _ _ GP HK)) as T.
  destruct (solve_succeeds (vallfinite (N:=F64)) s fn y0 ninf (auxs fill0) fs auxs eq_refl eq_refl) as (k & Tk & Mn & HSS).
  - intro k. reflexivity.
  - intro k. unfold asked. apply all_finite.
    apply (inv64 Aux rtol atol damp fn y0 (auxs fill0) n B B' eps G Fd Hd He HB0 HB Hroom Hfn HG Fy Iy (Nat.pred k)).
  - exists (S K). exact T.
  - exists k. split.
    + destruct (le_lt_dec k (S K)) as [Z|Z]; [exact Z|]. pose proof (eq_trans (eq_sym T) (Mn _ Z)) as ZZ. discriminate ZZ.
    + intros fuel ms throw Hf Hm. destruct (HSS fuel ms throw Hf Hm) as [E1 E2]. eexists; split; eauto.
Qed.

(** What a success means on doubles: the returned point is finite, in the box, and its distance to a fixed point x of G is
    at most (Q tol + err) / (1 - Q), tol being the requested tolerance up to a relative 2^-50 and an absolute 2^-1074. *)
Lemma C88_success_pf :
  forall (Aux : Type) (rtol atol damp : f64) (fn : list f64 -> list f64 * Aux) (y0 : list f64) fs auxs
         (n : nat) (B B' eps q : R) (G : list R -> list R) fuel ms throw sol (x : list R),
    let inside x := length x = n /\ Rmax_norm x <= B in
    let finite y := Forall (fun x : f64 => is_finite x = true) y in
    let rho := bpow radix2 (-50) * B + bpow radix2 (-1073) in
    let d := B2R damp in
    is_finite damp = true -> 0 <= d < 1 -> 0 <= eps -> 0 <= B <= bpow radix2 1022 ->
    d * B + (1 - d) * (B' + eps) + rho <= B ->
    (forall y, finite y -> inside (map B2R y) ->
       length (fst (fn y)) = n /\ finite (fst (fn y)) /\ Rdist_inf (map B2R (fst (fn y))) (G (map B2R y)) <= eps) ->
    (forall x, inside x -> length (G x) = n /\ Rmax_norm (G x) <= B') -> 0 <= q < 1 ->
    (forall x x', inside x -> inside x' -> Rdist_inf (G x) (G x') <= q * Rdist_inf x x') ->
    finite y0 -> inside (map B2R y0) ->
    is_finite rtol = true -> is_finite atol = true -> 0 <= B2R rtol <= 1 -> 0 < B2R atol <= bpow radix2 1022 ->
    inside x -> G x = x ->
    let s := fixed_point_iteration (N:=F64) (Aux:=Aux) rtol atol damp max_norm in
    iterative_solve vallfinite s fn fuel ms throw y0 fs auxs = Ret sol -> result sol = successful ->
    let v := map B2R (value sol : list f64) in
    let err := (1 - d) * eps + rho in
    let Q := d + (1 - d) * q in
    let tol := (1 + bpow radix2 (-50)) * (B2R atol + B2R rtol * Rmax_norm v) + bpow radix2 (-1074) in
    finite (value sol) /\ inside v /\ Rdist_inf v x <= (Q * tol + err) / (1 - Q).
Proof.
  intros Aux rtol atol damp fn y0 fs auxs n B B' eps q G fuel ms throw sol x inside finite rho d Fd Hd He [HB0 HB] Hroom Hfn HG Hq HC Fy Iy
    Fr Fa Hr Ha Ix Gx s H HR v err Q tol.
  destruct (success_inv _ _ _ vallfinite s fn y0 ninf fs auxs fuel ms throw sol eq_refl H HR) as (k & _ & HS & Esol & HF & HT & _).
  destruct k as [|k]; [discriminate HT|].
  pose proof (inv64 Aux rtol atol damp fn y0 (auxs fill0) n B B' eps G Fd Hd He HB0 HB Hroom Hfn HG Fy Iy) as INV.
  pose proof (near64 Aux rtol atol damp fn y0 (auxs fill0) n B B' eps G Fd Hd He HB0 HB Hroom Hfn HG Fy Iy k) as NR.
  pose proof (Q01 damp q Hd Hq) as HQ. fold d Q in HQ.
  set (y := fun k => y_at s fn y0 ninf (auxs fill0) k : list f64).
  change (forall k, finite (y k) /\ inside (vals (y k))) in INV.
  change (Rdist_inf (vals (y (S k))) (damped d G (vals (y k))) <= err) in NR.
  assert (EV : value sol = y (S k)) by (rewrite Esol; reflexivity).
  destruct (INV k) as [F1 I1]. destruct (INV (S k)) as [F2 I2].
  assert (HV : v = vals (y (S k))) by (unfold v; rewrite EV; reflexivity).
  split; [rewrite EV; exact F2|]. rewrite HV. split; [exact I2|].
  assert (TL : Rdist_inf (vals (y k)) (vals (y (S k))) <= tol).
  { unfold says_terminate, st_at in HT. cbn [trace s_step s_terminate s fixed_point_iteration fst snd] in HT.
    fold s in HT. rewrite fp_step_eq in HT. cbn [fst snd] in HT.
    change (y_at s fn y0 ninf (auxs fill0) k) with (y k) in HT.
    pose proof (y64_S Aux rtol atol damp fn y0 (auxs fill0) k) as YS. change (y (S k) = fp_update (N:=F64) damp (fst (fn (y k))) (y k)) in YS.
    change (nltb (n:=F64) (max_norm (N:=F64) (vdiv (N:=F64) (vsub (N:=F64) (y k) (fp_update (N:=F64) damp (fst (fn (y k))) (y k)))
      (vscale_tol (N:=F64) rtol atol (fp_update (N:=F64) damp (fst (fn (y k))) (y k))))) (lit 1) = true) in HT.
    rewrite <- YS in HT.
    apply (max_norm_lt F64_laws) in HT; [|apply (dl_01 F64 F64_div)]. rewrite Forall_nth in HT.
    assert (B50 : 0 < bpow radix2 (-50)) by apply bpow_gt_0. assert (B74 : 0 < bpow radix2 (-1074)) by apply bpow_gt_0.
    assert (RN0 : 0 <= Rmax_norm v) by apply Rmax_norm_pos.
    assert (R1 : 0 <= val rtol * Rmax_norm v) by (apply Rmult_le_pos; lra).
    assert (R2 : 0 <= (1 + bpow radix2 (-50)) * (val atol + val rtol * Rmax_norm v)) by (apply Rmult_le_pos; lra).
    unfold Rdist_inf. apply Rmax_norm_le; [unfold tol; lra|]. intros i z Hz. apply Rsub_v_nth in Hz. destruct Hz as (u & u' & E1 & E2 & ->).
    apply nth_vals in E1. destruct E1 as (a & Ea & ->). apply nth_vals in E2. destruct E2 as (w & Ew & ->).
    assert (FA : fin a = true) by (eapply Forall_forall in F1; [exact F1|eapply nth_error_In; exact Ea]).
    assert (FW : fin w = true) by (eapply Forall_forall in F2; [exact F2|eapply nth_error_In; exact Ew]).
    pose proof (Rmax_norm_nth _ _ _ (vals_nth _ _ _ Ea)) as NA. pose proof (Rmax_norm_nth _ _ _ (vals_nth _ _ _ Ew)) as NW.
    destruct I1 as [_ I1]. destruct I2 as [_ I2].
    assert (BA : Rabs (val a) <= bpow radix2 1022) by lra. assert (BW : Rabs (val w) <= bpow radix2 1022) by lra.
    assert (C : nltb (n:=F64) (nabs (n:=F64) (nsub (n:=F64) a w)) (nabs (n:=F64) (nadd (n:=F64) atol (nmul (n:=F64) rtol (nabs (n:=F64) w)))) = true).
    { apply (dl_lt1 F64 F64_div). apply (HT i). unfold vdiv. apply nth_vmap2.
      exists (nsub (n:=F64) a w), (nadd (n:=F64) atol (nmul (n:=F64) rtol (nabs (n:=F64) w))). split; [|split; [|reflexivity]].
      - unfold vsub. apply nth_vmap2. exists a, w. auto.
      - unfold vscale_tol. apply nth_map. exists w. auto. }
    change (Bltb (Babs (fsub a w)) (Babs (fadd atol (fmul rtol (Babs w)))) = true) in C.
    destruct (scale_val rtol atol w Fr Fa FW Hr ltac:(lra) BW) as (Fs & Vs).
    assert (SP : 0 <= val (fadd atol (fmul rtol (Babs w)))).
    { rewrite Vs. assert (GG : rnd 0 <= rnd (val rtol * Rabs (val w))) by (apply rnd_le; apply Rmult_le_pos; [lra|apply Rabs_pos]).
      rewrite round_0 in GG by typeclasses eauto.
      assert (G0 : rnd 0 <= rnd (val atol + rnd (val rtol * Rabs (val w)))) by (apply rnd_le; lra).
      rewrite round_0 in G0 by typeclasses eauto. exact G0. }
    assert (C' : Bltb (Babs (fsub a w)) (fadd atol (fmul rtol (Babs w))) = true).
    { assert (TW : bpow radix2 1023 = 2 * bpow radix2 1022) by exact (bpow_twice 1022).
      pose proof (Rabs_le_inv _ _ BA). pose proof (Rabs_le_inv _ _ BW).
      destruct (fsub_val a w FA FW) as (Fm & _); [rewrite TW; apply Rabs_le; lra|].
      rewrite Bltb_correct in C; [|rewrite is_finite_Babs; exact Fm|rewrite is_finite_Babs; exact Fs].
      rewrite B2R_Babs, B2R_Babs, (Rabs_pos_eq (val (fadd _ _))) in C by exact SP.
      rewrite Bltb_correct; [|rewrite is_finite_Babs; exact Fm|exact Fs]. rewrite B2R_Babs. exact C. }
    pose proof (close_tol rtol atol w a w Fr Fa FW FA FW Hr ltac:(lra) BW BA BW C') as CT.
    eapply Rle_trans; [exact CT|]. unfold tol. apply Rplus_le_compat_r. apply Rmult_le_compat_l; [lra|].
    rewrite <- HV in NW. apply Rplus_le_compat_l. apply Rmult_le_compat_l; [lra|exact NW]. }
  assert (DX : damped d G x = x).
  { unfold damped. rewrite Gx. clear. induction x as [|a x IH]; [reflexivity|]. cbn [combine map fst snd]. rewrite IH. f_equal. ring. }
  destruct (HG _ I1) as [G1 _]. destruct (HG _ Ix) as [G2 _].
  assert (L1 : length (vals (y k)) = n) by apply I1. assert (L2 : length (vals (y (S k))) = n) by apply I2. assert (L3 : length x = n) by apply Ix.
  assert (L4 : length (damped d G (vals (y k))) = n) by (rewrite damped_length; [exact L1|exact (eq_trans G1 (eq_sym L1))]).
  pose proof (damped_contract d q G (vals (y k)) x Hd (eq_trans G1 (eq_sym L1)) (eq_trans G2 (eq_sym L3)) (HC _ _ I1 Ix)) as CT. rewrite DX in CT. fold Q in CT.
  pose proof (Rdist_inf_tri (vals (y (S k))) (damped d G (vals (y k))) x (eq_trans L2 (eq_sym L4)) (eq_trans L4 (eq_sym L3))) as T1.
  pose proof (Rdist_inf_tri (vals (y k)) (vals (y (S k))) x (eq_trans L1 (eq_sym L2)) (eq_trans L2 (eq_sym L3))) as T2.
  assert (T3 : Q * Rdist_inf (vals (y k)) x <= Q * (tol + Rdist_inf (vals (y (S k))) x)) by (apply Rmult_le_compat_l; lra).
  apply (Rmult_le_reg_r (1 - Q)); [lra|]. unfold Rdiv. rewrite Rmult_assoc, Rinv_l, Rmult_1_r by lra. lra.
Qed.

(* x / 2 + 1, component by component, on doubles *)
Lemma halve_val : forall x : f64, fin x = true -> Rabs (val x) <= 8 ->
  fin (fadd (fmul (f64_ofQ (1#2)) x) (f64_ofQ 1)) = true /\
  Rabs (val (fadd (fmul (f64_ofQ (1#2)) x) (f64_ofQ 1)) - (val x / 2 + 1)) <= bpow radix2 (-49).
Proof.
  intros x Fx Hx. destruct half_val as (Fh & Vh). pose proof one_val as V1.
  assert (F1 : fin (f64_ofQ 1) = true) by (vm_compute; reflexivity).
  assert (TW : bpow radix2 1023 = 2 * bpow radix2 1022) by exact (bpow_twice 1022).
  assert (B3 : 8 <= bpow radix2 1022) by (change 8 with (bpow radix2 3); apply bpow_le; lia).
  apply Rabs_le_inv in Hx.
  destruct (fmul_val (f64_ofQ (1#2)) x Fh Fx) as (F2 & V2); [rewrite Vh; apply Rabs_le; lra|]. rewrite Vh in V2.
  destruct (rnd_any (/ 2 * val x)) as (e & t & E1 & E2 & _ & E3).
  assert (b0 : bpow radix2 (-53) <= / 64) by (change (/ 64) with (bpow radix2 (-6)); apply bpow_le; lia).
  assert (t0 : bpow radix2 (-1075) <= / 64 * bpow radix2 (-53)).
  { change (/ 64) with (bpow radix2 (-6)). rewrite <- bpow_plus. apply bpow_le. lia. }
  assert (B49 : bpow radix2 (-49) = 16 * bpow radix2 (-53)).
  { change (-49)%Z with (4 + -53)%Z. rewrite bpow_plus. reflexivity. }
  rewrite B49. set (b := bpow radix2 (-53)) in *. assert (bp : 0 < b) by apply bpow_gt_0. set (tt' := bpow radix2 (-1075)) in *.
  assert (PE : Rabs (/ 2 * val x * e) <= 4 * b).
  { rewrite Rabs_mult. apply Rmult_le_compat; try apply Rabs_pos; [apply Rabs_le; lra|exact E1]. }
  apply Rabs_le_inv in PE. apply Rabs_le_inv in E2. set (p := rnd (/ 2 * val x)) in *.
  assert (PQ : - (5 * b) <= p - / 2 * val x <= 5 * b) by (rewrite E3; lra).
  destruct (fadd_val _ _ F2 F1) as (F3 & V3); [rewrite V2, V1; apply Rabs_le; lra|]. rewrite V2, V1 in V3. split; [exact F3|]. rewrite V3.
  assert (Fp : is_f64 p) by (apply generic_format_round; typeclasses eauto). assert (F1' : is_f64 1) by (rewrite <- V1; apply val_format).
  destruct (rnd_plus p 1 Fp F1') as (e2 & E4 & E5). rewrite E5. fold b in E4.
  assert (QE : Rabs ((p + 1) * e2) <= (5 + 5 * b) * b).
  { rewrite Rabs_mult. apply Rmult_le_compat; try apply Rabs_pos; [apply Rabs_le; lra|exact E4]. }
  apply Rabs_le_inv in QE. assert (b * b <= / 64 * b) by (apply Rmult_le_compat_r; lra).
  apply Rabs_le. lra.
Qed.

Definition halve (y : list f64) : list f64 * unit := (map (fun x => fadd (fmul (f64_ofQ (1#2)) x) (f64_ofQ 1)) y, tt).
Definition halveR (x : list R) : list R := map (fun a => a / 2 + 1) x.

Lemma halve_near : forall y, Forall (fun x => fin x = true) y -> Rmax_norm (vals y) <= 8 ->
  Forall (fun x => fin x = true) (fst (halve y)) /\ Rdist_inf (vals (fst (halve y))) (halveR (vals y)) <= bpow radix2 (-49).
Proof.
  intros y F Hy. assert (B0 : 0 < bpow radix2 (-49)) by apply bpow_gt_0.
  assert (P : forall i x, nth_error y i = Some x -> fin x = true /\ Rabs (val x) <= 8).
  { intros i x Hx. split; [eapply Forall_forall in F; [exact F|eapply nth_error_In; exact Hx]|].
    eapply Rle_trans; [exact (Rmax_norm_nth _ _ _ (vals_nth _ _ _ Hx))|exact Hy]. }
  split.
  - apply Forall_forall. intros z Hz. apply In_nth_error in Hz. destruct Hz as (i & Hz). unfold halve in Hz. cbn [fst] in Hz. apply nth_map in Hz.
    destruct Hz as (x & Hx & ->). destruct (P i x Hx). apply halve_val; assumption.
  - unfold Rdist_inf. apply Rmax_norm_le; [lra|]. intros i z Hz. apply Rsub_v_nth in Hz. destruct Hz as (u & u' & E1 & E2 & ->).
    apply nth_vals in E1. destruct E1 as (w & E1 & ->). unfold halve in E1. cbn [fst] in E1. apply nth_map in E1. destruct E1 as (x & Hx & ->).
    unfold halveR in E2. apply nth_map in E2. destruct E2 as (x' & Hx' & ->). apply nth_vals in Hx'. destruct Hx' as (x2 & Hx2 & ->).
    assert (x2 = x) by congruence. subst x2. destruct (P i x Hx). apply halve_val; assumption.
Qed.

Lemma halveR_bound : forall x, Rmax_norm x <= 8 -> Rmax_norm (halveR x) <= 5.
Proof.
  intros x H. apply Rmax_norm_le; [lra|]. intros i z Hz. unfold halveR in Hz. apply nth_map in Hz. destruct Hz as (a & Ha & ->).
  apply Rmax_norm_nth in Ha. assert (Ha' : Rabs a <= 8) by lra. apply Rabs_le_inv in Ha'. apply Rabs_le. lra.
Qed.
Lemma halveR_contract : forall x x', Rdist_inf (halveR x) (halveR x') <= / 2 * Rdist_inf x x'.
Proof.
  intros x x'. assert (P : 0 <= Rdist_inf x x') by apply Rdist_inf_pos. unfold Rdist_inf at 1. apply Rmax_norm_le; [lra|].
  intros i z Hz. apply Rsub_v_nth in Hz. destruct Hz as (u & u' & E1 & E2 & ->).
  unfold halveR in E1, E2. apply nth_map in E1. apply nth_map in E2. destruct E1 as (a & Ha & ->). destruct E2 as (b & Hb & ->).
  assert (N : Rabs (a - b) <= Rdist_inf x x') by (apply (Rmax_norm_nth _ i); apply Rsub_v_nth; eauto).
  replace (a / 2 + 1 - (b / 2 + 1)) with ((a - b) * / 2) by field. rewrite Rabs_mult, (Rabs_pos_eq (/ 2)) by lra. lra.
Qed.

Lemma quarter_val : val (f64_ofQ (1#4)) = / 4.
Proof. refine (eq_trans (pow_val _ (-54) _) _); [vm_compute; reflexivity|reflexivity]. Qed.
Lemma tol1024_val : val (f64_ofQ (1#1024)) = / 1024.
Proof. refine (eq_trans (pow_val _ (-62) _) _); [vm_compute; reflexivity|reflexivity]. Qed.
Lemma delta4096_val : val (f64_ofQ (1#4096)) = / 4096.
Proof. refine (eq_trans (pow_val _ (-64) _) _); [vm_compute; reflexivity|reflexivity]. Qed.

Lemma halve_hyps :
  let B := 8 in let B' := 5 in let eps := bpow radix2 (-49) in let d := B2R (f64_ofQ (1#4)) in
  let inside x := length x = 2%nat /\ Rmax_norm x <= B in
  let finite y := Forall (fun x : f64 => is_finite x = true) y in
  let rho := bpow radix2 (-50) * B + bpow radix2 (-1073) in
  is_finite (f64_ofQ (1#4)) = true /\ 0 <= d < 1 /\ 0 <= eps /\ (0 <= B <= bpow radix2 1022) /\
  d * B + (1 - d) * (B' + eps) + rho <= B /\
  (forall y, finite y -> inside (map B2R y) ->
     length (fst (halve y)) = 2%nat /\ finite (fst (halve y)) /\ Rdist_inf (map B2R (fst (halve y))) (halveR (map B2R y)) <= eps) /\
  (forall x, inside x -> length (halveR x) = 2%nat /\ Rmax_norm (halveR x) <= B') /\
  (forall x x', inside x -> inside x' -> Rdist_inf (halveR x) (halveR x') <= / 2 * Rdist_inf x x') /\
  finite [f64_ofQ 0; f64_ofQ 1] /\ inside (map B2R [f64_ofQ 0; f64_ofQ 1]) /\
  (1 - d) * eps + rho <= / 1048576.
Proof.
  intros B B' eps d inside finite rho. pose proof quarter_val as V4. fold d in V4. pose proof one_val as V1. destruct zero_val as [F0 V0].
  assert (S1 : 0 < bpow radix2 (-49) <= / 33554432).
  { split; [apply bpow_gt_0|]. change (/ 33554432) with (bpow radix2 (-25)). apply bpow_le. lia. }
  assert (S2 : 0 < bpow radix2 (-50) <= / 33554432).
  { split; [apply bpow_gt_0|]. change (/ 33554432) with (bpow radix2 (-25)). apply bpow_le. lia. }
  assert (S3 : 0 < bpow radix2 (-1073) <= / 33554432).
  { split; [apply bpow_gt_0|]. change (/ 33554432) with (bpow radix2 (-25)). apply bpow_le. lia. }
  assert (B3 : 8 <= bpow radix2 1022) by (change 8 with (bpow radix2 3); apply bpow_le; lia).
  unfold rho, eps, B, B'. rewrite V4.
  split; [vm_compute; reflexivity|]. split; [lra|]. split; [lra|]. split; [lra|]. split; [lra|].
  split; [|split; [|split; [|split; [|split; [|lra]]]]].
  - intros y Fy [Ly Ny]. unfold halve. cbn [fst]. split; [rewrite map_length in *; exact Ly|]. apply (halve_near y Fy Ny).
  - intros x [Lx Nx]. split; [unfold halveR; rewrite map_length; exact Lx|]. apply halveR_bound. exact Nx.
  - intros x x' _ _. apply halveR_contract.
  - repeat constructor; vm_compute; reflexivity.
  - split; [reflexivity|]. cbn [map Rmax_norm fold_right]. change (Rmax (Rabs (val (f64_ofQ 0))) (Rmax (Rabs (val (f64_ofQ 1))) 0) <= 8).
    rewrite V0, V1, Rabs_R0, Rabs_R1. repeat apply Rmax_lub; lra.
Qed.

(** x / 2 + 1 in two unknowns with damping 1/4, from (0, 1): the fixed point is (2, 2). *)
Example C88_terminates_ex_pf : forall fs auxs,
  exists k, (k <= 28)%nat /\
    forall fuel ms throw, (k < fuel)%nat -> (forall m, ms = Some m -> (k <= m)%nat) ->
      exists sol, iterative_solve vallfinite
          (fixed_point_iteration (N:=F64) (f64_ofQ 0) (f64_ofQ (1#1024)) (f64_ofQ (1#4)) max_norm)
          (fun y => (map (fun x => fadd (fmul (f64_ofQ (1#2)) x) (f64_ofQ 1)) y, tt))
          fuel ms throw [f64_ofQ 0; f64_ofQ 1] fs auxs = Ret sol /\
        result sol = successful.
Proof.
  intros fs auxs. destruct halve_hyps as (H1 & H2 & H3 & H4 & H5 & H6 & H7 & H8 & H9 & H10 & H11). destruct zero_val as [F0 V0].
  pose proof big_bpow as BG. pose proof quarter_val as V4.
  refine (C88_terminates_pf unit (f64_ofQ 0) (f64_ofQ (1#1024)) (f64_ofQ (1#4)) (f64_ofQ (1#4096)) halve [f64_ofQ 0; f64_ofQ 1] fs auxs
    2 8 5 (bpow radix2 (-49)) (/ 2) halveR 27 H1 H2 H3 H4 H5 H6 H7 _ H8 H9 H10 F0 _ _ _ _ _ _).
  - lra.
  - vm_compute; reflexivity.
  - vm_compute; reflexivity.
  - rewrite V0. lra.
  - rewrite tol1024_val. lra.
  - rewrite tol1024_val, delta4096_val. lra.
  - rewrite delta4096_val. rewrite V4 in *.
    replace (/ 4 + (1 - / 4) * / 2) with (5 / 8) by field.
    assert (PW : (5 / 8) ^ 27 <= / 262144) by (cbn [pow]; lra).
    unfold Rdiv at 2. replace (/ (1 - 5 / 8)) with (8 / 3) by field. lra.
Qed.

Example C88_iterates_ex_pf : forall k,
  let s := fixed_point_iteration (N:=F64) (f64_ofQ 0) (f64_ofQ (1#1024)) (f64_ofQ (1#4)) max_norm in
  let y : list f64 := y_at s (fun y => (map (fun x => fadd (fmul (f64_ofQ (1#2)) x) (f64_ofQ 1)) y, tt)) [f64_ofQ 0; f64_ofQ 1] ninf tt k in
  Forall (fun x : f64 => is_finite x = true) y /\ length (map B2R y) = 2%nat /\ Rmax_norm (map B2R y) <= 8.
Proof.
  intros k s y. destruct halve_hyps as (H1 & H2 & H3 & H4 & H5 & H6 & H7 & H8 & H9 & H10 & H11).
  destruct (C88_iterates_pf unit (f64_ofQ 0) (f64_ofQ (1#1024)) (f64_ofQ (1#4)) halve [f64_ofQ 0; f64_ofQ 1] tt
    2 8 5 (bpow radix2 (-49)) (/ 2) halveR H1 H2 H3 H4 H5 H6 H7 ltac:(lra) H8 H9 H10 k) as (A1 & A2 & _).
  split; [exact A1|]. exact A2.
Qed.

Example C88_success_ex_pf : forall fs auxs, exists fuel sol,
  iterative_solve vallfinite
    (fixed_point_iteration (N:=F64) (f64_ofQ 0) (f64_ofQ (1#1024)) (f64_ofQ (1#4)) max_norm)
    (fun y => (map (fun x => fadd (fmul (f64_ofQ (1#2)) x) (f64_ofQ 1)) y, tt))
    fuel None true [f64_ofQ 0; f64_ofQ 1] fs auxs = Ret sol /\
  result sol = successful /\ Rdist_inf (map B2R (value sol : list f64)) [2; 2] <= / 500.
Proof.
  intros fs auxs. destruct (C88_terminates_ex_pf fs auxs) as (k & _ & HS).
  destruct (HS (S k) None true ltac:(lia) ltac:(intros m Q; discriminate Q)) as (sol & E & R). exists (S k), sol.
  split; [exact E|]. split; [exact R|].
  destruct halve_hyps as (H1 & H2 & H3 & H4 & H5 & H6 & H7 & H8 & H9 & H10 & H11). destruct zero_val as [F0 V0].
  pose proof big_bpow as BG. pose proof quarter_val as V4.
  destruct (C88_success_pf unit (f64_ofQ 0) (f64_ofQ (1#1024)) (f64_ofQ (1#4)) halve [f64_ofQ 0; f64_ofQ 1] fs auxs
    2 8 5 (bpow radix2 (-49)) (/ 2) halveR (S k) None true sol [2; 2] H1 H2 H3 H4 H5 H6 H7 ltac:(lra) H8 H9 H10 F0) as (_ & _ & HD).
  - vm_compute; reflexivity.
  - rewrite V0. lra.
  - rewrite tol1024_val. lra.
  - split; [reflexivity|]. cbn [Rmax_norm fold_right]. rewrite Rabs_pos_eq by lra. repeat apply Rmax_lub; lra.
  - unfold halveR. cbn [map]. repeat f_equal; field.
  - exact E.
  - exact R.
  - eapply Rle_trans; [exact HD|]. rewrite V0, tol1024_val. rewrite V4 in *.
    replace (/ 4 + (1 - / 4) * / 2) with (5 / 8) by field. unfold Rdiv at 2. replace (/ (1 - 5 / 8)) with (8 / 3) by field.
    destruct small_bpow as [S1 S2]. lra.
Qed.
