(** Rounding facts about binary64 used by the floating-point theorems (C87, C88). *)

From Coq Require Import ZArith Reals QArith Bool Lra Lia.
From Flocq Require Import Core Plus_error Relative IEEE754.BinarySingleNaN.
From Verif Require Import Num NumFacts NumF64.
Local Open Scope R_scope.

Notation rnd := (round radix2 (FLT_exp (-1074) 53) ZnearestE).
Notation is_f64 := (generic_format radix2 (FLT_exp (-1074) 53)).
Notation val := (@B2R 53 1024).
Notation fin := (@is_finite 53 1024).

Global Instance prec53 : Prec_gt_0 53 := eq_refl.

Lemma bpow_half : forall e, bpow radix2 (-1 + e) = / 2 * bpow radix2 e.
Proof. intro e. rewrite bpow_plus. reflexivity. Qed.
Lemma bpow_twice : forall e, bpow radix2 (1 + e) = 2 * bpow radix2 e.
Proof. intro e. rewrite bpow_plus. reflexivity. Qed.

Lemma val_format : forall a : f64, is_f64 (val a).
Proof. intro a. exact (generic_format_B2R 53 1024 a). Qed.

Lemma pow_format : forall e, (-1074 <= e)%Z -> is_f64 (bpow radix2 e).
Proof. intros e He. apply generic_format_bpow. unfold FLT_exp. lia. Qed.

Lemma rnd_bound : forall x e, (-1074 <= e)%Z -> Rabs x <= bpow radix2 e -> Rabs (rnd x) <= bpow radix2 e.
Proof. intros x e He H. apply abs_round_le_generic; [typeclasses eauto|typeclasses eauto|apply pow_format; exact He|exact H]. Qed.

Lemma rnd_small : forall x, Rabs x <= bpow radix2 1023 -> Rlt_bool (Rabs (rnd x)) (bpow radix2 1024) = true.
Proof.
  intros x H. apply Rlt_bool_true. eapply Rle_lt_trans; [apply (rnd_bound x 1023); [lia|exact H]|]. apply bpow_lt. lia.
Qed.

Lemma fadd_val : forall a b : f64, fin a = true -> fin b = true -> Rabs (val a + val b) <= bpow radix2 1023 ->
  fin (fadd a b) = true /\ val (fadd a b) = rnd (val a + val b).
Proof.
  intros a b Fa Fb H. pose proof (Bplus_correct 53 1024 f64_prec f64_emax mode_NE a b Fa Fb) as C.
  change (if Rlt_bool (Rabs (rnd (val a + val b))) (bpow radix2 1024) then
    val (fadd a b) = rnd (val a + val b) /\ fin (fadd a b) = true /\
    Bsign (fadd a b) = match Rcompare (val a + val b) 0 with Eq => Bsign a && Bsign b | Lt => true | Gt => false end
    else B2SF (fadd a b) = binary_overflow 53 1024 mode_NE (Bsign a) /\ Bsign a = Bsign b) in C.
  rewrite (rnd_small _ H) in C. tauto.
Qed.
Lemma fsub_val : forall a b : f64, fin a = true -> fin b = true -> Rabs (val a - val b) <= bpow radix2 1023 ->
  fin (fsub a b) = true /\ val (fsub a b) = rnd (val a - val b).
Proof.
  intros a b Fa Fb H. pose proof (Bminus_correct 53 1024 f64_prec f64_emax mode_NE a b Fa Fb) as C.
  change (if Rlt_bool (Rabs (rnd (val a - val b))) (bpow radix2 1024) then
    val (fsub a b) = rnd (val a - val b) /\ fin (fsub a b) = true /\
    Bsign (fsub a b) = match Rcompare (val a - val b) 0 with Eq => Bsign a && negb (Bsign b) | Lt => true | Gt => false end
    else B2SF (fsub a b) = binary_overflow 53 1024 mode_NE (Bsign a) /\ Bsign a = negb (Bsign b)) in C.
  rewrite (rnd_small _ H) in C. tauto.
Qed.
Lemma fmul_val : forall a b : f64, fin a = true -> fin b = true -> Rabs (val a * val b) <= bpow radix2 1023 ->
  fin (fmul a b) = true /\ val (fmul a b) = rnd (val a * val b).
Proof.
  intros a b Fa Fb H. pose proof (Bmult_correct 53 1024 f64_prec f64_emax mode_NE a b) as C.
  change (if Rlt_bool (Rabs (rnd (val a * val b))) (bpow radix2 1024) then
    val (fmul a b) = rnd (val a * val b) /\ fin (fmul a b) = fin a && fin b /\
    (is_nan (fmul a b) = false -> Bsign (fmul a b) = xorb (Bsign a) (Bsign b))
    else B2SF (fmul a b) = binary_overflow 53 1024 mode_NE (xorb (Bsign a) (Bsign b))) in C.
  rewrite (rnd_small _ H), Fa, Fb in C. tauto.
Qed.

Lemma half_val : fin (f64_ofQ (1#2)) = true /\ val (f64_ofQ (1#2)) = / 2.
Proof.
  split; [vm_compute; reflexivity|]. rewrite <- SF2R_B2SF.
  assert (E : B2SF (f64_ofQ (1#2)) = SpecFloat.S754_finite false 4503599627370496 (-53)) by (vm_compute; reflexivity).
  rewrite E. unfold SF2R, F2R. cbn [cond_Zopp Fnum Fexp]. change (IZR (Z.pos 4503599627370496)) with (IZR (Zpower radix2 52)).
  rewrite (IZR_Zpower radix2 52) by lia. rewrite <- bpow_plus. reflexivity.
Qed.
Lemma zero_val : fin (f64_ofQ 0) = true /\ val (f64_ofQ 0) = 0.
Proof.
  split; [vm_compute; reflexivity|]. rewrite <- SF2R_B2SF.
  assert (E : B2SF (f64_ofQ 0) = SpecFloat.S754_zero false) by (vm_compute; reflexivity).
  rewrite E. reflexivity.
Qed.

Lemma rnd_le : forall x y, x <= y -> rnd x <= rnd y.
Proof. intros x y H. apply round_le; [typeclasses eauto|typeclasses eauto|exact H]. Qed.
Lemma rnd_id : forall x, is_f64 x -> rnd x = x.
Proof. intros x H. apply round_generic; [typeclasses eauto|exact H]. Qed.

(** Sums: relative error 2^-53; products: that, or 2^-1075 *)
Lemma rnd_plus : forall x y, is_f64 x -> is_f64 y -> exists e, Rabs e <= bpow radix2 (-53) /\ rnd (x + y) = (x + y) * (1 + e).
Proof.
  intros x y Hx Hy. destruct (FLT_plus_error_N_ex radix2 (-1074) 53 (fun x => negb (Z.even x)) x y Hx Hy) as (e & He & E).
  exists e. split; [|exact E]. eapply Rle_trans; [exact He|].
  assert (U : u_ro radix2 53 = bpow radix2 (-53)).
  { unfold u_ro. symmetry. exact (bpow_half (-52)). }
  rewrite U. pose proof (bpow_gt_0 radix2 (-53)) as B0.
  apply (Rmult_le_reg_r (1 + bpow radix2 (-53))); [lra|]. unfold Rdiv. rewrite Rmult_assoc, Rinv_l by lra.
  assert (0 <= bpow radix2 (-53) * bpow radix2 (-53)) by (apply Rmult_le_pos; lra). lra.
Qed.
Lemma rnd_minus : forall x y, is_f64 x -> is_f64 y -> exists e, Rabs e <= bpow radix2 (-53) /\ rnd (x - y) = (x - y) * (1 + e).
Proof. intros x y Hx Hy. apply (rnd_plus x (- y) Hx). apply generic_format_opp. exact Hy. Qed.
Lemma rnd_any : forall x, exists e eta, Rabs e <= bpow radix2 (-53) /\ Rabs eta <= bpow radix2 (-1075) /\ e * eta = 0 /\ rnd x = x * (1 + e) + eta.
Proof.
  intro x. destruct (error_N_FLT radix2 (-1074) 53 eq_refl (fun x => negb (Z.even x)) x) as (e & eta & A & B & C & D).
  exists e, eta. split; [|split; [|split; [exact C|exact D]]].
  - eapply Rle_trans; [exact A|]. right. symmetry. exact (bpow_half (-52)).
  - eapply Rle_trans; [exact B|]. right. symmetry. exact (bpow_half (-1074)).
Qed.

(** ** The midpoint l + 0.5 (u - l) *)
Definition midpoint (l u : f64) : f64 := fadd l (fmul (f64_ofQ (1#2)) (fsub u l)).

Lemma half_width : forall l u, is_f64 l -> is_f64 u -> l <= u -> 0 <= rnd (/ 2 * rnd (u - l)) <= u - l.
Proof.
  intros l u Hl Hu H. set (d := u - l). assert (D0 : 0 <= d) by (unfold d; lra).
  assert (W0 : 0 <= rnd d) by (rewrite <- (rnd_id 0 (generic_format_0 _ _)); apply rnd_le; exact D0).
  split; [rewrite <- (rnd_id 0 (generic_format_0 _ _)); apply rnd_le; lra|].
  destruct (Rle_dec d (bpow radix2 (53 + -1074))) as [S|S].
  - assert (F : is_f64 d).
    { unfold d, Rminus. apply FLT_format_plus_small; [exact prec53|exact Hu|apply generic_format_opp; exact Hl|].
      fold (u - l). fold d. rewrite Rabs_pos_eq by exact D0. exact S. }
    rewrite (rnd_id d F). rewrite <- (rnd_id d F) at 2. apply rnd_le. lra.
  - apply Rnot_le_lt in S. destruct (rnd_minus u l Hu Hl) as (e & He & E). fold d in E.
    destruct (rnd_any (/ 2 * rnd d)) as (e2 & eta & H2 & H3 & _ & E2). rewrite E2, E.
    assert (B : bpow radix2 (-53) <= / 8).
    { change (/ 8) with (bpow radix2 (-3)). apply bpow_le. lia. }
    assert (C : bpow radix2 (-1075) <= / 8 * d).
    { apply Rle_trans with (/ 8 * bpow radix2 (53 + -1074)); [|lra].
      change (/ 8) with (bpow radix2 (-3)). rewrite <- bpow_plus. apply bpow_le. lia. }
    apply Rabs_le_inv in He. apply Rabs_le_inv in H2. apply Rabs_le_inv in H3.
    assert (d * (1 + e) <= d * (9/8)) by (apply Rmult_le_compat_l; lra).
    assert (/ 2 * (d * (1 + e)) * (1 + e2) <= / 2 * (d * (9/8)) * (9/8)).
    { apply Rmult_le_compat; [|lra|lra|lra]. assert (0 <= d * (1 + e)) by (apply Rmult_le_pos; lra). lra. }
    lra.
Qed.

Lemma midpoint_val : forall l u : f64, fin l = true -> fin u = true ->
  Rabs (val l) <= bpow radix2 1022 -> Rabs (val u) <= bpow radix2 1022 ->
  val l <= val u ->
  fin (midpoint l u) = true /\ val (midpoint l u) = rnd (val l + rnd (/ 2 * rnd (val u - val l))) /\
  val l <= val (midpoint l u) <= val u.
Proof.
  intros l u Fl Fu Bl Bu H. unfold midpoint.
  assert (TW : bpow radix2 1023 = 2 * bpow radix2 1022) by exact (bpow_twice 1022).
  destruct (half_width (val l) (val u) (val_format l) (val_format u) H) as (H1 & H2).
  apply Rabs_le_inv in Bl. apply Rabs_le_inv in Bu.
  destruct (fsub_val u l Fu Fl) as (F1 & V1); [rewrite TW; apply Rabs_le; lra|].
  destruct half_val as (Fh & Vh).
  destruct (fmul_val (f64_ofQ (1#2)) (fsub u l) Fh F1) as (F2 & V2).
  { rewrite Vh, V1, Rabs_mult, Rabs_pos_eq by lra.
    assert (Rabs (rnd (val u - val l)) <= bpow radix2 1023) by (apply rnd_bound; [lia|rewrite TW; apply Rabs_le; lra]).
    pose proof (bpow_gt_0 radix2 1023). lra. }
  rewrite Vh, V1 in V2. set (h := rnd (/ 2 * rnd (val u - val l))) in *.
  destruct (fadd_val l (fmul (f64_ofQ (1#2)) (fsub u l)) Fl F2) as (F3 & V3).
  { rewrite V2, TW. apply Rabs_le. lra. }
  rewrite V2 in V3. split; [exact F3|]. split; [exact V3|]. rewrite V3. split.
  - rewrite <- (rnd_id (val l)) at 1 by apply val_format. apply rnd_le. lra.
  - rewrite <- (rnd_id (val u)) by apply val_format. apply rnd_le. lra.
Qed.

(** It is the true midpoint up to rounding. *)
Lemma midpoint_near : forall l u M : R, is_f64 l -> is_f64 u -> l <= u -> Rabs l <= M -> Rabs u <= M ->
  Rabs (rnd (l + rnd (/ 2 * rnd (u - l))) - (l + u) / 2) <= bpow radix2 (-51) * M + bpow radix2 (-1075).
Proof.
  intros l u M Hl Hu H Bl Bu. destruct (half_width l u Hl Hu H) as (H1 & H2).
  destruct (rnd_minus u l Hu Hl) as (e1 & A1 & E1). destruct (rnd_any (/ 2 * rnd (u - l))) as (e2 & eta & A2 & A3 & _ & E2).
  assert (Hh : is_f64 (rnd (/ 2 * rnd (u - l)))) by (apply generic_format_round; typeclasses eauto).
  destruct (rnd_plus l _ Hl Hh) as (e3 & A4 & E3). rewrite E3. set (h := rnd (/ 2 * rnd (u - l))) in *.
  rewrite E1 in E2. set (b := bpow radix2 (-53)) in *. set (t := bpow radix2 (-1075)) in *.
  assert (B0 : 0 < b) by apply bpow_gt_0. assert (T0 : 0 < t) by apply bpow_gt_0.
  assert (B51 : bpow radix2 (-51) = 4 * b).
  { unfold b. change (-51)%Z with (2 + -53)%Z. rewrite bpow_plus. reflexivity. }
  assert (Bs : b <= / 64).
  { change (/ 64) with (bpow radix2 (-6)). apply bpow_le. lia. }
  apply Rabs_le_inv in Bl. apply Rabs_le_inv in Bu. 
  assert (HE : Rabs (h - (u - l) / 2) <= (u - l) * (b + / 2 * b * b) + t).
  { rewrite E2. replace (/ 2 * ((u - l) * (1 + e1)) * (1 + e2) + eta - (u - l) / 2) with ((u - l) * (/ 2 * (e1 + e2 + e1 * e2)) + eta) by field.
    eapply Rle_trans; [apply Rabs_triang|]. apply Rplus_le_compat; [|exact A3].
    rewrite Rabs_mult, (Rabs_pos_eq (u - l)) by lra. apply Rmult_le_compat_l; [lra|].
    rewrite Rabs_mult, (Rabs_pos_eq (/ 2)) by lra.
    assert (Rabs (e1 + e2 + e1 * e2) <= b + b + b * b).
    { eapply Rle_trans; [apply Rabs_triang|]. apply Rplus_le_compat.
      - eapply Rle_trans; [apply Rabs_triang|]. lra.
      - rewrite Rabs_mult. apply Rmult_le_compat; try apply Rabs_pos; assumption. }
    lra. }
  replace ((l + h) * (1 + e3) - (l + u) / 2) with ((h - (u - l) / 2) + (l + h) * e3) by field.
  eapply Rle_trans; [apply Rabs_triang|].
  assert (LH : Rabs ((l + h) * e3) <= M * b).
  { rewrite Rabs_mult. apply Rmult_le_compat; try apply Rabs_pos; [|exact A4]. apply Rabs_le. lra. }
  assert ((u - l) * (b + / 2 * b * b) <= 2 * M * (b + / 2 * b * b)).
  { apply Rmult_le_compat_r; [|lra]. assert (0 <= b * b) by (apply Rmult_le_pos; lra). lra. }
  assert (b * b <= / 64 * b) by (apply Rmult_le_compat_r; lra).
  assert (M0 : 0 <= M) by lra.
  assert (M * (b * b) <= M * (/ 64 * b)) by (apply Rmult_le_compat_l; lra).
  assert (0 <= M * b) by (apply Rmult_le_pos; lra).
  rewrite B51. lra.
Qed.

Lemma pos_bpow : forall e, 0 < bpow radix2 e. Proof. intro e. apply bpow_gt_0. Qed.
Lemma scale_val : forall (rtol atol y : f64), fin rtol = true -> fin atol = true -> fin y = true ->
  0 <= val rtol <= 1 -> 0 <= val atol <= bpow radix2 1022 -> Rabs (val y) <= bpow radix2 1022 ->
  let scale := fadd atol (fmul rtol (Babs y)) in
  fin scale = true /\ val scale = rnd (val atol + rnd (val rtol * Rabs (val y))).
Proof.
  intros rtol atol y Fr Fa Fy Hr Ha Hy scale. unfold scale.
  assert (TW : bpow radix2 1023 = 2 * bpow radix2 1022) by exact (bpow_twice 1022).
  pose proof (pos_bpow 1022) as P. pose proof (Rabs_pos (val y)) as Y0.
  assert (PY : 0 <= val rtol * Rabs (val y) <= bpow radix2 1022).
  { split; [apply Rmult_le_pos; lra|]. apply Rle_trans with (1 * Rabs (val y)); [apply Rmult_le_compat_r|]; lra. }
  destruct (fmul_val rtol (Babs y) Fr) as (F2 & V2); [rewrite is_finite_Babs; exact Fy| |].
  { rewrite B2R_Babs. rewrite Rabs_pos_eq by lra. lra. }
  rewrite B2R_Babs in V2.
  assert (BQ : Rabs (rnd (val rtol * Rabs (val y))) <= bpow radix2 1022) by (apply rnd_bound; [lia|rewrite Rabs_pos_eq; lra]).
  apply Rabs_le_inv in BQ.
  destruct (fadd_val atol (fmul rtol (Babs y)) Fa F2) as (F3 & V3); [rewrite V2, TW; apply Rabs_le; lra|].
  rewrite V2 in V3. auto.
Qed.
Lemma ltb_val : forall a b : f64, fin a = true -> fin b = true -> val a < val b -> Bltb a b = true.
Proof. intros a b Fa Fb H. rewrite Bltb_correct by assumption. apply Rlt_bool_true. exact H. Qed.
Lemma pow_val : forall (x : f64) (e : Z), B2SF x = SpecFloat.S754_finite false 4503599627370496 e -> val x = bpow radix2 (52 + e).
Proof.
  intros x e E. rewrite <- SF2R_B2SF. rewrite E. unfold SF2R, F2R. cbn [cond_Zopp Fnum Fexp].
  change (IZR (Z.pos 4503599627370496)) with (IZR (Zpower radix2 52)).
  rewrite (IZR_Zpower radix2 52) by lia. rewrite <- bpow_plus. reflexivity.
Qed.
Lemma one_val : val (f64_ofQ 1) = 1.
Proof. refine (eq_trans (pow_val _ (-52) _) _); [vm_compute; reflexivity|reflexivity]. Qed.
Lemma two_val : val (f64_ofQ 2) = 2.
Proof. refine (eq_trans (pow_val _ (-51) _) _); [vm_compute; reflexivity|reflexivity]. Qed.
Lemma small_bpow : bpow radix2 (-50) <= / 1048576 /\ bpow radix2 (-1074) <= / 1048576.
Proof.
  change (/ 1048576) with (bpow radix2 (-20)). split; apply bpow_le; lia.
Qed.
Lemma big_bpow : 2 <= bpow radix2 1022.
Proof. change 2 with (bpow radix2 1). apply bpow_le. lia. Qed.

(* what a difference below the computed tolerance says about the values *)
Lemma close_tol : forall (rtol atol y a v : f64), fin rtol = true -> fin atol = true -> fin y = true -> fin a = true -> fin v = true ->
  0 <= val rtol <= 1 -> 0 <= val atol <= bpow radix2 1022 -> Rabs (val y) <= bpow radix2 1022 ->
  Rabs (val a) <= bpow radix2 1022 -> Rabs (val v) <= bpow radix2 1022 ->
  Bltb (Babs (fsub a v)) (fadd atol (fmul rtol (Babs y))) = true ->
  Rabs (val a - val v) <= (1 + bpow radix2 (-50)) * (val atol + val rtol * Rabs (val y)) + bpow radix2 (-1074).
Proof.
  intros rtol atol y l u Fr Fa Fy Fl Fu Hr Ha Hy Hl Hu H.
  destruct (scale_val rtol atol y Fr Fa Fy Hr Ha Hy) as (Fs & Vs).
  assert (TW : bpow radix2 1023 = 2 * bpow radix2 1022) by exact (bpow_twice 1022).
  apply Rabs_le_inv in Hl. apply Rabs_le_inv in Hu.
  destruct (fsub_val l u Fl Fu) as (Fd & Vd); [rewrite TW; apply Rabs_le; lra|].
  rewrite Bltb_correct in H; [|rewrite is_finite_Babs; exact Fd|exact Fs].
  rewrite B2R_Babs, Vs, Vd in H. revert H; case Rlt_bool_spec; [intros H _|intros _ H; discriminate H].
  assert (Fp : is_f64 (rnd (val rtol * Rabs (val y)))) by (apply generic_format_round; typeclasses eauto).
  destruct (rnd_minus (val l) (val u) (val_format l) (val_format u)) as (e1 & A1 & E1).
  destruct (rnd_plus (val atol) _ (val_format atol) Fp) as (e3 & A3 & E3).
  destruct (rnd_any (val rtol * Rabs (val y))) as (e2 & eta & A2 & A4 & _ & E2).
  rewrite E1, E3, E2, Rabs_mult in H.
  set (b := bpow radix2 (-53)) in *. set (t := bpow radix2 (-1075)) in *.
  assert (B0 : 0 < b) by apply bpow_gt_0. assert (T0 : 0 < t) by apply bpow_gt_0.
  assert (B50 : bpow radix2 (-50) = 8 * b).
  { unfold b. change (-50)%Z with (3 + -53)%Z. rewrite bpow_plus. reflexivity. }
  assert (T74 : bpow radix2 (-1074) = 2 * t) by exact (bpow_twice (-1075)).
  assert (Bs : b <= / 64).
  { change (/ 64) with (bpow radix2 (-6)). apply bpow_le. lia. }
  rewrite B50, T74. pose proof (Rabs_pos (val y)) as Y0.
  assert (P0 : 0 <= val rtol * Rabs (val y)) by (apply Rmult_le_pos; lra).
  apply Rabs_le_inv in A1. apply Rabs_le_inv in A2. apply Rabs_le_inv in A3. apply Rabs_le_inv in A4.
  set (d := Rabs (val l - val u)) in *. assert (D0 : 0 <= d) by apply Rabs_pos.
  set (a := val atol) in *. set (p := val rtol * Rabs (val y)) in *.
  rewrite (Rabs_pos_eq (1 + e1)) in H by lra.
  assert (X1 : d * (1 - b) <= d * (1 + e1)) by (apply Rmult_le_compat_l; lra).
  assert (X2 : p * (1 + e2) + eta <= p * (1 + b) + t).
  { assert (p * (1 + e2) <= p * (1 + b)) by (apply Rmult_le_compat_l; lra). lra. }
  assert (X3 : (a + (p * (1 + e2) + eta)) * (1 + e3) <= (a * (1 + b) + p * (1 + b) + t) * (1 + b)).
  { apply Rle_trans with ((a * (1 + b) + p * (1 + b) + t) * (1 + e3)); [apply Rmult_le_compat_r|apply Rmult_le_compat_l].
    - lra.
    - assert (0 <= a * b) by (apply Rmult_le_pos; lra). lra.
    - assert (0 <= a * (1 + b)) by (apply Rmult_le_pos; lra). assert (0 <= p * (1 + b)) by (apply Rmult_le_pos; lra). lra.
    - lra. }
  apply (Rmult_le_reg_r (1 - b)); [lra|].
  assert (BB : b * b <= / 64 * b) by (apply Rmult_le_compat_r; lra).
  assert (Y1 : (a + p) * ((1 + b) * (1 + b)) <= (a + p) * ((1 + 8 * b) * (1 - b))).
  { apply Rmult_le_compat_l; [lra|]. lra. }
  assert (Y2 : t * (1 + b) <= t * (2 * (1 - b))) by (apply Rmult_le_compat_l; lra).
  lra.
Qed.

Lemma fdiv_val : forall a b : f64, fin a = true -> fin b = true -> val b <> 0 -> Rabs (val a / val b) <= bpow radix2 1023 ->
  fin (fdiv a b) = true /\ val (fdiv a b) = rnd (val a / val b).
Proof.
  intros a b Fa Fb Nz H. pose proof (Bdiv_correct 53 1024 f64_prec f64_emax mode_NE a b Nz) as C.
  change (if Rlt_bool (Rabs (rnd (val a / val b))) (bpow radix2 1024) then
    val (fdiv a b) = rnd (val a / val b) /\ fin (fdiv a b) = fin a /\
    (is_nan (fdiv a b) = false -> Bsign (fdiv a b) = xorb (Bsign a) (Bsign b))
    else B2SF (fdiv a b) = binary_overflow 53 1024 mode_NE (xorb (Bsign a) (Bsign b))) in C.
  rewrite (rnd_small _ H), Fa in C. tauto.
Qed.
