(** Monotonicity of binary64 scalings and norms (used by C112). *)

From Coq Require Import List Bool Arith ZArith QArith Reals Lra Lia.
From Flocq Require Import Core IEEE754.BinarySingleNaN.
From Verif Require Import Num NumFacts NumF64 NumF64_facts F64Facts Vec.
Import ListNotations.
Local Open Scope R_scope.

Notation big := (bpow radix2 1024).
Notation pinf := (@B754_infinity 53 1024 false).
(** not NaN and not negative (-0 allowed) *)
Definition nn (a : f64) : Prop := a = pinf \/ (fin a = true /\ 0 <= val a).
(** a <= b, both non-negative *)
Definition fle (a b : f64) : Prop := nn a /\ nn b /\ (b = pinf \/ (fin a = true /\ fin b = true /\ val a <= val b)).
Definition is_round (v : R) (z : f64) : Prop := if Rlt_bool (rnd v) big then fin z = true /\ val z = rnd v else z = pinf.

Lemma rnd_pos : forall v, 0 <= v -> 0 <= rnd v.
Proof. intros v H. rewrite <- (round_0 radix2 (FLT_exp (-1074) 53) ZnearestE). apply rnd_le. exact H. Qed.
Lemma rnd_opp : forall v, rnd (- v) = - rnd v.
Proof. intro v. apply round_NE_opp. Qed.
Lemma rnd_abs : forall v, Rabs (rnd v) = rnd (Rabs v).
Proof.
  intro v. unfold Rabs at 2. destruct (Rcase_abs v) as [H|H].
  - rewrite rnd_opp. apply Rabs_left1. rewrite <- (round_0 radix2 (FLT_exp (-1074) 53) ZnearestE). apply rnd_le. lra.
  - apply Rabs_pos_eq, rnd_pos. lra.
Qed.
Lemma is_round_mono : forall v w z u, 0 <= v <= w -> is_round v z -> is_round w u -> fle z u.
Proof.
  intros v w z u H. unfold is_round. pose proof (rnd_le v w ltac:(lra)) as M. pose proof (rnd_pos v ltac:(lra)) as P.
  destruct (Rlt_bool_spec (rnd v) big) as [A|A]; destruct (Rlt_bool_spec (rnd w) big) as [B|B]; try lra; intros Z U.
  - destruct Z as (Z1 & Z2), U as (U1 & U2). unfold fle, nn. rewrite Z2, U2. split; [right; split; [auto|lra]|]. split; [right; split; [auto|lra]|]. right. auto.
  - destruct Z as (Z1 & Z2). unfold fle, nn. rewrite Z2. split; [right; auto|]. split; [left; exact U|left; exact U].
  - subst. unfold fle, nn. auto.
Qed.
Lemma is_round_nn : forall v z, 0 <= v -> is_round v z -> nn z.
Proof. intros v z H Z. apply (is_round_mono v v z z (conj H (Rle_refl v)) Z Z). Qed.
Lemma sign_nonneg : forall a : f64, fin a = true -> 0 < val a -> Bsign a = false.
Proof.
  intros [s| | |s m e Hm] F V; try discriminate F; cbn in *; [lra|].
  destruct s; [|reflexivity]. exfalso. assert (F2R (Float radix2 (Zneg m) e) < 0) by (apply F2R_lt_0; reflexivity). cbn in V. lra.
Qed.
Lemma big_pos : 0 < big. Proof. apply bpow_gt_0. Qed.
Lemma rnd_zero : rnd 0 = 0. Proof. apply round_0. typeclasses eauto. Qed.

Lemma fmul_round : forall a b : f64, fin a = true -> fin b = true -> 0 <= val a -> 0 <= val b -> is_round (val a * val b) (fmul a b).
Proof.
  intros a b Fa Fb Ha Hb. pose proof (Bmult_correct 53 1024 f64_prec f64_emax mode_NE a b) as C.
  change (if Rlt_bool (Rabs (rnd (val a * val b))) (bpow radix2 1024) then
    val (fmul a b) = rnd (val a * val b) /\ fin (fmul a b) = fin a && fin b /\
    (is_nan (fmul a b) = false -> Bsign (fmul a b) = xorb (Bsign a) (Bsign b))
    else B2SF (fmul a b) = binary_overflow 53 1024 mode_NE (xorb (Bsign a) (Bsign b))) in C.
  assert (P : 0 <= val a * val b) by (apply Rmult_le_pos; lra). rewrite (Rabs_pos_eq (rnd (val a * val b))) in C by (apply rnd_pos, P).
  unfold is_round. destruct (Rlt_bool_spec (rnd (val a * val b)) big) as [A|A].
  - rewrite Fa, Fb in C. tauto.
  - assert (NZ : val a * val b <> 0) by (intro E; rewrite E, rnd_zero in A; pose proof big_pos; lra).
    assert (val a <> 0) by (intro E; apply NZ; rewrite E; ring). assert (val b <> 0) by (intro E; apply NZ; rewrite E; ring).
    rewrite (sign_nonneg a Fa), (sign_nonneg b Fb) in C by lra. apply overflow_inf in C. exact C.
Qed.
Lemma fadd_round : forall a b : f64, fin a = true -> fin b = true -> 0 <= val a -> 0 <= val b -> is_round (val a + val b) (fadd a b).
Proof.
  intros a b Fa Fb Ha Hb. pose proof (Bplus_correct 53 1024 f64_prec f64_emax mode_NE a b Fa Fb) as C.
  change (if Rlt_bool (Rabs (rnd (val a + val b))) (bpow radix2 1024) then
    val (fadd a b) = rnd (val a + val b) /\ fin (fadd a b) = true /\
    Bsign (fadd a b) = match Rcompare (val a + val b) 0 with Eq => Bsign a && Bsign b | Lt => true | Gt => false end
    else B2SF (fadd a b) = binary_overflow 53 1024 mode_NE (Bsign a) /\ Bsign a = Bsign b) in C.
  rewrite (Rabs_pos_eq (rnd (val a + val b))) in C by (apply rnd_pos; lra).
  unfold is_round. destruct (Rlt_bool_spec (rnd (val a + val b)) big) as [A|A]; [tauto|].
  destruct C as (C & SG). destruct (Req_dec (val a) 0) as [Ea|Ea].
  - destruct (Req_dec (val b) 0) as [Eb|Eb].
    + exfalso. rewrite Ea, Eb, Rplus_0_l, rnd_zero in A. pose proof big_pos. lra.
    + rewrite SG, (sign_nonneg b Fb) in C by lra. apply overflow_inf in C. exact C.
  - rewrite (sign_nonneg a Fa) in C by lra. apply overflow_inf in C. exact C.
Qed.

Lemma nn_cases : forall a, nn a -> a = pinf \/ (fin a = true /\ val a = 0) \/ (fin a = true /\ 0 < val a).
Proof. intros a [H|[H V]]; [left; exact H|]. destruct V as [V|V]; [right; right|right; left]; auto. Qed.
Lemma mul_pinf : forall a : f64, nn a -> (fmul a pinf = pinf /\ 0 < val a \/ fmul a pinf = pinf /\ a = pinf) \/ (is_nan (fmul a pinf) = true /\ val a = 0 /\ fin a = true).
Proof.
  intros a [->|[F V]]; [left; right; auto|]. destruct a as [s| | |s m e Hm]; try discriminate F.
  - right. auto.
  - left. left. destruct s.
    + exfalso. assert (F2R (Float radix2 (Zneg m) e) < 0) by (apply F2R_lt_0; reflexivity). cbn in V. lra.
    + split; [reflexivity|]. cbn. apply F2R_gt_0. reflexivity.
Qed.
Lemma fmul_mono : forall a b c : f64, fle a b -> fin b = true -> nn c -> is_nan (fmul a c) = false -> fle (fmul a c) (fmul b c).
Proof.
  intros a b c (Na & Nb & L) Fb Nc NN. destruct L as [->|(Fa & _ & L)]; [discriminate Fb|].
  assert (Va : 0 <= val a) by (destruct Na as [->|[_ V]]; [discriminate Fa|exact V]).
  destruct Nc as [->|[Fc Vc]].
  - destruct (mul_pinf a Na) as [[[E P]|[E ->]]|[E _]]; [|discriminate Fa|congruence].
    destruct (mul_pinf b Nb) as [[[E' _]|[E' ->]]|[_ [P' _]]]; [|discriminate Fb|lra]. rewrite E, E'. unfold fle, nn. auto.
  - apply (is_round_mono (val a * val c) (val b * val c)).
    + split; [apply Rmult_le_pos; lra|apply Rmult_le_compat_r; lra].
    + apply fmul_round; auto.
    + apply fmul_round; auto. lra.
Qed.
Lemma add_pinf : forall a, nn a -> fadd a pinf = pinf /\ fadd pinf a = pinf.
Proof. intros a [->|[F V]]; [split; reflexivity|]. destruct a; try discriminate F; split; reflexivity. Qed.
Lemma fadd_mono : forall a b c d : f64, fle a b -> fle c d -> fle (fadd a c) (fadd b d).
Proof.
  intros a b c d (Na & Nb & L) (Nc & Nd & M).
  assert (NS : nn (fadd a c)).
  { destruct Na as [->|[Fa Va]]; [rewrite (proj2 (add_pinf c Nc)); left; reflexivity|].
    destruct Nc as [->|[Fc Vc]]; [rewrite (proj1 (add_pinf a ltac:(right; auto))); left; reflexivity|].
    apply (is_round_nn (val a + val c)); [lra|apply fadd_round; auto]. }
  destruct L as [->|(Fa & Fb & L)]; [rewrite (proj2 (add_pinf d Nd)); unfold fle, nn; auto|].
  destruct M as [->|(Fc & Fd & M)]; [rewrite (proj1 (add_pinf b Nb)); unfold fle, nn; auto|].
  assert (Va : 0 <= val a) by (destruct Na as [->|[_ V]]; [discriminate Fa|exact V]).
  assert (Vc : 0 <= val c) by (destruct Nc as [->|[_ V]]; [discriminate Fc|exact V]).
  apply (is_round_mono (val a + val c) (val b + val d)); [lra|apply fadd_round; auto|apply fadd_round; auto; lra].
Qed.

(** the scale rtol, atol of cauchy_termination *)
Definition sc (rtol atol y : f64) : f64 := fadd atol (fmul rtol (Babs y)).
Lemma abs_nn : forall y : f64, is_nan y = false -> nn (Babs y).
Proof.
  intros y H. destruct (fin y) eqn:F.
  - right. rewrite is_finite_Babs, B2R_Babs. split; [exact F|apply Rabs_pos].
  - left. destruct y as [|s| |]; try discriminate; reflexivity.
Qed.
Lemma sc_mono : forall rtol rtol' atol atol' y, fle rtol rtol' -> fin rtol' = true -> fle atol atol' -> is_nan (sc rtol atol y) = false ->
  fle (sc rtol atol y) (sc rtol' atol' y).
Proof.
  intros rtol rtol' atol atol' y Hr Fr Ha H. unfold sc in *. apply fadd_mono; [exact Ha|].
  assert (NY : is_nan y = false).
  { destruct (is_nan y) eqn:E; [|reflexivity]. destruct y; try discriminate E. destruct rtol, atol; cbn in H; discriminate H. }
  apply fmul_mono; auto.
  - apply abs_nn, NY.
  - destruct (is_nan (fmul rtol (Babs y))) eqn:E; [|reflexivity]. destruct (fmul rtol (Babs y)); try discriminate E. destruct atol; cbn in H; discriminate H.
Qed.

Lemma fdiv_abs : forall a b : f64, fin a = true -> fin b = true -> val b <> 0 ->
  if Rlt_bool (rnd (Rabs (val a / val b))) big then fin (fdiv a b) = true /\ Rabs (val (fdiv a b)) = rnd (Rabs (val a / val b)) else fin (fdiv a b) = false.
Proof.
  intros a b Fa Fb Nz. pose proof (Bdiv_correct 53 1024 f64_prec f64_emax mode_NE a b Nz) as C.
  change (if Rlt_bool (Rabs (rnd (val a / val b))) (bpow radix2 1024) then
    val (fdiv a b) = rnd (val a / val b) /\ fin (fdiv a b) = fin a /\
    (is_nan (fdiv a b) = false -> Bsign (fdiv a b) = xorb (Bsign a) (Bsign b))
    else B2SF (fdiv a b) = binary_overflow 53 1024 mode_NE (xorb (Bsign a) (Bsign b))) in C.
  rewrite rnd_abs in C. destruct (Rlt_bool _ _).
  - destruct C as (C1 & C2 & _). rewrite C1, C2, rnd_abs. auto.
  - apply overflow_inf in C. rewrite C. reflexivity.
Qed.
Lemma div_fin_l : forall a b : f64, fin (fdiv a b) = true -> fin a = true.
Proof. intros [s|s| |s m e H] [s'|s'| |s' m' e' H'] F; try reflexivity; cbn in F; discriminate F. Qed.
Lemma div_pinf : forall a : f64, fin a = true -> fin (fdiv a pinf) = true /\ val (fdiv a pinf) = 0.
Proof. intros [s|s| |s m e H] F; try discriminate F; split; reflexivity. Qed.
Lemma fin_zero : forall b : f64, fin b = true -> val b = 0 -> exists s, b = B754_zero s.
Proof.
  intros [s|s| |s m e H] F V; try discriminate F; [exists s; reflexivity|]. exfalso. cbn in V.
  apply eq_0_F2R in V. destruct s; discriminate V.
Qed.
Lemma div_zero : forall a s, fin (fdiv a (B754_zero s)) = true -> False.
Proof. intros [s|s| |s m e H] s' F; cbn in F; discriminate F. Qed.

(** dividing by something larger gives something smaller *)
Lemma fdiv_mono : forall d s s' : f64, fin (fdiv d s) = true -> fle s s' ->
  fin (fdiv d s') = true /\ Rabs (val (fdiv d s')) <= Rabs (val (fdiv d s)).
Proof.
  intros d s s' F (Ns & Ns' & L). pose proof (div_fin_l _ _ F) as Fd.
  destruct L as [->|(Fs & Fs' & L)].
  - destruct (div_pinf d Fd) as (E1 & E2). rewrite E2, Rabs_R0. split; [exact E1|apply Rabs_pos].
  - assert (Vs : 0 <= val s) by (destruct Ns as [->|[_ V]]; [discriminate Fs|exact V]).
    assert (Ps : 0 < val s).
    { destruct Vs as [V|V]; [exact V|]. destruct (fin_zero s Fs (eq_sym V)) as (sg & ->). exfalso. exact (div_zero _ _ F). }
    pose proof (fdiv_abs d s Fd Fs ltac:(lra)) as A. pose proof (fdiv_abs d s' Fd Fs' ltac:(lra)) as B.
    assert (Q : Rabs (val d / val s') <= Rabs (val d / val s)).
    { unfold Rdiv. rewrite !Rabs_mult. apply Rmult_le_compat_l; [apply Rabs_pos|].
      rewrite (Rabs_pos_eq (/ val s')), (Rabs_pos_eq (/ val s)) by (left; apply Rinv_0_lt_compat; lra). apply Rinv_le; lra. }
    apply rnd_le in Q. destruct (Rlt_bool_spec (rnd (Rabs (val d / val s))) big) as [X|X]; [|congruence].
    assert (X2 : rnd (Rabs (val d / val s')) < big) by lra. rewrite (Rlt_bool_true _ _ X2) in B. destruct A as (_ & A), B as (B1 & B2). rewrite A, B2. split; [exact B1|exact Q].
Qed.

(** entries of a finite tight ratio shrink when the tolerances grow *)
Definition shrinks (u v : f64) : Prop := fin u = true -> fin v = true /\ Rabs (val v) <= Rabs (val u).
Lemma ratio_shrinks : forall rtol rtol' atol atol' d y, fle rtol rtol' -> fin rtol' = true -> fle atol atol' ->
  shrinks (fdiv d (sc rtol atol y)) (fdiv d (sc rtol' atol' y)).
Proof.
  intros rtol rtol' atol atol' d y Hr Fr Ha F. apply fdiv_mono; [exact F|]. apply sc_mono; auto.
  destruct (is_nan (sc rtol atol y)) eqn:E; [|reflexivity]. destruct (sc rtol atol y); try discriminate E.
  destruct d; cbn in F; discriminate F.
Qed.

(** ** norms *)
Definition one : f64 := f64_ofQ 1.
Lemma one_fin : fin one = true. Proof. reflexivity. Qed.
Lemma ltb_one : forall a : f64, nn a -> Bltb a one = true <-> fin a = true /\ val a < 1.
Proof.
  intros a [->|[F V]].
  - split; [discriminate|intros [? _]; discriminate].
  - rewrite Bltb_correct by (try exact F; reflexivity). fold one. replace (val one) with 1 by (symmetry; exact one_val).
    destruct (Rlt_bool_spec (val a) 1); split; intro; try (split; [exact F|assumption]); auto; try discriminate. destruct H0. lra.
Qed.

Lemma nmax_lt : forall a b : f64, Bltb (nmax (N:=F64) a b) one = true <-> Bltb a one = true /\ Bltb b one = true.
Proof.
  intros a b. unfold nmax, nisnan. cbn [neqb nltb F64]. rewrite !f2x_eqb.
  destruct (xeqb (f2x a) (f2x a)) eqn:Ea; cbn [negb].
  - destruct (xeqb (f2x b) (f2x b)) eqn:Eb; cbn [negb].
    + rewrite !f2x_ltb. change one with (f64_ofQ 1). destruct (xltb (f2x a) (f2x b)) eqn:L.
      * split; [|tauto]. intro H. split; [|exact H]. destruct (f2x a), (f2x b), (f2x (f64_ofQ 1)); cbn in *; try discriminate; try reflexivity.
        rewrite Rltb_true in *. lra.
      * split; [|tauto]. intro H. split; [exact H|]. destruct (f2x a), (f2x b), (f2x (f64_ofQ 1)); cbn in *; try discriminate; try reflexivity.
        rewrite Rltb_true in *. rewrite Rltb_false in L. lra.
    + split; [|tauto]. intro H. exfalso. rewrite f2x_ltb in H. destruct (f2x b); cbn in *; try discriminate. rewrite (proj2 (Reqb_true _ _) eq_refl) in Eb. discriminate.
  - split; [|tauto]. intro H. exfalso. rewrite f2x_ltb in H. destruct (f2x a); cbn in *; try discriminate. rewrite (proj2 (Reqb_true _ _) eq_refl) in Ea. discriminate.
Qed.
Lemma max_norm_lt : forall l : list f64, Bltb (max_norm (N:=F64) l) one = true <-> Forall (fun a => fin a = true /\ Rabs (val a) < 1) l.
Proof.
  induction l as [|a l IH].
  - split; [constructor|]. intros _. reflexivity.
  - change (max_norm (N:=F64) (a :: l)) with (nmax (N:=F64) (Babs a) (max_norm (N:=F64) l)). rewrite nmax_lt, IH, Forall_cons_iff.
    assert (X : Bltb (Babs a) one = true <-> fin a = true /\ Rabs (val a) < 1); [|rewrite X; reflexivity].
    destruct (is_nan a) eqn:E.
    + destruct a; try discriminate E. split; [discriminate|intros [? _]; discriminate].
    + rewrite (ltb_one _ (abs_nn a E)), is_finite_Babs, B2R_Babs. reflexivity.
Qed.

Lemma add_fin : forall a b : f64, fin (fadd a b) = true -> fin a = true /\ fin b = true.
Proof. intros [s|s| |s m e H] [s'|s'| |s' m' e' H'] F; try (split; reflexivity); cbn in F; try discriminate F; destruct s, s'; discriminate F. Qed.
Lemma mul_fin : forall a b : f64, fin (fmul a b) = true -> fin a = true /\ fin b = true.
Proof. intros [s|s| |s m e H] [s'|s'| |s' m' e' H'] F; try (split; reflexivity); cbn in F; discriminate F. Qed.
Lemma square_round : forall a : f64, fin a = true -> is_round (val a * val a) (fmul a a).
Proof.
  intros a Fa. pose proof (Bmult_correct 53 1024 f64_prec f64_emax mode_NE a a) as C.
  change (if Rlt_bool (Rabs (rnd (val a * val a))) (bpow radix2 1024) then
    val (fmul a a) = rnd (val a * val a) /\ fin (fmul a a) = fin a && fin a /\
    (is_nan (fmul a a) = false -> Bsign (fmul a a) = xorb (Bsign a) (Bsign a))
    else B2SF (fmul a a) = binary_overflow 53 1024 mode_NE (xorb (Bsign a) (Bsign a))) in C.
  assert (P : 0 <= val a * val a) by apply Rle_0_sqr. rewrite (Rabs_pos_eq (rnd (val a * val a))) in C by (apply rnd_pos, P).
  unfold is_round. rewrite Fa, xorb_nilpotent in C. destruct (Rlt_bool _ _); [tauto|]. apply overflow_inf in C. exact C.
Qed.
Lemma sum_squares_mono : forall l l' : list f64, Forall2 shrinks l l' -> fin (sum_squares (N:=F64) l) = true ->
  fin (sum_squares (N:=F64) l') = true /\ 0 <= val (sum_squares (N:=F64) l') <= val (sum_squares (N:=F64) l).
Proof.
  intros l l' H. induction H as [|a b l l' Hab H IH]; intro F.
  - split; [reflexivity|]. change (val (sum_squares (N:=F64) [])) with 0. lra.
  - change (sum_squares (N:=F64) (a :: l)) with (fadd (fmul a a) (sum_squares (N:=F64) l)) in *.
    change (sum_squares (N:=F64) (b :: l')) with (fadd (fmul b b) (sum_squares (N:=F64) l')) in *.
    destruct (add_fin _ _ F) as (F1 & F2). destruct (mul_fin _ _ F1) as (Fa & _). destruct (Hab Fa) as (Fb & L). destruct (IH F2) as (I1 & I2).
    pose proof (square_round a Fa) as Ra. pose proof (square_round b Fb) as Rb.
    assert (SQ : 0 <= val b * val b <= val a * val a).
    { split; [apply Rle_0_sqr|]. change (val b * val b) with (Rsqr (val b)). change (val a * val a) with (Rsqr (val a)). apply Rsqr_le_abs_1. exact L. }
    destruct (is_round_mono _ _ _ _ SQ Rb Ra) as (N1 & N2 & [E|(G1 & _ & G3)]); [rewrite E in F1; discriminate F1|].
    assert (V1 : 0 <= val (fmul b b)) by (destruct N1 as [E|[_ V]]; [rewrite E in G1; discriminate G1|exact V]).
    assert (FL : fle (fadd (fmul b b) (sum_squares (N:=F64) l')) (fadd (fmul a a) (sum_squares (N:=F64) l))).
    { apply fadd_mono; unfold fle, nn; split; try (split; [|right; split; [assumption|split; [assumption|lra]]]); right; split; try assumption; lra. }
    destruct FL as (M1 & M2 & [E|(K1 & _ & K3)]); [rewrite E in F; discriminate F|].
    split; [exact K1|]. split; [|exact K3]. destruct M1 as [E|[_ V]]; [rewrite E in K1; discriminate K1|exact V].
Qed.
Lemma fsqrt_fin : forall x : f64, fin x = true -> 0 <= val x -> fin (fsqrt x) = true /\ val (fsqrt x) = rnd (sqrt (val x)).
Proof.
  intros x F V. destruct (Bsqrt_correct 53 1024 f64_prec f64_emax mode_NE x) as (C1 & C2 & _). split; [|exact C1].
  unfold fsqrt. rewrite C2. destruct x as [s|s| |s m e H]; try discriminate F; [reflexivity|]. destruct s; [|reflexivity].
  exfalso. assert (F2R (Float radix2 (Zneg m) e) < 0) by (apply F2R_lt_0; reflexivity). cbn in V. lra.
Qed.
Lemma sqrt_lt_one : forall x : f64, Bltb (fsqrt x) one = true -> fin x = true.
Proof. intros [s|s| |s m e H] L; [reflexivity|destruct s; discriminate L|discriminate L|reflexivity]. Qed.
Lemma sqrt_mono_lt : forall x y : f64, fin y = true -> 0 <= val y <= val x -> Bltb (fsqrt x) one = true -> Bltb (fsqrt y) one = true.
Proof.
  intros x y Fy H L. pose proof (sqrt_lt_one x L) as Fx. destruct (fsqrt_fin x Fx ltac:(lra)) as (A1 & A2). destruct (fsqrt_fin y Fy ltac:(lra)) as (B1 & B2).
  rewrite Bltb_correct in * by (try assumption; reflexivity). rewrite A2 in L. rewrite B2.
  assert (rnd (sqrt (val y)) <= rnd (sqrt (val x))) by (apply rnd_le, sqrt_le_1; lra).
  destruct (Rlt_bool_spec (rnd (sqrt (val x))) (val one)); [|discriminate L]. apply Rlt_bool_true. lra.
Qed.
Lemma count_nn : forall k : nat, nn (f64_ofQ (inject_Z (Z.of_nat k))).
Proof.
  intro k. unfold f64_ofQ, inject_Z. cbn [Qnum Qden].
  assert (N : nn (f64_ofZ (Z.of_nat k))).
  { pose proof (binary_normalize_correct 53 1024 f64_prec f64_emax mode_NE (Z.of_nat k) 0 false) as C.
    change (let x := F2R (Float radix2 (Z.of_nat k) 0) in let z := f64_ofZ (Z.of_nat k) in
      if Rlt_bool (Rabs (rnd x)) big then val z = rnd x /\ fin z = true /\ Bsign z = match Rcompare x 0 with Eq => false | Lt => true | Gt => false end
      else B2SF z = binary_overflow 53 1024 mode_NE (Rlt_bool x 0)) in C. cbv zeta in C.
    assert (P : 0 <= F2R (Float radix2 (Z.of_nat k) 0)) by (apply F2R_ge_0; cbn; lia).
    destruct (Rlt_bool _ _) in C.
    - destruct C as (C1 & C2 & _). right. split; [exact C2|]. rewrite C1. apply rnd_pos, P.
    - rewrite (Rlt_bool_false _ _ P) in C. apply overflow_inf in C. left. exact C. }
  set (o := f64_ofZ 1). assert (Fo : fin o = true) by reflexivity.
  assert (Vo : val o = 1).
  { assert (E : B2SF o = SpecFloat.S754_finite false 4503599627370496 (-52)) by (vm_compute; reflexivity). rewrite (pow_val _ _ E). reflexivity. }
  destruct N as [->|[F V]]; [left; vm_compute; reflexivity|].
  pose proof (Bdiv_correct 53 1024 f64_prec f64_emax mode_NE (f64_ofZ (Z.of_nat k)) o ltac:(rewrite Vo; lra)) as C.
  set (a := f64_ofZ (Z.of_nat k)) in *.
  change (if Rlt_bool (Rabs (rnd (val a / val o))) (bpow radix2 1024) then
    val (fdiv a o) = rnd (val a / val o) /\ fin (fdiv a o) = fin a /\
    (is_nan (fdiv a o) = false -> Bsign (fdiv a o) = xorb (Bsign a) (Bsign o))
    else B2SF (fdiv a o) = binary_overflow 53 1024 mode_NE (xorb (Bsign a) (Bsign o))) in C.
  rewrite Vo in C. replace (val a / 1) with (val a) in C by field. rewrite (rnd_id _ (val_format a)) in C.
  rewrite (Rlt_bool_true _ _ (abs_B2R_lt_emax 53 1024 a)) in C. destruct C as (C1 & C2 & _). right. rewrite C2, C1. auto.
Qed.

Lemma fdiv_num : forall x y c : f64, fin (fdiv x c) = true -> nn c -> fin y = true -> 0 <= val y <= val x ->
  fin (fdiv y c) = true /\ 0 <= val (fdiv y c) <= val (fdiv x c).
Proof.
  intros x y c F Nc Fy H. pose proof (div_fin_l _ _ F) as Fx. destruct Nc as [->|[Fc Vc]].
  - destruct (div_pinf _ Fx) as (_ & ->). destruct (div_pinf _ Fy) as (A & ->). split; [exact A|lra].
  - assert (Pc : 0 < val c).
    { destruct Vc as [V|V]; [exact V|]. destruct (fin_zero c Fc (eq_sym V)) as (sg & ->). exfalso. exact (div_zero _ _ F). }
    assert (D : 0 <= val y / val c <= val x / val c).
    { split; [apply Rmult_le_pos; [lra|left; apply Rinv_0_lt_compat; lra]|]. apply Rmult_le_compat_r; [left; apply Rinv_0_lt_compat; lra|lra]. }
    assert (C : forall a, if Rlt_bool (Rabs (rnd (val a / val c))) big then
      val (fdiv a c) = rnd (val a / val c) /\ fin (fdiv a c) = fin a /\
      (is_nan (fdiv a c) = false -> Bsign (fdiv a c) = xorb (Bsign a) (Bsign c))
      else B2SF (fdiv a c) = binary_overflow 53 1024 mode_NE (xorb (Bsign a) (Bsign c))).
    { intro a. exact (Bdiv_correct 53 1024 f64_prec f64_emax mode_NE a c ltac:(lra)). }
    pose proof (C x) as Cx. pose proof (C y) as Cy. pose proof (rnd_pos _ (proj1 D)) as P. pose proof (rnd_le _ _ (proj2 D)) as M.
    destruct (Rlt_bool_spec (Rabs (rnd (val x / val c))) big) as [X|X]; [|apply overflow_inf in Cx; rewrite Cx in F; discriminate F].
    assert (X2 : Rabs (rnd (val y / val c)) < big) by (rewrite Rabs_pos_eq in * by lra; lra).
    rewrite (Rlt_bool_true _ _ X2) in Cy. destruct Cx as (Cx & _), Cy as (C1 & C2 & _). rewrite Cx, C1, C2. split; [exact Fy|lra].
Qed.

(** the three norms of the library *)
Lemma norms_shrink : forall norm, (norm = max_norm (N:=F64) \/ norm = two_norm (N:=F64) \/ norm = rms_norm (N:=F64)) ->
  forall l l' : list f64, Forall2 shrinks l l' -> Bltb (norm l) one = true -> Bltb (norm l') one = true.
Proof.
  intros norm [->|[->| ->]] l l' H L.
  - rewrite max_norm_lt in *. induction H as [|a b l l' Hab H IH]; [constructor|]. inversion L as [|? ? [L1 L2] L3]; subst.
    constructor; [|apply IH, L3]. destruct (Hab L1) as (X1 & X2). split; [exact X1|lra].
  - unfold two_norm in *. change (nsqrt (n:=F64)) with fsqrt in *. pose proof (sqrt_lt_one _ L) as F.
    destruct (sum_squares_mono l l' H F) as (A & B). exact (sqrt_mono_lt _ _ A B L).
  - assert (LE : length l = length l') by (clear L; induction H; cbn; congruence).
    destruct l as [|a l], l' as [|b l']; try discriminate LE; [exact L|].
    change (Bltb (fsqrt (fdiv (sum_squares (N:=F64) (a :: l)) (f64_ofQ (inject_Z (Z.of_nat (length (a :: l))))))) one = true) in L.
    change (Bltb (fsqrt (fdiv (sum_squares (N:=F64) (b :: l')) (f64_ofQ (inject_Z (Z.of_nat (length (b :: l'))))))) one = true).
    rewrite <- LE. set (c := f64_ofQ (inject_Z (Z.of_nat (length (a :: l))))) in *. pose proof (count_nn (length (a :: l))) as Nc. fold c in Nc.
    pose proof (sqrt_lt_one _ L) as FD. pose proof (div_fin_l _ _ FD) as F.
    destruct (sum_squares_mono _ _ H F) as (A & B).
    destruct (fdiv_num _ _ c FD Nc A B) as (D1 & D2). exact (sqrt_mono_lt _ _ D1 D2 L).
Qed.
