(** Bisection in binary64 arithmetic (C87). *)

From Coq Require Import String List Bool Arith Lia ZArith QArith Qreals Reals Lra.
From Flocq Require Import Core.
From Flocq.IEEE754 Require Import BinarySingleNaN.
From Verif Require Import Num NumFacts Results Iterate Spec_Iterate Iterate_proofs.
From Verif Require Import Bisection Spec_Bisection Bisection_proofs NumF64 NumF64_facts F64Facts.
Import ListNotations.
Local Open Scope R_scope.


Lemma bis64_step : forall (Aux : Type) (fn : f64 -> f64 * Aux) (y : f64) (st : bis_state (N:=F64)), exists neg : bool,
  let r := bis_step (N:=F64) fn y st in
  bis_lower (snd (fst r)) = (if neg then y else bis_lower st) /\ bis_upper (snd (fst r)) = (if neg then bis_upper st else y) /\
  fst (fst r) = midpoint (bis_lower (snd (fst r))) (bis_upper (snd (fst r))) /\ bis_error (snd (fst r)) = fst (fn y).
Proof.
  intros Aux fn y st. unfold bis_step. destruct (fn y) as [er a]. eexists. cbv zeta. cbn [fst snd bis_lower bis_upper bis_error].
  split; [reflexivity|]. split; [reflexivity|]. split; reflexivity.
Qed.
Arguments bis64_step {Aux}.

Section Run64.
  Context {Aux : Type}.
  Variables (rtol atol : f64) (fa : flip_arg) (ex : bool) (bf : nat) (lo up : f64).
  Variable fn : f64 -> f64 * Aux.
  Variables (y0 : f64) (st0 : bis_state (N:=F64)) (aux0 : Aux).
  Let s := bisection (N:=F64) (Aux:=Aux) rtol atol fa ex bf lo up.
  Let l k : f64 := bis_lower (st_at s fn y0 st0 aux0 k).
  Let u k : f64 := bis_upper (st_at s fn y0 st0 aux0 k).
  Let y k : f64 := y_at s fn y0 st0 aux0 k.
  Let e k : f64 := bis_error (st_at s fn y0 st0 aux0 k).

  Lemma b64_step : forall k, exists neg : bool,
    l (S k) = (if neg then y k else l k) /\ u (S k) = (if neg then u k else y k) /\
    y (S k) = midpoint (l (S k)) (u (S k)) /\ e (S k) = fst (fn (y k)).
  Proof.
    intro k. exact (bis64_step fn (y_at s fn y0 st0 aux0 k) (st_at s fn y0 st0 aux0 k)).
  Qed.

  Variable M : R.
  Hypothesis HM : M <= bpow radix2 1022.
  Hypothesis Fl : fin (l 0%nat) = true.
  Hypothesis Fu : fin (u 0%nat) = true.
  Hypothesis Fy : fin y0 = true.
  Hypothesis Bl : Rabs (val (l 0%nat)) <= M.
  Hypothesis Bu : Rabs (val (u 0%nat)) <= M.
  Hypothesis Hy : val (l 0%nat) <= val y0 <= val (u 0%nat).

  Lemma b64_inv : forall k, fin (l k) = true /\ fin (u k) = true /\ fin (y k) = true /\
    val (l 0%nat) <= val (l k) /\ val (l k) <= val (y k) <= val (u k) /\ val (u k) <= val (u 0%nat).
  Proof.
    induction k as [|k (I1 & I2 & I3 & I4 & I5 & I6)]; [split; [exact Fl|]; split; [exact Fu|]; split; [exact Fy|]; change (y 0%nat) with y0; lra|].
    destruct (b64_step k) as (neg & E1 & E2 & E3 & _).
    assert (J1 : fin (l (S k)) = true) by (rewrite E1; destruct neg; assumption).
    assert (J2 : fin (u (S k)) = true) by (rewrite E2; destruct neg; assumption).
    assert (J3 : val (l 0%nat) <= val (l (S k)) /\ val (l (S k)) <= val (u (S k)) /\ val (u (S k)) <= val (u 0%nat)).
    { rewrite E1, E2. destruct neg; lra. }
    apply Rabs_le_inv in Bl. apply Rabs_le_inv in Bu.
    destruct (midpoint_val (l (S k)) (u (S k)) J1 J2) as (F & _ & B); [apply Rabs_le; lra|apply Rabs_le; lra|lra|].
    split; [exact J1|]. split; [exact J2|]. rewrite E3. split; [exact F|]. lra.
  Qed.

  Lemma b64_nested : forall k, val (l k) <= val (l (S k)) /\ val (u (S k)) <= val (u k) /\
    (l (S k) = l k /\ u (S k) = y k \/ l (S k) = y k /\ u (S k) = u k).
  Proof.
    intro k. destruct (b64_inv k) as (_ & _ & _ & _ & I5 & _). destruct (b64_step k) as (neg & E1 & E2 & _).
    rewrite E1, E2. destruct neg; (split; [lra|]; split; [lra|]); [right|left]; auto.
  Qed.

  Lemma b64_halves : forall k, val (u (S (S k))) - val (l (S (S k))) <=
    (val (u (S k)) - val (l (S k))) / 2 + (bpow radix2 (-51) * M + bpow radix2 (-1075)).
  Proof.
    intro k. destruct (b64_inv (S k)) as (J1 & J2 & J3 & J4 & J5 & J6).
    destruct (b64_step k) as (neg0 & _ & _ & E3 & _). destruct (b64_step (S k)) as (neg & E1 & E2 & _).
    apply Rabs_le_inv in Bl. apply Rabs_le_inv in Bu.
    assert (BL : Rabs (val (l (S k))) <= M) by (apply Rabs_le; lra).
    assert (BU : Rabs (val (u (S k))) <= M) by (apply Rabs_le; lra).
    destruct (midpoint_val (l (S k)) (u (S k)) J1 J2 ltac:(lra) ltac:(lra) ltac:(lra)) as (_ & V & _).
    pose proof (midpoint_near (val (l (S k))) (val (u (S k))) M (val_format _) (val_format _) ltac:(lra) BL BU) as N.
    rewrite <- V, <- E3 in N. apply Rabs_le_inv in N. rewrite E1, E2. destruct neg; lra.
  Qed.

  Lemma b64_width : forall k, val (u (S k)) - val (l (S k)) <=
    (val (u 0%nat) - val (l 0%nat)) / 2 ^ k + (bpow radix2 (-50) * M + bpow radix2 (-1074)).
  Proof.
    assert (P1 : bpow radix2 (-50) = 2 * bpow radix2 (-51)) by exact (bpow_twice (-51)).
    assert (P2 : bpow radix2 (-1074) = 2 * bpow radix2 (-1075)) by exact (bpow_twice (-1075)).
    assert (M0 : 0 <= bpow radix2 (-51) * M).
    { apply Rmult_le_pos; [left; apply pos_bpow|]. pose proof (Rabs_pos (val (l 0%nat))). lra. }
    pose proof (pos_bpow (-1075)).
    induction k as [|k IH].
    - destruct (b64_nested 0) as (A & B & _). cbn [pow]. unfold Rdiv. rewrite Rinv_1, Rmult_1_r, P1, P2. lra.
    - pose proof (b64_halves k) as Hh. cbn [pow].
      replace ((val (u 0%nat) - val (l 0%nat)) / (2 * 2 ^ k)) with (((val (u 0%nat) - val (l 0%nat)) / 2 ^ k) / 2) by (field; apply pow_nonzero; lra).
      rewrite P1, P2 in *. lra.
  Qed.
End Run64.



Lemma width_tol : forall (rtol atol y l u : f64), fin rtol = true -> fin atol = true -> fin y = true -> fin l = true -> fin u = true ->
  0 <= val rtol <= 1 -> 0 <= val atol <= bpow radix2 1022 -> Rabs (val y) <= bpow radix2 1022 ->
  Rabs (val l) <= bpow radix2 1022 -> Rabs (val u) <= bpow radix2 1022 -> val l <= val u ->
  nltb (n:=F64) (nabs (n:=F64) (nsub (n:=F64) l u)) (nadd (n:=F64) atol (nmul (n:=F64) rtol (nabs (n:=F64) y))) = true ->
  val u - val l <= (1 + bpow radix2 (-50)) * (val atol + val rtol * Rabs (val y)) + bpow radix2 (-1074).
Proof.
  intros rtol atol y l u Fr Fa Fy Fl Fu Hr Ha Hy Hl Hu LU H.
  pose proof (close_tol rtol atol y l u Fr Fa Fy Fl Fu Hr Ha Hy Hl Hu H) as C.
  rewrite Rabs_left1 in C by lra. lra.
Qed.

(** Whatever the function returns (NaN included), bisection in binary64 keeps a bracket of doubles, each
    inside the previous one and each containing the iterate; its width halves in every step up to
    rounding errors, so that it sinks to 2^-50 M, M bounding the two ends of the first bracket. *)
Lemma C87_stays_inside_pf :
  forall (Aux : Type) (rtol atol : f64) flip expand bfuel (lower upper : f64)
         (fn : f64 -> f64 * Aux) (y0 : f64) fs auxs st0 (M : R),
    let s := bisection (N:=F64) rtol atol flip expand bfuel lower upper in
    s_init s fn y0 fs auxs = Ret st0 ->
    let l k : f64 := bis_lower (st_at s fn y0 st0 (auxs fill0) k) in
    let u k : f64 := bis_upper (st_at s fn y0 st0 (auxs fill0) k) in
    let y k : f64 := y_at s fn y0 st0 (auxs fill0) k in
    is_finite (l 0%nat) = true -> is_finite (u 0%nat) = true -> is_finite y0 = true ->
    Rabs (B2R (l 0%nat)) <= M -> Rabs (B2R (u 0%nat)) <= M -> M <= bpow radix2 1022 ->
    B2R (l 0%nat) <= B2R y0 <= B2R (u 0%nat) ->
    forall k,
      is_finite (l k) = true /\ is_finite (u k) = true /\ is_finite (y k) = true /\
      B2R (l k) <= B2R (y k) <= B2R (u k) /\
      B2R (l k) <= B2R (l (S k)) /\ B2R (u (S k)) <= B2R (u k) /\
      B2R (u (S k)) - B2R (l (S k)) <=
        (B2R (u 0%nat) - B2R (l 0%nat)) / 2 ^ k + (bpow radix2 (-50) * M + bpow radix2 (-1074)).
Proof.
  intros Aux rtol atol flip expand bfuel lower upper fn y0 fs auxs st0 M s Hi l u y Fl Fu Fy Bl Bu HM Hy k.
  destruct (b64_inv rtol atol flip expand bfuel lower upper fn y0 st0 (auxs fill0) M HM Fl Fu Fy Bl Bu Hy k) as (I1 & I2 & I3 & I4 & I5 & I6).
  destruct (b64_nested rtol atol flip expand bfuel lower upper fn y0 st0 (auxs fill0) M HM Fl Fu Fy Bl Bu Hy k) as (N1 & N2 & _).
  pose proof (b64_width rtol atol flip expand bfuel lower upper fn y0 st0 (auxs fill0) M HM Fl Fu Fy Bl Bu Hy k) as W.
  split; [exact I1|]. split; [exact I2|]. split; [exact I3|]. split; [exact I5|]. split; [exact N1|]. split; [exact N2|exact W].
Qed.

(** What a success means in binary64 (flip="detect", no expansion): two doubles l <= u in the given interval
    bracket a sign change of the computed function, the returned value lies between them, the computed
    value at one of them is below atol, and they are at most (1 + 2^-50) (atol + rtol |y|) + 2^-1074
    apart, y being that point. *)
Lemma C87_success_pf :
  forall (Aux : Type) (rtol atol : f64) bfuel (lower upper : f64)
         (fn : f64 -> f64 * Aux) (y0 : f64) fs auxs fuel ms throw sol,
    let f x := fst (fn x) in
    let s := bisection (N:=F64) rtol atol Detect false bfuel lower upper in
    is_finite lower = true -> is_finite upper = true -> is_finite y0 = true -> is_finite rtol = true -> is_finite atol = true ->
    is_nan (f lower) = false -> is_nan (f upper) = false ->
    Rabs (B2R lower) <= bpow radix2 1022 -> Rabs (B2R upper) <= bpow radix2 1022 -> B2R lower <= B2R y0 <= B2R upper ->
    0 <= B2R rtol <= 1 -> 0 <= B2R atol <= bpow radix2 1022 ->
    iterative_solve (nisfin (n:=F64)) s fn fuel ms throw y0 fs auxs = Ret sol ->
    result sol = successful ->
    exists (flip : bool) (l u y : f64),
      sign_change (N:=F64) f flip l u /\
      B2R lower <= B2R l /\ B2R l <= B2R (value sol) <= B2R u /\ B2R u <= B2R upper /\
      (y = l \/ y = u) /\ Bltb (Babs (f y)) atol = true /\
      B2R u - B2R l <= (1 + bpow radix2 (-50)) * (B2R atol + B2R rtol * Rabs (B2R y)) + bpow radix2 (-1074).
Proof.
  intros Aux rtol atol bfuel lower upper fn y0 fs auxs fuel ms throw sol f s Fl Fu Fy Fr Fa Nl Nu Bl Bu Hy Hr Ha H HR.
  assert (NL : nisnan (N:=F64) (f lower) = false).
  { unfold nisnan. change (negb (Beqb (f lower) (f lower)) = false). rewrite Beqb_refl, Nl. reflexivity. }
  assert (NU : nisnan (N:=F64) (f upper) = false).
  { unfold nisnan. change (negb (Beqb (f upper) (f upper)) = false). rewrite Beqb_refl, Nu. reflexivity. }
  destruct (C16_detect_pf F64 F64_laws Aux rtol atol bfuel lower upper fn y0 fs auxs NL NU) as (C1 & C2).
  destruct (bool_dec (nltb (n:=F64) (f lower) (f64_ofQ 0)) (nltb (n:=F64) (f upper) (f64_ofQ 0))) as [E|E].
  { exfalso. specialize (C1 E). unfold iterative_solve, iterate in H. fold s in C1. rewrite C1 in H. discriminate H. }
  destruct (C2 E) as (st0 & Hi & El & Eu & SC). clear C1 C2 E.
  destruct (C03_success_sound_pf _ _ _ (nisfin (n:=F64)) s fn y0 fs auxs _ ms fuel throw sol Hi H HR)
    as (k & _ & _ & HT & _ & ES & EV).
  set (l := fun k => bis_lower (st_at s fn y0 st0 (auxs fill0) k) : f64).
  set (u := fun k => bis_upper (st_at s fn y0 st0 (auxs fill0) k) : f64).
  set (y := fun k => y_at s fn y0 st0 (auxs fill0) k : f64).
  assert (INV : forall k, fin (l k) = true /\ fin (u k) = true /\ fin (y k) = true /\
    val (l 0%nat) <= val (l k) /\ val (l k) <= val (y k) <= val (u k) /\ val (u k) <= val (u 0%nat)).
  { apply (b64_inv rtol atol Detect false bfuel lower upper fn y0 st0 (auxs fill0) (bpow radix2 1022) (Rle_refl _));
      change (bis_lower (st_at _ fn y0 st0 (auxs fill0) 0)) with (bis_lower st0); change (bis_upper (st_at _ fn y0 st0 (auxs fill0) 0)) with (bis_upper st0);
      rewrite ?El, ?Eu; assumption. }
  assert (L0 : l 0%nat = lower) by exact El. assert (U0 : u 0%nat = upper) by exact Eu. rewrite L0, U0 in INV.
  destruct k as [|k].
  { exfalso. unfold asked in HT. cbn [Nat.pred] in HT. rewrite ES in HT. cbn [s_terminate s bisection] in HT. unfold bis_terminate in HT.
    change (st_at _ _ _ _ _ 0) with st0 in HT.
    assert (EE : bis_error st0 = (B754_infinity false : f64)).
    { cbn [s_init s bisection] in Hi. unfold bis_init in Hi. cbv zeta in Hi.
      destruct (eqb _ _) in Hi; [discriminate Hi|]. injection Hi as <-. reflexivity. }
    rewrite EE in HT. injection HT as HT. apply andb_true_iff in HT. destruct HT as [_ HT].
    change (Bltb (Babs (B754_infinity false)) atol = true) in HT. destruct atol; try discriminate HT; destruct s0; discriminate HT. }
  destruct (b64_step rtol atol Detect false bfuel lower upper fn y0 st0 (auxs fill0) k) as (neg & E1 & E2 & _ & E4).
  change (l (S k) = (if neg then y k else l k)) in E1. change (u (S k) = (if neg then u k else y k)) in E2.
  change (bis_error (st_at s fn y0 st0 (auxs fill0) (S k)) = f (y k)) in E4.
  destruct (INV (S k)) as (J1 & J2 & J3 & J4 & J5 & J6). destruct (INV k) as (_ & _ & K3 & K4 & K5 & K6).
  unfold asked in HT. cbn [Nat.pred] in HT. rewrite ES in HT.
  change (bis_terminate (N:=F64) rtol atol (y k) (st_at s fn y0 st0 (auxs fill0) (S k)) = (true, successful)) in HT.
  unfold bis_terminate in HT. rewrite E4 in HT. injection HT as HT. apply andb_true_iff in HT. destruct HT as [HT1 HT2].
  destruct (C12_sign_change_kept_pf F64 Aux rtol atol Detect false bfuel lower upper fn y0 st0 (auxs fill0) (S k)) as (_ & SCk).
  { rewrite El, Eu. exact SC. }
  assert (EV' : value sol = y (S k)).
  { cbn [s_post s bisection] in EV. injection EV as EV _. exact EV. }
  apply Rabs_le_inv in Bl. apply Rabs_le_inv in Bu.
  exists (bis_flip st0), (l (S k)), (u (S k)), (y k). rewrite EV'.
  split; [exact SCk|]. split; [exact J4|]. split; [exact J5|]. split; [exact J6|].
  split; [rewrite E1, E2; destruct neg; auto|]. split; [exact HT2|].
  apply width_tol; try assumption; try (apply Rabs_le; lra). lra.
Qed.


Lemma width_small : forall (rtol atol delta y l u : f64), fin rtol = true -> fin atol = true -> fin delta = true -> fin y = true -> fin l = true -> fin u = true ->
  0 <= val rtol <= 1 -> 0 <= val atol <= bpow radix2 1022 -> Rabs (val y) <= bpow radix2 1022 ->
  Rabs (val l) <= bpow radix2 1022 -> Rabs (val u) <= bpow radix2 1022 -> val l <= val u ->
  val u - val l <= val delta -> val delta < val atol ->
  nltb (n:=F64) (nabs (n:=F64) (nsub (n:=F64) l u)) (nadd (n:=F64) atol (nmul (n:=F64) rtol (nabs (n:=F64) y))) = true.
Proof.
  intros rtol atol delta y l u Fr Fa Fd Fy Fl Fu Hr Ha Hy Hl Hu LU HD DA.
  destruct (scale_val rtol atol y Fr Fa Fy Hr Ha Hy) as (Fs & Vs).
  change (Bltb (Babs (fsub l u)) (fadd atol (fmul rtol (Babs y))) = true).
  assert (TW : bpow radix2 1023 = 2 * bpow radix2 1022) by exact (bpow_twice 1022).
  apply Rabs_le_inv in Hl. apply Rabs_le_inv in Hu.
  destruct (fsub_val l u Fl Fu) as (Fm & Vm); [rewrite TW; apply Rabs_le; lra|].
  apply ltb_val; [rewrite is_finite_Babs; exact Fm|exact Fs|].
  rewrite B2R_Babs, Vs, Vm.
  apply Rle_lt_trans with (val delta); [|apply Rlt_le_trans with (val atol); [exact DA|]].
  - assert (G1 : rnd (val l - val u) <= rnd 0) by (apply rnd_le; lra). rewrite round_0 in G1 by typeclasses eauto.
    assert (G2 : rnd (- val delta) <= rnd (val l - val u)) by (apply rnd_le; lra).
    rewrite (rnd_id (- val delta)) in G2 by (apply generic_format_opp; apply val_format).
    rewrite Rabs_left1 by exact G1. lra.
  - rewrite <- (rnd_id (val atol) (val_format atol)) at 1. apply rnd_le.
    assert (G : rnd 0 <= rnd (val rtol * Rabs (val y))).
    { apply rnd_le. apply Rmult_le_pos; [lra|apply Rabs_pos]. }
    rewrite round_0 in G by typeclasses eauto. lra.
Qed.

(** Bisection in binary64 succeeds, and an explicit number of steps suffices: the computed function need only be
    below atol at any two doubles of the interval that bracket a sign change and are at most delta apart,
    delta a double below atol that is not below the rounding errors of the midpoints. *)
Lemma C87_terminates_pf :
  forall (Aux : Type) (rtol atol delta : f64) bfuel (lower upper : f64)
         (fn : f64 -> f64 * Aux) (y0 : f64) fs auxs (M : R) (K : nat),
    let f x := fst (fn x) in
    let s := bisection (N:=F64) rtol atol Detect false bfuel lower upper in
    is_finite lower = true -> is_finite upper = true -> is_finite y0 = true -> is_finite rtol = true -> is_finite atol = true ->
    is_finite delta = true -> is_nan (f lower) = false -> is_nan (f upper) = false ->
    Rabs (B2R lower) <= M -> Rabs (B2R upper) <= M -> M <= bpow radix2 1022 -> B2R lower <= B2R y0 <= B2R upper ->
    0 <= B2R rtol <= 1 -> 0 <= B2R atol <= bpow radix2 1022 -> B2R delta < B2R atol ->
    Bltb (f lower) (f64_ofQ 0) <> Bltb (f upper) (f64_ofQ 0) ->
    (forall x x' : f64, is_finite x = true -> is_finite x' = true ->
       B2R lower <= B2R x <= B2R x' -> B2R x' <= B2R upper -> B2R x' - B2R x <= B2R delta ->
       Bltb (f x) (f64_ofQ 0) <> Bltb (f x') (f64_ofQ 0) ->
       Bltb (Babs (f x)) atol = true /\ Bltb (Babs (f x')) atol = true) ->
    (B2R upper - B2R lower) / 2 ^ K + (bpow radix2 (-50) * M + bpow radix2 (-1074)) <= B2R delta ->
    exists k, (k <= S K)%nat /\
      forall fuel ms throw, (k < fuel)%nat -> (forall m, ms = Some m -> (k <= m)%nat) ->
        exists sol, iterative_solve (nisfin (n:=F64)) s fn fuel ms throw y0 fs auxs = Ret sol /\ result sol = successful.
Proof.
  intros Aux rtol atol delta bfuel lower upper fn y0 fs auxs M K f s Fl Fu Fy Fr Fa Fd Nl Nu Bl Bu HM Hy Hr Ha Hda HS HC HK.
  assert (NL : nisnan (N:=F64) (f lower) = false).
  { unfold nisnan. change (negb (Beqb (f lower) (f lower)) = false). rewrite Beqb_refl, Nl. reflexivity. }
  assert (NU : nisnan (N:=F64) (f upper) = false).
  { unfold nisnan. change (negb (Beqb (f upper) (f upper)) = false). rewrite Beqb_refl, Nu. reflexivity. }
  destruct (C16_detect_pf F64 F64_laws Aux rtol atol bfuel lower upper fn y0 fs auxs NL NU) as (_ & C2).
  destruct (C2 HS) as (st0 & Hi & El & Eu & SC). clear C2.
  set (l := fun k => bis_lower (st_at s fn y0 st0 (auxs fill0) k) : f64).
  set (u := fun k => bis_upper (st_at s fn y0 st0 (auxs fill0) k) : f64).
  set (y := fun k => y_at s fn y0 st0 (auxs fill0) k : f64).
  assert (L0 : l 0%nat = lower) by exact El. assert (U0 : u 0%nat = upper) by exact Eu.
  assert (INV : forall k, fin (l k) = true /\ fin (u k) = true /\ fin (y k) = true /\
    val (l 0%nat) <= val (l k) /\ val (l k) <= val (y k) <= val (u k) /\ val (u k) <= val (u 0%nat)).
  { apply (b64_inv rtol atol Detect false bfuel lower upper fn y0 st0 (auxs fill0) M HM);
      change (bis_lower (st_at _ fn y0 st0 (auxs fill0) 0)) with (bis_lower st0); change (bis_upper (st_at _ fn y0 st0 (auxs fill0) 0)) with (bis_upper st0);
      rewrite ?El, ?Eu; assumption. }
  assert (W : val (u (S K)) - val (l (S K)) <= (val (u 0%nat) - val (l 0%nat)) / 2 ^ K + (bpow radix2 (-50) * M + bpow radix2 (-1074))).
  { apply (b64_width rtol atol Detect false bfuel lower upper fn y0 st0 (auxs fill0) M HM);
      change (bis_lower (st_at _ fn y0 st0 (auxs fill0) 0)) with (bis_lower st0); change (bis_upper (st_at _ fn y0 st0 (auxs fill0) 0)) with (bis_upper st0);
      rewrite ?El, ?Eu; assumption. }
  rewrite L0, U0 in INV, W.
  assert (T : says_terminate s fn y0 st0 (auxs fill0) (S K) = true).
  { destruct (b64_step rtol atol Detect false bfuel lower upper fn y0 st0 (auxs fill0) K) as (neg & E1 & E2 & _ & E4).
    change (l (S K) = (if neg then y K else l K)) in E1. change (u (S K) = (if neg then u K else y K)) in E2.
    change (bis_error (st_at s fn y0 st0 (auxs fill0) (S K)) = f (y K)) in E4.
    destruct (INV (S K)) as (J1 & J2 & J3 & J4 & J5 & J6). destruct (INV K) as (_ & _ & K3 & K4 & K5 & K6).
    destruct (C12_sign_change_kept_pf F64 Aux rtol atol Detect false bfuel lower upper fn y0 st0 (auxs fill0) (S K)) as (_ & SCk).
    { rewrite El, Eu. exact SC. }
    assert (NE : Bltb (f (l (S K))) (f64_ofQ 0) <> Bltb (f (u (S K))) (f64_ofQ 0)).
    { destruct SCk as [S1 S2]. change (Bltb (f (l (S K))) (f64_ofQ 0) = negb (bis_flip st0)) in S1.
      change (Bltb (f (u (S K))) (f64_ofQ 0) = bis_flip st0) in S2. rewrite S1, S2. destruct (bis_flip st0); discriminate. }
    apply Rabs_le_inv in Bl. apply Rabs_le_inv in Bu.
    destruct (HC (l (S K)) (u (S K)) J1 J2) as (G1 & G2); try assumption; try lra.
    unfold says_terminate, asked. cbn [Nat.pred].
    change (fst (bis_terminate (N:=F64) rtol atol (y K) (st_at s fn y0 st0 (auxs fill0) (S K))) = true).
    unfold bis_terminate. rewrite E4. cbn [fst]. apply andb_true_iff. split.
    - change (nltb (n:=F64) (nabs (n:=F64) (nsub (n:=F64) (l (S K)) (u (S K)))) (nadd (n:=F64) atol (nmul (n:=F64) rtol (nabs (n:=F64) (y K)))) = true).
      apply (width_small rtol atol delta); try assumption; try (apply Rabs_le; lra); lra.
    - change (Bltb (Babs (f (y K))) atol = true).
      rewrite E1 in G1. rewrite E2 in G2. destruct neg; assumption. }
  destruct (solve_succeeds (nisfin (n:=F64)) s fn y0 st0 _ fs auxs eq_refl Hi) as (k & Tk & Mn & HSS).
  - intro k. reflexivity.
  - intro k. unfold asked. destruct (INV (Nat.pred k)) as (_ & _ & Q & _). exact Q.
  - exists (S K). exact T.
  - exists k. split.
    + destruct (le_lt_dec k (S K)) as [G|G]; [exact G|]. specialize (Mn _ G). congruence.
    + intros fuel ms throw Hf Hm. destruct (HSS fuel ms throw Hf Hm) as [E1 E2]. eexists; split; eauto.
Qed.

(** In particular it succeeds on every computed function that stays within eps of an L-Lipschitz one, provided
    2 eps + L delta is below atol. *)
Lemma C87_lipschitz_pf :
  forall (Aux : Type) (rtol atol delta : f64) bfuel (lower upper : f64)
         (fn : f64 -> f64 * Aux) (y0 : f64) fs auxs (M : R) (K : nat) (F : R -> R) (L eps : R),
    let f x := fst (fn x) in
    let s := bisection (N:=F64) rtol atol Detect false bfuel lower upper in
    is_finite lower = true -> is_finite upper = true -> is_finite y0 = true -> is_finite rtol = true -> is_finite atol = true ->
    is_finite delta = true ->
    Rabs (B2R lower) <= M -> Rabs (B2R upper) <= M -> M <= bpow radix2 1022 -> B2R lower <= B2R y0 <= B2R upper ->
    0 <= B2R rtol <= 1 -> 0 <= B2R atol <= bpow radix2 1022 -> B2R delta < B2R atol ->
    (forall x, is_finite x = true -> B2R lower <= B2R x <= B2R upper ->
       is_finite (f x) = true /\ Rabs (B2R (f x) - F (B2R x)) <= eps) ->
    (forall a b, B2R lower <= a <= b -> b <= B2R upper -> Rabs (F b - F a) <= L * (b - a)) ->
    0 <= L -> 2 * eps + L * B2R delta < B2R atol ->
    (F (B2R lower) < - eps /\ eps <= F (B2R upper)) \/ (F (B2R upper) < - eps /\ eps <= F (B2R lower)) ->
    (B2R upper - B2R lower) / 2 ^ K + (bpow radix2 (-50) * M + bpow radix2 (-1074)) <= B2R delta ->
    exists k, (k <= S K)%nat /\
      forall fuel ms throw, (k < fuel)%nat -> (forall m, ms = Some m -> (k <= m)%nat) ->
        exists sol, iterative_solve (nisfin (n:=F64)) s fn fuel ms throw y0 fs auxs = Ret sol /\ result sol = successful.
Proof.
  intros Aux rtol atol delta bfuel lower upper fn y0 fs auxs M K F L eps f s Fl Fu Fy Fr Fa Fd Bl Bu HM Hy Hr Ha Hda HF HL L0 He HS HK.
  destruct (HF lower Fl) as (FL & VL); [lra|]. destruct (HF upper Fu) as (FU & VU); [lra|].
  assert (NN : forall x : f64, fin x = true -> is_nan x = false) by (intros [] Q; try discriminate Q; reflexivity).
  destruct zero_val as [ZF Z0].
  assert (NEG : forall x : f64, fin x = true -> Bltb x (f64_ofQ 0) = Rlt_bool (val x) 0).
  { intros x Fx. rewrite Bltb_correct by assumption. rewrite Z0. reflexivity. }
  apply (C87_terminates_pf Aux rtol atol delta bfuel lower upper fn y0 fs auxs M K); try assumption.
  - apply NN. exact FL.
  - apply NN. exact FU.
  - fold (f lower) (f upper). rewrite !NEG by assumption. apply Rabs_le_inv in VL. apply Rabs_le_inv in VU.
    destruct HS as [[S1 S2]|[S1 S2]].
    + rewrite Rlt_bool_true by lra. rewrite Rlt_bool_false by lra. discriminate.
    + rewrite Rlt_bool_false by lra. rewrite Rlt_bool_true by lra. discriminate.
  - intros x x' Fx Fx' H1 H2 H3 H4. fold (f x) (f x') in H4 |- *.
    destruct (HF x Fx) as (G1 & V1); [lra|]. destruct (HF x' Fx') as (G2 & V2); [lra|].
    pose proof (HL (val x) (val x') H1 H2) as HH.
    assert (HH' : L * (val x' - val x) <= L * val delta) by (apply Rmult_le_compat_l; lra).
    rewrite !NEG in H4 by assumption. apply Rabs_le_inv in V1. apply Rabs_le_inv in V2. apply Rabs_le_inv in HH.
    revert H4. case Rlt_bool_spec; case Rlt_bool_spec; intros Q1 Q2 H4; try (exfalso; apply H4; reflexivity).
    + split; (apply ltb_val; [rewrite is_finite_Babs; assumption|assumption|]); rewrite B2R_Babs; apply Rabs_def1; lra.
    + split; (apply ltb_val; [rewrite is_finite_Babs; assumption|assumption|]); rewrite B2R_Babs; apply Rabs_def1; lra.
Qed.

Lemma atol_val : val (f64_ofQ (1#1024)) = / 1024.
Proof. refine (eq_trans (pow_val _ (-62) _) _); [vm_compute; reflexivity|reflexivity]. Qed.
Lemma delta_val : val (f64_ofQ (1#8192)) = / 8192.
Proof. refine (eq_trans (pow_val _ (-65) _) _); [vm_compute; reflexivity|reflexivity]. Qed.


(* x * x - 2 in doubles *)
Definition sq2 (x : f64) : f64 * unit := (fsub (fmul x x) (f64_ofQ 2), tt).

Lemma sq2_val : forall x : f64, fin x = true -> 1 <= val x <= 2 ->
  fin (fst (sq2 x)) = true /\ Rabs (val (fst (sq2 x)) - (val x * val x - 2)) <= bpow radix2 (-50).
Proof.
  intros x Fx Hx. pose proof two_val as V2. unfold sq2. cbn [fst].
  assert (TW : bpow radix2 1023 = 2 * bpow radix2 1022) by exact (bpow_twice 1022). pose proof big_bpow as BB.
  assert (B3 : 8 <= bpow radix2 1022) by (change 8 with (bpow radix2 3); apply bpow_le; lia).
  assert (X1 : 1 * 1 <= val x * val x) by (apply Rmult_le_compat; lra).
  assert (X2 : val x * val x <= 2 * 2) by (apply Rmult_le_compat; lra).
  destruct (fmul_val x x Fx Fx) as (F1 & V1); [rewrite Rabs_pos_eq by lra; lra|].
  destruct (rnd_any (val x * val x)) as (e & eta & E1 & E2 & _ & E3).
  assert (b0 : bpow radix2 (-53) <= / 64) by (change (/ 64) with (bpow radix2 (-6)); apply bpow_le; lia).
  assert (t0 : bpow radix2 (-1075) <= / 64 * bpow radix2 (-53)).
  { change (/ 64) with (bpow radix2 (-6)). rewrite <- bpow_plus. apply bpow_le. lia. }
  assert (B50 : bpow radix2 (-50) = 8 * bpow radix2 (-53)).
  { change (-50)%Z with (3 + -53)%Z. rewrite bpow_plus. reflexivity. }
  rewrite B50. set (b := bpow radix2 (-53)) in *. assert (bp : 0 < b) by apply bpow_gt_0.
  apply Rabs_le_inv in E1. apply Rabs_le_inv in E2.
  set (q := val x * val x) in *. set (t := bpow radix2 (-1075)) in *.
  assert (QE : - (4 * b) <= q * e <= 4 * b).
  { assert (q * e <= q * b) by (apply Rmult_le_compat_l; lra). assert (q * - b <= q * e) by (apply Rmult_le_compat_l; lra).
    assert (q * b <= 4 * b) by (apply Rmult_le_compat_r; lra). lra. }
  set (p := rnd q) in *. assert (PQ : - (5 * b) <= p - q <= 5 * b) by (rewrite E3; lra).
  destruct (fsub_val (fmul x x) (f64_ofQ 2) F1) as (F2 & W2); [vm_compute; reflexivity|rewrite V1, V2; apply Rabs_le; lra|].
  rewrite V1, V2 in W2. split; [exact F2|]. rewrite W2.
  assert (Fp : is_f64 p) by (apply generic_format_round; typeclasses eauto).
  assert (F2' : is_f64 2) by (rewrite <- V2; apply val_format).
  destruct (rnd_minus p 2 Fp F2') as (e2 & E4 & E5). rewrite E5. fold b in E4. apply Rabs_le_inv in E4.
  assert (PE : Rabs ((p - 2) * e2) <= (2 + 5 * b) * b).
  { rewrite Rabs_mult. apply Rmult_le_compat; try apply Rabs_pos; apply Rabs_le; lra. }
  apply Rabs_le_inv in PE. assert (b * b <= / 64 * b) by (apply Rmult_le_compat_r; lra).
  apply Rabs_le. lra.
Qed.

Lemma square_close : forall a b, 1 <= a <= b -> b <= 2 -> Rabs (b * b - 2 - (a * a - 2)) <= 4 * (b - a).
Proof.
  intros a b H1 H2. replace (b * b - 2 - (a * a - 2)) with ((b + a) * (b - a)) by ring.
  rewrite Rabs_mult, (Rabs_pos_eq (b - a)) by lra. rewrite Rabs_pos_eq by lra. apply Rmult_le_compat_r; lra.
Qed.

Lemma sq2_hyps :
  is_finite (f64_ofQ 1) = true /\ is_finite (f64_ofQ 2) = true /\ is_finite (f64_ofQ 0) = true /\
  is_finite (f64_ofQ (1#1024)) = true /\ is_finite (f64_ofQ (1#8192)) = true.
Proof. repeat split; vm_compute; reflexivity. Qed.

(** An instance of the Lipschitz case: x * x - 2 on [1, 2], whose root is not a double. *)
Example C87_lipschitz_ex_pf : forall bfuel fs,
  exists k, (k <= 15)%nat /\
    forall fuel ms throw, (k < fuel)%nat -> (forall m, ms = Some m -> (k <= m)%nat) ->
      exists sol, iterative_solve (nisfin (n:=F64))
          (bisection (N:=F64) (f64_ofQ 0) (f64_ofQ (1#1024)) Detect false bfuel (f64_ofQ 1) (f64_ofQ 2))
          (fun x => (fsub (fmul x x) (f64_ofQ 2), tt)) fuel ms throw (f64_ofQ 1) fs (fun _ => tt) = Ret sol /\
        result sol = successful.
Proof.
  intros bfuel fs. destruct sq2_hyps as (F1 & F2 & F0 & Fa & Fd).
  pose proof one_val as V1. pose proof two_val as V2. pose proof atol_val as Va. pose proof delta_val as Vd. destruct zero_val as [_ V0].
  destruct small_bpow as [S1 S2]. pose proof big_bpow as BB. pose proof (bpow_gt_0 radix2 (-50)) as P50.
  apply (C87_lipschitz_pf unit (f64_ofQ 0) (f64_ofQ (1#1024)) (f64_ofQ (1#8192)) bfuel (f64_ofQ 1) (f64_ofQ 2)
           sq2 (f64_ofQ 1) fs (fun _ => tt) 2 14 (fun x => x * x - 2) 4 (bpow radix2 (-50)));
    rewrite ?V0, ?V1, ?V2, ?Va, ?Vd; try assumption; try lra.
  - rewrite Rabs_pos_eq; lra.
  - rewrite Rabs_pos_eq; lra.
  - intros x Fx Hx. apply sq2_val; assumption.
  - apply square_close.
Qed.

Example C87_terminates_ex_pf : forall x x' : f64, is_finite x = true -> is_finite x' = true ->
  let f x := fsub (fmul x x) (f64_ofQ 2) in
  B2R (f64_ofQ 1) <= B2R x <= B2R x' -> B2R x' <= B2R (f64_ofQ 2) -> B2R x' - B2R x <= B2R (f64_ofQ (1#8192)) ->
  Bltb (f x) (f64_ofQ 0) <> Bltb (f x') (f64_ofQ 0) ->
  Bltb (Babs (f x)) (f64_ofQ (1#1024)) = true /\ Bltb (Babs (f x')) (f64_ofQ (1#1024)) = true.
Proof.
  intros x x' Fx Fx' f H1 H2 H3 H4. destruct sq2_hyps as (F1 & F2 & F0 & Fa & Fd).
  pose proof one_val as V1. pose proof two_val as V2. pose proof atol_val as Va. pose proof delta_val as Vd. destruct zero_val as [_ V0].
  destruct small_bpow as [S1 _]. rewrite V1 in H1. rewrite V2 in H2. rewrite Vd in H3.
  destruct (sq2_val x Fx) as (G1 & W1); [lra|]. destruct (sq2_val x' Fx') as (G2 & W2); [lra|].
  change (fst (sq2 x)) with (f x) in G1, W1. change (fst (sq2 x')) with (f x') in G2, W2.
  pose proof (square_close _ _ H1 H2) as HH.
  rewrite !Bltb_correct in H4 by assumption. rewrite V0 in H4.
  apply Rabs_le_inv in W1. apply Rabs_le_inv in W2. apply Rabs_le_inv in HH.
  revert H4. case Rlt_bool_spec; case Rlt_bool_spec; intros Q1 Q2 H4; try (exfalso; apply H4; reflexivity).
  - split; (apply ltb_val; [rewrite is_finite_Babs; assumption|assumption|]); rewrite B2R_Babs, Va; apply Rabs_def1; lra.
  - split; (apply ltb_val; [rewrite is_finite_Babs; assumption|assumption|]); rewrite B2R_Babs, Va; apply Rabs_def1; lra.
Qed.

Example C87_success_ex_pf : forall bfuel fs, exists fuel sol,
  iterative_solve (nisfin (n:=F64))
    (bisection (N:=F64) (f64_ofQ 0) (f64_ofQ (1#1024)) Detect false bfuel (f64_ofQ 1) (f64_ofQ 2))
    (fun x => (fsub (fmul x x) (f64_ofQ 2), tt)) fuel None true (f64_ofQ 1) fs (fun _ => tt) = Ret sol /\
  result sol = successful /\
  exists (flip : bool) (l u : f64), sign_change (N:=F64) (fun x => fsub (fmul x x) (f64_ofQ 2)) flip l u /\
    1 <= B2R l /\ B2R l <= B2R (value sol) <= B2R u /\ B2R u <= 2 /\ B2R u - B2R l <= / 1000.
Proof.
  intros bfuel fs. destruct (C87_lipschitz_ex_pf bfuel fs) as (k & _ & HS).
  destruct (HS (S k) None true ltac:(lia) ltac:(intros m Q; discriminate Q)) as (sol & E & R). exists (S k), sol.
  split; [exact E|]. split; [exact R|]. destruct sq2_hyps as (F1 & F2 & F0 & Fa & Fd).
  pose proof one_val as V1. pose proof two_val as V2. pose proof atol_val as Va. destruct zero_val as [_ V0].
  destruct small_bpow as [S1 S2]. pose proof big_bpow as BB. pose proof (bpow_gt_0 radix2 (-50)) as P50.
  destruct (C87_success_pf unit (f64_ofQ 0) (f64_ofQ (1#1024)) bfuel (f64_ofQ 1) (f64_ofQ 2) sq2 (f64_ofQ 1) fs (fun _ => tt)
     (S k) None true sol) as (flip & l & u & y & G1 & G2 & G3 & G4 & _ & _ & G7); rewrite ?V0, ?V1, ?V2, ?Va; try assumption; try lra.
  - vm_compute. reflexivity.
  - vm_compute. reflexivity.
  - rewrite Rabs_pos_eq; lra.
  - rewrite Rabs_pos_eq; lra.
  - exists flip, l, u. split; [exact G1|]. rewrite V1 in G2. rewrite V2 in G4. split; [exact G2|]. split; [exact G3|]. split; [exact G4|].
    rewrite V0, Va in G7. lra.
Qed.

(** An instance with a function that is NaN everywhere: the bracket stays a bracket. *)
Example C87_stays_inside_ex_pf : forall bfuel fs k,
  let s := bisection (N:=F64) (f64_ofQ 0) (f64_ofQ (1#1024)) (Flip false) false bfuel (f64_ofQ 1) (f64_ofQ 2) in
  exists st0, s_init s (fun _ => (B754_nan, tt)) (f64_ofQ 1) fs (fun _ => tt) = Ret st0 /\
    let y := y_at s (fun _ => (B754_nan, tt)) (f64_ofQ 1) st0 tt k in is_finite y = true /\ 1 <= B2R y <= 2.
Proof.
  intros bfuel fs k s. eexists. split; [reflexivity|]. intro y.
  destruct sq2_hyps as (F1 & F2 & F0 & Fa & Fd). pose proof one_val as V1. pose proof two_val as V2. pose proof big_bpow as BB.
  assert (H : forall k, 1 <= val (bis_lower (st_at s (fun _ => (B754_nan, tt)) (f64_ofQ 1) (mkBis (N:=F64) (f64_ofQ 1) (f64_ofQ 2) false ninf) tt k)) /\
     val (bis_upper (st_at s (fun _ => (B754_nan, tt)) (f64_ofQ 1) (mkBis (N:=F64) (f64_ofQ 1) (f64_ofQ 2) false ninf) tt k)) <= 2 /\
     fin (y_at s (fun _ => (B754_nan, tt)) (f64_ofQ 1) (mkBis (N:=F64) (f64_ofQ 1) (f64_ofQ 2) false ninf) tt k) = true /\
     val (bis_lower (st_at s (fun _ => (B754_nan, tt)) (f64_ofQ 1) (mkBis (N:=F64) (f64_ofQ 1) (f64_ofQ 2) false ninf) tt k)) <=
     val (y_at s (fun _ => (B754_nan, tt)) (f64_ofQ 1) (mkBis (N:=F64) (f64_ofQ 1) (f64_ofQ 2) false ninf) tt k) <=
     val (bis_upper (st_at s (fun _ => (B754_nan, tt)) (f64_ofQ 1) (mkBis (N:=F64) (f64_ofQ 1) (f64_ofQ 2) false ninf) tt k))).
  { intro j.
    assert (A1 : Rabs (val (f64_ofQ 1)) <= 2) by (rewrite V1, Rabs_pos_eq; lra).
    assert (A2 : Rabs (val (f64_ofQ 2)) <= 2) by (rewrite V2, Rabs_pos_eq; lra).
    assert (A3 : val (f64_ofQ 1) <= val (f64_ofQ 1) <= val (f64_ofQ 2)) by lra.
    pose proof (C87_stays_inside_pf unit (f64_ofQ 0) (f64_ofQ (1#1024)) (Flip false) false bfuel (f64_ofQ 1) (f64_ofQ 2)
      (fun _ => (B754_nan, tt)) (f64_ofQ 1) fs (fun _ => tt) _ 2 eq_refl F1 F2 F1 A1 A2 BB A3) as HJ.
    destruct (HJ j) as (_ & _ & Q3 & Q4 & _).
    assert (MON : 1 <= val (bis_lower (st_at s (fun _ => (B754_nan, tt)) (f64_ofQ 1) (mkBis (N:=F64) (f64_ofQ 1) (f64_ofQ 2) false ninf) tt j)) /\
      val (bis_upper (st_at s (fun _ => (B754_nan, tt)) (f64_ofQ 1) (mkBis (N:=F64) (f64_ofQ 1) (f64_ofQ 2) false ninf) tt j)) <= 2).
    { clear Q3 Q4. induction j as [|j IH].
      - change (1 <= val (f64_ofQ 1) /\ val (f64_ofQ 2) <= 2). lra.
      - destruct (HJ j) as (_ & _ & _ & _ & Q5 & Q6 & _). destruct IH. split; eapply Rle_trans; eassumption. }
    destruct MON. split; [assumption|]. split; [assumption|]. split; [exact Q3|exact Q4]. }
  destruct (H k) as (H1 & H2 & H3 & H4). split; [exact H3|]. split; eapply Rle_trans; try eassumption; apply H4.
Qed.
