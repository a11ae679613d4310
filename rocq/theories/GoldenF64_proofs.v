(** Golden-section search in binary64 (C89). *)

From Coq Require Import ZArith Reals QArith Bool Lra Lia List.
From Flocq Require Import Core Plus_error.
From Flocq.IEEE754 Require Import BinarySingleNaN.
From Verif Require Import Num NumFacts NumF64 NumF64_facts F64Facts Vec Results Iterate Spec_Iterate Iterate_proofs.
From Verif Require Import Golden Spec_Golden.
Import ListNotations.
Local Open Scope R_scope.

(** The mirror image of the middle point, computed in binary64. *)
Lemma mirror_f64 : forall l m u : f64, fin l = true -> fin m = true -> fin u = true ->
  0 <= val l -> val l <= val m <= val u -> val u <= bpow radix2 1022 ->
  let y := fadd l (fsub u m) in
  fin y = true /\ val l <= val y /\ (val l < val m -> val y <= val u).
Proof.
  intros l m u Fl Fm Fu Hl [Hm Hu] HB y.
  assert (B2 : bpow radix2 1023 = 2 * bpow radix2 1022) by (change 1023%Z with (1 + 1022)%Z; apply bpow_twice).
  pose proof (bpow_gt_0 radix2 1022) as BP.
  destruct (fsub_val u m Fu Fm) as [Fa Va]; [rewrite Rabs_pos_eq; lra|].
  assert (A0 : 0 <= rnd (val u - val m)).
  { rewrite <- (round_0 radix2 (FLT_exp (-1074) 53) ZnearestE). apply round_le; [typeclasses eauto|typeclasses eauto|lra]. }
  assert (A1 : rnd (val u - val m) <= val u).
  { apply round_le_generic; [typeclasses eauto|typeclasses eauto|apply val_format|lra]. }
  destruct (fadd_val l (fsub u m) Fl Fa) as [Fy Vy]; [rewrite Va, Rabs_pos_eq; lra|].
  fold y in Fy, Vy. rewrite Va in Vy. split; [exact Fy|]. rewrite Vy. split.
  - apply round_ge_generic; [typeclasses eauto|typeclasses eauto|apply val_format|lra].
  - intro Hlm. apply round_N_le_midp; [typeclasses eauto|apply val_format|].
    rewrite succ_eq_pos by lra.
    pose proof (error_le_half_ulp radix2 (FLT_exp (-1074) 53) (fun x => negb (Z.even x)) (val u - val m)) as E.
    apply Rabs_le_inv in E.
    assert (UL : ulp radix2 (FLT_exp (-1074) 53) (val u - val m) <= ulp radix2 (FLT_exp (-1074) 53) (val u)).
    { apply ulp_le; [typeclasses eauto|typeclasses eauto|]. rewrite !Rabs_pos_eq; lra. }
    lra.
Qed.

(** Refutation in binary64 of what C20 says of exact arithmetic: minimising the computed
    |x - c| on [0, 1] with tolerance 2^-39. *)
Definition gold_c : f64 := f64_ofQ (4499970995446715 # 9007199254740992).
Definition gold_tol : f64 := f64_ofQ (1 # 549755813888).
Definition gold_run :=
  iterative_solve (nisfin (n:=F64)) (golden (N:=F64) (f64_ofQ 0) gold_tol (f64_ofQ 0) (f64_ofQ 1))
    (fun x => (Babs (fsub x gold_c), tt)) 60 (Some 59%nat) true (f64_ofQ 0) (fun _ => f64_ofQ 0) (fun _ => tt).

Lemma sf_val : forall (x : f64) m e, B2SF x = SpecFloat.S754_finite false m e -> val x = IZR (Zpos m) * bpow radix2 e.
Proof. intros x m e E. rewrite <- SF2R_B2SF, E. reflexivity. Qed.

Lemma gold_c_val : val gold_c = 4499970995446715 / 9007199254740992.
Proof.
  refine (eq_trans (sf_val _ 8999941990893430 (-54) _) _); [vm_compute; reflexivity|].
  change (bpow radix2 (-54)) with (/ 18014398509481984). lra.
Qed.
Lemma gold_tol_val : val gold_tol = / 549755813888.
Proof. refine (eq_trans (pow_val _ (-91) _) _); [vm_compute; reflexivity|reflexivity]. Qed.

Definition sf_eqb (x : SpecFloat.spec_float) (m : positive) (e : Z) : bool :=
  match x with SpecFloat.S754_finite false m' e' => Pos.eqb m m' && Z.eqb e e' | _ => false end.
Lemma gold_run_ret : exists sol, gold_run = Ret sol /\
  results_eqb (result sol) successful && sf_eqb (B2SF (value sol)) 8999941990298538 (-54) = true.
Proof.
  assert (CR : forall A (x : outcome A) (p : A -> bool),
    match x with Ret a => p a | _ => false end = true -> exists a, x = Ret a /\ p a = true).
  { intros A [a|e|] p H; try discriminate. exists a; auto. }
  apply CR. vm_compute. reflexivity.
Qed.

Lemma dist_val : forall c x : f64, fin c = true -> fin x = true -> 0 <= val c <= 1 -> 0 <= val x <= 1 ->
  fin (fsub x c) = true /\ val (Babs (fsub x c)) = Rabs (rnd (val x - val c)).
Proof.
  intros c x Fc Fx Hc Hx. destruct (fsub_val x c Fx Fc) as [F V].
  - pose proof big_bpow as BB. assert (bpow radix2 1022 <= bpow radix2 1023) by (apply bpow_le; lia). apply Rabs_le. lra.
  - split; [exact F|]. rewrite B2R_Babs, V. reflexivity.
Qed.
Lemma rnd_nonneg : forall x, 0 <= x -> 0 <= rnd x.
Proof. intros x H. rewrite <- (round_0 radix2 (FLT_exp (-1074) 53) ZnearestE). apply rnd_le; exact H. Qed.
Lemma rnd_nonpos : forall x, x <= 0 -> rnd x <= 0.
Proof. intros x H. rewrite <- (round_0 radix2 (FLT_exp (-1074) 53) ZnearestE). apply rnd_le; exact H. Qed.

(** The certificate of C20 fails in binary64.  The computed function |x - c| falls up to c, rises
    after it and is least at c only; the search for its minimum on [0, 1] reports success; the value
    returned is more than 18 tolerances away from c, where exact arithmetic (C20) promises at most
    phi^2 < 2.62 of them. *)
Lemma C89_success_near_minimum_refuted_pf :
  exists (tol c : f64) sol,
    let f := fun x : f64 => Babs (fsub x c) in
    is_finite tol = true /\ 0 < B2R tol /\ is_finite c = true /\ 0 < B2R c < 1 /\
    (forall p q : f64, is_finite p = true -> is_finite q = true ->
       0 <= B2R p -> B2R p <= B2R q -> B2R q <= B2R c -> B2R (f q) <= B2R (f p)) /\
    (forall p q : f64, is_finite p = true -> is_finite q = true ->
       B2R c <= B2R p -> B2R p <= B2R q -> B2R q <= 1 -> B2R (f p) <= B2R (f q)) /\
    (forall p : f64, is_finite p = true -> 0 <= B2R p <= 1 -> B2R p <> B2R c -> B2R (f c) < B2R (f p)) /\
    iterative_solve (nisfin (n:=F64)) (golden (N:=F64) (f64_ofQ 0) tol (f64_ofQ 0) (f64_ofQ 1))
      (fun x => (f x, tt)) 60 (Some 59%nat) true (f64_ofQ 0) (fun _ => f64_ofQ 0) (fun _ => tt) = Ret sol /\
    result sol = successful /\
    Rabs (B2R (value sol : f64) - B2R c) > 18 * B2R tol.
Proof.
  destruct gold_run_ret as (sol & E & H). apply andb_true_iff in H. destruct H as [HR HV].
  exists gold_tol, gold_c, sol. intro f.
  assert (Ft : fin gold_tol = true) by (vm_compute; reflexivity).
  assert (Fc : fin gold_c = true) by (vm_compute; reflexivity).
  pose proof gold_tol_val as VT. pose proof gold_c_val as VC.
  assert (HC : 0 < val gold_c < 1) by (rewrite VC; lra).
  split; [exact Ft|]. split; [rewrite VT; lra|]. split; [exact Fc|]. split; [exact HC|].
  split; [|split; [|split; [|split; [exact E|split]]]].
  - intros p q Fp Fq H0 H1 H2.
    destruct (dist_val gold_c p Fc Fp ltac:(lra) ltac:(lra)) as [_ Vp].
    destruct (dist_val gold_c q Fc Fq ltac:(lra) ltac:(lra)) as [_ Vq].
    unfold f. rewrite Vp, Vq.
    pose proof (rnd_le (val p - val gold_c) (val q - val gold_c) ltac:(lra)).
    pose proof (rnd_nonpos (val q - val gold_c) ltac:(lra)).
    rewrite !Rabs_left1 by lra. lra.
  - intros p q Fp Fq H0 H1 H2.
    destruct (dist_val gold_c p Fc Fp ltac:(lra) ltac:(lra)) as [_ Vp].
    destruct (dist_val gold_c q Fc Fq ltac:(lra) ltac:(lra)) as [_ Vq].
    unfold f. rewrite Vp, Vq.
    pose proof (rnd_le (val p - val gold_c) (val q - val gold_c) ltac:(lra)).
    pose proof (rnd_nonneg (val p - val gold_c) ltac:(lra)).
    rewrite !Rabs_pos_eq by lra. lra.
  - intros p Fp Hp Hne.
    destruct (dist_val gold_c p Fc Fp ltac:(lra) ltac:(lra)) as [_ Vp].
    destruct (dist_val gold_c gold_c Fc Fc ltac:(lra) ltac:(lra)) as [_ Vq].
    unfold f. rewrite Vp, Vq. rewrite Rminus_diag_eq by reflexivity.
    rewrite round_0, Rabs_R0 by typeclasses eauto. apply Rabs_pos_lt.
    unfold Rminus. apply round_plus_neq_0; try typeclasses eauto; [apply val_format|apply generic_format_opp, val_format|lra].
  - destruct (result sol); try discriminate HR; reflexivity.
  - assert (VS : val (value sol : f64) = 8999941990298538 * bpow radix2 (-54)).
    { apply (sf_val (value sol : f64) 8999941990298538 (-54)). revert HV. unfold sf_eqb.
      destruct (B2SF (value sol)) as [|[]| |[] m e]; intro HV; try discriminate HV.
      apply andb_true_iff in HV. destruct HV as [Q1 Q2]. apply Pos.eqb_eq in Q1. apply Z.eqb_eq in Q2. subst. reflexivity. }
    rewrite VS, VC, VT. change (bpow radix2 (-54)) with (/ 18014398509481984).
    rewrite Rabs_left by lra. lra.
Qed.

(** Invariant of the search in binary64. *)
Section Bracket.
  Context {Aux : Type}.
  Variables (rtol atol upper : f64) (fn : f64 -> f64 * Aux).
  Hypothesis Fupper : fin upper = true.
  Hypothesis Hupper : 0 < val upper <= bpow radix2 1022.
  Let f := fun x => fst (fn x).

  Definition bracket (st : gs_state (N:=F64)) : Prop :=
    fin (gs_lower st) = true /\ fin (gs_middle st) = true /\ fin (gs_upper st) = true /\
    0 <= val (gs_lower st) /\ val (gs_lower st) <= val (gs_middle st) <= val (gs_upper st) /\
    val (gs_upper st) <= val upper /\ gs_f_middle st = f (gs_middle st).

  Lemma bracket_step : forall y (st : gs_state (N:=F64)), bracket st ->
    let m := fadd (gs_lower st) (fsub (gs_upper st) (gs_middle st)) in
    (gs_first st = false -> y = m) -> val (gs_lower st) < val (gs_middle st) ->
    let st' := snd (fst (gs_step (N:=F64) rtol atol fn y st)) in
    bracket st' /\ gs_first st' = false /\
    fst (fst (gs_step (N:=F64) rtol atol fn y st)) = fadd (gs_lower st') (fsub (gs_upper st') (gs_middle st')) /\
    val (gs_lower st) <= val (gs_lower st') /\ val (gs_upper st') <= val (gs_upper st) /\
    forall x : f64, fin x = true -> val (gs_lower st) <= val x <= val (gs_upper st) -> val m <> val (gs_middle st) ->
      (forall p q : f64, fin p = true -> fin q = true -> 0 <= val p -> val p < val q -> val q <= val x -> Bltb (f q) (f p) = true) ->
      (forall p q : f64, fin p = true -> fin q = true -> val x <= val p -> val p < val q -> val q <= val upper -> Bltb (f p) (f q) = true) ->
      val (gs_lower st') <= val x <= val (gs_upper st').
  Proof.
    intros y st (Fl & Fm & Fu & L0 & [LM MU] & UU & EF) m Hy Hlm st'.
    destruct (mirror_f64 _ _ _ Fl Fm Fu L0 (conj LM MU) ltac:(lra)) as (Fy & Ly & Uy). fold m in Fy, Ly, Uy.
    specialize (Uy Hlm). unfold st', gs_step.
    assert (E : (if gs_first st then nadd (n:=F64) (gs_lower st) (nsub (n:=F64) (gs_upper st) (gs_middle st)) else y) = m).
    { destruct (gs_first st); [reflexivity|apply Hy; reflexivity]. }
    rewrite E. destruct (fn m) as [fm a] eqn:EM. assert (Efm : fm = f m) by (unfold f; rewrite EM; reflexivity). subst fm.
    set (t := cauchy_termination _ _ _ _ _ _ _). clearbody t. rewrite EF.
    change (nltb (n:=F64)) with (@Bltb 53 1024). cbn [fst snd].
    assert (ASY : forall a b : f64, Bltb a b = true -> Bltb b a = true -> False).
    { intros a0 b0 P Q. pose proof (ol_trans F64 F64_laws _ _ _ P Q) as X.
      pose proof (eq_trans (eq_sym X) (ol_irrefl F64 F64_laws a0)). discriminate. }
    assert (LT : forall p q : f64, fin p = true -> fin q = true -> Bltb p q = true -> val p < val q).
    { intros p q Fp Fq Q. rewrite Bltb_correct in Q by assumption. revert Q. case Rlt_bool_spec; [auto|discriminate]. }
    assert (GE : forall p q : f64, fin p = true -> fin q = true -> Bltb p q = false -> val q <= val p).
    { intros p q Fp Fq Q. rewrite Bltb_correct in Q by assumption. revert Q. case Rlt_bool_spec; [discriminate|auto]. }
    destruct (Bltb (f m) (f (gs_middle st))) eqn:B1; destruct (Bltb m (gs_middle st)) eqn:B2;
      [apply LT in B2|apply GE in B2|apply LT in B2|apply GE in B2]; try assumption;
      unfold bracket; cbn [gs_lower gs_middle gs_upper gs_first gs_f_middle];
      (split; [repeat split; (assumption || reflexivity || lra)|]);
      (split; [reflexivity|]); (split; [reflexivity|]); (split; [lra|]); (split; [lra|]);
      intros x Fx Hx Hne D U.
    - split; [lra|]. destruct (Rle_or_lt (val x) (val (gs_middle st))) as [|Q]; [assumption|]. exfalso.
      exact (ASY _ _ B1 (D m (gs_middle st) Fy Fm ltac:(lra) B2 ltac:(lra))).
    - split; [|lra]. destruct (Rle_or_lt (val (gs_middle st)) (val x)) as [|Q]; [assumption|]. exfalso.
      exact (ASY _ _ B1 (U (gs_middle st) m Fm Fy ltac:(lra) ltac:(lra) ltac:(lra))).
    - split; [|lra]. destruct (Rle_or_lt (val m) (val x)) as [|Q]; [assumption|]. exfalso.
      rewrite (U m (gs_middle st) Fy Fm ltac:(lra) B2 ltac:(lra)) in B1. discriminate B1.
    - split; [lra|]. destruct (Rle_or_lt (val x) (val m)) as [|Q]; [assumption|]. exfalso.
      rewrite (D (gs_middle st) m Fm Fy ltac:(lra) ltac:(lra) ltac:(lra)) in B1. discriminate B1.
  Qed.
End Bracket.

Lemma ratio_val : 1 <= val (nadd (n:=F64) (golden_ratio (N:=F64)) (f64_ofQ 1)) /\
  fin (nadd (n:=F64) (golden_ratio (N:=F64)) (f64_ofQ 1)) = true.
Proof.
  assert (F : fin (nadd (n:=F64) (golden_ratio (N:=F64)) (f64_ofQ 1)) = true) by (vm_compute; reflexivity).
  split; [|exact F].
  assert (B : Bltb (f64_ofQ 1) (nadd (n:=F64) (golden_ratio (N:=F64)) (f64_ofQ 1)) = true) by (vm_compute; reflexivity).
  rewrite Bltb_correct in B by (exact F || (vm_compute; reflexivity)). rewrite one_val in B. revert B.
  case Rlt_bool_spec; [lra|discriminate].
Qed.

Lemma init_bracket : forall {Aux : Type} (upper : f64) (fn : f64 -> f64 * Aux), fin upper = true -> 0 < val upper <= bpow radix2 1022 ->
  forall z g : f64, fin z = true -> val z = 0 -> fin g = true -> 1 <= val g ->
  let st0 := mkGs (N:=F64) z (fdiv (fsub upper z) g) upper (fst (fn (fdiv (fsub upper z) g))) true false in
  bracket upper fn st0 /\ gs_first st0 = true /\ val (gs_lower st0) = 0 /\ gs_lower st0 = z /\ gs_upper st0 = upper.
Proof.
  intros Aux upper fn Fup Hup z g F0 V0 FR R1 st0.
  assert (B2 : bpow radix2 1023 = 2 * bpow radix2 1022) by (change 1023%Z with (1 + 1022)%Z; apply bpow_twice).
  destruct (fsub_val upper z Fup F0) as [Fs Vs]; [rewrite V0, Rabs_pos_eq; lra|].
  rewrite V0, Rminus_0_r, (rnd_id _ (val_format upper)) in Vs.
  assert (Q : 0 <= val upper / val g <= val upper).
  { assert (0 < / val g <= 1) by (split; [apply Rinv_0_lt_compat; lra|rewrite <- Rinv_1; apply Rinv_le_contravar; lra]).
    unfold Rdiv. split; nra. }
  destruct (fdiv_val (fsub upper z) g Fs FR) as [Fd Vd]; [lra|rewrite Vs, Rabs_pos_eq; lra|].
  rewrite Vs in Vd.
  assert (D0 : 0 <= rnd (val upper / val g)) by (apply rnd_nonneg; lra).
  assert (D1 : rnd (val upper / val g) <= val upper).
  { apply round_le_generic; [typeclasses eauto|typeclasses eauto|apply val_format|lra]. }
  unfold bracket, st0. cbn [gs_lower gs_middle gs_upper gs_f_middle gs_first].
  rewrite V0, Vd. repeat split; try assumption; lra.
Qed.

(** The bracket in binary64, on [0, upper].  As long as the middle point has not met the lower end,
    the three points stay ordered doubles inside [0, upper], the bracket only shrinks, and every point
    tried lies in it.  If moreover the two inner points have been distinct and the computed function
    falls strictly up to the double x and rises strictly after it, x is still in the bracket.  Missing from the full claim: nothing is said
    once the points meet (false then: C89_bracket_refuted), nor of the distance to x on success
    (false: C89_success_near_minimum_refuted). *)
Lemma C89_bracket_partial_pf :
  forall (Aux : Type) (rtol atol upper : f64) (fn : f64 -> f64 * Aux) (y0 : f64) (a0 : Aux) fs auxs st0 k,
    let s := golden (N:=F64) rtol atol (f64_ofQ 0) upper in
    let f := fun x => fst (fn x) in
    let lo := fun j => B2R (gs_lower (st_at s fn y0 st0 a0 j) : f64) in
    let mid := fun j => B2R (gs_middle (st_at s fn y0 st0 a0 j) : f64) in
    let up := fun j => B2R (gs_upper (st_at s fn y0 st0 a0 j) : f64) in
    let y := fun j => y_at s fn y0 st0 a0 j : f64 in
    is_finite upper = true -> 0 < B2R upper <= bpow radix2 1022 ->
    s_init s fn y0 fs auxs = Ret st0 ->
    (forall j, (j <= k)%nat -> lo j < mid j) ->
    0 <= lo k /\ lo k <= mid k <= up k /\ up k <= B2R upper /\
    (forall j, (j < k)%nat -> lo j <= lo (S j) /\ up (S j) <= up j) /\
    (forall j, (0 < j <= k)%nat -> is_finite (y j) = true /\ lo j <= B2R (y j) <= up j) /\
    (forall x : f64, is_finite x = true -> 0 <= B2R x <= B2R upper ->
      (forall j, (0 < j < k)%nat -> B2R (y j) <> mid j) ->
      B2R (fadd (f64_ofQ 0) (fsub upper (gs_middle st0))) <> mid 0%nat ->
      (forall p q : f64, is_finite p = true -> is_finite q = true ->
         0 <= B2R p -> B2R p < B2R q -> B2R q <= B2R x -> Bltb (f q) (f p) = true) ->
      (forall p q : f64, is_finite p = true -> is_finite q = true ->
         B2R x <= B2R p -> B2R p < B2R q -> B2R q <= B2R upper -> Bltb (f p) (f q) = true) ->
      lo k <= B2R x <= up k).
Proof.
  intros Aux rtol atol upper fn y0 a0 fs auxs st0 k s f lo mid up y Fup Hup EI HLM.
  destruct zero_val as [F0 V0]. destruct ratio_val as [R1 FR].
  assert (E0 : mkGs (N:=F64) (f64_ofQ 0) (fdiv (fsub upper (f64_ofQ 0)) (nadd (n:=F64) (golden_ratio (N:=F64)) (f64_ofQ 1))) upper
     (fst (fn (fdiv (fsub upper (f64_ofQ 0)) (nadd (n:=F64) (golden_ratio (N:=F64)) (f64_ofQ 1))))) true false = st0).
  { exact (f_equal (fun o => match o with Ret a => a | _ => st0 end) EI). }
  assert (B0 : bracket upper fn st0 /\ gs_first st0 = true /\ val (gs_lower st0) = 0 /\ gs_lower st0 = f64_ofQ 0 /\ gs_upper st0 = upper).
  { rewrite <- E0. exact (init_bracket upper fn Fup Hup _ _ F0 V0 FR R1). }
  assert (STEP : forall j, st_at s fn y0 st0 a0 (S j) = snd (fst (gs_step (N:=F64) rtol atol fn (y j) (st_at s fn y0 st0 a0 j))) /\
            y (S j) = fst (fst (gs_step (N:=F64) rtol atol fn (y j) (st_at s fn y0 st0 a0 j)))) by (intro j; split; reflexivity).
  set (st := fun j => st_at s fn y0 st0 a0 j) in *.
  set (mir := fun j => fadd (gs_lower (st j)) (fsub (gs_upper (st j)) (gs_middle (st j)))).
  assert (INV : forall j, (j <= k)%nat -> bracket upper fn (st j) /\ (gs_first (st j) = false -> y j = mir j) /\ ((0 < j)%nat -> gs_first (st j) = false)).
  { induction j as [|j IH]; intro Hj.
    - split; [exact (proj1 B0)|]. split; [|intro; lia]. intro Q. change (gs_first st0 = false) in Q.
      destruct B0 as (_ & Q' & _). pose proof (eq_trans (eq_sym Q) Q'). discriminate.
    - destruct (IH ltac:(lia)) as (I1 & I2 & _). destruct (STEP j) as [S1 S2].
      destruct (bracket_step rtol atol upper fn Hup (y j) (st j) I1 I2 (HLM j ltac:(lia))) as (J1 & J2 & J3 & _).
      split; [|split]; [|intros _|intros _].
      + rewrite S1. exact J1.
      + rewrite S2. unfold mir. rewrite S1. exact J3.
      + rewrite S1. exact J2. }
  assert (MIR : forall j, (j <= k)%nat -> fin (mir j) = true /\ lo j <= val (mir j) <= up j).
  { intros j Hj. destruct (INV j Hj) as ((P1 & P2 & P3 & P4 & P5 & P6 & _) & _ & _).
    destruct (mirror_f64 _ _ _ P1 P2 P3 P4 P5 ltac:(lra)) as (M1 & M2 & M3). split; [exact M1|]. split; [exact M2|].
    apply M3. exact (HLM j Hj). }
  destruct (INV k ltac:(lia)) as ((P1 & P2 & P3 & P4 & P5 & P6 & _) & _ & _).
  split; [exact P4|]. split; [exact P5|]. split; [exact P6|]. split; [|split].
  - intros j Hj. destruct (INV j ltac:(lia)) as (I1 & I2 & _). destruct (STEP j) as [S1 S2].
    destruct (bracket_step rtol atol upper fn Hup (y j) (st j) I1 I2 (HLM j ltac:(lia))) as (_ & _ & _ & J4 & J5 & _).
    unfold lo, up. rewrite S1. split; [exact J4|exact J5].
  - intros j Hj. destruct (INV j ltac:(lia)) as (_ & I2 & I3). rewrite (I2 (I3 ltac:(lia))). apply MIR. lia.
  - intros x Fx Hx HD HD0 D U.
    assert (G : forall j, (j <= k)%nat -> lo j <= val x <= up j).
    { induction j as [|j IH]; intro Hj.
      - unfold lo, up. change (st_at s fn y0 st0 a0 0) with st0. destruct B0 as (_ & _ & Q1 & _ & Q2).
        split; [|]. { change (val (gs_lower st0) <= val x). rewrite Q1. apply Hx. } { change (val x <= val (gs_upper st0)). rewrite Q2. apply Hx. }
      - specialize (IH ltac:(lia)). destruct (INV j ltac:(lia)) as (I1 & I2 & I3). destruct (STEP j) as [S1 S2].
        destruct (bracket_step rtol atol upper fn Hup (y j) (st j) I1 I2 (HLM j ltac:(lia))) as (_ & _ & _ & _ & _ & J6).
        unfold lo, up. rewrite S1. apply (J6 x Fx IH); [|exact D|exact U].
        destruct j as [|j].
        + destruct B0 as (_ & _ & _ & Q1 & Q2). change (st 0%nat) with st0. rewrite Q1, Q2. exact HD0.
        + change (val (mir (S j)) <> mid (S j)). rewrite <- (I2 (I3 ltac:(lia))). apply HD. lia. }
    apply G. lia.
Qed.

(** The condition on the two inner points is needed. *)
Definition lost_c : f64 := f64_ofQ (452930 # 1048576).
Definition lost_tol : f64 := f64_ofQ (1 # 4503599627370496).
Definition lost_run :=
  iterative_solve (nisfin (n:=F64)) (golden (N:=F64) (f64_ofQ 0) lost_tol (f64_ofQ 0) (f64_ofQ 1))
    (fun x => (Babs (fsub x lost_c), tt)) 120 (Some 119%nat) true (f64_ofQ 0) (fun _ => f64_ofQ 0) (fun _ => tt).
Lemma lost_run_ret : exists sol, lost_run = Ret sol /\
  results_eqb (result sol) successful && sf_eqb (B2SF (gs_upper (state sol))) 7781278149509093 (-54) = true.
Proof.
  assert (CR : forall A (x : outcome A) (p : A -> bool),
    match x with Ret a => p a | _ => false end = true -> exists a, x = Ret a /\ p a = true).
  { intros A [a|e|] p H; try discriminate. exists a; auto. }
  apply CR. vm_compute. reflexivity.
Qed.

(** When the two inner points coincide the step keeps the lower part of the bracket, whichever part
    holds the minimum: the search for the minimum of the computed |x - c| on [0, 1] with tolerance
    2^-52 reports success with c more than 6 tolerances above its final bracket. *)
Lemma C89_bracket_refuted_pf :
  exists (tol c : f64) sol,
    is_finite tol = true /\ 0 < B2R tol /\ is_finite c = true /\ 0 < B2R c < 1 /\
    iterative_solve (nisfin (n:=F64)) (golden (N:=F64) (f64_ofQ 0) tol (f64_ofQ 0) (f64_ofQ 1))
      (fun x => (Babs (fsub x c), tt)) 120 (Some 119%nat) true (f64_ofQ 0) (fun _ => f64_ofQ 0) (fun _ => tt) = Ret sol /\
    result sol = successful /\
    B2R c > B2R (gs_upper (state sol) : f64) + 6 * B2R tol.
Proof.
  destruct lost_run_ret as (sol & E & H). apply andb_true_iff in H. destruct H as [HR HV].
  exists lost_tol, lost_c, sol.
  assert (VT : val lost_tol = / 4503599627370496).
  { refine (eq_trans (pow_val _ (-104) _) _); [vm_compute; reflexivity|reflexivity]. }
  assert (VC : val lost_c = 7781278149509120 * bpow radix2 (-54)).
  { apply (sf_val _ 7781278149509120 (-54)). vm_compute. reflexivity. }
  assert (VS : val (gs_upper (state sol) : f64) = 7781278149509093 * bpow radix2 (-54)).
  { apply (sf_val (gs_upper (state sol) : f64) 7781278149509093 (-54)). revert HV. unfold sf_eqb.
    destruct (B2SF (gs_upper (state sol))) as [|[]| |[] m e]; intro HV; try discriminate HV.
    apply andb_true_iff in HV. destruct HV as [Q1 Q2]. apply Pos.eqb_eq in Q1. apply Z.eqb_eq in Q2. subst. reflexivity. }
  change (bpow radix2 (-54)) with (/ 18014398509481984) in VC, VS.
  split; [vm_compute; reflexivity|]. split; [rewrite VT; lra|]. split; [vm_compute; reflexivity|].
  split; [rewrite VC; lra|]. split; [exact E|]. split.
  - destruct (result sol); try discriminate HR; reflexivity.
  - rewrite VS, VC, VT. lra.
Qed.

(** The hypotheses of C89_bracket_partial hold for five steps on the function falling to -1 at 1 and jumping
    up after it, on [0, 2]. *)
Example C89_bracket_ex_pf :
  let fn := fun x : f64 => (if Bltb (f64_ofQ 1) x then x else Bopp x, tt) in
  let s := golden (N:=F64) (f64_ofQ 0) (f64_ofQ (1#1024)) (f64_ofQ 0) (f64_ofQ 2) in
  exists st0, s_init s fn (f64_ofQ 0) (fun _ => f64_ofQ 0) (fun _ => tt) = Ret st0 /\
    let st := st_at s fn (f64_ofQ 0) st0 tt 5 in
    B2R (gs_lower st : f64) <= 1 <= B2R (gs_upper st : f64) /\
    Bltb (fsub (gs_upper st) (gs_lower st)) (f64_ofQ (1#5)) = true.
Proof.
  intros fn s. eexists. split; [reflexivity|]. intro st.
  set (st0 := mkGs (N:=F64) _ _ _ _ _ _) in st.
  pose proof one_val as V1. pose proof two_val as V2.
  assert (F1 : fin (f64_ofQ 1) = true) by (vm_compute; reflexivity).
  assert (F2 : fin (f64_ofQ 2) = true) by (vm_compute; reflexivity).
  assert (LT : forall p q : f64, fin p && fin q && Bltb p q = true -> val p < val q).
  { intros p q Q. apply andb_true_iff in Q. destruct Q as [Q Q3]. apply andb_true_iff in Q. destruct Q as [Q1 Q2].
    rewrite Bltb_correct in Q3 by assumption. revert Q3. case Rlt_bool_spec; [auto|discriminate]. }
  split; [|vm_compute; reflexivity].
  destruct (C89_bracket_partial_pf unit (f64_ofQ 0) (f64_ofQ (1#1024)) (f64_ofQ 2) fn (f64_ofQ 0) tt
    (fun _ => f64_ofQ 0) (fun _ => tt) st0 5) as (_ & _ & _ & _ & _ & H).
  - exact F2.
  - rewrite V2. pose proof big_bpow. lra.
  - reflexivity.
  - intros j Hj. apply LT. do 6 (destruct j as [|j]; [vm_compute; reflexivity|]). lia.
  - rewrite <- V1. unfold st. apply H; clear H.
    + exact F1.
    + rewrite V1, V2. lra.
    + intros j Hj.
      assert (N : forall p q : f64, fin p && fin q && (Bltb p q || Bltb q p) = true -> val p <> val q).
      { intros p q Q. apply andb_true_iff in Q. destruct Q as [Q Q3]. apply orb_true_iff in Q3.
        destruct Q3 as [Q3|Q3]; [pose proof (LT p q)|pose proof (LT q p)];
        apply andb_true_iff in Q; destruct Q as [Q1 Q2]; rewrite Q1, Q2, Q3 in H; specialize (H eq_refl); lra. }
      apply N. destruct j as [|j]; [lia|]. do 4 (destruct j as [|j]; [vm_compute; reflexivity|]). lia.
    + apply Rgt_not_eq. apply LT. vm_compute. reflexivity.
    + intros p q Fp Fq P0 P1 P2. rewrite V1 in P2. cbn [fst fn].
      assert (E : forall r : f64, fin r = true -> val r <= 1 -> Bltb (f64_ofQ 1) r = false).
      { intros r Fr Hr. rewrite Bltb_correct by assumption. apply Rlt_bool_false. rewrite V1. exact Hr. }
      rewrite (E p Fp ltac:(lra)), (E q Fq P2). apply ltb_val; rewrite ?is_finite_Bopp, ?B2R_Bopp; try assumption. lra.
    + intros p q Fp Fq P0 P1 P2. rewrite V1 in P0. cbn [fst fn].
      rewrite (ltb_val (f64_ofQ 1) q F1 Fq) by (rewrite V1; lra).
      destruct (Bltb (f64_ofQ 1) p); apply ltb_val; rewrite ?is_finite_Bopp, ?B2R_Bopp; try assumption. lra.
Qed.
