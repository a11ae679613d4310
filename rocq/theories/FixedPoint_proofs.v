(** Proofs about fixed-point iteration. *)

From Coq Require Import String List Bool Arith Lia ZArith QArith Qreals Reals Lra Psatz.
From Verif Require Import Num NumFacts NumDiv Vec Results Iterate Spec_Iterate Iterate_proofs.
From Verif Require Import Spec_Vec VecFacts FixedPoint NumF64 NumF64_facts.
Import ListNotations.
Local Open Scope nat_scope.

Lemma fp_step_eq : forall (N : Num) Aux (rtol atol damp : N) norm (fn : list N -> list N * Aux) y st,
  let v := fp_update damp (fst (fn y)) y in
  fp_step rtol atol damp norm fn y st =
  (v, norm (vdiv (vsub y v) (vscale_tol rtol atol v)), snd (fn y)).
Proof. intros. unfold fp_step, v. destruct (fn y). reflexivity. Qed.

(** What success of a solver that never reports failure means. *)
Lemma success_inv : forall (Y Out Aux : Type) allfinite (s : Solver Y Out Aux) fn y0 st0 fs auxs
    fuel ms throw sol,
  s_init s fn y0 fs auxs = Ret st0 ->
  iterative_solve allfinite s fn fuel ms throw y0 fs auxs = Ret sol ->
  result sol = successful ->
  exists k, k < fuel /\ stop_index allfinite s fn y0 st0 (auxs fill0) ms k /\
    sol = solution_at allfinite s fn y0 st0 (auxs fill0) ms k /\
    allfinite (asked s fn y0 st0 (auxs fill0) k) = true /\
    says_terminate s fn y0 st0 (auxs fill0) k = true /\
    says_result s fn y0 st0 (auxs fill0) k = successful.
Proof.
  intros Y Out Aux allfinite s fn y0 st0 fs auxs fuel ms throw sol Hi H HR.
  destruct (iterative_solve_inv allfinite s fn y0 st0 _ fs auxs eq_refl Hi fuel ms throw sol H)
    as (k & Hk & HS & -> & _).
  exists k. split; auto. split; auto. split; auto.
  rewrite (proj1 (solution_at_fields allfinite s fn y0 st0 (auxs fill0) ms k)) in HR.
  unfold final_result in HR.
  destruct (allfinite (asked s fn y0 st0 (auxs fill0) k)); [|discriminate].
  destruct (results_eqb (says_result s fn y0 st0 (auxs fill0) k) successful) eqn:E.
  - apply results_eqb_eq in E. rewrite E in *.
    destruct (says_terminate s fn y0 st0 (auxs fill0) k); auto. discriminate.
  - simpl in HR. apply results_eqb_neq in E. contradiction.
Qed.

(** Success certificate, in any arithmetic (exact extended reals or IEEE
    binary64): the returned value is the damped update of the last evaluated
    iterate y, and the computed difference between the two is below the
    computed tolerance in every component. *)
Lemma C25_certificate_pf :
  forall (N : Num) (L : OrdLaws N) (D : DivLaws N) (Aux : Type) (allfinite : list N -> bool)
         (rtol atol damp : N) (fn : list N -> list N * Aux) y0 fs auxs fuel ms throw sol,
    let s := fixed_point_iteration rtol atol damp max_norm in
    iterative_solve allfinite s fn fuel ms throw y0 fs auxs = Ret sol ->
    result sol = successful ->
    exists y, (exists k, y = y_at s fn y0 ninf (auxs fill0) k) /\
      allfinite y = true /\ aux sol = snd (fn y) /\
      length (value sol) = Nat.min (length (fst (fn y))) (length y) /\
      forall i v, nth_error (value sol) i = Some v ->
        exists yi fi, nth_error y i = Some yi /\ nth_error (fst (fn y)) i = Some fi /\
          v = ((lit 1 - damp) * fi + damp * yi)%num /\
          (nabs (yi - v) <? nabs (atol + rtol * nabs v))%num = true.
Proof.
  intros N L D Aux allfinite rtol atol damp fn y0 fs auxs fuel ms throw sol s H HR.
  assert (Hi : s_init s fn y0 fs auxs = Ret ninf) by reflexivity.
  destruct (success_inv _ _ _ allfinite s fn y0 ninf fs auxs fuel ms throw sol Hi H HR)
    as (k & _ & HS & -> & HF & HT & _).
  destruct k as [|k].
  { exfalso. unfold says_terminate in HT. cbn [s_terminate s fixed_point_iteration] in HT.
    unfold st_at in HT. cbn [trace fst snd] in HT. rewrite (ol_inf_top N L) in HT. discriminate. }
  unfold says_terminate, asked, st_at in HT. cbn [pred trace s_step s_terminate s fixed_point_iteration] in HT.
  fold s in HT. rewrite fp_step_eq in HT. cbn [fst snd] in HT.
  unfold solution_at. cbn [s_post s fixed_point_iteration value aux]. fold s.
  fold (y_at s fn y0 ninf (auxs fill0) k) in HT.
  assert (EY : y_at s fn y0 ninf (auxs fill0) (S k) =
               fp_update damp (fst (fn (y_at s fn y0 ninf (auxs fill0) k))) (y_at s fn y0 ninf (auxs fill0) k)).
  { unfold y_at at 1. cbn [trace s_step s fixed_point_iteration]. fold s. rewrite fp_step_eq. reflexivity. }
  assert (EA : aux_at s fn y0 ninf (auxs fill0) (S k) = snd (fn (y_at s fn y0 ninf (auxs fill0) k))).
  { unfold aux_at. cbn [trace s_step s fixed_point_iteration]. fold s. rewrite fp_step_eq. reflexivity. }
  rewrite EY, EA.
  unfold asked in HF. cbn [pred] in HF.
  set (y := y_at s fn y0 ninf (auxs fill0) k) in *.
  exists y. split; [exists k; reflexivity|]. split; [exact HF|]. split; [reflexivity|].
  split; [unfold fp_update; rewrite vmap2_length; reflexivity|].
  set (v := fp_update damp (fst (fn y)) y) in *.
  apply (max_norm_lt L) in HT; [|apply (dl_01 N D)].
  rewrite Forall_nth in HT.
  intros i vi Hvi. pose proof Hvi as Hvi'. unfold v in Hvi'. unfold fp_update in Hvi'.
  apply nth_vmap2 in Hvi'. destruct Hvi' as (fi & yi & Ef & Ey & Ev).
  exists yi, fi. split; auto. split; auto. split; auto.
  apply (dl_lt1 N D). apply (HT i). unfold vdiv. apply nth_vmap2.
  exists (nsub yi vi), (nadd atol (nmul rtol (nabs vi))). split; [|split; auto].
  - unfold vsub. apply nth_vmap2. eauto.
  - unfold vscale_tol. apply nth_map. eauto.
Qed.

(** In exact arithmetic, with finiteness checked as in the driver: a
    successful value is finite and close to the finite point it came from;
    without damping it equals fn at that point, so fn moves that point by less
    than the tolerance. *)
Lemma C25_exact_pf :
  forall (Aux : Type) (rtol atol damp : R) (fn : list xr -> list xr * Aux) y0 fs auxs fuel ms throw sol,
    (0 < atol)%R -> (0 <= rtol)%R ->
    let s := fixed_point_iteration (N:=XR) (Fin rtol) (Fin atol) (Fin damp) max_norm in
    iterative_solve vallfinite s fn fuel ms throw y0 fs auxs = Ret sol ->
    result sol = successful ->
    exists (y v : list R),
      (exists k, y_at s fn y0 PInf (auxs fill0) k = map Fin y) /\
      value sol = map Fin v /\
      forall i vi, nth_error v i = Some vi ->
        exists yi, nth_error y i = Some yi /\
          (Rabs (yi - vi) < atol + rtol * Rabs vi)%R /\
          (damp = 0%R -> nth_error (fst (fn (map Fin y))) i = Some (Fin vi)).
Proof.
  intros Aux rtol atol damp fn y0 fs auxs fuel ms throw sol Ha Hr s H HR.
  destruct (C25_certificate_pf XR XR_laws XR_div Aux vallfinite _ _ _ fn y0 fs auxs fuel ms throw sol H HR)
    as (y & (k & Hk) & HF & _ & _ & HI).
  destruct (allfin_inv y HF) as (w & ->).
  assert (HV : forall i z, nth_error (value sol) i = Some z -> exists r, z = Fin r).
  { intros i z Hz. destruct (HI i z Hz) as (yi & fi & E1 & E2 & _ & HL).
    apply nth_map in E1. destruct E1 as (r & _ & ->).
    assert (HP : forall b, xltb PInf b = false) by (intros [| | |]; reflexivity).
    assert (HN : forall b, xltb NaN b = false) by (intros [| | |]; reflexivity).
    cbn [nabs nsub nltb XR] in HL.
    destruct z as [z| | |]; eauto; unfold xsub in HL; cbn [xneg xadd xabs] in HL;
      rewrite ?HP, ?HN in HL; discriminate. }
  assert (HV' : vallfinite (N:=XR) (value sol) = true).
  { unfold vallfinite. apply forallb_forall. intros z Hz. apply In_nth_error in Hz.
    destruct Hz as (i & Hz). destruct (HV i z Hz) as (r & ->). reflexivity. }
  destruct (allfin_inv _ HV') as (v & Ev).
  exists w, v. split; [exists k; auto|]. split; [exact Ev|].
  intros i vi Hvi.
  assert (Hn : nth_error (value sol) i = Some (Fin vi)).
  { rewrite Ev. apply nth_map. eauto. }
  destruct (HI i _ Hn) as (yi & fi & E1 & E2 & E3 & HL).
  apply nth_map in E1. destruct E1 as (r & E1 & ->). exists r. split; auto.
  cbn [nabs nsub nadd nmul nltb XR xsub xneg xadd xmul xabs] in HL.
  apply xltb_fin in HL. pose proof (Rabs_pos vi).
  rewrite (Rabs_pos_eq (atol + rtol * Rabs vi)) in HL by nra.
  split; [exact HL|]. intro Hd. subst damp.
  refine (eq_trans E2 _). f_equal.
  cbn [nsub nadd nmul nofQ XR] in E3. rewrite Q2R_1 in E3. unfold xsub in E3.
  cbn [xneg xadd] in E3. rewrite Ropp_0, Rplus_0_r in E3.
  destruct fi as [f| | |]; cbn [xmul] in E3.
  - cbn [xadd] in E3. injection E3 as ->. f_equal. ring.
  - destruct (xsgn_inf_cases 1) as [[_ Ex]|[[? _]|[? _]]]; try lra. rewrite Ex in E3. discriminate.
  - destruct (xsgn_inf_cases 1) as [[_ Ex]|[[? _]|[? _]]]; try lra. rewrite Ex in E3. discriminate.
  - discriminate.
Qed.

(** *** Contractions *)

Definition rupdate (damp : R) (f : list R -> list R) (y : list R) : list R :=
  vmap2 (fun a b => (1 - damp) * a + damp * b)%R (f y) y.

Lemma fp_update_Fin : forall damp a b,
  fp_update (N:=XR) (Fin damp) (map Fin a) (map Fin b) =
  map Fin (vmap2 (fun a b => (1 - damp) * a + damp * b)%R a b).
Proof.
  intros damp a. induction a as [|x a IH]; intros [|y b]; try reflexivity.
  unfold fp_update in *. cbn [map vmap2]. rewrite IH.
  cbn [nsub nadd nmul nofQ XR]. rewrite Q2R_1. reflexivity.
Qed.

Lemma rupdate_length : forall damp f n y,
  (forall x, length x = n -> length (f x) = n) -> length y = n -> length (rupdate damp f y) = n.
Proof. intros. unfold rupdate. apply vmap2_length_eq; auto. Qed.

Lemma rupdate_contr : forall damp f n q x y, contraction n q f -> (0 <= damp < 1)%R ->
  length x = n -> length y = n ->
  (Rdist_inf (rupdate damp f x) (rupdate damp f y) <= (damp + (1 - damp) * q) * Rdist_inf x y)%R.
Proof.
  intros damp f n q x y (Hq & HL & HC) Hd Hx Hy.
  specialize (HC x y Hx Hy). pose proof (Rdist_inf_pos x y) as HP.
  unfold Rdist_inf at 1. apply Rmax_norm_le.
  { apply Rmult_le_pos; auto. nra. }
  intros i z Hz. apply Rsub_v_nth in Hz. destruct Hz as (a & b & Ha & Hb & ->).
  unfold rupdate in Ha, Hb. apply nth_vmap2 in Ha. apply nth_vmap2 in Hb.
  destruct Ha as (fa & xa & E1 & E2 & ->). destruct Hb as (fb & yb & E3 & E4 & ->).
  assert (H1 : (Rabs (fa - fb) <= Rdist_inf (f x) (f y))%R).
  { apply (Rmax_norm_nth _ i). apply Rsub_v_nth. eauto. }
  assert (H2 : (Rabs (xa - yb) <= Rdist_inf x y)%R).
  { apply (Rmax_norm_nth _ i). apply Rsub_v_nth. eauto. }
  replace ((1 - damp) * fa + damp * xa - ((1 - damp) * fb + damp * yb))%R
    with ((1 - damp) * (fa - fb) + damp * (xa - yb))%R by ring.
  eapply Rle_trans; [apply Rabs_triang|]. rewrite !Rabs_mult.
  rewrite (Rabs_pos_eq (1 - damp)), (Rabs_pos_eq damp) by lra. nra.
Qed.

Fixpoint rorbit (damp : R) (f : list R -> list R) (y0 : list R) (k : nat) : list R :=
  match k with O => y0 | S j => rupdate damp f (rorbit damp f y0 j) end.

Lemma orbit_trace : forall rtol atol damp norm f y0 aux0 k,
  let s := fixed_point_iteration (N:=XR) rtol atol (Fin damp) norm in
  y_at s (liftv f) (map Fin y0) PInf aux0 k = map Fin (rorbit damp f y0 k).
Proof.
  intros rtol atol damp norm f y0 aux0 k s. induction k as [|k IH]; [reflexivity|].
  unfold y_at in *. cbn [trace s_step s fixed_point_iteration]. fold s.
  rewrite fp_step_eq. cbn [fst snd]. 
  refine (eq_trans (f_equal (fun y => fp_update (N:=XR) (Fin damp) (fst (liftv f y)) y) IH) _).
  rewrite liftv_Fin. apply fp_update_Fin.
Qed.

Lemma orbit_length : forall damp f y0 n k,
  (forall x, length x = n -> length (f x) = n) -> length y0 = n -> length (rorbit damp f y0 k) = n.
Proof. intros. induction k; simpl; auto. apply rupdate_length; auto. Qed.

Lemma orbit_geom : forall damp f n q y0 k, contraction n q f -> (0 <= damp < 1)%R -> length y0 = n ->
  (Rdist_inf (rorbit damp f y0 k) (rorbit damp f y0 (S k)) <=
   (damp + (1 - damp) * q) ^ k * Rdist_inf y0 (rupdate damp f y0))%R.
Proof.
  intros damp f n q y0 k HC Hd HL. assert (HCL := proj1 (proj2 HC)).
  induction k as [|k IH]; [simpl; lra|].
  change (rorbit damp f y0 (S (S k))) with (rupdate damp f (rorbit damp f y0 (S k))).
  change (rorbit damp f y0 (S k)) with (rupdate damp f (rorbit damp f y0 k)) at 1.
  eapply Rle_trans.
  - apply (rupdate_contr damp f n q); auto; [|change (rorbit damp f y0 (S k)) with (rupdate damp f (rorbit damp f y0 k))].
    + apply orbit_length; auto.
    + apply rupdate_length; auto. apply orbit_length; auto.
  - cbn [pow]. rewrite Rmult_assoc. apply Rmult_le_compat_l; auto.
    destruct HC as (Hq & _). nra.
Qed.

(** For a contraction in the maximum norm the iteration terminates
    successfully from every starting point, and what it returns is near every
    fixed point. *)
Lemma C26_contraction_converges_pf :
  forall (n : nat) (q : R) (f : list R -> list R) (rtol atol damp : R) (y0 : list R) fs auxs,
    contraction n q f -> length y0 = n ->
    (0 < atol)%R -> (0 <= rtol)%R -> (0 <= damp < 1)%R ->
    let s := fixed_point_iteration (N:=XR) (Fin rtol) (Fin atol) (Fin damp) max_norm in
    exists k, forall fuel ms throw, k < fuel -> (forall m, ms = Some m -> k <= m) ->
      exists sol,
        iterative_solve vallfinite s (liftv f) fuel ms throw (map Fin y0) fs auxs = Ret sol /\
        result sol = successful.
Proof.
  intros n q f rtol atol damp y0 fs auxs HC HL Ha Hr Hd s.
  assert (Hi : s_init s (liftv f) (map Fin y0) fs auxs = Ret PInf) by reflexivity.
  assert (HCL := proj1 (proj2 HC)).
  set (q' := (damp + (1 - damp) * q)%R). set (D := Rdist_inf y0 (rupdate damp f y0)).
  assert (Hq' : (0 <= q' < 1)%R) by (destruct HC as (Hq & _); unfold q'; nra).
  assert (HY : forall k, y_at s (liftv f) (map Fin y0) PInf (auxs fill0) k = map Fin (rorbit damp f y0 k))
    by (intro; apply orbit_trace).
  assert (HD : (0 <= D)%R) by apply Rdist_inf_pos.
  destruct (pow_lt_1_zero q' ltac:(rewrite Rabs_pos_eq; lra) (atol / (D + 1))) as (k & Hk).
  { apply Rdiv_lt_0_compat; lra. }
  specialize (Hk k (le_n _)). rewrite Rabs_pos_eq in Hk by (apply pow_le; lra).
  assert (HT : says_terminate s (liftv f) (map Fin y0) PInf (auxs fill0) (S k) = true).
  { unfold says_terminate, st_at. cbn [trace s_step s_terminate s fixed_point_iteration fst snd]. fold s.
    rewrite fp_step_eq. cbn [fst snd].
    fold (y_at s (liftv f) (map Fin y0) PInf (auxs fill0) k). rewrite HY, liftv_Fin. cbn [fst].
    rewrite fp_update_Fin. fold (rupdate damp f (rorbit damp f y0 k)).
    set (w := rorbit damp f y0 k). set (v := rupdate damp f w).
    apply (max_norm_lt XR_laws); [apply (dl_01 XR XR_div)|]. apply Forall_nth.
    intros i z Hz. unfold vdiv in Hz. apply nth_vmap2 in Hz. destruct Hz as (d & sc & E1 & E2 & ->).
    rewrite vsub_Fin in E1. apply nth_map in E1. destruct E1 as (dr & E1 & ->).
    unfold vscale_tol in E2. apply nth_map in E2. destruct E2 as (vi & E2 & ->).
    apply nth_map in E2. destruct E2 as (vr & E2 & ->).
    cbn [nadd nmul nabs ndiv nltb nofQ XR xabs xmul xadd]. rewrite Q2R_1.
    pose proof (Rabs_pos vr). assert (Hs : (0 < atol + rtol * Rabs vr)%R) by nra.
    rewrite xdiv_fin by lra. cbn [xabs]. apply xltb_fin.
    unfold Rdiv. rewrite Rabs_mult, Rabs_inv, (Rabs_pos_eq (atol + _)) by lra.
    apply (Rmult_lt_reg_r (atol + rtol * Rabs vr)); auto.
    rewrite Rmult_assoc, Rinv_l, Rmult_1_r, Rmult_1_l by lra.
    apply Rle_lt_trans with (Rdist_inf w v).
    { apply (Rmax_norm_nth _ i). exact E1. }
    pose proof (orbit_geom damp f n q y0 k HC Hd HL) as HG.
    change (rorbit damp f y0 (S k)) with v in HG. fold w q' D in HG.
    assert (HKD : (q' ^ k * D < atol)%R).
    { apply (Rmult_lt_compat_r (D + 1)) in Hk; [|lra].
      unfold Rdiv in Hk. rewrite Rmult_assoc, Rinv_l, Rmult_1_r in Hk by lra.
      pose proof (pow_le q' k (proj1 Hq')). nra. }
    nra. }
  assert (HF : forall j, vallfinite (asked s (liftv f) (map Fin y0) PInf (auxs fill0) j) = true).
  { intro j. unfold asked. rewrite HY. apply allfin_Fin. }
  destruct (solve_succeeds vallfinite s (liftv f) (map Fin y0) PInf _ fs auxs eq_refl Hi
              (fun _ => eq_refl) HF (ex_intro _ (S k) HT)) as (k1 & _ & _ & Hk1).
  exists k1. intros fuel ms throw Hf Hms. eexists. destruct (Hk1 fuel ms throw Hf Hms). split; eauto.
Qed.

Lemma C26_value_near_fixed_point_pf :
  forall (n : nat) (q : R) (f : list R -> list R) (rtol atol damp : R) (y0 x : list R) fs auxs
         fuel ms throw sol,
    contraction n q f -> length y0 = n -> length x = n -> f x = x ->
    (0 < atol)%R -> (0 <= rtol)%R -> (0 <= damp < 1)%R ->
    let s := fixed_point_iteration (N:=XR) (Fin rtol) (Fin atol) (Fin damp) max_norm in
    iterative_solve vallfinite s (liftv f) fuel ms throw (map Fin y0) fs auxs = Ret sol ->
    result sol = successful ->
    let q' := (damp + (1 - damp) * q)%R in
    exists v, value sol = map Fin v /\ length v = n /\
      (Rdist_inf v x <= q' / (1 - q') * (atol + rtol * Rmax_norm v))%R.
Proof.
  intros n q f rtol atol damp y0 x fs auxs fuel ms throw sol HC HL HLx Hfx Ha Hr Hd s H HR q'.
  assert (HCL := proj1 (proj2 HC)).
  assert (Hq' : (0 <= q' < 1)%R) by (destruct HC as (Hq & _); unfold q'; nra).
  assert (Hi : s_init s (liftv f) (map Fin y0) fs auxs = Ret PInf) by reflexivity.
  destruct (success_inv _ _ _ vallfinite s (liftv f) (map Fin y0) PInf fs auxs fuel ms throw sol Hi H HR)
    as (k & _ & HS & -> & HF & HT & _).
  assert (HY : forall k, y_at s (liftv f) (map Fin y0) PInf (auxs fill0) k = map Fin (rorbit damp f y0 k))
    by (intro; apply orbit_trace).
  destruct k as [|k]; [discriminate|].
  set (w := rorbit damp f y0 k). set (v := rupdate damp f w).
  exists v. unfold solution_at. cbn [s_post s fixed_point_iteration value]. fold s.
  split; [apply HY|]. assert (Hwl : length w = n) by (apply orbit_length; auto).
  assert (Hvl : length v = n) by (apply rupdate_length; auto). split; auto.
  assert (Hx : rupdate damp f x = x).
  { unfold rupdate. rewrite Hfx. clear. induction x as [|a x IH]; simpl; auto. f_equal; auto. ring. }
  assert (Hwv : (Rdist_inf w v <= atol + rtol * Rmax_norm v)%R).
  { unfold says_terminate, st_at in HT. cbn [trace s_step s_terminate s fixed_point_iteration fst snd] in HT.
    fold s in HT. rewrite fp_step_eq in HT. cbn [fst snd] in HT.
    fold (y_at s (liftv f) (map Fin y0) PInf (auxs fill0) k) in HT. rewrite HY, liftv_Fin in HT. cbn [fst] in HT.
    rewrite fp_update_Fin in HT. fold (rupdate damp f (rorbit damp f y0 k)) in HT. fold w v in HT.
    apply (max_norm_lt XR_laws) in HT; [|apply (dl_01 XR XR_div)]. rewrite Forall_nth in HT.
    unfold Rdist_inf. pose proof (Rmax_norm_pos v). apply Rmax_norm_le; [nra|].
    intros i z Hz. pose proof Hz as Hz'. apply Rsub_v_nth in Hz'. destruct Hz' as (wi & vi & E1 & E2 & E3).
    specialize (HT i (ndiv (n:=XR) (Fin z) (Fin (atol + rtol * Rabs vi)))).
    assert (HQ : nltb (n:=XR) (nabs (n:=XR) (ndiv (n:=XR) (Fin z) (Fin (atol + rtol * Rabs vi)))) (nofQ 1) = true).
    { apply HT. unfold vdiv. apply nth_vmap2. rewrite vsub_Fin.
      exists (Fin z), (Fin (atol + rtol * Rabs vi)). split; [apply nth_map; eauto|]. split; [|reflexivity].
      unfold vscale_tol. apply nth_map. exists (Fin vi). split; [apply nth_map; eauto|reflexivity]. }
    apply (dl_lt1 XR XR_div) in HQ. cbn [nabs XR xabs nltb] in HQ. apply xltb_fin in HQ.
    pose proof (Rabs_pos vi). rewrite (Rabs_pos_eq (atol + _)) in HQ by nra.
    pose proof (Rmax_norm_nth v i vi E2). nra. }
  pose proof (rupdate_contr damp f n q w x HC Hd Hwl HLx) as HG.
  rewrite Hx in HG. fold v q' in HG.
  pose proof (Rdist_inf_tri w v x ltac:(lia) ltac:(lia)) as HTr.
  pose proof (Rdist_inf_pos v x).
  apply (Rmult_le_reg_r (1 - q')); [lra|].
  replace (q' / (1 - q') * (atol + rtol * Rmax_norm v) * (1 - q'))%R
    with (q' * (atol + rtol * Rmax_norm v))%R by (field; lra).
  nra.
Qed.

(** A caveat: with damp = 1 every finite starting point "converges" at the
    first step, whatever the function. *)
Lemma C25_full_damping_vacuous_pf :
  forall (n : nat) (f : list R -> list R) (rtol atol : R) (y0 : list R) fs auxs fuel ms throw,
    (forall x, length x = n -> length (f x) = n) -> length y0 = n ->
    (0 < atol)%R -> (0 <= rtol)%R -> 2 <= fuel -> ms <> Some 0 ->
    let s := fixed_point_iteration (N:=XR) (Fin rtol) (Fin atol) (Fin 1) max_norm in
    exists sol, iterative_solve vallfinite s (liftv f) fuel ms throw (map Fin y0) fs auxs = Ret sol /\
      result sol = successful /\ value sol = map Fin y0.
Proof.
  intros n f rtol atol y0 fs auxs fuel ms throw HL Hy Ha Hr Hfu Hms s.
  assert (Hi : s_init s (liftv f) (map Fin y0) fs auxs = Ret PInf) by reflexivity.
  assert (HU : rupdate 1 f y0 = y0).
  { unfold rupdate. specialize (HL y0 Hy). rewrite <- Hy in HL. clear -HL. revert HL.
    generalize (f y0) as g. induction y0 as [|a x IH]; intros [|b g]; simpl; intros; try discriminate; auto.
    f_equal; [ring|apply IH; lia]. }
  assert (HY : forall k, y_at s (liftv f) (map Fin y0) PInf (auxs fill0) k = map Fin y0).
  { intro k. unfold s. rewrite (orbit_trace (Fin rtol) (Fin atol) 1). f_equal.
    induction k; simpl; auto. rewrite IHk; auto. }
  assert (HT : says_terminate s (liftv f) (map Fin y0) PInf (auxs fill0) 1 = true).
  { unfold says_terminate, st_at. cbn [trace s_step s_terminate s fixed_point_iteration fst snd]. fold s.
    rewrite fp_step_eq. cbn [fst snd]. rewrite liftv_Fin. cbn [fst].
    rewrite fp_update_Fin. fold (rupdate 1 f y0). rewrite HU.
    apply (max_norm_lt XR_laws); [apply (dl_01 XR XR_div)|]. apply Forall_nth.
    intros i z Hz. unfold vdiv in Hz. apply nth_vmap2 in Hz. destruct Hz as (d & sc & E1 & E2 & ->).
    rewrite vsub_Fin in E1. apply nth_map in E1. destruct E1 as (dr & E1 & ->).
    unfold vscale_tol in E2. apply nth_map in E2. destruct E2 as (vi & E2 & ->).
    apply nth_map in E2. destruct E2 as (vr & E2 & ->).
    apply Rsub_v_nth in E1. destruct E1 as (a & b & Ea & Eb & ->).
    assert (a = b) by congruence. subst b. replace (a - a)%R with 0%R by ring.
    cbn [nadd nmul nabs ndiv nltb nofQ XR xabs xmul xadd]. rewrite Q2R_1.
    pose proof (Rabs_pos vr). rewrite xdiv_fin by nra. cbn [xabs]. apply xltb_fin.
    unfold Rdiv. rewrite Rmult_0_l, Rabs_R0. lra. }
  assert (HF : forall j, vallfinite (asked s (liftv f) (map Fin y0) PInf (auxs fill0) j) = true).
  { intro j. unfold asked. rewrite HY. apply allfin_Fin. }
  destruct (solve_succeeds vallfinite s (liftv f) (map Fin y0) PInf _ fs auxs eq_refl Hi
              (fun _ => eq_refl) HF (ex_intro _ 1 HT)) as (k1 & Hk0 & Hkm & Hk1).
  assert (k1 = 1).
  { destruct k1 as [|[|k1]]; auto; [discriminate|].
    specialize (Hkm 1 ltac:(lia)). congruence. }
  subst k1. destruct (Hk1 fuel ms throw ltac:(lia)) as [E1 E2].
  { intros [|m] E; [congruence|lia]. }
  eexists. split; [exact E1|]. split; [exact E2|].
  unfold solution_at. cbn [s_post s fixed_point_iteration value]. fold s. apply HY.
Qed.

(** Example of a contraction in two dimensions: (x, y) -> (y/2 + 1, x/3),
    with q = 1/2 and fixed point (6/5, 2/5); and a run in binary64. *)
Example C26_contraction_ex_pf :
  let f := fun v => match v with [x; y] => [y / 2 + 1; x / 3]%R | _ => [0; 0]%R end in
  contraction 2 (1/2) f /\ f [6/5; 2/5]%R = [6/5; 2/5]%R.
Proof.
  intro f. split.
  - split; [lra|]. split.
    + intros [|x [|y [|z w]]] H; try discriminate; reflexivity.
    + intros [|x [|y [|z w]]] [|x' [|y' [|z' w']]] H H'; try discriminate.
      unfold f, Rdist_inf. cbn [Rsub_v Rmax_norm fold_right].
      pose proof (Rabs_pos (x - x')). pose proof (Rabs_pos (y - y')).
      rewrite (Rmax_left (Rabs (y - y')) 0) by lra.
      pose proof (Rmax_l (Rabs (x - x')) (Rabs (y - y'))).
      pose proof (Rmax_r (Rabs (x - x')) (Rabs (y - y'))).
      apply Rmax_lub; [|apply Rmax_lub; [|nra]].
      * replace (y / 2 + 1 - (y' / 2 + 1))%R with (/ 2 * (y - y'))%R by field.
        rewrite Rabs_mult, (Rabs_pos_eq (/2)) by lra. lra.
      * replace (x / 3 - x' / 3)%R with (/ 3 * (x - x'))%R by field.
        rewrite Rabs_mult, (Rabs_pos_eq (/3)) by lra. lra.
  - unfold f. f_equal; [field|f_equal; field].
Qed.

Definition fp_ex_fn (v : list f64) : list f64 * unit :=
  match v with
  | [x; y] => ([fadd (fdiv y (f64_ofZ 2)) (f64_ofZ 1); fdiv x (f64_ofZ 3)], tt)
  | _ => ([f64_ofZ 0; f64_ofZ 0], tt)
  end.
Example C25_certificate_ex_pf :
  exists sol,
    iterative_solve vallfinite
      (fixed_point_iteration (N:=F64) (f64_ofQ (1#1000)) (f64_ofQ (1#1000)) (f64_ofQ (1#4)) max_norm)
      fp_ex_fn 60 (Some 50) true [f64_ofZ 9; f64_ofZ (-7)] (fun _ => []) (fun _ => tt) = Ret sol /\
    results_eqb (result sol) successful &&
    match value sol with
    | [x; y] => nltb (n:=F64) (f64_ofQ (119#100)) x && nltb (n:=F64) x (f64_ofQ (121#100)) &&
                nltb (n:=F64) (f64_ofQ (39#100)) y && nltb (n:=F64) y (f64_ofQ (41#100))
    | _ => false
    end = true.
Proof.
  assert (CR : forall A (x : outcome A) (p : A -> bool),
    match x with Ret a => p a | _ => false end = true -> exists a, x = Ret a /\ p a = true).
  { intros A [a|e|] p H; try discriminate. exists a; auto. }
  apply CR; vm_compute; reflexivity.
Qed.

(** A successful value of fixed-point iteration is finite (exact
    arithmetic). *)
Lemma C04_fixed_point_success_finite_pf :
  forall (Aux : Type) (rtol atol damp : R) (fn : list xr -> list xr * Aux) y0 fs auxs fuel ms throw sol,
    (0 < atol)%R -> (0 <= rtol)%R ->
    iterative_solve vallfinite (fixed_point_iteration (N:=XR) (Fin rtol) (Fin atol) (Fin damp) max_norm)
      fn fuel ms throw y0 fs auxs = Ret sol ->
    result sol = successful -> exists v : list R, value sol = map Fin v.
Proof.
  intros. destruct (C25_exact_pf Aux rtol atol damp fn y0 fs auxs fuel ms throw sol) as (y & v & _ & E & _); eauto.
Qed.
