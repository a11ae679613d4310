(** Proofs about nonlinear conjugate gradients. *)

From Coq Require Import String List Bool Arith Lia ZArith QArith Qreals Reals Lra Psatz.
From Verif Require Import Num NumFacts NumDiv NumSq Vec Results Iterate Spec_Iterate Iterate_proofs.
From Verif Require Import Spec_Vec VecFacts Spec_Lin LinFacts NumF64 NumF64_facts.
From Verif Require Import Search Spec_Search Spec_CG Descent Minimisers QuasiNewton Solvers FixedPoint_proofs Minimisers_proofs Spec_Examples.
Import ListNotations.
Local Open Scope nat_scope.

Lemma vwhere_eq : forall (N : Num) p (a b : list N), length a = length b ->
  vwhere p a b = if p then a else b.
Proof.
  intros N p a. induction a as [|x a IH]; destruct b as [|y b]; intro H; try discriminate.
  - destruct p; reflexivity.
  - cbn. unfold vwhere in IH. rewrite IH by (injection H; auto). destruct p; reflexivity.
Qed.

(** Whatever the arithmetic, the method and the state (NaN and infinities
    included), the new direction has a computed negative slope, or is the negative
    gradient. *)
Lemma C35_any_arithmetic_pf :
  forall (N : Num) (method : list N -> list N -> list N -> N) (i : finfo N) y_diff_prev grad_prev,
    length y_diff_prev = length (info_grad i) ->
    let d := fst (cg_query method i (y_diff_prev, grad_prev)) in
    length d = length (info_grad i) /\
    (nltb (vdot (info_grad i) d) (nofQ 0) = true \/ d = vneg (info_grad i)).
Proof.
  intros N method i yd gp HL d. unfold d, cg_query. cbn [fst].
  assert (L1 : length (vneg (info_grad i)) = length (info_grad i)) by (unfold vneg; rewrite map_length; reflexivity).
  assert (L2 : length (vadd (vneg (info_grad i)) (vscale (method (info_grad i) gp yd) yd)) = length (info_grad i)).
  { unfold vadd. rewrite vmap2_length, L1. unfold vscale. rewrite map_length, HL. apply Nat.min_id. }
  rewrite vwhere_eq by congruence.
  destruct (nltb _ _) eqn:E; split; auto.
Qed.

Lemma vdot_neg_le : forall (N : Num) (O : OrdLaws N) (Q : SqLaws N) (g : list N),
  Forall (fun x => nisnan x = false) g -> neqb (nofQ 0 : N) (nofQ 0) = true ->
  nleb (vdot g (vneg g)) (nofQ 0) = true.
Proof.
  intros N O Q g HF H0. induction HF as [|x g Hx HF IH].
  - cbn. rewrite (ol_le _ O), H0. apply orb_true_r.
  - cbn. apply (sq_add _ Q); [apply (sq_neg _ Q); exact Hx|exact IH].
Qed.

(** In binary64 and in exact arithmetic with infinities and NaN: as long as the
    gradient contains no NaN, the slope along the direction is computed as
    non-positive, whatever the method returns. *)
Lemma C35_never_uphill_pf :
  forall (N : Num), N = F64 \/ N = XR ->
  forall (method : list N -> list N -> list N -> N) (i : finfo N) y_diff_prev grad_prev,
    length y_diff_prev = length (info_grad i) ->
    Forall (fun x => nisnan x = false) (info_grad i) ->
    nleb (vdot (info_grad i) (fst (cg_query method i (y_diff_prev, grad_prev)))) (nofQ 0) = true.
Proof.
  intros N HN method i yd gp HL HF.
  assert (L : OrdLaws N /\ SqLaws N /\ neqb (nofQ 0 : N) (nofQ 0) = true).
  { destruct HN as [-> | ->].
    - split; [apply F64_laws|]. split; [apply F64_sq|]. reflexivity.
    - split; [apply XR_laws|]. split; [apply XR_sq|]. cbn. apply Reqb_true. reflexivity. }
  destruct L as (O & Q & H0).
  destruct (C35_any_arithmetic_pf N method i yd gp HL) as [_ [H| ->]].
  - apply (lt_le O). exact H.
  - apply vdot_neg_le; auto.
Qed.

Lemma vdot_Fin : forall a b, vdot (N:=XR) (map Fin a) (map Fin b) = Fin (Rdot a b).
Proof.
  induction a as [|x a IH]; destruct b as [|y b]; cbn; try (rewrite Q2R_0; reflexivity).
  unfold vdot, vmul, vsum in IH. cbn in IH. rewrite IH. reflexivity.
Qed.
Lemma vneg_Fin : forall a, vneg (N:=XR) (map Fin a) = map Fin (Rscal (-1) a).
Proof.
  unfold vneg, Rscal. intro a. rewrite !map_map. apply map_ext. intro x. cbn. f_equal. lra.
Qed.

(** Exact arithmetic: for a finite gradient the direction is strictly
    downhill unless the gradient is zero, even if the method returns NaN or an
    infinity. *)
Lemma C35_downhill_pf :
  forall (method : list xr -> list xr -> list xr -> xr) (i : finfo XR) (g : list R) y_diff_prev grad_prev,
    info_grad i = map Fin g -> length y_diff_prev = length g ->
    g <> zerov (length g) ->
    nltb (n:=XR) (vdot (info_grad i) (fst (cg_query (N:=XR) method i (y_diff_prev, grad_prev)))) (Fin 0) = true.
Proof.
  intros method i g yd gp Hg HL Hz.
  destruct (C35_any_arithmetic_pf XR method i yd gp) as [_ [H|E]].
  - rewrite Hg, map_length. exact HL.
  - cbn [nofQ XR] in H. rewrite Q2R_0 in H. exact H.
  - rewrite E, Hg, vneg_Fin, vdot_Fin. cbn [nltb XR]. apply xltb_fin.
    rewrite Rdot_scal_r. pose proof (Rdot_pos g).
    destruct (Req_dec (Rdot g g) 0) as [E0|]; [|lra].
    exfalso. apply Hz. apply Rdot_0_inv. exact E0.
Qed.

Lemma vdot_nan_r : forall (g d : list xr), length g = length d -> In NaN d ->
  vdot (N:=XR) g d = NaN.
Proof.
  induction g as [|x g IH]; destruct d as [|y d]; intros HL HI; try discriminate; [destruct HI|].
  cbn. destruct HI as [->|HI].
  - destruct x; reflexivity.
  - unfold vdot, vsum, vmul in IH. cbn in IH. rewrite IH by (cbn in HL; auto; lia).
    destruct (xmul x y); reflexivity.
Qed.

(** The first direction of a run is the negative gradient, for every method. *)
Lemma C35_first_direction_pf :
  forall (method : list xr -> list xr -> list xr -> xr) (i : finfo XR),
    let n := length (info_grad i) in
    fst (cg_query (N:=XR) method i (vfull n (nofQ 0), vfull n (nofQ 0))) = vneg (info_grad i).
Proof.
  intros method i n. unfold cg_query. cbn [fst].
  set (g := info_grad i) in *. set (beta := method _ _ _).
  assert (L1 : length (vneg g) = n) by (unfold vneg; rewrite map_length; reflexivity).
  assert (L2 : length (vscale (N:=XR) beta (vfull n (nofQ (n:=XR) 0))) = n)
    by (unfold vscale, vfull; rewrite map_length, repeat_length; reflexivity).
  rewrite vwhere_eq by (unfold vadd; rewrite vmap2_length, L1, L2; apply Nat.min_id).
  destruct (nltb (vdot g _) _) eqn:E; [|reflexivity].
  assert (HB : exists b, beta = Fin b \/ g = []).
  { destruct beta as [b| | |] eqn:EB; [exists b; auto| | |].
    all: destruct g as [|x g'] eqn:EG; [exists 0%R; auto|].
    all: rewrite vdot_nan_r in E; [discriminate| |].
    all: try (unfold vadd; rewrite vmap2_length, L1, L2; unfold n; cbn; rewrite Nat.min_id; reflexivity).
    all: subst n; cbn; left; rewrite ?Q2R_0; cbn; unfold xsgn_inf; destruct (Rlt_dec 0 0); try lra; destruct (xneg x); reflexivity. }
  destruct HB as (b & [-> | ->]); [|reflexivity].
  unfold n. clear. induction g as [|x g IH]; [reflexivity|].
  cbn. unfold vneg, vfull, vscale, vadd in IH. cbn in IH. unfold vneg. cbn. rewrite IH. f_equal.
  rewrite Q2R_0, Rmult_0_r. destruct x as [x| | |]; cbn; auto. f_equal. lra.
Qed.

(** The same seen from a run of the solver: after the first step the stored
    direction is the negative gradient at y0. *)
Lemma C35_first_direction_run_pf :
  forall (Aux : Type) (P : ar_tols XR) (search : Search XR) method grad_of
         (fn : list xr -> xr * Aux) y0 fs auxs st0,
    accepts_first search ->
    let s := NonlinearCG (N:=XR) P grad_of method search in
    s_init s fn y0 fs auxs = Ret st0 ->
    length (grad_of fn y0) = length y0 ->
    fst (gd_descent_state (st_at s fn y0 st0 (auxs fill0) 1)) = vneg (N:=XR) (grad_of fn y0).
Proof.
  intros Aux P search method grad_of fn y0 fs auxs st0 HA s Hi HL.
  apply gd_init_inv in Hi. subst st0.
  pose proof (gd_first P _ (nonlinear_cg_descent (N:=XR) method) grad_of fn y0 fs auxs HA 0) as [HF _].
  destruct (gd_step_cases _ _ _ _ _ _ _ _ _ _ (gd_trace_S (N:=XR) P search (nonlinear_cg_descent (N:=XR) method) grad_of fn y0 fs auxs 0))
    as (step & acc & sr & sst & Es & E1 & E2 & E3 & E4 & E6 & E5).
  rewrite (proj2 HF eq_refl) in Es.
  assert (acc = true) as ->.
  { match type of Es with se_step _ _ ?a ?b ?c ?d ?e = _ => pose proof (HA a b c d e) as HA' end.
    exact (eq_trans (eq_sym (f_equal (fun p => snd (fst (fst p))) Es)) HA'). }
  destruct E5 as (Ey & _ & _ & Ed & _).
  unfold s, NonlinearCG. rewrite Ed.
  rewrite Ey. cbn [gd_y_eval st_at trace fst snd gd_st0 gd_descent_state d_init nonlinear_cg_descent d_query].
  pose proof (C35_first_direction_pf method (EvalGrad (N:=XR) (fst (fn y0)) (grad_of fn y0))) as H.
  cbn [info_grad] in H. rewrite HL in H. exact H.
Qed.

(** ** Beta formulas *)

(** polak_ribiere is max(0, g.(g - g_prev) / |g_prev|^2) and fletcher_reeves is
    |g|^2 / |g_prev|^2, both 0 when |g_prev|^2 <= eps. *)
Lemma C36_polak_ribiere_fletcher_reeves_pf :
  forall (eps : R) (g gp d : list R), (0 <= eps)%R ->
    ((eps < Rdot gp gp)%R ->
       polak_ribiere (N:=RN) eps g gp d = Rmax (Rdot g (Rsub_v g gp) / Rdot gp gp) 0 /\
       fletcher_reeves (N:=RN) eps g gp d = (Rdot g g / Rdot gp gp)%R) /\
    ((Rdot gp gp <= eps)%R ->
       polak_ribiere (N:=RN) eps g gp d = 0%R /\ fletcher_reeves (N:=RN) eps g gp d = 0%R).
Proof.
  intros eps g gp d He. unfold polak_ribiere, fletcher_reeves. cbv zeta.
  rewrite !sum_squares_RN, vdot_RN, vsub_RN. cbn [nltb RN nofQ ndiv]. rewrite Q2R_0.
  split; intro H.
  - rewrite (proj2 (Rltb_true _ _) H). split; [|reflexivity].
    unfold nmax, nisnan. cbn. 
    replace (Reqb _ _) with true by (symmetry; apply Reqb_true; reflexivity). cbn.
    replace (Reqb 0 0) with true by (symmetry; apply Reqb_true; reflexivity). cbn.
    unfold Rmax. destruct (Rle_dec _ _) as [Hle|Hle]; destruct (Rltb _ _) eqn:E; auto; rb; lra.
  - rewrite (proj2 (Rltb_false _ _) H). split; reflexivity.
Qed.

(** hestenes_stiefel and dai_yuan return the NEGATIVE of the classical values
    g.(g - g_prev) / (d_prev.(g - g_prev)) and |g|^2 / (d_prev.(g - g_prev)): the
    denominator has the wrong sign for a formula written in terms of gradients. *)
Lemma C36_hestenes_stiefel_dai_yuan_sign_pf :
  forall (eps : R) (g gp d : list R), (0 <= eps)%R ->
    let den := Rdot d (Rsub_v g gp) in
    ((eps < Rabs den)%R ->
       hestenes_stiefel (N:=RN) eps g gp d = (- (Rdot g (Rsub_v g gp) / den))%R /\
       dai_yuan (N:=RN) eps g gp d = (- (Rdot g g / den))%R) /\
    ((Rabs den <= eps)%R ->
       hestenes_stiefel (N:=RN) eps g gp d = 0%R /\ dai_yuan (N:=RN) eps g gp d = 0%R).
Proof.
  intros eps g gp d He den. unfold hestenes_stiefel, dai_yuan. cbv zeta.
  rewrite !sum_squares_RN, !vdot_RN, !vsub_RN. fold den. cbn [nltb RN nofQ ndiv nabs nneg]. rewrite Q2R_0.
  rewrite Rabs_Ropp.
  split; intro H.
  - rewrite (proj2 (Rltb_true _ _) H).
    assert (den <> 0)%R. { intro E. rewrite E, Rabs_R0 in H. lra. }
    assert (HX : forall x : R, (x / - den = - (x / den))%R) by (intro x; field; auto).
    split; apply HX.
  - rewrite (proj2 (Rltb_false _ _) H). split; reflexivity.
Qed.

(** So the Hestenes-Stiefel direction is not conjugate to the gradient change:
    (-g + beta d) . (g - g_prev) <> 0 although d . (g - g_prev) is far from 0.
    The same inputs give a Dai-Yuan beta of the wrong sign. *)
Lemma C36_conjugacy_refuted_pf :
  exists g gp d : list R, exists eps : R,
    (0 < eps < 1)%R /\ Rdot d (Rsub_v g gp) = 1%R /\
    Rdot (Radd_v (Rscal (-1) g) (Rscal (hestenes_stiefel (N:=RN) eps g gp d) d)) (Rsub_v g gp) <> 0%R /\
    (dai_yuan (N:=RN) eps g gp d < 0)%R.
Proof.
  exists [1; 1]%R, [0; 1]%R, [1; 0]%R, (1/2)%R.
  split; [lra|]. split; [cbn; lra|].
  destruct (C36_hestenes_stiefel_dai_yuan_sign_pf (1/2) [1;1]%R [0;1]%R [1;0]%R ltac:(lra)) as [H _].
  destruct H as [H1 H2].
  { cbn. replace (1 * (1 - 0) + (0 * (1 - 1) + 0))%R with 1%R by lra. rewrite Rabs_R1. lra. }
  rewrite H1, H2. cbn. split; [|lra].
  replace (_ / _)%R with 1%R by (field; lra). lra.
Qed.

(** What does hold for Hestenes-Stiefel: the direction with the sign of beta
    corrected, -g - beta d, is conjugate to the gradient change. *)
Lemma C36_conjugacy_with_corrected_sign_pf :
  forall (eps : R) (g gp d : list R), (0 <= eps)%R ->
    length gp = length g -> length d = length g ->
    (eps < Rabs (Rdot d (Rsub_v g gp)))%R ->
    Rdot (Rsub_v (Rscal (-1) g) (Rscal (hestenes_stiefel (N:=RN) eps g gp d) d)) (Rsub_v g gp) = 0%R.
Proof.
  intros eps g gp d He H1 H2 H.
  destruct (C36_hestenes_stiefel_dai_yuan_sign_pf eps g gp d He) as [HS _]. destruct (HS H) as [E _].
  rewrite E. rewrite Rdot_sub_l by (rewrite !Rscal_length; auto). rewrite !Rdot_scal_l.
  assert (Rdot d (Rsub_v g gp) <> 0)%R. { intro E0. rewrite E0, Rabs_R0 in H. lra. }
  field. assumption.
Qed.

(** ** Progress of NonlinearCG *)

Lemma cg_query_RN : forall method (i : finfo RN) (yd gp : list R),
  length yd = length (info_grad i) ->
  let d := fst (cg_query (N:=RN) method i (yd, gp)) in
  length d = length (info_grad i) /\
  (info_grad i <> zerov (length (info_grad i)) -> (Rdot (info_grad i) d < 0)%R).
Proof.
  intros method i yd gp HL d.
  destruct (C35_any_arithmetic_pf RN method i yd gp HL) as [H1 H2]. split; [exact H1|].
  intro Hz. destruct H2 as [H2|H2].
  - cbn [nltb RN nofQ] in H2. apply Rltb_true in H2. rewrite Q2R_0, vdot_RN in H2. exact H2.
  - change (d = vneg (N:=RN) (info_grad i)) in H2. rewrite H2. rewrite vneg_RN, Rdot_scal_r. pose proof (Rdot_pos (info_grad i)).
    destruct (Req_dec (Rdot (info_grad i) (info_grad i)) 0) as [E0|]; [|lra].
    exfalso. apply Hz. apply Rdot_0_inv. exact E0.
Qed.

(** NonlinearCG with any method: for a differentiable objective with its true
    gradient, whenever the gradient at the current iterate is not zero, finitely
    many rejections are followed by a step that strictly decreases the
    objective. *)
Lemma C29_nonlinear_cg_pf :
  forall (Aux : Type) (P : ar_tols RN) (decrease slope init : R) method grad_of
         (fn : list R -> R * Aux) y0 fs auxs st0,
    armijo_valid (N:=RN) decrease slope init = true ->
    let n := length y0 in
    (forall y, length y = n -> length (grad_of fn y) = n) ->
    (forall y d, length y = n -> length d = n ->
       derivable_pt_lim (fun t => fst (fn (along y d t))) 0 (Rdot (grad_of fn y) d)) ->
    let s := NonlinearCG (N:=RN) P grad_of method (armijo (N:=RN) decrease slope init) in
    s_init s fn y0 fs auxs = Ret st0 ->
    let y := y_at s fn y0 st0 (auxs fill0) in
    forall k, 0 < k -> grad_of fn (y k) <> zerov n ->
      exists m, k <= m /\ (forall j, k <= j <= m -> y j = y k) /\
                (fst (fn (y (S m))) < fst (fn (y k)))%R.
Proof.
  intros Aux P de sl ini method grad_of fn y0 fs auxs st0 V n HG HD s Hi y k Hk Hz.
  pose proof (C29_gradient_descent_pf Aux P de sl ini (nonlinear_cg_descent (N:=RN) method) grad_of fn y0 fs auxs st0 V Hi k) as HC.
  apply gd_init_inv in Hi. subst st0.
  pose proof (gd_trace_S P (armijo (N:=RN) de sl ini) (nonlinear_cg_descent (N:=RN) method) grad_of fn y0 fs auxs) as HT.
  change (gradient_descent_solver P (armijo de sl ini) (nonlinear_cg_descent method) grad_of) with s in *.
  set (st := st_at s fn y0 (gd_st0 (armijo (N:=RN) de sl ini) (nonlinear_cg_descent (N:=RN) method) y0 fs auxs) (auxs fill0)) in *.
  fold y in HT, HC.
  pose proof (proj1 (accepts_first_builtin RN) de sl ini) as HA.
  pose proof (gd_first P _ (nonlinear_cg_descent (N:=RN) method) grad_of fn y0 fs auxs HA) as HF.
  change (gradient_descent_solver P (armijo de sl ini) (nonlinear_cg_descent method) grad_of) with s in HF.
  fold st y in HF.
  assert (LEN : forall j, length (y j) = n /\ length (gd_y_eval (st j)) = n /\
     length (fst (gd_descent_state (st j))) = n /\
     (0 < j -> grad_of fn (y j) <> zerov n -> (Rdot (grad_of fn (y j)) (fst (gd_descent_state (st j))) < 0)%R)).
  { induction j as [|j (I1 & I2 & I3 & I4)].
    - split; [reflexivity|]. split; [reflexivity|]. split; [|lia].
      cbn. unfold vfull. apply repeat_length.
    - destruct (gd_step_cases _ _ _ _ _ _ _ _ _ _ (HT j)) as (step & acc & sr & sst & Es & E1 & E2 & E3 & E4 & E6 & E5).
      assert (K : length (y (S j)) = n /\ length (fst (gd_descent_state (st (S j)))) = n /\
        (grad_of fn (y (S j)) <> zerov n -> (Rdot (grad_of fn (y (S j))) (fst (gd_descent_state (st (S j)))) < 0)%R)).
      { destruct acc.
        - destruct E5 as (Ey & _ & _ & Ed & _).
          assert (L : length (y (S j)) = n) by (rewrite Ey; exact I2). split; [exact L|].
          rewrite Ed. cbn [d_query nonlinear_cg_descent]. destruct (gd_descent_state (st j)) as [yd gp] eqn:EDS.
          cbn [fst] in I3.
          destruct (cg_query_RN method (EvalGrad (N:=RN) (fst (fn (y (S j)))) (grad_of fn (y (S j)))) yd gp) as [Q1 Q2].
          { exact (eq_trans I3 (eq_sym (HG _ L))). }
          cbn [info_grad] in Q1, Q2. split; [exact (eq_trans Q1 (HG _ L))|].
          intro X. apply Q2. intro W. apply X. exact (eq_trans W (f_equal zerov (HG _ L))).
        - destruct E5 as (Ey & _ & _ & Ed & _). rewrite Ey, Ed. split; [exact I1|]. split; [exact I3|].
          apply I4. destruct (Nat.eq_dec j 0) as [->|]; [|lia]. exfalso.
          assert (F : gd_first_step (st 0) = true) by (apply (HF 0); reflexivity). rewrite F in Es.
          match type of Es with se_step _ _ ?a ?b ?c ?d ?e = _ => pose proof (HA a b c d e) as HA' end.
          pose proof (eq_trans (eq_sym (f_equal (fun p => snd (fst (fst p))) Es)) HA') as X. discriminate X. }
      destruct K as (K1 & K2 & K3). split; [exact K1|]. split; [|split; [exact K2|auto]].
      rewrite E3. unfold vadd. rewrite vmap2_length, K1.
      cbn [d_step nonlinear_cg_descent fst]. unfold vscale. rewrite map_length, K2. apply Nat.min_id. }
  destruct (LEN k) as (L1 & L2 & L3 & L4).
  apply (HC (fst (gd_descent_state (st k))) Hk).
  - intro t. cbn [d_step nonlinear_cg_descent fst]. apply vscale_RN.
  - exact (eq_trans L3 (eq_sym L1)).
  - apply HD; assumption.
  - apply L4; assumption.
Qed.

(** A direction whose method returns NaN, and one whose method would go
    uphill: both fall back to steepest descent.  With a sensible beta the conjugate
    direction is used. *)
Example C35_downhill_ex_pf :
  let i := EvalGrad (N:=XR) (Fin 1) (map Fin [1; 2]%R) in
  fst (cg_query (N:=XR) (fun _ _ _ => NaN) i ([Fin 1; Fin 1], [Fin 1; Fin 1])) = [Fin (-1); Fin (-2)] /\
  fst (cg_query (N:=XR) (fun _ _ _ => Fin 3) i ([Fin 1; Fin 1], [Fin 1; Fin 1])) = [Fin (-1); Fin (-2)] /\
  fst (cg_query (N:=XR) (fun _ _ _ => Fin 1) i ([Fin 1; Fin 1], [Fin 1; Fin 1])) = [Fin 0; Fin (-1)].
Proof.
  cbn. rewrite ?Q2R_0. repeat split.
  - replace (Rltb _ _) with false by (symmetry; apply Rltb_false; lra). repeat (f_equal; try lra).
  - replace (Rltb _ _) with true by (symmetry; apply Rltb_true; lra). repeat (f_equal; try lra).
Qed.

(** polak_ribiere(g=(1,2), g_prev=(2,0)) = 3/4, fletcher_reeves = 5/4. *)
Example C36_polak_ribiere_fletcher_reeves_ex_pf :
  polak_ribiere (N:=RN) (1/100)%R [1; 2]%R [2; 0]%R [0; 0]%R = (3/4)%R /\
  fletcher_reeves (N:=RN) (1/100)%R [1; 2]%R [2; 0]%R [0; 0]%R = (5/4)%R.
Proof.
  destruct (C36_polak_ribiere_fletcher_reeves_pf (1/100) [1;2]%R [2;0]%R [0;0]%R ltac:(lra)) as [H _].
  destruct H as [H1 H2]; [cbn; lra|]. rewrite H1, H2. cbn. split; [|lra].
  rewrite Rmax_left; lra.
Qed.

(** ** The recursion along a run *)

(** NonlinearCG with any beta, search and arithmetic. At step k the search is asked about
    the trial point; if it accepts, the trial point is added to the points visited.
    The iterate is the last point visited; the next trial point is
    y + step_size * d, where step_size is the search's answer and d follows the
    conjugate-gradient recursion over the gradients at the points visited. *)
Lemma C68_recursion_pf :
  forall (N : Num) (Aux : Type) (P : ar_tols N) (search : Search N) beta grad_of
         (fn : list N -> N * Aux) y0 fs auxs st0,
    let s := NonlinearCG P grad_of beta search in
    s_init s fn y0 fs auxs = Ret st0 ->
    let y := y_at s fn y0 st0 (auxs fill0) in
    let st := st_at s fn y0 st0 (auxs fill0) in
    let zero := repeat (nofQ 0) (length y0) in
    exists visited : nat -> list (list N), visited 0 = [] /\
      forall k, exists step_size accept,
        fst (fst (se_step search (gd_first_step (st k)) (y k) (gd_y_eval (st k)) (gd_f_info (st k))
                    (Eval (fst (fn (gd_y_eval (st k))))) (gd_search_state (st k)))) = (step_size, accept) /\
        visited (S k) = (if accept then gd_y_eval (st k) :: visited k else visited k) /\
        y (S k) = hd y0 (visited (S k)) /\
        gd_y_eval (st (S k)) =
          vadd (y (S k)) (vscale step_size (cg_direction beta zero (map (grad_of fn) (visited (S k))))).
Proof.
  intros N Aux P search beta grad_of fn y0 fs auxs st0 s Hi y st zero. unfold s, NonlinearCG in Hi. apply gd_init_inv in Hi. subst st0.
  set (asked k := se_step search (gd_first_step (st k)) (y k) (gd_y_eval (st k)) (gd_f_info (st k))
                    (Eval (fst (fn (gd_y_eval (st k))))) (gd_search_state (st k))).
  set (acc k := snd (fst (fst (asked k)))).
  set (visited := fix v k := match k with 0 => [] | S k => if acc k then gd_y_eval (st k) :: v k else v k end).
  assert (V : forall k, visited (S k) = if acc k then gd_y_eval (st k) :: visited k else visited k) by reflexivity.
  exists visited. split; [reflexivity|].
  assert (ST : forall k, y k = hd y0 (visited k) /\
    gd_descent_state (st k) = (cg_direction beta zero (map (grad_of fn) (visited k)), hd zero (map (grad_of fn) (visited k)))).
  { induction k as [|k [IH1 IH2]]; [split; reflexivity|].
    destruct (gd_step_cases _ _ _ _ _ _ _ _ _ _ (gd_trace_S (N:=N) P search (nonlinear_cg_descent beta) grad_of fn y0 fs auxs k))
      as (step & a & sr & sst & Es & E1 & E2 & E3 & E4 & E6 & E5).
    assert (EA : acc k = a) by (unfold acc, asked; exact (f_equal (fun p => snd (fst (fst p))) Es)).
    rewrite V, EA. destruct a.
    - destruct E5 as (Ey & _ & _ & Ed & _). split; [exact Ey|]. etransitivity; [exact Ed|].
      cbn [nonlinear_cg_descent d_query]. etransitivity; [apply f_equal; exact IH2|]. cbn [cg_query map cg_direction hd info_grad]. rewrite Ey. reflexivity.
    - destruct E5 as (Ey & _ & _ & Ed & _). split; [etransitivity; [exact Ey|exact IH1]|]. etransitivity; [exact Ed|exact IH2]. }
  intro k. 
  destruct (gd_step_cases _ _ _ _ _ _ _ _ _ _ (gd_trace_S (N:=N) P search (nonlinear_cg_descent beta) grad_of fn y0 fs auxs k))
    as (step & a & sr & sst & Es & E1 & E2 & E3 & E4 & E6 & E5).
  assert (EA : acc k = a) by (unfold acc, asked; exact (f_equal (fun p => snd (fst (fst p))) Es)).
  exists step, a. split; [exact (f_equal (fun p => fst (fst p)) Es)|]. split; [rewrite V, EA; reflexivity|].
  destruct (ST (S k)) as [K1 K2]. split; [exact K1|]. etransitivity; [exact E3|]. f_equal.
  cbn [nonlinear_cg_descent d_step fst]. f_equal. exact (f_equal fst K2).
Qed.

(** Two gradients (1,0) then (0,1): the Fletcher-Reeves direction is -(1,1); the third
    gradient (1,-3) makes the candidate an ascent direction, so the recursion restarts. *)
Example C68_recursion_ex_pf :
  let fr := fletcher_reeves (N:=RN) (1/100)%R in
  cg_direction (N:=RN) fr [0; 0]%R [[1; 0]]%R = [-1; 0]%R /\
  cg_direction (N:=RN) fr [0; 0]%R [[0; 1]; [1; 0]]%R = [-1; -1]%R /\
  cg_direction (N:=RN) (fun _ _ _ => 6%R) [0; 0]%R [[1; -3]; [0; 1]]%R = [-1; 3]%R.
Proof.
  intro fr.
  assert (F : forall d, fr [0; 1]%R [1; 0]%R d = 1%R).
  { intro d. destruct (C36_polak_ribiere_fletcher_reeves_pf (1/100) [0;1]%R [1;0]%R d ltac:(lra)) as [H _].
    destruct H as [_ H2]; [cbn; lra|]. etransitivity; [exact H2|]. cbn. lra. }
  clearbody fr. cbn. rewrite ?Q2R_0, ?Q2R_1, ?F.
  repeat match goal with
         | |- context [Rltb ?a ?b] => (replace (Rltb a b) with true by (symmetry; apply Rltb_true; lra)) || (replace (Rltb a b) with false by (symmetry; apply Rltb_false; lra)); cbn
         end.
  rewrite ?F. repeat split; repeat (f_equal; try lra).
Qed.
