(** Whole runs of BFGS and DFP: both modes give the same run (C39), the stored
    matrix stays positive definite (C37, C38), and the run progresses (C29). *)

From Coq Require Import String List Bool Arith Lia ZArith QArith Qreals Reals Lra Psatz.
From Verif Require Import Num NumFacts Vec Results Iterate Spec_Iterate Iterate_proofs.
From Verif Require Import Spec_Vec VecFacts Spec_Lin LinFacts NumF64.
From Verif Require Import Search Spec_Search Descent Minimisers QuasiNewton Solvers Minimisers_proofs Progress_proofs TrustRegion_proofs LeastSquares_proofs BFGS_proofs.
From Verif Require Import LinAlg Cholesky CholeskyFacts.
Import ListNotations.
Local Open Scope nat_scope.

Section Run.
  Context {Aux : Type}.
  Variables (P : ar_tols RN) (eps : R) (dfp : bool).
  Variable lsolve : linop RN -> list R -> list R * results.
  Variable grad_of : (list R -> R * Aux) -> list R -> list R.
  Variable fn : list R -> R * Aux.
  Variables (n : nat) (y0 : list R) (fs : fillv -> R) (auxs : fillv -> Aux).
  Hypothesis He : (0 <= eps)%R.
  Hypothesis HE : exact_solve n lsolve.
  Hypothesis HG : forall y, length y = n -> length (grad_of fn y) = n.
  Hypothesis L0 : length y0 = n.
  Let search := armijo_default (N:=RN).
  Let descent := newton_descent (N:=RN) lsolve None.
  Let step ui := qn_step (N:=RN) P search descent grad_of (upd dfp eps ui) fn.

  Definition Rel (y : list R) (sT sF : qn_state (N:=RN) (Aux:=Aux) search descent (HSt:=unit)) : Prop :=
    exists H B f g, spd n H /\ spd n B /\ inverses n H B /\ length g = n /\ length y = n /\
      qn_f_info sT = qn_holds true n (mkPoint y f g) H /\
      qn_f_info sF = qn_holds false n (mkPoint y f g) B /\
      qn_first_step sT = qn_first_step sF /\
      qn_y_eval sT = qn_y_eval sF /\ length (qn_y_eval sT : list R) = n /\
      qn_search_state sT = qn_search_state sF /\
      qn_aux sT = qn_aux sF /\ qn_descent_state sT = qn_descent_state sF /\
      qn_terminate sT = qn_terminate sF /\ qn_result sT = qn_result sF /\
      qn_num_accepted_steps sT = qn_num_accepted_steps sF /\
      (qn_first_step sT = false -> qn_descent_state sT = (mvec H g, successful)).

  Lemma rel_step : forall y sT sF, Rel y sT sF ->
    fst (fst (step true y sT)) = fst (fst (step false y sF)) /\
    snd (step true y sT) = snd (step false y sF) /\
    Rel (fst (fst (step true y sT))) (snd (fst (step true y sT))) (snd (fst (step false y sF))).
  Proof.
    intros y [ft ye ss fi ax ds te rs na hs] [ft' ye' ss' fi' ax' ds' te' rs' na' hs']
      (H & B & f & g & SH & SB & HI & Lg & Ly & E1 & E2 & E3 & E4 & Lye & E5 & E6 & E7 & E8 & E9 & E10 & E11).
    cbn [qn_first_step qn_y_eval qn_search_state qn_f_info qn_aux qn_descent_state qn_terminate qn_result
         qn_num_accepted_steps] in *.
    subst fi fi' ft' ye' ss' ax' ds' te' rs' na'.
    destruct hs, hs'.
    unfold step, qn_step.
    cbn [qn_first_step qn_y_eval qn_search_state qn_f_info qn_aux qn_descent_state qn_terminate qn_result
         qn_num_accepted_steps qn_hessian_update_state].
    destruct (fn ye) as [fe ae] eqn:Efn.
    set (sr := se_step search ft y ye (qn_holds false n (mkPoint y f g) B) (Eval fe) ss).
    assert (Es : se_step search ft y ye (qn_holds true n (mkPoint y f g) H) (Eval fe) ss = sr) by reflexivity.
    rewrite Es.
    assert (Hfirst : ft = true -> snd (fst (fst sr)) = true).
    { intros ->. apply (proj1 (accepts_first_builtin RN)). }
    clearbody sr. destruct sr as [[[stp acc] sres] sst]. cbn [fst snd] in Hfirst.
    destruct acc.
    - pose proof (upd_eval dfp eps true n (mkPoint y f g) (mkPoint ye fe (grad_of fn ye)) H B Ly) as UT.
      pose proof (upd_eval dfp eps false n (mkPoint y f g) (mkPoint ye fe (grad_of fn ye)) H B Ly) as UF.
      cbv zeta in UT, UF. cbn [pt_y pt_f pt_g] in UT, UF. cbn [pt_y pt_f pt_g] in *.
      set (s := Rsub_v ye y) in *. set (d := Rsub_v (grad_of fn ye) g) in *.
      rewrite UT, UF.
      assert (Ls : length s = n) by (apply Rsub_v_length; assumption).
      assert (Ld : length d = n) by (apply Rsub_v_length; [apply HG; exact Lye|exact Lg]).
      destruct (upd_pair dfp n eps d s H B He Ld Ls SH SB HI) as (K1 & K2 & K3 & _).
      set (H' := newH dfp eps d s H) in *. set (B' := newB dfp eps d s B) in *.
      set (p' := mkPoint ye fe (grad_of fn ye)) in *.
      assert (NT : newton_step (N:=RN) lsolve (qn_holds true n p' H') = (mvec H' (grad_of fn ye), successful)).
      { apply (newton_both n lsolve H' B' true p'); auto; [apply K1|apply HG; exact Lye]. }
      assert (NF : newton_step (N:=RN) lsolve (qn_holds false n p' B') = (mvec H' (grad_of fn ye), successful)).
      { apply (newton_both n lsolve H' B' false p'); auto; [apply K1|apply HG; exact Lye]. }
      cbn [descent newton_descent d_query d_step]. rewrite NT, NF. cbn [normalise fst snd].
      split; [reflexivity|]. split; [reflexivity|].
      exists H', B', fe, (grad_of fn ye). cbn [qn_first_step qn_y_eval qn_search_state qn_f_info qn_aux qn_descent_state qn_terminate qn_result qn_num_accepted_steps].
      repeat (split; [first [assumption | reflexivity | apply HG; assumption]|]).
      split; [|repeat (split; [reflexivity|])].
      + rewrite vadd_RN, vscale_RN. apply Radd_v_length; [exact Lye|]. rewrite Rscal_length. eapply mvec_len. apply K1.
      + intros _. reflexivity.
    - assert (Hft : ft = false) by (destruct ft; [discriminate (Hfirst eq_refl)|reflexivity]).
      specialize (E11 Hft). subst ft ds.
      cbn [descent newton_descent d_query d_step fst snd].
      split; [reflexivity|]. split; [reflexivity|].
      exists H, B, f, g. cbn [qn_first_step qn_y_eval qn_search_state qn_f_info qn_aux qn_descent_state qn_terminate qn_result qn_num_accepted_steps].
      repeat (split; [first [assumption | reflexivity | apply HG; assumption]|]).
      split; [|repeat (split; [reflexivity|])].
      + rewrite vadd_RN, vscale_RN. apply Radd_v_length; [exact Ly|]. rewrite Rscal_length. eapply mvec_len. apply SH.
      + intros _. reflexivity.
  Qed.

  Let slv ui := quasi_newton_solver (N:=RN) P search descent grad_of (qn_init_hessian (N:=RN) ui) (upd dfp eps ui).
  Let st0 ui := qn_st0 (N:=RN) search descent (qn_init_hessian (N:=RN) ui) y0 fs auxs.
  Let Y ui := y_at (slv ui) fn y0 (st0 ui) (auxs fill0).
  Let S' ui := st_at (slv ui) fn y0 (st0 ui) (auxs fill0).
  Let A' ui := aux_at (slv ui) fn y0 (st0 ui) (auxs fill0).

  Lemma rel_run : forall k, Y true k = Y false k /\ A' true k = A' false k /\ Rel (Y true k) (S' true k) (S' false k).
  Proof.
    induction k as [|k (IH1 & IH2 & IH3)].
    - split; [reflexivity|]. split; [reflexivity|].
      exists (identity_mat (N:=RN) n), (identity_mat (N:=RN) n), (fs fill0), (vfull (N:=RN) n (nofQ (n:=RN) 0)).
      split; [apply identity_spd|]. split; [apply identity_spd|]. split; [apply identity_inv|].
      split; [unfold vfull; apply repeat_length|]. split; [exact L0|].
      unfold S', st_at, st0, qn_st0. cbn [trace fst snd qn_init_hessian].
      change (Datatypes.length y0) with (@length R y0). rewrite L0.
      repeat (split; [first [reflexivity | exact L0]|]). discriminate.
    - pose proof (rel_step _ _ _ IH3) as (R1 & R2 & R3).
      pose proof (qn_trace_S (N:=RN) P search descent grad_of (qn_init_hessian (N:=RN) true) (upd dfp eps true) fn y0 fs auxs k) as TT.
      pose proof (qn_trace_S (N:=RN) P search descent grad_of (qn_init_hessian (N:=RN) false) (upd dfp eps false) fn y0 fs auxs k) as TF.
      change (step true (Y true k) (S' true k) = (Y true (S k), S' true (S k), A' true (S k))) in TT.
      change (step false (Y false k) (S' false k) = (Y false (S k), S' false (S k), A' false (S k))) in TF.
      rewrite <- IH1 in TF. rewrite TT, TF in R1, R2, R3. cbn [fst snd] in R1, R2, R3. auto.
  Qed.
End Run.

(** Whole runs: with exact linear solves, BFGS (and DFP) with use_inverse=True and
    with use_inverse=False visit the same iterates, return the same auxiliary
    outputs and make the same termination decisions. *)
Lemma C39_same_run_pf :
  forall (Aux : Type) (P : ar_tols RN) (eps : R) lsolve grad_of (fn : list R -> R * Aux)
         (n : nat) (y0 : list R) fs auxs,
    (0 <= eps)%R -> exact_solve n lsolve ->
    (forall y, length y = n -> length (grad_of fn y) = n) -> length y0 = n ->
    forall solver, solver = BFGS (N:=RN) P grad_of lsolve eps \/ solver = DFP (N:=RN) P grad_of lsolve eps ->
    forall stT stF,
      s_init (solver true) fn y0 fs auxs = Ret stT ->
      s_init (solver false) fn y0 fs auxs = Ret stF ->
    forall k,
      y_at (solver true) fn y0 stT (auxs fill0) k = y_at (solver false) fn y0 stF (auxs fill0) k /\
      aux_at (solver true) fn y0 stT (auxs fill0) k = aux_at (solver false) fn y0 stF (auxs fill0) k /\
      says_terminate (solver true) fn y0 stT (auxs fill0) k = says_terminate (solver false) fn y0 stF (auxs fill0) k /\
      says_result (solver true) fn y0 stT (auxs fill0) k = says_result (solver false) fn y0 stF (auxs fill0) k.
Proof.
  intros Aux P eps lsolve grad_of fn n y0 fs auxs He HE HG L0 solver [->| ->] stT stF IT IF k;
    apply qn_init_inv in IT; apply qn_init_inv in IF; subst stT stF.
  - destruct (rel_run P eps false lsolve grad_of fn n y0 fs auxs He HE HG L0 k) as (K1 & K2 & K3).
    split; [exact K1|]. split; [exact K2|].
    destruct K3 as (H & B & f & g & _ & _ & _ & _ & _ & _ & _ & _ & _ & _ & _ & _ & _ & T1 & T2 & _).
    exact (conj T1 T2).
  - destruct (rel_run P eps true lsolve grad_of fn n y0 fs auxs He HE HG L0 k) as (K1 & K2 & K3).
    split; [exact K1|]. split; [exact K2|].
    destruct K3 as (H & B & f & g & _ & _ & _ & _ & _ & _ & _ & _ & _ & _ & _ & _ & _ & T1 & T2 & _).
    exact (conj T1 T2).
Qed.

Lemma run_matrix : forall dfp (Aux : Type) (P : ar_tols RN) (eps : R) lsolve grad_of (fn : list R -> R * Aux)
    (n : nat) (y0 : list R) fs auxs ui,
  (0 <= eps)%R -> exact_solve n lsolve ->
  (forall y, length y = n -> length (grad_of fn y) = n) -> length y0 = n ->
  let s := quasi_newton_solver (N:=RN) P (armijo_default (N:=RN)) (newton_descent (N:=RN) lsolve None) grad_of
             (qn_init_hessian (N:=RN) ui) (upd dfp eps ui) in
  let st0 := qn_st0 (N:=RN) (armijo_default (N:=RN)) (newton_descent (N:=RN) lsolve None) (qn_init_hessian (N:=RN) ui) y0 fs auxs in
  let y := y_at s fn y0 st0 (auxs fill0) in
  let st := st_at s fn y0 st0 (auxs fill0) in
  forall k, exists H B f g, spd n H /\ spd n B /\ inverses n H B /\ length g = n /\ length (y k) = n /\
    qn_f_info (st k) = qn_holds ui n (mkPoint (y k) f g) (if ui then H else B) /\
    (0 < k -> f = fst (fn (y k)) /\ g = grad_of fn (y k) /\ qn_descent_state (st k) = (mvec H g, successful)).
Proof.
  intros dfp Aux P eps lsolve grad_of fn n y0 fs auxs ui He HE HG L0 s st0 y st k.
  destruct (rel_run P eps dfp lsolve grad_of fn n y0 fs auxs He HE HG L0 k) as (K1 & K2 & K3).
  destruct K3 as (H & B & f & g & SH & SB & HI & Lg & Ly & ET & EF & E1 & E2 & _ & E4 & _ & E5 & _ & _ & _ & E6).
  exists H, B, f, g. split; [exact SH|]. split; [exact SB|]. split; [exact HI|]. split; [exact Lg|].
  assert (KK : keeps_value_and_grad (upd dfp eps ui)).
  { destruct dfp; [apply (proj2 (keeps_builtin RN eps ui))|apply (proj1 (keeps_builtin RN eps ui))]. }
  assert (HA : accepts_first (armijo_default (N:=RN))) by exact (proj1 (accepts_first_builtin RN) _ _ _).
  pose proof (qn_first (N:=RN) P (armijo_default (N:=RN)) (newton_descent (N:=RN) lsolve None) grad_of (qn_init_hessian (N:=RN) ui) (upd dfp eps ui) fn y0 fs auxs
    HA KK k) as [F1 F2].
  assert (EI : qn_f_info (st k) = qn_holds ui n (mkPoint (y k) f g) (if ui then H else B) /\ length (y k) = n /\
               (qn_first_step (st k) = false -> qn_descent_state (st k) = (mvec H g, successful))).
  { destruct ui.
    - split; [exact ET|]. split; [exact Ly|exact E6].
    - unfold y, st, s, st0. rewrite <- K1. split; [exact EF|]. split; [exact Ly|].
      intro F. apply (eq_trans (eq_sym E5)). apply E6. exact (eq_trans E1 F). }
  destruct EI as (EI & EL & ED). split; [exact EL|]. split; [exact EI|]. intro Hk.
  destruct (F2 Hk) as (Ff & Fg & _).
  change (as_min (qn_f_info (st k)) = fst (fn (y k))) in Ff.
  change (info_grad (qn_f_info (st k)) = grad_of fn (y k)) in Fg.
  rewrite EI in Ff, Fg. rewrite info_grad_holds in Fg. cbn [pt_g] in Fg.
  split; [|split; [exact Fg|]].
  - destruct ui; exact Ff.
  - apply ED. apply not_true_iff_false. intro F. apply F1 in F. lia.
Qed.

(** Along every run of BFGS (either mode) the stored information is the value
    and gradient at the current iterate with a symmetric positive definite
    matrix. *)
Lemma C37_bfgs_run_pf :
  forall (Aux : Type) (P : ar_tols RN) (eps : R) lsolve grad_of (fn : list R -> R * Aux)
         (n : nat) (y0 : list R) fs auxs (use_inverse : bool) st0,
    (0 <= eps)%R -> exact_solve n lsolve ->
    (forall y, length y = n -> length (grad_of fn y) = n) -> length y0 = n ->
    let s := BFGS (N:=RN) P grad_of lsolve eps use_inverse in
    s_init s fn y0 fs auxs = Ret st0 ->
    let y := y_at s fn y0 st0 (auxs fill0) in
    let st := st_at s fn y0 st0 (auxs fill0) in
    forall k, 0 < k -> exists M, spd n M /\
      qn_f_info (st k) = qn_holds use_inverse n (mkPoint (y k) (fst (fn (y k))) (grad_of fn (y k))) M.
Proof.
  intros Aux P eps lsolve grad_of fn n y0 fs auxs ui st0 He HE HG L0 s Hi y st k Hk.
  apply qn_init_inv in Hi. subst st0.
  destruct (run_matrix false Aux P eps lsolve grad_of fn n y0 fs auxs ui He HE HG L0 k)
    as (H & B & f & g & SH & SB & HI & Lg & Ly & EI & EK).
  destruct (EK Hk) as (-> & -> & _). exists (if ui then H else B). split; [destruct ui; assumption|exact EI].
Qed.

(** The hypothesis on the linear solver here and in C29, C38 and C39 is met by
    Cholesky, in every dimension. *)
Example C39_exact_solve_ex_pf : forall n, exact_solve n (cholesky_solve (N:=RN)).
Proof. exact cholesky_exact_mat. Qed.

(** The same for DFP. *)
Lemma C38_dfp_run_pf :
  forall (Aux : Type) (P : ar_tols RN) (eps : R) lsolve grad_of (fn : list R -> R * Aux)
         (n : nat) (y0 : list R) fs auxs (use_inverse : bool) st0,
    (0 <= eps)%R -> exact_solve n lsolve ->
    (forall y, length y = n -> length (grad_of fn y) = n) -> length y0 = n ->
    let s := DFP (N:=RN) P grad_of lsolve eps use_inverse in
    s_init s fn y0 fs auxs = Ret st0 ->
    let y := y_at s fn y0 st0 (auxs fill0) in
    let st := st_at s fn y0 st0 (auxs fill0) in
    forall k, 0 < k -> exists M, spd n M /\
      qn_f_info (st k) = qn_holds use_inverse n (mkPoint (y k) (fst (fn (y k))) (grad_of fn (y k))) M.
Proof.
  intros Aux P eps lsolve grad_of fn n y0 fs auxs ui st0 He HE HG L0 s Hi y st k Hk.
  apply qn_init_inv in Hi. subst st0.
  destruct (run_matrix true Aux P eps lsolve grad_of fn n y0 fs auxs ui He HE HG L0 k)
    as (H & B & f & g & SH & SB & HI & Lg & Ly & EI & EK).
  destruct (EK Hk) as (-> & -> & _). exists (if ui then H else B). split; [destruct ui; assumption|exact EI].
Qed.

Lemma run_progress : forall dfp (Aux : Type) (P : ar_tols RN) (eps : R) lsolve grad_of (fn : list R -> R * Aux)
    (n : nat) (y0 : list R) fs auxs ui,
  (0 <= eps)%R -> exact_solve n lsolve ->
  (forall y, length y = n -> length (grad_of fn y) = n) -> length y0 = n ->
  (forall y d, length y = n -> length d = n ->
     derivable_pt_lim (fun t => fst (fn (along y d t))) 0 (Rdot (grad_of fn y) d)) ->
  let s := quasi_newton_solver (N:=RN) P (armijo_default (N:=RN)) (newton_descent (N:=RN) lsolve None) grad_of
             (qn_init_hessian (N:=RN) ui) (upd dfp eps ui) in
  forall st0, s_init s fn y0 fs auxs = Ret st0 ->
  let y := y_at s fn y0 st0 (auxs fill0) in
  forall k, 0 < k -> grad_of fn (y k) <> zerov n ->
    exists m, k <= m /\ (forall j, k <= j <= m -> y j = y k) /\ (fst (fn (y (S m))) < fst (fn (y k)))%R.
Proof.
  intros dfp Aux P eps lsolve grad_of fn n y0 fs auxs ui He HE HG L0 HD s st0 Hi y k Hk Hnz.
  assert (V : armijo_valid (N:=RN) (nofQ (1#2)) (nofQ (1#10)) (nofQ 1) = true).
  { unfold armijo_valid. cbn [nofQ RN nleb].
    repeat match goal with |- context [Rleb ?a ?b] =>
      replace (Rleb a b) with false by (symmetry; apply Rleb_false; unfold Q2R; cbn; lra) end. reflexivity. }
  assert (HR : returns_grad_info (N:=RN) (upd dfp eps ui)).
  { destruct dfp; [apply (proj2 (returns_builtin RN eps ui))|apply (proj1 (returns_builtin RN eps ui))]. }
  pose proof (C29_quasi_newton_pf Aux unit P _ _ _ (newton_descent (N:=RN) lsolve None) grad_of
    (qn_init_hessian (N:=RN) ui) (upd dfp eps ui) fn y0 fs auxs st0 V HR Hi) as C. cbv zeta in C.
  apply qn_init_inv in Hi. subst st0.
  destruct (run_matrix dfp Aux P eps lsolve grad_of fn n y0 fs auxs ui He HE HG L0 k)
    as (H & B & f & g & (HM & SH & PH) & SB & HI & Lg & Ly & EI & EK).
  destruct (EK Hk) as (-> & -> & ED). clear EK EI.
  assert (LH : length (mvec H (grad_of fn (y k))) = n) by (eapply mvec_len; eauto).
  apply (C k (Rscal (-1) (mvec H (grad_of fn (y k)))) Hk).
  - intro t. refine (eq_trans (f_equal (fun z => fst (d_step (newton_descent (N:=RN) lsolve None) t z)) ED) _).
    cbn [newton_descent d_step fst]. rewrite vscale_RN. unfold Rscal. rewrite map_map. apply map_ext. intro a. cbn. lra.
  - rewrite Rscal_length, LH. symmetry. exact Ly.
  - apply HD; [exact Ly|]. rewrite Rscal_length. exact LH.
  - change (Rdot (grad_of fn (y k)) (Rscal (-1) (mvec H (grad_of fn (y k)))) < 0)%R.
    rewrite Rdot_scal_r. pose proof (PH (grad_of fn (y k)) Lg Hnz). lra.
Qed.

(** Progress of BFGS and DFP, either mode, exact arithmetic and exact linear
    solves: for a differentiable objective with the gradient computed, from every
    iterate with nonzero gradient finitely many rejections are followed by an
    accepted step that strictly decreases the objective. *)
Lemma C29_bfgs_dfp_pf :
  forall (Aux : Type) (P : ar_tols RN) (eps : R) lsolve grad_of (fn : list R -> R * Aux)
         (n : nat) (y0 : list R) fs auxs (use_inverse : bool),
    (0 <= eps)%R -> exact_solve n lsolve ->
    (forall y, length y = n -> length (grad_of fn y) = n) -> length y0 = n ->
    (forall y d, length y = n -> length d = n ->
       derivable_pt_lim (fun t => fst (fn (along y d t))) 0 (Rdot (grad_of fn y) d)) ->
    forall s, s = BFGS (N:=RN) P grad_of lsolve eps use_inverse \/ s = DFP (N:=RN) P grad_of lsolve eps use_inverse ->
    forall st0, s_init s fn y0 fs auxs = Ret st0 ->
    let y := y_at s fn y0 st0 (auxs fill0) in
    forall k, 0 < k -> grad_of fn (y k) <> zerov n ->
      exists m, k <= m /\ (forall j, k <= j <= m -> y j = y k) /\ (fst (fn (y (S m))) < fst (fn (y k)))%R.
Proof.
  intros Aux P eps lsolve grad_of fn n y0 fs auxs ui He HE HG L0 HD s [->| ->].
  - exact (run_progress false Aux P eps lsolve grad_of fn n y0 fs auxs ui He HE HG L0 HD).
  - exact (run_progress true Aux P eps lsolve grad_of fn n y0 fs auxs ui He HE HG L0 HD).
Qed.
