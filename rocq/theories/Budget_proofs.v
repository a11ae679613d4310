(** A larger budget (C120). *)

From Coq Require Import String List Bool Arith Lia ZArith QArith Reals FunctionalExtensionality.
From Verif Require Import Num NumFacts NumSq NumDiv NumF64 NumF64_facts Vec Results Iterate Spec_Iterate Iterate_proofs.
From Verif Require Import Search Descent Minimisers Solvers Spec_Search Minimisers_proofs Spec_Vec Spec_Lin LeastSquares_proofs BestSoFar Wrappers_proofs NelderMead Spec_NelderMead NelderMead_proofs Shift_proofs Resume_proofs.
From Verif Require Import Spec_Tolerance Tolerance_proofs Spec_Shift Spec_Resume Spec_Aux Aux_proofs Spec_Budget.
Import ListNotations.
Local Open Scope nat_scope.

(** The run with the larger budget stops no earlier *)
Lemma later : forall Y Out Aux allfinite (s : Solver Y Out Aux) fn fuel fuel' m k throw throw' y0 fs auxs sol sol',
  no_more m k ->
  iterative_solve allfinite s fn fuel m throw y0 fs auxs = Ret sol ->
  iterative_solve allfinite s fn fuel' k throw' y0 fs auxs = Ret sol' ->
  (forall fn y a st r, fst (fst (s_post s fn y a st r)) = y) ->
  exists st0 i j, s_init s fn y0 fs auxs = Ret st0 /\ i <= j /\ value sol = y_at s fn y0 st0 (auxs fill0) i /\ value sol' = y_at s fn y0 st0 (auxs fill0) j.
Proof.
  intros Y Out Aux allfinite s fn fuel fuel' m k throw throw' y0 fs auxs sol sol' HM H H' Post.
  destruct (solve_ret_init _ _ _ _ _ _ _ _ _ _ H) as (st0 & I).
  destruct (iterative_solve_inv allfinite s fn y0 st0 _ fs auxs eq_refl I _ _ _ _ H) as (i & _ & (S1 & S2 & S3) & -> & _).
  destruct (iterative_solve_inv allfinite s fn y0 st0 _ fs auxs eq_refl I _ _ _ _ H') as (j & _ & (T1 & T2 & T3) & -> & _).
  exists st0, i, j. split; [exact I|]. split; [|split].
  - destruct (le_gt_dec i j) as [|L]; [assumption|]. exfalso. destruct T1 as [T1| ->]; [exact (S2 j L T1)|].
    destruct m as [m|]; cbn in HM; [|contradiction]. specialize (S3 m eq_refl). lia.
  - pose proof (solution_at_fields allfinite s fn y0 st0 (auxs fill0) m i) as (_ & _ & EV & _).
    match type of EV with context [s_post s fn ?y ?a ?st ?r] => rewrite <- (Post fn y a st r), <- EV end. reflexivity.
  - pose proof (solution_at_fields allfinite s fn y0 st0 (auxs fill0) k j) as (_ & _ & EV & _).
    match type of EV with context [s_post s fn ?y ?a ?st ?r] => rewrite <- (Post fn y a st r), <- EV end. reflexivity.
Qed.

(** The minimisers with Armijo backtracking, in binary64 and in exact arithmetic with infinities and NaN: with more steps
    allowed they return the same point or one with an objective no larger.  Both solves may be cut off or finish, and
    any descent and any gradient, even a wrong one, is allowed. *)
Lemma C120_backtracking_pf :
  forall (N : Num), N = F64 \/ N = XR ->
  forall (Aux : Type) (s : Solver (list N) N Aux), backtracking_minimiser s ->
  forall allfinite fn y0 fs auxs fuel fuel' m k throw throw' sol sol', no_more m k ->
    iterative_solve allfinite s fn fuel m throw y0 fs auxs = Ret sol ->
    iterative_solve allfinite s fn fuel' k throw' y0 fs auxs = Ret sol' ->
    value sol' = value sol \/ nleb (fst (fn (value sol'))) (fst (fn (value sol))) = true.
Proof.
  intros N HN Aux s HS allfinite fn y0 fs auxs fuel fuel' m k throw throw' sol sol' HM H H'.
  assert (LAWS : OrdLaws N /\ SgnLaws N /\ NanLaws N).
  { destruct HN as [-> | ->].
    - split; [apply F64_laws|]. split; [apply F64_sgn|]. apply F64_nan.
    - split; [apply XR_laws|]. split; [apply XR_sgn|]. apply XR_nan. }
  destruct LAWS as (O & SG & Z).
  destruct HS as [(P & d & sl & i & descent & grad_of & V & ->)|(HSt & P & d & sl & i & descent & grad_of & ih & uh & V & K & ->)].
  - destruct (later _ _ _ _ _ _ _ _ _ _ _ _ _ _ _ _ _ HM H H' ltac:(intros; reflexivity)) as (st0 & a & b & I & L & -> & ->).
    exact (C27_gradient_descent_pf N O SG Z Aux P d sl i descent grad_of fn y0 fs auxs st0 V I a b L).
  - destruct (later _ _ _ _ _ _ _ _ _ _ _ _ _ _ _ _ _ HM H H' ltac:(intros; reflexivity)) as (st0 & a & b & I & L & -> & ->).
    exact (C27_quasi_newton_pf N O SG Z Aux HSt P d sl i descent grad_of ih uh fn y0 fs auxs st0 V K I a b L).
Qed.

(** LevenbergMarquardt, IndirectLevenbergMarquardt and Dogleg in exact arithmetic with exact linear solves: with more
    steps allowed the sum of squares is no larger. *)
Lemma C120_least_squares_pf :
  forall (Aux : Type) (P : ar_tols RN) (eps fmax : R) lsolve rfind jac_of (fn : list R -> list R * Aux) (n q : nat) (y0 : list R) fs auxs (s : Solver (list R) (list R) Aux),
    (0 <= eps)%R -> (0 < fmax)%R -> exact_least_squares n lsolve ->
    (forall y : list R, length y = n -> length (fst (fn y)) = q /\ linear_op n q (jac_of fn y) /\ transpose_op n (jac_of fn y)) ->
    length y0 = n ->
    s = LevenbergMarquardt (N:=RN) P jac_of lsolve eps fmax \/ s = IndirectLevenbergMarquardt (N:=RN) P jac_of lsolve eps fmax rfind \/
      s = Dogleg (N:=RN) P jac_of lsolve eps ->
  forall allfinite fuel fuel' m k throw throw' sol sol', no_more m k ->
    iterative_solve allfinite s fn fuel m throw y0 fs auxs = Ret sol ->
    iterative_solve allfinite s fn fuel' k throw' y0 fs auxs = Ret sol' ->
    (Rdot (fst (fn (value sol'))) (fst (fn (value sol'))) <= Rdot (fst (fn (value sol))) (fst (fn (value sol))))%R.
Proof.
  intros Aux P eps fmax lsolve rfind jac_of fn n q y0 fs auxs s He Hf HL HJ Hy HS allfinite fuel fuel' m k throw throw' sol sol' HM H H'.
  assert (HJ' : forall y : list R, length y = n -> length (fst (fn y)) = q /\ linear_op n q (jac_of fn y)) by (intros y Ly; destruct (HJ y Ly) as (A & B & _); auto).
  destruct HS as [-> | [-> | ->]];
  destruct (later _ _ _ _ _ _ _ _ _ _ _ _ _ _ _ _ _ HM H H' ltac:(intros; reflexivity)) as (st0 & a & b & I & L & -> & ->).
  - exact (C32_levenberg_marquardt_pf Aux P eps fmax lsolve jac_of fn n q y0 fs auxs st0 He Hf HL HJ' Hy I a b L).
  - exact (C32_indirect_levenberg_marquardt_pf Aux P eps fmax lsolve rfind jac_of fn n q y0 fs auxs st0 He Hf HL HJ' Hy I a b L).
  - exact (C32_dogleg_pf Aux P eps lsolve jac_of fn n q y0 fs auxs st0 He HL HJ Hy I a b L).
Qed.

(** The BestSoFar wrapper around any ordinary solver (C119): with more steps allowed the result has no larger loss, in
    binary64 and in exact arithmetic with infinities and NaN, NaN losses included: the result of the smaller budget is never strictly better. *)
Lemma C120_best_so_far_pf :
  forall (N : Num), N = F64 \/ N = XR -> forall (Y Out Aux : Type) (to_loss : Y -> Out -> N) (s : Solver Y Out (Out * Aux)), ordinary (N:=N) Y Out (Out * Aux)%type s ->
  forall allfinite (fn : Y -> Out * Aux) y0 fs auxs fuel fuel' m k throw throw' sol sol', no_more m k ->
    iterative_solve allfinite (best_so_far to_loss s) fn fuel m throw y0 fs auxs = Ret sol ->
    iterative_solve allfinite (best_so_far to_loss s) fn fuel' k throw' y0 fs auxs = Ret sol' ->
    let loss y := to_loss y (fst (fn y)) in
    nltb (loss (value sol)) (loss (value sol')) = false.
Proof.
  intros N HN Y Out Aux to_loss s HO allfinite fn y0 fs auxs fuel fuel' m k throw throw' sol sol' HM H H' loss.
  assert (LAWS : OrdLaws N /\ neqb (ninf : N) ninf = true).
  { destruct HN as [-> | ->]; (split; [first [exact F64_laws | exact XR_laws]|reflexivity]). }
  destruct LAWS as (L & NI).
  destruct (ordinary_reports N Y Out (Out * Aux)%type s HO) as [_ Rep].
  destruct (solve_ret_init _ _ _ _ _ _ _ _ _ _ H) as (st1 & I1).
  assert (I : exists st0, s_init s (fun y => (fst (fn y), fn y)) y0 fs (fun v => (fs v, auxs v)) = Ret st0).
  { cbn [s_init best_so_far] in I1. replace (auxmented fn) with (fun y => (fst (fn y), fn y)) in I1.
    - destruct (s_init s _ y0 fs _) as [st0| |]; try discriminate I1. eauto.
    - apply functional_extensionality. intro y. unfold auxmented. destruct (fn y). reflexivity. }
  destruct I as (st0 & I). pose proof (Rep _ _ _ _ _ I) as RA.
  destruct (C09_best_so_far_pf N L Y Out Aux allfinite to_loss s fn y0 fs auxs st0 m fuel throw sol I RA H) as (n & N1 & B1).
  destruct (C09_best_so_far_pf N L Y Out Aux allfinite to_loss s fn y0 fs auxs st0 k fuel' throw' sol' I RA H') as (n' & N2 & B2).
  assert (LE : n <= n').
  { destruct (iterative_solve_inv allfinite _ fn y0 st1 _ fs auxs eq_refl I1 _ _ _ _ H) as (i & _ & (S1 & S2 & S3) & E & _).
    destruct (iterative_solve_inv allfinite _ fn y0 st1 _ fs auxs eq_refl I1 _ _ _ _ H') as (j & _ & (T1 & T2 & T3) & E' & _).
    pose proof (solution_at_fields allfinite _ fn y0 st1 (auxs fill0) m i) as (_ & _ & _ & Q1).
    pose proof (solution_at_fields allfinite _ fn y0 st1 (auxs fill0) k j) as (_ & _ & _ & Q2).
    rewrite E, Q1 in N1. rewrite E', Q2 in N2. cbn in N1, N2. injection N1 as N1. injection N2 as N2.
    destruct (le_gt_dec i j) as [|G]; [lia|]. exfalso. destruct T1 as [T1| ->]; [exact (S2 j G T1)|].
    destruct m as [m|]; cbn in HM; [|contradiction]. specialize (S3 m eq_refl). lia. }
  set (y := y_at s (fun y => (fst (fn y), fn y)) y0 st0 (fs fill0, auxs fill0)) in *.
  assert (Y0 : y 0 = y0) by reflexivity.
  destruct B2 as [(b' & Hb' & V' & _ & M' & _)|(V' & _ & M')]; destruct B1 as [(b & Hb & V & _ & M1 & _)|(V & _ & M1)]; rewrite V, V'.
  - apply M'. lia.
  - rewrite <- Y0. apply M'. lia.
  - destruct (nltb (loss (y b)) (loss y0)) eqn:Q; [|reflexivity]. exfalso. rewrite <- Y0 in Q.
    specialize (M' b ltac:(lia)). change (nltb (loss (y b)) ninf = false) in M'.
    pose proof (ol_lt_nan_r _ L _ _ Q) as Q'. rewrite <- Y0 in *.
    destruct (ol_total _ L (loss (y 0)) ninf Q' NI) as [A|[A|A]].
    + rewrite (ol_trans _ L _ _ _ Q A) in M'. discriminate M'.
    + rewrite (ol_lt_eq _ L _ _ _ Q A) in M'. discriminate M'.
    + rewrite (ol_inf_top _ L) in A. discriminate A.
  - apply (ol_irrefl _ L).
Qed.

(** ** Concrete budgets *)
Definition two_chk {Y A S} (o o' : outcome (Solution Y A S)) (g : Y -> Y -> bool) : bool :=
  match o, o' with Ret sol, Ret sol' => results_eqb (result sol) nonlinear_max_steps_reached && results_eqb (result sol') nonlinear_max_steps_reached && g (value sol) (value sol') | _, _ => false end.
Lemma two_chk_sound : forall Y A S (o o' : outcome (Solution Y A S)) g, two_chk o o' g = true ->
  exists sol sol', o = Ret sol /\ o' = Ret sol' /\ result sol = nonlinear_max_steps_reached /\ result sol' = nonlinear_max_steps_reached /\ g (value sol) (value sol') = true.
Proof.
  intros Y A S o o' g H. destruct o as [sol| |]; try discriminate H. destruct o' as [sol'| |]; try discriminate H. cbn in H.
  apply andb_true_iff in H. destruct H as [H V]. apply andb_true_iff in H. destruct H as [H1 H2]. exists sol, sol'.
  split; [reflexivity|]. split; [reflexivity|]. split; [apply results_eqb_eq; exact H1|]. split; [apply results_eqb_eq; exact H2|exact V].
Qed.
Lemma two_chk_intro : forall Y A S (o o' : outcome (Solution Y A S)) (h : Y -> f64), two_chk o o' (fun y y' => nltb (n:=F64) (h y) (h y')) = true ->
  exists sol sol', o = Ret sol /\ o' = Ret sol' /\ result sol = nonlinear_max_steps_reached /\ result sol' = nonlinear_max_steps_reached /\ nltb (n:=F64) (h (value sol)) (h (value sol')) = true.
Proof. intros Y A S o o' h H. exact (two_chk_sound _ _ _ _ _ _ H). Qed.

(** Gradient descent with Armijo backtracking on x^2 from 1, first step size 4: after three steps it is still at 1
    (the trials were rejected), after five it is lower. *)
Example C120_backtracking_ex_pf :
  backtracking_minimiser far64 /\
  let solve ms := iterative_solve (vallfinite (N:=F64)) far64 (lifted64 1 0) 9 (Some ms) false [f64_ofQ 1] (fun _ => f64_ofQ 0) (fun _ => tt) in
  exists sol sol', solve 5 = Ret sol /\ solve 2 = Ret sol' /\ result sol = nonlinear_max_steps_reached /\ result sol' = nonlinear_max_steps_reached /\
    nltb (n:=F64) (fst (lifted64 1 0 (value sol))) (fst (lifted64 1 0 (value sol'))) = true.
Proof.
  split.
  - left. exists tight64, (f64_ofQ (1#2)), (f64_ofQ (1#8)), (f64_ofQ 4), (steepest_descent None), (lifted64_grad 1). split; [vm_compute; reflexivity|reflexivity].
  - intro solve. apply (two_chk_intro _ _ _ (solve 5) (solve 2) (fun y => fst (lifted64 1 0 y))). vm_compute. reflexivity.
Qed.

(** With a fixed learning rate the claim fails: gradient descent with rate 3/2 on x^2 from 1 returns a larger objective with
    two more steps. *)
Lemma C120_fixed_rate_worse_pf :
  let s := GradientDescent (N:=F64) tight64 (lifted64_grad 1) (f64_ofQ (3#2)) in
  let solve ms := iterative_solve (vallfinite (N:=F64)) s (lifted64 1 0) 9 (Some ms) false [f64_ofQ 1] (fun _ => f64_ofQ 0) (fun _ => tt) in
  exists sol sol', solve 2 = Ret sol /\ solve 4 = Ret sol' /\ result sol = nonlinear_max_steps_reached /\ result sol' = nonlinear_max_steps_reached /\
    nltb (n:=F64) (fst (lifted64 1 0 (value sol))) (fst (lifted64 1 0 (value sol'))) = true.
Proof.
  intros s solve. apply (two_chk_intro _ _ _ (solve 2) (solve 4) (fun y => fst (lifted64 1 0 y))). vm_compute. reflexivity.
Qed.

(** Wrapping it in BestSoFarMinimiser repairs it: the same two budgets both return the start, while the wrapped solver
    itself ends worse. *)
Example C120_best_so_far_ex_pf :
  let s := GradientDescent (N:=F64) (Aux:=f64 * unit) tight64 (fun _ => lifted64_grad 1 (lifted64 1 0)) (f64_ofQ (3#2)) in
  ordinary (N:=F64) (list f64) f64 (f64 * unit)%type s /\
  let solve ms := iterative_solve (vallfinite (N:=F64)) (best_so_far (N:=F64) loss_minimiser s) (lifted64 1 0) 9 (Some ms) false [f64_ofQ 1] (fun _ => f64_ofQ 0) (fun _ => tt) in
  exists sol sol', solve 2 = Ret sol /\ solve 4 = Ret sol' /\ result sol = nonlinear_max_steps_reached /\ result sol' = nonlinear_max_steps_reached /\
    neqb (n:=F64) (fst (lifted64 1 0 (value sol))) (fst (lifted64 1 0 (value sol'))) = true.
Proof.
  intro s. split; [apply o_gradient_descent; apply accepts_first_builtin|]. intro solve.
  destruct (two_chk_sound _ _ _ (solve 2) (solve 4) (fun y y' => neqb (n:=F64) (fst (lifted64 1 0 y)) (fst (lifted64 1 0 y')))) as (sol & sol' & H); [vm_compute; reflexivity|].
  exists sol, sol'. exact H.
Qed.

(** NelderMead: minimising x from 0, one step returns 0 and two steps return 1. *)
Lemma C120_nelder_mead_worse_pf :
  let solve ms := iterative_solve (vallfinite (N:=F64)) nm_unit ident 9 (Some ms) false [f64_ofZ 0] (fun _ => f64_ofZ 0) (fun _ => tt) in
  exists sol sol', solve 1 = Ret sol /\ solve 2 = Ret sol' /\ result sol = nonlinear_max_steps_reached /\ result sol' = nonlinear_max_steps_reached /\
    nltb (n:=F64) (fst (ident (value sol))) (fst (ident (value sol'))) = true.
Proof.
  intro solve. apply (two_chk_intro _ _ _ (solve 1) (solve 2) (fun y => fst (ident y))). vm_compute. reflexivity.
Qed.

(** LevenbergMarquardt with the one-variable solve of C32: the hypotheses hold, both budgets give an answer. *)
Example C120_least_squares_ex_pf :
  let P := mkTols (N:=RN) 0%R (1/2)%R (fun v => sqrt (Rdot v v)) in
  let s := LevenbergMarquardt (N:=RN) (Aux:=unit) P twores_jac lsolve1 0%R 1%R in
  let solve ms := iterative_solve (fun _ => true) s twores 9 (Some ms) false [7%R] (fun _ => [0%R; 0%R]) (fun _ => tt) in
  exact_least_squares 1 lsolve1 /\
  (forall y, length y = 1 -> length (fst (twores y)) = 2 /\ linear_op 1 2 (twores_jac twores y) /\ transpose_op 1 (twores_jac twores y)) /\
  exists sol sol', solve 2 = Ret sol /\ solve 5 = Ret sol' /\
    (Rdot (fst (twores (value sol'))) (fst (twores (value sol'))) <= Rdot (fst (twores (value sol))) (fst (twores (value sol))))%R.
Proof.
  intros P s solve. destruct C32_levenberg_marquardt_ex_pf as [E1 E2]. split; [exact E1|]. split; [exact E2|].
  assert (I : exists st0, s_init s twores [7%R] (fun _ => [0%R; 0%R]) (fun _ => tt) = Ret st0) by (eexists; reflexivity).
  destruct I as (st0 & I).
  destruct (C01_finite_budget_finishes_pf _ _ _ (fun _ => true) s twores [7%R] (fun _ => [0%R; 0%R]) (fun _ => tt) st0 2 9 I ltac:(lia)) as (sol & H).
  destruct (C01_finite_budget_finishes_pf _ _ _ (fun _ => true) s twores [7%R] (fun _ => [0%R; 0%R]) (fun _ => tt) st0 5 9 I ltac:(lia)) as (sol' & H').
  exists sol, sol'. split; [exact H|]. split; [exact H'|].
  refine (C120_least_squares_pf unit P 0%R 1%R lsolve1 (fun _ => 0%R) twores_jac twores 1 2 [7%R] (fun _ => [0%R; 0%R]) (fun _ => tt) s _ _ E1 E2 eq_refl (or_introl eq_refl) (fun _ => true) 9 9 (Some 2) (Some 5) false false sol sol' _ H H').
  - apply Rle_refl.
  - apply Rlt_0_1.
  - cbn. lia.
Qed.
