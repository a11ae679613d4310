(** Which searches and descents work with which outer loop (C74). *)

From Coq Require Import String List Bool Arith Lia ZArith QArith.
From Verif Require Import Num NumF64 Vec Results Iterate Spec_Iterate Iterate_proofs.
From Verif Require Import Search Descent Minimisers QuasiNewton LBFGS Solvers Spec_Combos.
Import ListNotations.
Local Open Scope nat_scope.

Lemma while_no_value_error : forall (C : Type) cond body fuel budget (c : C) e, while_loop fuel cond body budget c <> Raise e.
Proof.
  intros C cond body fuel. induction fuel as [|fuel IH]; intros budget c e; cbn; [discriminate|].
  destruct budget as [[|m]|]; try discriminate; destruct (cond c); try discriminate; apply IH.
Qed.

Lemma raises_only_at_init : forall (N : Num) (Out Aux : Type) (isfin : list N -> bool) (s : Solver (list N) Out Aux) fn fuel budget throw y0 fs auxs,
  (iterative_solve isfin s fn fuel budget throw y0 fs auxs = Raise ValueError <-> s_init s fn y0 fs auxs = Raise ValueError).
Proof.
  intros N Out Aux isfin s fn fuel budget throw y0 fs auxs. unfold iterative_solve, iterate.
  destruct (s_init s fn y0 fs auxs) as [st|e|]; cbn [obind]; [|split; intro H; injection H as <-; reflexivity|split; discriminate].
  split; [|discriminate]. intro H. exfalso. revert H. destruct (terminate_and_result _ _ _ _ _) as [t r].
  match goal with |- context [while_loop fuel ?c ?b budget ?z] => pose proof (while_no_value_error _ c b fuel budget z) as W; destruct (while_loop fuel c b budget z) as [f|e|] end; cbn [obind];
    [|intros _; exact (W e eq_refl)|discriminate].
  destruct (s_post _ _ _ _ _ _) as [[? ?] ?]. cbn [obind].
  match goal with |- (if ?b then _ else _) = _ -> _ => destruct b; discriminate end.
Qed.

Lemma fits_iff : forall (N : Num) lsolve (eps fmax : N) (i : information) (s : builtin_search N) (d : builtin_descent N) (f : finfo N),
  match i, f with
  | GradientOnly, EvalGrad _ _ | Hessian, EvalGradHessian _ _ _ | InverseHessian, EvalGradHessianInv _ _ _ | Jacobian, ResidualJac _ _ => True
  | _, _ => False end ->
  (negb (se_supports (search_of s) f && d_supports (descent_of lsolve eps fmax d) f) = true <-> ~ (search_fits i s /\ descent_fits i d)).
Proof.
  intros N lsolve eps fmax i s d f H. destruct i, f; try contradiction H; destruct s, d; cbn; split; intro Hc; try discriminate Hc; try reflexivity;
    try (intros [A B]; intuition discriminate); exfalso; apply Hc; repeat split; auto; discriminate.
Qed.

(** Any arithmetic, function, starting point, fuel, max_steps: a solve with a built-in
    search and descent raises ValueError if and only if the search or the descent needs
    information that the outer loop does not have. Gradient loop: *)
Lemma C74_gradient_loop_pf :
  forall (N : Num) (Aux : Type) (P : ar_tols N) lsolve eps fmax grad_of (s : builtin_search N) (d : builtin_descent N)
         (fn : list N -> N * Aux) isfin fuel budget throw y0 fs auxs,
    iterative_solve isfin (gradient_descent_solver P (search_of s) (descent_of lsolve eps fmax d) grad_of)
      fn fuel budget throw y0 fs auxs = Raise ValueError <->
    ~ (search_fits GradientOnly s /\ descent_fits GradientOnly d).
Proof.
  intros. rewrite raises_only_at_init. cbn [s_init gradient_descent_solver]. unfold gd_init.
  pose proof (fits_iff N lsolve eps fmax GradientOnly s d (EvalGrad (fs fill0) y0) I) as F.
  destruct (negb _); split; intro H; try apply F; auto; try discriminate. apply F in H. discriminate.
Qed.

(** the BFGS, DFP and L-BFGS loops *)
Lemma C74_quasi_newton_loops_pf :
  forall (N : Num) (Aux : Type) (P : ar_tols N) lsolve eps fmax grad_of (s : builtin_search N) (d : builtin_descent N)
         (fn : list N -> N * Aux) isfin fuel budget throw y0 fs auxs (use_inverse : bool) (history : nat),
    let i := if use_inverse then InverseHessian else Hessian in
    let search := search_of s in let descent := descent_of lsolve eps fmax d in
    (iterative_solve isfin (quasi_newton_solver P search descent grad_of (qn_init_hessian use_inverse) (bfgs_update eps use_inverse))
       fn fuel budget throw y0 fs auxs = Raise ValueError <-> ~ (search_fits i s /\ descent_fits i d)) /\
    (iterative_solve isfin (quasi_newton_solver P search descent grad_of (qn_init_hessian use_inverse) (dfp_update eps use_inverse))
       fn fuel budget throw y0 fs auxs = Raise ValueError <-> ~ (search_fits i s /\ descent_fits i d)) /\
    (iterative_solve isfin (quasi_newton_solver P search descent grad_of (lbfgs_init history use_inverse) (lbfgs_update eps history use_inverse))
       fn fuel budget throw y0 fs auxs = Raise ValueError <-> ~ (search_fits i s /\ descent_fits i d)).
Proof.
  intros. rewrite !raises_only_at_init. cbn [s_init quasi_newton_solver]. unfold qn_init.
  split; [|split].
  1,2: destruct (qn_init_hessian use_inverse y0 (fs fill0) (vfull (length y0) (lit 0))) as [fi hs] eqn:E;
    assert (F := fits_iff N lsolve eps fmax i s d fi);
    assert (T : match i, fi with GradientOnly, EvalGrad _ _ | Hessian, EvalGradHessian _ _ _ | InverseHessian, EvalGradHessianInv _ _ _ | Jacobian, ResidualJac _ _ => True | _, _ => False end)
      by (unfold qn_init_hessian in E; destruct use_inverse; injection E as <- _; exact I);
    specialize (F T); fold search descent in F; destruct (negb _); split; intro H; try apply F; auto; try discriminate; apply F in H; discriminate.
  destruct (lbfgs_init history use_inverse y0 (fs fill0) (vfull (length y0) (lit 0))) as [fi hs] eqn:E.
  assert (F := fits_iff N lsolve eps fmax i s d fi).
  assert (T : match i, fi with GradientOnly, EvalGrad _ _ | Hessian, EvalGradHessian _ _ _ | InverseHessian, EvalGradHessianInv _ _ _ | Jacobian, ResidualJac _ _ => True | _, _ => False end)
    by (unfold lbfgs_init in E; destruct use_inverse; injection E as <- _; exact I).
  specialize (F T). fold search descent in F. destruct (negb _); split; intro H; try apply F; auto; try discriminate; apply F in H; discriminate.
Qed.

(** the least-squares loop *)
Lemma C74_least_squares_loop_pf :
  forall (N : Num) (Aux : Type) (P : ar_tols N) lsolve eps fmax jac_of (s : builtin_search N) (d : builtin_descent N)
         (fn : list N -> list N * Aux) isfin fuel budget throw y0 fs auxs,
    iterative_solve isfin (gauss_newton_solver P (search_of s) (descent_of lsolve eps fmax d) jac_of)
      fn fuel budget throw y0 fs auxs <> Raise ValueError /\
    search_fits Jacobian s /\ descent_fits Jacobian d.
Proof.
  intros. rewrite raises_only_at_init. cbn [s_init gauss_newton_solver]. unfold gn_init.
  assert (A : search_fits Jacobian s /\ descent_fits Jacobian d).
  { destruct s, d; cbn; repeat split; auto; discriminate. }
  split; [|exact A].
  pose proof (fits_iff N lsolve eps fmax Jacobian s d (ResidualJac (fs fill0) (zero_op (length (fs fill0)) (length y0))) I) as F.
  destruct (negb _); [|discriminate]. destruct (proj1 F eq_refl A).
Qed.

(** The named solvers never raise ValueError; nonlinear CG does with a classical trust
    region and with no other search. *)
Lemma C74_named_solvers_pf :
  forall (N : Num) (Aux : Type) (P : ar_tols N) lsolve eps fmax grad_of jac_of rate method rfind use_inverse history
         (fn : list N -> N * Aux) (res : list N -> list N * Aux) isfin fuel budget throw y0 fs rs auxs,
    (forall solver, In solver [GradientDescent P grad_of rate; BFGS P grad_of lsolve eps use_inverse;
                               DFP P grad_of lsolve eps use_inverse; LBFGS P grad_of lsolve eps history use_inverse] ->
       iterative_solve isfin solver fn fuel budget throw y0 fs auxs <> Raise ValueError) /\
    (forall solver, In solver [GaussNewton P jac_of lsolve; LevenbergMarquardt P jac_of lsolve eps fmax;
                               IndirectLevenbergMarquardt P jac_of lsolve eps fmax rfind; Dogleg P jac_of lsolve eps] ->
       iterative_solve isfin solver res fuel budget throw y0 rs auxs <> Raise ValueError) /\
    (forall s : builtin_search N,
       iterative_solve isfin (NonlinearCG P grad_of method (search_of s)) fn fuel budget throw y0 fs auxs = Raise ValueError <->
       exists Q, s = ClassicalTrustRegion Q).
Proof.
  intros. split; [|split].
  - assert (G := C74_gradient_loop_pf N Aux P lsolve eps fmax grad_of (LearningRate rate) (SteepestDescent None) fn isfin fuel budget throw y0 fs auxs).
    assert (Qn := C74_quasi_newton_loops_pf N Aux P lsolve eps fmax grad_of (BacktrackingArmijo (lit (1#2)) (lit (1#10)) (lit 1)) (NewtonDescent None) fn isfin fuel budget throw y0 fs auxs use_inverse history).
    cbv zeta in Qn. destruct Qn as [Q1 [Q2 Q3]].
    assert (Fit : forall A : Prop, (A <-> ~ (search_fits (if use_inverse then InverseHessian else Hessian) (BacktrackingArmijo (N:=N) (lit (1#2)) (lit (1#10)) (lit 1)) /\ descent_fits (if use_inverse then InverseHessian else Hessian) (NewtonDescent (N:=N) None))) -> ~ A).
    { intros A HA a. apply HA in a. apply a. split; [exact I|]. destruct use_inverse; cbn; discriminate. }
    intros solver [<-|[<-|[<-|[<-|[]]]]].
    + intro H. apply G in H. apply H. split; exact I.
    + exact (Fit _ Q1).
    + exact (Fit _ Q2).
    + exact (Fit _ Q3).
  - intros solver [<-|[<-|[<-|[<-|[]]]]].
    + exact (proj1 (C74_least_squares_loop_pf N Aux P lsolve eps fmax jac_of (LearningRate (lit 1)) (NewtonDescent None) res isfin fuel budget throw y0 rs auxs)).
    + exact (proj1 (C74_least_squares_loop_pf N Aux P lsolve eps fmax jac_of (ClassicalTrustRegion tr_default) DampedNewtonDescent res isfin fuel budget throw y0 rs auxs)).
    + exact (proj1 (C74_least_squares_loop_pf N Aux P lsolve eps fmax jac_of (ClassicalTrustRegion tr_default) (IndirectDampedNewtonDescent two_norm rfind) res isfin fuel budget throw y0 rs auxs)).
    + exact (proj1 (C74_least_squares_loop_pf N Aux P lsolve eps fmax jac_of (ClassicalTrustRegion tr_default) (DoglegDescent two_norm None) res isfin fuel budget throw y0 rs auxs)).
  - intro s. pose proof (C74_gradient_loop_pf N Aux P lsolve eps fmax grad_of s (NonlinearCGDescent method) fn isfin fuel budget throw y0 fs auxs) as G.
    split.
    + intro H. apply G in H. destruct s; try (exfalso; apply H; split; exact I). eauto.
    + intros [Q ->]. apply G. intros [[E|E] _]; discriminate E.
Qed.

(** Example: Newton's descent and the classical trust region do not fit the gradient
    loop, a dogleg does not fit BFGS with use_inverse=True and fits it with False. *)
Example C74_ex_pf :
  ~ descent_fits (N:=F64) GradientOnly (NewtonDescent None) /\
  ~ search_fits (N:=F64) GradientOnly (ClassicalTrustRegion tr_default) /\
  search_fits (N:=F64) GradientOnly (LinearTrustRegion tr_default) /\
  ~ descent_fits (N:=F64) InverseHessian (DoglegDescent two_norm None) /\
  descent_fits (N:=F64) Hessian (DoglegDescent two_norm None).
Proof. cbn. repeat split; auto; intro H; try (apply H; reflexivity); destruct H; discriminate. Qed.
