(** Adding a constant to the objective (C117). *)

From Coq Require Import String List Bool Arith Lia ZArith QArith Reals Lra.
From Verif Require Import Num NumF64 NumFacts Vec Results Iterate Spec_Iterate.
From Verif Require Import Search Descent Minimisers QuasiNewton LinAlg LBFGS Solvers Spec_Combos Spec_Isometry Spec_Tolerance Spec_Shift Isometry_proofs Tolerance_proofs.
Import ListNotations.
Local Open Scope nat_scope.

(** ** Informations that differ in the value only *)

Definition alike (i j : finfo RN) : Prop :=
  match i, j with
  | Eval _, Eval _ => True
  | EvalGrad _ g, EvalGrad _ g' => g' = g
  | EvalGradHessian _ g h, EvalGradHessian _ g' h' => g' = g /\ h' = h
  | EvalGradHessianInv _ g h, EvalGradHessianInv _ g' h' => g' = g /\ h' = h
  | Residual r, Residual r' => r' = r
  | ResidualJac r j, ResidualJac r' j' => r' = r /\ j' = j
  | _, _ => False
  end.

Ltac two i j H := destruct i, j; try contradiction H; cbn in H; repeat match type of H with _ /\ _ => let A := fresh in destruct H as [A H] end; subst.

Lemma alike_refl : forall i, alike i i.
Proof. destruct i; cbn; auto. Qed.
Lemma alike_has : forall i j, alike i j -> has_grad j = has_grad i /\ has_hessian j = has_hessian i /\ has_newton j = has_newton i.
Proof. intros i j H. two i j H; repeat split. Qed.
Lemma alike_grad : forall i j, alike i j -> info_grad j = info_grad i /\ forall v, compute_grad_dot j v = compute_grad_dot i v.
Proof. intros i j H. two i j H; split; reflexivity. Qed.
Lemma alike_ops : forall i j, alike i j -> info_matrix j = info_matrix i /\ info_op j = info_op i /\ forall v, classical_predict v j = classical_predict v i.
Proof. intros i j H. two i j H; repeat split; reflexivity. Qed.

Lemma shift_sub : forall a b c : R, nsub (n:=RN) (a + c)%R (b + c)%R = nsub (n:=RN) a b.
Proof. intros. change ((a + c) - (b + c) = a - b)%R. ring. Qed.

(** ** Searches and descents *)

Section Parts.
  Variables (lsolve : linop RN -> list R -> list R * results) (eps fmax c : R).

  Lemma search_shift : forall (s : builtin_search RN) first (y ye : list R) i j f st, alike i j -> first = true \/ as_min j = (as_min i + c)%R ->
    se_step (search_of s) first y ye j (Eval (f + c)%R) st = se_step (search_of s) first y ye i (Eval f) st.
  Proof.
    intros s first y ye i j f st A S. destruct (alike_grad i j A) as [_ G]. destruct (alike_ops i j A) as (_ & _ & C).
    destruct s as [r|dec sl ini|Q|Q]; cbn [search_of se_step learning_rate armijo linear_trust_region classical_trust_region]; [reflexivity| | |].
    - unfold armijo_step. rewrite G. destruct S as [-> | S]; [reflexivity|]. rewrite S. cbn [as_min]. rewrite shift_sub. reflexivity.
    - unfold tr_step, linear_predict. rewrite G. destruct S as [-> | S].
      + cbv zeta. cbn [negb]. rewrite !andb_false_r, !orb_true_r. reflexivity.
      + rewrite S. cbn [as_min]. rewrite shift_sub. reflexivity.
    - unfold tr_step. rewrite C. destruct S as [-> | S].
      + cbv zeta. cbn [negb]. rewrite !andb_false_r, !orb_true_r. reflexivity.
      + rewrite S. cbn [as_min]. rewrite shift_sub. reflexivity.
  Qed.

  Definition dalike (d : builtin_descent RN) : DSt (descent_of lsolve eps fmax d) -> DSt (descent_of lsolve eps fmax d) -> Prop :=
    match d return DSt (descent_of lsolve eps fmax d) -> DSt (descent_of lsolve eps fmax d) -> Prop with
    | DampedNewtonDescent => fun a b => fst b = fst a /\ alike (snd a) (snd b)
    | IndirectDampedNewtonDescent _ _ => fun a b =>
        let '(k1, i1, x1, l1, r1) := a in let '(k2, i2, x2, l2, r2) := b in
        k2 = k1 /\ alike i1 i2 /\ x2 = x1 /\ l2 = l1 /\ r2 = r1
    | _ => fun a b => b = a
    end.

  Lemma dalike_refl : forall d x, dalike d x x.
  Proof.
    intros [] x; try reflexivity; cbn in x |- *.
    - split; [reflexivity|apply alike_refl].
    - destruct x as [[[[k i] v] l] r]. repeat split; try reflexivity. apply alike_refl.
  Qed.

  Lemma newton_alike : forall i j, alike i j -> newton_step lsolve j = newton_step lsolve i.
  Proof. intros i j H. two i j H; reflexivity. Qed.
  Lemma damped_alike : forall n t i j, alike i j -> damped_newton_step lsolve eps fmax n t j = damped_newton_step lsolve eps fmax n t i.
  Proof. intros n t i j H. two i j H; reflexivity. Qed.

  Lemma query_alike : forall d (y : list R) i j a b, alike i j -> dalike d a b ->
    dalike d (d_query (descent_of lsolve eps fmax d) y i a) (d_query (descent_of lsolve eps fmax d) y j b).
  Proof.
    intros d y i j a b A H. destruct (alike_grad i j A) as [G _]. pose proof (newton_alike i j A) as E.
    destruct d; cbn [descent_of d_query steepest_descent nonlinear_cg_descent newton_descent damped_newton_descent indirect_damped_newton_descent dogleg_descent dalike] in *.
    - cbn. rewrite G. reflexivity.
    - cbn in H. subst b. unfold cg_query. rewrite G. reflexivity.
    - rewrite E. reflexivity.
    - cbn [fst snd]. auto.
    - rewrite E. destruct (newton_step lsolve i). auto.
    - unfold dogleg_query. rewrite E, G. two i j A; reflexivity.
  Qed.

  Lemma step_alike : forall d t a b, dalike d a b -> d_step (descent_of lsolve eps fmax d) t b = d_step (descent_of lsolve eps fmax d) t a.
  Proof.
    intros d t a b H.
    destruct d; cbn [descent_of d_step steepest_descent nonlinear_cg_descent newton_descent damped_newton_descent indirect_damped_newton_descent dogleg_descent dalike] in *;
      try (cbn in H; subst b; reflexivity).
    - destruct H as [H1 H2]. rewrite H1, (damped_alike _ _ _ _ H2). reflexivity.
    - destruct a as [[[[k1 i1] x1] l1] r1], b as [[[[k2 i2] x2] l2] r2]. destruct H as (-> & A & -> & -> & ->).
      unfold indirect_damped_step.
      assert (E : forall s, damped_newton_step lsolve eps fmax k1 s i2 = damped_newton_step lsolve eps fmax k1 s i1) by (intro; apply damped_alike; exact A).
      rewrite (E (ndiv _ _)).
      match goal with |- context [rfind ?g] => match goal with |- context [damped_newton_step _ _ _ _ (ndiv _ (rfind ?h)) i1] => idtac end end.
      destruct (results_eqb r1 successful && _); [|reflexivity].
      match goal with |- (let (_, _) := damped_newton_step _ _ _ _ (ndiv _ (rfind ?g)) _ in _) = (let (_, _) := damped_newton_step _ _ _ _ (ndiv _ (rfind ?h)) _ in _) =>
        replace g with h; [reflexivity|] end.
      apply FunctionalExtensionality.functional_extensionality. intro z. rewrite E. reflexivity.
  Qed.
End Parts.

(** ** The stopping test with rtol = 0 *)
Lemma test_shift : forall (P : ar_tols RN) (y dy : list R) f c df, ar_rtol P = 0%R ->
  cauchy_termination (ar_rtol P) (ar_atol P) (ar_norm P) y dy [(f + c)%R] [df] = cauchy_termination (ar_rtol P) (ar_atol P) (ar_norm P) y dy [f] [df].
Proof.
  intros P y dy f c df H. unfold cauchy_termination, vscale_tol. cbv zeta. rewrite H. cbn [map].
  replace (nadd (n:=RN) (ar_atol P) (nmul (n:=RN) 0%R (nabs (n:=RN) (f + c)%R))) with (nadd (n:=RN) (ar_atol P) (nmul (n:=RN) 0%R (nabs (n:=RN) f))); [reflexivity|].
  change (ar_atol P + 0 * Rabs f = ar_atol P + 0 * Rabs (f + c))%R. rewrite !Rmult_0_l. reflexivity.
Qed.


Lemma first_accepted : forall (s : builtin_search RN) (y ye : list R) i j st, snd (fst (fst (se_step (search_of s) true y ye i j st))) = true.
Proof. intros [] y ye i j st; cbn; try reflexivity; apply orb_true_r. Qed.

(** ** Runs that move in step *)
Section Trace.
  Context {Out Aux : Type}.
  Variables (s : Solver (list R) Out Aux) (fn fn' : list R -> Out * Aux) (Rel : list R -> St s -> St s -> Prop).
  Hypothesis Hstep : forall y a b, Rel y a b ->
    fst (fst (s_step s fn' y b)) = fst (fst (s_step s fn y a)) /\ snd (s_step s fn' y b) = snd (s_step s fn y a) /\
    Rel (fst (fst (s_step s fn y a))) (snd (fst (s_step s fn y a))) (snd (fst (s_step s fn' y b))).
  Lemma trace_step : forall y0 st0 a0 k, Rel y0 st0 st0 ->
    y_at s fn' y0 st0 a0 k = y_at s fn y0 st0 a0 k /\ aux_at s fn' y0 st0 a0 k = aux_at s fn y0 st0 a0 k /\
    Rel (y_at s fn y0 st0 a0 k) (st_at s fn y0 st0 a0 k) (st_at s fn' y0 st0 a0 k).
  Proof.
    intros y0 st0 a0 k H0. induction k as [|k (E1 & E2 & E3)]; [auto|].
    destruct (Hstep _ _ _ E3) as (S1 & S2 & S3). unfold y_at, st_at, aux_at in *. cbn [trace]. rewrite E1. auto.
  Qed.
End Trace.

(** ** Loops *)
Section Loops.
  Context {Aux : Type}.
  Variables (lsolve : linop RN -> list R -> list R * results) (eps fmax c : R).
  Variables (P : ar_tols RN) (s : builtin_search RN) (d : builtin_descent RN).
  Variables (grad_of : (list R -> R * Aux) -> list R -> list R) (fn fn' : list R -> R * Aux).
  Hypothesis HF : forall y, fn' y = ((fst (fn y) + c)%R, snd (fn y)).
  Hypothesis HG : forall y, grad_of fn' y = grad_of fn y.
  Let D := descent_of lsolve eps fmax d.
  Let sol := gradient_descent_solver (N:=RN) (Aux:=Aux) P (search_of s) D grad_of.

  Definition gshift (y : list R) (a b : gd_state (N:=RN) (Aux:=Aux) (search_of s) D) : Prop :=
    gd_first_step b = gd_first_step a /\ gd_y_eval b = gd_y_eval a /\ gd_search_state b = gd_search_state a /\
    alike (gd_f_info a) (gd_f_info b) /\ (gd_first_step a = true \/ as_min (gd_f_info b) = (as_min (gd_f_info a) + c)%R) /\
    gd_aux b = gd_aux a /\ dalike lsolve eps fmax d (gd_descent_state a) (gd_descent_state b) /\
    (ar_rtol P = 0%R -> gd_terminate b = gd_terminate a) /\ gd_result b = gd_result a.

  Lemma gshift_step : forall y a b, gshift y a b ->
    fst (fst (s_step sol fn' y b)) = fst (fst (s_step sol fn y a)) /\ snd (s_step sol fn' y b) = snd (s_step sol fn y a) /\
    gshift (fst (fst (s_step sol fn y a))) (snd (fst (s_step sol fn y a))) (snd (fst (s_step sol fn' y b))).
  Proof.
    intros y a b (R1 & R2 & R3 & R4 & R5 & R6 & R7 & R8 & R9).
    cbn [s_step sol gradient_descent_solver]. unfold gd_step. rewrite R2, HF.
    destruct (fn (gd_y_eval a)) as [fe xe] eqn:Ef. cbn [fst snd]. rewrite R1, R3, R6.
    rewrite (search_shift c s (gd_first_step a) y (gd_y_eval a) (gd_f_info a) (gd_f_info b) fe _ R4 R5).
    pose proof (fun t => step_alike lsolve eps fmax d t _ _ R7) as D0. fold D in D0.
    pose proof (first_accepted s y (gd_y_eval a) (gd_f_info a) (Eval fe) (gd_search_state a)) as FA.
    destruct (se_step (search_of s) (gd_first_step a) y (gd_y_eval a) (gd_f_info a) (Eval fe) (gd_search_state a)) as [[[t acc] sr] ss] eqn:ES.
    destruct acc.
    - rewrite HG. set (g := grad_of fn (gd_y_eval a)).
      assert (He : alike (EvalGrad fe g) (EvalGrad (fe + c)%R g)) by reflexivity.
      pose proof (query_alike lsolve eps fmax d (gd_y_eval a) _ _ _ _ He R7) as DQ. fold D in DQ.
      pose proof (step_alike lsolve eps fmax d t _ _ DQ) as D2. fold D in D2. rewrite D2.
      destruct (d_step D t (d_query D (gd_y_eval a) (EvalGrad fe g) (gd_descent_state a))) as [yd dr].
      assert (T : ar_rtol P = 0%R -> (if gd_first_step a then false else cauchy_termination (N:=RN) (ar_rtol P) (ar_atol P) (ar_norm P) (gd_y_eval a) (vsub (N:=RN) (gd_y_eval a) y) [(fe + c)%R] [nsub (n:=RN) (fe + c)%R (as_min (gd_f_info b))])
                = (if gd_first_step a then false else cauchy_termination (N:=RN) (ar_rtol P) (ar_atol P) (ar_norm P) (gd_y_eval a) (vsub (N:=RN) (gd_y_eval a) y) [fe] [nsub (n:=RN) fe (as_min (gd_f_info a))])).
      { intro HP. destruct R5 as [-> | E]; [reflexivity|]. destruct (gd_first_step a); [reflexivity|]. rewrite E, shift_sub. apply test_shift. exact HP. }
      split; [reflexivity|]. split; [reflexivity|].
      unfold gshift. cbn -[dalike alike cauchy_termination vadd]. repeat (split; [first [reflexivity|assumption|exact He|right; reflexivity|exact T]|]). reflexivity.
    - rewrite D0. destruct (d_step D t (gd_descent_state a)) as [yd dr].
      split; [reflexivity|]. split; [reflexivity|].
      assert (R5' : as_min (gd_f_info b) = (as_min (gd_f_info a) + c)%R).
      { destruct R5 as [E|E]; [|exact E]. rewrite E in ES. rewrite ES in FA. discriminate FA. }
      unfold gshift. cbn -[dalike alike vadd]. repeat (split; [first [reflexivity|assumption|right; exact R5']|]). reflexivity.
  Qed.

  Lemma gshift_init : forall y0 fs auxs st, s_init sol fn y0 fs auxs = Ret st -> gshift y0 st st.
  Proof.
    intros y0 fs auxs st E. cbn in E. unfold gd_init in E. cbv zeta in E. destruct (negb _); [discriminate E|]. injection E as <-.
    unfold gshift. cbn -[dalike]. repeat (split; [first [reflexivity|left; reflexivity|apply dalike_refl]|]). reflexivity.
  Qed.

  (** quasi-Newton loops *)
  Context {HSt : Type}.
  Variables (init : list R -> R -> list R -> finfo RN * HSt) (update : list R -> list R -> finfo RN -> R -> list R -> HSt -> finfo RN * HSt).
  Hypothesis Hupd : forall y ye i j f g h, alike i j ->
    alike (fst (update y ye i f g h)) (fst (update y ye j (f + c)%R g h)) /\ snd (update y ye j (f + c)%R g h) = snd (update y ye i f g h).
  Hypothesis Hval : forall y ye i f g h, as_min (fst (update y ye i f g h)) = f.
  Let qsol := quasi_newton_solver (N:=RN) (Aux:=Aux) P (search_of s) D grad_of init update.

  Definition qshift (y : list R) (a b : qn_state (N:=RN) (Aux:=Aux) (search_of s) D (HSt:=HSt)) : Prop :=
    qn_first_step b = qn_first_step a /\ qn_y_eval b = qn_y_eval a /\ qn_search_state b = qn_search_state a /\
    alike (qn_f_info a) (qn_f_info b) /\ (qn_first_step a = true \/ as_min (qn_f_info b) = (as_min (qn_f_info a) + c)%R) /\
    qn_aux b = qn_aux a /\ dalike lsolve eps fmax d (qn_descent_state a) (qn_descent_state b) /\
    (ar_rtol P = 0%R -> qn_terminate b = qn_terminate a) /\ qn_hessian_update_state b = qn_hessian_update_state a /\ qn_result b = qn_result a.

  Lemma qshift_step : forall y a b, qshift y a b ->
    fst (fst (s_step qsol fn' y b)) = fst (fst (s_step qsol fn y a)) /\ snd (s_step qsol fn' y b) = snd (s_step qsol fn y a) /\
    qshift (fst (fst (s_step qsol fn y a))) (snd (fst (s_step qsol fn y a))) (snd (fst (s_step qsol fn' y b))).
  Proof.
    intros y a b (R1 & R2 & R3 & R4 & R5 & R6 & R7 & R8 & RH & R9).
    cbn [s_step qsol quasi_newton_solver]. unfold qn_step. rewrite R2, HF.
    destruct (fn (qn_y_eval a)) as [fe xe] eqn:Ef. cbn [fst snd]. rewrite R1, R3, R6, RH.
    rewrite (search_shift c s (qn_first_step a) y (qn_y_eval a) (qn_f_info a) (qn_f_info b) fe _ R4 R5).
    pose proof (fun t => step_alike lsolve eps fmax d t _ _ R7) as D0. fold D in D0.
    pose proof (first_accepted s y (qn_y_eval a) (qn_f_info a) (Eval fe) (qn_search_state a)) as FA.
    destruct (se_step (search_of s) (qn_first_step a) y (qn_y_eval a) (qn_f_info a) (Eval fe) (qn_search_state a)) as [[[t acc] sr] ss] eqn:ES.
    destruct acc.
    - rewrite HG. set (g := grad_of fn (qn_y_eval a)).
      destruct (Hupd y (qn_y_eval a) _ _ fe g (qn_hessian_update_state a) R4) as [He Hh].
      pose proof (Hval y (qn_y_eval a) (qn_f_info a) fe g (qn_hessian_update_state a)) as V1.
      pose proof (Hval y (qn_y_eval a) (qn_f_info b) (fe + c)%R g (qn_hessian_update_state a)) as V2.
      destruct (update y (qn_y_eval a) (qn_f_info a) fe g (qn_hessian_update_state a)) as [i1 h1].
      destruct (update y (qn_y_eval a) (qn_f_info b) (fe + c)%R g (qn_hessian_update_state a)) as [i2 h2]. cbn [fst snd] in *. subst h2.
      pose proof (query_alike lsolve eps fmax d (qn_y_eval a) _ _ _ _ He R7) as DQ. fold D in DQ.
      pose proof (step_alike lsolve eps fmax d t _ _ DQ) as D2. fold D in D2. rewrite D2.
      destruct (d_step D t (d_query D (qn_y_eval a) i1 (qn_descent_state a))) as [yd dr].
      assert (T : ar_rtol P = 0%R -> (if qn_first_step a then false else cauchy_termination (N:=RN) (ar_rtol P) (ar_atol P) (ar_norm P) (qn_y_eval a) (vsub (N:=RN) (qn_y_eval a) y) [(fe + c)%R] [nsub (n:=RN) (fe + c)%R (as_min (qn_f_info b))])
                = (if qn_first_step a then false else cauchy_termination (N:=RN) (ar_rtol P) (ar_atol P) (ar_norm P) (qn_y_eval a) (vsub (N:=RN) (qn_y_eval a) y) [fe] [nsub (n:=RN) fe (as_min (qn_f_info a))])).
      { intro HP. destruct R5 as [-> | E]; [reflexivity|]. destruct (qn_first_step a); [reflexivity|]. rewrite E, shift_sub. apply test_shift. exact HP. }
      assert (V : as_min i2 = (as_min i1 + c)%R) by (rewrite V1, V2; reflexivity).
      split; [reflexivity|]. split; [reflexivity|].
      unfold qshift. cbn -[dalike alike cauchy_termination vadd as_min]. repeat (split; [first [reflexivity|assumption|right; exact V|exact T]|]). reflexivity.
    - rewrite D0. destruct (d_step D t (qn_descent_state a)) as [yd dr].
      split; [reflexivity|]. split; [reflexivity|].
      assert (R5' : as_min (qn_f_info b) = (as_min (qn_f_info a) + c)%R).
      { destruct R5 as [E|E]; [|exact E]. rewrite E in ES. rewrite ES in FA. discriminate FA. }
      unfold qshift. cbn -[dalike alike vadd as_min]. repeat (split; [first [reflexivity|assumption|right; exact R5']|]). reflexivity.
  Qed.

  Lemma qshift_init : forall y0 fs auxs st, s_init qsol fn y0 fs auxs = Ret st -> qshift y0 st st.
  Proof.
    intros y0 fs auxs st E. cbn [s_init qsol quasi_newton_solver] in E. unfold qn_init in E. cbv zeta in E.
    destruct (init y0 _ _) as [i h]. destruct (negb _); [discriminate E|]. injection E as <-.
    unfold qshift. cbn -[dalike as_min alike]. repeat (split; [first [reflexivity|left; reflexivity|apply dalike_refl|apply alike_refl]|]). reflexivity.
  Qed.
End Loops.

(** ** Updates *)
Lemma held_alike : forall (ui : bool) (f f' : R) (g : list R) (A B : linop RN), B = A ->
  alike (if ui then EvalGradHessianInv (N:=RN) f g A else EvalGradHessian (N:=RN) f g A) (if ui then EvalGradHessianInv (N:=RN) f' g B else EvalGradHessian (N:=RN) f' g B).
Proof. intros [] f f' g A B ->; cbn; auto. Qed.

Lemma update_shift : forall tiny ui y ye i j f f' g h, alike i j ->
  (alike (fst (bfgs_update (N:=RN) tiny ui y ye i f g h)) (fst (bfgs_update (N:=RN) tiny ui y ye j f' g h)) /\
   snd (bfgs_update (N:=RN) tiny ui y ye j f' g h) = snd (bfgs_update (N:=RN) tiny ui y ye i f g h)) /\
  (alike (fst (dfp_update (N:=RN) tiny ui y ye i f g h)) (fst (dfp_update (N:=RN) tiny ui y ye j f' g h)) /\
   snd (dfp_update (N:=RN) tiny ui y ye j f' g h) = snd (dfp_update (N:=RN) tiny ui y ye i f g h)).
Proof.
  intros tiny ui y ye i j f f' g h A. destruct (alike_grad i j A) as [G _]. destruct (alike_ops i j A) as (M & _ & _).
  unfold bfgs_update, dfp_update. cbv zeta. rewrite G, M. cbn [fst snd]. repeat split; apply held_alike; reflexivity.
Qed.
Lemma lupdate_shift : forall tiny hl ui y ye i j f f' g h, alike i j ->
  alike (fst (lbfgs_update (N:=RN) tiny hl ui y ye i f g h)) (fst (lbfgs_update (N:=RN) tiny hl ui y ye j f' g h)) /\
  snd (lbfgs_update (N:=RN) tiny hl ui y ye j f' g h) = snd (lbfgs_update (N:=RN) tiny hl ui y ye i f g h).
Proof.
  intros tiny hl ui y ye i j f f' g h A. destruct (alike_grad i j A) as [G _]. destruct (alike_ops i j A) as (_ & M & _).
  unfold lbfgs_update. cbv zeta. rewrite G, M. destruct (nltb _ _); cbn [fst snd]; (split; [apply held_alike; reflexivity|reflexivity]).
Qed.
Lemma update_value : forall tiny hl ui y ye i f g h hh,
  as_min (fst (bfgs_update (N:=RN) tiny ui y ye i f g h)) = f /\ as_min (fst (dfp_update (N:=RN) tiny ui y ye i f g h)) = f /\
  as_min (fst (lbfgs_update (N:=RN) tiny hl ui y ye i f g hh)) = f.
Proof. intros. unfold bfgs_update, dfp_update, lbfgs_update. cbv zeta. destruct ui; repeat split; try reflexivity; destruct (nltb _ _); reflexivity. Qed.

(** ** Every gradient-based minimiser *)
Definition in_step {Aux} (P : ar_tols RN) (fn fn' : list R -> R * Aux) (s : Solver (list R) R Aux) : Prop :=
  exists Rel : list R -> St s -> St s -> Prop,
    (forall y0 fs auxs, s_init s fn' y0 fs auxs = s_init s fn y0 fs auxs) /\
    (forall y0 fs auxs st, s_init s fn y0 fs auxs = Ret st -> Rel y0 st st) /\
    (forall y a b, Rel y a b ->
       fst (fst (s_step s fn' y b)) = fst (fst (s_step s fn y a)) /\ snd (s_step s fn' y b) = snd (s_step s fn y a) /\
       Rel (fst (fst (s_step s fn y a))) (snd (fst (s_step s fn y a))) (snd (fst (s_step s fn' y b)))) /\
    (ar_rtol P = 0%R -> forall y y' a b, Rel y a b -> s_terminate s fn' y' b = s_terminate s fn y' a) /\
    (forall y a b x r, Rel y a b -> s_post s fn' y x b r = s_post s fn y x a r).

Lemma all_in_step : forall Aux (P : ar_tols RN) grad_of c (fn fn' : list R -> R * Aux) s, gradient_based P grad_of s ->
  (forall y, fn' y = ((fst (fn y) + c)%R, snd (fn y))) -> (forall y, grad_of fn' y = grad_of fn y) -> in_step P fn fn' s.
Proof.
  intros Aux P grad_of c fn fn' s H HF HG.
  assert (Q : forall lsolve eps fmax (s : builtin_search RN) (d : builtin_descent RN) HSt (init : list R -> R -> list R -> finfo RN * HSt) update,
    (forall y ye i j f g h, alike i j ->
      alike (fst (update y ye i f g h)) (fst (update y ye j (f + c)%R g h)) /\ snd (update y ye j (f + c)%R g h) = snd (update y ye i f g h)) ->
    (forall y ye i f g h, as_min (fst (update y ye i f g h)) = f) ->
    in_step P fn fn' (quasi_newton_solver (N:=RN) (Aux:=Aux) P (search_of s) (descent_of lsolve eps fmax d) grad_of init update)).
  { intros lsolve eps fmax se d HSt init update HU HV. exists (qshift lsolve eps fmax c P se d).
    split; [reflexivity|]. split; [intros y0 fs auxs st E; exact (qshift_init lsolve eps fmax c P se d grad_of fn init update y0 fs auxs st E)|].
    split; [exact (qshift_step lsolve eps fmax c P se d grad_of fn fn' HF HG init update HU HV)|]. split; [|reflexivity].
    intros HP y y' a b (R1 & R2 & R3 & R4 & R5 & R6 & R7 & R8 & R9 & R10). cbn. rewrite (R8 HP), R10. reflexivity. }
  destruct H.
  - exists (gshift lsolve eps fmax c P s d).
    split; [reflexivity|]. split; [intros y0 fs auxs st E; exact (gshift_init lsolve eps fmax c P s d grad_of fn y0 fs auxs st E)|].
    split; [exact (gshift_step lsolve eps fmax c P s d grad_of fn fn' HF HG)|]. split; [|reflexivity].
    intros HP y y' a b (R1 & R2 & R3 & R4 & R5 & R6 & R7 & R8 & R9). cbn. rewrite (R8 HP), R9. reflexivity.
  - apply Q; [intros; apply (update_shift tiny use_inverse y ye i j f); assumption|intros; apply (update_value tiny 0 use_inverse y ye i f g h (LInv (N:=RN) (mkInv (N:=RN) 0%Z [] [] [])))].
  - apply Q; [intros; apply (update_shift tiny use_inverse y ye i j f); assumption|intros; apply (update_value tiny 0 use_inverse y ye i f g h (LInv (N:=RN) (mkInv (N:=RN) 0%Z [] [] [])))].
  - apply Q; [intros; apply lupdate_shift; assumption|intros; apply (update_value tiny history use_inverse y ye i f g tt)].
Qed.

(** Adding a constant to the objective does not change what a gradient-based minimiser does: the iterates and the
    aux outputs are the same step by step, whatever the tolerances; and if rtol = 0 the whole solve is the same. *)
Lemma C117_shift_pf :
  forall (Aux : Type) (P : ar_tols RN) grad_of (s : Solver (list R) R Aux) (c : R) (fn fn' : list R -> R * Aux),
    gradient_based P grad_of s ->
    (forall y, fn' y = ((fst (fn y) + c)%R, snd (fn y))) -> (forall y, grad_of fn' y = grad_of fn y) ->
  forall y0 fs auxs,
    (forall st0, s_init s fn y0 fs auxs = Ret st0 -> s_init s fn' y0 fs auxs = Ret st0 /\
       forall k, y_at s fn' y0 st0 (auxs fill0) k = y_at s fn y0 st0 (auxs fill0) k /\
                 aux_at s fn' y0 st0 (auxs fill0) k = aux_at s fn y0 st0 (auxs fill0) k) /\
    (ar_rtol P = 0%R -> forall fuel ms throw,
       same_solve (fun v => v) (iterative_solve (vallfinite (N:=RN)) s fn fuel ms throw y0 fs auxs)
                               (iterative_solve (vallfinite (N:=RN)) s fn' fuel ms throw y0 fs auxs)).
Proof.
  intros Aux P grad_of s c fn fn' H HF HG y0 fs auxs. destruct (all_in_step Aux P grad_of c fn fn' s H HF HG) as (Rel & I & I0 & St & T & Po). split.
  - intros st0 E. split; [rewrite I; exact E|]. intro k. destruct (trace_step s fn fn' Rel St y0 st0 (auxs fill0) k (I0 _ _ _ _ E)) as (E1 & E2 & _). auto.
  - intros HP fuel ms throw. apply (lockstep s s fn fn' (vallfinite (N:=RN)) (fun v => v) Rel); try assumption.
    + reflexivity.
    + cbv beta. rewrite I. destruct (s_init s fn y0 fs auxs) as [a|e|] eqn:E; auto. apply (I0 _ _ _ _ E).
    + exact (T HP).
    + intros y a b x r HR. rewrite (Po y a b x r HR). destruct (s_post s fn y x a r) as [[? ?] ?]. reflexivity.
Qed.

(** L-BFGS on (y - 1)^2 + (z + 2)^2 and on the same plus 1000, rtol = 0 *)
Example C117_shift_ex_pf :
  let f (y : list R) := (((nth 0 y 0 - 1) ^ 2 + (nth 1 y 0 + 2) ^ 2)%R, tt) in
  let f' (y : list R) := (((nth 0 y 0 - 1) ^ 2 + (nth 1 y 0 + 2) ^ 2 + 1000)%R, tt) in
  let grad (_ : list R -> R * unit) (y : list R) := [(2 * (nth 0 y 0 - 1))%R; (2 * (nth 1 y 0 + 2))%R] in
  let P := mkTols (N:=RN) 0%R (1/1000)%R (max_norm (N:=RN)) in
  let s := LBFGS (N:=RN) P grad (fun _ b => (b, successful)) (1/1000000)%R 10 true in
  forall fuel ms throw, same_solve (fun v => v)
    (iterative_solve (vallfinite (N:=RN)) s f fuel ms throw [5; 7]%R (fun _ => 0%R) (fun _ => tt))
    (iterative_solve (vallfinite (N:=RN)) s f' fuel ms throw [5; 7]%R (fun _ => 0%R) (fun _ => tt)).
Proof.
  intros f f' grad P s fuel ms throw.
  destruct (C117_shift_pf unit P grad s 1000%R f f') with (y0 := [5; 7]%R) (fs := fun _ : fillv => 0%R) (auxs := fun _ : fillv => tt) as [_ Q].
  - exact (g_lbfgs P grad (fun _ b => (b, successful)) 0%R 0%R (BacktrackingArmijo (N:=RN) (lit (1#2)) (lit (1#10)) (lit 1)) (NewtonDescent (N:=RN) None) (1/1000000)%R 10 true).
  - reflexivity.
  - reflexivity.
  - apply Q. reflexivity.
Qed.

(** With rtol > 0 the constant decides where the solve stops: gradient descent on 128 x^2 from 1 with
    rtol = 1/2 and atol = 1 stops at 1/32, on 128 x^2 + 1024 already at 1/2 (no rounding occurs in either run). *)
Lemma C117_relative_tolerance_pf :
  let P := mkTols (N:=F64) (f64_ofQ (1#2)) (f64_ofQ 1) (max_norm (N:=F64)) in
  let s := GradientDescent (N:=F64) P (lifted64_grad 128) (f64_ofQ (1#512)) in
  let solve c fuel throw := iterative_solve (vallfinite (N:=F64)) s (lifted64 128 c) fuel None throw [f64_ofQ 1] (fun _ => f64_ofQ 0) (fun _ => tt) in
  forall fuel throw, (6 < fuel)%nat ->
  (exists sol, solve 0%Q fuel throw = Ret sol /\ result sol = successful /\ took sol 6 /\ exists x, value sol = [x] /\ neqb (n:=F64) x (f64_ofQ (1#32)) = true) /\
  (exists sol, solve 1024%Q fuel throw = Ret sol /\ result sol = successful /\ took sol 2 /\ exists x, value sol = [x] /\ neqb (n:=F64) x (f64_ofQ (1#2)) = true).
Proof.
  intros P s solve fuel throw Hf. do 7 (destruct fuel as [|fuel]; [lia|]).
  split; apply chk_sound; destruct throw; vm_compute; reflexivity.
Qed.

(** In double precision a large constant hides the decrease even with rtol = 0: nonlinear CG with the default search
    finds the minimum 0 of x^2/2 from 1, but on x^2/2 + 2^60 it rejects 54 trial points, tries the point where it
    is, and reports success at 1. *)
Lemma C117_rounding_pf :
  let P := mkTols (N:=F64) (f64_ofQ 0) (f64_ofQ (1#1000)) (max_norm (N:=F64)) in
  let s := NonlinearCG (N:=F64) P (lifted64_grad (1#2)) (polak_ribiere (N:=F64) (f64_ofQ (1#4503599627370496))) armijo_default in
  let solve c fuel throw := iterative_solve (vallfinite (N:=F64)) s (lifted64 (1#2) c) fuel None throw [f64_ofQ 1] (fun _ => f64_ofQ 0) (fun _ => tt) in
  forall fuel throw, (60 < fuel)%nat ->
  (exists sol, solve 0%Q fuel throw = Ret sol /\ result sol = successful /\ took sol 3 /\ exists x, value sol = [x] /\ neqb (n:=F64) x (f64_ofQ 0) = true) /\
  (exists sol, solve 1152921504606846976%Q fuel throw = Ret sol /\ result sol = successful /\ took sol 56 /\ exists x, value sol = [x] /\ neqb (n:=F64) x (f64_ofQ 1) = true).
Proof.
  intros P s solve fuel throw Hf. do 61 (destruct fuel as [|fuel]; [lia|]).
  split; apply chk_sound; destruct throw; vm_compute; reflexivity.
Qed.
