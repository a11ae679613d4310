(** Proofs about the stopping rule of the accept/reject minimisers and
    least-squares solvers. *)

From Coq Require Import String List Bool Arith Lia ZArith QArith Reals Lra.
From Verif Require Import Num NumFacts NumDiv NumFin NumF64 NumF64_facts Vec VecFacts Spec_Vec Results Iterate
  Spec_Iterate Iterate_proofs Search Spec_Search Descent Minimisers QuasiNewton LBFGS Solvers
  Minimisers_proofs FixedPoint FixedPoint_proofs RootFind Cholesky Spec_Certificate Spec_Examples.
Import ListNotations.
Local Open Scope nat_scope.

Lemma nth_vmap2 : forall (A B C : Type) (f : A -> B -> C) a b i x y,
  nth_error a i = Some x -> nth_error b i = Some y -> nth_error (vmap2 f a b) i = Some (f x y).
Proof.
  intros A B C f. induction a as [|x0 a IH]; intros [|y0 b] [|i] x y Ha Hb; try discriminate; cbn in *.
  - injection Ha as ->. injection Hb as ->. reflexivity.
  - apply IH; assumption.
Qed.

Section Rule.
  Context {N : Num} (L : OrdLaws N) (D : DivLaws N).

  Lemma small_change : forall rtol atol (old new : list N),
    nltb (max_norm (vdiv (vabs (vsub new old)) (vscale_tol rtol atol new))) (nofQ 1) = true ->
    moved_little rtol atol old new.
  Proof.
    intros rtol atol old new H i a b Ha Hb.
    apply (max_norm_lt L) in H; [|apply (dl_01 N D)].
    rewrite Forall_forall in H.
    assert (E : nth_error (vdiv (vabs (vsub new old)) (vscale_tol rtol atol new)) i =
                Some (ndiv (nabs (nsub b a)) (nadd atol (nmul rtol (nabs b))))).
    { unfold vdiv. apply nth_vmap2.
      - unfold vabs. apply map_nth_error. unfold vsub. apply nth_vmap2; assumption.
      - unfold vscale_tol. exact (map_nth_error (fun yi => nadd atol (nmul rtol (nabs yi))) i new Hb). }
    apply nth_error_In in E. apply H, (dl_lt1 N D) in E. rewrite (dl_absabs N D) in E. exact E.
  Qed.

  Lemma cauchy_little : forall rtol atol (y y' f f' : list N),
    cauchy_termination rtol atol max_norm y' (vsub y' y) f' (vsub f' f) = true ->
    moved_little rtol atol y y' /\ moved_little rtol atol f f'.
  Proof.
    intros rtol atol y y' f f' H. unfold cauchy_termination in H.
    apply andb_true_iff in H. destruct H. split; apply small_change; assumption.
  Qed.
End Rule.

Lemma steps_taken : forall (Y Out Aux : Type) allfinite (s : Solver Y Out Aux) fn y0 st0 auxs ms k,
  hd_error (sol_stats (solution_at allfinite s fn y0 st0 (auxs fill0) ms k)) =
  Some ("num_steps"%string, Some (Z.of_nat k)).
Proof.
  intros. unfold solution_at. destruct (s_post s _ _ _ _ _) as [[? ?] ?]. reflexivity.
Qed.

(** Gradient descent and nonlinear CG: success is only reported after at least two
    steps, the last of which moved from an iterate y to the returned value with
    a small change in every component of y and in the objective.  Any
    arithmetic whose order and division behave (exact with infinities and NaN;
    binary64). *)
Lemma C60_gradient_descent_pf :
  forall (N : Num) (L : OrdLaws N) (D : DivLaws N) (Aux : Type) (allfinite : list N -> bool)
         (rtol atol : N) (search : Search N) (descent : Descent N) grad_of
         (fn : list N -> N * Aux) y0 fs auxs st0 fuel ms throw sol,
    accepts_first search ->
    let s := gradient_descent_solver (mkTols rtol atol max_norm) search descent grad_of in
    s_init s fn y0 fs auxs = Ret st0 ->
    iterative_solve allfinite s fn fuel ms throw y0 fs auxs = Ret sol ->
    result sol = successful ->
    exists k y, 0 < k /\ y = y_at s fn y0 st0 (auxs fill0) k /\
      hd_error (sol_stats sol) = Some ("num_steps"%string, Some (Z.of_nat (S k))) /\
      value sol = gd_y_eval (st_at s fn y0 st0 (auxs fill0) k) /\
      moved_little rtol atol y (value sol) /\
      moved_little rtol atol [fst (fn y)] [fst (fn (value sol))].
Proof.
  intros N L D Aux allfinite rtol atol search descent grad_of fn y0 fs auxs st0 fuel ms throw sol HA s Hi H HR.
  destruct (success_inv _ _ _ allfinite s fn y0 st0 fs auxs fuel ms throw sol Hi H HR)
    as (k & _ & _ & -> & _ & HT & _).
  apply gd_init_inv in Hi. subst st0.
  set (st0 := gd_st0 search descent y0 fs auxs) in *.
  destruct k as [|k]; [discriminate HT|].
  pose proof (gd_step_cases _ _ _ _ _ _ _ _ _ _ (gd_trace_S (mkTols rtol atol max_norm) search descent grad_of fn y0 fs auxs k))
    as (step & acc & sr & sst & Es & E1 & E2 & E3 & E4 & E6 & E5).
  destruct (gd_first (mkTols rtol atol max_norm) search descent grad_of fn y0 fs auxs HA k) as [F1 F2].
  fold s st0 in E1, E2, E3, E4, E6, E5, Es, F1, F2.
  change (gd_terminate (st_at s fn y0 st0 (auxs fill0) (S k)) = true) in HT.
  destruct acc; [|destruct E5 as (_ & _ & _ & _ & ET); exact (False_ind _ (diff_true_false (eq_trans (eq_sym HT) ET)))].
  destruct E5 as (Ey & _ & _ & _ & ET).
  assert (Hk : 0 < k).
  { destruct k as [|k]; [|lia]. exfalso. rewrite (proj2 F1 eq_refl) in ET. exact (diff_true_false (eq_trans (eq_sym HT) ET)). }
  assert (EF : gd_first_step (st_at s fn y0 st0 (auxs fill0) k) = false).
  { destruct (gd_first_step _) eqn:E in |- *; [|reflexivity]. apply F1 in E. lia. }
  rewrite EF in ET. destruct (F2 Hk) as [Fi _]. rewrite Fi in ET.
  pose proof (eq_trans (eq_sym ET) HT) as HC. clear ET HT.
  cbn [ar_rtol ar_atol ar_norm as_min] in HC.
  match goal with |- context [value ?x] => change (value x) with (y_at s fn y0 st0 (auxs fill0) (S k)) end.
  exists k, (y_at s fn y0 st0 (auxs fill0) k).
  split; [exact Hk|]. split; [reflexivity|]. split; [apply steps_taken|]. split; [exact Ey|].
  exact (cauchy_little L D rtol atol _ _ [fst (fn (y_at s fn y0 st0 (auxs fill0) k))] [_] HC).
Qed.

(** Quasi-Newton solvers (BFGS, DFP, L-BFGS): success is only reported after at least two
    steps, the last of which moved from an iterate y to the returned value with
    a small change in every component of y and in the objective.  Any
    arithmetic whose order and division behave (exact with infinities and NaN;
    binary64). *)
Lemma C60_quasi_newton_pf :
  forall (N : Num) (L : OrdLaws N) (D : DivLaws N) (Aux : Type) (allfinite : list N -> bool)
         (rtol atol : N) (search : Search N) (descent : Descent N) grad_of (HSt : Type)
         (init_hessian : list N -> N -> list N -> finfo N * HSt) update_hessian
         (fn : list N -> N * Aux) y0 fs auxs st0 fuel ms throw sol,
    accepts_first search -> keeps_value_and_grad update_hessian ->
    let s := quasi_newton_solver (mkTols rtol atol max_norm) search descent grad_of init_hessian update_hessian in
    s_init s fn y0 fs auxs = Ret st0 ->
    iterative_solve allfinite s fn fuel ms throw y0 fs auxs = Ret sol ->
    result sol = successful ->
    exists k y, 0 < k /\ y = y_at s fn y0 st0 (auxs fill0) k /\
      hd_error (sol_stats sol) = Some ("num_steps"%string, Some (Z.of_nat (S k))) /\
      value sol = qn_y_eval (st_at s fn y0 st0 (auxs fill0) k) /\
      moved_little rtol atol y (value sol) /\
      moved_little rtol atol [fst (fn y)] [fst (fn (value sol))].
Proof.
  intros N L D Aux allfinite rtol atol search descent grad_of HSt ih uh fn y0 fs auxs st0 fuel ms throw sol HA HK s Hi H HR.
  destruct (success_inv _ _ _ allfinite s fn y0 st0 fs auxs fuel ms throw sol Hi H HR)
    as (k & _ & _ & -> & _ & HT & _).
  apply qn_init_inv in Hi. subst st0.
  set (st0 := qn_st0 search descent ih y0 fs auxs) in *.
  destruct k as [|k].
  { exfalso. unfold says_terminate, st_at in HT. cbn [trace fst snd] in HT. unfold st0, qn_st0 in HT.
    destruct (ih _ _ _). discriminate HT. }
  pose proof (qn_step_cases _ _ _ _ _ _ _ _ _ _ _ (qn_trace_S (mkTols rtol atol max_norm) search descent grad_of ih uh fn y0 fs auxs k))
    as (step & acc & sr & sst & Es & E1 & E2 & E3 & E7 & E4 & E6 & E5).
  destruct (qn_first (mkTols rtol atol max_norm) search descent grad_of ih uh fn y0 fs auxs HA HK k) as [F1 F2].
  fold s st0 in E1, E2, E3, E4, E6, E5, Es, F1, F2.
  change (qn_terminate (st_at s fn y0 st0 (auxs fill0) (S k)) = true) in HT.
  destruct acc; [|destruct E5 as (_ & _ & _ & _ & ET); exact (False_ind _ (diff_true_false (eq_trans (eq_sym HT) ET)))].
  destruct E5 as (Ey & _ & _ & _ & ET).
  assert (Hk : 0 < k).
  { destruct k as [|k]; [|lia]. exfalso. rewrite (proj2 F1 eq_refl) in ET. exact (diff_true_false (eq_trans (eq_sym HT) ET)). }
  assert (EF : qn_first_step (st_at s fn y0 st0 (auxs fill0) k) = false).
  { destruct (qn_first_step _) eqn:E in |- *; [|reflexivity]. apply F1 in E. lia. }
  rewrite EF in ET. destruct (F2 Hk) as [Fi _]. rewrite Fi in ET.
  pose proof (eq_trans (eq_sym ET) HT) as HC. clear ET HT.
  cbn [ar_rtol ar_atol ar_norm as_min] in HC.
  match goal with |- context [value ?x] => change (value x) with (y_at s fn y0 st0 (auxs fill0) (S k)) end.
  exists k, (y_at s fn y0 st0 (auxs fill0) k).
  split; [exact Hk|]. split; [reflexivity|]. split; [apply steps_taken|]. split; [exact Ey|].
  exact (cauchy_little L D rtol atol _ _ [fst (fn (y_at s fn y0 st0 (auxs fill0) k))] [_] HC).
Qed.

(** Gauss-Newton, Levenberg-Marquardt and dogleg solvers: on success the last step
    moved from an iterate y to the returned value with a small change in every
    component of y and of the residuals - or the solve stopped after one
    step at y0, where the residuals are compared with the zeros they were
    initialised with (the first step is not exempt, unlike in the other two
    families).  Any
    arithmetic whose order and division behave (exact with infinities and NaN;
    binary64). *)
Lemma C60_gauss_newton_partial_pf :
  forall (N : Num) (L : OrdLaws N) (D : DivLaws N) (Aux : Type) (allfinite : list N -> bool)
         (rtol atol : N) (search : Search N) (descent : Descent N) jac_of
         (fn : list N -> list N * Aux) y0 fs auxs st0 fuel ms throw sol,
    accepts_first search ->
    let s := gauss_newton_solver (mkTols rtol atol max_norm) search descent jac_of in
    s_init s fn y0 fs auxs = Ret st0 ->
    iterative_solve allfinite s fn fuel ms throw y0 fs auxs = Ret sol ->
    result sol = successful ->
    (hd_error (sol_stats sol) = Some ("num_steps"%string, Some 1%Z) /\ value sol = y0 /\
     moved_little rtol atol (fs fill0) (fst (fn y0))) \/
    exists k y, 0 < k /\ y = y_at s fn y0 st0 (auxs fill0) k /\
      hd_error (sol_stats sol) = Some ("num_steps"%string, Some (Z.of_nat (S k))) /\
      value sol = gn_y_eval (st_at s fn y0 st0 (auxs fill0) k) /\
      moved_little rtol atol y (value sol) /\
      moved_little rtol atol (fst (fn y)) (fst (fn (value sol))).
Proof.
  intros N L D Aux allfinite rtol atol search descent jac_of fn y0 fs auxs st0 fuel ms throw sol HA s Hi H HR.
  destruct (success_inv _ _ _ allfinite s fn y0 st0 fs auxs fuel ms throw sol Hi H HR)
    as (k & _ & _ & -> & _ & HT & _).
  apply gn_init_inv in Hi. subst st0.
  set (st0 := gn_st0 search descent y0 fs auxs) in *.
  destruct k as [|k]; [discriminate HT|].
  pose proof (gn_step_cases _ _ _ _ _ _ _ _ _ _ (gn_trace_S (mkTols rtol atol max_norm) search descent jac_of fn y0 fs auxs k))
    as (step & acc & sr & sst & Es & E1 & E2 & E3 & E4 & E6 & E5).
  destruct (gn_first (mkTols rtol atol max_norm) search descent jac_of fn y0 fs auxs HA k) as [F1 F2].
  fold s st0 in E1, E2, E3, E4, E6, E5, Es, F1, F2.
  change (gn_terminate (st_at s fn y0 st0 (auxs fill0) (S k)) = true) in HT.
  destruct acc; [|destruct E5 as (_ & _ & _ & _ & ET); exact (False_ind _ (diff_true_false (eq_trans (eq_sym HT) ET)))].
  destruct E5 as (Ey & _ & _ & _ & ET).
  pose proof (eq_trans (eq_sym ET) HT) as HC. clear ET HT.
  cbn [ar_rtol ar_atol ar_norm] in HC.
  match goal with |- context [value ?x] => change (value x) with (y_at s fn y0 st0 (auxs fill0) (S k)) end.
  apply (cauchy_little L D) in HC.
  destruct k as [|k].
  - left. split; [apply steps_taken|]. split; [exact Ey|]. rewrite Ey in HC. apply HC.
  - right. exists (S k), (y_at s fn y0 st0 (auxs fill0) (S k)).
    split; [lia|]. split; [reflexivity|]. split; [apply steps_taken|]. split; [exact Ey|].
    destruct (F2 ltac:(lia)) as [Fi _]. rewrite Fi in HC. exact HC.
Qed.

(** ** Consequence: finite values *)
Lemma little_finite : forall (N : Num) (F : FinLaws N) rtol atol (old new : list N),
  length new <= length old -> moved_little rtol atol old new -> vallfinite new = true.
Proof.
  intros N F rtol atol old new HL HM. unfold vallfinite. apply forallb_forall.
  intros b Hb. apply In_nth_error in Hb. destruct Hb as [i Hi].
  assert (Hi' : i < length new) by (apply nth_error_Some; congruence).
  destruct (nth_error old i) as [a|] eqn:Ea; [|apply nth_error_None in Ea; lia].
  apply (fl_sub_l N F b a). apply (fl_lt N F _ _ (HM i a b Ea Hi)).
Qed.

Lemma gd_length : forall (N : Num) (Aux : Type) (P : ar_tols N) search descent grad_of (fn : list N -> N * Aux) y0 fs auxs k,
  let s := gradient_descent_solver P search descent grad_of in
  let st0 := gd_st0 search descent y0 fs auxs in
  length (gd_y_eval (st_at s fn y0 st0 (auxs fill0) k)) <= length (y_at s fn y0 st0 (auxs fill0) k).
Proof.
  intros N Aux P search descent grad_of fn y0 fs auxs [|k] s st0; [apply Nat.le_refl|].
  pose proof (gd_step_cases _ _ _ _ _ _ _ _ _ _ (gd_trace_S P search descent grad_of fn y0 fs auxs k))
    as (step & acc & sr & sst & Es & E1 & E2 & E3 & _).
  fold s st0 in E3. rewrite E3. unfold vadd. rewrite vmap2_length. apply Nat.le_min_l.
Qed.
Lemma qn_length : forall (N : Num) (Aux : Type) (P : ar_tols N) search descent grad_of HSt
    (ih : list N -> N -> list N -> finfo N * HSt) uh (fn : list N -> N * Aux) y0 fs auxs k,
  let s := quasi_newton_solver P search descent grad_of ih uh in
  let st0 := qn_st0 search descent ih y0 fs auxs in
  length (qn_y_eval (st_at s fn y0 st0 (auxs fill0) k)) <= length (y_at s fn y0 st0 (auxs fill0) k).
Proof.
  intros N Aux P search descent grad_of HSt ih uh fn y0 fs auxs [|k] s st0.
  { unfold st_at, y_at. cbn [trace fst snd]. unfold st0, qn_st0. destruct (ih _ _ _). apply Nat.le_refl. }
  pose proof (qn_step_cases _ _ _ _ _ _ _ _ _ _ _ (qn_trace_S P search descent grad_of ih uh fn y0 fs auxs k))
    as (step & acc & sr & sst & Es & E1 & E2 & E3 & _).
  fold s st0 in E3. rewrite E3. unfold vadd. rewrite vmap2_length. apply Nat.le_min_l.
Qed.
Lemma gn_length : forall (N : Num) (Aux : Type) (P : ar_tols N) search descent jac_of (fn : list N -> list N * Aux) y0 fs auxs k,
  let s := gauss_newton_solver P search descent jac_of in
  let st0 := gn_st0 search descent y0 fs auxs in
  length (gn_y_eval (st_at s fn y0 st0 (auxs fill0) k)) <= length (y_at s fn y0 st0 (auxs fill0) k).
Proof.
  intros N Aux P search descent grad_of fn y0 fs auxs [|k] s st0; [apply Nat.le_refl|].
  pose proof (gn_step_cases _ _ _ _ _ _ _ _ _ _ (gn_trace_S P search descent grad_of fn y0 fs auxs k))
    as (step & acc & sr & sst & Es & E1 & E2 & E3 & _).
  fold s st0 in E3. rewrite E3. unfold vadd. rewrite vmap2_length. apply Nat.le_min_l.
Qed.

Lemma lbfgs_keeps_any : forall (N : Num) (eps : N) m ui, keeps_value_and_grad (lbfgs_update eps m ui).
Proof.
  intros N eps m ui y ye i f g st. unfold lbfgs_update.
  match goal with |- context [if ?c then ?a else ?b] => destruct (if c then a else b) as [op st'] end.
  destruct ui; split; reflexivity.
Qed.

Lemma fields : forall N : Num, N = F64 \/ N = XR -> OrdLaws N /\ DivLaws N /\ FinLaws N.
Proof.
  intros N [->| ->]; [exact (conj F64_laws (conj F64_div F64_fin))|exact (conj XR_laws (conj XR_div XR_fin))].
Qed.

(** The built-in minimisers never report success with a NaN or an infinity in the
    returned value (binary64; exact with infinities and NaN). *)
Lemma C04_minimisers_pf :
  forall (N : Num), N = F64 \/ N = XR ->
  forall (Aux : Type) (rtol atol : N) grad_of lsolve (eps : N) (fn : list N -> N * Aux) y0 fs auxs
         fuel ms throw (s : Solver (list N) N Aux) sol,
    let P := mkTols rtol atol max_norm in
    ((exists rate, s = GradientDescent P grad_of rate) \/
     (exists method, s = NonlinearCG P grad_of method armijo_default) \/
     (exists ui, s = BFGS P grad_of lsolve eps ui) \/
     (exists ui, s = DFP P grad_of lsolve eps ui) \/
     (exists m ui, s = LBFGS P grad_of lsolve eps m ui)) ->
    iterative_solve vallfinite s fn fuel ms throw y0 fs auxs = Ret sol ->
    result sol = successful -> vallfinite (value sol) = true.
Proof.
  intros N HN Aux rtol atol grad_of lsolve eps fn y0 fs auxs fuel ms throw s sol P HS H HR.
  destruct (fields N HN) as (L & D & F).
  destruct (accepts_first_builtin N) as (A1 & _ & _ & A4).
  assert (GD : forall search descent, accepts_first search -> s = gradient_descent_solver P search descent grad_of ->
     vallfinite (value sol) = true).
  { intros search descent HA ->.
    destruct (solve_ret_init _ _ _ _ _ _ _ _ _ _ H) as [st0 Hi].
    pose proof Hi as Hi'. apply gd_init_inv in Hi'. subst st0.
    destruct (C60_gradient_descent_pf N L D Aux vallfinite rtol atol search descent grad_of fn y0 fs auxs _ fuel ms throw sol HA Hi H HR)
      as (k & y & _ & -> & _ & EV & HM & _).
    refine (little_finite N F rtol atol _ _ _ HM). rewrite EV. apply gd_length. }
  assert (QN : forall HSt (ih : list N -> N -> list N -> finfo N * HSt) uh, keeps_value_and_grad uh ->
     s = quasi_newton_solver P armijo_default (newton_descent lsolve None) grad_of ih uh ->
     vallfinite (value sol) = true).
  { intros HSt ih uh HK ->.
    destruct (solve_ret_init _ _ _ _ _ _ _ _ _ _ H) as [st0 Hi].
    pose proof Hi as Hi'. apply qn_init_inv in Hi'. subst st0.
    destruct (C60_quasi_newton_pf N L D Aux vallfinite rtol atol armijo_default (newton_descent lsolve None) grad_of HSt ih uh
                fn y0 fs auxs _ fuel ms throw sol (A1 _ _ _) HK Hi H HR)
      as (k & y & _ & -> & _ & EV & HM & _).
    refine (little_finite N F rtol atol _ _ _ HM). rewrite EV. apply qn_length. }
  destruct HS as [[rate E]|[[method E]|[[ui E]|[[ui E]|(m & ui & E)]]]].
  - apply (GD _ _ (A4 rate) E).
  - apply (GD _ _ (A1 _ _ _) E).
  - apply (QN _ _ _ (proj1 (keeps_builtin N eps ui)) E).
  - apply (QN _ _ _ (proj2 (keeps_builtin N eps ui)) E).
  - apply (QN _ _ _ (lbfgs_keeps_any N eps m ui) E).
Qed.

(** Nor do the built-in least-squares solvers. *)
Lemma C04_least_squares_pf :
  forall (N : Num), N = F64 \/ N = XR ->
  forall (Aux : Type) (rtol atol : N) jac_of lsolve (eps fmax : N) (fn : list N -> list N * Aux) y0 fs auxs
         fuel ms throw (s : Solver (list N) (list N) Aux) sol,
    let P := mkTols rtol atol max_norm in
    (s = GaussNewton P jac_of lsolve \/
     s = LevenbergMarquardt P jac_of lsolve eps fmax \/
     (exists rfind, s = IndirectLevenbergMarquardt P jac_of lsolve eps fmax rfind) \/
     s = Dogleg P jac_of lsolve eps) ->
    iterative_solve vallfinite s fn fuel ms throw y0 fs auxs = Ret sol ->
    result sol = successful -> vallfinite (value sol) = true.
Proof.
  intros N HN Aux rtol atol jac_of lsolve eps fmax fn y0 fs auxs fuel ms throw s sol P HS H HR.
  destruct (fields N HN) as (L & D & F).
  destruct (accepts_first_builtin N) as (_ & A2 & _ & A4).
  assert (GN : forall search descent, accepts_first search -> s = gauss_newton_solver P search descent jac_of ->
     vallfinite (value sol) = true).
  { intros search descent HA ->.
    destruct (solve_ret_init _ _ _ _ _ _ _ _ _ _ H) as [st0 Hi].
    pose proof Hi as Hi'. apply gn_init_inv in Hi'. subst st0.
    destruct (C60_gauss_newton_partial_pf N L D Aux vallfinite rtol atol search descent jac_of fn y0 fs auxs _ fuel ms throw sol HA Hi H HR)
      as [(_ & EV & _)|(k & y & _ & -> & _ & EV & HM & _)].
    - refine (eq_trans (f_equal _ EV) _).
      destruct (success_inv _ _ _ vallfinite _ fn y0 _ fs auxs fuel ms throw sol Hi H HR)
        as (k & _ & (_ & HN0 & _) & _ & HF & _).
      destruct k as [|k]; [exact HF|]. destruct k as [|k]; [exact HF|].
      specialize (HN0 0 ltac:(lia)). destruct (vallfinite y0) eqn:E0; [reflexivity|].
      exfalso. apply HN0. right; right. exact E0.
    - refine (little_finite N F rtol atol _ _ _ HM). rewrite EV. apply gn_length. }
  destruct HS as [E|[E|[[rf E]|E]]].
  - apply (GN _ _ (A4 _) E).
  - apply (GN _ _ (A2 _) E).
  - apply (GN _ _ (A2 _) E).
  - apply (GN _ _ (A2 _) E).
Qed.

(** A successful value of fixed-point iteration is finite (binary64; exact with
    infinities and NaN). *)
Lemma C04_fixed_point_pf :
  forall (N : Num), N = F64 \/ N = XR ->
  forall (Aux : Type) (rtol atol damp : N) (fn : list N -> list N * Aux) y0 fs auxs fuel ms throw sol,
    iterative_solve vallfinite (fixed_point_iteration rtol atol damp max_norm) fn fuel ms throw y0 fs auxs = Ret sol ->
    result sol = successful -> vallfinite (value sol) = true.
Proof.
  intros N HN Aux rtol atol damp fn y0 fs auxs fuel ms throw sol H HR.
  destruct (fields N HN) as (L & D & F).
  destruct (C25_certificate_pf N L D Aux vallfinite rtol atol damp fn y0 fs auxs fuel ms throw sol H HR)
    as (y & _ & _ & _ & _ & HC).
  unfold vallfinite. apply forallb_forall. intros v Hv. apply In_nth_error in Hv. destruct Hv as [i Hi].
  destruct (HC i v Hi) as (yi & fi & _ & _ & _ & HL).
  apply (fl_sub_r N F yi v). exact (fl_lt N F _ _ HL).
Qed.

Lemma succeeds_after_inv : forall (Y Out Aux : Type) allfinite (s : Solver Y Out Aux) fn fuel ms throw y0 fs auxs k,
  succeeds_after k (iterative_solve allfinite s fn fuel ms throw y0 fs auxs) = true ->
  exists sol, iterative_solve allfinite s fn fuel ms throw y0 fs auxs = Ret sol /\ result sol = successful /\
    hd_error (sol_stats sol) = Some ("num_steps"%string, Some k).
Proof.
  intros Y Out Aux allfinite s fn fuel ms throw y0 fs auxs k H.
  destruct (iterative_solve _ _ _ _ _ _ _ _ _) as [sol| |] eqn:E in *; try discriminate.
  exists sol. split; [reflexivity|]. cbn in H. apply andb_true_iff in H. destruct H as [H1 H2].
  split; [apply results_eqb_eq; exact H1|].
  destruct (solve_ret_init _ _ _ _ _ _ _ _ _ _ E) as [st0 Hi].
  destruct (iterative_solve_inv allfinite s fn y0 st0 _ fs auxs eq_refl Hi fuel ms throw sol E) as (j & _ & _ & -> & _).
  rewrite steps_taken. pose proof (steps_taken _ _ _ allfinite s fn y0 st0 auxs ms j) as Hs.
  destruct (sol_stats _) as [|[nm [n|]] l]; try discriminate H2.
  apply Z.eqb_eq in H2. subst n. cbn in Hs. injection Hs as _ <-. reflexivity.
Qed.

(** The claim fails for Gauss-Newton: with residual y/200, rtol = atol = 1/100
    and y0 = 1 it reports success after one step and returns y0 itself, without
    having compared two iterates, although the next Gauss-Newton step would go to 0
    (binary64). *)
Lemma C60_gauss_newton_refuted_pf :
  exists (fn : list f64 -> list f64 * unit) jac_of lsolve (tol : f64) (y0 : list f64) sol,
    iterative_solve vallfinite (GaussNewton (N:=F64) (mkTols (N:=F64) tol tol max_norm) jac_of lsolve) fn
      50 None true y0 (fun _ => [f64_ofQ 0]) (fun _ => tt) = Ret sol /\
    result sol = successful /\
    hd_error (sol_stats sol) = Some ("num_steps"%string, Some 1%Z) /\
    value sol = y0 /\
    let y1 := gn_y_eval (state sol) in
    nltb (n:=F64) (f64_ofQ (99#100)) (max_norm (N:=F64) (vsub (N:=F64) y1 y0)) = true /\
    nltb (n:=F64) (sum_squares (N:=F64) (fst (fn y1))) (sum_squares (N:=F64) (fst (fn y0))) = true.
Proof.
  set (fn := fun v : list f64 => (map (fun x => ndiv (n:=F64) x (f64_ofQ 200)) v, tt)).
  set (jac := fun (_ : list f64 -> list f64 * unit) (_ : list f64) => MatOp (N:=F64) 1 [[ndiv (n:=F64) (f64_ofQ 1) (f64_ofQ 200)]]).
  set (ls := fun (_ : linop F64) (b : list f64) => (map (fun x => nmul (n:=F64) (f64_ofQ 200) x) b, successful)).
  set (s := GaussNewton (N:=F64) (mkTols (N:=F64) (f64_ofQ (1#100)) (f64_ofQ (1#100)) max_norm) jac ls).
  set (y0 := [f64_ofQ 1]).
  assert (H : succeeds_after 1 (iterative_solve vallfinite s fn 50 None true y0 (fun _ => [f64_ofQ 0]) (fun _ => tt)) = true)
    by (vm_compute; reflexivity).
  apply succeeds_after_inv in H. destruct H as (sol & H1 & H2 & H3).
  exists fn, jac, ls, (f64_ofQ (1#100)), y0, sol.
  split; [exact H1|]. split; [exact H2|]. split; [exact H3|].
  destruct (solve_ret_init _ _ _ _ _ _ _ _ _ _ H1) as [st0 Hi].
  destruct (iterative_solve_inv vallfinite s fn y0 st0 tt (fun _ => [f64_ofQ 0]) (fun _ => tt) eq_refl Hi 50 None true sol H1)
    as (k & _ & _ & -> & _).
  pose proof Hi as Hi'. apply gn_init_inv in Hi'. subst st0.
  pose proof (steps_taken _ _ _ vallfinite s fn y0
     (gn_st0 (learning_rate (nofQ (n:=F64) 1)) (newton_descent ls None) y0 (fun _ => [f64_ofQ 0]) (fun _ : fillv => tt)) (fun _ => tt) None k) as Hs.
  assert (Hk : k = 1).
  { assert (E : Some ("num_steps"%string, Some (Z.of_nat k)) = Some ("num_steps"%string, Some 1%Z)) by exact (eq_trans (eq_sym Hs) H3).
    injection E as E. lia. }
  subst k. clear Hs H1 H2 H3 Hi.
  split; [reflexivity|]. split; vm_compute; reflexivity.
Qed.

(** Successful solves (binary64): gradient descent, nonlinear CG, BFGS and L-BFGS on
    x^2 + 4 y^2 from (3, 1); Gauss-Newton, Levenberg-Marquardt and Dogleg on
    residuals x^2 - 2, x - 1 from 3 *)
Lemma C60_ex_pf :
  let run s := iterative_solve vallfinite s (bowl (N:=F64)) 200 None true [f64_ofQ 3; f64_ofQ 1]
                 scalar_struct (fun _ => tt) in
  let lsq s := iterative_solve vallfinite s curve64 200 None true [f64_ofQ 3] (vec_struct (N:=F64) 2) (fun _ => tt) in
  succeeds_after 31 (run (GradientDescent (N:=F64) tols bowl_grad (f64_ofQ (1#10)))) = true /\
  succeeds_after 22 (run (NonlinearCG (N:=F64) tols bowl_grad (polak_ribiere eps64) armijo_default)) = true /\
  succeeds_after 9 (run (BFGS (N:=F64) tols bowl_grad cholesky_solve eps64 false)) = true /\
  succeeds_after 9 (run (LBFGS (N:=F64) tols bowl_grad cholesky_solve eps64 3 true)) = true /\
  succeeds_after 6 (lsq (GaussNewton (N:=F64) tols curve64_jac column64)) = true /\
  succeeds_after 6 (lsq (LevenbergMarquardt (N:=F64) tols curve64_jac column64 eps64 (f64_ofQ 1000000000))) = true /\
  succeeds_after 6 (lsq (Dogleg (N:=F64) tols curve64_jac column64 eps64)) = true.
Proof. repeat split; vm_compute; reflexivity. Qed.
