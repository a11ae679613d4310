(** Proofs about compat.minimize. *)

From Coq Require Import List Bool Arith Lia QArith ZArith Ascii String Reals Lra.
From Verif Require Import Num NumF64 NumF64_facts NumFacts Vec VecFacts Results Iterate Spec_Iterate Iterate_proofs
  Search Spec_Search Descent Minimisers Minimisers_proofs QuasiNewton Solvers Spec_Lin LinFacts LinAlg
  QNRun_proofs RootFind Cholesky CholeskyFacts Compat Spec_Compat Spec_Examples.
Import ListNotations.

Lemma lower_bfgs : forall m, lower m = "bfgs"%string <-> names_bfgs m.
Proof.
  assert (LC : forall c d : ascii, In d ["b"; "f"; "g"; "s"]%char -> lower_char c = d ->
    c = d \/ c = ascii_of_nat (nat_of_ascii d - 32)).
  { intros c d Hd. destruct c as [[] [] [] [] [] [] [] []]; cbv -[In];
      intros E; subst d; cbn in Hd;
      repeat (destruct Hd as [Hd|Hd]; [try discriminate Hd; auto|]); try contradiction; auto. }
  intro m. split.
  - destruct m as [|a [|b [|c [|d [|e m]]]]]; cbn [lower]; try discriminate.
    intro E. injection E as E1 E2 E3 E4.
    exists a, b, c, d. split; [reflexivity|].
    apply LC in E1, E2, E3, E4; try (cbn; tauto).
    cbn. repeat split; intuition.
  - intros (a & b & c & d & -> & H1 & H2 & H3 & H4). cbn in H1, H2, H3, H4.
    repeat match goal with H : _ \/ _ |- _ => destruct H as [H|H] | H : False |- _ => destruct H end;
      subst; reflexivity.
Qed.

Local Open Scope nat_scope.

Section Compat.
  Context {N : Num}.
  Variable grad_of : (list N -> N * unit) -> list N -> list N.
  Variable lsolve : linop N -> list N -> list N * results.
  Variable eps : N.
  Variables (fuel : nat) (fn : list N -> N).

  Notation wf := (fun y => (fn y, tt)).
  Notation solver t := (BFGS (mkTols t t max_norm) grad_of lsolve eps true).
  Notation run t ms y0 := (iterative_solve vallfinite (solver t) wf fuel ms false y0
      scalar_struct (fun _ => tt)).

  Lemma bfgs_inits : forall t y0, exists st0, s_init (solver t) wf y0 scalar_struct (fun _ => tt) = Ret st0.
  Proof. intros. cbn. eauto. Qed.

  Lemma run_no_raise : forall t ms y0 e, run t ms y0 <> Raise e.
  Proof.
    intros t ms y0 e H. destruct (bfgs_inits t y0) as [st0 Hi].
    destruct (iterative_solve_raise_inv vallfinite (solver t) wf y0 st0 _ scalar_struct (fun _ => tt)
                eq_refl Hi fuel ms false e H) as (k & _ & _ & E & _). discriminate.
  Qed.

  Lemma compat_ret : forall x0 tup m tol o r,
    compat_minimize grad_of lsolve eps fuel fn x0 tup m tol o = Ret r ->
    exists y0 sol, x0 = Some y0 /\ run (tolerance tol) (step_limit o) y0 = Ret sol /\
      r = mkOR (value sol) (results_eqb (result sol) successful)
            (if results_eqb (result sol) successful then 0%Z
             else if results_eqb (result sol) nonlinear_max_steps_reached then 1%Z else 3%Z)
            (as_min (qn_f_info (state sol))) (info_grad (qn_f_info (state sol)))
            (info_matrix (qn_f_info (state sol))) (stats_get (sol_stats sol) "num_steps")
            (qn_num_accepted_steps (state sol)) (qn_num_accepted_steps (state sol)).
  Proof.
    intros x0 tup m tol o r H. unfold compat_minimize in H.
    destruct (negb (String.eqb _ _)) in H; [discriminate|].
    destruct x0 as [y0|]; [|discriminate].
    destruct (negb tup) in H; [discriminate|].
    destruct (negb (Nat.eqb _ _)) in H; [discriminate|].
    assert (Em : (match o_maxiter match o with Some o => o | None => mkOpts None None [] end with
             | Some m => m | None => None end) = step_limit o)
      by (destruct o as [[[] ? ?]|]; reflexivity).
    rewrite Em in H. clear Em.
    change (match tol with Some t => t | None => nofQ (1 # 100000) end) with (tolerance tol) in H.
    destruct (run (tolerance tol) (step_limit o) y0) as [sol|e|] eqn:E; cbn [obind] in H; try discriminate.
    exists y0, sol. split; [reflexivity|]. split; [exact E|].
    injection H as <-. reflexivity.
  Qed.

  Notation st0 y0 := (qn_st0 armijo_default (newton_descent lsolve None) (qn_init_hessian true) y0
        scalar_struct (fun _ => tt)).
  Notation Sk t y0 := (st_at (solver t) wf y0 (st0 y0) tt).
  Definition has_inverse (i : finfo N) : Prop := match i with EvalGradHessianInv _ _ _ => True | _ => False end.

  Lemma query_inverse : forall y i st, has_inverse i ->
    snd (d_query (newton_descent lsolve None) y i st) = successful.
  Proof. intros y i st H. destruct i; try contradiction. reflexivity. Qed.

  (** The returned solution, by iteration count. *)
  Lemma run_facts : forall t ms y0 sol, run t ms y0 = Ret sol ->
    exists n, stats_get (sol_stats sol) "num_steps" = Some (Some (Z.of_nat n)) /\
      (forall m, ms = Some m -> n <= m) /\
      (result sol = nonlinear_max_steps_reached -> ms = Some n) /\
      (result sol = successful \/ result sol = nonlinear_max_steps_reached \/
       (result sol = nonfinite /\ vallfinite (y_at (solver t) wf y0 (st0 y0) tt (pred n)) = false)) /\
      qn_num_accepted_steps (state sol) <= n /\
      (n = 0 <-> ms = Some 0 \/ vallfinite y0 = false) /\
      (0 < n -> 0 < qn_num_accepted_steps (state sol) /\
         as_min (qn_f_info (state sol)) = fn (value sol) /\
         info_grad (qn_f_info (state sol)) = grad_of wf (value sol)).
  Proof.
    intros t ms y0 sol H. destruct (bfgs_inits t y0) as [st0 Hi].
    destruct (iterative_solve_inv vallfinite (solver t) wf y0 st0 _ scalar_struct (fun _ => tt)
                eq_refl Hi fuel ms false sol H) as (n & _ & (S1 & S2 & S3) & -> & _).
    destruct (solution_at_fields vallfinite (solver t) wf y0 st0 tt ms n) as (ER & ES & EV & ET).
    rewrite ET, ES, ER.
    replace (value (solution_at vallfinite (solver t) wf y0 st0 tt ms n)) with (y_at (solver t) wf y0 st0 tt n)
      by (apply (f_equal fst) in EV; exact (eq_sym EV)).
    assert (HST : status vallfinite (solver t) wf y0 st0 tt n
                    (final_result vallfinite (solver t) wf y0 st0 tt n)) by (apply final_result_status; reflexivity).
    pose proof Hi as Hi'. apply qn_init_inv in Hi'. subst st0.
    assert (HAF : accepts_first (N:=N) armijo_default) by (apply accepts_first_builtin).
    assert (HKV : keeps_value_and_grad (bfgs_update eps true)) by (apply keeps_builtin).
    pose proof (qn_first (mkTols t t max_norm) armijo_default (newton_descent lsolve None) grad_of
                    (qn_init_hessian true) (bfgs_update eps true) wf y0 scalar_struct (fun _ => tt) HAF HKV) as HF.
    assert (HC : forall k, let st := Sk t y0 k in
      qn_num_accepted_steps st <= k /\ (0 < k -> 0 < qn_num_accepted_steps st) /\
      has_inverse (qn_f_info st) /\ snd (qn_descent_state st) = successful /\ qn_result st = successful).
    { induction k as [|k IH].
      { cbn. repeat split; try lia. }
      destruct IH as (IH1 & IH2 & IH3 & IH4 & _).
      destruct (qn_step_cases _ _ _ _ _ _ _ _ _ _ _ (qn_trace_S (mkTols t t max_norm) armijo_default
         (newton_descent lsolve None) grad_of (qn_init_hessian true) (bfgs_update eps true) wf y0 scalar_struct
         (fun _ => tt) k)) as (step & acc & sr & sst & Es & E1 & E2 & E3 & E7 & E4 & E6 & E5).
      assert (SR : sr = successful).
      { cbn [armijo_default armijo se_step] in Es. unfold armijo_step in Es. congruence. }
      subst sr. cbn zeta. cbn [results_eqb] in E6.
      assert (X : has_inverse (qn_f_info (Sk t y0 (S k))) /\ snd (qn_descent_state (Sk t y0 (S k))) = successful).
      { destruct acc.
        - destruct E5 as (_ & Eu & _ & Ed & _).
          assert (HI : has_inverse (qn_f_info (Sk t y0 (S k)))).
          { apply (f_equal fst) in Eu. cbn [fst] in Eu. unfold BFGS. rewrite Eu. unfold bfgs_update. cbn. exact I. }
          split; [exact HI|]. unfold BFGS in *. rewrite Ed. apply query_inverse. exact HI.
        - destruct E5 as (_ & Eu & _ & Ed & _). apply (f_equal fst) in Eu. cbn [fst] in Eu.
          unfold BFGS in *. rewrite Eu, Ed. auto. }
      destruct X as [X1 X2].
      split; [unfold BFGS in *; rewrite E7; destruct acc; lia|].
      split; [|split; [exact X1|split; [exact X2|]]].
      - intros _. unfold BFGS in *. rewrite E7.
        destruct k as [|k]; [|specialize (IH2 ltac:(lia)); lia].
        destruct (HF 0) as [[_ F] _]. specialize (F eq_refl). rewrite F in Es.
        match type of Es with se_step _ _ ?y ?a ?b ?c ?d = _ => pose proof (HAF y a b c d) as HA end.
        rewrite Es in HA. cbn in HA. subst acc. lia.
      - unfold BFGS in *. rewrite E6. exact X2. }
    assert (HR : forall k, says_result (solver t) wf y0 (st0 y0) tt k = successful) by (intro k; apply (HC k)).
    exists n. split; [reflexivity|]. split; [exact S3|].
    split; [|split; [|split; [apply HC|split]]].
    - intro E. rewrite E in HST.
      destruct HST as [[_ E']|[(_ & HN & E')|[(_ & _ & _ & E')|(A1 & A2 & A3 & _)]]]; try discriminate.
      + rewrite HR in HN. congruence.
      + destruct S1 as [S1|S1]; [|exact S1]. exfalso.
        destruct S1 as [S1|[S1|S1]]; congruence.
    - destruct HST as [[E1 E']|[(_ & HN & E')|[(A & _ & _ & E')|(A1 & A2 & A3 & E')]]]; rewrite E'.
      + auto.
      + rewrite HR in HN. congruence.
      + auto.
      + auto.
    - split.
      + intros ->. destruct S1 as [[S1|[S1|S1]]|S1]; [discriminate|exfalso; exact (S1 (HR 0))|right; exact S1|left; exact S1].
      + intros [E|E].
        * specialize (S3 0 E). lia.
        * destruct n as [|n]; [reflexivity|]. exfalso. apply (S2 0 ltac:(lia)). right; right. exact E.
    - intro Hn. split; [apply HC; exact Hn|]. destruct n as [|n]; [lia|].
      destruct (HF (S n)) as [_ G]. destruct (G Hn) as (G1 & G2 & _). split; [exact G1|exact G2].
  Qed.
End Compat.

(** The exceptions: exactly as documented, in this order. *)
Lemma C50_errors_pf :
  forall (N : Num) grad_of lsolve (eps : N) fuel (fn : list N -> N) x0 args_is_tuple method tol options e,
    compat_minimize grad_of lsolve eps fuel fn x0 args_is_tuple method tol options = Raise e <->
    (e = ValueError /\ ~ names_bfgs method) \/
    (e = ValueError /\ names_bfgs method /\ x0 = None) \/
    (e = TypeError /\ names_bfgs method /\ x0 <> None /\ args_is_tuple = false) \/
    (e = ValueError /\ names_bfgs method /\ x0 <> None /\ args_is_tuple = true /\ ~ known_options options).
Proof.
  intros N grad_of lsolve eps fuel fn x0 tup m tol o e. unfold compat_minimize.
  destruct (String.eqb (lower m) "bfgs") eqn:Em.
  2:{ apply String.eqb_neq in Em. rewrite lower_bfgs in Em. cbn [negb]. split.
      - intro H. injection H as <-. left. auto.
      - intros [[-> _]|[(_ & H & _)|[(_ & H & _)|(_ & H & _)]]]; [reflexivity|contradiction..]. }
  apply String.eqb_eq, lower_bfgs in Em. cbn [negb].
  destruct x0 as [y0|].
  2:{ split.
      - intro H. injection H as <-. right; left. auto.
      - intros [[-> _]|[(-> & _)|[(_ & _ & H & _)|(_ & _ & H & _)]]]; [reflexivity|reflexivity|contradiction..]. }
  destruct tup; cbn [negb].
  2:{ split.
      - intro H. injection H as <-. right; right; left. repeat split; auto. discriminate.
      - intros [[_ H]|[(_ & _ & H)|[(-> & _)|(_ & _ & _ & H & _)]]]; [contradiction|discriminate|reflexivity|discriminate]. }
  assert (EO : List.length (o_others match o with Some o => o | None => mkOpts None None [] end) = 0%nat <-> known_options o).
  { unfold known_options. destruct o as [o|].
    - rewrite length_zero_iff_nil. split; [intros H o' E; injection E as <-; exact H|auto].
    - cbn. split; [intros _ o' E; discriminate|reflexivity]. }
  destruct (Nat.eqb _ 0) eqn:EN; cbn [negb].
  2:{ apply Nat.eqb_neq in EN. rewrite EO in EN. split.
      - intro H. injection H as <-. right; right; right. repeat split; auto. discriminate.
      - intros [[_ H]|[(_ & _ & H)|[(_ & _ & _ & H)|(-> & _)]]]; [contradiction|discriminate|discriminate|reflexivity]. }
  apply Nat.eqb_eq, EO in EN. split.
  - intro H. exfalso.
    match type of H with obind ?x _ = _ => destruct x eqn:ER; cbn [obind] in H; try discriminate H end.
    exact (run_no_raise grad_of lsolve eps fuel fn _ _ _ _ ER).
  - intros [[_ H]|[(_ & _ & H)|[(_ & _ & _ & H)|(_ & _ & _ & _ & H)]]]; [contradiction|discriminate|discriminate|contradiction].
Qed.

(** The status fields: what is returned is the outcome of a BFGS solve (max norm,
    rtol = atol = tol, at most "maxiter" steps); success <-> status 0 <->
    successful; status 1 <-> the step limit was used up; status 3 <-> a nonfinite
    iterate; iteration counts are consistent.  In any arithmetic. *)
Lemma C50_status_pf :
  forall (N : Num) grad_of lsolve (eps : N) fuel (fn : list N -> N) x0 args_is_tuple method tol options r,
    compat_minimize grad_of lsolve eps fuel fn x0 args_is_tuple method tol options = Ret r ->
    exists y0 sol nfev,
      x0 = Some y0 /\
      iterative_solve vallfinite
        (BFGS (mkTols (tolerance tol) (tolerance tol) max_norm) grad_of lsolve eps true)
        (fun y => (fn y, tt)) fuel (step_limit options) false y0 scalar_struct (fun _ => tt) = Ret sol /\
      or_x r = value sol /\
      (or_success r = true <-> result sol = successful) /\
      (or_status r = 0%Z <-> result sol = successful) /\
      (or_status r = 1%Z <-> result sol = nonlinear_max_steps_reached) /\
      (or_status r = 3%Z <-> result sol = nonfinite) /\
      (or_status r = 0%Z \/ or_status r = 1%Z \/ or_status r = 3%Z) /\
      or_nfev r = Some (Some (Z.of_nat nfev)) /\
      (forall m, step_limit options = Some m -> nfev <= m) /\
      (or_status r = 1%Z -> step_limit options = Some nfev) /\
      or_njev r = or_nit r /\ or_nit r <= nfev /\ (0 < nfev -> 0 < or_nit r).
Proof.
  intros N grad_of lsolve eps fuel fn x0 tup m tol o r H.
  apply compat_ret in H. destruct H as (y0 & sol & -> & HR & ->).
  destruct (run_facts grad_of lsolve eps fuel fn _ _ _ _ HR) as (n & F1 & F2 & F3 & F4 & F5 & F6 & F7).
  exists y0, sol, n. cbn [or_x or_success or_status or_nfev or_njev or_nit].
  split; [reflexivity|]. split; [exact HR|]. split; [reflexivity|].
  destruct F4 as [E|[E|[E _]]]; rewrite E in *; cbn [results_eqb];
    repeat split; intros; try discriminate; try congruence; auto; try lia; try (apply F7; assumption).
Qed.

(** Full claim: [or_fun r = fn (or_x r)] and [or_jac r] is the gradient there, for
    every run; false when no step was made ([C50_fun_refuted]).  What holds: both
    are right whenever x0 is finite and "maxiter" is not 0, and then the counts
    are positive; otherwise no step is made. *)
Lemma C50_fun_partial_pf :
  forall (N : Num) grad_of lsolve (eps : N) fuel (fn : list N -> N) y0 args_is_tuple method tol options r,
    compat_minimize grad_of lsolve eps fuel fn (Some y0) args_is_tuple method tol options = Ret r ->
    (vallfinite y0 = true /\ step_limit options <> Some 0 ->
       or_fun r = fn (or_x r) /\ or_jac r = grad_of (fun y => (fn y, tt)) (or_x r) /\ 0 < or_nit r) /\
    (vallfinite y0 = false \/ step_limit options = Some 0 -> or_nfev r = Some (Some 0%Z)).
Proof.
  intros N grad_of lsolve eps fuel fn y0 tup m tol o r H.
  apply compat_ret in H. destruct H as (y0' & sol & E & HR & ->). injection E as <-.
  destruct (run_facts grad_of lsolve eps fuel fn _ _ _ _ HR) as (n & F1 & F2 & F3 & F4 & F5 & F6 & F7).
  cbn [or_x or_fun or_jac or_nit or_nfev]. split.
  - intros [A B]. assert (Hn : 0 < n).
    { destruct n; [|lia]. destruct (proj1 F6 eq_refl); congruence. }
    destruct (F7 Hn) as (G1 & G2 & G3). auto.
  - intros A. rewrite F1. replace n with 0%nat; [reflexivity|]. symmetry. apply F6. tauto.
Qed.

(** With maxiter = 0 the reported `fun` is 0 and `jac` is 0 whatever the objective;
    here the objective at x is 5 and its gradient (2, 8). *)
Lemma C50_fun_refuted_pf :
  exists r,
    compat_minimize (N:=RN) bowl_grad (fun _ b => (b, successful)) 0%R 1
      (fun v => fst (bowl v)) (Some [1; 1])%R true "bfgs" None
      (Some (mkOpts (Some (Some 0)) None [])) = Ret r /\
    or_x r = [1; 1]%R /\ fst (bowl (N:=RN) (or_x r)) = 5%R /\ or_fun r = 0%R /\
    bowl_grad (N:=RN) bowl (or_x r) = [2; 8]%R /\ or_jac r = [0; 0]%R.
Proof.
  eexists. split; [reflexivity|]. cbn.
  unfold Q2R. cbn. repeat split; try lra.
  - f_equal; [lra|]. f_equal. lra.
  - f_equal; [lra|]. f_equal. lra.
Qed.

(** hess_inv is symmetric positive definite, whatever the run. *)
Lemma C50_hess_inv_pf :
  forall grad_of lsolve (eps : R) fuel (fn : list R -> R) (y0 : list R) args_is_tuple method tol options r,
    (0 <= eps)%R -> exact_solve (List.length y0) lsolve ->
    (forall y, List.length y = List.length y0 -> List.length (grad_of (fun y => (fn y, tt)) y) = List.length y0) ->
    compat_minimize (N:=RN) grad_of lsolve eps fuel fn (Some y0) args_is_tuple method tol options = Ret r ->
    spd (List.length y0) (or_hess_inv r).
Proof.
  intros grad_of lsolve eps fuel fn y0 tup m tol o r He HE HG H.
  apply compat_ret in H. destruct H as (y0' & sol & E & HR & ->). injection E as <-.
  cbn [or_hess_inv]. destruct (bfgs_inits grad_of lsolve eps fn (tolerance tol) y0) as [st0 Hi].
  destruct (iterative_solve_inv vallfinite _ _ y0 st0 _ scalar_struct (fun _ => tt)
                eq_refl Hi fuel _ false sol HR) as (k & _ & _ & -> & _).
  destruct (solution_at_fields vallfinite (BFGS (N:=RN) (mkTols (tolerance tol) (tolerance tol) max_norm)
     grad_of lsolve eps true) (fun y => (fn y, tt)) y0 st0 tt (step_limit o) k) as (_ & ES & _).
  pose proof Hi as Hi'. apply qn_init_inv in Hi'. subst st0.
  destruct (run_matrix false unit (mkTols (N:=RN) (tolerance tol) (tolerance tol) max_norm) eps lsolve grad_of
              (fun y => (fn y, tt)) (List.length y0) y0 scalar_struct (fun _ => tt) true He HE HG eq_refl k)
    as (Hm & B & f & g & SH & _ & _ & _ & _ & EI & _).
  match goal with |- spd _ ?x => assert (EQ : x = Hm); [|rewrite EQ; exact SH] end.
  exact (eq_trans (f_equal (fun s => info_matrix (qn_f_info s)) ES) (f_equal info_matrix EI)).
Qed.

(** The returned point is never worse than the start (binary64, or exact with
    infinities and NaN). *)
Lemma C50_not_worse_pf :
  forall (N : Num), N = F64 \/ N = XR ->
  forall grad_of lsolve (eps : N) fuel (fn : list N -> N) y0 args_is_tuple method tol options r,
    compat_minimize grad_of lsolve eps fuel fn (Some y0) args_is_tuple method tol options = Ret r ->
    or_x r = y0 \/ nleb (fn (or_x r)) (fn y0) = true.
Proof.
  intros N HN grad_of lsolve eps fuel fn y0 tup m tol o r H.
  apply compat_ret in H. destruct H as (y0' & sol & E & HR & ->). injection E as <-.
  cbn [or_x].
  refine (C27_minimise_pf N HN unit _ grad_of lsolve eps (fun y => (fn y, tt)) y0 _ _ _ _ _ _ _ _ sol HR).
  right; left. exists true. reflexivity.
Qed.

(** "norm" has no effect: the answer is the same whatever norm is given. *)
Lemma C59_norm_ignored_pf :
  forall (N : Num) grad_of lsolve (eps : N) fuel (fn : list N -> N) x0 args_is_tuple method tol maxiter norm norm' others,
    compat_minimize grad_of lsolve eps fuel fn x0 args_is_tuple method tol (Some (mkOpts maxiter norm others)) =
    compat_minimize grad_of lsolve eps fuel fn x0 args_is_tuple method tol (Some (mkOpts maxiter norm' others)).
Proof. reflexivity. Qed.

(** The documented meaning of "norm" fails: with norm = rms_norm, tolerance 1/25 and
    start (3, 1), a BFGS solve of x^2 + 4 y^2 stops after 8 steps, compat.minimize
    after 9 (binary64). *)
Lemma C59_norm_refuted_pf :
  exists (fuel : nat) (fn : list f64 -> f64) grad_of lsolve (x0 : list f64) (tol : f64) (norm : list f64 -> f64) k k',
    num_steps_of (iterative_solve vallfinite (BFGS (N:=F64) (mkTols (N:=F64) tol tol norm) grad_of lsolve eps64 true)
       (fun v => (fn v, tt)) fuel None false x0 scalar_struct (fun _ => tt)) = Some k /\
    nfev_of (compat_minimize (N:=F64) grad_of lsolve eps64 fuel fn (Some x0) true "BFGS"
       (Some tol) (Some (mkOpts None (Some norm) []))) = Some k' /\
    k <> k'.
Proof.
  exists 50, (fun v => fst (bowl (N:=F64) v)), bowl_grad, (fun (_ : linop F64) (b : list f64) => (b, successful)),
    [f64_ofQ 3; f64_ofQ 1], (f64_ofQ (1 # 25)), rms_norm, 8%Z, 9%Z.
  split; [vm_compute; reflexivity|]. split; [vm_compute; reflexivity|discriminate].
Qed.

(** The hypotheses of the hess_inv claim: the Cholesky solver, the bowl, five steps *)
Lemma C50_hess_inv_ex_pf :
  exact_solve 2 (cholesky_solve (N:=RN)) /\
  (forall y : list R, List.length y = 2 -> List.length (bowl_grad (N:=RN) (fun y => (fst (bowl (N:=RN) y), tt)) y) = 2) /\
  exists r, compat_minimize (N:=RN) bowl_grad cholesky_solve 0%R 6 (fun v => fst (bowl (N:=RN) v)) (Some [3%R; 1%R]) true
     "BFGS" None (Some (mkOpts (Some (Some 5)) None [])) = Ret r.
Proof.
  split; [apply cholesky_exact_mat|]. split.
  - intros [|a [|b [|c y]]] H; try discriminate. reflexivity.
  - destruct (bfgs_inits (N:=RN) bowl_grad (cholesky_solve (N:=RN)) 0%R (fun v => fst (bowl (N:=RN) v))
                (nofQ (n:=RN) (1#100000)) [3%R; 1%R]) as [st0 Hi].
    destruct (C01_finite_budget_finishes_pf _ _ _ vallfinite _ _ _ _ _ _ 5 6 Hi ltac:(lia)) as [sol HS].
    unfold compat_minimize. cbn [negb String.eqb lower]. 
    eexists. cbn [obind]. exact (f_equal (fun o => obind o _) HS).
Qed.

Definition or_summary (o : outcome (optimize_results F64)) : option (bool * Z * option (option Z) * nat * bool) :=
  match o with
  | Ret r => Some (or_success r, or_status r, or_nfev r, or_nit r,
       near_zero64 (or_x r) &&
       (neqb (n:=F64) (or_fun r) (fst (bowl (N:=F64) (or_x r)))))
  | _ => None
  end.

(** A converging call, one that hits the step limit, and one that is rejected *)
Lemma C50_ex_pf :
  let lsolve := fun (_ : linop F64) (b : list f64) => (b, successful) in
  let call m o := compat_minimize (N:=F64) bowl_grad lsolve eps64 50 (fun v => fst (bowl (N:=F64) v))
     (Some [f64_ofQ 1; f64_ofQ 1]) true m None o in
  or_summary (call "Bfgs"%string None) = Some (true, 0%Z, Some (Some 10%Z), 6, true) /\
  or_summary (call "BFGS"%string (Some (mkOpts (Some (Some 3)) None []))) = Some (false, 1%Z, Some (Some 3%Z), 1, false) /\
  call "lbfgs"%string None = Raise ValueError /\
  call "bfgs"%string (Some (mkOpts None None ["gtol"%string])) = Raise ValueError.
Proof. repeat split; vm_compute; reflexivity. Qed.
