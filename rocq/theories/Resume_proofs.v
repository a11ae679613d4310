(** Splitting a solve into shorter ones (C118). *)

From Coq Require Import String List Bool Arith Lia ZArith QArith Reals.
From Verif Require Import Num NumF64 Vec Results Iterate Spec_Iterate Iterate_proofs.
From Verif Require Import FixedPoint NewtonChord Search Descent Minimisers Solvers QuasiNewton Spec_Combos Spec_Tolerance Spec_Queries Tolerance_proofs Spec_Shift Spec_Resume.
Import ListNotations.
Local Open Scope nat_scope.

(** ** Two runs that agree from some step on *)
Section Join.
  Context {Y Out Aux : Type}.
  Variables (allfinite : Y -> bool) (s : Solver Y Out Aux) (fn : Y -> Out * Aux).
  Variables (y0 y1 : Y) (st0 st1 : St s) (fs : fillv -> Out) (auxs : fillv -> Aux).
  Hypothesis I0 : s_init s fn y0 fs auxs = Ret st0.
  Hypothesis I1 : s_init s fn y1 fs auxs = Ret st1.
  Hypothesis Post : forall y a st r, s_post s fn y a st r = (y, a, []).
  Let a0 := auxs fill0.
  Variables (p q : nat).
  Hypothesis HY : forall j, y_at s fn y1 st1 a0 (q + j) = y_at s fn y0 st0 a0 (p + j).
  Hypothesis HA : forall j, 1 <= j -> aux_at s fn y1 st1 a0 (q + j) = aux_at s fn y0 st0 a0 (p + j).
  Hypothesis HT : forall j y, 1 <= j -> s_terminate s fn y (st_at s fn y1 st1 a0 (q + j)) = s_terminate s fn y (st_at s fn y0 st0 a0 (p + j)).
  Hypothesis Quiet : forall j, j <= p -> ~ stops allfinite s fn y0 st0 a0 j.

  Lemma asked_join : forall j, 1 <= j -> asked s fn y1 st1 a0 (q + j) = asked s fn y0 st0 a0 (p + j).
  Proof. intros [|j] Hj; [lia|]. unfold asked. replace (pred (q + S j)) with (q + j) by lia. replace (pred (p + S j)) with (p + j) by lia. apply HY. Qed.
  Lemma stops_join : forall j, 1 <= j -> stops allfinite s fn y1 st1 a0 (q + j) <-> stops allfinite s fn y0 st0 a0 (p + j).
  Proof. intros j Hj. unfold stops, says_terminate, says_result. rewrite asked_join, HT by exact Hj. tauto. Qed.
  Lemma final_join : forall j, 1 <= j -> final_result allfinite s fn y1 st1 a0 (q + j) = final_result allfinite s fn y0 st0 a0 (p + j).
  Proof. intros j Hj. unfold final_result, says_terminate, says_result. rewrite asked_join, HT by exact Hj. reflexivity. Qed.

  Lemma join : forall fuel k sol2 j, iterative_solve allfinite s fn fuel (Some (q + k)) false y1 fs auxs = Ret sol2 -> took sol2 (q + j) -> 1 <= j ->
    forall fuel', p + k < fuel' -> exists sol, iterative_solve allfinite s fn fuel' (Some (p + k)) false y0 fs auxs = Ret sol /\
      value sol = value sol2 /\ result sol = result sol2 /\ aux sol = aux sol2 /\ took sol (p + j).
  Proof.
    intros fuel k sol2 j H Tk Hj fuel' Hf.
    destruct (iterative_solve_inv allfinite s fn y1 st1 a0 fs auxs eq_refl I1 _ _ _ _ H) as (i & Hi & (S1 & S2 & S3) & -> & _).
    pose proof (solution_at_fields allfinite s fn y1 st1 a0 (Some (q + k)) i) as (ER & _ & EV & ET).
    unfold took in Tk. rewrite ET in Tk. cbn in Tk. injection Tk as Tk. apply Nat2Z.inj in Tk. subst i.
    specialize (S3 _ eq_refl).
    assert (SI : stop_index allfinite s fn y0 st0 a0 (Some (p + k)) (p + j)).
    { split; [|split].
      - destruct S1 as [S1|S1]; [left; apply stops_join; assumption|]. injection S1 as S1. right. f_equal. lia.
      - intros i Hi'. destruct (le_gt_dec i p) as [L|L]; [apply Quiet; exact L|].
        intro C. apply (S2 (q + (i - p))); [lia|]. apply stops_join; [lia|]. replace (p + (i - p)) with i by lia. exact C.
      - intros m [= <-]. lia. }
    pose proof (proj1 (iterative_solve_spec allfinite s fn y0 st0 a0 fs auxs eq_refl I0 fuel' (Some (p + k)) false) (p + j) ltac:(lia) SI) as E.
    eexists. split; [exact E|].
    pose proof (solution_at_fields allfinite s fn y0 st0 a0 (Some (p + k)) (p + j)) as (ER' & _ & EV' & ET').
    rewrite Post in EV, EV'. cbn [fst] in EV, EV'. injection EV as V1 V2. injection EV' as V3 V4.
    rewrite V1, V2, V3, V4, ER, ER', final_join, HY, HA by exact Hj. repeat split. unfold took. rewrite ET'. reflexivity.
  Qed.
End Join.

(** A budget that ran out: nothing stopped the run *)
Lemma ran_out : forall Y Out Aux allfinite (s : Solver Y Out Aux) fn fuel m y0 fs auxs sol st0,
  s_init s fn y0 fs auxs = Ret st0 ->
  (forall k, says_result s fn y0 st0 (auxs fill0) k <> nonlinear_max_steps_reached) ->
  (forall y a st r, s_post s fn y a st r = (y, a, [])) ->
  iterative_solve allfinite s fn fuel (Some m) false y0 fs auxs = Ret sol -> result sol = nonlinear_max_steps_reached ->
  value sol = y_at s fn y0 st0 (auxs fill0) m /\ forall j, j <= m -> ~ stops allfinite s fn y0 st0 (auxs fill0) j.
Proof.
  intros Y Out Aux allfinite s fn fuel m y0 fs auxs sol st0 I HC Post H R.
  destruct (iterative_solve_inv allfinite s fn y0 st0 _ fs auxs eq_refl I _ _ _ _ H) as (k & Hk & (S1 & S2 & S3) & -> & _).
  pose proof (solution_at_fields allfinite s fn y0 st0 (auxs fill0) (Some m) k) as (ER & _ & EV & _). rewrite Post in EV. injection EV as -> _.
  rewrite ER in R. symmetry in R. apply final_result_status in R.
  assert (NS : ~ stops allfinite s fn y0 st0 (auxs fill0) k).
  { destruct R as [[_ E]|[(_ & HN & E)|[(HA & HSu & HT & E)|(HA & HSu & HT & _)]]]; try discriminate.
    - exfalso. apply (HC k). symmetry. exact E.
    - intros [E|[E|E]]; congruence. }
  destruct S1 as [S1|[= <-]]; [contradiction|]. split; [reflexivity|].
  intros j Hj. destruct (Nat.eq_dec j m) as [->|]; [exact NS|]. apply S2. lia.
Qed.

(** Runs whose steps do not look at the state, except for what [keep] holds *)
Lemma trace_add : forall Y Out Aux (s : Solver Y Out Aux) fn y0 st0 a0 m j,
  trace s fn y0 st0 a0 (m + j) = trace s fn (y_at s fn y0 st0 a0 m) (st_at s fn y0 st0 a0 m) (aux_at s fn y0 st0 a0 m) j.
Proof.
  intros. induction j as [|j IH].
  - rewrite Nat.add_0_r. cbn [trace]. unfold y_at, st_at, aux_at. destruct (trace s fn y0 st0 a0 m) as [[? ?] ?]. reflexivity.
  - rewrite Nat.add_succ_r. cbn [trace]. rewrite IH. reflexivity.
Qed.

Section Forget.
  Context {Y Out Aux : Type}.
  Variables (s : Solver Y Out Aux) (fn : Y -> Out * Aux).
  Hypothesis Forget : forall y st st', fst (fst (s_step s fn y st)) = fst (fst (s_step s fn y st')) /\ snd (s_step s fn y st) = snd (s_step s fn y st') /\
    forall z, s_terminate s fn z (snd (fst (s_step s fn y st))) = s_terminate s fn z (snd (fst (s_step s fn y st'))).
  Lemma forget_y : forall y st st' a a' j, y_at s fn y st a j = y_at s fn y st' a' j.
  Proof.
    intros y st st' a a' j. unfold y_at. induction j as [|j IH]; [reflexivity|]. cbn [trace]. rewrite IH. apply Forget.
  Qed.
  Lemma forget_rest : forall y st st' a a' j, aux_at s fn y st a (S j) = aux_at s fn y st' a' (S j) /\
    forall z, s_terminate s fn z (st_at s fn y st a (S j)) = s_terminate s fn z (st_at s fn y st' a' (S j)).
  Proof.
    intros y st st' a a' j. unfold aux_at, st_at. cbn [trace]. pose proof (forget_y y st st' a a' j) as E. unfold y_at in E. rewrite E. split; [apply Forget|intro z; apply Forget].
  Qed.
End Forget.

Lemma y_add : forall Y Out Aux (s : Solver Y Out Aux) fn y0 st0 a0 m j,
  y_at s fn y0 st0 a0 (m + j) = y_at s fn (y_at s fn y0 st0 a0 m) (st_at s fn y0 st0 a0 m) (aux_at s fn y0 st0 a0 m) j /\
  st_at s fn y0 st0 a0 (m + j) = st_at s fn (y_at s fn y0 st0 a0 m) (st_at s fn y0 st0 a0 m) (aux_at s fn y0 st0 a0 m) j /\
  aux_at s fn y0 st0 a0 (m + j) = aux_at s fn (y_at s fn y0 st0 a0 m) (st_at s fn y0 st0 a0 m) (aux_at s fn y0 st0 a0 m) j.
Proof. intros. pose proof (trace_add _ _ _ s fn y0 st0 a0 m j) as E. repeat split; [exact (f_equal (fun t => fst (fst t)) E)|exact (f_equal (fun t => snd (fst t)) E)|exact (f_equal snd E)]. Qed.

Section NewtonCodes.
  Context {N : Num} {Aux M : Type}.
  Variables (jac : (list N -> list N * Aux) -> list N -> M) (lsolve : M -> list N -> list N * results) (P : nc_params (N:=N)).
  Lemma nc_code : forall y (st : nc_state (N:=N) (M:=M)), nc_cauchy P = true -> nc_result st <> nonlinear_max_steps_reached -> snd (nc_terminate P y st) <> nonlinear_max_steps_reached.
  Proof. intros y st HC Ht. unfold nc_terminate. rewrite HC. cbn [snd]. destruct (negb _); [exact Ht|discriminate]. Qed.
  Lemma nc_code_step : forall fn y st, nc_is_newton P = true -> (forall j b, snd (lsolve j b) <> nonlinear_max_steps_reached) ->
    nc_result (snd (fst (nc_step_fn jac lsolve P fn y st))) <> nonlinear_max_steps_reached.
  Proof.
    intros fn y st HN HL. unfold nc_step_fn, nc_solve. rewrite HN. destruct (fn y) as [fx a]. pose proof (HL (jac fn y) fx) as H.
    destruct (lsolve (jac fn y) fx). exact H.
  Qed.
End NewtonCodes.

(** FixedPointIteration and Newton (default termination) can be interrupted: if a solve used up a budget of m steps,
    solving again from its value with a budget of k steps, of which it takes j >= 1, gives the value, result and aux of
    one solve with a budget of m + k steps, which takes m + j. *)
Lemma C118_resume_pf :
  forall (N : Num) (Aux : Type) allfinite (s : Solver (list N) (list N) Aux) fn,
    (exists rtol atol damp norm, s = fixed_point_iteration rtol atol damp norm) \/
    (exists M jac (lsolve : M -> _) P, s = newton_chord jac lsolve P /\ nc_is_newton P = true /\ nc_cauchy P = true /\
       forall j b, snd (lsolve j b) <> nonlinear_max_steps_reached) ->
  forall y0 fs auxs fuel1 fuel2 m k j sol1 sol2,
    iterative_solve allfinite s fn fuel1 (Some m) false y0 fs auxs = Ret sol1 -> result sol1 = nonlinear_max_steps_reached ->
    iterative_solve allfinite s fn fuel2 (Some k) false (value sol1) fs auxs = Ret sol2 -> took sol2 j -> 1 <= j ->
  forall fuel, m + k < fuel -> exists sol, iterative_solve allfinite s fn fuel (Some (m + k)) false y0 fs auxs = Ret sol /\
    value sol = value sol2 /\ result sol = result sol2 /\ aux sol = aux sol2 /\ took sol (m + j).
Proof.
  intros N Aux allfinite s fn Hs y0 fs auxs fuel1 fuel2 m k j sol1 sol2 H1 R1 H2 T2 Hj fuel Hf.
  assert (K : (forall y a st r, s_post s fn y a st r = (y, a, [])) /\
    (forall y st st', fst (fst (s_step s fn y st)) = fst (fst (s_step s fn y st')) /\ snd (s_step s fn y st) = snd (s_step s fn y st') /\
       forall z, s_terminate s fn z (snd (fst (s_step s fn y st))) = s_terminate s fn z (snd (fst (s_step s fn y st')))) /\
    (forall y, exists st, s_init s fn y fs auxs = Ret st) /\
    (forall st0, s_init s fn y0 fs auxs = Ret st0 -> forall k, says_result s fn y0 st0 (auxs fill0) k <> nonlinear_max_steps_reached)).
  { destruct Hs as [(rtol & atol & damp & norm & ->)|(M & jac & lsolve & P & -> & HN & HC & HL)].
    - split; [reflexivity|]. split; [|split; [intro y; eexists; reflexivity|intros; discriminate]]. intros y st st'. cbn. unfold fp_step. destruct (fn y). auto.
    - split; [reflexivity|]. split; [|split; [intro y; eexists; reflexivity|]].
      2: { intros st0 [= <-] n. unfold says_result. cbn [s_terminate newton_chord]. apply nc_code; [exact HC|].
           destruct n as [|n]; [cbn; discriminate|]. unfold st_at. cbn [trace s_step newton_chord]. apply nc_code_step; assumption. }
      intros y st st'. cbn. unfold nc_step_fn, nc_solve. rewrite HN, HC. destruct (fn y) as [fx a].
      destruct (lsolve (jac fn y) fx) as [dd rr]. cbn. unfold nc_terminate. rewrite HC. cbn. auto. }
  destruct K as (Post & Forget & Ini & Code).
  assert (C : exists st0, s_init s fn y0 fs auxs = Ret st0 /\ value sol1 = y_at s fn y0 st0 (auxs fill0) m /\
    forall j, j <= m -> ~ stops allfinite s fn y0 st0 (auxs fill0) j).
  { destruct (Ini y0) as (st0 & I). exists st0. split; [exact I|]. exact (ran_out _ _ _ _ _ _ _ _ _ _ _ _ _ I (Code st0 I) Post H1 R1). }
  destruct C as (st0 & I0 & V & Quiet). destruct (Ini (value sol1)) as (st1 & I1).
  apply (join allfinite s fn y0 (value sol1) st0 st1 fs auxs I0 I1 Post m 0) with (fuel := fuel2); try assumption.
  - intro i. destruct (y_add _ _ _ s fn y0 st0 (auxs fill0) m i) as (-> & _ & _). cbn [Nat.add]. rewrite V. apply forget_y. exact Forget.
  - intros [|i] Hi; [lia|]. destruct (y_add _ _ _ s fn y0 st0 (auxs fill0) m (S i)) as (_ & _ & ->). cbn [Nat.add]. rewrite V. apply forget_rest. exact Forget.
  - intros [|i] y Hi; [lia|]. destruct (y_add _ _ _ s fn y0 st0 (auxs fill0) m (S i)) as (_ & -> & _). cbn [Nat.add]. rewrite V. apply forget_rest. exact Forget.
Qed.

Definition then64 {A S} (o : outcome (Solution (list f64) A S)) (g : f64 -> bool) : bool :=
  match o with Ret sol => match value sol with [x] => g x | _ => false end | _ => false end.
Lemma then64_sound : forall A S (o : outcome (Solution (list f64) A S)) g sol x, then64 o g = true -> o = Ret sol -> value sol = [x] -> g x = true.
Proof. intros A S o g sol x H -> E. cbn in H. rewrite E in H. exact H. Qed.

(** Newton on x^2 from 1: two steps lead to 1/4, from there three more to 1/32; all five at once do the same *)
Example C118_resume_ex_pf :
  let solve ms x := iterative_solve (vallfinite (N:=F64)) (newton_chord sq64_slope over64 (sq64_params true)) sq64 9 (Some ms) false [x] (fun _ => [f64_ofQ 0]) (fun _ => tt) in
  exists sol1 sol2 sol, solve 2 (f64_ofQ 1) = Ret sol1 /\ result sol1 = nonlinear_max_steps_reached /\
    (exists x, value sol1 = [x] /\ neqb (n:=F64) x (f64_ofQ (1#4)) = true /\ solve 4 x = Ret sol2) /\
    solve 6 (f64_ofQ 1) = Ret sol /\ value sol = value sol2 /\ result sol = successful /\ result sol2 = successful /\ took sol2 3 /\ took sol 5.
Proof.
  intro solve.
  assert (Q1 : chk (solve 2 (f64_ofQ 1)) nonlinear_max_steps_reached (Z.of_nat 2) (f64_ofQ (1#4)) = true) by (vm_compute; reflexivity).
  destruct (chk_sound _ _ _ _ _ _ Q1) as (sol1 & H1 & R1 & _ & x & V1 & X1).
  assert (Q2 : then64 (solve 2 (f64_ofQ 1)) (fun x => chk (solve 4 x) successful (Z.of_nat 3) (f64_ofQ (1#32))) = true) by (vm_compute; reflexivity).
  apply (then64_sound _ _ _ _ _ _ Q2 H1) in V1 as Q4. clear Q2. rename Q4 into Q2. destruct (chk_sound _ _ _ _ _ _ Q2) as (sol2 & H2 & R2 & T2 & _).
  destruct (C118_resume_pf F64 unit (vallfinite (N:=F64)) (newton_chord sq64_slope over64 (sq64_params true)) sq64) with
    (y0 := [f64_ofQ 1]) (fs := fun _ : fillv => [f64_ofQ 0]) (auxs := fun _ : fillv => tt) (fuel1 := 9) (fuel2 := 9) (m := 2) (k := 4) (j := 3) (sol1 := sol1) (sol2 := sol2) (fuel := 9)
    as (sol & H & V & R & _ & K); try assumption; try lia.
  - right. exists f64, sq64_slope, over64, (sq64_params true). split; [reflexivity|]. split; [reflexivity|]. split; [reflexivity|]. discriminate.
  - exact (eq_trans (f_equal (fun v => iterative_solve (vallfinite (N:=F64)) (newton_chord sq64_slope over64 (sq64_params true)) sq64 9 (Some 4) false v (fun _ => [f64_ofQ 0]) (fun _ => tt)) V1) H2).
  - exists sol1, sol2, sol. repeat split; try assumption; [|rewrite R; exact R2]. exists x. auto.
Qed.

(** Chord cannot be interrupted: it keeps the slope of the point it started from, and a restart takes a new one.
    On x^2 from 1 two steps lead to 3/8, one step and then another to 1/4. *)
Lemma C118_chord_pf :
  let solve ms x := iterative_solve (vallfinite (N:=F64)) (newton_chord sq64_slope over64 (sq64_params false)) sq64 9 (Some ms) false [x] (fun _ => [f64_ofQ 0]) (fun _ => tt) in
  exists sol1 sol2 sol x y z, solve 1 (f64_ofQ 1) = Ret sol1 /\ result sol1 = nonlinear_max_steps_reached /\ value sol1 = [x] /\
    solve 1 x = Ret sol2 /\ took sol2 1 /\ value sol2 = [y] /\ neqb (n:=F64) y (f64_ofQ (1#4)) = true /\
    solve 2 (f64_ofQ 1) = Ret sol /\ took sol 2 /\ value sol = [z] /\ neqb (n:=F64) z (f64_ofQ (3#8)) = true.
Proof.
  intro solve.
  assert (Q1 : chk (solve 1 (f64_ofQ 1)) nonlinear_max_steps_reached (Z.of_nat 1) (f64_ofQ (1#2)) = true) by (vm_compute; reflexivity).
  destruct (chk_sound _ _ _ _ _ _ Q1) as (sol1 & H1 & R1 & _ & x & V1 & X1).
  assert (Q2 : then64 (solve 1 (f64_ofQ 1)) (fun x => chk (solve 1 x) nonlinear_max_steps_reached (Z.of_nat 1) (f64_ofQ (1#4))) = true) by (vm_compute; reflexivity).
  apply (then64_sound _ _ _ _ _ _ Q2 H1) in V1 as Q4. clear Q2. rename Q4 into Q2. destruct (chk_sound _ _ _ _ _ _ Q2) as (sol2 & H2 & _ & T2 & y & V2 & Y2).
  assert (Q3 : chk (solve 2 (f64_ofQ 1)) nonlinear_max_steps_reached (Z.of_nat 2) (f64_ofQ (3#8)) = true) by (vm_compute; reflexivity).
  destruct (chk_sound _ _ _ _ _ _ Q3) as (sol & H3 & _ & T3 & z & V3 & Z3).
  exists sol1, sol2, sol, x, y, z. repeat split; assumption.
Qed.

(** ** Gradient descent with a fixed rate *)
Section Rate.
  Context {N : Num} {Aux : Type}.
  Variables (P : ar_tols N) (rate : N) (norm : option (list N -> N)) (grad_of : (list N -> N * Aux) -> list N -> list N) (fn : list N -> N * Aux).
  Let s := gradient_descent_solver P (learning_rate rate) (steepest_descent norm) grad_of.
  Definition after (y : list N) (t : bool) : St s :=
    @mkGd N Aux (learning_rate rate) (steepest_descent norm) false
      (vadd y (vscale (nneg rate) (normalise norm (grad_of fn y)))) tt (EvalGrad (fst (fn y)) (grad_of fn y)) (snd (fn y)) (normalise norm (grad_of fn y)) t successful.
  Lemma rate_step : forall y st, let t := gd_terminate (snd (fst (s_step s fn y st))) in
    fst (fst (s_step s fn y st)) = gd_y_eval st /\ snd (fst (s_step s fn y st)) = after (gd_y_eval st) t /\
    (gd_first_step st = true -> t = false) /\ snd (s_step s fn y st) = if gd_first_step st then snd (fn (gd_y_eval st)) else gd_aux st.
  Proof.
    intros y st. cbn. unfold gd_step. cbn [se_step learning_rate d_step d_query steepest_descent]. unfold after. destruct (fn (gd_y_eval st)) as [fe xe]. cbn.
    repeat split. intros ->. reflexivity.
  Qed.

  Variables (fs : fillv -> N) (auxs : fillv -> Aux).
  Lemma rate_at : forall y0 st0, s_init s fn y0 fs auxs = Ret st0 -> gd_y_eval st0 = y0 /\ gd_first_step st0 = true /\
    forall k, st_at s fn y0 st0 (auxs fill0) (S k) = after (y_at s fn y0 st0 (auxs fill0) (S k)) (gd_terminate (st_at s fn y0 st0 (auxs fill0) (S k))).
  Proof.
    intros y0 st0 I. cbn in I. unfold gd_init in I. cbn in I. injection I as <-. split; [reflexivity|]. split; [reflexivity|].
    intro k. unfold st_at, y_at. cbn [trace]. destruct (rate_step (fst (fst (trace s fn y0 (@mkGd N Aux (learning_rate rate) (steepest_descent norm) true y0 tt (EvalGrad (fs fill0) y0) (auxs fill0) y0 false successful) (auxs fill0) k)))
      (snd (fst (trace s fn y0 (@mkGd N Aux (learning_rate rate) (steepest_descent norm) true y0 tt (EvalGrad (fs fill0) y0) (auxs fill0) y0 false successful) (auxs fill0) k)))) as (E1 & E2 & _ & _).
    rewrite E1. exact E2.
  Qed.
End Rate.

(** Gradient descent with a fixed learning rate can be interrupted too, at the price of one step: a restarted solve
    first evaluates the point it is given.  If a solve used up 1 + m steps and the restart takes 1 + j steps with j >= 1
    of its 1 + k, then one solve with 1 + m + k steps takes 1 + m + j and returns the same. *)
Lemma C118_gradient_descent_pf :
  forall (N : Num) (Aux : Type) allfinite (P : ar_tols N) (rate : N) norm grad_of (fn : list N -> N * Aux) y0 fs auxs fuel1 fuel2 m k j sol1 sol2,
    let s := gradient_descent_solver P (learning_rate rate) (steepest_descent norm) grad_of in
    iterative_solve allfinite s fn fuel1 (Some (1 + m)) false y0 fs auxs = Ret sol1 -> result sol1 = nonlinear_max_steps_reached ->
    iterative_solve allfinite s fn fuel2 (Some (1 + k)) false (value sol1) fs auxs = Ret sol2 -> took sol2 (1 + j) -> 1 <= j ->
  forall fuel, 1 + m + k < fuel -> exists sol, iterative_solve allfinite s fn fuel (Some (1 + m + k)) false y0 fs auxs = Ret sol /\
    value sol = value sol2 /\ result sol = result sol2 /\ aux sol = aux sol2 /\ took sol (1 + m + j).
Proof.
  intros N Aux allfinite P rate norm grad_of fn y0 fs auxs fuel1 fuel2 m k j sol1 sol2 s H1 R1 H2 T2 Hj fuel Hf.
  destruct (solve_ret_init _ _ _ _ _ _ _ _ _ _ H1) as (st0 & I0). destruct (solve_ret_init _ _ _ _ _ _ _ _ _ _ H2) as (st1 & I1).
  destruct (rate_at P rate norm grad_of fn fs auxs y0 st0 I0) as (_ & _ & A0). destruct (rate_at P rate norm grad_of fn fs auxs _ st1 I1) as (E1 & F1 & A1). fold s in A0, A1.
  assert (Code : forall i, says_result s fn y0 st0 (auxs fill0) i <> nonlinear_max_steps_reached).
  { intros [|i]; unfold says_result; cbn [s_terminate s gradient_descent_solver].
    - cbn in I0. unfold gd_init in I0. cbn in I0. injection I0 as <-. cbn. discriminate.
    - change (snd (gd_terminate (st_at s fn y0 st0 (auxs fill0) (S i)), gd_result (st_at s fn y0 st0 (auxs fill0) (S i))) <> nonlinear_max_steps_reached). rewrite A0. cbn. discriminate. }
  destruct (ran_out _ _ _ _ _ _ _ _ _ _ _ _ _ I0 Code (fun _ _ _ _ => eq_refl) H1 R1) as (V & Quiet).
  set (a0 := auxs fill0) in *.
  assert (Y1 : y_at s fn (value sol1) st1 a0 1 = value sol1).
  { unfold y_at. cbn [trace fst snd]. destruct (rate_step P rate norm grad_of fn (value sol1) st1) as (Q & _). exact (eq_trans Q E1). }
  assert (S1 : st_at s fn (value sol1) st1 a0 1 = st_at s fn y0 st0 a0 (1 + m)).
  { change (1 + m) with (S m). refine (eq_trans (A1 0) (eq_sym (eq_trans (A0 m) _))). symmetry. apply f_equal2; [exact (eq_trans Y1 V)|].
    transitivity false.
    - unfold st_at. cbn [trace fst snd]. destruct (rate_step P rate norm grad_of fn (value sol1) st1) as (_ & _ & Q & _). exact (Q F1).
    - pose proof (Quiet (S m) ltac:(lia)) as Z. unfold stops, says_terminate in Z. cbn [s_terminate s gradient_descent_solver fst] in Z.
      change (false = gd_terminate (st_at s fn y0 st0 a0 (S m))). destruct (gd_terminate (st_at s fn y0 st0 a0 (S m))) eqn:ET; [|reflexivity].
      exfalso. apply Z. left. reflexivity. }
  assert (TR : forall i, y_at s fn (value sol1) st1 a0 (1 + i) = y_at s fn y0 st0 a0 (1 + m + i) /\ st_at s fn (value sol1) st1 a0 (1 + i) = st_at s fn y0 st0 a0 (1 + m + i)).
  { induction i as [|i [IH1 IH2]].
    - rewrite !Nat.add_0_r. split; [rewrite Y1; exact V|exact S1].
    - rewrite !Nat.add_succ_r. unfold y_at, st_at in *. cbn [trace]. rewrite IH1, IH2. auto. }
  apply (join allfinite s fn y0 (value sol1) st0 st1 fs auxs I0 I1 (fun _ _ _ _ => eq_refl) (1 + m) 1) with (fuel := fuel2); try assumption.
  - intro i. apply TR.
  - intros [|i] Hi; [lia|]. rewrite !Nat.add_succ_r. destruct (TR i) as [T1 T3].
    exact (f_equal snd (f_equal2 (s_step s fn) T1 T3)).
  - intros i y _. exact (f_equal (s_terminate s fn y) (proj2 (TR i))).
Qed.

(** Gradient descent on 128 x^2 from 1, halving x: three steps lead to 1/4; the restart takes 1 + 4 steps to 1/64, and
    one solve gets there in 3 + 4 *)
Example C118_gradient_descent_ex_pf :
  let P := mkTols (N:=F64) (f64_ofQ 0) (f64_ofQ (1#4)) (max_norm (N:=F64)) in
  let s := gradient_descent_solver P (learning_rate (f64_ofQ (1#512))) (steepest_descent None) (lifted64_grad 128) in
  let solve ms x := iterative_solve (vallfinite (N:=F64)) s (lifted64 128 0) 19 (Some ms) false [x] (fun _ => f64_ofQ 0) (fun _ => tt) in
  exists sol1 sol2 sol x z, solve 3 (f64_ofQ 1) = Ret sol1 /\ result sol1 = nonlinear_max_steps_reached /\ value sol1 = [x] /\ neqb (n:=F64) x (f64_ofQ (1#4)) = true /\
    solve 10 x = Ret sol2 /\ took sol2 5 /\ value sol2 = [z] /\ neqb (n:=F64) z (f64_ofQ (1#64)) = true /\
    solve 12 (f64_ofQ 1) = Ret sol /\ value sol = value sol2 /\ took sol 7.
Proof.
  intros P s solve.
  assert (Q1 : chk (solve 3 (f64_ofQ 1)) nonlinear_max_steps_reached (Z.of_nat 3) (f64_ofQ (1#4)) = true) by (vm_compute; reflexivity).
  destruct (chk_sound _ _ _ _ _ _ Q1) as (sol1 & H1 & R1 & _ & x & V1 & X1).
  assert (Q2 : then64 (solve 3 (f64_ofQ 1)) (fun x => chk (solve 10 x) successful (Z.of_nat 5) (f64_ofQ (1#64))) = true) by (vm_compute; reflexivity).
  apply (then64_sound _ _ _ _ _ _ Q2 H1) in V1 as Q4. clear Q2. rename Q4 into Q2. destruct (chk_sound _ _ _ _ _ _ Q2) as (sol2 & H2 & R2 & T2 & z & V2 & Z2).
  destruct (C118_gradient_descent_pf F64 unit (vallfinite (N:=F64)) P (f64_ofQ (1#512)) None (lifted64_grad 128) (lifted64 128 0)) with
    (y0 := [f64_ofQ 1]) (fs := fun _ : fillv => f64_ofQ 0) (auxs := fun _ : fillv => tt) (fuel1 := 19) (fuel2 := 19) (m := 2) (k := 9) (j := 4) (sol1 := sol1) (sol2 := sol2) (fuel := 19)
    as (sol & H & V & R & _ & K); try assumption; try lia.
  - exact (eq_trans (f_equal (fun v => iterative_solve (vallfinite (N:=F64)) s (lifted64 128 0) 19 (Some 10) false v (fun _ => f64_ofQ 0) (fun _ => tt)) V1) H2).
  - exists sol1, sol2, sol, x, z. repeat split; assumption.
Qed.

(** With a budget of one step the gradient-based minimisers and the least-squares solvers return y0: the first step
    only evaluates the starting point.  Calling them step by step, each time from the value returned, gets nowhere. *)
Lemma C118_single_step_pf :
  forall (N : Num) (Aux : Type) allfinite (P : ar_tols N) (search : builtin_search N) (descent : Descent N) y0 auxs fuel throw,
    (forall grad_of fn fs sol,
       iterative_solve allfinite (gradient_descent_solver (Aux:=Aux) P (search_of search) descent grad_of) fn fuel (Some 1) throw y0 fs auxs = Ret sol ->
       value sol = y0) /\
    (forall HSt (init : _ -> _ -> _ -> finfo N * HSt) update grad_of fn fs sol,
       iterative_solve allfinite (quasi_newton_solver (Aux:=Aux) P (search_of search) descent grad_of init update) fn fuel (Some 1) throw y0 fs auxs = Ret sol ->
       value sol = y0) /\
    (forall jac_of fn fs sol,
       iterative_solve allfinite (gauss_newton_solver (Aux:=Aux) P (search_of search) descent jac_of) fn fuel (Some 1) throw y0 fs auxs = Ret sol ->
       value sol = y0).
Proof.
  intros N Aux allfinite P search descent y0 auxs fuel throw.
  assert (FA : forall (y ye : list N) i j st, snd (fst (fst (se_step (search_of search) true y ye i j st))) = true).
  { intros. destruct search; cbn; try reflexivity; apply orb_true_r. }
  assert (G : forall Out (s : Solver (list N) Out Aux) fn fs sol, iterative_solve allfinite s fn fuel (Some 1) throw y0 fs auxs = Ret sol ->
     (forall y a st r, s_post s fn y a st r = (y, a, [])) -> (forall st0, s_init s fn y0 fs auxs = Ret st0 -> fst (fst (s_step s fn y0 st0)) = y0) -> value sol = y0).
  { intros Out s fn fs sol H Post HS. destruct (solve_ret_init _ _ _ _ _ _ _ _ _ _ H) as (st0 & I0).
    destruct (iterative_solve_inv allfinite s fn y0 st0 _ fs auxs eq_refl I0 _ _ _ _ H) as (k & _ & (_ & _ & S3) & -> & _).
    pose proof (solution_at_fields allfinite s fn y0 st0 (auxs fill0) (Some 1) k) as (_ & _ & EV & _). rewrite Post in EV. injection EV as -> _.
    specialize (S3 1 eq_refl). destruct k as [|[|k]]; [reflexivity| |lia]. apply HS. exact I0. }
  split; [|split].
  - intros grad_of fn fs sol H. apply (G _ _ _ _ _ H); [reflexivity|]. intros st0 I. cbn in I |- *. unfold gd_init in I. cbv zeta in I. destruct (negb _); [discriminate I|]. injection I as <-.
    unfold gd_step. cbn [gd_y_eval gd_first_step gd_f_info gd_search_state]. destruct (fn y0) as [fe xe].
    match goal with |- context [se_step ?a ?b ?c ?d ?e ?f ?g] => pose proof (FA c d e f g) as Q; destruct (se_step a b c d e f g) as [[[t acc] sr] ss] end. cbn in Q. subst acc.
    destruct (d_step _ _ _). reflexivity.
  - intros HSt init update grad_of fn fs sol H. apply (G _ _ _ _ _ H); [reflexivity|]. intros st0 I. cbn [s_init s_step quasi_newton_solver] in I |- *. unfold qn_init in I. cbv zeta in I.
    destruct (init y0 _ _) as [i h]. destruct (negb _); [discriminate I|]. injection I as <-.
    unfold qn_step. cbn [qn_y_eval qn_first_step qn_f_info qn_search_state qn_hessian_update_state qn_descent_state]. destruct (fn y0) as [fe xe].
    match goal with |- context [se_step ?a ?b ?c ?d ?e ?f ?g] => pose proof (FA c d e f g) as Q; destruct (se_step a b c d e f g) as [[[t acc] sr] ss] end. cbn in Q. subst acc.
    destruct (update _ _ _ _ _ _). destruct (d_step _ _ _). reflexivity.
  - intros jac_of fn fs sol H. apply (G _ _ _ _ _ H); [reflexivity|]. intros st0 I. cbn [s_init s_step gauss_newton_solver] in I |- *. unfold gn_init in I. cbv zeta in I.
    destruct (negb _); [discriminate I|]. injection I as <-.
    unfold gn_step. cbn [gn_y_eval gn_first_step gn_f_info gn_search_state gn_descent_state]. destruct (fn y0) as [fe xe].
    match goal with |- context [se_step ?a ?b ?c ?d ?e ?f ?g] => pose proof (FA c d e f g) as Q; destruct (se_step a b c d e f g) as [[[t acc] sr] ss] end. cbn in Q. subst acc.
    destruct (d_step _ _ _). reflexivity.
Qed.

Example C118_single_step_ex_pf :
  let P := mkTols (N:=F64) (f64_ofQ 0) (f64_ofQ (1#4)) (max_norm (N:=F64)) in
  let s := gradient_descent_solver P (search_of (LearningRate (N:=F64) (f64_ofQ (1#512)))) (steepest_descent None) (lifted64_grad 128) in
  exists sol, iterative_solve (vallfinite (N:=F64)) s (lifted64 128 0) 19 (Some 1) false [f64_ofQ 1] (fun _ => f64_ofQ 0) (fun _ => tt) = Ret sol /\
    result sol = nonlinear_max_steps_reached /\ value sol = [f64_ofQ 1].
Proof.
  intros P s.
  match goal with |- exists sol, ?o = _ /\ _ => assert (Q : chk o nonlinear_max_steps_reached (Z.of_nat 1) (f64_ofQ 1) = true) by (vm_compute; reflexivity) end.
  destruct (chk_sound _ _ _ _ _ _ Q) as (sol & H & R & _). exists sol. split; [exact H|]. split; [exact R|].
  exact (proj1 (C118_single_step_pf F64 unit _ P (LearningRate (N:=F64) (f64_ofQ (1#512))) (steepest_descent None) _ _ _ _) _ _ _ _ H).
Qed.
