(** Property theorems: Iterate.
    Statements only; each is closed by the lemma of the same name (suffix _pf)
    in the proof file.  [Example]s show concrete cases meeting the hypotheses. *)

From Coq Require Import List Bool Arith Lia ZArith String.
From Verif Require Import Results Iterate Spec_Iterate.
Import ListNotations.
From Coq Require Import Reals.
From Verif Require Import Num.
From Verif Require Import Iterate_proofs.

(** A solve with budget [m] always comes back, with at most [m] calls of
    `step`, and the reported num_steps is the number of calls. *)
Theorem C01_step_budget :
  forall (Y Out Aux : Type) (allfinite : Y -> bool) (s : Solver Y Out Aux)
         (fn : Y -> Out * Aux) y0 fs auxs st0 (ms : option nat) fuel throw sol,
    s_init s fn y0 fs auxs = Ret st0 ->
    iterative_solve allfinite (counting s) fn fuel ms throw y0 fs auxs = Ret sol ->
    let calls := snd (state sol) in
    hd_error (sol_stats sol) = Some ("num_steps"%string, Some (Z.of_nat calls)) /\
    (forall m, ms = Some m -> calls <= m).
Proof. exact C01_step_budget_pf. Qed.
Print Assumptions C01_step_budget.

Example C01_step_budget_ex :
  exists sol,
    iterative_solve toy_finite (counting toy) toy_fn 10 (Some 4) false (Some 6)
      toy_struct toy_struct = Ret sol /\
    snd (state sol) = 4 /\ value sol = Some 2 /\
    result sol = nonlinear_max_steps_reached.
Proof. exact C01_step_budget_ex_pf. Qed.

(** With a finite budget a solve always finishes (any fuel above the budget
    is enough), whatever the solver does. *)
Theorem C01_finite_budget_finishes :
  forall (Y Out Aux : Type) (allfinite : Y -> bool) (s : Solver Y Out Aux)
         (fn : Y -> Out * Aux) y0 fs auxs st0 m fuel,
    s_init s fn y0 fs auxs = Ret st0 -> m < fuel ->
    exists sol,
      iterative_solve allfinite s fn fuel (Some m) false y0 fs auxs = Ret sol.
Proof. exact C01_finite_budget_finishes_pf. Qed.
Print Assumptions C01_finite_budget_finishes.

(** max_steps=0: y0 and the zero-filled aux go straight to postprocess. *)
Theorem C01_zero_budget :
  forall (Y Out Aux : Type) (allfinite : Y -> bool) (s : Solver Y Out Aux)
         (fn : Y -> Out * Aux) y0 fs auxs st0 fuel sol,
    s_init s fn y0 fs auxs = Ret st0 ->
    iterative_solve allfinite s fn fuel (Some 0) false y0 fs auxs = Ret sol ->
    exists r, (value sol, aux sol) = fst (s_post s fn y0 (auxs fill0) st0 r) /\
              state sol = st0 /\ result sol = r.
Proof. exact C01_zero_budget_pf. Qed.
Print Assumptions C01_zero_budget.

(** The solve stops exactly at the first stopping iterate: it returns iff
    such an iterate exists (below the fuel), and what it hands to postprocess
    is that iterate. *)
Theorem C02_first_stop :
  forall (Y Out Aux : Type) (allfinite : Y -> bool) (s : Solver Y Out Aux)
         (fn : Y -> Out * Aux) y0 fs auxs st0 (ms : option nat) fuel,
    s_init s fn y0 fs auxs = Ret st0 ->
    let aux0 := auxs fill0 in
    ((exists sol, iterative_solve allfinite s fn fuel ms false y0 fs auxs = Ret sol) <->
     (exists k, k < fuel /\ stop_index allfinite s fn y0 st0 aux0 ms k)) /\
    (forall sol k,
       iterative_solve allfinite s fn fuel ms false y0 fs auxs = Ret sol ->
       stop_index allfinite s fn y0 st0 aux0 ms k ->
       state sol = st_at s fn y0 st0 aux0 k /\
       (value sol, aux sol) =
         fst (s_post s fn (y_at s fn y0 st0 aux0 k) (aux_at s fn y0 st0 aux0 k)
                (st_at s fn y0 st0 aux0 k) (result sol)) /\
       hd_error (sol_stats sol) = Some ("num_steps"%string, Some (Z.of_nat k))).
Proof. exact C02_first_stop_pf. Qed.
Print Assumptions C02_first_stop.

Example C02_first_stop_ex :
  stop_index toy_finite toy toy_fn (Some 3) 0 tt None 4 /\
  stop_index toy_finite toy toy_fn (Some 9) 0 tt None 4 /\
  iterative_solve toy_finite toy toy_fn 10 None false (Some 3) toy_struct toy_struct =
    Ret (mkSolution (Some 0) successful tt
           [("num_steps"%string, Some 4%Z); ("max_steps"%string, None)] 4).
Proof. exact C02_first_stop_ex_pf. Qed.

(** The reported status is the one the run deserves. *)
Theorem C03_status :
  forall (Y Out Aux : Type) (allfinite : Y -> bool) (s : Solver Y Out Aux)
         (fn : Y -> Out * Aux) y0 fs auxs st0 (ms : option nat) fuel sol k,
    s_init s fn y0 fs auxs = Ret st0 ->
    iterative_solve allfinite s fn fuel ms false y0 fs auxs = Ret sol ->
    stop_index allfinite s fn y0 st0 (auxs fill0) ms k ->
    status allfinite s fn y0 st0 (auxs fill0) k (result sol).
Proof. exact C03_status_pf. Qed.
Print Assumptions C03_status.

(** `successful` means: the solver itself said "terminate, successful" about a
    finite point, within the budget. *)
Theorem C03_success_sound :
  forall (Y Out Aux : Type) (allfinite : Y -> bool) (s : Solver Y Out Aux)
         (fn : Y -> Out * Aux) y0 fs auxs st0 (ms : option nat) fuel throw sol,
    s_init s fn y0 fs auxs = Ret st0 ->
    iterative_solve allfinite s fn fuel ms throw y0 fs auxs = Ret sol ->
    result sol = successful ->
    exists k,
      hd_error (sol_stats sol) = Some ("num_steps"%string, Some (Z.of_nat k)) /\
      (forall m, ms = Some m -> k <= m) /\
      s_terminate s fn (asked s fn y0 st0 (auxs fill0) k) (state sol) = (true, successful) /\
      allfinite (asked s fn y0 st0 (auxs fill0) k) = true /\
      state sol = st_at s fn y0 st0 (auxs fill0) k /\
      (value sol, aux sol) =
        fst (s_post s fn (y_at s fn y0 st0 (auxs fill0) k)
               (aux_at s fn y0 st0 (auxs fill0) k) (state sol) successful).
Proof. exact C03_success_sound_pf. Qed.
Print Assumptions C03_success_sound.

(** Running out of budget without convergence or failure is reported as
    `nonlinear_max_steps_reached`, and that code means nothing else (for
    solvers that do not use it themselves). *)
Theorem C03_max_steps_iff :
  forall (Y Out Aux : Type) (allfinite : Y -> bool) (s : Solver Y Out Aux)
         (fn : Y -> Out * Aux) y0 fs auxs st0 (ms : option nat) fuel sol,
    s_init s fn y0 fs auxs = Ret st0 ->
    (forall y st, snd (s_terminate s fn y st) <> nonlinear_max_steps_reached) ->
    iterative_solve allfinite s fn fuel ms false y0 fs auxs = Ret sol ->
    (result sol = nonlinear_max_steps_reached <->
     exists m, ms = Some m /\
       forall j, j <= m -> ~ stops allfinite s fn y0 st0 (auxs fill0) j).
Proof. exact C03_max_steps_iff_pf. Qed.
Print Assumptions C03_max_steps_iff.

Example C03_status_ex :
  let run m y := match iterative_solve toy_finite toy toy_fn 30 m false (Some y)
                         toy_struct toy_struct with
                 | Ret sol => Some (value sol, result sol) | _ => None end in
  run (Some 20) 5 = Some (Some 0, successful) /\
  run (Some 3) 5 = Some (Some 2, nonlinear_max_steps_reached) /\
  run (Some 20) 15 = Some (Some 12, nonlinear_divergence) /\
  run (Some 20) 8 = Some (None, nonfinite).
Proof. exact C03_status_ex_pf. Qed.

(** Part of C04 that holds for every solver: when success is reported, the
    point the last step started from is finite. *)
Theorem C04_previous_finite_partial :
  forall (Y Out Aux : Type) (allfinite : Y -> bool) (s : Solver Y Out Aux)
         (fn : Y -> Out * Aux) y0 fs auxs st0 (ms : option nat) fuel throw sol,
    s_init s fn y0 fs auxs = Ret st0 ->
    iterative_solve allfinite s fn fuel ms throw y0 fs auxs = Ret sol ->
    result sol = successful ->
    exists k, state sol = st_at s fn y0 st0 (auxs fill0) k /\
      (forall j, j < k -> allfinite (y_at s fn y0 st0 (auxs fill0) j) = true) /\
      (k = 0 -> allfinite y0 = true).
Proof. exact C04_previous_finite_partial_pf. Qed.
Print Assumptions C04_previous_finite_partial.

(** C04 itself fails: a solver that follows the documented interface can be
    reported successful while the returned value is infinite, because the
    finiteness check looks at the point before the last step. *)
Theorem C04_success_finite_refuted :
  exists sol,
    iterative_solve (nisfin (n:=XR)) recip_solver recip 5 (Some 3) true (Fin 0)
      (fun _ => Fin 0) (fun _ => tt) = Ret sol /\
    result sol = successful /\ value sol = PInf.
Proof. exact C04_success_finite_refuted_pf. Qed.
Print Assumptions C04_success_finite_refuted.

(** throw=True raises exactly when the status is not `successful`; otherwise
    both settings agree. *)
Theorem C05_throw :
  forall (Y Out Aux : Type) (allfinite : Y -> bool) (s : Solver Y Out Aux)
         (fn : Y -> Out * Aux) y0 fs auxs st0 (ms : option nat) fuel sol,
    s_init s fn y0 fs auxs = Ret st0 ->
    iterative_solve allfinite s fn fuel ms false y0 fs auxs = Ret sol ->
    (result sol = successful ->
       iterative_solve allfinite s fn fuel ms true y0 fs auxs = Ret sol) /\
    (result sol <> successful ->
       iterative_solve allfinite s fn fuel ms true y0 fs auxs =
       Raise (SolveFailed (result sol))).
Proof. exact C05_throw_pf. Qed.
Print Assumptions C05_throw.

(** throw=False never raises because of the status: the only exceptions are
    those of the solver's own init. *)
Theorem C05_no_throw :
  forall (Y Out Aux : Type) (allfinite : Y -> bool) (s : Solver Y Out Aux)
         (fn : Y -> Out * Aux) y0 fs auxs (ms : option nat) fuel e,
    iterative_solve allfinite s fn fuel ms false y0 fs auxs = Raise e <->
    s_init s fn y0 fs auxs = Raise e.
Proof. exact C05_no_throw_pf. Qed.
Print Assumptions C05_no_throw.

Example C05_throw_ex :
  iterative_solve toy_finite toy toy_fn 30 (Some 3) true (Some 5) toy_struct toy_struct =
    Raise (SolveFailed nonlinear_max_steps_reached) /\
  exists sol,
    iterative_solve toy_finite toy toy_fn 30 (Some 9) true (Some 5) toy_struct toy_struct =
      Ret sol /\ value sol = Some 0.
Proof. exact C05_throw_ex_pf. Qed.

(** A non-finite y0 is reported without taking a step. *)
Theorem C06_nonfinite_start :
  forall (Y Out Aux : Type) (allfinite : Y -> bool) (s : Solver Y Out Aux)
         (fn : Y -> Out * Aux) y0 fs auxs st0 (ms : option nat) fuel,
    s_init s fn y0 fs auxs = Ret st0 ->
    allfinite y0 = false -> 0 < fuel ->
    exists sol,
      iterative_solve allfinite s fn fuel ms false y0 fs auxs = Ret sol /\
      result sol = nonfinite /\ state sol = st0 /\
      (value sol, aux sol) = fst (s_post s fn y0 (auxs fill0) st0 nonfinite) /\
      hd_error (sol_stats sol) = Some ("num_steps"%string, Some 0%Z).
Proof. exact C06_nonfinite_start_pf. Qed.
Print Assumptions C06_nonfinite_start.

Example C06_nonfinite_start_ex :
  exists sol,
    iterative_solve toy_finite toy toy_fn 30 None false None toy_struct toy_struct = Ret sol /\
    result sol = nonfinite /\ value sol = None.
Proof. exact C06_nonfinite_start_ex_pf. Qed.
