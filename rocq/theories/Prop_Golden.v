(** Property theorems: Golden.
    Statements only; each is closed by the lemma of the same name (suffix _pf)
    in the proof file.  [Example]s show concrete cases meeting the hypotheses. *)

From Coq Require Import String List Bool Arith Lia ZArith QArith Qreals Reals Lra Psatz.
From Verif Require Import Num NumFacts Vec Results Iterate Spec_Iterate Iterate_proofs.
From Verif Require Import Golden Spec_Golden NumF64 NumF64_facts BestSoFar.
Import ListNotations.
Local Open Scope nat_scope.
From Verif Require Import Golden_proofs.

(** Missing from the full claim: intervals with lower <> 0 (for those the
    claim is false, see C19_refuted). *)
Theorem C19_golden_ratio_kept_partial :
  forall (Aux : Type) (rtol atol upper : R) (fn : R -> R * Aux) (y0 : R) fs auxs st0 (n : nat),
    let s := golden (N:=RN) rtol atol 0%R upper in
    (0 < upper)%R ->
    s_init s fn y0 fs auxs = Ret st0 ->
    let st := st_at s fn y0 st0 (auxs fill0) n in
    golden_split (gs_lower st) (gs_middle st) (gs_upper st) /\
    (gs_upper st - gs_lower st = upper / phi ^ n)%R.
Proof. exact C19_golden_ratio_kept_partial_pf. Qed.
Print Assumptions C19_golden_ratio_kept_partial.

(** Two functions that agree on [0, upper] cannot be told apart: fn is
    evaluated nowhere else.  Missing from the full claim: lower <> 0. *)
Theorem C18_evaluates_inside_partial :
  forall (Aux : Type) (rtol atol upper : R) (fn fn' : R -> R * Aux) (y0 : R) fs auxs fuel ms throw,
    let s := golden (N:=RN) rtol atol 0%R upper in
    (0 < upper)%R ->
    (forall x, (0 <= x <= upper)%R -> fn x = fn' x) ->
    iterative_solve (fun _ => true) s fn fuel ms throw y0 fs auxs =
    iterative_solve (fun _ => true) s fn' fuel ms throw y0 fs auxs.
Proof. exact C18_evaluates_inside_partial_pf. Qed.
Print Assumptions C18_evaluates_inside_partial.

(** Every iterate, and so every returned value, lies in (0, upper).  Missing
    from the full claim: lower <> 0. *)
Theorem C18_returns_inside_partial :
  forall (Aux : Type) (rtol atol upper : R) (fn : R -> R * Aux) (y0 : R) fs auxs fuel ms throw sol,
    let s := golden (N:=RN) rtol atol 0%R upper in
    (0 < upper)%R -> ms <> Some 0 ->
    iterative_solve (fun _ => true) s fn fuel ms throw y0 fs auxs = Ret sol ->
    (0 < value sol < upper)%R.
Proof. exact C18_returns_inside_partial_pf. Qed.
Print Assumptions C18_returns_inside_partial.

(** After n steps the iterate is within upper/phi^n of the minimiser of a
    unimodal function, and the minimiser stays in the stored interval.
    Missing from the full claim: lower <> 0. *)
Theorem C20_unimodal_partial :
  forall (Aux : Type) (rtol atol upper : R) (fn : R -> R * Aux) (y0 : R) fs auxs st0 (x : R) (n : nat),
    let s := golden (N:=RN) rtol atol 0%R upper in
    (0 < upper)%R -> unimodal (fun z => fst (fn z)) 0 upper x ->
    s_init s fn y0 fs auxs = Ret st0 ->
    let st := st_at s fn y0 st0 (auxs fill0) n in
    (gs_lower st <= x <= gs_upper st)%R /\
    (1 <= n -> (Rabs (y_at s fn y0 st0 (auxs fill0) n - x) <= upper / phi ^ n)%R).
Proof. exact C20_unimodal_partial_pf. Qed.
Print Assumptions C20_unimodal_partial.

(** Success means the minimiser is close: within phi^2 tolerances.
    Missing from the full claim: lower <> 0. *)
Theorem C20_success_near_minimum_partial :
  forall (Aux : Type) (rtol atol upper : R) (fn : R -> R * Aux) (y0 : R) fs auxs fuel ms throw sol (x : R),
    let s := golden (N:=RN) rtol atol 0%R upper in
    (0 < upper)%R -> (0 < atol)%R -> (0 <= rtol)%R ->
    unimodal (fun z => fst (fn z)) 0 upper x ->
    iterative_solve (fun _ => true) s fn fuel ms throw y0 fs auxs = Ret sol ->
    result sol = successful ->
    (Rabs (value sol - x) <= phi ^ 2 * (atol + rtol * upper))%R.
Proof. exact C20_success_near_minimum_partial_pf. Qed.
Print Assumptions C20_success_near_minimum_partial.

(** For a continuous function (unimodal or not) the search ends successfully
    after finitely many steps.  Missing from the full claim: lower <> 0. *)
Theorem C20_terminates_partial :
  forall (Aux : Type) (rtol atol upper : R) (fn : R -> R * Aux) (y0 : R) fs auxs,
    let s := golden (N:=RN) rtol atol 0%R upper in
    (0 < upper)%R -> (0 < atol)%R -> (0 <= rtol)%R ->
    continuity (fun z => fst (fn z)) ->
    exists k, forall fuel ms throw, k < fuel -> (forall m, ms = Some m -> k <= m) ->
      exists sol, iterative_solve (fun _ => true) s fn fuel ms throw y0 fs auxs = Ret sol /\
        result sol = successful.
Proof. exact C20_terminates_partial_pf. Qed.
Print Assumptions C20_terminates_partial.

(** C18 fails in general: see the comment on the common witness. *)
Theorem C18_stays_inside_refuted :
  exists (rtol atol lower upper x y0 : R) (fn : R -> R * unit) fs auxs sol,
    (0 <= rtol)%R /\ (0 < atol)%R /\ (lower < x < upper)%R /\ (lower <= y0 <= upper)%R /\
    unimodal (fun z => fst (fn z)) lower upper x /\
    iterative_solve (fun _ => true) (golden (N:=RN) rtol atol lower upper) fn 2 (Some 1) false y0 fs auxs
      = Ret sol /\
    (upper + 10 < value sol)%R.
Proof. exact C18_stays_inside_refuted_pf. Qed.
Print Assumptions C18_stays_inside_refuted.

(** C19 fails in general: the interval kept after one step is more than ten
    times as long as the one given. *)
Theorem C19_golden_ratio_kept_refuted :
  exists (rtol atol lower upper x y0 : R) (fn : R -> R * unit) fs auxs sol,
    (0 <= rtol)%R /\ (0 < atol)%R /\ (lower < x < upper)%R /\ (lower <= y0 <= upper)%R /\
    unimodal (fun z => fst (fn z)) lower upper x /\
    iterative_solve (fun _ => true) (golden (N:=RN) rtol atol lower upper) fn 2 (Some 1) false y0 fs auxs
      = Ret sol /\
    (gs_upper (state sol) - gs_lower (state sol) > 10 * (upper - lower))%R.
Proof. exact C19_golden_ratio_kept_refuted_pf. Qed.
Print Assumptions C19_golden_ratio_kept_refuted.

(** C20 fails in general: the value returned after one step is more than ten
    interval lengths away from the minimiser. *)
Theorem C20_unimodal_refuted :
  exists (rtol atol lower upper x y0 : R) (fn : R -> R * unit) fs auxs sol,
    (0 <= rtol)%R /\ (0 < atol)%R /\ (lower < x < upper)%R /\ (lower <= y0 <= upper)%R /\
    unimodal (fun z => fst (fn z)) lower upper x /\
    iterative_solve (fun _ => true) (golden (N:=RN) rtol atol lower upper) fn 2 (Some 1) false y0 fs auxs
      = Ret sol /\
    (Rabs (value sol - x) > 10 * (upper - lower))%R.
Proof. exact C20_unimodal_refuted_pf. Qed.
Print Assumptions C20_unimodal_refuted.

Example C20_unimodal_ex :
  (exists sol, golden_ex 0 11 = Ret sol /\
     results_eqb (result sol) successful &&
     nltb (n:=F64) (f64_ofQ (1049#100)) (value sol) &&
     nltb (n:=F64) (value sol) (f64_ofQ (1051#100)) = true) /\
  (exists sol, golden_ex 10 20 = Ret sol /\
     results_eqb (result sol) nonlinear_max_steps_reached &&
     nltb (n:=F64) (f64_ofZ 1000) (value sol) = true).
Proof. exact C20_unimodal_ex_pf. Qed.

(** The hypotheses of the theorems for lower = 0 hold for |x - 2| on [0, 5]. *)
Example C20_hypotheses_ex :
  let fn := fun x : R => (Rabs (x - 2), tt) in
  unimodal (fun z => fst (fn z)) 0 5 2 /\ continuity (fun z => fst (fn z)).
Proof. exact C20_hypotheses_ex_pf. Qed.

(** BestSoFarMinimiser(GoldenSearch) reports success and returns y0 although a later
    iterate has a smaller loss (binary64 witness just defined). *)
Theorem C11_golden_refuted :
  exists (lower upper y0 : f64) (fn : f64 -> f64 * unit) sol sol1,
    let g := fun Aux => golden (N:=F64) (Aux:=Aux) (f64_ofQ (1#1000)) (f64_ofQ (1#1000)) lower upper in
    iterative_solve (fun x => nisfin (n:=F64) x) (best_so_far loss_minimiser (g (f64 * unit)%type))
      fn 200 None true y0 (fun _ => f64_ofZ 0) (fun _ => tt) = Ret sol /\
    iterative_solve (fun x => nisfin (n:=F64) x) (g unit)
      fn 2 (Some 1) false y0 (fun _ => f64_ofZ 0) (fun _ => tt) = Ret sol1 /\
    nltb (n:=F64) lower y0 = true /\ nltb (n:=F64) y0 upper = true /\
    result sol = successful /\
    nltb (n:=F64) (fst (fn (value sol1))) (fst (fn (value sol))) = true.
Proof. exact C11_golden_refuted_pf. Qed.
Print Assumptions C11_golden_refuted.
