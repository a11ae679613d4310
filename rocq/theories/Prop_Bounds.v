(** Property theorems: Bounds.
    Statements only; each is closed by the lemma of the same name (suffix _pf)
    in the proof file.  [Example]s show concrete cases meeting the hypotheses. *)

From Coq Require Import String List Bool Arith Lia ZArith QArith Qreals Reals Lra Psatz.
From Verif Require Import Num NumFacts NumF64 NumF64_facts Vec Results Search Spec_Vec VecFacts Spec_Lin LinFacts.
From Verif Require Import Bounds Spec_Bounds Progress_proofs.
Import ListNotations.
Local Open Scope nat_scope.
From Verif Require Import Bounds_proofs.

(** feasible_step_length with finite points and steps and possibly infinite
    bounds, exact arithmetic, 0 <= offset < 1, point in the box: every length is
    a number in [0,1]; the moved point is in the box, and strictly inside when
    the point is and offset > 0; with offset 0 no larger length up to 1 keeps the
    entry in its bounds. *)
Theorem C44_feasible :
  forall (offset : R) (x dx : list R) (lower upper : list xr),
    (0 <= offset < 1)%R -> length dx = length x -> in_box lower upper x ->
    exists ts, feasible_step_length (N:=XR) (Fin offset) (map Fin x) (map Fin dx) lower upper = map Fin ts /\
      length ts = length x /\ Forall (fun t => (0 <= t <= 1)%R) ts /\
      in_box lower upper (moved x ts dx) /\
      ((0 < offset)%R -> strictly_in_box lower upper x -> strictly_in_box lower upper (moved x ts dx)) /\
      (offset = 0%R -> forall i t', i < length x -> (nth i ts 0%R < t' <= 1)%R ->
         ~ within (nth i lower NaN) (nth i upper NaN) (nth i x 0%R + t' * nth i dx 0%R)%R).
Proof. exact C44_feasible_pf. Qed.
Print Assumptions C44_feasible.

(** The least of the lengths, applied to the whole step: the point stays in the
    box, and with offset 0 no larger step up to 1 does. *)
Theorem C44_whole_step :
  forall (offset : R) (x dx : list R) (lower upper : list xr),
    (0 <= offset < 1)%R -> length dx = length x -> x <> [] -> in_box lower upper x ->
    exists t, tree_min (N:=XR) (feasible_step_length (N:=XR) (Fin offset) (map Fin x) (map Fin dx) lower upper) = Fin t /\
      (0 <= t <= 1)%R /\ in_box lower upper (Radd_v x (Rscal t dx)) /\
      (offset = 0%R -> forall t', (t < t' <= 1)%R -> ~ in_box lower upper (Radd_v x (Rscal t' dx))).
Proof. exact C44_whole_step_pf. Qed.
Print Assumptions C44_whole_step.

(** A point outside its bounds is never moved further out. *)
Theorem C44_outside :
  forall (offset x dx : R) (lower upper : xr), (0 <= offset < 1)%R -> proper lower upper ->
    exists t, max_step (N:=XR) (Fin offset) (Fin x) (Fin dx) lower upper = Fin t /\ (0 <= t <= 1)%R /\
      (excess lower upper (x + t * dx) <= excess lower upper x)%R.
Proof. exact C44_outside_pf. Qed.
Print Assumptions C44_outside.

(** Examples: a limited entry, an entry with an infinite bound, and a resting
    entry; and a point outside. *)
Example C44_feasible_ex :
  in_box [Fin 0; NInf; Fin 0] [Fin 4; PInf; Fin 1] [1; 7; 1]%R /\
  feasible_step_length (N:=XR) (Fin 0) (map Fin [1; 7; 1]%R) (map Fin [6; -9; 0]%R)
    [Fin 0; NInf; Fin 0] [Fin 4; PInf; Fin 1] = map Fin [1 / 2; 1; 1]%R.
Proof. exact C44_feasible_ex_pf. Qed.

Example C44_outside_ex : proper (Fin 0) (Fin 1) /\ excess (Fin 0) (Fin 1) 3 = 2%R.
Proof. exact C44_outside_ex_pf. Qed.

(** Exact arithmetic; y in the box; every coordinate moves against the gradient
    and meets a finite bound; H symmetric positive semidefinite. Then cauchy_point
    finishes within n passes and its result is a point of finite numbers in the
    box. Missing from the full claim: gradients with a zero entry and infinite
    bounds, for which it is false (next two theorems). *)
Theorem C45_cauchy_partial :
  forall (n : nat) (y grad : list R) (lower upper : list xr) (M : list (list R)) (fuel : nat),
    n <> 0 -> length y = n -> length grad = n -> in_box lower upper y -> all3 hits_bound lower upper grad ->
    psd n M -> n <= fuel ->
    exists pt, cauchy_point (N:=XR) (map Fin y) lower upper (map Fin grad) (MatOp (N:=XR) n (map (map Fin) M)) fuel = Ret (map Fin pt) /\
      in_box lower upper pt.
Proof. exact C45_cauchy_partial_pf. Qed.
Print Assumptions C45_cauchy_partial.

(** y = (3/4, 1/4), box [0,1] x [0,inf), gradient (1, 2), H = identity: the
    hypotheses hold. *)
Example C45_cauchy_ex :
  in_box [Fin 0; Fin 0] [Fin 1; PInf] [3 / 4; / 4]%R /\ all3 hits_bound [Fin 0; Fin 0] [Fin 1; PInf] [1; 2]%R /\
  psd 2 [[1; 0]; [0; 1]]%R.
Proof. exact C45_cauchy_ex_pf. Qed.

(** In the unit square from (1/2, 1/2) with gradient (1, 0) and Hessian I/8 the
    search never ends: the second coordinate's intercept is inf, which always
    counts as "more to try". *)
Theorem C45_termination_refuted :
  exists (y lower upper grad : list f64) (H : linop F64),
    box2 y lower upper = true /\
    forall fuel, cauchy_point (N:=F64) y lower upper grad H fuel = Unfinished.
Proof. exact C45_termination_refuted_pf. Qed.
Print Assumptions C45_termination_refuted.

(** Same with gradient (0, 1): the second pass picks the infinite intercept and
    the point returned contains NaN. *)
Theorem C45_nan_refuted :
  exists (y lower upper grad : list f64) (H : linop F64) pt,
    box2 y lower upper = true /\
    cauchy_point (N:=F64) y lower upper grad H 10 = Ret pt /\ existsb (nisnan (N:=F64)) pt = true.
Proof. exact C45_nan_refuted_pf. Qed.
Print Assumptions C45_nan_refuted.

(** Whatever the number system, gradient and Hessian: an entry of the point
    returned by the search that is not NaN lies between its bounds, provided the
    bounds are ordered. *)
Theorem C45_clipped_partial :
  forall (N : Num) (L : OrdLaws N) (y lower upper grad : list N) (H : linop N) (is : list N) (fuel : nat) pt (i : nat) d,
    (forall j, j < length pt -> nleb (nth j lower d) (nth j upper d) = true) ->
    find_cauchy_point y lower upper grad H is fuel = Ret pt ->
    i < length pt -> nisnan (nth i pt d) = false ->
    nleb (nth i lower d) (nth i pt d) = true /\ nleb (nth i pt d) (nth i upper d) = true.
Proof. exact C45_clipped_partial_pf. Qed.
Print Assumptions C45_clipped_partial.

Example C45_clipped_ex :
  OrdLaws F64 /\
  exists pt, cauchy_point (N:=F64) stuck_y stuck_l stuck_u [f64_ofZ 1; f64_ofZ 2] stuck_H 10 = Ret pt /\
    (box2 pt stuck_l stuck_u && negb (existsb (nisnan (N:=F64)) pt)) = true.
Proof. exact C45_clipped_ex_pf. Qed.

(** ** Rounding: the feasible step of 25 from 0 towards the bound 7 ends above 7 *)
Theorem C55_rounding_refuted :
  exists (x dx lower upper : f64),
    nleb (n:=F64) lower x = true /\ nleb (n:=F64) x upper = true /\
    let t := max_step (N:=F64) (f64_ofZ 0) x dx lower upper in
    nltb (n:=F64) upper (nadd (n:=F64) x (nmul (n:=F64) t dx)) = true.
Proof. exact C55_rounding_refuted_pf. Qed.
Print Assumptions C55_rounding_refuted.

(** One dimension, y = 1/2 in [0,1], gradient 1, Hessian 8: the search returns 0,
    where the quadratic model is larger than at y, although the point 3/8 of the
    path lowers it. *)
Theorem C56_not_minimiser_refuted :
  exists (y lower upper grad h pt t : R),
    (lower < y < upper)%R /\ (0 < h)%R /\
    (forall fuel, 1 <= fuel ->
       cauchy_point (N:=XR) [Fin y] [Fin lower] [Fin upper] [Fin grad] (MatOp (N:=XR) 1 [[Fin h]]) fuel = Ret [Fin pt]) /\
    (model_change [grad] [[h]] [0] < model_change [grad] [[h]] [pt - y])%R /\
    (0 <= t)%R /\
    (model_change [grad] [[h]] [project lower upper (y - t * grad) - y] < model_change [grad] [[h]] [0])%R.
Proof. exact C56_not_minimiser_refuted_pf. Qed.
Print Assumptions C56_not_minimiser_refuted.
