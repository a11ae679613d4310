(** Property theorems: Bisection.
    Statements only; each is closed by the lemma of the same name (suffix _pf)
    in the proof file.  [Example]s show concrete cases meeting the hypotheses. *)

From Coq Require Import String List Bool Arith Lia ZArith QArith Qreals Reals Lra.
From Verif Require Import Num NumFacts Results Iterate Spec_Iterate Iterate_proofs.
From Verif Require Import Bisection Spec_Bisection NumF64 Spec_Wrappers.
Import ListNotations.
Local Open Scope nat_scope.
From Verif Require Import Bisection_proofs.

(** Whatever y0, the stored interval keeps its sign change and orientation:
    user-specified flip. *)
Theorem C12_sign_change_kept :
  forall (N : Num) (Aux : Type) (rtol atol : N) flip expand bfuel lower upper
         (fn : N -> N * Aux) (y0 : N) st0 aux0 (k : nat),
    let f := fun x => fst (fn x) in
    let s := bisection rtol atol flip expand bfuel lower upper in
    sign_change f (bis_flip st0) (bis_lower st0) (bis_upper st0) ->
    let st := st_at s fn y0 st0 aux0 k in
    bis_flip st = bis_flip st0 /\ sign_change f (bis_flip st0) (bis_lower st) (bis_upper st).
Proof. exact C12_sign_change_kept_pf. Qed.
Print Assumptions C12_sign_change_kept.

(** What `init` does with flip="detect" and no expansion: it raises exactly
    when both values are negative or both are not; otherwise the orientation
    found is the true one. *)
Theorem C16_detect :
  forall (N : Num) (L : OrdLaws N) (Aux : Type) (rtol atol : N) bfuel lower upper
         (fn : N -> N * Aux) (y0 : N) fs auxs,
    let f := fun x => fst (fn x) in
    let s := bisection rtol atol Detect false bfuel lower upper in
    nisnan (f lower) = false -> nisnan (f upper) = false ->
    (nltb (f lower) (lit 0) = nltb (f upper) (lit 0) ->
       s_init s fn y0 fs auxs = Raise RuntimeError) /\
    (nltb (f lower) (lit 0) <> nltb (f upper) (lit 0) ->
       exists st0, s_init s fn y0 fs auxs = Ret st0 /\
         bis_lower st0 = lower /\ bis_upper st0 = upper /\
         sign_change f (bis_flip st0) lower upper).
Proof. exact C16_detect_pf. Qed.
Print Assumptions C16_detect.

(** With flip="detect": every solve that gets past `init` keeps a sign change
    of the detected orientation. *)
Theorem C12_detect :
  forall (N : Num) (L : OrdLaws N) (Aux : Type) (rtol atol : N) bfuel lower upper
         (fn : N -> N * Aux) (y0 : N) fs auxs st0 aux0 (k : nat),
    let f := fun x => fst (fn x) in
    let s := bisection rtol atol Detect false bfuel lower upper in
    nisnan (f lower) = false -> nisnan (f upper) = false ->
    s_init s fn y0 fs auxs = Ret st0 ->
    let st := st_at s fn y0 st0 aux0 k in
    sign_change f (bis_flip st0) lower upper /\
    sign_change f (bis_flip st0) (bis_lower st) (bis_upper st).
Proof. exact C12_detect_pf. Qed.
Print Assumptions C12_detect.

(** From the first step on the iterate is the midpoint of the stored interval,
    and from the second on each step exactly halves the interval. *)
Theorem C13_halving :
  forall (Aux : Type) (rtol atol : R) flip expand bfuel (lower upper : R)
         (fn : R -> R * Aux) (y0 : R) st0 aux0 (n : nat),
    let s := bisection (N:=RN) rtol atol flip expand bfuel lower upper in
    let l := fun k => bis_lower (st_at s fn y0 st0 aux0 k) in
    let u := fun k => bis_upper (st_at s fn y0 st0 aux0 k) in
    y_at s fn y0 st0 aux0 (S n) = ((l (S n) + u (S n)) / 2)%R /\
    (u (S (S n)) - l (S (S n)) = (u (S n) - l (S n)) / 2)%R /\
    (u (S n) - l (S n) = (u 1%nat - l 1%nat) / 2 ^ n)%R.
Proof. exact C13_halving_pf. Qed.
Print Assumptions C13_halving.

(** For a continuous function, flip="detect": if the solve succeeds there is
    an exact root within half the tolerance of the returned value, and the
    last evaluated point has a small function value. *)
Theorem C14_success_near_root :
  forall (f : R -> R) (rtol atol lower upper y0 : R) bfuel fs fuel ms throw sol,
    continuity f ->
    let s := bisection (N:=XR) (Aux:=unit) (Fin rtol) (Fin atol) Detect false bfuel
               (Fin lower) (Fin upper) in
    iterative_solve xisfin s (lift f) fuel ms throw (Fin y0) fs (fun _ => tt) = Ret sol ->
    result sol = successful ->
    exists v y r : R,
      value sol = Fin v /\
      (forall st0, s_init s (lift f) (Fin y0) fs (fun _ => tt) = Ret st0 ->
         exists k, y_at s (lift f) (Fin y0) st0 tt k = Fin y) /\
      f r = 0%R /\
      (Rabs (v - r) < / 2 * (atol + rtol * Rabs y))%R /\ (Rabs (f y) < atol)%R.
Proof. exact C14_success_near_root_pf. Qed.
Print Assumptions C14_success_near_root.

(** The same with the orientation given by the user. *)
Theorem C14_success_near_root_flip :
  forall (f : R -> R) (rtol atol lower upper y0 : R) flip expand bfuel fs fuel ms throw sol,
    continuity f -> weak_sign_change f flip lower upper ->
    let s := bisection (N:=XR) (Aux:=unit) (Fin rtol) (Fin atol) (Flip flip) expand bfuel
               (Fin lower) (Fin upper) in
    iterative_solve xisfin s (lift f) fuel ms throw (Fin y0) fs (fun _ => tt) = Ret sol ->
    result sol = successful ->
    exists v y r : R,
      value sol = Fin v /\ f r = 0%R /\
      (Rabs (v - r) < / 2 * (atol + rtol * Rabs y))%R /\ (Rabs (f y) < atol)%R.
Proof. exact C14_success_near_root_flip_pf. Qed.
Print Assumptions C14_success_near_root_flip.

(** Bisection always converges: for a continuous function whose values at
    lower and upper have different signs there is a step count after which
    every solve with enough budget (or none) has succeeded. *)
Theorem C15_converges :
  forall (f : R -> R) (rtol atol lower upper y0 : R) bfuel fs,
    continuity f -> (0 < atol)%R -> (0 <= rtol)%R ->
    (f lower < 0 <= f upper \/ f upper < 0 <= f lower)%R ->
    let s := bisection (N:=XR) (Aux:=unit) (Fin rtol) (Fin atol) Detect false bfuel
               (Fin lower) (Fin upper) in
    exists k, forall fuel ms throw, k < fuel -> (forall m, ms = Some m -> k <= m) ->
      exists sol,
        iterative_solve xisfin s (lift f) fuel ms throw (Fin y0) fs (fun _ => tt) = Ret sol /\
        result sol = successful.
Proof. exact C15_converges_pf. Qed.
Print Assumptions C15_converges.

(** Whenever the expansion loop finishes, for any function at all, the
    interval it leaves has a sign change (possibly with a root at an end). *)
Theorem C17_expansion_sound :
  forall (f : R -> R) (rtol atol : xr) bfuel (lower upper y0 : R) fs auxs st0,
    s_init (bisection (N:=XR) (Aux:=unit) rtol atol Detect true bfuel (Fin lower) (Fin upper))
      (lift f) (Fin y0) fs auxs = Ret st0 ->
    exists l u : R, bis_lower st0 = Fin l /\ bis_upper st0 = Fin u /\
      weak_sign_change f (bis_flip st0) l u.
Proof. exact C17_expansion_sound_pf. Qed.
Print Assumptions C17_expansion_sound.

(** An interval whose end values have strictly opposite signs is left
    unchanged. *)
Theorem C17_bracket_unchanged :
  forall (f : R -> R) (rtol atol : xr) bfuel (lower upper y0 : R) fs auxs,
    (f lower < 0 < f upper \/ f upper < 0 < f lower)%R ->
    exists st0,
      s_init (bisection (N:=XR) (Aux:=unit) rtol atol Detect true (S bfuel) (Fin lower) (Fin upper))
        (lift f) (Fin y0) fs auxs = Ret st0 /\
      bis_lower st0 = Fin lower /\ bis_upper st0 = Fin upper.
Proof. exact C17_bracket_unchanged_pf. Qed.
Print Assumptions C17_bracket_unchanged.

(** For a strictly monotone function with a root and lower < upper the
    expansion finishes (after some number of doublings), whatever the signs at
    the ends. *)
Theorem C17_expansion_finishes :
  forall (f : R -> R) (rtol atol : xr) (lower upper y0 r : R) fs auxs,
    (strictly_increasing f \/ strictly_decreasing f) -> f r = 0%R -> (lower < upper)%R ->
    exists n, forall bfuel, n < bfuel ->
      exists st0,
        s_init (bisection (N:=XR) (Aux:=unit) rtol atol Detect true bfuel (Fin lower) (Fin upper))
          (lift f) (Fin y0) fs auxs = Ret st0.
Proof. exact C17_expansion_finishes_pf. Qed.
Print Assumptions C17_expansion_finishes.

(** Expansion together with bisection: for a strictly monotone continuous
    function with a root, any interval and any y0 lead to success, and every
    success is near a root. *)
Theorem C17_expand_and_solve :
  forall (f : R -> R) (rtol atol lower upper y0 r : R) fs,
    continuity f -> (strictly_increasing f \/ strictly_decreasing f) -> f r = 0%R ->
    (lower < upper)%R -> (0 < atol)%R -> (0 <= rtol)%R ->
    exists n, forall bfuel, n < bfuel ->
      let s := bisection (N:=XR) (Aux:=unit) (Fin rtol) (Fin atol) Detect true bfuel
               (Fin lower) (Fin upper) in
      exists k, forall fuel ms throw, k < fuel -> (forall m, ms = Some m -> k <= m) ->
        exists sol,
          iterative_solve xisfin s (lift f) fuel ms throw (Fin y0) fs (fun _ => tt) = Ret sol /\
          result sol = successful /\
          exists v y : R, value sol = Fin v /\
            (Rabs (v - r) < / 2 * (atol + rtol * Rabs y))%R /\ (Rabs (f y) < atol)%R.
Proof. exact C17_expand_and_solve_pf. Qed.
Print Assumptions C17_expand_and_solve.

Example C15_converges_ex :
  (exists sol, bis_ex false 0 4 10 = Ret sol /\
     nltb (n:=F64) (f64_ofQ (1259#1000)) (value sol) &&
     nltb (n:=F64) (value sol) (f64_ofQ (1261#1000)) = true) /\
  bis_ex false 2 4 3 = Raise RuntimeError /\
  (exists sol, bis_ex true 3 4 3 = Ret sol /\
     nltb (n:=F64) (f64_ofQ (1259#1000)) (value sol) &&
     nltb (n:=F64) (value sol) (f64_ofQ (1261#1000)) = true).
Proof. exact C15_converges_ex_pf. Qed.

(** The hypotheses of the convergence theorems hold for f(x) = x - 1/3 on
    [0, 1] (no iterate ever hits the root). *)
Example C15_hypotheses_ex :
  let f := fun x => (x - / 3)%R in
  continuity f /\ (f 0 < 0 <= f 1)%R /\ strictly_increasing f /\ f (/3)%R = 0%R /\
  exists st0, s_init (bisection (N:=XR) (Aux:=unit) (Fin 0) (Fin (/ 8)) Detect false 0 (Fin 0) (Fin 1))
      (lift f) (Fin (/2)) (fun _ => NaN) (fun _ => tt) = Ret st0.
Proof. exact C15_hypotheses_ex_pf. Qed.

(** The converse of the termination theorem: on a function without a root
    that is positive everywhere, the expansion loop never finishes. *)
Theorem C17_rootless_never_finishes :
  forall (f : R -> R) (rtol atol : xr) bfuel (lower upper y0 : R) fs auxs,
    (forall x, 0 < f x)%R ->
    s_init (bisection (N:=XR) (Aux:=unit) rtol atol Detect true bfuel (Fin lower) (Fin upper))
      (lift f) (Fin y0) fs auxs = Unfinished.
Proof. exact C17_rootless_never_finishes_pf. Qed.
Print Assumptions C17_rootless_never_finishes.

(** Corner case outside the "strictly opposite signs" theorem: when the
    non-negative end is itself an exact root, the interval is moved although
    it already brackets: f(x) = x on [-1, 0] becomes [0, 2]. *)
Theorem C17_zero_end_expands :
  exists st0,
    s_init (bisection (N:=XR) (Aux:=unit) (Fin 0) (Fin 1) Detect true 2 (Fin (-1)) (Fin 0))
      (lift (fun x => x)) (Fin 0) (fun _ => NaN) (fun _ => tt) = Ret st0 /\
    bis_lower st0 = Fin 0 /\ bis_upper st0 = Fin 2.
Proof. exact C17_zero_end_expands_pf. Qed.
Print Assumptions C17_zero_end_expands.

(** Binary64: f = cubic with the interval [0, 4]: the interval kept after 7
    steps from y0 = 10 still has a sign change, and 3 steps of halving. *)
Example C12_detect_ex :
  let fn := cubic in
  let s := bisection (N:=F64) (f64_ofQ (1#1000)) (f64_ofQ (1#1000)) Detect false 20
             (f64_ofZ 0) (f64_ofZ 4) in
  nisnan (N:=F64) (fst (fn (f64_ofZ 0))) = false /\ nisnan (N:=F64) (fst (fn (f64_ofZ 4))) = false /\
  exists st0, s_init s fn (f64_ofZ 10) (fun _ => f64_ofZ 0) (fun _ => tt) = Ret st0 /\
    (bis_flip st0 = false /\
     nltb (n:=F64) (fst (fn (bis_lower st0))) (f64_ofZ 0) &&
     negb (nltb (n:=F64) (fst (fn (bis_upper st0))) (f64_ofZ 0)) = true).
Proof. exact C12_detect_ex_pf. Qed.

(** Both outcomes of detection occur (binary64): [0, 4] is accepted and
    [2, 4] rejected for x^3 - 2. *)
Example C16_detect_ex :
  nltb (n:=F64) (fst (cubic (f64_ofZ 0))) (f64_ofZ 0) <>
    nltb (n:=F64) (fst (cubic (f64_ofZ 4))) (f64_ofZ 0) /\
  nltb (n:=F64) (fst (cubic (f64_ofZ 2))) (f64_ofZ 0) =
    nltb (n:=F64) (fst (cubic (f64_ofZ 4))) (f64_ofZ 0).
Proof. exact C16_detect_ex_pf. Qed.

(** The interval [3, 4] needs expansion downwards to reach the root 1/3 of
    x - 1/3, which is strictly increasing; [0, 1] does not. *)
Example C17_hypotheses_ex :
  let f := fun x => (x - / 3)%R in
  strictly_increasing f /\ continuity f /\ f (/ 3)%R = 0%R /\ (0 < f 3)%R /\ (0 < f 4)%R /\
  (f 0 < 0 < f 1)%R.
Proof. exact C17_hypotheses_ex_pf. Qed.
