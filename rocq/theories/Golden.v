(** Golden-section search.  Models /repo/optimistix/_solver/golden.py. *)

From Coq Require Import List Bool QArith.
From Verif Require Import Num Vec Results Iterate.
Import ListNotations.

Section Golden.
  Context {N : Num} {Aux : Type}.
  Local Open Scope num_scope.

  (** _GoldenSearchState, golden.py 17-23 *)
  Record gs_state : Type := mkGs {
    gs_lower : N; gs_middle : N; gs_upper : N; gs_f_middle : N;
    gs_first : bool; gs_terminate : bool
  }.

  (** `golden_ratio`, golden.py 84 *)
  Definition golden_ratio : N := (lit 1 + nsqrt (lit 5)) / lit 2.

  (** The norm of a scalar, golden.py 53 (`norm = jnp.abs`). *)
  Definition scalar_norm (v : list N) : N :=
    match v with [x] => nabs x | _ => lit 0 end.

  (** GoldenSearch.init, golden.py 55-95.  The shape checks are typing matters
      here (scalars only). *)
  Definition gs_init (lower upper : N) (fn : N -> N * Aux) : outcome gs_state :=
    let middle := (upper - lower) / (golden_ratio + lit 1) in
    let f_middle := fst (fn middle) in
    Ret (mkGs lower middle upper f_middle true false).

  (** GoldenSearch.step, golden.py 97-163 *)
  Definition gs_step (rtol atol : N) (fn : N -> N * Aux) (y : N) (st : gs_state) :
      N * gs_state * Aux :=
    let y_ := if gs_first st then gs_lower st + (gs_upper st - gs_middle st) else y in
    let '(f, a) := fn y_ in
    let y_diff := gs_middle st - y_ in
    let f_diff := gs_f_middle st - f in
    let term := cauchy_termination rtol atol scalar_norm
                  [gs_middle st] [y_diff] [gs_f_middle st] [f_diff] in
    let is_min := f <? gs_f_middle st in
    let is_lower := y_ <? gs_middle st in
    let new_state :=
      if is_min then
        (* new_middle, 138-149 *)
        mkGs (if is_lower then gs_lower st else gs_middle st) y_
             (if is_lower then gs_middle st else gs_upper st) f false term
      else
        (* new_outer, 151-162 *)
        mkGs (if is_lower then y_ else gs_lower st) (gs_middle st)
             (if is_lower then gs_upper st else y_) (gs_f_middle st) false term in
    let new_y := gs_lower new_state + (gs_upper new_state - gs_middle new_state) in
    (new_y, new_state, a).

  (** class GoldenSearch, golden.py 26-188; terminate 169-178 and
      postprocess 180-192. `options["lower"]`, `options["upper"]` are the
      parameters [lower] and [upper]. *)
  Definition golden (rtol atol lower upper : N) : Solver N N Aux :=
    mkSolver gs_state
      (fun fn y f_struct aux_struct => gs_init lower upper fn)
      (fun fn y st => gs_step rtol atol fn y st)
      (fun fn y st => (gs_terminate st, successful))
      (fun fn y a st res => (y, a, [])).
End Golden.
