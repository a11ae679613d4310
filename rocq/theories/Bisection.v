(** Bisection.  Models /repo/optimistix/_solver/bisection.py. *)

From Coq Require Import List Bool QArith.
From Verif Require Import Num Results Iterate.
Import ListNotations.

Section Bisection.
  Context {N : Num} {Aux : Type}.
  Local Open Scope num_scope.

  (** _BisectionState, bisection.py 15-19 *)
  Record bis_state : Type := mkBis { bis_lower : N; bis_upper : N; bis_flip : bool; bis_error : N }.

  (** The `flip` argument, bisection.py 103: True, False or "detect". *)
  Inductive flip_arg : Type := Flip (b : bool) | Detect.

  (** _interval_contains_root, bisection.py 27-38 (a loop condition: true means
      "keep expanding"); the carry is the pair (lower, upper). *)
  Definition interval_contains_root (need_positive expand_upper : bool)
      (fn : N -> N * Aux) (c : N * N) : bool :=
    let new_boundary := if expand_upper then snd c else fst c in
    let carry_val := fst (fn new_boundary) in
    xorb need_positive (lit 0 <? carry_val).

  (** _expand_interval, bisection.py 41-49 *)
  Definition expand_interval (expand_upper : bool) (c : N * N) : N * N :=
    let '(lower, upper) := c in
    let new_domain := lit 2 * (upper - lower) in
    let new_lower := if expand_upper then upper else lower - new_domain in
    let new_upper := if expand_upper then upper + new_domain else lower in
    (new_lower, new_upper).

  (** _expand_interval_repeatedly, bisection.py 52-76; `lax.while_loop` by
      fuel. *)
  Definition expand_interval_repeatedly (fuel : nat) (lower upper : N)
      (upper_val lower_val : N) (need_positive : bool) (fn : N -> N * Aux) :
      outcome (N * N) :=
    let expand_upper := xorb need_positive (upper_val <? lower_val) in
    while_loop fuel (interval_contains_root need_positive expand_upper fn)
      (expand_interval expand_upper) None (lower, upper).

  (** Bisection.init, bisection.py 108-164.  The shape checks are typing
      matters here (scalars only). *)
  Definition bis_init (fuel : nat) (flip : flip_arg) (expand_if_necessary : bool)
      (lower upper : N) (fn : N -> N * Aux) : outcome bis_state :=
    match flip with
    | Flip b => Ret (mkBis lower upper b ninf)
    | Detect =>
        let lower_val := fst (fn lower) in
        let upper_val := fst (fn upper) in
        let flip := upper_val <? lower_val in
        if expand_if_necessary then
          obind (expand_interval_repeatedly fuel lower upper upper_val lower_val
                   (lower_val <? lit 0) fn)
            (fun '(lower, upper) => Ret (mkBis lower upper flip ninf))
        else
          let lower_neg := lower_val <? lit 0 in
          let upper_neg := upper_val <? lit 0 in
          let root_not_contained := eqb lower_neg upper_neg in
          if root_not_contained then Raise RuntimeError
          else Ret (mkBis lower upper flip ninf)
    end.

  (** Bisection.step, bisection.py 166-184 *)
  Definition bis_step (fn : N -> N * Aux) (y : N) (st : bis_state) : N * bis_state * Aux :=
    let '(error, a) := fn y in
    let negative := xorb (bis_flip st) (error <? lit 0) in
    let new_lower := if negative then y else bis_lower st in
    let new_upper := if negative then bis_upper st else y in
    let new_y := new_lower + lit (1#2) * (new_upper - new_lower) in
    (new_y, mkBis new_lower new_upper (bis_flip st) error, a).

  (** Bisection.terminate, bisection.py 186-199 *)
  Definition bis_terminate (rtol atol y : N) (st : bis_state) : bool * results :=
    let scale := atol + rtol * nabs y in
    let y_small := nabs (bis_lower st - bis_upper st) <? scale in
    let f_small := nabs (bis_error st) <? atol in
    (y_small && f_small, successful).

  (** class Bisection, bisection.py 79-213 (postprocess
      201-212); `options["lower"]`,
      `options["upper"]` are arguments. *)
  Definition bisection (rtol atol : N) (flip : flip_arg) (expand_if_necessary : bool)
      (fuel : nat) (lower upper : N) : Solver N N Aux :=
    mkSolver bis_state
      (fun fn _ _ _ => bis_init fuel flip expand_if_necessary lower upper fn)
      bis_step
      (fun _ y st => bis_terminate rtol atol y st)
      (fun _ y a _ _ => (y, a, [])).
End Bisection.
