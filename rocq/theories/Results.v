(** Status codes and outcomes.
    Models /repo/optimistix/_solution.py 11-20 (class RESULTS). *)

From Coq Require Import List Bool ZArith String.

(** RESULTS, _solution.py 11-20.  [linear n] stands for the codes inherited
    from `lineax.RESULTS` (singular, breakdown, stagnation, conlim,
    max_steps_reached, nonfinite_input, ...); their names do not matter here,
    so they are numbered. *)
Inductive results : Type :=
| successful
| nonlinear_max_steps_reached
| nonlinear_divergence
| nonfinite
| linear (n : nat).

(** `result == other` (e.g. _iterate.py 232) *)
Definition results_eqb (a b : results) : bool :=
  match a, b with
  | successful, successful
  | nonlinear_max_steps_reached, nonlinear_max_steps_reached
  | nonlinear_divergence, nonlinear_divergence
  | nonfinite, nonfinite => true
  | linear m, linear n => Nat.eqb m n
  | _, _ => false
  end.

(** Python exceptions raised by the modelled code. (raise statements and `eqx.error_if` of optimistix; each use cites its line). *)
Inductive error : Type :=
| ValueError
| TypeError
| AssertionError
| RuntimeError          (* `eqx.error_if` on a data-dependent condition *)
| SolveFailed (r : results).  (* `result.error_if` in iterative_solve *)

(** Result of running Python code: a value, an exception, or (only for loops
    without a bound) "has not finished within the given fuel". (`eqxi.while_loop`, _iterate.py 244). *)
Inductive outcome (A : Type) : Type :=
| Ret (a : A)
| Raise (e : error)
| Unfinished.
Arguments Ret {A}. Arguments Raise {A}. Arguments Unfinished {A}.

(** Sequencing of Python statements: an exception ends the computation. *)
Definition obind {A B} (x : outcome A) (f : A -> outcome B) : outcome B :=
  match x with Ret a => f a | Raise e => Raise e | Unfinished => Unfinished end.

(** Fill values used with `tree_full_like(struct, fill)` /
    `_zero(struct)`; a `ShapeDtypeStruct` tree is modelled by the function
    from the fill value to the filled tree. (_misc.py 62-82, _iterate.py 187-191). *)
Inductive fillv : Type := fill0 | fill1 | fillinf.

(** Entries of the `stats` dictionary. (_iterate.py 355). *)
Definition stats := list (string * option Z).

(** `d[k]` where later entries override earlier ones, as in
    `{"num_steps": ..., "max_steps": ..., **stats}`. (_iterate.py 355). *)
Fixpoint stats_get (s : stats) (k : string) : option (option Z) :=
  match s with
  | nil => None
  | (k', v) :: rest =>
      match stats_get rest k with
      | Some w => Some w
      | None => if String.eqb k k' then Some v else None
      end
  end.
