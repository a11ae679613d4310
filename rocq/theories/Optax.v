(** The wrapper around Optax optimisers.  Models
    /repo/optimistix/_solver/optax.py. *)

From Coq Require Import List Bool QArith.
From Verif Require Import Num Vec Results Iterate Minimisers.
Import ListNotations.

(** `optax.GradientTransformation`, as used at optax.py 78 and 104:
    [ot_update grads opt_state y value value_fn] returns the updates and the new
    state.  (`grad=grads` repeats the first argument.) *)
Record OptaxTransform (N : Num) : Type := mkOptax {
  OSt : Type;
  ot_init : list N -> OSt;
  ot_update : list N -> OSt -> list N -> N -> (list N -> N) -> list N * OSt
}.
Arguments OSt {N}. Arguments ot_init {N}. Arguments ot_update {N}.

Section Optax.
  Context {N : Num} {Aux : Type}.
  Local Open Scope num_scope.
  Notation vec := (list N).
  Variable optim : OptaxTransform N.
  Variable P : ar_tols N.
  (** gradient of the objective; `jnp.finfo(f_struct.dtype).max` *)
  Variable grad_of : (vec -> N * Aux) -> vec -> vec.
  Variable fmax : N.

  (** _OptaxState, optax.py 16-20 *)
  Record optax_state : Type := mkOptaxState {
    ox_step : nat;
    ox_f : N;
    ox_opt_state : OSt optim;
    ox_terminate : bool
  }.

  (** OptaxMinimiser.init, optax.py 67-82 *)
  Definition optax_init (fn : vec -> N * Aux) (y : vec) (f_struct : fillv -> N)
      (aux_struct : fillv -> Aux) : outcome optax_state :=
    Ret (mkOptaxState 0 fmax (ot_init optim y) false).

  (** OptaxMinimiser.step, optax.py 84-120; the report of 96-100 is in
      Verbose.v.
      `eqx.apply_updates` (107) adds the updates. *)
  Definition optax_step (fn : vec -> N * Aux) (y : vec) (st : optax_state) :
      vec * optax_state * Aux :=
    let '(f, a) := fn y in
    let grads := grad_of fn y in
    let fn_for_optax := fun y => fst (fn y) in
    let '(updates, new_opt_state) :=
      ot_update optim grads (ox_opt_state st) y f fn_for_optax in
    let new_y := vadd y updates in
    let term := cauchy_termination (ar_rtol P) (ar_atol P) (ar_norm P)
                  y updates [f] [f - ox_f st] in
    (new_y, mkOptaxState (S (ox_step st)) f new_opt_state term, a).

  (** class OptaxMinimiser, optax.py 23-145: terminate 122-132, postprocess
      134-145 *)
  Definition OptaxMinimiser : Solver vec N Aux :=
    mkSolver optax_state optax_init optax_step
      (fun fn y st => (ox_terminate st, successful))
      (fun fn y a st res => (y, a, [])).
End Optax.
