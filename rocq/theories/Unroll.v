(** Backpropagation through the iterates.  Models RecursiveCheckpointAdjoint of
    /repo/optimistix/_adjoint.py 30-113 for FixedPointIteration.
    The primal computation is that of Iterate.v: `apply` (108-113) runs the same
    `primal_fn`, with a `while_loop` whose reverse-mode derivative goes through the
    executions of the loop's body, last to first (Equinox,
    `while_loop(kind="checkpointed")`; which states are stored and which are recomputed
    affects only time and memory).  The number of executions is not differentiated. *)

From Coq Require Import String List Bool ZArith QArith.
From Verif Require Import Num Vec Results Iterate FixedPoint.
Import ListNotations.

Section Unroll.
  Context {N : Num}.
  Local Open Scope num_scope.
  Notation vec := (list N).

  (** `jax.vjp(body, y, p)[1](ct)`: the cotangents of y and of p (_adjoint.py 110-112). *)
  Variable vjp : (vec -> vec -> vec) -> vec -> vec -> vec -> vec * vec.

  (** The iterate after k executions of the loop's body (_iterate.py 234-241), as a function of
      the parameters p that `fn` and `args` contain and of y0. *)
  Fixpoint run_body (body : vec -> vec -> vec) (p y0 : vec) (k : nat) : vec :=
    match k with O => y0 | S j => body (run_body body p y0 j) p end.

  (** The cotangents of y0 and of p, given the cotangent of the last of k iterates
      (_adjoint.py 108-113): the body is pulled back at the iterates it was executed at, and the cotangents
      of p add up. *)
  Fixpoint unrolled_vjp (body : vec -> vec -> vec) (p y0 : vec) (k : nat) (ct : vec) : vec * vec :=
    match k with
    | O => (ct, vfull (List.length p) (lit 0))
    | S j =>
        let '(ct_y, ct_p) := vjp body (run_body body p y0 j) p ct in
        let '(ct_y0, ct_p') := unrolled_vjp body p y0 j ct_y in
        (ct_y0, vadd ct_p' ct_p)
    end.

  (** The part of FixedPointIteration.step (fixed_point.py 52-69) that produces the new iterate;
      the rest of the state (`relative_error`) does not enter it, and has cotangent zero because
      the solution's value does not depend on it (postprocess, 82-93). *)
  Definition fp_body {Aux} (damp : N) (fn : vec -> vec -> vec * Aux) (y p : vec) : vec :=
    fp_update damp (fst (fn y p)) y.

  (** RecursiveCheckpointAdjoint.apply, _adjoint.py 108-113, for FixedPointIteration: the
      cotangents of y0 and p of a solve with statistics [st], given the one of its value. *)
  Definition checkpointed_vjp {Aux} (damp : N) (fn : vec -> vec -> vec * Aux) (p y0 : vec)
      (st : stats) (ct : vec) : option (vec * vec) :=
    match stats_get st "num_steps" with
    | Some (Some k) => Some (unrolled_vjp (fp_body damp fn) p y0 (Z.to_nat k) ct)
    | _ => None
    end.
End Unroll.
