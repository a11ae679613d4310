(** Fixed-point iteration.  Models /repo/optimistix/_solver/fixed_point.py. *)

From Coq Require Import List Bool QArith.
From Verif Require Import Num Vec Results Iterate.
Import ListNotations.

Section FixedPoint.
  Context {N : Num} {Aux : Type}.
  Local Open Scope num_scope.

  (** The update `(1 - damp) * fn(y) + damp * y`, fixed_point.py 62-64 *)
  Definition fp_update (damp : N) (fn_y y : list N) : list N :=
    vmap2 (fun i_np1 i_n => (lit 1 - damp) * i_np1 + damp * i_n) fn_y y.

  (** FixedPointIteration.step, fixed_point.py 52-69; the state is
      `relative_error`. *)
  Definition fp_step (rtol atol damp : N) (norm : list N -> N)
      (fn : list N -> list N * Aux) (y : list N) (st : N) : list N * N * Aux :=
    let '(fn_y_n, a) := fn y in
    let new_y := fp_update damp fn_y_n y in
    let error := vsub y new_y in
    let scale := vscale_tol rtol atol new_y in
    (new_y, norm (vdiv error scale), a).

  (** class FixedPointIteration, fixed_point.py 23-93: init 39-50, terminate
      71-80, postprocess 82-93. *)
  Definition fixed_point_iteration (rtol atol damp : N) (norm : list N -> N) :
      Solver (list N) (list N) Aux :=
    mkSolver N
      (fun fn y f_struct aux_struct => Ret ninf)
      (fp_step rtol atol damp norm)
      (fun fn y st => (st <? lit 1, successful))
      (fun fn y a st res => (y, a, [])).
End FixedPoint.
