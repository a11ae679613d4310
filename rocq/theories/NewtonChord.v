(** Newton and Chord.  Models /repo/optimistix/_solver/newton_chord.py. *)

From Coq Require Import List Bool Arith QArith.
From Verif Require Import Num Vec Results Iterate.
Import ListNotations.

Section NewtonChord.
  Context {N : Num} {Aux : Type}.
  Local Open Scope num_scope.

  (** Linear operators; [jac fn y] is the Jacobian of fn at y
      (`jax.linearize` 116 / `lx.JacobianLinearOperator` + `lx.linearise`
      83-84); [lsolve] is `lx.linear_solve(..., throw=False)` (120 and
      125-127), returning the vector and the status.  Both are parameters: the
      theorems hold for every choice unless they say otherwise. *)
  Context {M : Type}.
  Variable jac : (list N -> list N * Aux) -> list N -> M.
  Variable lsolve : M -> list N -> list N * results.

  (** _small, newton_chord.py 25-29; [resolution] is
      `10 ** (2 - finfo.precision)` of the dtype (1e-13 for binary64). *)
  Definition nc_small (resolution diffsize : N) : bool := diffsize <? resolution.
  (** _diverged, newton_chord.py 32-33 *)
  Definition nc_diverged (rate : N) : bool := negb (nisfin rate) || (lit 2 <? rate).
  (** _converged, newton_chord.py 36-37 *)
  Definition nc_converged (factor tol : N) : bool := (lit 0 <? factor) && (factor <? tol).

  (** _NewtonChordState, newton_chord.py 40-47.  `f` is [None] when
      cauchy_termination=False. *)
  Record nc_state : Type := mkNc {
    nc_f : option (list N);
    nc_linear_state : option M;
    nc_diff : list N;
    nc_diffsize : N;
    nc_diffsize_prev : N;
    nc_result : results;
    nc_step : nat
  }.

  (** Fields of the solver, newton_chord.py 59-67, the options `lower`,
      `upper` (113-114), and [resolution] above. *)
  Record nc_params : Type := mkNcParams {
    nc_rtol : N; nc_atol : N; nc_norm : list N -> N; nc_kappa : N;
    nc_cauchy : bool; nc_is_newton : bool;
    nc_lower : option (list N); nc_upper : option (list N);
    nc_resolution : N
  }.
  Variable P : nc_params.

  (** _AbstractNewtonChord.init, newton_chord.py 69-101; _NoAux (50-56), the
      function without its auxiliary output, is what is linearised there *)
  Definition nc_init (fn : list N -> list N * Aux) (y : list N)
      (f_struct : fillv -> list N) : outcome nc_state :=
    Ret (mkNc (if nc_cauchy P then Some (f_struct fillinf) else None)
              (if nc_is_newton P then None else Some (jac fn y))
              (vfull (length y) ninf)
              ninf (lit 1) successful 0).

  (** Clipping to the box, newton_chord.py 130-133: `jnp.clip(a, min=b)` is
      `maximum(a, b)`, `jnp.clip(a, max=b)` is `minimum(a, b)`. *)
  Definition nc_clip (new_y : list N) : list N :=
    let new_y := match nc_lower P with Some l => vmap2 nmax new_y l | None => new_y end in
    match nc_upper P with Some u => vmap2 nmin new_y u | None => new_y end.

  (** `lower is not None or upper is not None`: whether the step was clipped, newton_chord.py 128-137. *)
  Definition has_box : bool :=
    match nc_lower P, nc_upper P with None, None => false | _, _ => true end.

  (** _AbstractNewtonChord.step, newton_chord.py 103-152.  For Chord the
      operator stored at init is used; (the `None` case of `linear_state`
      cannot occur for Chord and falls back to the current Jacobian). *)
  Definition nc_solve (fn : list N -> list N * Aux) (y fx : list N) (st : nc_state) :
      list N * results :=
    if nc_is_newton P then lsolve (jac fn y) fx
    else match nc_linear_state st with
         | Some j => lsolve j fx
         | None => lsolve (jac fn y) fx
         end.

  (** _AbstractNewtonChord.step, newton_chord.py 103-152. *)
  Definition nc_step_fn (fn : list N -> list N * Aux) (y : list N) (st : nc_state) :
      list N * nc_state * Aux :=
    let '(fx, a) := fn y in
    let '(diff, res) := nc_solve fn y fx st in
    let new_y := nc_clip (vsub y diff) in
    let diff := if has_box then vsub y new_y else diff in
    let scale := vscale_tol (nc_rtol P) (nc_atol P) new_y in
    let diffsize := nc_norm P (vdiv diff scale) in
    (new_y,
     mkNc (if nc_cauchy P then Some fx else None) (nc_linear_state st) diff
          diffsize (nc_diffsize st) res (S (nc_step st)),
     a).

  (** _AbstractNewtonChord.terminate, newton_chord.py 154-196 *)
  Definition nc_terminate (y : list N) (st : nc_state) : bool * results :=
    let '(term, term_result) :=
      if nc_cauchy P then
        let f := match nc_f st with Some f => f | None => [] end in
        (cauchy_termination (nc_rtol P) (nc_atol P) (nc_norm P)
           y (nc_diff st) (vfull (length f) (lit 0)) f,
         successful)
      else
        let at_least_two := Nat.leb 2 (nc_step st) in
        let rate := nc_diffsize st / nc_diffsize_prev st in
        let factor := nc_diffsize st * rate / (lit 1 - rate) in
        let small := nc_small (nc_resolution P) (nc_diffsize st) in
        let diverged := nc_diverged rate in
        let converged := nc_converged factor (nc_kappa P) in
        (at_least_two && (small || diverged || converged),
         if at_least_two && negb small && diverged then nonlinear_divergence else successful) in
    let linsolve_fail := negb (results_eqb (nc_result st) successful) in
    (linsolve_fail || term, if linsolve_fail then nc_result st else term_result).

  (** class _AbstractNewtonChord, newton_chord.py 58-209 (postprocess 198-209; Newton 212-229,
      Chord 232-250 differ in `_is_newton`). *)
  Definition newton_chord : Solver (list N) (list N) Aux :=
    mkSolver nc_state
      (fun fn y f_struct aux_struct => nc_init fn y f_struct)
      nc_step_fn
      (fun fn y st => nc_terminate y st)
      (fun fn y a st res => (y, a, [])).
End NewtonChord.
