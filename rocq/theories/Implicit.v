(** Implicit differentiation.  Models /repo/optimistix/_ad.py, ImplicitAdjoint of
    /repo/optimistix/_adjoint.py and the `_rewrite_fn`s of the entry points.
    Only the derivative of the returned value is modelled; the values themselves
    are those of Iterate.v ([_implicit_impl] 64-67 calls `fn_primal`).  The
    `residual` output (everything in the Solution but its value) has tangent
    zero (112-117) and raises when differentiated backwards (61).  Reverse mode is
    derived by JAX from the forward mode below. *)

From Coq Require Import List Bool QArith.
From Verif Require Import Num Vec Results Iterate Search RootFind.
Import ListNotations.

Section Implicit.
  Context {N : Num}.
  Local Open Scope num_scope.
  Notation vec := (list N).

  (** `jax.jvp(f, (x,), (t,))[1]` (108) and the operator
      `lx.JacobianLinearOperator(f, x)` (105-107), whose transposed product is
      [jacT f x]; `jax.grad(f)(x)`; `lx.linear_solve(op, b, linear_solver)`. *)
  Variable jvp : (vec -> vec) -> vec -> vec -> vec.
  Variable jacT : (vec -> vec) -> vec -> vec -> vec.
  Variable grad : (vec -> N) -> vec -> vec.
  Variable lsolve : linop N -> vec -> vec * results.

  (** `eqx.partition(inputs, no_tangent)` (96-97): the inputs that are being
      differentiated are those with a tangent.  (In Python this is decided per
      array, not per entry.) (_ad.py) *)
  Fixpoint diff_part (t_inputs : list (option N)) (inputs : vec) : vec :=
    match t_inputs, inputs with
    | Some _ :: t', x :: i' => x :: diff_part t' i'
    | None :: t', _ :: i' => diff_part t' i'
    | _, _ => []
    end.
  (** the tangents of the differentiated inputs, _ad.py 89 and 108. *)
  Fixpoint tangents (t_inputs : list (option N)) : vec :=
    match t_inputs with
    | [] => []
    | Some t :: t' => t :: tangents t'
    | None :: t' => tangents t'
    end.
  (** `eqx.combine(_diff, nondiff)` (102) (_ad.py) *)
  Fixpoint combine (t_inputs : list (option N)) (inputs diff : vec) : vec :=
    match t_inputs, inputs, diff with
    | Some _ :: t', _ :: i', d :: diff' => d :: combine t' i' diff'
    | None :: t', x :: i', _ => x :: combine t' i' diff
    | _, _, _ => []
    end.

  (** _implicit_impl_jvp, _ad.py 83-119: the tangent of `root`.  `linear_solve`
      is called with throw=True, so a failed solve raises. *)
  Definition implicit_tangent (fn_rewrite : vec -> vec -> vec) (root inputs : vec)
      (t_inputs : list (option N)) : outcome vec :=
    let for_jvp diff := fn_rewrite root (combine t_inputs inputs diff) in
    let for_jac root := fn_rewrite root inputs in
    let operator := FunOp (jvp for_jac root) (jacT for_jac root) in
    let jvp_diff := jvp for_jvp (diff_part t_inputs inputs) (tangents t_inputs) in
    let '(sol, res) := lsolve operator jvp_diff in
    if results_eqb res successful then Ret (vneg sol) else Raise (SolveFailed res).

  (** The differentiable `inputs` of iterative_solve (_iterate.py 299): the
      arrays that `fn` and `args` contain (the first [k] entries, [params]), then
      y0 and anything else.  A problem is a function of the iterate and of
      [params]. *)
  Definition params (k : nat) (inputs : vec) : vec := firstn k inputs.

  (** _rewrite_fn, _root_find.py 22-26 *)
  Definition rewrite_root {Aux} (fn : vec -> vec -> vec * Aux) (root p : vec) : vec :=
    fst (fn root p).
  (** _rewrite_fn, _fixed_point.py 23-27 *)
  Definition rewrite_fixed {Aux} (fn : vec -> vec -> vec * Aux) (y p : vec) : vec :=
    vsub (fst (fn y p)) y.
  (** _rewrite_fn, _minimise.py 20-28 *)
  Definition rewrite_min {Aux} (fn : vec -> vec -> N * Aux) (y p : vec) : vec :=
    grad (fun x => fst (fn x p)) y.
  (** _rewrite_fn, _least_squares.py 20-28 *)
  Definition rewrite_lstsq {Aux} (fn : vec -> vec -> vec * Aux) (y p : vec) : vec :=
    grad (fun x => lit (1#2) * sum_squares (fst (fn x p))) y.

  (** The rewrite function each entry point ends up with: root_find
      (_root_find.py 180-241), ... *)
  Definition root_find_rewrite {Aux} (s : any_solver (N:=N)) (fn : vec -> vec -> vec * Aux) :
      vec -> vec -> vec :=
    match s with
    | AMinimiser _ norm _ => rewrite_min (fun y p => to_minimise_fn norm (fun y => fn y p) y)
    | ALeastSquares _ _ _ => rewrite_root (fun y p => to_lstsq_fn (fun y => fn y p) y)
    | ARootFinder _ | AFixedPoint _ => rewrite_root fn
    end.
  (** ... fixed_point (_fixed_point.py 115-154), ... *)
  Definition fixed_point_rewrite {Aux} (s : any_solver (N:=N)) (fn : vec -> vec -> vec * Aux) :
      vec -> vec -> vec :=
    match s with
    | AFixedPoint _ => rewrite_fixed fn
    | _ => root_find_rewrite s (fun y p => fixed_to_root_fn (fun y => fn y p) y)
    end.
  (** ... least_squares (_least_squares.py 102-135). *)
  Definition least_squares_rewrite {Aux} (s : any_solver (N:=N)) (fn : vec -> vec -> vec * Aux) :
      vec -> vec -> vec :=
    match s with
    | AMinimiser _ _ _ => rewrite_min (fun y p => lstsq_to_minimise_fn (fun y => fn y p) y)
    | _ => rewrite_lstsq fn
    end.

  (** ImplicitAdjoint.apply, _adjoint.py 131-133, which is implicit_jvp, _ad.py
      27-61, called by iterative_solve
      (_iterate.py 310): tangent of Solution.value *)
  Definition value_tangent (k : nat) (rewrite : vec -> vec -> vec) (value inputs : vec)
      (t_inputs : list (option N)) : outcome vec :=
    implicit_tangent (fun y inputs => rewrite y (params k inputs)) value inputs t_inputs.
End Implicit.
