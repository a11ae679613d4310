(** Entry points and conversions between problem types.
    Models /repo/optimistix/_root_find.py, _fixed_point.py, _least_squares.py
    and _minimise.py. *)

From Coq Require Import List Bool Arith QArith.
From Verif Require Import Num Vec Results Iterate.
Import ListNotations.

(** A Python solver object works for any type of auxiliary output. (the `solver` argument, _root_find.py 121-133). *)
Definition PolySolver (Y Out : Type) := forall Aux : Type, Solver Y Out Aux.

(** What a call returns to the user: Solution.value, .result, .aux, .stats
    (the solver-specific .state is dropped). (_solution.py 22-60). *)
Record Answer (Y Aux : Type) : Type := mkAnswer {
  a_value : Y; a_result : results; a_aux : Aux; a_stats : stats
}.
Arguments mkAnswer {Y Aux}. Arguments a_value {Y Aux}. Arguments a_result {Y Aux}.
Arguments a_aux {Y Aux}. Arguments a_stats {Y Aux}.

(** The fields of Solution returned by iterative_solve, _iterate.py 356. *)
Definition answer_of {Y Aux S} (sol : Solution Y Aux S) : Answer Y Aux :=
  mkAnswer (value sol) (result sol) (aux sol) (sol_stats sol).

(** `_, aux = sol.aux; sol = eqx.tree_at(lambda s: s.aux, sol, aux)`,
    _root_find.py 192-193 and 218-219. *)
Definition drop_fst_aux {Y F Aux} (a : Answer Y (F * Aux)) : Answer Y Aux :=
  mkAnswer (a_value a) (a_result a) (snd (a_aux a)) (a_stats a).

(** Post-processing of a returned value (e.g. `eqx.tree_at`, _root_find.py 193). *)
Definition omap {A B} (f : A -> B) (x : outcome A) : outcome B :=
  obind x (fun a => Ret (f a)).

Section RootFind.
  Context {N : Num}.
  Local Open Scope num_scope.
  Notation vec := (list N).

  (** _to_minimise_fn, _root_find.py 34-36 *)
  Definition to_minimise_fn {Aux} (norm : vec -> N) (root_fn : vec -> vec * Aux)
      (y : vec) : N * (vec * Aux) :=
    let '(root, a) := root_fn y in (norm root, (root, a)).

  (** _to_lstsq_fn, _root_find.py 39-41 *)
  Definition to_lstsq_fn {Aux} (root_fn : vec -> vec * Aux) (y : vec) :
      vec * (vec * Aux) :=
    let '(root, a) := root_fn y in (root, (root, a)).

  (** _ToMinimiseFn, _least_squares.py 36-41 *)
  Definition lstsq_to_minimise_fn {Aux} (residual_fn : vec -> vec * Aux)
      (y : vec) : N * Aux :=
    let '(residual, a) := residual_fn y in (lit (1#2) * sum_squares residual, a).

  (** _ToRootFn, _fixed_point.py 35-47 (the structure check is in
      [fixed_point] below: structures are static, so it is made once). *)
  Definition fixed_to_root_fn {Aux} (fixed_point_fn : vec -> vec * Aux)
      (y : vec) : vec * Aux :=
    let '(out, a) := fixed_point_fn y in (vsub out y, a).

  (** _ToRoot, _root_find.py 45-80: adds `norm(f) < atol` to the termination
      condition of the wrapped solver.  _MinimToRoot (83-98) and _LstsqToRoot
      (101-116) are this class with rtol, atol and norm of the wrapped solver
      ([atol] and [norm] are arguments here). *)
  Definition to_root {Out Aux} (atol : N) (norm : vec -> N)
      (s : Solver vec Out (vec * Aux)) : Solver vec Out (vec * Aux) :=
    mkSolver (St s * vec)%type
      (fun fn y f_struct aux_struct =>
         obind (s_init s fn y f_struct aux_struct) (fun init_state =>
         let f_inf := fst (aux_struct fillinf) in
         Ret (init_state, f_inf)))
      (fun fn y st =>
         let '(new_y, new_state, (f, a)) := s_step s fn y (fst st) in
         (new_y, (new_state, f), (f, a)))
      (fun fn y st =>
         let '(term, res) := s_terminate s fn y (fst st) in
         let near_zero := norm (snd st) <? atol in
         (term && near_zero, res))
      (fun fn y a st res => s_post s fn y a (fst st) res).

  (** The solver argument of root_find / fixed_point / least_squares; for
      minimisers and least-squares solvers `solver.norm` and `solver.atol`
      are also read. (_root_find.py 121-133). *)
  Inductive any_solver : Type :=
  | AFixedPoint (s : PolySolver vec vec)
  | ARootFinder (s : PolySolver vec vec)
  | ALeastSquares (s : PolySolver vec vec) (norm : vec -> N) (atol : N)
  | AMinimiser (s : PolySolver vec N) (norm : vec -> N) (atol : N).

  (** Fill functions for the output structures. (`tree_full_like(f_struct, ..)`, _misc.py 62-82). *)
  Definition fill (v : fillv) : N :=
    match v with fill0 => lit 0 | fill1 => lit 1 | fillinf => ninf end.
  (** `f_struct` of a vector-valued function, _root_find.py 225 (`fn.out_struct`). *)
  Definition vec_struct (n : nat) : fillv -> vec := fun v => repeat (fill v) n.
  (** `f_struct` of a scalar function, _minimise.py 93-104. *)
  Definition scalar_struct : fillv -> N := fill.

  (** minimise, _minimise.py 38-119.  The check that the output is a single
      floating scalar is a typing matter here. *)
  Definition minimise {Aux} (fuel : nat) (ms : option nat) (throw : bool)
      (s : PolySolver vec N) (fn : vec -> N * Aux) (aux_struct : fillv -> Aux)
      (y0 : vec) : outcome (Answer vec Aux) :=
    omap answer_of
      (iterative_solve vallfinite (s Aux) fn fuel ms throw y0 scalar_struct aux_struct).

  (** least_squares, _least_squares.py 45-135.  As in the Python `else` branch, a
      solver that is not a minimiser is used as it is *)
  Definition least_squares {Aux} (fuel : nat) (ms : option nat) (throw : bool)
      (s : any_solver) (fn : vec -> vec * Aux) (aux_struct : fillv -> Aux)
      (y0 : vec) : outcome (Answer vec Aux) :=
    match s with
    | AMinimiser m _ _ =>
        minimise fuel ms throw m (lstsq_to_minimise_fn fn) aux_struct y0
    | ALeastSquares l _ _ | ARootFinder l | AFixedPoint l =>
        omap answer_of
          (iterative_solve vallfinite (l Aux) fn fuel ms throw y0
             (vec_struct (length (fst (fn y0)))) aux_struct)
    end.

  (** root_find, _root_find.py 120-241 (the last branch takes any other solver) *)
  Definition root_find {Aux} (fuel : nat) (ms : option nat) (throw : bool)
      (s : any_solver) (fn : vec -> vec * Aux) (aux_struct : fillv -> Aux)
      (y0 : vec) : outcome (Answer vec Aux) :=
    let f_struct := vec_struct (length (fst (fn y0))) in
    let aux_struct' := fun v => (f_struct v, aux_struct v) in
    match s with
    | AMinimiser m norm atol =>
        omap drop_fst_aux
          (omap answer_of
            (iterative_solve vallfinite (to_root atol norm (m (vec * Aux)%type))
               (to_minimise_fn norm fn) fuel ms throw y0 scalar_struct aux_struct'))
    | ALeastSquares l norm atol =>
        omap drop_fst_aux
          (omap answer_of
            (iterative_solve vallfinite (to_root atol norm (l (vec * Aux)%type))
               (to_lstsq_fn fn) fuel ms throw y0 f_struct aux_struct'))
    | ARootFinder r | AFixedPoint r =>
        omap answer_of
          (iterative_solve vallfinite (r Aux) fn fuel ms throw y0 f_struct aux_struct)
    end.

  (** fixed_point, _fixed_point.py 51-154; the ValueErrors for an output
      structure different from the input structure are modelled by a length
      check. *)
  Definition fixed_point {Aux} (fuel : nat) (ms : option nat) (throw : bool)
      (s : any_solver) (fn : vec -> vec * Aux) (aux_struct : fillv -> Aux)
      (y0 : vec) : outcome (Answer vec Aux) :=
    if negb (Nat.eqb (length (fst (fn y0))) (length y0)) then Raise ValueError else
    match s with
    | AFixedPoint p =>
        omap answer_of
          (iterative_solve vallfinite (p Aux) fn fuel ms throw y0
             (vec_struct (length y0)) aux_struct)
    | _ => root_find fuel ms throw s (fixed_to_root_fn fn) aux_struct y0
    end.
End RootFind.
