(** Property theorems: Entry.
    Statements only; each is closed by the lemma of the same name (suffix _pf)
    in the proof file.  [Example]s show concrete cases meeting the hypotheses. *)

From Coq Require Import String List Bool Arith Lia.
From Verif Require Import PyTree Spec_PyTree PyTree_proofs Entry Spec_Entry.
Import ListNotations.
Local Open Scope nat_scope.
From Verif Require Import Entry_proofs.

(** minimise accepts exactly the functions whose value, at the converted y0, is one real
    scalar; integers and booleans are accepted, and converted.  Otherwise: ValueError. *)
Theorem C78_minimise :
  forall (x64 : bool) (fn : user_fn) (y0 : tree pyval), exists y,
    converted x64 y0 y /\
    ((exists v, value_of fn y = Leaf v /\ real_scalar v) ->
     exists f a, minimise_entry x64 (none_aux fn) y0 = Ready (y, f, a) /\ converted x64 (value_of fn y) f) /\
    (~ (exists v, value_of fn y = Leaf v /\ real_scalar v) ->
     minimise_entry x64 (none_aux fn) y0 = Raised EValueError).
Proof. exact C78_minimise_pf. Qed.
Print Assumptions C78_minimise.

(** Two minimisations: of an integer-valued function (accepted, as a float32), and of a
    function returning a vector (rejected). *)
Theorem C78_minimise_ex :
  minimise_entry false (none_aux (Plain (fun _ => Leaf PyInt))) (Node "tuple" [Leaf PyFloat; Leaf (Arr (mkSds [3] (DFloat 16)))])
    = Ready (Node "tuple" [Leaf (mkSds [] (DFloat 32)); Leaf (mkSds [3] (DFloat 16))], Leaf (mkSds [] (DFloat 32)), Node "None" []) /\
  minimise_entry false (none_aux (Plain (fun y => arrays y))) (Leaf (Arr (mkSds [3] (DFloat 32)))) = Raised EValueError /\
  minimise_entry true (none_aux (Plain (fun _ => Leaf PyComplex))) (Leaf PyFloat) = Raised EValueError.
Proof. exact C78_minimise_ex_pf. Qed.
Print Assumptions C78_minimise_ex.

(** root_find hands every function to its solver; with a minimiser it raises ValueError
    exactly when the solver's norm of the function's value is not a real scalar. *)
Theorem C78_root_find :
  forall (x64 : bool) (norm : tree sds -> pyval) (k : solver_kind) (fn : user_fn) (y0 : tree pyval),
    exists y root, converted x64 y0 y /\ converted x64 (value_of fn y) root /\
    (k <> KMinimiser -> exists a, root_find_entry x64 norm k (none_aux fn) y0 = Ready (y, root, a)) /\
    (k = KMinimiser -> real_scalar (norm root) ->
     exists f a, root_find_entry x64 norm k (none_aux fn) y0 = Ready (y, f, a) /\ converted x64 (Leaf (norm root)) f) /\
    (k = KMinimiser -> ~ real_scalar (norm root) ->
     root_find_entry x64 norm k (none_aux fn) y0 = Raised EValueError).
Proof. exact C78_root_find_pf. Qed.
Print Assumptions C78_root_find.

(** A minimiser used for a root-find whose norm is a float, and one whose norm returns a vector *)
Theorem C78_root_find_ex :
  (exists a, root_find_entry false (fun _ => PyFloat) KMinimiser (none_aux (Plain (fun y => arrays y))) (Leaf PyInt)
    = Ready (Leaf (mkSds [] (DFloat 32)), Leaf (mkSds [] (DFloat 32)), a)) /\
  root_find_entry false (fun _ => Arr (mkSds [2] (DFloat 32))) KMinimiser (none_aux (Plain (fun y => arrays y))) (Leaf PyInt)
    = Raised EValueError.
Proof. exact C78_root_find_ex_pf. Qed.
Print Assumptions C78_root_find_ex.

(** The same for least_squares, with half the sum of squares in place of the norm. *)
Theorem C78_least_squares :
  forall (x64 : bool) (hss : tree sds -> pyval) (k : solver_kind) (fn : user_fn) (y0 : tree pyval),
    exists y residual, converted x64 y0 y /\ converted x64 (value_of fn y) residual /\
    (k <> KMinimiser -> exists a, least_squares_entry x64 hss k fn y0 = Ready (y, residual, a)) /\
    (k = KMinimiser -> real_scalar (hss residual) ->
     exists f a, least_squares_entry x64 hss k fn y0 = Ready (y, f, a) /\ converted x64 (Leaf (hss residual)) f).
Proof. exact C78_least_squares_pf. Qed.
Print Assumptions C78_least_squares.

(** A least-squares problem with integer residuals, given to a least-squares solver and to a minimiser *)
Theorem C78_least_squares_ex :
  (exists a, least_squares_entry true (fun _ => PyFloat) KLeastSquares (Plain (fun _ => Leaf (Arr (mkSds [5] (DInt true 32))))) (Leaf PyInt)
    = Ready (Leaf (mkSds [] (DFloat 64)), Leaf (mkSds [5] (DFloat 64)), a)) /\
  (exists a, least_squares_entry true (fun _ => PyFloat) KMinimiser (Plain (fun _ => Leaf (Arr (mkSds [5] (DInt true 32))))) (Leaf PyInt)
    = Ready (Leaf (mkSds [] (DFloat 64)), Leaf (mkSds [] (DFloat 64)), a)).
Proof. exact C78_least_squares_ex_pf. Qed.
Print Assumptions C78_least_squares_ex.

(** fixed_point accepts exactly the functions whose value has the containers, shapes and
    dtypes of the converted y0, whichever of the four kinds of solver is given; otherwise
    it raises ValueError. *)
Theorem C78_fixed_point :
  forall (x64 : bool) (norm : tree sds -> pyval) (k : solver_kind) (fn : user_fn) (y0 : tree pyval),
    (k = KMinimiser -> forall t, real_scalar (norm t)) ->
    exists y, converted x64 y0 y /\
    (converted x64 (value_of fn y) y ->
     exists f a, fixed_point_entry x64 norm k fn y0 = Ready (y, f, a) /\ (k <> KMinimiser -> f = y)) /\
    (~ converted x64 (value_of fn y) y -> fixed_point_entry x64 norm k fn y0 = Raised EValueError).
Proof. exact C78_fixed_point_pf. Qed.
Print Assumptions C78_fixed_point.

(** The identity is accepted from a tuple of an integer and a float16 vector; a function
    that drops one of the two, or returns float32 for a float16, is rejected by every kind. *)
Theorem C78_fixed_point_ex :
  let y0 := Node "tuple" [Leaf PyInt; Leaf (Arr (mkSds [2] (DFloat 16)))] in
  forall k, (exists y f a, fixed_point_entry false (fun _ => PyFloat) k (Plain (fun y => arrays y)) y0 = Ready (y, f, a)) /\
    fixed_point_entry false (fun _ => PyFloat) k (Plain (fun _ => Node "tuple" [Leaf PyInt])) y0 = Raised EValueError /\
    fixed_point_entry false (fun _ => PyFloat) k (Plain (fun _ => Node "tuple" [Leaf PyInt; Leaf (Arr (mkSds [2] (DFloat 32)))])) y0 = Raised EValueError.
Proof. exact C78_fixed_point_ex_pf. Qed.
Print Assumptions C78_fixed_point_ex.

(** Whatever the entry point, the solver only sees floating-point or complex arrays, in y
    and in the value of the function; and y is the converted y0. *)
Theorem C78_inexact :
  forall (x64 : bool) (hss norm : tree sds -> pyval) (k : solver_kind) (fn : user_fn) (y0 : tree pyval) y f a,
    minimise_entry x64 (none_aux fn) y0 = Ready (y, f, a) \/
    least_squares_entry x64 hss k fn y0 = Ready (y, f, a) \/
    root_find_entry x64 norm k (none_aux fn) y0 = Ready (y, f, a) \/
    fixed_point_entry x64 norm k fn y0 = Ready (y, f, a) ->
    converted x64 y0 y /\
    forall s, In s (leaves y) \/ In s (leaves f) ->
      (exists n, sd_dtype s = DFloat n) \/ sd_dtype s = DBFloat16 \/ (exists n, sd_dtype s = DComplex n).
Proof. exact C78_inexact_pf. Qed.
Print Assumptions C78_inexact.

(** A fixed-point problem on an integer vector: the solver sees float64 arrays *)
Theorem C78_inexact_ex :
  exists a, fixed_point_entry true (fun _ => PyFloat) KFixedPoint (Plain (fun _ => Leaf (Arr (mkSds [2] DBool)))) (Leaf (Arr (mkSds [2] (DInt false 8))))
    = Ready (Leaf (mkSds [2] (DFloat 64)), Leaf (mkSds [2] (DFloat 64)), a).
Proof. exact C78_inexact_ex_pf. Qed.
Print Assumptions C78_inexact_ex.

(** Converting what is already converted changes nothing, so nesting the entry points
    (fixed_point inside root_find inside minimise) does not change dtypes. *)
Theorem C78_idempotent :
  forall (x64 : bool) t u u', converted x64 t u -> converted x64 (tree_map1 Arr u) u' -> u' = u.
Proof. exact C78_idempotent_pf. Qed.
Print Assumptions C78_idempotent.

(** A Python integer becomes a float32, which stays a float32 *)
Theorem C78_idempotent_ex :
  converted false (Leaf PyInt) (Leaf (mkSds [] (DFloat 32))) /\
  converted false (tree_map1 Arr (Leaf (mkSds [] (DFloat 32)))) (Leaf (mkSds [] (DFloat 32))).
Proof. exact C78_idempotent_ex_pf. Qed.
Print Assumptions C78_idempotent_ex.

(** The warning about complex numbers: minimise warns exactly when y is complex somewhere;
    so does root_find with a minimiser, whatever the function returns, while with any other
    solver it warns when y or the function's value is complex. *)
Theorem C78_warning :
  forall (x64 : bool) (norm : tree sds -> pyval) (k : solver_kind) (fn : user_fn) (y0 : tree pyval) y f a,
    (minimise_entry x64 (none_aux fn) y0 = Ready (y, f, a) ->
     (complex_warning (y, f, a) = true <-> some_complex y)) /\
    (root_find_entry x64 norm k (none_aux fn) y0 = Ready (y, f, a) ->
     (complex_warning (y, f, a) = true <->
      some_complex y \/ (k <> KMinimiser /\ exists root, converted x64 (value_of fn y) root /\ some_complex root))).
Proof. exact C78_warning_pf. Qed.
Print Assumptions C78_warning.

(** A complex-valued function of a real number: Newton warns, a minimiser does not *)
Theorem C78_warning_ex :
  (exists r, root_find_entry false (fun _ => PyFloat) KRootFinder (none_aux (Plain (fun _ => Leaf PyComplex))) (Leaf PyFloat) = Ready r /\
     complex_warning r = true) /\
  (exists r, root_find_entry false (fun _ => PyFloat) KMinimiser (none_aux (Plain (fun _ => Leaf PyComplex))) (Leaf PyFloat) = Ready r /\
     complex_warning r = false).
Proof. exact C78_warning_ex_pf. Qed.
Print Assumptions C78_warning_ex.

(** After minimise's own check, GoldenSearch accepts exactly the scalar y with scalar bounds;
    its check on the output never fails there. *)
Theorem C79_golden :
  forall (x64 : bool) (fn : user_fn) (y0 : tree pyval) y f a lower upper,
    minimise_entry x64 (none_aux fn) y0 = Ready (Leaf y, f, a) ->
    (sd_shape y = [] /\ has_shape lower [] /\ has_shape upper [] -> bracket_check lower upper y f = Ready tt) /\
    (~ (sd_shape y = [] /\ has_shape lower [] /\ has_shape upper []) -> bracket_check lower upper y f = Raised EValueError).
Proof. exact C79_golden_pf. Qed.
Print Assumptions C79_golden.

(** A scalar problem with Python bounds passes; a vector bound is rejected *)
Theorem C79_golden_ex :
  (exists f a, minimise_entry false (none_aux (Plain (fun y => arrays y))) (Leaf PyFloat) = Ready (Leaf (mkSds [] (DFloat 32)), f, a) /\
    bracket_check PyInt PyInt (mkSds [] (DFloat 32)) f = Ready tt /\
    bracket_check PyInt (Arr (mkSds [1] (DFloat 32))) (mkSds [] (DFloat 32)) f = Raised EValueError).
Proof. exact C79_golden_ex_pf. Qed.
Print Assumptions C79_golden_ex.

(** Through root_find, a function returning one array is accepted by Bisection exactly when
    that array, y and both bounds are scalars, and otherwise raises ValueError.  Missing from
    the full claim: functions returning a container, see C79_tuple_refuted. *)
Theorem C79_bisection_partial :
  forall (x64 : bool) (norm : tree sds -> pyval) (fn : user_fn) (y0 : tree pyval) y f a lower upper v,
    root_find_entry x64 norm KRootFinder (none_aux fn) y0 = Ready (Leaf y, f, a) ->
    value_of fn (Leaf y) = Leaf v ->
    (sd_shape y = [] /\ has_shape lower [] /\ has_shape upper [] /\ has_shape v [] -> bracket_check lower upper y f = Ready tt) /\
    (~ (sd_shape y = [] /\ has_shape lower [] /\ has_shape upper [] /\ has_shape v []) -> bracket_check lower upper y f = Raised EValueError).
Proof. exact C79_bisection_partial_pf. Qed.
Print Assumptions C79_bisection_partial.

(** A vector-valued function given to Bisection *)
Theorem C79_bisection_partial_ex :
  exists f a, root_find_entry false (fun _ => PyFloat) KRootFinder (none_aux (Plain (fun _ => Leaf (Arr (mkSds [2] (DFloat 32)))))) (Leaf PyFloat)
      = Ready (Leaf (mkSds [] (DFloat 32)), f, a) /\
    bracket_check PyInt PyInt (mkSds [] (DFloat 32)) f = Raised EValueError.
Proof. exact C79_bisection_partial_ex_pf. Qed.
Print Assumptions C79_bisection_partial_ex.

(** The message "Bisection can only be used to find the roots of a function producing a
    scalar output" is not what a function returning a tuple gets: `f_struct.dtype` is read
    before the check, so an AttributeError is raised instead of that ValueError. *)
Theorem C79_tuple_refuted :
  exists (fn : user_fn) (y0 : tree pyval) y f a,
    root_find_entry false (fun _ => PyFloat) KRootFinder (none_aux fn) y0 = Ready (Leaf y, f, a) /\
    sd_shape y = [] /\ bracket_check PyInt PyInt y f <> Raised EValueError /\
    bracket_check PyInt PyInt y f = Raised EAttributeError.
Proof. exact C79_tuple_refuted_pf. Qed.
Print Assumptions C79_tuple_refuted.
