(** What the entry points check before the first step: structures, shapes and
    dtypes.  Models the dispatching code of /repo/optimistix/_minimise.py,
    _least_squares.py, _root_find.py and _fixed_point.py, the wrappers NoneAux and
    OutAsArray of _misc.py, and the shape checks of Bisection.init and
    GoldenSearch.init.  Values are dropped: a function maps the structure of its
    input to the structure of its output (what `eqx.filter_closure_convert` traces). *)

From Coq Require Import String List Bool Arith.
From Verif Require Import PyTree.
Import ListNotations.
Local Open Scope nat_scope.

(** JAX dtypes (`x.dtype`, _misc.py 69) *)
Inductive dtype : Type :=
| DBool
| DInt (signed : bool) (bits : nat)
| DFloat (bits : nat)
| DBFloat16
| DComplex (bits : nat).

(** Equality of dtypes, used by `eqx.tree_equal` (_fixed_point.py 41) *)
Definition dtype_eqb (a b : dtype) : bool :=
  match a, b with
  | DBool, DBool | DBFloat16, DBFloat16 => true
  | DInt s n, DInt s' n' => Bool.eqb s s' && Nat.eqb n n'
  | DFloat n, DFloat n' | DComplex n, DComplex n' => Nat.eqb n n'
  | _, _ => false
  end.

(** `jax.ShapeDtypeStruct` (_minimise.py 98).  Weak types are not modelled: every array
    here is made by `jnp.asarray(x, dtype=...)`, which is never weakly typed. *)
Record sds : Type := mkSds { sd_shape : list nat; sd_dtype : dtype }.

(** Equality of shapes (_minimise.py 99: `f_struct.shape == ()`) *)
Fixpoint shape_eqb (a b : list nat) : bool :=
  match a, b with
  | [], [] => true
  | x :: a, y :: b => Nat.eqb x y && shape_eqb a b
  | _, _ => false
  end.
(** Equality of structures of arrays, used by `eqx.tree_equal` (_fixed_point.py 41) *)
Definition sds_eqb (a b : sds) : bool :=
  shape_eqb (sd_shape a) (sd_shape b) && dtype_eqb (sd_dtype a) (sd_dtype b).

(** `eqx.tree_equal(jax.eval_shape(lambda: y), jax.eval_shape(lambda: out)) is True`,
    _fixed_point.py 41-42 and 135: same containers, same leaves. *)
Fixpoint struct_eqb (t u : tree sds) : bool :=
  match t, u with
  | Leaf a, Leaf b => sds_eqb a b
  | Node tag ts, Node tag' us =>
      String.eqb tag tag' &&
      (fix go ts us :=
         match ts, us with
         | [], [] => true
         | t :: ts, u :: us => struct_eqb t u && go ts us
         | _, _ => false
         end) ts us
  | _, _ => false
  end.

(** A leaf as the user may give it: a Python number, or an array (_misc.py 276-285) *)
Inductive pyval : Type := PyBool | PyInt | PyFloat | PyComplex | Arr (a : sds).

(** Exceptions of this file *)
Inductive exn : Type := EValueError | EAttributeError | EIndexError | ETypeError.
(** Result of the checks (_minimise.py 102, _fixed_point.py 44 and 136, bisection.py 120-130,
    golden.py 66-77) *)
Inductive entry (A : Type) : Type := Ready (a : A) | Raised (e : exn).
Arguments Ready {A}. Arguments Raised {A}.
(** Sequencing of Python statements, as [obind] *)
Definition ebind {A B} (x : entry A) (f : A -> entry B) : entry B :=
  match x with Ready a => f a | Raised e => Raised e end.

Section Entry.
  (** `jax.config.jax_enable_x64` *)
  Variable x64 : bool.

  (** dtypes of arrays when 64-bit types are disabled (`jnp.result_type`, _misc.py 277) *)
  Definition canonical (d : dtype) : dtype :=
    if x64 then d else
    match d with
    | DInt s n => DInt s (if n =? 64 then 32 else n)
    | DFloat n => DFloat (if n =? 64 then 32 else n)
    | DComplex n => DComplex (if n =? 128 then 64 else n)
    | _ => d
    end.

  (** default_floating_dtype, _misc.py 40 (lineax) *)
  Definition default_floating_dtype : dtype := canonical (DFloat 64).

  (** `jnp.result_type(x)`, _misc.py 277 and 282 *)
  Definition result_type (v : pyval) : dtype :=
    match v with
    | PyBool => DBool
    | PyInt => canonical (DInt true 64)
    | PyFloat => canonical (DFloat 64)
    | PyComplex => canonical (DComplex 128)
    | Arr a => canonical (sd_dtype a)
    end.

  (** `jnp.issubdtype(d, jnp.inexact)`, _misc.py 283 *)
  Definition inexact (d : dtype) : bool :=
    match d with DFloat _ | DBFloat16 | DComplex _ => true | _ => false end.
  (** `jnp.issubdtype(d, jnp.floating)`, _minimise.py 100 *)
  Definition floating (d : dtype) : bool :=
    match d with DFloat _ | DBFloat16 => true | _ => false end.

  (** The shape of a leaf; Python numbers have shape () (`jnp.asarray`, _misc.py 262) *)
  Definition shape_of (v : pyval) : list nat :=
    match v with Arr a => sd_shape a | _ => [] end.

  (** asarray, _misc.py 276-278 *)
  Definition asarray (v : pyval) : sds := mkSds (shape_of v) (result_type v).
  (** inexact_asarray, _misc.py 281-285 *)
  Definition inexact_asarray (v : pyval) : sds :=
    mkSds (shape_of v)
      (if inexact (result_type v) then result_type v else default_floating_dtype).

  (** A function of (y, args), by structures; it may raise. ([Fn], _custom_types.py) *)
  Definition afun : Type := tree sds -> entry (tree pyval * tree pyval).

  (** The user's `fn`, with or without `has_aux=True` (_minimise.py 88-89): a pair, or a
      value which NoneAux (_misc.py 218-228) pairs with `None`. *)
  Inductive user_fn : Type :=
  | Plain (f : tree sds -> tree pyval)
  | HasAux (f : tree sds -> tree pyval * tree pyval).
  (** `if not has_aux: fn = NoneAux(fn)`, e.g. _minimise.py 88-89 *)
  Definition none_aux (fn : user_fn) : afun :=
    fun y => match fn with
             | Plain f => Ready (f y, Node "None" [])
             | HasAux f => Ready (f y)
             end.

  (** OutAsArray, _misc.py 231-242 *)
  Definition out_as_array (fn : afun) (y : tree sds) : entry (tree sds * tree sds) :=
    ebind (fn y) (fun '(out, aux) =>
      Ready (tree_map1 inexact_asarray out, tree_map1 asarray aux)).
  (** Arrays seen again as leaves (the result of one wrapper is the input of the next,
      _root_find.py 175-189). *)
  Definition arrays (t : tree sds) : tree pyval := tree_map1 Arr t.

  (** The structures of y0, f and aux handed to iterative_solve *)
  Definition ready : Type := (tree sds * tree sds * tree sds)%type.

  (** minimise, _minimise.py 87-119 *)
  Definition minimise_entry (fn : afun) (y0 : tree pyval) : entry ready :=
    let y0 := tree_map1 inexact_asarray y0 in
    ebind (out_as_array fn y0) (fun '(f_struct, aux_struct) =>
    if match f_struct with
       | Leaf s => shape_eqb (sd_shape s) [] && floating (sd_dtype s)
       | Node _ _ => false
       end
    then Ready (y0, f_struct, aux_struct)
    else Raised EValueError).

  (** The class of the `solver` argument (_root_find.py 179 and 195, _fixed_point.py 115) *)
  Inductive solver_kind : Type := KFixedPoint | KRootFinder | KLeastSquares | KMinimiser.

  (** `0.5 * sum_squares(residual)` (_least_squares.py 41) and `solver.norm`
      (_root_find.py 36), by structure: what lineax or the user returns *)
  Variable half_sum_squares : tree sds -> pyval.
  Variable norm : tree sds -> pyval.

  (** least_squares, _least_squares.py 98-135 *)
  Definition least_squares_entry (k : solver_kind) (fn : user_fn) (y0 : tree pyval) : entry ready :=
    let fn := out_as_array (none_aux fn) in
    match k with
    | KMinimiser =>
        minimise_entry
          (fun y => ebind (fn y) (fun '(residual, aux) =>
             Ready (Leaf (half_sum_squares residual), arrays aux))) y0
    | _ =>
        let y0 := tree_map1 inexact_asarray y0 in
        ebind (fn y0) (fun '(f_struct, aux_struct) => Ready (y0, f_struct, aux_struct))
    end.

  (** root_find, _root_find.py 175-241 *)
  Definition root_find_entry (k : solver_kind) (fn : afun) (y0 : tree pyval) : entry ready :=
    let fn := out_as_array fn in
    match k with
    | KMinimiser =>
        minimise_entry
          (fun y => ebind (fn y) (fun '(root, aux) =>
             Ready (Leaf (norm root), Node "tuple" [arrays root; arrays aux]))) y0
    | KLeastSquares =>
        let y0 := tree_map1 inexact_asarray y0 in
        ebind (fn y0) (fun '(root, aux) => Ready (y0, root, Node "tuple" [root; aux]))
    | _ =>
        let y0 := tree_map1 inexact_asarray y0 in
        ebind (fn y0) (fun '(f_struct, aux_struct) => Ready (y0, f_struct, aux_struct))
    end.

  (** _ToRootFn.__call__, _fixed_point.py 38-47; the difference has the common structure *)
  Definition to_root_fn (fixed_point_fn : tree sds -> entry (tree sds * tree sds)) : afun :=
    fun y => ebind (fixed_point_fn y) (fun '(out, aux) =>
      if struct_eqb y out then Ready (arrays out, arrays aux) else Raised EValueError).

  (** fixed_point, _fixed_point.py 111-154 *)
  Definition fixed_point_entry (k : solver_kind) (fn : user_fn) (y0 : tree pyval) : entry ready :=
    let fn := out_as_array (none_aux fn) in
    match k with
    | KRootFinder | KLeastSquares | KMinimiser => root_find_entry k (to_root_fn fn) y0
    | KFixedPoint =>
        let y0 := tree_map1 inexact_asarray y0 in
        ebind (fn y0) (fun '(f_struct, aux_struct) =>
        if struct_eqb y0 f_struct then Ready (y0, f_struct, aux_struct) else Raised EValueError)
    end.

  (** The checks at the start of GoldenSearch.init (golden.py 66-77) and of Bisection.init
      (bisection.py 118-130), for a single array y; [lower] and [upper] are the two options.
      `f_struct.dtype` is read first. *)
  Definition bracket_check (lower upper : pyval) (y : sds) (f_struct : tree sds) : entry unit :=
    match f_struct with
    | Node _ _ => Raised EAttributeError
    | Leaf s =>
        if negb (shape_eqb (sd_shape y) []) || negb (shape_eqb (shape_of lower) [])
           || negb (shape_eqb (shape_of upper) [])
        then Raised EValueError
        else if negb (shape_eqb (sd_shape s) []) then Raised EValueError
        else Ready tt
    end.

  (** The complex-number warning of iterative_solve, _iterate.py 333-338 *)
  Definition is_complex (d : dtype) : bool := match d with DComplex _ => true | _ => false end.
  (** `any(jnp.iscomplexobj(x) for x in jtu.tree_leaves((y0, f_struct)))`, _iterate.py 333 *)
  Definition complex_warning (r : ready) : bool :=
    let '(y0, f_struct, _) := r in
    existsb (fun s => is_complex (sd_dtype s)) (leaves y0 ++ leaves f_struct).
End Entry.
