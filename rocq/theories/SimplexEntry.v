(** NelderMead as seen by JAX's tracing: with which structures of arrays the user's
    function is called, for a single starting point and for options["y0_simplex"]=True.
    Models the structural part of NelderMead.init and NelderMead.step
    (/repo/optimistix/_solver/nelder_mead.py) run by minimise (_minimise.py). *)

From Coq Require Import String List Bool Arith.
From Verif Require Import PyTree Entry Results NelderMead.
Import ListNotations.
Local Open Scope nat_scope.

Section SimplexEntry.
  (** `jax.config.jax_enable_x64` *)
  Variable x64 : bool.

  (** `eqx.filter_closure_convert(fn, y0, args)`, _minimise.py 91: the function traced at
      the structure of y0.  Called with another structure it raises ValueError (Equinox:
      "Closure-converted function called with different dynamic arguments to the example
      arguments provided"). *)
  Definition closure_convert (fn : tree sds -> entry (tree sds * tree sds)) (y0 : tree sds) :
      tree sds -> entry (tree sds * tree sds) :=
    fun y => if struct_eqb y0 y then fn y else Raised EValueError.

  (** `x.shape[0]`, nelder_mead.py 124, and the number of entries of the rest *)
  Definition leading (s : sds) : entry (nat * nat) :=
    match sd_shape s with
    | [] => Raised EIndexError
    | n :: sh => Ready (n, fold_right Nat.mul 1 sh)
    end.
  (** The leaves one after the other, nelder_mead.py 124 *)
  Fixpoint all_leading (l : list sds) : entry (list (nat * nat)) :=
    match l with
    | [] => Ready []
    | s :: l => ebind (leading s) (fun x => ebind (all_leading l) (fun xs => Ready (x :: xs)))
    end.

  (** The structure of one vertex: `x[0]` of every leaf (nelder_mead.py 190), and what
      `jax.vmap` hands to fn (nelder_mead.py 359) *)
  Definition drop_leading (s : sds) : sds := mkSds (tl (sd_shape s)) (sd_dtype s).

  (** `jnp.repeat(leaf[None, ...], size + 1, axis=0)`, nelder_mead.py 161 *)
  Definition add_leading (n : nat) (s : sds) : sds := mkSds (n :: sd_shape s) (sd_dtype s).

  (** The number of entries, nelder_mead.py 150 *)
  Definition tree_size (t : tree sds) : nat :=
    fold_right Nat.add 0 (map (fun s => fold_right Nat.mul 1 (sd_shape s)) (leaves t)).

  (** NelderMead.init, nelder_mead.py 120-177: the number of vertices and the structure
      of the simplex.  `jtu.tree_reduce` (150) raises TypeError when there are no leaves. *)
  Definition nm_simplex_struct (y0_simplex : bool) (y : tree sds) : entry (nat * tree sds) :=
    if y0_simplex then
      ebind (all_leading (leaves y)) (fun ls =>
      match simplex_check ls with
      | Ret n_vertices => Ready (n_vertices, y)
      | _ => Raised EValueError
      end)
    else
      match leaves y with
      | [] => Raised ETypeError
      | _ => let n_vertices := S (tree_size y) in
             Ready (n_vertices, tree_map1 (add_leading n_vertices) y)
      end.

  (** minimise(fn, NelderMead(...), y0, options=dict(y0_simplex=...)), _minimise.py 87-119
      and nelder_mead.py 206-411, up to the end of tracing.  Both branches of every
      `lax.cond` are traced, so fn is called on a vertex (nelder_mead.py 305, 359) whatever
      the values are; the calls differ in values only.  `lax.top_k(f_new_simplex, 2)` (385)
      raises ValueError when there is only one vertex.  Conflicts between the dtypes inside
      the solver's state are not modelled. *)
  Definition nm_trace (y0_simplex : bool) (fn : user_fn) (y0 : tree pyval) : entry unit :=
    ebind (minimise_entry x64 (none_aux fn) y0) (fun '(y, _, _) =>
    let fn := closure_convert (out_as_array x64 (none_aux fn)) y in
    ebind (nm_simplex_struct y0_simplex y) (fun '(n_vertices, simplex) =>
    ebind (fn (tree_map1 drop_leading simplex)) (fun _ =>
    if n_vertices <? 2 then Raised EValueError else Ready tt))).
End SimplexEntry.
