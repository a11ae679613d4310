(** Vectors: a pytree of arrays is modelled by the list of its scalar entries
    in flattening order.  (Trees themselves are modelled in PyTree.v.) *)

From Coq Require Import List Bool QArith.
From Verif Require Import Num.
Import ListNotations.

Section Vec.
  Context {N : Num}.
  Local Open Scope num_scope.

  (** `jtu.tree_map(f, a, b)` on trees of the same structure. (e.g. _misc.py 100). *)
  Fixpoint vmap2 {A B C : Type} (f : A -> B -> C) (a : list A) (b : list B) : list C :=
    match a, b with
    | x :: a', y :: b' => f x y :: vmap2 f a' b'
    | _, _ => []
    end.

  (** ω-arithmetic: `(a**ω + b**ω).ω` and friends (equinox.internal.ω). E.g. gauss_newton.py 315. *)
  Definition vadd (a b : list N) : list N := vmap2 nadd a b.
  (** `(a**ω - b**ω).ω`, e.g. fixed_point.py 65. *)
  Definition vsub (a b : list N) : list N := vmap2 nsub a b.
  (** Entrywise product, inside lineax's tree_dot (imported in _misc.py 15-22). *)
  Definition vmul (a b : list N) : list N := vmap2 nmul a b.
  (** `(a**ω / b**ω).ω`, e.g. _misc.py 308. *)
  Definition vdiv (a b : list N) : list N := vmap2 ndiv a b.
  (** `(c * a**ω).ω`, e.g. gradient_methods.py 79. *)
  Definition vscale (c : N) (a : list N) : list N := map (nmul c) a.
  (** `(-a**ω).ω`, e.g. gradient_methods.py 79. *)
  Definition vneg (a : list N) : list N := map nneg a.
  (** `ω(a).call(jnp.abs).ω`, _misc.py 306-309. *)
  Definition vabs (a : list N) : list N := map nabs a.

  (** `jnp.sum`; the order of summation is not specified by JAX, we sum from
      the right starting at 0. (inside lineax's norms, _misc.py 15-22). *)
  Definition vsum (a : list N) : N := fold_right nadd (lit 0) a.

  (** lineax.internal.tree_dot (real case), imported in _misc.py 15-22. *)
  Definition vdot (a b : list N) : N := vsum (vmul a b).

  (** lineax.internal.sum_squares (imported in _misc.py 15-22, wrapped 28-46) *)
  Definition sum_squares (a : list N) : N := vdot a a.

  (** lineax.internal.two_norm (_misc.py 45) *)
  Definition two_norm (a : list N) : N := nsqrt (sum_squares a).

  (** lineax.internal.rms_norm: root of the mean square; 0 for no entries (_misc.py 15-46) *)
  Definition rms_norm (a : list N) : N :=
    match a with
    | [] => lit 0
    | _ => nsqrt (sum_squares a / nofQ (inject_Z (Z.of_nat (length a))))
    end.

  (** lineax.internal.max_norm: largest absolute entry, NaN-propagating; 0 for
      no entries. (_misc.py 15-46). *)
  Definition max_norm (a : list N) : N := fold_right nmax (lit 0) (vabs a).

  (** tree_allfinite, _misc.py 85-87 *)
  Definition vallfinite (a : list N) : bool := forallb nisfin a.

  (** tree_where with a scalar predicate, _misc.py 90-104 *)
  Definition vwhere (p : bool) (a b : list N) : list N :=
    vmap2 (fun x y => if p then x else y) a b.

  (** `jtu.tree_map(f, a, b, c)`, _misc.py 124. *)
  Fixpoint vmap3 {A B C D : Type} (f : A -> B -> C -> D)
      (a : list A) (b : list B) (c : list C) : list D :=
    match a, b, c with
    | x :: a', y :: b', z :: c' => f x y z :: vmap3 f a' b' c'
    | _, _, _ => []
    end.

  (** tree_clip, _misc.py 116-124 *)
  Definition vclip (a l u : list N) : list N := vmap3 nclip a l u.

  (** tree_full_like, _misc.py 62-82 *)
  Definition vfull (n : nat) (x : N) : list N := repeat x n.

  (** cauchy_termination, _misc.py 291-310, for vector-valued [y] and [f] and
      arbitrary norm. *)
  Definition vscale_tol (rtol atol : N) (y : list N) : list N :=
    map (fun yi => atol + rtol * nabs yi) y.

  (** cauchy_termination, _misc.py 291-310. *)
  Definition cauchy_termination (rtol atol : N) (norm : list N -> N)
      (y y_diff f f_diff : list N) : bool :=
    let y_scale := vscale_tol rtol atol y in
    let f_scale := vscale_tol rtol atol f in
    let y_converged := norm (vdiv (vabs y_diff) y_scale) <? lit 1 in
    let f_converged := norm (vdiv (vabs f_diff) f_scale) <? lit 1 in
    y_converged && f_converged.
End Vec.
