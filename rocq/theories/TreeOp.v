(** Linear operators on pytrees, as the quasi-Newton methods build them.  Models
    /repo/optimistix/_solver/quasi_newton.py lines 41-82, 334-402, 494-559 before
    flattening; QuasiNewton.v is the flattened version, and TreeOp_proofs.v relates
    the two. *)

From Coq Require Import String List Bool Arith QArith.
From Verif Require Import Num Vec Results PyTree QuasiNewton.
Import ListNotations.
Local Open Scope nat_scope.

(** `treedef`: the structure of a tree, with unit leaves. `tree_structure(t)` (quasi_newton.py 54) *)
Definition structure {A : Type} (t : tree A) : tree unit := tree_map1 (fun _ => tt) t.

(** Replace every leaf by a tree. JAX does this whenever the function given to
    `tree_map` returns a container. (quasi_newton.py 78-82). *)
Fixpoint tree_graft {A B : Type} (f : A -> tree B) (t : tree A) : tree B :=
  match t with
  | Leaf a => f a
  | Node tag ts => Node tag (map (tree_graft f) ts)
  end.

(** `outer.compose(inner)`: every leaf of [outer] becomes a copy of [inner] (quasi_newton.py 55) *)
Definition compose (outer inner : tree unit) : tree unit := tree_graft (fun _ => inner) outer.

(** `tree_unflatten(structure, leaves)`: consumes the leaves in order; what is left
    over is returned. Too few leaves: an exception. (quasi_newton.py 72). *)
Fixpoint take_leaves {A : Type} (s : tree unit) (l : list A) : outcome (tree A * list A) :=
  match s with
  | Leaf _ => match l with a :: l' => Ret (Leaf a, l') | [] => Raise ValueError end
  | Node tag ss =>
      obind ((fix go ss l :=
                match ss with
                | [] => Ret ([], l)
                | s :: ss => obind (take_leaves s l) (fun p => obind (go ss (snd p)) (fun q => Ret (fst p :: fst q, snd q)))
                end) ss l) (fun q => Ret (Node tag (fst q), snd q))
  end.
(** Too many leaves are an exception as well. (quasi_newton.py 72). *)
Definition unflatten {A : Type} (s : tree unit) (l : list A) : outcome (tree A) :=
  obind (take_leaves s l) (fun p => match snd p with [] => Ret (fst p) | _ => Raise ValueError end).

Section TreeOp.
  Context {N : Num}.
  Local Open Scope num_scope.
  Notation arr := (list N).
  (** The block of an output leaf of size p and an input leaf of size q, of shape
      shape(out) + shape(in), is the p x q matrix of its entries. *)
  Notation block := (list (list N)).
  Variable eps : N.

  (** `jnp.zeros(p + q)` as a block (quasi_newton.py 67) *)
  Definition zero_block (p q : nat) : block := repeat (repeat (lit 0) q) p.

  (** The two loops over `leaves`, quasi_newton.py 56-66: [i1] is the number of l1 and
      [i2] the number of l2. *)
  Definition eye_row (i1 : nat) (l1 : arr) (leaves : list arr) : list block :=
    map (fun p => let '(i2, l2) := p in
           if Nat.eqb i1 i2 then identity_mat (length l1) else zero_block (length l1) (length l2))
        (combine (seq 0 (length leaves)) leaves).
  (** `eye_leaves`, quasi_newton.py 54-67. *)
  Definition eye_leaves (leaves : list arr) : list block :=
    concat (map (fun p => let '(i1, l1) := p in eye_row i1 l1 leaves)
                (combine (seq 0 (length leaves)) leaves)).
  (** _identity_pytree, quasi_newton.py 41-75: the `pytree` of the operator (its output
      structure is that of the argument; tags are not modelled) *)
  Definition identity_pytree (t : tree arr) : outcome (tree block) :=
    unflatten (compose (structure t) (structure t)) (eye_leaves (leaves t)).

  (** _outer, quasi_newton.py 78-82; `jnp.tensordot(x, leaf, axes=0)` *)
  Definition tree_outer (t1 t2 : tree arr) : tree block :=
    tree_graft (fun x => tree_map1 (fun leaf => outer x leaf) t2) t1.

  (** lineax's matrix-vector product for one output leaf: the sum, from 0, of the
      products with the input leaves (an empty sum is not modelled: it raises) (quasi_newton.py 375) *)
  Definition tree_matmul (matrix : list block) (vector : list arr) : outcome arr :=
    if Nat.eqb (length matrix) (length vector) then
      match vmap2 mat_mv matrix vector with
      | [] => Raise ValueError
      | x :: xs => Ret (fold_left vadd xs (map (nadd (lit 0)) x))
      end
    else Raise ValueError.
  (** `lx.PyTreeLinearOperator(pytree, output_structure).mv(vector)` (quasi_newton.py 375) *)
  Definition tree_mv (output_structure : tree unit) (pytree : tree block) (vector : tree arr) : outcome (tree arr) :=
    tree_map2 (fun _ matrix => obind (tree_matmul (leaves matrix) (leaves vector)) (fun x => Ret (Leaf x)))
      output_structure pytree.

  (** `tree_dot(a, b)`: the sum, from 0, of the dot products of the leaves (quasi_newton.py 376) *)
  Definition tree_dot (a b : tree arr) : outcome N :=
    if Nat.eqb (length (leaves a)) (length (leaves b))
    then Ret (fold_left nadd (vmap2 vdot (leaves a) (leaves b)) (lit 0)) else Raise ValueError.

  (** `(a**ω + b**ω).ω`, `(a**ω - b**ω).ω` on trees of blocks (quasi_newton.py 371-402) *)
  Definition same_shape (x y : block) : bool :=
    Nat.eqb (length x) (length y) && forallb (fun p => Nat.eqb (length (fst p)) (length (snd p))) (combine x y).
  (** `(a**ω + b**ω).ω` on trees of blocks, quasi_newton.py 371-402. *)
  Definition block_omega2 (op : N -> N -> N) (a b : tree block) : outcome (tree block) :=
    tree_map2 (fun x u =>
      match u with
      | Leaf y => if same_shape x y then Ret (Leaf (vmap2 (vmap2 op) x y)) else Raise ValueError
      | Node _ _ => Raise ValueError
      end) a b.
  (** `(c * a**ω).ω`, `(a**ω / c).ω` (quasi_newton.py 371-402) *)
  Definition block_scale (c : N) (a : tree block) : tree block := tree_map1 (mscale c) a.
  (** `(a**ω / c).ω` on trees of blocks, quasi_newton.py 371-402. *)
  Definition block_divs (a : tree block) (c : N) : tree block := tree_map1 (fun x => mdivs x c) a.

  (** `update` of AbstractBFGS with use_inverse=True, quasi_newton.py 371-389 *)
  Definition tree_bfgs_inverse (inner : N) (grad_diff y_diff : tree arr) (hessian_inv : tree block) : outcome (tree block) :=
    obind (tree_mv (structure grad_diff) hessian_inv grad_diff) (fun inv_mvp =>
    obind (tree_dot grad_diff inv_mvp) (fun mvp_inner =>
    let diff_outer := tree_outer y_diff y_diff in
    let mvp_outer := tree_outer y_diff inv_mvp in
    let term1 := block_divs (block_scale (inner + mvp_inner) diff_outer) (inner * inner) in
    obind (block_omega2 nadd (tree_outer inv_mvp y_diff) mvp_outer) (fun sum_ =>
    let term2 := block_divs sum_ inner in
    obind (block_omega2 nadd hessian_inv term1) (fun h => block_omega2 nsub h term2)))).

  (** ... use_inverse=False, quasi_newton.py 390-402 *)
  Definition tree_bfgs_direct (inner : N) (grad_diff y_diff : tree arr) (hessian : tree block) : outcome (tree block) :=
    obind (tree_mv (structure grad_diff) hessian y_diff) (fun mvp =>
    let term1 := block_divs (tree_outer grad_diff grad_diff) inner in
    obind (tree_dot y_diff mvp) (fun d =>
    let term2 := block_divs (tree_outer mvp mvp) d in
    obind (block_omega2 nadd hessian term1) (fun h => block_omega2 nsub h term2))).

  (** `update` of AbstractDFP with use_inverse=True, quasi_newton.py 531-543 *)
  Definition tree_dfp_inverse (inner : N) (grad_diff y_diff : tree arr) (hessian_inv : tree block) : outcome (tree block) :=
    obind (tree_mv (structure grad_diff) hessian_inv grad_diff) (fun inv_mvp =>
    let term1 := block_divs (tree_outer y_diff y_diff) inner in
    obind (tree_dot grad_diff inv_mvp) (fun d =>
    let term2 := block_divs (tree_outer inv_mvp inv_mvp) d in
    obind (block_omega2 nadd hessian_inv term1) (fun h => block_omega2 nsub h term2))).

  (** ... use_inverse=False, quasi_newton.py 544-559 *)
  Definition tree_dfp_direct (inner : N) (grad_diff y_diff : tree arr) (hessian : tree block) : outcome (tree block) :=
    obind (tree_mv (structure grad_diff) hessian y_diff) (fun mvp =>
    obind (tree_dot y_diff mvp) (fun mvp_inner =>
    let diff_outer := tree_outer grad_diff grad_diff in
    let mvp_outer := tree_outer grad_diff mvp in
    let term1 := block_divs (block_scale (inner + mvp_inner) diff_outer) (inner * inner) in
    obind (block_omega2 nadd (tree_outer mvp grad_diff) mvp_outer) (fun sum_ =>
    let term2 := block_divs sum_ inner in
    obind (block_omega2 nadd hessian term1) (fun h => block_omega2 nsub h term2)))).

  (** AbstractBFGS.update_hessian 342-408 and AbstractDFP.update_hessian 502-566, the
      new operator: [dfp] selects the class, [grad0] is `f_info.grad`, [H] the pytree
      of the operator in `f_info`. (of quasi_newton.py). *)
  Definition tree_update (dfp use_inverse : bool) (y y_eval grad0 grad : tree arr) (H : tree block) : outcome (tree block) :=
    obind (omega2 nsub y_eval y) (fun y_diff =>
    obind (omega2 nsub grad grad0) (fun grad_diff =>
    obind (tree_dot grad_diff y_diff) (fun inner =>
    if eps <? inner then
      (if dfp then if use_inverse then tree_dfp_inverse else tree_dfp_direct
       else if use_inverse then tree_bfgs_inverse else tree_bfgs_direct) inner grad_diff y_diff H
    else Ret H))).
End TreeOp.
