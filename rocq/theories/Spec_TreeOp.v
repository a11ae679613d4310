(** Vocabulary for statements about operators on pytrees. *)

From Coq Require Import List.
From Verif Require Import Num Vec PyTree Spec_PyTree.
Import ListNotations.

(** Blocks side by side: row i is the concatenation of the i-th rows. *)
Definition side_by_side {A : Type} (rows : nat) (blocks : list (list (list A))) : list (list A) :=
  fold_right (vmap2 (@app A)) (repeat [] rows) blocks.

(** The matrix of a block operator whose outputs are like [t]: for each leaf of [t], in
    order, the blocks found there side by side; these stacked. *)
Fixpoint flat_matrix {A : Type} (t : tree (list A)) (P : tree (list (list A))) : list (list A) :=
  match t, P with
  | Leaf x, _ => side_by_side (length x) (leaves P)
  | Node _ ts, Node _ ps =>
      (fix go ts ps := match ts, ps with
                       | t :: ts, p :: ps => flat_matrix t p ++ go ts ps
                       | _, _ => []
                       end) ts ps
  | Node _ _, Leaf _ => []
  end.

(** The block operator [P] takes trees like [u] to trees like [t]. *)
Definition block_operator {A : Type} (t u : tree (list A)) (P : tree (list (list A))) : Prop :=
  prefix (fun x p => same_structure (fun y B => length B = length x /\ Forall (fun row => length row = length y) B) u p) t P.

(** Trees with the same structure and sizes *)
Definition alike {A : Type} (t u : tree (list A)) : Prop :=
  same_structure (fun x y => length y = length x) t u.

From Coq Require Import Reals.
From Verif Require Import Results Search QuasiNewton TreeOp Spec_Search.

(** A point visited by a quasi-Newton method whose unknown is a pytree, and the same
    point flattened. *)
Record tree_point : Type := mkTreePoint { tp_y : tree (list R); tp_f : R; tp_g : tree (list R) }.
Definition flat_point (p : tree_point) : qn_point :=
  mkPoint (entries (N:=RN) (tp_y p)) (tp_f p) (entries (N:=RN) (tp_g p)).
(** All positions and gradients are like [t]. *)
Definition point_like (t : tree (list R)) (p : tree_point) : Prop := alike t (tp_y p) /\ alike t (tp_g p).

(** The operator held after visiting [p0] and then the points of [l] (latest first) *)
Fixpoint tree_after (eps : R) (dfp use_inverse : bool) (p0 : tree_point) (l : list tree_point) :
    outcome (tree (list (list R))) :=
  match l with
  | [] => identity_pytree (N:=RN) (tp_y p0)
  | q :: rest =>
      obind (tree_after eps dfp use_inverse p0 rest) (fun H =>
        let p := hd p0 rest in
        tree_update (N:=RN) eps dfp use_inverse (tp_y p) (tp_y q) (tp_g p) (tp_g q) H)
  end.
