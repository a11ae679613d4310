(** Vocabulary for statements about pytrees. *)

From Coq Require Import String List Bool Arith.
From Verif Require Import PyTree.
Import ListNotations.

(** The subtree at a path (child numbers from the root down). *)
Fixpoint at_path {A : Type} (q : list nat) (t : tree A) : option (tree A) :=
  match q with
  | [] => Some t
  | i :: q' => match t with
               | Leaf _ => None
               | Node _ ts => match nth_error ts i with Some c => at_path q' c | None => None end
               end
  end.

(** The i-th entry of an operand. *)
Definition entry {A : Type} (o : operand A) (i : nat) : option A :=
  match o with Scalar a => Some a | Entries l => nth_error l i end.

(** Two trees have the same structure: the same paths, with the same tags at the same
    containers and leaves at the same places, related by [rel]. *)
Inductive same_structure {A B : Type} (rel : A -> B -> Prop) : tree A -> tree B -> Prop :=
| same_leaf : forall a b, rel a b -> same_structure rel (Leaf a) (Leaf b)
| same_node : forall tag ts us, Forall2 (same_structure rel) ts us -> same_structure rel (Node tag ts) (Node tag us).

(** The first tree is a prefix of the second: it has the same structure up to its
    leaves, where the subtree is as [rel] says. *)
Inductive prefix {A B : Type} (rel : A -> tree B -> Prop) : tree A -> tree B -> Prop :=
| prefix_leaf : forall a u, rel a u -> prefix rel (Leaf a) u
| prefix_node : forall tag ts us, Forall2 (prefix rel) ts us -> prefix rel (Node tag ts) (Node tag us).
