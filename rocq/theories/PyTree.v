(** Pytrees and the tree helpers of optimistix/_misc.py.  The rest of the model
    works with the flat list of entries ([entries] below); PyTree_proofs.v shows
    that the helpers act on that list as Vec.v says. *)

From Coq Require Import String List Bool Arith QArith.
From Verif Require Import Num Vec Results.
Import ListNotations.
Local Open Scope nat_scope.

(** A pytree: leaves and containers. The tag stands for the container type together
    with its static data (tuple, dict with its keys, `None`, ...). (the `Y` of every solver, _custom_types.py). *)
Inductive tree (A : Type) : Type :=
| Leaf (a : A)
| Node (tag : string) (children : list (tree A)).
Arguments Leaf {A}. Arguments Node {A}.

(** `jtu.tree_leaves` (quasi_newton.py 54) *)
Fixpoint leaves {A : Type} (t : tree A) : list A :=
  match t with
  | Leaf a => [a]
  | Node _ ts => concat (map leaves ts)
  end.

(** `jtu.tree_map(f, t)` (e.g. _misc.py 86) *)
Fixpoint tree_map1 {A B : Type} (f : A -> B) (t : tree A) : tree B :=
  match t with
  | Leaf a => Leaf (f a)
  | Node tag ts => Node tag (map (tree_map1 f) ts)
  end.

(** `jtu.tree_map(f, t, u)`: t must be a prefix of u; f is given a leaf of t and the
    subtree of u found there. (e.g. _misc.py 100). *)
Fixpoint tree_map2 {A B C : Type} (f : A -> tree B -> outcome (tree C)) (t : tree A) (u : tree B) :
    outcome (tree C) :=
  match t, u with
  | Leaf a, _ => f a u
  | Node tag ts, Node tag' us =>
      if String.eqb tag tag' then
        obind ((fix go ts us :=
                  match ts, us with
                  | [], [] => Ret []
                  | t :: ts, u :: us =>
                      obind (tree_map2 f t u) (fun c => obind (go ts us) (fun cs => Ret (c :: cs)))
                  | _, _ => Raise ValueError
                  end) ts us) (fun cs => Ret (Node tag cs))
      else Raise ValueError
  | Node _ _, Leaf _ => Raise ValueError
  end.

(** `jtu.tree_map(f, t, u, v)` (e.g. _misc.py 124) *)
Fixpoint tree_map3 {A B D C : Type} (f : A -> tree B -> tree D -> outcome (tree C)) (t : tree A) (u : tree B) (v : tree D) :
    outcome (tree C) :=
  match t, u, v with
  | Leaf a, _, _ => f a u v
  | Node tag ts, Node tag' us, Node tag'' vs =>
      if String.eqb tag tag' && String.eqb tag tag'' then
        obind ((fix go ts us vs :=
                  match ts, us, vs with
                  | [], [], [] => Ret []
                  | t :: ts, u :: us, v :: vs =>
                      obind (tree_map3 f t u v) (fun c => obind (go ts us vs) (fun cs => Ret (c :: cs)))
                  | _, _, _ => Raise ValueError
                  end) ts us vs) (fun cs => Ret (Node tag cs))
      else Raise ValueError
  | _, _, _ => Raise ValueError
  end.

(** An operand that is broadcast against an array: a scalar, or an array of the same
    shape. (NumPy's other broadcasts are not modelled, and raise.) (_misc.py 90-124) *)
Inductive operand (A : Type) : Type := Scalar (a : A) | Entries (l : list A).
Arguments Scalar {A}. Arguments Entries {A}.
(** Broadcasting of a `jnp.where` / `jnp.clip` operand, _misc.py 100 and 124. *)
Definition broadcast {A : Type} (n : nat) (o : operand A) : option (list A) :=
  match o with
  | Scalar a => Some (repeat a n)
  | Entries l => if length l =? n then Some l else None
  end.

Section PyTree.
  Context {N : Num}.

  (** An array is the list of its entries. *)
  Notation arr := (list N).

  (** `jnp.where(p, x, y)` (_misc.py 100) *)
  Definition leaf_where (p : operand bool) (x y : arr) : outcome arr :=
    if length x =? length y then
      match broadcast (length x) p with
      | Some bs => Ret (vmap3 (fun (b : bool) a c => if b then a else c) bs x y)
      | None => Raise ValueError
      end
    else Raise ValueError.

  (** tree_where, _misc.py 90-104 *)
  Definition tree_where (pred : tree (operand bool)) (true_ false_ : tree arr) : outcome (tree arr) :=
    tree_map3 (fun p t f =>
      tree_map2 (fun ti fi =>
        match fi with
        | Leaf fi => obind (leaf_where p ti fi) (fun z => Ret (Leaf z))
        | Node _ _ => Raise ValueError
        end) t f) pred true_ false_.

  (** `jnp.clip(x, min=l, max=u)` (_misc.py 124) *)
  Definition leaf_clip (x : arr) (l u : operand N) : outcome arr :=
    match broadcast (length x) l, broadcast (length x) u with
    | Some ls, Some us => Ret (vclip x ls us)
    | _, _ => Raise ValueError
    end.

  (** tree_clip, _misc.py 116-124 *)
  Definition tree_clip (t : tree arr) (lower upper : tree (operand N)) : outcome (tree arr) :=
    tree_map3 (fun x l u =>
      match l, u with
      | Leaf l, Leaf u => obind (leaf_clip x l u) (fun z => Ret (Leaf z))
      | _, _ => Raise ValueError
      end) t lower upper.

  (** tree_allfinite, _misc.py 85-87: `jtu.tree_reduce` folds from the left *)
  Definition tree_allfinite (t : tree arr) : bool :=
    fold_left andb (leaves (tree_map1 (forallb nisfin) t)) true.

  (** tree_full_like, _misc.py 62-82. A leaf is an array (only its size matters) or
      something static; the latter has no `shape`, hence the exception (an
      AttributeError in Python). *)
  Inductive struct_leaf (S : Type) : Type := AnArray (n : nat) | Static (s : S).
  Arguments AnArray {S}. Arguments Static {S}.
  (** A leaf of the result of tree_full_like, _misc.py 62-82. *)
  Inductive full_leaf (S : Type) : Type := Filled (a : arr) | Kept (s : S).
  Arguments Filled {S}. Arguments Kept {S}.
  (** tree_full_like, _misc.py 62-82. *)
  Definition tree_full_like {S : Type} (struct : tree (struct_leaf S)) (x : N) (allow_static : bool) :
      outcome (tree (full_leaf S)) :=
    tree_map2 (fun l _ =>
      match l with
      | AnArray n => Ret (Leaf (Filled (vfull n x)))
      | Static s => if allow_static then Ret (Leaf (Kept s)) else Raise ValueError
      end) struct struct.

  (** `jfu.ravel_pytree(tree)` (_misc.py 128) *)
  Definition entries (t : tree arr) : arr := concat (leaves t).

  (** `jnp.min`, `jnp.max` of a vector: NaN-propagating, an exception for no entries (_misc.py 129, 134) *)
  Definition arr_reduce (op : N -> N -> N) (v : arr) : outcome N :=
    match v with
    | [] => Raise ValueError
    | x :: v' => Ret (fold_left op v' x)
    end.
  (** tree_min 127-129, tree_max 132-134 of _misc.py *)
  Definition tree_min (t : tree arr) : outcome N := arr_reduce nmin (entries t).
  (** tree_max, _misc.py 132-134. *)
  Definition tree_max (t : tree arr) : outcome N := arr_reduce nmax (entries t).

  (** `(a**ω + b**ω).ω` etc. (equinox.internal.ω): tree_map of a binary operation (e.g. gauss_newton.py 278) *)
  Definition omega2 (op : N -> N -> N) (a b : tree arr) : outcome (tree arr) :=
    tree_map2 (fun x u =>
      match u with
      | Leaf y => if length x =? length y then Ret (Leaf (vmap2 op x y)) else Raise ValueError
      | Node _ _ => Raise ValueError
      end) a b.
End PyTree.
Arguments AnArray {S}. Arguments Static {S}. Arguments Filled {N S}. Arguments Kept {N S}.
