(** Property theorems: PyTree.
    Statements only; each is closed by the lemma of the same name (suffix _pf)
    in the proof file.  [Example]s show concrete cases meeting the hypotheses. *)

From Coq Require Import String List Bool Arith Lia QArith.
From Verif Require Import Num NumFacts NumF64 NumF64_facts Vec Results PyTree Spec_PyTree.
Import ListNotations.
Local Open Scope nat_scope.
From Verif Require Import PyTree_proofs.

(** tree_where: when it returns, the result has the structure of `true`; at every leaf
    of `true` there is a leaf of `pred` above it, the corresponding leaf of `false`
    has the same size, and every entry is `true`'s or `false`'s according to that leaf
    of `pred`. Any arithmetic, any trees. *)
Theorem C52_where :
  forall (N : Num) pred (t f r : tree (list N)), tree_where pred t f = Ret r ->
    same_structure (fun x z : list N => length z = length x) t r /\
    forall q x, at_path q t = Some (Leaf x) ->
      exists q1 q2 p y z, q = q1 ++ q2 /\ at_path q1 pred = Some (Leaf p) /\
        at_path q f = Some (Leaf y) /\ at_path q r = Some (Leaf z) /\ length y = length x /\
        forall i a, nth_error x i = Some a -> exists b c,
          entry p i = Some b /\ nth_error y i = Some c /\ nth_error z i = Some (if b then a else c).
Proof. exact C52_where_pf. Qed.
Print Assumptions C52_where.

(** tree_where returns whenever `true` and `false` have the same structure and sizes
    and `pred` is a prefix of them, with scalar leaves or leaves of the right size. *)
Theorem C52_where_returns :
  forall (N : Num) pred (t f : tree (list N)),
    same_structure (fun x y : list N => length y = length x) t f ->
    prefix (fun p u => forall l x, p = Entries l -> In x (leaves u) -> length l = length x) pred t ->
    exists r, tree_where pred t f = Ret r.
Proof. exact C52_where_returns_pf. Qed.
Print Assumptions C52_where_returns.

(** A scalar predicate selects one of the two trees as a whole. *)
Theorem C52_where_scalar :
  forall (N : Num) (b : bool) (t f : tree (list N)),
    same_structure (fun x y : list N => length y = length x) t f ->
    tree_where (Leaf (Scalar b)) t f = Ret (if b then t else f).
Proof. exact C52_where_scalar_pf. Qed.
Print Assumptions C52_where_scalar.

(** Arithmetic on trees (ω) and tree_where with a scalar predicate are the entrywise
    operations on the lists of entries; tree_allfinite is the test on that list. *)
Theorem C52_flat :
  forall (N : Num),
    (forall op (a b r : tree (list N)), omega2 op a b = Ret r ->
       entries r = vmap2 op (entries a) (entries b) /\ length (entries b) = length (entries a)) /\
    (forall op (a b : tree (list N)), same_structure (fun x y : list N => length y = length x) a b -> exists r, omega2 op a b = Ret r) /\
    (forall p (t f r : tree (list N)), same_structure (fun x y : list N => length y = length x) t f ->
       tree_where (Leaf (Scalar p)) t f = Ret r -> entries r = vwhere p (entries t) (entries f)) /\
    (forall t : tree (list N), tree_allfinite t = vallfinite (entries t)).
Proof. exact C52_flat_pf. Qed.
Print Assumptions C52_flat.

(** tree_clip: when it returns, the structure is kept, and every entry that is a
    number ends between its bounds when these are in order, is left alone when it is
    already between them, and becomes the upper bound when the bounds are crossed. *)
Theorem C52_clip :
  forall (N : Num) (L : OrdLaws N) (t : tree (list N)) lower upper r, tree_clip t lower upper = Ret r ->
    same_structure (fun x z : list N => length z = length x) t r /\
    forall q x i a, at_path q t = Some (Leaf x) -> nth_error x i = Some a -> neqb a a = true ->
      exists lo up z l u c, at_path q lower = Some (Leaf lo) /\ at_path q upper = Some (Leaf up) /\ at_path q r = Some (Leaf z) /\
        entry lo i = Some l /\ entry up i = Some u /\ nth_error z i = Some c /\
        (nleb l u = true -> nleb l c = true /\ nleb c u = true) /\
        (nleb l a = true -> nleb a u = true -> c = a) /\
        (nltb u l = true -> c = u).
Proof. exact C52_clip_pf. Qed.
Print Assumptions C52_clip.

(** tree_allfinite holds iff every entry of every leaf is finite. *)
Theorem C52_allfinite :
  forall (N : Num) (t : tree (list N)),
    tree_allfinite t = true <->
    forall q x i a, at_path q t = Some (Leaf x) -> nth_error x i = Some a -> nisfin a = true.
Proof. exact C52_allfinite_pf. Qed.
Print Assumptions C52_allfinite.

(** It returns iff static leaves are allowed or absent; arrays become arrays of the
    same size filled with the value, static leaves are kept. *)
Theorem C52_full_like :
  forall (N : Num) (S : Type) (struct : tree (struct_leaf S)) (x : N) (allow : bool),
    (forall r, tree_full_like struct x allow = Ret r ->
       same_structure (fun l z => match l with AnArray n => exists a, z = Filled a /\ length a = n /\ Forall (fun e => e = x) a
                                        | Static s => allow = true /\ z = Kept s end) struct r) /\
    ((exists r, tree_full_like struct x allow = Ret r) <-> (allow = true \/ forall q s, at_path q struct <> Some (Leaf (Static s)))).
Proof. exact C52_full_like_pf. Qed.
Print Assumptions C52_full_like.

(** tree_min and tree_max: an exception iff there is no entry; otherwise NaN if some
    entry is NaN, else an entry that is least (greatest). *)
Theorem C52_min_max :
  forall (N : Num) (L : OrdLaws N) (t : tree (list N)),
    (entries t = [] -> tree_min t = Raise ValueError /\ tree_max t = Raise ValueError) /\
    (entries t <> [] -> exists lo hi, tree_min t = Ret lo /\ tree_max t = Ret hi /\
       (Exists (fun a => nisnan a = true) (entries t) -> nisnan lo = true /\ nisnan hi = true) /\
       (Forall (fun a => nisnan a = false) (entries t) ->
          In lo (entries t) /\ In hi (entries t) /\ Forall (fun a => nleb lo a = true /\ nleb a hi = true) (entries t))).
Proof. exact C52_min_max_pf. Qed.
Print Assumptions C52_min_max.

Example C52_where_ex :
  tree_where (Node "dict(a,b)" [Leaf (Entries [true; false]); Leaf (Scalar false)]) ex_t ex_f =
    Ret (Node "dict(a,b)" [Leaf [f64_ofZ 1; f64_ofZ 6]; Node "tuple" [Leaf [f64_ofZ 7]; Leaf []]]) /\
  same_structure (fun x y : list f64 => length y = length x) ex_t ex_f /\
  prefix (fun p u => forall l x, p = Entries l -> In x (leaves u) -> length l = length x)
    (Node "dict(a,b)" [Leaf (Entries [true; false]); Leaf (Scalar false)]) ex_t.
Proof. exact C52_where_ex_pf. Qed.

Example C52_clip_ex :
  exists r, tree_clip ex_t (Node "dict(a,b)" [Leaf (Scalar (f64_ofZ 0)); Node "tuple" [Leaf (Scalar (f64_ofZ 5)); Leaf (Entries [])]])
      (Node "dict(a,b)" [Leaf (Entries [f64_ofQ (1#2); f64_ofZ 9]); Node "tuple" [Leaf (Scalar (f64_ofZ 4)); Leaf (Scalar (f64_ofZ 1))]]) = Ret r /\
    forallb (fun p => neqb (n:=F64) (fst p) (snd p)) (combine (entries r) [f64_ofQ (1#2); f64_ofZ 2; f64_ofZ 4]) = true /\ length (entries r) = 3.
Proof. exact C52_clip_ex_pf. Qed.

Example C52_full_like_ex :
  tree_full_like (Node "tuple" [Leaf (AnArray 2); Leaf (Static tt)]) (f64_ofZ 1) true =
    Ret (Node "tuple" [Leaf (Filled [f64_ofZ 1; f64_ofZ 1]); Leaf (Kept tt)]) /\
  tree_full_like (Node "tuple" [Leaf (AnArray 2); Leaf (Static tt)]) (f64_ofZ 1) false = Raise ValueError.
Proof. exact C52_full_like_ex_pf. Qed.

Example C52_min_max_ex :
  entries ex_t = [f64_ofZ 1; f64_ofZ 2; f64_ofZ 3] /\ forallb (fun a => negb (nisnan (N:=F64) a)) (entries ex_t) = true /\ tree_allfinite ex_t = true.
Proof. exact C52_min_max_ex_pf. Qed.
