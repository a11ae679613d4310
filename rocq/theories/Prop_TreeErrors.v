(** Property theorems: TreeErrors.
    Statements only; each is closed by the lemma of the same name (suffix _pf)
    in the proof file.  [Example]s show concrete cases meeting the hypotheses. *)

From Coq Require Import String List Bool Arith Lia QArith.
From Verif Require Import Num NumFacts NumF64 Vec Results PyTree Spec_PyTree PyTree_proofs TreeOp.
Import ListNotations.
Local Open Scope nat_scope.
From Verif Require Import TreeErrors_proofs.

(** Which trees are accepted, any arithmetic. Element-wise arithmetic on two trees
    returns iff they have the same structure with arrays of the same sizes;
    [tree_clip] iff the bounds have the structure of the tree, with scalars or arrays
    of the right sizes; [tree_where] iff the two branches have the same structure and
    sizes and the predicate is a prefix with scalars or arrays of the right sizes. In
    every other case a ValueError is raised. *)
Theorem C52_errors :
  forall (N : Num),
    (forall op (a b : tree (list N)),
       let ok := same_structure (fun x y : list N => length y = length x) a b in
       (ok -> exists r, omega2 op a b = Ret r) /\ (~ ok -> omega2 op a b = Raise ValueError)) /\
    (forall (t : tree (list N)) lower upper,
       let ok := same_structure (fun x o => match o with Scalar _ => True | Entries l => length l = length x end) t lower /\
                 same_structure (fun x o => match o with Scalar _ => True | Entries l => length l = length x end) t upper in
       (ok -> exists r, tree_clip t lower upper = Ret r) /\ (~ ok -> tree_clip t lower upper = Raise ValueError)) /\
    (forall pred (t f : tree (list N)),
       let ok := same_structure (fun x y : list N => length y = length x) t f /\
                 prefix (fun p u => forall l x, p = Entries l -> In x (leaves u) -> length l = length x) pred t in
       (ok -> exists r, tree_where pred t f = Ret r) /\ (~ ok -> tree_where pred t f = Raise ValueError)).
Proof. exact C52_errors_pf. Qed.
Print Assumptions C52_errors.

(** The hypotheses are met, and fail: a dict with a scalar bound, an array bound, and
    an array bound of the wrong size; a prefix that stops early. *)
Theorem C52_errors_ex :
  let t : tree (list F64) := Node "dict:a,b" [Leaf [nofQ 1; nofQ 2]; Leaf [nofQ 3]] in
  let u : tree (list F64) := Node "dict:a,b" [Leaf [nofQ 1; nofQ 2]; Leaf [nofQ 3; nofQ 4]] in
  let lo : tree (operand F64) := Node "dict:a,b" [Leaf (Scalar (nofQ 0)); Leaf (Entries [nofQ 0])] in
  let hi : tree (operand F64) := Node "dict:a,b" [Leaf (Entries [nofQ 5]); Leaf (Entries [nofQ 5])] in
  same_structure (fun x y : list F64 => length y = length x) t t /\ ~ same_structure (fun x y : list F64 => length y = length x) t u /\
  omega2 nadd t u = Raise ValueError /\
  tree_clip t lo hi = Raise ValueError /\ (exists r, tree_clip t lo lo = Ret r) /\
  (exists r, tree_where (Node "dict:a,b" [Leaf (Scalar true); Leaf (Entries [false])]) t t = Ret r) /\
  tree_where (Leaf (Entries [true])) t t = Raise ValueError.
Proof. exact C52_errors_ex_pf. Qed.
Print Assumptions C52_errors_ex.

(** Arithmetic on two trees of blocks, any arithmetic: it returns iff the structures
    agree and every pair of blocks has the same number of rows, with rows of the same
    lengths, and raises a ValueError otherwise. *)
Theorem C67_block_errors :
  forall (N : Num) op (a b : tree (list (list N))),
    let ok := same_structure (fun x y : list (list N) => map (@length N) y = map (@length N) x) a b in
    (ok -> exists r, block_omega2 op a b = Ret r) /\ (~ ok -> block_omega2 op a b = Raise ValueError).
Proof. exact C67_block_errors_pf. Qed.
Print Assumptions C67_block_errors.

(** Two blocks with the same number of rows and rows of other lengths. *)
Theorem C67_block_errors_ex :
  let x : list (list F64) := [[nofQ 1; nofQ 2]; [nofQ 3]] in
  let y : list (list F64) := [[nofQ 1; nofQ 2]; [nofQ 3; nofQ 4]] in
  (exists r, block_omega2 nadd (Leaf x) (Leaf x) = Ret r) /\ block_omega2 nadd (Leaf x) (Leaf y) = Raise ValueError.
Proof. exact C67_block_errors_ex_pf. Qed.
Print Assumptions C67_block_errors_ex.
