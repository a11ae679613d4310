(** Property theorems: TreeOp.
    Statements only; each is closed by the lemma of the same name (suffix _pf)
    in the proof file.  [Example]s show concrete cases meeting the hypotheses. *)

From Coq Require Import String List Bool Arith Lia QArith Qreals Reals Lra.
From Verif Require Import Num NumFacts Vec Results PyTree Spec_PyTree PyTree_proofs Search QuasiNewton TreeOp Spec_TreeOp.
From Verif Require Import Spec_Vec VecFacts Spec_Lin LinFacts Spec_Search LinAlgFacts BFGS_proofs.
Import ListNotations.
Local Open Scope nat_scope.
From Verif Require Import TreeOp_proofs.

(** The tree built by `_outer` is an operator from trees like the second argument to
    trees like the first, and its matrix is the outer product of the two lists of
    entries. Any arithmetic. *)
Theorem C67_outer :
  forall (N : Num) (t u : tree (list N)),
    block_operator t u (tree_outer t u) /\
    flat_matrix t (tree_outer t u) = map (fun a => map (nmul a) (entries u)) (entries t).
Proof. exact C67_outer_pf. Qed.
Print Assumptions C67_outer.

(** `_identity_pytree` returns an operator between trees like its argument, and its
    matrix is the identity. Any arithmetic. *)
Theorem C67_identity :
  forall (N : Num) (t : tree (list N)), exists P, identity_pytree t = Ret P /\ block_operator t t P /\
    let n := length (entries t) in
    flat_matrix t P = map (fun i => map (fun j => if Nat.eqb i j then nofQ 1 else nofQ 0) (seq 0 n)) (seq 0 n).
Proof. exact C67_identity_pf. Qed.
Print Assumptions C67_identity.

(** `mv` of an operator on pytrees is the product of its matrix with the list of
    entries, arranged like the output. Exact arithmetic. *)
Theorem C67_mv :
  forall (t u v : tree (list R)) P, block_operator t u P -> alike u v -> leaves t = [] \/ leaves u <> [] ->
    exists r, tree_mv (N:=RN) (structure t) P v = Ret r /\ alike t r /\
      entries (N:=RN) r = mvec (flat_matrix t P) (entries (N:=RN) v).
Proof. exact C67_mv_pf. Qed.
Print Assumptions C67_mv.

(** A quasi-Newton method whose unknown is a pytree, exact arithmetic: for every
    sequence of points like [t], the operator it holds is an operator on trees like
    [t]; its matrix is symmetric positive definite, and it is the matrix held by the
    same method run on the lists of entries. *)
Theorem C67_quasi_newton :
  forall (eps : R) (dfp use_inverse : bool) (t : tree (list R)) p0 l, (0 <= eps)%R ->
    point_like t p0 -> Forall (point_like t) l ->
    let n := length (entries (N:=RN) t) in
    let update := if dfp then dfp_update (N:=RN) eps use_inverse else bfgs_update (N:=RN) eps use_inverse in
    exists H, tree_after eps dfp use_inverse p0 l = Ret H /\ block_operator t t H /\ spd n (flat_matrix t H) /\
      fst (qn_after (qn_init_hessian (N:=RN) use_inverse) update (flat_point p0) (map flat_point l)) =
      qn_holds use_inverse n (flat_point (hd p0 l)) (flat_matrix t H).
Proof. exact C67_quasi_newton_pf. Qed.
Print Assumptions C67_quasi_newton.

(** The docstring of `_identity_pytree`: its operator maps every tree like its argument
    to itself. *)
Theorem C67_identity_mv :
  forall (t x : tree (list R)), alike t x ->
    exists P, identity_pytree (N:=RN) t = Ret P /\ tree_mv (N:=RN) (structure t) P x = Ret x.
Proof. exact C67_identity_mv_pf. Qed.
Print Assumptions C67_identity_mv.

(** The secant equation on pytrees: when the curvature exceeds eps, the updated operator
    maps the difference of the gradients to the difference of the points
    (`use_inverse`), or the other way round. *)
Theorem C67_secant :
  forall (eps : R) (dfp use_inverse : bool) (t : tree (list R)) p0 l q y_diff grad_diff, (0 <= eps)%R ->
    point_like t p0 -> Forall (point_like t) (q :: l) ->
    omega2 (N:=RN) Rminus (tp_y q) (tp_y (hd p0 l)) = Ret y_diff ->
    omega2 (N:=RN) Rminus (tp_g q) (tp_g (hd p0 l)) = Ret grad_diff ->
    (eps < Rdot (entries (N:=RN) grad_diff) (entries (N:=RN) y_diff))%R ->
    exists H, tree_after eps dfp use_inverse p0 (q :: l) = Ret H /\
      tree_mv (N:=RN) (structure t) H (if use_inverse then grad_diff else y_diff) =
      Ret (if use_inverse then y_diff else grad_diff).
Proof. exact C67_secant_pf. Qed.
Print Assumptions C67_secant.

Example C67_identity_ex :
  exists P, identity_pytree (N:=RN) (tree3 2 3 5)%R = Ret P /\
    flat_matrix (tree3 2 3 5)%R P = map (map Q2R) [[1; 0; 0]; [0; 1; 0]; [0; 0; 1]]%Q.
Proof. exact C67_identity_ex_pf. Qed.

(** Two points on such a tree, with f = (a^2 + b^2 + c^2)/2 + a^2: the hypotheses of the
    secant theorem hold. *)
Example C67_secant_ex :
  let p := mkTreePoint (tree3 0 0 0)%R 0%R (tree3 0 0 0)%R in
  let q := mkTreePoint (tree3 1 1 0)%R 2%R (tree3 3 1 0)%R in
  point_like (tree3 0 0 0)%R p /\ Forall (point_like (tree3 0 0 0)%R) [q] /\
  exists y_diff grad_diff,
    omega2 (N:=RN) Rminus (tp_y q) (tp_y (hd p [])) = Ret y_diff /\
    omega2 (N:=RN) Rminus (tp_g q) (tp_g (hd p [])) = Ret grad_diff /\
    (1 / 2 < Rdot (entries (N:=RN) grad_diff) (entries (N:=RN) y_diff))%R /\
    exists H, tree_after (1 / 2) false true p [q] = Ret H /\ tree_mv (N:=RN) (structure (tree3 0 0 0)%R) H grad_diff = Ret y_diff.
Proof. exact C67_secant_ex_pf. Qed.

(** A matrix-vector product on such trees *)
Example C67_mv_ex :
  block_operator (tree3 1 2 3)%R (tree3 4 5 6)%R (tree_outer (N:=RN) (tree3 1 2 3)%R (tree3 4 5 6)%R) /\
  (exists r, tree_mv (N:=RN) (structure (tree3 1 2 3)%R) (tree_outer (N:=RN) (tree3 1 2 3)%R (tree3 4 5 6)%R) (tree3 1 0 1)%R = Ret r /\
     entries (N:=RN) r = [10; 20; 30]%R).
Proof. exact C67_mv_ex_pf. Qed.
