(** The linear solver of the quasi-Newton methods: lineax's `lx.Cholesky()`
    (quasi_newton.py 455, 616; also what AutoLinearSolver picks for the positive
    definite operators of L-BFGS), by the textbook algorithm:
    materialise the operator, factorise A = L L^T, solve L z = b and L^T x = z.
    lineax is outside /repo; its failure codes (a nonfinite solution) are left
    out. *)

From Coq Require Import List.
From Verif Require Import Num Vec Results Search QuasiNewton LinAlg.
Import ListNotations.

Section Cholesky.
  Context {N : Num}.
  (** `operator.as_matrix()`: the columns are the images of the unit vectors (lineax; used at compat/_impl.py 120 too) *)
  Definition as_matrix (n : nat) (op : linop N) : list (list N) :=
    transpose n (map (op_mv op) (identity_mat n)).
  (** `lx.linear_solve(op, b, lx.Cholesky())`, called at gauss_newton.py 60-76. *)
  Definition cholesky_solve (op : linop N) (b : list N) : list N * results :=
    let n := length b in
    let L := cholesky_lower n (as_matrix n op) in
    (solve_upper (transpose n L) (solve_lower L b), successful).
End Cholesky.
