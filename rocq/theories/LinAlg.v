(** Dense linear algebra called by the L-BFGS operators: `jnp.linalg.cholesky`
    and `jax.scipy.linalg.solve_triangular`.  Both are LAPACK calls; they are
    modelled by the textbook algorithms, whose results in exact arithmetic are
    the only ones possible. *)

From Coq Require Import List Bool QArith.
From Verif Require Import Num Vec.
Import ListNotations.

Section LinAlg.
  Context {N : Num}.
  Local Open Scope num_scope.
  Notation vec := (list N).
  Notation matrix := (list (list N)).

  (** `A.T` for an array with [n] columns (limited_memory_bfgs.py 252, 280) *)
  Definition transpose (n : nat) (A : matrix) : matrix :=
    map (fun j => map (fun row => nth j row (lit 0)) A) (seq 0 n).

  (** `jnp.linalg.cholesky(A)`, called in limited_memory_bfgs.py 255, first
      symmetrises its argument (default symmetrize_input=True): (A + A.T) / 2 ... *)
  Definition symmetrize (n : nat) (A : matrix) : matrix :=
    vmap2 (vmap2 (fun x y => (x + y) / lit 2)) A (transpose n A).
  (** ... and factorises the result: with A = [[a, _], [v, B]], the first column is
      (sqrt a, v / sqrt a) and the rest factorises B - w w^T. (limited_memory_bfgs.py 255). *)
  Fixpoint cholesky_lower (n : nat) (A : matrix) : matrix :=
    match n, A with
    | S n', (a :: _) :: rows =>
        let l := nsqrt a in
        let w := map (fun row => hd (lit 0) row / l) rows in
        let rest := vmap2 (fun wi row => vmap2 (fun wj x => x - wi * wj) w (tl row)) w rows in
        (l :: vfull n' (lit 0)) :: vmap2 cons w (cholesky_lower n' rest)
    | _, _ => []
    end.
  (** `jnp.linalg.cholesky(J_square)`, limited_memory_bfgs.py 255. *)
  Definition cholesky (n : nat) (A : matrix) : matrix := cholesky_lower n (symmetrize n A).

  (** `solve_triangular(A, b, lower=True)`, called at 279: forward substitution.
      [acc] holds the entries found so far ([vdot] stops at the shorter
      argument). (limited_memory_bfgs.py). *)
  Fixpoint solve_lower_from (acc : vec) (A : matrix) (b : vec) : vec :=
    match A, b with
    | row :: A', x :: b' =>
        let z := (x - vdot row acc) / nth (length acc) row (lit 0) in
        solve_lower_from (acc ++ [z]) A' b'
    | _, _ => acc
    end.
  (** `solve_triangular(low_tri, b, lower=True)`, limited_memory_bfgs.py 279. *)
  Definition solve_lower (A : matrix) (b : vec) : vec := solve_lower_from [] A b.

  (** `solve_triangular(A, b, lower=False)`, called at 282: backward
      substitution; [i] is the index of the first row of [A]. (limited_memory_bfgs.py). *)
  Fixpoint solve_upper_from (i : nat) (A : matrix) (b : vec) : vec :=
    match A, b with
    | row :: A', x :: b' =>
        let zs := solve_upper_from (S i) A' b' in
        (x - vdot (skipn (S i) row) zs) / nth i row (lit 0) :: zs
    | _, _ => []
    end.
  (** `solve_triangular(upper_tri, b, lower=False)`, limited_memory_bfgs.py 282. *)
  Definition solve_upper (A : matrix) (b : vec) : vec := solve_upper_from 0 A b.
End LinAlg.
