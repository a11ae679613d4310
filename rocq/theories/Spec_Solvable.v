(** Linear solvers that exist: least squares by eliminating one column after the other, and the solution of least norm. *)

From Coq Require Import List Reals.
From Verif Require Import Num Vec Spec_Vec Spec_Lin Results Search.
Import ListNotations.
Local Open Scope R_scope.

(** The multiple of [a] nearest to [v], and what is left of [v]. *)
Definition coefficient (a v : list R) : R := if Req_EM_T (Rdot a a) 0 then 0 else Rdot a v / Rdot a a.
Definition rejection (a v : list R) : list R := Rsub_v v (Rscal (coefficient a v) a).

(** Least squares for the columns [cols] (one call per column). *)
Fixpoint eliminate (k : nat) (cols : list (list R)) (b : list R) : list R :=
  match k, cols with
  | S k, a :: cols =>
      let x := eliminate k (map (rejection a) cols) (rejection a b) in
      (coefficient a b - Rdot x (map (coefficient a) cols)) :: x
  | _, _ => []
  end.

Definition columns_of (n : nat) (A : linop RN) : list (list R) := map (fun j => op_mv A (map (fun i => if Nat.eqb i j then 1 else 0) (seq 0 n))) (seq 0 n).
Definition least_squares (n : nat) (A : linop RN) (b : list R) : list R * results := (eliminate n (columns_of n A) b, successful).

(** The least-squares solution nearest to 0: project a solution onto the span of the rows. *)
Definition rows_of (n : nat) (A : linop RN) (m : nat) : list (list R) := map (fun i => map (fun c => nth i c 0) (columns_of n A)) (seq 0 m).
Definition least_norm (n : nat) (A : linop RN) (b : list R) : list R * results :=
  (tmvec n (rows_of n A (length b)) (eliminate (length b) (rows_of n A (length b)) (fst (least_squares n A b))), successful).
