(** Vocabulary for statements about L-BFGS. *)

From Coq Require Import List Arith ZArith Reals.
From Verif Require Import Spec_Vec Spec_Lin Spec_Search.
Import ListNotations.

(** The (step, gradient change) pairs with curvature above eps between
    consecutive visited points, newest first; [p0] is the first point and [l] the
    later ones, newest first. *)
Fixpoint curved_pairs (eps : R) (p0 : qn_point) (l : list qn_point) : list (list R * list R) :=
  match l with
  | [] => []
  | p :: rest =>
      let s := Rsub_v (pt_y p) (pt_y (hd p0 rest)) in
      let d := Rsub_v (pt_g p) (pt_g (hd p0 rest)) in
      if Rlt_dec eps (Rdot s d) then (s, d) :: curved_pairs eps p0 rest
      else curved_pairs eps p0 rest
  end.

(** A buffer read in circular order from [start]. *)
Definition circular {A : Type} (default : A) (start : Z) (buffer : list A) : list A :=
  map (fun j => nth (Z.to_nat ((start + Z.of_nat j) mod Z.of_nat (length buffer))) buffer default)
      (seq 0 (length buffer)).

(** The BFGS inverse-Hessian recursion over pairs (newest first), started from
    g I: H x = V^T H' V x + rho (s . x) s with V = I - rho d s^T, rho = 1 / (d . s). *)
Fixpoint inverse_of_pairs (g : R) (pairs : list (list R * list R)) (x : list R) : list R :=
  match pairs with
  | [] => Rscal g x
  | (s, d) :: rest =>
      let rho := (/ Rdot d s)%R in
      let Vx := Rsub_v x (Rscal (rho * Rdot s x) d) in
      let HVx := inverse_of_pairs g rest Vx in
      let VtHVx := Rsub_v HVx (Rscal (rho * Rdot d HVx) s) in
      Radd_v VtHVx (Rscal (rho * Rdot s x) s)
  end.

(** The BFGS Hessian recursion: B x = B' x - (s . B' x) / (s . B' s) B' s +
    (d . x) / (d . s) d. *)
Fixpoint hessian_of_pairs (g : R) (pairs : list (list R * list R)) (x : list R) : list R :=
  match pairs with
  | [] => Rscal g x
  | (s, d) :: rest =>
      let B := hessian_of_pairs g rest in
      Radd_v (Rsub_v (B x) (Rscal (Rdot s (B x) / Rdot s (B s)) (B s))) (Rscal (Rdot d x / Rdot d s) d)
  end.

(** The initial scaling of the inverse Hessian *)
Definition initial_scale (pairs : list (list R * list R)) : R :=
  match pairs with
  | [] => 1%R
  | (s, d) :: _ => (Rdot s d / Rdot d d)%R
  end.

From Verif Require Import Num Vec Results Search.
(** The operator acts on vectors of size n as the matrix M. *)
Definition acts_as (n : nat) (op : linop RN) (M : list (list R)) : Prop :=
  forall x : list R, length x = n -> op_mv op x = mvec M x.
(** The linear solver solves every system with an operator that acts as a
    symmetric positive definite n x n matrix. *)
Definition exact_solve_op (n : nat) (lsolve : linop RN -> list R -> list R * results) : Prop :=
  forall op A b, acts_as n op A -> spd n A -> length b = n ->
    snd (lsolve op b) = successful /\
    length (fst (lsolve op b) : list R) = n /\ mvec A (fst (lsolve op b)) = b.
(** Information holding the point [p] and the operator as approximate inverse
    Hessian or as approximate Hessian. *)
Definition holds_op (use_inverse : bool) (p : qn_point) (op : linop RN) : finfo RN :=
  if use_inverse then EvalGradHessianInv (N:=RN) (pt_f p) (pt_g p) op
  else EvalGradHessian (N:=RN) (pt_f p) (pt_g p) op.
