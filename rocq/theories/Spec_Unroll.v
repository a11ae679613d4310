(** Vocabulary for differentiating through the iterates (C98). *)

From Coq Require Import List Reals Arith.
From Verif Require Import Spec_Vec Spec_Lin Spec_Implicit.
Import ListNotations.
Local Open Scope R_scope.

(** Correct reverse-mode automatic differentiation of a function of two vectors: where it is
    differentiable, products with the transposes of its two derivatives. *)
Definition vjp_correct (vjp : (list R -> list R -> list R) -> list R -> list R -> list R -> list R * list R) : Prop :=
  forall n k m f y p A B ct, jacobian2_at n k m f y p A B -> length ct = m ->
    vjp f y p ct = (tmvec n A ct, tmvec k B ct).

(** K damped steps y -> (1 - damp) F(y, p) + damp y *)
Definition damped_steps (damp : R) (F : list R -> list R -> list R) (K : nat) (y p : list R) : list R :=
  Nat.iter K (fun y => Radd_v (Rscal (1 - damp) (F y p)) (Rscal damp y)) y.

(** The matrices A(y) are M-Lipschitz at z: the products with vectors of length k differ by at
    most M |y - z| |v|. *)
Definition lipschitz_at (n k : nat) (M : R) (A : list R -> list (list R)) (z : list R) : Prop :=
  forall y v, length y = n -> length v = k ->
    Rmax_norm (Rsub_v (mvec (A y) v) (mvec (A z) v)) <= M * Rdist_inf y z * Rmax_norm v.

(** Sum of absolute values *)
Definition Rsum_abs (v : list R) : R := fold_right (fun a s => Rabs a + s) 0 v.
