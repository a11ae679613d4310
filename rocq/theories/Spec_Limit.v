(** Convergence of the iterates themselves (C125). *)

From Coq Require Import List Reals.
From Verif Require Import Spec_Convex.
Local Open Scope R_scope.

Definition minimiser (n : nat) (f : list R -> R) (z : list R) : Prop := length z = n /\ forall x, length x = n -> f z <= f x.
(** The points [y k] come as close to [z] as one likes, and stay there. *)
Definition tends_to (y : nat -> list R) (z : list R) : Prop := forall e, 0 < e -> exists K, forall k, (K <= k)%nat -> dist2 (y k) z < e.

(** A function of one unknown that is not convex: x^2/2 up to 1, bending downwards between 1 and 3/2, and a parabola again after that. Its
    derivative is continuous and vanishes at 0 only (C126). *)
Definition dip (v : list R) : R :=
  match v with
  | x :: nil => if Rle_dec x 1 then x * x / 2 else if Rle_dec x (3 / 2) then 2 * x - x * x / 2 - 1 else x * x / 2 - x + 5 / 4
  | _ => 0
  end.
Definition dip_grad (v : list R) : list R :=
  match v with
  | x :: nil => (if Rle_dec x 1 then x else if Rle_dec x (3 / 2) then 2 - x else x - 1) :: nil
  | _ => nil
  end.
