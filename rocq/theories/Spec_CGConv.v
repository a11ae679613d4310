(** Vocabulary for the convergence of nonlinear conjugate gradients (C109). *)

From Coq Require Import List Reals.
Import ListNotations.

(** How many of the first k steps of the sequence y change the iterate *)
Fixpoint moves (y : nat -> list R) (k : nat) : nat :=
  match k with
  | O => O
  | S j => (moves y j + if list_eq_dec Req_EM_T (y j) (y (S j)) then 0 else 1)%nat
  end.
