(** Vocabulary for C92. *)

From Coq Require Import List QArith Reals.
From Verif Require Import Num Vec Optax.
Import ListNotations.

(** Adding minus one times b is subtracting b. *)
Definition neg_add (N : Num) : Prop :=
  forall a b : N, nadd a (nmul (nneg (nofQ 1)) b) = nsub a b.

(** `optax.sgd(rate)`: the updates are -rate times the gradient. *)
Definition sgd {N : Num} (rate : N) : OptaxTransform N :=
  mkOptax N unit (fun _ => tt) (fun grads st _ _ _ => (vscale (nneg rate) grads, st)).
