(** The plain Optax training loop. *)

From Coq Require Import List QArith.
From Verif Require Import Num Vec Optax.
Import ListNotations.

(** y and the optimiser state after [k] passes of

        grads = grad(fn)(y)
        updates, opt_state = optim.update(grads, opt_state, y, value=fn(y), value_fn=fn)
        y = optax.apply_updates(y, updates)

    starting from y0 and optim.init(y0) *)
Fixpoint optax_loop {N : Num} (optim : OptaxTransform N) (fn : list N -> N) (grad : list N -> list N)
    (y0 : list N) (k : nat) : list N * OSt optim :=
  match k with
  | O => (y0, ot_init optim y0)
  | S k => let '(y, o) := optax_loop optim fn grad y0 k in
           let '(u, o') := ot_update optim (grad y) o y (fn y) fn in
           (vmap2 nadd y u, o')
  end.

(** The updates of pass [k] *)
Definition optax_updates {N : Num} (optim : OptaxTransform N) (fn : list N -> N) (grad : list N -> list N)
    (y0 : list N) (k : nat) : list N :=
  let '(y, o) := optax_loop optim fn grad y0 k in fst (ot_update optim (grad y) o y (fn y) fn).

(** Every entry of the update [u] of [y] is below atol + rtol*|y entry|, as
    computed. *)
Definition small_update {N : Num} (rtol atol : N) (y u : list N) : Prop :=
  forall i a b, nth_error y i = Some a -> nth_error u i = Some b ->
    nltb (nabs b) (nabs (nadd atol (nmul rtol (nabs a)))) = true.
