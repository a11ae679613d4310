(** What a successful stop promises about the last step. *)

From Coq Require Import List QArith.
From Verif Require Import Num.
Import ListNotations.

(** From [old] to [new] every entry changed by less than
    atol + rtol*|new entry|, as computed. *)
Definition moved_little {N : Num} (rtol atol : N) (old new : list N) : Prop :=
  forall i a b, nth_error old i = Some a -> nth_error new i = Some b ->
    nltb (nabs (nsub b a)) (nabs (nadd atol (nmul rtol (nabs b)))) = true.
