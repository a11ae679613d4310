(** Vocabulary for what success says about the returned value (C96). *)

From Coq Require Import List Reals.
Import ListNotations.
Local Open Scope R_scope.

(** The tolerance atol + rtol |b| of every entry b of v *)
Definition tolerances (rtol atol : R) (v : list R) : list R :=
  map (fun b => atol + rtol * Rabs b) v.
