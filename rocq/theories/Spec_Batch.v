(** Vocabulary for batched solves. *)

From Coq Require Import List Bool.
From Verif Require Import Results.

(** The message shown when several lanes fail is the message of one of them. *)
Definition picks_a_failure (pick : list results -> results) : Prop :=
  forall rs, (exists r, In r rs /\ r <> successful) -> In (pick rs) rs /\ pick rs <> successful.

(** For instance the first failure. *)
Definition first_failure (rs : list results) : results :=
  match find (fun r => negb (results_eqb r successful)) rs with Some r => r | None => successful end.
