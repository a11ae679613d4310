(** Vocabulary for the claims about NelderMead's starting simplex under tracing (C97). *)

From Coq Require Import List Arith.
From Verif Require Import PyTree Entry Spec_Entry.
Import ListNotations.
Local Open Scope nat_scope.

(** The number or array holds at least one number *)
Definition non_empty (v : pyval) : Prop :=
  match v with Arr a => ~ In 0 (sd_shape a) | _ => True end.

(** An array of the given length along its first axis *)
Definition stacked (n : nat) (v : pyval) : Prop :=
  match v with Arr a => exists sh, sd_shape a = n :: sh | _ => False end.
