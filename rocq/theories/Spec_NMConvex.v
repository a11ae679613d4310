(** Vocabulary for Nelder-Mead on strongly convex functions (C108). *)

From Coq Require Import List Reals.
From Verif Require Import Num Spec_Vec Spec_Lin.
Import ListNotations.
Local Open Scope R_scope.

(** A real objective as a function of extended reals, without auxiliary output. *)
Definition objective (f : list R -> R) (v : list xr) : xr * unit :=
  (Fin (f (map (fun x => match x with Fin r => r | _ => 0 end) v)), tt).
