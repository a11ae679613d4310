(** Vocabulary for C94: what of a state is known when the loop is compiled. *)

From Coq Require Import List Bool.
From Verif Require Import PyTree StaticState.

(** Everything of a state but the contents of its arrays. *)
Definition forget_array {A J O : Type} (x : pyleaf A J O) : option (pyleaf A J O) :=
  match x with Arr _ => None | _ => Some x end.
Definition skeleton {A J O : Type} (t : pytree A J O) : tree (option (pyleaf A J O)) :=
  tree_map1 forget_array t.

(** Everything of a state but the identity of its Jaxprs. *)
Definition forget_jaxpr {A J O : Type} (x : pyleaf A J O) : option (pyleaf A J O) :=
  match x with Jax _ => None | _ => Some x end.

(** The states solvers make: `_JaxprEqual` is private to _misc.py. *)
Definition no_wrapper {A J O : Type} (t : pytree A J O) : Prop :=
  forall j, ~ In (JaxprEqual j) (leaves t).

(** No arrays. *)
Definition no_array {A J O : Type} (t : pytree A J O) : Prop := forall a, ~ In (Arr a) (leaves t).

(** What can be traced: the new state's non-array part depends on the old state's non-array
    part only, not on the contents of arrays. *)
Definition traceable {A J O Y X : Type} (step : Y -> pytree A J O -> Y * pytree A J O * X) : Prop :=
  forall y y' s s', skeleton s = skeleton s' -> skeleton (snd (fst (step y s))) = skeleton (snd (fst (step y' s'))).

(** A comparison that holds exactly between equal objects. *)
Definition exact_eq {T : Type} (eqb : T -> T -> bool) : Prop := forall a b, eqb a b = true <-> a = b.
