(** Vocabulary for C91: two functions that the comparisons of a solver cannot
    tell apart. *)

From Coq Require Import Bool QArith Reals.
From Verif Require Import Num.

Section Spec.
  Context {N : Num} {X Aux : Type}.
  Local Open Scope num_scope.

  (** Same sign tests, same NaNs, same auxiliary output everywhere. *)
  Definition same_signs (f g : X -> N * Aux) : Prop :=
    forall x, (fst (f x) <? lit 0) = (fst (g x) <? lit 0) /\
              (lit 0 <? fst (f x)) = (lit 0 <? fst (g x)) /\
              (fst (f x) =? fst (f x)) = (fst (g x) =? fst (g x)) /\
              snd (f x) = snd (g x).

  (** [g] ranks all points as [f] does (e.g. [g] is a strictly increasing
      function of [f]); same NaNs, same values at +infinity, same auxiliary
      output. *)
  Definition same_order (f g : X -> N * Aux) : Prop :=
    (forall x y, (fst (f x) <? fst (f y)) = (fst (g x) <? fst (g y))) /\
    forall x, (fst (f x) =? fst (f x)) = (fst (g x) =? fst (g x)) /\
              (fst (f x) <? ninf) = (fst (g x) <? ninf) /\
              snd (f x) = snd (g x).
End Spec.

(** Negation turns the order round; every IEEE arithmetic satisfies this. *)
Record NegLaws (N : Num) : Prop := mkNegLaws {
  ng_invol : forall a : N, nneg (nneg a) = a;
  ng_lt : forall a b : N, nltb (nneg a) (nneg b) = nltb b a;
  ng_nan : forall a : N, neqb (nneg a) (nneg a) = neqb a a
}.

(** A real function as a function on extended reals (NaN off the reals), for
    the examples. *)
Definition xfun (h : R -> R) (x : XR) : XR * unit := (match x with Fin r => Fin (h r) | _ => NaN end, tt).
