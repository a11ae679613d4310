(** Vocabulary for Newton and Chord with bounds (C113). *)

From Coq Require Import List Reals.
From Verif Require Import Num Vec NewtonChord.
Import ListNotations.

(** x respects the options `lower` and `upper`; a bound may be infinite. *)
Definition inside (lower upper : option (list xr)) (x : list R) : Prop :=
  (forall l, lower = Some l -> Forall2 (fun b v => xleb b (Fin v) = true) l x) /\
  (forall u, upper = Some u -> Forall2 (fun b v => xleb (Fin v) b = true) u x).

(** The arctangent with its derivative; default norm and tolerances of 1/1000, bounds -10 and 10 *)
Definition atan_P (cauchy : bool) : nc_params (N:=XR) :=
  mkNcParams (N:=XR) (Fin (1/1000)) (Fin (1/1000)) (max_norm (N:=XR)) (Fin (1/100)) cauchy true (Some [Fin (-10)]) (Some [Fin 10]) (Fin (1/1000)).
Definition atan_F (v : list R) : list R := [atan (nth 0 v 0%R)].
Definition atan_J (v : list R) : list (list R) := [[(/ (1 + (nth 0 v 0)²))%R]].
