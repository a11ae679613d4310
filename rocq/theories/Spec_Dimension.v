(** What it means to write a problem in other units, tolerances included (C123). *)

From Coq Require Import Reals.
From Coquelicot Require Import Coquelicot.
From Coq Require Import List.
From Verif Require Import Num Vec Results Iterate.
Import ListNotations.

(** The quantity [x] in a unit that is u times smaller: 1 metre is 1000 millimetres (u = 1000). *)
Definition unit_of (u : R) (x : xr) : xr := xmul (Fin u) x.
Arguments unit_of : simpl never.
(** a list of quantities, each in a unit of its own; all in the same unit *)
Definition units (d : list R) (v : list xr) : list xr := vmap2 unit_of d v.
Definition all_units (u : R) (v : list xr) : list xr := map (unit_of u) v.
Definition positive_units (d : list R) : Prop := Forall (Rlt 0) d.

(** The tolerance [atol'] is [atol] in each of these units: [atol] is 0, or all the units are the same. *)
Definition tolerance_in (d : list R) (atol atol' : xr) : Prop := Forall (fun u => atol' = unit_of u atol) d.

(** [fn'] is [fn] with argument and value in other units; the aux output is not converted. [ok] are the arguments of the
    right length. *)
Definition same_function {Y Out Aux : Type} (ok : Y -> Prop) (ok_out : Out -> Prop) (U : Y -> Y) (V : Out -> Out) (fn fn' : Y -> Out * Aux) : Prop :=
  forall y, ok y -> ok_out (fst (fn y)) /\ fn' (U y) = (V (fst (fn y)), snd (fn y)).

Definition of_length {A : Type} (n : nat) (v : list A) : Prop := length v = n.
Definition any {A : Type} (v : A) : Prop := True.

(** The second solve is the first in other units: same exception, or the value converted and the same result, aux and
    statistics (number of steps). *)
Definition same_in_units {Y Aux S S' : Type} (U : Y -> Y) (o : outcome (Solution Y Aux S)) (o' : outcome (Solution Y Aux S')) : Prop :=
  match o, o' with
  | Ret s, Ret s' => value s' = U (value s) /\ result s' = result s /\ aux s' = aux s /\ sol_stats s' = sol_stats s
  | Raise e, Raise e' => e' = e
  | Unfinished, Unfinished => True
  | _, _ => False
  end.

(** Example: x^2 - 2 and x^2 on the extended reals, x in units k times and the value in units w times smaller; slopes;
    division by the slope; halving. *)
Definition parabola (k w : R) (x : xr) : xr * unit := let z := xdiv x (Fin k) in (unit_of w (xsub (xmul z z) (Fin 2)), tt).
Definition sqrt2 (k w : R) (v : list xr) : list xr * unit := ([fst (parabola k w (nth 0 v NaN))], tt).
Definition bowl (k w : R) (v : list xr) : xr * unit := parabola k w (nth 0 v NaN).
Definition slope1 (f : list xr -> list xr * unit) (v : list xr) : xr :=
  match v with
  | [Fin x] => Fin (Derive (fun z => match fst (f [Fin z]) with [Fin r] => r | _ => 0%R end) x)
  | _ => NaN
  end.
Definition divide1 (j : xr) (b : list xr) : list xr * results := (map (fun x => xdiv x j) b, successful).
Definition gradient1 (f : list xr -> xr * unit) (v : list xr) : list xr :=
  match v with
  | [Fin x] => [Fin (Derive (fun z => match fst (f [Fin z]) with Fin r => r | _ => 0%R end) x)]
  | _ => map (fun _ => NaN) v
  end.
Definition halving (v : list xr) : list xr * unit := (map (fun x => xdiv x (Fin 2)) v, tt).
