(** Independent problems put into one solve (C124). *)

From Coq Require Import String List Bool ZArith QArith.
From Verif Require Import Num NumF64 Vec Results Iterate.
Import ListNotations.

(** The unknowns of [fn] are those of [fn1] followed by those of [fn2], and so are its values; both aux outputs are kept. *)
Definition side_by_side {T Aux1 Aux2 : Type} (n1 n2 : nat) (fn1 : list T -> list T * Aux1) (fn2 : list T -> list T * Aux2)
    (fn : list T -> list T * (Aux1 * Aux2)) : Prop :=
  forall y1 y2, length y1 = n1 -> length y2 = n2 -> fn (y1 ++ y2) = (fst (fn1 y1) ++ fst (fn2 y2), (snd (fn1 y1), snd (fn2 y2))).
Definition keeps_length {T Aux : Type} (n : nat) (fn : list T -> list T * Aux) : Prop := forall y, length y = n -> length (fst (fn y)) = n.

(** Exact reals, reals with infinities and NaN, doubles *)
Definition one_of_ours (N : Num) : Prop := N = RN \/ N = XR \/ N = F64.

(** The solve took [k] steps. *)
Definition steps {Y Aux S : Type} (s : Solution Y Aux S) (k : nat) : Prop :=
  hd_error (sol_stats s) = Some ("num_steps"%string, Some (Z.of_nat k)).

(** If the solve of everything is successful then so is this one, in no more steps. *)
Definition no_later_than {Y1 Y Aux1 Aux S1 S : Type} (alone : outcome (Solution Y1 Aux1 S1)) (together : outcome (Solution Y Aux S)) : Prop :=
  forall s k, together = Ret s -> result s = successful -> steps s k ->
  exists s1 k1, alone = Ret s1 /\ result s1 = successful /\ steps s1 k1 /\ (k1 <= k)%nat.

(** A bound on the unknowns of both problems, or on none *)
Definition box_of {T : Type} (n1 n2 : nat) (b1 b2 b : option (list T)) : Prop :=
  (b1 = None /\ b2 = None /\ b = None) \/
  (exists l1 l2, b1 = Some l1 /\ b2 = Some l2 /\ b = Some (l1 ++ l2) /\ length l1 = n1 /\ length l2 = n2).

(** A linear solve of a block diagonal system: both solutions; the first failure is reported. *)
Definition blockwise {T : Type} (n1 n2 : nat) (r1 r2 r : list T * results) : Prop :=
  length (fst r1) = n1 /\ length (fst r2) = n2 /\ r = (fst r1 ++ fst r2, if results_eqb (snd r1) successful then snd r2 else snd r1).

(** Example: halving (of anything) in doubles, and a linear function with its slope *)
Definition halve {N : Num} (v : list N) : list N * unit := (map (fun x => ndiv x (lit 2)) v, tt).
Definition halve2 {N : Num} (v : list N) : list N * (unit * unit) := (map (fun x => ndiv x (lit 2)) v, (tt, tt)).
Definition slope {N : Num} {Aux : Type} (fn : list N -> list N * Aux) (y : list N) : N := lit (1#2).
Definition divide {N : Num} (j : N) (b : list N) : list N * results := (map (fun x => ndiv x j) b, successful).
