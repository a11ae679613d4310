(** Small user-written solvers used in examples and counterexamples about
    problem conversion and BestSoFar. *)

From Coq Require Import List Bool Arith QArith Reals.
From Verif Require Import Num Vec Results Iterate RootFind NumF64.
Import ListNotations.

(** Walks up in steps of 1 and is content after [n] steps. *)
Definition walker {N : Num} (n : nat) : forall Out, PolySolver (list N) Out :=
  fun Out Aux =>
    mkSolver nat
      (fun _ _ _ _ => Ret 0%nat)
      (fun fn y st => (map (fun x => nadd x (lit 1)) y, S st, snd (fn y)))
      (fun _ _ st => (Nat.leb n st, successful))
      (fun _ y a st r => (y, a, [])).

(** A minimiser over the two candidate points [[0]] and [[1]]: one step moves
    to the candidate with the smaller objective. *)
Definition two_point {N : Num} : PolySolver (list N) N :=
  fun Aux =>
    mkSolver bool
      (fun _ _ _ _ => Ret false)
      (fun fn y st =>
         (if nltb (fst (fn [lit 1])) (fst (fn [lit 0])) then [lit 1] else [lit 0],
          true, snd (fn y)))
      (fun _ _ st => (st, successful))
      (fun _ y a st r => (y, a, [])).

(** Equality of float vectors as compared by `==`. *)
Definition eqvec (a b : list f64) : bool :=
  Nat.eqb (length a) (length b) && forallb (fun p => neqb (n:=F64) (fst p) (snd p)) (combine a b).

(** Sum of squares of real numbers. *)
Definition R_sum_squares (v : list R) : R := fold_right (fun x acc => x * x + acc)%R 0%R v.
