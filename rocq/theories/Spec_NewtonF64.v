(** A concrete problem for the theorems about Newton in binary64 (C95). *)

From Coq Require Import List QArith.
From Verif Require Import Num NumF64 Vec Results NewtonChord.
Import ListNotations.

(** x^2 - 2 in doubles, with the derivative 2 x and division as linear solve; tolerances 2^-10, the other fields
    those of newton_chord.py 59-67. *)
Definition sq2 (y : list f64) : list f64 * unit := (map (fun x => fsub (fmul x x) (f64_ofQ 2)) y, tt).
Definition sq2jac (_ : list f64 -> list f64 * unit) (y : list f64) : list f64 := map (fmul (f64_ofQ 2)) y.
Definition sq2solve (m r : list f64) : list f64 * results := (vmap2 (fun a b : f64 => fdiv a b) r m, successful).
Definition sq2P : nc_params (N:=F64) :=
  mkNcParams (N:=F64) (f64_ofQ (1#1024)) (f64_ofQ (1#1024)) (max_norm (N:=F64)) (f64_ofQ (1#100)) true true None None (f64_ofQ (1#10000000000000)).
