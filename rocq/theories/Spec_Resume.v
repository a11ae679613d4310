(** Example problem for splitting solves (C118). *)

From Coq Require Import List QArith.
From Verif Require Import Num NumF64 Vec Results NewtonChord.
Import ListNotations.

(** x^2 in double precision, its slope, and division by the slope *)
Definition sq64 (y : list f64) : list f64 * unit := (map (fun x => fmul x x) y, tt).
Definition sq64_slope (fn : list f64 -> list f64 * unit) (y : list f64) : f64 := fmul (f64_ofQ 2) (nth 0 y (f64_ofQ 0)).
Definition over64 (slope : f64) (b : list f64) : list f64 * results := (map (fun x => fdiv x slope) b, successful).
(** rtol = 0, atol = 1/16, the maximum norm, the default termination test *)
Definition sq64_params (newton : bool) : nc_params (N:=F64) :=
  mkNcParams (N:=F64) (f64_ofQ 0) (f64_ofQ (1#16)) (max_norm (N:=F64)) (f64_ofQ (1#100)) true newton None None (f64_ofQ (1#10000000000000)).
