(** Instance of [Num]: IEEE-754 binary64, round to nearest even, from Flocq
    (`BinarySingleNaN`: one NaN, signed zeros, subnormals, overflow to
    infinity).  Models JAX arrays of dtype float64. *)

From Coq Require Import ZArith Reals QArith Bool Lra.
From Flocq Require Import Core IEEE754.BinarySingleNaN.
From Verif Require Import Num NumFacts.

Definition f64 : Type := binary_float 53 1024.
Definition f64_prec : FLX.Prec_gt_0 53 := eq_refl.
Definition f64_emax : Prec_lt_emax 53 1024 := eq_refl.

Definition f64_ofZ (z : Z) : f64 :=
  binary_normalize 53 1024 f64_prec f64_emax mode_NE z 0 false.

Definition fadd : f64 -> f64 -> f64 := @Bplus 53 1024 f64_prec f64_emax mode_NE.
Definition fsub : f64 -> f64 -> f64 := @Bminus 53 1024 f64_prec f64_emax mode_NE.
Definition fmul : f64 -> f64 -> f64 := @Bmult 53 1024 f64_prec f64_emax mode_NE.
Definition fdiv : f64 -> f64 -> f64 := @Bdiv 53 1024 f64_prec f64_emax mode_NE.
Definition fsqrt : f64 -> f64 := @Bsqrt 53 1024 f64_prec f64_emax mode_NE.

(** Literals: numerator divided by denominator; correctly rounded when both
    are exactly representable, as for every literal in /repo. *)
Definition f64_ofQ (q : Q) : f64 := fdiv (f64_ofZ (Qnum q)) (f64_ofZ (Zpos (Qden q))).

Definition F64 : Num :=
  mkNum f64 fadd fsub fmul fdiv (@Bopp 53 1024) (@Babs 53 1024) fsqrt
        (@Bltb 53 1024) (@Bleb 53 1024) (@Beqb 53 1024) (@is_finite 53 1024)
        (@B754_infinity 53 1024 false) f64_ofQ.

Canonical Structure F64.

(** Value of a float as an extended real. *)
Definition f2x (a : f64) : xr :=
  match a with
  | B754_infinity false => PInf
  | B754_infinity true => NInf
  | B754_nan => NaN
  | _ => Fin (B2R a)
  end.
