(** Vocabulary for the solvers on doubles (C100). *)

From Coq Require Import List QArith Reals.
From Flocq Require Import Core.
From Flocq.IEEE754 Require Import BinarySingleNaN.
From Verif Require Import Num NumF64 Spec_Vec Vec Results Search.
Import ListNotations.
Local Open Scope R_scope.

(** All entries are finite doubles. *)
Definition finite64 (y : list f64) : Prop := Forall (fun x => is_finite x = true) y.
(** n finite doubles within r of the point x *)
Definition near64 (n : nat) (x : list R) (r : R) (y : list f64) : Prop :=
  length y = n /\ finite64 y /\ Rdist_inf (map B2R y) x <= r.
(** The requested tolerance at v, up to a relative 2^-50 and an absolute 2^-1074 *)
Definition tol64 (rtol atol : f64) (v : list f64) : R :=
  (1 + bpow radix2 (-50)) * (B2R atol + B2R rtol * Rmax_norm (map B2R v)) + bpow radix2 (-1074).
(** rtol and atol are finite, 0 <= rtol <= 1, 0 < atol <= 2^1022. *)
Definition tols64 (rtol atol : f64) : Prop :=
  is_finite rtol = true /\ is_finite atol = true /\ 0 <= B2R rtol <= 1 /\ 0 < B2R atol <= bpow radix2 1022.

(** Example data: (x - 3)^2 / 2 and its gradient, on doubles *)
Definition quad64 (y : list f64) : f64 * unit :=
  match y with
  | [a] => let g := fsub a (f64_ofQ 3) in (fmul (f64_ofQ (1#2)) (fmul g g), tt)
  | _ => (f64_ofQ 0, tt)
  end.
Definition quad64grad (_ : list f64 -> f64 * unit) (y : list f64) : list f64 := map (fun a => fsub a (f64_ofQ 3)) y.
(** Example data: the residuals (x^2 - 2, 1), their Jacobian and its least-squares solve, on doubles *)
Definition res64 (y : list f64) : list f64 * unit :=
  match y with
  | [a] => ([fsub (fmul a a) (f64_ofQ 2); f64_ofQ 1], tt)
  | _ => ([], tt)
  end.
Definition res64jac (_ : list f64 -> list f64 * unit) (y : list f64) : linop F64 :=
  match y with
  | [a] => MatOp 1 [[fmul (f64_ofQ 2) a]; [f64_ofQ 0]]
  | _ => MatOp 0 []
  end.
Definition res64solve (A : linop F64) (b : list f64) : list f64 * results :=
  match A, b with
  | MatOp _ [[m]; _], [c; _] => ([fdiv c m], successful)
  | _, _ => ([], successful)
  end.
