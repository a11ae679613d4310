(** Vocabulary for objectives that differ by a constant (C117). *)

From Coq Require Import List Reals QArith.
From Verif Require Import Num NumF64 Vec Results Iterate Search Descent Minimisers QuasiNewton LinAlg LBFGS Spec_Combos.
Import ListNotations.

(** The gradient-based minimisers: any built-in search and descent in AbstractGradientDescent (steepest descent,
    nonlinear CG), in BFGS or DFP, and in L-BFGS, the last three in either form. *)
Inductive gradient_based {Aux : Type} (P : ar_tols RN) (grad_of : (list R -> R * Aux) -> list R -> list R) : Solver (list R) R Aux -> Prop :=
| g_descent : forall lsolve eps fmax (s : builtin_search RN) (d : builtin_descent RN),
    gradient_based P grad_of (gradient_descent_solver (N:=RN) P (search_of s) (descent_of lsolve eps fmax d) grad_of)
| g_bfgs : forall lsolve eps fmax (s : builtin_search RN) (d : builtin_descent RN) tiny use_inverse,
    gradient_based P grad_of (quasi_newton_solver (N:=RN) P (search_of s) (descent_of lsolve eps fmax d) grad_of
      (qn_init_hessian (N:=RN) use_inverse) (bfgs_update (N:=RN) tiny use_inverse))
| g_dfp : forall lsolve eps fmax (s : builtin_search RN) (d : builtin_descent RN) tiny use_inverse,
    gradient_based P grad_of (quasi_newton_solver (N:=RN) P (search_of s) (descent_of lsolve eps fmax d) grad_of
      (qn_init_hessian (N:=RN) use_inverse) (dfp_update (N:=RN) tiny use_inverse))
| g_lbfgs : forall lsolve eps fmax (s : builtin_search RN) (d : builtin_descent RN) tiny history use_inverse,
    gradient_based P grad_of (quasi_newton_solver (N:=RN) P (search_of s) (descent_of lsolve eps fmax d) grad_of
      (lbfgs_init (N:=RN) history use_inverse) (lbfgs_update (N:=RN) tiny history use_inverse)).

(** a x^2 + c in double precision, and its gradient *)
Definition lifted64 (a c : Q) (y : list f64) : f64 * unit :=
  match y with [x] => (fadd (fmul (f64_ofQ a) (fmul x x)) (f64_ofQ c), tt) | _ => (f64_ofQ 0, tt) end.
Definition lifted64_grad (a : Q) (f : list f64 -> f64 * unit) (y : list f64) : list f64 :=
  match y with [x] => [fmul (fmul (f64_ofQ 2) (f64_ofQ a)) x] | _ => [] end.
