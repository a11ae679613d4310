(** Vocabulary for the effect of rtol and atol (C112). *)

From Coq Require Import List Bool ZArith String QArith.
From Flocq Require Import IEEE754.BinarySingleNaN.
From Verif Require Import Num NumF64 Vec Results Iterate.
From Verif Require Import FixedPoint Bisection Golden NewtonChord Search Descent Minimisers Optax NelderMead BestSoFar RootFind.
Import ListNotations.

(** 0 <= rtol <= rtol' < inf and 0 <= atol <= atol' *)
Definition looser (rtol atol rtol' atol' : f64) : Prop :=
  Bleb (f64_ofQ 0) rtol = true /\ Bleb rtol rtol' = true /\ is_finite rtol' = true /\
  Bleb (f64_ofQ 0) atol = true /\ Bleb atol atol' = true.

(** The norms of the library *)
Definition library_norm (norm : list f64 -> f64) : Prop :=
  norm = max_norm (N:=F64) \/ norm = two_norm (N:=F64) \/ norm = rms_norm (N:=F64).

(** The same solver, once with (rtol, atol) and once with (rtol', atol'): every solver of the library, with every
    search, descent, Hessian update, Optax optimiser and option; except Newton and Chord with
    cauchy_termination=False.  Also wrapped in BestSoFar and in root_find's test for a root. *)
Inductive only_tolerances_differ (rtol atol rtol' atol' : f64) :
  forall Y Out Aux : Type, Solver Y Out Aux -> Solver Y Out Aux -> Prop :=
| t_fixed_point : forall Aux damp norm, library_norm norm ->
    only_tolerances_differ rtol atol rtol' atol' _ _ Aux
      (fixed_point_iteration (N:=F64) rtol atol damp norm) (fixed_point_iteration (N:=F64) rtol' atol' damp norm)
| t_bisection : forall Aux flip expand_if_necessary fuel lower upper,
    only_tolerances_differ rtol atol rtol' atol' _ _ Aux
      (bisection (N:=F64) rtol atol flip expand_if_necessary fuel lower upper)
      (bisection (N:=F64) rtol' atol' flip expand_if_necessary fuel lower upper)
| t_golden : forall Aux lower upper,
    only_tolerances_differ rtol atol rtol' atol' _ _ Aux
      (golden (N:=F64) rtol atol lower upper) (golden (N:=F64) rtol' atol' lower upper)
| t_newton_chord : forall Aux M (jac : _ -> _ -> M) lsolve norm kappa is_newton lower upper resolution, library_norm norm ->
    only_tolerances_differ rtol atol rtol' atol' _ _ Aux
      (newton_chord (N:=F64) jac lsolve (mkNcParams rtol atol norm kappa true is_newton lower upper resolution))
      (newton_chord (N:=F64) jac lsolve (mkNcParams rtol' atol' norm kappa true is_newton lower upper resolution))
| t_gradient_descent : forall Aux search descent grad_of norm, library_norm norm ->
    only_tolerances_differ rtol atol rtol' atol' _ _ Aux
      (gradient_descent_solver (N:=F64) (mkTols rtol atol norm) search descent grad_of)
      (gradient_descent_solver (N:=F64) (mkTols rtol' atol' norm) search descent grad_of)
| t_quasi_newton : forall Aux search descent grad_of HSt (init_hessian : _ -> _ -> _ -> _ * HSt) update_hessian norm, library_norm norm ->
    only_tolerances_differ rtol atol rtol' atol' _ _ Aux
      (quasi_newton_solver (N:=F64) (mkTols rtol atol norm) search descent grad_of init_hessian update_hessian)
      (quasi_newton_solver (N:=F64) (mkTols rtol' atol' norm) search descent grad_of init_hessian update_hessian)
| t_gauss_newton : forall Aux search descent jac_of norm, library_norm norm ->
    only_tolerances_differ rtol atol rtol' atol' _ _ Aux
      (gauss_newton_solver (N:=F64) (mkTols rtol atol norm) search descent jac_of)
      (gauss_newton_solver (N:=F64) (mkTols rtol' atol' norm) search descent jac_of)
| t_optax : forall Aux optim grad_of fmax norm, library_norm norm ->
    only_tolerances_differ rtol atol rtol' atol' _ _ Aux
      (OptaxMinimiser (N:=F64) optim (mkTols rtol atol norm) grad_of fmax)
      (OptaxMinimiser (N:=F64) optim (mkTols rtol' atol' norm) grad_of fmax)
| t_nelder_mead : forall Aux rdelta adelta shape norm, library_norm norm ->
    only_tolerances_differ rtol atol rtol' atol' _ _ Aux
      (NelderMead (N:=F64) rtol atol norm rdelta adelta shape) (NelderMead (N:=F64) rtol' atol' norm rdelta adelta shape)
| t_best_so_far : forall Y Out Aux (to_loss : Y -> Out -> f64) s s',
    only_tolerances_differ rtol atol rtol' atol' Y Out (Out * Aux)%type s s' ->
    only_tolerances_differ rtol atol rtol' atol' Y Out Aux (best_so_far (N:=F64) to_loss s) (best_so_far (N:=F64) to_loss s')
| t_to_root : forall Out Aux norm s s',
    only_tolerances_differ rtol atol rtol' atol' (list f64) Out (list f64 * Aux)%type s s' ->
    only_tolerances_differ rtol atol rtol' atol' (list f64) Out (list f64 * Aux)%type
      (to_root (N:=F64) atol norm s) (to_root (N:=F64) atol' norm s').

(** The reported number of steps is k *)
Definition took {Y Aux S} (sol : Solution Y Aux S) (k : nat) : Prop :=
  hd_error (sol_stats sol) = Some ("num_steps"%string, Some (Z.of_nat k)).

(** f(y) = y^3 - 2 y^2 + 21 y, its derivative, and division *)
Definition cubic64 (y : list f64) : list f64 * unit :=
  match y with
  | [x] => ([fadd (fsub (fmul x (fmul x x)) (fmul (f64_ofQ 2) (fmul x x))) (fmul (f64_ofQ 21) x)], tt)
  | _ => ([], tt)
  end.
Definition cubic64_jac (fn : list f64 -> list f64 * unit) (y : list f64) : f64 :=
  match y with
  | [x] => fadd (fsub (fmul (f64_ofQ 3) (fmul x x)) (fmul (f64_ofQ 4) x)) (f64_ofQ 21)
  | _ => f64_ofQ 1
  end.
Definition divide64 (m : f64) (v : list f64) : list f64 * results :=
  match v with [x] => ([fdiv x m], successful) | _ => ([], successful) end.
