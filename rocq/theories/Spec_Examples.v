(** Concrete problems used in examples. *)

From Coq Require Import List Bool ZArith QArith Reals.
From Verif Require Import Num NumF64 Vec Results Iterate Search Minimisers.
Import ListNotations.

(** Machine epsilon of binary64 *)
Definition eps64 : f64 := f64_ofQ (1 # 4503599627370496).

(** x^2 + 4 y^2 and its gradient, in any arithmetic *)
Definition bowl {N : Num} (v : list N) : N * unit :=
  match v with
  | [x; y] => (nadd (nmul x x) (nmul (nofQ 4) (nmul y y)), tt)
  | _ => (nofQ 0, tt)
  end.
Definition bowl_grad {N : Num} (f : list N -> N * unit) (v : list N) : list N :=
  match v with
  | [x; y] => [nmul (nofQ 2) x; nmul (nofQ 8) y]
  | _ => []
  end.
(** rtol = atol = 1/1000, max_norm *)
Definition tols {N : Num} : ar_tols N := mkTols (nofQ (1#1000)) (nofQ (1#1000)) max_norm.

(** Both coordinates below 1/1000 in magnitude *)
Definition near_zero64 (v : list f64) : bool :=
  Nat.eqb (length v) 2 && forallb (fun x => nltb (n:=F64) (nabs (n:=F64) x) (f64_ofQ (1#1000))) v.

(** Residuals x^2 - 2 and x - 1, their Jacobian, and the one-column least-squares
    solver, in binary64 *)
Definition curve64 (v : list f64) : list f64 * unit :=
  (match v with
   | [x] => [nsub (n:=F64) (nmul (n:=F64) x x) (f64_ofQ 2); nsub (n:=F64) x (f64_ofQ 1)]
   | _ => []
   end, tt).
Definition curve64_jac (_ : list f64 -> list f64 * unit) (v : list f64) : linop F64 :=
  match v with
  | [x] => MatOp (N:=F64) 1 [[nmul (n:=F64) (f64_ofQ 2) x]; [f64_ofQ 1]]
  | _ => MatOp 0 []
  end.
Definition column64 (A : linop F64) (b : list f64) : list f64 * results :=
  let c := op_mv (N:=F64) A [f64_ofQ 1] in ([ndiv (n:=F64) (vdot (N:=F64) c b) (vdot (N:=F64) c c)], successful).

(** The solve succeeded after [k] steps. *)
Definition succeeds_after {A B C : Type} (k : Z) (o : outcome (Solution A B C)) : bool :=
  match o with
  | Ret s => results_eqb (result s) successful &&
      match sol_stats s with (_, Some n) :: _ => Z.eqb n k | _ => false end
  | _ => false
  end.
