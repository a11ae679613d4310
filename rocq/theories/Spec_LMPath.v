(** Levenberg-Marquardt on underdetermined problems (C127). *)

From Coq Require Import List Reals.
From Verif Require Import Num Vec Search Spec_Vec Spec_Lin Spec_Search.
Import ListNotations.
Local Open Scope R_scope.

(** sigma |u|^2 <= |J(x)^T u|^2: the Jacobian has full row rank everywhere, with a uniform bound. There may be many more unknowns than
    residuals. *)
Definition jac_onto (n m : nat) (sigma : R) (J : list R -> linop RN) : Prop :=
  forall (x u : list R), length x = n -> length u = m -> sigma * Rdot u u <= Rdot (op_mvT (J x) u) (op_mvT (J x) u).

(** One residual and two unknowns: a + b - 1, which vanishes on a line. *)
Definition on_line (v : list R) : list R * unit := ([nth 0 v 0 + nth 1 v 0 - 1], tt).
Definition on_line_jac (fn : list R -> list R * unit) (v : list R) : linop RN :=
  FunOp (N:=RN) (fun d : list R => [nth 0 d 0 + nth 1 d 0]) (fun u : list R => [nth 0 u 0; nth 0 u 0]).
