(** BFGS and DFP updates.  Models /repo/optimistix/_solver/quasi_newton.py. *)

From Coq Require Import List Bool QArith.
From Verif Require Import Num Vec Results Search.
Import ListNotations.

Section QuasiNewton.
  Context {N : Num}.
  Local Open Scope num_scope.
  Notation vec := (list N).
  Notation matrix := (list (list N)).
  (** `jnp.finfo(inner.dtype).eps` *)
  Variable eps : N.

  (** _identity_pytree, quasi_newton.py 41-75, flattened: the block-diagonal
      identity is the identity matrix. *)
  Definition unit_row (n i : nat) : vec :=
    map (fun j => if Nat.eqb i j then lit 1 else lit 0) (seq 0 n).
  (** _identity_pytree, quasi_newton.py 41-75, flattened. *)
  Definition identity_mat (n : nat) : matrix := map (unit_row n) (seq 0 n).

  (** _outer, quasi_newton.py 78-82, flattened *)
  Definition outer (a b : vec) : matrix := map (fun x => vscale x b) a.

  (** ω-arithmetic on matrices: `a + b`, `a - b`, `c * a`, `a / c` (quasi_newton.py 371-402) *)
  Definition madd (a b : matrix) : matrix := vmap2 vadd a b.
  (** `(a**ω - b**ω).ω` on matrices, quasi_newton.py 371-402. *)
  Definition msub (a b : matrix) : matrix := vmap2 vsub a b.
  (** `(c * a**ω).ω` on matrices, quasi_newton.py 371-402. *)
  Definition mscale (c : N) (a : matrix) : matrix := map (vscale c) a.
  (** `(a**ω / c).ω` on matrices, quasi_newton.py 371-402. *)
  Definition mdivs (a : matrix) (c : N) : matrix := map (map (fun x => x / c)) a.
  (** `operator.mv` (quasi_newton.py 375) *)
  Definition mat_mv (a : matrix) (x : vec) : vec := map (fun row => vdot row x) a.

  (** AbstractBFGS.update_hessian, `update`, use_inverse=True:
      quasi_newton.py 371-389 *)
  Definition bfgs_inverse (inner : N) (grad_diff y_diff : vec) (hessian_inv : matrix) :
      matrix :=
    let inv_mvp := mat_mv hessian_inv grad_diff in
    let mvp_inner := vdot grad_diff inv_mvp in
    let diff_outer := outer y_diff y_diff in
    let mvp_outer := outer y_diff inv_mvp in
    let term1 := mdivs (mscale (inner + mvp_inner) diff_outer) (inner * inner) in
    let term2 := mdivs (madd (outer inv_mvp y_diff) mvp_outer) inner in
    msub (madd hessian_inv term1) term2.

  (** AbstractBFGS.update_hessian, `update`, use_inverse=False:
      quasi_newton.py 390-402 *)
  Definition bfgs_direct (inner : N) (grad_diff y_diff : vec) (hessian : matrix) :
      matrix :=
    let mvp := mat_mv hessian y_diff in
    let term1 := mdivs (outer grad_diff grad_diff) inner in
    let term2 := mdivs (outer mvp mvp) (vdot y_diff mvp) in
    msub (madd hessian term1) term2.

  (** AbstractDFP.update_hessian, `update`, use_inverse=True:
      quasi_newton.py 531-543 *)
  Definition dfp_inverse (inner : N) (grad_diff y_diff : vec) (hessian_inv : matrix) :
      matrix :=
    let inv_mvp := mat_mv hessian_inv grad_diff in
    let term1 := mdivs (outer y_diff y_diff) inner in
    let term2 := mdivs (outer inv_mvp inv_mvp) (vdot grad_diff inv_mvp) in
    msub (madd hessian_inv term1) term2.

  (** AbstractDFP.update_hessian, `update`, use_inverse=False:
      quasi_newton.py 544-559 *)
  Definition dfp_direct (inner : N) (grad_diff y_diff : vec) (hessian : matrix) :
      matrix :=
    let mvp := mat_mv hessian y_diff in
    let mvp_inner := vdot y_diff mvp in
    let diff_outer := outer grad_diff grad_diff in
    let mvp_outer := outer grad_diff mvp in
    let term1 := mdivs (mscale (inner + mvp_inner) diff_outer) (inner * inner) in
    let term2 := mdivs (madd (outer mvp grad_diff) mvp_outer) inner in
    msub (madd hessian term1) term2.

  (** init_hessian of AbstractBFGS, quasi_newton.py 334-340, and of AbstractDFP, 494-500 *)
  Definition qn_init_hessian (use_inverse : bool) (y : vec) (f : N) (grad : vec) :
      finfo N * unit :=
    let identity_operator := MatOp (length y) (identity_mat (length y)) in
    (if use_inverse then EvalGradHessianInv f grad identity_operator
     else EvalGradHessian f grad identity_operator, tt).

  (** The matrix of the current `f_info` (`hessian_inv.pytree` 385 /
      `hessian.pytree` 397). *)
  Definition info_matrix (i : finfo N) : matrix :=
    match i with
    | EvalGradHessian _ _ (MatOp _ rows) | EvalGradHessianInv _ _ (MatOp _ rows) => rows
    | _ => []
    end.

  (** AbstractBFGS.update_hessian, quasi_newton.py 342-415 *)
  Definition bfgs_update (use_inverse : bool) (y y_eval : vec) (f_info : finfo N)
      (f_eval : N) (grad : vec) (st : unit) : finfo N * unit :=
    let y_diff := vsub y_eval y in
    let grad_diff := vsub grad (info_grad f_info) in
    let inner := vdot grad_diff y_diff in
    let inner_nonzero := eps <? inner in
    let H := info_matrix f_info in
    let hessian :=
      if inner_nonzero then
        if use_inverse then bfgs_inverse inner grad_diff y_diff H
        else bfgs_direct inner grad_diff y_diff H
      else H in
    let op := MatOp (length y) hessian in
    (if use_inverse then EvalGradHessianInv f_eval grad op
     else EvalGradHessian f_eval grad op, tt).

  (** AbstractDFP.update_hessian, quasi_newton.py 502-573 *)
  Definition dfp_update (use_inverse : bool) (y y_eval : vec) (f_info : finfo N)
      (f_eval : N) (grad : vec) (st : unit) : finfo N * unit :=
    let y_diff := vsub y_eval y in
    let grad_diff := vsub grad (info_grad f_info) in
    let inner := vdot grad_diff y_diff in
    let inner_nonzero := eps <? inner in
    let H := info_matrix f_info in
    let hessian :=
      if inner_nonzero then
        if use_inverse then dfp_inverse inner grad_diff y_diff H
        else dfp_direct inner grad_diff y_diff H
      else H in
    let op := MatOp (length y) hessian in
    (if use_inverse then EvalGradHessianInv f_eval grad op
     else EvalGradHessian f_eval grad op, tt).
End QuasiNewton.
