(** L-BFGS.  Models /repo/optimistix/_solver/limited_memory_bfgs.py. *)

From Coq Require Import List Bool ZArith QArith.
From Verif Require Import Num Vec Results Iterate Search Descent Minimisers QuasiNewton Solvers LinAlg.
Import ListNotations.

Section LBFGS.
  Context {N : Num}.
  Local Open Scope num_scope.
  Notation vec := (list N).
  Notation matrix := (list (list N)).
  (** `jnp.finfo(inner.dtype).eps` *)
  Variable eps : N.
  Variable history_length : nat.

  (** _LBFGSInverseHessianUpdateState, limited_memory_bfgs.py 32-55.  `index_start` is an int32 counter
      of the updates; its wrap-around after 2^31 updates is not modelled. *)
  Record inv_state : Type := mkInv {
    li_index : Z;
    li_y_diff : list vec;
    li_grad_diff : list vec;
    li_inner : vec
  }.

  (** _LBFGSHessianUpdateState, limited_memory_bfgs.py 58-105 *)
  Record dir_state : Type := mkDir {
    ld_index : Z;
    ld_y_diff : list vec;
    ld_grad_diff : list vec;
    ld_cross : matrix;    (* y_diff_grad_diff_cross_inner *)
    ld_inner : vec;       (* y_diff_grad_diff_inner *)
    ld_gram : matrix      (* y_diff_cross_inner *)
  }.
  (** The two update states, limited_memory_bfgs.py 32-106. *)
  Inductive lbfgs_state : Type := LInv (st : inv_state) | LDir (st : dir_state).

  (** `index % history_length`, as an array index (limited_memory_bfgs.py 136-138, 392) *)
  Definition slot (i : Z) : nat := Z.to_nat (i mod Z.of_nat history_length)%Z.
  (** `x[i]` and `x.at[i].set(v)` for an index in range (limited_memory_bfgs.py 392-412) *)
  Fixpoint set_at {A : Type} (i : nat) (v : A) (x : list A) : list A :=
    match x, i with
    | [], _ => []
    | _ :: x', O => v :: x'
    | a :: x', S i' => a :: set_at i' v x'
    end.

  (** `jax.lax.scan(f, init, xs, reverse=True)`: from the last element of [xs] to
      the first, the outputs stacked in the order of [xs] (limited_memory_bfgs.py 151-156) *)
  Fixpoint scan_reverse {C X Y : Type} (f : C -> X -> C * Y) (c : C) (xs : list X) :
      C * list Y :=
    match xs with
    | [] => (c, [])
    | x :: xs' =>
        let '(c1, ys) := scan_reverse f c xs' in
        let '(c2, y) := f c1 x in
        (c2, y :: ys)
    end.

  (** `circ_index`, limited_memory_bfgs.py 136-138 *)
  Definition circ_index (st : inv_state) : list nat :=
    map (fun j => slot (Z.of_nat j + li_index st)%Z) (seq 0 history_length).

  (** `backward_iter`, limited_memory_bfgs.py 142-149 *)
  Definition backward_iter (st : inv_state) (descent_direction : vec) (indx : nat) : vec * N :=
    let y_diff := nth indx (li_y_diff st) [] in
    let grad_diff := nth indx (li_grad_diff st) [] in
    let inner := nth indx (li_inner st) (lit 0) in
    let alpha := inner * vdot y_diff descent_direction in
    (vsub descent_direction (vscale alpha grad_diff), alpha).

  (** `gamma_k`, limited_memory_bfgs.py 165-173 *)
  Definition inverse_gamma (st : inv_state) : N :=
    let latest_y_diff := nth (slot (li_index st - 1)%Z) (li_y_diff st) [] in
    let latest_grad_diff := nth (slot (li_index st - 1)%Z) (li_grad_diff st) [] in
    let y_grad_diff_inner := vdot latest_y_diff latest_grad_diff in
    let grad_diff_norm_sq := vdot latest_grad_diff latest_grad_diff in
    let pred := lit 0 <? grad_diff_norm_sq in
    let safe_grad_diff_norm_sq := nwhere pred grad_diff_norm_sq (lit 1) in
    nwhere pred (y_grad_diff_inner / safe_grad_diff_norm_sq) (lit 1).

  (** `forward_iter`, limited_memory_bfgs.py 178-190; `alpha` is a constant of the loop *)
  Definition forward_iter (st : inv_state) (alpha : vec) (descent_direction : vec)
      (indx : nat) : vec :=
    let current_alpha := nth indx alpha (lit 0) in
    let i := nth indx (circ_index st) 0%nat in
    let inner := nth i (li_inner st) (lit 0) in
    let y_diff := nth i (li_y_diff st) [] in
    let grad_diff := nth i (li_grad_diff st) [] in
    let current_beta := inner * vdot grad_diff descent_direction in
    vadd descent_direction (map (fun x => x * (current_alpha - current_beta)) y_diff).

  (** _lbfgs_inverse_hessian_operator_fn, limited_memory_bfgs.py 117-198 *)
  Definition inverse_operator (st : inv_state) (grad : vec) : vec :=
    let '(descent_direction, alpha) := scan_reverse (backward_iter st) grad (circ_index st) in
    let descent_direction := vscale (inverse_gamma st) descent_direction in
    fold_left (forward_iter st alpha) (seq 0 history_length) descent_direction.

  (** `gamma_k`, limited_memory_bfgs.py 230-241 *)
  Definition direct_gamma (st : dir_state) : N :=
    let latest_grad_diff := nth (slot (ld_index st - 1)%Z) (ld_grad_diff st) [] in
    let latest_y_diff := nth (slot (ld_index st - 1)%Z) (ld_y_diff st) [] in
    let curvature := vdot latest_y_diff latest_grad_diff in
    let pred := lit 0 <? curvature in
    let safe_curvature := nwhere pred curvature (lit 1) in
    nwhere pred (vdot latest_grad_diff latest_grad_diff / safe_curvature) (lit 1).

  (** `safe_y_diff_grad_diff_inner`, limited_memory_bfgs.py 245-247 *)
  Definition safe_inner (st : dir_state) : vec :=
    map (fun x => if x =? lit 0 then lit 1 else x) (ld_inner st).

  (** `J_square`, limited_memory_bfgs.py 248-254: gamma S^T S + (L / D) L^T *)
  Definition J_square (st : dir_state) : matrix :=
    madd (mscale (direct_gamma st) (ld_gram st))
         (map (fun row => mat_mv (ld_cross st) (vdiv row (safe_inner st))) (ld_cross st)).
  (** `J`, limited_memory_bfgs.py 255. *)
  Definition J_factor (st : dir_state) : matrix := cholesky history_length (J_square st).

  (** `low_tri`, limited_memory_bfgs.py 269-278: [[diag(sqrt D), 0], [-L / sqrt D, J]] *)
  Definition diag (d : vec) : matrix :=
    map (fun i => map (fun j => if Nat.eqb i j then nth i d (lit 0) else lit 0)
                      (seq 0 (length d))) (seq 0 (length d)).
  (** `low_tri`, limited_memory_bfgs.py 269-278. *)
  Definition low_tri (st : dir_state) : matrix :=
    let sqrt_diag := map nsqrt (safe_inner st) in
    map (fun row => row ++ vfull history_length (lit 0)) (diag sqrt_diag) ++
    vmap2 (fun row jrow => vdiv (vneg row) sqrt_diag ++ jrow) (ld_cross st) (J_factor st).
  (** `upper_tri`, limited_memory_bfgs.py 280-281 *)
  Definition upper_tri (st : dir_state) : matrix :=
    let u := transpose (2 * history_length) (low_tri st) in
    map vneg (firstn history_length u) ++ skipn history_length u.

  (** `jnp.einsum("h,h...->...", p, x)`: sum over h of p_h x_h; [n] is the size of
      an entry (limited_memory_bfgs.py 288-292) *)
  Definition einsum (n : nat) (p : vec) (x : list vec) : vec :=
    fold_right vadd (vfull n (lit 0)) (vmap2 vscale p x).

  (** _lbfgs_hessian_operator_fn, limited_memory_bfgs.py 201-295 *)
  Definition direct_operator (st : dir_state) (proposed_step : vec) : vec :=
    let gamma_k := direct_gamma st in
    let descent := mat_mv (ld_grad_diff st) proposed_step ++
                   vscale gamma_k (mat_mv (ld_y_diff st) proposed_step) in
    let descent := solve_lower (low_tri st) descent in
    let descent := solve_upper (upper_tri st) descent in
    let n := length proposed_step in
    vsub (vsub (vscale gamma_k proposed_step)
               (einsum n (firstn history_length descent) (ld_grad_diff st)))
         (vscale gamma_k (einsum n (skipn history_length descent) (ld_y_diff st))).

  (** The operator of a state.  Both are tagged positive semidefinite (limited_memory_bfgs.py 328, 347,
      422, 503), so that lineax takes them to be their own transposes. *)
  Definition lbfgs_operator (st : lbfgs_state) : linop N :=
    match st with
    | LInv st => FunOp (inverse_operator st) (inverse_operator st)
    | LDir st => FunOp (direct_operator st) (direct_operator st)
    end.

  (** AbstractLBFGS.init_hessian, limited_memory_bfgs.py 311-350 (_batched_tree_zeros_like 298-299) *)
  Definition lbfgs_init (use_inverse : bool) (y : vec) (f : N) (grad : vec) :
      finfo N * lbfgs_state :=
    let zeros := repeat (vfull (length y) (lit 0)) history_length in
    if use_inverse then
      let st := LInv (mkInv 0 zeros zeros (vfull history_length (lit 0))) in
      (EvalGradHessianInv f grad (lbfgs_operator st), st)
    else
      let st := LDir (mkDir 0 zeros zeros
                        (repeat (vfull history_length (lit 0)) history_length)
                        (vfull history_length (lit 1)) (identity_mat history_length)) in
      (EvalGradHessian f grad (lbfgs_operator st), st).

  (** `update`, use_inverse=True, limited_memory_bfgs.py 389-428 *)
  Definition inv_update (inner : N) (grad_diff y_diff : vec) (st : inv_state) : inv_state :=
    let i := slot (li_index st) in
    let inner := if eps <? inner then inner else lit 1 in
    mkInv (li_index st + 1)%Z
      (set_at i y_diff (li_y_diff st)) (set_at i grad_diff (li_grad_diff st))
      (set_at i (lit 1 / inner) (li_inner st)).

  (** `update`, use_inverse=False, limited_memory_bfgs.py 389-401 and 430-507 *)
  Definition dir_update (inner : N) (grad_diff y_diff : vec) (st : dir_state) : dir_state :=
    let i := slot (ld_index st) in
    let y_hist := set_at i y_diff (ld_y_diff st) in
    let g_hist := set_at i grad_diff (ld_grad_diff st) in
    let cross := set_at i (mat_mv (ld_grad_diff st) y_diff) (ld_cross st) in
    let cross := map (set_at i (lit 0)) cross in
    let inners := set_at i (vdot (nth i g_hist []) y_diff) (ld_inner st) in
    let cross_inner := mat_mv y_hist (nth i y_hist []) in
    let gram := set_at i cross_inner (ld_gram st) in
    let gram := vmap2 (fun x row => set_at i x row) cross_inner gram in
    mkDir (ld_index st + 1)%Z y_hist g_hist cross inners gram.

  (** The operator held by the function information (limited_memory_bfgs.py 359-363); other variants
      raise ValueError, they do not occur *)
  Definition info_op (i : finfo N) : linop N :=
    match i with
    | EvalGradHessianInv _ _ op | EvalGradHessian _ _ op => op
    | _ => MatOp 0 []
    end.

  (** AbstractLBFGS.update_hessian, limited_memory_bfgs.py 352-528.  The operator returned when the
      update is skipped is the old one. *)
  Definition lbfgs_update (use_inverse : bool) (y y_eval : vec) (f_info : finfo N)
      (f_eval : N) (grad : vec) (st : lbfgs_state) : finfo N * lbfgs_state :=
    let y_diff := vsub y_eval y in
    let grad_diff := vsub grad (info_grad f_info) in
    let inner := vdot y_diff grad_diff in
    let inner_nonzero := eps <? inner in
    let '(op, st') :=
      if inner_nonzero then
        let st' :=
          match st with
          | LInv s => LInv (inv_update inner grad_diff y_diff s)
          | LDir s => LDir (dir_update inner grad_diff y_diff s)
          end in
        (lbfgs_operator st', st')
      else (info_op f_info, st) in
    (if use_inverse then EvalGradHessianInv f_eval grad op
     else EvalGradHessian f_eval grad op, st').
End LBFGS.
Arguments inv_state : clear implicits. Arguments dir_state : clear implicits.
Arguments lbfgs_state : clear implicits.

(** LBFGS, limited_memory_bfgs.py 531-592; the default history_length is 10.  The linear solver is
    only called when use_inverse=False. *)
Definition LBFGS {N : Num} {Aux : Type} (P : ar_tols N)
    (grad_of : (list N -> N * Aux) -> list N -> list N)
    (lsolve : linop N -> list N -> list N * results) (eps : N) (history_length : nat)
    (use_inverse : bool) : Solver (list N) N Aux :=
  quasi_newton_solver P armijo_default (newton_descent lsolve None) grad_of
    (lbfgs_init history_length use_inverse) (lbfgs_update eps history_length use_inverse).
