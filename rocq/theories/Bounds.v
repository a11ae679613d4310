(** Bound constraints: feasible step lengths (optimistix/_misc.py) and the
    Cauchy point (optimistix/_solver/cauchy_point.py).  A pytree is the list of
    its entries. *)

From Coq Require Import List Bool Arith QArith.
From Verif Require Import Num Vec Results Search.
Import ListNotations.

Section Bounds.
  Context {N : Num}.
  Local Open Scope num_scope.
  Notation vec := (list N).

  (** `max_step` in feasible_step_length, _misc.py 189-205 *)
  Definition max_step (offset x dx lower upper : N) : N :=
    let distance_to_lower := (lit 1 - offset) * (x - lower) in
    let distance_to_upper := (lit 1 - offset) * (upper - x) in
    let max_to_lower := nwhere (dx <? lit 0) (- distance_to_lower / dx) ninf in
    let max_to_upper := nwhere (lit 0 <? dx) (distance_to_upper / dx) ninf in
    let max_to_lower := nclip max_to_lower (lit 0) (lit 1) in
    let max_to_upper := nclip max_to_upper (lit 0) (lit 1) in
    nwhere (max_to_lower <? max_to_upper) max_to_lower max_to_upper.

  (** feasible_step_length, _misc.py 137-208; `offset=None` is offset 0
      (186-187) *)
  Fixpoint feasible_step_length (offset : N) (current proposed_step lower upper : vec) : vec :=
    match current, proposed_step, lower, upper with
    | x :: xs, dx :: dxs, l :: ls, u :: us =>
        max_step offset x dx l u :: feasible_step_length offset xs dxs ls us
    | _, _, _, _ => []
    end.

  (** tree_min, _misc.py 127-129.  `jnp.min` of no entries raises; here it is
      infinity. *)
  Definition tree_min (v : vec) : N :=
    match v with [] => ninf | x :: v' => fold_left nmin v' x end.

  (** `leaf_intercepts`, cauchy_point.py 36-43, on one entry *)
  Definition leaf_intercept (y bound gradient : N) : N :=
    let i := (y - bound) / gradient in
    let i := nwhere (lit 0 <=? i) i ninf in
    let i := nwhere (negb (gradient =? lit 0)) i ninf in
    nwhere (nisfin i) (nmin i (lit 1)) i.

  (** _boundary_intercepts, cauchy_point.py 16-53 *)
  Definition boundary_intercepts (y lower upper grad : vec) : vec :=
    vmap2 nmin (vmap3 leaf_intercept y lower grad) (vmap3 leaf_intercept y upper grad).

  (** `jnp.argmin` of booleans: the first False, or 0 (cauchy_point.py 65) *)
  Fixpoint first_false (l : list bool) : option nat :=
    match l with
    | [] => None
    | false :: _ => Some 0%nat
    | true :: l' => option_map S (first_false l')
    end.
  (** `jnp.argmin(candidates)`, cauchy_point.py 65. *)
  Definition argmin_bool (l : list bool) : nat :=
    match first_false l with Some i => i | None => 0%nat end.

  (** _next_intercept, cauchy_point.py 56-65 *)
  Definition next_intercept (intercepts : vec) (previous : N) : N :=
    let candidates := map (fun i => if nisfin i then negb (previous <? i) else true) intercepts in
    nth (argmin_bool candidates) intercepts ninf.

  (** _point, cauchy_point.py 68-69 *)
  Definition box_point (y grad : vec) (intercept : N) (lower upper : vec) : vec :=
    vclip (vsub y (vscale intercept grad)) lower upper.

  (** _CauchyState, cauchy_point.py 72-76; the intercepts never change and are
      kept outside *)
  Record cauchy_state : Type := mkCauchy {
    c_previous : N; c_point : vec; c_terminate : bool
  }.

  (** `body_fun`, cauchy_point.py 96-127 *)
  Definition cauchy_body (y lower upper grad : vec) (H : linop N) (intercepts : vec)
      (st : cauchy_state) : cauchy_state :=
    let next := next_intercept intercepts (c_previous st) in
    let next_point := box_point y grad next lower upper in
    let point_diff := vsub next_point y in
    let linear := vdot grad point_diff + vdot (c_point st) (op_mv H point_diff) in
    let quadratic := vdot point_diff (op_mv H point_diff) in
    let optimal := - linear / quadratic in
    let stop_at_previous := lit 0 <? linear in
    let skip_to_next := next <? optimal in
    let optimal := nwhere stop_at_previous (c_previous st) optimal in
    let optimal := nwhere skip_to_next next optimal in
    let is_cauchy := stop_at_previous || negb skip_to_next in
    let point := box_point y grad optimal lower upper in
    let more_to_try := existsb (fun i => next <? i) intercepts in
    mkCauchy next point (is_cauchy || negb more_to_try).

  (** `eqxi.while_loop(cond_fun, body_fun, ...)`, cauchy_point.py 93-94 and
      129-132; [fuel] bounds the number of passes *)
  Fixpoint cauchy_loop (y lower upper grad : vec) (H : linop N) (intercepts : vec)
      (fuel : nat) (st : cauchy_state) : outcome vec :=
    if c_terminate st then Ret (c_point st)
    else match fuel with
         | O => Unfinished
         | S fuel' => cauchy_loop y lower upper grad H intercepts fuel'
                        (cauchy_body y lower upper grad H intercepts st)
         end.
  (** _find_cauchy_point, cauchy_point.py 79-132. *)
  Definition find_cauchy_point (y lower upper grad : vec) (H : linop N) (intercepts : vec)
      (fuel : nat) : outcome vec :=
    cauchy_loop y lower upper grad H intercepts fuel (mkCauchy (lit 0) y false).

  (** `just_move`, cauchy_point.py 214-217 *)
  Definition just_move (y lower upper grad : vec) : vec :=
    let gradient_step := vneg grad in
    let step_size := feasible_step_length (lit 0) y gradient_step lower upper in
    vadd y (vscale (tree_min step_size) gradient_step).

  (** cauchy_point, cauchy_point.py 135-220 *)
  Definition cauchy_point (y lower upper grad : vec) (H : linop N) (fuel : nat) : outcome vec :=
    let intercepts := boundary_intercepts y lower upper grad in
    let has_intercepts := existsb (fun i => (lit 0 <? i) && (i <? lit 1)) intercepts in
    if has_intercepts then find_cauchy_point y lower upper grad H intercepts fuel
    else Ret (just_move y lower upper grad).
End Bounds.
Arguments cauchy_state : clear implicits.
