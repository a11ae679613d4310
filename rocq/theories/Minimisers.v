(** The three accept/reject solver skeletons.  Models AbstractGradientDescent
    (_solver/gradient_methods.py), AbstractQuasiNewton
    (_solver/quasi_newton.py) and AbstractGaussNewton
    (_solver/gauss_newton.py).  The reports handed to
    [verbose] are modelled in Verbose.v. *)

From Coq Require Import List Bool QArith.
From Verif Require Import Num Vec Results Iterate Search Descent.
Import ListNotations.

Section Minimisers.
  Context {N : Num} {Aux : Type}.
  Local Open Scope num_scope.
  Notation vec := (list N).

  (** rtol, atol, norm of the solver (e.g. newton_chord.py 59-61) *)
  Record ar_tols : Type := mkTols { ar_rtol : N; ar_atol : N; ar_norm : vec -> N }.
  Variable P : ar_tols.
  Variable search : Search N.
  Variable descent : Descent N.

  (** ** AbstractGradientDescent *)
  Section GD.
    (** `jax.linearize` + `lin_to_grad` (gradient_methods.py 171-173, 184): the
        gradient of [fn] at a point, as a parameter. *)
    Variable grad_of : (vec -> N * Aux) -> vec -> vec.

    (** _GradientDescentState, gradient_methods.py 91-104 *)
    Record gd_state : Type := mkGd {
      gd_first_step : bool;
      gd_y_eval : vec;
      gd_search_state : SSt search;
      gd_f_info : finfo N;
      gd_aux : Aux;
      gd_descent_state : DSt descent;
      gd_terminate : bool;
      gd_result : results
    }.

    (** AbstractGradientDescent.init, gradient_methods.py 138-159.  ValueError
        stands for the trace-time errors raised by a search or descent that
        cannot work with [EvalGrad]. *)
    Definition gd_init (fn : vec -> N * Aux) (y : vec) (f_struct : fillv -> N)
        (aux_struct : fillv -> Aux) : outcome gd_state :=
      let f_info := EvalGrad (f_struct fill0) y in
      if negb (se_supports search f_info && d_supports descent f_info)
      then Raise ValueError else
      Ret (mkGd true y (se_init search y f_info) f_info (aux_struct fill0)
             (d_init descent y f_info) false successful).

    (** AbstractGradientDescent.step, gradient_methods.py 161-222 *)
    Definition gd_step (fn : vec -> N * Aux) (y : vec) (st : gd_state) :
        vec * gd_state * Aux :=
      let y_eval := gd_y_eval st in
      let '(f_eval, aux_eval) := fn y_eval in
      let '(step_size, accept, search_result, search_state) :=
        se_step search (gd_first_step st) y y_eval (gd_f_info st) (Eval f_eval)
          (gd_search_state st) in
      let '(y', f_info, a, descent_state, term) :=
        if accept then
          let grad := grad_of fn y_eval in
          let f_eval_info := EvalGrad f_eval grad in
          let descent_state := d_query descent y_eval f_eval_info (gd_descent_state st) in
          let y_diff := vsub y_eval y in
          let f_diff := f_eval - as_min (gd_f_info st) in
          let term := cauchy_termination (ar_rtol P) (ar_atol P) (ar_norm P)
                        y_eval y_diff [f_eval] [f_diff] in
          let term := if gd_first_step st then false else term in
          (y_eval, f_eval_info, aux_eval, descent_state, term)
        else (y, gd_f_info st, gd_aux st, gd_descent_state st, false) in
      let '(y_descent, descent_result) := d_step descent step_size descent_state in
      let new_y_eval := vadd y' y_descent in
      let res := if results_eqb search_result successful
                 then descent_result else search_result in
      let prev_aux := if gd_first_step st then a else gd_aux st in
      (y', mkGd false new_y_eval search_state f_info a descent_state term res, prev_aux).

    (** class AbstractGradientDescent, gradient_methods.py 107-246: terminate
        224-233, postprocess 235-246 *)
    Definition gradient_descent_solver : Solver vec N Aux :=
      mkSolver gd_state gd_init gd_step
        (fun fn y st => (gd_terminate st, gd_result st))
        (fun fn y a st res => (y, a, [])).
  End GD.

  (** ** AbstractQuasiNewton *)
  Section QN.
    Variable grad_of : (vec -> N * Aux) -> vec -> vec.

    (** init_hessian and update_hessian, quasi_newton.py 146-174;
        [update y y_eval f_info f_eval grad state] receives the new value and
        gradient (FunctionInfo.EvalGrad). *)
    Context {HSt : Type}.
    Variable init_hessian : vec -> N -> vec -> finfo N * HSt.
    Variable update_hessian : vec -> vec -> finfo N -> N -> vec -> HSt -> finfo N * HSt.

    (** _QuasiNewtonState, quasi_newton.py 85-103 *)
    Record qn_state : Type := mkQn {
      qn_first_step : bool;
      qn_y_eval : vec;
      qn_search_state : SSt search;
      qn_f_info : finfo N;
      qn_aux : Aux;
      qn_descent_state : DSt descent;
      qn_terminate : bool;
      qn_result : results;
      qn_num_accepted_steps : nat;
      qn_hessian_update_state : HSt
    }.

    (** AbstractQuasiNewton.init, quasi_newton.py 176-202 *)
    Definition qn_init (fn : vec -> N * Aux) (y : vec) (f_struct : fillv -> N)
        (aux_struct : fillv -> Aux) : outcome qn_state :=
      let f := f_struct fill0 in
      let grad := vfull (length y) (lit 0) in
      let '(f_info, hstate) := init_hessian y f grad in
      if negb (se_supports search f_info && d_supports descent f_info)
      then Raise ValueError else
      Ret (mkQn true y (se_init search y f_info) f_info (aux_struct fill0)
             (d_init descent y f_info) false successful 0 hstate).

    (** AbstractQuasiNewton.step, quasi_newton.py 204-300 *)
    Definition qn_step (fn : vec -> N * Aux) (y : vec) (st : qn_state) :
        vec * qn_state * Aux :=
      let y_eval := qn_y_eval st in
      let '(f_eval, aux_eval) := fn y_eval in
      let '(step_size, accept, search_result, search_state) :=
        se_step search (qn_first_step st) y y_eval (qn_f_info st) (Eval f_eval)
          (qn_search_state st) in
      let '(y', f_info, a, descent_state, term, hstate) :=
        if accept then
          let grad := grad_of fn y_eval in
          let '(f_eval_info, hstate) :=
            update_hessian y y_eval (qn_f_info st) f_eval grad
              (qn_hessian_update_state st) in
          let descent_state := d_query descent y_eval f_eval_info (qn_descent_state st) in
          let y_diff := vsub y_eval y in
          let f_diff := f_eval - as_min (qn_f_info st) in
          let term := cauchy_termination (ar_rtol P) (ar_atol P) (ar_norm P)
                        y_eval y_diff [f_eval] [f_diff] in
          let term := if qn_first_step st then false else term in
          (y_eval, f_eval_info, aux_eval, descent_state, term, hstate)
        else (y, qn_f_info st, qn_aux st, qn_descent_state st, false,
              qn_hessian_update_state st) in
      let '(y_descent, descent_result) := d_step descent step_size descent_state in
      let new_y_eval := vadd y' y_descent in
      let res := if results_eqb search_result successful
                 then descent_result else search_result in
      let prev_aux := if qn_first_step st then a else qn_aux st in
      (y', mkQn false new_y_eval search_state f_info a descent_state term res
             (qn_num_accepted_steps st + if accept then 1 else 0) hstate, prev_aux).

    (** class AbstractQuasiNewton, quasi_newton.py 106-324: terminate 302-311,
        postprocess 313-324 *)
    Definition quasi_newton_solver : Solver vec N Aux :=
      mkSolver qn_state qn_init qn_step
        (fun fn y st => (qn_terminate st, qn_result st))
        (fun fn y a st res => (y, a, [])).
  End QN.

  (** ** AbstractGaussNewton *)
  Section GN.
    (** The Jacobian of [fn] at a point (_make_f_info, gauss_newton.py 158-181),
        as a parameter. *)
    Variable jac_of : (vec -> vec * Aux) -> vec -> linop N.

    (** _GaussNewtonState, gauss_newton.py 140-155 *)
    Record gn_state : Type := mkGn {
      gn_first_step : bool;
      gn_y_eval : vec;
      gn_search_state : SSt search;
      gn_f_info : finfo N;
      gn_aux : Aux;
      gn_descent_state : DSt descent;
      gn_terminate : bool;
      gn_result : results;
      gn_num_steps : nat;
      gn_num_accepted_steps : nat;
      gn_num_steps_since_acceptance : nat
    }.

    (** The residual stored in a [ResidualJac] (_search.py 146-153) *)
    Definition info_residual (i : finfo N) : vec :=
      match i with ResidualJac r _ | Residual r => r | _ => [] end.

    (** The operator with all array leaves zero, gauss_newton.py 228.  (Of a
        linear function without array constants, such as the identity, nothing is
        zeroed; no search or descent of the library looks at this operator's values
        before it is replaced in the first step.) *)
    Definition zero_op (m n : nat) : linop N :=
      FunOp (fun _ => vfull m (lit 0)) (fun _ => vfull n (lit 0)).

    (** AbstractGaussNewton.init, gauss_newton.py 216-241 *)
    Definition gn_init (fn : vec -> vec * Aux) (y : vec) (f_struct : fillv -> vec)
        (aux_struct : fillv -> Aux) : outcome gn_state :=
      let r0 := f_struct fill0 in
      let f_info := ResidualJac r0 (zero_op (length r0) (length y)) in
      if negb (se_supports search f_info && d_supports descent f_info)
      then Raise ValueError else
      Ret (mkGn true y (se_init search y f_info) f_info (aux_struct fill0)
             (d_init descent y f_info) false successful 0 0 0).

    (** AbstractGaussNewton.step, gauss_newton.py 243-334.  (The
        filter/combine of 255-258 replaces the static part of the new operator by
        an equal one.) *)
    Definition gn_step (fn : vec -> vec * Aux) (y : vec) (st : gn_state) :
        vec * gn_state * Aux :=
      let y_eval := gn_y_eval st in
      let '(r_eval, aux_eval) := fn y_eval in
      let f_eval_info := ResidualJac r_eval (jac_of fn y_eval) in
      let '(step_size, accept, search_result, search_state) :=
        se_step search (gn_first_step st) y y_eval (gn_f_info st) f_eval_info
          (gn_search_state st) in
      let num_steps := S (gn_num_steps st) in
      let num_accepted_steps := (gn_num_accepted_steps st + if accept then 1 else 0)%nat in
      let num_since := if accept then 0%nat else S (gn_num_steps_since_acceptance st) in
      let '(y', f_info, a, descent_state, term) :=
        if accept then
          let descent_state := d_query descent y_eval f_eval_info (gn_descent_state st) in
          let y_diff := vsub y_eval y in
          let f_diff := vsub r_eval (info_residual (gn_f_info st)) in
          let term := cauchy_termination (ar_rtol P) (ar_atol P) (ar_norm P)
                        y_eval y_diff r_eval f_diff in
          (y_eval, f_eval_info, aux_eval, descent_state, term)
        else (y, gn_f_info st, gn_aux st, gn_descent_state st, false) in
      let '(y_descent, descent_result) := d_step descent step_size descent_state in
      let new_y_eval := vadd y' y_descent in
      let res := if results_eqb search_result successful
                 then descent_result else search_result in
      let prev_aux := if gn_first_step st then a else gn_aux st in
      (y', mkGn false new_y_eval search_state f_info a descent_state term res
             num_steps num_accepted_steps num_since, prev_aux).

    (** class AbstractGaussNewton, gauss_newton.py 184-358: terminate 336-345,
        postprocess 347-358 *)
    Definition gauss_newton_solver : Solver vec vec Aux :=
      mkSolver gn_state gn_init gn_step
        (fun fn y st => (gn_terminate st, gn_result st))
        (fun fn y a st res => (y, a, [])).
  End GN.
End Minimisers.
Arguments ar_tols : clear implicits.
Arguments gd_first_step {N Aux search descent}.
Arguments gd_y_eval {N Aux search descent}.
Arguments gd_search_state {N Aux search descent}.
Arguments gd_f_info {N Aux search descent}.
Arguments gd_aux {N Aux search descent}.
Arguments gd_descent_state {N Aux search descent}.
Arguments gd_terminate {N Aux search descent}.
Arguments gd_result {N Aux search descent}.
Arguments qn_first_step {N Aux search descent HSt}.
Arguments qn_y_eval {N Aux search descent HSt}.
Arguments qn_search_state {N Aux search descent HSt}.
Arguments qn_f_info {N Aux search descent HSt}.
Arguments qn_aux {N Aux search descent HSt}.
Arguments qn_descent_state {N Aux search descent HSt}.
Arguments qn_terminate {N Aux search descent HSt}.
Arguments qn_result {N Aux search descent HSt}.
Arguments qn_num_accepted_steps {N Aux search descent HSt}.
Arguments qn_hessian_update_state {N Aux search descent HSt}.
Arguments gn_first_step {N Aux search descent}.
Arguments gn_y_eval {N Aux search descent}.
Arguments gn_search_state {N Aux search descent}.
Arguments gn_f_info {N Aux search descent}.
Arguments gn_aux {N Aux search descent}.
Arguments gn_descent_state {N Aux search descent}.
Arguments gn_terminate {N Aux search descent}.
Arguments gn_result {N Aux search descent}.
Arguments gn_num_steps {N Aux search descent}.
Arguments gn_num_accepted_steps {N Aux search descent}.
Arguments gn_num_steps_since_acceptance {N Aux search descent}.
