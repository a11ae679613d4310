(** The generic solve loop.  Models /repo/optimistix/_iterate.py 185-359. *)

From Coq Require Import List Bool ZArith String.
From Verif Require Import Results.
Import ListNotations.
Local Open Scope string_scope.

(** AbstractIterativeSolver, _iterate.py 24-182: the four methods of a solver.
    Simplifications: `args`, `tags` and `options` are closed over by the
    components; `f_struct`/`aux_struct` are given as fill functions.  [s_init]
    may raise. *)
Record Solver (Y Out Aux : Type) : Type := mkSolver {
  St : Type;
  s_init : (Y -> Out * Aux) -> Y -> (fillv -> Out) -> (fillv -> Aux) -> outcome St;
  s_step : (Y -> Out * Aux) -> Y -> St -> Y * St * Aux;
  s_terminate : (Y -> Out * Aux) -> Y -> St -> bool * results;
  s_post : (Y -> Out * Aux) -> Y -> Aux -> St -> results -> Y * Aux * stats
}.
Arguments St {Y Out Aux}. Arguments s_init {Y Out Aux}.
Arguments s_step {Y Out Aux}. Arguments s_terminate {Y Out Aux}.
Arguments s_post {Y Out Aux}.
Arguments mkSolver {Y Out Aux}.

(** `while_loop(cond_fun, body_fun, init, max_steps=...)`
    (equinox.internal.while_loop, called at _iterate.py 243): run the body
    while the condition holds and fewer than `max_steps` bodies have run.
    [Unfinished] when the fuel runs out first. *)
Fixpoint while_loop {C : Type} (fuel : nat) (cond : C -> bool) (body : C -> C)
    (max_steps : option nat) (c : C) : outcome C :=
  match fuel with
  | O => Unfinished
  | S fuel' =>
      match max_steps with
      | Some O => Ret c
      | _ => if cond c
             then while_loop fuel' cond body (option_map pred max_steps) (body c)
             else Ret c
      end
  end.

(** Solution, _solution.py 23-44. *)
Record Solution (Y Aux S : Type) : Type := mkSolution {
  value : Y;
  result : results;
  aux : Aux;
  sol_stats : stats;
  state : S
}.
Arguments value {Y Aux S}. Arguments result {Y Aux S}. Arguments aux {Y Aux S}.
Arguments sol_stats {Y Aux S}. Arguments state {Y Aux S}.
Arguments mkSolution {Y Aux S}.

Section Iterate.
  Context {Y Out Aux : Type}.
  (** tree_allfinite on `y` (_misc.py 85-87). *)
  Variable allfinite : Y -> bool.

  (** Loop carry, _iterate.py 221-228. *)
  Record carry (S : Type) : Type := mkCarry {
    c_y : Y;
    c_num_steps : nat;
    c_state : S;
    c_aux : Aux;
    c_terminate : bool;
    c_result : results
  }.
  Arguments c_y {S}. Arguments c_num_steps {S}. Arguments c_state {S}.
  Arguments c_aux {S}. Arguments c_terminate {S}. Arguments c_result {S}.
  Arguments mkCarry {S}.

  Variable solver : Solver Y Out Aux.
  Variable fn : Y -> Out * Aux.

  (** terminate_and_result, _iterate.py 214-217. *)
  Definition terminate_and_result (y : Y) (st : St solver) : bool * results :=
    let '(term, res) := s_terminate solver fn y st in
    (term, if allfinite y then res else nonfinite).

  (** cond_fun, _iterate.py 230-232. *)
  Definition cond_fun (c : carry (St solver)) : bool :=
    negb (c_terminate c) && results_eqb (c_result c) successful.

  (** body_fun, _iterate.py 234-241.  Note that the *old* `y` is passed to
      terminate_and_result (line 238). The state is carried whole; that
      carrying only its arrays, as the code does, makes no difference is C94
      (StaticState.v). *)
  Definition body_fun (c : carry (St solver)) : carry (St solver) :=
    let y := c_y c in
    let '(new_y, new_state, a) := s_step solver fn y (c_state c) in
    let '(new_terminate, new_result) := terminate_and_result y new_state in
    mkCarry new_y (S (c_num_steps c)) new_state a new_terminate new_result.

  (** _iterate, _iterate.py 194-267.  Returns
      (final_y, num_steps, result, final_state, final_aux, stats). *)
  Definition iterate (fuel : nat) (max_steps : option nat) (y0 : Y)
      (f_struct : fillv -> Out) (aux_struct : fillv -> Aux) :
      outcome (Y * nat * results * St solver * Aux * stats) :=
    let init_aux := aux_struct fill0 in
    obind (s_init solver fn y0 f_struct aux_struct) (fun init_state =>
    let '(init_terminate, init_result) := terminate_and_result y0 init_state in
    let init_carry :=
      mkCarry y0 0 init_state init_aux init_terminate init_result in
    obind (while_loop fuel cond_fun body_fun max_steps init_carry) (fun final =>
    let res :=
      if results_eqb (c_result final) successful && negb (c_terminate final)
      then nonlinear_max_steps_reached else c_result final in
    let '(final_y, final_aux, st) :=
      s_post solver fn (c_y final) (c_aux final) (c_state final) res in
    Ret (final_y, c_num_steps final, res, c_state final, final_aux, st))).

  (** iterative_solve, _iterate.py 276-359.  The adjoint only changes
      derivatives, so `adjoint.apply(_iterate, ...)` is `_iterate`. *)
  Definition iterative_solve (fuel : nat) (max_steps : option nat) (throw : bool)
      (y0 : Y) (f_struct : fillv -> Out) (aux_struct : fillv -> Aux) :
      outcome (Solution Y Aux (St solver)) :=
    obind (iterate fuel max_steps y0 f_struct aux_struct)
      (fun '(out, num_steps, res, final_state, a, st) =>
    let all_stats :=
      ("num_steps", Some (Z.of_nat num_steps))
        :: ("max_steps", option_map Z.of_nat max_steps) :: st in
    let sol := mkSolution out res a all_stats final_state in
    if throw && negb (results_eqb res successful)
    then Raise (SolveFailed res) else Ret sol).
End Iterate.
Arguments c_y {Y Aux S}. Arguments c_num_steps {Y Aux S}.
Arguments c_state {Y Aux S}. Arguments c_aux {Y Aux S}.
Arguments c_terminate {Y Aux S}. Arguments c_result {Y Aux S}.
Arguments mkCarry {Y Aux S}.
