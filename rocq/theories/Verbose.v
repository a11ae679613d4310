(** What the solvers report while they run.  Models `default_verbose` of
    /repo/optimistix/_misc.py and the `self.verbose(...)` calls of
    AbstractGaussNewton.step, AbstractQuasiNewton.step and OptaxMinimiser.step. *)

From Coq Require Import List Bool QArith String.
From Verif Require Import Num Vec Results Iterate Search Descent Minimisers Optax.
Import ListNotations.

(** A reported value: a counter, a number or a vector. *)
Inductive rvalue (N : Num) : Type :=
| RInt : nat -> rvalue N
| RNum : N -> rvalue N
| RVec : list N -> rvalue N.
Arguments RInt {N}. Arguments RNum {N}. Arguments RVec {N}.

(** `**kwargs` of one call, in order: keyword, then the pair (name, value) *)
Definition report (N : Num) : Type := list (string * (string * rvalue N)).

(** One call `jax.debug.print(fmt, *args)`.  A user's callable may do anything;
    here its effects are printing as well. *)
Record print_call (N : Num) : Type := mkPrint { pc_fmt : string; pc_args : list (rvalue N) }.
Arguments mkPrint {N}. Arguments pc_fmt {N}. Arguments pc_args {N}.

(** The argument `verbose`: a callable, the object True, the object False, or
    anything else (_misc.py 368-382; the tests are `is True`, `is False`). *)
Inductive verbose_arg (N : Num) : Type :=
| VCallable : (report N -> list (print_call N)) -> verbose_arg N
| VTrue | VFalse | VOther.
Arguments VCallable {N}. Arguments VTrue {N}. Arguments VFalse {N}. Arguments VOther {N}.

Section Printing.
  Context {N : Num}.
  Local Open Scope string_scope.

  (** _default_verbose, _misc.py 385-393: the loop of 388-390 *)
  Fixpoint verbose_pieces (kwargs : report N) (string_pieces : list string)
      (arg_pieces : list (rvalue N)) : list string * list (rvalue N) :=
    match kwargs with
    | [] => (string_pieces, arg_pieces)
    | (_, (name, value)) :: rest =>
        verbose_pieces rest (string_pieces ++ [String.append name ": {}"])%list (arg_pieces ++ [value])%list
    end.

  (** _default_verbose, _misc.py 385-393 *)
  Definition default_verbose_true (kwargs : report N) : list (print_call N) :=
    let '(string_pieces, arg_pieces) := verbose_pieces kwargs [] [] in
    if (0 <? List.length string_pieces)%nat
    then [mkPrint (String.concat ", " string_pieces) arg_pieces] else [].

  (** _default_no_verbose, _misc.py 396-397 *)
  Definition default_no_verbose (kwargs : report N) : list (print_call N) := [].

  (** default_verbose, _misc.py 368-382 *)
  Definition default_verbose (verbose : verbose_arg N) :
      outcome (report N -> list (print_call N)) :=
    match verbose with
    | VCallable f => Ret f
    | VTrue => Ret default_verbose_true
    | VFalse => Ret default_no_verbose
    | VOther => Raise ValueError
    end.
End Printing.

Section Reports.
  Context {N : Num} {Aux : Type}.
  Local Open Scope num_scope.
  Notation vec := (list N).
  Variable search : Search N.
  Variable descent : Descent N.

  (** The report of AbstractGaussNewton.step, gauss_newton.py 298-314.  [y] and
      [st] are those given to the step; `y` has been reassigned at 294-296 to
      the point kept after this step, `state` has not. *)
  Definition gn_report (jac_of : (vec -> vec * Aux) -> vec -> linop N)
      (fn : vec -> vec * Aux) (y : vec) (st : gn_state search descent (Aux:=Aux)) : report N :=
    let '(r_eval, _) := fn (gn_y_eval st) in
    let f_eval_info := ResidualJac r_eval (jac_of fn (gn_y_eval st)) in
    let '(step_size, accept, _, _) :=
      se_step search (gn_first_step st) y (gn_y_eval st) (gn_f_info st) f_eval_info
        (gn_search_state st) in
    let y := if accept then gn_y_eval st else y in
    let loss_eval := lit (1#2) * sum_squares r_eval in
    let loss := lit (1#2) * sum_squares (info_residual (gn_f_info st)) in
    [("num_steps", ("Step", RInt (gn_num_steps st)));
     ("accepted_steps", ("Accepted steps", RInt (gn_num_accepted_steps st)));
     ("steps_since_acceptance",
       ("Steps since acceptance", RInt (gn_num_steps_since_acceptance st)));
     ("loss_this_step", ("Loss on this step", RNum loss_eval));
     ("loss_last_accepted_step", ("Loss on the last accepted step", RNum loss));
     ("step_size", ("Step size", RNum step_size));
     ("y", ("y", RVec (gn_y_eval st)));
     ("y_last_accepted_step", ("y on the last accepted step", RVec y))]%string.

  (** The report of AbstractQuasiNewton.step, quasi_newton.py 273-279; `y` has
      been reassigned at 269-271. *)
  Definition qn_report {HSt : Type} (fn : vec -> N * Aux) (y : vec)
      (st : qn_state search descent (Aux:=Aux) (HSt:=HSt)) : report N :=
    let '(f_eval, _) := fn (qn_y_eval st) in
    let '(step_size, accept, _, _) :=
      se_step search (qn_first_step st) y (qn_y_eval st) (qn_f_info st) (Eval f_eval)
        (qn_search_state st) in
    let y := if accept then qn_y_eval st else y in
    [("loss_this_step", ("Loss on this step", RNum f_eval));
     ("loss_last_accepted_step",
       ("Loss on the last accepted step", RNum (as_min (qn_f_info st))));
     ("step_size", ("Step size", RNum step_size));
     ("y", ("y", RVec (qn_y_eval st)));
     ("y_last_accepted_step", ("y on the last accepted step", RVec y))]%string.

  (** The report of OptaxMinimiser.step, optax.py 96-100 *)
  Definition optax_report {optim : OptaxTransform N} (fn : vec -> N * Aux) (y : vec)
      (st : optax_state optim) : report N :=
    let '(f, _) := fn y in
    [("num_steps", ("Step", RInt (ox_step optim st)));
     ("loss_this_step", ("Loss on this step", RNum f));
     ("y", ("y", RVec y))]%string.
End Reports.
