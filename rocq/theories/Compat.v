(** The scipy-style entry point.  Models /repo/optimistix/compat/_impl.py. *)

From Coq Require Import List Bool Arith QArith ZArith Ascii String.
From Verif Require Import Num Vec Results Iterate Search Minimisers QuasiNewton Solvers RootFind.
Import ListNotations.

(** `method.lower()` (84), for the letters A-Z (compat/_impl.py) *)
Definition lower_char (c : ascii) : ascii :=
  let n := nat_of_ascii c in
  if Nat.leb 65 n && Nat.leb n 90 then ascii_of_nat (n + 32) else c.
(** `method.lower()`, compat/_impl.py 84. *)
Fixpoint lower (s : string) : string :=
  match s with
  | EmptyString => EmptyString
  | String c s' => String (lower_char c) (lower s')
  end.

Section Compat.
  Context {N : Num}.
  Notation vec := (list N).
  (** `eqx.filter_value_and_grad`, lineax's Cholesky solve (not used in this mode)
      and `finfo.eps`, as for [BFGS] *)
  Variable grad_of : (vec -> N * unit) -> vec -> vec.
  Variable lsolve : linop N -> vec -> vec * results.
  Variable eps : N.

  (** OptimizeResults, compat/_impl.py 14-39 *)
  Record optimize_results : Type := mkOR {
    or_x : vec;
    or_success : bool;
    or_status : Z;
    or_fun : N;
    or_jac : vec;
    or_hess_inv : list (list N);
    or_nfev : option (option Z);
    or_njev : nat;
    or_nit : nat
  }.

  (** The `options` mapping, as the presence and value of the two keys the code
      knows, and the list of the other keys. (compat/_impl.py 95-102). *)
  Record min_options : Type := mkOpts {
    o_maxiter : option (option nat);
    o_norm : option (vec -> N);
    o_others : list string
  }.

  (** minimize, compat/_impl.py 42-125.  [x0] is None when it is not a one-dimensional array
      (86); [args_is_tuple] is `isinstance(args, tuple)` (88); `fun(y, *args)` is
      [fn], which has no auxiliary output; [fuel] bounds the loop when
      `max_steps` is None. All of compat/_impl.py. *)
  Definition compat_minimize (fuel : nat) (fn : vec -> N) (x0 : option vec)
      (args_is_tuple : bool) (method : string) (tol : option N)
      (options : option min_options) : outcome optimize_results :=
    if negb (String.eqb (lower method) "bfgs") then Raise ValueError else
    match x0 with
    | None => Raise ValueError
    | Some x0 =>
      if negb args_is_tuple then Raise TypeError else
      let tol := match tol with None => nofQ (1 # 100000) | Some t => t end in
      let options :=
        match options with None => mkOpts None None [] | Some o => o end in
      let max_steps :=
        match o_maxiter options with Some m => m | None => None end in
      (* `options.pop("norm", max_norm)`, 100: the value is discarded *)
      if negb (Nat.eqb (List.length (o_others options)) 0) then Raise ValueError else
      let wrapped_fn := fun y => (fn y, tt) in
      let solver := BFGS (mkTols tol tol max_norm) grad_of lsolve eps true in
      obind (iterative_solve vallfinite solver wrapped_fn fuel max_steps false x0
               scalar_struct (fun _ => tt)) (fun sol =>
      let status :=
        if results_eqb (result sol) successful then 0%Z
        else if results_eqb (result sol) nonlinear_max_steps_reached then 1%Z
        else 3%Z in
      Ret (mkOR (value sol)
             (results_eqb (result sol) successful)
             status
             (as_min (qn_f_info (state sol)))
             (info_grad (qn_f_info (state sol)))
             (info_matrix (qn_f_info (state sol)))
             (stats_get (sol_stats sol) "num_steps")
             (qn_num_accepted_steps (state sol))
             (qn_num_accepted_steps (state sol))))
    end.
End Compat.
Arguments optimize_results : clear implicits.
Arguments min_options : clear implicits.
Arguments mkOpts {N}.
