(** The two ways of obtaining gradients and Jacobians: lin_to_grad (_misc.py) and
    _make_f_info (_solver/gauss_newton.py), and the options that choose. *)

From Coq Require Import String List Bool Arith QArith.
From Verif Require Import Num Vec Results Iterate Search.
Import ListNotations.

Section Autodiff.
  Context {N : Num} {Aux : Type}.
  Notation vec := (list N).

  (** The i-th vector of the standard basis, which jacfwd and jacrev push through the
      function (_misc.py 254, gauss_newton.py 173). *)
  Definition basis (n i : nat) : vec := map (fun j => if j =? i then lit 1 else lit 0) (seq 0 n).

  (** lin_to_grad, _misc.py 245-258. The mode is a static argument, so it comes first
      and decides once. [transpose n lin] is what jax.linear_transpose makes of the linear
      function [lin] of n unknowns; jacfwd evaluates [lin], its own derivative, on the basis. [n] is
      the size of y_eval. *)
  Definition lin_to_grad (transpose : nat -> (vec -> N) -> N -> vec) (autodiff_mode : string) :
      outcome ((vec -> N) -> nat -> vec) :=
    if String.eqb autodiff_mode "bwd" then Ret (fun lin_fn n => transpose n lin_fn (lit 1))
    else if String.eqb autodiff_mode "fwd"
    then Ret (fun lin_fn n => map (fun i => lin_fn (basis n i)) (seq 0 n))
    else Raise ValueError.

  (** The operator made by _make_f_info, gauss_newton.py 158-181: [push] is the linear
      function of jax.linearize (its transpose is derived by JAX: [pull]); jacrev calls
      [pull] on the basis of the m outputs and materialises the rows. *)
  Definition make_jac (jac : string) :
      outcome ((vec -> vec) -> (vec -> vec) -> nat -> nat -> linop N) :=
    if String.eqb jac "fwd" then Ret (fun push pull n m => FunOp push pull)
    else if String.eqb jac "bwd"
    then Ret (fun push pull n m => MatOp n (map (fun i => pull (basis m i)) (seq 0 m)))
    else Raise ValueError.

  (** Differentiation of a scalar and of a vector function: the linear function of
      jax.linearize and the transpose JAX derives (gradient_methods.py 177-184,
      quasi_newton.py 220-227, gauss_newton.py 166-173). *)
  Variable linearize : (vec -> N * Aux) -> vec -> vec -> N.
  Variable transpose : nat -> (vec -> N) -> N -> vec.
  Variables push pull : (vec -> vec * Aux) -> vec -> vec -> vec.

  (** A solve with options=dict(autodiff_mode=...) (gradient_methods.py 170-184,
      quasi_newton.py 213-227). The step is traced before anything runs, so a bad mode
      raises whatever happens later. *)
  Definition solve_autodiff (mk : ((vec -> N * Aux) -> vec -> vec) -> Solver vec N Aux)
      (isfin : vec -> bool) (autodiff_mode : string) (fn : vec -> N * Aux) (fuel : nat)
      (max_steps : option nat) (throw : bool) (y0 : vec) (fs : fillv -> N) (auxs : fillv -> Aux) :=
    match lin_to_grad transpose autodiff_mode with
    | Ret grad =>
        obind (iterative_solve isfin (mk (fun f y => grad (linearize f y) (length y)))
                 fn fuel max_steps throw y0 fs auxs)
          (fun sol => Ret (value sol, result sol, aux sol, sol_stats sol))
    | Raise e => Raise e
    | Unfinished => Unfinished
    end.

  (** A least-squares solve with options=dict(jac=...) (gauss_newton.py 226, 252). *)
  Definition solve_jac (mk : ((vec -> vec * Aux) -> vec -> linop N) -> Solver vec vec Aux)
      (isfin : vec -> bool) (jac : string) (fn : vec -> vec * Aux) (fuel : nat)
      (max_steps : option nat) (throw : bool) (y0 : vec) (fs : fillv -> vec) (auxs : fillv -> Aux) :=
    match make_jac jac with
    | Ret op =>
        obind (iterative_solve isfin
                 (mk (fun f y => op (push f y) (pull f y) (length y) (length (fst (f y)))))
                 fn fuel max_steps throw y0 fs auxs)
          (fun sol => Ret (value sol, result sol, aux sol, sol_stats sol))
    | Raise e => Raise e
    | Unfinished => Unfinished
    end.
End Autodiff.
