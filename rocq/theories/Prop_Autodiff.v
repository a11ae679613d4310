(** Property theorems: Autodiff.
    Statements only; each is closed by the lemma of the same name (suffix _pf)
    in the proof file.  [Example]s show concrete cases meeting the hypotheses. *)

From Coq Require Import String List Bool Arith Lia ZArith QArith Reals Lra FunctionalExtensionality.
From Verif Require Import Num NumF64 Vec VecFacts Spec_Vec Spec_Lin LinFacts Results Iterate Spec_Iterate Iterate_proofs.
From Verif Require Import Search Descent Minimisers QuasiNewton LBFGS Solvers Spec_Combos Autodiff Spec_Autodiff TrustRegion_proofs BFGS_proofs.
Import ListNotations.
Local Open Scope nat_scope.
From Verif Require Import Autodiff_proofs.

(** If [lin] is a linear function of n unknowns with gradient g (lin v = g . v) and
    [transpose] is a transpose of it, both modes return g. Every other mode raises
    ValueError. *)
Theorem C75_gradient :
  forall (lin : list R -> R) (transpose : nat -> (list R -> R) -> R -> list R) (g : list R),
    (forall v, length v = length g -> lin v = Rdot g v) ->
    (forall w, length (transpose (length g) lin w) = length g) ->
    (forall w v, length v = length g -> Rdot (transpose (length g) lin w) v = (w * lin v)%R) ->
    (forall mode, mode = "fwd"%string \/ mode = "bwd"%string ->
       exists grad, lin_to_grad (N:=RN) transpose mode = Ret grad /\ grad lin (length g) = g) /\
    (forall mode, mode <> "fwd"%string -> mode <> "bwd"%string -> lin_to_grad (N:=RN) transpose mode = Raise ValueError).
Proof. exact C75_gradient_pf. Qed.
Print Assumptions C75_gradient.

(** The operators made with jac='fwd' and jac='bwd' have the same action and transpose;
    any other value raises ValueError. *)
Theorem C75_jacobian :
  forall (n m : nat) (push pull : list R -> list R), adjoint_pair n m push pull ->
    (exists f b, make_jac (N:=RN) "fwd" = Ret f /\ make_jac (N:=RN) "bwd" = Ret b /\
       same_operator n m (f push pull n m) (b push pull n m) /\
       (forall v, length v = n -> op_mv (f push pull n m) v = push v) /\
       (forall w, length w = m -> op_mvT (f push pull n m) w = pull w)) /\
    (forall mode, mode <> "fwd"%string -> mode <> "bwd"%string -> make_jac (N:=RN) mode = Raise ValueError).
Proof. exact C75_jacobian_pf. Qed.
Print Assumptions C75_jacobian.

(** Gradient descent, nonlinear CG, the quasi-Newton methods, and any other solver that
    uses [lin_to_grad]: if [transpose] transposes the linearisation of the function at
    every point, the two modes give the same solve (value, result, aux, statistics,
    exceptions); every other mode raises ValueError. *)
Theorem C75_minimisers :
  forall (Aux : Type) (linearize : (list R -> R * Aux) -> list R -> list R -> R) (transpose : nat -> (list R -> R) -> R -> list R),
    (forall f y w, length (transpose (length y) (linearize f y) w) = length y) ->
    (forall f y w v, length v = length y -> Rdot (transpose (length y) (linearize f y) w) v = (w * linearize f y v)%R) ->
    forall mk (fn : list R -> R * Aux) isfin fuel budget throw y0 fs auxs,
      solve_autodiff (N:=RN) linearize transpose mk isfin "fwd" fn fuel budget throw y0 fs auxs =
      solve_autodiff (N:=RN) linearize transpose mk isfin "bwd" fn fuel budget throw y0 fs auxs /\
      (forall mode, mode <> "fwd"%string -> mode <> "bwd"%string ->
         solve_autodiff (N:=RN) linearize transpose mk isfin mode fn fuel budget throw y0 fs auxs = Raise ValueError).
Proof. exact C75_minimisers_pf. Qed.
Print Assumptions C75_minimisers.

(** Gauss-Newton, Levenberg-Marquardt, dogleg, and every combination of a built-in
    search and descent in the least-squares loop. If [pull] transposes the derivative
    [push] at every point, and the linear solver returns a vector of n unknowns that
    depends on the action of the operator only, jac='fwd' and jac='bwd' give the same
    solve; every other value raises ValueError. *)
Theorem C75_least_squares :
  forall (Aux : Type) (n m : nat) (push pull : (list R -> list R * Aux) -> list R -> list R -> list R)
         (lsolve : linop RN -> list R -> list R * results) (eps fmax : R) (fn : list R -> list R * Aux),
    (forall y, length y = n -> length (fst (fn y)) = m /\ adjoint_pair n m (push fn y) (pull fn y)) ->
    (forall k A B b, length b = k -> same_operator n k A B -> lsolve A b = lsolve B b) ->
    (forall A b, length (fst (lsolve A b)) = n) ->
    forall (P : ar_tols RN) (s : builtin_search RN) (d : builtin_descent RN) isfin fuel budget throw (y0 : list R) fs auxs,
      length y0 = n -> length (fs fill0) = m ->
      let mk := gauss_newton_solver (N:=RN) (Aux:=Aux) P (search_of s) (descent_of lsolve eps fmax d) in
      solve_jac (N:=RN) push pull mk isfin "fwd" fn fuel budget throw y0 fs auxs =
      solve_jac (N:=RN) push pull mk isfin "bwd" fn fuel budget throw y0 fs auxs /\
      (forall mode, mode <> "fwd"%string -> mode <> "bwd"%string ->
         solve_jac (N:=RN) push pull mk isfin mode fn fuel budget throw y0 fs auxs = Raise ValueError).
Proof. exact C75_least_squares_pf. Qed.
Print Assumptions C75_least_squares.

Example C75_gradient_ex :
  (forall v, length v = 2 -> ex_lin v = Rdot [3; 2]%R v) /\ (forall w, length (ex_transpose 2 ex_lin w) = 2) /\
  (forall w v, length v = 2 -> Rdot (ex_transpose 2 ex_lin w) v = (w * ex_lin v)%R) /\
  lin_to_grad (N:=RN) ex_transpose "reverse" = Raise ValueError.
Proof. exact C75_gradient_ex_pf. Qed.

Example C75_minimisers_ex :
  (forall f y w, length (ex_transpose (length y) (ex_linearize f y) w) = length y) /\
  (forall f y w v, length v = length y -> Rdot (ex_transpose (length y) (ex_linearize f y) w) v = (w * ex_linearize f y v)%R) /\
  (forall f, ex_linearize f [1; 2]%R [1; 1]%R = 6%R).
Proof. exact C75_minimisers_ex_pf. Qed.

Example C75_least_squares_ex :
  (forall y, length y = 2 -> length (fst (ex_res y)) = 2 /\ adjoint_pair 2 2 (fun v => v) (fun w => w)) /\
  (forall k A B b, length b = k -> same_operator 2 k A B -> ex_solve A b = ex_solve B b) /\
  (forall A b, length (fst (ex_solve A b)) = 2) /\
  fst (ex_solve (FunOp (N:=RN) (fun v => v) (fun w => w)) [5; 7]%R) = [5; 7]%R.
Proof. exact C75_least_squares_ex_pf. Qed.
