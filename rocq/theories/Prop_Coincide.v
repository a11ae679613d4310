(** Property theorems: Coincide.
    Statements only; each is closed by the lemma of the same name (suffix _pf)
    in the proof file.  [Example]s show concrete cases meeting the hypotheses. *)

From Coq Require Import List Bool Arith ZArith QArith Reals Lra Lia.
From Verif Require Import Num NumF64 NumFacts NumF64_facts Vec VecFacts Results Iterate Search Descent Minimisers Solvers
  NewtonChord Optax FixedPoint F64Facts Spec_Iterate Spec_Vec Spec_Lin LinFacts Minimisers_proofs GaussNewton_proofs Steps_proofs NewtonChord_proofs Spec_NewtonChord Spec_Coincide.
From Flocq Require Import Core.
From Flocq.IEEE754 Require Import BinarySingleNaN.
Import ListNotations.
Local Open Scope nat_scope.
From Verif Require Import Coincide_proofs.

(** GaussNewton and Newton without bounds, given the same Jacobians and the
    same linear solver: GaussNewton's first step only evaluates, after that the
    iterates are the same, in every arithmetic. *)
Theorem C92_gauss_newton_is_newton :
  forall (N : Num) (Aux : Type), neg_add N ->
  forall (P : ar_tols N) (Q : nc_params (N := N)) jac_of lsolve (fn : list N -> list N * Aux) y0 fs auxs st0 st0',
  nc_is_newton Q = true -> nc_lower Q = None -> nc_upper Q = None ->
  let gn := GaussNewton P jac_of lsolve in
  let newton := newton_chord jac_of lsolve Q in
  s_init gn fn y0 fs auxs = Ret st0 -> s_init newton fn y0 fs auxs = Ret st0' ->
  forall k, y_at gn fn y0 st0 (auxs fill0) (S k) = y_at newton fn y0 st0' (auxs fill0) k.
Proof. exact C92_gauss_newton_is_newton_pf. Qed.
Print Assumptions C92_gauss_newton_is_newton.

(** Chord's first step is Newton's, in every arithmetic and with bounds. *)
Theorem C92_chord_first_step :
  forall (N : Num) (Aux M : Type) (P Q : nc_params (N := N)) (jac : _ -> _ -> M) lsolve (fn : list N -> list N * Aux)
    y0 fs auxs st0 st0',
  nc_is_newton P = true -> nc_is_newton Q = false ->
  nc_lower P = nc_lower Q -> nc_upper P = nc_upper Q ->
  let newton := newton_chord jac lsolve P in
  let chord := newton_chord jac lsolve Q in
  s_init newton fn y0 fs auxs = Ret st0 -> s_init chord fn y0 fs auxs = Ret st0' ->
  y_at newton fn y0 st0 (auxs fill0) 1 = y_at chord fn y0 st0' (auxs fill0) 1.
Proof. exact C92_chord_first_step_pf. Qed.
Print Assumptions C92_chord_first_step.

(** GradientDescent is OptaxMinimiser(optax.sgd) delayed by the first,
    evaluating step, in every arithmetic. *)
Theorem C92_gradient_descent_is_sgd :
  forall (N : Num) (Aux : Type) (P P' : ar_tols N) (rate fmax : N) grad_of (fn : list N -> N * Aux) y0 fs auxs st0 st0',
  let gd := GradientDescent P grad_of rate in
  let sgd := OptaxMinimiser (sgd rate) P' grad_of fmax in
  s_init gd fn y0 fs auxs = Ret st0 -> s_init sgd fn y0 fs auxs = Ret st0' ->
  forall k, y_at gd fn y0 st0 (auxs fill0) (S k) = y_at sgd fn y0 st0' (auxs fill0) k.
Proof. exact C92_gradient_descent_is_sgd_pf. Qed.
Print Assumptions C92_gradient_descent_is_sgd.

(** Newton and Chord commute with affine changes of variables and with
    recombining the equations.  F is solved for x from A z0 + b, and
    G(z) = B F(A z + b) for z from z0; linear solves are exact (that of G for
    the matrix B J(A z + b) A of the chain rule).  Then x_k = A z_k + b
    throughout. *)
Theorem C92_newton_affine :
  forall (n : nat) (F : list R -> list R) (J : list R -> list (list R)) (A B : list (list R)) (b z0 : list R)
    (M : Type) (jac : (list R -> list R * unit) -> list R -> M) (lsolve : M -> list R -> list R * results)
    (P Q : nc_params (N := RN)) (D : list R -> Prop) fs auxs st0 st0',
  mat n n A -> mat n n B -> length b = n -> length z0 = n -> injective_mat n B ->
  nc_is_newton P = nc_is_newton Q ->
  nc_lower P = None -> nc_upper P = None -> nc_lower Q = None -> nc_upper Q = None ->
  let fF x := (F x, tt) in
  let fG z := (mvec B (F (affine A b z)), tt) in
  (forall x, D x -> length x = n /\ length (F x) = n /\ mat n n (J x) /\ injective_mat n (J x)) ->
  (forall x c, D x -> length c = n ->
     let d := fst (lsolve (jac fF x) c) in length d = n /\ mvec (J x) d = c) ->
  (forall z c, length z = n -> D (affine A b z) -> length c = n ->
     let e := fst (lsolve (jac fG z) c) in
     length e = n /\ mvec B (mvec (J (affine A b z)) (mvec A e)) = c) ->
  let sF := newton_chord (N := RN) jac lsolve P in
  let sG := newton_chord (N := RN) jac lsolve Q in
  s_init sF fF (affine A b z0) fs auxs = Ret st0 -> s_init sG fG z0 fs auxs = Ret st0' ->
  let x := y_at sF fF (affine A b z0) st0 (auxs fill0) in
  let z := y_at sG fG z0 st0' (auxs fill0) in
  (forall k, D (x k)) ->
  forall k, x k = affine A b (z k).
Proof. exact C92_newton_affine_pf. Qed.
Print Assumptions C92_newton_affine.

(** The law behind the coincidence holds in all three arithmetics; both solvers
    start from any point. *)
Example C92_gauss_newton_is_newton_ex :
  neg_add RN /\ neg_add XR /\ neg_add F64 /\
  let Q := mkNcParams (N := F64) (f64_ofQ 0) (f64_ofQ (1#8)) (fun _ => f64_ofQ 0) (f64_ofQ (1#100)) true true None None (f64_ofQ 0) in
  nc_is_newton Q = true /\ nc_lower Q = None /\ nc_upper Q = None.
Proof. exact C92_gauss_newton_is_newton_ex_pf. Qed.

(** x^3 + x - 1 = 0, with x = 2 z + 1 and the equation multiplied by 3. *)
Example C92_newton_affine_ex :
  let F x := match x with [a] => [a ^ 3 + a - 1]%R | _ => [] end in
  let J x := match x with [a] => [[3 * a ^ 2 + 1]]%R | _ => [] end in
  let A := [[2]]%R in let B := [[3]]%R in let b := [1]%R in
  let D (x : list R) := length x = 1 in
  let fF x := (F x, tt) in
  let fG z := (mvec B (F (affine A b z)), tt) in
  exists (jac : (list R -> list R * unit) -> list R -> R) (lsolve : R -> list R -> list R * results),
  mat 1 1 A /\ mat 1 1 B /\ injective_mat 1 B /\
  (forall x, D x -> length x = 1 /\ length (F x) = 1 /\ mat 1 1 (J x) /\ injective_mat 1 (J x)) /\
  (forall x c, D x -> length c = 1 ->
     let d := fst (lsolve (jac fF x) c) in length d = 1 /\ mvec (J x) d = c) /\
  (forall z c, length z = 1 -> D (affine A b z) -> length c = 1 ->
     let e := fst (lsolve (jac fG z) c) in
     length e = 1 /\ mvec B (mvec (J (affine A b z)) (mvec A e)) = c) /\
  forall P : nc_params (N := RN), nc_lower P = None -> nc_upper P = None ->
  forall k, D (y_at (newton_chord (N := RN) jac lsolve P) fF (affine A b [0%R])
                 (nc_st0 jac P fF (affine A b [0%R]) (fun _ => [0%R])) tt k).
Proof. exact C92_newton_affine_ex_pf. Qed.
