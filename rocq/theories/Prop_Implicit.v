(** Property theorems: Implicit.
    Statements only; each is closed by the lemma of the same name (suffix _pf)
    in the proof file.  [Example]s show concrete cases meeting the hypotheses. *)

From Coq Require Import List Bool QArith Qreals Reals Lra Lia.
From Coquelicot Require Import Coquelicot.
From Verif Require Import Num NumFacts Vec Results Iterate Search RootFind Implicit Spec_Vec Spec_Lin
  VecFacts LinFacts Spec_Implicit ImplicitFacts.
Import ListNotations.
Local Open Scope R_scope.
From Verif Require Import Implicit_proofs.

(** C51: root_find, with a root finder or a least-squares solver *)
Theorem C51_root_find :
  forall jvp jacT grad lsolve (Aux : Type) (s : any_solver (N:=RN))
    (fn : list R -> list R -> list R * Aux) n k y p0 A Ainv B,
  jvp_correct jvp -> solves_invertible n lsolve ->
  (forall m norm atol, s <> AMinimiser m norm atol) ->
  branch n k y p0 ->
  near k p0 (fun p => fst (fn (y p) p) = zerov n) ->
  jacobian2_at n k n (fun y p => fst (fn y p)) (y p0) p0 A B ->
  mat n n Ainv -> inverses n A Ainv ->
  exists J, jacobian_at k n y p0 J /\
    forall (rest : list R) (t : list (option R)), length t = (k + length rest)%nat ->
      value_tangent (N:=RN) jvp jacT lsolve k (root_find_rewrite (N:=RN) grad s fn) (y p0) (p0 ++ rest) t
        = Ret (mvec J (firstn k (filled t))).
Proof. exact C51_root_find_pf. Qed.
Print Assumptions C51_root_find.

(** C51: fixed_point; A and B are the derivatives of fn, and C is A - I *)
Theorem C51_fixed_point :
  forall jvp jacT grad lsolve (Aux : Type) (s : any_solver (N:=RN))
    (fn : list R -> list R -> list R * Aux) n k y p0 A B C Cinv,
  jvp_correct jvp -> solves_invertible n lsolve ->
  (forall m norm atol, s <> AMinimiser m norm atol) ->
  branch n k y p0 ->
  near k p0 (fun p => fst (fn (y p) p) = y p) ->
  jacobian2_at n k n (fun y p => fst (fn y p)) (y p0) p0 A B ->
  mat n n C -> (forall x, length x = n -> mvec C x = Rsub_v (mvec A x) x) ->
  mat n n Cinv -> inverses n C Cinv ->
  exists J, jacobian_at k n y p0 J /\
    forall (rest : list R) (t : list (option R)), length t = (k + length rest)%nat ->
      value_tangent (N:=RN) jvp jacT lsolve k (fixed_point_rewrite (N:=RN) grad s fn) (y p0) (p0 ++ rest) t
        = Ret (mvec J (firstn k (filled t))).
Proof. exact C51_fixed_point_pf. Qed.
Print Assumptions C51_fixed_point.

(** C51: minimise; G is the gradient of fn in its first argument, H and B are
    the derivatives of G *)
Theorem C51_minimise :
  forall jvp jacT grad lsolve (Aux : Type) (fn : list R -> list R -> R * Aux) G n k y p0 H Hinv B,
  jvp_correct jvp -> grad_correct grad -> solves_invertible n lsolve ->
  branch n k y p0 ->
  near k p0 (fun p => local_min n (fun x => fst (fn x p)) (y p)) ->
  (forall y p, length y = n -> length p = k -> gradient_at n (fun x => fst (fn x p)) y (G y p)) ->
  jacobian2_at n k n G (y p0) p0 H B ->
  mat n n Hinv -> inverses n H Hinv ->
  exists J, jacobian_at k n y p0 J /\
    forall (rest : list R) (t : list (option R)), length t = (k + length rest)%nat ->
      value_tangent (N:=RN) jvp jacT lsolve k (rewrite_min (N:=RN) grad fn) (y p0) (p0 ++ rest) t
        = Ret (mvec J (firstn k (filled t))).
Proof. exact C51_minimise_pf. Qed.
Print Assumptions C51_minimise.

(** C51: least_squares, with any solver *)
Theorem C51_least_squares :
  forall jvp jacT grad lsolve (Aux : Type) (s : any_solver (N:=RN))
    (fn : list R -> list R -> list R * Aux) G n k y p0 H Hinv B,
  jvp_correct jvp -> grad_correct grad -> solves_invertible n lsolve ->
  branch n k y p0 ->
  near k p0 (fun p => local_min n (fun x => 1/2 * Rdot (fst (fn x p)) (fst (fn x p))) (y p)) ->
  (forall y p, length y = n -> length p = k ->
     gradient_at n (fun x => 1/2 * Rdot (fst (fn x p)) (fst (fn x p))) y (G y p)) ->
  jacobian2_at n k n G (y p0) p0 H B ->
  mat n n Hinv -> inverses n H Hinv ->
  exists J, jacobian_at k n y p0 J /\
    forall (rest : list R) (t : list (option R)), length t = (k + length rest)%nat ->
      value_tangent (N:=RN) jvp jacT lsolve k (least_squares_rewrite (N:=RN) grad s fn) (y p0) (p0 ++ rest) t
        = Ret (mvec J (firstn k (filled t))).
Proof. exact C51_least_squares_pf. Qed.
Print Assumptions C51_least_squares.

(** C51: the root of y^2 = p at p = 4 is 2, and its derivative 1/4, whatever the
    starting point (here 7) and its tangent (5) *)
Theorem C51_root_find_ex : forall r jacT,
  jacobian_at 1 1 (fun p => [sqrt (hd 0 p)]) [4] [[1/4]] /\
  value_tangent (N:=RN) jvp_real jacT divide 1
    (root_find_rewrite (N:=RN) grad_real (ARootFinder r)
       (fun y p => ([hd 0 y * hd 0 y - hd 0 p], tt))) [2] [4; 7] [Some 1; Some 5] = Ret [1/4].
Proof. exact C51_root_find_ex_pf. Qed.
Print Assumptions C51_root_find_ex.

(** C51: y = y/2 + p has the fixed point 2p, with derivative 2; the starting
    point (100) is not differentiated *)
Theorem C51_fixed_point_ex : forall s jacT,
  value_tangent (N:=RN) jvp_real jacT divide 1
    (fixed_point_rewrite (N:=RN) grad_real (AFixedPoint s)
       (fun y p => ([hd 0 y / 2 + hd 0 p], tt))) [6] [3; 100] [Some 1; None] = Ret [2].
Proof. exact C51_fixed_point_ex_pf. Qed.
Print Assumptions C51_fixed_point_ex.

(** C51: (y - p^2)^2 / 2 is least at y = p^2, with derivative 2p (here p = 3) *)
Theorem C51_minimise_ex : forall jacT,
  value_tangent (N:=RN) jvp_real jacT divide 1
    (rewrite_min (N:=RN) grad_real
       (fun y p => (1/2 * ((hd 0 y - hd 0 p * hd 0 p) * (hd 0 y - hd 0 p * hd 0 p) + 0), tt)))
    [9] [3; 100] [Some 1; Some 20] = Ret [6].
Proof. exact C51_minimise_ex_pf. Qed.
Print Assumptions C51_minimise_ex.

(** C51: least squares with the residuals y - p^2 and 1 *)
Theorem C51_least_squares_ex : forall s jacT,
  value_tangent (N:=RN) jvp_real jacT divide 1
    (least_squares_rewrite (N:=RN) grad_real s (fun y p => ([hd 0 y - hd 0 p * hd 0 p; 1], tt)))
    [9] [3; 100] [Some 1; Some 20] = Ret [6].
Proof. exact C51_least_squares_ex_pf. Qed.
Print Assumptions C51_least_squares_ex.

(** C51 refuted for root_find with a minimiser: there the derivative of the norm
    of fn is rewritten.  For fn(y, p) = y - p, whose root is p, the tangent
    computed at any other point is the same in every direction, whatever the
    linear solver does. *)
Theorem C51_root_find_minimiser_refuted :
  forall jvp jacT grad lsolve (m : PolySolver (list RN) RN) (atol p : R),
  jvp_correct jvp -> grad_correct grad ->
  exists (fn : list R -> list R -> list R * unit) (root : list R -> list R),
    (forall q, length q = 1%nat -> fst (fn (root q) q) = [0]) /\
    jacobian_at 1 1 root [p] [[1]] /\
    forall value, value <> p ->
      value_tangent (N:=RN) jvp jacT lsolve 1
        (root_find_rewrite (N:=RN) grad (AMinimiser m (max_norm (N:=RN)) atol) fn) [value] [p] [Some 1] =
      value_tangent (N:=RN) jvp jacT lsolve 1
        (root_find_rewrite (N:=RN) grad (AMinimiser m (max_norm (N:=RN)) atol) fn) [value] [p] [Some 0].
Proof. exact C51_root_find_minimiser_refuted_pf. Qed.
Print Assumptions C51_root_find_minimiser_refuted.
