(** Property theorems: Nonexpansive.
    Statements only; each is closed by the lemma of the same name (suffix _pf)
    in the proof file.  [Example]s show concrete cases meeting the hypotheses. *)

From Coq Require Import String List Bool Arith Lia ZArith QArith Qreals Reals Lra Psatz ConstructiveEpsilon.
From Verif Require Import Num NumFacts NumDiv Vec Results Iterate Spec_Iterate Iterate_proofs.
From Verif Require Import Spec_Vec VecFacts Spec_Lin LinFacts FixedPoint FixedPoint_proofs Spec_Convex Spec_Nonexpansive.
Import ListNotations.
Local Open Scope R_scope.
From Verif Require Import Nonexpansive_proofs.

(** Damped fixed-point iteration of a map that does not increase Euclidean distances and has a fixed point p.
    Every step comes no further from any fixed point; the residual |f(y) - y| never grows and after k steps its
    square is at most |y0 - p|^2 / ((k+1) damp (1 - damp)); and the iterates converge to some fixed point. *)
Theorem C114_converges :
  forall (n : nat) (f : list R -> list R) (rtol atol : xr) (damp : R) norm (y0 p : list R) fs auxs st0,
    nonexpansive n f -> 0 < damp < 1 -> length y0 = n -> length p = n -> f p = p ->
    let s := fixed_point_iteration (N:=XR) rtol atol (Fin damp) norm in
    s_init s (liftv f) (map Fin y0) fs auxs = Ret st0 ->
    exists x : nat -> list R,
      (forall k, y_at s (liftv f) (map Fin y0) st0 (auxs fill0) k = map Fin (x k)) /\
      (forall k q, length q = n -> f q = q -> dist2 (x (S k)) q <= dist2 (x k) q) /\
      (forall k, dist2 (f (x (S k))) (x (S k)) <= dist2 (f (x k)) (x k)) /\
      (forall k, INR (S k) * (damp * (1 - damp)) * dist2 (f (x k)) (x k) <= dist2 y0 p) /\
      exists z, length z = n /\ f z = z /\ Un_cv (fun k => dist2 (x k) z) 0.
Proof. exact C114_converges_pf. Qed.
Print Assumptions C114_converges.

(** The solve therefore succeeds, within N steps once N damp atol^2 exceeds (1 - damp) |y0 - p|^2. *)
Theorem C114_terminates :
  forall (n : nat) (f : list R -> list R) (rtol atol damp : R) (y0 p : list R) fs auxs (N : nat),
    nonexpansive n f -> 0 < damp < 1 -> length y0 = n -> length p = n -> f p = p -> 0 < atol -> 0 <= rtol ->
    (1 - damp) * dist2 y0 p < INR N * damp * atol ^ 2 ->
    let s := fixed_point_iteration (N:=XR) (Fin rtol) (Fin atol) (Fin damp) max_norm in
    exists k, (k <= N)%nat /\ forall fuel ms throw, (k < fuel)%nat -> (forall m, ms = Some m -> (k <= m)%nat) ->
      exists sol, iterative_solve vallfinite s (liftv f) fuel ms throw (map Fin y0) fs auxs = Ret sol /\ result sol = successful /\
        exists v, value sol = map Fin v /\ dist2 v p <= dist2 y0 p /\ dist2 (f v) v <= dist2 (f y0) y0.
Proof. exact C114_terminates_pf. Qed.
Print Assumptions C114_terminates.

(** Without damping (damp = 0, the default) this fails: the map y -> -y keeps all distances and has the fixed point
    0, but from 1 the iterates are 1, -1, 1, ... and every budget is used up, for all tolerances with rtol + atol <= 2. *)
Theorem C114_undamped_cycles :
  let f (y : list R) := map Ropp y in
  (forall n, nonexpansive n f) /\ f [0] = [0] /\
  forall rtol atol, 0 <= rtol -> 0 < atol -> rtol + atol <= 2 ->
  let s := fixed_point_iteration (N:=XR) (Fin rtol) (Fin atol) (Fin 0) max_norm in
  forall fs auxs m fuel, (m < fuel)%nat ->
    exists sol, iterative_solve vallfinite s (liftv f) fuel (Some m) false [Fin 1] fs auxs = Ret sol /\
      result sol = nonlinear_max_steps_reached.
Proof. exact C114_undamped_cycles_pf. Qed.
Print Assumptions C114_undamped_cycles.

(** A quarter turn of the plane keeps all distances; undamped it turns for ever, with damp = 1/2 it converges. *)
Example C114_converges_ex :
  let turn (y : list R) := match y with [a; b] => [- b; a] | _ => y end in
  forall rtol atol norm fs auxs st0,
    let s := fixed_point_iteration (N:=XR) rtol atol (Fin (1/2)) norm in
    s_init s (liftv turn) [Fin 3; Fin 4] fs auxs = Ret st0 ->
    exists x : nat -> list R, (forall k, y_at s (liftv turn) [Fin 3; Fin 4] st0 (auxs fill0) k = map Fin (x k)) /\
      (forall k, INR (S k) * (1/4) * dist2 (turn (x k)) (x k) <= 25) /\ Un_cv (fun k => dist2 (x k) [0; 0]) 0.
Proof. exact C114_converges_ex_pf. Qed.

Example C114_terminates_ex :
  let turn (y : list R) := match y with [a; b] => [- b; a] | _ => y end in
  let s := fixed_point_iteration (N:=XR) (Fin 0) (Fin 1) (Fin (1/2)) max_norm in
  exists k, (k <= 26)%nat /\ forall fuel, (k < fuel)%nat ->
    exists sol, iterative_solve vallfinite s (liftv turn) fuel None true [Fin 3; Fin 4] (fun _ => []) (fun _ => tt) = Ret sol /\ result sol = successful.
Proof. exact C114_terminates_ex_pf. Qed.
