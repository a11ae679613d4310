(** Property theorems: Inexact.
    Statements only; each is closed by the lemma of the same name (suffix _pf)
    in the proof file.  [Example]s show concrete cases meeting the hypotheses. *)

From Coq Require Import String List Bool Arith Lia ZArith QArith Qreals Reals Lra Psatz.
From Verif Require Import Num NumFacts NumDiv Vec Results Iterate Spec_Iterate Iterate_proofs.
From Verif Require Import Spec_Vec VecFacts Spec_Lin LinFacts NewtonChord Spec_NewtonChord NumF64 NumF64_facts.
From Verif Require Import FixedPoint_proofs NewtonChord_proofs ImplicitFacts Kanto_proofs.
Import ListNotations.
Local Open Scope nat_scope.
From Verif Require Import Inexact_proofs.

(** Newton and Chord when the linear solver is iterative and leaves a relative residual of at most eta < 1.
    [A x] is the matrix in use at x (the Jacobian at x for Newton, at the start for Chord).  If it is boundedly
    invertible on a ball around the start, accurate there to kappa, t = eta + kappa beta (1 + eta) < 1 and the
    first residual is small enough for the radius of the ball, then the ball contains exactly one root, the
    residual falls by the factor t in every step and the iterates converge to the root at that rate.  A linear
    residual of order |F|^2 keeps the quadratic convergence of Newton.  Once t^K is small compared with atol the
    solve succeeds after at most K + 1 steps. *)
Theorem C110_inexact :
  forall (n : nat) (F : list R -> list R) (J : list R -> list (list R)) (y0 : list R) (beta kappa eta r rtol atol : R)
         (jac : (list xr -> list xr * unit) -> list xr -> list (list R)) lsolve (P : nc_params (N:=XR)) fs auxs,
    let A x := J (if nc_is_newton P then x else y0) in
    let ball x := length x = n /\ (Rdist_inf x y0 <= r)%R in
    let linear_error x z := Rmax_norm (Rsub_v (Rsub_v (F z) (F x)) (mvec (A x) (Rsub_v z x))) in
    let B := (beta * (1 + eta))%R in
    let t := (eta + kappa * B)%R in
    0 < n -> length y0 = n -> (0 < beta)%R -> (0 <= kappa)%R -> (0 <= eta)%R ->
    (forall x, ball x -> length (F x) = n /\ mat n n (J x) /\ jac (liftv F) (map Fin x) = J x) ->
    (forall x, ball x -> exists d, lsolve (A x) (map Fin (F x)) = (map Fin d, successful) /\ length d = n /\
       (Rmax_norm (Rsub_v (mvec (A x) d) (F x)) <= eta * Rmax_norm (F x))%R) ->
    (forall x v, ball x -> length v = n -> Rmax_norm v <= beta * Rmax_norm (mvec (A x) v))%R ->
    (forall x z, ball x -> ball z -> (linear_error x z <= kappa * Rdist_inf z x)%R) ->
    (t < 1)%R -> (B * Rmax_norm (F y0) <= (1 - t) * r)%R ->
    nc_rtol P = Fin rtol -> nc_atol P = Fin atol -> (0 <= rtol)%R -> (0 < atol)%R ->
    nc_norm P = max_norm (N:=XR) -> nc_lower P = None -> nc_upper P = None -> nc_cauchy P = true ->
    let s := newton_chord jac lsolve P in
    forall st0, s_init s (liftv F) (map Fin y0) fs auxs = Ret st0 ->
    exists (x : nat -> list R) (root : list R),
      (forall k, y_at s (liftv F) (map Fin y0) st0 (auxs fill0) k = map Fin (x k)) /\
      ball root /\ F root = zerov n /\ (forall z, ball z -> F z = zerov n -> z = root) /\
      (forall k, ball (x k) /\ (Rmax_norm (F (x (S k))) <= t * Rmax_norm (F (x k)))%R /\
         (Rdist_inf (x k) root <= B * Rmax_norm (F y0) / (1 - t) * t ^ k)%R) /\
      (forall gamma theta, (0 <= gamma)%R ->
         (forall z z', ball z -> ball z' -> (linear_error z z' <= gamma * Rdist_inf z' z ^ 2)%R) ->
         (forall z d, ball z -> lsolve (A z) (map Fin (F z)) = (map Fin d, successful) ->
            (Rmax_norm (Rsub_v (mvec (A z) d) (F z)) <= theta * Rmax_norm (F z) ^ 2)%R) ->
         forall k, (Rmax_norm (F (x (S k))) <= (theta + gamma * B ^ 2) * Rmax_norm (F (x k)) ^ 2)%R) /\
      forall K,
        (B * Rmax_norm (F y0) * t ^ K < atol)%R -> (Rmax_norm (F y0) * t ^ K < atol)%R ->
        exists k, 1 <= k <= S K /\
        forall fuel ms throw, k < fuel -> (forall m, ms = Some m -> k <= m) ->
          exists sol, iterative_solve vallfinite s (liftv F) fuel ms throw (map Fin y0) fs auxs = Ret sol /\
            result sol = successful /\ value sol = map Fin (x k).
Proof. exact C110_inexact_pf. Qed.
Print Assumptions C110_inexact.

Example C110_inexact_ex : forall newton,
  let s := newton_chord (fun _ v => sq1_J (map toR v)) lazy_solve (sq1_P newton) in
  forall st0, s_init s (liftv sq2) [Fin (3/2)] (fun _ => [PInf]) (fun _ => tt) = Ret st0 ->
  exists x : nat -> list R,
    (forall k, y_at s (liftv sq2) [Fin (3/2)] st0 tt k = map Fin (x k)) /\
    (forall k, Rdist_inf (x k) [sqrt 2] <= 11 / 28 * (13 / 20) ^ k)%R /\
    exists k, 1 <= k <= 14 /\ forall fuel, k < fuel ->
      exists sol, iterative_solve vallfinite s (liftv sq2) fuel None true [Fin (3/2)] (fun _ => [PInf]) (fun _ => tt) = Ret sol /\
        result sol = successful /\ value sol = map Fin (x k).
Proof. exact C110_inexact_ex_pf. Qed.
