(** Property theorems: Kanto.
    Statements only; each is closed by the lemma of the same name (suffix _pf)
    in the proof file.  [Example]s show concrete cases meeting the hypotheses. *)

From Coq Require Import String List Bool Arith Lia ZArith QArith Qreals Reals Lra Psatz.
From Verif Require Import Num NumFacts NumDiv Vec Results Iterate Spec_Iterate Iterate_proofs.
From Verif Require Import Spec_Vec VecFacts Spec_Lin LinFacts NewtonChord Spec_NewtonChord NumF64 NumF64_facts.
From Verif Require Import FixedPoint_proofs NewtonChord_proofs ImplicitFacts.
Import ListNotations.
Local Open Scope nat_scope.
From Verif Require Import Kanto_proofs.

(** Newton's method in exact arithmetic, nothing assumed about a root.  Suppose that at the start the
    inverse Jacobian is bounded by beta and the Newton step has length at most eta, that the Jacobian has
    Lipschitz constant L on the ball of radius 2 eta around the start, and that 2 beta L eta <= 1.  Then the
    ball contains exactly one root, every iterate stays in the ball, the k-th iterate is within
    2 eta / 2^k of that root, and once eta / 2^K (and C eta / 2^K for a bound C on the Jacobians of the
    ball) is below atol the solve succeeds after at most K + 1 steps. *)
Theorem C107_kantorovich :
  forall (n : nat) (F : list R -> list R) (J : list R -> list (list R)) (y0 : list R) (beta eta L rtol atol : R)
         (jac : (list xr -> list xr * unit) -> list xr -> list (list R)) lsolve (P : nc_params (N:=XR)) fs auxs,
    let ball x := length x = n /\ (Rdist_inf x y0 <= 2 * eta)%R in
    0 < n -> length y0 = n -> (0 < beta)%R -> (0 <= eta)%R -> (0 <= L)%R ->
    (forall x, ball x -> length (F x) = n /\ mat n n (J x) /\ jac (liftv F) (map Fin x) = J x) ->
    (forall x c, ball x -> injective_mat n (J x) -> length c = n ->
       exists d, lsolve (J x) (map Fin c) = (map Fin d, successful) /\ length d = n /\ mvec (J x) d = c) ->
    (forall v, length v = n -> Rmax_norm v <= beta * Rmax_norm (mvec (J y0) v))%R ->
    (forall d, length d = n -> mvec (J y0) d = F y0 -> (Rmax_norm d <= eta)%R) ->
    (forall x z v, ball x -> ball z -> length v = n ->
       Rmax_norm (Rsub_v (mvec (J x) v) (mvec (J z) v)) <= L * Rdist_inf x z * Rmax_norm v)%R ->
    (forall x z, ball x -> ball z ->
       Rmax_norm (Rsub_v (Rsub_v (F z) (F x)) (mvec (J x) (Rsub_v z x))) <= L / 2 * Rdist_inf z x ^ 2)%R ->
    (2 * (beta * L * eta) <= 1)%R ->
    nc_rtol P = Fin rtol -> nc_atol P = Fin atol -> (0 <= rtol)%R -> (0 < atol)%R ->
    nc_norm P = max_norm (N:=XR) -> nc_lower P = None -> nc_upper P = None -> nc_cauchy P = true -> nc_is_newton P = true ->
    let s := newton_chord jac lsolve P in
    forall st0, s_init s (liftv F) (map Fin y0) fs auxs = Ret st0 ->
    exists (x : nat -> list R) (root : list R),
      (forall k, y_at s (liftv F) (map Fin y0) st0 (auxs fill0) k = map Fin (x k)) /\
      ball root /\ F root = zerov n /\ (forall z, ball z -> F z = zerov n -> z = root) /\
      (forall k, ball (x k) /\ (Rdist_inf (x k) root <= 2 * eta / 2 ^ k)%R) /\
      forall C K,
        (forall z v, ball z -> length v = n -> (Rmax_norm (mvec (J z) v) <= C * Rmax_norm v)%R) ->
        (eta / 2 ^ K < atol)%R -> (C * (eta / 2 ^ K) < atol)%R ->
        exists k, 1 <= k <= S K /\
        forall fuel ms throw, k < fuel -> (forall m, ms = Some m -> k <= m) ->
          exists sol, iterative_solve vallfinite s (liftv F) fuel ms throw (map Fin y0) fs auxs = Ret sol /\
            result sol = successful /\ value sol = map Fin (x k).
Proof. exact C107_kantorovich_pf. Qed.
Print Assumptions C107_kantorovich.

Example C107_kantorovich_ex :
  let s := newton_chord (fun _ v => sq1_J (map toR v)) sq1_solve (sq1_P true) in
  forall st0, s_init s (liftv sq2) [Fin (3/2)] (fun _ => [PInf]) (fun _ => tt) = Ret st0 ->
  exists x : nat -> list R,
    (forall k, y_at s (liftv sq2) [Fin (3/2)] st0 tt k = map Fin (x k)) /\
    (forall k, Rdist_inf (x k) [sqrt 2] <= 1 / 6 / 2 ^ k)%R /\
    exists k, 1 <= k <= 10 /\ forall fuel, k < fuel ->
      exists sol, iterative_solve vallfinite s (liftv sq2) fuel None true [Fin (3/2)] (fun _ => [PInf]) (fun _ => tt) = Ret sol /\
        result sol = successful /\ value sol = map Fin (x k).
Proof. exact C107_kantorovich_ex_pf. Qed.

(** Chord under the same conditions, strictly: with q = 2 beta L eta < 1 it converges to the one root of the
    ball at the rate q, although it only ever uses the Jacobian of the start, and the solve succeeds. *)
Theorem C107_chord :
  forall (n : nat) (F : list R -> list R) (J : list R -> list (list R)) (y0 : list R) (beta eta L rtol atol : R)
         (jac : (list xr -> list xr * unit) -> list xr -> list (list R)) lsolve (P : nc_params (N:=XR)) fs auxs,
    let ball x := length x = n /\ (Rdist_inf x y0 <= 2 * eta)%R in
    let q := (2 * (beta * L * eta))%R in
    0 < n -> length y0 = n -> (0 < beta)%R -> (0 <= eta)%R -> (0 <= L)%R ->
    (forall x, ball x -> length (F x) = n /\ mat n n (J x)) ->
    jac (liftv F) (map Fin y0) = J y0 ->
    (forall c, length c = n ->
       exists d, lsolve (J y0) (map Fin c) = (map Fin d, successful) /\ length d = n /\ mvec (J y0) d = c) ->
    (forall v, length v = n -> Rmax_norm v <= beta * Rmax_norm (mvec (J y0) v))%R ->
    (forall d, length d = n -> mvec (J y0) d = F y0 -> (Rmax_norm d <= eta)%R) ->
    (forall x z v, ball x -> ball z -> length v = n ->
       Rmax_norm (Rsub_v (mvec (J x) v) (mvec (J z) v)) <= L * Rdist_inf x z * Rmax_norm v)%R ->
    (forall x z, ball x -> ball z ->
       Rmax_norm (Rsub_v (Rsub_v (F z) (F x)) (mvec (J x) (Rsub_v z x))) <= L / 2 * Rdist_inf z x ^ 2)%R ->
    (q < 1)%R ->
    nc_rtol P = Fin rtol -> nc_atol P = Fin atol -> (0 <= rtol)%R -> (0 < atol)%R ->
    nc_norm P = max_norm (N:=XR) -> nc_lower P = None -> nc_upper P = None -> nc_cauchy P = true -> nc_is_newton P = false ->
    let s := newton_chord jac lsolve P in
    forall st0, s_init s (liftv F) (map Fin y0) fs auxs = Ret st0 ->
    exists (x : nat -> list R) (root : list R),
      (forall k, y_at s (liftv F) (map Fin y0) st0 (auxs fill0) k = map Fin (x k)) /\
      ball root /\ F root = zerov n /\ (forall z, ball z -> F z = zerov n -> z = root) /\
      (forall k, ball (x k) /\ (Rdist_inf (x k) root <= eta / (1 - q) * q ^ k)%R) /\
      forall C K,
        (forall v, length v = n -> (Rmax_norm (mvec (J y0) v) <= C * Rmax_norm v)%R) ->
        (eta * q ^ K < atol)%R -> (C * (eta * q ^ K) < atol)%R ->
        exists k, 1 <= k <= S K /\
        forall fuel ms throw, k < fuel -> (forall m, ms = Some m -> k <= m) ->
          exists sol, iterative_solve vallfinite s (liftv F) fuel ms throw (map Fin y0) fs auxs = Ret sol /\
            result sol = successful /\ value sol = map Fin (x k).
Proof. exact C107_chord_pf. Qed.
Print Assumptions C107_chord.

(** x^2 = 2 again: Chord from 3/2 has q = 1/9. *)
Example C107_chord_ex :
  let s := newton_chord (fun _ v => sq1_J (map toR v)) sq1_solve (sq1_P false) in
  forall st0, s_init s (liftv sq2) [Fin (3/2)] (fun _ => [PInf]) (fun _ => tt) = Ret st0 ->
  exists x : nat -> list R,
    (forall k, y_at s (liftv sq2) [Fin (3/2)] st0 tt k = map Fin (x k)) /\
    (forall k, Rdist_inf (x k) [sqrt 2] <= 3 / 32 * (1 / 9) ^ k)%R /\
    exists k, 1 <= k <= 4 /\ forall fuel, k < fuel ->
      exists sol, iterative_solve vallfinite s (liftv sq2) fuel None true [Fin (3/2)] (fun _ => [PInf]) (fun _ => tt) = Ret sol /\
        result sol = successful /\ value sol = map Fin (x k).
Proof. exact C107_chord_ex_pf. Qed.
