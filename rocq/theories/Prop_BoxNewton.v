(** Property theorems: BoxNewton.
    Statements only; each is closed by the lemma of the same name (suffix _pf)
    in the proof file.  [Example]s show concrete cases meeting the hypotheses. *)

From Coq Require Import String List Bool Arith Lia ZArith QArith Qreals Reals Lra Psatz.
From Verif Require Import Num NumFacts NumDiv Vec Results Iterate Spec_Iterate Iterate_proofs.
From Verif Require Import Spec_Vec VecFacts Spec_Lin LinFacts NewtonChord Spec_NewtonChord NumF64 NumF64_facts.
From Verif Require Import FixedPoint_proofs NewtonChord_proofs Spec_BoxNewton.
Import ListNotations.
Local Open Scope nat_scope.
From Verif Require Import BoxNewton_proofs.

(** Newton and Chord with the options lower and upper, around a root inside the bounds (bounds may be infinite or
    absent).  The conditions are only required of points inside the bounds and of y0, so the function need not be
    defined elsewhere.  Then everything said in C70 without bounds holds: every iterate is closer to the root by the
    factor q, quadratically if the linearisation error is quadratic, and the solve succeeds within K + 1 steps. *)
Theorem C113_local_convergence :
  forall (n : nat) (F : list R -> list R) (J : list R -> list (list R)) (root y0 : list R) (beta q rho L rtol atol : R)
         (jac : (list xr -> list xr * unit) -> list xr -> list (list R)) lsolve (P : nc_params (N:=XR)) fs auxs,
    let A x := J (if nc_is_newton P then x else y0) in
    let near x := length x = n /\ (Rdist_inf x root <= rho)%R /\ (inside (nc_lower P) (nc_upper P) x \/ x = y0) in
    let linear_error x := Rmax_norm (Rsub_v (F x) (mvec (A x) (Rsub_v x root))) in
    0 < n -> length root = n -> F root = zerov n -> inside (nc_lower P) (nc_upper P) root -> near y0 ->
    (forall x, near x -> length (F x) = n /\ mat n n (J x) /\ jac (liftv F) (map Fin x) = J x) ->
    (forall x c, near x -> length c = n ->
       exists d, lsolve (J x) (map Fin c) = (map Fin d, successful) /\ length d = n /\ mvec (J x) d = c) ->
    (forall x v, near x -> length v = n -> Rmax_norm v <= beta * Rmax_norm (mvec (A x) v))%R ->
    (forall x, near x -> beta * linear_error x <= q * Rdist_inf x root)%R ->
    (forall x, near x -> Rmax_norm (F x) <= L * Rdist_inf x root)%R -> (0 <= q < 1)%R -> (0 <= beta)%R -> (0 <= L)%R ->
    nc_rtol P = Fin rtol -> nc_atol P = Fin atol -> (0 <= rtol)%R -> (0 < atol)%R ->
    nc_norm P = max_norm (N:=XR) -> nc_cauchy P = true ->
    let s := newton_chord jac lsolve P in
    forall st0, s_init s (liftv F) (map Fin y0) fs auxs = Ret st0 ->
    exists x : nat -> list R,
      (forall k, y_at s (liftv F) (map Fin y0) st0 (auxs fill0) k = map Fin (x k)) /\
      (forall k, Rdist_inf (x (S k)) root <= q * Rdist_inf (x k) root)%R /\
      (forall gamma, (forall z, near z -> beta * linear_error z <= gamma * Rdist_inf z root ^ 2)%R ->
         forall k, Rdist_inf (x (S k)) root <= gamma * Rdist_inf (x k) root ^ 2)%R /\
      forall K, (2 * rho * q ^ K < atol)%R -> (L * rho * q ^ K < atol)%R ->
      exists k, 1 <= k <= S K /\ (Rdist_inf (x k) root <= q ^ k * rho)%R /\
        ((1 - q) * Rdist_inf (x k) root <= q * Rdist_inf (x (pred k)) (x k))%R /\
        forall fuel ms throw, k < fuel -> (forall m, ms = Some m -> k <= m) ->
          exists sol, iterative_solve vallfinite s (liftv F) fuel ms throw (map Fin y0) fs auxs = Ret sol /\
            result sol = successful /\ value sol = map Fin (x k).
Proof. exact C113_local_convergence_pf. Qed.
Print Assumptions C113_local_convergence.

(** Bounds around the only root of a smooth, strictly increasing function do not make Newton converge: for atan on
    [-10, 10] from 10 the steps are clipped to -10, 10, -10, ... for ever, with either termination criterion, and
    every budget is used up. *)
Theorem C113_bounds_do_not_globalise :
  forall cauchy : bool,
    let s := newton_chord (fun _ v => atan_J (map toR v)) sq1_solve (atan_P cauchy) in
    (forall x, derivable_pt_lim atan x (nth 0 (nth 0 (atan_J [x]) []) 0%R) /\ (0 < nth 0 (nth 0 (atan_J [x]) []) 0)%R) /\
    inside (nc_lower (atan_P cauchy)) (nc_upper (atan_P cauchy)) [0%R] /\ atan_F [0%R] = [0%R] /\
    forall st0, s_init s (liftv atan_F) [Fin 10] (fun _ => [PInf]) (fun _ => tt) = Ret st0 ->
      (forall k, y_at s (liftv atan_F) [Fin 10] st0 tt k = [Fin (if Nat.even k then 10 else -10)]) /\
      (forall m fuel, m < fuel -> exists sol, iterative_solve vallfinite s (liftv atan_F) fuel (Some m) false [Fin 10] (fun _ => [PInf]) (fun _ => tt) = Ret sol /\
         result sol = nonlinear_max_steps_reached).
Proof. exact C113_bounds_do_not_globalise_pf. Qed.
Print Assumptions C113_bounds_do_not_globalise.

Example C113_local_convergence_ex :
  let s := newton_chord (fun _ v => sq1_J (map toR v)) sq1_solve capped_P in
  forall st0, s_init s (liftv sq1) [Fin (4/5)] (fun _ => [PInf]) (fun _ => tt) = Ret st0 ->
  exists x : nat -> list R,
    (forall k, y_at s (liftv sq1) [Fin (4/5)] st0 tt k = map Fin (x k)) /\ x 1 = [(101/100)%R] /\
    (forall k, Rdist_inf (x (S k)) [1] <= 1 / 8 * Rdist_inf (x k) [1])%R /\
    exists k, 1 <= k <= 4 /\ forall fuel, k < fuel ->
      exists sol, iterative_solve vallfinite s (liftv sq1) fuel None true [Fin (4/5)] (fun _ => [PInf]) (fun _ => tt) = Ret sol /\
        result sol = successful /\ value sol = map Fin (x k).
Proof. exact C113_local_convergence_ex_pf. Qed.
