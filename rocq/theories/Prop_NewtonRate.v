(** Property theorems: NewtonRate.
    Statements only; each is closed by the lemma of the same name (suffix _pf)
    in the proof file.  [Example]s show concrete cases meeting the hypotheses. *)

From Coq Require Import String List Bool Arith Lia ZArith QArith Qreals Reals Lra Psatz.
From Verif Require Import Num NumFacts NumDiv Vec Results Iterate Spec_Iterate Iterate_proofs.
From Verif Require Import Spec_Vec VecFacts Spec_Lin LinFacts NewtonChord Spec_NewtonChord NumF64 NumF64_facts.
From Verif Require Import FixedPoint_proofs NewtonChord_proofs.
Import ListNotations.
Local Open Scope nat_scope.
From Verif Require Import NewtonRate_proofs.

(** The verdict with cauchy_termination=False, in any arithmetic: none before the second step; after
    step number j+2, with a successful linear solve, the solver stops exactly when the step is tiny,
    or the ratio of successive relative step sizes is not finite or exceeds 2, or the predicted
    remaining error size * rate / (1 - rate) is positive and below kappa; and it reports success
    unless the step is not tiny and the ratio is bad. *)
Theorem C90_verdict :
  forall (N : Num) (Aux M : Type) jac lsolve (P : nc_params (N:=N))
         (fn : list N -> list N * Aux) y0 fs auxs st0 j,
    let s := newton_chord (M:=M) jac lsolve P in
    let y := y_at s fn y0 st0 (auxs fill0) in
    let lin k := lin_sol jac lsolve (nc_is_newton P) fn y0 (y k) in
    let size k := rel_size (nc_norm P) (nc_rtol P) (nc_atol P)
                    (match nc_lower P, nc_upper P with
                     | None, None => fst (lin k)
                     | _, _ => vsub (y k) (y (S k))
                     end) (y (S k)) in
    s_init s fn y0 fs auxs = Ret st0 -> nc_cauchy P = false ->
    says_terminate s fn y0 st0 (auxs fill0) 0 = false /\
    (snd (lin 0) = successful -> says_terminate s fn y0 st0 (auxs fill0) 1 = false) /\
    (snd (lin (S j)) = successful ->
      let rate := ndiv (size (S j)) (size j) in
      let rest := ndiv (nmul (size (S j)) rate) (nsub (nofQ 1) rate) in
      let tiny := nltb (size (S j)) (nc_resolution P) = true in
      let bad := nisfin rate = false \/ nltb (nofQ 2) rate = true in
      let done := nltb (nofQ 0) rest = true /\ nltb rest (nc_kappa P) = true in
      (says_terminate s fn y0 st0 (auxs fill0) (S (S j)) = true <-> tiny \/ bad \/ done) /\
      (says_result s fn y0 st0 (auxs fill0) (S (S j)) = successful <-> tiny \/ ~ bad)).
Proof. exact C90_verdict_pf. Qed.
Print Assumptions C90_verdict.

(** Newton or Chord with cauchy_termination=False in exact arithmetic, in the setting of C70 (started
    within rho of a root, the matrices in use boundedly invertible and accurate to q near the root).
    If theta, the factor by which relative step sizes shrink, is below 1, the solve never reports
    divergence; it succeeds within K + 2 steps once 2 rho q^(K+1) / atol * theta / (1 - theta) is
    below kappa, and the value returned after k steps is within q^k rho of the root, and within
    q / (1 - q) times the length of the last step. *)
Theorem C90_local_convergence :
  forall (n : nat) (F : list R -> list R) (J : list R -> list (list R)) (root y0 : list R) (beta q rho B rtol atol kappa resolution : R)
         (jac : (list xr -> list xr * unit) -> list xr -> list (list R)) lsolve (P : nc_params (N:=XR)) fs auxs,
    let A x := J (if nc_is_newton P then x else y0) in
    let near x := length x = n /\ (Rdist_inf x root <= rho)%R in
    let linear_error x := Rmax_norm (Rsub_v (F x) (mvec (A x) (Rsub_v x root))) in
    length root = n -> F root = zerov n -> near y0 ->
    (forall x, near x -> length (F x) = n /\ mat n n (J x) /\ jac (liftv F) (map Fin x) = J x) ->
    (forall x c, near x -> length c = n ->
       exists d, lsolve (J x) (map Fin c) = (map Fin d, successful) /\ length d = n /\ mvec (J x) d = c) ->
    (forall x v, near x -> length v = n -> Rmax_norm v <= beta * Rmax_norm (mvec (A x) v))%R ->
    (forall x, near x -> beta * linear_error x <= q * Rdist_inf x root)%R ->
    (forall x, near x -> Rmax_norm x <= B)%R -> (0 <= q < 1)%R -> (0 <= beta)%R ->
    nc_rtol P = Fin rtol -> nc_atol P = Fin atol -> (0 <= rtol)%R -> (0 < atol)%R ->
    nc_kappa P = Fin kappa -> nc_resolution P = Fin resolution -> (0 < resolution)%R ->
    nc_norm P = max_norm (N:=XR) -> nc_lower P = None -> nc_upper P = None -> nc_cauchy P = false ->
    let theta := ((1 + rtol * B / atol) * (q * (1 + q) / (1 - q)))%R in
    (theta < 1)%R ->
    let s := newton_chord jac lsolve P in
    forall st0, s_init s (liftv F) (map Fin y0) fs auxs = Ret st0 ->
    exists x : nat -> list R,
      (forall k, y_at s (liftv F) (map Fin y0) st0 (auxs fill0) k = map Fin (x k)) /\
      (forall k, Rdist_inf (x (S k)) root <= q * Rdist_inf (x k) root)%R /\
      forall K, (2 * rho * q ^ S K / atol * (theta / (1 - theta)) < kappa)%R ->
      exists k, 2 <= k <= S (S K) /\ (Rdist_inf (x k) root <= q ^ k * rho)%R /\
        ((1 - q) * Rdist_inf (x k) root <= q * Rdist_inf (x (pred k)) (x k))%R /\
        forall fuel ms throw, k < fuel -> (forall m, ms = Some m -> k <= m) ->
          exists sol, iterative_solve vallfinite s (liftv F) fuel ms throw (map Fin y0) fs auxs = Ret sol /\
            result sol = successful /\ value sol = map Fin (x k).
Proof. exact C90_local_convergence_pf. Qed.
Print Assumptions C90_local_convergence.

Example C90_local_convergence_ex : forall newton,
  let s := newton_chord (fun _ v => sq1_J (map toR v)) sq1_solve (sq1_Q newton) in
  forall st0, s_init s (liftv sq1) [Fin (9/8)] (fun _ => [PInf]) (fun _ => tt) = Ret st0 ->
  exists x : nat -> list R,
    (forall k, y_at s (liftv sq1) [Fin (9/8)] st0 tt k = map Fin (x k)) /\
    (forall k, Rdist_inf (x (S k)) [1] <= 1 / 4 * Rdist_inf (x k) [1])%R /\
    exists k, 2 <= k <= 9 /\ forall fuel, k < fuel ->
      exists sol, iterative_solve vallfinite s (liftv sq1) fuel None true [Fin (9/8)] (fun _ => [PInf]) (fun _ => tt) = Ret sol /\
        result sol = successful /\ value sol = map Fin (x k).
Proof. exact C90_local_convergence_ex_pf. Qed.

(** A verdict of every kind: the four runs of Newton and Chord for x^2 = 2 in binary64 (both modes succeed near
    sqrt 2, Chord from 1/10 is reported to diverge). *)
Example C90_verdict_ex :
  (forall newton : bool, exists sol, sq2_run false newton None None (3#2) = Ret sol /\
     results_eqb (result sol) successful && in_range (value sol) (14142#10000) (14143#10000) = true) /\
  (exists sol, sq2_run false false None None (1#10) = Ret sol /\ results_eqb (result sol) nonlinear_divergence = true).
Proof. exact C90_verdict_ex_pf. Qed.

(** With cauchy_termination=False success does not mean that a root is near.  Newton's method in
    binary64 for x^2 - 2 on the box [-1/2, 3], which contains the root sqrt 2, started at -1/4: the
    first step is clipped to the lower bound, the second is clipped to nothing, and this is taken for
    convergence.  The value returned is -1/2, where the function is below -1. *)
Theorem C90_success_near_root_refuted :
  exists (fn : list f64 -> list f64 * unit) (jac : (list f64 -> list f64 * unit) -> list f64 -> f64)
         (lsolve : f64 -> list f64 -> list f64 * results) (P : nc_params (N:=F64)) (y0 lo up : f64) sol,
    (forall x, fn [x] = ([fsub (fmul x x) (f64_ofZ 2)], tt)) /\
    (forall x, jac fn [x] = fmul (f64_ofZ 2) x) /\
    (forall m v, neqb (n:=F64) m (f64_ofZ 0) = false -> lsolve m v = (map (fun x => fdiv x m) v, successful)) /\
    nc_kappa P = f64_ofQ (1#100) /\ nc_norm P = max_norm (N:=F64) /\ nc_resolution P = f64_ofQ (1#10000000000000) /\
    nc_is_newton P = true /\ nc_cauchy P = false /\ nc_lower P = Some [lo] /\ nc_upper P = Some [up] /\
    (nleb (n:=F64) lo y0 && nleb (n:=F64) y0 up = true) /\
    (exists a b : f64, nleb (n:=F64) lo a && nleb (n:=F64) b up && nltb (n:=F64) a b = true /\
       nltb (n:=F64) (hd (f64_ofZ 0) (fst (fn [a]))) (f64_ofZ 0) && nltb (n:=F64) (f64_ofZ 0) (hd (f64_ofZ 0) (fst (fn [b]))) = true) /\
    iterative_solve vallfinite (newton_chord jac lsolve P) fn 10 (Some 9) true [y0] (fun _ => [f64_ofZ 0]) (fun _ => tt) = Ret sol /\
    result sol = successful /\
    exists v, value sol = [v] /\ neqb (n:=F64) v lo = true /\ nltb (n:=F64) (hd (f64_ofZ 0) (fst (fn [v]))) (f64_ofZ (-1)) = true.
Proof. exact C90_success_near_root_refuted_pf. Qed.
Print Assumptions C90_success_near_root_refuted.
