(** Property theorems: NewtonChord.
    Statements only; each is closed by the lemma of the same name (suffix _pf)
    in the proof file.  [Example]s show concrete cases meeting the hypotheses. *)

From Coq Require Import String List Bool Arith Lia ZArith QArith Qreals Reals Lra Psatz.
From Verif Require Import Num NumFacts NumDiv Vec Results Iterate Spec_Iterate Iterate_proofs.
From Verif Require Import Spec_Vec VecFacts Spec_Lin LinFacts NewtonChord Spec_NewtonChord NumF64 NumF64_facts.
From Verif Require Import FixedPoint_proofs.
Import ListNotations.
Local Open Scope nat_scope.
From Verif Require Import NewtonChord_proofs.

(** With both bounds: every component of every iterate after the first step
    is NaN or inside the box, whatever the function, Jacobian and linear solver
    return, in every arithmetic. *)
Theorem C21_iterates_in_box :
  forall (N : Num) (L : OrdLaws N) (Aux M : Type) jac lsolve (P : nc_params (N:=N))
         (fn : list N -> list N * Aux) y0 fs aux0 lo up,
    nc_lower P = Some lo -> nc_upper P = Some up ->
    (forall i l u, nth_error lo i = Some l -> nth_error up i = Some u -> nleb l u = true) ->
    let s := newton_chord (M:=M) jac lsolve P in
    forall st0, s_init s fn y0 fs (fun _ => aux0) = Ret st0 ->
    forall k i z, nth_error (y_at s fn y0 st0 aux0 (S k)) i = Some z ->
      exists l u, nth_error lo i = Some l /\ nth_error up i = Some u /\
        (nisnan z = true \/ nleb l z = true /\ nleb z u = true).
Proof. exact C21_iterates_in_box_pf. Qed.
Print Assumptions C21_iterates_in_box.

(** With only one of the bounds. *)
Theorem C21_one_sided :
  forall (N : Num) (L : OrdLaws N) (Aux M : Type) jac lsolve (P : nc_params (N:=N))
         (fn : list N -> list N * Aux) y0 fs aux0,
    let s := newton_chord (M:=M) jac lsolve P in
    forall st0, s_init s fn y0 fs (fun _ => aux0) = Ret st0 ->
    forall k i z, nth_error (y_at s fn y0 st0 aux0 (S k)) i = Some z -> nisnan z = false ->
      (forall lo, nc_lower P = Some lo -> nc_upper P = None ->
         exists l, nth_error lo i = Some l /\ nleb l z = true) /\
      (forall up, nc_lower P = None -> nc_upper P = Some up ->
         exists u, nth_error up i = Some u /\ nleb z u = true).
Proof. exact C21_one_sided_pf. Qed.
Print Assumptions C21_one_sided.

(** The returned value: if at least one step was taken it is in the box,
    except for NaN components. *)
Theorem C21_value_in_box :
  forall (N : Num) (L : OrdLaws N) (Aux M : Type) jac lsolve (P : nc_params (N:=N)) allfinite
         (fn : list N -> list N * Aux) y0 fs auxs lo up fuel ms throw sol,
    nc_lower P = Some lo -> nc_upper P = Some up ->
    (forall i l u, nth_error lo i = Some l -> nth_error up i = Some u -> nleb l u = true) ->
    iterative_solve allfinite (newton_chord (M:=M) jac lsolve P) fn fuel ms throw y0 fs auxs = Ret sol ->
    stats_get (sol_stats sol) "num_steps" <> Some (Some 0%Z) ->
    forall i z, nth_error (value sol) i = Some z ->
      exists l u, nth_error lo i = Some l /\ nth_error up i = Some u /\
        (nisnan z = true \/ nleb l z = true /\ nleb z u = true).
Proof. exact C21_value_in_box_pf. Qed.
Print Assumptions C21_value_in_box.

Theorem C21_success_in_box :
  forall (N : Num) (L : OrdLaws N) (Z : NanLaws N) (Aux M : Type) jac lsolve (P : nc_params (N:=N)) allfinite
         (fn : list N -> list N * Aux) y0 fs auxs lo up fuel ms throw sol,
    nc_lower P = Some lo -> nc_upper P = Some up -> nc_norm P = max_norm ->
    (forall i l u, nth_error lo i = Some l -> nth_error up i = Some u -> nleb l u = true) ->
    iterative_solve allfinite (newton_chord (M:=M) jac lsolve P) fn fuel ms throw y0 fs auxs = Ret sol ->
    result sol = successful ->
    stats_get (sol_stats sol) "num_steps" <> Some (Some 0%Z) ->
    forall i z, nth_error (value sol) i = Some z ->
      exists l u, nth_error lo i = Some l /\ nth_error up i = Some u /\
        nleb l z = true /\ nleb z u = true.
Proof. exact C21_success_in_box_pf. Qed.
Print Assumptions C21_success_in_box.

(** A successful value of Newton or Chord is finite (exact arithmetic), in
    both termination modes, with or without a box. *)
Theorem C04_newton_success_finite :
  forall (Aux M : Type) jac lsolve (P : nc_params (N:=XR)) (rtol atol : R)
         (fn : list xr -> list xr * Aux) y0 fs auxs fuel ms throw sol,
    nc_rtol P = Fin rtol -> nc_atol P = Fin atol -> (0 <= rtol)%R -> nc_norm P = max_norm (N:=XR) ->
    iterative_solve vallfinite (newton_chord (M:=M) jac lsolve P) fn fuel ms throw y0 fs auxs = Ret sol ->
    result sol = successful ->
    exists v : list R, value sol = map Fin v.
Proof. exact C04_newton_success_finite_pf. Qed.
Print Assumptions C04_newton_success_finite.

(** Success certificate with Cauchy termination, exact arithmetic. *)
Theorem C22_certificate :
  forall (Aux M : Type) jac lsolve (P : nc_params (N:=XR)) (rtol atol : R)
         (fn : list xr -> list xr * Aux) y0 fs auxs fuel ms throw sol,
    nc_rtol P = Fin rtol -> nc_atol P = Fin atol -> (0 <= rtol)%R -> (0 < atol)%R ->
    nc_norm P = max_norm (N:=XR) -> nc_cauchy P = true -> y0 <> [] ->
    let s := newton_chord (M:=M) jac lsolve P in
    iterative_solve vallfinite s fn fuel ms throw y0 fs auxs = Ret sol ->
    result sol = successful ->
    exists (y v : list R),
      (exists k st0, s_init s fn y0 fs auxs = Ret st0 /\
         y_at s fn y0 st0 (auxs fill0) k = map Fin y /\ y_at s fn y0 st0 (auxs fill0) (S k) = map Fin v) /\
      value sol = map Fin v /\
      aux sol = snd (fn (map Fin y)) /\
      snd (lin_sol jac lsolve (nc_is_newton P) fn y0 (map Fin y)) = successful /\
      (forall i fi, nth_error (fst (fn (map Fin y))) i = Some fi -> exists r, fi = Fin r /\ (Rabs r < atol)%R) /\
      (forall i vi, nth_error v i = Some vi ->
         exists yi, nth_error y i = Some yi /\ (Rabs (vi - yi) < atol + rtol * Rabs yi)%R).
Proof. exact C22_certificate_pf. Qed.
Print Assumptions C22_certificate.

(** If the linear solve at the j-th iterate fails, the solve stops right after
    that step with the linear solver's code (or with `nonfinite` if that
    iterate was not finite). *)
Theorem C23_linear_failure_stops :
  forall (N : Num) (Aux M : Type) jac lsolve (P : nc_params (N:=N)) allfinite
         (fn : list N -> list N * Aux) y0 fs auxs st0 j,
    let s := newton_chord (M:=M) jac lsolve P in
    let y := y_at s fn y0 st0 (auxs fill0) in
    s_init s fn y0 fs auxs = Ret st0 ->
    let r := snd (lin_sol jac lsolve (nc_is_newton P) fn y0 (y j)) in
    r <> successful ->
    (forall i, i <= j -> ~ stops allfinite s fn y0 st0 (auxs fill0) i) ->
    forall fuel ms, S j < fuel -> (forall m, ms = Some m -> S j <= m) ->
    let code := if allfinite (y j) then r else nonfinite in
    (exists sol, iterative_solve allfinite s fn fuel ms false y0 fs auxs = Ret sol /\
       result sol = code /\ stats_get (sol_stats sol) "num_steps" = Some (Some (Z.of_nat (S j)))) /\
    iterative_solve allfinite s fn fuel ms true y0 fs auxs = Raise (SolveFailed code).
Proof. exact C23_linear_failure_stops_pf. Qed.
Print Assumptions C23_linear_failure_stops.

(** So a successful solve performed only successful linear solves. *)
Theorem C23_success_all_linear_ok :
  forall (N : Num) (Aux M : Type) jac lsolve (P : nc_params (N:=N)) allfinite
         (fn : list N -> list N * Aux) y0 fs auxs fuel ms throw sol st0,
    let s := newton_chord (M:=M) jac lsolve P in
    s_init s fn y0 fs auxs = Ret st0 ->
    iterative_solve allfinite s fn fuel ms throw y0 fs auxs = Ret sol ->
    result sol = successful ->
    exists n, stats_get (sol_stats sol) "num_steps" = Some (Some (Z.of_nat n)) /\
      (nc_cauchy P = false -> 2 <= n) /\
      forall j, j < n -> snd (lin_sol jac lsolve (nc_is_newton P) fn y0 (y_at s fn y0 st0 (auxs fill0) j)) = successful.
Proof. exact C23_success_all_linear_ok_pf. Qed.
Print Assumptions C23_success_all_linear_ok.

(** With cauchy_termination=False: the verdict after step number j+2 is
    `nonlinear_divergence` exactly when the step is not tiny and the ratio of
    successive relative step sizes is not finite or exceeds 2. *)
Theorem C23_divergence_iff :
  forall (N : Num) (Aux M : Type) jac lsolve (P : nc_params (N:=N))
         (fn : list N -> list N * Aux) y0 fs auxs st0 j,
    let s := newton_chord (M:=M) jac lsolve P in
    let y := y_at s fn y0 st0 (auxs fill0) in
    let lin k := lin_sol jac lsolve (nc_is_newton P) fn y0 (y k) in
    let size k := rel_size (nc_norm P) (nc_rtol P) (nc_atol P)
                    (match nc_lower P, nc_upper P with
                     | None, None => fst (lin k)
                     | _, _ => vsub (y k) (y (S k))
                     end) (y (S k)) in
    s_init s fn y0 fs auxs = Ret st0 -> nc_cauchy P = false ->
    snd (lin (S j)) = successful ->
    let rate := ndiv (size (S j)) (size j) in
    (says_result s fn y0 st0 (auxs fill0) (S (S j)) = nonlinear_divergence <->
       nltb (size (S j)) (nc_resolution P) = false /\ (nisfin rate = false \/ nltb (nofQ 2) rate = true)) /\
    (says_result s fn y0 st0 (auxs fill0) (S (S j)) = nonlinear_divergence \/
     says_result s fn y0 st0 (auxs fill0) (S (S j)) = successful).
Proof. exact C23_divergence_iff_pf. Qed.
Print Assumptions C23_divergence_iff.

(** One step of Newton or Chord on an invertible affine system with an exact
    linear solver lands on the root, and the solve succeeds within two steps
    there; both termination modes. *)
Theorem C24_affine_exact :
  forall (n : nat) (A : list (list R)) (b y0 : list R) (jac : (list xr -> list xr * unit) -> list xr -> list (list R))
         lsolve (P : nc_params (N:=XR)) (rtol atol : R) (resolution : R) fs auxs,
    mat n n A -> injective_mat n A -> length b = n -> length y0 = n -> 0 < n ->
    (forall y, jac (liftv (affine A b)) y = A) ->
    (forall c, length c = n -> exists d, lsolve A (map Fin c) = (map Fin d, successful) /\
                                length d = n /\ mvec A d = c) ->
    nc_rtol P = Fin rtol -> nc_atol P = Fin atol -> (0 <= rtol)%R -> (0 < atol)%R ->
    nc_norm P = max_norm (N:=XR) -> nc_lower P = None -> nc_upper P = None ->
    nc_resolution P = Fin resolution -> (0 < resolution)%R ->
    let s := newton_chord jac lsolve P in
    exists root, length root = n /\ affine A b root = zerov n /\
      (forall x, length x = n -> affine A b x = zerov n -> x = root) /\
      (forall st0, s_init s (liftv (affine A b)) (map Fin y0) fs auxs = Ret st0 ->
         y_at s (liftv (affine A b)) (map Fin y0) st0 (auxs fill0) 1 = map Fin root) /\
      exists k, 1 <= k <= 2 /\ (nc_cauchy P = false -> k = 2) /\
        forall fuel ms throw, k < fuel -> (forall m, ms = Some m -> k <= m) ->
          exists sol, iterative_solve vallfinite s (liftv (affine A b)) fuel ms throw (map Fin y0) fs auxs = Ret sol /\
            result sol = successful /\ value sol = map Fin root /\
            stats_get (sol_stats sol) "num_steps" = Some (Some (Z.of_nat k)).
Proof. exact C24_affine_exact_pf. Qed.
Print Assumptions C24_affine_exact.

(** Newton and Chord, both termination modes, all succeed near sqrt 2. *)
Example C22_certificate_ex :
  forall cauchy newton : bool, exists sol,
    sq2_run cauchy newton None None (3#2) = Ret sol /\
    results_eqb (result sol) successful && in_range (value sol) (14142#10000) (14143#10000) = true.
Proof. exact C22_certificate_ex_pf. Qed.

(** With the box [1.5, 3] (which does not contain the root) the result sits on
    the boundary; it fails because f is not small there. *)
Example C21_iterates_in_box_ex :
  exists sol,
    sq2_run true true (Some [f64_ofQ (3#2)]) (Some [f64_ofZ 3]) (3#1) = Ret sol /\
    results_eqb (result sol) nonlinear_max_steps_reached &&
    match value sol with [x] => neqb (n:=F64) x (f64_ofQ (3#2)) | _ => false end = true.
Proof. exact C21_iterates_in_box_ex_pf. Qed.

Example C21_success_in_box_ex :
  exists sol,
    sq2_run true true (Some [f64_ofZ 1]) (Some [f64_ofZ 3]) (1#10) = Ret sol /\
    results_eqb (result sol) successful && in_range (value sol) (14142#10000) (14143#10000) = true.
Proof. exact C21_success_in_box_ex_pf. Qed.

(** A singular Jacobian at the start is reported with the linear solver's
    code after one step. *)
Example C23_linear_failure_stops_ex :
  exists sol,
    sq2_run true true None None 0 = Ret sol /\
    results_eqb (result sol) (linear 1) &&
    match stats_get (sol_stats sol) "num_steps" with Some (Some n) => Z.eqb n 1 | _ => false end = true.
Proof. exact C23_linear_failure_stops_ex_pf. Qed.

(** Chord from a bad starting point diverges and says so. *)
Example C23_divergence_iff_ex :
  exists sol,
    sq2_run false false None None (1#10) = Ret sol /\
    results_eqb (result sol) nonlinear_divergence = true.
Proof. exact C23_divergence_iff_ex_pf. Qed.

(** The hypotheses of C24 for a concrete 2x2 system. *)
Example C24_affine_exact_ex :
  let A := [[2; 1]; [1; 3]]%R in
  let lsolve := fun (_ : list (list R)) (c : list xr) =>
    match c with
    | [Fin a; Fin b] => ([Fin ((3 * a - b) / 5); Fin ((2 * b - a) / 5)], successful)
    | _ => ([], linear 1)
    end in
  mat 2 2 A /\ injective_mat 2 A /\
  (forall c, length c = 2 -> exists d, lsolve A (map Fin c) = (map Fin d, successful) /\
                                length d = 2 /\ mvec A d = c) /\
  affine A [-5; -10]%R [1; 3]%R = zerov 2.
Proof. exact C24_affine_exact_ex_pf. Qed.

(** Newton or Chord in exact arithmetic, started within rho of a root, where [A x] is the
    matrix in use at x (the Jacobian at x for Newton, at the start for Chord), boundedly
    invertible and accurate to q < 1 near the root. Every iterate is closer to the root by
    the factor q; if the linearisation error is quadratic so is the convergence; and the
    solve succeeds within K + 1 steps once 2 rho q^K and L rho q^K are below atol. *)
Theorem C70_local_convergence :
  forall (n : nat) (F : list R -> list R) (J : list R -> list (list R)) (root y0 : list R) (beta q rho L rtol atol : R)
         (jac : (list xr -> list xr * unit) -> list xr -> list (list R)) lsolve (P : nc_params (N:=XR)) fs auxs,
    let A x := J (if nc_is_newton P then x else y0) in
    let near x := length x = n /\ (Rdist_inf x root <= rho)%R in
    let linear_error x := Rmax_norm (Rsub_v (F x) (mvec (A x) (Rsub_v x root))) in
    0 < n -> length root = n -> F root = zerov n -> near y0 ->
    (forall x, near x -> length (F x) = n /\ mat n n (J x) /\ jac (liftv F) (map Fin x) = J x) ->
    (forall x c, near x -> length c = n ->
       exists d, lsolve (J x) (map Fin c) = (map Fin d, successful) /\ length d = n /\ mvec (J x) d = c) ->
    (forall x v, near x -> length v = n -> Rmax_norm v <= beta * Rmax_norm (mvec (A x) v))%R ->
    (forall x, near x -> beta * linear_error x <= q * Rdist_inf x root)%R ->
    (forall x, near x -> Rmax_norm (F x) <= L * Rdist_inf x root)%R -> (0 <= q < 1)%R -> (0 <= beta)%R -> (0 <= L)%R ->
    nc_rtol P = Fin rtol -> nc_atol P = Fin atol -> (0 <= rtol)%R -> (0 < atol)%R ->
    nc_norm P = max_norm (N:=XR) -> nc_lower P = None -> nc_upper P = None -> nc_cauchy P = true ->
    let s := newton_chord jac lsolve P in
    forall st0, s_init s (liftv F) (map Fin y0) fs auxs = Ret st0 ->
    exists x : nat -> list R,
      (forall k, y_at s (liftv F) (map Fin y0) st0 (auxs fill0) k = map Fin (x k)) /\
      (forall k, Rdist_inf (x (S k)) root <= q * Rdist_inf (x k) root)%R /\
      (forall gamma, (forall z, near z -> beta * linear_error z <= gamma * Rdist_inf z root ^ 2)%R ->
         forall k, Rdist_inf (x (S k)) root <= gamma * Rdist_inf (x k) root ^ 2)%R /\
      forall K, (2 * rho * q ^ K < atol)%R -> (L * rho * q ^ K < atol)%R ->
      exists k, 1 <= k <= S K /\ (Rdist_inf (x k) root <= q ^ k * rho)%R /\
        ((1 - q) * Rdist_inf (x k) root <= q * Rdist_inf (x (pred k)) (x k))%R /\
        forall fuel ms throw, k < fuel -> (forall m, ms = Some m -> k <= m) ->
          exists sol, iterative_solve vallfinite s (liftv F) fuel ms throw (map Fin y0) fs auxs = Ret sol /\
            result sol = successful /\ value sol = map Fin (x k).
Proof. exact C70_local_convergence_pf. Qed.
Print Assumptions C70_local_convergence.

Example C70_local_convergence_ex : forall newton,
  let s := newton_chord (fun _ v => sq1_J (map toR v)) sq1_solve (sq1_P newton) in
  forall st0, s_init s (liftv sq1) [Fin (5/4)] (fun _ => [PInf]) (fun _ => tt) = Ret st0 ->
  exists x : nat -> list R,
    (forall k, y_at s (liftv sq1) [Fin (5/4)] st0 tt k = map Fin (x k)) /\
    (forall k, Rdist_inf (x (S k)) [1] <= 1 / 2 * Rdist_inf (x k) [1])%R /\
    (newton = true -> forall k, Rdist_inf (x (S k)) [1] <= 2 / 3 * Rdist_inf (x k) [1] ^ 2)%R /\
    exists k, 1 <= k <= 11 /\ forall fuel, k < fuel ->
      exists sol, iterative_solve vallfinite s (liftv sq1) fuel None true [Fin (5/4)] (fun _ => [PInf]) (fun _ => tt) = Ret sol /\
        result sol = successful /\ value sol = map Fin (x k).
Proof. exact C70_local_convergence_ex_pf. Qed.
