(** Property theorems: NewtonMono.
    Statements only; each is closed by the lemma of the same name (suffix _pf)
    in the proof file.  [Example]s show concrete cases meeting the hypotheses. *)

From Coq Require Import String List Bool Arith Lia ZArith QArith Qreals Reals Lra Psatz.
From Verif Require Import Num NumFacts NumDiv Vec Results Iterate Spec_Iterate Iterate_proofs.
From Verif Require Import Spec_Vec VecFacts Spec_Lin LinFacts NewtonChord Spec_NewtonChord NumF64 NumF64_facts.
From Verif Require Import FixedPoint_proofs NewtonChord_proofs Spec_NewtonMono.
Import ListNotations.
Local Open Scope nat_scope.
From Verif Require Import NewtonMono_proofs.

(** Newton's method in exact arithmetic on a componentwise convex system with inverse-positive
    Jacobians, from anywhere in the domain.  From the first step on the iterates are above the root,
    decrease towards it, and the residuals are nonnegative.  If moreover the Jacobians between the root
    and the first iterate are bounded by C, and w solves J(root) w = (1, ..., 1), the K-th iterate is
    within (C T / K) w of the root, T being the sum of the components of x_1 - root, and the solve
    succeeds within K + 1 steps once T / K and C T / K are below atol. *)
Theorem C93_monotone_convergence :
  forall (n : nat) (F : list R -> list R) (J : list R -> list (list R)) (root y0 : list R) (D : list R -> Prop) (rtol atol : R)
         (jac : (list xr -> list xr * unit) -> list xr -> list (list R)) lsolve (P : nc_params (N:=XR)) fs auxs,
    0 < n ->
    (forall x, D x -> length x = n /\ length (F x) = n /\ mat n n (J x) /\ jac (liftv F) (map Fin x) = J x) ->
    D y0 -> D root -> F root = zerov n -> (forall x y, D x -> vle x y -> D y) ->
    convex_on D F J -> (forall x, D x -> inverse_positive n (J x)) ->
    (forall x c, D x -> length c = n ->
       exists d, lsolve (J x) (map Fin c) = (map Fin d, successful) /\ length d = n /\ mvec (J x) d = c) ->
    nc_rtol P = Fin rtol -> nc_atol P = Fin atol -> (0 <= rtol)%R -> (0 < atol)%R ->
    nc_norm P = max_norm (N:=XR) -> nc_lower P = None -> nc_upper P = None -> nc_cauchy P = true -> nc_is_newton P = true ->
    let s := newton_chord jac lsolve P in
    forall st0, s_init s (liftv F) (map Fin y0) fs auxs = Ret st0 ->
    exists x : nat -> list R,
      (forall k, y_at s (liftv F) (map Fin y0) st0 (auxs fill0) k = map Fin (x k)) /\
      (forall k, vle root (x (S k)) /\ vle (x (S (S k))) (x (S k)) /\ vle (zerov n) (F (x (S k)))) /\
      forall C w, (0 <= C)%R ->
      (forall z v, vle root z -> vle z (x 1) -> length v = n -> (Rmax_norm (mvec (J z) v) <= C * Rmax_norm v)%R) ->
      length w = n -> mvec (J root) w = repeat 1%R n ->
      let T := Rsum_v (Rsub_v (x 1) root) in
      forall K, 1 <= K ->
        vle (Rsub_v (x K) root) (Rscal (C * (T / INR K)) w) /\
        ((T / INR K < atol)%R -> (C * (T / INR K) < atol)%R ->
         exists k, 1 <= k <= S K /\
         forall fuel ms throw, k < fuel -> (forall m, ms = Some m -> k <= m) ->
          exists sol, iterative_solve vallfinite s (liftv F) fuel ms throw (map Fin y0) fs auxs = Ret sol /\
            result sol = successful /\ value sol = map Fin (x k)).
Proof. exact C93_monotone_convergence_pf. Qed.
Print Assumptions C93_monotone_convergence.

Example C93_monotone_convergence_ex : forall a b, (0 < a)%R -> (0 < b)%R ->
  let s := newton_chord (fun _ v => mono2_J (map toR v)) mono2_solve (sq1_P true) in
  forall st0, s_init s (liftv mono2) [Fin a; Fin b] (fun _ => [PInf; PInf]) (fun _ => tt) = Ret st0 ->
  exists x : nat -> list R,
    (forall k, y_at s (liftv mono2) [Fin a; Fin b] st0 tt k = map Fin (x k)) /\
    (forall k, vle [1%R; 1%R] (x (S k)) /\ vle (x (S (S k))) (x (S k))) /\
    exists k, 1 <= k /\ forall fuel, k < fuel ->
      exists sol, iterative_solve vallfinite s (liftv mono2) fuel None true [Fin a; Fin b] (fun _ => [PInf; PInf]) (fun _ => tt) = Ret sol /\
        result sol = successful /\ value sol = map Fin (x k).
Proof. exact C93_monotone_convergence_ex_pf. Qed.
