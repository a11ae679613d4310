(** Property theorems: Optax.
    Statements only; each is closed by the lemma of the same name (suffix _pf)
    in the proof file.  [Example]s show concrete cases meeting the hypotheses. *)

From Coq Require Import String List Bool Arith Lia ZArith QArith Qreals Reals Lra.
From Verif Require Import Num NumFacts NumDiv NumFin NumF64 NumF64_facts Vec VecFacts Spec_Vec Results Iterate
  Spec_Iterate Iterate_proofs Search Minimisers FixedPoint_proofs Optax Spec_Optax Spec_Certificate
  Certificate_proofs RootFind Spec_Examples.
Import ListNotations.
Local Open Scope nat_scope.
From Verif Require Import Optax_proofs.

(** The wrapper runs the plain Optax loop: same iterates and optimiser states, for
    every transformation and function; the step's aux is the aux at the
    iterate it started from. *)
Theorem C61_plain_loop :
  forall (N : Num) (Aux : Type) (optim : OptaxTransform N) (P : ar_tols N) grad_of (fmax : N)
         (fn : list N -> N * Aux) y0 fs auxs st0,
    let s := OptaxMinimiser optim P grad_of fmax in
    s_init s fn y0 fs auxs = Ret st0 ->
    forall k,
      (y_at s fn y0 st0 (auxs fill0) k, ox_opt_state optim (st_at s fn y0 st0 (auxs fill0) k)) =
        optax_loop optim (fun y => fst (fn y)) (grad_of fn) y0 k /\
      ox_step optim (st_at s fn y0 st0 (auxs fill0) k) = k /\
      aux_at s fn y0 st0 (auxs fill0) (S k) = snd (fn (y_at s fn y0 st0 (auxs fill0) k)).
Proof. exact C61_plain_loop_pf. Qed.
Print Assumptions C61_plain_loop.

(** Only three statuses are possible. *)
Theorem C61_status :
  forall (N : Num) (Aux : Type) (optim : OptaxTransform N) (P : ar_tols N) grad_of (fmax : N)
         (fn : list N -> N * Aux) y0 fs auxs allfinite fuel ms throw sol,
    iterative_solve allfinite (OptaxMinimiser optim P grad_of fmax) fn fuel ms throw y0 fs auxs = Ret sol ->
    result sol = successful \/ result sol = nonlinear_max_steps_reached \/ result sol = nonfinite.
Proof. exact C61_status_pf. Qed.
Print Assumptions C61_status.

(** Success certificate: the returned value is y plus the last Optax updates u, with
    every entry of u small relative to y, and the value at y differs little
    from the value at the iterate before y (from finfo.max if there is none). *)
Theorem C61_certificate :
  forall (N : Num) (L : OrdLaws N) (D : DivLaws N) (Aux : Type) (optim : OptaxTransform N) (rtol atol : N) grad_of
         (fmax : N) (fn : list N -> N * Aux) y0 fs auxs allfinite fuel ms throw sol,
    iterative_solve allfinite (OptaxMinimiser optim (mkTols rtol atol max_norm) grad_of fmax) fn fuel ms throw
      y0 fs auxs = Ret sol ->
    result sol = successful ->
    let f := fun y => fst (fn y) in
    exists k, let y := fst (optax_loop optim f (grad_of fn) y0 k) in
      let u := optax_updates optim f (grad_of fn) y0 k in
      hd_error (sol_stats sol) = Some ("num_steps"%string, Some (Z.of_nat (S k))) /\
      allfinite y = true /\
      value sol = vmap2 nadd y u /\ aux sol = snd (fn y) /\
      small_update rtol atol y u /\
      nltb (nabs (nsub (f y) (match k with
                              | O => fmax
                              | S j => f (fst (optax_loop optim f (grad_of fn) y0 j))
                              end)))
           (nabs (nadd atol (nmul rtol (nabs (f y))))) = true.
Proof. exact C61_certificate_pf. Qed.
Print Assumptions C61_certificate.

(** In exact arithmetic success is never reported after a single step (the first
    value is compared with finfo.max), provided the first value and the tolerances
    are not of that size; and a successful value is finite. *)
Theorem C61_two_steps :
  forall (Aux : Type) (optim : OptaxTransform XR) (rtol atol fmax : R) grad_of
         (fn : list xr -> xr * Aux) y0 fs auxs fuel ms throw sol,
    (0 <= rtol <= 1)%R -> (0 <= atol <= fmax / 4)%R -> (0 < fmax)%R ->
    (exists v, fst (fn y0) = Fin v /\ Rabs v <= fmax / 4)%R ->
    iterative_solve vallfinite (OptaxMinimiser (N:=XR) optim (mkTols (N:=XR) (Fin rtol) (Fin atol) max_norm) grad_of (Fin fmax))
      fn fuel ms throw y0 fs auxs = Ret sol ->
    result sol = successful ->
    exists k, hd_error (sol_stats sol) = Some ("num_steps"%string, Some (Z.of_nat k)) /\ 2 <= k.
Proof. exact C61_two_steps_pf. Qed.
Print Assumptions C61_two_steps.

(** Plain gradient descent as an Optax transformation: a successful solve of
    x^2 + 4 y^2 from (3, 1) in binary64 (finfo.max replaced by 10^18) *)
Theorem C61_ex :
  let sgd := mkOptax F64 unit (fun _ => tt)
               (fun g _ _ _ _ => (map (fun x => nmul (n:=F64) (f64_ofQ (-1#10)) x) g, tt)) in
  succeeds_after 30 (iterative_solve vallfinite (OptaxMinimiser (N:=F64) sgd tols bowl_grad (f64_ofQ 1000000000000000000))
     (bowl (N:=F64)) 200 None true [f64_ofQ 3; f64_ofQ 1] scalar_struct (fun _ => tt)) = true.
Proof. exact C61_ex_pf. Qed.
Print Assumptions C61_ex.
