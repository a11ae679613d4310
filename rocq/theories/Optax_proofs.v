(** Proofs about the Optax wrapper. *)

From Coq Require Import String List Bool Arith Lia ZArith QArith Qreals Reals Lra.
From Verif Require Import Num NumFacts NumDiv NumFin NumF64 NumF64_facts Vec VecFacts Spec_Vec Results Iterate
  Spec_Iterate Iterate_proofs Search Minimisers FixedPoint_proofs Optax Spec_Optax Spec_Certificate
  Certificate_proofs RootFind Spec_Examples.
Import ListNotations.
Local Open Scope nat_scope.

Section Run.
  Context {N : Num} {Aux : Type}.
  Variables (optim : OptaxTransform N) (P : ar_tols N).
  Variable grad_of : (list N -> N * Aux) -> list N -> list N.
  Variable fmax : N.
  Variable fn : list N -> N * Aux.
  Variables (y0 : list N) (fs : fillv -> N) (a0 : Aux).
  Notation s := (OptaxMinimiser optim P grad_of fmax).
  Notation f := (fun y => fst (fn y)).
  Notation st0 := (mkOptaxState optim 0 fmax (ot_init optim y0) false).

  Lemma ox_run : forall k,
    (y_at s fn y0 st0 a0 k, ox_opt_state optim (st_at s fn y0 st0 a0 k)) = optax_loop optim f (grad_of fn) y0 k /\
    ox_step optim (st_at s fn y0 st0 a0 k) = k /\
    ox_f optim (st_at s fn y0 st0 a0 k) =
      (match k with O => fmax | S j => fst (fn (y_at s fn y0 st0 a0 j)) end) /\
    aux_at s fn y0 st0 a0 k = (match k with O => a0 | S j => snd (fn (y_at s fn y0 st0 a0 j)) end) /\
    ox_terminate optim (st_at s fn y0 st0 a0 k) =
      (match k with
       | O => false
       | S j => let y := y_at s fn y0 st0 a0 j in
                cauchy_termination (ar_rtol P) (ar_atol P) (ar_norm P) y
                  (optax_updates optim f (grad_of fn) y0 j) [fst (fn y)]
                  [nsub (fst (fn y)) (ox_f optim (st_at s fn y0 st0 a0 j))]
       end).
  Proof.
    induction k as [|k (IH1 & IH2 & IH3 & IH4 & IH5)]; [repeat split; reflexivity|].
    unfold y_at, st_at, aux_at in *. cbn [trace].
    unfold optax_updates. cbn [optax_loop].
    rewrite <- IH1. clear IH1 IH4 IH5.
    destruct (trace s fn y0 st0 a0 k) as [[y st] a]. cbn [fst snd] in *.
    cbn [s_step OptaxMinimiser]. unfold optax_step.
    destruct (fn y) as [fy ay] eqn:Ef. cbn [fst snd].
    destruct (ot_update optim _ _ _ _ _) as [u o]. cbn [fst snd ox_opt_state ox_step ox_f ox_terminate].
    repeat split; auto.
  Qed.
End Run.

(** The wrapper runs the plain Optax loop: same iterates and optimiser states, for
    every transformation and function; the step's aux is the aux at the
    iterate it started from. *)
Lemma C61_plain_loop_pf :
  forall (N : Num) (Aux : Type) (optim : OptaxTransform N) (P : ar_tols N) grad_of (fmax : N)
         (fn : list N -> N * Aux) y0 fs auxs st0,
    let s := OptaxMinimiser optim P grad_of fmax in
    s_init s fn y0 fs auxs = Ret st0 ->
    forall k,
      (y_at s fn y0 st0 (auxs fill0) k, ox_opt_state optim (st_at s fn y0 st0 (auxs fill0) k)) =
        optax_loop optim (fun y => fst (fn y)) (grad_of fn) y0 k /\
      ox_step optim (st_at s fn y0 st0 (auxs fill0) k) = k /\
      aux_at s fn y0 st0 (auxs fill0) (S k) = snd (fn (y_at s fn y0 st0 (auxs fill0) k)).
Proof.
  intros N Aux optim P grad_of fmax fn y0 fs auxs st0 s Hi k. injection Hi as <-.
  destruct (ox_run optim P grad_of fmax fn y0 (auxs fill0) k) as (H1 & H2 & _).
  destruct (ox_run optim P grad_of fmax fn y0 (auxs fill0) (S k)) as (_ & _ & _ & H4 & _).
  split; [exact H1|]. split; [exact H2|exact H4].
Qed.

(** Only three statuses are possible. *)
Lemma C61_status_pf :
  forall (N : Num) (Aux : Type) (optim : OptaxTransform N) (P : ar_tols N) grad_of (fmax : N)
         (fn : list N -> N * Aux) y0 fs auxs allfinite fuel ms throw sol,
    iterative_solve allfinite (OptaxMinimiser optim P grad_of fmax) fn fuel ms throw y0 fs auxs = Ret sol ->
    result sol = successful \/ result sol = nonlinear_max_steps_reached \/ result sol = nonfinite.
Proof.
  intros N Aux optim P grad_of fmax fn y0 fs auxs allfinite fuel ms throw sol H.
  destruct (solve_ret_init _ _ _ _ _ _ _ _ _ _ H) as [st0 Hi].
  destruct (iterative_solve_inv allfinite _ fn y0 st0 _ fs auxs eq_refl Hi fuel ms throw sol H) as (k & _ & _ & -> & _).
  unfold solution_at. cbn [result s_post OptaxMinimiser]. unfold final_result, says_result. cbn [s_terminate OptaxMinimiser snd results_eqb].
  destruct (allfinite _); [|auto]. cbn. match goal with |- context [if ?c then _ else _] => destruct c end; auto.
Qed.

(** Success certificate: the returned value is y plus the last Optax updates u, with
    every entry of u small relative to y, and the value at y differs little
    from the value at the iterate before y (from finfo.max if there is none). *)
Lemma C61_certificate_pf :
  forall (N : Num) (L : OrdLaws N) (D : DivLaws N) (Aux : Type) (optim : OptaxTransform N) (rtol atol : N) grad_of
         (fmax : N) (fn : list N -> N * Aux) y0 fs auxs allfinite fuel ms throw sol,
    iterative_solve allfinite (OptaxMinimiser optim (mkTols rtol atol max_norm) grad_of fmax) fn fuel ms throw
      y0 fs auxs = Ret sol ->
    result sol = successful ->
    let f := fun y => fst (fn y) in
    exists k, let y := fst (optax_loop optim f (grad_of fn) y0 k) in
      let u := optax_updates optim f (grad_of fn) y0 k in
      hd_error (sol_stats sol) = Some ("num_steps"%string, Some (Z.of_nat (S k))) /\
      allfinite y = true /\
      value sol = vmap2 nadd y u /\ aux sol = snd (fn y) /\
      small_update rtol atol y u /\
      nltb (nabs (nsub (f y) (match k with
                              | O => fmax
                              | S j => f (fst (optax_loop optim f (grad_of fn) y0 j))
                              end)))
           (nabs (nadd atol (nmul rtol (nabs (f y))))) = true.
Proof.
  intros N L D Aux optim rtol atol grad_of fmax fn y0 fs auxs allfinite fuel ms throw sol H HR f.
  destruct (solve_ret_init _ _ _ _ _ _ _ _ _ _ H) as [st0 Hi].
  destruct (success_inv _ _ _ allfinite _ fn y0 st0 fs auxs fuel ms throw sol Hi H HR)
    as (k & _ & _ & -> & HF & HT & _).
  injection Hi as <-.
  set (s := OptaxMinimiser optim (mkTols rtol atol max_norm) grad_of fmax) in *.
  set (st0 := mkOptaxState optim 0 fmax (ot_init optim y0) false) in *.
  pose proof (ox_run optim (mkTols rtol atol max_norm) grad_of fmax fn y0 (auxs fill0)) as R.
  fold s st0 in R. fold f in R.
  destruct k as [|k]; [discriminate HT|].
  destruct (R (S k)) as (R1 & _ & _ & R4 & R5). destruct (R k) as (K1 & _ & K3 & _).
  change (ox_terminate optim (st_at s fn y0 st0 (auxs fill0) (S k)) = true) in HT.
  rewrite R5 in HT. clear R5. cbv zeta in HT. cbn [ar_rtol ar_atol ar_norm] in HT. rewrite K3 in HT. clear K3.
  assert (EY : forall j, y_at s fn y0 st0 (auxs fill0) j = fst (optax_loop optim f (grad_of fn) y0 j))
    by (intro j; exact (f_equal fst (proj1 (R j)))).
  exists k. cbv zeta. split; [apply steps_taken|].
  split; [rewrite <- EY; exact HF|].
  split.
  { etransitivity; [exact (EY (S k))|]. unfold optax_updates. cbn [optax_loop].
    destruct (optax_loop optim f (grad_of fn) y0 k) as [y o]. cbn [fst].
    destruct (ot_update optim _ _ _ _ _) as [u o']. reflexivity. }
  split; [etransitivity; [exact R4|]; rewrite EY; reflexivity|].
  unfold cauchy_termination in HT. apply andb_true_iff in HT. destruct HT as [T1 T2].
  rewrite EY in T1, T2.
  split.
  - intros i a b Ha Hb. apply (max_norm_lt L) in T1; [|apply (dl_01 N D)].
    rewrite Forall_forall in T1.
    assert (E : nth_error (vdiv (vabs (optax_updates optim f (grad_of fn) y0 k))
                 (vscale_tol rtol atol (fst (optax_loop optim f (grad_of fn) y0 k)))) i =
                Some (ndiv (nabs b) (nadd atol (nmul rtol (nabs a))))).
    { unfold vdiv. apply nth_vmap2.
      - unfold vabs. apply map_nth_error. exact Hb.
      - unfold vscale_tol. exact (map_nth_error (fun yi => nadd atol (nmul rtol (nabs yi))) i _ Ha). }
    apply nth_error_In in E. apply T1, (dl_lt1 N D) in E. rewrite (dl_absabs N D) in E. exact E.
  - apply (max_norm_lt L) in T2; [|apply (dl_01 N D)].
    apply Forall_inv in T2. apply (dl_lt1 N D) in T2. rewrite (dl_absabs N D) in T2.
    destruct k as [|j]; [exact T2|]. rewrite EY in T2. exact T2.
Qed.

(** In exact arithmetic success is never reported after a single step (the first
    value is compared with finfo.max), provided the first value and the tolerances
    are not of that size; and a successful value is finite. *)
Lemma C61_two_steps_pf :
  forall (Aux : Type) (optim : OptaxTransform XR) (rtol atol fmax : R) grad_of
         (fn : list xr -> xr * Aux) y0 fs auxs fuel ms throw sol,
    (0 <= rtol <= 1)%R -> (0 <= atol <= fmax / 4)%R -> (0 < fmax)%R ->
    (exists v, fst (fn y0) = Fin v /\ Rabs v <= fmax / 4)%R ->
    iterative_solve vallfinite (OptaxMinimiser (N:=XR) optim (mkTols (N:=XR) (Fin rtol) (Fin atol) max_norm) grad_of (Fin fmax))
      fn fuel ms throw y0 fs auxs = Ret sol ->
    result sol = successful ->
    exists k, hd_error (sol_stats sol) = Some ("num_steps"%string, Some (Z.of_nat k)) /\ 2 <= k.
Proof.
  intros Aux optim rtol atol fmax grad_of fn y0 fs auxs fuel ms throw sol Hr Ha Hf (v & Ev & Hv) H HR.
  destruct (C61_certificate_pf XR XR_laws XR_div Aux optim (Fin rtol) (Fin atol) grad_of (Fin fmax) fn y0 fs auxs
              vallfinite fuel ms throw sol H HR) as (k & Hs & _ & _ & _ & _ & HC).
  exists (S k). split; [exact Hs|]. destruct k as [|k]; [exfalso|lia].
  cbv zeta beta in HC. cbn [optax_loop] in HC. change (fst (y0, ot_init optim y0)) with y0 in HC.
  cbn in HC. rewrite Ev in HC. cbn in HC. apply Rltb_true in HC.
  assert (0 <= Rabs v)%R by apply Rabs_pos.
  assert (rtol * Rabs v <= 1 * Rabs v)%R by (apply Rmult_le_compat_r; lra).
  assert (0 <= rtol * Rabs v)%R by (apply Rmult_le_pos; lra).
  rewrite (Rabs_pos_eq (atol + _)) in HC by lra.
  assert (K : (fmax - Rabs v <= Rabs (v + - fmax))%R) by (unfold Rabs; repeat destruct (Rcase_abs _); lra).
  lra.
Qed.

(** Plain gradient descent as an Optax transformation: a successful solve of
    x^2 + 4 y^2 from (3, 1) in binary64 (finfo.max replaced by 10^18) *)
Lemma C61_ex_pf :
  let sgd := mkOptax F64 unit (fun _ => tt)
               (fun g _ _ _ _ => (map (fun x => nmul (n:=F64) (f64_ofQ (-1#10)) x) g, tt)) in
  succeeds_after 30 (iterative_solve vallfinite (OptaxMinimiser (N:=F64) sgd tols bowl_grad (f64_ofQ 1000000000000000000))
     (bowl (N:=F64)) 200 None true [f64_ofQ 3; f64_ofQ 1] scalar_struct (fun _ => tt)) = true.
Proof. vm_compute; reflexivity. Qed.
