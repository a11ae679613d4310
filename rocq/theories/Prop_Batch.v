(** Property theorems: Batch.
    Statements only; each is closed by the lemma of the same name (suffix _pf)
    in the proof file.  [Example]s show concrete cases meeting the hypotheses. *)

From Coq Require Import List Bool Arith Lia ZArith.
From Verif Require Import Results Iterate Spec_Iterate Iterate_proofs Batch Spec_Batch.
Import ListNotations.
From Verif Require Import Batch_proofs.

(** A batched solve returns exactly when every lane solved on its own would, and then its lanes are the
    solutions (value, result, aux, stats and state) of the lanes solved on their own.  For both values of
    `throw`, any solver, any functions and starting points in the lanes, and the same bound on the number of
    rounds of the loop (so the batch takes no more rounds than its slowest lane). *)
Theorem C99_lanes :
  forall Y Out Aux (allfinite : Y -> bool) (s : Solver Y Out Aux) pick fuel ms throw (lanes : list ((Y -> Out * Aux) * Y)) fs auxs sols,
    0 < fuel ->
    (vmap_solve allfinite s pick fuel ms throw lanes fs auxs = Ret sols <->
     Forall2 (fun l sol => iterative_solve allfinite s (fst l) fuel ms throw (snd l) fs auxs = Ret sol) lanes sols).
Proof. exact C99_lanes_pf. Qed.
Print Assumptions C99_lanes.

(** It raises only what one of its lanes would raise on its own, and with an unbounded loop it runs forever
    only if one of its lanes does; conversely if a lane raises, the batch does not return. *)
Theorem C99_failures :
  forall Y Out Aux (allfinite : Y -> bool) (s : Solver Y Out Aux) pick fuel ms throw (lanes : list ((Y -> Out * Aux) * Y)) fs auxs,
    0 < fuel -> picks_a_failure pick ->
    let batch := vmap_solve allfinite s pick fuel ms throw lanes fs auxs in
    let alone l := iterative_solve allfinite s (fst l) fuel ms throw (snd l) fs auxs in
    (forall e, batch = Raise e -> exists l, In l lanes /\ alone l = Raise e) /\
    (batch = Unfinished -> exists l, In l lanes /\ alone l = Unfinished) /\
    ((forall l, In l lanes -> alone l <> Unfinished) -> (exists l e, In l lanes /\ alone l = Raise e) -> exists e, batch = Raise e).
Proof. exact C99_failures_pf. Qed.
Print Assumptions C99_failures.

(** Example: counting down from 3, 20 and 5, the second of which diverges at 13 and the others take different
    numbers of steps; at most 10 steps each. *)
Example C99_lanes_ex :
  exists a b c,
    vmap_solve toy_finite toy first_failure 30 (Some 10) false
      [(toy_fn, Some 3); (toy_fn, Some 20); (toy_fn, Some 5)] toy_struct toy_struct = Ret [a; b; c] /\
    value a = Some 0 /\ result a = successful /\ result b = nonlinear_divergence /\ result c = successful /\
    (state a, state b, state c) = (4, 8, 6).
Proof. exact C99_lanes_ex_pf. Qed.

Example C99_failures_ex :
  picks_a_failure first_failure /\
  vmap_solve toy_finite toy first_failure 30 (Some 10) true
    [(toy_fn, Some 3); (toy_fn, Some 20); (toy_fn, Some 5)] toy_struct toy_struct = Raise (SolveFailed nonlinear_divergence).
Proof. exact C99_failures_ex_pf. Qed.
