(** Vocabulary for stating properties of a solve, independent of the loop in
    [Iterate.v]: the sequence of iterates obtained by applying the solver's
    `step` over and over, and the conditions under which a solve may stop. *)

From Coq Require Import List Bool Arith.
From Verif Require Import Results Iterate.

Section Spec.
  Context {Y Out Aux : Type}.
  Variable allfinite : Y -> bool.
  Variable solver : Solver Y Out Aux.
  Variable fn : Y -> Out * Aux.
  Variables (y0 : Y) (st0 : St solver) (aux0 : Aux).

  (** (y, state, aux) after [k] calls of `step`. *)
  Fixpoint trace (k : nat) : Y * St solver * Aux :=
    match k with
    | O => (y0, st0, aux0)
    | S j => s_step solver fn (fst (fst (trace j))) (snd (fst (trace j)))
    end.

  Definition y_at (k : nat) : Y := fst (fst (trace k)).
  Definition st_at (k : nat) : St solver := snd (fst (trace k)).
  Definition aux_at (k : nat) : Aux := snd (trace k).

  (** After [k] steps the solver is asked whether to terminate.  It is asked
      about the point the last step started from (about [y0] before any
      step). *)
  Definition asked (k : nat) : Y := y_at (pred k).

  Definition says_terminate (k : nat) : bool :=
    fst (s_terminate solver fn (asked k) (st_at k)).
  Definition says_result (k : nat) : results :=
    snd (s_terminate solver fn (asked k) (st_at k)).

  (** Reasons to stop after [k] steps other than the step budget. *)
  Definition stops (k : nat) : Prop :=
    says_terminate k = true \/ says_result k <> successful \/
    allfinite (asked k) = false.

  (** [k] is where a solve with budget [max_steps] must stop. *)
  Definition stop_index (max_steps : option nat) (k : nat) : Prop :=
    (stops k \/ max_steps = Some k) /\
    (forall j, j < k -> ~ stops j) /\
    (forall m, max_steps = Some m -> k <= m).

  (** The status that ought to be reported when stopping after [k] steps. *)
  Definition status (k : nat) (r : results) : Prop :=
    (allfinite (asked k) = false /\ r = nonfinite) \/
    (allfinite (asked k) = true /\ says_result k <> successful /\ r = says_result k) \/
    (allfinite (asked k) = true /\ says_result k = successful /\
     says_terminate k = true /\ r = successful) \/
    (allfinite (asked k) = true /\ says_result k = successful /\
     says_terminate k = false /\ r = nonlinear_max_steps_reached).

  (** Interface contract "`step` returns the aux output of fn at the y it was
      given" (AbstractIterativeSolver.step, _iterate.py 90-120). *)
  Definition reports_aux : Prop := forall k, aux_at (S k) = snd (fn (y_at k)).
End Spec.

(** The same solver with a counter of `step` calls added to its state. *)
Definition counting {Y Out Aux} (s : Solver Y Out Aux) : Solver Y Out Aux :=
  mkSolver (St s * nat)%type
    (fun fn y fs auxs => obind (s_init s fn y fs auxs) (fun st => Ret (st, 0)))
    (fun fn y st => let '(y', st', a) := s_step s fn y (fst st) in
                    (y', (st', S (snd st)), a))
    (fun fn y st => s_terminate s fn y (fst st))
    (fun fn y a st r => s_post s fn y a (fst st) r).

(** ** A small concrete solver used in examples: count a natural number down
    to zero; reports [nonlinear_divergence] when it meets 13; [None] plays the
    role of a non-finite value and is produced when stepping from 7. *)
Definition toy_step (y : option nat) : option nat :=
  match y with
  | Some 7 => None
  | Some (S n) => Some n
  | _ => y
  end.
Definition toy : Solver (option nat) unit unit :=
  mkSolver nat
    (fun _ _ _ _ => Ret 0)
    (fun _ y st => (toy_step y, S st, tt))
    (fun _ y st => match y with
                   | Some 0 => (true, successful)
                   | Some 13 => (false, nonlinear_divergence)
                   | _ => (false, successful)
                   end)
    (fun _ y a st r => (y, a, nil)).
Definition toy_finite (y : option nat) : bool :=
  match y with Some _ => true | None => false end.
Definition toy_fn : option nat -> unit * unit := fun _ => (tt, tt).
Definition toy_struct : fillv -> unit := fun _ => tt.

(** A user-written solver on extended reals: replace y by fn(y); after the
    first step, stop once |y| < 1.  It obeys the documented solver
    interface. *)
From Coq Require Import Reals.
From Verif Require Import Num.
Definition recip_solver : Solver xr xr unit :=
  mkSolver bool
    (fun _ _ _ _ => Ret false)
    (fun fn y st => (fst (fn y), true, snd (fn y)))
    (fun _ y st => (st && xltb (xabs y) (Fin 1), successful))
    (fun _ y a st r => (y, a, nil)).
Definition recip (y : xr) : xr * unit := (xdiv (Fin 1) y, tt).
