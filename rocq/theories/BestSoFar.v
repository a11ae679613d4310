(** BestSoFar wrappers.  Models /repo/optimistix/_solver/best_so_far.py. *)

From Coq Require Import List Bool QArith.
From Verif Require Import Num Vec Results Iterate.
Import ListNotations.

Section BestSoFar.
  Context {N : Num} {Y Out Aux : Type}.
  Local Open Scope num_scope.

  (** _auxmented, best_so_far.py 28-30 *)
  Definition auxmented (fn : Y -> Out * Aux) (y : Y) : Out * (Out * Aux) :=
    let '(out, a) := fn y in (out, (out, a)).

  (** _BestSoFarState, best_so_far.py 21-25 *)
  Record bsf_state (S : Type) : Type := mkBsf {
    best_y : Y; best_aux : Aux; best_loss : N; inner : S
  }.
  Arguments mkBsf {S}. Arguments best_y {S}. Arguments best_aux {S}.
  Arguments best_loss {S}. Arguments inner {S}.

  (** _AbstractBestSoFarSolver, best_so_far.py 33-115 (init 51-67, step 69-90,
      terminate 92-102, postprocess 104-115); [to_loss] is `_to_loss` (36-37).
      The properties rtol, atol and norm (39-49) are those of the wrapped
      solver. *)
  Definition best_so_far (to_loss : Y -> Out -> N)
      (s : Solver Y Out (Out * Aux)) : Solver Y Out Aux :=
    mkSolver (bsf_state (St s))
      (* init, 51-67 *)
      (fun fn y f_struct aux_struct =>
         let a := aux_struct fill0 in
         let loss := ninf in
         obind (s_init s (auxmented fn) y f_struct
                  (fun v => (f_struct v, aux_struct v))) (fun st =>
         Ret (mkBsf y a loss st)))
      (* step, 69-90 *)
      (fun fn y st =>
         let '(new_y, new_state, (f, new_aux)) :=
           s_step s (auxmented fn) y (inner st) in
         let loss := to_loss y f in
         let pred := loss <? best_loss st in
         (new_y,
          mkBsf (if pred then y else best_y st)
                (if pred then new_aux else best_aux st)
                (if pred then loss else best_loss st)
                new_state,
          new_aux))
      (* terminate, 92-102 *)
      (fun fn y st => s_terminate s (auxmented fn) y (inner st))
      (* postprocess, 104-115 *)
      (fun fn y a st res => (best_y st, best_aux st, [])).
End BestSoFar.
Arguments mkBsf {N Y Aux S}. Arguments best_y {N Y Aux S}.
Arguments best_aux {N Y Aux S}. Arguments best_loss {N Y Aux S}.
Arguments inner {N Y Aux S}.

(** `_to_loss` of BestSoFarMinimiser, best_so_far.py 118-147 (the constructor
    129-130 stores the solver; `_to_loss` is 132-133). *)
Definition loss_minimiser {N : Num} {Y} (y : Y) (f : N) : N := f.
(** BestSoFarLeastSquares._to_loss, best_so_far.py 172-173 (constructor: 167-170). *)
Definition loss_least_squares {N : Num} {Y} (y : Y) (f : list N) : N := sum_squares f.
(** BestSoFarRootFinder._to_loss, best_so_far.py 210-211 (constructor: 207-208). *)
Definition loss_root_finder {N : Num} {Y} (y : Y) (f : list N) : N := sum_squares f.
(** BestSoFarFixedPoint._to_loss, best_so_far.py 248-249 (constructor: 245-246). *)
Definition loss_fixed_point {N : Num} (y f : list N) : N := sum_squares (vsub y f).
