(** Vocabulary for statements about runs of nonlinear conjugate gradients. *)

From Coq Require Import List QArith.
From Verif Require Import Num Vec.
Import ListNotations.

(** The conjugate-gradient recursion. [gs]: the gradients at the points visited, latest
    first; [zero]: the zero vector. *)
Fixpoint cg_direction {N : Num} (beta : list N -> list N -> list N -> N) (zero : list N) (gs : list (list N)) : list N :=
  match gs with
  | [] => zero
  | g :: before =>
      let d := cg_direction beta zero before in
      let candidate := vadd (vneg g) (vscale (beta g (hd zero before) d) d) in
      vwhere (nltb (vdot g candidate) (nofQ 0)) candidate (vneg g)
  end.
