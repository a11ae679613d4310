(** Vocabulary for statements about Nelder-Mead. *)

From Coq Require Import List Reals ZArith.
From Verif Require Import Spec_Vec Spec_Lin.
Import ListNotations.

(** A set of d-vectors closed under p + t (q - r): an affine subspace (or empty). *)
Definition affine_set (d : nat) (A : list R -> Prop) : Prop :=
  (forall v, A v -> length v = d) /\
  (forall p q r t, A p -> A q -> A r -> A (Radd_v p (Rscal t (Rsub_v q r)))).

(** The points affinely span d-space: the only linear functional with the same
    value at all of them is zero. *)
Definition affinely_spans (d : nat) (vs : list (list R)) : Prop :=
  forall w c, length w = d -> Forall (fun v => Rdot w v = c) vs -> w = zerov d.

(** ** The moves of Nelder-Mead, relative to the centroid of the vertices other than w *)
Definition centroid_without (d : nat) (vs : list (list R)) (w : list R) : list R :=
  Rscal (/ INR (length vs - 1)) (Rsub_v (fold_right Radd_v (zerov d) vs) w).
(** the point c + rho (c - w) *)
Definition beyond (c w : list R) (rho : R) : list R := Radd_v c (Rscal rho (Rsub_v c w)).

(** How far to go, given the best, second worst and worst values and the value fr at
    the reflected point: expand (2) below the best value, reflect (1) up to the second
    worst, contract outside (1/2) up to the worst, contract inside (-1/2) above it. *)
Definition textbook_move (fbest fsecond fworst fr : R) : R :=
  if Rlt_dec fr fbest then 2
  else if Rle_dec fr fsecond then 1
  else if Rle_dec fr fworst then / 2
  else (- / 2)%R.

Definition count_if {P Q : Prop} (d : {P} + {Q}) : Z := if d then 1%Z else 0%Z.
