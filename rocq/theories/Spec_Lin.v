(** Linear algebra on lists of reals: vocabulary for statements. *)

From Coq Require Import List Reals.
From Verif Require Import Spec_Vec.
Import ListNotations.

Fixpoint Radd_v (a b : list R) : list R :=
  match a, b with x :: a', y :: b' => (x + y)%R :: Radd_v a' b' | _, _ => [] end.
Definition Rscal (c : R) (a : list R) : list R := map (Rmult c) a.
Fixpoint Rdot (a b : list R) : R :=
  match a, b with x :: a', y :: b' => (x * y + Rdot a' b')%R | _, _ => 0%R end.
Definition zerov (n : nat) : list R := repeat 0%R n.

(** A matrix is the list of its rows. *)
Definition mat (m n : nat) (A : list (list R)) : Prop :=
  length A = m /\ Forall (fun row => length row = n) A.
Definition mvec (A : list (list R)) (x : list R) : list R := map (fun row => Rdot row x) A.

(** Column j of a matrix, and the product with the transpose (n columns). *)
Definition column (j : nat) (A : list (list R)) : list R := map (fun row => nth j row 0%R) A.
Definition tmvec (n : nat) (A : list (list R)) (x : list R) : list R :=
  map (fun j => Rdot (column j A) x) (seq 0 n).

(** Euclidean norm. *)
Definition Rnorm (v : list R) : R := sqrt (Rdot v v).

(** The dogleg path: from 0 straight to c (parameter 0 to 1), then straight to n
    (parameter 1 to 2). *)
Definition dogleg_path (c n : list R) (t : R) : list R :=
  if Rle_dec t 1 then Rscal t c else Radd_v c (Rscal (t - 1) (Rsub_v n c)).
(** d is where the path first leaves the ball of radius D, or its end if it
    stays inside: up to d the path is inside; d is the end, or the path is outside
    just after d. *)
Definition first_exit (D : R) (c n d : list R) : Prop :=
  exists t, (0 <= t <= 2)%R /\ d = dogleg_path c n t /\
    (forall s, (0 <= s <= t)%R -> (Rnorm (dogleg_path c n s) <= D)%R) /\
    (t = 2%R \/ exists t', (t < t')%R /\ forall s, (t < s <= t')%R -> (D < Rnorm (dogleg_path c n s))%R).

(** Symmetric positive definite n x n matrix. *)
Definition symmetric (n : nat) (M : list (list R)) : Prop :=
  forall x y, length x = n -> length y = n -> Rdot (mvec M x) y = Rdot x (mvec M y).
Definition positive_definite (n : nat) (M : list (list R)) : Prop :=
  forall x, length x = n -> x <> zerov n -> (0 < Rdot x (mvec M x))%R.
Definition spd (n : nat) (M : list (list R)) : Prop :=
  mat n n M /\ symmetric n M /\ positive_definite n M.
(** A and B are inverse to each other. *)
Definition inverses (n : nat) (A B : list (list R)) : Prop :=
  forall x, length x = n -> mvec A (mvec B x) = x /\ mvec B (mvec A x) = x.
