(** Vocabulary for statements about bounds: bounds may be infinite. *)

From Coq Require Import List Reals.
From Verif Require Import Num Spec_Vec Spec_Lin.
Import ListNotations.

Definition above (l : xr) (v : R) : Prop :=
  match l with Fin a => (a <= v)%R | NInf => True | _ => False end.
Definition below (u : xr) (v : R) : Prop :=
  match u with Fin b => (v <= b)%R | PInf => True | _ => False end.
Definition within (l u : xr) (v : R) : Prop := above l v /\ below u v.
Definition strictly_within (l u : xr) (v : R) : Prop :=
  match l with Fin a => (a < v)%R | NInf => True | _ => False end /\
  match u with Fin b => (v < b)%R | PInf => True | _ => False end.

(** A property of every (lower, upper, value) triple of three lists of the same
    length *)
Fixpoint all3 {A B C : Type} (P : A -> B -> C -> Prop) (a : list A) (b : list B) (c : list C) : Prop :=
  match a, b, c with
  | [], [], [] => True
  | x :: a', y :: b', z :: c' => P x y z /\ all3 P a' b' c'
  | _, _, _ => False
  end.
Definition in_box : list xr -> list xr -> list R -> Prop := all3 within.
Definition strictly_in_box : list xr -> list xr -> list R -> Prop := all3 strictly_within.

(** x_i + t_i d_i *)
Fixpoint moved (x ts d : list R) : list R :=
  match x, ts, d with
  | a :: x', t :: ts', b :: d' => (a + t * b)%R :: moved x' ts' d'
  | _, _, _ => []
  end.

(** How far outside its bounds a value is *)
Definition excess (l u : xr) (v : R) : R :=
  Rmax 0 (Rmax (match l with Fin a => a - v | _ => 0 end) (match u with Fin b => v - b | _ => 0 end))%R.
Definition proper (l u : xr) : Prop :=
  match l, u with
  | Fin a, Fin b => (a <= b)%R
  | NInf, Fin _ | Fin _, PInf | NInf, PInf => True
  | _, _ => False
  end.

(** ** The Cauchy point *)

(** Positive semidefinite, n x n *)
Definition psd (n : nat) (M : list (list R)) : Prop :=
  mat n n M /\ symmetric n M /\ forall x, length x = n -> (0 <= Rdot x (mvec M x))%R.

(** Going against the gradient from the box, every coordinate moves and meets a
    finite bound. *)
Definition hits_bound (l u : xr) (g : R) : Prop :=
  ((0 < g)%R /\ exists a, l = Fin a) \/ ((g < 0)%R /\ exists b, u = Fin b).

(** The quadratic model at displacement d, without the constant f(y). *)
Definition model_change (grad : list R) (M : list (list R)) (d : list R) : R :=
  (Rdot grad d + / 2 * Rdot d (mvec M d))%R.
(** The projected path y(t) of one finite box coordinate *)
Definition project (a b v : R) : R := Rmax a (Rmin v b).
