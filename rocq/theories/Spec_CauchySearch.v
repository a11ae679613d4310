(** Vocabulary for the search for the Cauchy point: its passes, written as a
    relation between a breakpoint already passed, the point of the path there, and
    the point the search ends at. *)

From Coq Require Import List Bool QArith.
From Verif Require Import Num Vec.
Import ListNotations.
Local Open Scope nat_scope.

(** When the straight path y - t g of one coordinate meets a bound: at
    (y - bound) / g, counted as 1 when later, and never (infinity) when the
    coordinate does not move or moves away. *)
Definition meets {N : Num} (y bound g : N) : N :=
  let t := ndiv (nsub y bound) g in
  if negb (neqb g (lit 0)) && nleb (lit 0) t then (if nisfin t then nmin t (lit 1) else t) else ninf.
Fixpoint breakpoints {N : Num} (y lower upper g : list N) : list N :=
  match y, lower, upper, g with
  | a :: y', l :: lower', u :: upper', b :: g' => nmin (meets a l b) (meets a u b) :: breakpoints y' lower' upper' g'
  | _, _, _, _ => []
  end.

(** The breakpoint after [prev]: the first finite entry of [ts], in the order of
    the coordinates, that exceeds [prev]; the first entry of all if there is none. *)
Definition next_breakpoint {N : Num} (ts : list N) (prev t : N) : Prop :=
  (exists before after, ts = before ++ t :: after /\ nisfin t = true /\ nltb prev t = true /\
     forall s, In s before -> nisfin s = true -> nltb prev s = false) \/
  ((forall s, In s ts -> nisfin s = true -> nltb prev s = false) /\ exists after, ts = t :: after).

(** A line search along [path] (the projected gradient path from [y]): [slope p d]
    and [curv d] are the slope at [p] and the curvature it uses on the segment
    [d]. *)
Inductive searched {N : Num} (path : N -> list N) (slope : list N -> list N -> N) (curv : list N -> N)
    (y ts : list N) : N -> list N -> list N -> Prop :=
| s_uphill : forall prev p t,
    next_breakpoint ts prev t ->
    nltb (lit 0) (slope p (vsub (path t) y)) = true ->
    nltb t (ndiv (nneg (slope p (vsub (path t) y))) (curv (vsub (path t) y))) = false ->
    searched path slope curv y ts prev p (path prev)
| s_inside : forall prev p t,
    next_breakpoint ts prev t ->
    nltb (lit 0) (slope p (vsub (path t) y)) = false ->
    nltb t (ndiv (nneg (slope p (vsub (path t) y))) (curv (vsub (path t) y))) = false ->
    searched path slope curv y ts prev p
      (path (ndiv (nneg (slope p (vsub (path t) y))) (curv (vsub (path t) y))))
| s_both : forall prev p t,
    next_breakpoint ts prev t ->
    nltb (lit 0) (slope p (vsub (path t) y)) = true ->
    nltb t (ndiv (nneg (slope p (vsub (path t) y))) (curv (vsub (path t) y))) = true ->
    searched path slope curv y ts prev p (path t)
| s_last : forall prev p t,
    next_breakpoint ts prev t ->
    nltb t (ndiv (nneg (slope p (vsub (path t) y))) (curv (vsub (path t) y))) = true ->
    (forall s, In s ts -> nltb t s = false) ->
    searched path slope curv y ts prev p (path t)
| s_next : forall prev p t s x,
    next_breakpoint ts prev t ->
    nltb (lit 0) (slope p (vsub (path t) y)) = false ->
    nltb t (ndiv (nneg (slope p (vsub (path t) y))) (curv (vsub (path t) y))) = true ->
    In s ts -> nltb t s = true ->
    searched path slope curv y ts t (path t) x ->
    searched path slope curv y ts prev p x.
