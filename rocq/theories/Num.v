(** Scalars.

    Every solver model in this development is written once, against the record
    [Num] of scalar operations, and is then instantiated with

    - [RN]  : exact real numbers (division totalised as in Coq.Reals; theorems
              stated for [RN] always also show that the divisors they use are
              non-zero or mention it as a hypothesis);
    - [XR]  : exact real numbers extended with +infinity, -infinity and NaN,
              following the IEEE-754 rules for special values, without rounding
              and without signed zeros (a zero divisor counts as +0);
    - [F64] : IEEE-754 binary64 with round-to-nearest-even, from Flocq (file
              [NumF64.v]).

    Models: the array scalar dtype and `jax.numpy` scalar operations used
    throughout /repo/optimistix. *)

From Coq Require Import Reals QArith Qreals ZArith List Bool.
Import ListNotations.

(** Scalar operations.  [ltb], [leb], [eqb] are the array comparisons `<`,
    `<=`, `==` (false on NaN); `a > b` is written [ltb b a].  [ofQ] gives the
    meaning of Python numeric literals. (interface; see e.g. _misc.py 291-310 for their use). *)
Record Num : Type := mkNum {
  T    :> Type;
  nadd : T -> T -> T;
  nsub : T -> T -> T;
  nmul : T -> T -> T;
  ndiv : T -> T -> T;
  nneg : T -> T;
  nabs : T -> T;
  nsqrt : T -> T;
  nltb : T -> T -> bool;
  nleb : T -> T -> bool;
  neqb : T -> T -> bool;
  nisfin : T -> bool;
  ninf : T;
  nofQ : Q -> T
}.

Arguments nadd {_}. Arguments nsub {_}. Arguments nmul {_}. Arguments ndiv {_}.
Arguments nneg {_}. Arguments nabs {_}. Arguments nsqrt {_}.
Arguments nltb {_}. Arguments nleb {_}. Arguments neqb {_}.
Arguments nisfin {_}. Arguments ninf {_}. Arguments nofQ {_}.

Declare Scope num_scope.
Delimit Scope num_scope with num.
Infix "+" := nadd : num_scope.
Infix "-" := nsub : num_scope.
Infix "*" := nmul : num_scope.
Infix "/" := ndiv : num_scope.
Notation "- x" := (nneg x) : num_scope.
Infix "<?" := nltb : num_scope.
Infix "<=?" := nleb : num_scope.
Infix "=?" := neqb : num_scope.
Notation lit q := (nofQ q%Q).

Section Derived.
  Context {N : Num}.
  Local Open Scope num_scope.

  (** `jnp.isnan` (NaN handling of `lax.top_k`, nelder_mead.py 383-385) *)
  Definition nisnan (x : N) : bool := negb (x =? x).

  (** `jnp.maximum`, `jnp.minimum`: NaN-propagating. (e.g. newton_chord.py 128-133). *)
  Definition nmax (a b : N) : N :=
    if nisnan a then a else if nisnan b then b else if a <? b then b else a.
  (** `jnp.minimum`, cauchy_point.py 50. *)
  Definition nmin (a b : N) : N :=
    if nisnan a then a else if nisnan b then b else if b <? a then b else a.

  (** `jnp.clip(x, min=l, max=u)` = `minimum(maximum(x, l), u)`. _misc.py 124, 201. *)
  Definition nclip (x l u : N) : N := nmin (nmax x l) u.

  (** `jnp.where(p, a, b)` on scalars. (e.g. _misc.py 194). *)
  Definition nwhere {A : Type} (p : bool) (a b : A) : A := if p then a else b.
End Derived.

(** ** Instance: exact reals (`<`) *)

Definition Rltb (a b : R) : bool := if Rlt_dec a b then true else false.
(** `<=` on reals (arithmetic of the code in exact mode; no line of its own). *)
Definition Rleb (a b : R) : bool := if Rle_dec a b then true else false.
(** `==` on reals. *)
Definition Reqb (a b : R) : bool := if Req_EM_T a b then true else false.

(** [ninf] is meaningless in [RN]; no theorem about [RN] uses it. *)
Definition RN : Num :=
  mkNum R Rplus Rminus Rmult Rdiv Ropp Rabs sqrt Rltb Rleb Reqb
        (fun _ => true) 0%R Q2R.

(** ** Instance: extended reals with NaN (the values an array entry can take when rounding is left out) *)

Inductive xr : Type := Fin (r : R) | PInf | NInf | NaN.

(** `-x` on extended reals, IEEE rules without signed zero (used e.g. at _misc.py 194). *)
Definition xneg (a : xr) : xr :=
  match a with Fin x => Fin (- x) | PInf => NInf | NInf => PInf | NaN => NaN end.

(** `+` on extended reals (e.g. _misc.py 306). *)
Definition xadd (a b : xr) : xr :=
  match a, b with
  | Fin x, Fin y => Fin (x + y)
  | NaN, _ | _, NaN => NaN
  | PInf, NInf | NInf, PInf => NaN
  | PInf, _ | _, PInf => PInf
  | NInf, _ | _, NInf => NInf
  end.

(** `-` on extended reals (e.g. fixed_point.py 65). *)
Definition xsub (a b : xr) : xr := xadd a (xneg b).

(** Infinity with the sign of [x]; NaN when [x = 0]. (IEEE division by zero and products with infinities). *)
Definition xsgn_inf (x : R) : xr :=
  if Rlt_dec 0 x then PInf else if Rlt_dec x 0 then NInf else NaN.

(** `*` on extended reals (e.g. _misc.py 306). *)
Definition xmul (a b : xr) : xr :=
  match a, b with
  | Fin x, Fin y => Fin (x * y)
  | NaN, _ | _, NaN => NaN
  | Fin x, PInf | PInf, Fin x => xsgn_inf x
  | Fin x, NInf | NInf, Fin x => xneg (xsgn_inf x)
  | PInf, PInf | NInf, NInf => PInf
  | PInf, NInf | NInf, PInf => NInf
  end.

(** `/` on extended reals (e.g. _misc.py 308). *)
Definition xdiv (a b : xr) : xr :=
  match a, b with
  | Fin x, Fin y => if Req_EM_T y 0 then xsgn_inf x else Fin (x / y)
  | NaN, _ | _, NaN => NaN
  | Fin _, _ => Fin 0
  | PInf, Fin y => if Rlt_dec y 0 then NInf else PInf
  | NInf, Fin y => if Rlt_dec y 0 then PInf else NInf
  | _, _ => NaN
  end.

(** `jnp.abs`, _misc.py 306-309. *)
Definition xabs (a : xr) : xr :=
  match a with Fin x => Fin (Rabs x) | NaN => NaN | _ => PInf end.

(** `jnp.sqrt`, dogleg.py 161. *)
Definition xsqrt (a : xr) : xr :=
  match a with
  | Fin x => if Rlt_dec x 0 then NaN else Fin (sqrt x)
  | PInf => PInf
  | _ => NaN
  end.

(** `<`, false on NaN (e.g. _misc.py 308). *)
Definition xltb (a b : xr) : bool :=
  match a, b with
  | NaN, _ | _, NaN => false
  | Fin x, Fin y => Rltb x y
  | NInf, NInf => false
  | NInf, _ => true
  | _, NInf => false
  | PInf, _ => false
  | Fin _, PInf => true
  end.

(** `==`, false on NaN (e.g. cauchy_point.py 39, negated). *)
Definition xeqb (a b : xr) : bool :=
  match a, b with
  | Fin x, Fin y => Reqb x y
  | PInf, PInf | NInf, NInf => true
  | _, _ => false
  end.

(** `<=`, false on NaN (e.g. cauchy_point.py 38). *)
Definition xleb (a b : xr) : bool := xltb a b || xeqb a b.

(** `jnp.isfinite`, _misc.py 86. *)
Definition xisfin (a : xr) : bool := match a with Fin _ => true | _ => false end.

(** The extended reals as scalars. *)
Definition XR : Num :=
  mkNum xr xadd xsub xmul xdiv xneg xabs xsqrt xltb xleb xeqb
        xisfin PInf (fun q => Fin (Q2R q)).

(** Let Coq infer the instance from the carrier. *)
Canonical Structure RN.
Canonical Structure XR.
