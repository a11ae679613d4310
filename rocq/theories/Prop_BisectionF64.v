(** Property theorems: BisectionF64.
    Statements only; each is closed by the lemma of the same name (suffix _pf)
    in the proof file.  [Example]s show concrete cases meeting the hypotheses. *)

From Coq Require Import String List Bool Arith Lia ZArith QArith Qreals Reals Lra.
From Flocq Require Import Core.
From Flocq.IEEE754 Require Import BinarySingleNaN.
From Verif Require Import Num NumFacts Results Iterate Spec_Iterate Iterate_proofs.
From Verif Require Import Bisection Spec_Bisection Bisection_proofs NumF64 NumF64_facts F64Facts.
Import ListNotations.
Local Open Scope R_scope.
From Verif Require Import BisectionF64_proofs.

(** Whatever the function returns (NaN included), bisection in binary64 keeps a bracket of doubles, each
    inside the previous one and each containing the iterate; its width halves in every step up to
    rounding errors, so that it sinks to 2^-50 M, M bounding the two ends of the first bracket. *)
Theorem C87_stays_inside :
  forall (Aux : Type) (rtol atol : f64) flip expand bfuel (lower upper : f64)
         (fn : f64 -> f64 * Aux) (y0 : f64) fs auxs st0 (M : R),
    let s := bisection (N:=F64) rtol atol flip expand bfuel lower upper in
    s_init s fn y0 fs auxs = Ret st0 ->
    let l k : f64 := bis_lower (st_at s fn y0 st0 (auxs fill0) k) in
    let u k : f64 := bis_upper (st_at s fn y0 st0 (auxs fill0) k) in
    let y k : f64 := y_at s fn y0 st0 (auxs fill0) k in
    is_finite (l 0%nat) = true -> is_finite (u 0%nat) = true -> is_finite y0 = true ->
    Rabs (B2R (l 0%nat)) <= M -> Rabs (B2R (u 0%nat)) <= M -> M <= bpow radix2 1022 ->
    B2R (l 0%nat) <= B2R y0 <= B2R (u 0%nat) ->
    forall k,
      is_finite (l k) = true /\ is_finite (u k) = true /\ is_finite (y k) = true /\
      B2R (l k) <= B2R (y k) <= B2R (u k) /\
      B2R (l k) <= B2R (l (S k)) /\ B2R (u (S k)) <= B2R (u k) /\
      B2R (u (S k)) - B2R (l (S k)) <=
        (B2R (u 0%nat) - B2R (l 0%nat)) / 2 ^ k + (bpow radix2 (-50) * M + bpow radix2 (-1074)).
Proof. exact C87_stays_inside_pf. Qed.
Print Assumptions C87_stays_inside.

(** What a success means in binary64 (flip="detect", no expansion): two doubles l <= u in the given interval
    bracket a sign change of the computed function, the returned value lies between them, the computed
    value at one of them is below atol, and they are at most (1 + 2^-50) (atol + rtol |y|) + 2^-1074
    apart, y being that point. *)
Theorem C87_success :
  forall (Aux : Type) (rtol atol : f64) bfuel (lower upper : f64)
         (fn : f64 -> f64 * Aux) (y0 : f64) fs auxs fuel ms throw sol,
    let f x := fst (fn x) in
    let s := bisection (N:=F64) rtol atol Detect false bfuel lower upper in
    is_finite lower = true -> is_finite upper = true -> is_finite y0 = true -> is_finite rtol = true -> is_finite atol = true ->
    is_nan (f lower) = false -> is_nan (f upper) = false ->
    Rabs (B2R lower) <= bpow radix2 1022 -> Rabs (B2R upper) <= bpow radix2 1022 -> B2R lower <= B2R y0 <= B2R upper ->
    0 <= B2R rtol <= 1 -> 0 <= B2R atol <= bpow radix2 1022 ->
    iterative_solve (nisfin (n:=F64)) s fn fuel ms throw y0 fs auxs = Ret sol ->
    result sol = successful ->
    exists (flip : bool) (l u y : f64),
      sign_change (N:=F64) f flip l u /\
      B2R lower <= B2R l /\ B2R l <= B2R (value sol) <= B2R u /\ B2R u <= B2R upper /\
      (y = l \/ y = u) /\ Bltb (Babs (f y)) atol = true /\
      B2R u - B2R l <= (1 + bpow radix2 (-50)) * (B2R atol + B2R rtol * Rabs (B2R y)) + bpow radix2 (-1074).
Proof. exact C87_success_pf. Qed.
Print Assumptions C87_success.

(** Bisection in binary64 succeeds, and an explicit number of steps suffices: the computed function need only be
    below atol at any two doubles of the interval that bracket a sign change and are at most delta apart,
    delta a double below atol that is not below the rounding errors of the midpoints. *)
Theorem C87_terminates :
  forall (Aux : Type) (rtol atol delta : f64) bfuel (lower upper : f64)
         (fn : f64 -> f64 * Aux) (y0 : f64) fs auxs (M : R) (K : nat),
    let f x := fst (fn x) in
    let s := bisection (N:=F64) rtol atol Detect false bfuel lower upper in
    is_finite lower = true -> is_finite upper = true -> is_finite y0 = true -> is_finite rtol = true -> is_finite atol = true ->
    is_finite delta = true -> is_nan (f lower) = false -> is_nan (f upper) = false ->
    Rabs (B2R lower) <= M -> Rabs (B2R upper) <= M -> M <= bpow radix2 1022 -> B2R lower <= B2R y0 <= B2R upper ->
    0 <= B2R rtol <= 1 -> 0 <= B2R atol <= bpow radix2 1022 -> B2R delta < B2R atol ->
    Bltb (f lower) (f64_ofQ 0) <> Bltb (f upper) (f64_ofQ 0) ->
    (forall x x' : f64, is_finite x = true -> is_finite x' = true ->
       B2R lower <= B2R x <= B2R x' -> B2R x' <= B2R upper -> B2R x' - B2R x <= B2R delta ->
       Bltb (f x) (f64_ofQ 0) <> Bltb (f x') (f64_ofQ 0) ->
       Bltb (Babs (f x)) atol = true /\ Bltb (Babs (f x')) atol = true) ->
    (B2R upper - B2R lower) / 2 ^ K + (bpow radix2 (-50) * M + bpow radix2 (-1074)) <= B2R delta ->
    exists k, (k <= S K)%nat /\
      forall fuel ms throw, (k < fuel)%nat -> (forall m, ms = Some m -> (k <= m)%nat) ->
        exists sol, iterative_solve (nisfin (n:=F64)) s fn fuel ms throw y0 fs auxs = Ret sol /\ result sol = successful.
Proof. exact C87_terminates_pf. Qed.
Print Assumptions C87_terminates.

(** In particular it succeeds on every computed function that stays within eps of an L-Lipschitz one, provided
    2 eps + L delta is below atol. *)
Theorem C87_lipschitz :
  forall (Aux : Type) (rtol atol delta : f64) bfuel (lower upper : f64)
         (fn : f64 -> f64 * Aux) (y0 : f64) fs auxs (M : R) (K : nat) (F : R -> R) (L eps : R),
    let f x := fst (fn x) in
    let s := bisection (N:=F64) rtol atol Detect false bfuel lower upper in
    is_finite lower = true -> is_finite upper = true -> is_finite y0 = true -> is_finite rtol = true -> is_finite atol = true ->
    is_finite delta = true ->
    Rabs (B2R lower) <= M -> Rabs (B2R upper) <= M -> M <= bpow radix2 1022 -> B2R lower <= B2R y0 <= B2R upper ->
    0 <= B2R rtol <= 1 -> 0 <= B2R atol <= bpow radix2 1022 -> B2R delta < B2R atol ->
    (forall x, is_finite x = true -> B2R lower <= B2R x <= B2R upper ->
       is_finite (f x) = true /\ Rabs (B2R (f x) - F (B2R x)) <= eps) ->
    (forall a b, B2R lower <= a <= b -> b <= B2R upper -> Rabs (F b - F a) <= L * (b - a)) ->
    0 <= L -> 2 * eps + L * B2R delta < B2R atol ->
    (F (B2R lower) < - eps /\ eps <= F (B2R upper)) \/ (F (B2R upper) < - eps /\ eps <= F (B2R lower)) ->
    (B2R upper - B2R lower) / 2 ^ K + (bpow radix2 (-50) * M + bpow radix2 (-1074)) <= B2R delta ->
    exists k, (k <= S K)%nat /\
      forall fuel ms throw, (k < fuel)%nat -> (forall m, ms = Some m -> (k <= m)%nat) ->
        exists sol, iterative_solve (nisfin (n:=F64)) s fn fuel ms throw y0 fs auxs = Ret sol /\ result sol = successful.
Proof. exact C87_lipschitz_pf. Qed.
Print Assumptions C87_lipschitz.

(** An instance of the Lipschitz case: x * x - 2 on [1, 2], whose root is not a double. *)
Example C87_lipschitz_ex : forall bfuel fs,
  exists k, (k <= 15)%nat /\
    forall fuel ms throw, (k < fuel)%nat -> (forall m, ms = Some m -> (k <= m)%nat) ->
      exists sol, iterative_solve (nisfin (n:=F64))
          (bisection (N:=F64) (f64_ofQ 0) (f64_ofQ (1#1024)) Detect false bfuel (f64_ofQ 1) (f64_ofQ 2))
          (fun x => (fsub (fmul x x) (f64_ofQ 2), tt)) fuel ms throw (f64_ofQ 1) fs (fun _ => tt) = Ret sol /\
        result sol = successful.
Proof. exact C87_lipschitz_ex_pf. Qed.

Example C87_terminates_ex : forall x x' : f64, is_finite x = true -> is_finite x' = true ->
  let f x := fsub (fmul x x) (f64_ofQ 2) in
  B2R (f64_ofQ 1) <= B2R x <= B2R x' -> B2R x' <= B2R (f64_ofQ 2) -> B2R x' - B2R x <= B2R (f64_ofQ (1#8192)) ->
  Bltb (f x) (f64_ofQ 0) <> Bltb (f x') (f64_ofQ 0) ->
  Bltb (Babs (f x)) (f64_ofQ (1#1024)) = true /\ Bltb (Babs (f x')) (f64_ofQ (1#1024)) = true.
Proof. exact C87_terminates_ex_pf. Qed.

Example C87_success_ex : forall bfuel fs, exists fuel sol,
  iterative_solve (nisfin (n:=F64))
    (bisection (N:=F64) (f64_ofQ 0) (f64_ofQ (1#1024)) Detect false bfuel (f64_ofQ 1) (f64_ofQ 2))
    (fun x => (fsub (fmul x x) (f64_ofQ 2), tt)) fuel None true (f64_ofQ 1) fs (fun _ => tt) = Ret sol /\
  result sol = successful /\
  exists (flip : bool) (l u : f64), sign_change (N:=F64) (fun x => fsub (fmul x x) (f64_ofQ 2)) flip l u /\
    1 <= B2R l /\ B2R l <= B2R (value sol) <= B2R u /\ B2R u <= 2 /\ B2R u - B2R l <= / 1000.
Proof. exact C87_success_ex_pf. Qed.

(** An instance with a function that is NaN everywhere: the bracket stays a bracket. *)
Example C87_stays_inside_ex : forall bfuel fs k,
  let s := bisection (N:=F64) (f64_ofQ 0) (f64_ofQ (1#1024)) (Flip false) false bfuel (f64_ofQ 1) (f64_ofQ 2) in
  exists st0, s_init s (fun _ => (B754_nan, tt)) (f64_ofQ 1) fs (fun _ => tt) = Ret st0 /\
    let y := y_at s (fun _ => (B754_nan, tt)) (f64_ofQ 1) st0 tt k in is_finite y = true /\ 1 <= B2R y <= 2.
Proof. exact C87_stays_inside_ex_pf. Qed.
