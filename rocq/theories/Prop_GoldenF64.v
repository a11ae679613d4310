(** Property theorems: GoldenF64.
    Statements only; each is closed by the lemma of the same name (suffix _pf)
    in the proof file.  [Example]s show concrete cases meeting the hypotheses. *)

From Coq Require Import ZArith Reals QArith Bool Lra Lia List.
From Flocq Require Import Core Plus_error.
From Flocq.IEEE754 Require Import BinarySingleNaN.
From Verif Require Import Num NumFacts NumF64 NumF64_facts F64Facts Vec Results Iterate Spec_Iterate Iterate_proofs.
From Verif Require Import Golden Spec_Golden.
Import ListNotations.
Local Open Scope R_scope.
From Verif Require Import GoldenF64_proofs.

(** The certificate of C20 fails in binary64.  The computed function |x - c| falls up to c, rises
    after it and is least at c only; the search for its minimum on [0, 1] reports success; the value
    returned is more than 18 tolerances away from c, where exact arithmetic (C20) promises at most
    phi^2 < 2.62 of them. *)
Theorem C89_success_near_minimum_refuted :
  exists (tol c : f64) sol,
    let f := fun x : f64 => Babs (fsub x c) in
    is_finite tol = true /\ 0 < B2R tol /\ is_finite c = true /\ 0 < B2R c < 1 /\
    (forall p q : f64, is_finite p = true -> is_finite q = true ->
       0 <= B2R p -> B2R p <= B2R q -> B2R q <= B2R c -> B2R (f q) <= B2R (f p)) /\
    (forall p q : f64, is_finite p = true -> is_finite q = true ->
       B2R c <= B2R p -> B2R p <= B2R q -> B2R q <= 1 -> B2R (f p) <= B2R (f q)) /\
    (forall p : f64, is_finite p = true -> 0 <= B2R p <= 1 -> B2R p <> B2R c -> B2R (f c) < B2R (f p)) /\
    iterative_solve (nisfin (n:=F64)) (golden (N:=F64) (f64_ofQ 0) tol (f64_ofQ 0) (f64_ofQ 1))
      (fun x => (f x, tt)) 60 (Some 59%nat) true (f64_ofQ 0) (fun _ => f64_ofQ 0) (fun _ => tt) = Ret sol /\
    result sol = successful /\
    Rabs (B2R (value sol : f64) - B2R c) > 18 * B2R tol.
Proof. exact C89_success_near_minimum_refuted_pf. Qed.
Print Assumptions C89_success_near_minimum_refuted.

(** The bracket in binary64, on [0, upper].  As long as the middle point has not met the lower end,
    the three points stay ordered doubles inside [0, upper], the bracket only shrinks, and every point
    tried lies in it.  If moreover the two inner points have been distinct and the computed function
    falls strictly up to the double x and rises strictly after it, x is still in the bracket.  Missing from the full claim: nothing is said
    once the points meet (false then: C89_bracket_refuted), nor of the distance to x on success
    (false: C89_success_near_minimum_refuted). *)
Theorem C89_bracket_partial :
  forall (Aux : Type) (rtol atol upper : f64) (fn : f64 -> f64 * Aux) (y0 : f64) (a0 : Aux) fs auxs st0 k,
    let s := golden (N:=F64) rtol atol (f64_ofQ 0) upper in
    let f := fun x => fst (fn x) in
    let lo := fun j => B2R (gs_lower (st_at s fn y0 st0 a0 j) : f64) in
    let mid := fun j => B2R (gs_middle (st_at s fn y0 st0 a0 j) : f64) in
    let up := fun j => B2R (gs_upper (st_at s fn y0 st0 a0 j) : f64) in
    let y := fun j => y_at s fn y0 st0 a0 j : f64 in
    is_finite upper = true -> 0 < B2R upper <= bpow radix2 1022 ->
    s_init s fn y0 fs auxs = Ret st0 ->
    (forall j, (j <= k)%nat -> lo j < mid j) ->
    0 <= lo k /\ lo k <= mid k <= up k /\ up k <= B2R upper /\
    (forall j, (j < k)%nat -> lo j <= lo (S j) /\ up (S j) <= up j) /\
    (forall j, (0 < j <= k)%nat -> is_finite (y j) = true /\ lo j <= B2R (y j) <= up j) /\
    (forall x : f64, is_finite x = true -> 0 <= B2R x <= B2R upper ->
      (forall j, (0 < j < k)%nat -> B2R (y j) <> mid j) ->
      B2R (fadd (f64_ofQ 0) (fsub upper (gs_middle st0))) <> mid 0%nat ->
      (forall p q : f64, is_finite p = true -> is_finite q = true ->
         0 <= B2R p -> B2R p < B2R q -> B2R q <= B2R x -> Bltb (f q) (f p) = true) ->
      (forall p q : f64, is_finite p = true -> is_finite q = true ->
         B2R x <= B2R p -> B2R p < B2R q -> B2R q <= B2R upper -> Bltb (f p) (f q) = true) ->
      lo k <= B2R x <= up k).
Proof. exact C89_bracket_partial_pf. Qed.
Print Assumptions C89_bracket_partial.

(** When the two inner points coincide the step keeps the lower part of the bracket, whichever part
    holds the minimum: the search for the minimum of the computed |x - c| on [0, 1] with tolerance
    2^-52 reports success with c more than 6 tolerances above its final bracket. *)
Theorem C89_bracket_refuted :
  exists (tol c : f64) sol,
    is_finite tol = true /\ 0 < B2R tol /\ is_finite c = true /\ 0 < B2R c < 1 /\
    iterative_solve (nisfin (n:=F64)) (golden (N:=F64) (f64_ofQ 0) tol (f64_ofQ 0) (f64_ofQ 1))
      (fun x => (Babs (fsub x c), tt)) 120 (Some 119%nat) true (f64_ofQ 0) (fun _ => f64_ofQ 0) (fun _ => tt) = Ret sol /\
    result sol = successful /\
    B2R c > B2R (gs_upper (state sol) : f64) + 6 * B2R tol.
Proof. exact C89_bracket_refuted_pf. Qed.
Print Assumptions C89_bracket_refuted.

(** The hypotheses of C89_bracket_partial hold for five steps on the function falling to -1 at 1 and jumping
    up after it, on [0, 2]. *)
Example C89_bracket_ex :
  let fn := fun x : f64 => (if Bltb (f64_ofQ 1) x then x else Bopp x, tt) in
  let s := golden (N:=F64) (f64_ofQ 0) (f64_ofQ (1#1024)) (f64_ofQ 0) (f64_ofQ 2) in
  exists st0, s_init s fn (f64_ofQ 0) (fun _ => f64_ofQ 0) (fun _ => tt) = Ret st0 /\
    let st := st_at s fn (f64_ofQ 0) st0 tt 5 in
    B2R (gs_lower st : f64) <= 1 <= B2R (gs_upper st : f64) /\
    Bltb (fsub (gs_upper st) (gs_lower st)) (f64_ofQ (1#5)) = true.
Proof. exact C89_bracket_ex_pf. Qed.
