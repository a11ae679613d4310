(** Property theorems: Aux.
    Statements only; each is closed by the lemma of the same name (suffix _pf)
    in the proof file.  [Example]s show concrete cases meeting the hypotheses. *)

From Coq Require Import String List Bool Arith Lia ZArith QArith Reals.
From Verif Require Import Num NumF64 Vec Results Iterate Spec_Iterate Iterate_proofs.
From Verif Require Import FixedPoint Bisection Golden NewtonChord Search Descent Minimisers Solvers Optax NelderMead RootFind.
From Verif Require Import Spec_Search Minimisers_proofs Spec_Tolerance Tolerance_proofs Spec_Resume Spec_Aux.
Import ListNotations.
Local Open Scope nat_scope.
From Verif Require Import Aux_proofs.

(** For every solver but GoldenSearch, NelderMead and the BestSoFar wrappers, the aux of a solution belongs to the point
    its last step started from: the value the same solve returns with one step fewer.  Without any step it is the
    placeholder of zeros. *)
Theorem C119_aux :
  forall (N : Num) Y Out Aux allfinite (s : Solver Y Out Aux) fn fuel ms throw y0 fs auxs sol, ordinary (N:=N) Y Out Aux s ->
    iterative_solve allfinite s fn fuel ms throw y0 fs auxs = Ret sol ->
    (took sol 0 -> aux sol = auxs fill0) /\
    forall k, took sol (1 + k) -> exists sol', iterative_solve allfinite s fn fuel (Some k) false y0 fs auxs = Ret sol' /\
      aux sol = snd (fn (value sol')).
Proof. exact C119_aux_pf. Qed.
Print Assumptions C119_aux.

(** GoldenSearch: from the second step on likewise.  A single step evaluates lower + (upper - middle), whatever y0 is. *)
Theorem C119_golden :
  forall (N : Num) Aux allfinite rtol atol lower upper (fn : N -> N * Aux) fuel ms throw y0 fs auxs sol,
    let s := golden rtol atol lower upper in
    iterative_solve allfinite s fn fuel ms throw y0 fs auxs = Ret sol ->
    (took sol 0 -> aux sol = auxs fill0) /\
    (took sol 1 -> aux sol = snd (fn (lower + (upper - (upper - lower) / (golden_ratio + lit 1)))%num)) /\
    forall k, took sol (2 + k) -> exists sol', iterative_solve allfinite s fn fuel (Some (1 + k)) false y0 fs auxs = Ret sol' /\
      aux sol = snd (fn (value sol')).
Proof. exact C119_golden_pf. Qed.
Print Assumptions C119_golden.

(** NelderMead: the first step leaves the placeholder, later steps give the aux of the vertex they tried, whether or not
    it became part of the simplex. *)
Theorem C119_nelder_mead :
  forall (N : Num) Aux allfinite rtol atol norm rdelta adelta shape (fn : list N -> N * Aux) fuel ms throw y0 fs auxs sol,
    let s := NelderMead rtol atol norm rdelta adelta shape in
    iterative_solve allfinite s fn fuel ms throw y0 fs auxs = Ret sol ->
    (took sol 0 \/ took sol 1 -> aux sol = auxs fill0) /\
    forall k, took sol (2 + k) -> exists v, aux sol = snd (fn v).
Proof. exact C119_nelder_mead_pf. Qed.
Print Assumptions C119_nelder_mead.

(** Newton on x^2 from 1 with aux = x: four steps lead to 1/16, and the solve that succeeds after five has aux 1/16 *)
Example C119_aux_ex :
  let solve ms := iterative_solve (vallfinite (N:=F64)) (newton_chord self64_slope over64 (sq64_params true)) self64 9 (Some ms) false [f64_ofQ 1] (fun _ => [f64_ofQ 0]) (fun _ => [f64_ofQ 0]) in
  exists sol sol', solve 8 = Ret sol /\ result sol = successful /\ took sol 5 /\ solve 4 = Ret sol' /\ aux sol = value sol' /\ is1 (1#16) (aux sol) = true.
Proof. exact C119_aux_ex_pf. Qed.

(** So aux need not belong to the returned value: that Newton solve reports success with value 1/32 and the aux of
    1/16. *)
Theorem C119_not_at_value :
  let solve := iterative_solve (vallfinite (N:=F64)) (newton_chord self64_slope over64 (sq64_params true)) self64 9 (Some 8) true [f64_ofQ 1] (fun _ => [f64_ofQ 0]) (fun _ => [f64_ofQ 0]) in
  exists sol, solve = Ret sol /\ result sol = successful /\ took sol 5 /\
    (exists x, value sol = [x] /\ neqb (n:=F64) x (f64_ofQ (1#32)) = true) /\ exists x, aux sol = [x] /\ neqb (n:=F64) x (f64_ofQ (1#16)) = true.
Proof. exact C119_not_at_value_pf. Qed.
Print Assumptions C119_not_at_value.

(** GoldenSearch on [0, 1] from y0 = 1/2 with one step: the aux is not that of y0, and not that of the value either *)
Example C119_golden_ex :
  let solve := iterative_solve (nisfin (n:=F64)) (golden (f64_ofQ 0) (f64_ofQ (1#100)) (f64_ofQ 0) (f64_ofQ 1)) self64_scalar 9 (Some 1) false (f64_ofQ (1#2)) (fun _ => f64_ofQ 0) (fun _ => f64_ofQ 0) in
  exists sol, solve = Ret sol /\ took sol 1 /\ nltb (n:=F64) (value sol) (f64_ofQ (1#2)) = true /\ nltb (n:=F64) (f64_ofQ (1#2)) (aux sol) = true.
Proof. exact C119_golden_ex_pf. Qed.

(** NelderMead with loose tolerances reports success after one step; the aux is the placeholder 0, although the
    auxiliary output of the function is 1 everywhere. *)
Theorem C119_placeholder :
  let solve := iterative_solve (vallfinite (N:=F64)) (NelderMead (f64_ofQ 0) (f64_ofQ 1) (max_norm (N:=F64)) (f64_ofQ (1#20)) (f64_ofQ (1#1000)) [1]) one64 9 (Some 8) true [f64_ofQ 0] (fun _ => f64_ofQ 0) (fun _ => f64_ofQ 0) in
  (forall y, snd (one64 y) = f64_ofQ 1) /\
  exists sol, solve = Ret sol /\ result sol = successful /\ took sol 1 /\ aux sol = f64_ofQ 0.
Proof. exact C119_placeholder_pf. Qed.
Print Assumptions C119_placeholder.

(** NelderMead on x^2 from 1 with aux = x: after two steps the aux is that of a vertex the second step tried *)
Example C119_nelder_mead_ex :
  let fn y := (nth 0 (fst (self64 y)) (f64_ofQ 0), y) in
  let solve := iterative_solve (vallfinite (N:=F64)) (NelderMead (f64_ofQ 0) (f64_ofQ (1#1000)) (max_norm (N:=F64)) (f64_ofQ (1#20)) (f64_ofQ (1#1000)) [1]) fn 9 (Some 2) false [f64_ofQ 1] (fun _ => f64_ofQ 0) (fun _ => [f64_ofQ 0]) in
  exists sol v, solve = Ret sol /\ took sol 2 /\ aux sol = snd (fn v) /\ negb (is1 0 v) = true.
Proof. exact C119_nelder_mead_ex_pf. Qed.
