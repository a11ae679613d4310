(** Property theorems: NMConvex.
    Statements only; each is closed by the lemma of the same name (suffix _pf)
    in the proof file.  [Example]s show concrete cases meeting the hypotheses. *)

From Coq Require Import String List Bool Arith Lia ZArith QArith Qreals Reals Lra Psatz.
From Verif Require Import Num NumFacts NumDiv NumF64 NumF64_facts Vec Results Iterate Spec_Iterate Iterate_proofs.
From Verif Require Import Spec_Vec VecFacts Spec_Lin LinFacts NelderMead Spec_NelderMead NelderMead_proofs.
From Verif Require Import Spec_BFGSConv Spec_Steps Spec_NMConvex.
Import ListNotations.
Local Open Scope nat_scope.
From Verif Require Import NMConvex_proofs.

(** Nelder-Mead is not a convergent method, even on functions that are strongly convex and smooth, the class
    on which gradient descent and BFGS converge globally and linearly (C83, C84).  For every choice of
    tolerances, of the size of the initial simplex and of a bound B there is such a function of two unknowns
    on which the solve started from (0, 0) stops with success and returns (0, 0), although the function has a
    value smaller by B elsewhere. *)
Theorem C108_strongly_convex_refuted :
  forall (rtol atol rdelta adelta B : R) fs auxs,
    (0 <= rtol)%R -> (0 < atol)%R -> (0 < adelta)%R -> (0 < B)%R ->
    let s := NelderMead (Fin rtol) (Fin atol) (max_norm (N:=XR)) (Fin rdelta) (Fin adelta) [2] in
    exists (f : list R -> R) (g : list R -> list R) (mu L : R) (z : list R),
      (0 < mu)%R /\ strongly_convex 2 mu f g /\ smooth 2 L f g /\
      length z = 2 /\ f z = (f [0; 0] - B)%R /\
      exists K, forall fuel ms throw, K < fuel -> (forall m, ms = Some m -> K <= m) ->
        exists sol, iterative_solve vallfinite s (objective f) fuel ms throw [Fin 0; Fin 0] fs auxs = Ret sol /\
          result sol = successful /\ value sol = [Fin 0; Fin 0].
Proof. exact C108_strongly_convex_refuted_pf. Qed.
Print Assumptions C108_strongly_convex_refuted.

(** The simplex the code uses by default, tolerances of one in a million, and a minimum a million lower. *)
Example C108_strongly_convex_refuted_ex : forall fs auxs,
    let s := NelderMead (Fin (/ 1000000)) (Fin (/ 1000000)) (max_norm (N:=XR)) (Fin (5 / 100)) (Fin (25 / 100000)) [2] in
    exists (f : list R -> R) (g : list R -> list R) (mu L : R) (z : list R),
      (0 < mu)%R /\ strongly_convex 2 mu f g /\ smooth 2 L f g /\ length z = 2 /\ f z = (f [0; 0] - 1000000)%R /\
      exists K sol, iterative_solve vallfinite s (objective f) (S K) (Some K) true [Fin 0; Fin 0] fs auxs = Ret sol /\
        result sol = successful /\ value sol = [Fin 0; Fin 0].
Proof. exact C108_strongly_convex_refuted_ex_pf. Qed.
