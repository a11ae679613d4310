(** Property theorems: NelderMead.
    Statements only; each is closed by the lemma of the same name (suffix _pf)
    in the proof file.  [Example]s show concrete cases meeting the hypotheses. *)

From Coq Require Import String List Bool Arith Lia ZArith QArith Qreals Reals Lra Psatz.
From Verif Require Import Num NumFacts NumF64 NumF64_facts Vec Results Iterate Spec_Iterate Iterate_proofs.
From Verif Require Import Spec_Vec VecFacts Spec_Lin LinFacts LeastSquares_proofs BestSoFar RootFind Progress_proofs.
From Verif Require Import NelderMead Spec_NelderMead.
Import ListNotations.
Local Open Scope nat_scope.
From Verif Require Import NelderMead_proofs.

(** After at least one step the stored values are the function values at the stored
    vertices, in order. Missing from the full claim: the stored best vertex, for which
    it is false ([C47_stale_refuted]). *)
Theorem C47_values_partial :
  forall (N : Num) Aux (rtol atol : N) norm rdelta adelta shape (fn : list N -> N * Aux) (y0 : list N) fs auxs st0 (k : nat),
    let s := NelderMead rtol atol norm rdelta adelta shape in
    s_init s fn y0 fs auxs = Ret st0 -> 1 <= k ->
    let st := st_at s fn y0 st0 (auxs fill0) k in
    nm_f_simplex st = map (fun v => fst (fn v)) (nm_simplex st).
Proof. exact C47_values_partial_pf. Qed.
Print Assumptions C47_values_partial.

(** Exact arithmetic, any function, any number of steps: a set closed under
    p + t (q - r) that contains the initial vertices contains every vertex of
    every later simplex and every point handed back. *)
Theorem C48_affine :
  forall Aux (rtol atol : R) (norm : list R -> R) rdelta adelta shape (fn : list R -> R * Aux) (y0 : list R) fs auxs st0
         (d : nat) (A : list R -> Prop) (k : nat),
    let s := NelderMead (N:=RN) rtol atol norm rdelta adelta shape in
    s_init s fn y0 fs auxs = Ret st0 -> affine_set d A ->
    Forall A (initial_simplex (N:=RN) adelta rdelta shape y0) ->
    Forall A (nm_simplex (st_at s fn y0 st0 (auxs fill0) k)) /\
    A (y_at s fn y0 st0 (auxs fill0) (S k)).
Proof. exact C48_affine_pf. Qed.
Print Assumptions C48_affine.

(** As a linear functional: if w . v is the same at all initial vertices, it is
    the same at every later vertex and iterate. *)
Theorem C48_functional :
  forall Aux (rtol atol : R) (norm : list R -> R) rdelta adelta shape (fn : list R -> R * Aux) (y0 : list R) fs auxs st0
         (d : nat) (w : list R) (c : R) (k : nat),
    let s := NelderMead (N:=RN) rtol atol norm rdelta adelta shape in
    s_init s fn y0 fs auxs = Ret st0 ->
    Forall (fun v => length v = d /\ Rdot w v = c) (initial_simplex (N:=RN) adelta rdelta shape y0) ->
    Forall (fun v => Rdot w v = c) (nm_simplex (st_at s fn y0 st0 (auxs fill0) k)) /\
    Rdot w (y_at s fn y0 st0 (auxs fill0) (S k)) = c.
Proof. exact C48_functional_pf. Qed.
Print Assumptions C48_functional.

(** Example: the array (0, 0, 0) with displacements 1 gives the vertices (0, 1, 1),
    (1, 0, 0), (0, 0, 0), (0, 0, 0), on which x_2 - x_3 is constant. *)
Example C48_affine_ex :
  let A := fun v : list R => length v = 3 /\ Rdot [0; 1; -1]%R v = 0%R in
  affine_set 3 A /\ Forall A (initial_simplex (N:=RN) 1%R 0%R [3] [0; 0; 0]%R).
Proof. exact C48_affine_ex_pf. Qed.

(** A single array of d >= 3 entries, any y0, adelta, rdelta: some non-zero
    functional is constant on the initial simplex, so it does not span; and every
    iterate, for every function, stays in that hyperplane through y0. *)
Theorem C46_array_refuted :
  forall (adelta rdelta : R) (y0 : list R), 3 <= length y0 ->
    exists w, length w = length y0 /\ w <> zerov (length y0) /\
      Forall (fun v => Rdot w v = Rdot w y0) (initial_simplex (N:=RN) adelta rdelta [length y0] y0) /\
      ~ affinely_spans (length y0) (initial_simplex (N:=RN) adelta rdelta [length y0] y0) /\
      forall Aux (rtol atol : R) norm (fn : list R -> R * Aux) fs auxs st0 (k : nat),
        let s := NelderMead (N:=RN) rtol atol norm rdelta adelta [length y0] in
        s_init s fn y0 fs auxs = Ret st0 -> Rdot w (y_at s fn y0 st0 (auxs fill0) k) = Rdot w y0.
Proof. exact C46_array_refuted_pf. Qed.
Print Assumptions C46_array_refuted.

(** When every leaf of y0 is a scalar the initial simplex is the textbook one: d + 1
    vertices, vertex 0 is y0 and vertex i + 1 displaces coordinate i by
    adelta + rdelta y0_i. Missing from the full claim: array leaves, for which it is
    false ([C46_array_refuted]). *)
Theorem C46_scalar_leaves_partial :
  forall (N : Num) (adelta rdelta d : N) (y0 : list N),
    let simplex := initial_simplex adelta rdelta (repeat 1 (length y0)) y0 in
    length simplex = S (length y0) /\
    (forall v, v <= length y0 -> length (nth v simplex []) = length y0) /\
    (forall v i, v <= length y0 -> i < length y0 ->
       nth i (nth v simplex []) d =
       if v =? S i then nadd (nadd (nth i y0 d) adelta) (nmul rdelta (nth i y0 d)) else nth i y0 d).
Proof. exact C46_scalar_leaves_partial_pf. Qed.
Print Assumptions C46_scalar_leaves_partial.

(** Scalar leaves, exact arithmetic: if no displacement is zero the initial simplex
    affinely spans the space. Missing: array leaves and zero displacements, for which
    it is false ([C46_array_refuted], [C46_collapse_refuted]). *)
Theorem C46_scalar_leaves_span_partial :
  forall (adelta rdelta : R) (y0 : list R), Forall (fun x => adelta + rdelta * x <> 0)%R y0 ->
    affinely_spans (length y0) (initial_simplex (N:=RN) adelta rdelta (repeat 1 (length y0)) y0).
Proof. exact C46_scalar_leaves_span_partial_pf. Qed.
Print Assumptions C46_scalar_leaves_span_partial.

Example C46_scalar_leaves_span_ex : Forall (fun x => / 4000 + / 20 * x <> 0)%R [1; 2; 3; 4]%R.
Proof. exact C46_scalar_leaves_span_ex_pf. Qed.

Example C46_array_ex : 3 <= length [1; 2; 3]%R.
Proof. exact C46_array_ex_pf. Qed.

(** Started at the scalar -adelta/rdelta the two vertices coincide: whatever the
    function, the first termination test after one step reports success at the
    starting point (exact arithmetic). *)
Theorem C46_collapse_refuted :
  forall Aux (fn : list R -> R * Aux) (rtol atol adelta rdelta : R) fs auxs st0,
    (0 <= rtol)%R -> (0 < atol)%R -> rdelta <> 0%R ->
    let y0 := [(- (adelta / rdelta))%R] in
    let s := NelderMead (N:=RN) rtol atol (max_norm (N:=RN)) rdelta adelta [1] in
    s_init s fn y0 fs auxs = Ret st0 ->
    y_at s fn y0 st0 (auxs fill0) 1 = y0 /\
    s_terminate s fn y0 (st_at s fn y0 st0 (auxs fill0) 1) = (true, successful).
Proof. exact C46_collapse_refuted_pf. Qed.
Print Assumptions C46_collapse_refuted.

Example C46_collapse_ex :
  exists sol, iterative_solve (vallfinite (N:=F64)) (nm64 unit) to3 100 None true [f64_ofQ (-5#1000)] (fun _ => f64_ofZ 0) (fun _ => tt) = Ret sol /\
    (results_eqb (result sol) successful &&
     forallb (fun x => neqb (n:=F64) x (f64_ofQ (-5#1000))) (value sol)) = true.
Proof. exact C46_collapse_ex_pf. Qed.

(** leaves with n >= 2 vertices each: accepted iff the total dimension is 1 *)
Theorem C49_accepts_iff :
  forall (n : nat) (dims : list nat), 2 <= n -> dims <> [] ->
    (simplex_check (map (fun d => (n, d)) dims) = Ret n /\ fold_right Nat.add 0 dims = 1) \/
    (simplex_check (map (fun d => (n, d)) dims) = Raise ValueError /\ fold_right Nat.add 0 dims <> 1).
Proof. exact C49_accepts_iff_pf. Qed.
Print Assumptions C49_accepts_iff.

(** In particular every simplex of d+1 points of dimension d >= 2 is rejected. *)
Theorem C49_rejects_refuted :
  forall d, 2 <= d -> simplex_check [(S d, d)] = Raise ValueError.
Proof. exact C49_rejects_refuted_pf. Qed.
Print Assumptions C49_rejects_refuted.

Example C49_accepts_ex : 2 <= 3 /\ [2] <> [] /\ simplex_check [(2, 1)] = Ret 2 /\ simplex_check [(3, 2)] = Raise ValueError.
Proof. exact C49_accepts_ex_pf. Qed.

(** A pytree without leaves, or with two leaves of different leading lengths, is rejected. *)
Theorem C49_leading :
  forall leaves : list (nat * nat),
    leaves = [] \/ (exists a b, In a leaves /\ In b leaves /\ fst a <> fst b) -> simplex_check leaves = Raise ValueError.
Proof. exact C49_leading_pf. Qed.
Print Assumptions C49_leading.

Example C49_leading_ex : simplex_check [(2, 0); (3, 1)] = Raise ValueError /\ simplex_check [(2, 0); (2, 1)] = Ret 2.
Proof. exact C49_leading_ex_pf. Qed.

(** Exact arithmetic, after at least one step: the stored best value is the value
    at the vertex of the stored simplex with the stored index, and the least of
    all vertex values. (The full claim that the stored best *vertex* is that
    vertex is false, see below.) *)
Theorem C47_best_value_partial :
  forall Aux (rtol atol : R) norm rdelta adelta shape (fn : list R -> R * Aux) (y0 : list R) fs auxs st0 (k : nat),
    let s := NelderMead (N:=RN) rtol atol norm rdelta adelta shape in
    s_init s fn y0 fs auxs = Ret st0 -> 1 <= k ->
    let st := st_at s fn y0 st0 (auxs fill0) k in
    nm_best_index st < length (nm_simplex st) /\
    fst (fn (nth (nm_best_index st) (nm_simplex st) [])) = nm_f_best st /\
    Forall (fun v => (nm_f_best st <= fst (fn v) <= nm_f_worst st)%R) (nm_simplex st).
Proof. exact C47_best_value_partial_pf. Qed.
Print Assumptions C47_best_value_partial.

(** Over steps without a shrink, and over shrinks started from a stored best
    vertex that really is the best vertex of the simplex, the best value never
    increases. *)
Theorem C47_monotone_partial :
  forall Aux (rtol atol : R) norm rdelta adelta shape (fn : list R -> R * Aux) (y0 : list R) fs auxs st0 (k : nat),
    let s := NelderMead (N:=RN) rtol atol norm rdelta adelta shape in
    s_init s fn y0 fs auxs = Ret st0 -> 1 <= k -> y0 <> [] -> fold_right Nat.add 0 shape = length y0 ->
    let st := st_at s fn y0 st0 (auxs fill0) k in
    let st' := st_at s fn y0 st0 (auxs fill0) (S k) in
    n_shrink (nm_counts st') = n_shrink (nm_counts st) \/
      nm_best st = nth (nm_best_index st) (nm_simplex st) [] ->
    (nm_f_best st' <= nm_f_best st)%R.
Proof. exact C47_monotone_partial_pf. Qed.
Print Assumptions C47_monotone_partial.

Example C47_values_ex :
  let st := nm_unit_st to3 [f64_ofZ 0] 4 in
  (forallb (fun p => neqb (n:=F64) (fst (to3 (fst p))) (snd p)) (combine (nm_simplex st) (nm_f_simplex st)) &&
   (length (nm_simplex st) =? 2) && (n_shrink (nm_counts st) =? 0)%Z &&
   nltb (n:=F64) (nm_f_best st) (nm_f_best (nm_unit_st to3 [f64_ofZ 0] 1))) = true.
Proof. exact C47_values_ex_pf. Qed.

(** The stored best vertex is a vertex no longer in the simplex and its value is not
    the stored best value; it is also the iterate returned. *)
Theorem C47_stale_refuted :
  exists (fn : list f64 -> f64 * unit) (y0 : list f64) (k : nat),
    let st := nm_unit_st fn y0 k in
    1 <= k /\
    is1 1 (nm_best st) = true /\
    map (fun v => is1 0 v || is1 (-2) v) (nm_simplex st) = [true; true] /\
    nltb (n:=F64) (nm_f_best st) (fst (fn (nm_best st))) = true /\
    y_at nm_unit fn y0 (nm_start (initial_simplex (N:=F64) (f64_ofZ 1) (f64_ofZ 0) [1] y0) tt) tt k = nm_best st.
Proof. exact C47_stale_refuted_pf. Qed.
Print Assumptions C47_stale_refuted.

(** A shrink makes the best value go up. *)
Theorem C47_increase_refuted :
  exists (fn : list f64 -> f64 * unit) (y0 : list f64) (k : nat),
    1 <= k /\
    nltb (n:=F64) (nm_f_best (nm_unit_st fn y0 k)) (nm_f_best (nm_unit_st fn y0 (S k))) = true /\
    (n_shrink (nm_counts (nm_unit_st fn y0 (S k))) = n_shrink (nm_counts (nm_unit_st fn y0 k)) + 1)%Z.
Proof. exact C47_increase_refuted_pf. Qed.
Print Assumptions C47_increase_refuted.

(** Any ordered arithmetic. When NelderMead with the max norm reports success after
    at least one step, every vertex of the final simplex is within
    atol + rtol |y| of the returned point y in every coordinate, the vertex
    values are the values at the vertices, the best of them is finite, and all are
    within atol + rtol |f_best| of it. *)
Theorem C57_success_certificate :
  forall (N : Num) (HN : OrdLaws N), nltb (n:=N) (nofQ 0) (nofQ 1) = true ->
  forall Aux (rtol atol rdelta adelta : N) shape (fn : list N -> N * Aux) (y0 : list N) fs auxs allfinite fuel ms throw sol,
    let s := NelderMead rtol atol max_norm rdelta adelta shape in
    iterative_solve allfinite s fn fuel ms throw y0 fs auxs = Ret sol ->
    result sol = successful -> nm_step_count (state sol) <> 0 ->
    let y := value sol in
    let fb := nm_f_best (state sol) in
    nisfin fb = true /\
    Forall (fun v => Forall (fun r => nltb (nabs r) (nofQ 1) = true)
             (vdiv (vabs (vsub v y)) (map (fun b => nadd atol (nmul rtol (nabs b))) y))) (nm_simplex (state sol)) /\
    Forall (fun v => nltb (nabs (ndiv (nabs (nsub (fst (fn v)) fb)) (nadd atol (nmul rtol (nabs fb))))) (nofQ 1) = true) (nm_simplex (state sol)).
Proof. exact C57_success_certificate_pf. Qed.
Print Assumptions C57_success_certificate.

(** Example: the binary64 solve of (x - 3)^2 from 0 with default displacements. *)
Example C57_success_certificate_ex :
  exists sol, iterative_solve (vallfinite (N:=F64)) (nm64 unit) to3 100 None true [f64_ofZ 0] (fun _ => f64_ofZ 0) (fun _ => tt) = Ret sol /\
    (results_eqb (result sol) successful && negb (nm_step_count (state sol) =? 0) && nltb (n:=F64) (nofQ 0) (nofQ 1)) = true.
Proof. exact C57_success_certificate_ex_pf. Qed.

(** Divergence is reported, and only when the best stored value is not finite: a solve that has not
    stopped within j steps and whose best vertex value after step j + 1 is infinite or NaN stops there with
    `nonlinear_divergence` (`nonfinite` if the iterate it started from was not finite); with a finite best
    value the solver's own verdict is never a failure. *)
Theorem C57_divergence :
  forall (N : Num) Aux (rtol atol rdelta adelta : N) norm shape (fn : list N -> N * Aux) (y0 : list N) fs auxs allfinite st0 j,
    let s := NelderMead rtol atol norm rdelta adelta shape in
    s_init s fn y0 fs auxs = Ret st0 ->
    let fb := nm_f_best (st_at s fn y0 st0 (auxs fill0) (S j)) in
    (nisfin fb = true -> says_result s fn y0 st0 (auxs fill0) (S j) = successful) /\
    (nisfin fb = false -> (forall i, i <= j -> ~ stops allfinite s fn y0 st0 (auxs fill0) i) ->
     forall fuel ms, S j < fuel -> (forall m, ms = Some m -> S j <= m) ->
     let code := if allfinite (y_at s fn y0 st0 (auxs fill0) j) then nonlinear_divergence else nonfinite in
     (exists sol, iterative_solve allfinite s fn fuel ms false y0 fs auxs = Ret sol /\
        result sol = code /\ stats_get (sol_stats sol) "num_steps" = Some (Some (Z.of_nat (S j)))) /\
     iterative_solve allfinite s fn fuel ms true y0 fs auxs = Raise (SolveFailed code)).
Proof. exact C57_divergence_pf. Qed.
Print Assumptions C57_divergence.

(** Example: a function that is infinite everywhere diverges after the first step. *)
Example C57_divergence_ex :
  exists sol, iterative_solve (vallfinite (N:=F64)) (nm64 unit) (fun _ => (ninf (n:=F64), tt)) 100 None false [f64_ofZ 0] (fun _ => f64_ofZ 0) (fun _ => tt) = Ret sol /\
    (results_eqb (result sol) nonlinear_divergence && (nm_step_count (state sol) =? 1)) = true.
Proof. exact C57_divergence_ex_pf. Qed.

(** Minimising x from 0 with a budget of two steps returns 1. *)
Theorem C58_worse_than_start_refuted :
  exists (fn : list f64 -> f64 * unit) (y0 : list f64) sol,
    iterative_solve (vallfinite (N:=F64)) nm_unit fn 3 (Some 2) false y0 (fun _ => f64_ofZ 0) (fun _ => tt) = Ret sol /\
    result sol = nonlinear_max_steps_reached /\
    nltb (n:=F64) (fst (fn y0)) (fst (fn (value sol))) = true /\
    vallfinite (N:=F64) (value sol) = true.
Proof. exact C58_worse_than_start_refuted_pf. Qed.
Print Assumptions C58_worse_than_start_refuted.

(** BestSoFarMinimiser(NelderMead) returns y0 for every function that is nowhere
    negative, whatever the solve did: NelderMead's first step hands back an aux of
    zeros, which BestSoFar books as loss 0 of y0. *)
Theorem C11_nelder_mead_refuted :
  forall (N : Num) Aux (rtol atol : N) norm rdelta adelta shape (fn : list N -> N * Aux) (y0 : list N) fs auxs
         allfinite fuel ms throw sol,
    nltb (n:=N) (nofQ 0) ninf = true -> fs fill0 = nofQ 0 ->
    (forall v, nltb (fst (fn v)) (nofQ 0) = false) ->
    let s := best_so_far loss_minimiser (NelderMead rtol atol norm rdelta adelta shape) in
    iterative_solve allfinite s fn fuel ms throw y0 fs auxs = Ret sol ->
    value sol = y0.
Proof. exact C11_nelder_mead_refuted_pf. Qed.
Print Assumptions C11_nelder_mead_refuted.

(** Example: minimising (x - 3)^2 >= 0 from 0 converges (C57's example); wrapped in
    BestSoFarMinimiser it returns 0. *)
Example C11_nelder_mead_ex :
  nltb (n:=F64) (nofQ 0) ninf = true /\ exists sol, iterative_solve (vallfinite (N:=F64)) (best_so_far loss_minimiser (nm64 (f64 * unit)%type)) to3 100 None true [f64_ofZ 0] (fun _ => f64_ofZ 0) (fun _ => tt) = Ret sol /\ (results_eqb (result sol) successful && is1 0 (value sol)) = true.
Proof. exact C11_nelder_mead_ex_pf. Qed.
