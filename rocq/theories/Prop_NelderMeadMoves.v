(** Property theorems: NelderMeadMoves.
    Statements only; each is closed by the lemma of the same name (suffix _pf)
    in the proof file.  [Example]s show concrete cases meeting the hypotheses. *)

From Coq Require Import String List Bool Arith Lia ZArith QArith Qreals Reals Lra Psatz.
From Verif Require Import Num NumFacts NumF64 NumF64_facts Vec Results Iterate Spec_Iterate Iterate_proofs.
From Verif Require Import Spec_Vec VecFacts Spec_Lin LinFacts LeastSquares_proofs.
From Verif Require Import NelderMead Spec_NelderMead NelderMead_proofs.
Import ListNotations.
Local Open Scope nat_scope.
From Verif Require Import NelderMeadMoves_proofs.

(** Exact arithmetic, after the first step: the worst value is the value at the
    vertex with the stored index, the second worst is the greatest of the others, and
    best <= second worst <= worst. *)
Theorem C73_order :
  forall Aux (rtol atol : R) norm rdelta adelta shape (fn : list R -> R * Aux) (y0 : list R) fs auxs st0 (k : nat),
    let s := NelderMead (N:=RN) rtol atol norm rdelta adelta shape in
    s_init s fn y0 fs auxs = Ret st0 -> 1 <= k -> y0 <> [] ->
    let st := st_at s fn y0 st0 (auxs fill0) k in
    let F (j : nat) : R := fst (fn (nth j (nm_simplex st) [])) in
    length (nm_simplex st) = S (length y0) /\ nm_worst_index st <= length y0 /\
    F (nm_worst_index st) = nm_f_worst st /\
    (exists j, j <> nm_worst_index st /\ j <= length y0 /\ F j = nm_second_worst st) /\
    (forall j, j <> nm_worst_index st -> j <= length y0 -> (F j <= nm_second_worst st)%R) /\
    (nm_f_best st <= nm_second_worst st <= nm_f_worst st)%R.
Proof. exact C73_order_pf. Qed.
Print Assumptions C73_order.

(** Exact arithmetic, every step after the first: with w the stored worst vertex, c the
    centroid of the simplex without w, fr the value at the reflected point c + (c - w)
    and rho the textbook move, the new vertex is c + rho (c - w); if its value is not
    above the worst it replaces the vertex at the worst index and nothing else changes,
    otherwise every vertex moves half way to the stored best vertex. *)
Theorem C73_move :
  forall Aux (rtol atol : R) norm rdelta adelta shape (fn : list R -> R * Aux) (y0 : list R) fs auxs st0 (k : nat),
    let s := NelderMead (N:=RN) rtol atol norm rdelta adelta shape in
    s_init s fn y0 fs auxs = Ret st0 -> 1 <= k -> y0 <> [] -> fold_right Nat.add 0 shape = length y0 ->
    let st := st_at s fn y0 st0 (auxs fill0) k in
    let st' := st_at s fn y0 st0 (auxs fill0) (S k) in
    let f v := fst (fn v) in
    let vs := nm_simplex st in let w := nm_worst st in
    let c := centroid_without (length y0) vs w in
    let fr := f (beyond c w 1) in
    let rho := textbook_move (nm_f_best st) (nm_second_worst st) (nm_f_worst st) fr in
    let new := beyond c w rho in
    ((f new <= nm_f_worst st)%R ->
       nm_simplex st' = firstn (nm_worst_index st) vs ++ new :: skipn (S (nm_worst_index st)) vs) /\
    ((nm_f_worst st < f new)%R ->
       nm_simplex st' = map (fun a => Radd_v (nm_best st) (Rscal (/ 2) (Rsub_v a (nm_best st)))) vs) /\
    n_shrink (nm_counts st') = (n_shrink (nm_counts st) + count_if (Rlt_dec (nm_f_worst st) (f new)))%Z.
Proof. exact C73_move_pf. Qed.
Print Assumptions C73_move.

(** The counters, exact arithmetic: none has been counted after the first step; from
    then on each step counts an expansion when fr < best, a reflection when
    best < fr < second worst, an inner contraction when worst < fr, and, under the name
    of outer contractions, the steps with best <= fr <= second worst. *)
Theorem C73_counters_partial :
  forall Aux (rtol atol : R) norm rdelta adelta shape (fn : list R -> R * Aux) (y0 : list R) fs auxs st0 (k : nat),
    let s := NelderMead (N:=RN) rtol atol norm rdelta adelta shape in
    s_init s fn y0 fs auxs = Ret st0 -> y0 <> [] -> fold_right Nat.add 0 shape = length y0 ->
    let st k := st_at s fn y0 st0 (auxs fill0) k in
    nm_counts (st 1) = mkNMStats 0 0 0 0 0 /\
    (1 <= k ->
     let fr := fst (fn (beyond (centroid_without (length y0) (nm_simplex (st k)) (nm_worst (st k))) (nm_worst (st k)) 1)) in
     let c := nm_counts (st k) in let c' := nm_counts (st (S k)) in
     n_expand c' = (n_expand c + count_if (Rlt_dec fr (nm_f_best (st k))))%Z /\
     n_reflect c' = (n_reflect c + count_if (Rlt_dec (nm_f_best (st k)) fr) * count_if (Rlt_dec fr (nm_second_worst (st k))))%Z /\
     n_inner_contract c' = (n_inner_contract c + count_if (Rlt_dec (nm_f_worst (st k)) fr))%Z /\
     n_outer_contract c' = (n_outer_contract c + count_if (Rle_dec (nm_f_best (st k)) fr) * count_if (Rle_dec fr (nm_second_worst (st k))))%Z).
Proof. exact C73_counters_partial_pf. Qed.
Print Assumptions C73_counters_partial.

(** So, under the name of outer contractions, the solver counts exactly the plain
    reflections and never an outer contraction. *)
Theorem C73_outer_counts_reflections_partial :
  forall Aux (rtol atol : R) norm rdelta adelta shape (fn : list R -> R * Aux) (y0 : list R) fs auxs st0 (k : nat),
    let s := NelderMead (N:=RN) rtol atol norm rdelta adelta shape in
    s_init s fn y0 fs auxs = Ret st0 -> 1 <= k -> y0 <> [] -> fold_right Nat.add 0 shape = length y0 ->
    let st := st_at s fn y0 st0 (auxs fill0) k in
    let st' := st_at s fn y0 st0 (auxs fill0) (S k) in
    let w := nm_worst st in
    let fr := fst (fn (beyond (centroid_without (length y0) (nm_simplex st) w) w 1)) in
    let rho := textbook_move (nm_f_best st) (nm_second_worst st) (nm_f_worst st) fr in
    (rho = 1%R -> n_outer_contract (nm_counts st') = (n_outer_contract (nm_counts st) + 1)%Z) /\
    (rho <> 1%R -> n_outer_contract (nm_counts st') = n_outer_contract (nm_counts st)).
Proof. exact C73_outer_counts_reflections_partial_pf. Qed.
Print Assumptions C73_outer_counts_reflections_partial.

(** An outer contraction is counted nowhere and a reflection is counted as an outer
    contraction. *)
Theorem C73_outer_count_refuted :
  exists fn gn : list f64 -> f64 * unit,
    map (fun v => is1 0 v || forallb (fun x => neqb (n:=F64) x (f64_ofQ (-1#2))) v) (nm_simplex (nm_unit_st fn [f64_ofZ 0] 2)) = [true; true] /\
    In ("num_outer_contractions"%string, Some 0%Z) (counts64 fn) /\
    map (fun v => is1 0 v || is1 (-1) v) (nm_simplex (nm_unit_st gn [f64_ofZ 0] 2)) = [true; true] /\
    In ("num_outer_contractions"%string, Some 1%Z) (counts64 gn) /\
    In ("num_reflections"%string, Some 0%Z) (counts64 gn).
Proof. exact C73_outer_count_refuted_pf. Qed.
Print Assumptions C73_outer_count_refuted.

Example C73_move_ex :
  let vs := [[0; 0]; [1; 0]; [0; 1]]%R in let w := [0; 1]%R in
  fold_right Nat.add 0 [1; 1] = length [0; 0]%R /\
  initial_simplex (N:=RN) 1%R 0%R [1; 1] [0; 0]%R = vs /\
  centroid_without 2 vs w = [/ 2; 0]%R /\
  beyond [/ 2; 0]%R w 1 = [1; -1]%R /\
  textbook_move 0 1 2 (fst (slope2 [1; -1]%R)) = 2%R /\
  beyond [/ 2; 0]%R w 2 = [3 / 2; -2]%R.
Proof. exact C73_move_ex_pf. Qed.
