(** Property theorems: Together.
    Statements only; each is closed by the lemma of the same name (suffix _pf)
    in the proof file.  [Example]s show concrete cases meeting the hypotheses. *)

From Coq Require Import String List Bool Arith Lia ZArith QArith Reals Lra Psatz.
From Verif Require Import Num NumFacts NumF64 NumF64_facts F64Mono Vec VecFacts Results Iterate Spec_Iterate Iterate_proofs.
From Verif Require Import FixedPoint NewtonChord Search Descent Minimisers Solvers Spec_Together.
Import ListNotations.
Local Open Scope nat_scope.
From Verif Require Import Together_proofs.

(** Fixed-point iteration on two problems at once performs both iterations, and stops when both would stop. *)
Theorem C124_fixed_point :
  forall (N : Num) (Aux1 Aux2 : Type) n1 n2 (rtol atol damp : N) (fn1 : list N -> list N * Aux1) (fn2 : list N -> list N * Aux2) fn y1 y2 a1 a2,
    one_of_ours N -> side_by_side n1 n2 fn1 fn2 fn -> keeps_length n1 fn1 -> keeps_length n2 fn2 -> length y1 = n1 -> length y2 = n2 ->
    let solver Aux := fixed_point_iteration (Aux:=Aux) rtol atol damp max_norm in
  forall k,
    y_at (solver _) fn (y1 ++ y2) ninf (a1, a2) k = y_at (solver _) fn1 y1 ninf a1 k ++ y_at (solver _) fn2 y2 ninf a2 k /\
    aux_at (solver _) fn (y1 ++ y2) ninf (a1, a2) k = (aux_at (solver _) fn1 y1 ninf a1 k, aux_at (solver _) fn2 y2 ninf a2 k) /\
    says_terminate (solver _) fn (y1 ++ y2) ninf (a1, a2) k = says_terminate (solver _) fn1 y1 ninf a1 k && says_terminate (solver _) fn2 y2 ninf a2 k.
Proof. exact C124_fixed_point_pf. Qed.
Print Assumptions C124_fixed_point.

(** So each of the problems alone is solved, in no more steps, if both together are. *)
Theorem C124_fixed_point_solve :
  forall (N : Num) (Aux1 Aux2 : Type) n1 n2 (rtol atol damp : N) (fn1 : list N -> list N * Aux1) (fn2 : list N -> list N * Aux2) fn y1 y2,
    one_of_ours N -> side_by_side n1 n2 fn1 fn2 fn -> keeps_length n1 fn1 -> keeps_length n2 fn2 -> length y1 = n1 -> length y2 = n2 ->
    let solve Aux := iterative_solve vallfinite (fixed_point_iteration (Aux:=Aux) rtol atol damp max_norm) in
  forall fuel ms throw fs fs1 fs2 auxs1 auxs2,
    let together := solve _ fn fuel ms throw (y1 ++ y2) fs (fun v => (auxs1 v, auxs2 v)) in
    no_later_than (solve _ fn1 fuel ms throw y1 fs1 auxs1) together /\ no_later_than (solve _ fn2 fuel ms throw y2 fs2 auxs2) together.
Proof. exact C124_fixed_point_solve_pf. Qed.
Print Assumptions C124_fixed_point_solve.

(** Newton and chord methods with the Cauchy test, box bounds included: the iterates are those of the two problems; the status
    is that of a failing linear solve, if there is one; otherwise the solve stops when both would stop. *)
Theorem C124_newton :
  forall (N : Num) (Aux1 Aux2 M1 M2 M : Type) jac1 jac2 jac (ls1 : M1 -> list N -> list N * results) (ls2 : M2 -> list N -> list N * results)
         (ls : M -> list N -> list N * results) n1 n2 (fn1 : list N -> list N * Aux1) (fn2 : list N -> list N * Aux2) fn
         rtol atol kappa res (newton : bool) lo1 lo2 lo up1 up2 up y1 y2 a1 a2 fs1 fs2 fs (auxs1 : fillv -> Aux1) (auxs2 : fillv -> Aux2) (auxs : fillv -> Aux1 * Aux2) i1 i2 i,
    one_of_ours N -> side_by_side n1 n2 fn1 fn2 fn -> box_of n1 n2 lo1 lo2 lo -> box_of n1 n2 up1 up2 up -> length y1 = n1 -> length y2 = n2 ->
    fs fillinf = fs1 fillinf ++ fs2 fillinf ->
    (forall z1 z2, length z1 = n1 -> length z2 = n2 ->
       blockwise n1 n2 (ls1 (jac1 fn1 (if newton then z1 else y1)) (fst (fn1 z1))) (ls2 (jac2 fn2 (if newton then z2 else y2)) (fst (fn2 z2)))
         (ls (jac fn (if newton then z1 ++ z2 else y1 ++ y2)) (fst (fn (z1 ++ z2))))) ->
    let s1 := newton_chord jac1 ls1 (mkNcParams rtol atol max_norm kappa true newton lo1 up1 res) in
    let s2 := newton_chord jac2 ls2 (mkNcParams rtol atol max_norm kappa true newton lo2 up2 res) in
    let s := newton_chord jac ls (mkNcParams rtol atol max_norm kappa true newton lo up res) in
    s_init s1 fn1 y1 fs1 auxs1 = Ret i1 -> s_init s2 fn2 y2 fs2 auxs2 = Ret i2 -> s_init s fn (y1 ++ y2) fs auxs = Ret i ->
  forall k,
    y_at s fn (y1 ++ y2) i (a1, a2) k = y_at s1 fn1 y1 i1 a1 k ++ y_at s2 fn2 y2 i2 a2 k /\
    aux_at s fn (y1 ++ y2) i (a1, a2) k = (aux_at s1 fn1 y1 i1 a1 k, aux_at s2 fn2 y2 i2 a2 k) /\
    (says_result s fn (y1 ++ y2) i (a1, a2) k = successful <-> says_result s1 fn1 y1 i1 a1 k = successful /\ says_result s2 fn2 y2 i2 a2 k = successful) /\
    (says_result s fn (y1 ++ y2) i (a1, a2) k = successful ->
     says_terminate s fn (y1 ++ y2) i (a1, a2) k = says_terminate s1 fn1 y1 i1 a1 k && says_terminate s2 fn2 y2 i2 a2 k).
Proof. exact C124_newton_pf. Qed.
Print Assumptions C124_newton.

(** So each of the problems alone is solved by Newton, in no more steps, if both together are. *)
Theorem C124_newton_solve :
  forall (N : Num) (Aux1 Aux2 M1 M2 M : Type) jac1 jac2 jac (ls1 : M1 -> list N -> list N * results) (ls2 : M2 -> list N -> list N * results)
         (ls : M -> list N -> list N * results) n1 n2 (fn1 : list N -> list N * Aux1) (fn2 : list N -> list N * Aux2) fn
         rtol atol kappa res (newton : bool) lo1 lo2 lo up1 up2 up y1 y2 fs1 fs2 fs (auxs1 : fillv -> Aux1) (auxs2 : fillv -> Aux2),
    one_of_ours N -> side_by_side n1 n2 fn1 fn2 fn -> box_of n1 n2 lo1 lo2 lo -> box_of n1 n2 up1 up2 up -> length y1 = n1 -> length y2 = n2 ->
    fs fillinf = fs1 fillinf ++ fs2 fillinf ->
    (forall z1 z2, length z1 = n1 -> length z2 = n2 ->
       blockwise n1 n2 (ls1 (jac1 fn1 (if newton then z1 else y1)) (fst (fn1 z1))) (ls2 (jac2 fn2 (if newton then z2 else y2)) (fst (fn2 z2)))
         (ls (jac fn (if newton then z1 ++ z2 else y1 ++ y2)) (fst (fn (z1 ++ z2))))) ->
    let s1 := newton_chord jac1 ls1 (mkNcParams rtol atol max_norm kappa true newton lo1 up1 res) in
    let s2 := newton_chord jac2 ls2 (mkNcParams rtol atol max_norm kappa true newton lo2 up2 res) in
    let s := newton_chord jac ls (mkNcParams rtol atol max_norm kappa true newton lo up res) in
  forall fuel ms throw,
    let together := iterative_solve vallfinite s fn fuel ms throw (y1 ++ y2) fs (fun v => (auxs1 v, auxs2 v)) in
    no_later_than (iterative_solve vallfinite s1 fn1 fuel ms throw y1 fs1 auxs1) together /\
    no_later_than (iterative_solve vallfinite s2 fn2 fuel ms throw y2 fs2 auxs2) together.
Proof. exact C124_newton_solve_pf. Qed.
Print Assumptions C124_newton_solve.

(** Gradient descent with a learning rate performs both descents when the gradient is made of the two gradients, as it is for a
    sum of two objectives. *)
Theorem C124_gradient_descent :
  forall (N : Num) (Aux1 Aux2 Aux : Type) n1 n2 P1 P2 P rate grad1 grad2 grad (fn1 : list N -> N * Aux1) (fn2 : list N -> N * Aux2) (fn : list N -> N * Aux)
         y1 y2 fs1 fs2 fs auxs1 auxs2 auxs a1 a2 a i1 i2 i,
    (forall z1 z2, length z1 = n1 -> length z2 = n2 ->
       grad fn (z1 ++ z2) = grad1 fn1 z1 ++ grad2 fn2 z2 /\ length (grad1 fn1 z1) = n1 /\ length (grad2 fn2 z2) = n2) ->
    length y1 = n1 -> length y2 = n2 ->
    let s1 := GradientDescent P1 grad1 rate in let s2 := GradientDescent P2 grad2 rate in let s := GradientDescent P grad rate in
    s_init s1 fn1 y1 fs1 auxs1 = Ret i1 -> s_init s2 fn2 y2 fs2 auxs2 = Ret i2 -> s_init s fn (y1 ++ y2) fs auxs = Ret i ->
  forall k, y_at s fn (y1 ++ y2) i a k = y_at s1 fn1 y1 i1 a1 k ++ y_at s2 fn2 y2 i2 a2 k.
Proof. exact C124_gradient_descent_pf. Qed.
Print Assumptions C124_gradient_descent.

Example C124_fixed_point_ex : one_of_ours F64 /\ side_by_side 1 2 (halve (N:=F64)) halve halve2 /\ keeps_length 1 (halve (N:=F64)) /\ keeps_length 2 (halve (N:=F64)).
Proof. exact C124_fixed_point_ex_pf. Qed.

(** In doubles with atol = 1: from 8 alone 4 steps, from 64 and 2 alone 7, together 7. *)
Example C124_fixed_point_solve_ex :
  let q (z : Z) := f64_ofZ z in
  let run (Aux : Type) (fn : list f64 -> list f64 * Aux) y a :=
    match iterative_solve (vallfinite (N:=F64)) (fixed_point_iteration (N:=F64) (q 0%Z) (q 1%Z) (q 0%Z) max_norm) fn 20 (Some 15) false y (fun _ => y) a with
    | Ret s => Some (result s, hd_error (sol_stats s)) | _ => None end in
  run _ halve [q 8%Z] (fun _ => tt) = Some (successful, Some ("num_steps"%string, Some 4%Z)) /\
  run _ halve [q 64%Z; q 2%Z] (fun _ => tt) = Some (successful, Some ("num_steps"%string, Some 7%Z)) /\
  run _ halve2 [q 8%Z; q 64%Z; q 2%Z] (fun _ => (tt, tt)) = Some (successful, Some ("num_steps"%string, Some 7%Z)).
Proof. exact C124_fixed_point_solve_ex_pf. Qed.

Example C124_newton_ex : forall (N : Num) n1 n2, box_of 1 1 (Some [lit 0 : N]) (Some [lit 1]) (Some [lit 0; lit 1]) /\
  forall z1 z2 : list N, length z1 = n1 -> length z2 = n2 ->
    blockwise n1 n2 (divide (slope halve z1) (fst (halve z1))) (divide (slope halve z2) (fst (halve z2))) (divide (slope halve2 (z1 ++ z2)) (fst (halve2 (z1 ++ z2)))).
Proof. exact C124_newton_ex_pf. Qed.

(** Newton in doubles on y/2 = 0: both blocks and both together *)
Example C124_newton_solve_ex :
  let q (z : Z) := f64_ofZ z in
  let run (Aux : Type) (fn : list f64 -> list f64 * Aux) y a :=
    match iterative_solve (vallfinite (N:=F64)) (newton_chord (N:=F64) slope divide (mkNcParams (N:=F64) (q 0%Z) (q 1%Z) max_norm (q 1%Z) true true None None (q 0%Z))) fn 20 (Some 15) false y (fun _ => y) a with
    | Ret s => Some (result s, hd_error (sol_stats s)) | _ => None end in
  run _ halve [q 8%Z] (fun _ => tt) = Some (successful, Some ("num_steps"%string, Some 2%Z)) /\
  run _ halve2 [q 8%Z; q 64%Z; q 2%Z] (fun _ => (tt, tt)) = Some (successful, Some ("num_steps"%string, Some 2%Z)).
Proof. exact C124_newton_solve_ex_pf. Qed.

(** |y|^2 / 2, whose gradient is y *)
Example C124_gradient_descent_ex : forall (N : Num) (z1 z2 : list N) n1 n2, length z1 = n1 -> length z2 = n2 ->
  let grad (fn : list N -> N * unit) (y : list N) := y in let fn y := (nmul (lit (1#2)) (sum_squares y), tt) in
  grad fn (z1 ++ z2) = grad fn z1 ++ grad fn z2 /\ length (grad fn z1) = n1 /\ length (grad fn z2) = n2.
Proof. exact C124_gradient_descent_ex_pf. Qed.

(** With rms_norm, which averages, this fails: in doubles, halving 0 and 2.25 together is successful after 1 step, the second
    problem alone after 2. *)
Theorem C124_rms_norm_stops_early :
  let q (z : Z) := f64_ofZ z in
  let solve (Aux : Type) (fn : list f64 -> list f64 * Aux) y a :=
    iterative_solve (vallfinite (N:=F64)) (fixed_point_iteration (N:=F64) (q 0%Z) (q 1%Z) (q 0%Z) rms_norm) fn 20 None false y (fun _ => y) a in
  let y := f64_ofQ (9#4) in
  side_by_side 1 1 (halve (N:=F64)) halve halve2 /\ keeps_length 1 (halve (N:=F64)) /\
  ~ no_later_than (solve _ halve [y] (fun _ => tt)) (solve _ halve2 ([q 0%Z] ++ [y]) (fun _ => (tt, tt))).
Proof. exact C124_rms_norm_stops_early_pf. Qed.
Print Assumptions C124_rms_norm_stops_early.
