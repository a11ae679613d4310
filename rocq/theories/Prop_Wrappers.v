(** Property theorems: Wrappers.
    Statements only; each is closed by the lemma of the same name (suffix _pf)
    in the proof file.  [Example]s show concrete cases meeting the hypotheses. *)

From Coq Require Import String List Bool Arith Lia ZArith QArith Qreals Reals Lra.
From Verif Require Import Num Vec NumFacts Results Iterate Spec_Iterate Iterate_proofs.
From Verif Require Import RootFind BestSoFar NumF64 NumF64_facts Spec_Wrappers.
Import ListNotations.
Local Open Scope nat_scope.
From Verif Require Import Wrappers_proofs.

(** root_find with a minimiser: success requires norm(fn(y)) < atol at the
    last reported point and the minimiser's own verdict "terminate,
    successful".  [s] is the minimiser run on y |-> norm(fn(y)). *)
Theorem C07_root_find_minimiser :
  forall (N : Num) (Aux : Type) (m : PolySolver (list N) N) (norm : list N -> N) (atol : N)
         (fn : list N -> list N * Aux) (auxs : fillv -> Aux) (y0 : list N)
         fuel ms throw ans st0,
    let s := m (list N * Aux)%type in
    let g := fun y => (norm (fst (fn y)), fn y) in
    let fs := vec_struct (length (fst (fn y0))) in
    let auxs' := fun v => (fs v, auxs v) in
    s_init s g y0 scalar_struct auxs' = Ret st0 ->
    nltb (norm (fs fillinf)) atol = false ->
    reports_aux s g y0 st0 (auxs' fill0) ->
    root_find fuel ms throw (AMinimiser m norm atol) fn auxs y0 = Ret ans ->
    a_result ans = successful ->
    exists j,
      let y := y_at s g y0 st0 (auxs' fill0) j in
      nltb (norm (fst (fn y))) atol = true /\
      s_terminate s g y (st_at s g y0 st0 (auxs' fill0) (S j)) = (true, successful).
Proof. exact C07_root_find_minimiser_pf. Qed.
Print Assumptions C07_root_find_minimiser.

(** root_find with a least-squares solver. *)
Theorem C07_root_find_least_squares :
  forall (N : Num) (Aux : Type) (l : PolySolver (list N) (list N)) (norm : list N -> N) (atol : N)
         (fn : list N -> list N * Aux) (auxs : fillv -> Aux) (y0 : list N)
         fuel ms throw ans st0,
    let s := l (list N * Aux)%type in
    let g := fun y => (fst (fn y), fn y) in
    let fs := vec_struct (length (fst (fn y0))) in
    let auxs' := fun v => (fs v, auxs v) in
    s_init s g y0 fs auxs' = Ret st0 ->
    nltb (norm (fs fillinf)) atol = false ->
    reports_aux s g y0 st0 (auxs' fill0) ->
    root_find fuel ms throw (ALeastSquares l norm atol) fn auxs y0 = Ret ans ->
    a_result ans = successful ->
    exists j,
      let y := y_at s g y0 st0 (auxs' fill0) j in
      nltb (norm (fst (fn y))) atol = true /\
      s_terminate s g y (st_at s g y0 st0 (auxs' fill0) (S j)) = (true, successful).
Proof. exact C07_root_find_least_squares_pf. Qed.
Print Assumptions C07_root_find_least_squares.

(** The side condition on the norm holds for max_norm on extended reals
    whenever fn has at least one output. *)
Theorem C07_max_norm_of_inf :
  forall n (atol : XR), nltb (max_norm (vec_struct (N:=XR) (S n) fillinf)) atol = false.
Proof. exact C07_max_norm_of_inf_pf. Qed.
Print Assumptions C07_max_norm_of_inf.

(** BestSoFar returns the earliest best iterate among those on which the
    wrapped solver reported the function's output; [l j] is the loss of the
    j-th iterate.  If no reported loss is below infinity it returns y0 (with
    the zero-filled aux).  Holds for any arithmetic satisfying the order laws,
    so also with NaN losses. *)
Theorem C09_best_so_far :
  forall (N : Num) (L : OrdLaws N) (Y Out Aux : Type) (allfinite : Y -> bool)
         (to_loss : Y -> Out -> N) (s : Solver Y Out (Out * Aux)) (fn : Y -> Out * Aux)
         y0 fs auxs st0 ms fuel throw sol,
    let g := fun y => (fst (fn y), fn y) in
    let auxs' := fun v => (fs v, auxs v) in
    let y := y_at s g y0 st0 (auxs' fill0) in
    let l := fun j => to_loss (y j) (fst (fn (y j))) in
    s_init s g y0 fs auxs' = Ret st0 ->
    reports_aux s g y0 st0 (auxs' fill0) ->
    iterative_solve allfinite (best_so_far to_loss s) fn fuel ms throw y0 fs auxs = Ret sol ->
    exists n, hd_error (sol_stats sol) = Some ("num_steps"%string, Some (Z.of_nat n)) /\
      ((exists b, b < n /\ value sol = y b /\ aux sol = snd (fn (y b)) /\
          (forall j, j < n -> nltb (l j) (l b) = false) /\
          (forall j, j < b -> nleb (l j) (l b) = false)) \/
       (value sol = y0 /\ aux sol = auxs fill0 /\
          forall j, j < n -> nltb (l j) ninf = false)).
Proof. exact C09_best_so_far_pf. Qed.
Print Assumptions C09_best_so_far.

(** BestSoFarMinimiser on finite values: the iterate with the least objective, the earliest such. *)
Theorem C09_minimiser :
  forall (Y Aux : Type) (allfinite : Y -> bool) (s : Solver Y XR (XR * Aux)) (fn : Y -> XR * Aux)
         y0 fs auxs st0 ms fuel throw sol (F : nat -> R),
    let g := fun y => (fst (fn y), fn y) in
    let auxs' := fun v => (fs v, auxs v) in
    let y := y_at s g y0 st0 (auxs' fill0) in
    (forall j, fst (fn (y j)) = Fin (F j)) ->
    s_init s g y0 fs auxs' = Ret st0 -> reports_aux s g y0 st0 (auxs' fill0) ->
    iterative_solve allfinite (best_so_far (N:=XR) loss_minimiser s) fn fuel ms throw y0 fs auxs = Ret sol ->
    exists n, hd_error (sol_stats sol) = Some ("num_steps"%string, Some (Z.of_nat n)) /\
      ((n = 0 /\ value sol = y0) \/
       exists b, b < n /\ value sol = y b /\ aux sol = snd (fn (y b)) /\
          (forall j, j < n -> (F b <= F j)%R) /\ (forall j, j < b -> (F b < F j)%R)).
Proof. exact C09_minimiser_pf. Qed.
Print Assumptions C09_minimiser.

(** BestSoFarLeastSquares and BestSoFarRootFinder: the iterate with the least sum of squared residuals. *)
Theorem C09_residuals :
  forall (Y Aux : Type) (allfinite : Y -> bool) (s : Solver Y (list XR) (list XR * Aux)) (fn : Y -> list XR * Aux)
         y0 fs auxs st0 ms fuel throw to_loss sol (F : nat -> list R),
    to_loss = loss_least_squares (N:=XR) \/ to_loss = loss_root_finder (N:=XR) ->
    let g := fun y => (fst (fn y), fn y) in
    let auxs' := fun v => (fs v, auxs v) in
    let y := y_at s g y0 st0 (auxs' fill0) in
    (forall j, fst (fn (y j)) = map Fin (F j)) ->
    s_init s g y0 fs auxs' = Ret st0 -> reports_aux s g y0 st0 (auxs' fill0) ->
    iterative_solve allfinite (best_so_far to_loss s) fn fuel ms throw y0 fs auxs = Ret sol ->
    exists n, hd_error (sol_stats sol) = Some ("num_steps"%string, Some (Z.of_nat n)) /\
      ((n = 0 /\ value sol = y0) \/
       exists b, b < n /\ value sol = y b /\ aux sol = snd (fn (y b)) /\
          (forall j, j < n -> (R_sum_squares (F b) <= R_sum_squares (F j))%R) /\
          (forall j, j < b -> (R_sum_squares (F b) < R_sum_squares (F j))%R)).
Proof. exact C09_residuals_pf. Qed.
Print Assumptions C09_residuals.

(** BestSoFarFixedPoint: the iterate closest to its image. *)
Theorem C09_fixed_point :
  forall (Aux : Type) (allfinite : list XR -> bool) (s : Solver (list XR) (list XR) (list XR * Aux))
         (fn : list XR -> list XR * Aux) y0 fs auxs st0 ms fuel throw sol (V F : nat -> list R),
    let g := fun y => (fst (fn y), fn y) in
    let auxs' := fun v => (fs v, auxs v) in
    let y := y_at s g y0 st0 (auxs' fill0) in
    (forall j, y j = map Fin (V j) /\ fst (fn (y j)) = map Fin (F j)) ->
    s_init s g y0 fs auxs' = Ret st0 -> reports_aux s g y0 st0 (auxs' fill0) ->
    iterative_solve allfinite (best_so_far (N:=XR) loss_fixed_point s) fn fuel ms throw y0 fs auxs = Ret sol ->
    let gap j := R_sum_squares (map (fun p => fst p - snd p)%R (combine (V j) (F j))) in
    exists n, hd_error (sol_stats sol) = Some ("num_steps"%string, Some (Z.of_nat n)) /\
      ((n = 0 /\ value sol = y0) \/
       exists b, b < n /\ value sol = y b /\ aux sol = snd (fn (y b)) /\
          (forall j, j < n -> (gap b <= gap j)%R) /\ (forall j, j < b -> (gap b < gap j)%R)).
Proof. exact C09_fixed_point_pf. Qed.
Print Assumptions C09_fixed_point.

(** Wrapping does not disturb the run: same stop, same status, same number of
    steps, same inner state. *)
Theorem C10_best_so_far_transparent :
  forall (N : Num) (Y Out Aux : Type) (allfinite : Y -> bool)
         (to_loss : Y -> Out -> N) (s : Solver Y Out (Out * Aux)) (fn : Y -> Out * Aux)
         y0 fs auxs ms fuel sol,
    iterative_solve allfinite (best_so_far to_loss s) fn fuel ms false y0 fs auxs = Ret sol ->
    exists sol',
      iterative_solve allfinite s (auxmented fn) fuel ms false y0 fs
        (fun v => (fs v, auxs v)) = Ret sol' /\
      result sol = result sol' /\
      hd_error (sol_stats sol) = hd_error (sol_stats sol') /\
      inner (state sol) = state sol'.
Proof. exact C10_best_so_far_transparent_pf. Qed.
Print Assumptions C10_best_so_far_transparent.

(** fixed_point with any solver that is not a fixed-point solver is root_find
    on fn(y)-y with the same aux; and the roots of that function are exactly
    the fixed points. *)
Theorem C08_fixed_point :
  forall (Aux : Type) (s : any_solver (N:=RN)) (fn : list R -> list R * Aux) auxs y0 fuel ms throw,
    (forall p, s <> AFixedPoint p) ->
    fixed_point fuel ms throw s fn auxs y0 =
      (if Nat.eqb (length (fst (fn y0))) (length y0)
       then root_find fuel ms throw s
              (fun y => (vmap2 Rminus (fst (fn y)) y, snd (fn y))) auxs y0
       else Raise ValueError) /\
    forall y, length (fst (fn y)) = length y ->
      (vmap2 Rminus (fst (fn y)) y = repeat 0%R (length y) <-> fst (fn y) = y).
Proof. exact C08_fixed_point_pf. Qed.
Print Assumptions C08_fixed_point.

(** least_squares with a minimiser is minimise on half the sum of squared
    residuals, with the same aux; zero loss means zero residuals, and smaller
    loss means smaller sum of squares. *)
Theorem C08_least_squares :
  forall (Aux : Type) (m : PolySolver (list R) R) norm atol (fn : list R -> list R * Aux)
         auxs y0 fuel ms throw,
    let half_ss := fun v : list R => (/ 2 * fold_right (fun x acc => x * x + acc) 0 v)%R in
    least_squares (N:=RN) fuel ms throw (AMinimiser (N:=RN) m norm atol) fn auxs y0 =
      minimise (N:=RN) fuel ms throw m (fun y => (half_ss (fst (fn y)), snd (fn y))) auxs y0 /\
    (forall v, half_ss v = 0%R <-> Forall (fun x => x = 0%R) v) /\
    (forall v, (0 <= half_ss v)%R).
Proof. exact C08_least_squares_pf. Qed.
Print Assumptions C08_least_squares.

(** root_find hands user aux through: with a least-squares solver (or
    minimiser) that reports aux and whose postprocess returns aux unchanged,
    the aux returned is the user's aux at the last point stepped from. *)
Theorem C08_root_find_aux :
  forall (N : Num) (Aux : Type) (l : PolySolver (list N) (list N)) (norm : list N -> N) (atol : N)
         (fn : list N -> list N * Aux) (auxs : fillv -> Aux) (y0 : list N)
         fuel ms throw ans st0,
    let s := l (list N * Aux)%type in
    let g := fun y => (fst (fn y), fn y) in
    let fs := vec_struct (length (fst (fn y0))) in
    let auxs' := fun v => (fs v, auxs v) in
    s_init s g y0 fs auxs' = Ret st0 ->
    reports_aux s g y0 st0 (auxs' fill0) ->
    (forall y a st r, snd (fst (s_post s g y a st r)) = a) ->
    root_find fuel ms throw (ALeastSquares l norm atol) fn auxs y0 = Ret ans ->
    exists n, hd_error (a_stats ans) = Some ("num_steps"%string, Some (Z.of_nat n)) /\
      a_aux ans = match n with
                  | O => auxs fill0
                  | S j => snd (fn (y_at s g y0 st0 (auxs' fill0) j))
                  end.
Proof. exact C08_root_find_aux_pf. Qed.
Print Assumptions C08_root_find_aux.

(** The documentation of root_find says that with a minimiser
    `sum(fn(y, args)^2)` is minimised.  What is minimised is solver.norm of
    fn(y), by default the max norm: here is a minimiser that picks the better
    of two points, and a function for which root_find returns the point with
    the larger sum of squares. *)
Theorem C54_root_find_minimises_sum_of_squares_refuted :
  exists (m : PolySolver (list R) R) (fn : list R -> list R * unit) (y0 better : list R) ans,
    (* the minimiser picks the best of the points [0] and [1] *)
    (forall (g : list R -> R * unit),
       exists a, minimise (N:=RN) 2 (Some 1) false m g (fun _ => tt) y0 = Ret a /\
         (a_value a = [0%R] \/ a_value a = [1%R]) /\
         (fst (g (a_value a)) <= fst (g [0]))%R /\ (fst (g (a_value a)) <= fst (g [1]))%R) /\
    (better = [0%R] \/ better = [1%R]) /\
    root_find (N:=RN) 2 (Some 1) false (AMinimiser (N:=RN) m max_norm (/ 10)%R) fn
      (fun _ => tt) y0 = Ret ans /\
    (R_sum_squares (fst (fn better)) < R_sum_squares (fst (fn (a_value ans))))%R.
Proof. exact C54_root_find_minimises_sum_of_squares_refuted_pf. Qed.
Print Assumptions C54_root_find_minimises_sum_of_squares_refuted.

(** With the two-norm the documented statement is right: the two objectives
    order points in the same way. *)
Theorem C54_two_norm_objective_partial :
  forall a b : list R,
    (two_norm (N:=RN) a < two_norm (N:=RN) b)%R <-> (R_sum_squares a < R_sum_squares b)%R.
Proof. exact C54_two_norm_objective_partial_pf. Qed.
Print Assumptions C54_two_norm_objective_partial.

(** A minimiser that is content after one step, run on f(y)=y from -2 with
    atol 1/2: root_find keeps going until the root is reached. *)
Example C07_root_find_minimiser_ex :
  (exists ans,
    root_find (N:=F64) 9 (Some 8) true (AMinimiser (N:=F64) (walker 1 f64) max_norm (f64_ofQ (1#2)))
      (fun y => (y, y)) (fun _ => []) [f64_ofZ (-2)] = Ret ans /\
    results_eqb (a_result ans) successful && eqvec (a_aux ans) [f64_ofZ 0] &&
    eqvec (a_value ans) [f64_ofZ 1] = true) /\
  reports_aux (walker (N:=F64) 1 f64 _) (to_minimise_fn (N:=F64) max_norm (fun y => (y, y)))
      [f64_ofZ (-2)] 0 ([f64_ofZ 0], []).
Proof. exact C07_root_find_minimiser_ex_pf. Qed.

(** f(y) = (y-2)^2 visited at 0,1,2,3,4: the best iterate 2 is returned
    although the wrapped solver ends at 5. *)
Example C09_best_so_far_ex :
  let f := fun y : list f64 => sum_squares (N:=F64) (vsub y [f64_ofZ 2]) in
  (exists sol,
    iterative_solve (vallfinite (N:=F64)) (best_so_far (N:=F64) loss_minimiser (walker 5 f64 _))
      (fun y => (f y, y)) 9 (Some 8) true [f64_ofZ 0] (scalar_struct (N:=F64)) (fun _ => []) = Ret sol /\
    eqvec (value sol) [f64_ofZ 2] && eqvec (aux sol) [f64_ofZ 2] = true) /\
  reports_aux (walker (N:=F64) 5 f64 _) (auxmented (fun y => (f y, y))) [f64_ofZ 0] 0 (f64_ofZ 0, []).
Proof. exact C09_best_so_far_ex_pf. Qed.

(** A walk 0, 1, 2, ... and the map y -> 6 - y: the iterate nearest its image is 3. *)
Example C09_fixed_point_ex :
  let fn := fun y : list XR => (map (fun x => xsub (Fin 6) x) y, tt) in
  let V := fun j => [INR j] in
  let F := fun j => [(6 - INR j)%R] in
  (forall j, y_at (walker (N:=XR) 9 (list XR) (list XR * unit)%type) (fun y => (fst (fn y), fn y)) [Fin 0] 0%nat ([], tt) j = map Fin (V j) /\
     fst (fn (map Fin (V j))) = map Fin (F j)) /\
  reports_aux (walker (N:=XR) 9 (list XR) (list XR * unit)%type) (fun y => (fst (fn y), fn y)) [Fin 0] 0%nat ([], tt) /\
  (exists sol, iterative_solve (fun _ => true) (best_so_far (N:=XR) loss_fixed_point (walker (N:=XR) 9 (list XR) _)) fn 20 None true [Fin 0] (fun _ => []) (fun _ => tt) = Ret sol) /\
  forall j, j <> 3%nat -> (R_sum_squares (map (fun p => fst p - snd p) (combine (V 3%nat) (F 3%nat))) < R_sum_squares (map (fun p => fst p - snd p) (combine (V j) (F j))))%R.
Proof. exact C09_fixed_point_ex_pf. Qed.

(** The same walk judged by residuals y - 3 and by the objective (y - 3)^2. *)
Example C09_residuals_ex :
  let fn := fun y : list XR => (map (fun x => xsub x (Fin 3)) y, tt) in
  (forall j, fst (fn (y_at (walker (N:=XR) 9 (list XR) (list XR * unit)%type) (fun y => (fst (fn y), fn y)) [Fin 0] 0%nat ([], tt) j)) = map Fin [(INR j - 3)%R]) /\
  reports_aux (walker (N:=XR) 9 (list XR) (list XR * unit)%type) (fun y => (fst (fn y), fn y)) [Fin 0] 0%nat ([], tt) /\
  exists sol, iterative_solve (fun _ => true) (best_so_far (N:=XR) loss_root_finder (walker (N:=XR) 9 (list XR) _)) fn 20 None true [Fin 0] (fun _ => []) (fun _ => tt) = Ret sol.
Proof. exact C09_residuals_ex_pf. Qed.

Example C09_minimiser_ex :
  let fn := fun y : list XR => match y with [Fin x] => (Fin ((x - 3) * (x - 3)), tt) | _ => (NaN, tt) end in
  (forall j, fst (fn (y_at (walker (N:=XR) 9 XR (XR * unit)%type) (fun y => (fst (fn y), fn y)) [Fin 0] 0%nat (Fin 0, tt) j)) = Fin ((INR j - 3) * (INR j - 3))) /\
  reports_aux (walker (N:=XR) 9 XR (XR * unit)%type) (fun y => (fst (fn y), fn y)) [Fin 0] 0%nat (Fin 0, tt) /\
  exists sol, iterative_solve (fun _ => true) (best_so_far (N:=XR) loss_minimiser (walker (N:=XR) 9 XR _)) fn 20 None true [Fin 0] (fun _ => Fin 0) (fun _ => tt) = Ret sol.
Proof. exact C09_minimiser_ex_pf. Qed.

(** All losses NaN: y0 comes back. *)
Example C09_best_so_far_nan_ex :
  exists sol,
    iterative_solve (vallfinite (N:=F64)) (best_so_far (N:=F64) loss_minimiser (walker 3 f64 _))
      (fun y => (fdiv (f64_ofZ 0) (f64_ofZ 0), y)) 9 (Some 8) true [f64_ofZ 7] (scalar_struct (N:=F64))
      (fun _ => [f64_ofZ 0]) = Ret sol /\
    eqvec (value sol) [f64_ofZ 7] && eqvec (aux sol) [f64_ofZ 0] = true.
Proof. exact C09_best_so_far_nan_ex_pf. Qed.

(** least_squares / fixed_point conversions on concrete data. *)
Example C08_conversions_ex :
  (exists a,
    least_squares (N:=F64) 9 (Some 8) true (AMinimiser (N:=F64) (walker 2 f64) max_norm (f64_ofZ 1))
      (fun y => (y, y)) (fun _ => []) [f64_ofZ 3] = Ret a /\
    eqvec (a_value a) [f64_ofZ 5] = true) /\
  (exists b,
    fixed_point (N:=F64) 9 (Some 8) true
      (ALeastSquares (N:=F64) (walker 1 (list f64)) max_norm (f64_ofZ 1))
      (fun y => ([f64_ofZ 5], y)) (fun _ => []) [f64_ofZ 3] = Ret b /\
    eqvec (a_aux b) [f64_ofZ 5] = true).
Proof. exact C08_conversions_ex_pf. Qed.

(** The same for the entry points minimise, least_squares, root_find and
    fixed_point, whatever kind of solver is passed: with throw=True a failed
    status is raised and a successful answer is that of throw=False. *)
Theorem C05_entry_points :
  forall (N : Num) (Aux : Type) fuel ms (auxs : fillv -> Aux) (y0 : list N)
         (m : PolySolver (list N) N) (s : any_solver (N:=N))
         (f : list N -> N * Aux) (g : list N -> list N * Aux),
    let checked := fun o : outcome (Answer (list N) Aux) =>
      match o with
      | Ret a => if results_eqb (a_result a) successful then Ret a else Raise (SolveFailed (a_result a))
      | o => o
      end in
    minimise fuel ms true m f auxs y0 = checked (minimise fuel ms false m f auxs y0) /\
    least_squares fuel ms true s g auxs y0 = checked (least_squares fuel ms false s g auxs y0) /\
    root_find fuel ms true s g auxs y0 = checked (root_find fuel ms false s g auxs y0) /\
    fixed_point fuel ms true s g auxs y0 = checked (fixed_point fuel ms false s g auxs y0).
Proof. exact C05_entry_points_pf. Qed.
Print Assumptions C05_entry_points.
