(** Property theorems: CG.
    Statements only; each is closed by the lemma of the same name (suffix _pf)
    in the proof file.  [Example]s show concrete cases meeting the hypotheses. *)

From Coq Require Import String List Bool Arith Lia ZArith QArith Qreals Reals Lra Psatz.
From Verif Require Import Num NumFacts NumDiv NumSq Vec Results Iterate Spec_Iterate Iterate_proofs.
From Verif Require Import Spec_Vec VecFacts Spec_Lin LinFacts NumF64 NumF64_facts.
From Verif Require Import Search Spec_Search Spec_CG Descent Minimisers QuasiNewton Solvers FixedPoint_proofs Minimisers_proofs Spec_Examples.
Import ListNotations.
Local Open Scope nat_scope.
From Verif Require Import CG_proofs.

(** Whatever the arithmetic, the method and the state (NaN and infinities
    included), the new direction has a computed negative slope, or is the negative
    gradient. *)
Theorem C35_any_arithmetic :
  forall (N : Num) (method : list N -> list N -> list N -> N) (i : finfo N) y_diff_prev grad_prev,
    length y_diff_prev = length (info_grad i) ->
    let d := fst (cg_query method i (y_diff_prev, grad_prev)) in
    length d = length (info_grad i) /\
    (nltb (vdot (info_grad i) d) (nofQ 0) = true \/ d = vneg (info_grad i)).
Proof. exact C35_any_arithmetic_pf. Qed.
Print Assumptions C35_any_arithmetic.

(** In binary64 and in exact arithmetic with infinities and NaN: as long as the
    gradient contains no NaN, the slope along the direction is computed as
    non-positive, whatever the method returns. *)
Theorem C35_never_uphill :
  forall (N : Num), N = F64 \/ N = XR ->
  forall (method : list N -> list N -> list N -> N) (i : finfo N) y_diff_prev grad_prev,
    length y_diff_prev = length (info_grad i) ->
    Forall (fun x => nisnan x = false) (info_grad i) ->
    nleb (vdot (info_grad i) (fst (cg_query method i (y_diff_prev, grad_prev)))) (nofQ 0) = true.
Proof. exact C35_never_uphill_pf. Qed.
Print Assumptions C35_never_uphill.

(** Exact arithmetic: for a finite gradient the direction is strictly
    downhill unless the gradient is zero, even if the method returns NaN or an
    infinity. *)
Theorem C35_downhill :
  forall (method : list xr -> list xr -> list xr -> xr) (i : finfo XR) (g : list R) y_diff_prev grad_prev,
    info_grad i = map Fin g -> length y_diff_prev = length g ->
    g <> zerov (length g) ->
    nltb (n:=XR) (vdot (info_grad i) (fst (cg_query (N:=XR) method i (y_diff_prev, grad_prev)))) (Fin 0) = true.
Proof. exact C35_downhill_pf. Qed.
Print Assumptions C35_downhill.

(** The first direction of a run is the negative gradient, for every method. *)
Theorem C35_first_direction :
  forall (method : list xr -> list xr -> list xr -> xr) (i : finfo XR),
    let n := length (info_grad i) in
    fst (cg_query (N:=XR) method i (vfull n (nofQ 0), vfull n (nofQ 0))) = vneg (info_grad i).
Proof. exact C35_first_direction_pf. Qed.
Print Assumptions C35_first_direction.

(** The same seen from a run of the solver: after the first step the stored
    direction is the negative gradient at y0. *)
Theorem C35_first_direction_run :
  forall (Aux : Type) (P : ar_tols XR) (search : Search XR) method grad_of
         (fn : list xr -> xr * Aux) y0 fs auxs st0,
    accepts_first search ->
    let s := NonlinearCG (N:=XR) P grad_of method search in
    s_init s fn y0 fs auxs = Ret st0 ->
    length (grad_of fn y0) = length y0 ->
    fst (gd_descent_state (st_at s fn y0 st0 (auxs fill0) 1)) = vneg (N:=XR) (grad_of fn y0).
Proof. exact C35_first_direction_run_pf. Qed.
Print Assumptions C35_first_direction_run.

(** polak_ribiere is max(0, g.(g - g_prev) / |g_prev|^2) and fletcher_reeves is
    |g|^2 / |g_prev|^2, both 0 when |g_prev|^2 <= eps. *)
Theorem C36_polak_ribiere_fletcher_reeves :
  forall (eps : R) (g gp d : list R), (0 <= eps)%R ->
    ((eps < Rdot gp gp)%R ->
       polak_ribiere (N:=RN) eps g gp d = Rmax (Rdot g (Rsub_v g gp) / Rdot gp gp) 0 /\
       fletcher_reeves (N:=RN) eps g gp d = (Rdot g g / Rdot gp gp)%R) /\
    ((Rdot gp gp <= eps)%R ->
       polak_ribiere (N:=RN) eps g gp d = 0%R /\ fletcher_reeves (N:=RN) eps g gp d = 0%R).
Proof. exact C36_polak_ribiere_fletcher_reeves_pf. Qed.
Print Assumptions C36_polak_ribiere_fletcher_reeves.

(** hestenes_stiefel and dai_yuan return the NEGATIVE of the classical values
    g.(g - g_prev) / (d_prev.(g - g_prev)) and |g|^2 / (d_prev.(g - g_prev)): the
    denominator has the wrong sign for a formula written in terms of gradients. *)
Theorem C36_hestenes_stiefel_dai_yuan_sign :
  forall (eps : R) (g gp d : list R), (0 <= eps)%R ->
    let den := Rdot d (Rsub_v g gp) in
    ((eps < Rabs den)%R ->
       hestenes_stiefel (N:=RN) eps g gp d = (- (Rdot g (Rsub_v g gp) / den))%R /\
       dai_yuan (N:=RN) eps g gp d = (- (Rdot g g / den))%R) /\
    ((Rabs den <= eps)%R ->
       hestenes_stiefel (N:=RN) eps g gp d = 0%R /\ dai_yuan (N:=RN) eps g gp d = 0%R).
Proof. exact C36_hestenes_stiefel_dai_yuan_sign_pf. Qed.
Print Assumptions C36_hestenes_stiefel_dai_yuan_sign.

(** So the Hestenes-Stiefel direction is not conjugate to the gradient change:
    (-g + beta d) . (g - g_prev) <> 0 although d . (g - g_prev) is far from 0.
    The same inputs give a Dai-Yuan beta of the wrong sign. *)
Theorem C36_conjugacy_refuted :
  exists g gp d : list R, exists eps : R,
    (0 < eps < 1)%R /\ Rdot d (Rsub_v g gp) = 1%R /\
    Rdot (Radd_v (Rscal (-1) g) (Rscal (hestenes_stiefel (N:=RN) eps g gp d) d)) (Rsub_v g gp) <> 0%R /\
    (dai_yuan (N:=RN) eps g gp d < 0)%R.
Proof. exact C36_conjugacy_refuted_pf. Qed.
Print Assumptions C36_conjugacy_refuted.

(** What does hold for Hestenes-Stiefel: the direction with the sign of beta
    corrected, -g - beta d, is conjugate to the gradient change. *)
Theorem C36_conjugacy_with_corrected_sign :
  forall (eps : R) (g gp d : list R), (0 <= eps)%R ->
    length gp = length g -> length d = length g ->
    (eps < Rabs (Rdot d (Rsub_v g gp)))%R ->
    Rdot (Rsub_v (Rscal (-1) g) (Rscal (hestenes_stiefel (N:=RN) eps g gp d) d)) (Rsub_v g gp) = 0%R.
Proof. exact C36_conjugacy_with_corrected_sign_pf. Qed.
Print Assumptions C36_conjugacy_with_corrected_sign.

(** NonlinearCG with any method: for a differentiable objective with its true
    gradient, whenever the gradient at the current iterate is not zero, finitely
    many rejections are followed by a step that strictly decreases the
    objective. *)
Theorem C29_nonlinear_cg :
  forall (Aux : Type) (P : ar_tols RN) (decrease slope init : R) method grad_of
         (fn : list R -> R * Aux) y0 fs auxs st0,
    armijo_valid (N:=RN) decrease slope init = true ->
    let n := length y0 in
    (forall y, length y = n -> length (grad_of fn y) = n) ->
    (forall y d, length y = n -> length d = n ->
       derivable_pt_lim (fun t => fst (fn (along y d t))) 0 (Rdot (grad_of fn y) d)) ->
    let s := NonlinearCG (N:=RN) P grad_of method (armijo (N:=RN) decrease slope init) in
    s_init s fn y0 fs auxs = Ret st0 ->
    let y := y_at s fn y0 st0 (auxs fill0) in
    forall k, 0 < k -> grad_of fn (y k) <> zerov n ->
      exists m, k <= m /\ (forall j, k <= j <= m -> y j = y k) /\
                (fst (fn (y (S m))) < fst (fn (y k)))%R.
Proof. exact C29_nonlinear_cg_pf. Qed.
Print Assumptions C29_nonlinear_cg.

(** A direction whose method returns NaN, and one whose method would go
    uphill: both fall back to steepest descent.  With a sensible beta the conjugate
    direction is used. *)
Example C35_downhill_ex :
  let i := EvalGrad (N:=XR) (Fin 1) (map Fin [1; 2]%R) in
  fst (cg_query (N:=XR) (fun _ _ _ => NaN) i ([Fin 1; Fin 1], [Fin 1; Fin 1])) = [Fin (-1); Fin (-2)] /\
  fst (cg_query (N:=XR) (fun _ _ _ => Fin 3) i ([Fin 1; Fin 1], [Fin 1; Fin 1])) = [Fin (-1); Fin (-2)] /\
  fst (cg_query (N:=XR) (fun _ _ _ => Fin 1) i ([Fin 1; Fin 1], [Fin 1; Fin 1])) = [Fin 0; Fin (-1)].
Proof. exact C35_downhill_ex_pf. Qed.

(** polak_ribiere(g=(1,2), g_prev=(2,0)) = 3/4, fletcher_reeves = 5/4. *)
Example C36_polak_ribiere_fletcher_reeves_ex :
  polak_ribiere (N:=RN) (1/100)%R [1; 2]%R [2; 0]%R [0; 0]%R = (3/4)%R /\
  fletcher_reeves (N:=RN) (1/100)%R [1; 2]%R [2; 0]%R [0; 0]%R = (5/4)%R.
Proof. exact C36_polak_ribiere_fletcher_reeves_ex_pf. Qed.

(** NonlinearCG with any beta, search and arithmetic. At step k the search is asked about
    the trial point; if it accepts, the trial point is added to the points visited.
    The iterate is the last point visited; the next trial point is
    y + step_size * d, where step_size is the search's answer and d follows the
    conjugate-gradient recursion over the gradients at the points visited. *)
Theorem C68_recursion :
  forall (N : Num) (Aux : Type) (P : ar_tols N) (search : Search N) beta grad_of
         (fn : list N -> N * Aux) y0 fs auxs st0,
    let s := NonlinearCG P grad_of beta search in
    s_init s fn y0 fs auxs = Ret st0 ->
    let y := y_at s fn y0 st0 (auxs fill0) in
    let st := st_at s fn y0 st0 (auxs fill0) in
    let zero := repeat (nofQ 0) (length y0) in
    exists visited : nat -> list (list N), visited 0 = [] /\
      forall k, exists step_size accept,
        fst (fst (se_step search (gd_first_step (st k)) (y k) (gd_y_eval (st k)) (gd_f_info (st k))
                    (Eval (fst (fn (gd_y_eval (st k))))) (gd_search_state (st k)))) = (step_size, accept) /\
        visited (S k) = (if accept then gd_y_eval (st k) :: visited k else visited k) /\
        y (S k) = hd y0 (visited (S k)) /\
        gd_y_eval (st (S k)) =
          vadd (y (S k)) (vscale step_size (cg_direction beta zero (map (grad_of fn) (visited (S k))))).
Proof. exact C68_recursion_pf. Qed.
Print Assumptions C68_recursion.

(** Two gradients (1,0) then (0,1): the Fletcher-Reeves direction is -(1,1); the third
    gradient (1,-3) makes the candidate an ascent direction, so the recursion restarts. *)
Example C68_recursion_ex :
  let fr := fletcher_reeves (N:=RN) (1/100)%R in
  cg_direction (N:=RN) fr [0; 0]%R [[1; 0]]%R = [-1; 0]%R /\
  cg_direction (N:=RN) fr [0; 0]%R [[0; 1]; [1; 0]]%R = [-1; -1]%R /\
  cg_direction (N:=RN) (fun _ _ _ => 6%R) [0; 0]%R [[1; -3]; [0; 1]]%R = [-1; 3]%R.
Proof. exact C68_recursion_ex_pf. Qed.
