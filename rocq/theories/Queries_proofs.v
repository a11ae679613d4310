(** How many points of the user's function a solve looks at (C116). *)

From Coq Require Import String List Bool Arith Lia ZArith QArith Reals.
From Verif Require Import Num NumFacts NumF64 Vec Results Iterate Spec_Iterate Iterate_proofs.
From Verif Require Import FixedPoint Bisection Golden NewtonChord Search Descent Minimisers Optax NelderMead BestSoFar RootFind Solvers.
From Verif Require Import Spec_Tolerance Spec_Queries.
Import ListNotations.
Local Open Scope nat_scope.

(** The same trace up to k gives the same solution *)
Section Same.
  Context {Y Out Aux : Type} (allfinite : Y -> bool) (s : Solver Y Out Aux) (f g : Y -> Out * Aux).
  Variables (y0 : Y) (st0 : St s) (aux0 : Aux) (k : nat).
  Hypothesis HT : forall y st, s_terminate s f y st = s_terminate s g y st.
  Hypothesis HP : forall y a st r, s_post s f y a st r = s_post s g y a st r.
  Hypothesis TR : forall j, j <= k -> trace s f y0 st0 aux0 j = trace s g y0 st0 aux0 j.
  Lemma same_stops : forall j, j <= k -> stops allfinite s f y0 st0 aux0 j <-> stops allfinite s g y0 st0 aux0 j.
  Proof.
    intros j Hj. unfold stops, says_terminate, says_result, asked, y_at, st_at.
    rewrite (TR j Hj), (TR (pred j)) by lia. rewrite HT. reflexivity.
  Qed.
  Lemma same_result : final_result allfinite s f y0 st0 aux0 k = final_result allfinite s g y0 st0 aux0 k.
  Proof.
    unfold final_result, says_terminate, says_result, asked, y_at, st_at.
    rewrite (TR k (le_n k)), (TR (pred k)) by lia. rewrite HT. reflexivity.
  Qed.
  Lemma same_solution : forall ms, solution_at allfinite s f y0 st0 aux0 ms k = solution_at allfinite s g y0 st0 aux0 ms k.
  Proof.
    intro ms. unfold solution_at. rewrite same_result. unfold y_at, aux_at, st_at. rewrite (TR k (le_n k)), HP. reflexivity.
  Qed.
  Lemma same_solve : forall fuel ms throw fs auxs sol, aux0 = auxs fill0 -> s_init s f y0 fs auxs = Ret st0 -> s_init s g y0 fs auxs = Ret st0 ->
    iterative_solve allfinite s f fuel ms throw y0 fs auxs = Ret sol -> took sol k ->
    iterative_solve allfinite s g fuel ms throw y0 fs auxs = Ret sol.
  Proof.
    intros fuel ms throw fs auxs sol HA If Ig E TK.
    destruct (iterative_solve_inv allfinite s f y0 st0 aux0 fs auxs HA If fuel ms throw sol E) as (k1 & K1 & K2 & K3 & _).
    assert (k1 = k).
    { rewrite K3 in TK. unfold took in TK. rewrite (proj2 (proj2 (proj2 (solution_at_fields allfinite s f y0 st0 aux0 ms k1)))) in TK.
      cbn in TK. injection TK as TK. lia. }
    subst k1. rewrite <- E.
    rewrite (proj1 (iterative_solve_spec allfinite s f y0 st0 aux0 fs auxs HA If fuel ms throw) k K1 K2).
    assert (K2' : stop_index allfinite s g y0 st0 aux0 ms k).
    { destruct K2 as (A & B & C). split; [|split; [|exact C]].
      - destruct A as [A|A]; [left; apply same_stops; [lia|exact A]|right; exact A].
      - intros j Hj Q. apply (B j Hj). apply same_stops; [lia|exact Q]. }
    rewrite (proj1 (iterative_solve_spec allfinite s g y0 st0 aux0 fs auxs HA Ig fuel ms throw) k K1 K2').
    rewrite same_result, same_solution. reflexivity.
  Qed.
End Same.

(** Solvers whose `init` looks at b points and whose steps look at p points *)
Definition cheap {Y Out Aux M} (D : (Y -> Out * Aux) -> Y -> M) (s : Solver Y Out Aux) (y0 : Y) (b p : nat) : Prop :=
  exists I : St s -> Prop,
    (forall f fs auxs st, s_init s f y0 fs auxs = Ret st -> I st /\
       exists Q, length Q <= b /\ forall g, (forall y, In y Q -> same_at D f g y) -> s_init s g y0 fs auxs = Ret st) /\
    (forall f y st, I st -> I (snd (fst (s_step s f y st))) /\
       exists Q, length Q <= p /\ forall g, (forall y, In y Q -> same_at D f g y) -> s_step s g y st = s_step s f y st) /\
    (forall f g y st, s_terminate s f y st = s_terminate s g y st) /\
    (forall f g y a st r, s_post s f y a st r = s_post s g y a st r).

Lemma cheap_trace : forall Y Out Aux M D (s : Solver Y Out Aux) y0 b p, cheap (M:=M) D s y0 b p ->
  forall f fs auxs st0, s_init s f y0 fs auxs = Ret st0 -> forall aux0 k,
    exists Q, length Q <= b + p * k /\ forall g, (forall y, In y Q -> same_at D f g y) ->
      s_init s g y0 fs auxs = Ret st0 /\ forall j, j <= k -> trace s f y0 st0 aux0 j = trace s g y0 st0 aux0 j.
Proof.
  intros Y Out Aux M D s y0 b p (I & HI & HS & _) f fs auxs st0 Hi aux0. destruct (HI _ _ _ _ Hi) as (I0 & Q0 & L0 & A0).
  assert (IK : forall k, I (st_at s f y0 st0 aux0 k)) by (induction k as [|k IH]; [exact I0|apply HS, IH]).
  induction k as [|k (Q & L & A)].
  - exists Q0. split; [lia|]. intros g Hg. split; [exact (A0 g Hg)|]. intros j Hj. replace j with 0 by lia. reflexivity.
  - destruct (HS f (y_at s f y0 st0 aux0 k) (st_at s f y0 st0 aux0 k) (IK k)) as (_ & Q1 & L1 & A1).
    exists (Q ++ Q1). split; [rewrite app_length; lia|]. intros g Hg.
    destruct (A g ltac:(intros y Hy; apply Hg, in_or_app; auto)) as (G1 & G2). split; [exact G1|].
    intros j Hj. destruct (Nat.eq_dec j (S k)) as [->|NE]; [|apply G2; lia].
    cbn [trace]. rewrite <- (G2 k (le_n k)). symmetry. apply A1. intros y Hy. apply Hg, in_or_app. auto.
Qed.

Lemma cheap_solve : forall Y Out Aux M D (s : Solver Y Out Aux) y0 b p, cheap (M:=M) D s y0 b p ->
  forall allfinite f fuel ms throw fs auxs sol k,
    iterative_solve allfinite s f fuel ms throw y0 fs auxs = Ret sol -> took sol k ->
    exists Q, length Q <= b + p * k /\ forall g, (forall y, In y Q -> same_at D f g y) ->
      iterative_solve allfinite s g fuel ms throw y0 fs auxs = Ret sol.
Proof.
  intros Y Out Aux M D s y0 b p HC allfinite f fuel ms throw fs auxs sol k E TK.
  destruct (solve_ret_init _ _ _ _ _ _ _ _ _ _ E) as (st0 & Hi).
  destruct (cheap_trace _ _ _ _ _ _ _ _ _ HC f fs auxs st0 Hi (auxs fill0) k) as (Q & L & A).
  destruct HC as (I & _ & _ & HT & HP). exists Q. split; [exact L|]. intros g Hg. destruct (A g Hg) as (G1 & G2).
  exact (same_solve allfinite s f g y0 st0 (auxs fill0) k (HT f g) (HP f g) G2 fuel ms throw fs auxs sol eq_refl Hi G1 E TK).
Qed.

(** ** The solvers *)
Ltac one x := exists [x]; split; [cbn; lia|]; intros g Hg; destruct (Hg x (or_introl eq_refl)) as (Hv & Hd).

Lemma set_at_length : forall A i (a : A) l, length (set_at i a l) = length l.
Proof. intros A i a l. revert i. induction l as [|x l IH]; intros [|i]; cbn; auto. Qed.
Lemma build_rows_length : forall {N : Num} adelta rdelta size leaves running, length (build_rows (N:=N) adelta rdelta size running leaves) = S size.
Proof.
  intros N adelta rdelta size. induction leaves as [|l leaves IH]; intro running; [apply repeat_length|].
  cbn [build_rows]. specialize (IH (running + length l)).
  assert (G : forall A B C (h : A -> B -> C) u v, length u = length v -> length (vmap2 h u v) = length v).
  { intros A B C h. induction u as [|a u IHu]; intros [|b v] Hl; try discriminate; [reflexivity|]. cbn. f_equal. apply IHu. cbn in Hl. lia. }
  rewrite G; [exact IH|]. rewrite IH. unfold leaf_rows. rewrite map_length, seq_length. reflexivity.
Qed.

Lemma cheap_all : forall (N : Num) Y Out Aux M D (s : Solver Y Out Aux) before each,
  evaluates (N:=N) Y Out Aux M D s before each -> forall y0, cheap D s y0 (before y0) (each y0).
Proof.
  intros N Y Out Aux M D s before each H. induction H; intro y0.
  - (* fixed point *)
    exists (fun _ => True). split; [|split; [|split]]; [| |reflexivity|reflexivity].
    + intros f fs auxs st Hi. split; [exact I|]. exists []. split; [auto|]. intros g _. exact Hi.
    + intros f y st _. split; [exact I|]. one y. cbn. unfold fp_step. rewrite Hv. reflexivity.
  - (* bisection, given flip *)
    exists (fun _ => True). split; [|split; [|split]]; [| |reflexivity|reflexivity].
    + intros f fs auxs st Hi. split; [exact I|]. exists []. split; [auto|]. intros g _. exact Hi.
    + intros f y st _. split; [exact I|]. one y. cbn. unfold bis_step. rewrite Hv. reflexivity.
  - (* bisection, detecting flip *)
    exists (fun _ => True). split; [|split; [|split]]; [| |reflexivity|reflexivity].
    + intros f fs auxs st Hi. split; [exact I|]. exists [lower; upper]. split; [auto|]. intros g Hg.
      rewrite <- Hi. cbn [s_init bisection bis_init].
      rewrite (proj1 (Hg lower (or_introl eq_refl))), (proj1 (Hg upper (or_intror (or_introl eq_refl)))). reflexivity.
    + intros f y st _. split; [exact I|]. one y. cbn. unfold bis_step. rewrite Hv. reflexivity.
  - (* golden *)
    exists (fun _ => True). split; [|split; [|split]]; [| |reflexivity|reflexivity].
    + intros f fs auxs st Hi. split; [exact I|]. one (nth 0 [ndiv (nsub upper lower) (nadd golden_ratio (nofQ 1))] lower).
      rewrite <- Hi. cbn in *. unfold gs_init. rewrite Hv. reflexivity.
    + intros f y st _. split; [exact I|]. one (if gs_first st then nadd (gs_lower st) (nsub (gs_upper st) (gs_middle st)) else y).
      cbn. unfold gs_step. cbv zeta. rewrite Hv. reflexivity.
  - (* Newton *)
    exists (fun _ => True). split; [|split; [|split]]; [| |reflexivity|reflexivity].
    + intros f fs auxs st Hi. split; [exact I|]. exists []. split; [auto|]. intros g _. rewrite <- Hi. cbn. unfold nc_init. rewrite H. reflexivity.
    + intros f y st _. split; [exact I|]. one y. cbn. unfold nc_step_fn, nc_solve. rewrite Hv, Hd. reflexivity.
  - (* Chord *)
    exists (fun _ => True). split; [|split; [|split]]; [| |reflexivity|reflexivity].
    + intros f fs auxs st Hi. split; [exact I|]. one y0. rewrite <- Hi. cbn. unfold nc_init. rewrite Hd. reflexivity.
    + intros f y st _. split; [exact I|]. one y. cbn. unfold nc_step_fn, nc_solve. rewrite Hv, Hd. reflexivity.
  - (* gradient descent *)
    exists (fun _ => True). split; [|split; [|split]]; [| |reflexivity|reflexivity].
    + intros f fs auxs st Hi. split; [exact I|]. exists []. split; [auto|]. intros g _. exact Hi.
    + intros f y st _. split; [exact I|]. one (gd_y_eval st). cbn. unfold gd_step. rewrite Hv, Hd. reflexivity.
  - (* quasi-Newton *)
    exists (fun _ => True). split; [|split; [|split]]; [| |reflexivity|reflexivity].
    + intros f fs auxs st Hi. split; [exact I|]. exists []. split; [auto|]. intros g _. exact Hi.
    + intros f y st _. split; [exact I|]. one (qn_y_eval st). cbn. unfold qn_step. rewrite Hv, Hd. reflexivity.
  - (* Gauss-Newton *)
    exists (fun _ => True). split; [|split; [|split]]; [| |reflexivity|reflexivity].
    + intros f fs auxs st Hi. split; [exact I|]. exists []. split; [auto|]. intros g _. exact Hi.
    + intros f y st _. split; [exact I|]. one (gn_y_eval st). cbn. unfold gn_step. rewrite Hv, Hd. reflexivity.
  - (* Optax *)
    exists (fun _ => True). split; [|split; [|split]]; [| |reflexivity|reflexivity].
    + intros f fs auxs st Hi. split; [exact I|]. exists []. split; [auto|]. intros g _. exact Hi.
    + intros f y st _. split; [exact I|]. one y. cbn. unfold optax_step. rewrite Hv, Hd. destruct (g y) as [v a].
      rewrite (H _ _ _ _ (fun y => fst (g y)) (fun y => fst (f y))). reflexivity.
  - (* Nelder-Mead *)
    exists (fun st => length (nm_simplex st) = S (length y0)). split; [|split; [|split]]; [| |reflexivity|reflexivity].
    + intros f fs auxs st Hi. split; [|exists []; split; [cbn; lia|]; intros g _; exact Hi].
      injection Hi as <-. cbn. apply build_rows_length.
    + intros f y st HL. split.
      * cbn. unfold nm_step. destruct (nm_first_pass st).
        -- destruct (init_step st) as [[[v fv] ct] a]. cbn [shrink_simplex].
           destruct (top1 (map nneg _)) as [bi bf]. destruct (top1 _) as [wi wf]. cbn. exact HL.
        -- destruct (main_step f st) as [[[v fv] ct] a]. destruct (nltb (nm_f_worst st) fv); cbn [shrink_simplex];
             destruct (top1 (map nneg _)) as [bi bf]; destruct (top1 _) as [wi wf]; cbn; rewrite ?map_length, ?set_at_length; exact HL.
      * set (refl := along (nm_worst st) (search_direction (nm_simplex st) (nm_worst st)) (nofQ 2)).
        set (v := fst (fst (fst (main_step f st)))).
        set (best := vwhere (nltb (snd (fst (fst (if nm_first_pass st then init_step st else main_step f st)))) (nm_f_best st))
                       (fst (fst (fst (if nm_first_pass st then init_step st else main_step f st)))) (nm_best st)).
        exists (refl :: v :: snd (shrink_simplex f best (nm_simplex st) (nm_first_pass st))). split.
        { cbn [length]. unfold shrink_simplex. cbn [snd]. destruct (nm_first_pass st); rewrite ?map_length; lia. }
        intros g Hg.
        assert (M1 : main_step g st = main_step f st).
        { pose proof (proj1 (Hg refl (or_introl eq_refl))) as E1. pose proof (proj1 (Hg v (or_intror (or_introl eq_refl)))) as E2.
          unfold v in E2. unfold main_step in *. cbv zeta in *. fold refl in E2 |- *. rewrite <- E1. 
          match type of E2 with context [let '(_, _) := f ?z in _] => set (w := z) in *; destruct (f w) as [fw aw] eqn:Ew end.
          cbn in E2. rewrite <- E2. rewrite Ew. reflexivity. }
        assert (SH : shrink_simplex g best (nm_simplex st) (nm_first_pass st) = shrink_simplex f best (nm_simplex st) (nm_first_pass st)).
        { unfold shrink_simplex. cbv zeta. f_equal. apply map_ext_in. intros z Hz. f_equal. symmetry. apply (Hg z). right. right. exact Hz. }
        cbn. unfold nm_step. rewrite M1. unfold best in SH.
        destruct (if nm_first_pass st then init_step st else main_step f st) as [[[v' fv] ct] a]. cbn [fst snd] in SH.
        rewrite SH. reflexivity.
  - (* BestSoFar *)
    destruct (IHevaluates y0) as (I & HI & HS & HT & HP). exists (fun st => I (inner st)). split; [|split; [|split]].
    + intros f fs auxs st Hi. cbn in Hi. destruct (s_init s (auxmented f) y0 fs (fun v => (fs v, auxs v))) as [st'| |] eqn:E; try discriminate Hi.
      cbn in Hi. injection Hi as <-. destruct (HI _ _ _ _ E) as (I0 & Q & L & A). split; [exact I0|]. exists Q. split; [exact L|]. intros g Hg.
      cbn. rewrite (A (auxmented g)); [reflexivity|]. intros y Hy. destruct (Hg y Hy) as (Hv & Hd). split; [unfold auxmented; rewrite Hv; reflexivity|exact Hd].
    + intros f y st Ist. destruct (HS (auxmented f) y (inner st) Ist) as (I1 & Q & L & A). split.
      { cbn. destruct (s_step s (auxmented f) y (inner st)) as [[ny ns] [o a]]. exact I1. }
      exists Q. split; [exact L|]. intros g Hg. cbn. rewrite (A (auxmented g)); [reflexivity|].
      intros z Hz. destruct (Hg z Hz) as (Hv & Hd). split; [unfold auxmented; rewrite Hv; reflexivity|exact Hd].
    + intros. cbn. apply HT.
    + reflexivity.
  - (* to_root *)
    destruct (IHevaluates y0) as (I & HI & HS & HT & HP). exists (fun st => I (fst st)). split; [|split; [|split]].
    + intros f fs auxs st Hi. cbn in Hi. destruct (s_init s f y0 fs auxs) as [st'| |] eqn:E; try discriminate Hi.
      cbn in Hi. injection Hi as <-. destruct (HI _ _ _ _ E) as (I0 & Q & L & A). split; [exact I0|]. exists Q. split; [exact L|]. intros g Hg.
      cbn. rewrite (A g Hg). reflexivity.
    + intros f y st Ist. destruct (HS f y (fst st) Ist) as (I1 & Q & L & A). split.
      { cbn. destruct (s_step s f y (fst st)) as [[ny ns] [o a]]. exact I1. }
      exists Q. split; [exact L|]. intros g Hg. cbn. rewrite (A g Hg). reflexivity.
    + intros. cbn. rewrite (HT f g). reflexivity.
    + intros. cbn. apply HP.
Qed.

(** A solve that reports k steps has looked at the user's function, and where it uses derivatives at its derivative,
    at no more than `before + each * k` points: every function that agrees there with the given one gives the same
    outcome, the same value, status, statistics and final state, whatever it does elsewhere.  One point per step for
    FixedPointIteration, Bisection, GoldenSearch, Newton, Chord, and the gradient-descent, quasi-Newton, Gauss-Newton
    and Optax solvers; at most d + 3 for NelderMead in d dimensions; BestSoFar and root_find's wrapper add none. *)
Lemma C116_evaluations_pf :
  forall (N : Num) (Y Out Aux M : Type) (D : (Y -> Out * Aux) -> Y -> M) (s : Solver Y Out Aux) before each,
    evaluates (N:=N) Y Out Aux M D s before each ->
  forall allfinite f fuel ms throw y0 fs auxs sol k,
    iterative_solve allfinite s f fuel ms throw y0 fs auxs = Ret sol -> took sol k ->
    exists Q, length Q <= before y0 + each y0 * k /\
      forall g, (forall y, In y Q -> same_at D f g y) -> iterative_solve allfinite s g fuel ms throw y0 fs auxs = Ret sol.
Proof.
  intros N Y Out Aux M D s before each H allfinite f fuel ms throw y0 fs auxs sol k.
  exact (cheap_solve Y Out Aux M D s y0 _ _ (cheap_all N Y Out Aux M D s before each H y0) allfinite f fuel ms throw fs auxs sol k).
Qed.

Section Accepted.
  Context {N : Num} {Aux : Type} (s : Solver (list N) N Aux) (grad_of : (list N -> N * Aux) -> list N -> list N).
  Variable trial : St s -> list N.
  Hypothesis HS : forall f g y st, f (trial st) = g (trial st) ->
    grad_of f (fst (fst (s_step s f y st))) = grad_of g (fst (fst (s_step s f y st))) -> s_step s g y st = s_step s f y st.
  Hypothesis HI : forall f g y fs auxs, s_init s f y fs auxs = s_init s g y fs auxs.
  Hypothesis HT : forall f g y st, s_terminate s f y st = s_terminate s g y st.
  Hypothesis HP : forall f g y a st r, s_post s f y a st r = s_post s g y a st r.
  Lemma accepted_only : forall allfinite f fuel ms throw y0 fs auxs sol k st0,
    s_init s f y0 fs auxs = Ret st0 -> iterative_solve allfinite s f fuel ms throw y0 fs auxs = Ret sol -> took sol k ->
    exists Q, length Q <= k /\ forall g, (forall y, In y Q -> f y = g y) ->
      (forall j, 1 <= j <= k -> grad_of f (y_at s f y0 st0 (auxs fill0) j) = grad_of g (y_at s f y0 st0 (auxs fill0) j)) ->
      iterative_solve allfinite s g fuel ms throw y0 fs auxs = Ret sol.
  Proof.
    intros allfinite f fuel ms throw y0 fs auxs sol k st0 Hi E TK.
    exists (map (fun j => trial (st_at s f y0 st0 (auxs fill0) j)) (seq 0 k)). split; [rewrite map_length, seq_length; lia|].
    intros g Hv Hd. refine (same_solve allfinite s f g y0 st0 (auxs fill0) k (HT f g) (HP f g) _ fuel ms throw fs auxs sol eq_refl Hi _ E TK).
    - induction j as [|j IH]; intro Hj; [reflexivity|]. cbn [trace]. rewrite <- IH by lia. symmetry. apply HS.
      + apply Hv. apply (in_map (fun j => trial (st_at s f y0 st0 (auxs fill0) j))). apply in_seq. lia.
      + exact (Hd (S j) ltac:(lia)).
    - rewrite <- Hi. apply HI.
  Qed.
End Accepted.

(** The gradient-descent and quasi-Newton solvers take gradients only at their iterates, that is at accepted points:
    of the at most k points where a solve of k steps evaluates the function, the derivative is not used at the
    rejected ones. *)
Lemma C116_gradients_pf :
  forall (N : Num) (Aux : Type) (s : Solver (list N) N Aux) (grad_of : (list N -> N * Aux) -> list N -> list N),
    (exists P search descent, s = gradient_descent_solver P search descent grad_of) \/
    (exists P search descent HSt (init_hessian : _ -> _ -> _ -> _ * HSt) update_hessian,
       s = quasi_newton_solver P search descent grad_of init_hessian update_hessian) ->
  forall allfinite f fuel ms throw y0 fs auxs sol k st0,
    s_init s f y0 fs auxs = Ret st0 -> iterative_solve allfinite s f fuel ms throw y0 fs auxs = Ret sol -> took sol k ->
    exists Q, length Q <= k /\ forall g, (forall y, In y Q -> f y = g y) ->
      (forall j, 1 <= j <= k -> grad_of f (y_at s f y0 st0 (auxs fill0) j) = grad_of g (y_at s f y0 st0 (auxs fill0) j)) ->
      iterative_solve allfinite s g fuel ms throw y0 fs auxs = Ret sol.
Proof.
  intros N Aux s grad_of [(P & search & descent & ->)|(P & search & descent & HSt & ih & uh & ->)].
  - apply (accepted_only (gradient_descent_solver P search descent grad_of) grad_of (fun st => gd_y_eval (st : gd_state search descent))); try reflexivity.
    intros f g y st Hv. cbn [s_step gradient_descent_solver]. unfold gd_step. cbv zeta. rewrite Hv. destruct (g (gd_y_eval st)) as [fe ae].
    destruct (se_step search (gd_first_step st) y (gd_y_eval st) (gd_f_info st) (Eval fe) (gd_search_state st)) as [[[ss acc] sr] sst].
    destruct acc.
    + intro Hd.
      match type of Hd with grad_of f ?z = _ => assert (Ez : z = gd_y_eval st) end.
      { destruct (d_step descent ss _) as [yd dr]. reflexivity. }
      rewrite Ez in Hd. rewrite Hd. reflexivity.
    + reflexivity.
  - apply (accepted_only (quasi_newton_solver P search descent grad_of ih uh) grad_of (fun st => qn_y_eval (st : qn_state search descent))); try reflexivity.
    intros f g y st Hv. cbn [s_step quasi_newton_solver]. unfold qn_step. cbv zeta. rewrite Hv. destruct (g (qn_y_eval st)) as [fe ae].
    destruct (se_step search (qn_first_step st) y (qn_y_eval st) (qn_f_info st) (Eval fe) (qn_search_state st)) as [[[ss acc] sr] sst].
    destruct acc.
    + intro Hd.
      match type of Hd with grad_of f ?z = _ => assert (Ez : z = qn_y_eval st) end.
      { destruct (uh _ _ _ _ _ _) as [fi hs]. destruct (d_step descent ss _) as [yd dr]. reflexivity. }
      rewrite Ez in Hd. rewrite Hd. reflexivity.
    + reflexivity.
Qed.

(** Bisection of x^2 - 2 on [0, 2] with atol = 1/8 in double precision takes 5 steps and so looks at no more than
    7 points: everything else agreeing with x^2 - 2 there ends in the same solution. *)
Definition took_b {A B S} (o : outcome (Solution A B S)) (k : Z) : bool :=
  match o with
  | Ret sol => results_eqb (result sol) successful &&
      match hd_error (sol_stats sol) with Some (n, Some z) => String.eqb n "num_steps" && Z.eqb z k | _ => false end
  | _ => false
  end.
Lemma took_b_sound : forall A B S (o : outcome (Solution A B S)) k, took_b o (Z.of_nat k) = true ->
  exists sol, o = Ret sol /\ result sol = successful /\ took sol k.
Proof.
  intros A B S [sol| |] k H; try discriminate H. cbn in H. apply andb_true_iff in H. destruct H as (H1 & H2).
  exists sol. split; [reflexivity|]. split; [apply results_eqb_eq, H1|]. unfold took.
  destruct (hd_error (sol_stats sol)) as [[n [z|]]|]; try discriminate H2. apply andb_true_iff in H2. destruct H2 as (E & Z).
  apply String.eqb_eq in E. apply Z.eqb_eq in Z. subst. reflexivity.
Qed.

Example C116_evaluations_ex_pf :
  let s := bisection (N:=F64) (Aux:=unit) (f64_ofQ 0) (f64_ofQ (1#8)) Detect false 0 (f64_ofQ 0) (f64_ofQ 2) in
  let solve f := iterative_solve (nisfin (n:=F64)) s f 20 None true (f64_ofQ 1) (fun _ => f64_ofQ 0) (fun _ => tt) in
  exists sol, solve two64 = Ret sol /\ result sol = successful /\ took sol 5 /\
    exists Q, length Q <= 7 /\ forall g, (forall y, In y Q -> two64 y = g y) -> solve g = Ret sol.
Proof.
  intros s solve.
  assert (T : took_b (solve two64) (Z.of_nat 5) = true) by (vm_compute; reflexivity).
  destruct (took_b_sound _ _ _ _ _ T) as (sol & E & R & K). exists sol. split; [exact E|]. split; [exact R|]. split; [exact K|].
  destruct (C116_evaluations_pf F64 f64 f64 unit unit (fun _ _ => tt) s _ _ (v_bisection_detect _ _ _ _ _ _ _ _)
    _ _ _ _ _ _ _ _ sol 5 E K) as (Q & L & A).
  exists Q. split; [exact L|]. intros g Hg. apply A. intros y Hy. split; [exact (Hg y Hy)|reflexivity].
Qed.

(** Steepest descent with Armijo backtracking on x^2 from 1 in double precision: the full step to -1 is rejected,
    half of it reaches 0.  The four steps evaluate no more than four points, and of the gradient only the values at
    the iterates matter. *)
Example C116_gradients_ex_pf :
  let P := mkTols (N:=F64) (f64_ofQ 0) (f64_ofQ (1#8)) (max_norm (N:=F64)) in
  let s := gradient_descent_solver (N:=F64) (Aux:=unit) P (armijo (f64_ofQ (1#2)) (f64_ofQ (1#10)) (f64_ofQ 1))
    (steepest_descent None) square64_grad in
  let solve f := iterative_solve (vallfinite (N:=F64)) s f 20 None true [f64_ofQ 1] (fun _ => f64_ofQ 0) (fun _ => tt) in
  exists sol, solve square64 = Ret sol /\ result sol = successful /\ took sol 4 /\
    exists Q, length Q <= 4 /\ forall g, (forall y, In y Q -> square64 y = g y) -> solve g = Ret sol.
Proof.
  intros P s solve.
  assert (T : took_b (solve square64) (Z.of_nat 4) = true) by (vm_compute; reflexivity).
  destruct (took_b_sound _ _ _ _ _ T) as (sol & E & R & K). exists sol. split; [exact E|]. split; [exact R|]. split; [exact K|].
  destruct (solve_ret_init _ _ _ _ _ _ _ _ _ _ E) as (st0 & Hi).
  destruct (C116_gradients_pf F64 unit s square64_grad (or_introl (ex_intro _ P (ex_intro _ _ (ex_intro _ _ eq_refl))))
    _ _ _ _ _ _ _ _ sol 4 st0 Hi E K) as (Q & L & A).
  exists Q. split; [exact L|]. intros g Hg. apply A; [exact Hg|reflexivity].
Qed.
