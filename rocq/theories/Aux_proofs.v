(** The auxiliary output of a solve (C119). *)

From Coq Require Import String List Bool Arith Lia ZArith QArith Reals.
From Verif Require Import Num NumF64 Vec Results Iterate Spec_Iterate Iterate_proofs.
From Verif Require Import FixedPoint Bisection Golden NewtonChord Search Descent Minimisers Solvers Optax NelderMead RootFind.
From Verif Require Import Spec_Search Minimisers_proofs Spec_Tolerance Tolerance_proofs Spec_Resume Spec_Aux.
Import ListNotations.
Local Open Scope nat_scope.

Lemma to_root_trace : forall (N : Num) Out Aux atol norm (s : Solver (list N) Out (list N * Aux)) fn y0 st0 f0 a0 k,
  fst (fst (trace (to_root atol norm s) fn y0 (st0, f0) a0 k)) = fst (fst (trace s fn y0 st0 a0 k)) /\
  fst (snd (fst (trace (to_root atol norm s) fn y0 (st0, f0) a0 k))) = snd (fst (trace s fn y0 st0 a0 k)) /\
  snd (trace (to_root atol norm s) fn y0 (st0, f0) a0 k) = snd (trace s fn y0 st0 a0 k).
Proof.
  intros N Out Aux atol norm s fn y0 st0 f0 a0. induction k as [|k (E1 & E2 & _)]; [auto|].
  cbn [trace s_step to_root]. rewrite E1, E2. destruct (s_step s fn _ _) as [[y st] [f a]]. auto.
Qed.

Lemma ordinary_reports : forall (N : Num) Y Out Aux (s : Solver Y Out Aux), ordinary (N:=N) Y Out Aux s ->
  (forall fn y a st r, fst (fst (s_post s fn y a st r)) = y /\ snd (fst (s_post s fn y a st r)) = a) /\
  forall fn y0 fs auxs st0, s_init s fn y0 fs auxs = Ret st0 -> reports_aux s fn y0 st0 (auxs fill0).
Proof.
  intros N Y Out Aux s H. induction H.
  - split; [auto|]. intros fn y0 fs auxs st0 _ k. unfold aux_at, y_at. cbn [trace s_step fixed_point_iteration]. unfold fp_step.
    destruct (fn _) as [f a]. reflexivity.
  - split; [auto|]. intros fn y0 fs auxs st0 _ k. unfold aux_at, y_at. cbn [trace s_step bisection]. unfold bis_step.
    destruct (fn _) as [f a]. reflexivity.
  - split; [auto|]. intros fn y0 fs auxs st0 _ k. unfold aux_at, y_at. cbn [trace s_step newton_chord]. unfold nc_step_fn.
    destruct (fn _) as [f a]. destruct (nc_solve _ _ _ _ _ _ _). reflexivity.
  - split; [auto|]. intros fn y0 fs auxs st0 I. apply (C43_gradient_descent_pf N Aux P search descent grad_of fn y0 fs auxs st0 H I).
  - split; [auto|]. intros fn y0 fs auxs st0 I. apply (C43_quasi_newton_pf N Aux HSt P search descent grad_of _ _ fn y0 fs auxs st0 H H0 I).
  - split; [auto|]. intros fn y0 fs auxs st0 I. apply (C43_gauss_newton_pf N Aux P search descent jac_of fn y0 fs auxs st0 H I).
  - split; [auto|]. intros fn y0 fs auxs st0 _ k. unfold aux_at, y_at. cbn [trace s_step OptaxMinimiser]. unfold optax_step.
    destruct (fn _) as [f a]. destruct (ot_update _ _ _ _ _ _). reflexivity.
  - destruct IHordinary as [P1 P2]. split; [intros; apply P1|]. intros fn y0 fs auxs st0 I k. cbn [s_init to_root] in I.
    destruct (s_init s fn y0 fs auxs) as [st1| |] eqn:E; try discriminate I. cbn in I. injection I as <-.
    specialize (P2 _ _ _ _ _ E k). unfold aux_at, y_at in *.
    destruct (to_root_trace N Out Aux atol norm s fn y0 st1 (fst (auxs fillinf)) (auxs fill0) (S k)) as (_ & _ & ->).
    destruct (to_root_trace N Out Aux atol norm s fn y0 st1 (fst (auxs fillinf)) (auxs fill0) k) as (-> & _). exact P2.
Qed.

(** the solve with one step fewer *)
Lemma one_fewer : forall Y Out Aux allfinite (s : Solver Y Out Aux) fn fuel ms throw y0 fs auxs sol k,
  (forall fn y a st r, fst (fst (s_post s fn y a st r)) = y /\ snd (fst (s_post s fn y a st r)) = a) ->
  iterative_solve allfinite s fn fuel ms throw y0 fs auxs = Ret sol -> took sol k ->
  exists st0, s_init s fn y0 fs auxs = Ret st0 /\ value sol = y_at s fn y0 st0 (auxs fill0) k /\ aux sol = aux_at s fn y0 st0 (auxs fill0) k /\
    forall j, j <= k -> exists sol', iterative_solve allfinite s fn fuel (Some j) false y0 fs auxs = Ret sol' /\ took sol' j /\ value sol' = y_at s fn y0 st0 (auxs fill0) j.
Proof.
  intros Y Out Aux allfinite s fn fuel ms throw y0 fs auxs sol k Post H T.
  destruct (solve_ret_init _ _ _ _ _ _ _ _ _ _ H) as (st0 & I). exists st0. split; [exact I|].
  destruct (iterative_solve_inv allfinite s fn y0 st0 _ fs auxs eq_refl I _ _ _ _ H) as (k' & Hk & (S1 & S2 & S3) & E & _).
  set (a0 := auxs fill0) in *.
  pose proof (solution_at_fields allfinite s fn y0 st0 a0 ms k') as (_ & _ & EV & ET).
  assert (K : k' = k). { subst sol. unfold took in T. rewrite ET in T. cbn in T. injection T as T. lia. }
  subst k'. subst sol.
  match type of EV with context [s_post s fn ?y ?a ?st ?r] => destruct (Post fn y a st r) as [P1 P2] end.
  split; [|split].
  - rewrite <- P1. rewrite <- EV. reflexivity.
  - rewrite <- P2. rewrite <- EV. reflexivity.
  - intros j Hj.
    assert (SI : stop_index allfinite s fn y0 st0 a0 (Some j) j).
    { split; [right; reflexivity|]. split; [intros i Hi; apply S2; lia|]. intros i [= <-]. lia. }
    pose proof (proj1 (iterative_solve_spec allfinite s fn y0 st0 a0 fs auxs eq_refl I fuel (Some j) false) j ltac:(lia) SI) as Q.
    eexists. split; [exact Q|]. pose proof (solution_at_fields allfinite s fn y0 st0 a0 (Some j) j) as (_ & _ & EV' & ET').
    split; [unfold took; rewrite ET'; reflexivity|].
    match type of EV' with context [s_post s fn ?y ?a ?st ?r] => destruct (Post fn y a st r) as [P1' _] end.
    rewrite <- P1'. rewrite <- EV'. reflexivity.
Qed.

(** For every solver but GoldenSearch, NelderMead and the BestSoFar wrappers, the aux of a solution belongs to the point
    its last step started from: the value the same solve returns with one step fewer.  Without any step it is the
    placeholder of zeros. *)
Lemma C119_aux_pf :
  forall (N : Num) Y Out Aux allfinite (s : Solver Y Out Aux) fn fuel ms throw y0 fs auxs sol, ordinary (N:=N) Y Out Aux s ->
    iterative_solve allfinite s fn fuel ms throw y0 fs auxs = Ret sol ->
    (took sol 0 -> aux sol = auxs fill0) /\
    forall k, took sol (1 + k) -> exists sol', iterative_solve allfinite s fn fuel (Some k) false y0 fs auxs = Ret sol' /\
      aux sol = snd (fn (value sol')).
Proof.
  intros N Y Out Aux allfinite s fn fuel ms throw y0 fs auxs sol HO H. destruct (ordinary_reports N Y Out Aux s HO) as [Post Rep]. split.
  - intro T. destruct (one_fewer _ _ _ _ _ _ _ _ _ _ _ _ _ _ Post H T) as (st0 & I & _ & A & _). rewrite A. reflexivity.
  - intros k T. destruct (one_fewer _ _ _ _ _ _ _ _ _ _ _ _ _ _ Post H T) as (st0 & I & _ & A & F). destruct (F k ltac:(lia)) as (sol' & H' & _ & V).
    exists sol'. split; [exact H'|]. rewrite A, V. exact (Rep _ _ _ _ _ I k).
Qed.

Lemma gs_aux : forall (N : Num) Aux rtol atol (fn : N -> N * Aux) y (st : gs_state (N:=N)),
  snd (gs_step rtol atol fn y st) = snd (fn (if gs_first st then (gs_lower st + (gs_upper st - gs_middle st))%num else y)).
Proof. intros. unfold gs_step. destruct (fn _) as [f a]. reflexivity. Qed.

(** GoldenSearch: from the second step on likewise.  A single step evaluates lower + (upper - middle), whatever y0 is. *)
Lemma C119_golden_pf :
  forall (N : Num) Aux allfinite rtol atol lower upper (fn : N -> N * Aux) fuel ms throw y0 fs auxs sol,
    let s := golden rtol atol lower upper in
    iterative_solve allfinite s fn fuel ms throw y0 fs auxs = Ret sol ->
    (took sol 0 -> aux sol = auxs fill0) /\
    (took sol 1 -> aux sol = snd (fn (lower + (upper - (upper - lower) / (golden_ratio + lit 1)))%num)) /\
    forall k, took sol (2 + k) -> exists sol', iterative_solve allfinite s fn fuel (Some (1 + k)) false y0 fs auxs = Ret sol' /\
      aux sol = snd (fn (value sol')).
Proof.
  intros N Aux allfinite rtol atol lower upper fn fuel ms throw y0 fs auxs sol s H.
  assert (Post : forall (fn : N -> N * Aux) y a st r, fst (fst (s_post s fn y a st r)) = y /\ snd (fst (s_post s fn y a st r)) = a) by (intros; split; reflexivity).
  assert (First : forall y (st : gs_state (N:=N)), gs_first (snd (fst (gs_step rtol atol fn y st))) = false).
  { intros y st. unfold gs_step. destruct (fn _) as [f a]. cbn. destruct (f <? gs_f_middle st)%num; reflexivity. }
  split; [|split].
  - intro T. destruct (one_fewer _ _ _ _ _ _ _ _ _ _ _ _ _ _ Post H T) as (st0 & I & _ & A & _). exact A.
  - intro T. destruct (one_fewer _ _ _ _ _ _ _ _ _ _ _ _ _ _ Post H T) as (st0 & I & _ & A & _).
    cbn in I. unfold gs_init in I. injection I as <-. exact (eq_trans A (gs_aux _ _ _ _ _ _ _)).
  - intros k T. destruct (one_fewer _ _ _ _ _ _ _ _ _ _ _ _ _ _ Post H T) as (st0 & I & _ & A & F). destruct (F (1 + k) ltac:(lia)) as (sol' & H' & _ & V).
    exists sol'. split; [exact H'|]. rewrite V. refine (eq_trans A (eq_trans (gs_aux _ _ _ _ _ _ _) _)).
    match goal with |- context [if ?b then _ else _] => assert (Q : b = false) by apply First; rewrite Q end. reflexivity.
Qed.

(** NelderMead: the first step leaves the placeholder, later steps give the aux of the vertex they tried, whether or not
    it became part of the simplex. *)
Lemma C119_nelder_mead_pf :
  forall (N : Num) Aux allfinite rtol atol norm rdelta adelta shape (fn : list N -> N * Aux) fuel ms throw y0 fs auxs sol,
    let s := NelderMead rtol atol norm rdelta adelta shape in
    iterative_solve allfinite s fn fuel ms throw y0 fs auxs = Ret sol ->
    (took sol 0 \/ took sol 1 -> aux sol = auxs fill0) /\
    forall k, took sol (2 + k) -> exists v, aux sol = snd (fn v).
Proof.
  intros N Aux allfinite rtol atol norm rdelta adelta shape fn fuel ms throw y0 fs auxs sol s H.
  assert (Post : forall (fn : list N -> N * Aux) y a st r, fst (fst (s_post s fn y a st r)) = y /\ snd (fst (s_post s fn y a st r)) = a) by (intros; split; reflexivity).
  assert (First : forall st : nm_state N Aux, nm_first_pass (snd (fst (nm_step fn st))) = false).
  { intros st. unfold nm_step. repeat match goal with |- context [let '(_, _) := ?x in _] => destruct x end. reflexivity. }
  assert (AuxIs : forall st : nm_state N Aux, snd (nm_step fn st) = if nm_first_pass st then nm_aux st else snd (main_step fn st)).
  { intros st. unfold nm_step. destruct (nm_first_pass st); unfold init_step; [|destruct (main_step fn st) as [[[v f] c] a]]; cbn [snd];
    repeat match goal with |- context [let '(_, _) := ?x in _] => destruct x end; reflexivity. }
  split.
  - intros [T|T]; destruct (one_fewer _ _ _ _ _ _ _ _ _ _ _ _ _ _ Post H T) as (st0 & I & _ & A & _); refine (eq_trans A _); [reflexivity|].
    cbn in I. injection I as <-. unfold aux_at. cbn [trace s_step s NelderMead fst snd]. rewrite AuxIs. reflexivity.
  - intros k T. destruct (one_fewer _ _ _ _ _ _ _ _ _ _ _ _ _ _ Post H T) as (st0 & I & _ & A & _).
    assert (M : forall st : nm_state N Aux, exists v, snd (main_step fn st) = snd (fn v)).
    { intro st. unfold main_step. match goal with |- context [fn (vwhere ?c ?a ?b)] => exists (vwhere c a b); destruct (fn (vwhere c a b)) end. reflexivity. }
    match type of A with _ = aux_at _ _ _ _ _ (2 + _) => destruct (M (st_at s fn y0 st0 (auxs fill0) (1 + k))) as (v & E) end.
    exists v. refine (eq_trans A (eq_trans (AuxIs _) _)).
    match goal with |- (if ?b then _ else _) = _ => assert (Q : b = false) by apply First; rewrite Q end. exact E.
Qed.

(** *** evaluating solves *)
Definition aux_chk {Y A S} (o : outcome (Solution Y A S)) (r : results) (k : Z) (p : Y -> A -> bool) : bool :=
  match o with
  | Ret sol => results_eqb (result sol) r && match hd_error (sol_stats sol) with Some (n, Some z) => String.eqb n "num_steps" && Z.eqb z k | _ => false end &&
      p (value sol) (aux sol)
  | _ => false
  end.
Lemma aux_chk_sound : forall Y A S (o : outcome (Solution Y A S)) r k p, aux_chk o r (Z.of_nat k) p = true ->
  exists sol, o = Ret sol /\ result sol = r /\ took sol k /\ p (value sol) (aux sol) = true.
Proof.
  intros Y A S [sol| |] r k p H; try discriminate H. cbn in H. rewrite !andb_true_iff in H. destruct H as ((H1 & H2) & H3).
  exists sol. split; [reflexivity|]. split; [apply results_eqb_eq, H1|]. split; [|exact H3].
  unfold took. destruct (hd_error (sol_stats sol)) as [[n [z|]]|]; try discriminate H2. apply andb_true_iff in H2. destruct H2 as (N & Z).
  apply String.eqb_eq in N. apply Z.eqb_eq in Z. subst. reflexivity.
Qed.
Definition is1 (q : Q) (y : list f64) : bool := match y with [x] => neqb (n:=F64) x (f64_ofQ q) | _ => false end.
Lemma is1_sound : forall q y, is1 q y = true -> exists x, y = [x] /\ neqb (n:=F64) x (f64_ofQ q) = true.
Proof. intros q [|x [|]] H; try discriminate H. exists x. auto. Qed.

(** Newton on x^2 from 1 with aux = x: four steps lead to 1/16, and the solve that succeeds after five has aux 1/16 *)
Example C119_aux_ex_pf :
  let solve ms := iterative_solve (vallfinite (N:=F64)) (newton_chord self64_slope over64 (sq64_params true)) self64 9 (Some ms) false [f64_ofQ 1] (fun _ => [f64_ofQ 0]) (fun _ => [f64_ofQ 0]) in
  exists sol sol', solve 8 = Ret sol /\ result sol = successful /\ took sol 5 /\ solve 4 = Ret sol' /\ aux sol = value sol' /\ is1 (1#16) (aux sol) = true.
Proof.
  intro solve.
  assert (Q : aux_chk (solve 8) successful (Z.of_nat 5) (fun _ a => is1 (1#16) a) = true) by (vm_compute; reflexivity).
  destruct (aux_chk_sound _ _ _ _ _ _ _ Q) as (sol & H & R & T & V).
  destruct (C119_aux_pf F64 _ _ _ (vallfinite (N:=F64)) (newton_chord self64_slope over64 (sq64_params true)) self64 9 (Some 8) false [f64_ofQ 1]
    (fun _ => [f64_ofQ 0]) (fun _ => [f64_ofQ 0]) sol (o_newton_chord (N:=F64) _ _ self64_slope over64 (sq64_params true)) H) as (_ & A). destruct (A 4 T) as (sol' & H' & E).
  exists sol, sol'. exact (conj H (conj R (conj T (conj H' (conj E V))))).
Qed.

(** So aux need not belong to the returned value: that Newton solve reports success with value 1/32 and the aux of
    1/16. *)
Lemma C119_not_at_value_pf :
  let solve := iterative_solve (vallfinite (N:=F64)) (newton_chord self64_slope over64 (sq64_params true)) self64 9 (Some 8) true [f64_ofQ 1] (fun _ => [f64_ofQ 0]) (fun _ => [f64_ofQ 0]) in
  exists sol, solve = Ret sol /\ result sol = successful /\ took sol 5 /\
    (exists x, value sol = [x] /\ neqb (n:=F64) x (f64_ofQ (1#32)) = true) /\ exists x, aux sol = [x] /\ neqb (n:=F64) x (f64_ofQ (1#16)) = true.
Proof.
  intro solve.
  assert (Q : aux_chk solve successful (Z.of_nat 5) (fun y a => is1 (1#32) y && is1 (1#16) a) = true) by (vm_compute; reflexivity).
  destruct (aux_chk_sound _ _ _ _ _ _ _ Q) as (sol & H & R & T & V). apply andb_true_iff in V. destruct V as [V1 V2].
  exists sol. exact (conj H (conj R (conj T (conj (is1_sound _ _ V1) (is1_sound _ _ V2))))).
Qed.

(** GoldenSearch on [0, 1] from y0 = 1/2 with one step: the aux is not that of y0, and not that of the value either *)
Example C119_golden_ex_pf :
  let solve := iterative_solve (nisfin (n:=F64)) (golden (f64_ofQ 0) (f64_ofQ (1#100)) (f64_ofQ 0) (f64_ofQ 1)) self64_scalar 9 (Some 1) false (f64_ofQ (1#2)) (fun _ => f64_ofQ 0) (fun _ => f64_ofQ 0) in
  exists sol, solve = Ret sol /\ took sol 1 /\ nltb (n:=F64) (value sol) (f64_ofQ (1#2)) = true /\ nltb (n:=F64) (f64_ofQ (1#2)) (aux sol) = true.
Proof.
  intro solve.
  assert (Q : aux_chk solve nonlinear_max_steps_reached (Z.of_nat 1) (fun y a => nltb (n:=F64) y (f64_ofQ (1#2)) && nltb (n:=F64) (f64_ofQ (1#2)) a) = true) by (vm_compute; reflexivity).
  destruct (aux_chk_sound _ _ _ _ _ _ _ Q) as (sol & H & _ & T & V). apply andb_true_iff in V. destruct V as [V1 V2]. exists sol. exact (conj H (conj T (conj V1 V2))).
Qed.

(** NelderMead with loose tolerances reports success after one step; the aux is the placeholder 0, although the
    auxiliary output of the function is 1 everywhere. *)
Lemma C119_placeholder_pf :
  let solve := iterative_solve (vallfinite (N:=F64)) (NelderMead (f64_ofQ 0) (f64_ofQ 1) (max_norm (N:=F64)) (f64_ofQ (1#20)) (f64_ofQ (1#1000)) [1]) one64 9 (Some 8) true [f64_ofQ 0] (fun _ => f64_ofQ 0) (fun _ => f64_ofQ 0) in
  (forall y, snd (one64 y) = f64_ofQ 1) /\
  exists sol, solve = Ret sol /\ result sol = successful /\ took sol 1 /\ aux sol = f64_ofQ 0.
Proof.
  intro solve. split; [reflexivity|].
  assert (Q : aux_chk solve successful (Z.of_nat 1) (fun _ _ => true) = true) by (vm_compute; reflexivity).
  destruct (aux_chk_sound _ _ _ _ _ _ _ Q) as (sol & H & R & T & _). exists sol. refine (conj H (conj R (conj T _))).
  apply (proj1 (C119_nelder_mead_pf F64 f64 (vallfinite (N:=F64)) (f64_ofQ 0) (f64_ofQ 1) (max_norm (N:=F64)) (f64_ofQ (1#20)) (f64_ofQ (1#1000)) [1] one64 9 (Some 8) true [f64_ofQ 0] (fun _ => f64_ofQ 0) (fun _ => f64_ofQ 0) sol H)). right. exact T.
Qed.

(** NelderMead on x^2 from 1 with aux = x: after two steps the aux is that of a vertex the second step tried *)
Example C119_nelder_mead_ex_pf :
  let fn y := (nth 0 (fst (self64 y)) (f64_ofQ 0), y) in
  let solve := iterative_solve (vallfinite (N:=F64)) (NelderMead (f64_ofQ 0) (f64_ofQ (1#1000)) (max_norm (N:=F64)) (f64_ofQ (1#20)) (f64_ofQ (1#1000)) [1]) fn 9 (Some 2) false [f64_ofQ 1] (fun _ => f64_ofQ 0) (fun _ => [f64_ofQ 0]) in
  exists sol v, solve = Ret sol /\ took sol 2 /\ aux sol = snd (fn v) /\ negb (is1 0 v) = true.
Proof.
  intros fn solve.
  assert (Q : aux_chk solve nonlinear_max_steps_reached (Z.of_nat 2) (fun _ a => negb (is1 0 a)) = true) by (vm_compute; reflexivity).
  destruct (aux_chk_sound _ _ _ _ _ _ _ Q) as (sol & H & _ & T & V).
  destruct (proj2 (C119_nelder_mead_pf F64 (list f64) (vallfinite (N:=F64)) (f64_ofQ 0) (f64_ofQ (1#1000)) (max_norm (N:=F64)) (f64_ofQ (1#20)) (f64_ofQ (1#1000)) [1] fn 9 (Some 2) false [f64_ofQ 1] (fun _ => f64_ofQ 0) (fun _ => [f64_ofQ 0]) sol H) 0 T) as (v & E). exists sol, v. rewrite E in V. exact (conj H (conj T (conj E V))).
Qed.
