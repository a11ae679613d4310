(** Tolerances only decide when a solve stops (C112). *)

From Coq Require Import List Bool Arith Lia ZArith String QArith Reals.
From Flocq Require Import IEEE754.BinarySingleNaN.
From Verif Require Import Num NumFacts NumF64 NumF64_facts F64Facts F64Mono Vec Results Iterate Spec_Iterate Iterate_proofs.
From Verif Require Import FixedPoint Bisection Golden NewtonChord Search Descent Minimisers Optax NelderMead BestSoFar RootFind Spec_Tolerance.
Import ListNotations.
Local Open Scope nat_scope.

(** [s'] steps as [s] does and says "stop" whenever [s] does *)
Definition sim {Y Out Aux} (s s' : Solver Y Out Aux) : Prop :=
  exists Rel : St s -> St s' -> Prop,
    (forall fn y fs auxs a, s_init s fn y fs auxs = Ret a -> exists b, s_init s' fn y fs auxs = Ret b /\ Rel a b) /\
    (forall fn y a b, Rel a b ->
       fst (fst (s_step s fn y a)) = fst (fst (s_step s' fn y b)) /\ snd (s_step s fn y a) = snd (s_step s' fn y b) /\
       Rel (snd (fst (s_step s fn y a))) (snd (fst (s_step s' fn y b)))) /\
    (forall fn y a b, Rel a b -> snd (s_terminate s fn y a) = snd (s_terminate s' fn y b) /\
       (fst (s_terminate s fn y a) = true -> fst (s_terminate s' fn y b) = true)) /\
    (forall fn y x a b r r', Rel a b -> fst (s_post s fn y x a r) = fst (s_post s' fn y x b r')).

Section Run.
  Context {Y Out Aux : Type} (allfinite : Y -> bool) (s s' : Solver Y Out Aux) (fn : Y -> Out * Aux).
  Variables (y0 : Y) (a0 : St s) (b0 : St s') (aux0 : Aux) (Rel : St s -> St s' -> Prop).
  Hypothesis R0 : Rel a0 b0.
  Hypothesis Rs : forall fn y a b, Rel a b ->
       fst (fst (s_step s fn y a)) = fst (fst (s_step s' fn y b)) /\ snd (s_step s fn y a) = snd (s_step s' fn y b) /\
       Rel (snd (fst (s_step s fn y a))) (snd (fst (s_step s' fn y b))).
  Lemma sim_trace : forall k, y_at s fn y0 a0 aux0 k = y_at s' fn y0 b0 aux0 k /\ aux_at s fn y0 a0 aux0 k = aux_at s' fn y0 b0 aux0 k /\
    Rel (st_at s fn y0 a0 aux0 k) (st_at s' fn y0 b0 aux0 k).
  Proof.
    induction k as [|k (I1 & I2 & I3)]; [split; [|split]; [reflexivity|reflexivity|exact R0]|].
    unfold y_at, aux_at, st_at in *. cbn [trace]. rewrite <- I1. exact (Rs fn (fst (fst (trace s fn y0 a0 aux0 k))) _ _ I3).
  Qed.
End Run.

Lemma sim_shorter : forall Y Out Aux (s s' : Solver Y Out Aux), sim s s' ->
  forall allfinite fn fuel ms throw y0 fs auxs sol k,
    iterative_solve allfinite s fn fuel ms throw y0 fs auxs = Ret sol -> result sol = successful -> took sol k ->
    exists sol' k', iterative_solve allfinite s' fn fuel ms throw y0 fs auxs = Ret sol' /\ result sol' = successful /\ took sol' k' /\ k' <= k /\
      exists cut, iterative_solve allfinite s fn fuel (Some k') false y0 fs auxs = Ret cut /\ value cut = value sol' /\ aux cut = aux sol'.
Proof.
  intros Y Out Aux s s' (Rel & HI & Rs & HT & HP) allfinite fn fuel ms throw y0 fs auxs sol k E RS TK.
  destruct (solve_ret_init _ _ _ _ _ _ _ _ _ _ E) as (a0 & Ia). destruct (HI _ _ _ _ _ Ia) as (b0 & Ib & R0).
  destruct (iterative_solve_inv allfinite s fn y0 a0 (auxs fill0) fs auxs eq_refl Ia fuel ms throw sol E) as (k1 & K1 & K2 & K3 & _).
  assert (k1 = k).
  { rewrite K3 in TK. unfold took in TK. rewrite (proj2 (proj2 (proj2 (solution_at_fields allfinite s fn y0 a0 (auxs fill0) ms k1)))) in TK.
    cbn in TK. injection TK as TK. lia. }
  subst k1. pose proof (sim_trace s s' fn y0 a0 b0 (auxs fill0) Rel R0 Rs) as TR.
  assert (ASK : forall j, asked s fn y0 a0 (auxs fill0) j = asked s' fn y0 b0 (auxs fill0) j) by (intro j; apply TR).
  assert (RES : forall j, says_result s fn y0 a0 (auxs fill0) j = says_result s' fn y0 b0 (auxs fill0) j).
  { intro j. unfold says_result. rewrite ASK. apply HT, TR. }
  assert (TRM : forall j, says_terminate s fn y0 a0 (auxs fill0) j = true -> says_terminate s' fn y0 b0 (auxs fill0) j = true).
  { intro j. unfold says_terminate. rewrite ASK. apply HT, TR. }
  assert (FR : final_result allfinite s fn y0 a0 (auxs fill0) k = successful).
  { rewrite <- (proj1 (solution_at_fields allfinite s fn y0 a0 (auxs fill0) ms k)), <- K3. exact RS. }
  pose proof (proj2 (final_result_status allfinite s fn y0 a0 (auxs fill0) k successful) (eq_sym FR)) as ST.
  assert (STk : allfinite (asked s fn y0 a0 (auxs fill0) k) = true /\ says_result s fn y0 a0 (auxs fill0) k = successful /\ says_terminate s fn y0 a0 (auxs fill0) k = true).
  { destruct ST as [(_ & X)|[(_ & X1 & X2)|[(X1 & X2 & X3 & _)|(_ & _ & _ & X)]]]; try discriminate X; [congruence|auto]. }
  destruct STk as (S1 & S2 & S3). destruct K2 as (_ & K2 & K2').
  assert (B1 : forall j, (j <= k)%nat -> allfinite (asked s' fn y0 b0 (auxs fill0) j) = true /\ says_result s' fn y0 b0 (auxs fill0) j = successful).
  { intros j Hj. rewrite <- ASK, <- RES. destruct (Nat.eq_dec j k) as [->|N]; [auto|]. specialize (K2 j ltac:(lia)). unfold stops in K2.
    destruct (allfinite (asked s fn y0 a0 (auxs fill0) j)); [|exfalso; apply K2; auto]. split; [reflexivity|].
    destruct (results_eqb (says_result s fn y0 a0 (auxs fill0) j) successful) eqn:Q; [apply results_eqb_eq, Q|].
    apply results_eqb_neq in Q. exfalso. apply K2. auto. }
  destruct (stop_index_exists allfinite s' fn y0 b0 (auxs fill0) k) as (j & Hj & (J1 & J2 & J3)).
  assert (TJ : says_terminate s' fn y0 b0 (auxs fill0) j = true).
  { destruct J1 as [[J|[J|J]]|J]; [exact J|destruct (B1 j Hj); congruence|destruct (B1 j Hj); congruence|].
    injection J as <-. apply TRM, S3. }
  assert (SI : stop_index allfinite s' fn y0 b0 (auxs fill0) ms j).
  { split; [left; left; exact TJ|]. split; [exact J2|]. intros m Em. specialize (K2' m Em). lia. }
  assert (FJ : final_result allfinite s' fn y0 b0 (auxs fill0) j = successful).
  { unfold final_result. destruct (B1 j Hj) as (-> & ->). rewrite TJ. reflexivity. }
  pose proof (proj1 (iterative_solve_spec allfinite s' fn y0 b0 (auxs fill0) fs auxs eq_refl Ib fuel ms throw) j ltac:(lia) SI) as E'.
  rewrite FJ in E'. replace (throw && negb (results_eqb successful successful)) with false in E' by (destruct throw; reflexivity).
  destruct (solution_at_fields allfinite s' fn y0 b0 (auxs fill0) ms j) as (V1 & _ & V3 & V4).
  exists (solution_at allfinite s' fn y0 b0 (auxs fill0) ms j), j. split; [exact E'|]. split; [rewrite V1; exact FJ|].
  split; [unfold took; rewrite V4; reflexivity|]. split; [exact Hj|].
  assert (SC : stop_index allfinite s fn y0 a0 (auxs fill0) (Some j) j).
  { split; [right; reflexivity|]. split; [intros i Hi; apply K2; lia|]. intros m Em. injection Em as <-. lia. }
  pose proof (proj1 (iterative_solve_spec allfinite s fn y0 a0 (auxs fill0) fs auxs eq_refl Ia fuel (Some j) false) j ltac:(lia) SC) as EC.
  exists (solution_at allfinite s fn y0 a0 (auxs fill0) (Some j) j). split; [exact EC|].
  destruct (solution_at_fields allfinite s fn y0 a0 (auxs fill0) (Some j) j) as (_ & _ & W3 & _).
  destruct (TR j) as (T1 & T2 & T3).
  rewrite (HP fn (y_at s fn y0 a0 (auxs fill0) j) (aux_at s fn y0 a0 (auxs fill0) j) _ _ (final_result allfinite s fn y0 a0 (auxs fill0) j)
    (final_result allfinite s' fn y0 b0 (auxs fill0) j) T3), T1, T2, <- V3 in W3. split; congruence.
Qed.

(** ** The scaled tests *)
Lemma leb_fle : forall a b : f64, Bleb (f64_ofQ 0) a = true -> Bleb a b = true -> fle a b.
Proof.
  intros a b H0 H. rewrite f2x_leb in *. rewrite f2x_0 in H0.
  assert (N : forall x, xleb (Fin 0) (f2x x) = true -> nn x).
  { intros x Hx. destruct x as [sg|[|]| |sg m e Hm]; cbn in Hx; try discriminate Hx; [right|left; reflexivity|right].
    - split; [reflexivity|]. cbn. Lra.lra.
    - split; [reflexivity|]. apply (proj1 (xleb_fin_iff 0 _)) in Hx. exact Hx. }
  assert (Nb : nn b).
  { apply N. destruct (f2x a), (f2x b); cbn in *; try discriminate; try reflexivity.
    apply (proj2 (xleb_fin_iff _ _)). apply (proj1 (xleb_fin_iff _ _)) in H. apply (proj1 (xleb_fin_iff _ _)) in H0. Lra.lra. }
  split; [apply N, H0|]. split; [exact Nb|].
  destruct Nb as [->|[Fb Vb]]; [left; reflexivity|right].
  assert (Fa : fin a = true).
  { rewrite (f2x_fin b Fb) in H. destruct (N a H0) as [->|[F _]]; [cbn in H; discriminate H|exact F]. }
  split; [exact Fa|]. split; [exact Fb|]. rewrite (f2x_fin a Fa), (f2x_fin b Fb) in H. apply (proj1 (xleb_fin_iff _ _)) in H. exact H.
Qed.
Lemma lt_fle : forall x a b : f64, Bltb x a = true -> fle a b -> Bltb x b = true.
Proof.
  intros x a b H (_ & _ & L). rewrite f2x_ltb in *. destruct L as [->|(Fa & Fb & L)].
  - destruct (f2x x), (f2x a); cbn in *; try discriminate; reflexivity.
  - rewrite (f2x_fin a Fa) in H. rewrite (f2x_fin b Fb). destruct (f2x x); cbn in *; try discriminate; try reflexivity.
    rewrite Rltb_true in *. Lra.lra.
Qed.
Lemma ltb_not_nan : forall x a : f64, Bltb x a = true -> is_nan a = false.
Proof. intros x a H. destruct a; try reflexivity. rewrite f2x_ltb in H. destruct (f2x x); discriminate H. Qed.

Section Tests.
  Variables (rtol atol rtol' atol' : f64).
  Hypothesis HL : looser rtol atol rtol' atol'.
  Lemma hr : fle rtol rtol'. Proof. apply leb_fle; apply HL. Qed.
  Lemma hf : fin rtol' = true. Proof. apply HL. Qed.
  Lemma ha : fle atol atol'. Proof. apply leb_fle; apply HL. Qed.

  Lemma vdiv_shrinks : forall d y : list f64, Forall2 shrinks (vdiv (N:=F64) d (vscale_tol (N:=F64) rtol atol y)) (vdiv (N:=F64) d (vscale_tol (N:=F64) rtol' atol' y)).
  Proof.
    induction d as [|a d IH]; intros [|b y]; cbn; constructor; [|apply IH].
    apply (ratio_shrinks rtol rtol' atol atol' a b hr hf ha).
  Qed.
  Lemma norm_looser : forall norm d y, library_norm norm ->
    Bltb (norm (vdiv (N:=F64) d (vscale_tol (N:=F64) rtol atol y))) (f64_ofQ 1) = true ->
    Bltb (norm (vdiv (N:=F64) d (vscale_tol (N:=F64) rtol' atol' y))) (f64_ofQ 1) = true.
  Proof. intros norm d y HN. apply (norms_shrink norm HN), vdiv_shrinks. Qed.
  Lemma cauchy_looser : forall norm y yd f fd, library_norm norm ->
    cauchy_termination (N:=F64) rtol atol norm y yd f fd = true -> cauchy_termination (N:=F64) rtol' atol' norm y yd f fd = true.
  Proof.
    intros norm y yd f fd HN. unfold cauchy_termination. cbv zeta. rewrite !andb_true_iff. intros (A & B).
    split; [exact (norm_looser norm _ _ HN A)|exact (norm_looser norm _ _ HN B)].
  Qed.
  Lemma scalar_looser : forall d y : f64,
    Bltb (scalar_norm (N:=F64) (vdiv (N:=F64) (vabs (N:=F64) [d]) (vscale_tol (N:=F64) rtol atol [y]))) (f64_ofQ 1) = true ->
    Bltb (scalar_norm (N:=F64) (vdiv (N:=F64) (vabs (N:=F64) [d]) (vscale_tol (N:=F64) rtol' atol' [y]))) (f64_ofQ 1) = true.
  Proof.
    intros d y. pose proof (norms_shrink _ (or_introl eq_refl) _ _ (vdiv_shrinks (vabs (N:=F64) [d]) [y])) as Q.
    cbn [vabs map vscale_tol vdiv vmap2 scalar_norm] in *.
    assert (X : forall u : f64, Bltb (max_norm (N:=F64) [u]) one = true <-> Bltb (Babs u) one = true).
    { intro u. change (max_norm (N:=F64) [u]) with (nmax (N:=F64) (Babs u) (f64_ofQ 0)). rewrite nmax_lt. split; [tauto|]. intro H; split; [exact H|reflexivity]. }
    intro H. apply X, Q, X. exact H.
  Qed.
  Lemma golden_looser : forall y yd f fd : f64,
    cauchy_termination (N:=F64) rtol atol (scalar_norm (N:=F64)) [y] [yd] [f] [fd] = true ->
    cauchy_termination (N:=F64) rtol' atol' (scalar_norm (N:=F64)) [y] [yd] [f] [fd] = true.
  Proof.
    intros y yd f fd. unfold cauchy_termination. cbv zeta. rewrite !andb_true_iff. intros (A & B).
    split; [exact (scalar_looser _ _ A)|exact (scalar_looser _ _ B)].
  Qed.

  (** *** one simulation per solver *)
  Lemma sim_fixed_point : forall Aux damp norm, library_norm norm ->
    sim (Aux:=Aux) (fixed_point_iteration (N:=F64) rtol atol damp norm) (fixed_point_iteration (N:=F64) rtol' atol' damp norm).
  Proof.
    intros Aux damp norm HN. exists (fun a b : f64 => Bltb a (f64_ofQ 1) = true -> Bltb b (f64_ofQ 1) = true).
    split; [|split; [|split]].
    - intros fn y fs auxs a H. exists a. split; [exact H|auto].
    - intros fn y a b _. cbn. unfold fp_step. destruct (fn y) as [fy x]. cbn. split; [reflexivity|]. split; [reflexivity|].
      apply norm_looser, HN.
    - intros fn y a b H. cbn. auto.
    - reflexivity.
  Qed.
  Lemma sim_bisection : forall Aux flip ex fuel lower upper,
    sim (Aux:=Aux) (bisection (N:=F64) rtol atol flip ex fuel lower upper) (bisection (N:=F64) rtol' atol' flip ex fuel lower upper).
  Proof.
    intros Aux flip ex fuel lower upper. exists (fun a b => a = b). split; [|split; [|split]].
    - intros fn y fs auxs a H. exists a. auto.
    - intros fn y a b ->. auto.
    - intros fn y a b ->. cbn. split; [reflexivity|]. rewrite !andb_true_iff. intros (A & B). split.
      + refine (lt_fle _ _ _ A _). apply (sc_mono rtol rtol' atol atol' y hr hf ha). exact (ltb_not_nan _ _ A).
      + exact (lt_fle _ _ _ B ha).
    - intros fn y x a b r r' ->. reflexivity.
  Qed.
  Definition gs_set (st : gs_state (N:=F64)) (t : bool) : gs_state (N:=F64) :=
    mkGs (gs_lower st) (gs_middle st) (gs_upper st) (gs_f_middle st) (gs_first st) t.
  Lemma sim_golden : forall Aux lower upper,
    sim (Aux:=Aux) (golden (N:=F64) rtol atol lower upper) (golden (N:=F64) rtol' atol' lower upper).
  Proof.
    intros Aux lower upper. exists (fun a b => exists t, b = gs_set a t /\ (gs_terminate a = true -> t = true)). split; [|split; [|split]].
    - intros fn y fs auxs a H. exists a. split; [exact H|]. exists (gs_terminate a). split; [destruct a; reflexivity|auto].
    - intros fn y a b (t & -> & _). cbn. unfold gs_step. cbn [gs_set gs_lower gs_middle gs_upper gs_f_middle gs_first].
      destruct (fn _) as [f x]. pose proof (golden_looser (gs_middle a) (fsub (gs_middle a) (if gs_first a then fadd (gs_lower a) (fsub (gs_upper a) (gs_middle a)) else y))
        (gs_f_middle a) (fsub (gs_f_middle a) f)) as Q.
      destruct (nltb f (gs_f_middle a)); cbn; (split; [reflexivity|]); (split; [reflexivity|]); eexists; (split; [reflexivity|exact Q]).
    - intros fn y a b (t & -> & H). cbn. auto.
    - intros fn y x a b r r' _. reflexivity.
  Qed.
  Lemma sim_newton : forall Aux M (jac : _ -> _ -> M) lsolve norm kappa is_newton lower upper resolution, library_norm norm ->
    sim (Aux:=Aux) (newton_chord (N:=F64) jac lsolve (mkNcParams rtol atol norm kappa true is_newton lower upper resolution))
      (newton_chord (N:=F64) jac lsolve (mkNcParams rtol' atol' norm kappa true is_newton lower upper resolution)).
  Proof.
    intros Aux M jac lsolve norm kappa nw lower upper reso HN.
    exists (fun a b => nc_f a = nc_f b /\ nc_linear_state a = nc_linear_state b /\ nc_diff a = nc_diff b /\ nc_result a = nc_result b /\ nc_step a = nc_step b).
    split; [|split; [|split]].
    - intros fn y fs auxs a H. exists a. split; [exact H|auto].
    - intros fn y a b (E1 & E2 & E3 & E4 & E5). cbn. unfold nc_step_fn, nc_solve, nc_clip, has_box. cbn. rewrite E2, E5. destruct (fn y) as [fx x].
      match goal with |- context [let '(_, _) := ?e in _] => destruct e as [d r] end. cbn. auto 12.
    - intros fn y a b (E1 & E2 & E3 & E4 & E5). cbn. unfold nc_terminate. cbn. rewrite <- E1, <- E3, <- E4. split; [reflexivity|].
      rewrite !orb_true_iff. intros [A|A]; [left; exact A|right]. exact (cauchy_looser _ _ _ _ _ HN A).
    - intros fn y x a b r r' _. reflexivity.
  Qed.
  Lemma sim_gd : forall Aux search descent grad_of norm, library_norm norm ->
    sim (Aux:=Aux) (gradient_descent_solver (N:=F64) (mkTols rtol atol norm) search descent grad_of)
      (gradient_descent_solver (N:=F64) (mkTols rtol' atol' norm) search descent grad_of).
  Proof.
    intros Aux search descent grad_of norm HN.
    exists (fun a b => exists t, b = mkGd search descent (gd_first_step a) (gd_y_eval a) (gd_search_state a) (gd_f_info a) (gd_aux a) (gd_descent_state a) t (gd_result a)
      /\ (gd_terminate a = true -> t = true)).
    split; [|split; [|split]].
    - intros fn y fs auxs a H. exists a. split; [exact H|]. exists (gd_terminate a). split; [destruct a; reflexivity|auto].
    - intros fn y a b (t & -> & _). cbn. unfold gd_step. cbn [gd_first_step gd_y_eval gd_search_state gd_f_info gd_aux gd_descent_state gd_result].
      destruct (fn (gd_y_eval a)) as [f x]. destruct (se_step _ _ _ _ _ _ _) as [[[stp acc] sr] ss]. destruct acc.
      + destruct (d_step _ _ _) as [yd dr]. cbn. split; [reflexivity|]. split; [reflexivity|]. eexists. split; [reflexivity|].
        cbn. destruct (gd_first_step a); [discriminate|]. apply cauchy_looser, HN.
      + destruct (d_step _ _ _) as [yd dr]. cbn. split; [reflexivity|]. split; [reflexivity|]. exists false. auto.
    - intros fn y a b (t & -> & H). cbn. auto.
    - intros fn y x a b r r' _. reflexivity.
  Qed.
  Lemma sim_qn : forall Aux search descent grad_of HSt (init_hessian : _ -> _ -> _ -> _ * HSt) update_hessian norm, library_norm norm ->
    sim (Aux:=Aux) (quasi_newton_solver (N:=F64) (mkTols rtol atol norm) search descent grad_of init_hessian update_hessian)
      (quasi_newton_solver (N:=F64) (mkTols rtol' atol' norm) search descent grad_of init_hessian update_hessian).
  Proof.
    intros Aux search descent grad_of HSt ih uh norm HN.
    exists (fun a b => exists t, b = mkQn search descent (qn_first_step a) (qn_y_eval a) (qn_search_state a) (qn_f_info a) (qn_aux a) (qn_descent_state a) t (qn_result a)
      (qn_num_accepted_steps a) (qn_hessian_update_state a) /\ (qn_terminate a = true -> t = true)).
    split; [|split; [|split]].
    - intros fn y fs auxs a H. exists a. split; [exact H|]. exists (qn_terminate a). split; [destruct a; reflexivity|auto].
    - intros fn y a b (t & -> & _). cbn. unfold qn_step. cbn [qn_first_step qn_y_eval qn_search_state qn_f_info qn_aux qn_descent_state qn_result qn_num_accepted_steps qn_hessian_update_state].
      destruct (fn (qn_y_eval a)) as [f x]. destruct (se_step _ _ _ _ _ _ _) as [[[stp acc] sr] ss]. destruct acc.
      + destruct (uh _ _ _ _ _ _) as [fi hs]. destruct (d_step _ _ _) as [yd dr]. cbn. split; [reflexivity|]. split; [reflexivity|]. eexists. split; [reflexivity|].
        cbn. destruct (qn_first_step a); [discriminate|]. apply cauchy_looser, HN.
      + destruct (d_step _ _ _) as [yd dr]. cbn. split; [reflexivity|]. split; [reflexivity|]. exists false. auto.
    - intros fn y a b (t & -> & H). cbn. auto.
    - intros fn y x a b r r' _. reflexivity.
  Qed.
  Lemma sim_gn : forall Aux search descent jac_of norm, library_norm norm ->
    sim (Aux:=Aux) (gauss_newton_solver (N:=F64) (mkTols rtol atol norm) search descent jac_of)
      (gauss_newton_solver (N:=F64) (mkTols rtol' atol' norm) search descent jac_of).
  Proof.
    intros Aux search descent jac_of norm HN.
    exists (fun a b => exists t, b = mkGn search descent (gn_first_step a) (gn_y_eval a) (gn_search_state a) (gn_f_info a) (gn_aux a) (gn_descent_state a) t (gn_result a)
      (gn_num_steps a) (gn_num_accepted_steps a) (gn_num_steps_since_acceptance a) /\ (gn_terminate a = true -> t = true)).
    split; [|split; [|split]].
    - intros fn y fs auxs a H. exists a. split; [exact H|]. exists (gn_terminate a). split; [destruct a; reflexivity|auto].
    - intros fn y a b (t & -> & _). cbn. unfold gn_step. cbn [gn_first_step gn_y_eval gn_search_state gn_f_info gn_aux gn_descent_state gn_result gn_num_steps gn_num_accepted_steps gn_num_steps_since_acceptance].
      destruct (fn (gn_y_eval a)) as [f x]. destruct (se_step _ _ _ _ _ _ _) as [[[stp acc] sr] ss]. destruct acc.
      + destruct (d_step _ _ _) as [yd dr]. cbn. split; [reflexivity|]. split; [reflexivity|]. eexists. split; [reflexivity|].
        cbn. apply cauchy_looser, HN.
      + destruct (d_step _ _ _) as [yd dr]. cbn. split; [reflexivity|]. split; [reflexivity|]. exists false. auto.
    - intros fn y a b (t & -> & H). cbn. auto.
    - intros fn y x a b r r' _. reflexivity.
  Qed.
  Lemma sim_optax : forall Aux optim grad_of fmax norm, library_norm norm ->
    sim (Aux:=Aux) (OptaxMinimiser (N:=F64) optim (mkTols rtol atol norm) grad_of fmax) (OptaxMinimiser (N:=F64) optim (mkTols rtol' atol' norm) grad_of fmax).
  Proof.
    intros Aux optim grad_of fmax norm HN.
    exists (fun a b => exists t, b = mkOptaxState optim (ox_step optim a) (ox_f optim a) (ox_opt_state optim a) t /\ (ox_terminate optim a = true -> t = true)).
    split; [|split; [|split]].
    - intros fn y fs auxs a H. exists a. split; [exact H|]. exists (ox_terminate optim a). split; [destruct a; reflexivity|auto].
    - intros fn y a b (t & -> & _). cbn. unfold optax_step. cbn [ox_step ox_f ox_opt_state]. destruct (fn y) as [f x]. destruct (ot_update _ _ _ _ _ _) as [u os].
      cbn. split; [reflexivity|]. split; [reflexivity|]. eexists. split; [reflexivity|]. cbn. apply cauchy_looser, HN.
    - intros fn y a b (t & -> & H). cbn. auto.
    - intros fn y x a b r r' _. reflexivity.
  Qed.
  Lemma nm_looser : forall Aux norm (st : nm_state F64 Aux), library_norm norm ->
    nm_converged (N:=F64) rtol atol norm st = true -> nm_converged (N:=F64) rtol' atol' norm st = true.
  Proof.
    intros Aux norm st HN. unfold nm_converged. cbv zeta. rewrite !andb_true_iff. intros (A & B). split.
    - refine (norms_shrink norm HN _ _ _ A). clear A B. induction (nm_simplex st) as [|v vs IH]; cbn; [constructor|].
      apply Forall2_app; [|exact IH]. exact (vdiv_shrinks (vabs (N:=F64) (vsub (N:=F64) v (nm_best st))) (nm_best st)).
    - refine (norms_shrink norm HN _ _ _ B). clear A B. induction (nm_f_simplex st) as [|v vs IH]; cbn; constructor; [|exact IH].
      apply (ratio_shrinks rtol rtol' atol atol' _ (nm_f_best st) hr hf ha).
  Qed.
  Lemma sim_nm : forall Aux rdelta adelta shape norm, library_norm norm ->
    sim (Aux:=Aux) (NelderMead (N:=F64) rtol atol norm rdelta adelta shape) (NelderMead (N:=F64) rtol' atol' norm rdelta adelta shape).
  Proof.
    intros Aux rdelta adelta shape norm HN. exists (fun a b => a = b). split; [|split; [|split]].
    - intros fn y fs auxs a H. exists a. auto.
    - intros fn y a b ->. auto.
    - intros fn y a b ->. cbn. split; [reflexivity|]. rewrite !orb_true_iff. intros [A|A]; [left|right; exact A]. apply nm_looser; assumption.
    - intros fn y x a b r r' ->. reflexivity.
  Qed.
  Lemma sim_bsf : forall Y Out Aux (to_loss : Y -> Out -> f64) s s', sim (Aux:=(Out * Aux)%type) s s' ->
    sim (Aux:=Aux) (best_so_far (N:=F64) to_loss s) (best_so_far (N:=F64) to_loss s').
  Proof.
    intros Y Out Aux to_loss s s' (Rel & HI & Rs & HT & HP).
    exists (fun a b => best_y a = best_y b /\ best_aux a = best_aux b /\ best_loss a = best_loss b /\ Rel (inner a) (inner b)).
    split; [|split; [|split]].
    - intros fn y fs auxs a H. cbn in *. destruct (s_init s (auxmented fn) y fs _) as [a0| |] eqn:E; try discriminate H.
      destruct (HI _ _ _ _ _ E) as (b0 & -> & R). cbn in *. injection H as <-. eexists. split; [reflexivity|]. cbn. auto.
    - intros fn y a b (E1 & E2 & E3 & R). cbn. destruct (Rs (auxmented fn) y _ _ R) as (S1 & S2 & S3).
      destruct (s_step s _ _ _) as [[y1 a1] [f1 x1]], (s_step s' _ _ _) as [[y2 b1] [f2 x2]]. cbn in *. injection S2 as -> ->. subst y2.
      rewrite E1, E2, E3. auto 10.
    - intros fn y a b (E1 & E2 & E3 & R). cbn. apply HT, R.
    - intros fn y x a b r r' (E1 & E2 & E3 & R). cbn. rewrite E1, E2. reflexivity.
  Qed.
  Lemma sim_root : forall Out Aux norm s s', sim (Aux:=(list f64 * Aux)%type) s s' ->
    sim (Out:=Out) (to_root (N:=F64) atol norm s) (to_root (N:=F64) atol' norm s').
  Proof.
    intros Out Aux norm s s' (Rel & HI & Rs & HT & HP).
    assert (STP : forall p p', fst (fst p) = fst (fst p') /\ snd p = snd p' /\ Rel (snd (fst p)) (snd (fst p')) ->
      let g T (p : list f64 * T * (list f64 * Aux)) := let '(ny, ns, (f, x)) := p in (ny, (ns, f), (f, x)) in
      fst (fst (g _ p)) = fst (fst (g _ p')) /\ snd (g _ p) = snd (g _ p') /\
      (Rel (fst (snd (fst (g _ p)))) (fst (snd (fst (g _ p')))) /\ snd (snd (fst (g _ p))) = snd (snd (fst (g _ p'))))).
    { intros [[y1 a1] [f1 x1]] [[y2 b1] [f2 x2]] (S1 & S2 & S3). cbn in *. injection S2 as -> ->. subst y2. auto. }
    assert (TRM : forall p p' : bool * results, snd p = snd p' /\ (fst p = true -> fst p' = true) -> forall v v' : f64, v = v' ->
      let g (p : bool * results) v c := let '(term, res) := p in (term && Bltb v c, res) in
      snd (g p v atol) = snd (g p' v' atol') /\ (fst (g p v atol) = true -> fst (g p' v' atol') = true)).
    { intros [t1 r1] [t2 r2] (T1 & T2) v v' <-. cbn in *. split; [exact T1|].
      rewrite !andb_true_iff. intros (A & B). split; [auto|]. exact (lt_fle _ _ _ B ha). }
    exists (fun a b => Rel (fst a) (fst b) /\ snd a = snd b). split; [|split; [|split]].
    - intros fn y fs auxs a H. cbn in *. destruct (s_init s fn y fs _) as [a0| |] eqn:E; try discriminate H.
      destruct (HI _ _ _ _ _ E) as (b0 & E' & R). injection H as <-. exists (b0, fst (auxs fillinf)). split; [|cbn; auto].
      change (obind (s_init s' fn y fs auxs) (fun i => Ret (i, fst (auxs fillinf))) = Ret (b0, fst (auxs fillinf))). rewrite E'. reflexivity.
    - intros fn y a b (R & E). exact (STP _ _ (Rs fn y _ _ R)).
    - intros fn y a b (R & E). exact (TRM _ _ (HT fn y _ _ R) (norm (snd a)) (norm (snd b)) (f_equal norm E)).
    - intros fn y x a b r r' (R & E). cbn. apply HP, R.
  Qed.
  Lemma sim_all : forall Y Out Aux (s s' : Solver Y Out Aux), only_tolerances_differ rtol atol rtol' atol' Y Out Aux s s' -> sim s s'.
  Proof.
    intros Y Out Aux s s' H. induction H.
    - apply sim_fixed_point; assumption.
    - apply sim_bisection.
    - apply sim_golden.
    - apply sim_newton; assumption.
    - apply sim_gd; assumption.
    - apply sim_qn; assumption.
    - apply sim_gn; assumption.
    - apply sim_optax; assumption.
    - apply sim_nm; assumption.
    - apply sim_bsf; assumption.
    - apply sim_root; assumption.
  Qed.
End Tests.

(** Looser tolerances never make a solve longer, in double precision and for every solver of the library: if the
    solve with (rtol, atol) succeeds after k steps, then the solve with larger tolerances succeeds after k' <= k
    steps, and returns what the first solve returns when its budget is cut to k' steps. *)
Lemma C112_looser_pf :
  forall (rtol atol rtol' atol' : f64) (Y Out Aux : Type) (s s' : Solver Y Out Aux),
    looser rtol atol rtol' atol' -> only_tolerances_differ rtol atol rtol' atol' Y Out Aux s s' ->
  forall allfinite fn fuel ms throw y0 fs auxs sol k,
    iterative_solve allfinite s fn fuel ms throw y0 fs auxs = Ret sol -> result sol = successful -> took sol k ->
    exists sol' k', iterative_solve allfinite s' fn fuel ms throw y0 fs auxs = Ret sol' /\ result sol' = successful /\ took sol' k' /\ k' <= k /\
      exists cut, iterative_solve allfinite s fn fuel (Some k') false y0 fs auxs = Ret cut /\ value cut = value sol' /\ aux cut = aux sol'.
Proof.
  intros rtol atol rtol' atol' Y Out Aux s s' HL H. apply sim_shorter. exact (sim_all _ _ _ _ HL _ _ _ _ _ H).
Qed.

(** *** evaluating a solve *)
Definition chk {A S} (o : outcome (Solution (list f64) A S)) (r : results) (k : Z) (v : f64) : bool :=
  match o with
  | Ret sol => results_eqb (result sol) r &&
      match hd_error (sol_stats sol) with Some (n, Some z) => String.eqb n "num_steps" && Z.eqb z k | _ => false end &&
      match value sol with [x] => Beqb x v | _ => false end
  | _ => false
  end.
Lemma chk_sound : forall A S (o : outcome (Solution (list f64) A S)) r k v, chk o r (Z.of_nat k) v = true ->
  exists sol, o = Ret sol /\ result sol = r /\ took sol k /\ exists x, value sol = [x] /\ Beqb x v = true.
Proof.
  intros A S [sol| |] r k v H; try discriminate H. cbn in H. rewrite !andb_true_iff in H. destruct H as ((H1 & H2) & H3).
  exists sol. split; [reflexivity|]. split; [apply results_eqb_eq, H1|]. split.
  - unfold took. destruct (hd_error (sol_stats sol)) as [[n [z|]]|]; try discriminate H2. apply andb_true_iff in H2. destruct H2 as (N & Z).
    apply String.eqb_eq in N. apply Z.eqb_eq in Z. subst. reflexivity.
  - destruct (value sol) as [|x [|]]; try discriminate H3. exists x. auto.
Qed.

(** Newton and Chord with cauchy_termination=False are the exception: on y^3 - 2 y^2 + 21 y from y0 = 3, Newton
    with atol = 1/64 and rtol = 0 finds the root 0 and reports success; with the looser rtol = 1 it reports
    divergence.  (The test compares two scaled step lengths, whose scales move with rtol.) *)
Lemma C112_newton_counterexample_pf :
  exists (rtol atol rtol' : f64) resolution,
    looser rtol atol rtol' atol /\
    let s r := newton_chord (N:=F64) cubic64_jac divide64 (mkNcParams r atol (max_norm (N:=F64)) (f64_ofQ (1#100)) false true None None resolution) in
    (forall fuel throw, (3 < fuel)%nat -> exists sol, iterative_solve (vallfinite (N:=F64)) (s rtol) cubic64 fuel None throw [f64_ofQ 3]
       (fun _ => [f64_ofQ 0]) (fun _ => tt) = Ret sol /\ result sol = successful /\ took sol 3 /\ exists x, value sol = [x] /\ neqb (n:=F64) x (f64_ofQ 0) = true) /\
    (forall fuel, (3 < fuel)%nat -> exists sol, iterative_solve (vallfinite (N:=F64)) (s rtol') cubic64 fuel None false [f64_ofQ 3]
       (fun _ => [f64_ofQ 0]) (fun _ => tt) = Ret sol /\ result sol = nonlinear_divergence).
Proof.
  exists (f64_ofQ 0), (f64_ofQ (1#64)), (f64_ofQ 1), (f64_ofQ (1#10000000000000)).
  split; [repeat split; vm_compute; reflexivity|]. intro s. split.
  - intros fuel throw Hf. do 4 (destruct fuel as [|fuel]; [lia|]). apply chk_sound. destruct throw; vm_compute; reflexivity.
  - intros fuel Hf. do 4 (destruct fuel as [|fuel]; [lia|]).
    match goal with |- exists sol, ?o = _ /\ _ => assert (Q : chk o nonlinear_divergence (Z.of_nat 2) (f64_ofQ 0) = true) by (vm_compute; reflexivity) end.
    destruct (chk_sound _ _ _ _ _ _ Q) as (sol & H1 & H2 & _). exists sol. auto.
Qed.

(** Fixed-point iteration of y/2 from 8: eight steps with atol = 1/16, three with atol = 2. *)
Example C112_looser_ex_pf :
  let half y : list f64 * unit := (map (fmul (f64_ofQ (1#2))) y, tt) in
  let s a := fixed_point_iteration (N:=F64) (Aux:=unit) (f64_ofQ 0) a (f64_ofQ 0) (max_norm (N:=F64)) in
  looser (f64_ofQ 0) (f64_ofQ (1#16)) (f64_ofQ 0) (f64_ofQ 2) /\
  only_tolerances_differ (f64_ofQ 0) (f64_ofQ (1#16)) (f64_ofQ 0) (f64_ofQ 2) _ _ _ (s (f64_ofQ (1#16))) (s (f64_ofQ 2)) /\
  exists sol sol', iterative_solve (vallfinite (N:=F64)) (s (f64_ofQ (1#16))) half 10 None true [f64_ofQ 8] (fun _ => []) (fun _ => tt) = Ret sol /\
    iterative_solve (vallfinite (N:=F64)) (s (f64_ofQ 2)) half 10 None true [f64_ofQ 8] (fun _ => []) (fun _ => tt) = Ret sol' /\
    result sol = successful /\ result sol' = successful /\ took sol 8 /\ took sol' 3.
Proof.
  intros half s. split; [repeat split; vm_compute; reflexivity|]. split; [apply t_fixed_point; left; reflexivity|].
  match goal with |- exists sol sol', ?o = _ /\ ?o' = _ /\ _ =>
    assert (Q : chk o successful (Z.of_nat 8) (f64_ofQ (1#32)) = true) by (vm_compute; reflexivity);
    assert (Q' : chk o' successful (Z.of_nat 3) (f64_ofQ 1) = true) by (vm_compute; reflexivity) end.
  destruct (chk_sound _ _ _ _ _ _ Q) as (sol & H1 & H2 & H3 & _), (chk_sound _ _ _ _ _ _ Q') as (sol' & G1 & G2 & G3 & _).
  exists sol, sol'. auto 10.
Qed.
