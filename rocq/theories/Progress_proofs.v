(** Progress of quasi-Newton minimisers with an Armijo search. *)

From Coq Require Import String List Bool Arith Lia ZArith QArith Qreals Reals Lra Psatz.
From Verif Require Import Num NumFacts NumDiv Vec Results Iterate Spec_Iterate Iterate_proofs.
From Verif Require Import Spec_Vec VecFacts Spec_Lin LinFacts NumF64 NumF64_facts.
From Verif Require Import Search Spec_Search Descent Minimisers QuasiNewton Solvers FixedPoint_proofs Minimisers_proofs Spec_Examples.
Import ListNotations.
Local Open Scope nat_scope.

Lemma returns_keeps : forall (N : Num) (HSt : Type) update,
  returns_grad_info (N:=N) (HSt:=HSt) update -> keeps_value_and_grad update.
Proof.
  intros N HSt u H y ye i f g st. destruct (H y ye i f g st) as (op & [E|E]); rewrite E; split; reflexivity.
Qed.

Lemma returns_builtin : forall (N : Num) (eps : N) ui,
  returns_grad_info (bfgs_update eps ui) /\ returns_grad_info (dfp_update eps ui).
Proof.
  intros N eps [|]; split; intros y ye i f g st; eexists; unfold bfgs_update, dfp_update; cbn [fst]; auto.
Qed.

Section Info.
  Context {Aux HSt : Type}.
  Variables (P : ar_tols RN) (search : Search RN) (descent : Descent RN).
  Variable grad_of : (list R -> R * Aux) -> list R -> list R.
  Variable ih : list R -> R -> list R -> finfo RN * HSt.
  Variable uh : list R -> list R -> finfo RN -> R -> list R -> HSt -> finfo RN * HSt.
  Variable fn : list R -> R * Aux.
  Variables (y0 : list R) (fs : fillv -> R) (auxs : fillv -> Aux).
  Let s := quasi_newton_solver (N:=RN) P search descent grad_of ih uh.
  Let Yk := y_at s fn y0 (qn_st0 (N:=RN) search descent ih y0 fs auxs) (auxs fill0).
  Let Sk := st_at s fn y0 (qn_st0 (N:=RN) search descent ih y0 fs auxs) (auxs fill0).

  Lemma qn_info : accepts_first search -> returns_grad_info (N:=RN) uh -> forall j, 0 < j ->
    as_min (qn_f_info (Sk j)) = fst (fn (Yk j)) /\
    forall v, compute_grad_dot (qn_f_info (Sk j)) v = Rdot (grad_of fn (Yk j)) v.
  Proof.
    intros HA HR j Hj. destruct j as [|j]; [lia|]. clear Hj. 
    assert (K := returns_keeps _ _ _ HR).
    split. { apply (qn_first (N:=RN) P search descent grad_of ih uh fn y0 fs auxs HA K (S j)). lia. }
    induction j as [|j IH].
    - destruct (qn_step_cases _ _ _ _ _ _ _ _ _ _ _ (qn_trace_S (N:=RN) P search descent grad_of ih uh fn y0 fs auxs 0)) as (step & acc & sr & sst & Es & E1 & E2 & E3 & E7 & E4 & E6 & E5).
      assert (F : qn_first_step (Sk 0) = true) by (apply (qn_first (N:=RN) P search descent grad_of ih uh fn y0 fs auxs HA K 0); reflexivity).
      unfold Sk, s in F. rewrite F in Es.
      assert (acc = true) as ->.
      { match type of Es with se_step _ _ ?a ?b ?c ?d ?e = _ => pose proof (HA a b c d e) as HA' end.
        exact (eq_trans (eq_sym (f_equal (fun p => snd (fst (fst p))) Es)) HA'). }
      destruct E5 as (Ey & Ef & _).
      match type of Ef with _ = uh ?a ?b ?c ?d ?e ?f => destruct (HR a b c d e f) as (op & [E|E]) end;
        rewrite <- Ef in E; cbn [fst] in E; intro v; exact (eq_trans (f_equal (fun i => compute_grad_dot i v) E) (vdot_RN _ _)).
    - destruct (qn_step_cases _ _ _ _ _ _ _ _ _ _ _ (qn_trace_S (N:=RN) P search descent grad_of ih uh fn y0 fs auxs (S j))) as (step & acc & sr & sst & Es & E1 & E2 & E3 & E7 & E4 & E6 & E5).
      destruct acc; destruct E5 as (Ey & Ef & _).
      + match type of Ef with _ = uh ?a ?b ?c ?d ?e ?f => destruct (HR a b c d e f) as (op & [E|E]) end;
        rewrite <- Ef in E; cbn [fst] in E; intro v; exact (eq_trans (f_equal (fun i => compute_grad_dot i v) E) (vdot_RN _ _)).
      + injection Ef as Ef _. intro v. rewrite <- (Ey : Yk (S (S j)) = Yk (S j)) in IH. exact (eq_trans (f_equal (fun i => compute_grad_dot i v) Ef) (IH v)).
  Qed.
End Info.

(** Solver level, quasi-Newton skeleton: from any iterate at which the
    objective is differentiable along the direction proposed by the descent,
    with negative slope given by the computed gradient, finitely many rejections
    are followed by an accepted step that strictly decreases the objective. *)
Lemma C29_quasi_newton_pf :
  forall (Aux HSt : Type) (P : ar_tols RN) (decrease slope init : R) (descent : Descent RN) grad_of
         init_hessian update_hessian (fn : list R -> R * Aux) y0 fs auxs st0,
    armijo_valid (N:=RN) decrease slope init = true ->
    returns_grad_info (N:=RN) (HSt:=HSt) update_hessian ->
    let s := quasi_newton_solver (N:=RN) P (armijo (N:=RN) decrease slope init) descent grad_of
               init_hessian update_hessian in
    s_init s fn y0 fs auxs = Ret st0 ->
    let y := y_at s fn y0 st0 (auxs fill0) in
    let st := st_at s fn y0 st0 (auxs fill0) in
    forall k dir, 0 < k ->
      (forall t, fst (d_step descent t (qn_descent_state (st k))) = Rscal t dir) ->
      length dir = length (y k) ->
      derivable_pt_lim (fun t => fst (fn (along (y k) dir t))) 0 (Rdot (grad_of fn (y k)) dir) ->
      (Rdot (grad_of fn (y k)) dir < 0)%R ->
      exists m, k <= m /\ (forall j, k <= j <= m -> y j = y k) /\
                (fst (fn (y (S m))) < fst (fn (y k)))%R.
Proof.
  intros Aux HSt P de sl ini descent grad_of ih uh fn y0 fs auxs st0 V HR s Hi y st k dir Hk Hdir HL HD Hg.
  apply qn_init_inv in Hi. subst st0.
  pose proof (proj1 (accepts_first_builtin RN) de sl ini) as HA.
  pose proof (qn_first P _ descent grad_of ih uh fn y0 fs auxs HA (returns_keeps _ _ _ HR)) as HF.
  pose proof (qn_info P _ descent grad_of ih uh fn y0 fs auxs HA HR) as HInf.
  pose proof (qn_trace_S P (armijo (N:=RN) de sl ini) descent grad_of ih uh fn y0 fs auxs) as HT.
  fold s in HF, HT, HInf. fold y st in HF, HT, HInf.
  assert (HI : forall j, 0 < j ->
    qn_y_eval (st j) = vadd (y j) (fst (d_step descent (qn_search_state (st j)) (qn_descent_state (st j)))) /\
    (0 < (qn_search_state (st j) : R))%R).
  { intros j Hj. destruct j as [|j]; [lia|]. clear Hj. induction j as [|j IH].
    - destruct (qn_step_cases _ _ _ _ _ _ _ _ _ _ _ (HT 0)) as (step & acc & sr & sst & Es & E1 & E2 & E3 & E7 & E4 & E6 & E5).
      destruct (armijo_step_facts de sl ini _ _ _ _ _ _ _ _ _ _ V Es) as (-> & _ & _ & Hp).
      rewrite E2, E3. split; [reflexivity|]. apply Hp.
      assert (F : qn_first_step (st 0) = true) by (apply (HF 0); reflexivity). rewrite F in Es.
      pose proof (HA (y 0) (qn_y_eval (st 0)) (qn_f_info (st 0)) (Eval (fst (fn (qn_y_eval (st 0))))) (qn_search_state (st 0))) as HA'.
      exact (eq_trans (eq_sym (f_equal (fun p => snd (fst (fst p))) Es)) HA').
    - destruct (qn_step_cases _ _ _ _ _ _ _ _ _ _ _ (HT (S j))) as (step & acc & sr & sst & Es & E1 & E2 & E3 & E7 & E4 & E6 & E5).
      destruct (armijo_step_facts de sl ini _ _ _ _ _ _ _ _ _ _ V Es) as (-> & _ & Hp & _).
      rewrite E2, E3. split; [reflexivity|]. apply Hp. apply IH. }
  set (f := fun z => fst (fn z)).
  destruct (armijo_accepts_small f (y k) dir (grad_of fn (y k)) de sl ini V HL HD Hg) as [(delta & Hdl & HS) HDec].
  assert (RUN : forall n,
    (exists m, k <= m /\ (forall j, k <= j <= m -> y j = y k) /\ (f (y (S m)) < f (y k))%R) \/
    ((forall j, k <= j <= k + n -> y j = y k) /\
     qn_descent_state (st (k + n)) = qn_descent_state (st k) /\
     (qn_search_state (st (k + n)) : R) = (qn_search_state (st k) * de ^ n)%R)).
  { induction n as [|n [IH|(IH1 & IH2 & IH3)]].
    - right. rewrite Nat.add_0_r. split; [|split].
      + intros j Hj. replace j with k by lia. reflexivity.
      + reflexivity.
      + cbn. lra.
    - auto.
    - destruct (qn_step_cases _ _ _ _ _ _ _ _ _ _ _ (HT (k + n))) as (step & acc & sr & sst & Es & E1 & E2 & E3 & E7 & E4 & E6 & E5).
      destruct (HF (k + n)) as [F1 F2]. destruct (HInf (k + n) ltac:(lia)) as [Ff Fg].
      replace (qn_first_step _) with false in Es
        by (symmetry; apply not_true_iff_false; intro F; apply F1 in F; lia).
      destruct (HI (k + n) ltac:(lia)) as [Ey Hpos].
      assert (Eyn : y (k + n) = y k) by (apply IH1; lia).
      assert (Ez : qn_y_eval (st (k + n)) = along (y k) dir (qn_search_state (st (k + n)))).
      { rewrite Ey, IH2, Hdir, Eyn. reflexivity. }
      destruct (armijo_step_facts de sl ini _ _ _ _ _ _ _ _ _ _ V Es) as (-> & Hrej & _ & _).
      destruct acc.
      + left. exists (k + n). split; [lia|]. split; [intros j Hj; apply IH1; lia|].
        destruct E5 as (E5 & _). rewrite E5, Ez.
        rewrite Ez, Eyn in Es. rewrite Eyn in Ff, Fg.
        eapply (HDec _ _ _ _ _ _ Hpos); [| |exact Es]; [exact Ff|].
        apply Fg.
      + right. destruct E5 as (E5 & _ & _ & E5d & _).
        rewrite Nat.add_succ_r. split; [|split].
        * intros j Hj. destruct (Nat.eq_dec j (S (k + n))) as [->|]; [rewrite E5; exact Eyn|apply IH1; lia].
        * rewrite E5d. exact IH2.
        * change ((qn_search_state (st (S (k + n))) : R) = qn_search_state (st k) * de ^ S n)%R.
          rewrite E2, (Hrej eq_refl). change (SSt (armijo (N:=RN) de sl ini)) with R in *. rewrite IH3. cbn [pow]. lra. }
  assert (HV : (0 < de < 1)%R).
  { unfold armijo_valid in V. rewrite !negb_orb, !andb_true_iff, !negb_true_iff in V.
    cbn [nleb RN nofQ] in V. rewrite !Rleb_false, Q2R_0, Q2R_1 in V. tauto. }
  destruct (HI k Hk) as [_ Htk].
  set (tk := (qn_search_state (st k) : R)) in *.
  destruct (pow_lt_1_zero de ltac:(rewrite Rabs_pos_eq; lra) (delta / tk)%R) as [n Hn].
  { apply Rdiv_lt_0_compat; lra. }
  specialize (Hn n ltac:(lia)). rewrite Rabs_pos_eq in Hn by (apply Rlt_le, pow_lt; lra).
  destruct (RUN (S n)) as [H|(R1 & _)]; [exact H|].
  destruct (RUN n) as [H|(R1' & R2 & R3)]; [exact H|].
  exfalso. (* the trial at k+n was rejected although the step was small *)
  destruct (qn_step_cases _ _ _ _ _ _ _ _ _ _ _ (HT (k + n))) as (step & acc & sr & sst & Es & E1 & E2 & E3 & E7 & E4 & E6 & E5).
  destruct (HF (k + n)) as [F1 F2]. destruct (HInf (k + n) ltac:(lia)) as [Ff Fg].
  replace (qn_first_step _) with false in Es
    by (symmetry; apply not_true_iff_false; intro F; apply F1 in F; lia).
  destruct (HI (k + n) ltac:(lia)) as [Ey Hpos].
  assert (Eyn : y (k + n) = y k) by (apply R1'; lia).
  assert (Ez : qn_y_eval (st (k + n)) = along (y k) dir (qn_search_state (st (k + n)))).
  { rewrite Ey, R2, Hdir, Eyn. reflexivity. }
  rewrite Ez, Eyn in Es. rewrite Eyn in Ff, Fg.
  assert (Hacc : acc = true).
  { eapply (HS _ _ ltac:(split; [exact Hpos|]) ); [| |exact Es].
    - exact Ff.
    - apply Fg.
    Unshelve. rewrite R3. apply Rmult_lt_compat_l with (r := tk) in Hn; [|exact Htk].
    replace (tk * (delta / tk))%R with delta in Hn by (field; lra). exact Hn. }
  subst acc. destruct E5 as (E5 & _).
  assert (Hlt : (f (along (y k) dir (qn_search_state (st (k + n)%nat))) < f (y k))%R).
  { eapply (HDec _ _ _ _ _ _ Hpos); [| |exact Es]; [exact Ff|].
    apply Fg. }
  rewrite <- Ez, <- E5 in Hlt. rewrite <- Nat.add_succ_r in Hlt. rewrite (R1 (k + S n)) in Hlt by lia. lra.
Qed.

Lemma check_out : forall A (x : outcome A) (p : A -> bool),
  match x with Ret a => p a | _ => false end = true -> exists a, x = Ret a /\ p a = true.
Proof. intros A [a|e|] p H; try discriminate. exists a; auto. Qed.

(** Binary64 runs on x^2 + 4 y^2 from (1, 1): NonlinearCG, BFGS and DFP
    (the latter two with use_inverse=True, so no linear solver is needed)
    succeed near the minimum. *)
Example C27_minimise_ex_pf :
  forall s : Solver (list f64) f64 unit,
    s = NonlinearCG (N:=F64) tols bowl_grad (polak_ribiere (N:=F64) eps64) armijo_default \/
    s = BFGS (N:=F64) tols bowl_grad (fun _ v => (v, linear 1)) eps64 true \/
    s = DFP (N:=F64) tols bowl_grad (fun _ v => (v, linear 1)) eps64 true ->
    exists sol,
      iterative_solve (vallfinite (N:=F64)) s bowl 60 (Some 50) true
        [f64_ofZ 1; f64_ofZ 1] (fun _ => f64_ofZ 0) (fun _ => tt) = Ret sol /\
      (results_eqb (result sol) successful && near_zero64 (value sol)) = true.
Proof. intros s [->|[->| ->]]; apply check_out; vm_compute; reflexivity. Qed.

(** In these runs steps are both rejected and accepted: BFGS from (1, 1)
    rejects its second proposal, (-1, -7), and later accepts one. *)
Example C43_quasi_newton_ex_pf :
  let s := BFGS (N:=F64) tols bowl_grad (fun _ v => (v, linear 1)) eps64 true in
  exists st0,
    s_init s bowl [f64_ofZ 1; f64_ofZ 1] (fun _ => f64_ofZ 0) (fun _ => tt) = Ret st0 /\
    let y k := y_at s bowl [f64_ofZ 1; f64_ofZ 1] st0 tt k in
    forallb (fun x => neqb (n:=F64) x (f64_ofZ 1)) (y 2) &&
    negb (forallb (fun x => neqb (n:=F64) x (f64_ofZ 1)) (y 5)) = true.
Proof. apply (check_out _ _ (fun st0 => _)). vm_compute. reflexivity. Qed.

(** Exact arithmetic, x^2 from 1 with NonlinearCG and the default search: the
    hypotheses of the progress theorem hold. *)
Definition sqr1 (v : list R) : R * unit := match v with [x] => (x * x, tt)%R | _ => (0%R, tt) end.
Definition sqr1_grad (f : list R -> R * unit) (v : list R) : list R :=
  match v with [x] => [2 * x]%R | _ => [] end.
Example C29_quasi_newton_ex_pf :
  armijo_valid (N:=RN) (nofQ (1#2)) (nofQ (1#10)) (nofQ 1) = true /\
  (forall y, length y = 1 -> length (sqr1_grad sqr1 y) = 1) /\
  (forall y d, length y = 1 -> length d = 1 ->
     derivable_pt_lim (fun t => fst (sqr1 (along y d t))) 0 (Rdot (sqr1_grad sqr1 y) d)) /\
  sqr1_grad sqr1 [1%R] <> zerov 1 /\
  returns_grad_info (N:=RN) (bfgs_update (N:=RN) (1/2)%R true).
Proof.
  split; [|split; [|split; [|split]]].
  - unfold armijo_valid. cbn [nofQ RN nleb].
    repeat match goal with |- context [Rleb ?a ?b] =>
      replace (Rleb a b) with false by (symmetry; apply Rleb_false; unfold Q2R; cbn; lra) end.
    reflexivity.
  - intros [|x [|? ?]] H; try discriminate. reflexivity.
  - intros [|x [|? ?]] [|d [|? ?]] H1 H2; try discriminate.
    cbn. replace (2 * x * d + 0)%R with (2 * x * d)%R by lra.
    intros eps He. exists (mkposreal (eps / (Rabs d * Rabs d + 1)) ltac:(apply Rdiv_lt_0_compat; [lra|nra])).
    intros h Hh Hb. cbn in Hb. 
    replace (((x + (0 + h) * d) * (x + (0 + h) * d) - (x + 0 * d) * (x + 0 * d)) / h - 2 * x * d)%R
      with (h * (d * d))%R by (field; exact Hh).
    rewrite Rabs_mult, Rabs_mult. 
    pose proof (Rabs_pos d). pose proof (Rabs_pos h).
    apply Rle_lt_trans with (Rabs h * (Rabs d * Rabs d + 1))%R; [nra|].
    apply (Rmult_lt_compat_r (Rabs d * Rabs d + 1)) in Hb; [|nra].
    replace (eps / (Rabs d * Rabs d + 1) * (Rabs d * Rabs d + 1))%R with eps in Hb by (field; nra). exact Hb.
  - cbn. intro H. injection H as H. lra.
  - apply (returns_builtin RN).
Qed.
