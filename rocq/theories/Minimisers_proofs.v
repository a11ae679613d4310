(** Proofs about searches and the accept/reject skeletons. *)

From Coq Require Import String List Bool Arith Lia ZArith QArith Qreals Reals Lra Psatz.
From Verif Require Import Num NumFacts NumDiv Vec Results Iterate Spec_Iterate Iterate_proofs.
From Verif Require Import Spec_Vec VecFacts Spec_Lin LinFacts NumF64 NumF64_facts.
From Verif Require Import Search Spec_Search Descent Minimisers QuasiNewton Solvers FixedPoint_proofs.
Import ListNotations.
Local Open Scope nat_scope.

Lemma accepts_first_builtin : forall (N : Num),
  (forall d s i, accepts_first (N:=N) (armijo d s i)) /\
  (forall P, accepts_first (N:=N) (classical_trust_region P)) /\
  (forall P, accepts_first (N:=N) (linear_trust_region P)) /\
  (forall r, accepts_first (N:=N) (learning_rate r)).
Proof.
  intro N. repeat split; intros; intro; intros; cbn; try reflexivity; apply orb_true_r.
Qed.

Lemma keeps_builtin : forall (N : Num) (eps : N) ui,
  keeps_value_and_grad (bfgs_update eps ui) /\ keeps_value_and_grad (dfp_update eps ui).
Proof.
  intros N eps [|]; split; intro; intros; split; reflexivity.
Qed.

Section GD.
  Context {N : Num} {Aux : Type}.
  Variables (P : ar_tols N) (search : Search N) (descent : Descent N).
  Variable grad_of : (list N -> N * Aux) -> list N -> list N.
  Variable fn : list N -> N * Aux.
  Notation s := (gradient_descent_solver P search descent grad_of).

  (** Result of one step, by cases on acceptance. *)
  Lemma gd_step_cases : forall y (st : gd_state search descent) y' st' a',
    gd_step P search descent grad_of fn y st = (y', st', a') ->
    exists step accept sr sst,
      se_step search (gd_first_step st) y (gd_y_eval st)
        (gd_f_info st) (Eval (fst (fn (gd_y_eval st))))
        (gd_search_state st) = (step, accept, sr, sst) /\
      gd_first_step st' = false /\
      gd_search_state st' = sst /\
      gd_y_eval st' =
        vadd y' (fst (d_step descent step (gd_descent_state st'))) /\
      a' = (if gd_first_step st then gd_aux st'
            else gd_aux st) /\
      gd_result st' = (if results_eqb sr successful
                       then snd (d_step descent step (gd_descent_state st')) else sr) /\
      (if accept then
         y' = gd_y_eval st /\
         gd_f_info st' = EvalGrad (fst (fn y')) (grad_of fn y') /\
         gd_aux st' = snd (fn y') /\
         gd_descent_state st' =
           d_query descent y' (EvalGrad (fst (fn y')) (grad_of fn y'))
             (gd_descent_state st) /\
         gd_terminate st' =
           (if gd_first_step st then false else
            cauchy_termination (ar_rtol P) (ar_atol P) (ar_norm P) y' (vsub y' y)
              [fst (fn y')] [nsub (fst (fn y')) (as_min (gd_f_info st))])
       else
         y' = y /\ gd_f_info st' = gd_f_info st /\
         gd_aux st' = gd_aux st /\
         gd_descent_state st' = gd_descent_state st /\
         gd_terminate st' = false).
  Proof.
    intros y st y' st' a' H. unfold gd_step in H.
    destruct (fn (gd_y_eval st)) as [fe ae] eqn:Ef.
    cbn [fst snd].
    destruct (se_step search _ _ _ _ _ _) as [[[step accept] sr] sst] eqn:Es.
    destruct accept.
    - destruct (d_step descent step _) as [yd dr] eqn:Ed.
      injection H as <- <- <-. exists step, true, sr, sst.
      cbn. rewrite Ef. cbn [fst snd]. rewrite Ed. repeat split; auto.
    - destruct (d_step descent step _) as [yd dr] eqn:Ed.
      injection H as <- <- <-. exists step, false, sr, sst.
      cbn. rewrite Ed. repeat split; auto.
  Qed.

  Definition gd_st0 (y0 : list N) (fs : fillv -> N) (auxs : fillv -> Aux) : gd_state search descent :=
    let i := EvalGrad (fs fill0) y0 in
    mkGd search descent true y0 (se_init search y0 i) i (auxs fill0) (d_init descent y0 i) false successful.

  Lemma gd_init_inv : forall y0 fs auxs st0,
    s_init s fn y0 fs auxs = Ret st0 -> st0 = gd_st0 y0 fs auxs.
  Proof.
    intros y0 fs auxs st0 H. cbn in H. unfold gd_init in H.
    destruct (negb _) in H; [discriminate|]. injection H as <-. reflexivity.
  Qed.

  Variables (y0 : list N) (fs : fillv -> N) (auxs : fillv -> Aux).
  Notation st0 := (gd_st0 y0 fs auxs).
  Notation Yk := (y_at s fn y0 st0 (auxs fill0)).
  Notation Sk := (st_at s fn y0 st0 (auxs fill0)).
  Notation Ak := (aux_at s fn y0 st0 (auxs fill0)).

  Lemma gd_trace_S : forall k, gd_step P search descent grad_of fn (Yk k) (Sk k) = (Yk (S k), Sk (S k), Ak (S k)).
  Proof.
    intro k. unfold y_at, st_at, aux_at. cbn [trace].
    change (s_step s fn) with (gd_step P search descent grad_of fn).
    destruct (gd_step _ _ _ _ _ _ _) as [[a b] c]. reflexivity.
  Qed.

  Lemma gd_first : accepts_first search -> forall k,
    (gd_first_step (Sk k) = true <-> k = 0) /\
    (0 < k -> gd_f_info (Sk k) = EvalGrad (fst (fn (Yk k))) (grad_of fn (Yk k)) /\
              gd_aux (Sk k) = snd (fn (Yk k))).
  Proof.
    intro HA. induction k as [|k [IH1 IH2]].
    { split; [split; reflexivity|lia]. }
    destruct (gd_step_cases _ _ _ _ _ (gd_trace_S k)) as (step & acc & sr & sst & Es & E1 & E2 & E3 & E4 & E6 & E5).
    split; [rewrite E1; split; [discriminate|lia]|]. intros _.
    destruct acc.
    - destruct E5 as (Ey & Ef & Ea & _). auto.
    - destruct E5 as (Ey & Ef & Ea & _). rewrite Ef, Ea, Ey.
      destruct (Nat.eq_dec k 0) as [->|Hk].
      + exfalso. assert (F : gd_first_step (Sk 0) = true) by (apply IH1; reflexivity).
        rewrite F in Es. pose proof (HA (Yk 0) (gd_y_eval (Sk 0)) (gd_f_info (Sk 0)) (Eval (fst (fn (gd_y_eval (Sk 0))))) (gd_search_state (Sk 0))) as HA'.
        rewrite Es in HA'. discriminate.
      + apply IH2. lia.
  Qed.

  Lemma gd_invariant : accepts_first search -> forall k,
    (Yk (S k) = Yk k \/ Yk (S k) = gd_y_eval (Sk k)) /\
    gd_f_info (Sk (S k)) = EvalGrad (fst (fn (Yk (S k)))) (grad_of fn (Yk (S k))) /\
    gd_aux (Sk (S k)) = snd (fn (Yk (S k))) /\
    Ak (S k) = snd (fn (Yk k)) /\
    (k = 0 -> Yk (S k) = y0).
  Proof.
    intros HA k.
    destruct (gd_first HA k) as [F1 F2]. destruct (gd_first HA (S k)) as [_ G2].
    destruct (G2 ltac:(lia)) as [Gf Ga].
    destruct (gd_step_cases _ _ _ _ _ (gd_trace_S k)) as (step & acc & sr & sst & Es & E1 & E2 & E3 & E4 & E6 & E5).
    assert (HY : Yk (S k) = Yk k \/ Yk (S k) = gd_y_eval (Sk k)) by (destruct acc; destruct E5 as (Ey & _); auto).
    assert (H0 : k = 0 -> Yk (S k) = y0).
    { intros ->. destruct HY as [->| ->]; reflexivity. }
    repeat split; auto.
    destruct (gd_first_step (Sk k)) eqn:EF.
    - destruct F1 as [F1 _]. specialize (F1 eq_refl). rewrite E4, Ga, (H0 F1). subst k. reflexivity.
    - rewrite E4. apply F2. destruct (Nat.eq_dec k 0) as [->|]; [|lia]. discriminate (proj2 F1 eq_refl).
  Qed.
End GD.

Section QN.
  Context {N : Num} {Aux : Type}.
  Variables (P : ar_tols N) (search : Search N) (descent : Descent N).
  Variable grad_of : (list N -> N * Aux) -> list N -> list N.
  Context {HSt : Type}.
  Variable init_hessian : list N -> N -> list N -> finfo N * HSt.
  Variable update_hessian : list N -> list N -> finfo N -> N -> list N -> HSt -> finfo N * HSt.
  Variable fn : list N -> N * Aux.
  Notation s := (quasi_newton_solver P search descent grad_of init_hessian update_hessian).

  (** Result of one step, by cases on acceptance. *)
  Lemma qn_step_cases : forall y (st : qn_state search descent (HSt:=HSt)) y' st' a',
    qn_step P search descent grad_of update_hessian fn y st = (y', st', a') ->
    exists step accept sr sst,
      se_step search (qn_first_step st) y (qn_y_eval st)
        (qn_f_info st) (Eval (fst (fn (qn_y_eval st))))
        (qn_search_state st) = (step, accept, sr, sst) /\
      qn_first_step st' = false /\
      qn_search_state st' = sst /\
      qn_y_eval st' =
        vadd y' (fst (d_step descent step (qn_descent_state st'))) /\
      qn_num_accepted_steps st' = qn_num_accepted_steps st + (if accept then 1 else 0) /\
      a' = (if qn_first_step st then qn_aux st'
            else qn_aux st) /\
      qn_result st' = (if results_eqb sr successful
                       then snd (d_step descent step (qn_descent_state st')) else sr) /\
      (if accept then
         y' = qn_y_eval st /\
         (qn_f_info st', qn_hessian_update_state st') =
           update_hessian y y' (qn_f_info st) (fst (fn y')) (grad_of fn y') (qn_hessian_update_state st) /\
         qn_aux st' = snd (fn y') /\
         qn_descent_state st' =
           d_query descent y' (qn_f_info st')
             (qn_descent_state st) /\
         qn_terminate st' =
           (if qn_first_step st then false else
            cauchy_termination (ar_rtol P) (ar_atol P) (ar_norm P) y' (vsub y' y)
              [fst (fn y')] [nsub (fst (fn y')) (as_min (qn_f_info st))])
       else
         y' = y /\ (qn_f_info st', qn_hessian_update_state st') = (qn_f_info st, qn_hessian_update_state st) /\
         qn_aux st' = qn_aux st /\
         qn_descent_state st' = qn_descent_state st /\
         qn_terminate st' = false).
  Proof.
    intros y st y' st' a' H. unfold qn_step in H.
    destruct (fn (qn_y_eval st)) as [fe ae] eqn:Ef.
    cbn [fst snd].
    destruct (se_step search _ _ _ _ _ _) as [[[step accept] sr] sst] eqn:Es.
    destruct accept.
    - destruct (update_hessian _ _ _ _ _ _) as [fi' hs'] eqn:Eu.
      destruct (d_step descent step _) as [yd dr] eqn:Ed.
      injection H as <- <- <-. exists step, true, sr, sst.
      cbn. rewrite Ef. cbn [fst snd]. rewrite Ed, Eu. repeat split; auto.
    - destruct (d_step descent step _) as [yd dr] eqn:Ed.
      injection H as <- <- <-. exists step, false, sr, sst.
      cbn. rewrite Ed. repeat split; auto.
  Qed.

  Definition qn_st0 (y0 : list N) (fs : fillv -> N) (auxs : fillv -> Aux) : qn_state search descent (HSt:=HSt) :=
    let '(i, h) := init_hessian y0 (fs fill0) (vfull (length y0) (nofQ 0)) in
    mkQn search descent true y0 (se_init search y0 i) i (auxs fill0) (d_init descent y0 i) false successful 0 h.

  Lemma qn_init_inv : forall y0 fs auxs st0,
    s_init s fn y0 fs auxs = Ret st0 -> st0 = qn_st0 y0 fs auxs.
  Proof.
    intros y0 fs auxs st0 H. cbn in H. unfold qn_init in H.
    unfold qn_st0. destruct (init_hessian _ _ _) as [i h].
    destruct (negb _) in H; [discriminate|]. injection H as <-. reflexivity.
  Qed.

  Variables (y0 : list N) (fs : fillv -> N) (auxs : fillv -> Aux).
  Notation st0 := (qn_st0 y0 fs auxs).
  Notation Yk := (y_at s fn y0 st0 (auxs fill0)).
  Notation Sk := (st_at s fn y0 st0 (auxs fill0)).
  Notation Ak := (aux_at s fn y0 st0 (auxs fill0)).

  Lemma qn_trace_S : forall k, qn_step P search descent grad_of update_hessian fn (Yk k) (Sk k) = (Yk (S k), Sk (S k), Ak (S k)).
  Proof.
    intro k. unfold y_at, st_at, aux_at. cbn [trace].
    change (s_step s fn) with (qn_step P search descent grad_of update_hessian fn).
    destruct (qn_step _ _ _ _ _ _ _ _) as [[a b] c]. reflexivity.
  Qed.

  Lemma qn_first : accepts_first search -> keeps_value_and_grad update_hessian -> forall k,
    (qn_first_step (Sk k) = true <-> k = 0) /\
    (0 < k -> as_min (qn_f_info (Sk k)) = fst (fn (Yk k)) /\ info_grad (qn_f_info (Sk k)) = grad_of fn (Yk k) /\
              qn_aux (Sk k) = snd (fn (Yk k))).
  Proof.
    intros HA HK. induction k as [|k [IH1 IH2]].
    { split; [|lia]. unfold st_at, qn_st0. cbn [trace fst snd]. destruct (init_hessian _ _ _). split; reflexivity. }
    destruct (qn_step_cases _ _ _ _ _ (qn_trace_S k)) as (step & acc & sr & sst & Es & E1 & E2 & E3 & E7 & E4 & E6 & E5).
    split; [rewrite E1; split; [discriminate|lia]|]. intros _.
    destruct acc.
    - destruct E5 as (Ey & Ef & Ea & _).
      destruct (HK (Yk k) (Yk (S k)) (qn_f_info (Sk k)) (fst (fn (Yk (S k)))) (grad_of fn (Yk (S k))) (qn_hessian_update_state (Sk k))) as [K1 K2].
      rewrite <- Ef in K1, K2. auto.
    - destruct E5 as (Ey & Ef & Ea & _). injection Ef as Ef _. rewrite Ef, Ea, Ey.
      destruct (Nat.eq_dec k 0) as [->|Hk].
      + exfalso. assert (F : qn_first_step (Sk 0) = true) by (apply IH1; reflexivity).
        rewrite F in Es. pose proof (HA (Yk 0) (qn_y_eval (Sk 0)) (qn_f_info (Sk 0)) (Eval (fst (fn (qn_y_eval (Sk 0))))) (qn_search_state (Sk 0))) as HA'.
        rewrite Es in HA'. discriminate.
      + apply IH2. lia.
  Qed.

  Lemma qn_invariant : accepts_first search -> keeps_value_and_grad update_hessian -> forall k,
    (Yk (S k) = Yk k \/ Yk (S k) = qn_y_eval (Sk k)) /\
    as_min (qn_f_info (Sk (S k))) = fst (fn (Yk (S k))) /\
    info_grad (qn_f_info (Sk (S k))) = grad_of fn (Yk (S k)) /\
    qn_aux (Sk (S k)) = snd (fn (Yk (S k))) /\
    Ak (S k) = snd (fn (Yk k)) /\
    (k = 0 -> Yk (S k) = y0).
  Proof.
    intros HA HK k.
    destruct (qn_first HA HK k) as [F1 F2]. destruct (qn_first HA HK (S k)) as [_ G2].
    destruct (G2 ltac:(lia)) as (Gf & Gg & Ga).
    destruct (qn_step_cases _ _ _ _ _ (qn_trace_S k)) as (step & acc & sr & sst & Es & E1 & E2 & E3 & E7 & E4 & E6 & E5).
    assert (HY : Yk (S k) = Yk k \/ Yk (S k) = qn_y_eval (Sk k)) by (destruct acc; destruct E5 as (Ey & _); auto).
    assert (H0 : k = 0 -> Yk (S k) = y0).
    { intros ->. destruct HY as [->| ->]; [reflexivity|].
      unfold st_at, qn_st0. cbn [trace fst snd]. destruct (init_hessian _ _ _). reflexivity. }
    repeat split; auto.
    destruct (qn_first_step (Sk k)) eqn:EF.
    - destruct F1 as [F1 _]. specialize (F1 eq_refl). rewrite E4, Ga, (H0 F1). subst k. reflexivity.
    - rewrite E4. apply F2. destruct (Nat.eq_dec k 0) as [->|]; [|lia]. discriminate (proj2 F1 eq_refl).
  Qed.
End QN.

Section GN.
  Context {N : Num} {Aux : Type}.
  Variables (P : ar_tols N) (search : Search N) (descent : Descent N).
  Variable jac_of : (list N -> list N * Aux) -> list N -> linop N.
  Variable fn : list N -> list N * Aux.
  Notation s := (gauss_newton_solver P search descent jac_of).

  (** Result of one step, by cases on acceptance. *)
  Lemma gn_step_cases : forall y (st : gn_state search descent) y' st' a',
    gn_step P search descent jac_of fn y st = (y', st', a') ->
    exists step accept sr sst,
      se_step search (gn_first_step st) y (gn_y_eval st)
        (gn_f_info st) (ResidualJac (fst (fn (gn_y_eval st))) (jac_of fn (gn_y_eval st)))
        (gn_search_state st) = (step, accept, sr, sst) /\
      gn_first_step st' = false /\
      gn_search_state st' = sst /\
      gn_y_eval st' =
        vadd y' (fst (d_step descent step (gn_descent_state st'))) /\
      a' = (if gn_first_step st then gn_aux st'
            else gn_aux st) /\
      gn_result st' = (if results_eqb sr successful
                       then snd (d_step descent step (gn_descent_state st')) else sr) /\
      (if accept then
         y' = gn_y_eval st /\
         gn_f_info st' = ResidualJac (fst (fn y')) (jac_of fn y') /\
         gn_aux st' = snd (fn y') /\
         gn_descent_state st' =
           d_query descent y' (ResidualJac (fst (fn y')) (jac_of fn y'))
             (gn_descent_state st) /\
         gn_terminate st' =
           cauchy_termination (ar_rtol P) (ar_atol P) (ar_norm P) y' (vsub y' y)
             (fst (fn y')) (vsub (fst (fn y')) (info_residual (gn_f_info st)))
       else
         y' = y /\ gn_f_info st' = gn_f_info st /\
         gn_aux st' = gn_aux st /\
         gn_descent_state st' = gn_descent_state st /\
         gn_terminate st' = false).
  Proof.
    intros y st y' st' a' H. unfold gn_step in H.
    destruct (fn (gn_y_eval st)) as [fe ae] eqn:Ef.
    cbn [fst snd].
    destruct (se_step search _ _ _ _ _ _) as [[[step accept] sr] sst] eqn:Es.
    destruct accept.
    - destruct (d_step descent step _) as [yd dr] eqn:Ed.
      injection H as <- <- <-. exists step, true, sr, sst.
      cbn. rewrite Ef. cbn [fst snd]. rewrite Ed. repeat split; auto.
    - destruct (d_step descent step _) as [yd dr] eqn:Ed.
      injection H as <- <- <-. exists step, false, sr, sst.
      cbn. rewrite Ed. repeat split; auto.
  Qed.

  Definition gn_st0 (y0 : list N) (fs : fillv -> list N) (auxs : fillv -> Aux) : gn_state search descent :=
    let i := ResidualJac (fs fill0) (zero_op (length (fs fill0)) (length y0)) in
    mkGn search descent true y0 (se_init search y0 i) i (auxs fill0) (d_init descent y0 i) false successful 0 0 0.

  Lemma gn_init_inv : forall y0 fs auxs st0,
    s_init s fn y0 fs auxs = Ret st0 -> st0 = gn_st0 y0 fs auxs.
  Proof.
    intros y0 fs auxs st0 H. cbn in H. unfold gn_init in H.
    destruct (negb _) in H; [discriminate|]. injection H as <-. reflexivity.
  Qed.

  Variables (y0 : list N) (fs : fillv -> list N) (auxs : fillv -> Aux).
  Notation st0 := (gn_st0 y0 fs auxs).
  Notation Yk := (y_at s fn y0 st0 (auxs fill0)).
  Notation Sk := (st_at s fn y0 st0 (auxs fill0)).
  Notation Ak := (aux_at s fn y0 st0 (auxs fill0)).

  Lemma gn_trace_S : forall k, gn_step P search descent jac_of fn (Yk k) (Sk k) = (Yk (S k), Sk (S k), Ak (S k)).
  Proof.
    intro k. unfold y_at, st_at, aux_at. cbn [trace].
    change (s_step s fn) with (gn_step P search descent jac_of fn).
    destruct (gn_step _ _ _ _ _ _ _) as [[a b] c]. reflexivity.
  Qed.

  Lemma gn_first : accepts_first search -> forall k,
    (gn_first_step (Sk k) = true <-> k = 0) /\
    (0 < k -> gn_f_info (Sk k) = ResidualJac (fst (fn (Yk k))) (jac_of fn (Yk k)) /\
              gn_aux (Sk k) = snd (fn (Yk k))).
  Proof.
    intro HA. induction k as [|k [IH1 IH2]].
    { split; [split; reflexivity|lia]. }
    destruct (gn_step_cases _ _ _ _ _ (gn_trace_S k)) as (step & acc & sr & sst & Es & E1 & E2 & E3 & E4 & E6 & E5).
    split; [rewrite E1; split; [discriminate|lia]|]. intros _.
    destruct acc.
    - destruct E5 as (Ey & Ef & Ea & _). auto.
    - destruct E5 as (Ey & Ef & Ea & _). rewrite Ef, Ea, Ey.
      destruct (Nat.eq_dec k 0) as [->|Hk].
      + exfalso. assert (F : gn_first_step (Sk 0) = true) by (apply IH1; reflexivity).
        rewrite F in Es. pose proof (HA (Yk 0) (gn_y_eval (Sk 0)) (gn_f_info (Sk 0)) (ResidualJac (fst (fn (gn_y_eval (Sk 0)))) (jac_of fn (gn_y_eval (Sk 0)))) (gn_search_state (Sk 0))) as HA'.
        rewrite Es in HA'. discriminate.
      + apply IH2. lia.
  Qed.

  Lemma gn_invariant : accepts_first search -> forall k,
    (Yk (S k) = Yk k \/ Yk (S k) = gn_y_eval (Sk k)) /\
    gn_f_info (Sk (S k)) = ResidualJac (fst (fn (Yk (S k)))) (jac_of fn (Yk (S k))) /\
    gn_aux (Sk (S k)) = snd (fn (Yk (S k))) /\
    Ak (S k) = snd (fn (Yk k)) /\
    (k = 0 -> Yk (S k) = y0).
  Proof.
    intros HA k.
    destruct (gn_first HA k) as [F1 F2]. destruct (gn_first HA (S k)) as [_ G2].
    destruct (G2 ltac:(lia)) as [Gf Ga].
    destruct (gn_step_cases _ _ _ _ _ (gn_trace_S k)) as (step & acc & sr & sst & Es & E1 & E2 & E3 & E4 & E6 & E5).
    assert (HY : Yk (S k) = Yk k \/ Yk (S k) = gn_y_eval (Sk k)) by (destruct acc; destruct E5 as (Ey & _); auto).
    assert (H0 : k = 0 -> Yk (S k) = y0).
    { intros ->. destruct HY as [->| ->]; reflexivity. }
    repeat split; auto.
    destruct (gn_first_step (Sk k)) eqn:EF.
    - destruct F1 as [F1 _]. specialize (F1 eq_refl). rewrite E4, Ga, (H0 F1). subst k. reflexivity.
    - rewrite E4. apply F2. destruct (Nat.eq_dec k 0) as [->|]; [|lia]. discriminate (proj2 F1 eq_refl).
  Qed.
End GN.

(** ** Searches *)
Lemma armijo_valid_slope : forall (N : Num) (O : OrdLaws N) (Z : NanLaws N) (d s i : N),
  armijo_valid d s i = true -> nisnan s = true \/ nleb (nofQ 0) s = true.
Proof.
  intros N O Z d s i H. unfold armijo_valid in H.
  apply andb_true_iff in H as [H _]. apply andb_true_iff in H as [_ H].
  rewrite negb_orb in H. apply andb_true_iff in H as [H _]. apply negb_true_iff in H.
  destruct (nisnan s) eqn:E; [auto|right].
  rewrite (ol_le N O) in *. apply orb_false_iff in H as [H1 H2].
  unfold nisnan in E. apply negb_false_iff in E.
  pose proof (nl_0 N Z) as E0. unfold nisnan in E0. apply negb_false_iff in E0.
  destruct (ol_total N O s (nofQ 0) E E0) as [H|[H|H]]; try congruence.
  rewrite H. reflexivity.
Qed.

Lemma nleb_nan_r : forall (N : Num) (O : OrdLaws N) (a b : N), nisnan b = true -> nleb a b = false.
Proof.
  intros N O a b H. rewrite (ol_le N O). unfold nisnan in H. apply negb_true_iff in H.
  destruct (nltb a b) eqn:E. { apply (ol_lt_nan_r N O) in E. congruence. }
  destruct (neqb a b) eqn:E2; auto. apply (ol_eq_sym N O) in E2. apply (ol_eq_nan_l N O) in E2. congruence.
Qed.
Lemma nleb_nan_l : forall (N : Num) (O : OrdLaws N) (a b : N), nisnan a = true -> nleb a b = false.
Proof.
  intros N O a b H. rewrite (ol_le N O). unfold nisnan in H. apply negb_true_iff in H.
  destruct (nltb a b) eqn:E. { apply (ol_lt_nan_l N O) in E. congruence. }
  destruct (neqb a b) eqn:E2; auto. apply (ol_eq_nan_l N O) in E2. congruence.
Qed.

Lemma armijo_accept_le : forall (N : Num) (O : OrdLaws N) (S : SgnLaws N) (Z : NanLaws N) d s i,
  armijo_valid d s i = true ->
  forall y ye fi fe st step sr st',
  se_step (armijo (N:=N) d s i) false y ye fi fe st = (step, true, sr, st') ->
  nleb (as_min fe) (as_min fi) = true.
Proof.
  intros N O S Z d s i V y ye fi fe st step sr st' H. cbn in H. unfold armijo_step in H.
  injection H as _ H _ _. cbn [orb] in H. apply andb_true_iff in H as [H1 H2].
  destruct (armijo_valid_slope N O Z d s i V) as [Hn|Hs].
  - rewrite (nleb_nan_r N O) in H1; [discriminate|]. apply (nl_mul_l N Z). exact Hn.
  - eapply (sl_sub_le N S); [exact H1|]. eapply (sl_mul_neg N S); eauto.
Qed.

Lemma monotone_from_start : forall (N : Num) (O : OrdLaws N) {Y : Type} (f : Y -> N) (Yk : nat -> Y),
  (forall k, Yk (S k) = Yk k \/ nleb (f (Yk (S k))) (f (Yk k)) = true) ->
  forall j k, j <= k -> Yk k = Yk j \/ nleb (f (Yk k)) (f (Yk j)) = true.
Proof.
  intros N O Y f Yk H j k Hjk. induction Hjk as [|k Hjk IH]; [auto|].
  destruct (H k) as [E|E].
  - rewrite E. exact IH.
  - destruct IH as [IH|IH]; right; [rewrite <- IH; exact E|]. eapply le_trans; eauto.
Qed.

(** ** Claims *)

(** Every search shipped with the library obeys the contract assumed below. *)
Lemma C43_builtin_searches_pf :
  forall (N : Num),
    (forall decrease slope init, accepts_first (N:=N) (armijo decrease slope init)) /\
    (forall P, accepts_first (N:=N) (classical_trust_region P)) /\
    (forall P, accepts_first (N:=N) (linear_trust_region P)) /\
    (forall rate, accepts_first (N:=N) (learning_rate rate)).
Proof. exact accepts_first_builtin. Qed.

(** Gradient-descent skeleton (GradientDescent, NonlinearCG): every step
    returns the iterate it was given or the point it evaluated; the stored value,
    gradient and aux are those of the current iterate; the aux returned by the
    step is the aux at the iterate it was given.  For every arithmetic, function,
    gradient oracle, descent, and search obeying the documented contract. *)
Lemma C43_gradient_descent_pf :
  forall (N : Num) (Aux : Type) (P : ar_tols N) (search : Search N) (descent : Descent N)
         grad_of (fn : list N -> N * Aux) y0 fs auxs st0,
    accepts_first search ->
    let s := gradient_descent_solver P search descent grad_of in
    s_init s fn y0 fs auxs = Ret st0 ->
    let y := y_at s fn y0 st0 (auxs fill0) in
    let st := st_at s fn y0 st0 (auxs fill0) in
    y 1 = y0 /\
    (forall k, y (S k) = y k \/ y (S k) = gd_y_eval (st k)) /\
    (forall k, gd_f_info (st (S k)) = EvalGrad (fst (fn (y (S k)))) (grad_of fn (y (S k))) /\
               gd_aux (st (S k)) = snd (fn (y (S k)))) /\
    reports_aux s fn y0 st0 (auxs fill0).
Proof.
  intros N Aux P search descent grad_of fn y0 fs auxs st0 HA s Hi y st.
  apply gd_init_inv in Hi. subst st0.
  pose proof (gd_invariant P search descent grad_of fn y0 fs auxs HA) as H.
  split; [|split; [|split]].
  - apply (H 0). reflexivity.
  - intro k. apply H.
  - intro k. destruct (H k) as (_ & H1 & H2 & _). split; assumption.
  - intro k. apply H.
Qed.

(** The same for the quasi-Newton skeleton (BFGS, DFP, L-BFGS and user-written
    updates that keep the documented contract). *)
Lemma C43_quasi_newton_pf :
  forall (N : Num) (Aux HSt : Type) (P : ar_tols N) (search : Search N) (descent : Descent N)
         grad_of init_hessian update_hessian (fn : list N -> N * Aux) y0 fs auxs st0,
    accepts_first search ->
    keeps_value_and_grad (HSt:=HSt) update_hessian ->
    let s := quasi_newton_solver P search descent grad_of init_hessian update_hessian in
    s_init s fn y0 fs auxs = Ret st0 ->
    let y := y_at s fn y0 st0 (auxs fill0) in
    let st := st_at s fn y0 st0 (auxs fill0) in
    y 1 = y0 /\
    (forall k, y (S k) = y k \/ y (S k) = qn_y_eval (st k)) /\
    (forall k, as_min (qn_f_info (st (S k))) = fst (fn (y (S k))) /\
               info_grad (qn_f_info (st (S k))) = grad_of fn (y (S k)) /\
               qn_aux (st (S k)) = snd (fn (y (S k)))) /\
    reports_aux s fn y0 st0 (auxs fill0).
Proof.
  intros N Aux HSt P search descent grad_of ih uh fn y0 fs auxs st0 HA HK s Hi y st.
  apply qn_init_inv in Hi. subst st0.
  pose proof (qn_invariant P search descent grad_of ih uh fn y0 fs auxs HA HK) as H.
  split; [|split; [|split]].
  - apply (H 0). reflexivity.
  - intro k. apply H.
  - intro k. destruct (H k) as (_ & H1 & H2 & H3 & _). auto.
  - intro k. apply H.
Qed.

(** BFGS and DFP keep the contract on `update_hessian`. *)
Lemma C43_bfgs_dfp_contract_pf :
  forall (N : Num) (eps : N) (use_inverse : bool),
    keeps_value_and_grad (bfgs_update eps use_inverse) /\
    keeps_value_and_grad (dfp_update eps use_inverse).
Proof. exact keeps_builtin. Qed.

(** The same for the Gauss-Newton skeleton (GaussNewton, LevenbergMarquardt,
    IndirectLevenbergMarquardt, Dogleg). *)
Lemma C43_gauss_newton_pf :
  forall (N : Num) (Aux : Type) (P : ar_tols N) (search : Search N) (descent : Descent N)
         jac_of (fn : list N -> list N * Aux) y0 fs auxs st0,
    accepts_first search ->
    let s := gauss_newton_solver P search descent jac_of in
    s_init s fn y0 fs auxs = Ret st0 ->
    let y := y_at s fn y0 st0 (auxs fill0) in
    let st := st_at s fn y0 st0 (auxs fill0) in
    y 1 = y0 /\
    (forall k, y (S k) = y k \/ y (S k) = gn_y_eval (st k)) /\
    (forall k, gn_f_info (st (S k)) = ResidualJac (fst (fn (y (S k)))) (jac_of fn (y (S k))) /\
               gn_aux (st (S k)) = snd (fn (y (S k)))) /\
    reports_aux s fn y0 st0 (auxs fill0).
Proof.
  intros N Aux P search descent jac_of fn y0 fs auxs st0 HA s Hi y st.
  apply gn_init_inv in Hi. subst st0.
  pose proof (gn_invariant P search descent jac_of fn y0 fs auxs HA) as H.
  split; [|split; [|split]].
  - apply (H 0). reflexivity.
  - intro k. apply H.
  - intro k. destruct (H k) as (_ & H1 & H2 & _). split; assumption.
  - intro k. apply H.
Qed.

(** Armijo minimisers on the gradient-descent skeleton: the objective at the
    iterate never increases, in every arithmetic obeying the order and sign laws
    (exact reals with infinities and NaN, IEEE binary64), for every function and
    every (even wrong) gradient. *)
Lemma C27_gradient_descent_pf :
  forall (N : Num) (O : OrdLaws N) (SG : SgnLaws N) (Z : NanLaws N) (Aux : Type) (P : ar_tols N)
         decrease slope init (descent : Descent N) grad_of (fn : list N -> N * Aux) y0 fs auxs st0,
    armijo_valid decrease slope init = true ->
    let s := gradient_descent_solver P (armijo decrease slope init) descent grad_of in
    s_init s fn y0 fs auxs = Ret st0 ->
    let y := y_at s fn y0 st0 (auxs fill0) in
    forall j k, j <= k -> y k = y j \/ nleb (fst (fn (y k))) (fst (fn (y j))) = true.
Proof.
  intros N O SG Z Aux P de sl ini descent grad_of fn y0 fs auxs st0 V s Hi y.
  apply gd_init_inv in Hi. subst st0.
  apply (monotone_from_start N O (fun z => fst (fn z))). intro k.
  pose proof (gd_invariant P _ descent grad_of fn y0 fs auxs (proj1 (accepts_first_builtin N) de sl ini)) as H.
  pose proof (gd_first P _ descent grad_of fn y0 fs auxs (proj1 (accepts_first_builtin N) de sl ini)) as HF.
  destruct (Nat.eq_dec k 0) as [->|Hk].
  { left. apply (H 0). reflexivity. }
  destruct (gd_step_cases _ _ _ _ _ _ _ _ _ _ (gd_trace_S P (armijo de sl ini) descent grad_of fn y0 fs auxs k))
    as (step & acc & sr & sst & Es & E1 & E2 & E3 & E4 & E6 & E5).
  destruct (HF k) as [F1 F2]. destruct (F2 ltac:(lia)) as [Ff _].
  destruct acc; [|left; apply E5]. right. destruct E5 as (Ey & _).
  replace (gd_first_step _) with false in Es
    by (symmetry; apply not_true_iff_false; intro F; apply F1 in F; contradiction).
  apply (armijo_accept_le N O SG Z de sl ini V) in Es. rewrite Ff in Es. cbn [as_min] in Es.
  unfold y, s. rewrite Ey. exact Es.
Qed.

Lemma C27_quasi_newton_pf :
  forall (N : Num) (O : OrdLaws N) (SG : SgnLaws N) (Z : NanLaws N) (Aux HSt : Type) (P : ar_tols N)
         decrease slope init (descent : Descent N) grad_of init_hessian update_hessian
         (fn : list N -> N * Aux) y0 fs auxs st0,
    armijo_valid decrease slope init = true ->
    keeps_value_and_grad (HSt:=HSt) update_hessian ->
    let s := quasi_newton_solver P (armijo decrease slope init) descent grad_of
               init_hessian update_hessian in
    s_init s fn y0 fs auxs = Ret st0 ->
    let y := y_at s fn y0 st0 (auxs fill0) in
    forall j k, j <= k -> y k = y j \/ nleb (fst (fn (y k))) (fst (fn (y j))) = true.
Proof.
  intros N O SG Z Aux HSt P de sl ini descent grad_of ih uh fn y0 fs auxs st0 V HK s Hi y.
  apply qn_init_inv in Hi. subst st0.
  apply (monotone_from_start N O (fun z => fst (fn z))). intro k.
  pose proof (qn_invariant P _ descent grad_of ih uh fn y0 fs auxs (proj1 (accepts_first_builtin N) de sl ini) HK) as H.
  pose proof (qn_first P _ descent grad_of ih uh fn y0 fs auxs (proj1 (accepts_first_builtin N) de sl ini) HK) as HF.
  destruct (Nat.eq_dec k 0) as [->|Hk].
  { left. apply (H 0). reflexivity. }
  destruct (qn_step_cases _ _ _ _ _ _ _ _ _ _ _ (qn_trace_S P (armijo de sl ini) descent grad_of ih uh fn y0 fs auxs k))
    as (step & acc & sr & sst & Es & E1 & E2 & E3 & E7 & E4 & E6 & E5).
  destruct (HF k) as [F1 F2]. destruct (F2 ltac:(lia)) as (Ff & _).
  destruct acc; [|left; apply E5]. right. destruct E5 as (Ey & _).
  replace (qn_first_step _) with false in Es
    by (symmetry; apply not_true_iff_false; intro F; apply F1 in F; contradiction).
  apply (armijo_accept_le N O SG Z de sl ini V) in Es. rewrite Ff in Es. cbn [as_min] in Es.
  unfold y, s. rewrite Ey. exact Es.
Qed.

Lemma armijo_default_valid : armijo_valid (N:=F64) (nofQ (1#2)) (nofQ (1#10)) (nofQ 1) = true /\
  armijo_valid (N:=XR) (nofQ (1#2)) (nofQ (1#10)) (nofQ 1) = true.
Proof.
  split; [vm_compute; reflexivity|].
  unfold armijo_valid. cbn [nofQ XR nleb].
  repeat match goal with |- context [xleb (Fin ?a) (Fin ?b)] =>
    replace (xleb (Fin a) (Fin b)) with false by (symmetry; apply xleb_fin_false; unfold Q2R; cbn; lra) end.
  reflexivity.
Qed.

Lemma value_is_iterate : forall {Y Out Aux} allfinite (s : Solver Y Out Aux) fn fuel ms throw y0 fs auxs sol,
  (forall y a st r, fst (fst (s_post s fn y a st r)) = y) ->
  iterative_solve allfinite s fn fuel ms throw y0 fs auxs = Ret sol ->
  exists st0 k, s_init s fn y0 fs auxs = Ret st0 /\ value sol = y_at s fn y0 st0 (auxs fill0) k /\
    stats_get (sol_stats sol) "num_steps" <> None.
Proof.
  intros Y Out Aux allfinite s fn fuel ms throw y0 fs auxs sol HP H.
  destruct (solve_ret_init allfinite s fn fuel ms throw y0 fs auxs sol H) as (st0 & Hi).
  destruct (iterative_solve_inv allfinite s fn y0 st0 _ fs auxs eq_refl Hi fuel ms throw sol H)
    as (k & Hk & HS & E & _).
  exists st0, k. split; [exact Hi|].
  subst sol. unfold solution_at. 
  match goal with |- context [s_post ?a ?b ?c ?d ?e ?f] => pose proof (HP c d e f) as HP'; destruct (s_post a b c d e f) as [[v a'] st'] end.
  cbn in HP' |- *. split; [exact HP'|].
  destruct (stats_get st' "num_steps"); discriminate.
Qed.

(** Whole solves: whatever the budget and outcome, the returned value is y0 or
    has an objective no larger than at y0.  NonlinearCG with any method and any
    Armijo search that can be constructed, and BFGS and DFP in both modes; in
    IEEE binary64 and in exact arithmetic with infinities and NaN. *)
Lemma C27_minimise_pf :
  forall (N : Num), N = F64 \/ N = XR ->
  forall (Aux : Type) (P : ar_tols N) grad_of lsolve eps (fn : list N -> N * Aux) y0 fs auxs allfinite
         fuel ms throw (s : Solver (list N) N Aux),
    ((exists method search d sl i, armijo_new d sl i = Ret search /\
        s = NonlinearCG P grad_of method search) \/
     (exists use_inverse, s = BFGS P grad_of lsolve eps use_inverse) \/
     (exists use_inverse, s = DFP P grad_of lsolve eps use_inverse)) ->
    forall sol, iterative_solve allfinite s fn fuel ms throw y0 fs auxs = Ret sol ->
      value sol = y0 \/ nleb (fst (fn (value sol))) (fst (fn y0)) = true.
Proof.
  intros N HN Aux P grad_of lsolve eps fn y0 fs auxs allfinite fuel ms throw s Hs sol H.
  assert (LAWS : OrdLaws N /\ SgnLaws N /\ NanLaws N /\
                 armijo_valid (N:=N) (nofQ (1#2)) (nofQ (1#10)) (nofQ 1) = true).
  { destruct HN as [-> | ->].
    - split; [apply F64_laws|]. split; [apply F64_sgn|]. split; [apply F64_nan|]. apply armijo_default_valid.
    - split; [apply XR_laws|]. split; [apply XR_sgn|]. split; [apply XR_nan|]. apply armijo_default_valid. }
  destruct LAWS as (O & SG & Z & V).
  assert (HP : forall y a st r, fst (fst (s_post s fn y a st r)) = y).
  { destruct Hs as [(m & se & d & sl & i & _ & ->)|[(u & ->)|(u & ->)]]; reflexivity. }
  destruct (value_is_iterate allfinite s fn fuel ms throw y0 fs auxs sol HP H) as (st0 & k & Hi & -> & _).
  destruct Hs as [(m & se & d & sl & i & Hn & ->)|[(u & ->)|(u & ->)]].
  - unfold armijo_new in Hn. destruct (armijo_valid d sl i) eqn:V'; [|discriminate]. injection Hn as <-.
    exact (C27_gradient_descent_pf N O SG Z Aux P d sl i _ grad_of fn y0 fs auxs st0 V' Hi 0 k ltac:(lia)).
  - exact (C27_quasi_newton_pf N O SG Z Aux unit P _ _ _ _ grad_of _ _ fn y0 fs auxs st0 V
             (proj1 (keeps_builtin N eps u)) Hi 0 k ltac:(lia)).
  - exact (C27_quasi_newton_pf N O SG Z Aux unit P _ _ _ _ grad_of _ _ fn y0 fs auxs st0 V
             (proj2 (keeps_builtin N eps u)) Hi 0 k ltac:(lia)).
Qed.

(** ** Backtracking step sizes *)
Lemma armijo_run_iter : forall (N : Num) (d s i : N) calls m dflt,
  calls <> [] ->
  let out := search_run (armijo d s i) calls (Nat.iter m (nmul d) i) in
  length out = length calls /\
  fst (last out dflt) =
    Nat.iter (if forallb (fun p => negb (snd p)) out then m + length out else trailing_rejections out)
      (nmul d) i.
Proof.
  intros N d s i calls. induction calls as [|c calls IH]; intros m dflt Hne; [contradiction|].
  cbn [search_run]. cbn [se_step armijo]. unfold armijo_step.
  set (acc := sc_first c || _). cbv zeta.
  destruct calls as [|c2 calls].
  { cbn. split; [reflexivity|]. destruct acc; cbn; [reflexivity|]. rewrite Nat.add_1_r. reflexivity. }
  destruct acc; cbv iota beta.
  - destruct (IH 0 dflt ltac:(discriminate)) as [L E].
    change (Nat.iter 0 (nmul d) i) with i in L, E.
    set (out := search_run (armijo d s i) (c2 :: calls) i) in *.
    split; [cbn [length]; rewrite L; reflexivity|].
    replace (last ((i, true) :: out) dflt) with (last out dflt) by (destruct out; [discriminate L|reflexivity]).
    rewrite E. cbn [forallb snd negb andb].
    change (trailing_rejections ((i, true) :: out)) with (trailing_rejections out).
    destruct (forallb _ out) eqn:EF; [|reflexivity].
    f_equal. destruct out as [|[o1 o2] out']; [discriminate L|]. cbn [trailing_rejections]. rewrite EF. reflexivity.
  - destruct (IH (S m) dflt ltac:(discriminate)) as [L E].
    change (Nat.iter (S m) (nmul d) i) with (nmul d (Nat.iter m (nmul d) i)) in L, E.
    set (st := nmul d (Nat.iter m (nmul d) i)) in *.
    set (out := search_run (armijo d s i) (c2 :: calls) st) in *.
    split; [cbn [length]; rewrite L; reflexivity|].
    replace (last ((st, false) :: out) dflt) with (last out dflt) by (destruct out; [discriminate L|reflexivity]).
    rewrite E. cbn [forallb snd negb andb trailing_rejections].
    destruct (forallb _ out) eqn:EF; [|reflexivity].
    f_equal. cbn [length]. lia.
Qed.

Lemma iter_pow : forall (d i : R) k, Nat.iter k (nmul (n:=RN) d) i = (i * d ^ k)%R.
Proof.
  induction k; [cbn; lra|].
  change (Nat.iter (S k) (nmul (n:=RN) d) i) with (d * Nat.iter k (nmul (n:=RN) d) i)%R.
  rewrite IHk. cbn [pow]. lra.
Qed.

(** In every arithmetic: the step proposed after any sequence of calls is
    step_init multiplied by decrease_factor once for each rejection since the
    last acceptance (since the start if nothing was accepted). *)
Lemma C28_step_any_arithmetic_pf :
  forall (N : Num) (decrease slope init : N) (calls : list (search_call N)) dflt,
    calls <> [] ->
    let s := armijo decrease slope init in
    forall y i, let out := search_run s calls (se_init s y i) in
    fst (last out dflt) = Nat.iter (trailing_rejections out) (nmul decrease) init.
Proof.
  intros N d s i calls dflt Hne se y fi out.
  destruct (armijo_run_iter N d s i calls 0 dflt Hne) as [L E].
  change (Nat.iter 0 (nmul d) i) with i in L, E.
  change (search_run (armijo d s i) calls i) with out in L, E. rewrite E.
  destruct (forallb _ out) eqn:EF; [|reflexivity].
  f_equal. destruct out as [|[o1 o2] out']; [destruct calls; [contradiction|discriminate L]|].
  cbn [trailing_rejections]. rewrite EF. reflexivity.
Qed.

(** In exact arithmetic: step_init * decrease_factor^k, and positive. *)
Lemma C28_step_sizes_pf :
  forall (decrease slope init : R) (calls : list (search_call RN)),
    armijo_valid (N:=RN) decrease slope init = true ->
    let s := armijo (N:=RN) decrease slope init in
    forall y i, let out := search_run s calls (se_init s y i) in
    forall pre step accept, out = pre ++ [(step, accept)] ->
      (accept = true -> step = init) /\
      (step = init * decrease ^ (trailing_rejections out))%R /\ (0 < step)%R.
Proof.
  intros d sl ini calls V s y i out pre step accept E.
  assert (Hne : calls <> []) by (intros ->; destruct pre; discriminate).
  pose proof (C28_step_any_arithmetic_pf RN d sl ini calls (ini, true) Hne y i) as H.
  change (search_run (armijo (N:=RN) d sl ini) calls (se_init (armijo (N:=RN) d sl ini) y i)) with out in H.
  cbv zeta in H. rewrite E in H at 1. rewrite last_last in H. cbn [fst] in H.
  rewrite (iter_pow d ini) in H.
  assert (Hpos : (0 < d /\ 0 < ini)%R).
  { unfold armijo_valid in V. apply andb_true_iff in V as [V V3]. apply andb_true_iff in V as [V1 _].
    rewrite negb_orb in V1. apply andb_true_iff in V1 as [V1 _].
    apply negb_true_iff in V1, V3. cbn [nleb RN nofQ] in V1, V3.
    apply Rleb_false in V1, V3. rewrite Q2R_0 in V1, V3. auto. }
  split; [|split].
  - intros ->. rewrite H. replace (trailing_rejections out) with 0%nat; [cbn; lra|].
    rewrite E. clear. induction pre as [|[p q] pre IH]; [reflexivity|].
    cbn [app trailing_rejections]. 
    replace (forallb _ _) with false; [exact IH|].
    symmetry. change ((p, q) :: pre ++ [(step, true)]) with (((p, q) :: pre) ++ [(step, true)]).
    rewrite forallb_app. cbn. apply andb_false_r.
  - exact H.
  - rewrite H. apply Rmult_lt_0_compat; [apply Hpos|]. apply pow_lt. apply Hpos.
Qed.

(** In binary64 the product underflows: with the default parameters 1100
    rejections in a row give the step size zero (so "positive" is a fact about
    exact arithmetic only). *)
Lemma C28_binary64_underflow_pf :
  let s := armijo_default (N:=F64) in
  let reject := mkCall (N:=F64) false [nofQ 0] [nofQ 1] (EvalGrad (nofQ 0) [nofQ (-1)]) (Eval (nofQ 1)) in
  let out := search_run s (repeat reject 1100) (nofQ 1) in
  forallb (fun p => negb (snd p)) out = true /\
  neqb (n:=F64) (fst (last out (nofQ 1, true))) (nofQ 0) = true.
Proof. vm_compute. split; reflexivity. Qed.

(** Example: accept, reject, reject: the step is 1/4. *)
Example C28_step_sizes_ex_pf :
  let s := armijo (N:=F64) (nofQ (1#2)) (nofQ (1#10)) (nofQ 1) in
  let c (b : bool) (v : Q) := mkCall (N:=F64) b [nofQ 0] [nofQ 1] (EvalGrad (nofQ 0) [nofQ (-1)]) (Eval (nofQ v)) in
  let out := search_run s [c true 0; c false 1; c false (-1); c false 1; c false (-1#20)]%Q (nofQ 1) in
  map snd out = [true; false; true; false; false] /\
  forallb (fun p => neqb (n:=F64) (fst p) (snd p)) (combine (map fst out)
    [nofQ 1; nofQ (1#2); nofQ 1; nofQ (1#2); nofQ (1#4)]) = true.
Proof. vm_compute. split; reflexivity. Qed.

(** ** Backtracking terminates *)
Lemma along_diff : forall y d t, length d = length y ->
  vsub (N:=RN) (along y d t) y = Rscal t d.
Proof.
  intros y d t H. unfold along. rewrite vscale_RN, vadd_RN, vsub_RN.
  revert d H. induction y as [|a y IH]; intros [|b d] H; try discriminate; [reflexivity|].
  cbn. f_equal; [lra|]. apply IH. cbn in H. lia.
Qed.

Lemma armijo_small_steps : forall (f : list R -> R) y d g slope,
  length d = length y ->
  derivable_pt_lim (fun t => f (along y d t)) 0 (Rdot g d) ->
  (Rdot g d < 0)%R -> (0 < slope < 1)%R ->
  exists delta, (0 < delta)%R /\ forall t, (0 < t < delta)%R ->
    (f (along y d t) - f y <= slope * Rdot g (Rscal t d))%R.
Proof.
  intros f y d g slope HL HD Hg Hs.
  assert (E0 : along y d 0 = y).
  { unfold along. rewrite vscale_RN, vadd_RN. revert d HL HD Hg. clear.
    induction y as [|a y IH]; intros [|b d] H HD Hg; try discriminate; [reflexivity|].
    cbn. f_equal; [lra|]. clear HD Hg. assert (L : length d = length y) by (cbn in H; lia). clear H IH.
    revert d L. induction y as [|a' y IH]; intros [|b' d] L; try discriminate; [reflexivity|].
    cbn. f_equal; [lra|]. apply IH. cbn in L. lia. }
  destruct (HD ((1 - slope) * - Rdot g d)%R) as [delta HDl].
  { apply Rmult_lt_0_compat; lra. }
  exists delta. split; [apply (cond_pos delta)|].
  intros t Ht. specialize (HDl t ltac:(lra) ltac:(rewrite Rabs_pos_eq; lra)).
  rewrite Rplus_0_l in HDl. rewrite E0 in HDl.
  rewrite Rdot_scal_r.
  set (D := (f (along y d t) - f y)%R) in *. set (G := Rdot g d) in *.
  apply Rabs_def2 in HDl as [H1 _].
  assert (D / t < slope * G)%R by lra.
  apply Rmult_lt_compat_r with (r := t) in H; [|lra].
  replace (D / t * t)%R with D in H by (field; lra). lra.
Qed.

(** Search level: along a descent direction of a function that is
    differentiable there (the stored gradient giving the directional
    derivative), every sufficiently small trial step is accepted; so of the
    trial steps step_init * decrease^k all but finitely many are. *)
Lemma C29_search_accepts_pf :
  forall (f : list R -> R) (y d g : list R) (decrease slope init : R),
    armijo_valid (N:=RN) decrease slope init = true ->
    length d = length y ->
    derivable_pt_lim (fun t => f (along y d t)) 0 (Rdot g d) ->
    (Rdot g d < 0)%R ->
    exists k, forall j st, k <= j ->
      let y_eval := along y d (init * decrease ^ j)%R in
      snd (fst (fst (se_step (armijo (N:=RN) decrease slope init) false y y_eval
                       (EvalGrad (N:=RN) (f y) g) (Eval (N:=RN) (f y_eval)) st))) = true.
Proof.
  intros f y d g de sl ini V HL HD Hg.
  assert (HV : (0 < de < 1 /\ 0 < sl < 1 /\ 0 < ini)%R).
  { unfold armijo_valid in V. rewrite !negb_orb, !andb_true_iff, !negb_true_iff in V.
    cbn [nleb RN nofQ] in V. rewrite !Rleb_false, Q2R_0, Q2R_1 in V. tauto. }
  destruct (armijo_small_steps f y d g sl HL HD Hg ltac:(tauto)) as (delta & Hd & HS).
  destruct (pow_lt_1_zero de ltac:(rewrite Rabs_pos_eq; lra) (delta / ini)%R) as [K HK].
  { apply Rdiv_lt_0_compat; lra. }
  exists K. intros j st Hj y_eval. cbn [se_step armijo fst snd]. unfold armijo_step. cbn [fst snd orb].
  assert (Ht : (0 < ini * de ^ j < delta)%R).
  { specialize (HK j Hj). rewrite Rabs_pos_eq in HK by (apply Rlt_le, pow_lt; lra).
    split; [apply Rmult_lt_0_compat; [lra|apply pow_lt; lra]|].
    apply Rmult_lt_compat_l with (r := ini) in HK; [|lra].
    replace (ini * (delta / ini))%R with delta in HK by (field; lra). exact HK. }
  cbn [compute_grad_dot as_min]. unfold y_eval. rewrite along_diff by exact HL. rewrite vdot_RN.
  apply andb_true_iff. split.
  - cbn [nleb RN nsub nmul]. apply Rleb_true. apply HS. exact Ht.
  - cbn [nleb RN nofQ]. apply Rleb_true. rewrite Q2R_0, Rdot_scal_r.
    assert (0 < - Rdot g d * (ini * de ^ j))%R by (apply Rmult_lt_0_compat; lra). lra.
Qed.

Lemma armijo_step_facts : forall (de sl ini : R) first y ye fi fe st step acc sr sst,
  armijo_valid (N:=RN) de sl ini = true ->
  se_step (armijo (N:=RN) de sl ini) first y ye fi fe st = (step, acc, sr, sst) ->
  sst = step /\ (acc = false -> step = de * st)%R /\ ((0 < st)%R -> (0 < step)%R) /\
  (acc = true -> (0 < step)%R).
Proof.
  intros de sl ini first y ye fi fe st step acc sr sst V H.
  assert (HV : (0 < de < 1 /\ 0 < sl < 1 /\ 0 < ini)%R).
  { unfold armijo_valid in V. rewrite !negb_orb, !andb_true_iff, !negb_true_iff in V.
    cbn [nleb RN nofQ] in V. rewrite !Rleb_false, Q2R_0, Q2R_1 in V. tauto. }
  cbn in H. unfold armijo_step in H. cbv zeta in H.
  injection H as <- <- <- <-. split; [reflexivity|].
  destruct (first || _); split; try discriminate; try reflexivity; split; intros; try lra; try tauto; try discriminate.
  cbn. apply Rmult_lt_0_compat; tauto.
Qed.

Lemma armijo_accepts_small : forall (f : list R -> R) y d g (de sl ini : R),
  armijo_valid (N:=RN) de sl ini = true -> length d = length y ->
  derivable_pt_lim (fun t => f (along y d t)) 0 (Rdot g d) -> (Rdot g d < 0)%R ->
  (exists delta, (0 < delta)%R /\ forall t fi, (0 < t < delta)%R -> as_min fi = f y ->
    compute_grad_dot (N:=RN) fi (Rscal t d) = Rdot g (Rscal t d) ->
    forall st step acc sr sst,
    se_step (armijo (N:=RN) de sl ini) false y (along y d t) fi
            (Eval (N:=RN) (f (along y d t))) st = (step, acc, sr, sst) -> acc = true) /\
  (forall t fi st step sr sst, (0 < t)%R -> as_min fi = f y ->
    compute_grad_dot (N:=RN) fi (Rscal t d) = Rdot g (Rscal t d) ->
    se_step (armijo (N:=RN) de sl ini) false y (along y d t) fi
            (Eval (N:=RN) (f (along y d t))) st = (step, true, sr, sst) ->
    (f (along y d t) < f y)%R).
Proof.
  intros f y d g de sl ini V HL HD Hg.
  assert (HV : (0 < de < 1 /\ 0 < sl < 1 /\ 0 < ini)%R).
  { unfold armijo_valid in V. rewrite !negb_orb, !andb_true_iff, !negb_true_iff in V.
    cbn [nleb RN nofQ] in V. rewrite !Rleb_false, Q2R_0, Q2R_1 in V. tauto. }
  assert (Hneg : forall t, (0 < t)%R -> (Rdot g (Rscal t d) < 0)%R).
  { intros t Ht. rewrite Rdot_scal_r. assert (0 < - Rdot g d * t)%R by (apply Rmult_lt_0_compat; lra). lra. }
  split.
  - destruct (armijo_small_steps f y d g sl HL HD Hg ltac:(tauto)) as (delta & Hd & HS).
    exists delta. split; [exact Hd|]. intros t fi Ht Hf Hc st step acc sr sst H.
    cbn [se_step armijo] in H. unfold armijo_step in H. cbv zeta in H. injection H as _ H _ _. rewrite <- H.
    cbn [orb as_min]. rewrite along_diff by exact HL. rewrite Hf, Hc.
    apply andb_true_iff. cbn [nleb RN nsub nmul nofQ]. rewrite !Rleb_true, Q2R_0.
    split; [apply HS; exact Ht|]. apply Rlt_le. apply Hneg. tauto.
  - intros t fi st step sr sst Ht Hf Hc H.
    cbn [se_step armijo] in H. unfold armijo_step in H. cbv zeta in H. injection H as _ H _ _.
    cbn [orb as_min] in H. rewrite along_diff in H by exact HL. rewrite Hf, Hc in H.
    apply andb_true_iff in H as [H _]. cbn [nleb RN nsub nmul] in H. apply Rleb_true in H.
    specialize (Hneg t Ht). assert (0 < sl * - Rdot g (Rscal t d))%R by (apply Rmult_lt_0_compat; lra). lra.
Qed.

(** Solver level, gradient-descent skeleton: from any iterate at which the
    objective is differentiable along the direction proposed by the descent,
    with negative slope given by the computed gradient, finitely many rejections
    are followed by an accepted step that strictly decreases the objective. *)
Lemma C29_gradient_descent_pf :
  forall (Aux : Type) (P : ar_tols RN) (decrease slope init : R) (descent : Descent RN) grad_of
         (fn : list R -> R * Aux) y0 fs auxs st0,
    armijo_valid (N:=RN) decrease slope init = true ->
    let s := gradient_descent_solver (N:=RN) P (armijo (N:=RN) decrease slope init) descent grad_of in
    s_init s fn y0 fs auxs = Ret st0 ->
    let y := y_at s fn y0 st0 (auxs fill0) in
    let st := st_at s fn y0 st0 (auxs fill0) in
    forall k dir, 0 < k ->
      (forall t, fst (d_step descent t (gd_descent_state (st k))) = Rscal t dir) ->
      length dir = length (y k) ->
      derivable_pt_lim (fun t => fst (fn (along (y k) dir t))) 0 (Rdot (grad_of fn (y k)) dir) ->
      (Rdot (grad_of fn (y k)) dir < 0)%R ->
      exists m, k <= m /\ (forall j, k <= j <= m -> y j = y k) /\
                (fst (fn (y (S m))) < fst (fn (y k)))%R.
Proof.
  intros Aux P de sl ini descent grad_of fn y0 fs auxs st0 V s Hi y st k dir Hk Hdir HL HD Hg.
  apply gd_init_inv in Hi. subst st0.
  pose proof (proj1 (accepts_first_builtin RN) de sl ini) as HA.
  pose proof (gd_first P _ descent grad_of fn y0 fs auxs HA) as HF.
  pose proof (gd_trace_S P (armijo (N:=RN) de sl ini) descent grad_of fn y0 fs auxs) as HT.
  fold s in HF, HT. fold y st in HF, HT.
  assert (HI : forall j, 0 < j ->
    gd_y_eval (st j) = vadd (y j) (fst (d_step descent (gd_search_state (st j)) (gd_descent_state (st j)))) /\
    (0 < (gd_search_state (st j) : R))%R).
  { intros j Hj. destruct j as [|j]; [lia|]. clear Hj. induction j as [|j IH].
    - destruct (gd_step_cases _ _ _ _ _ _ _ _ _ _ (HT 0)) as (step & acc & sr & sst & Es & E1 & E2 & E3 & E4 & E6 & E5).
      destruct (armijo_step_facts de sl ini _ _ _ _ _ _ _ _ _ _ V Es) as (-> & _ & _ & Hp).
      rewrite E2, E3. split; [reflexivity|]. apply Hp.
      assert (F : gd_first_step (st 0) = true) by (apply (HF 0); reflexivity). rewrite F in Es.
      pose proof (HA (y 0) (gd_y_eval (st 0)) (gd_f_info (st 0)) (Eval (fst (fn (gd_y_eval (st 0))))) (gd_search_state (st 0))) as HA'.
      exact (eq_trans (eq_sym (f_equal (fun p => snd (fst (fst p))) Es)) HA').
    - destruct (gd_step_cases _ _ _ _ _ _ _ _ _ _ (HT (S j))) as (step & acc & sr & sst & Es & E1 & E2 & E3 & E4 & E6 & E5).
      destruct (armijo_step_facts de sl ini _ _ _ _ _ _ _ _ _ _ V Es) as (-> & _ & Hp & _).
      rewrite E2, E3. split; [reflexivity|]. apply Hp. apply IH. }
  set (f := fun z => fst (fn z)).
  destruct (armijo_accepts_small f (y k) dir (grad_of fn (y k)) de sl ini V HL HD Hg) as [(delta & Hdl & HS) HDec].
  assert (RUN : forall n,
    (exists m, k <= m /\ (forall j, k <= j <= m -> y j = y k) /\ (f (y (S m)) < f (y k))%R) \/
    ((forall j, k <= j <= k + n -> y j = y k) /\
     gd_descent_state (st (k + n)) = gd_descent_state (st k) /\
     (gd_search_state (st (k + n)) : R) = (gd_search_state (st k) * de ^ n)%R)).
  { induction n as [|n [IH|(IH1 & IH2 & IH3)]].
    - right. rewrite Nat.add_0_r. split; [|split].
      + intros j Hj. replace j with k by lia. reflexivity.
      + reflexivity.
      + cbn. lra.
    - auto.
    - destruct (gd_step_cases _ _ _ _ _ _ _ _ _ _ (HT (k + n))) as (step & acc & sr & sst & Es & E1 & E2 & E3 & E4 & E6 & E5).
      destruct (HF (k + n)) as [F1 F2]. destruct (F2 ltac:(lia)) as [Ff _].
      replace (gd_first_step _) with false in Es
        by (symmetry; apply not_true_iff_false; intro F; apply F1 in F; lia).
      destruct (HI (k + n) ltac:(lia)) as [Ey Hpos].
      assert (Eyn : y (k + n) = y k) by (apply IH1; lia).
      assert (Ez : gd_y_eval (st (k + n)) = along (y k) dir (gd_search_state (st (k + n)))).
      { rewrite Ey, IH2, Hdir, Eyn. reflexivity. }
      destruct (armijo_step_facts de sl ini _ _ _ _ _ _ _ _ _ _ V Es) as (-> & Hrej & _ & _).
      destruct acc.
      + left. exists (k + n). split; [lia|]. split; [intros j Hj; apply IH1; lia|].
        destruct E5 as (E5 & _). rewrite E5, Ez.
        rewrite Ez, Eyn, Ff, Eyn in Es.
        eapply (HDec _ _ _ _ _ _ Hpos); [| |exact Es]; [reflexivity|].
        cbn [compute_grad_dot]. apply vdot_RN.
      + right. destruct E5 as (E5 & _ & _ & E5d & _).
        rewrite Nat.add_succ_r. split; [|split].
        * intros j Hj. destruct (Nat.eq_dec j (S (k + n))) as [->|]; [rewrite E5; exact Eyn|apply IH1; lia].
        * rewrite E5d. exact IH2.
        * change ((gd_search_state (st (S (k + n))) : R) = gd_search_state (st k) * de ^ S n)%R.
          rewrite E2, (Hrej eq_refl). change (SSt (armijo (N:=RN) de sl ini)) with R in *. rewrite IH3. cbn [pow]. lra. }
  assert (HV : (0 < de < 1)%R).
  { unfold armijo_valid in V. rewrite !negb_orb, !andb_true_iff, !negb_true_iff in V.
    cbn [nleb RN nofQ] in V. rewrite !Rleb_false, Q2R_0, Q2R_1 in V. tauto. }
  destruct (HI k Hk) as [_ Htk].
  set (tk := (gd_search_state (st k) : R)) in *.
  destruct (pow_lt_1_zero de ltac:(rewrite Rabs_pos_eq; lra) (delta / tk)%R) as [n Hn].
  { apply Rdiv_lt_0_compat; lra. }
  specialize (Hn n ltac:(lia)). rewrite Rabs_pos_eq in Hn by (apply Rlt_le, pow_lt; lra).
  destruct (RUN (S n)) as [H|(R1 & _)]; [exact H|].
  destruct (RUN n) as [H|(R1' & R2 & R3)]; [exact H|].
  exfalso. (* the trial at k+n was rejected although the step was small *)
  destruct (gd_step_cases _ _ _ _ _ _ _ _ _ _ (HT (k + n))) as (step & acc & sr & sst & Es & E1 & E2 & E3 & E4 & E6 & E5).
  destruct (HF (k + n)) as [F1 F2]. destruct (F2 ltac:(lia)) as [Ff _].
  replace (gd_first_step _) with false in Es
    by (symmetry; apply not_true_iff_false; intro F; apply F1 in F; lia).
  destruct (HI (k + n) ltac:(lia)) as [Ey Hpos].
  assert (Eyn : y (k + n) = y k) by (apply R1'; lia).
  assert (Ez : gd_y_eval (st (k + n)) = along (y k) dir (gd_search_state (st (k + n)))).
  { rewrite Ey, R2, Hdir, Eyn. reflexivity. }
  rewrite Ez, Eyn, Ff, Eyn in Es.
  assert (Hacc : acc = true).
  { eapply (HS _ _ ltac:(split; [exact Hpos|]) ); [| |exact Es].
    - reflexivity.
    - cbn [compute_grad_dot]. apply vdot_RN.
    Unshelve. rewrite R3. apply Rmult_lt_compat_l with (r := tk) in Hn; [|exact Htk].
    replace (tk * (delta / tk))%R with delta in Hn by (field; lra). exact Hn. }
  subst acc. destruct E5 as (E5 & _).
  assert (Hlt : (f (along (y k) dir (gd_search_state (st (k + n)%nat))) < f (y k))%R).
  { eapply (HDec _ _ _ _ _ _ Hpos); [| |exact Es]; [reflexivity|].
    cbn [compute_grad_dot]. apply vdot_RN. }
  rewrite <- Ez, <- E5 in Hlt. rewrite <- Nat.add_succ_r in Hlt. rewrite (R1 (k + S n)) in Hlt by lia. lra.
Qed.
