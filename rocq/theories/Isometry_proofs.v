(** Solves do not depend on the coordinates (C105). *)

From Coq Require Import String List Bool Arith Lia ZArith QArith Reals Lra Permutation FunctionalExtensionality.
From Verif Require Import Num NumFacts Vec VecFacts Spec_Vec Spec_Lin LinFacts Results Iterate Spec_Iterate Iterate_proofs.
From Verif Require Import Search Descent Minimisers QuasiNewton LinAlg LBFGS Solvers Spec_Search Spec_Combos TrustRegion_proofs BFGS_proofs LBFGSFacts LeastSquares_proofs Dogleg_proofs Steps_proofs Spec_Isometry.
Import ListNotations.
Local Open Scope nat_scope.

(** ** Two solves in lockstep *)

Section Lockstep.
  Context {Out Out' Aux : Type}.
  Variables (s1 : Solver (list R) Out Aux) (s2 : Solver (list R) Out' Aux).
  Variables (fn1 : list R -> Out * Aux) (fn2 : list R -> Out' * Aux) (isfin : list R -> bool).
  Variable U : list R -> list R.
  Variable Rel : list R -> St s1 -> St s2 -> Prop.
  Variables (y0 : list R) (fs1 : fillv -> Out) (fs2 : fillv -> Out') (auxs : fillv -> Aux).
  Hypothesis Hfin : forall y a b, Rel y a b -> isfin (U y) = isfin y.
  Hypothesis Hinit : match s_init s1 fn1 y0 fs1 auxs, s_init s2 fn2 (U y0) fs2 auxs with
    | Ret a, Ret b => Rel y0 a b | Raise e, Raise e' => e' = e | Unfinished, Unfinished => True | _, _ => False end.
  Hypothesis Hstep : forall y a b, Rel y a b ->
    fst (fst (s_step s2 fn2 (U y) b)) = U (fst (fst (s_step s1 fn1 y a))) /\ snd (s_step s2 fn2 (U y) b) = snd (s_step s1 fn1 y a) /\
    Rel (fst (fst (s_step s1 fn1 y a))) (snd (fst (s_step s1 fn1 y a))) (snd (fst (s_step s2 fn2 (U y) b))).
  Hypothesis Hterm : forall y y' a b, Rel y a b -> s_terminate s2 fn2 (U y') b = s_terminate s1 fn1 y' a.
  Hypothesis Hpost : forall y a b x r, Rel y a b ->
    s_post s2 fn2 (U y) x b r = (U (fst (fst (s_post s1 fn1 y x a r))), snd (fst (s_post s1 fn1 y x a r)), snd (s_post s1 fn1 y x a r)).

  Definition crel (c1 : carry (Y:=list R) (Aux:=Aux) (St s1)) (c2 : carry (Y:=list R) (Aux:=Aux) (St s2)) : Prop :=
    c_y c2 = U (c_y c1) /\ c_num_steps c2 = c_num_steps c1 /\ c_aux c2 = c_aux c1 /\ c_terminate c2 = c_terminate c1 /\
    c_result c2 = c_result c1 /\ Rel (c_y c1) (c_state c1) (c_state c2).

  Lemma tr_rel : forall y y' a b a' b', Rel y a b -> Rel y' a' b' ->
    terminate_and_result isfin s2 fn2 (U y) b' = terminate_and_result isfin s1 fn1 y a'.
  Proof. intros. unfold terminate_and_result. rewrite (Hterm y' y a' b') by assumption. rewrite (Hfin y a b) by assumption. reflexivity. Qed.

  Lemma while_crel : forall fuel ms c1 c2, crel c1 c2 ->
    match while_loop fuel (cond_fun s1) (body_fun isfin s1 fn1) ms c1, while_loop fuel (cond_fun s2) (body_fun isfin s2 fn2) ms c2 with
    | Ret a, Ret b => crel a b | Raise e, Raise e' => e' = e | Unfinished, Unfinished => True | _, _ => False end.
  Proof.
    induction fuel as [|fuel IH]; intros ms c1 c2 C; cbn; [exact I|].
    assert (E : cond_fun s2 c2 = cond_fun s1 c1).
    { destruct C as (C1 & C2 & C3 & C4 & C5 & C6). unfold cond_fun. rewrite C4, C5. reflexivity. }
    assert (B : crel (body_fun isfin s1 fn1 c1) (body_fun isfin s2 fn2 c2)).
    { destruct C as (C1 & C2 & C3 & C4 & C5 & C6). unfold body_fun. rewrite C1.
      pose proof (Hstep _ _ _ C6) as (S1 & S2 & S3).
      destruct (s_step s1 fn1 (c_y c1) (c_state c1)) as [[y1 a1] x1], (s_step s2 fn2 (U (c_y c1)) (c_state c2)) as [[y2 b2] x2].
      cbn [fst snd] in S1, S2, S3. subst y2 x2.
      rewrite (tr_rel _ _ _ _ _ _ C6 S3). destruct (terminate_and_result isfin s1 fn1 (c_y c1) a1) as [t r].
      repeat split; cbn; auto. }
    destruct ms as [[|m]|]; [exact C| |]; rewrite E; destruct (cond_fun s1 c1); try exact C; apply IH; exact B.
  Qed.

  Lemma lockstep : forall fuel ms throw,
    same_solve U (iterative_solve isfin s1 fn1 fuel ms throw y0 fs1 auxs) (iterative_solve isfin s2 fn2 fuel ms throw (U y0) fs2 auxs).
  Proof.
    intros fuel ms throw. unfold iterative_solve, iterate.
    destruct (s_init s1 fn1 y0 fs1 auxs) as [a|e|], (s_init s2 fn2 (U y0) fs2 auxs) as [b|e'|]; try contradiction Hinit; cbn [obind];
      [|exact Hinit|exact I].
    rewrite (tr_rel _ _ _ _ _ _ Hinit Hinit). destruct (terminate_and_result isfin s1 fn1 y0 a) as [t r].
    pose proof (while_crel fuel ms (mkCarry y0 0 a (auxs fill0) t r) (mkCarry (U y0) 0 b (auxs fill0) t r)) as W.
    assert (C0 : crel (mkCarry y0 0 a (auxs fill0) t r) (mkCarry (U y0) 0 b (auxs fill0) t r)) by (repeat split; exact Hinit).
    specialize (W C0).
    destruct (while_loop fuel (cond_fun s1) (body_fun isfin s1 fn1) ms _) as [c1|e1|],
      (while_loop fuel (cond_fun s2) (body_fun isfin s2 fn2) ms _) as [c2|e2|]; try contradiction W; cbn [obind];
      [|exact W|exact I].
    destruct W as (C1 & C2 & C3 & C4 & C5 & C6). rewrite C1, C4, C5, C3.
    rewrite (Hpost _ _ _ _ _ C6).
    destruct (s_post s1 fn1 (c_y c1) (c_aux c1) (c_state c1) _) as [[fy fa] stt]. cbn [obind fst snd]. rewrite C2.
    match goal with |- context [throw && ?b] => destruct (throw && b) end; [reflexivity|]. repeat split.
  Qed.
End Lockstep.

Lemma allfinite_RN : forall y : list R, vallfinite (N:=RN) y = true.
Proof. intro y. unfold vallfinite. apply forallb_forall. reflexivity. Qed.

(** ** Vector operations in the new coordinates *)

Section Ops.
  Variables (n : nat) (U : list R -> list R).
  Hypothesis HU : isometry n U.

  Lemma U_len : forall a, length a = n -> length (U a) = n. Proof. apply HU. Qed.
  Lemma U_add : forall a b : list R, length a = n -> length b = n -> vadd (N:=RN) (U a) (U b) = U (vadd (N:=RN) a b).
  Proof. intros. rewrite !vadd_RN. symmetry. apply HU; assumption. Qed.
  Lemma U_scale : forall c (a : list R), length a = n -> vscale (N:=RN) c (U a) = U (vscale (N:=RN) c a).
  Proof. intros. rewrite !vscale_RN. symmetry. apply HU; assumption. Qed.
  Lemma U_map : forall (f : R -> R) c (a : list R), (forall x, f x = (c * x)%R) -> length a = n -> map f (U a) = U (map f a).
  Proof.
    intros f c a Hf Ha. assert (E : forall b, map f b = Rscal c b) by (intro b; apply map_ext; exact Hf).
    rewrite !E. symmetry. apply HU. exact Ha.
  Qed.
  Lemma U_neg : forall a : list R, length a = n -> vneg (N:=RN) (U a) = U (vneg (N:=RN) a).
  Proof. intros. apply (U_map _ (-1)); [|assumption]. intro x. change (- x = -1 * x)%R. ring. Qed.
  Lemma U_divs : forall (a : list R) c, length a = n -> vdivs (N:=RN) (U a) c = U (vdivs (N:=RN) a c).
  Proof. intros. apply (U_map _ (/ c)); [|assumption]. intro x. change (x / c = / c * x)%R. unfold Rdiv. ring. Qed.
  Lemma U_sub : forall a b : list R, length a = n -> length b = n -> vsub (N:=RN) (U a) (U b) = U (vsub (N:=RN) a b).
  Proof.
    assert (E : forall a b : list R, vsub (N:=RN) a b = Radd_v a (Rscal (-1) b)).
    { induction a as [|x a IH]; intros [|z b]; try reflexivity. cbn [Rscal map Radd_v]. unfold vsub in *. cbn [vmap2]. f_equal; [|apply IH].
      change (x - z = x + -1 * z)%R. ring. }
    intros a b Ha Hb. rewrite !E. symmetry. etransitivity; [apply HU; [exact Ha|rewrite Rscal_length; exact Hb]|]. f_equal. apply HU. exact Hb.
  Qed.
  Lemma U_dot : forall a b : list R, length a = n -> length b = n -> vdot (N:=RN) (U a) (U b) = vdot (N:=RN) a b.
  Proof. intros. rewrite !vdot_RN. apply HU; assumption. Qed.
  Lemma U_sq : forall a : list R, length a = n -> sum_squares (N:=RN) (U a) = sum_squares (N:=RN) a.
  Proof. intros. apply U_dot; assumption. Qed.
  Lemma vfull0 : forall k, vfull (N:=RN) k (nofQ 0) = zerov k.
  Proof. intro k. unfold vfull, zerov. f_equal. cbn. unfold Q2R; cbn. ring. Qed.
  Lemma scal0 : forall a : list R, Rscal 0 a = zerov (length a).
  Proof. induction a as [|x a IH]; cbn; [reflexivity|]. rewrite Rmult_0_l. f_equal. exact IH. Qed.
  Lemma U_zero : U (zerov n) = zerov n.
  Proof.
    pose proof (scal0 (zerov n)) as E. rewrite zerov_length in E. rewrite <- E at 1.
    destruct HU as (H1 & H2 & H3 & _). rewrite H3 by apply zerov_length. rewrite scal0, H1 by apply zerov_length. reflexivity.
  Qed.
  Lemma where_eq : forall p (a b : list R), length a = length b -> vwhere (N:=RN) p a b = if p then a else b.
  Proof.
    unfold vwhere. intros p. induction a as [|x a IH]; intros [|z b] H; try discriminate; [destruct p; reflexivity|].
    cbn [vmap2]. rewrite IH by (injection H; auto). destruct p; reflexivity.
  Qed.
  Lemma vsub_len : forall a b : list R, length a = n -> length b = n -> length (vsub (N:=RN) a b) = n.
  Proof. intros. apply vmap2_length_eq; assumption. Qed.
  Lemma vadd_len : forall a b : list R, length a = n -> length b = n -> length (vadd (N:=RN) a b) = n.
  Proof. intros. apply vmap2_length_eq; assumption. Qed.
  Lemma vscale_len : forall c (a : list R), length a = n -> length (vscale (N:=RN) c a) = n.
  Proof. intros. unfold vscale. rewrite map_length. assumption. Qed.
  Lemma vneg_len : forall (a : list R), length a = n -> length (vneg (N:=RN) a) = n.
  Proof. intros. unfold vneg. rewrite map_length. assumption. Qed.
End Ops.

(** ** Function information, descents and searches in the new coordinates *)

Section Rel.
  Variables (n m : nat) (U V : list R -> list R) (lsolve : linop RN -> list R -> list R * results) (eps fmax : R).
  Hypothesis HU : isometry n U.
  Hypothesis HV : isometry m V.
  Hypothesis Hls : blind_solver n U lsolve.

  Definition same_shape (A B : linop RN) : Prop :=
    match A, B with
    | MatOp p P, MatOp q Q => p = n /\ q = n /\ mat n n P /\ mat n n Q
    | FunOp _ _, FunOp _ _ => True
    | _, _ => False
    end.
  Definition irel (f1 f2 : finfo RN) : Prop :=
    match f1, f2 with
    | Eval a, Eval b => b = a
    | EvalGrad a g, EvalGrad b h => b = a /\ length g = n /\ h = U g
    | EvalGradHessian a g A, EvalGradHessian b h B => b = a /\ length g = n /\ h = U g /\ turned n n U U A B /\ same_shape A B
    | EvalGradHessianInv a g A, EvalGradHessianInv b h B => b = a /\ length g = n /\ h = U g /\
        (forall v : list R, length v = n -> length (op_mv A v : list R) = n /\ op_mv B (U v) = U (op_mv A v))
    | ResidualJac r A, ResidualJac s B => length r = m /\ s = V r /\ turned n m U V A B
    | _, _ => False
    end.

  Definition drel (d : builtin_descent RN) : DSt (descent_of lsolve eps fmax d) -> DSt (descent_of lsolve eps fmax d) -> Prop :=
    match d return DSt (descent_of lsolve eps fmax d) -> DSt (descent_of lsolve eps fmax d) -> Prop with
    | SteepestDescent _ => fun a b => length a = n /\ b = U a
    | NonlinearCGDescent _ => fun a b => length (fst a) = n /\ length (snd a) = n /\ b = (U (fst a), U (snd a))
    | NewtonDescent _ => fun a b => length (fst a) = n /\ b = (U (fst a), snd a)
    | DampedNewtonDescent => fun a b => fst a = n /\ fst b = n /\ irel (snd a) (snd b) /\ has_hessian (snd a) = true
    | IndirectDampedNewtonDescent _ _ => fun a b =>
        let '(k1, i1, x1, l1, r1) := a in let '(k2, i2, x2, l2, r2) := b in
        k1 = n /\ k2 = n /\ irel i1 i2 /\ has_hessian i1 = true /\ length x1 = n /\ x2 = U x1 /\ l1 = l2 /\ r1 = r2
    | DoglegDescent _ _ => fun a b => length (dl_newton a) = n /\ length (dl_cauchy a) = n /\
        b = mkDogleg (U (dl_newton a)) (U (dl_cauchy a)) (dl_newton_norm a) (dl_cauchy_norm a) (dl_result a)
    end.

  Lemma irel_supports : forall f1 f2, irel f1 f2 ->
    has_grad f2 = has_grad f1 /\ has_hessian f2 = has_hessian f1 /\ has_newton f2 = has_newton f1 /\ as_min f2 = as_min f1.
  Proof.
    intros [a|a g|a g A|a g A|r|r A] [b|b h|b h B|b h B|s|s B] H; try contradiction H; cbn in H; repeat split;
      try (cbn; destruct H; congruence); try exact H.
    destruct H as (L & -> & _). cbn [as_min]. f_equal. apply (U_sq m V HV). exact L.
  Qed.
  Lemma grad_rel : forall f1 f2, irel f1 f2 -> has_grad f1 = true -> length (info_grad f1) = n /\ info_grad f2 = U (info_grad f1).
  Proof.
    intros [a|a g|a g A|a g A|r|r A] [b|b h|b h B|b h B|s|s B] H Hg; try contradiction H; try discriminate Hg; cbn in H |- *; try (split; apply H).
    destruct H as (L & -> & (_ & T1 & _ & T2)). split; [apply T1|apply T2]; exact L.
  Qed.
  Lemma newton_rel : forall f1 f2, irel f1 f2 -> has_newton f1 = true ->
    length (fst (newton_step (N:=RN) lsolve f1)) = n /\
    newton_step (N:=RN) lsolve f2 = (U (fst (newton_step (N:=RN) lsolve f1)), snd (newton_step (N:=RN) lsolve f1)).
  Proof.
    intros [a|a g|a g A|a g A|r|r A] [b|b h|b h B|b h B|s|s B] H Hg; try contradiction H; try discriminate Hg; cbn in H; cbn [newton_step].
    - destruct H as (_ & L & -> & T & _). exact (Hls n U A B g HU T L).
    - destruct H as (_ & L & -> & T). cbn [fst snd]. destruct (T g L) as [T1 T2]. split; [exact T1|]. rewrite T2. reflexivity.
    - destruct H as (L & -> & T). exact (Hls m V A B r HV T L).
  Qed.

  Lemma app_iso : isometry (m + n) (fun z => V (firstn m z) ++ U (skipn m z)).
  Proof.
    assert (L1 : forall z : list R, length z = m + n -> length (firstn m z) = m) by (intros z H; rewrite firstn_length; lia).
    assert (L2 : forall z : list R, length z = m + n -> length (skipn m z) = n) by (intros z H; rewrite skipn_length; lia).
    assert (A1 : forall a b k, firstn k (Radd_v a b) = Radd_v (firstn k a) (firstn k b)).
    { induction a as [|x a IH]; intros [|z b] [|k]; cbn; try reflexivity. f_equal. apply IH. }
    assert (A2 : forall a b k, length a = length b -> skipn k (Radd_v a b) = Radd_v (skipn k a) (skipn k b)).
    { induction a as [|x a IH]; intros [|z b] [|k] H; cbn; try reflexivity; try discriminate. apply IH. injection H; auto. }
    assert (S1 : forall c a k, firstn k (Rscal c a) = Rscal c (firstn k a)) by (intros; apply firstn_map).
    assert (S2 : forall c a k, skipn k (Rscal c a) = Rscal c (skipn k a)) by (intros; apply skipn_map).
    assert (P1 : forall a b c d, length a = length b -> Radd_v (a ++ c) (b ++ d) = Radd_v a b ++ Radd_v c d).
    { induction a as [|x a IH]; intros [|z b] c d H; cbn; try reflexivity; try discriminate. f_equal. apply IH. injection H; auto. }
    assert (D1 : forall a b c d, length a = length b -> Rdot (a ++ c) (b ++ d) = (Rdot a b + Rdot c d)%R).
    { induction a as [|x a IH]; intros [|z b] c d H; cbn; try ring; try discriminate. rewrite IH by (injection H; auto). ring. }
    pose proof HU as (u1 & u2 & u3 & u4 & u5). pose proof HV as (v1 & v2 & v3 & v4 & v5).
    split; [|split; [|split; [|split]]].
    - intros a Ha. rewrite app_length, u1, v1; auto.
    - intros a b Ha Hb. rewrite A1, A2 by congruence. rewrite v2, u2 by auto. symmetry. apply P1. rewrite !v1; auto.
    - intros c a Ha. rewrite S1, S2, u3, v3 by auto. unfold Rscal. symmetry. apply map_app.
    - intros a b Ha Hb. rewrite D1 by (rewrite !v1; auto). rewrite v4, u4 by auto.
      rewrite <- D1 by (rewrite !L1; auto). rewrite !firstn_skipn. reflexivity.
    - intros a Ha. destruct (v5 (firstn m a) (L1 a Ha)) as (b & Lb & Eb). destruct (u5 (skipn m a) (L2 a Ha)) as (c & Lc & Ec).
      exists (b ++ c). split; [rewrite app_length; congruence|]. rewrite firstn_app, skipn_app, Lb, Nat.sub_diag. cbn [firstn skipn].
      rewrite app_nil_r. rewrite <- Lb at 1 2. rewrite firstn_all, skipn_all. cbn [app]. rewrite Eb, Ec. apply firstn_skipn.
  Qed.

  Lemma damp_add : forall k c (x z p q : list R), length x = k -> length z = k -> length p = k -> length q = k ->
    vadd (N:=RN) (Radd_v p q) (vscale (N:=RN) c (Radd_v x z)) = Radd_v (vadd (N:=RN) p (vscale (N:=RN) c x)) (vadd (N:=RN) q (vscale (N:=RN) c z)).
  Proof.
    intros k c x z p q. revert k z p q.
    induction x as [|a x IH]; intros k [|b z] [|d p] [|e q] H1 H2 H3 H4; cbn in *; subst k; try discriminate; [reflexivity|].
    f_equal; [cbn; ring|]. apply (IH (length x)); auto.
  Qed.
  Lemma damp_scal : forall k c e (x p : list R), length x = k -> length p = k ->
    vadd (N:=RN) (Rscal e p) (vscale (N:=RN) c (Rscal e x)) = Rscal e (vadd (N:=RN) p (vscale (N:=RN) c x)).
  Proof.
    intros k c e x p. revert k p.
    induction x as [|a x IH]; intros k [|d p] H1 H2; cbn in *; subst k; try discriminate; [reflexivity|].
    f_equal; [cbn; ring|]. apply (IH (length x)); auto.
  Qed.

  Lemma damped_rel : forall f1 f2 t, irel f1 f2 -> has_hessian f1 = true ->
    length (fst (damped_newton_step (N:=RN) lsolve eps fmax n t f1)) = n /\
    damped_newton_step (N:=RN) lsolve eps fmax n t f2 =
      (U (fst (damped_newton_step (N:=RN) lsolve eps fmax n t f1)), snd (damped_newton_step (N:=RN) lsolve eps fmax n t f1)).
  Proof.
    intros [a|a g|a g A|a g A|r|r A] [b|b h|b h B|b h B|s|s B] t H Hg; try contradiction H; try discriminate Hg; cbn in H; cbn [damped_newton_step].
    - destruct H as (_ & L & -> & T & _). apply (Hls n U); [exact HU| |exact L]. destruct T as ((l1 & l2 & l3) & T1 & T2 & T3).
      set (c := lm_param (N:=RN) eps fmax t). unfold damped_hessian. split; [split; [|split]|split; [|split]]; cbn [op_mv op_mvT].
      + intros x Hx. apply vadd_len; [apply l1; exact Hx|apply vscale_len; exact Hx].
      + intros x z Hx Hz. rewrite l2 by assumption. apply (damp_add n); auto.
      + intros k x Hx. rewrite l3 by assumption. apply (damp_scal n); auto.
      + intros w Hw. apply vadd_len; [apply T1; exact Hw|apply vscale_len; exact Hw].
      + intros v Hv. rewrite T2 by exact Hv. rewrite (U_scale n U HU) by exact Hv. apply (U_add n U HU); [apply l1; exact Hv|apply vscale_len; exact Hv].
      + intros v Hv. rewrite T3 by exact Hv. rewrite (U_scale n U HU) by exact Hv. apply (U_add n U HU); [apply T1; exact Hv|apply vscale_len; exact Hv].
    - destruct H as (L & -> & T).
      pose proof (U_len m V HV r L) as LV. change (@length RN (V r)) with (@length R (V r)). change (@length RN r) with (@length R r). rewrite L, LV.
      set (c := lm_param (N:=RN) eps fmax t). rewrite vfull0.
      set (W := fun z : list R => V (firstn m z) ++ U (skipn m z)).
      assert (EW : forall p q : list R, length p = m -> W (p ++ q) = V p ++ U q).
      { intros p q Hp. unfold W. rewrite firstn_app, skipn_app, Hp, Nat.sub_diag. cbn [firstn skipn]. rewrite app_nil_r.
        rewrite <- Hp at 1 2. rewrite firstn_all, skipn_all. reflexivity. }
      assert (E : V r ++ zerov n = W (r ++ zerov n)) by (rewrite EW by exact L; rewrite (U_zero n U HU); reflexivity).
      pose proof (Hls (m + n) W (damped_jac (N:=RN) n A c m) (damped_jac (N:=RN) n B c m) (r ++ zerov n) app_iso) as K. rewrite <- E in K.
      apply K; clear K; [|rewrite app_length, zerov_length; exact (f_equal (fun k => k + n) L)].
      destruct T as (TL & T1 & T2 & T3). split; [apply damped_linear; exact TL|]. destruct TL as (l1 & l2 & l3).
      assert (L1 : forall z : list R, length z = m + n -> length (firstn m z) = m) by (intros z H; rewrite firstn_length; lia).
      assert (L2 : forall z : list R, length z = m + n -> length (skipn m z) = n) by (intros z H; rewrite skipn_length; lia).
      unfold damped_jac. cbn [op_mv op_mvT]. split; [|split].
      + intros w Hw. apply vadd_len; [apply T1; auto|apply vscale_len; auto].
      + intros v Hv. rewrite T2 by exact Hv. rewrite (U_scale n U HU) by exact Hv. symmetry. apply EW. apply l1. exact Hv.
      + intros w Hw. assert (F1 : firstn m (W w) = V (firstn m w)).
        { unfold W. rewrite firstn_app, (U_len m V HV), Nat.sub_diag, firstn_O, app_nil_r by auto. rewrite <- (U_len m V HV (firstn m w)) at 1 by auto. apply firstn_all. }
        assert (F2 : skipn m (W w) = U (skipn m w)).
        { unfold W. rewrite skipn_app, (U_len m V HV), Nat.sub_diag, skipn_O by auto. rewrite <- (U_len m V HV (firstn m w)) at 1 by auto. rewrite skipn_all. reflexivity. }
        change (@firstn RN) with (@firstn R). change (@skipn RN) with (@skipn R). rewrite F1, F2, T3 by auto.
        rewrite (U_scale n U HU) by auto. apply (U_add n U HU); [apply T1; auto|apply vscale_len; auto].
  Qed.

  Lemma zero_rel : forall f1 f2, irel f1 f2 -> irel (zero_info f1) (zero_info f2) /\ has_hessian (zero_info f1) = has_hessian f1.
  Proof.
    intros [a|a g|a g A|a g A|r|r A] [b|b h|b h B|b h B|s|s B] H; try contradiction H; try (split; [exact H|reflexivity]).
    pose proof H as (Hf & L & -> & T & HS).
    destruct A as [p P|x1 x2], B as [q Q|x3 x4]; try contradiction HS; [|split; [exact H|reflexivity]].
    destruct HS as (-> & -> & HP & HQ). split; [|reflexivity]. cbn [zero_info irel].
    assert (Z : forall X, mat n n X -> map (fun row : list RN => vfull (N:=RN) (length row) (nofQ 0)) X = repeat (zerov n) n).
    { intros X [LX FX]. revert LX FX. generalize n at 1 4. intros k LX FX. revert k LX. induction X as [|x X IH]; intros k LX; cbn in LX; subst k; [reflexivity|].
      inversion FX as [|? ? F1 F2]; subst. cbn [map repeat length]. rewrite vfull0. f_equal; [exact (f_equal zerov F1)|]. apply IH; auto. }
    rewrite (Z P HP), (Z Q HQ).
    assert (MZ : mat n n (repeat (zerov n) n)).
    { split; [apply repeat_length|]. apply Forall_forall. intros x Hx. apply repeat_spec in Hx. subst. apply zerov_length. }
    assert (MV : forall v, mvec (repeat (zerov n) n) v = zerov n).
    { intro v. unfold mvec. generalize n at 2 3. induction n0 as [|k IH]; [reflexivity|]. cbn [repeat map]. rewrite Rdot_0_l. unfold zerov at 2. cbn [repeat]. f_equal. exact IH. }
    assert (TV : forall v, tmvec n (repeat (zerov n) n) v = zerov n).
    { intro v. apply (Rdot_ext n); [apply tmvec_length|apply zerov_length|]. intros z Hz. rewrite (tmvec_adjoint n) by assumption. rewrite MV, Rdot_0_l, Rdot_0_r. reflexivity. }
    change (@length R g = n) in L. split; [reflexivity|]. rewrite !vfull0. change (@length RN g) with (@length R g). change (@length RN (U g)) with (@length R (U g)). rewrite (U_len n U HU) by exact L. rewrite L.
    split; [apply zerov_length|]. split; [symmetry; apply (U_zero n U HU)|]. split; [|repeat split; apply MZ].
    split; [apply mat_linear; exact MZ|]. split; [intros w Hw; rewrite (op_mvT_RN n) by exact MZ; apply tmvec_length|]. split.
    - intros v Hv. rewrite !op_mv_RN, !MV. symmetry. apply (U_zero n U HU).
    - intros v Hv. rewrite !(op_mvT_RN n) by exact MZ. rewrite !TV. symmetry. apply (U_zero n U HU).
  Qed.

  Lemma normalise_rel : forall nm (v : list R), length v = n ->
    (match nm with Some norm => blind_norm n U norm | None => True end) ->
    length (normalise (N:=RN) nm v) = n /\ normalise (N:=RN) nm (U v) = U (normalise (N:=RN) nm v).
  Proof.
    intros [nm|] v Hv B; cbn; [|auto]. split; [unfold vdivs; rewrite map_length; exact Hv|].
    rewrite (B v Hv). apply (U_divs n U HU). exact Hv.
  Qed.

  Lemma d_init_rel : forall d (y : list R) f1 f2, length y = n -> irel f1 f2 -> d_supports (descent_of lsolve eps fmax d) f1 = true ->
    drel d (d_init (descent_of lsolve eps fmax d) y f1) (d_init (descent_of lsolve eps fmax d) (U y) f2).
  Proof.
    intros d y f1 f2 Hy HI HS. destruct (zero_rel f1 f2 HI) as [Z1 Z2]. pose proof (U_len n U HU y Hy) as LU.
    destruct d; cbn -[zero_info vfull zerov]; auto.
    - change (@length RN (U y)) with (@length R (U y)). change (@length RN y) with (@length R y).
      rewrite LU, Hy, vfull0, zerov_length, (U_zero n U HU). auto.
    - cbn in HS. rewrite Z2. auto.
    - cbn in HS. rewrite Z2. repeat split; auto.
  Qed.
  Lemma d_query_rel : forall d (y : list R) f1 f2 s1 s2, blind_descent n U d -> length y = n -> irel f1 f2 ->
    d_supports (descent_of lsolve eps fmax d) f1 = true -> drel d s1 s2 ->
    drel d (d_query (descent_of lsolve eps fmax d) y f1 s1) (d_query (descent_of lsolve eps fmax d) (U y) f2 s2).
  Proof.
    intros d y f1 f2 s1 s2 HB Hy HI HS HD. pose proof (U_len n U HU y Hy) as LU.
    assert (HN : has_hessian f1 = true -> has_newton f1 = true) by (destruct f1; cbn; auto).
    assert (HG : has_newton f1 = true -> has_grad f1 = true) by (destruct f1; cbn; auto).
    destruct d; cbn in HB, HS.
    - destruct (grad_rel f1 f2 HI HS) as [G1 G2]. cbn. rewrite G2. apply normalise_rel; assumption.
    - destruct (grad_rel f1 f2 HI HS) as [G1 G2]. destruct s1 as [p q]. destruct HD as (D1 & D2 & ->). cbn [fst snd] in *.
      cbn [drel d_query descent_of nonlinear_cg_descent cg_query fst snd]. rewrite G2, (HB _ _ _ G1 D2 D1).
      pose proof (vneg_len n _ G1) as Ln. pose proof (vscale_len n (method (info_grad f1) q p) p D1) as Ls.
      pose proof (vadd_len n _ _ Ln Ls) as La.
      rewrite (U_neg n U HU) by exact G1. rewrite (U_scale n U HU) by exact D1. rewrite (U_add n U HU) by assumption. rewrite (U_dot n U HU) by assumption.
      pose proof (U_len n U HU _ La) as La'. pose proof (U_len n U HU _ Ln) as Ln'.
      rewrite !where_eq by (exact (eq_trans La (eq_sym Ln)) || exact (eq_trans La' (eq_sym Ln'))).
      destruct (nltb _ _); auto.
    - destruct (newton_rel f1 f2 HI HS) as [N1 N2]. cbn. rewrite N2. destruct (newton_step lsolve f1) as [x r]. cbn [fst snd] in *.
      destruct (normalise_rel norm x N1 HB) as [E1 E2]. rewrite E2. auto.
    - cbn. auto.
    - destruct (newton_rel f1 f2 HI (HN HS)) as [N1 N2]. cbn. rewrite N2. destruct (newton_step lsolve f1) as [x r]. cbn [fst snd] in *.
      repeat split; auto. symmetry. apply HB. exact N1.
    - destruct (newton_rel f1 f2 HI (HN HS)) as [N1 N2]. destruct (grad_rel f1 f2 HI (HG (HN HS))) as [G1 G2].
      cbn [drel d_query descent_of dogleg_descent]. unfold dogleg_query. rewrite N2, G2. destruct (newton_step lsolve f1) as [x r]. cbn [fst snd dl_newton dl_cauchy dl_newton_norm dl_cauchy_norm dl_result] in *.
      assert (D : match f2 with EvalGradHessian _ g h => vdot (N:=RN) g (op_mv h g) | ResidualJac _ J => sum_squares (op_mv J (U (info_grad f1))) | _ => nofQ 0 end =
                  match f1 with EvalGradHessian _ g h => vdot (N:=RN) g (op_mv h g) | ResidualJac _ J => sum_squares (op_mv J (info_grad f1)) | _ => nofQ 0 end).
      { destruct f1 as [a|a g|a g A|a g A|r'|r' A], f2 as [b|b h|b h B|b h B|s'|s' B]; try contradiction HI; try discriminate HS; cbn [info_grad] in *.
        - destruct HI as (_ & _ & _ & T & _). destruct T as ((l1 & _) & _ & T2 & _). rewrite G2, T2 by exact G1. apply (U_dot n U HU); [exact G1|apply l1; exact G1].
        - destruct HI as (_ & _ & T). destruct T as ((l1 & _) & _ & T2 & _). rewrite T2 by exact G1. apply (U_sq m V HV). apply l1; exact G1. }
      rewrite D. rewrite (U_sq n U HU) by exact G1. rewrite (U_neg n U HU) by exact N1. rewrite (U_scale n U HU) by exact G1.
      split; [apply vneg_len; exact N1|]. split; [apply vscale_len; exact G1|]. rewrite (HB x N1). rewrite (HB _ (vscale_len n _ _ G1)). reflexivity.
  Qed.
  Lemma d_step_rel : forall d t s1 s2, blind_descent n U d -> drel d s1 s2 ->
    length (fst (d_step (descent_of lsolve eps fmax d) t s1)) = n /\
    d_step (descent_of lsolve eps fmax d) t s2 = (U (fst (d_step (descent_of lsolve eps fmax d) t s1)), snd (d_step (descent_of lsolve eps fmax d) t s1)).
  Proof.
    intros d t s1 s2 HB HD. destruct d.
    - destruct HD as [L ->]. cbn [d_step descent_of steepest_descent nonlinear_cg_descent newton_descent fst snd]. split; [apply vscale_len; exact L|]. rewrite (U_scale n U HU) by exact L. reflexivity.
    - destruct HD as (L & _ & ->). cbn [d_step descent_of steepest_descent nonlinear_cg_descent newton_descent fst snd]. split; [apply vscale_len; exact L|]. rewrite (U_scale n U HU) by exact L. reflexivity.
    - destruct HD as [L ->]. cbn [d_step descent_of steepest_descent nonlinear_cg_descent newton_descent fst snd]. split; [apply vscale_len; exact L|]. rewrite (U_scale n U HU) by exact L. reflexivity.
    - destruct s1 as [k1 i1], s2 as [k2 i2]. destruct HD as (H1 & H2 & H3 & H4). cbn in H1, H2. subst k1 k2. cbn [d_step descent_of damped_newton_descent fst snd].
      destruct (damped_rel i1 i2 t H3 H4) as [E L]. cbn [snd]. rewrite L. destruct (damped_newton_step lsolve eps fmax n t i1) as [x r]. cbn [fst snd] in *.
      split; [apply vneg_len; exact E|]. rewrite (U_neg n U HU) by exact E. reflexivity.
    - destruct s1 as [[[[k1 i1] x1] l1] r1], s2 as [[[[k2 i2] x2] l2] r2]. destruct HD as (H1 & H2 & H3 & H4 & H5 & H6 & H7 & H8). subst k1 k2 x2 l2 r2.
      cbn [d_step descent_of indirect_damped_newton_descent indirect_damped_step].
      assert (E : (fun lambda_i : RN => nsub (norm (fst (damped_newton_step lsolve eps fmax n (ndiv (nofQ 1) lambda_i) i2))) (nmul l1 t)) =
                  (fun lambda_i : RN => nsub (norm (fst (damped_newton_step lsolve eps fmax n (ndiv (nofQ 1) lambda_i) i1))) (nmul l1 t))).
      { extensionality z. destruct (damped_rel i1 i2 (ndiv (nofQ 1) z) H3 H4) as [E1 E2]. rewrite E2. cbn [fst]. rewrite (HB _ E1). reflexivity. }
      rewrite E. destruct (results_eqb r1 successful && nltb t (nofQ 1)).
      + set (z := rfind _). destruct (damped_rel i1 i2 (ndiv (nofQ 1) z) H3 H4) as [E1 E2]. rewrite E2.
        destruct (damped_newton_step lsolve eps fmax n (ndiv (nofQ 1) z) i1) as [x r]. cbn [fst snd] in *.
        split; [apply vneg_len; exact E1|]. rewrite (U_neg n U HU) by exact E1. reflexivity.
      + cbn [fst snd]. split; [apply vneg_len; exact H5|]. rewrite (U_neg n U HU) by exact H5. reflexivity.
    - destruct HD as (L1 & L2 & ->). destruct s1 as [nw cy nn cn rr]. cbn [d_step descent_of dogleg_descent dl_newton dl_cauchy] in *. unfold dogleg_step. cbn [dl_newton dl_cauchy dl_newton_norm dl_cauchy_norm dl_result].
      assert (I : forall u, length (dogleg_interpolate (N:=RN) cy nw u) = n /\ dogleg_interpolate (N:=RN) (U cy) (U nw) u = U (dogleg_interpolate (N:=RN) cy nw u)).
      { intro u. unfold dogleg_interpolate. pose proof (vsub_len n _ _ L1 L2) as Ls. pose proof (vscale_len n (nsub (n:=RN) u (nofQ 1)) _ Ls) as Lc.
        split; [apply vadd_len; assumption|]. rewrite (U_sub n U HU) by assumption. rewrite (U_scale n U HU) by assumption. rewrite (U_add n U HU) by assumption. reflexivity. }
      destruct (nltb _ _).
      + cbn [fst snd]. unfold scaled_cauchy. cbn [dl_cauchy dl_cauchy_norm].
        set (sn := if nltb eps cn then cn else nofQ 1).
        pose proof (U_len n U HU cy L2) as L2'. change (@length RN (U cy)) with (@length R (U cy)). change (@length RN cy) with (@length R cy).
        change (@length R cy = n) in L2. change (@length R nw = n) in L1. rewrite L2, L2', vfull0.
        assert (Lm : length (map (fun x : R => nmul (n:=RN) (ndiv (n:=RN) x sn) (nmul (n:=RN) nn t)) cy) = n) by (rewrite map_length; exact L2).
        assert (Em : map (fun x : R => nmul (n:=RN) (ndiv (n:=RN) x sn) (nmul (n:=RN) nn t)) (U cy) = U (map (fun x : R => nmul (n:=RN) (ndiv (n:=RN) x sn) (nmul (n:=RN) nn t)) cy)).
        { apply (U_map n U HU _ (/ sn * (nn * t))); [|exact L2]. intro x. change (x / sn * (nn * t) = / sn * (nn * t) * x)%R. unfold Rdiv. ring. }
        rewrite !where_eq by (rewrite zerov_length, map_length; assumption).
        destruct (nltb _ _); [split; [exact Lm|]|split; [apply zerov_length|]].
        * exact (f_equal (fun z => (z, if results_eqb rr successful then successful else rr)) Em).
        * rewrite (U_zero n U HU). reflexivity.
      + destruct (nltb _ _); [|cbn [fst snd]; split; [exact L1|reflexivity]].
        unfold dogleg_mix. cbn [dl_cauchy dl_newton dl_cauchy_norm].
        assert (Et : forall c, dogleg_t (N:=RN) (mkDogleg (U nw) (U cy) nn cn rr) c = dogleg_t (N:=RN) (mkDogleg nw cy nn cn rr) c).
        { intro c. unfold dogleg_t. cbn [dl_cauchy dl_newton dl_cauchy_norm]. pose proof (vsub_len n _ _ L1 L2) as Ls.
          rewrite (U_sub n U HU) by assumption. rewrite (U_sq n U HU) by assumption. rewrite (U_dot n U HU) by assumption. reflexivity. }
        destruct rfind as [rf|].
        * assert (Ef : (fun u : RN => nsub (norm (dogleg_interpolate (N:=RN) (U cy) (U nw) u)) (nmul nn t)) = (fun u : RN => nsub (norm (dogleg_interpolate (N:=RN) cy nw u)) (nmul nn t))).
          { extensionality u. rewrite (proj2 (I u)). rewrite (HB _ (proj1 (I u))). reflexivity. }
          rewrite Ef. destruct (rf _) as [u v]. cbn [fst snd]. rewrite (proj2 (I u)). split; [apply I|reflexivity].
        * rewrite Et. cbn [fst snd]. rewrite (proj2 (I _)). split; [apply I|reflexivity].
  Qed.

  Lemma dot_rel : forall f1 f2 (v : list R), irel f1 f2 -> length v = n -> compute_grad_dot f2 (U v) = compute_grad_dot f1 v.
  Proof.
    intros [a|a g|a g A|a g A|r|r A] [b|b h|b h B|b h B|s|s B] v H Hv; try contradiction H; cbn in H; cbn [compute_grad_dot]; try reflexivity.
    1: destruct H as (_ & L & ->); apply (U_dot n U HU); assumption.
    1-2: destruct H as (_ & L & -> & _); apply (U_dot n U HU); assumption.
    destruct H as (L & -> & ((l1 & _) & _ & T2 & _)). rewrite T2 by exact Hv. apply (U_dot m V HV); [apply l1; exact Hv|exact L].
  Qed.
  Lemma classical_rel : forall f1 f2 (v : list R), irel f1 f2 -> length v = n -> classical_predict (N:=RN) (U v) f2 = classical_predict (N:=RN) v f1.
  Proof.
    intros [a|a g|a g A|a g A|r|r A] [b|b h|b h B|b h B|s|s B] v H Hv; try contradiction H; cbn in H; cbn [classical_predict]; try reflexivity.
    - destruct H as (_ & L & -> & ((l1 & _) & _ & T2 & _) & _). rewrite T2 by exact Hv. pose proof (l1 v Hv) as Lv.
      pose proof (vscale_len n (nofQ (n:=RN) (1#2)) _ Lv) as Lc.
      rewrite (U_scale n U HU) by exact Lv. rewrite (U_add n U HU) by assumption. apply (U_dot n U HU); [exact Hv|apply vadd_len; assumption].
    - destruct H as (L & -> & ((l1 & _) & _ & T2 & _)). rewrite T2 by exact Hv. pose proof (l1 v Hv) as Lv.
      rewrite (U_add m V HV) by assumption. rewrite !(U_sq m V HV) by (assumption || (apply vadd_len; assumption)). reflexivity.
  Qed.
  Lemma se_step_rel : forall s b (y ye : list R) f1 f2 e1 e2 st, length y = n -> length ye = n -> irel f1 f2 -> as_min e2 = as_min e1 ->
    se_step (search_of s) b (U y) (U ye) f2 e2 st = se_step (search_of s) b y ye f1 e1 st.
  Proof.
    intros s b y ye f1 f2 e1 e2 st Hy Hye HI He.
    pose proof (vsub_len n _ _ Hye Hy) as L. destruct (irel_supports f1 f2 HI) as (_ & _ & _ & Hm).
    destruct s; cbn [se_step search_of learning_rate armijo linear_trust_region classical_trust_region]; [reflexivity|..];
      unfold armijo_step, tr_step, linear_predict; rewrite (U_sub n U HU) by assumption; rewrite He, Hm;
      first [rewrite (dot_rel f1 f2 _ HI L)|rewrite (classical_rel f1 f2 _ HI L)]; reflexivity.
  Qed.
  Lemma se_init_rel : forall s (y y' : list R) f1 f2, se_init (search_of s) y' f2 = se_init (search_of s) y f1.
  Proof. intros []; reflexivity. Qed.
  Lemma supports_rel : forall s d f1 f2, irel f1 f2 ->
    se_supports (search_of s) f2 = se_supports (search_of s) f1 /\
    d_supports (descent_of lsolve eps fmax d) f2 = d_supports (descent_of lsolve eps fmax d) f1.
  Proof. intros s d f1 f2 H. destruct (irel_supports f1 f2 H) as (H1 & H2 & H3 & _). destruct s, d; cbn; auto. Qed.
  (** the variant decides what is supported *)
  Definition kind (f : finfo RN) : nat :=
    match f with Eval _ => 0 | EvalGrad _ _ => 1 | EvalGradHessian _ _ _ => 2 | EvalGradHessianInv _ _ _ => 3 | Residual _ => 4 | ResidualJac _ _ => 5 end.
  Lemma supports_kind : forall d f1 f2, kind f1 = kind f2 -> d_supports (descent_of lsolve eps fmax d) f2 = d_supports (descent_of lsolve eps fmax d) f1.
  Proof. intros d [] [] H; try discriminate H; destruct d; reflexivity. Qed.
End Rel.

(** ** Loops *)

Lemma init_case : forall (S1 S2 : Type) (Q : S1 -> S2 -> Prop) (b1 b2 c1 c2 : bool) (x : S1) (z : S2), b2 = b1 -> c2 = c1 -> (c1 = true -> Q x z) ->
  match (if negb (b1 && c1) then Raise ValueError else Ret x), (if negb (b2 && c2) then Raise ValueError else Ret z) with
  | Ret a, Ret b => Q a b | Raise e, Raise e' => e' = e | Unfinished, Unfinished => True | _, _ => False end.
Proof. intros S1 S2 Q b1 b2 c1 c2 x z -> -> H. destruct b1, c1; cbn; auto. Qed.

Section Gradient.
  Context {Aux : Type}.
  Variables (n : nat) (U : list R -> list R) (lsolve : linop RN -> list R -> list R * results) (eps fmax : R).
  Hypothesis HU : isometry n U.
  Hypothesis Hls : blind_solver n U lsolve.
  Variables (P : ar_tols RN) (s : builtin_search RN) (d : builtin_descent RN).
  Hypothesis Hd : blind_descent n U d.
  Hypothesis HP : blind_test n 1 U (fun v => v) P.
  Variables (grad_of : (list R -> R * Aux) -> list R -> list R) (fn fn' : list R -> R * Aux).
  Hypothesis HF : forall y, length y = n -> fn' (U y) = fn y.
  Hypothesis HG : forall y, length y = n -> length (grad_of fn y) = n /\ grad_of fn' (U y) = U (grad_of fn y).

  Lemma id_iso : forall k, isometry k (fun v => v).
  Proof. intro k. repeat split; auto. intros a Ha. exists a. auto. Qed.

  Let irel1 := irel n 1 U (fun v => v).
  Let drel1 := drel n 1 U (fun v => v) lsolve eps fmax.
  Let D := descent_of lsolve eps fmax d.
  Let sol := gradient_descent_solver (N:=RN) (Aux:=Aux) P (search_of s) D grad_of.

  Definition gd_rel (y : list R) (a b : gd_state (N:=RN) (Aux:=Aux) (search_of s) D) : Prop :=
    length y = n /\ gd_first_step b = gd_first_step a /\ length (gd_y_eval a) = n /\ gd_y_eval b = U (gd_y_eval a) /\
    gd_search_state b = gd_search_state a /\ irel1 (gd_f_info a) (gd_f_info b) /\ kind (gd_f_info a) = 1 /\ d_supports D (gd_f_info a) = true /\
    gd_aux b = gd_aux a /\ drel1 d (gd_descent_state a) (gd_descent_state b) /\ gd_terminate b = gd_terminate a /\ gd_result b = gd_result a.

  Lemma gd_rel_step : forall y a b, gd_rel y a b ->
    fst (fst (s_step sol fn' (U y) b)) = U (fst (fst (s_step sol fn y a))) /\ snd (s_step sol fn' (U y) b) = snd (s_step sol fn y a) /\
    gd_rel (fst (fst (s_step sol fn y a))) (snd (fst (s_step sol fn y a))) (snd (fst (s_step sol fn' (U y) b))).
  Proof.
    intros y a b (Hy & R1 & R2 & R3 & R4 & R5 & R6 & R7 & R8 & R9 & R10 & R11).
    cbn [s_step sol gradient_descent_solver]. unfold gd_step. rewrite R3, (HF _ R2).
    destruct (fn (gd_y_eval a)) as [fe xe] eqn:Ef. rewrite R1, R4, R8.
    rewrite (se_step_rel n 1 U (fun v => v) HU (id_iso 1) s (gd_first_step a) y (gd_y_eval a) (gd_f_info a) (gd_f_info b) (Eval fe) (Eval fe) _ Hy R2 R5 eq_refl).
    destruct (se_step (search_of s) (gd_first_step a) y (gd_y_eval a) (gd_f_info a) (Eval fe) (gd_search_state a)) as [[[t acc] sr] ss].
    destruct (irel_supports n 1 U (fun v => v) (id_iso 1) _ _ R5) as (_ & _ & _ & Hm).
    destruct (HG _ R2) as [G1 G2].
    destruct acc.
    - assert (He : irel1 (EvalGrad fe (grad_of fn (gd_y_eval a))) (EvalGrad fe (grad_of fn' (U (gd_y_eval a))))) by (cbn; auto).
      assert (Hsup : d_supports D (EvalGrad fe (grad_of fn (gd_y_eval a))) = true) by (rewrite <- R7; apply supports_kind; exact R6).
      pose proof (d_query_rel n 1 U (fun v => v) lsolve eps fmax HU (id_iso 1) Hls d _ _ _ _ _ Hd R2 He Hsup R9) as DQ.
      destruct (d_step_rel n 1 U (fun v => v) lsolve eps fmax HU (id_iso 1) Hls d t _ _ Hd DQ) as [D1 D2]. fold D in D1, D2, DQ. rewrite D2.
      destruct (d_step D t (d_query D (gd_y_eval a) _ _)) as [yd dr]. cbn [fst snd] in *.
      rewrite (U_sub n U HU) by assumption. rewrite Hm.
      pose proof (HP (gd_y_eval a) (vsub (N:=RN) (gd_y_eval a) y) [fe] [nsub (n:=RN) fe (as_min (gd_f_info a))] R2 (vsub_len n _ _ R2 Hy) eq_refl eq_refl) as C.
      match goal with |- context [cauchy_termination ?r ?q ?w (U ?y') ?a' ?b' ?c'] => change (cauchy_termination r q w (U y') a' b' c' = cauchy_termination (N:=RN) r q w y' (vsub (N:=RN) y' y) [fe] [nsub (n:=RN) fe (as_min (gd_f_info a))]) in C; rewrite C end.
      split; [reflexivity|]. split; [reflexivity|].
      rewrite (U_add n U HU) by assumption.
      unfold gd_rel. cbn -[irel drel vadd]. repeat (split; [first [assumption|reflexivity|exact He|exact DQ|apply (vadd_len n); assumption]|]). reflexivity.
    - destruct (d_step_rel n 1 U (fun v => v) lsolve eps fmax HU (id_iso 1) Hls d t _ _ Hd R9) as [D1 D2]. fold D in D1, D2. rewrite D2.
      destruct (d_step D t (gd_descent_state a)) as [yd dr]. cbn [fst snd] in *.
      split; [reflexivity|]. split; [reflexivity|].
      rewrite (U_add n U HU) by assumption.
      unfold gd_rel. cbn -[irel drel vadd]. repeat (split; [first [assumption|reflexivity|exact R9|apply (vadd_len n); assumption]|]). reflexivity.
  Qed.

  Lemma gd_same : forall fuel ms throw (y0 : list R) fs auxs, length y0 = n ->
    same_solve U (iterative_solve (vallfinite (N:=RN)) sol fn fuel ms throw y0 fs auxs) (iterative_solve (vallfinite (N:=RN)) sol fn' fuel ms throw (U y0) fs auxs).
  Proof.
    intros fuel ms throw y0 fs auxs Hy. apply (lockstep sol sol fn fn' (vallfinite (N:=RN)) U gd_rel).
    - intros. rewrite !allfinite_RN. reflexivity.
    - cbn [s_init sol gradient_descent_solver]. unfold gd_init. cbv zeta.
      assert (Hi : irel1 (EvalGrad (fs fill0) y0) (EvalGrad (fs fill0) (U y0))) by (cbn; auto).
      destruct (supports_rel n 1 U (fun v => v) lsolve eps fmax (id_iso 1) s d _ _ Hi) as [S1 S2]. fold D in S2.
      apply init_case; [exact S1|exact S2|intro Hsup].
      unfold gd_rel. cbn -[irel drel d_init d_supports se_init]. rewrite (se_init_rel s y0 (U y0) (EvalGrad (fs fill0) y0)).
      repeat (split; [first [assumption|reflexivity|exact Hi|apply d_init_rel; assumption]|]). reflexivity.
    - exact gd_rel_step.
    - intros y y' a b Hr. cbn. destruct Hr as (_ & _ & _ & _ & _ & _ & _ & _ & _ & _ & -> & ->). reflexivity.
    - reflexivity.
  Qed.

  (** quasi-Newton loops whose updates keep the two informations related *)
  Context {HSt : Type}.
  Variables (init : list R -> R -> list R -> finfo RN * HSt) (update : list R -> list R -> finfo RN -> R -> list R -> HSt -> finfo RN * HSt).
  Variables (HK : HSt -> HSt -> Prop) (kd : nat).
  (* what is held together: information and update state *)
  Variable HR : finfo RN -> HSt -> finfo RN -> HSt -> Prop.
  Hypothesis HRi : forall f a g b, HR f a g b -> irel1 f g /\ kind f = kd.
  Hypothesis Hinit : forall y f, length y = n ->
    HR (fst (init y f (zerov n))) (snd (init y f (zerov n))) (fst (init (U y) f (zerov n))) (snd (init (U y) f (zerov n))).
  Hypothesis Hupd : forall y ye i1 i2 f g a b, length y = n -> length ye = n -> length g = n -> HR i1 a i2 b ->
    HR (fst (update y ye i1 f g a)) (snd (update y ye i1 f g a)) (fst (update (U y) (U ye) i2 f (U g) b)) (snd (update (U y) (U ye) i2 f (U g) b)).
  Let qsol := quasi_newton_solver (N:=RN) (Aux:=Aux) P (search_of s) D grad_of init update.

  Definition qn_rel (y : list R) (a b : qn_state (N:=RN) (Aux:=Aux) (search_of s) D (HSt:=HSt)) : Prop :=
    length y = n /\ qn_first_step b = qn_first_step a /\ length (qn_y_eval a) = n /\ qn_y_eval b = U (qn_y_eval a) /\
    qn_search_state b = qn_search_state a /\ HR (qn_f_info a) (qn_hessian_update_state a) (qn_f_info b) (qn_hessian_update_state b) /\
    d_supports D (qn_f_info a) = true /\
    qn_aux b = qn_aux a /\ drel1 d (qn_descent_state a) (qn_descent_state b) /\ qn_terminate b = qn_terminate a /\ qn_result b = qn_result a.

  Lemma qn_rel_step : forall y a b, qn_rel y a b ->
    fst (fst (s_step qsol fn' (U y) b)) = U (fst (fst (s_step qsol fn y a))) /\ snd (s_step qsol fn' (U y) b) = snd (s_step qsol fn y a) /\
    qn_rel (fst (fst (s_step qsol fn y a))) (snd (fst (s_step qsol fn y a))) (snd (fst (s_step qsol fn' (U y) b))).
  Proof.
    intros y a b (Hy & R1 & R2 & R3 & R4 & R5 & R7 & R8 & R9 & R10 & R11). destruct (HRi _ _ _ _ R5) as [R5i R6].
    cbn [s_step qsol quasi_newton_solver]. unfold qn_step. rewrite R3, (HF _ R2).
    destruct (fn (qn_y_eval a)) as [fe xe] eqn:Ef. rewrite R1, R4, R8.
    rewrite (se_step_rel n 1 U (fun v => v) HU (id_iso 1) s (qn_first_step a) y (qn_y_eval a) (qn_f_info a) (qn_f_info b) (Eval fe) (Eval fe) _ Hy R2 R5i eq_refl).
    destruct (se_step (search_of s) (qn_first_step a) y (qn_y_eval a) (qn_f_info a) (Eval fe) (qn_search_state a)) as [[[t acc] sr] ss].
    destruct (irel_supports n 1 U (fun v => v) (id_iso 1) _ _ R5i) as (_ & _ & _ & Hm).
    destruct (HG _ R2) as [G1 G2].
    destruct acc.
    - pose proof (Hupd y (qn_y_eval a) _ _ fe (grad_of fn (qn_y_eval a)) _ _ Hy R2 G1 R5) as HN. rewrite <- G2 in HN.
      destruct (update y (qn_y_eval a) (qn_f_info a) fe (grad_of fn (qn_y_eval a)) (qn_hessian_update_state a)) as [i1 h1].
      destruct (update (U y) (U (qn_y_eval a)) (qn_f_info b) fe (grad_of fn' (U (qn_y_eval a))) (qn_hessian_update_state b)) as [i2 h2].
      cbn [fst snd] in HN. destruct (HRi _ _ _ _ HN) as [He Hk].
      assert (Hsup : d_supports D i1 = true) by (rewrite <- R7; apply supports_kind; congruence).
      pose proof (d_query_rel n 1 U (fun v => v) lsolve eps fmax HU (id_iso 1) Hls d _ _ _ _ _ Hd R2 He Hsup R9) as DQ.
      destruct (d_step_rel n 1 U (fun v => v) lsolve eps fmax HU (id_iso 1) Hls d t _ _ Hd DQ) as [D1 D2]. fold D in D1, D2, DQ. rewrite D2.
      destruct (d_step D t (d_query D (qn_y_eval a) _ _)) as [yd dr]. cbn [fst snd] in *.
      rewrite (U_sub n U HU) by assumption. rewrite Hm.
      pose proof (HP (qn_y_eval a) (vsub (N:=RN) (qn_y_eval a) y) [fe] [nsub (n:=RN) fe (as_min (qn_f_info a))] R2 (vsub_len n _ _ R2 Hy) eq_refl eq_refl) as C.
      match goal with |- context [cauchy_termination ?r ?q ?w (U ?y') ?a' ?b' ?c'] => change (cauchy_termination r q w (U y') a' b' c' = cauchy_termination (N:=RN) r q w y' (vsub (N:=RN) y' y) [fe] [nsub (n:=RN) fe (as_min (qn_f_info a))]) in C; rewrite C end.
      split; [reflexivity|]. split; [reflexivity|].
      rewrite (U_add n U HU) by assumption.
      unfold qn_rel. cbn -[irel drel vadd]. repeat (split; [first [assumption|reflexivity|exact HN|exact DQ|apply (vadd_len n); assumption]|]). reflexivity.
    - destruct (d_step_rel n 1 U (fun v => v) lsolve eps fmax HU (id_iso 1) Hls d t _ _ Hd R9) as [D1 D2]. fold D in D1, D2. rewrite D2.
      destruct (d_step D t (qn_descent_state a)) as [yd dr]. cbn [fst snd] in *.
      split; [reflexivity|]. split; [reflexivity|].
      rewrite (U_add n U HU) by assumption.
      unfold qn_rel. cbn -[irel drel vadd]. repeat (split; [first [assumption|reflexivity|exact R9|apply (vadd_len n); assumption]|]). reflexivity.
  Qed.

  Lemma qn_same : forall fuel ms throw (y0 : list R) fs auxs, length y0 = n ->
    same_solve U (iterative_solve (vallfinite (N:=RN)) qsol fn fuel ms throw y0 fs auxs) (iterative_solve (vallfinite (N:=RN)) qsol fn' fuel ms throw (U y0) fs auxs).
  Proof.
    intros fuel ms throw y0 fs auxs Hy. apply (lockstep qsol qsol fn fn' (vallfinite (N:=RN)) U qn_rel).
    - intros. rewrite !allfinite_RN. reflexivity.
    - cbn [s_init qsol quasi_newton_solver]. unfold qn_init. cbv zeta.
      pose proof (Hinit y0 (fs fill0) Hy) as HN.
      change (@length RN (U y0)) with (@length R (U y0)). change (@length RN y0) with (@length R y0). rewrite (U_len n U HU) by exact Hy. rewrite Hy, vfull0.
      destruct (init y0 (fs fill0) (zerov n)) as [i1 h1], (init (U y0) (fs fill0) (zerov n)) as [i2 h2]. cbn [fst snd] in HN.
      destruct (HRi _ _ _ _ HN) as [Hi Hk].
      destruct (supports_rel n 1 U (fun v => v) lsolve eps fmax (id_iso 1) s d _ _ Hi) as [S1 S2]. fold D in S2.
      apply init_case; [exact S1|exact S2|intro Hsup].
      unfold qn_rel. cbn -[irel drel d_init d_supports se_init]. rewrite (se_init_rel s y0 (U y0) i1).
      repeat (split; [first [assumption|reflexivity|exact HN|apply d_init_rel; assumption]|]). reflexivity.
    - exact qn_rel_step.
    - intros y y' a b Hr. cbn. destruct Hr as (_ & _ & _ & _ & _ & _ & _ & _ & _ & -> & ->). reflexivity.
    - reflexivity.
  Qed.
End Gradient.

Section Residuals.
  Context {Aux : Type}.
  Variables (n m : nat) (U V : list R -> list R) (lsolve : linop RN -> list R -> list R * results) (eps fmax : R).
  Hypothesis HU : isometry n U.
  Hypothesis HV : isometry m V.
  Hypothesis Hls : blind_solver n U lsolve.
  Variables (P : ar_tols RN) (s : builtin_search RN) (d : builtin_descent RN).
  Hypothesis Hd : blind_descent n U d.
  Hypothesis HP : blind_test n m U V P.
  Variables (jac_of : (list R -> list R * Aux) -> list R -> linop RN) (fn fn' : list R -> list R * Aux).
  Hypothesis HF : forall y, length y = n -> length (fst (fn y)) = m /\ fn' (U y) = (V (fst (fn y)), snd (fn y)).
  Hypothesis HJ : forall y, length y = n -> turned n m U V (jac_of fn y) (jac_of fn' (U y)).
  Let D := descent_of lsolve eps fmax d.
  Let sol := gauss_newton_solver (N:=RN) (Aux:=Aux) P (search_of s) D jac_of.

  Definition gn_rel (y : list R) (a b : gn_state (N:=RN) (Aux:=Aux) (search_of s) D) : Prop :=
    length y = n /\ gn_first_step b = gn_first_step a /\ length (gn_y_eval a) = n /\ gn_y_eval b = U (gn_y_eval a) /\
    gn_search_state b = gn_search_state a /\ irel n m U V (gn_f_info a) (gn_f_info b) /\ kind (gn_f_info a) = 5 /\ d_supports D (gn_f_info a) = true /\
    gn_aux b = gn_aux a /\ drel n m U V lsolve eps fmax d (gn_descent_state a) (gn_descent_state b) /\ gn_terminate b = gn_terminate a /\ gn_result b = gn_result a.

  Lemma gn_rel_step : forall y a b, gn_rel y a b ->
    fst (fst (s_step sol fn' (U y) b)) = U (fst (fst (s_step sol fn y a))) /\ snd (s_step sol fn' (U y) b) = snd (s_step sol fn y a) /\
    gn_rel (fst (fst (s_step sol fn y a))) (snd (fst (s_step sol fn y a))) (snd (fst (s_step sol fn' (U y) b))).
  Proof.
    intros y a b (Hy & R1 & R2 & R3 & R4 & R5 & R6 & R7 & R8 & R9 & R10 & R11).
    cbn [s_step sol gauss_newton_solver]. unfold gn_step. rewrite R3.
    destruct (HF _ R2) as [F1 F2]. rewrite F2. pose proof (HJ _ R2) as HT.
    destruct (fn (gn_y_eval a)) as [re xe] eqn:Ef. cbn [fst snd] in *. rewrite R1, R4, R8.
    set (e1 := ResidualJac re (jac_of fn (gn_y_eval a))). set (e2 := ResidualJac (V re) (jac_of fn' (U (gn_y_eval a)))).
    assert (He : irel n m U V e1 e2) by (cbn; auto).
    destruct (irel_supports n m U V HV _ _ He) as (_ & _ & _ & Hme).
    rewrite (se_step_rel n m U V HU HV s (gn_first_step a) y (gn_y_eval a) (gn_f_info a) (gn_f_info b) e1 e2 _ Hy R2 R5 Hme).
    destruct (se_step (search_of s) (gn_first_step a) y (gn_y_eval a) (gn_f_info a) e1 (gn_search_state a)) as [[[t acc] sr] ss].
    destruct acc.
    - assert (Hsup : d_supports D e1 = true) by (rewrite <- R7; apply supports_kind; exact R6).
      pose proof (d_query_rel n m U V lsolve eps fmax HU HV Hls d _ _ _ _ _ Hd R2 He Hsup R9) as DQ.
      destruct (d_step_rel n m U V lsolve eps fmax HU HV Hls d t _ _ Hd DQ) as [D1 D2]. fold D in D1, D2, DQ. rewrite D2.
      destruct (d_step D t (d_query D (gn_y_eval a) _ _)) as [yd dr]. cbn [fst snd] in *.
      assert (Hr : length (info_residual (gn_f_info a)) = m /\ info_residual (gn_f_info b) = V (info_residual (gn_f_info a))).
      { clear - R5 R6. destruct (gn_f_info a); try discriminate R6. destruct (gn_f_info b); try contradiction R5. cbn in *. split; apply R5. }
      destruct Hr as [Hr1 Hr2]. rewrite Hr2, (U_sub n U HU), (U_sub m V HV) by assumption.
      pose proof (HP (gn_y_eval a) (vsub (N:=RN) (gn_y_eval a) y) re (vsub (N:=RN) re (info_residual (gn_f_info a))) R2 (vsub_len n _ _ R2 Hy) F1 (vsub_len m _ _ F1 Hr1)) as C.
      match goal with |- context [cauchy_termination ?r ?q ?w (U ?y') ?a' ?b' ?c'] => change (cauchy_termination r q w (U y') a' b' c' = cauchy_termination (N:=RN) r q w y' (vsub (N:=RN) y' y) re (vsub (N:=RN) re (info_residual (gn_f_info a)))) in C; rewrite C end.
      split; [reflexivity|]. split; [reflexivity|].
      rewrite (U_add n U HU) by assumption.
      unfold gn_rel. cbn -[irel drel vadd]. repeat (split; [first [assumption|reflexivity|exact He|exact DQ|apply (vadd_len n); assumption]|]). reflexivity.
    - destruct (d_step_rel n m U V lsolve eps fmax HU HV Hls d t _ _ Hd R9) as [D1 D2]. fold D in D1, D2. rewrite D2.
      destruct (d_step D t (gn_descent_state a)) as [yd dr]. cbn [fst snd] in *.
      split; [reflexivity|]. split; [reflexivity|].
      rewrite (U_add n U HU) by assumption.
      unfold gn_rel. cbn -[irel drel vadd]. repeat (split; [first [assumption|reflexivity|exact R9|apply (vadd_len n); assumption]|]). reflexivity.
  Qed.

  Lemma gn_same : forall fuel ms throw (y0 : list R) fs fs' auxs, length y0 = n -> length (fs fill0) = m -> fs' fill0 = V (fs fill0) ->
    same_solve U (iterative_solve (vallfinite (N:=RN)) sol fn fuel ms throw y0 fs auxs) (iterative_solve (vallfinite (N:=RN)) sol fn' fuel ms throw (U y0) fs' auxs).
  Proof.
    intros fuel ms throw y0 fs fs' auxs Hy Hf Hf'. apply (lockstep sol sol fn fn' (vallfinite (N:=RN)) U gn_rel).
    - intros. rewrite !allfinite_RN. reflexivity.
    - cbn [s_init sol gauss_newton_solver]. unfold gn_init. cbv zeta. rewrite Hf'.
      set (f1 := ResidualJac (fs fill0) _). set (f2 := ResidualJac (V (fs fill0)) _).
      assert (Hi : irel n m U V f1 f2).
      { split; [exact Hf|]. split; [reflexivity|]. unfold zero_op. rewrite !vfull0.
        change (@length RN) with (@length R). rewrite (U_len m V HV), (U_len n U HU) by assumption. rewrite Hf, Hy.
        split; [split; [|split]|split; [|split]]; cbn [op_mv op_mvT]; intros.
        - apply zerov_length.
        - pose proof (Radd_v_0_r (zerov m)) as E. rewrite zerov_length in E. symmetry. exact E.
        - symmetry. apply Rscal_zerov.
        - apply zerov_length.
        - symmetry. apply (U_zero m V HV).
        - symmetry. apply (U_zero n U HU). }
      destruct (supports_rel n m U V lsolve eps fmax HV s d _ _ Hi) as [S1 S2]. fold D in S2.
      apply init_case; [exact S1|exact S2|intro Hsup].
      unfold gn_rel. cbn -[irel drel d_init d_supports se_init f1 f2]. rewrite (se_init_rel s y0 (U y0) f1).
      repeat (split; [first [assumption|reflexivity|exact Hi|apply d_init_rel; assumption]|]). reflexivity.
    - exact gn_rel_step.
    - intros y y' a b Hr. cbn. destruct Hr as (_ & _ & _ & _ & _ & _ & _ & _ & _ & _ & -> & ->). reflexivity.
    - reflexivity.
  Qed.
End Residuals.

(** ** Quasi-Newton updates in the new coordinates *)

Section Updates.
  Variables (n : nat) (U : list R -> list R).
  Hypothesis HU : isometry n U.

  Definition mrel (P Q : list (list R)) : Prop :=
    mat n n P /\ mat n n Q /\ forall v, length v = n -> mvec Q (U v) = U (mvec P v).

  Lemma mrel_turned : forall P Q, mrel P Q -> turned n n U U (MatOp (N:=RN) n P) (MatOp (N:=RN) n Q).
  Proof.
    intros P Q (HP & HQ & HM). split; [apply mat_linear; exact HP|]. split; [intros; rewrite (op_mvT_RN n) by exact HP; apply tmvec_length|]. split.
    - intros v Hv. rewrite !op_mv_RN. apply HM. exact Hv.
    - intros w Hw. rewrite !(op_mvT_RN n) by assumption. pose proof HU as (u1 & u2 & u3 & u4 & u5).
      apply (Rdot_ext n); [apply tmvec_length|apply u1, tmvec_length|]. intros z Hz. destruct (u5 z Hz) as (x & Hx & <-).
      rewrite (tmvec_adjoint n) by assumption. rewrite HM by exact Hx. rewrite u4 by (assumption || (eapply mvec_len; eauto)).
      rewrite <- (tmvec_adjoint n n) by assumption. symmetry. apply u4; [apply tmvec_length|exact Hx].
  Qed.
  Lemma mrel_id : mrel (identity_mat (N:=RN) n) (identity_mat (N:=RN) n).
  Proof.
    pose proof (identity_spd n) as (HM & _). split; [exact HM|]. split; [exact HM|]. intros v Hv.
    rewrite !identity_mv; auto. apply HU. exact Hv.
  Qed.
  Lemma mrel_add : forall A B A' B', mrel A A' -> mrel B B' -> mrel (madd (N:=RN) A B) (madd (N:=RN) A' B').
  Proof.
    intros A B A' B' (a1 & a2 & a3) (b1 & b2 & b3). split; [apply madd_mat; assumption|]. split; [apply madd_mat; assumption|].
    intros v Hv. rewrite !(madd_mv n n) by assumption. rewrite a3, b3 by exact Hv. symmetry. apply HU; eapply mvec_len; eauto.
  Qed.
  Lemma mrel_sub : forall A B A' B', mrel A A' -> mrel B B' -> mrel (msub (N:=RN) A B) (msub (N:=RN) A' B').
  Proof.
    intros A B A' B' (a1 & a2 & a3) (b1 & b2 & b3). split; [apply msub_mat; assumption|]. split; [apply msub_mat; assumption|].
    intros v Hv. rewrite !(msub_mv n n) by assumption. rewrite a3, b3 by exact Hv. rewrite <- !vsub_RN. apply (U_sub n U HU); eapply mvec_len; eauto.
  Qed.
  Lemma mrel_map : forall c A A', mrel A A' -> mrel (map (Rscal c) A) (map (Rscal c) A').
  Proof.
    intros c A A' (a1 & a2 & a3). split; [apply mapscal_mat; assumption|]. split; [apply mapscal_mat; assumption|].
    intros v Hv. rewrite !mapscal_mv, a3 by exact Hv. symmetry. apply HU. eapply mvec_len; eauto.
  Qed.
  Lemma mrel_divs : forall c A A', mrel A A' -> mrel (mdivs (N:=RN) A c) (mdivs (N:=RN) A' c).
  Proof. intros. rewrite !mdivs_eq. apply mrel_map. assumption. Qed.
  Lemma mrel_scale : forall c A A', mrel A A' -> mrel (mscale (N:=RN) c A) (mscale (N:=RN) c A').
  Proof. intros. rewrite !mscale_eq. apply mrel_map. assumption. Qed.
  Lemma mrel_outer : forall a b : list R, length a = n -> length b = n -> mrel (outer (N:=RN) a b) (outer (N:=RN) (U a) (U b)).
  Proof.
    intros a b Ha Hb. pose proof HU as (u1 & u2 & u3 & u4 & u5). split; [apply outer_mat; assumption|]. split; [apply outer_mat; auto|].
    intros v Hv. rewrite !outer_mv, u4, u3 by assumption. reflexivity.
  Qed.
  Lemma mrel_mv : forall P Q (v : list R), mrel P Q -> length v = n -> length (mat_mv (N:=RN) P v) = n /\ mat_mv (N:=RN) Q (U v) = U (mat_mv (N:=RN) P v).
  Proof. intros P Q v (a1 & a2 & a3) Hv. rewrite !mat_mv_RN. split; [eapply mvec_len; eauto|apply a3; exact Hv]. Qed.

  Lemma bfgs_inverse_rel : forall c (g s : list R) P Q, length g = n -> length s = n -> mrel P Q ->
    mrel (bfgs_inverse (N:=RN) c g s P) (bfgs_inverse (N:=RN) c (U g) (U s) Q).
  Proof.
    intros c g s P Q Hg Hs H. destruct (mrel_mv P Q g H Hg) as [L E]. unfold bfgs_inverse. rewrite E, (U_dot n U HU) by assumption.
    apply mrel_sub; [apply mrel_add; [exact H|]|]; apply mrel_divs; [apply mrel_scale|apply mrel_add]; apply mrel_outer; assumption.
  Qed.
  Lemma bfgs_direct_rel : forall c (g s : list R) P Q, length g = n -> length s = n -> mrel P Q ->
    mrel (bfgs_direct (N:=RN) c g s P) (bfgs_direct (N:=RN) c (U g) (U s) Q).
  Proof.
    intros c g s P Q Hg Hs H. destruct (mrel_mv P Q s H Hs) as [L E]. unfold bfgs_direct. rewrite E, (U_dot n U HU) by assumption.
    apply mrel_sub; [apply mrel_add; [exact H|]|]; apply mrel_divs; apply mrel_outer; assumption.
  Qed.
  Lemma dfp_inverse_rel : forall c (g s : list R) P Q, length g = n -> length s = n -> mrel P Q ->
    mrel (dfp_inverse (N:=RN) c g s P) (dfp_inverse (N:=RN) c (U g) (U s) Q).
  Proof.
    intros c g s P Q Hg Hs H. destruct (mrel_mv P Q g H Hg) as [L E]. unfold dfp_inverse. rewrite E, (U_dot n U HU) by assumption.
    apply mrel_sub; [apply mrel_add; [exact H|]|]; apply mrel_divs; apply mrel_outer; assumption.
  Qed.
  Lemma dfp_direct_rel : forall c (g s : list R) P Q, length g = n -> length s = n -> mrel P Q ->
    mrel (dfp_direct (N:=RN) c g s P) (dfp_direct (N:=RN) c (U g) (U s) Q).
  Proof.
    intros c g s P Q Hg Hs H. destruct (mrel_mv P Q s H Hs) as [L E]. unfold dfp_direct. rewrite E, (U_dot n U HU) by assumption.
    apply mrel_sub; [apply mrel_add; [exact H|]|]; apply mrel_divs; [apply mrel_scale|apply mrel_add]; apply mrel_outer; assumption.
  Qed.

  Definition held (ui : bool) (a : R) (g : list R) (A : linop RN) : finfo RN :=
    if ui then EvalGradHessianInv (N:=RN) a g A else EvalGradHessian (N:=RN) a g A.
  Definition qrel (ui : bool) (f : finfo RN) (a : unit) (g : finfo RN) (b : unit) : Prop :=
    exists v gr P Q, f = held ui v gr (MatOp n P) /\ g = held ui v (U gr) (MatOp n Q) /\ length gr = n /\ mrel P Q.
  Lemma qrel_irel : forall ui f a g b, qrel ui f a g b -> irel n 1 U (fun v => v) f g /\ kind f = if ui then 3 else 2.
  Proof.
    intros [] f a g b (v & gr & P & Q & -> & -> & L & H); (split; [|reflexivity]); cbn -[turned op_mv]; repeat (split; [auto; fail|]).
    - intros x Hx. destruct H as (a1 & a2 & a3). rewrite !op_mv_RN. split; [eapply mvec_len; eauto|apply a3; exact Hx].
    - split; [apply mrel_turned; exact H|]. destruct H as (a1 & a2 & a3). auto.
  Qed.
  Lemma qn_init_rel : forall ui y f, length y = n ->
    qrel ui (fst (qn_init_hessian (N:=RN) ui y f (zerov n))) tt (fst (qn_init_hessian (N:=RN) ui (U y) f (zerov n))) tt.
  Proof.
    intros ui y f Hy. exists f, (zerov n), (identity_mat (N:=RN) n), (identity_mat (N:=RN) n). unfold qn_init_hessian.
    assert (Ly : @length RN y = n) by exact Hy. assert (Ly' : @length RN (U y) = n) by (exact (U_len n U HU y Hy)).
    rewrite Ly, Ly', (U_zero n U HU).
    split; [destruct ui; reflexivity|]. split; [destruct ui; reflexivity|]. split; [apply zerov_length|apply mrel_id].
  Qed.
  Lemma held_parts : forall ui v gr Q, info_grad (held ui v gr (MatOp n Q)) = gr /\ info_matrix (held ui v gr (MatOp n Q)) = Q.
  Proof. intros []; split; reflexivity. Qed.
  Lemma qn_update_rel : forall (dfp ui : bool) eps (y ye : list R) i1 i2 f (g : list R) a b, length y = n -> length ye = n -> length g = n -> qrel ui i1 a i2 b ->
    let up := if dfp then dfp_update (N:=RN) eps ui else bfgs_update (N:=RN) eps ui in
    qrel ui (fst (up y ye i1 f g a)) (snd (up y ye i1 f g a)) (fst (up (U y) (U ye) i2 f (U g) b)) (snd (up (U y) (U ye) i2 f (U g) b)).
  Proof.
    intros dfp ui eps y ye i1 i2 f g a b Hy He Hg (v & gr & P & Q & -> & -> & L & H). cbv zeta.
    destruct (held_parts ui v gr P) as [E1 E2], (held_parts ui v (U gr) Q) as [E3 E4].
    pose proof (vsub_len n _ _ He Hy) as Ls. pose proof (vsub_len n _ _ Hg L) as Lg.
    assert (Ly : @length RN y = n) by exact Hy. assert (Ly' : @length RN (U y) = n) by (exact (U_len n U HU y Hy)).
    destruct dfp, ui; unfold dfp_update, bfgs_update; rewrite E1, E2, E3, E4; cbv zeta; rewrite !(U_sub n U HU) by assumption; rewrite !(U_dot n U HU) by assumption;
      rewrite ?Ly, ?Ly'; eexists f, g, _, _; (split; [reflexivity|]); (split; [reflexivity|]); (split; [exact Hg|]); (destruct (nltb _ _); [|exact H]);
      [apply dfp_inverse_rel|apply dfp_direct_rel|apply bfgs_inverse_rel|apply bfgs_direct_rel]; assumption.
  Qed.
End Updates.

(** ** L-BFGS in the new coordinates *)

Lemma slot_bound : forall h i, 0 < h -> slot h i < h.
Proof. intros h i Hh. unfold slot. assert (0 < Z.of_nat h)%Z by lia. pose proof (Z.mod_pos_bound i (Z.of_nat h) H). lia. Qed.

Lemma scal_add_v : forall g (p q : list R), Rscal g (Radd_v p q) = Radd_v (Rscal g p) (Rscal g q).
Proof. intros g p. induction p as [|a p IH]; intros [|b q]; cbn; try reflexivity. f_equal; [ring|apply IH]. Qed.
Lemma lin4 : forall n g (x z e1 e2 e3 e4 : list R), length x = n -> length z = n -> length e1 = n -> length e2 = n -> length e3 = n -> length e4 = n ->
  vsub (N:=RN) (vsub (N:=RN) (Rscal g (Radd_v x z)) (Radd_v e1 e2)) (Rscal g (Radd_v e3 e4)) =
  Radd_v (vsub (N:=RN) (vsub (N:=RN) (Rscal g x) e1) (Rscal g e3)) (vsub (N:=RN) (vsub (N:=RN) (Rscal g z) e2) (Rscal g e4)).
Proof.
  intros n g x. revert n. induction x as [|a x IH]; intros n [|b z] [|c1 e1] [|c2 e2] [|c3 e3] [|c4 e4] H1 H2 H3 H4 H5 H6; cbn in *; subst n; try discriminate; [reflexivity|].
  f_equal; [ring|]. apply (IH (length x)); auto.
Qed.
Lemma lin2 : forall n g c (x e1 e3 : list R), length x = n -> length e1 = n -> length e3 = n ->
  vsub (N:=RN) (vsub (N:=RN) (Rscal g (Rscal c x)) (Rscal c e1)) (Rscal g (Rscal c e3)) = Rscal c (vsub (N:=RN) (vsub (N:=RN) (Rscal g x) e1) (Rscal g e3)).
Proof.
  intros n g c x. revert n. induction x as [|a x IH]; intros n [|c1 e1] [|c3 e3] H1 H3 H5; cbn in *; subst n; try discriminate; [reflexivity|].
  f_equal; [ring|]. apply (IH (length x)); auto.
Qed.

Section Limited.
  Variables (n h : nat) (U : list R -> list R).
  Hypothesis HU : isometry n U.
  Hypothesis Hh : 0 < h.

  Definition hist (l : list (list R)) : Prop := length l = h /\ Forall (fun v => length v = n) l.
  Lemma hist_nth : forall l i, hist l -> i < h -> length (nth i l []) = n /\ nth i (map U l) [] = U (nth i l []).
  Proof.
    intros l i [L F] Hi. assert (Hi' : i < length l) by lia. split.
    - rewrite Forall_forall in F. apply F. apply nth_In. exact Hi'.
    - rewrite (nth_indep _ [] (U [])) by (rewrite map_length; exact Hi'). apply map_nth.
  Qed.
  Lemma map_set_at : forall i v l, map U (set_at i v l) = set_at i (U v) (map U l).
  Proof. intros i v l. revert i. induction l as [|x l IH]; intros [|i]; cbn; auto. f_equal. apply IH. Qed.
  Lemma hist_set : forall i (v : list R) l, hist l -> length v = n -> hist (set_at i v l).
  Proof. intros i v l [L F] Hv. split; [rewrite set_at_length; exact L|apply set_at_Forall; assumption]. Qed.
  Lemma hist_zero : hist (repeat (zerov n) h) /\ map U (repeat (zerov n) h) = repeat (zerov n) h.
  Proof.
    split; [split; [apply repeat_length|apply Forall_forall; intros x Hx; apply repeat_spec in Hx; subst; apply zerov_length]|].
    clear Hh. induction h as [|k IH]; [reflexivity|]. cbn [repeat map]. rewrite (U_zero n U HU), IH. reflexivity.
  Qed.
  Lemma hist_mv : forall l (v : list R), hist l -> length v = n -> mat_mv (N:=RN) (map U l) (U v) = mat_mv (N:=RN) l v.
  Proof.
    intros l v [_ F] Hv. unfold mat_mv. rewrite map_map. apply map_ext_in. intros x Hx. rewrite Forall_forall in F.
    apply (U_dot n U HU); [apply F; exact Hx|exact Hv].
  Qed.

  (** the inverse operator *)
  Definition inv_turn (st : inv_state RN) : inv_state RN :=
    mkInv (N:=RN) (li_index st) (map U (li_y_diff st)) (map U (li_grad_diff st)) (li_inner st).
  Lemma backward_turn : forall st (x : list R) i, hist (li_y_diff st) -> hist (li_grad_diff st) -> length x = n -> i < h ->
    length (fst (backward_iter (N:=RN) st x i)) = n /\
    backward_iter (N:=RN) (inv_turn st) (U x) i = (U (fst (backward_iter (N:=RN) st x i)), snd (backward_iter (N:=RN) st x i)).
  Proof.
    intros st x i H1 H2 Hx Hi. destruct (hist_nth _ i H1 Hi) as [L1 E1]. destruct (hist_nth _ i H2 Hi) as [L2 E2].
    unfold backward_iter, inv_turn. cbn [li_y_diff li_grad_diff li_inner fst snd].
    assert (E1' : @nth (list RN) i (map U (li_y_diff st)) [] = U (@nth (list RN) i (li_y_diff st) [])) by exact E1.
    assert (E2' : @nth (list RN) i (map U (li_grad_diff st)) [] = U (@nth (list RN) i (li_grad_diff st) [])) by exact E2.
    rewrite E1', E2'. rewrite (U_dot n U HU) by assumption. rewrite (U_scale n U HU) by exact L2.
    split; [apply vsub_len; [exact Hx|apply vscale_len; exact L2]|]. rewrite (U_sub n U HU); [reflexivity|exact Hx|apply vscale_len; exact L2].
  Qed.
  Lemma scan_turn : forall st idx (x : list R), hist (li_y_diff st) -> hist (li_grad_diff st) -> Forall (fun i => i < h) idx -> length x = n ->
    length (fst (scan_reverse (backward_iter (N:=RN) st) x idx)) = n /\
    scan_reverse (backward_iter (N:=RN) (inv_turn st)) (U x) idx =
      (U (fst (scan_reverse (backward_iter (N:=RN) st) x idx)), snd (scan_reverse (backward_iter (N:=RN) st) x idx)).
  Proof.
    intros st idx x H1 H2 F Hx. induction F as [|i idx Hi F IH]; cbn [scan_reverse]; [auto|].
    destruct IH as [L E]. rewrite E. destruct (scan_reverse (backward_iter (N:=RN) st) x idx) as [c ys]. cbn [fst snd] in *.
    destruct (backward_turn st c i H1 H2 L Hi) as [L' E']. rewrite E'. destruct (backward_iter (N:=RN) st c i) as [c' a]. auto.
  Qed.
  Lemma circ_turn : forall st : inv_state RN, Forall (fun i => i < h) (circ_index (N:=RN) h st).
  Proof. intro st. unfold circ_index. apply Forall_forall. intros i Hi. apply in_map_iff in Hi. destruct Hi as (j & <- & _). apply slot_bound. exact Hh. Qed.
  Lemma forward_turn : forall st al (x : list R) i, hist (li_y_diff st) -> hist (li_grad_diff st) -> length x = n -> i < h ->
    length (forward_iter (N:=RN) h st al x i) = n /\ forward_iter (N:=RN) h (inv_turn st) al (U x) i = U (forward_iter (N:=RN) h st al x i).
  Proof.
    intros st al x i H1 H2 Hx Hi. unfold forward_iter. change (circ_index h (inv_turn st)) with (circ_index (N:=RN) h st).
    assert (Hj : nth i (circ_index (N:=RN) h st) 0 < h).
    { pose proof (circ_turn st) as F. rewrite Forall_forall in F. apply F. apply nth_In. unfold circ_index. rewrite map_length, seq_length. exact Hi. }
    set (j := nth i (circ_index (N:=RN) h st) 0) in *.
    destruct (hist_nth _ j H1 Hj) as [L1 E1]. destruct (hist_nth _ j H2 Hj) as [L2 E2].
    unfold inv_turn. cbn [li_y_diff li_grad_diff li_inner].
    assert (E1' : @nth (list RN) j (map U (li_y_diff st)) [] = U (@nth (list RN) j (li_y_diff st) [])) by exact E1.
    assert (E2' : @nth (list RN) j (map U (li_grad_diff st)) [] = U (@nth (list RN) j (li_grad_diff st) [])) by exact E2.
    rewrite E1', E2'. rewrite (U_dot n U HU) by assumption.
    set (c := nsub (n:=RN) _ _). set (yd := @nth (list RN) j (li_y_diff st) []) in *.
    assert (Em : @map RN RN (fun x : RN => nmul x c) (U yd) = U (@map RN RN (fun x : RN => nmul x c) yd)).
    { apply (U_map n U HU _ c); [|exact L1]. intro z. change (z * c = c * z)%R. ring. }
    rewrite Em. split; [apply vadd_len; [exact Hx|rewrite map_length; exact L1]|].
    apply (U_add n U HU); [exact Hx|rewrite map_length; exact L1].
  Qed.
  Lemma fold_turn : forall st al idx (x : list R), hist (li_y_diff st) -> hist (li_grad_diff st) -> Forall (fun i => i < h) idx -> length x = n ->
    length (fold_left (forward_iter (N:=RN) h st al) idx x) = n /\
    fold_left (forward_iter (N:=RN) h (inv_turn st) al) idx (U x) = U (fold_left (forward_iter (N:=RN) h st al) idx x).
  Proof.
    intros st al idx x H1 H2 F. revert x. induction F as [|i idx Hi F IH]; intros x Hx; cbn [fold_left]; [auto|].
    destruct (forward_turn st al x i H1 H2 Hx Hi) as [L E]. rewrite E. apply IH. exact L.
  Qed.
  Lemma gamma_turn : forall st, hist (li_y_diff st) -> hist (li_grad_diff st) -> inverse_gamma (N:=RN) h (inv_turn st) = inverse_gamma (N:=RN) h st.
  Proof.
    intros st H1 H2. unfold inverse_gamma. cbn [inv_turn li_index li_y_diff li_grad_diff].
    pose proof (slot_bound h (li_index st - 1) Hh) as Hj. set (j := slot h (li_index st - 1)) in *.
    destruct (hist_nth _ j H1 Hj) as [L1 E1]. destruct (hist_nth _ j H2 Hj) as [L2 E2].
    assert (E1' : @nth (list RN) j (map U (li_y_diff st)) [] = U (@nth (list RN) j (li_y_diff st) [])) by exact E1.
    assert (E2' : @nth (list RN) j (map U (li_grad_diff st)) [] = U (@nth (list RN) j (li_grad_diff st) [])) by exact E2.
    rewrite E1', E2'. rewrite !(U_dot n U HU) by assumption. reflexivity.
  Qed.
  Lemma inverse_turn : forall st (x : list R), hist (li_y_diff st) -> hist (li_grad_diff st) -> length x = n ->
    length (inverse_operator (N:=RN) h st x) = n /\ inverse_operator (N:=RN) h (inv_turn st) (U x) = U (inverse_operator (N:=RN) h st x).
  Proof.
    intros st x H1 H2 Hx. unfold inverse_operator. change (circ_index h (inv_turn st)) with (circ_index (N:=RN) h st).
    destruct (scan_turn st (circ_index (N:=RN) h st) x H1 H2 (circ_turn st) Hx) as [L E]. rewrite E.
    destruct (scan_reverse (backward_iter (N:=RN) st) x _) as [c al]. cbn [fst snd] in *.
    rewrite gamma_turn by assumption. rewrite (U_scale n U HU) by exact L.
    apply fold_turn; auto; [|apply vscale_len; exact L]. apply Forall_forall. intros i Hi. apply in_seq in Hi. lia.
  Qed.

  (** the direct operator *)
  Definition dir_turn (st : dir_state RN) : dir_state RN :=
    mkDir (N:=RN) (ld_index st) (map U (ld_y_diff st)) (map U (ld_grad_diff st)) (ld_cross st) (ld_inner st) (ld_gram st).
  Lemma dgamma_turn : forall st, hist (ld_y_diff st) -> hist (ld_grad_diff st) -> direct_gamma (N:=RN) h (dir_turn st) = direct_gamma (N:=RN) h st.
  Proof.
    intros st H1 H2. unfold direct_gamma. cbn [dir_turn ld_index ld_y_diff ld_grad_diff].
    pose proof (slot_bound h (ld_index st - 1) Hh) as Hj. set (j := slot h (ld_index st - 1)) in *.
    destruct (hist_nth _ j H1 Hj) as [L1 E1]. destruct (hist_nth _ j H2 Hj) as [L2 E2].
    assert (E1' : @nth (list RN) j (map U (ld_y_diff st)) [] = U (@nth (list RN) j (ld_y_diff st) [])) by exact E1.
    assert (E2' : @nth (list RN) j (map U (ld_grad_diff st)) [] = U (@nth (list RN) j (ld_grad_diff st) [])) by exact E2.
    rewrite E1', E2'. rewrite !(U_dot n U HU) by assumption. reflexivity.
  Qed.
  Lemma low_turn : forall st, hist (ld_y_diff st) -> hist (ld_grad_diff st) -> low_tri (N:=RN) h (dir_turn st) = low_tri (N:=RN) h st.
  Proof. intros st H1 H2. unfold low_tri, J_factor, J_square. rewrite dgamma_turn by assumption. reflexivity. Qed.
  Lemma einsum_turn : forall p l, Forall (fun v : list R => length v = n) l ->
    length (einsum (N:=RN) n p l) = n /\ einsum (N:=RN) n p (map U l) = U (einsum (N:=RN) n p l).
  Proof.
    intros p l F. revert p. induction F as [|v l Hv F IH]; intros [|a p]; unfold einsum in *; cbn [vmap2 fold_right map];
      try (rewrite vfull0; split; [apply zerov_length|symmetry; apply (U_zero n U HU)]).
    destruct (IH p) as [L E]. split; [apply vadd_len; [apply vscale_len; exact Hv|exact L]|].
    rewrite E, (U_scale n U HU) by exact Hv. apply (U_add n U HU); [apply vscale_len; exact Hv|exact L].
  Qed.
  Lemma direct_turn : forall st (x : list R), hist (ld_y_diff st) -> hist (ld_grad_diff st) -> length x = n ->
    length (direct_operator (N:=RN) h st x) = n /\ direct_operator (N:=RN) h (dir_turn st) (U x) = U (direct_operator (N:=RN) h st x).
  Proof.
    intros st x H1 H2 Hx. unfold direct_operator, upper_tri. rewrite dgamma_turn, low_turn by assumption. cbn [dir_turn ld_y_diff ld_grad_diff]. cbv zeta.
    pose proof (hist_mv _ x H1 Hx) as M1. pose proof (hist_mv _ x H2 Hx) as M2.
    assert (M1' : mat_mv (N:=RN) (@map (list R) (list R) U (ld_y_diff st)) (U x) = mat_mv (N:=RN) (ld_y_diff st) x) by exact M1.
    assert (M2' : mat_mv (N:=RN) (@map (list R) (list R) U (ld_grad_diff st)) (U x) = mat_mv (N:=RN) (ld_grad_diff st) x) by exact M2.
    rewrite M1', M2'. assert (Lx : @length RN x = n) by exact Hx. assert (Lx' : @length RN (U x) = n) by (exact (U_len n U HU x Hx)).
    rewrite Lx, Lx'. set (z := solve_upper _ _).
    destruct (einsum_turn (firstn h z) _ (proj2 H2)) as [L3 E3]. destruct (einsum_turn (skipn h z) _ (proj2 H1)) as [L4 E4].
    assert (E3' : einsum (N:=RN) n (firstn h z) (@map (list R) (list R) U (ld_grad_diff st)) = U (einsum (N:=RN) n (firstn h z) (ld_grad_diff st))) by exact E3.
    assert (E4' : einsum (N:=RN) n (skipn h z) (@map (list R) (list R) U (ld_y_diff st)) = U (einsum (N:=RN) n (skipn h z) (ld_y_diff st))) by exact E4.
    rewrite E3', E4'. pose proof (vscale_len n (direct_gamma (N:=RN) h st) x Hx) as La. pose proof (vscale_len n (direct_gamma (N:=RN) h st) _ L4) as Lb.
    pose proof (vsub_len n _ _ La L3) as Lc. split; [apply vsub_len; assumption|].
    rewrite !(U_scale n U HU) by assumption. rewrite (U_sub n U HU) by assumption. apply (U_sub n U HU); assumption.
  Qed.


  (** the direct operator is linear *)
  Lemma add_app : forall a b c e : list R, length a = length b -> Radd_v (a ++ c) (b ++ e) = Radd_v a b ++ Radd_v c e.
  Proof. induction a as [|x a IH]; intros [|z b] c e H; cbn; try reflexivity; try discriminate. f_equal. apply IH. injection H; auto. Qed.
  Lemma add_skipn : forall k (a b : list R), skipn k (Radd_v a b) = Radd_v (skipn k a) (skipn k b).
  Proof.
    induction k as [|k IH]; intros a b; [reflexivity|]. destruct a as [|x a], b as [|z b]; cbn; try reflexivity; [|apply IH]. destruct (skipn k a); reflexivity.
  Qed.
  Lemma add_firstn : forall k (a b : list R), firstn k (Radd_v a b) = Radd_v (firstn k a) (firstn k b).
  Proof. induction k as [|k IH]; intros [|x a] [|z b]; cbn; try reflexivity. f_equal. apply IH. Qed.
  Lemma lower_add : forall A (b1 b2 a1 a2 : list R), length b1 = length b2 -> length a1 = length a2 ->
    solve_lower_from (N:=RN) (Radd_v a1 a2) A (Radd_v b1 b2) = Radd_v (solve_lower_from (N:=RN) a1 A b1) (solve_lower_from (N:=RN) a2 A b2) /\
    length (solve_lower_from (N:=RN) a1 A b1) = length (solve_lower_from (N:=RN) a2 A b2).
  Proof.
    induction A as [|row A IH]; intros b1 b2 a1 a2 Hb Ha; [split; [reflexivity|exact Ha]|].
    destruct b1 as [|x b1], b2 as [|z b2]; try discriminate Hb; [split; [reflexivity|exact Ha]|].
    assert (Hb' : length b1 = length b2) by (injection Hb; auto).
    assert (La : length (Radd_v a1 a2) = length a1) by (apply Radd_v_length; auto).
    change (Radd_v (x :: b1) (z :: b2)) with ((x + z)%R :: Radd_v b1 b2). cbn [solve_lower_from].
    change (@length RN (Radd_v a1 a2)) with (@length R (Radd_v a1 a2)). change (@length RN a1) with (@length R a1). change (@length RN a2) with (@length R a2).
    rewrite La, <- Ha.
    match goal with |- solve_lower_from (?p ++ [?u]) A _ = Radd_v (solve_lower_from (_ ++ [?v]) A _) (solve_lower_from (_ ++ [?w]) A _) /\ _ =>
      assert (E : @app RN p (@cons RN u nil) = Radd_v (@app RN a1 (@cons RN v nil)) (@app RN a2 (@cons RN w nil))) end.
    { etransitivity; [|symmetry; apply add_app; exact Ha]. apply (f_equal (fun t : R => Radd_v a1 a2 ++ [t])). rewrite !vdot_RN, Rdot_add_r by exact Ha. cbn. unfold Rdiv. ring. }
    rewrite E. apply IH; [exact Hb'|]. rewrite !app_length. cbn [length]. change (@length RN a1 + 1 = @length RN a2 + 1). f_equal. exact Ha.
  Qed.
  Lemma lower_scal : forall A c (b a : list R),
    solve_lower_from (N:=RN) (Rscal c a) A (Rscal c b) = Rscal c (solve_lower_from (N:=RN) a A b).
  Proof.
    induction A as [|row A IH]; intros c b a; [reflexivity|]. destruct b as [|x b]; [reflexivity|].
    change (Rscal c (x :: b)) with ((c * x)%R :: Rscal c b). cbn [solve_lower_from].
    change (@length RN (Rscal c a)) with (@length R (Rscal c a)). rewrite Rscal_length. change (@length RN a) with (@length R a).
    rewrite <- IH. f_equal. unfold Rscal. rewrite map_app. f_equal. cbn [map]. f_equal. fold (Rscal c a). rewrite !vdot_RN, Rdot_scal_r. cbn. unfold Rdiv. ring.
  Qed.
  Lemma upper_add : forall A i (b1 b2 : list R), length b1 = length b2 ->
    solve_upper_from (N:=RN) i A (Radd_v b1 b2) = Radd_v (solve_upper_from (N:=RN) i A b1) (solve_upper_from (N:=RN) i A b2) /\
    length (solve_upper_from (N:=RN) i A b1) = length (solve_upper_from (N:=RN) i A b2).
  Proof.
    induction A as [|row A IH]; intros i b1 b2 Hb; [split; reflexivity|].
    destruct b1 as [|x b1], b2 as [|z b2]; try discriminate Hb; [split; reflexivity|].
    assert (Hb' : length b1 = length b2) by (injection Hb; auto). destruct (IH (S i) b1 b2 Hb') as [E L].
    change (Radd_v (x :: b1) (z :: b2)) with ((x + z)%R :: Radd_v b1 b2). cbn [solve_upper_from]. rewrite E.
    split; [|cbn [length]; f_equal; exact L].
    match goal with |- _ = Radd_v (?u :: ?p) (?v :: ?q) => change (Radd_v (u :: p) (v :: q)) with ((u + v)%R :: Radd_v p q) end.
    f_equal. rewrite !vdot_RN, Rdot_add_r by exact L. cbn. unfold Rdiv. ring.
  Qed.
  Lemma upper_scal : forall A i c (b : list R), solve_upper_from (N:=RN) i A (Rscal c b) = Rscal c (solve_upper_from (N:=RN) i A b).
  Proof.
    induction A as [|row A IH]; intros i c b; [reflexivity|]. destruct b as [|x b]; [reflexivity|].
    change (Rscal c (x :: b)) with ((c * x)%R :: Rscal c b). cbn [solve_upper_from]. rewrite IH.
    match goal with |- _ = Rscal c (?u :: ?p) => change (Rscal c (u :: p)) with ((c * u)%R :: Rscal c p) end.
    f_equal. rewrite !vdot_RN, Rdot_scal_r. cbn. unfold Rdiv. ring.
  Qed.
  Lemma tri_add : forall L M (u v : list R), length u = length v ->
    solve_upper (N:=RN) L (solve_lower (N:=RN) M (Radd_v u v)) = Radd_v (solve_upper (N:=RN) L (solve_lower (N:=RN) M u)) (solve_upper (N:=RN) L (solve_lower (N:=RN) M v)) /\
    length (solve_upper (N:=RN) L (solve_lower (N:=RN) M u)) = length (solve_upper (N:=RN) L (solve_lower (N:=RN) M v)).
  Proof.
    intros L M u v H. destruct (lower_add M u v [] [] H eq_refl) as [E2 L2]. destruct (upper_add L 0 _ _ L2) as [E3 L3].
    split; [|exact L3]. exact (eq_trans (f_equal (solve_upper (N:=RN) L) E2) E3).
  Qed.
  Lemma tri_scal : forall L M c (u : list R),
    solve_upper (N:=RN) L (solve_lower (N:=RN) M (Rscal c u)) = Rscal c (solve_upper (N:=RN) L (solve_lower (N:=RN) M u)).
  Proof. intros L M c u. exact (eq_trans (f_equal (solve_upper (N:=RN) L) (lower_scal M c u [])) (upper_scal L 0 c _)). Qed.
  Lemma einsum_len : forall l p, Forall (fun v : list R => length v = n) l -> length (einsum (N:=RN) n p l) = n.
  Proof. intros l p F. apply (einsum_turn p l F). Qed.
  Lemma einsum_add : forall l (p q : list R), Forall (fun v : list R => length v = n) l -> length p = length q ->
    einsum (N:=RN) n (Radd_v p q) l = Radd_v (einsum (N:=RN) n p l) (einsum (N:=RN) n q l).
  Proof.
    assert (Z : vfull (N:=RN) n (nofQ 0) = Radd_v (vfull (N:=RN) n (nofQ 0)) (vfull (N:=RN) n (nofQ 0))).
    { rewrite vfull0. pose proof (Radd_v_0_r (zerov n)) as E. rewrite zerov_length in E. symmetry. exact E. }
    induction l as [|v l IH]; intros [|a p] [|b q] F H; try discriminate H; try exact Z.
    pose proof (Forall_inv F) as Hv; pose proof (Forall_inv_tail F) as F'; cbv beta in Hv. assert (H' : length p = length q) by (injection H; auto).
    pose proof (IH p q F' H') as E. pose proof (einsum_len l p F') as L1. pose proof (einsum_len l q F') as L2.
    change (einsum (N:=RN) n (Radd_v (a :: p) (b :: q)) (v :: l)) with (vadd (N:=RN) (vscale (N:=RN) (a + b)%R v) (einsum (N:=RN) n (Radd_v p q) l)).
    change (einsum (N:=RN) n (a :: p) (v :: l)) with (vadd (N:=RN) (vscale (N:=RN) a v) (einsum (N:=RN) n p l)).
    change (einsum (N:=RN) n (b :: q) (v :: l)) with (vadd (N:=RN) (vscale (N:=RN) b v) (einsum (N:=RN) n q l)).
    rewrite E. revert L1 L2. generalize (einsum (N:=RN) n p l) (einsum (N:=RN) n q l). rewrite <- Hv. clear.
    change (forall l0 l1 : list R, length l0 = length v -> length l1 = length v -> vadd (N:=RN) (vscale (N:=RN) (a + b)%R v) (Radd_v l0 l1) = Radd_v (vadd (N:=RN) (vscale (N:=RN) a v) l0) (vadd (N:=RN) (vscale (N:=RN) b v) l1)).
    induction v as [|x v IH]; intros [|y1 l0] [|y2 l1] L1 L2; try discriminate; [reflexivity|].
    cbn. f_equal; [ring|]. apply IH; [injection L1|injection L2]; auto.
  Qed.
  Lemma einsum_scal : forall l c (p : list R), Forall (fun v : list R => length v = n) l ->
    einsum (N:=RN) n (Rscal c p) l = Rscal c (einsum (N:=RN) n p l).
  Proof.
    assert (Z : forall c, vfull (N:=RN) n (nofQ 0) = Rscal c (vfull (N:=RN) n (nofQ 0))) by (intro c; rewrite vfull0; symmetry; apply Rscal_zerov).
    induction l as [|v l IH]; intros c [|a p] F; try exact (Z c).
    pose proof (Forall_inv F) as Hv; pose proof (Forall_inv_tail F) as F'; cbv beta in Hv. pose proof (IH c p F') as E. pose proof (einsum_len l p F') as L1.
    change (einsum (N:=RN) n (Rscal c (a :: p)) (v :: l)) with (vadd (N:=RN) (vscale (N:=RN) (c * a)%R v) (einsum (N:=RN) n (Rscal c p) l)).
    change (einsum (N:=RN) n (a :: p) (v :: l)) with (vadd (N:=RN) (vscale (N:=RN) a v) (einsum (N:=RN) n p l)).
    rewrite E. revert L1. generalize (einsum (N:=RN) n p l). rewrite <- Hv. clear.
    change (forall l0 : list R, length l0 = length v -> vadd (N:=RN) (vscale (N:=RN) (c * a)%R v) (Rscal c l0) = Rscal c (vadd (N:=RN) (vscale (N:=RN) a v) l0)).
    induction v as [|x v IH]; intros [|y1 l0] L1; try discriminate; [reflexivity|].
    cbn. f_equal; [ring|]. apply IH; injection L1; auto.
  Qed.
  Lemma direct_linear : forall st, hist (ld_y_diff st) -> hist (ld_grad_diff st) ->
    linear_op n n (FunOp (N:=RN) (direct_operator (N:=RN) h st) (direct_operator (N:=RN) h st)).
  Proof.
    intros st H1 H2. cbn [linear_op op_mv]. split; [intros x Hx; apply direct_turn; assumption|].
    assert (MVA : forall l (x z : list R), hist l -> length x = n -> length z = n -> mat_mv (N:=RN) l (Radd_v x z) = Radd_v (mat_mv (N:=RN) l x) (mat_mv (N:=RN) l z)).
    { intros l x z [Ll F] Hx Hz. rewrite !mat_mv_RN. apply (mvec_add l h n); [split; assumption|exact Hx|exact Hz]. }
    assert (MVS : forall l c (x : list R), mat_mv (N:=RN) l (Rscal c x) = Rscal c (mat_mv (N:=RN) l x)).
    { intros l c x. rewrite !mat_mv_RN. apply mvec_scal. }
    assert (MVL : forall l (x : list R), hist l -> length (mat_mv (N:=RN) l x) = h).
    { intros l x [Ll _]. unfold mat_mv. rewrite map_length. exact Ll. }
    split.
    - intros x z Hx Hz. cbn [op_mv]. unfold direct_operator. set (g := direct_gamma (N:=RN) h st). cbv zeta.
      assert (Lxz : @length RN (Radd_v x z) = n) by (apply (Radd_v_length x z n); assumption).
      assert (Lx : @length RN x = n) by exact Hx. assert (Lz : @length RN z = n) by exact Hz. rewrite Lxz, Lx, Lz.
      rewrite !MVA by assumption. change (@vscale RN) with Rscal.
      set (p1 := mat_mv (N:=RN) (ld_grad_diff st) x). set (p2 := mat_mv (N:=RN) (ld_grad_diff st) z).
      set (q1 := mat_mv (N:=RN) (ld_y_diff st) x). set (q2 := mat_mv (N:=RN) (ld_y_diff st) z).
      assert (Lp : length p1 = length p2) by (exact (eq_trans (MVL _ _ H2) (eq_sym (MVL _ _ H2)))).
      assert (Lq : length q1 = length q2) by (exact (eq_trans (MVL _ _ H1) (eq_sym (MVL _ _ H1)))).
      assert (E1 : Radd_v p1 p2 ++ Rscal g (Radd_v q1 q2) = Radd_v (p1 ++ Rscal g q1) (p2 ++ Rscal g q2)).
      { rewrite add_app by exact Lp. f_equal. apply scal_add_v. }
      assert (E1' : @app RN (Radd_v p1 p2) (Rscal g (Radd_v q1 q2)) = Radd_v (p1 ++ Rscal g q1) (p2 ++ Rscal g q2)) by exact E1.
      assert (LL : length (p1 ++ Rscal g q1) = length (p2 ++ Rscal g q2)).
      { rewrite !app_length, !Rscal_length. rewrite Lp. f_equal. exact Lq. }
      destruct (tri_add (upper_tri (N:=RN) h st) (low_tri (N:=RN) h st) _ _ LL) as [E2 L3].
      assert (E2' : solve_upper (N:=RN) (upper_tri (N:=RN) h st) (solve_lower (N:=RN) (low_tri (N:=RN) h st) (@app RN (Radd_v p1 p2) (Rscal g (Radd_v q1 q2)))) =
        Radd_v (solve_upper (N:=RN) (upper_tri (N:=RN) h st) (solve_lower (N:=RN) (low_tri (N:=RN) h st) (@app RN p1 (Rscal g q1))))
               (solve_upper (N:=RN) (upper_tri (N:=RN) h st) (solve_lower (N:=RN) (low_tri (N:=RN) h st) (@app RN p2 (Rscal g q2)))))
        by exact (eq_trans (f_equal (fun v => solve_upper (N:=RN) (upper_tri (N:=RN) h st) (solve_lower (N:=RN) (low_tri (N:=RN) h st) v)) E1') E2).
      rewrite E2'.
      set (w1 := solve_upper (N:=RN) (upper_tri (N:=RN) h st) (solve_lower (N:=RN) (low_tri (N:=RN) h st) (@app RN p1 (Rscal g q1)))) in *.
      set (w2 := solve_upper (N:=RN) (upper_tri (N:=RN) h st) (solve_lower (N:=RN) (low_tri (N:=RN) h st) (@app RN p2 (Rscal g q2)))) in *.
      assert (L3' : length w1 = length w2) by exact L3.
      assert (F1 : @firstn RN h (Radd_v w1 w2) = Radd_v (firstn h w1) (firstn h w2)) by apply add_firstn.
      assert (F2 : @skipn RN h (Radd_v w1 w2) = Radd_v (skipn h w1) (skipn h w2)) by apply add_skipn.
      rewrite F1, F2. rewrite !einsum_add by (apply H1 || apply H2 || (rewrite !firstn_length; f_equal; exact L3') || (rewrite !skipn_length; f_equal; exact L3')).
      pose proof (einsum_len _ (firstn h w1) (proj2 H2)) as l1. pose proof (einsum_len _ (firstn h w2) (proj2 H2)) as l2.
      pose proof (einsum_len _ (skipn h w1) (proj2 H1)) as l3. pose proof (einsum_len _ (skipn h w2) (proj2 H1)) as l4.
      exact (lin4 n g x z _ _ _ _ Hx Hz l1 l2 l3 l4).
    - intros c x Hx. cbn [op_mv]. unfold direct_operator. set (g := direct_gamma (N:=RN) h st). cbv zeta.
      assert (Lcx : @length RN (Rscal c x) = n) by (rewrite <- Hx; apply (Rscal_length c x)).
      assert (Lx : @length RN x = n) by exact Hx. rewrite Lcx, Lx.
      rewrite !MVS. change (@vscale RN) with Rscal.
      set (p1 := mat_mv (N:=RN) (ld_grad_diff st) x). set (q1 := mat_mv (N:=RN) (ld_y_diff st) x).
      assert (E1 : @app RN (Rscal c p1) (Rscal g (Rscal c q1)) = Rscal c (p1 ++ Rscal g q1)).
      { unfold Rscal. rewrite map_app, !map_map. f_equal. apply map_ext. intro u. ring. }
      assert (E2' : solve_upper (N:=RN) (upper_tri (N:=RN) h st) (solve_lower (N:=RN) (low_tri (N:=RN) h st) (@app RN (Rscal c p1) (Rscal g (Rscal c q1)))) =
        Rscal c (solve_upper (N:=RN) (upper_tri (N:=RN) h st) (solve_lower (N:=RN) (low_tri (N:=RN) h st) (@app RN p1 (Rscal g q1)))))
        by exact (eq_trans (f_equal (fun v => solve_upper (N:=RN) (upper_tri (N:=RN) h st) (solve_lower (N:=RN) (low_tri (N:=RN) h st) v)) E1) (tri_scal _ _ _ _)).
      rewrite E2'.
      set (w1 := solve_upper (N:=RN) (upper_tri (N:=RN) h st) (solve_lower (N:=RN) (low_tri (N:=RN) h st) (@app RN p1 (Rscal g q1)))) in *.
      assert (F1 : @firstn RN h (Rscal c w1) = Rscal c (firstn h w1)) by apply firstn_map.
      assert (F2 : @skipn RN h (Rscal c w1) = Rscal c (skipn h w1)) by apply skipn_map.
      rewrite F1, F2. rewrite !einsum_scal by (apply H1 || apply H2).
      pose proof (einsum_len _ (firstn h w1) (proj2 H2)) as l1. pose proof (einsum_len _ (skipn h w1) (proj2 H1)) as l3.
      exact (lin2 n g c x _ _ Hx l1 l3).
  Qed.

  (** information and update state held together *)
  Definition st_turn (st : lbfgs_state RN) : lbfgs_state RN := match st with LInv s => LInv (inv_turn s) | LDir s => LDir (dir_turn s) end.
  Definition st_ok (ui : bool) (st : lbfgs_state RN) : Prop :=
    match st with LInv s => ui = true /\ hist (li_y_diff s) /\ hist (li_grad_diff s) | LDir s => ui = false /\ hist (ld_y_diff s) /\ hist (ld_grad_diff s) end.
  Definition lrel (ui : bool) (f : finfo RN) (a : lbfgs_state RN) (g : finfo RN) (b : lbfgs_state RN) : Prop :=
    exists v gr, f = held ui v gr (lbfgs_operator (N:=RN) h a) /\ g = held ui v (U gr) (lbfgs_operator (N:=RN) h b) /\ length gr = n /\ st_ok ui a /\ b = st_turn a.
  Lemma lrel_irel : forall ui f a g b, lrel ui f a g b -> irel n 1 U (fun v => v) f g /\ kind f = if ui then 3 else 2.
  Proof.
    intros ui f a g b (v & gr & -> & -> & L & HO & ->). split; [|destruct ui; reflexivity].
    destruct a as [s|s]; destruct HO as (-> & O1 & O2); cbn [held irel]; repeat (split; [auto; fail|]); cbn [st_turn lbfgs_operator].
    - intros x Hx. cbn [op_mv]. apply inverse_turn; assumption.
    - split; [|exact I]. split; [apply direct_linear; assumption|]. cbn [op_mv op_mvT].
      split; [intros w Hw; apply direct_turn; assumption|]. split; intros w Hw; apply direct_turn; assumption.
  Qed.
  Lemma lbfgs_init_rel : forall ui (y : list R) f, length y = n ->
    lrel ui (fst (lbfgs_init (N:=RN) h ui y f (zerov n))) (snd (lbfgs_init (N:=RN) h ui y f (zerov n)))
      (fst (lbfgs_init (N:=RN) h ui (U y) f (zerov n))) (snd (lbfgs_init (N:=RN) h ui (U y) f (zerov n))).
  Proof.
    intros ui y f Hy. unfold lbfgs_init. rewrite !vfull0.
    assert (Ly : @length RN y = n) by exact Hy. assert (Ly' : @length RN (U y) = n) by (exact (U_len n U HU y Hy)). rewrite Ly, Ly'.
    destruct hist_zero as [Z1 Z2].
    exists f, (zerov n). destruct ui; cbn [fst snd held st_ok]; rewrite (U_zero n U HU); (split; [reflexivity|]); (split; [reflexivity|]); (split; [apply zerov_length|]);
      (split; [auto|]); cbn [st_turn]; unfold inv_turn, dir_turn; cbn [li_index li_y_diff li_grad_diff li_inner ld_index ld_y_diff ld_grad_diff ld_cross ld_inner ld_gram];
      f_equal; f_equal; symmetry; exact Z2.
  Qed.
  Lemma lheld_parts : forall ui v gr A, info_grad (held ui v gr A) = gr /\ info_op (held ui v gr A) = A.
  Proof. intros []; split; reflexivity. Qed.
  Lemma lbfgs_update_rel : forall ui eps (y ye : list R) i1 i2 f (g : list R) a b, length y = n -> length ye = n -> length g = n -> lrel ui i1 a i2 b ->
    let up := lbfgs_update (N:=RN) eps h ui in
    lrel ui (fst (up y ye i1 f g a)) (snd (up y ye i1 f g a)) (fst (up (U y) (U ye) i2 f (U g) b)) (snd (up (U y) (U ye) i2 f (U g) b)).
  Proof.
    intros ui eps y ye i1 i2 f g a b Hy He Hg (v & gr & -> & -> & L & HO & ->). cbv zeta.
    destruct (lheld_parts ui v gr (lbfgs_operator (N:=RN) h a)) as [E1 E2], (lheld_parts ui v (U gr) (lbfgs_operator (N:=RN) h (st_turn a))) as [E3 E4].
    pose proof (vsub_len n _ _ He Hy) as Ls. pose proof (vsub_len n _ _ Hg L) as Lg.
    unfold lbfgs_update. rewrite E1, E2, E3, E4. cbv zeta. rewrite !(U_sub n U HU) by assumption. rewrite !(U_dot n U HU) by assumption.
    set (yd := vsub (N:=RN) ye y) in *. set (gd := vsub (N:=RN) g gr) in *. set (ip := vdot (N:=RN) yd gd).
    exists f, g. destruct (nltb (n:=RN) eps ip) eqn:En.
    - cbn [fst snd]. split; [destruct ui; reflexivity|]. split; [destruct ui; reflexivity|]. split; [exact Hg|].
      destruct a as [s|s]; destruct HO as (-> & O1 & O2); cbn [st_turn st_ok].
      + split; [split; [reflexivity|]; split; apply hist_set; assumption|]. unfold inv_update, inv_turn. cbn [li_index li_y_diff li_grad_diff li_inner].
        f_equal. f_equal; symmetry; apply map_set_at.
      + split; [split; [reflexivity|]; split; apply hist_set; assumption|]. unfold dir_update, dir_turn. cbn [ld_index ld_y_diff ld_grad_diff ld_cross ld_inner ld_gram].
        set (i := slot h (ld_index s)). assert (Hi : i < h) by (apply slot_bound; exact Hh).
        pose proof (hist_set i yd _ O1 Ls) as O1'. pose proof (hist_set i gd _ O2 Lg) as O2'.
        assert (A1 : @set_at (list RN) i (U yd) (@map (list R) (list R) U (ld_y_diff s)) = map U (@set_at (list RN) i yd (ld_y_diff s))) by (symmetry; apply map_set_at).
        assert (A2 : @set_at (list RN) i (U gd) (@map (list R) (list R) U (ld_grad_diff s)) = map U (@set_at (list RN) i gd (ld_grad_diff s))) by (symmetry; apply map_set_at).
        destruct (hist_nth _ i O1' Hi) as [B1 B2]. destruct (hist_nth _ i O2' Hi) as [B3 B4].
        assert (B2' : @nth (list RN) i (@map (list R) (list R) U (@set_at (list RN) i yd (ld_y_diff s))) [] = U (@nth (list RN) i (@set_at (list RN) i yd (ld_y_diff s)) [])) by exact B2.
        assert (B4' : @nth (list RN) i (@map (list R) (list R) U (@set_at (list RN) i gd (ld_grad_diff s))) [] = U (@nth (list RN) i (@set_at (list RN) i gd (ld_grad_diff s)) [])) by exact B4.
        assert (M1 : mat_mv (N:=RN) (@map (list R) (list R) U (ld_grad_diff s)) (U yd) = mat_mv (N:=RN) (ld_grad_diff s) yd) by (apply (hist_mv _ yd O2 Ls)).
        assert (M2 : mat_mv (N:=RN) (@map (list R) (list R) U (@set_at (list RN) i yd (ld_y_diff s))) (U (@nth (list RN) i (@set_at (list RN) i yd (ld_y_diff s)) [])) =
                     mat_mv (N:=RN) (@set_at (list RN) i yd (ld_y_diff s)) (@nth (list RN) i (@set_at (list RN) i yd (ld_y_diff s)) [])) by (apply (hist_mv _ _ O1' B1)).
        rewrite A1, A2, B2', B4', M1, M2. rewrite (U_dot n U HU) by assumption. reflexivity.
    - cbn [fst snd]. split; [destruct ui; reflexivity|]. split; [destruct ui; reflexivity|]. auto.
  Qed.
End Limited.

(** ** The claims *)

(** Gradient descent, NonlinearCG and every other AbstractGradientDescent solve. *)
Lemma C105_gradient_pf : forall (Aux : Type) (n : nat) (U : list R -> list R) (lsolve : linop RN -> list R -> list R * results) (eps fmax : R)
    (P : ar_tols RN) (s : builtin_search RN) (d : builtin_descent RN)
    (grad_of : (list R -> R * Aux) -> list R -> list R) (fn fn' : list R -> R * Aux) fuel ms throw (y0 : list R) fs auxs,
  isometry n U -> blind_solver n U lsolve -> blind_descent n U d -> blind_test n 1 U (fun v => v) P ->
  (forall y, length y = n -> fn' (U y) = fn y) ->
  (forall y, length y = n -> length (grad_of fn y) = n /\ grad_of fn' (U y) = U (grad_of fn y)) ->
  length y0 = n ->
  let solver := gradient_descent_solver P (search_of s) (descent_of lsolve eps fmax d) grad_of in
  same_solve U (iterative_solve (vallfinite (N:=RN)) solver fn fuel ms throw y0 fs auxs)
               (iterative_solve (vallfinite (N:=RN)) solver fn' fuel ms throw (U y0) fs auxs).
Proof. intros. apply gd_same with (n := n); assumption. Qed.

(** BFGS and DFP, either form, with every built-in search and descent. *)
Lemma C105_quasi_newton_pf : forall (Aux : Type) (n : nat) (U : list R -> list R) (lsolve : linop RN -> list R -> list R * results) (eps fmax : R)
    (P : ar_tols RN) (s : builtin_search RN) (d : builtin_descent RN)
    (grad_of : (list R -> R * Aux) -> list R -> list R) (fn fn' : list R -> R * Aux) (dfp use_inverse : bool) (tiny : R) fuel ms throw (y0 : list R) fs auxs,
  isometry n U -> blind_solver n U lsolve -> blind_descent n U d -> blind_test n 1 U (fun v => v) P ->
  (forall y, length y = n -> fn' (U y) = fn y) ->
  (forall y, length y = n -> length (grad_of fn y) = n /\ grad_of fn' (U y) = U (grad_of fn y)) ->
  length y0 = n ->
  let solver := quasi_newton_solver P (search_of s) (descent_of lsolve eps fmax d) grad_of (qn_init_hessian (N:=RN) use_inverse)
                  (if dfp then dfp_update (N:=RN) tiny use_inverse else bfgs_update (N:=RN) tiny use_inverse) in
  same_solve U (iterative_solve (vallfinite (N:=RN)) solver fn fuel ms throw y0 fs auxs)
               (iterative_solve (vallfinite (N:=RN)) solver fn' fuel ms throw (U y0) fs auxs).
Proof.
  intros. apply qn_same with (n := n) (HR := qrel n U use_inverse) (kd := if use_inverse then 3 else 2); try assumption.
  - intros. exact (qrel_irel n U H use_inverse f a g b H6).
  - intros y f Hy. pose proof (qn_init_rel n U H use_inverse y f Hy) as Q.
    destruct (snd (qn_init_hessian (N:=RN) use_inverse y f (zerov n))), (snd (qn_init_hessian (N:=RN) use_inverse (U y) f (zerov n))). exact Q.
  - intros. apply (qn_update_rel n U); assumption.
Qed.

(** LBFGS, either form, with every built-in search and descent. *)
Lemma C105_lbfgs_pf : forall (Aux : Type) (n : nat) (U : list R -> list R) (lsolve : linop RN -> list R -> list R * results) (eps fmax : R)
    (P : ar_tols RN) (s : builtin_search RN) (d : builtin_descent RN)
    (grad_of : (list R -> R * Aux) -> list R -> list R) (fn fn' : list R -> R * Aux) (history : nat) (use_inverse : bool) (tiny : R) fuel ms throw (y0 : list R) fs auxs,
  isometry n U -> blind_solver n U lsolve -> blind_descent n U d -> blind_test n 1 U (fun v => v) P ->
  (forall y, length y = n -> fn' (U y) = fn y) ->
  (forall y, length y = n -> length (grad_of fn y) = n /\ grad_of fn' (U y) = U (grad_of fn y)) ->
  length y0 = n -> (0 < history)%nat ->
  let solver := quasi_newton_solver P (search_of s) (descent_of lsolve eps fmax d) grad_of (lbfgs_init (N:=RN) history use_inverse)
                  (lbfgs_update (N:=RN) tiny history use_inverse) in
  same_solve U (iterative_solve (vallfinite (N:=RN)) solver fn fuel ms throw y0 fs auxs)
               (iterative_solve (vallfinite (N:=RN)) solver fn' fuel ms throw (U y0) fs auxs).
Proof.
  intros. apply qn_same with (n := n) (HR := lrel n history U use_inverse) (kd := if use_inverse then 3 else 2); try assumption.
  - intros. exact (lrel_irel n history U H H6 use_inverse f a g b H7).
  - intros y f Hy. apply (lbfgs_init_rel n history U); assumption.
  - intros. apply (lbfgs_update_rel n history U); assumption.
Qed.

(** GaussNewton, LevenbergMarquardt, Dogleg and every other AbstractGaussNewton solve. *)
Lemma C105_least_squares_pf : forall (Aux : Type) (n m : nat) (U V : list R -> list R) (lsolve : linop RN -> list R -> list R * results) (eps fmax : R)
    (P : ar_tols RN) (s : builtin_search RN) (d : builtin_descent RN)
    (jac_of : (list R -> list R * Aux) -> list R -> linop RN) (fn fn' : list R -> list R * Aux) fuel ms throw (y0 : list R) fs fs' auxs,
  isometry n U -> isometry m V -> blind_solver n U lsolve -> blind_descent n U d -> blind_test n m U V P ->
  (forall y, length y = n -> length (fst (fn y)) = m /\ fn' (U y) = (V (fst (fn y)), snd (fn y))) ->
  (forall y, length y = n -> turned n m U V (jac_of fn y) (jac_of fn' (U y))) ->
  length y0 = n -> length (fs fill0) = m -> fs' fill0 = V (fs fill0) ->
  let solver := gauss_newton_solver P (search_of s) (descent_of lsolve eps fmax d) jac_of in
  same_solve U (iterative_solve (vallfinite (N:=RN)) solver fn fuel ms throw y0 fs auxs)
               (iterative_solve (vallfinite (N:=RN)) solver fn' fuel ms throw (U y0) fs' auxs).
Proof. intros. apply gn_same with (n := n) (m := m) (V := V); assumption. Qed.

(** The four nonlinear CG formulas. *)
Lemma C105_methods_pf : forall n U (eps : R), isometry n U ->
  blind_method n U (polak_ribiere (N:=RN) eps) /\ blind_method n U (fletcher_reeves (N:=RN) eps) /\
  blind_method n U (hestenes_stiefel (N:=RN) eps) /\ blind_method n U (dai_yuan (N:=RN) eps).
Proof.
  intros n U eps HU. repeat split; intros g p d Hg Hp Hd; pose proof (vsub_len n _ _ Hg Hp) as Ls;
    unfold polak_ribiere, fletcher_reeves, hestenes_stiefel, dai_yuan; cbv zeta;
    rewrite ?(U_sub n U HU) by assumption; rewrite ?(U_sq n U HU) by assumption; rewrite ?(U_dot n U HU) by assumption; reflexivity.
Qed.

(** *** Renamings *)
Lemma Rmax_norm_nonneg : forall v : list R, (0 <= Rmax_norm v)%R.
Proof. destruct v; cbn; [lra|]. eapply Rle_trans; [apply Rabs_pos|apply Rmax_l]. Qed.
Lemma Rmax_norm_ge : forall (v : list R) x, In x v -> (Rabs x <= Rmax_norm v)%R.
Proof. induction v as [|z v IH]; intros x []; cbn; [subst; apply Rmax_l|]. eapply Rle_trans; [apply IH; assumption|apply Rmax_r]. Qed.
Lemma Rmax_norm_le_of : forall (v : list R) b, (0 <= b)%R -> (forall x, In x v -> (Rabs x <= b)%R) -> (Rmax_norm v <= b)%R.
Proof. induction v as [|z v IH]; intros b Hb H; cbn; [exact Hb|]. apply Rmax_lub; [apply H; left; reflexivity|]. apply IH; [exact Hb|]. intros; apply H; right; assumption. Qed.
Lemma nth_add : forall i (a b : list R), length a = length b -> nth i (Radd_v a b) 0%R = (nth i a 0 + nth i b 0)%R.
Proof. induction i as [|i IH]; intros [|x a] [|z b] H; cbn; try discriminate; try ring. apply IH. injection H; auto. Qed.
Lemma nth_scal : forall i c (a : list R), nth i (Rscal c a) 0%R = (c * nth i a 0)%R.
Proof. induction i as [|i IH]; intros c [|x a]; cbn; try ring. apply IH. Qed.
Definition sumf (f : nat -> R) (l : list nat) : R := fold_right (fun i acc => (f i + acc)%R) 0%R l.
Lemma sumf_perm : forall f l l', Permutation l l' -> sumf f l = sumf f l'.
Proof. intros f l l' P. induction P; cbn [sumf fold_right]; try reflexivity; [f_equal; exact IHP|ring|congruence]. Qed.
Lemma sumf_seq : forall (a b : list R) k, length a = length b ->
  sumf (fun i => (nth (i - k) a 0 * nth (i - k) b 0)%R) (seq k (length a)) = Rdot a b.
Proof.
  induction a as [|x a IH]; intros [|z b] k H; cbn; try discriminate; [reflexivity|]. rewrite Nat.sub_diag. f_equal.
  rewrite <- (IH b (S k)) by (injection H; auto). clear. generalize (length a) as m. intro m.
  assert (G : forall l, (forall i, In i l -> S k <= i) -> sumf (fun i => (nth (i - k) (x :: a) 0 * nth (i - k) (z :: b) 0)%R) l = sumf (fun i => (nth (i - S k) a 0 * nth (i - S k) b 0)%R) l).
  { induction l as [|i l IHl]; intros Hl; [reflexivity|]. cbn [sumf fold_right]. f_equal; [|apply IHl; intros; apply Hl; right; assumption].
    assert (Hi : S k <= i) by (apply Hl; left; reflexivity). replace (i - k) with (S (i - S k)) by lia. reflexivity. }
  apply G. intros i Hi. apply in_seq in Hi. lia.
Qed.
Lemma rename_dot : forall w (a b : list R), Rdot (rename w a) (rename w b) = sumf (fun i => (nth i a 0 * nth i b 0)%R) (map snd w).
Proof. induction w as [|[fl i] w IH]; intros a b; cbn; [reflexivity|]. f_equal; [destruct fl; cbn; ring|apply IH]. Qed.
Fixpoint look (i : nat) (w : list (bool * nat)) (a : list R) : R :=
  match w, a with
  | (fl, j) :: w', x :: a' => if Nat.eqb j i then (if fl then - x else x)%R else look i w' a'
  | _, _ => 0%R
  end.
Lemma look_back : forall w a, NoDup (map snd w) -> length a = length w ->
  map (fun e : bool * nat => if fst e then (- look (snd e) w a)%R else look (snd e) w a) w = a.
Proof.
  induction w as [|[fl j] w IH]; intros [|x a] ND L; try discriminate; [reflexivity|]. cbn [map fst snd]. cbn [map snd] in ND. inversion ND; subst. f_equal.
  - cbn [look]. rewrite Nat.eqb_refl. destruct fl; ring.
  - transitivity (map (fun e : bool * nat => if fst e then (- look (snd e) w a)%R else look (snd e) w a) w); [|apply IH; [assumption|injection L; auto]].
    apply map_ext_in. intros [fl' i] Hin. cbn [fst snd look]. destruct (Nat.eqb_spec j i); [|reflexivity].
    subst. exfalso. apply H1. apply in_map_iff. exists (fl', i). auto.
Qed.
Lemma renaming_length : forall n w, renaming n w -> length w = n.
Proof. intros n w H. apply Permutation_length in H. rewrite map_length, seq_length in H. exact H. Qed.
Lemma rename_isometry : forall n w, renaming n w -> isometry n (rename w).
Proof.
  intros n w H. pose proof (renaming_length n w H) as L. repeat split.
  - intros a Ha. unfold rename. rewrite map_length. exact L.
  - intros a b Ha Hb. unfold rename. clear H L. induction w as [|[fl i] w IH]; [reflexivity|]. cbn [map fst snd Radd_v]. f_equal; [|exact IH].
    rewrite nth_add by congruence. destruct fl; ring.
  - intros c a Ha. unfold rename, Rscal. rewrite map_map. apply map_ext. intros [fl i]. cbn [fst snd]. pose proof (nth_scal i c a) as E. unfold Rscal in E. rewrite E. destruct fl; ring.
  - intros a b Ha Hb. rewrite rename_dot. rewrite (sumf_perm _ _ _ H). rewrite <- (sumf_seq a b 0) by congruence. rewrite Ha.
    assert (G : forall l, sumf (fun i => (nth i a 0 * nth i b 0)%R) l = sumf (fun i => (nth (i - 0) a 0 * nth (i - 0) b 0)%R) l).
    { induction l as [|i l IHl]; [reflexivity|]. cbn [sumf fold_right]. rewrite Nat.sub_0_r. f_equal. exact IHl. }
    apply G.
  - intros a Ha. assert (ND : NoDup (map snd w)) by (apply (Permutation_NoDup (Permutation_sym H)); apply seq_NoDup).
    exists (map (fun i => look i w a) (seq 0 n)). split; [rewrite map_length, seq_length; reflexivity|].
    etransitivity; [|apply (look_back w a ND); congruence].
    unfold rename. apply map_ext_in. intros [fl i] Hin. cbn [fst snd].
    assert (Hi : i < n).
    { assert (Q : In i (map snd w)) by (apply in_map_iff; exists (fl, i); auto). apply (Permutation_in _ H) in Q. apply in_seq in Q. lia. }
    rewrite (nth_indep _ 0%R (look 0 w a)) by (rewrite map_length, seq_length; exact Hi). rewrite (map_nth (fun i => look i w a)). rewrite seq_nth by exact Hi. reflexivity.
Qed.
Definition plain (w : list (bool * nat)) : list (bool * nat) := map (fun e => (false, snd e)) w.
Lemma plain_renaming : forall n w, renaming n w -> renaming n (plain w).
Proof. intros n w H. unfold renaming, plain. rewrite map_map. exact H. Qed.
Lemma scaled_nth : forall rtol atol i (y dy : list R), i < length y -> length dy = length y ->
  nth i (vdiv (N:=RN) (vabs (N:=RN) dy) (vscale_tol (N:=RN) rtol atol y)) 0%R = (Rabs (nth i dy 0) / (atol + rtol * Rabs (nth i y 0)))%R.
Proof. induction i as [|i IH]; intros [|x y] [|z dy] Hi L; cbn in *; try lia; [reflexivity|]. apply IH; lia. Qed.
Lemma scaled_len : forall rtol atol (y dy : list R), length dy = length y -> length (vdiv (N:=RN) (vabs (N:=RN) dy) (vscale_tol (N:=RN) rtol atol y)) = length y.
Proof. induction y as [|x y IH]; intros [|z dy] L; cbn in *; try discriminate; [reflexivity|]. f_equal. apply IH. lia. Qed.
Lemma scaled_rename : forall n w rtol atol (y dy : list R), renaming n w -> length y = n -> length dy = n ->
  vdiv (N:=RN) (vabs (N:=RN) (rename w dy)) (vscale_tol (N:=RN) rtol atol (rename w y)) =
  rename (plain w) (vdiv (N:=RN) (vabs (N:=RN) dy) (vscale_tol (N:=RN) rtol atol y)).
Proof.
  intros n w rtol atol y dy H Hy Hd.
  assert (B : forall e, In e w -> snd e < n).
  { intros e Hin. assert (Q : In (snd e) (map snd w)) by (apply in_map; exact Hin). apply (Permutation_in _ H) in Q. apply in_seq in Q. lia. }
  clear H. unfold rename, plain. rewrite map_map. induction w as [|[fl i] w IH]; [reflexivity|]. cbn [map fst snd].
  assert (Hi : i < length y) by (rewrite Hy; apply (B (fl, i)); left; reflexivity).
  refine (f_equal2 (@cons R) _ (IH (fun e He => B e (or_intror He)))). rewrite scaled_nth by (try exact Hi; congruence).
  destruct fl; cbn; rewrite ?Rabs_Ropp; reflexivity.
Qed.
(** The stopping test. Under a renaming it does not change, whatever the tolerances,
    when the norm does not depend on the order of the entries. *)
Lemma C105_renaming_pf : forall n w, renaming n w ->
  isometry n (rename w) /\
  (forall P m v, renaming m v -> orderless (ar_norm P) -> blind_test n m (rename w) (rename v) P) /\
  (forall P, orderless (ar_norm P) -> blind_test n 1 (rename w) (fun v => v) P) /\
  (forall norm, orderless norm -> blind_norm n (rename w) norm) /\
  orderless (max_norm (N:=RN)) /\ orderless (two_norm (N:=RN)) /\ orderless (rms_norm (N:=RN)).
Proof.
  intros n w H. split; [apply rename_isometry; exact H|]. split; [|split; [|split; [|split; [|split]]]].
  - intros P m v Hv HN y dy f df L1 L2 L3 L4. unfold cauchy_termination. cbv zeta.
    rewrite (scaled_rename n w) by assumption. rewrite (scaled_rename m v) by assumption.
    rewrite (HN n (plain w)) by (try (apply plain_renaming; exact H); rewrite scaled_len; congruence).
    rewrite (HN m (plain v)) by (try (apply plain_renaming; exact Hv); rewrite scaled_len; congruence). reflexivity.
  - intros P HN y dy f df L1 L2 L3 L4. unfold cauchy_termination. cbv zeta.
    rewrite (scaled_rename n w) by assumption.
    rewrite (HN n (plain w)) by (try (apply plain_renaming; exact H); rewrite scaled_len; congruence). reflexivity.
  - intros norm HN v Hv. apply (HN n); assumption.
  - intros k u v Hu Hv. rewrite !max_norm_RN. apply Rle_antisym.
    + apply Rmax_norm_le_of; [apply Rmax_norm_nonneg|]. intros x Hx. unfold rename in Hx. apply in_map_iff in Hx. destruct Hx as ([fl i] & <- & Hin). cbn [fst snd].
      replace (Rabs (if fl then - nth i v 0 else nth i v 0))%R with (Rabs (nth i v 0))%R by (destruct fl; rewrite ?Rabs_Ropp; reflexivity).
      apply Rmax_norm_ge. apply nth_In. rewrite Hv. 
      assert (Q : In i (map snd u)) by (apply in_map_iff; exists (fl, i); auto). apply (Permutation_in _ Hu) in Q. apply in_seq in Q. lia.
    + apply Rmax_norm_le_of; [apply Rmax_norm_nonneg|]. intros x Hx. apply (In_nth _ _ 0%R) in Hx. destruct Hx as (i & Hi & <-).
      assert (Q : In i (map snd u)) by (apply (Permutation_in _ (Permutation_sym Hu)); apply in_seq; lia).
      apply in_map_iff in Q. destruct Q as ([fl j] & E & Hin). cbn [snd] in E. subst j.
      replace (Rabs (nth i v 0))%R with (Rabs (if fl then - nth i v 0 else nth i v 0))%R by (destruct fl; rewrite ?Rabs_Ropp; reflexivity).
      apply Rmax_norm_ge. unfold rename. apply in_map_iff. exists (fl, i). auto.
  - intros k u v Hu Hv. unfold two_norm. rewrite (U_sq k (rename u)) by (try (apply rename_isometry; exact Hu); exact Hv). reflexivity.
  - intros k u v Hu Hv. pose proof (rename_isometry k u Hu) as I. assert (L : length (rename u v) = length v) by (rewrite Hv; apply (U_len k _ I); exact Hv).
    unfold rms_norm. rewrite (U_sq k (rename u) I) by exact Hv. change (@length RN) with (@length R). rewrite L.
    destruct (rename u v), v; try discriminate L; reflexivity.
Qed.

(** *** Rotations *)
Lemma scaled_flat : forall atol (y dy : list R), length dy = length y ->
  vdiv (N:=RN) (vabs (N:=RN) dy) (vscale_tol (N:=RN) 0%R atol y) = Rscal (/ atol) (map Rabs dy).
Proof.
  intros atol. induction y as [|x y IH]; intros [|z dy] L; cbn in *; try discriminate; [reflexivity|]. f_equal; [|apply IH; lia].
  rewrite Rmult_0_l, Rplus_0_r. unfold Rdiv. ring.
Qed.
Lemma abs_sq : forall c (v : list R), Rdot (Rscal c (map Rabs v)) (Rscal c (map Rabs v)) = (c * c * Rdot v v)%R.
Proof. intros c. induction v as [|x v IH]; cbn; [ring|]. unfold Rscal in IH. rewrite IH. pose proof (Rsqr_abs x) as E. unfold Rsqr in E. transitivity (c * c * (Rabs x * Rabs x) + c * c * Rdot v v)%R; [ring|rewrite <- E; ring]. Qed.
(** Under a rotation it does not change when rtol = 0 and the norm is Euclidean. *)
Lemma C105_rotation_pf : forall n U, isometry n U ->
  (forall P m V, isometry m V -> ar_rtol P = 0%R -> ar_norm P = two_norm (N:=RN) \/ ar_norm P = rms_norm (N:=RN) -> blind_test n m U V P) /\
  blind_norm n U (two_norm (N:=RN)) /\ blind_norm n U (rms_norm (N:=RN)).
Proof.
  intros n U HU.
  assert (T2 : forall k W v v', isometry k W -> length v = k -> length v' = k -> forall a,
     two_norm (N:=RN) (vdiv (N:=RN) (vabs (N:=RN) (W v)) (vscale_tol (N:=RN) 0%R a (W v'))) = two_norm (N:=RN) (vdiv (N:=RN) (vabs (N:=RN) v) (vscale_tol (N:=RN) 0%R a v'))).
  { intros k W v v' HW L L' a. pose proof (U_len k W HW v L). pose proof (U_len k W HW v' L'). rewrite !scaled_flat by congruence.
    rewrite !two_norm_RN. unfold Rnorm. rewrite !abs_sq. rewrite <- !vdot_RN, (U_dot k W HW) by assumption. reflexivity. }
  assert (TR : forall k W v v', isometry k W -> length v = k -> length v' = k -> forall a,
     rms_norm (N:=RN) (vdiv (N:=RN) (vabs (N:=RN) (W v)) (vscale_tol (N:=RN) 0%R a (W v'))) = rms_norm (N:=RN) (vdiv (N:=RN) (vabs (N:=RN) v) (vscale_tol (N:=RN) 0%R a v'))).
  { intros k W v v' HW L L' a. pose proof (U_len k W HW v L) as M. pose proof (U_len k W HW v' L') as M'. rewrite !scaled_flat by congruence.
    unfold rms_norm. rewrite !sum_squares_RN, !abs_sq. rewrite <- !vdot_RN, (U_dot k W HW) by assumption.
    change (@length RN) with (@length R). rewrite !Rscal_length, !map_length, M, L.
    destruct (W v), v; try (cbn in M, L; congruence); reflexivity. }
  split; [|split].
  - intros P m V HV Hr Hn y dy f df L1 L2 L3 L4. unfold cauchy_termination. cbv zeta. rewrite Hr.
    destruct Hn as [-> | ->]; [rewrite (T2 n U dy y), (T2 m V df f) by assumption|rewrite (TR n U dy y), (TR m V df f) by assumption]; reflexivity.
  - intros v Hv. unfold two_norm. rewrite (U_sq n U HU) by exact Hv. reflexivity.
  - intros v Hv. assert (L : length (U v) = length v) by (rewrite Hv; apply (U_len n U HU); exact Hv).
    unfold rms_norm. rewrite (U_sq n U HU) by exact Hv. change (@length RN) with (@length R). rewrite L.
    destruct (U v), v; try discriminate L; reflexivity.
Qed.

(** *** Linear solvers *)
Lemma half_sq : forall k (p q : list R), length p = k -> length q = k ->
  Rdot (Rscal (1/2) (Radd_v p q)) (Rscal (1/2) (Radd_v p q)) = ((Rdot p p + 2 * Rdot p q + Rdot q q) / 4)%R.
Proof.
  intros k p q Hp Hq. rewrite Rdot_scal_l, Rdot_scal_r, Rdot_add_l, !Rdot_add_r by congruence. rewrite (Rdot_comm q p). field.
Qed.
Lemma sub_sq : forall k (p q : list R), length p = k -> length q = k ->
  Rdot (Rsub_v p q) (Rsub_v p q) = (Rdot p p - 2 * Rdot p q + Rdot q q)%R.
Proof. intros k p q Hp Hq. rewrite Rdot_sub_l, !Rdot_sub_r by congruence. rewrite (Rdot_comm q p). ring. Qed.
Lemma half_sub : forall k (p q b : list R), length p = k -> length q = k -> length b = k ->
  Rsub_v (Rscal (1/2) (Radd_v p q)) b = Rscal (1/2) (Radd_v (Rsub_v p b) (Rsub_v q b)).
Proof.
  induction k as [|k IH]; intros [|x p] [|z q] [|c b] Hp Hq Hb; try discriminate; [reflexivity|].
  cbn. f_equal; [field|]. apply IH; [injection Hp|injection Hq|injection Hb]; auto.
Qed.
Lemma sub_0_eq : forall k (p q : list R), length p = k -> length q = k -> Rsub_v p q = zerov k -> p = q.
Proof.
  induction k as [|k IH]; intros [|x p] [|z q] Hp Hq E; try discriminate; [reflexivity|].
  cbn in E. injection E as E1 E2. f_equal; [lra|]. apply IH; [injection Hp; auto|injection Hq; auto|exact E2].
Qed.
Lemma minimum_norm_unique : forall n k A (b x x' : list R), linear_op n k A -> length b = k ->
  minimum_norm_solution n A b x -> minimum_norm_solution n A b x' -> x = x'.
Proof.
  unfold minimum_norm_solution. cbv beta zeta. intros n k A b x x' (HL & HA & HS) Lb (Lx & Mx & Nx) (Lx' & Mx' & Nx').
  set (mid := Rscal (1/2) (Radd_v x x')).
  assert (Lm : length mid = n) by (unfold mid; rewrite Rscal_length; apply Radd_v_length; assumption).
  set (p := Rsub_v (op_mv A x) b) in *. set (q := Rsub_v (op_mv A x') b) in *.
  assert (Lp : length p = k) by (apply Rsub_v_length; auto). assert (Lq : length q = k) by (apply Rsub_v_length; auto).
  assert (Em : Rsub_v (op_mv A mid) b = Rscal (1/2) (Radd_v p q)).
  { unfold mid. rewrite HS by (apply Radd_v_length; assumption). rewrite HA by assumption. apply (half_sub k); auto. }
  pose proof (Mx x' Lx') as I1. pose proof (Mx' x Lx) as I2. pose proof (Nx x' Lx' I2) as I3. pose proof (Nx' x Lx I1) as I4.
  assert (I5 : (Rdot (Rsub_v (op_mv A mid) b) (Rsub_v (op_mv A mid) b) <= Rdot p p)%R).
  { rewrite Em, (half_sq k) by assumption. fold p q in I1, I2. pose proof (Rdot_pos (Rsub_v p q)) as Q. rewrite (sub_sq k) in Q by assumption. lra. }
  pose proof (Nx mid Lm I5) as I6. unfold mid in I6. rewrite (half_sq n) in I6 by assumption.
  pose proof (Rdot_pos (Rsub_v x x')) as Q. apply (sub_0_eq n); [assumption|assumption|].
  assert (Z : Rdot (Rsub_v x x') (Rsub_v x x') = 0%R) by (rewrite (sub_sq n) in * by assumption; lra).
  apply Rdot_0_inv in Z. rewrite (Rsub_v_length x x' n) in Z by assumption. exact Z.
Qed.
(** A solver returning the least-squares solution of least norm does not depend on the
    coordinates. *)
Lemma C105_solver_pf : forall n U (lsolve : linop RN -> list R -> list R * results), isometry n U ->
  (forall k A (b : list R), linear_op n k A -> length b = k -> minimum_norm_solution n A b (fst (lsolve A b)) /\ snd (lsolve A b) = successful) ->
  blind_solver n U lsolve.
Proof.
  intros n U lsolve HU HS k V A B b HV (HA & HAT & HB & HBT) Lb.
  destruct (HS k A b HA Lb) as [(Lx & Mx & Nx) Ex]. split; [exact Lx|].
  pose proof HU as (u1 & u2 & u3 & u4 & u5). pose proof HV as (v1 & v2 & v3 & v4 & v5). destruct HA as (a1 & a2 & a3).
  assert (LB : linear_op n k B).
  { split; [|split].
    - intros x Hx. destruct (u5 x Hx) as (z & Hz & <-). rewrite HB by exact Hz. apply v1, a1, Hz.
    - intros x y Hx Hy. destruct (u5 x Hx) as (z & Hz & <-), (u5 y Hy) as (t & Ht & <-).
      rewrite <- u2 by assumption. rewrite !HB by (try assumption; apply Radd_v_length; assumption). rewrite a2 by assumption. apply v2; apply a1; assumption.
    - intros c x Hx. destruct (u5 x Hx) as (z & Hz & <-). rewrite <- u3 by assumption.
      rewrite !HB by (try assumption; rewrite Rscal_length; assumption). rewrite a3 by assumption. apply v3, a1, Hz. }
  destruct (HS k B (V b) LB (v1 b Lb)) as [Mb Eb].
  assert (MU : minimum_norm_solution n B (V b) (U (fst (lsolve A b)))).
  { assert (EM : forall v : list R, length v = n -> Rdot (Rsub_v (op_mv B (U v)) (V b)) (Rsub_v (op_mv B (U v)) (V b)) = Rdot (Rsub_v (op_mv A v) b) (Rsub_v (op_mv A v) b)).
    { intros v Hv. rewrite HB by exact Hv. assert (Es : Rsub_v (V (op_mv A v)) (V b) = V (Rsub_v (op_mv A v) b)).
      { pose proof (U_sub k V HV (op_mv A v) b (a1 v Hv) Lb) as E. rewrite !vsub_RN in E. exact E. }
      rewrite Es. apply v4; apply Rsub_v_length; auto. }
    split; [apply u1, Lx|]. split.
    - intros v Hv. destruct (u5 v Hv) as (z & Hz & <-). rewrite !EM by assumption. apply Mx, Hz.
    - intros v Hv. destruct (u5 v Hv) as (z & Hz & <-). rewrite !EM by assumption. rewrite !u4 by assumption. apply Nx, Hz. }
  rewrite (surjective_pairing (lsolve B (V b))), Eb, Ex. f_equal. apply (minimum_norm_unique n k B (V b)); auto.
Qed.

(** *** Cases *)
Definition rot345 (v : list R) : list R := match v with [a; b] => [(3/5 * a - 4/5 * b)%R; (4/5 * a + 3/5 * b)%R] | _ => v end.
Definition unrot345 (v : list R) : list R := match v with [a; b] => [(3/5 * a + 4/5 * b)%R; (- (4/5) * a + 3/5 * b)%R] | _ => v end.
Ltac two v := destruct v as [|? [|? [|? ?]]]; try discriminate.
Lemma rot_isometry : isometry 2 rot345.
Proof.
  repeat split.
  - intros a Ha. two a. reflexivity.
  - intros a b Ha Hb. two a; two b. cbn. repeat (f_equal; try ring).
  - intros c a Ha. two a. cbn. repeat (f_equal; try ring).
  - intros a b Ha Hb. two a; two b. cbn. field.
  - intros a Ha. two a. exists (unrot345 [r; r0]). split; [reflexivity|]. cbn. repeat (f_equal; try field).
Qed.
(** central differences: exact for quadratics *)
Definition two_grad (f : list R -> R * unit) (y : list R) : list R :=
  match y with [a; b] => [((fst (f [a + 1; b]) - fst (f [a - 1; b])) / 2)%R; ((fst (f [a; b + 1]) - fst (f [a; b - 1])) / 2)%R] | _ => y end.
Definition bowl2 (y : list R) : R * unit := (match y with [a; b] => (a * a + 3 * b * b)%R | _ => 0%R end, tt).
Definition bowl2' (y : list R) : R * unit := bowl2 (unrot345 y).
Lemma bowl2_turned : (forall y, length y = 2 -> bowl2' (rot345 y) = bowl2 y) /\
  (forall y, length y = 2 -> length (two_grad bowl2 y) = 2 /\ two_grad bowl2' (rot345 y) = rot345 (two_grad bowl2 y)).
Proof.
  split; intros y Hy; two y.
  - unfold bowl2', bowl2. cbn [rot345 unrot345]. f_equal. field.
  - split; [reflexivity|]. cbn. repeat (f_equal; try field).
Qed.
Definition no_solver (A : linop RN) (b : list R) : list R * results := (zerov 2, successful).
Lemma no_solver_blind : forall U, isometry 2 U -> blind_solver 2 U no_solver.
Proof. intros U HU k V A B b _ _ _. split; [reflexivity|]. unfold no_solver. cbn [fst snd]. rewrite (U_zero 2 U HU). reflexivity. Qed.
Definition round_tols : ar_tols RN := mkTols 0%R (1/100)%R (two_norm (N:=RN)).
Lemma round_blind : blind_test 2 1 rot345 (fun v => v) round_tols.
Proof. apply (C105_rotation_pf 2 rot345 rot_isometry); [apply id_iso|reflexivity|left; reflexivity]. Qed.

(** NonlinearCG on a2 + 3 b2 and on the same bowl turned by the 3-4-5 angle: the whole run
    is turned, whatever the number of steps. *)
Example C105_gradient_ex_pf : forall (steps : nat) (a b : R),
  let cg := gradient_descent_solver round_tols (search_of (BacktrackingArmijo (N:=RN) (1/2)%R (1/10)%R 1%R))
              (descent_of no_solver 0%R 1000%R (NonlinearCGDescent (N:=RN) (polak_ribiere (N:=RN) 0%R))) two_grad in
  same_solve rot345 (iterative_solve (vallfinite (N:=RN)) cg bowl2 (S steps) (Some steps) false [a; b] (fun _ => 0%R) (fun _ => tt))
                    (iterative_solve (vallfinite (N:=RN)) cg bowl2' (S steps) (Some steps) false (rot345 [a; b]) (fun _ => 0%R) (fun _ => tt)).
Proof.
  intros steps a b. apply (C105_gradient_pf unit 2); try apply bowl2_turned; try reflexivity; [exact rot_isometry|apply no_solver_blind, rot_isometry| |exact round_blind].
  apply C105_methods_pf. exact rot_isometry.
Qed.
Example C105_quasi_newton_ex_pf : forall (dfp : bool) (steps : nat) (a b : R),
  let qn := quasi_newton_solver round_tols (search_of (BacktrackingArmijo (N:=RN) (1/2)%R (1/10)%R 1%R)) (descent_of no_solver 0%R 1000%R (NewtonDescent (N:=RN) None)) two_grad
              (qn_init_hessian (N:=RN) true) (if dfp then dfp_update (N:=RN) 0%R true else bfgs_update (N:=RN) 0%R true) in
  same_solve rot345 (iterative_solve (vallfinite (N:=RN)) qn bowl2 (S steps) (Some steps) false [a; b] (fun _ => 0%R) (fun _ => tt))
                    (iterative_solve (vallfinite (N:=RN)) qn bowl2' (S steps) (Some steps) false (rot345 [a; b]) (fun _ => 0%R) (fun _ => tt)).
Proof.
  intros dfp steps a b. apply (C105_quasi_newton_pf unit 2); try apply bowl2_turned; try reflexivity; [exact rot_isometry|apply no_solver_blind, rot_isometry|exact round_blind].
Qed.
Example C105_lbfgs_ex_pf : forall (steps : nat) (a b : R),
  let lb := quasi_newton_solver round_tols (search_of (BacktrackingArmijo (N:=RN) (1/2)%R (1/10)%R 1%R)) (descent_of no_solver 0%R 1000%R (NewtonDescent (N:=RN) None)) two_grad
              (lbfgs_init (N:=RN) 3 true) (lbfgs_update (N:=RN) 0%R 3 true) in
  same_solve rot345 (iterative_solve (vallfinite (N:=RN)) lb bowl2 (S steps) (Some steps) false [a; b] (fun _ => 0%R) (fun _ => tt))
                    (iterative_solve (vallfinite (N:=RN)) lb bowl2' (S steps) (Some steps) false (rot345 [a; b]) (fun _ => 0%R) (fun _ => tt)).
Proof.
  intros steps a b. apply (C105_lbfgs_pf unit 2); try apply bowl2_turned; try reflexivity; [exact rot_isometry|apply no_solver_blind, rot_isometry|exact round_blind|lia].
Qed.

(** One unknown: the least-squares solution of least norm in closed form. *)
Definition column_solver (A : linop RN) (b : list R) : list R * results :=
  let a : list R := op_mv A [1%R] in
  ([if Req_EM_T (Rdot a a) 0 then 0%R else (Rdot a b / Rdot a a)%R], successful).
Lemma column_least : forall k A (b : list R), linear_op 1 k A -> length b = k -> minimum_norm_solution 1 A b (fst (column_solver A b)) /\ snd (column_solver A b) = successful.
Proof.
  intros k A b (HL & HA & HS) Lb. split; [|reflexivity].
  set (a := op_mv A [1%R] : list R). assert (La : length a = k) by (apply HL; reflexivity).
  assert (EM : forall t, Rdot (Rsub_v (op_mv A [t]) b) (Rsub_v (op_mv A [t]) b) = (t * t * Rdot a a - 2 * t * Rdot a b + Rdot b b)%R).
  { intro t. assert (Et : op_mv A [t] = Rscal t a) by (unfold a; rewrite <- HS by reflexivity; cbn; rewrite Rmult_1_r; reflexivity).
    rewrite Et. rewrite (sub_sq k) by (try exact Lb; rewrite Rscal_length; exact La). rewrite !Rdot_scal_l, Rdot_scal_r. ring. }
  unfold column_solver. fold a. cbn [fst]. pose proof (Rdot_pos a) as Pa.
  split; [reflexivity|]. destruct (Req_EM_T (Rdot a a) 0) as [Z|NZ].
  - assert (Zb : Rdot a b = 0%R) by (apply Rdot_0_inv in Z; rewrite Z; apply Rdot_0_l).
    split; intros v Hv; destruct v as [|t [|? ?]]; try discriminate; rewrite !EM, Z, Zb; [lra|]. intros _. cbn. nra.
  - assert (Sq : forall t, (t * t * Rdot a a - 2 * t * Rdot a b + Rdot b b = Rdot b b - Rdot a b * Rdot a b / Rdot a a + Rdot a a * ((t - Rdot a b / Rdot a a) * (t - Rdot a b / Rdot a a)))%R).
    { intro t. field. exact NZ. }
    split; intros v Hv; destruct v as [|t [|? ?]]; try discriminate; rewrite !EM, !Sq; set (u := (Rdot a b / Rdot a a)%R); pose proof (Rle_0_sqr (t - u)) as Q; unfold Rsqr in Q.
    + nra.
    + intro H. assert (D : ((t - u) * (t - u) = 0)%R) by nra. apply Rmult_integral in D. assert (t = u) by (destruct D; lra). subst t. lra.
Qed.
Example C105_solver_ex_pf : forall w, renaming 1 w -> blind_solver 1 (rename w) column_solver.
Proof. intros w Hw. apply C105_solver_pf; [apply rename_isometry; exact Hw|exact column_least]. Qed.

Definition line2 (y : list R) : list R * unit := ([(nth 0 y 0 - 1)%R; (2 * nth 0 y 0 + 1)%R], tt).
Definition line2' (y : list R) : list R * unit := ([(1 - 2 * nth 0 y 0)%R; (- nth 0 y 0 - 1)%R], tt).
(** the Jacobian of an affine function of one unknown *)
Definition line_jac (f : list R -> list R * unit) (y : list R) : linop RN :=
  MatOp (N:=RN) 1 (map (fun r => [r]) (Rsub_v (fst (f [(nth 0 y 0 + 1)%R])) (fst (f [nth 0 y 0%R])))).
Definition flip1 : list (bool * nat) := [(true, 0)].
Definition swap2 : list (bool * nat) := [(false, 1); (false, 0)].
Lemma swap2_ok : renaming 2 swap2. Proof. unfold renaming. cbn. apply perm_swap. Qed.
Lemma flip1_ok : renaming 1 flip1. Proof. unfold renaming. cbn. apply Permutation_refl. Qed.
(** LevenbergMarquardt on (y - 1, 2 y + 1): flip the sign of y, swap the residuals, keep
    the default norm and any tolerances. *)
Example C105_least_squares_ex_pf : forall (rtol atol a : R) (steps : nat),
  let lm := gauss_newton_solver (mkTols rtol atol (max_norm (N:=RN))) (search_of (ClassicalTrustRegion (N:=RN) tr_default))
              (descent_of column_solver 0%R 1000%R DampedNewtonDescent) line_jac in
  same_solve (rename flip1) (iterative_solve (vallfinite (N:=RN)) lm line2 (S steps) (Some steps) false [a] (fun _ => [0; 0]%R) (fun _ => tt))
    (iterative_solve (vallfinite (N:=RN)) lm line2' (S steps) (Some steps) false [(- a)%R] (fun _ => [0; 0]%R) (fun _ => tt)).
Proof.
  intros rtol atol a steps. change [(- a)%R] with (rename flip1 [a]).
  destruct (C105_renaming_pf 1 flip1 flip1_ok) as (I1 & T1 & _ & _ & M & _).
  apply (C105_least_squares_pf unit 1 2 (rename flip1) (rename swap2)); try reflexivity.
  - exact I1.
  - apply rename_isometry, swap2_ok.
  - apply C105_solver_ex_pf, flip1_ok.
  - apply T1; [exact swap2_ok|exact M].
  - intros y Hy. destruct y as [|t [|? ?]]; try discriminate. split; [reflexivity|]. unfold line2', line2. cbn. repeat (f_equal; try ring).
  - intros y Hy. destruct y as [|t [|? ?]]; try discriminate.
    split; [apply mat_linear; split; [reflexivity|repeat constructor]|]. unfold line_jac. cbn [line2 line2' fst nth rename flip1 map snd Rsub_v].
    split; [|split].
    + intros w Hw. destruct w as [|? [|? [|? ?]]]; try discriminate. reflexivity.
    + intros v Hv. destruct v as [|? [|? ?]]; try discriminate. cbn. repeat (f_equal; try ring).
    + intros w Hw. destruct w as [|? [|? [|? ?]]]; try discriminate. cbn. rewrite ?Q2R_0. repeat (f_equal; try ring).
Qed.

(** With the default max-norm a solve does depend on the coordinates: gradient descent on a
    linear function of slope 0.3, learning rate 4, atol 1. In the first coordinates the step
    (-0.72, -0.96) passes the test, in the turned ones the same step is (-1.2, 0) and fails. *)
Definition slant (y : list R) : R * unit := (match y with [a; b] => (9/50 * a + 12/50 * b)%R | _ => 0%R end, tt).
Definition slant' (y : list R) : R * unit := slant (rot345 y).
Lemma C105_max_norm_pf : exists (U : list R -> list R) (P : ar_tols RN) (rate : R) (grad_of : (list R -> R * unit) -> list R -> list R) (fn fn' : list R -> R * unit)
    (y0 : list R) (max_steps : nat) s s',
  isometry 2 U /\ length y0 = 2 /\ ar_norm P = max_norm (N:=RN) /\ ar_rtol P = 0%R /\
  (forall y, length y = 2 -> fn' (U y) = fn y) /\
  (forall y, length y = 2 -> length (grad_of fn y) = 2 /\ grad_of fn' (U y) = U (grad_of fn y)) /\
  let solver := gradient_descent_solver P (learning_rate rate) (steepest_descent None) grad_of in
  iterative_solve (vallfinite (N:=RN)) solver fn (S max_steps) (Some max_steps) false y0 (fun _ => 0%R) (fun _ => tt) = Ret s /\
  iterative_solve (vallfinite (N:=RN)) solver fn' (S max_steps) (Some max_steps) false (U y0) (fun _ => 0%R) (fun _ => tt) = Ret s' /\
  result s = successful /\ result s' = nonlinear_max_steps_reached.
Proof.
  exists unrot345, (mkTols 0%R 1%R (max_norm (N:=RN))), 4%R, two_grad, slant, slant', [0%R; 0%R], 2.
  eexists; eexists.
  split; [|split; [reflexivity|split; [reflexivity|split; [reflexivity|split; [|split]]]]].
  - repeat split.
    + intros a Ha. two a. reflexivity.
    + intros a b Ha Hb. two a; two b. cbn. repeat (f_equal; try ring).
    + intros c a Ha. two a. cbn. repeat (f_equal; try ring).
    + intros a b Ha Hb. two a; two b. cbn. field.
    + intros a Ha. two a. exists (rot345 [r; r0]). split; [reflexivity|]. cbn. repeat (f_equal; try field).
  - intros y Hy. two y. unfold slant', slant. cbn [rot345 unrot345]. f_equal. field.
  - intros y Hy. two y. split; [reflexivity|]. cbn. repeat (f_equal; try field).
  - cbv zeta. split; [|split; [|split]].
    + unfold iterative_solve, iterate. cbn -[cauchy_termination].
      match goal with |- context [cauchy_termination ?a ?b ?c ?d ?e ?f ?g] => assert (C : cauchy_termination a b c d e f g = true) by
        (unfold cauchy_termination; cbv zeta; rewrite !max_norm_RN; apply andb_true_iff; split; cbn; apply Rltb_true; rewrite Q2R_1;
         repeat apply Rmax_lub_lt; try (rewrite Rabs_pos_eq by (try apply Rabs_pos; unfold Rdiv; rewrite Rmult_0_l, Rplus_0_r, Rinv_1, Rmult_1_r; apply Rabs_pos);
           unfold Rdiv at 1; rewrite Rmult_0_l, Rplus_0_r, Rinv_1, Rmult_1_r; apply Rabs_def1; lra); lra); rewrite !C end.
      cbn. reflexivity.
    + unfold iterative_solve, iterate. cbn -[cauchy_termination].
      match goal with |- context [cauchy_termination ?a ?b ?c ?d ?e ?f ?g] => assert (C : cauchy_termination a b c d e f g = false) end.
      { unfold cauchy_termination. cbv zeta. rewrite !max_norm_RN. apply andb_false_iff. left. cbn. apply Rltb_false. rewrite Q2R_1.
        eapply Rle_trans; [|apply Rmax_l]. rewrite Rmult_0_l, Rplus_0_r. unfold Rdiv at 1. rewrite Rinv_1, Rmult_1_r, Rabs_Rabsolu.
        rewrite Rabs_left by lra. lra. }
      rewrite !C. cbn. reflexivity.
    + reflexivity.
    + reflexivity.
Qed.
Example C105_methods_ex_pf : blind_method 2 rot345 (polak_ribiere (N:=RN) (1/1000)%R) /\
  polak_ribiere (N:=RN) (1/1000)%R (rot345 [1; 2]%R) (rot345 [3; 0]%R) (rot345 [1; 1]%R) = polak_ribiere (N:=RN) (1/1000)%R [1; 2]%R [3; 0]%R [1; 1]%R.
Proof. split; [apply C105_methods_pf, rot_isometry|]. apply (C105_methods_pf 2 rot345 (1/1000)%R rot_isometry); reflexivity. Qed.
Example C105_renaming_ex_pf : renaming 3 [(true, 2); (false, 0); (false, 1)] /\
  rename [(true, 2); (false, 0); (false, 1)] [1; 2; 3]%R = [-(3); 1; 2]%R /\
  blind_test 3 2 (rename [(true, 2); (false, 0); (false, 1)]) (rename swap2) (mkTols (1/100)%R (1/1000)%R (max_norm (N:=RN))).
Proof.
  assert (H : renaming 3 [(true, 2); (false, 0); (false, 1)]).
  { unfold renaming. cbn. apply (Permutation_cons_append [0; 1] 2). }
  split; [exact H|]. split; [reflexivity|]. destruct (C105_renaming_pf 3 _ H) as (_ & T1 & _ & _ & M & _). apply T1; [exact swap2_ok|exact M].
Qed.
Example C105_rotation_ex_pf : isometry 2 rot345 /\ rot345 [5; 10]%R = [-(5); 10]%R /\
  blind_test 2 2 rot345 rot345 round_tols /\ blind_norm 2 rot345 (rms_norm (N:=RN)).
Proof.
  split; [exact rot_isometry|]. split; [cbn; repeat (f_equal; try field)|].
  destruct (C105_rotation_pf 2 rot345 rot_isometry) as (H1 & _ & H3). split; [|exact H3]. apply H1; [exact rot_isometry|reflexivity|left; reflexivity].
Qed.
