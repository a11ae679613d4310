(** Gauss-Newton and dogleg methods do not depend on the units of the residuals (C122). *)

From Coq Require Import String List Bool Arith Lia ZArith QArith Reals Lra Psatz FunctionalExtensionality.
From Coquelicot Require Import Coquelicot.
From Verif Require Import Num NumFacts Vec VecFacts Spec_Vec Spec_Lin LinFacts Results Iterate Spec_Iterate Iterate_proofs.
From Verif Require Import Search Descent Minimisers Solvers Spec_Search Spec_Combos TrustRegion_proofs LBFGSFacts LeastSquares_proofs Dogleg_proofs Spec_Isometry Isometry_proofs Spec_Solvable SolvableFacts Spec_Units.
Import ListNotations.
Local Open Scope nat_scope.

Ltac rring := change (nmul (n:=RN)) with Rmult; change (nsub (n:=RN)) with Rminus; lazymatch goal with |- @eq _ ?a ?b => change (@eq R a b) end; ring.

(** ** Vectors *)

Section LinOps.
  Variables (n : nat) (U : list R -> list R).
  Hypothesis HU : linear_map n U.

  Lemma L_add : forall a b : list R, length a = n -> length b = n -> vadd (N:=RN) (U a) (U b) = U (vadd (N:=RN) a b).
  Proof. intros. rewrite !vadd_RN. symmetry. apply HU; assumption. Qed.
  Lemma L_scale : forall c (a : list R), length a = n -> vscale (N:=RN) c (U a) = U (vscale (N:=RN) c a).
  Proof. intros. rewrite !vscale_RN. symmetry. apply HU; assumption. Qed.
  Lemma L_sub : forall a b : list R, length a = n -> length b = n -> vsub (N:=RN) (U a) (U b) = U (vsub (N:=RN) a b).
  Proof.
    assert (E : forall a b : list R, vsub (N:=RN) a b = Radd_v a (Rscal (-1) b)).
    { induction a as [|x a IH]; intros [|z b]; try reflexivity. cbn [Rscal map Radd_v]. unfold vsub in *. cbn [vmap2]. f_equal; [|apply IH].
      change (x - z = x + -1 * z)%R. ring. }
    intros a b Ha Hb. rewrite !E. symmetry. etransitivity; [apply HU; [exact Ha|rewrite Rscal_length; exact Hb]|]. f_equal. apply HU. exact Hb.
  Qed.
End LinOps.

Lemma id_linear : forall n, linear_map n (fun v => v).
Proof. intro n. repeat split; auto. Qed.
Lemma scal_linear : forall n c, linear_map n (Rscal c).
Proof.
  intros n c. split; [intros a H; rewrite Rscal_length; exact H|]. split.
  - intros a b _ _. revert b. induction a as [|x a IH]; intros [|z b]; cbn; try reflexivity. f_equal; [ring|apply IH].
  - intros d a _. unfold Rscal. rewrite !map_map. apply map_ext. intro x. ring.
Qed.

Lemma sq_scal : forall c (a : list R), sum_squares (N:=RN) (Rscal c a) = (c * c * sum_squares (N:=RN) a)%R.
Proof. intros. rewrite !sum_squares_RN. rewrite Rdot_scal_l, Rdot_scal_r. rring. Qed.
Lemma dot_scal : forall c d (a b : list R), vdot (N:=RN) (Rscal c a) (Rscal d b) = (c * d * vdot (N:=RN) a b)%R.
Proof. intros. rewrite !vdot_RN. rewrite Rdot_scal_l, Rdot_scal_r. rring. Qed.

Lemma leb_scal : forall k a b : R, (0 < k)%R -> nleb (n:=RN) (k * a)%R (k * b)%R = nleb (n:=RN) a b.
Proof.
  intros k a b Hk. apply eq_true_iff_eq. change (nleb (n:=RN)) with Rleb. rewrite !Rleb_true. split; intro H; [apply (Rmult_le_reg_l k); assumption|apply Rmult_le_compat_l; lra].
Qed.
Lemma ltb_scal : forall k a b : R, (0 < k)%R -> nltb (n:=RN) (k * a)%R (k * b)%R = nltb (n:=RN) a b.
Proof.
  intros k a b Hk. apply eq_true_iff_eq. change (nltb (n:=RN)) with Rltb. rewrite !Rltb_true. split; intro H; [apply (Rmult_lt_reg_l k); assumption|apply Rmult_lt_compat_l; lra].
Qed.

Lemma leb_diff : forall k e f q p : R, (0 < k)%R -> Rleb (k * e - k * f) (q * (k * p)) = Rleb (e - f) (q * p).
Proof.
  intros k e f q p Hk. replace (k * e - k * f)%R with (k * (e - f))%R by ring. replace (q * (k * p))%R with (k * (q * p))%R by ring.
  apply leb_scal. exact Hk.
Qed.
Lemma ltb_diff : forall k e f q p : R, (0 < k)%R -> Rltb (k * e - k * f) (q * (k * p)) = Rltb (e - f) (q * p).
Proof.
  intros k e f q p Hk. replace (k * e - k * f)%R with (k * (e - f))%R by ring. replace (q * (k * p))%R with (k * (q * p))%R by ring.
  apply ltb_scal. exact Hk.
Qed.

(** ** Searches *)

Section Searches.
  Variables (n m : nat) (U : list R -> list R) (c : R).
  Hypothesis HU : linear_map n U.
  Hypothesis Hc : c <> 0%R.

  Definition jrel (f1 f2 : finfo RN) : Prop :=
    match f1, f2 with
    | ResidualJac r A, ResidualJac s B => length r = m /\ s = Rscal c r /\ chain_rule n m U c A B
    | _, _ => False
    end.

  Lemma cc_pos : (0 < c * c)%R. Proof. nra. Qed.

  Lemma as_min_rel : forall f1 f2, jrel f1 f2 -> as_min f2 = (c * c * as_min f1)%R.
  Proof.
    intros [] [] H; try contradiction H. destruct H as (_ & -> & _). cbn [as_min]. rewrite sq_scal.
    rring.
  Qed.
  Lemma grad_dot_rel : forall f1 f2 (v : list R), jrel f1 f2 -> length v = n -> compute_grad_dot f2 (U v) = (c * c * compute_grad_dot f1 v)%R.
  Proof.
    intros [] [] v H Hv; try contradiction H. destruct H as (L & -> & l1 & T). cbn [compute_grad_dot]. rewrite T by exact Hv. apply dot_scal.
  Qed.
  Lemma classical_units : forall f1 f2 (v : list R), jrel f1 f2 -> length v = n -> classical_predict (N:=RN) (U v) f2 = (c * c * classical_predict (N:=RN) v f1)%R.
  Proof.
    intros [] [] v H Hv; try contradiction H. destruct H as (L & -> & (l1 & _) & T). cbn [classical_predict]. rewrite T by exact Hv.
    rewrite (L_add m (Rscal c) (scal_linear m c)) by (auto). rewrite !sq_scal.
    rring.
  Qed.

  Lemma search_units : forall s b (y ye : list R) f1 f2 e1 e2 st, length y = n -> length ye = n -> jrel f1 f2 -> jrel e1 e2 ->
    se_step (search_of s) b (U y) (U ye) f2 e2 st = se_step (search_of s) b y ye f1 e1 st.
  Proof.
    intros s b y ye f1 f2 e1 e2 st Hy Hye HI HE. pose proof cc_pos as K.
    pose proof (vsub_len n _ _ Hye Hy) as L. pose proof (as_min_rel _ _ HI) as M1. pose proof (as_min_rel _ _ HE) as M2.
    assert (LE : forall q p p', p' = (c * c * p)%R ->
      nleb (n:=RN) (nsub (n:=RN) (as_min e2) (as_min f2)) (nmul (n:=RN) q p') = nleb (n:=RN) (nsub (n:=RN) (as_min e1) (as_min f1)) (nmul (n:=RN) q p)).
    { intros q p p' ->. rewrite M1, M2. apply leb_diff. exact K. }
    assert (LT : forall q p p', p' = (c * c * p)%R ->
      nltb (n:=RN) (nsub (n:=RN) (as_min e2) (as_min f2)) (nmul (n:=RN) q p') = nltb (n:=RN) (nsub (n:=RN) (as_min e1) (as_min f1)) (nmul (n:=RN) q p)).
    { intros q p p' ->. rewrite M1, M2. apply ltb_diff. exact K. }
    assert (Z : nofQ (n:=RN) 0 = (c * c * nofQ (n:=RN) 0)%R) by (cbn; unfold Q2R; cbn; ring).
    assert (LE0 : forall p p', p' = (c * c * p)%R -> nleb (n:=RN) p' (nofQ 0) = nleb (n:=RN) p (nofQ 0)).
    { intros p p' ->. rewrite Z at 1. apply leb_scal. exact K. }
    assert (LT0 : forall p p', p' = (c * c * p)%R -> nltb (n:=RN) p' (nofQ 0) = nltb (n:=RN) p (nofQ 0)).
    { intros p p' ->. rewrite Z at 1. apply ltb_scal. exact K. }
    destruct s; cbn [se_step search_of learning_rate armijo linear_trust_region classical_trust_region]; [reflexivity|..];
      unfold armijo_step, tr_step, linear_predict; rewrite (L_sub n U HU) by assumption.
    - pose proof (grad_dot_rel _ _ _ HI L) as G. rewrite (LE _ _ _ G), (LE0 _ _ G). reflexivity.
    - pose proof (grad_dot_rel _ _ _ HI L) as G. rewrite (LE _ _ _ G), (LT _ _ _ G), (LT0 _ _ G). reflexivity.
    - pose proof (classical_units _ _ _ HI L) as G. rewrite (LE _ _ _ G), (LT _ _ _ G), (LT0 _ _ G). reflexivity.
  Qed.
End Searches.

(** ** The loop, for a descent that keeps in step *)

Section Loop.
  Context {Aux : Type}.
  Variables (n m : nat) (U : list R -> list R) (c : R).
  Hypothesis HU : linear_map n U.
  Hypothesis Hc : c <> 0%R.
  Variables (P : ar_tols RN) (s : builtin_search RN) (D : Descent RN).
  Variables (jac_of : (list R -> list R * Aux) -> list R -> linop RN) (fn fn' : list R -> list R * Aux).
  Hypothesis HF : other_units n m U c fn fn'.
  Hypothesis HJ : forall y, length y = n -> chain_rule n m U c (jac_of fn y) (jac_of fn' (U y)).
  Variable dr : DSt D -> DSt D -> Prop.
  Hypothesis Hinit : forall (y : list R) f1 f2, length y = n -> dr (d_init D y f1) (d_init D (U y) f2).
  Hypothesis Hquery : forall (y : list R) s1 s2, length y = n -> dr s1 s2 ->
    dr (d_query D y (ResidualJac (fst (fn y)) (jac_of fn y)) s1) (d_query D (U y) (ResidualJac (fst (fn' (U y))) (jac_of fn' (U y))) s2).
  Hypothesis Hdstep : forall t s1 s2, dr s1 s2 -> length (fst (d_step D t s1)) = n /\ d_step D t s2 = (U (fst (d_step D t s1)), snd (d_step D t s1)).
  Hypothesis Hsup : forall f1 f2, jrel n m U c f1 f2 -> d_supports D f2 = d_supports D f1.
  Let sol := gauss_newton_solver (N:=RN) (Aux:=Aux) P (search_of s) D jac_of.

  Definition urel (y : list R) (a b : gn_state (N:=RN) (Aux:=Aux) (search_of s) D) : Prop :=
    length y = n /\ gn_first_step b = gn_first_step a /\ length (gn_y_eval a) = n /\ gn_y_eval b = U (gn_y_eval a) /\
    gn_search_state b = gn_search_state a /\ jrel n m U c (gn_f_info a) (gn_f_info b) /\
    gn_aux b = gn_aux a /\ dr (gn_descent_state a) (gn_descent_state b) /\ gn_result b = gn_result a /\
    gn_num_accepted_steps b = gn_num_accepted_steps a.

  Lemma urel_step : forall y a b, urel y a b ->
    fst (fst (s_step sol fn' (U y) b)) = U (fst (fst (s_step sol fn y a))) /\ snd (s_step sol fn' (U y) b) = snd (s_step sol fn y a) /\
    urel (fst (fst (s_step sol fn y a))) (snd (fst (s_step sol fn y a))) (snd (fst (s_step sol fn' (U y) b))).
  Proof.
    intros y a b (Hy & R1 & R2 & R3 & R4 & R5 & R8 & R9 & R11 & R12).
    cbn [s_step sol gauss_newton_solver]. unfold gn_step. rewrite R3.
    destruct (HF _ R2) as [F1 F2]. pose proof (HJ _ R2) as HT. pose proof (Hquery _ _ _ R2 R9) as DQ. rewrite F2 in DQ |- *.
    destruct (fn (gn_y_eval a)) as [re xe] eqn:Ef. cbn [fst snd] in *. rewrite R1, R4, R8, R12.
    set (e1 := ResidualJac re (jac_of fn (gn_y_eval a))) in *. set (e2 := ResidualJac (Rscal c re) (jac_of fn' (U (gn_y_eval a)))) in *.
    assert (He : jrel n m U c e1 e2) by (cbn; auto).
    rewrite (search_units n m U c HU Hc s (gn_first_step a) y (gn_y_eval a) (gn_f_info a) (gn_f_info b) e1 e2 _ Hy R2 R5 He).
    destruct (se_step (search_of s) (gn_first_step a) y (gn_y_eval a) (gn_f_info a) e1 (gn_search_state a)) as [[[t acc] sr] ss].
    destruct acc.
    - destruct (Hdstep t _ _ DQ) as [D1 D2]. rewrite D2.
      destruct (d_step D t (d_query D (gn_y_eval a) e1 _)) as [yd res]. cbn [fst snd] in *.
      split; [reflexivity|]. split; [reflexivity|].
      rewrite (L_add n U HU) by assumption.
      unfold urel. cbn -[jrel vadd]. repeat (split; [first [assumption|reflexivity|exact He|exact DQ|apply (vadd_len n); assumption]|]). reflexivity.
    - destruct (Hdstep t _ _ R9) as [D1 D2]. rewrite D2.
      destruct (d_step D t (gn_descent_state a)) as [yd res]. cbn [fst snd] in *.
      split; [reflexivity|]. split; [reflexivity|].
      rewrite (L_add n U HU) by assumption.
      unfold urel. cbn -[jrel vadd]. repeat (split; [first [assumption|reflexivity|exact R9|apply (vadd_len n); assumption]|]). reflexivity.
  Qed.

  Lemma urel_run : forall (y0 : list R) fs fs' auxs, length y0 = n -> length (fs fill0) = m -> fs' fill0 = Rscal c (fs fill0) ->
    match s_init sol fn y0 fs auxs, s_init sol fn' (U y0) fs' auxs with
    | Ret a, Ret b => forall k,
        y_at sol fn' (U y0) b (auxs fill0) k = U (y_at sol fn y0 a (auxs fill0) k) /\
        aux_at sol fn' (U y0) b (auxs fill0) k = aux_at sol fn y0 a (auxs fill0) k /\
        urel (y_at sol fn y0 a (auxs fill0) k) (st_at sol fn y0 a (auxs fill0) k) (st_at sol fn' (U y0) b (auxs fill0) k)
    | Raise e, Raise e' => e' = e
    | _, _ => False
    end.
  Proof.
    intros y0 fs fs' auxs Hy Hf Hf'. cbn [s_init sol gauss_newton_solver]. unfold gn_init. cbv zeta. rewrite Hf'.
    set (f1 := ResidualJac (fs fill0) _). set (f2 := ResidualJac (Rscal c (fs fill0)) _).
    assert (Hi : jrel n m U c f1 f2).
    { split; [exact Hf|]. split; [reflexivity|]. unfold zero_op. rewrite !vfull0.
      change (@length RN) with (@length R). rewrite Rscal_length, Hf.
      split; [split; [|split]|]; cbn [op_mv]; intros.
      - apply zerov_length.
      - pose proof (Radd_v_0_r (zerov m)) as E. rewrite zerov_length in E. symmetry. exact E.
      - symmetry. apply Rscal_zerov.
      - symmetry. apply Rscal_zerov. }
    assert (S1 : se_supports (search_of s) f2 = se_supports (search_of s) f1) by (destruct s; reflexivity).
    rewrite S1, (Hsup _ _ Hi). destruct (negb _); [reflexivity|].
    set (a := mkGn _ _ true y0 _ f1 _ _ _ _ _ _ _). set (b := mkGn _ _ true (U y0) _ f2 _ _ _ _ _ _ _).
    assert (U0 : urel y0 a b).
    { unfold urel, a, b. cbn -[jrel f1 f2]. rewrite (se_init_rel s y0 (U y0) f1).
      repeat (split; [first [assumption|reflexivity|exact Hi|apply Hinit; assumption]|]). reflexivity. }
    clearbody a b. induction k as [|k IH]; [split; [reflexivity|split; [reflexivity|exact U0]]|].
    destruct IH as (I1 & I2 & I3). destruct (urel_step _ _ _ I3) as (S2 & S3 & S4).
    unfold y_at, st_at, aux_at in *. cbn [trace]. rewrite I1. auto.
  Qed.
End Loop.

(** ** Claims *)

Section Conclude.
  Context {Aux : Type}.
  Variables (n m : nat) (U : list R -> list R) (c : R) (P : ar_tols RN) (s : builtin_search RN) (D : Descent RN).
  Variables (jac_of : (list R -> list R * Aux) -> list R -> linop RN) (fn fn' : list R -> list R * Aux) (dr : DSt D -> DSt D -> Prop).
  Let sol := gauss_newton_solver (N:=RN) (Aux:=Aux) P (search_of s) D jac_of.
  Lemma run_keeps : forall (y0 : list R) fs fs' auxs,
    match s_init sol fn y0 fs auxs, s_init sol fn' (U y0) fs' auxs with
    | Ret a, Ret b => forall k,
        y_at sol fn' (U y0) b (auxs fill0) k = U (y_at sol fn y0 a (auxs fill0) k) /\
        aux_at sol fn' (U y0) b (auxs fill0) k = aux_at sol fn y0 a (auxs fill0) k /\
        urel n m U c s D dr (y_at sol fn y0 a (auxs fill0) k) (st_at sol fn y0 a (auxs fill0) k) (st_at sol fn' (U y0) b (auxs fill0) k)
    | Raise e, Raise e' => e' = e
    | _, _ => False
    end ->
    keeps_step (search_of s) D sol (fun st => st) U fn fn' y0 (auxs fill0) (s_init sol fn y0 fs auxs) (s_init sol fn' (U y0) fs' auxs).
  Proof.
    intros y0 fs fs' auxs H. unfold keeps_step. destruct (s_init sol fn y0 fs auxs) as [a|e|], (s_init sol fn' (U y0) fs' auxs) as [b|e'|]; auto.
    intro k. destruct (H k) as (H1 & H2 & H3). destruct H3 as (_ & _ & _ & _ & H4 & _ & _ & _ & H5 & H6). repeat split; assumption.
  Qed.
End Conclude.

Lemma jrel_sup : forall n m U c lsolve eps fmax d f1 f2, jrel n m U c f1 f2 ->
  d_supports (descent_of lsolve eps fmax d) f2 = d_supports (descent_of (N:=RN) lsolve eps fmax d) f1.
Proof. intros n m U c lsolve eps fmax d [] [] H; try contradiction H. destruct d; reflexivity. Qed.

(** A Gauss-Newton method with any search of the library does not depend on the units of the residuals, nor on the
    units of the unknowns (or any other linear change of variables): multiply the residuals by any c <> 0 and write
    the problem in the variables U y, and every iterate is the old one in the new variables, with the same accepted
    and rejected steps, statuses, step sizes and aux outputs. *)
Lemma C122_gauss_newton_pf :
  forall (Aux : Type) n m U c lsolve eps fmax (P : ar_tols RN) (s : builtin_search RN)
    (jac_of : (list R -> list R * Aux) -> list R -> linop RN) (fn fn' : list R -> list R * Aux),
    linear_map n U -> c <> 0%R -> other_units n m U c fn fn' ->
    (forall y, length y = n -> chain_rule n m U c (jac_of fn y) (jac_of fn' (U y)) /\
                               same_newton n U c lsolve (jac_of fn y) (jac_of fn' (U y)) (fst (fn y))) ->
  let D := descent_of lsolve eps fmax (NewtonDescent None) in
  let sol := gauss_newton_solver (N:=RN) (Aux:=Aux) P (search_of s) D jac_of in
  forall y0 fs fs' auxs, length y0 = n -> length (fs fill0) = m -> fs' fill0 = Rscal c (fs fill0) ->
    keeps_step (search_of s) D sol (fun st => st) U fn fn' y0 (auxs fill0) (s_init sol fn y0 fs auxs) (s_init sol fn' (U y0) fs' auxs).
Proof.
  intros Aux n m U c lsolve eps fmax P s jac_of fn fn' HU Hc HF HJ D sol y0 fs fs' auxs Hy Hf Hf'.
  set (dr := fun a b : list R * results => length (fst a) = n /\ b = (U (fst a), snd a)).
  apply (run_keeps n m U c P s D jac_of fn fn' dr). apply (urel_run n m U c HU Hc P s D jac_of fn fn' HF); auto.
  - intros y Hy'. apply HJ. exact Hy'.
  - intros y f1 f2 Hy'. cbn. split; [exact Hy'|reflexivity].
  - intros y s1 s2 Hy' _. destruct (HJ y Hy') as [_ (N1 & N2)]. destruct (HF y Hy') as [_ F]. cbn [d_query D descent_of newton_descent newton_step normalise].
    rewrite F. cbn [fst]. rewrite N2. destruct (lsolve (jac_of fn y) (fst (fn y))) as [x r]. split; [exact N1|reflexivity].
  - intros t s1 s2 [L ->]. cbn [d_step D descent_of newton_descent fst snd]. split; [apply vscale_len; exact L|].
    rewrite (L_scale n U HU) by exact L. reflexivity.
  - intros f1 f2. apply jrel_sup.
Qed.

(** If only the residuals change units, the same holds for the Newton descent with any normalisation and for the dogleg
    descent with any norm and any root finder, provided the dogleg's test `denom > eps` comes out the same. *)
Lemma C122_dogleg_pf :
  forall (Aux : Type) n m c lsolve eps fmax (P : ar_tols RN) (s : builtin_search RN) (d : builtin_descent RN)
    (jac_of : (list R -> list R * Aux) -> list R -> linop RN) (fn fn' : list R -> list R * Aux),
    let U v := v in
    c <> 0%R -> (0 <= eps)%R -> newton_or_dogleg d -> other_units n m U c fn fn' ->
    (forall y, length y = n -> chain_rule n m U c (jac_of fn y) (jac_of fn' y) /\ chain_rule_transpose n m c (jac_of fn y) (jac_of fn' y) /\
                               same_newton n U c lsolve (jac_of fn y) (jac_of fn' y) (fst (fn y)) /\ same_guard eps c (jac_of fn y) (fst (fn y))) ->
  let D := descent_of lsolve eps fmax d in
  let sol := gauss_newton_solver (N:=RN) (Aux:=Aux) P (search_of s) D jac_of in
  forall y0 fs fs' auxs, length y0 = n -> length (fs fill0) = m -> fs' fill0 = Rscal c (fs fill0) ->
    keeps_step (search_of s) D sol (fun st => st) U fn fn' y0 (auxs fill0) (s_init sol fn y0 fs auxs) (s_init sol fn' y0 fs' auxs).
Proof.
  intros Aux n m c lsolve eps fmax P s d jac_of fn fn' U Hc He Hd HF HJ D sol y0 fs fs' auxs Hy Hf Hf'.
  pose proof (id_linear n : linear_map n U) as HU.
  set (dlen := match d return DSt (descent_of lsolve eps fmax d) -> Prop with
               | NewtonDescent _ => fun a => length (fst a) = n
               | DoglegDescent _ _ => fun a => length (dl_newton a) = n /\ length (dl_cauchy a) = n
               | _ => fun a => True end).
  set (dr := fun a b : DSt D => dlen a /\ b = a).
  apply (run_keeps n m U c P s D jac_of fn fn' dr). apply (urel_run n m U c HU Hc P s D jac_of fn fn' HF); auto.
  - intros y Hy'. apply HJ. exact Hy'.
  - intros y f1 f2 Hy'. unfold dr, D, U, dlen. destruct d; try contradiction Hd; cbn; auto.
  - intros y s1 s2 Hy' _. destruct (HJ y Hy') as (((l1 & l2 & l3) & T) & TT & (N1 & N2) & G). destruct (HF y Hy') as [F0 F]. unfold U in F, T, N2 |- *. rewrite F. cbn [fst].
    unfold dr, D, dlen. destruct d; try contradiction Hd; cbn [d_query descent_of newton_descent dogleg_descent newton_step].
    + rewrite N2. destruct (lsolve (jac_of fn y) (fst (fn y))) as [x r]. cbn [fst snd] in *. split; [|reflexivity].
      destruct norm; cbn; [unfold vdivs; rewrite map_length|]; exact N1.
    + unfold dogleg_query. cbn [newton_step info_grad]. rewrite N2.
      destruct (TT _ F0) as [G1 G2]. rewrite G2.
      set (g := op_mvT (jac_of fn y) (fst (fn y))) in *.
      assert (E : op_mv (jac_of fn' y) (Rscal (c * c) g) = Rscal (c * (c * c)) (op_mv (jac_of fn y) g)).
      { rewrite T by (rewrite Rscal_length; exact G1). rewrite l3 by exact G1. unfold Rscal. rewrite map_map. apply map_ext. intro x. ring. }
      rewrite E, !sq_scal.
      assert (GG : nltb (n:=RN) eps (c * (c * c) * (c * (c * c)) * sum_squares (N:=RN) (op_mv (jac_of fn y) g))%R = nltb (n:=RN) eps (sum_squares (N:=RN) (op_mv (jac_of fn y) g))).
      { unfold same_guard in G. cbv zeta in G. fold g in G. apply eq_true_iff_eq. change (nltb (n:=RN)) with Rltb. rewrite !Rltb_true. rewrite !sum_squares_RN.
        replace (c * (c * c) * (c * (c * c)))%R with (c ^ 6)%R by ring. symmetry. exact G. }
      rewrite GG. destruct (lsolve (jac_of fn y) (fst (fn y))) as [x r]. cbn [fst snd] in *.
      set (den := sum_squares (N:=RN) (op_mv (jac_of fn y) g)) in *.
      cbn [dl_newton dl_cauchy]. split; [split; [apply vneg_len; exact N1|apply vscale_len; exact G1]|].
      assert (EC : forall b : bool, (b = true -> (den <> 0)%R) ->
        vscale (N:=RN) (nneg (n:=RN) (if b then ndiv (n:=RN) (c * c * (c * c) * sum_squares (N:=RN) g)%R (if b then (c * (c * c) * (c * (c * c)) * den)%R else nofQ 1) else nofQ 0)) (Rscal (c * c) g) =
        vscale (N:=RN) (nneg (n:=RN) (if b then ndiv (n:=RN) (sum_squares (N:=RN) g) (if b then den else nofQ 1) else nofQ 0)) g).
      { intros b Hb. rewrite !vscale_RN. unfold Rscal. rewrite map_map. apply map_ext. intro x0. destruct b.
        - specialize (Hb eq_refl). change (- (c * c * (c * c) * sum_squares (N:=RN) g / (c * (c * c) * (c * (c * c)) * den)) * (c * c * x0) = - (sum_squares (N:=RN) g / den) * x0)%R.
          field. split; assumption.
        - change (nofQ (n:=RN) 0) with (Q2R 0). rewrite Q2R_0. change (- 0 * (c * c * x0) = - 0 * x0)%R. ring. }
      rewrite EC; [reflexivity|]. intro E0. intro Z. rewrite Z in E0.
      apply Rltb_true in E0. lra.
  - intros t s1 s2 [L ->]. unfold U. split; [|apply surjective_pairing]. unfold D, dlen in *. destruct d; try contradiction Hd.
    + cbn [d_step descent_of newton_descent fst]. apply vscale_len. exact L.
    + set (ls0 := fun (_ : linop RN) (_ : list R) => (zerov n, successful)).
      assert (HB : blind_solver n (fun v => v) ls0) by (intros k V A B b _ _ _; split; [apply zerov_length|reflexivity]).
      apply (d_step_rel n n (fun v => v) (fun v => v) ls0 eps fmax (id_iso n) (id_iso n) HB (DoglegDescent norm rfind) t s1 s1).
      * intros v _. reflexivity.
      * destruct L as [L1 L2]. split; [exact L1|]. split; [exact L2|]. destruct s1; reflexivity.
  - intros f1 f2. apply jrel_sup.
Qed.

Section Solvers.
  Variables (n m : nat) (U : list R -> list R) (c : R) (A B : linop RN).
  Hypothesis HU : linear_map n U.
  Hypothesis Honto : forall a, length a = n -> exists b, length b = n /\ U b = a.
  Hypothesis Hc : c <> 0%R.
  Hypothesis HC : chain_rule n m U c A B.

  Lemma other_linear : linear_op n m B.
  Proof.
    pose proof HU as (u1 & u2 & u3). pose proof HC as ((a1 & a2 & a3) & HB). pose proof (scal_linear m c) as (v1 & v2 & v3). split; [|split].
    - intros x Hx. destruct (Honto x Hx) as (z & Hz & <-). rewrite HB by exact Hz. apply v1, a1, Hz.
    - intros x y Hx Hy. destruct (Honto x Hx) as (z & Hz & <-), (Honto y Hy) as (t & Ht & <-).
      rewrite <- u2 by assumption. rewrite !HB by (try assumption; apply Radd_v_length; assumption). rewrite a2 by assumption. apply v2; apply a1; assumption.
    - intros k x Hx. destruct (Honto x Hx) as (z & Hz & <-). rewrite <- u3 by assumption.
      rewrite !HB by (try assumption; rewrite Rscal_length; assumption). rewrite a3 by assumption. apply v3, a1, Hz.
  Qed.
  Lemma other_misfit : forall b v : list R, length b = m -> length v = n ->
    Rdot (Rsub_v (op_mv B (U v)) (Rscal c b)) (Rsub_v (op_mv B (U v)) (Rscal c b)) = (c * c * Rdot (Rsub_v (op_mv A v) b) (Rsub_v (op_mv A v) b))%R.
  Proof.
    intros b v Hb Hv. pose proof HC as ((a1 & a2 & a3) & HB). rewrite HB by exact Hv.
    pose proof (L_sub m (Rscal c) (scal_linear m c) (op_mv A v) b (a1 v Hv) Hb) as E. rewrite !vsub_RN in E. rewrite E.
    rewrite Rdot_scal_l, Rdot_scal_r. rring.
  Qed.
  Lemma least_squares_unique : forall b x x' : list R, full_rank n A -> length b = m -> length x = n -> length x' = n ->
    (forall w : list R, length w = n -> (Rdot (Rsub_v (op_mv A x) b) (Rsub_v (op_mv A x) b) <= Rdot (Rsub_v (op_mv A w) b) (Rsub_v (op_mv A w) b))%R) ->
    (Rdot (Rsub_v (op_mv A x') b) (Rsub_v (op_mv A x') b) <= Rdot (Rsub_v (op_mv A x) b) (Rsub_v (op_mv A x) b))%R -> x' = x.
  Proof.
    intros b x x' HR Lb Lx Lx' Mx I2. pose proof HC as ((a1 & a2 & a3) & _).
    set (mid := Rscal (1/2) (Radd_v x x')).
    assert (Lm : length mid = n) by (unfold mid; rewrite Rscal_length; apply Radd_v_length; assumption).
    set (p := Rsub_v (op_mv A x) b) in *. set (q := Rsub_v (op_mv A x') b) in *.
    assert (Lp : length p = m) by (apply Rsub_v_length; auto). assert (Lq : length q = m) by (apply Rsub_v_length; auto).
    assert (Em : Rsub_v (op_mv A mid) b = Rscal (1/2) (Radd_v p q)).
    { unfold mid. rewrite a3 by (apply Radd_v_length; assumption). rewrite a2 by assumption. apply (half_sub m); auto. }
    pose proof (Mx mid Lm) as I3. rewrite Em, (half_sq m) in I3 by assumption.
    pose proof (Rdot_pos (Rsub_v p q)) as Q.
    assert (Z : Rdot (Rsub_v p q) (Rsub_v p q) = 0%R) by (rewrite (sub_sq m) in * by assumption; lra).
    apply Rdot_0_inv in Z. rewrite (Rsub_v_length p q m) in Z by assumption. apply (sub_0_eq m) in Z; try assumption.
    apply HR; try assumption. unfold p, q in Z.
    assert (C : forall k (u v w : list R), length u = k -> length v = k -> length w = k -> Rsub_v u w = Rsub_v v w -> v = u).
    { induction k as [|k IH]; intros [|a u] [|a' v] [|e w] H1 H2 H3 E; try discriminate; [reflexivity|]. cbn in E. injection E as E1 E2.
      f_equal; [lra|]. apply (IH u v w); auto. }
    apply (C m _ _ b); auto.
  Qed.
End Solvers.

(** The condition on the linear solver holds if the Jacobian has full column rank, the solver finds least-squares
    solutions, and the change of variables can be undone. *)
Lemma C122_least_squares_pf :
  forall n m U c A B lsolve (r : list R),
    linear_map n U -> (forall a, length a = n -> exists b, length b = n /\ U b = a) -> c <> 0%R -> chain_rule n m U c A B ->
    exact_least_squares n lsolve -> (forall A b, snd (lsolve A b) = successful) -> full_rank n A -> length r = m ->
    same_newton n U c lsolve A B r.
Proof.
  intros n m U c A B lsolve r HU Honto Hc HC HE HS HR Lr.
  destruct (HE m A r (proj1 HC) Lr) as [L1 M1]. assert (Lc : length (Rscal c r) = m) by (rewrite Rscal_length; exact Lr).
  destruct (HE m B (Rscal c r) (other_linear n m U c A B HU Honto HC) Lc) as [L2 M2].
  split; [exact L1|]. rewrite (surjective_pairing (lsolve B (Rscal c r))), !HS. f_equal.
  destruct (Honto _ L2) as (w & Lw & Ew). rewrite <- Ew in M2 |- *. f_equal.
  apply (least_squares_unique n m U c A B HC r); auto.
  pose proof (M2 _ (proj1 HU _ L1)) as I. rewrite !(other_misfit n m U c A B HC) in I by assumption.
  assert (K : (0 < c * c)%R) by nra. apply (Rmult_le_reg_l _ _ _ K). exact I.
Qed.

(** If only the residuals change units, it also holds, whatever the rank, of a solver that finds the least-squares
    solution of least norm. *)
Lemma C122_minimum_norm_pf :
  forall n m c A B lsolve (r : list R),
    c <> 0%R -> chain_rule n m (fun v => v) c A B ->
    (forall k A (b : list R), linear_op n k A -> length b = k -> minimum_norm_solution n A b (fst (lsolve A b)) /\ snd (lsolve A b) = successful) ->
    length r = m -> same_newton n (fun v => v) c lsolve A B r.
Proof.
  intros n m c A B lsolve r Hc HC HS Lr.
  assert (Honto : forall a : list R, length a = n -> exists b : list R, length b = n /\ b = a) by eauto.
  assert (LB := other_linear n m (fun v => v) c A B (id_linear n) Honto HC).
  assert (Lc : length (Rscal c r) = m) by (rewrite Rscal_length; exact Lr).
  destruct (HS m A r (proj1 HC) Lr) as [(Lx & Mx & Nx) E1]. destruct (HS m B _ LB Lc) as [M2 E2].
  split; [exact Lx|]. rewrite (surjective_pairing (lsolve B (Rscal c r))), E1, E2. f_equal.
  apply (minimum_norm_unique n m B (Rscal c r)); auto.
  pose proof (other_misfit n m (fun v => v) c A B HC) as EM. cbv beta in EM. assert (K : (0 < c * c)%R) by nra.
  split; [exact Lx|]. split.
  - intros v Hv. rewrite !EM by assumption. apply Rmult_le_compat_l; [lra|]. apply Mx, Hv.
  - intros v Hv. rewrite !EM by assumption. intro I. apply Nx; [exact Hv|]. apply (Rmult_le_reg_l _ _ _ K). exact I.
Qed.

Lemma cubic_jac_eq : forall c k x, k <> 0%R ->
  cubic_jac (cubic c k) [x] = MatOp (N:=RN) 1 [[c * (3 * (x / k) ^ 2 + 1) / k]; [c * 2 / k]]%R.
Proof.
  intros c k x Hk. unfold cubic_jac, cubic. cbn [nth fst].
  replace (Derive (fun x0 : R => (c * ((x0 / k) ^ 3 + x0 / k))%R) x) with (c * (3 * (x / k) ^ 2 + 1) / k)%R.
  2:{ symmetry. apply is_derive_unique. auto_derive; [exact I|]. field. exact Hk. }
  replace (Derive (fun x0 : R => (c * (2 * (x0 / k)))%R) x) with (c * 2 / k)%R; [reflexivity|].
  symmetry. apply is_derive_unique. auto_derive; [exact I|]. field. exact Hk.
Qed.

Lemma cubic_units : forall c k, k <> 0%R -> c <> 0%R ->
  linear_map 1 (Rscal k) /\ other_units 1 2 (Rscal k) c (cubic 1 1) (cubic c k) /\
  (forall y, length y = 1 -> chain_rule 1 2 (Rscal k) c (cubic_jac (cubic 1 1) y) (cubic_jac (cubic c k) (Rscal k y)) /\
     full_rank 1 (cubic_jac (cubic 1 1) y)).
Proof.
  intros c k Hk Hc. split; [apply scal_linear|]. split.
  - intros [|x [|? ?]] H; try discriminate H. split; [reflexivity|]. unfold cubic. cbn [Rscal map nth fst snd]. f_equal.
    f_equal; [|f_equal]; field; exact Hk.
  - intros [|x [|? ?]] H; try discriminate H. cbn [Rscal map]. rewrite !cubic_jac_eq by (assumption || lra). split; [split|].
    + apply mat_linear. repeat constructor.
    + intros [|v [|? ?]] Hv; try discriminate Hv. rewrite !op_mv_RN. unfold mvec. cbn [Rscal map Rdot]. f_equal; [|f_equal]; field; exact Hk.
    + intros [|v [|? ?]] [|w [|? ?]] Hv Hw E; try discriminate. rewrite !op_mv_RN in E. unfold mvec in E. cbn [map Rdot] in E. injection E as _ E. f_equal. lra.
Qed.

(** The residuals (x^3 + x, 2x) in other units of the residuals (c) and of the unknown (k): the hypotheses hold, and
    every search gives the same iterates, multiplied by k. *)
Example C122_gauss_newton_ex_pf :
  forall (P : ar_tols RN) (s : builtin_search RN) (c k x0 : R), k <> 0%R -> c <> 0%R ->
  let D := descent_of lsolve1 0%R 1%R (NewtonDescent None) in
  let sol := gauss_newton_solver (N:=RN) (Aux:=unit) P (search_of s) D cubic_jac in
  exists a b, s_init sol (cubic 1 1) [x0] (fun _ => [0; 0]%R) (fun _ => tt) = Ret a /\
              s_init sol (cubic c k) [k * x0]%R (fun _ => [0; 0]%R) (fun _ => tt) = Ret b /\
  forall j, y_at sol (cubic c k) [k * x0]%R b tt j = Rscal k (y_at sol (cubic 1 1) [x0] a tt j).
Proof.
  intros P s c k x0 Hk Hc D sol. destruct (cubic_units c k Hk Hc) as (H1 & H2 & H3).
  pose proof (C122_gauss_newton_pf unit 1 2 (Rscal k) c lsolve1 0%R 1%R P s cubic_jac (cubic 1 1) (cubic c k) H1 Hc H2) as C.
  assert (K : forall y, length y = 1 -> chain_rule 1 2 (Rscal k) c (cubic_jac (cubic 1 1) y) (cubic_jac (cubic c k) (Rscal k y)) /\
    same_newton 1 (Rscal k) c lsolve1 (cubic_jac (cubic 1 1) y) (cubic_jac (cubic c k) (Rscal k y)) (fst (cubic 1 1 y))).
  { intros y Hy. destruct (H3 y Hy) as [A1 A2]. split; [exact A1|]. apply (C122_least_squares_pf 1 2); auto.
    - intros a Ha. exists (Rscal (/ k) a). rewrite Rscal_length. split; [exact Ha|]. unfold Rscal. rewrite map_map. rewrite <- (map_id a) at 2. apply map_ext. intro z. field. exact Hk.
    - apply C32_levenberg_marquardt_ex_pf. }
  specialize (C K [x0] (fun _ => [0; 0]%R) (fun _ => [0; 0]%R) (fun _ => tt) eq_refl eq_refl).
  assert (E : [0; 0]%R = Rscal c [0; 0]%R) by (cbn; rewrite Rmult_0_r; reflexivity).
  specialize (C E). unfold keeps_step in C. fold D sol in C. cbn [Rscal map] in C.
  assert (I1 : exists a, s_init sol (cubic 1 1) [x0] (fun _ => [0; 0]%R) (fun _ => tt) = Ret a) by (destruct s; eexists; reflexivity).
  assert (I2 : exists a, s_init sol (cubic c k) [k * x0]%R (fun _ => [0; 0]%R) (fun _ => tt) = Ret a) by (destruct s; eexists; reflexivity).
  destruct I1 as (a & Ea), I2 as (b & Eb). exists a, b. split; [exact Ea|]. split; [exact Eb|]. intro j.
  rewrite Ea, Eb in C. apply C.
Qed.

(** The same residuals with the dogleg descent, residual units c. *)
Example C122_dogleg_ex_pf :
  forall (P : ar_tols RN) (s : builtin_search RN) norm rfind (c x0 : R), c <> 0%R ->
  let D := descent_of lsolve1 0%R 1%R (DoglegDescent norm rfind) in
  let sol := gauss_newton_solver (N:=RN) (Aux:=unit) P (search_of s) D cubic_jac in
  exists a b, s_init sol (cubic 1 1) [x0] (fun _ => [0; 0]%R) (fun _ => tt) = Ret a /\
              s_init sol (cubic c 1) [x0] (fun _ => [0; 0]%R) (fun _ => tt) = Ret b /\
  forall j, y_at sol (cubic c 1) [x0] b tt j = y_at sol (cubic 1 1) [x0] a tt j.
Proof.
  intros P s norm rfind c x0 Hc D sol. destruct (cubic_units c 1 ltac:(lra) Hc) as (H1 & H2 & H3).
  assert (S1 : forall v, Rscal 1 v = v) by (intro v; unfold Rscal; rewrite <- (map_id v) at 2; apply map_ext; intro; ring).
  assert (EU : Rscal 1 = (fun v => v)) by (extensionality v; apply S1). rewrite EU in *. cbv beta in *.
  pose proof (C122_dogleg_pf unit 1 2 c lsolve1 0%R 1%R P s (DoglegDescent norm rfind) cubic_jac (cubic 1 1) (cubic c 1) Hc (Rle_refl 0) I H2) as C.
  assert (K : forall y, length y = 1 -> chain_rule 1 2 (fun v => v) c (cubic_jac (cubic 1 1) y) (cubic_jac (cubic c 1) y) /\
    chain_rule_transpose 1 2 c (cubic_jac (cubic 1 1) y) (cubic_jac (cubic c 1) y) /\
    same_newton 1 (fun v => v) c lsolve1 (cubic_jac (cubic 1 1) y) (cubic_jac (cubic c 1) y) (fst (cubic 1 1 y)) /\
    same_guard 0 c (cubic_jac (cubic 1 1) y) (fst (cubic 1 1 y))).
  { intros y Hy. destruct (H3 y Hy) as [A1 A2]. split; [exact A1|]. split; [|split].
    - destruct y as [|x [|? ?]]; try discriminate Hy. rewrite !cubic_jac_eq by lra. intros [|w1 [|w2 [|? ?]]] Hw; try discriminate Hw.
      assert (M : forall p q : R, mat 2 1 [[p]; [q]]) by (intros; repeat constructor).
      rewrite !(op_mvT_RN 2 1) by apply M. split; [reflexivity|]. unfold tmvec. cbn. f_equal. field.
    - apply (C122_least_squares_pf 1 2); auto; [intros a Ha; eauto|apply C32_levenberg_marquardt_ex_pf].
    - unfold same_guard. cbv zeta. set (z := op_mv _ _ : list R). assert (K : (0 < c ^ 6)%R) by (replace (c ^ 6)%R with ((c * c) * (c * c) * (c * c))%R by ring; assert (0 < c * c)%R by nra; apply Rmult_lt_0_compat; [apply Rmult_lt_0_compat|]; assumption).
      split; intro HH; [apply Rmult_lt_0_compat; assumption|]. apply (Rmult_lt_reg_l _ _ _ K). rewrite Rmult_0_r. exact HH. }
  specialize (C K [x0] (fun _ => [0; 0]%R) (fun _ => [0; 0]%R) (fun _ => tt) eq_refl eq_refl).
  assert (E : [0; 0]%R = Rscal c [0; 0]%R) by (cbn; rewrite Rmult_0_r; reflexivity).
  specialize (C E). unfold keeps_step in C. fold D sol in C.
  assert (I1 : exists a, s_init sol (cubic 1 1) [x0] (fun _ => [0; 0]%R) (fun _ => tt) = Ret a) by (destruct s; eexists; reflexivity).
  assert (I2 : exists a, s_init sol (cubic c 1) [x0] (fun _ => [0; 0]%R) (fun _ => tt) = Ret a) by (destruct s; eexists; reflexivity).
  destruct I1 as (a & Ea), I2 as (b & Eb). exists a, b. split; [exact Ea|]. split; [exact Eb|]. intro j.
  rewrite Ea, Eb in C. apply C.
Qed.

(** Levenberg-Marquardt does depend on the units of the residuals, because its damping 1/step_size is compared with
    J^T J, which has the square of these units. On the residual c x from x = 1 (the Newton step goes to 0 for every c)
    its second iterate is 1 / (1 + c^2): near 0 if c is large, and near 1, almost no progress, if c is small. *)
Lemma C122_levenberg_marquardt_pf :
  forall (P : ar_tols RN) lsolve eps fmax jac_of (c : R), exact_least_squares 1 lsolve -> (eps < 1)%R ->
    (forall y, length y = 1 -> jac_of (proportional c) y = MatOp (N:=RN) 1 [[c]]) ->
  let s := LevenbergMarquardt (N:=RN) P jac_of lsolve eps fmax in
  forall st0, s_init s (proportional c) [1%R] (fun _ => [0%R]) (fun _ => tt) = Ret st0 ->
    y_at s (proportional c) [1%R] st0 tt 2 = [1 / (1 + c * c)]%R.
Proof.
  intros P lsolve eps fmax jac_of c HE He HJ s st0 HI.
  assert (Hp : (0 < 1 + c * c)%R) by nra.
  assert (Z : fst (damped_newton_step (N:=RN) lsolve eps fmax 1 1%R (ResidualJac (N:=RN) [c] (MatOp (N:=RN) 1 [[c]]))) = [c * c / (1 + c * c)]%R).
  { cbn [damped_newton_step length]. unfold lm_param. change (nltb (n:=RN) eps 1%R) with (Rltb eps 1). rewrite (proj2 (Rltb_true eps 1) He).
    rewrite vfull0. assert (HA : linear_op 1 1 (MatOp (N:=RN) 1 [[c]])) by (apply mat_linear; repeat constructor).
    destruct (HE 2 (damped_jac (N:=RN) 1 (MatOp (N:=RN) 1 [[c]]) (ndiv (n:=RN) (nofQ 1) 1%R) 1) [c; 0]%R (damped_linear 1 1 _ _ HA) eq_refl) as [L M].
    change (@eq (list R) (fst (lsolve (damped_jac (N:=RN) 1 (MatOp (N:=RN) 1 [[c]]) (ndiv (n:=RN) (nofQ 1) 1%R) 1) [c; 0]%R)) [c * c / (1 + c * c)]%R).
    set (z := fst (lsolve _ _)) in *. clearbody z. destruct z as [|z [|? ?]]; try discriminate L.
    specialize (M [c * c / (1 + c * c)]%R eq_refl). unfold damped_jac in M. cbn [op_mv] in M. cbn -[sqrt Q2R] in M.
    replace (Q2R 1 / 1)%R with 1%R in M by (unfold Q2R; cbn; field). replace (Q2R 0) with 0%R in M by (unfold Q2R; cbn; field). rewrite sqrt_1 in M.
    f_equal. set (w := (c * c / (1 + c * c))%R) in *. assert (Ew : (w * (1 + c * c) = c * c)%R) by (unfold w; field; lra). clearbody w.
    assert (M' : ((c * z - c) * (c * z - c) + z * z <= (c * w - c) * (c * w - c) + w * w)%R)
      by (eapply Rle_trans; [|eapply Rle_trans; [exact M|]]; right; ring).
    assert (Q : ((1 + c * c) * ((z - w) * (z - w)) = ((c * z - c) * (c * z - c) + z * z) - ((c * w - c) * (c * w - c) + w * w) + 2 * (z - w) * (c * c - w * (1 + c * c)))%R) by ring.
    rewrite Ew in Q. assert (Q2 : ((1 + c * c) * ((z - w) * (z - w)) <= 0)%R) by lra.
    assert (Q3 : ((z - w) * (z - w) <= 0)%R) by (apply (Rmult_le_reg_l _ _ _ Hp); rewrite Rmult_0_r; exact Q2).
    assert (Q4 : (z - w = 0)%R) by (apply Rsqr_0_uniq; pose proof (Rle_0_sqr (z - w)) as Q5; unfold Rsqr in *; lra).
    change (@eq R z w). lra. }
  cbn in HI. injection HI as <-.
  set (w := (1 / (1 + c * c))%R).
  unfold y_at. cbn [trace fst snd].
  assert (F1 : proportional c [1%R] = ([c], tt)) by (unfold proportional; cbn; f_equal; f_equal; ring).
  match goal with |- context [s_step s (proportional c) [1%R] ?st] => set (st1 := st) end.
  assert (E1 : fst (fst (s_step s (proportional c) [1%R] st1)) = [1%R] /\ gn_f_info (snd (fst (s_step s (proportional c) [1%R] st1))) = ResidualJac (N:=RN) [c] (MatOp (N:=RN) 1 [[c]]) /\
    gn_y_eval (snd (fst (s_step s (proportional c) [1%R] st1))) = [w]).
  { unfold s, st1, LevenbergMarquardt. cbn [s_step gauss_newton_solver]. unfold gn_step. cbn [gn_y_eval gn_first_step gn_search_state gn_f_info gn_aux gn_descent_state].
    rewrite F1, HJ by reflexivity.
    cbn [se_step classical_trust_region]. unfold tr_step. cbv zeta. rewrite orb_true_r. cbn [negb]. rewrite !andb_false_r.
    cbn [d_query d_step damped_newton_descent fst snd]. 
    assert (T1 : nmul (n:=RN) (nofQ 1) (Q2R 1) = 1%R) by (cbn; unfold Q2R; cbn; field). rewrite T1.
    change (Datatypes.length [1%R]) with 1.
    destruct (damped_newton_step lsolve eps fmax 1 1%R (ResidualJac [c] (MatOp (N:=RN) 1 [[c]]))) as [x r]. cbn [fst] in Z. subst x.
    cbn [fst snd gn_f_info gn_y_eval]. split; [reflexivity|]. split; [reflexivity|]. cbn. unfold w. f_equal. field. lra. }
  destruct E1 as (A1 & A2 & A3). assert (A4 : gn_first_step (snd (fst (s_step s (proportional c) [1%R] st1))) = false).
  { unfold s, LevenbergMarquardt. cbn [s_step gauss_newton_solver]. unfold gn_step. destruct (proportional c (gn_y_eval st1)).
    destruct (se_step _ _ _ _ _ _ _) as [[[? acc] ?] ?]. destruct acc; destruct (d_step _ _ _); reflexivity. }
  rewrite A1. set (st2 := snd (fst (s_step s (proportional c) [1%R] st1))) in *. clearbody st2.
  unfold s, LevenbergMarquardt. cbn [s_step gauss_newton_solver]. unfold gn_step. rewrite A3.
  assert (F2 : proportional c [w] = ([c * w]%R, tt)) by reflexivity. rewrite F2, A2.
  cbn [se_step classical_trust_region]. unfold tr_step. cbv zeta.
  match goal with |- context [nleb ?a ?b || ?d] => assert (AC : nleb a b = true) end.
  { change (nleb (n:=RN)) with Rleb. apply Rleb_true. cbn -[Q2R]. 
    replace (Q2R (1 # 2)) with (1/2)%R by (unfold Q2R; cbn; field). replace (Q2R 0) with 0%R by (unfold Q2R; cbn; field).
    assert (W : (0 < w <= 1)%R). { unfold w. split; [apply Rdiv_lt_0_compat; lra|]. apply (Rmult_le_reg_r (1 + c * c)); [exact Hp|]. unfold Rdiv. rewrite Rmult_assoc, Rinv_l by lra. nra. }
    assert (W2 : (w * w <= 1)%R) by nra. assert (W3 : (0 <= c * c)%R) by nra. clearbody w.
    assert (Q : (c * c * (w * w - 1) <= 0)%R) by (pose proof (Rmult_le_pos (c * c) (1 - w * w) W3 ltac:(lra)); lra). 
    match goal with |- (?a <= ?b * ?d)%R => replace a with (1/2 * (c * c * (w * w - 1)))%R by ring; replace d with (1/2 * (c * c * (w * w - 1)))%R by ring end. lra. }
  rewrite AC. cbn [orb]. destruct (d_step _ _ _). reflexivity.
Qed.

(** So does the dogleg method, through its test `denom > eps` (eps = 2^-52 for double precision; denom = |J J^T r|^2
    has the sixth power of the unit): with Jacobian diag(1, 2) and residuals (1, 1), in units in which the test fails,
    the Cauchy point is lost, and half a step goes along the Newton direction instead of along the gradient. *)
Lemma C122_dogleg_guard_pf :
  forall lsolve eps, exact_least_squares 2 lsolve -> (forall A b, snd (lsolve A b) = successful) -> (0 < eps < 1/2)%R ->
  let D := dogleg_descent (N:=RN) lsolve eps (two_norm (N:=RN)) None in
  forall y st,
    d_step D (1/2)%R (d_query D y (two_residuals 1) st) = ([-1/4; -1/2]%R, successful) /\
    forall c, c <> 0%R -> (17 * c ^ 6 <= eps)%R ->
      d_step D (1/2)%R (d_query D y (two_residuals c) st) = ([-1/2; -1/4]%R, successful).
Proof.
  intros lsolve eps HE HS He D y st.
  assert (N : forall c, c <> 0%R -> lsolve (MatOp (N:=RN) 2 [[c; 0]; [0; 2 * c]]%R) [c; c] = ([1; 1/2]%R, successful)).
  { intros c Hc. assert (HA : linear_op 2 2 (MatOp (N:=RN) 2 [[c; 0]; [0; 2 * c]]%R)) by (apply mat_linear; repeat constructor).
    destruct (HE 2 _ [c; c] HA eq_refl) as [L M]. rewrite (surjective_pairing (lsolve _ _)), HS. f_equal.
    set (z := fst (lsolve _ _)) in *. clearbody z. destruct z as [|a [|b [|? ?]]]; try discriminate L.
    specialize (M [1; 1/2]%R eq_refl). rewrite !op_mv_RN in M. unfold mvec in M. cbn in M.
    assert (Q : (c * c * ((a - 1) * (a - 1)) + c * c * ((2 * b - 1) * (2 * b - 1)) <= 0)%R)
      by (eapply Rle_trans; [|eapply Rle_trans; [exact M|]]; right; [ring|field]).
    assert (K : (0 < c * c)%R) by nra.
    assert (Q1 : ((a - 1) * (a - 1) + (2 * b - 1) * (2 * b - 1) <= 0)%R).
    { apply (Rmult_le_reg_l _ _ _ K). rewrite Rmult_0_r. lra. }
    pose proof (Rle_0_sqr (a - 1)) as V1. pose proof (Rle_0_sqr (2 * b - 1)) as V2. clear M Q. unfold Rsqr in *.
    assert (Qa : (a - 1 = 0)%R) by (apply Rsqr_0_uniq; unfold Rsqr; lra). assert (Qb : (2 * b - 1 = 0)%R) by (apply Rsqr_0_uniq; unfold Rsqr; lra).
    f_equal; [lra|f_equal; lra]. }
  assert (G : forall c, op_mvT (N:=RN) (MatOp (N:=RN) 2 [[c; 0]; [0; 2 * c]]%R) [c; c] = [c * c; 2 * c * c]%R).
  { intro c. rewrite (op_mvT_RN 2 2) by (repeat constructor). unfold tmvec. cbn. f_equal; [ring|f_equal; ring]. }
  assert (J : forall c, op_mv (N:=RN) (MatOp (N:=RN) 2 [[c; 0]; [0; 2 * c]]%R) [c * c; 2 * c * c]%R = [c ^ 3; 4 * c ^ 3]%R).
  { intro c. rewrite op_mv_RN. unfold mvec. cbn. f_equal; [ring|f_equal; ring]. }
  assert (DEN : forall c, sum_squares (N:=RN) [c ^ 3; 4 * c ^ 3]%R = (17 * c ^ 6)%R) by (intro c; rewrite sum_squares_RN; cbn; rring).
  assert (S5 : forall a b : R, two_norm (N:=RN) [a; b] = sqrt (a * a + b * b)).
  { intros a b. unfold two_norm. change (nsqrt (n:=RN)) with sqrt. rewrite sum_squares_RN. cbn. f_equal. ring. }
  assert (Q0 : nofQ (n:=RN) 0 = 0%R) by (cbn; unfold Q2R; cbn; field).
  assert (Q1 : nofQ (n:=RN) 1 = 1%R) by (cbn; unfold Q2R; cbn; field).
  pose proof (sqrt_lt_R0 5 ltac:(lra)) as P5. pose proof (sqrt_sqrt 5 ltac:(lra)) as SS5.
  assert (SQ : forall k, (0 <= k)%R -> sqrt (5 * (k * k)) = (k * sqrt 5)%R).
  { intros k Hk. rewrite sqrt_mult by (try lra; nra). rewrite sqrt_square by exact Hk. ring. }
  assert (NN : two_norm (N:=RN) [1; 1/2]%R = (1/2 * sqrt 5)%R).
  { rewrite S5. rewrite <- SQ by lra. f_equal. field. }
  split.
  - assert (E : d_query D y (two_residuals 1) st = mkDogleg (N:=RN) [-1; -1/2]%R [-5/17; -10/17]%R (1/2 * sqrt 5)%R (5/17 * sqrt 5)%R successful).
    { cbn [d_query D dogleg_descent]. unfold dogleg_query, two_residuals. cbn [info_grad newton_step]. rewrite N, G, J, DEN by lra.
      change (nltb (n:=RN) eps (17 * 1 ^ 6)%R) with (Rltb eps (17 * 1 ^ 6)). rewrite (proj2 (Rltb_true eps (17 * 1 ^ 6))) by lra.
      assert (EC : vscale (N:=RN) (nneg (n:=RN) (ndiv (n:=RN) (sum_squares (N:=RN) [1 * 1; 2 * 1 * 1]%R) (17 * 1 ^ 6)%R)) [1 * 1; 2 * 1 * 1]%R = [-5/17; -10/17]%R).
      { rewrite sum_squares_RN, vscale_RN. cbn. f_equal; [field|f_equal; field]. }
      rewrite EC, NN, S5.
      assert (EN : vneg (N:=RN) [1; 1/2]%R = [-1; -1/2]%R) by (rewrite vneg_RN; cbn; f_equal; [ring|f_equal; field]). rewrite EN.
      assert (ES : sqrt (-5/17 * (-5/17) + -10/17 * (-10/17)) = (5/17 * sqrt 5)%R) by (rewrite <- SQ by lra; f_equal; field). rewrite ES. reflexivity. }
    rewrite E. cbn [d_step D dogleg_descent]. unfold dogleg_step. cbn [dl_newton_norm dl_cauchy_norm dl_result].
    change (nmul (n:=RN)) with Rmult. change (nltb (n:=RN)) with Rltb. rewrite (proj2 (Rltb_true (1/2 * sqrt 5 * (1/2)) (5/17 * sqrt 5))) by lra.
    unfold scaled_cauchy. cbn [dl_cauchy dl_cauchy_norm]. change (nltb (n:=RN)) with Rltb.
    assert (P2 : (2 < sqrt 5)%R) by nra. 
    rewrite (proj2 (Rltb_true eps (5/17 * sqrt 5))) by lra.
    f_equal. cbn. f_equal; [field; lra|f_equal; field; lra].
  - intros c Hc Hs.
    assert (E : d_query D y (two_residuals c) st = mkDogleg (N:=RN) [-1; -1/2]%R [0; 0]%R (1/2 * sqrt 5)%R 0%R successful).
    { cbn [d_query D dogleg_descent]. unfold dogleg_query, two_residuals. cbn [info_grad newton_step]. rewrite N, G, J, DEN by assumption.
      change (nltb (n:=RN) eps (17 * c ^ 6)%R) with (Rltb eps (17 * c ^ 6)). rewrite (proj2 (Rltb_false eps (17 * c ^ 6))) by lra.
      rewrite Q0. assert (EC : vscale (N:=RN) (nneg (n:=RN) 0%R) [c * c; 2 * c * c]%R = [0; 0]%R).
      { rewrite vscale_RN. cbn. f_equal; [ring|f_equal; ring]. }
      rewrite EC, NN, S5.
      assert (EN : vneg (N:=RN) [1; 1/2]%R = [-1; -1/2]%R) by (rewrite vneg_RN; cbn; f_equal; [ring|f_equal; field]). rewrite EN.
      replace (0 * 0 + 0 * 0)%R with 0%R by ring. rewrite sqrt_0. reflexivity. }
    rewrite E. cbn [d_step D dogleg_descent]. unfold dogleg_step. cbn [dl_newton_norm dl_cauchy_norm dl_result].
    change (nmul (n:=RN)) with Rmult. change (nltb (n:=RN)) with Rltb. rewrite (proj2 (Rltb_false (1/2 * sqrt 5 * (1/2)) 0)) by lra.
    rewrite Q1. rewrite (proj2 (Rltb_true (1/2) 1)) by lra.
    unfold dogleg_mix. cbn [dl_cauchy dl_newton].
    assert (ET : dogleg_t (N:=RN) (mkDogleg (N:=RN) [-1; -1/2]%R [0; 0]%R (1/2 * sqrt 5)%R 0%R successful) (1/2 * sqrt 5 * (1/2))%R = (3/2)%R).
    { unfold dogleg_t. cbv zeta. cbn [dl_cauchy dl_newton dl_cauchy_norm]. rewrite vsub_RN, sum_squares_RN, vdot_RN.
      replace (Rdot (Rsub_v [-1; -1/2]%R [0; 0]%R) (Rsub_v [-1; -1/2]%R [0; 0]%R)) with (5/4)%R by (cbn; field).
      replace (Rdot [0; 0]%R (Rsub_v [-1; -1/2]%R [0; 0]%R)) with 0%R by (cbn; ring).
      replace (nofQ (n:=RN) 2) with 2%R by (cbn; unfold Q2R; cbn; field). replace (nofQ (n:=RN) 4) with 4%R by (cbn; unfold Q2R; cbn; field).
      replace (nofQ (n:=RN) (1#2)) with (1/2)%R by (cbn; unfold Q2R; cbn; field). rewrite Q0, Q1.
      change (nsqrt (n:=RN)) with sqrt. change (nmul (n:=RN)) with Rmult. change (nsub (n:=RN)) with Rminus. change (nadd (n:=RN)) with Rplus. change (ndiv (n:=RN)) with Rdiv. change (nneg (n:=RN)) with Ropp. change (nleb (n:=RN)) with Rleb.
      replace (1/2 * sqrt 5 * (1/2) * (1/2 * sqrt 5 * (1/2)))%R with (5/16)%R by (replace (1/2 * sqrt 5 * (1/2) * (1/2 * sqrt 5 * (1/2)))%R with (1/16 * (sqrt 5 * sqrt 5))%R by field; rewrite SS5; field).
      rewrite (proj2 (Rleb_false 0 (2 * (0 - 5/4)))) by lra.
      assert (ED : sqrt (2 * (0 - 5 / 4) * (2 * (0 - 5 / 4)) - 4 * (5 / 4) * (0 * 0 - 2 * 0 + 5 / 4 - 5 / 16)) = (5/4)%R).
      { match goal with |- sqrt ?x = _ => replace x with (5/4 * (5/4))%R by field end. apply sqrt_square. lra. }
      rewrite ED.
      replace (2 * (0 * 0 - 2 * 0 + 5 / 4 - 5 / 16) / (- (2 * (0 - 5 / 4)) - 5 / 4))%R with (3/2)%R by field.
      apply clip_id. lra. }
    rewrite ET. unfold dogleg_interpolate. rewrite Q1. f_equal. cbn. f_equal; [field|f_equal; field].
Qed.

(** Solvers as in the two lemmas above exist for every number of unknowns (least squares by eliminating columns; the
    projection of its answer onto the span of the rows). *)
Example C122_least_squares_ex_pf :
  (forall n, exact_least_squares n (least_squares n) /\ forall A b, snd (least_squares n A b) = successful) /\
  (forall n k A (b : list R), linear_op n k A -> length b = k ->
     minimum_norm_solution n A b (fst (least_norm n A b)) /\ snd (least_norm n A b) = successful).
Proof. split; [exact least_squares_exact|exact least_norm_exact]. Qed.

(** c = 1/10: one percent of the way. *)
Example C122_levenberg_marquardt_ex_pf :
  let P := mkTols (N:=RN) 0%R (1/100)%R max_norm in
  let jac (f : list R -> list R * unit) (y : list R) := MatOp (N:=RN) 1 [[1/10]]%R in
  let s := LevenbergMarquardt (N:=RN) P jac (least_squares 1) (1/1000)%R 1000%R in
  exists st0, s_init s (proportional (1/10)) [1%R] (fun _ => [0%R]) (fun _ => tt) = Ret st0 /\
    y_at s (proportional (1/10)) [1%R] st0 tt 2 = [100/101]%R.
Proof.
  intros P jac s. eexists. split; [reflexivity|].
  refine (eq_trans (C122_levenberg_marquardt_pf P (least_squares 1) (1/1000) 1000%R jac (1/10) (proj1 (least_squares_exact 1)) _ _ _ _) _).
  - lra.
  - reflexivity.
  - reflexivity.
  - f_equal. field.
Qed.

(** In double precision's eps, residuals a thousand times smaller. *)
Example C122_dogleg_guard_ex_pf :
  let D := dogleg_descent (N:=RN) (least_squares 2) (/ 2 ^ 52)%R (two_norm (N:=RN)) None in
  forall y st, d_step D (1/2)%R (d_query D y (two_residuals 1) st) = ([-1/4; -1/2]%R, successful) /\
               d_step D (1/2)%R (d_query D y (two_residuals (1/1000)) st) = ([-1/2; -1/4]%R, successful).
Proof.
  intros D y st. destruct (C122_dogleg_guard_pf (least_squares 2) (/ 2 ^ 52) (proj1 (least_squares_exact 2)) (proj2 (least_squares_exact 2))) with (y := y) (st := st) as [H1 H2]; [lra|].
  split; [exact H1|]. apply H2; lra.
Qed.
