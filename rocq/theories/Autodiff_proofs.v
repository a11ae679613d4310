(** Forward- and reverse-mode differentiation give the same solve (C75). *)

From Coq Require Import String List Bool Arith Lia ZArith QArith Reals Lra FunctionalExtensionality.
From Verif Require Import Num NumF64 Vec VecFacts Spec_Vec Spec_Lin LinFacts Results Iterate Spec_Iterate Iterate_proofs.
From Verif Require Import Search Descent Minimisers QuasiNewton LBFGS Solvers Spec_Combos Autodiff Spec_Autodiff TrustRegion_proofs BFGS_proofs.
Import ListNotations.
Local Open Scope nat_scope.

(** ** Solvers in lockstep *)

Definition visible {Y Aux S : Type} (o : outcome (Solution Y Aux S)) : outcome (Y * results * Aux * stats) :=
  obind o (fun sol => Ret (value sol, result sol, aux sol, sol_stats sol)).

Section Lockstep.
  Context {Y Out Aux : Type}.
  Variables (s1 s2 : Solver Y Out Aux) (fn : Y -> Out * Aux) (isfin : Y -> bool).
  Variable Rel : Y -> St s1 -> St s2 -> Prop.
  Variables (y0 : Y) (fs : fillv -> Out) (auxs : fillv -> Aux).
  Hypothesis Hinit : match s_init s1 fn y0 fs auxs, s_init s2 fn y0 fs auxs with
    | Ret a, Ret b => Rel y0 a b | Raise e, Raise e' => e = e' | Unfinished, Unfinished => True | _, _ => False end.
  Hypothesis Hstep : forall y a b, Rel y a b ->
    fst (fst (s_step s1 fn y a)) = fst (fst (s_step s2 fn y b)) /\ snd (s_step s1 fn y a) = snd (s_step s2 fn y b) /\
    Rel (fst (fst (s_step s1 fn y a))) (snd (fst (s_step s1 fn y a))) (snd (fst (s_step s2 fn y b))).
  Hypothesis Hterm : forall y y' a b, Rel y a b -> s_terminate s1 fn y' a = s_terminate s2 fn y' b.
  Hypothesis Hpost : forall y a b x r, Rel y a b -> s_post s1 fn y x a r = s_post s2 fn y x b r.

  Definition crel (c1 : carry (Y:=Y) (Aux:=Aux) (St s1)) (c2 : carry (Y:=Y) (Aux:=Aux) (St s2)) : Prop :=
    c_y c1 = c_y c2 /\ c_num_steps c1 = c_num_steps c2 /\ c_aux c1 = c_aux c2 /\ c_terminate c1 = c_terminate c2 /\
    c_result c1 = c_result c2 /\ Rel (c_y c1) (c_state c1) (c_state c2).

  Lemma while_crel : forall fuel ms c1 c2, crel c1 c2 ->
    match while_loop fuel (cond_fun s1) (body_fun isfin s1 fn) ms c1, while_loop fuel (cond_fun s2) (body_fun isfin s2 fn) ms c2 with
    | Ret a, Ret b => crel a b | Raise e, Raise e' => e = e' | Unfinished, Unfinished => True | _, _ => False end.
  Proof.
    induction fuel as [|fuel IH]; intros ms c1 c2 C; cbn; [exact I|].
    assert (E : cond_fun s1 c1 = cond_fun s2 c2).
    { destruct C as (C1 & C2 & C3 & C4 & C5 & C6). unfold cond_fun. rewrite C4, C5. reflexivity. }
    assert (B : crel (body_fun isfin s1 fn c1) (body_fun isfin s2 fn c2)).
    { destruct C as (C1 & C2 & C3 & C4 & C5 & C6). unfold body_fun. rewrite <- C1.
      pose proof (Hstep _ _ _ C6) as (S1 & S2 & S3).
      destruct (s_step s1 fn (c_y c1) (c_state c1)) as [[y1 a1] x1], (s_step s2 fn (c_y c1) (c_state c2)) as [[y2 b2] x2].
      cbn [fst snd] in S1, S2, S3. subst y2 x2.
      assert (T : terminate_and_result isfin s1 fn (c_y c1) a1 = terminate_and_result isfin s2 fn (c_y c1) b2).
      { unfold terminate_and_result. rewrite (Hterm _ (c_y c1) _ _ S3). reflexivity. }
      rewrite T. destruct (terminate_and_result isfin s2 fn (c_y c1) b2) as [t r].
      repeat split; cbn; auto. }
    destruct ms as [[|m]|]; [exact C| |]; rewrite E; destruct (cond_fun s2 c2); try exact C; apply IH; exact B.
  Qed.

  Lemma lockstep : forall fuel ms throw,
    visible (iterative_solve isfin s1 fn fuel ms throw y0 fs auxs) = visible (iterative_solve isfin s2 fn fuel ms throw y0 fs auxs).
  Proof.
    intros fuel ms throw. unfold iterative_solve, iterate.
    destruct (s_init s1 fn y0 fs auxs) as [a|e|], (s_init s2 fn y0 fs auxs) as [b|e'|]; try contradiction Hinit; cbn [obind];
      [|subst; reflexivity|reflexivity].
    assert (T : terminate_and_result isfin s1 fn y0 a = terminate_and_result isfin s2 fn y0 b).
    { unfold terminate_and_result. rewrite (Hterm _ y0 _ _ Hinit). reflexivity. }
    rewrite T. destruct (terminate_and_result isfin s2 fn y0 b) as [t r].
    pose proof (while_crel fuel ms (mkCarry y0 0 a (auxs fill0) t r) (mkCarry y0 0 b (auxs fill0) t r)) as W.
    assert (C0 : crel (mkCarry y0 0 a (auxs fill0) t r) (mkCarry y0 0 b (auxs fill0) t r)) by (repeat split; exact Hinit).
    specialize (W C0).
    destruct (while_loop fuel (cond_fun s1) (body_fun isfin s1 fn) ms _) as [c1|e1|],
      (while_loop fuel (cond_fun s2) (body_fun isfin s2 fn) ms _) as [c2|e2|]; try contradiction W; cbn [obind];
      [|subst; reflexivity|reflexivity].
    destruct W as (C1 & C2 & C3 & C4 & C5 & C6). rewrite C4, C5, C3. rewrite <- C1.
    rewrite (Hpost _ _ _ (c_aux c2) (if results_eqb (c_result c2) successful && negb (c_terminate c2)
      then nonlinear_max_steps_reached else c_result c2) C6).
    destruct (s_post s2 fn (c_y c1) (c_aux c2) (c_state c2) _) as [[fy fa] stt]. cbn [obind]. rewrite C2.
    match goal with |- context [throw && ?b] => destruct (throw && b) end; reflexivity.
  Qed.
End Lockstep.

(** ** Both modes give the same gradient and the same operator *)

Lemma basis_dot : forall (v : list R) i, Rdot v (basis (N:=RN) (length v) i) = nth i v 0%R.
Proof.
  assert (G : forall (v : list R) k i, Rdot v (map (fun j => if j =? i then nofQ (n:=RN) 1 else nofQ (n:=RN) 0) (seq k (length v))) =
    if k <=? i then nth (i - k) v 0%R else 0%R).
  { induction v as [|x v IH]; intros k i; cbn [length seq map Rdot].
    - destruct (k <=? i); [destruct (i - k)|]; reflexivity.
    - rewrite IH. destruct (Nat.eqb_spec k i) as [->|Hne].
      + rewrite Nat.leb_refl, Nat.sub_diag. replace (S i <=? i) with false by (symmetry; apply Nat.leb_gt; lia). cbn. unfold Q2R; cbn. field.
      + destruct (Nat.leb_spec k i).
        * replace (S k <=? i) with true by (symmetry; apply Nat.leb_le; lia). replace (i - k) with (S (i - S k)) by lia. cbn. unfold Q2R; cbn. field.
        * replace (S k <=? i) with false by (symmetry; apply Nat.leb_gt; lia). cbn. unfold Q2R; cbn. field. }
  intros v i. unfold basis. rewrite G. rewrite Nat.sub_0_r. reflexivity.
Qed.
Lemma basis_length : forall (N : Num) n i, length (basis (N:=N) n i) = n.
Proof. intros. unfold basis. rewrite map_length, seq_length. reflexivity. Qed.

(** If [lin] is a linear function of n unknowns with gradient g (lin v = g . v) and
    [transpose] is a transpose of it, both modes return g. Every other mode raises
    ValueError. *)
Lemma C75_gradient_pf :
  forall (lin : list R -> R) (transpose : nat -> (list R -> R) -> R -> list R) (g : list R),
    (forall v, length v = length g -> lin v = Rdot g v) ->
    (forall w, length (transpose (length g) lin w) = length g) ->
    (forall w v, length v = length g -> Rdot (transpose (length g) lin w) v = (w * lin v)%R) ->
    (forall mode, mode = "fwd"%string \/ mode = "bwd"%string ->
       exists grad, lin_to_grad (N:=RN) transpose mode = Ret grad /\ grad lin (length g) = g) /\
    (forall mode, mode <> "fwd"%string -> mode <> "bwd"%string -> lin_to_grad (N:=RN) transpose mode = Raise ValueError).
Proof.
  intros lin tr g Hl HL Ht. split.
  - intros mode [->| ->]; eexists; (split; [reflexivity|]); cbv beta.
    + rewrite <- (map_nth_seq g) at 2. apply map_ext_in. intros i Hi. apply in_seq in Hi.
      rewrite Hl by apply basis_length. apply basis_dot.
    + apply (Rdot_ext (length g)); [apply HL|reflexivity|]. intros z Hz.
      rewrite Ht by exact Hz. rewrite Hl by exact Hz. cbn. unfold Q2R; cbn. field.
  - intros mode Hf Hb. unfold lin_to_grad.
    destruct (String.eqb_spec mode "bwd"); [contradiction|]. destruct (String.eqb_spec mode "fwd"); [contradiction|]. reflexivity.
Qed.

Lemma jac_same : forall n m push pull, adjoint_pair n m push pull ->
  same_operator n m (FunOp (N:=RN) push pull) (MatOp (N:=RN) n (map (fun i => pull (basis (N:=RN) m i)) (seq 0 m))).
Proof.
  intros n m push pull (HP & HQ & HA).
  assert (HM : mat m n (map (fun i => pull (basis (N:=RN) m i)) (seq 0 m))).
  { split; [rewrite map_length, seq_length; reflexivity|]. apply Forall_forall. intros row Hr. apply in_map_iff in Hr.
    destruct Hr as (i & <- & _). apply HQ, basis_length. }
  assert (E : forall v, length v = n -> push v = mvec (map (fun i => pull (basis (N:=RN) m i)) (seq 0 m)) v).
  { intros v Hv. unfold mvec. rewrite map_map. rewrite <- (map_nth_seq (push v)). rewrite (HP v Hv).
    apply map_ext. intro i. rewrite Rdot_comm, <- HA by (auto using basis_length).
    rewrite <- (basis_dot (push v) i). rewrite (HP v Hv). reflexivity. }
  split.
  - intros v Hv. cbn [op_mv]. rewrite (E v Hv). unfold mvec. apply map_ext. intro row. symmetry. apply vdot_RN.
  - intros w Hw. rewrite (op_mvT_RN m) by exact HM. cbn [op_mvT].
    apply (Rdot_ext n); [apply HQ; exact Hw|apply tmvec_length|]. intros z Hz.
    rewrite (tmvec_adjoint m) by auto. rewrite <- (E z Hz). rewrite (Rdot_comm (pull w)), <- HA by auto. apply Rdot_comm.
Qed.

(** The operators made with jac='fwd' and jac='bwd' have the same action and transpose;
    any other value raises ValueError. *)
Lemma C75_jacobian_pf :
  forall (n m : nat) (push pull : list R -> list R), adjoint_pair n m push pull ->
    (exists f b, make_jac (N:=RN) "fwd" = Ret f /\ make_jac (N:=RN) "bwd" = Ret b /\
       same_operator n m (f push pull n m) (b push pull n m) /\
       (forall v, length v = n -> op_mv (f push pull n m) v = push v) /\
       (forall w, length w = m -> op_mvT (f push pull n m) w = pull w)) /\
    (forall mode, mode <> "fwd"%string -> mode <> "bwd"%string -> make_jac (N:=RN) mode = Raise ValueError).
Proof.
  intros n m push pull HA. split.
  - eexists; eexists; split; [reflexivity|]; split; [reflexivity|]. split; [apply jac_same; exact HA|]. split; reflexivity.
  - intros mode Hf Hb. unfold make_jac.
    destruct (String.eqb_spec mode "fwd"); [contradiction|]. destruct (String.eqb_spec mode "bwd"); [contradiction|]. reflexivity.
Qed.

(** ** The solves *)

(** Gradient descent, nonlinear CG, the quasi-Newton methods, and any other solver that
    uses [lin_to_grad]: if [transpose] transposes the linearisation of the function at
    every point, the two modes give the same solve (value, result, aux, statistics,
    exceptions); every other mode raises ValueError. *)
Lemma C75_minimisers_pf :
  forall (Aux : Type) (linearize : (list R -> R * Aux) -> list R -> list R -> R) (transpose : nat -> (list R -> R) -> R -> list R),
    (forall f y w, length (transpose (length y) (linearize f y) w) = length y) ->
    (forall f y w v, length v = length y -> Rdot (transpose (length y) (linearize f y) w) v = (w * linearize f y v)%R) ->
    forall mk (fn : list R -> R * Aux) isfin fuel budget throw y0 fs auxs,
      solve_autodiff (N:=RN) linearize transpose mk isfin "fwd" fn fuel budget throw y0 fs auxs =
      solve_autodiff (N:=RN) linearize transpose mk isfin "bwd" fn fuel budget throw y0 fs auxs /\
      (forall mode, mode <> "fwd"%string -> mode <> "bwd"%string ->
         solve_autodiff (N:=RN) linearize transpose mk isfin mode fn fuel budget throw y0 fs auxs = Raise ValueError).
Proof.
  intros Aux linearize transpose HL HT mk fn isfin fuel budget throw y0 fs auxs.
  assert (G : forall f y, map (fun i => linearize f y (basis (N:=RN) (length y) i)) (seq 0 (length y)) = transpose (length y) (linearize f y) (nofQ (n:=RN) 1)).
  { intros f y. rewrite <- (map_nth_seq (transpose (length y) (linearize f y) _)), HL. apply map_ext. intro i.
    pose proof (HT f y (nofQ (n:=RN) 1) (basis (N:=RN) (length y) i) (basis_length RN _ i)) as E.
    pose proof (basis_dot (transpose (length y) (linearize f y) (nofQ (n:=RN) 1)) i) as B. rewrite HL in B. rewrite E in B. rewrite <- B.
    cbn. unfold Q2R; cbn. field. }
  split.
  - unfold solve_autodiff.
    change (lin_to_grad (N:=RN) transpose "fwd") with (Ret (fun (lin_fn : list RN -> RN) n => map (fun i => lin_fn (basis (N:=RN) n i)) (seq 0 n))).
    change (lin_to_grad (N:=RN) transpose "bwd") with (Ret (fun (lin_fn : list RN -> RN) (n : nat) => transpose n lin_fn (nofQ (n:=RN) 1))).
    cbv beta iota.
    match goal with |- obind (iterative_solve _ (mk ?g1) _ _ _ _ _ _ _) _ = obind (iterative_solve _ (mk ?g2) _ _ _ _ _ _ _) _ =>
      assert (E : g1 = g2) by (extensionality f; extensionality y; apply G); rewrite E end.
    reflexivity.
  - intros mode Hf Hb. unfold solve_autodiff, lin_to_grad.
    destruct (String.eqb_spec mode "bwd"); [contradiction|]. destruct (String.eqb_spec mode "fwd"); [contradiction|]. reflexivity.
Qed.

(** Least squares: operators are different objects, so follow two solves step by step. *)
Section LeastSquares.
  Context {Aux : Type}.
  Variables (n m : nat) (lsolve : linop RN -> list R -> list R * results) (eps fmax : R).
  Hypothesis Hls : forall k A B b, length b = k -> same_operator n k A B -> lsolve A b = lsolve B b.
  Hypothesis Hlen : forall A b, length (fst (lsolve A b)) = n.

  Definition irel (f1 f2 : finfo RN) : Prop :=
    exists (r : list R) A B, f1 = ResidualJac r A /\ f2 = ResidualJac r B /\ length r = m /\ same_operator n m A B /\
      (forall w : list R, length (op_mvT A w) = n).

  Definition drel (d : builtin_descent RN) : DSt (descent_of lsolve eps fmax d) -> DSt (descent_of lsolve eps fmax d) -> Prop :=
    match d return DSt (descent_of lsolve eps fmax d) -> DSt (descent_of lsolve eps fmax d) -> Prop with
    | SteepestDescent _ => fun a b => a = b /\ length a = n
    | NonlinearCGDescent _ => fun a b => a = b /\ length (fst a) = n
    | NewtonDescent _ => fun a b => a = b /\ length (fst a) = n
    | DampedNewtonDescent => fun a b => fst a = n /\ fst b = n /\ irel (snd a) (snd b)
    | IndirectDampedNewtonDescent _ _ => fun a b =>
        let '(k1, i1, x1, l1, r1) := a in let '(k2, i2, x2, l2, r2) := b in
        k1 = n /\ k2 = n /\ irel i1 i2 /\ x1 = x2 /\ length x1 = n /\ l1 = l2 /\ r1 = r2
    | DoglegDescent _ _ => fun a b => a = b /\ length (dl_newton a) = n /\ length (dl_cauchy a) = n
    end.

  Lemma newton_same : forall f1 f2, irel f1 f2 -> newton_step (N:=RN) lsolve f1 = newton_step (N:=RN) lsolve f2 /\ length (fst (newton_step (N:=RN) lsolve f1)) = n.
  Proof.
    intros f1 f2 (r & A & B & -> & -> & Hr & HS & _). cbn [newton_step]. split; [|apply Hlen]. apply (Hls m); assumption.
  Qed.
  Lemma damped_same : forall f1 f2 t, irel f1 f2 ->
    damped_newton_step (N:=RN) lsolve eps fmax n t f1 = damped_newton_step (N:=RN) lsolve eps fmax n t f2 /\
    length (fst (damped_newton_step (N:=RN) lsolve eps fmax n t f1)) = n.
  Proof.
    intros f1 f2 t (r & A & B & -> & -> & Hr & HS & _). cbn [damped_newton_step]. split; [|apply Hlen].
    apply (Hls (m + n)).
    - rewrite app_length. change (@length RN r) with (@length R r). rewrite Hr. unfold vfull. rewrite repeat_length. reflexivity.
    - destruct HS as [HS1 HS2]. split.
      + intros v Hv. cbn [op_mv damped_jac]. rewrite (HS1 v Hv). reflexivity.
      + intros w Hw. cbn [op_mvT damped_jac]. f_equal. apply HS2.
        change (@length RN r) with (@length R r). rewrite firstn_length, Hr. apply Nat.min_l. change (m <= @length R w). rewrite Hw. lia.
  Qed.

  Lemma normalise_length : forall nm (v : list R), length (normalise (N:=RN) nm v) = length v.
  Proof. intros [nm|] v; cbn; [|reflexivity]. unfold vdivs. apply map_length. Qed.

  Lemma grad_same : forall f1 f2, irel f1 f2 -> info_grad f1 = info_grad f2 /\ length (info_grad f1) = n.
  Proof. intros f1 f2 (r & A & B & -> & -> & Hr & HS & HL). cbn [info_grad]. split; [apply HS; exact Hr|apply HL]. Qed.

  Lemma d_init_rel : forall d (y : list R) f1 f2, length y = n -> irel f1 f2 ->
    drel d (d_init (descent_of lsolve eps fmax d) y f1) (d_init (descent_of lsolve eps fmax d) y f2).
  Proof.
    intros d y f1 f2 Hy HI.
    assert (Z1 : zero_info f1 = f1) by (destruct HI as (r & A & B & -> & -> & _); reflexivity).
    assert (Z2 : zero_info f2 = f2) by (destruct HI as (r & A & B & -> & -> & _); reflexivity).
    destruct d; cbn -[zero_info]; try (split; [reflexivity|]); auto.
    - unfold vfull. rewrite repeat_length. exact Hy.
    - rewrite Z1, Z2. auto.
    - rewrite Z1, Z2. repeat split; auto.
  Qed.
  Lemma d_query_rel : forall d (y : list R) f1 f2 s1 s2, length y = n -> irel f1 f2 -> drel d s1 s2 ->
    drel d (d_query (descent_of lsolve eps fmax d) y f1 s1) (d_query (descent_of lsolve eps fmax d) y f2 s2).
  Proof.
    intros d y f1 f2 s1 s2 Hy HI HD. destruct (grad_same f1 f2 HI) as [G1 G2]. destruct (newton_same f1 f2 HI) as [N1 N2].
    destruct d.
    - cbn. rewrite <- G1. split; [reflexivity|]. rewrite normalise_length. exact G2.
    - destruct HD as [<- HD]. destruct s1 as [p q]. cbn [fst] in HD. cbn [drel d_query descent_of nonlinear_cg_descent cg_query fst]. rewrite <- G1. split; [reflexivity|].
      unfold vwhere, vneg. apply vmap2_length_eq; [|rewrite map_length; exact G2].
      apply vmap2_length_eq; [rewrite map_length; exact G2|]. unfold vscale. rewrite map_length. exact HD.
    - cbn. rewrite <- N1. destruct (newton_step lsolve f1) as [x r]. split; [reflexivity|]. cbn [fst]. rewrite normalise_length. exact N2.
    - cbn. auto.
    - cbn. rewrite <- N1. destruct (newton_step lsolve f1) as [x r]. cbn [fst] in N2. repeat split; auto.
    - cbn. assert (E : dogleg_query (N:=RN) lsolve eps norm f1 = dogleg_query (N:=RN) lsolve eps norm f2).
      { unfold dogleg_query. rewrite <- N1, <- G1. destruct HI as (r & A & B & -> & -> & Hr & HS & HL).
        rewrite (proj1 HS _ G2). reflexivity. }
      rewrite <- E. split; [reflexivity|]. unfold dogleg_query. destruct (newton_step lsolve f1) as [x r]. cbn [fst dl_newton dl_cauchy] in *.
      unfold vneg, vscale. rewrite !map_length. auto.
  Qed.
  Lemma d_step_rel : forall d t s1 s2, drel d s1 s2 ->
    d_step (descent_of lsolve eps fmax d) t s1 = d_step (descent_of lsolve eps fmax d) t s2 /\
    length (fst (d_step (descent_of lsolve eps fmax d) t s1)) = n.
  Proof.
    intros d t s1 s2 HD. destruct d.
    - destruct HD as [<- HD]. cbn. unfold vscale. rewrite map_length. auto.
    - destruct HD as [<- HD]. cbn. unfold vscale. rewrite map_length. auto.
    - destruct HD as [<- HD]. cbn. unfold vscale. rewrite map_length. auto.
    - destruct s1 as [k1 i1], s2 as [k2 i2]. destruct HD as (H1 & H2 & H3). cbn in H1, H2. subst k1 k2. cbn.
      destruct (damped_same i1 i2 t H3) as [E L]. rewrite <- E. split; [reflexivity|].
      destruct (damped_newton_step lsolve eps fmax n t i1) as [x r]. cbn. unfold vneg. rewrite map_length. exact L.
    - destruct s1 as [[[[k1 i1] x1] l1] r1], s2 as [[[[k2 i2] x2] l2] r2]. destruct HD as (H1 & H2 & H3 & H4 & H5 & H6 & H7). subst k1 k2 x2 l2 r2.
      cbn [d_step descent_of indirect_damped_newton_descent indirect_damped_step].
      assert (E : (fun lambda_i : RN => nsub (norm (fst (damped_newton_step lsolve eps fmax n (ndiv (nofQ 1) lambda_i) i1))) (nmul l1 t)) =
                  (fun lambda_i : RN => nsub (norm (fst (damped_newton_step lsolve eps fmax n (ndiv (nofQ 1) lambda_i) i2))) (nmul l1 t))).
      { extensionality z. rewrite (proj1 (damped_same i1 i2 _ H3)). reflexivity. }
      rewrite E. destruct (results_eqb r1 successful && nltb t (nofQ 1)).
      + set (z := rfind _). destruct (damped_same i1 i2 (ndiv (nofQ 1) z) H3) as [E' L]. rewrite <- E'. split; [reflexivity|].
        destruct (damped_newton_step lsolve eps fmax n (ndiv (nofQ 1) z) i1) as [x r]. cbn. unfold vneg. rewrite map_length. exact L.
      + split; [reflexivity|]. cbn. unfold vneg. rewrite map_length. exact H5.
    - destruct HD as (<- & L1 & L2). split; [reflexivity|]. cbn [d_step descent_of dogleg_descent]. unfold dogleg_step.
      destruct (nltb _ _).
      + cbn [fst]. unfold scaled_cauchy, vwhere. apply vmap2_length_eq; [rewrite map_length; exact L2|]. unfold vfull. rewrite repeat_length. exact L2.
      + destruct (nltb _ _); [|exact L1]. unfold dogleg_mix.
        match goal with |- context [match rfind with Some _ => _ | None => _ end] => destruct (match rfind with Some rf => rf (fun u : RN => nsub (norm (dogleg_interpolate (dl_cauchy s1) (dl_newton s1) u)) (nmul (dl_newton_norm s1) t)) | None => (dogleg_t s1 (nmul (dl_newton_norm s1) t), successful) end) as [u v] end. cbn [fst].
        unfold dogleg_interpolate, vadd, vsub, vscale. apply vmap2_length_eq; [exact L2|]. rewrite map_length. apply vmap2_length_eq; assumption.
  Qed.
  Lemma se_step_rel : forall s b (y ye : list R) f1 f2 e1 e2 st, length y = n -> length ye = n -> irel f1 f2 -> irel e1 e2 ->
    se_step (search_of s) b y ye f1 e1 st = se_step (search_of s) b y ye f2 e2 st.
  Proof.
    intros s b y ye f1 f2 e1 e2 st Hy Hye (r & A & B & -> & -> & Hr & HS & HL) (r' & A' & B' & -> & -> & Hr' & HS' & HL').
    assert (L : length (vsub (N:=RN) ye y) = n) by (apply vmap2_length_eq; assumption).
    destruct s; cbn [se_step search_of learning_rate armijo linear_trust_region classical_trust_region].
    - reflexivity.
    - unfold armijo_step. cbn [compute_grad_dot as_min]. rewrite (proj1 HS _ L). reflexivity.
    - unfold tr_step, linear_predict. cbn [compute_grad_dot as_min]. rewrite (proj1 HS _ L). reflexivity.
    - unfold tr_step, classical_predict. cbn [as_min]. rewrite (proj1 HS _ L). reflexivity.
  Qed.

  Variables (P : ar_tols RN) (s : builtin_search RN) (d : builtin_descent RN).
  Variables (J1 J2 : (list R -> list R * Aux) -> list R -> linop RN) (fn : list R -> list R * Aux).
  Hypothesis HF : forall y, length y = n -> length (fst (fn y)) = m.
  Hypothesis HJ : forall y, length y = n -> same_operator n m (J1 fn y) (J2 fn y) /\ (forall w : list R, length (op_mvT (J1 fn y) w) = n).
  Let s1 := gauss_newton_solver (N:=RN) (Aux:=Aux) P (search_of s) (descent_of lsolve eps fmax d) J1.
  Let s2 := gauss_newton_solver (N:=RN) (Aux:=Aux) P (search_of s) (descent_of lsolve eps fmax d) J2.

  Definition srel (y : list R) (a : St s1) (b : St s2) : Prop :=
    length y = n /\ gn_first_step a = gn_first_step b /\ gn_y_eval a = gn_y_eval b /\ length (gn_y_eval a) = n /\
    gn_search_state a = gn_search_state b /\ irel (gn_f_info a) (gn_f_info b) /\ gn_aux a = gn_aux b /\
    drel d (gn_descent_state a) (gn_descent_state b) /\ gn_terminate a = gn_terminate b /\ gn_result a = gn_result b /\
    gn_num_steps a = gn_num_steps b /\ gn_num_accepted_steps a = gn_num_accepted_steps b /\
    gn_num_steps_since_acceptance a = gn_num_steps_since_acceptance b.

  Lemma srel_step : forall y a b, srel y a b ->
    fst (fst (s_step s1 fn y a)) = fst (fst (s_step s2 fn y b)) /\ snd (s_step s1 fn y a) = snd (s_step s2 fn y b) /\
    srel (fst (fst (s_step s1 fn y a))) (snd (fst (s_step s1 fn y a))) (snd (fst (s_step s2 fn y b))).
  Proof.
    intros y a b (Hy & R1 & R2 & R3 & R4 & R5 & R6 & R7 & R8 & R9 & R10 & R11 & R12).
    cbn [s_step s1 s2 gauss_newton_solver]. unfold gn_step. rewrite <- R2.
    pose proof (HF _ R3) as HFe. pose proof (HJ _ R3) as [HJe HLe].
    change (@length R (@fst (list R) Aux (fn (gn_y_eval a))) = m) in HFe.
    destruct (fn (gn_y_eval a)) as [re xe] eqn:Ef. cbn [fst] in HFe.
    set (e1 := ResidualJac re (J1 fn (gn_y_eval a))). set (e2 := ResidualJac re (J2 fn (gn_y_eval a))).
    assert (He : irel e1 e2) by (exists re, (J1 fn (gn_y_eval a)), (J2 fn (gn_y_eval a)); repeat split; auto; apply HJe).
    pose proof (se_step_rel s (gn_first_step a) y (gn_y_eval a) (gn_f_info a) (gn_f_info b) e1 e2 (gn_search_state a) Hy R3 R5 He) as SE.
    rewrite <- R1, <- R4, <- SE. clear SE.
    destruct (se_step (search_of s) (gn_first_step a) y (gn_y_eval a) (gn_f_info a) e1 (gn_search_state a)) as [[[t acc] sr] ss].
    assert (IR : info_residual (gn_f_info a) = info_residual (gn_f_info b)) by (destruct R5 as (r & A & B & -> & -> & _); reflexivity).
    rewrite <- R6, <- R10, <- R11, <- R12, <- IR. clear R1 R2 R4 R6 R10 R11 R12 IR.
    destruct acc.
    - pose proof (d_query_rel d _ _ _ _ _ R3 He R7) as DQ.
      destruct (d_step_rel d t _ _ DQ) as [D1 D2]. rewrite <- D1.
      destruct (d_step (descent_of lsolve eps fmax d) t _) as [yd dr]. cbn [fst snd] in *.
      split; [reflexivity|]. split; [reflexivity|].
      unfold srel. cbn. repeat (split; [first [exact R3|reflexivity|exact He|exact DQ|apply vmap2_length_eq; assumption]|]). reflexivity.
    - destruct (d_step_rel d t _ _ R7) as [D1 D2]. rewrite <- D1.
      destruct (d_step (descent_of lsolve eps fmax d) t _) as [yd dr]. cbn [fst snd] in *.
      split; [reflexivity|]. split; [reflexivity|].
      unfold srel. cbn. repeat (split; [first [exact Hy|reflexivity|exact R5|exact R7|apply vmap2_length_eq; assumption]|]). reflexivity.
  Qed.

  Lemma ls_same : forall isfin fuel ms throw (y0 : list R) fs auxs, length y0 = n -> length (fs fill0) = m ->
    visible (iterative_solve isfin s1 fn fuel ms throw y0 fs auxs) = visible (iterative_solve isfin s2 fn fuel ms throw y0 fs auxs).
  Proof.
    intros isfin fuel ms throw y0 fs auxs Hy Hf. apply (lockstep s1 s2 fn isfin srel y0 fs auxs).
    - cbn [s_init s1 s2 gauss_newton_solver]. unfold gn_init.
      set (f := ResidualJac _ _). destruct (negb _); [reflexivity|].
      assert (Hi : irel f f).
      { eexists; eexists; eexists. split; [reflexivity|]. split; [reflexivity|]. split; [exact Hf|]. split; [split; reflexivity|].
        intro w. cbn. unfold vfull. rewrite repeat_length. exact Hy. }
      unfold srel. cbn. repeat (split; [first [exact Hy|reflexivity|exact Hi|apply d_init_rel; assumption]|]). reflexivity.
    - exact srel_step.
    - intros y y' a b Hr. cbn. destruct Hr as (_ & _ & _ & _ & _ & _ & _ & _ & -> & -> & _). reflexivity.
    - intros y a b x r Hr. reflexivity.
  Qed.
End LeastSquares.

(** Gauss-Newton, Levenberg-Marquardt, dogleg, and every combination of a built-in
    search and descent in the least-squares loop. If [pull] transposes the derivative
    [push] at every point, and the linear solver returns a vector of n unknowns that
    depends on the action of the operator only, jac='fwd' and jac='bwd' give the same
    solve; every other value raises ValueError. *)
Lemma C75_least_squares_pf :
  forall (Aux : Type) (n m : nat) (push pull : (list R -> list R * Aux) -> list R -> list R -> list R)
         (lsolve : linop RN -> list R -> list R * results) (eps fmax : R) (fn : list R -> list R * Aux),
    (forall y, length y = n -> length (fst (fn y)) = m /\ adjoint_pair n m (push fn y) (pull fn y)) ->
    (forall k A B b, length b = k -> same_operator n k A B -> lsolve A b = lsolve B b) ->
    (forall A b, length (fst (lsolve A b)) = n) ->
    forall (P : ar_tols RN) (s : builtin_search RN) (d : builtin_descent RN) isfin fuel budget throw (y0 : list R) fs auxs,
      length y0 = n -> length (fs fill0) = m ->
      let mk := gauss_newton_solver (N:=RN) (Aux:=Aux) P (search_of s) (descent_of lsolve eps fmax d) in
      solve_jac (N:=RN) push pull mk isfin "fwd" fn fuel budget throw y0 fs auxs =
      solve_jac (N:=RN) push pull mk isfin "bwd" fn fuel budget throw y0 fs auxs /\
      (forall mode, mode <> "fwd"%string -> mode <> "bwd"%string ->
         solve_jac (N:=RN) push pull mk isfin mode fn fuel budget throw y0 fs auxs = Raise ValueError).
Proof.
  intros Aux n m push pull lsolve eps fmax fn Hfn Hls Hlen P s d isfin fuel budget throw y0 fs auxs Hy Hf mk. split.
  - unfold solve_jac.
    change (make_jac (N:=RN) "fwd") with (Ret (fun push pull (n m : nat) => FunOp (N:=RN) push pull)).
    change (make_jac (N:=RN) "bwd") with (Ret (fun (push pull : list RN -> list RN) (n m : nat) => MatOp (N:=RN) n (map (fun i => pull (basis (N:=RN) m i)) (seq 0 m)))).
    cbv beta iota. symmetry.
    apply (ls_same n m lsolve eps fmax Hls Hlen P s d
      (fun f y => MatOp (N:=RN) (length y) (map (fun i => pull f y (basis (N:=RN) (length (fst (f y))) i)) (seq 0 (length (fst (f y))))))
      (fun f y => FunOp (N:=RN) (push f y) (pull f y)) fn); auto.
    + intros y Hy'. apply Hfn. exact Hy'.
    + intros y Hy'. destruct (Hfn y Hy') as [E A].
      change (@length (T RN) y) with (@length R y). change (@length (T RN) (fst (fn y))) with (@length R (fst (fn y))). rewrite Hy', E.
      split; [pose proof (jac_same n m _ _ A) as [S1 S2]; split; intros; symmetry; auto|].
      intro w. rewrite (op_mvT_RN m); [apply tmvec_length|].
      split; [rewrite map_length, seq_length; reflexivity|]. apply Forall_forall. intros row Hr. apply in_map_iff in Hr.
      destruct Hr as (i & <- & _). apply A, basis_length.
  - intros mode Hf' Hb. unfold solve_jac, make_jac.
    destruct (String.eqb_spec mode "fwd"); [contradiction|]. destruct (String.eqb_spec mode "bwd"); [contradiction|]. reflexivity.
Qed.

(** Examples: the linear function 3 v0 + 2 v1; the derivative of the sum of squares;
    residuals y - (1, 2), whose derivative is the identity, and a linear solver that is
    right for orthogonal operators. *)
Definition ex_lin (v : list R) : R := Rdot [3; 2]%R v.
Definition ex_transpose (n : nat) (lin : list R -> R) (w : R) : list R := Rscal w (map (fun i => lin (basis (N:=RN) n i)) (seq 0 n)).
Lemma ex_transpose_eq : forall (g : list R) w, ex_transpose (length g) (Rdot g) w = Rscal w g.
Proof.
  intros g w. unfold ex_transpose. f_equal. rewrite (map_ext _ (fun i => nth i g 0%R)) by (intro i; apply basis_dot). apply map_nth_seq.
Qed.
Example C75_gradient_ex_pf :
  (forall v, length v = 2 -> ex_lin v = Rdot [3; 2]%R v) /\ (forall w, length (ex_transpose 2 ex_lin w) = 2) /\
  (forall w v, length v = 2 -> Rdot (ex_transpose 2 ex_lin w) v = (w * ex_lin v)%R) /\
  lin_to_grad (N:=RN) ex_transpose "reverse" = Raise ValueError.
Proof.
  split; [reflexivity|]. split; [reflexivity|]. split; [|reflexivity].
  intros w v Hv. change (ex_transpose 2 ex_lin w) with (ex_transpose (length [3; 2]%R) (Rdot [3; 2]%R) w). rewrite ex_transpose_eq, Rdot_scal_l. reflexivity.
Qed.
Definition ex_linearize (f : list R -> R * unit) (y : list R) : list R -> R := Rdot (Rscal 2 y).
Example C75_minimisers_ex_pf :
  (forall f y w, length (ex_transpose (length y) (ex_linearize f y) w) = length y) /\
  (forall f y w v, length v = length y -> Rdot (ex_transpose (length y) (ex_linearize f y) w) v = (w * ex_linearize f y v)%R) /\
  (forall f, ex_linearize f [1; 2]%R [1; 1]%R = 6%R).
Proof.
  split; [|split].
  - intros f y w. unfold ex_linearize. rewrite <- (Rscal_length 2 y) at 1. rewrite ex_transpose_eq, !Rscal_length. reflexivity.
  - intros f y w v Hv. unfold ex_linearize at 1. rewrite <- (Rscal_length 2 y) at 1. rewrite ex_transpose_eq, Rdot_scal_l. reflexivity.
  - intro f. unfold ex_linearize. cbn. ring.
Qed.
Definition ex_res (y : list R) : list R * unit := (Rsub_v y [1; 2]%R, tt).
Definition ex_solve (A : linop RN) (b : list R) : list R * results :=
  (firstn 2 (op_mvT A b ++ [0; 0]%R), successful).
Example C75_least_squares_ex_pf :
  (forall y, length y = 2 -> length (fst (ex_res y)) = 2 /\ adjoint_pair 2 2 (fun v => v) (fun w => w)) /\
  (forall k A B b, length b = k -> same_operator 2 k A B -> ex_solve A b = ex_solve B b) /\
  (forall A b, length (fst (ex_solve A b)) = 2) /\
  fst (ex_solve (FunOp (N:=RN) (fun v => v) (fun w => w)) [5; 7]%R) = [5; 7]%R.
Proof.
  split; [|split; [|split]].
  - intros y Hy. split; [apply Rsub_v_length; [exact Hy|reflexivity]|]. split; [auto|]. split; auto.
  - intros k A B b Hb [_ H]. unfold ex_solve. rewrite (H b Hb). reflexivity.
  - intros A b. unfold ex_solve. cbn [fst]. rewrite firstn_length, app_length. cbn [length]. apply Nat.min_l. lia.
  - reflexivity.
Qed.
