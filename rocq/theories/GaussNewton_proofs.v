(** Gauss-Newton (C53). *)

From Coq Require Import String List Bool Arith Lia ZArith QArith Qreals Reals Lra.
From Verif Require Import Num NumFacts Vec Results Iterate Spec_Iterate Iterate_proofs Search Descent Minimisers Solvers.
From Verif Require Import Spec_Vec VecFacts Spec_Lin LinFacts Spec_Search Minimisers_proofs LeastSquares_proofs TrustRegion_proofs.
Import ListNotations.
Local Open Scope nat_scope.

(** Any arithmetic, any residual function, any linear solver: the first step of
    GaussNewton stays at y0, every later one is
    y' = y + (-1) d with d the linear solver's answer to J(y) d = r(y). *)
Lemma C53_iteration_pf :
  forall (N : Num) (Aux : Type) (P : ar_tols N) lsolve jac_of (fn : list N -> list N * Aux) (y0 : list N) fs auxs st0 k,
    let s := GaussNewton P jac_of lsolve in
    s_init s fn y0 fs auxs = Ret st0 ->
    let y := y_at s fn y0 st0 (auxs fill0) in
    y 1 = y0 /\
    y (S (S k)) = vadd (y (S k)) (vscale (nneg (nofQ 1)) (fst (lsolve (jac_of fn (y (S k))) (fst (fn (y (S k))))))).
Proof.
  intros N Aux P lsolve jac_of fn y0 fs auxs st0 k s Hi. unfold s in *. apply gn_init_inv in Hi. subst st0. cbv zeta.
  pose proof (fun j => gn_step_cases P (learning_rate (nofQ 1)) (newton_descent lsolve None) jac_of fn _ _ _ _ _
    (gn_trace_S P (learning_rate (nofQ 1)) (newton_descent lsolve None) jac_of fn y0 fs auxs j)) as C.
  unfold GaussNewton. set (Y := y_at _ fn y0 _ _) in *. set (S' := st_at _ fn y0 _ _) in *.
  assert (A : forall j, Y (S j) = gn_y_eval (S' j) /\
     gn_y_eval (S' (S j)) = vadd (Y (S j)) (vscale (nneg (nofQ 1)) (fst (lsolve (jac_of fn (Y (S j))) (fst (fn (Y (S j)))))))).
  { intro j. destruct (C j) as (step & acc & sr & sst & Es & _ & _ & E3 & _ & _ & E5).
    cbn in Es. injection Es as <- <- <- <-. destruct E5 as (Ey & _ & _ & Ed & _). split; [exact Ey|].
    rewrite E3, Ed. f_equal. cbn. destruct (lsolve _ _) as [nw res]. reflexivity. }
  split; [rewrite (proj1 (A 0)); reflexivity|]. rewrite (proj1 (A (S k))). apply A.
Qed.

Lemma affine_res : forall n m A (b y z : list R), linear_op n m A -> length b = m -> length y = n -> length z = n ->
  Radd_v b (op_mv A (Radd_v y (Rscal (-1) z))) = Rscal (-1) (Rsub_v (op_mv A z) (Radd_v b (op_mv A y))).
Proof.
  intros n m A b y z (L1 & L2 & L3) Hb Hy Hz. rewrite L2 by (rewrite ?Rscal_length; assumption). rewrite L3 by exact Hz.
  pose proof (L1 y Hy) as E1. pose proof (L1 z Hz) as E2.
  set (u := op_mv A y : list R) in *. set (v := op_mv A z : list R) in *. change (length u = m) in E1. change (length v = m) in E2. clearbody u v.
  clear - Hb E1 E2. revert b u v Hb E1 E2. induction m as [|m IH]; intros [|b0 b] [|u0 u] [|v0 v] Hb E1 E2; try discriminate; [reflexivity|].
  cbn. f_equal; [ring|]. apply IH; apply eq_add_S; assumption.
Qed.

(** Exact arithmetic, exact least-squares solves, affine residuals r(y) = b + A y
    with the Jacobian A, any shapes, any y0: from the second step on every iterate
    (the first one proposed by the method) minimises the sum of squares globally. *)
Lemma C53_linear_pf :
  forall (Aux : Type) (P : ar_tols RN) lsolve jac_of (fn : list R -> list R * Aux)
         (n m : nat) (A : linop RN) (b : list R) (y0 : list R) fs auxs st0,
    exact_least_squares n lsolve -> linear_op n m A -> length b = m -> length y0 = n ->
    (forall y : list R, length y = n -> fst (fn y) = Radd_v b (op_mv A y) /\ jac_of fn y = A) ->
    let s := GaussNewton (N:=RN) P jac_of lsolve in
    s_init s fn y0 fs auxs = Ret st0 ->
    let y := y_at s fn y0 st0 (auxs fill0) in
    let loss z := Rdot (fst (fn z)) (fst (fn z)) in
    forall k, 2 <= k -> length (y k) = n /\ forall w, length w = n -> (loss (y k) <= loss w)%R.
Proof.
  intros Aux P lsolve jac_of fn n m A b y0 fs auxs st0 HE HA Hb Hy0 Hf s Hi y loss.
  pose proof (fun k => C53_iteration_pf RN Aux P lsolve jac_of fn y0 fs auxs st0 k Hi) as C. cbv zeta in C. fold s in C. fold y in C.
  assert (NX : forall x : list R, length x = n ->
    let z : list R := fst (lsolve A (fst (fn x))) in
    let x' : list R := vadd (N:=RN) x (vscale (N:=RN) (nneg (n:=RN) (nofQ (n:=RN) 1)) z) in
    length x' = n /\ forall w, length w = n -> (loss x' <= loss w)%R).
  { intros x Hx z x'. destruct (Hf x Hx) as [Ef _].
    assert (Lr : length (fst (fn x)) = m) by (rewrite Ef; apply Radd_v_length; [exact Hb|apply HA; exact Hx]).
    destruct (HE m A (fst (fn x)) HA Lr) as [Z1 Z2]. fold z in Z1, Z2.
    assert (Ex' : x' = Radd_v x (Rscal (-1) z)).
    { unfold x'. rewrite vadd_RN, vscale_RN. f_equal. f_equal. cbn. rewrite Q2R_1. reflexivity. }
    assert (Lx' : length x' = n) by (rewrite Ex'; apply Radd_v_length; [exact Hx|rewrite Rscal_length; exact Z1]).
    split; [exact Lx'|]. intros w Hw. unfold loss.
    rewrite (proj1 (Hf x' Lx')), (proj1 (Hf w Hw)).
    assert (Ew : w = Radd_v x (Rscal (-1) (Rsub_v x w))).
    { clear - Hx Hw. revert x w Hx Hw. induction n as [|n' IH]; intros [|x0 x] [|w0 w] Hx Hw; try discriminate; [reflexivity|].
      cbn. f_equal; [ring|]. apply IH; apply eq_add_S; assumption. }
    rewrite Ew, Ex'. rewrite !(affine_res n m A b x) by (auto; apply Rsub_v_length; auto). rewrite <- Ef.
    rewrite !Rdot_scal_l, !Rdot_scal_r.
    pose proof (Z2 (Rsub_v x w) (Rsub_v_length x w n Hx Hw)) as Z3. lra. }
  assert (L : forall k, length (y (S k)) = n).
  { intro k. induction k as [|k IH]; [rewrite (proj1 (C 0)); exact Hy0|].
    rewrite (proj2 (C k)). rewrite (proj2 (Hf (y (S k)) IH)). exact (proj1 (NX (y (S k)) IH)). }
  intros [|[|k]] Hk; [lia|lia|]. rewrite (proj2 (C k)). rewrite (proj2 (Hf (y (S k)) (L k))). exact (NX (y (S k)) (L k)).
Qed.

(** Example: residuals 3 + 2 x and 1 - x in one unknown, solved exactly by
    [lsolve1]; an inconsistent system, whose minimiser is x = -1. *)
Definition linres (v : list R) : list R * unit :=
  (Radd_v [3; 1]%R (op_mv (MatOp (N:=RN) 1 [[2]; [-1]]%R) v), tt).
Example C53_linear_ex_pf :
  exact_least_squares 1 lsolve1 /\ linear_op 1 2 (MatOp (N:=RN) 1 [[2]; [-1]]%R) /\
  (Rdot (fst (linres [-1])) (fst (linres [-1])) = 5)%R /\ (Rdot (fst (linres [0])) (fst (linres [0])) = 10)%R.
Proof.
  split; [exact (proj1 C32_levenberg_marquardt_ex_pf)|]. split; [apply mat_linear; repeat constructor|].
  split; unfold linres; cbn; lra.
Qed.
