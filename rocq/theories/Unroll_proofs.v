(** Backpropagation through the iterates of a fixed-point iteration (C98). *)

From Coq Require Import String List Bool Arith Lia ZArith QArith Qreals Reals Lra Psatz.
From Verif Require Import Num NumFacts Vec Results Iterate Spec_Iterate Iterate_proofs FixedPoint FixedPoint_proofs.
From Verif Require Import Spec_Vec VecFacts Spec_Lin LinFacts LinAlgFacts Search RootFind.
From Verif Require Import QuasiNewton BFGS_proofs.
From Verif Require Import Implicit Spec_Implicit ImplicitFacts Implicit_proofs Unroll Spec_Unroll.
Import ListNotations.
Local Open Scope R_scope.

(** Products and sums of matrices *)
Definition mmul (k : nat) (A D : list (list R)) : list (list R) := map (tmvec k D) A.

Lemma mmul_mat : forall m k A D, length A = m -> mat m k (mmul k A D).
Proof.
  intros m k A D L. split; [unfold mmul; rewrite map_length; exact L|].
  apply Forall_forall. intros r H. apply in_map_iff in H. destruct H as (row & <- & _). apply tmvec_length.
Qed.

Lemma mmul_mv : forall n k A D t, mat n k D -> length t = k -> mvec (mmul k A D) t = mvec A (mvec D t).
Proof.
  intros n k A D t HD Lt. unfold mvec at 1 2, mmul. rewrite map_map. apply map_ext. intro row.
  apply (tmvec_adjoint n); assumption.
Qed.

Lemma mmul_tmv : forall m n k A D ct, mat m n A -> mat n k D ->
  tmvec k (mmul k A D) ct = tmvec k D (tmvec n A ct).
Proof.
  intros m n k A D ct HA HD. apply (tmvec_char m).
  - apply mmul_mat. apply HA.
  - apply tmvec_length.
  - intros d Ld. rewrite (tmvec_adjoint n) by assumption. rewrite (mmul_mv n) by assumption.
    apply (tmvec_adjoint m); [exact HA|]. eapply mat_mvec_length; exact HD.
Qed.

Lemma madd_tmv : forall m k A B ct, mat m k A -> mat m k B -> length ct = m ->
  tmvec k (madd (N:=RN) A B) ct = Radd_v (tmvec k A ct) (tmvec k B ct).
Proof.
  intros m k A B ct HA HB Lc. apply (tmvec_char m).
  - apply madd_mat; assumption.
  - apply Radd_v_length; apply tmvec_length.
  - intros d Ld. rewrite Rdot_add_l by (rewrite !tmvec_length; reflexivity).
    rewrite !(tmvec_adjoint m) by assumption. rewrite (madd_mv m k) by assumption.
    rewrite Rdot_add_r; [reflexivity|]. rewrite !mvec_length. destruct HA, HB. congruence.
Qed.

(** The chain rule *)
Lemma chain2 : forall n k m F Y y0 p0 A B DY DP,
  jacobian2_at n k n Y y0 p0 DY DP -> jacobian2_at n k m F (Y y0 p0) p0 A B ->
  jacobian2_at n k m (fun y p => F (Y y p) p) y0 p0 (mmul n A DY) (madd (N:=RN) (mmul k A DP) B).
Proof.
  intros n k m F Y y0 p0 A B DY DP (Ly & Lp & LY & MY & MP & D1) (LYy & _ & LF & MA & MB & D2).
  split; [exact Ly|]. split; [exact Lp|]. split; [auto|].
  assert (MAY : mat m n (mmul n A DY)) by (apply mmul_mat; apply MA).
  assert (MAP : mat m k (mmul k A DP)) by (apply mmul_mat; apply MA).
  split; [exact MAY|]. split; [apply madd_mat; assumption|].
  intros eps He.
  destruct (mvec_bound A) as (KA & PKA & BA). destruct (mvec_bound DY) as (K1 & PK1 & B1).
  destruct (mvec_bound DP) as (K2 & PK2 & B2).
  set (e1 := Rmin 1 (eps / (2 * (KA + 1)))). set (e2 := eps / (2 * (K1 + K2 + 2))).
  assert (P1 : 0 < e1) by (apply Rmin_glb_lt; [lra|apply Rdiv_lt_0_compat; lra]).
  assert (P2 : 0 < e2) by (apply Rdiv_lt_0_compat; lra).
  assert (Q1 : e1 <= 1) by apply Rmin_l.
  assert (Q2 : KA * e1 <= eps / 2).
  { apply Rle_trans with (KA * (eps / (2 * (KA + 1)))); [apply Rmult_le_compat_l; [lra|apply Rmin_r]|].
    apply Rmult_le_reg_r with (2 * (KA + 1)); [lra|].
    replace (KA * (eps / (2 * (KA + 1))) * (2 * (KA + 1))) with (KA * eps) by (field; lra). nra. }
  assert (Q3 : e2 * (K1 + K2 + 2) <= eps / 2) by (unfold e2; right; field; lra).
  destruct (D2 e2 P2) as (d2 & Pd2 & H2). destruct (D1 e1 P1) as (d1 & Pd1 & H1).
  set (KK := K1 + K2 + 2) in *. assert (PKK : 0 < KK) by (unfold KK; lra).
  exists (Rmin d1 (d2 / KK)). split; [apply Rmin_glb_lt; [exact Pd1|apply Rdiv_lt_0_compat; lra]|].
  intros h g Lh Lg Nh Ng. pose proof (Rmin_l d1 (d2 / KK)). pose proof (Rmin_r d1 (d2 / KK)).
  specialize (H1 h g Lh Lg ltac:(lra) ltac:(lra)).
  set (mx := Rmax (Rmax_norm h) (Rmax_norm g)) in *.
  assert (X1 : Rmax_norm h <= mx) by apply Rmax_l. assert (X2 : Rmax_norm g <= mx) by apply Rmax_r.
  assert (X0 : 0 <= mx) by (eapply Rle_trans; [apply (Rmax_norm_pos h)|exact X1]).
  assert (X3 : mx < d2 / KK) by (apply Rmax_lub_lt; lra).
  assert (X4 : KK * mx < d2).
  { apply (Rmult_lt_compat_l KK) in X3; [|exact PKK]. replace (KK * (d2 / KK)) with d2 in X3 by (field; lra). exact X3. }
  assert (Lyh : length (Radd_v y0 h) = n) by (apply Radd_v_length; assumption).
  assert (Lpg : length (Radd_v p0 g) = k) by (apply Radd_v_length; assumption).
  assert (LY1 : length (Y (Radd_v y0 h) (Radd_v p0 g)) = n) by auto.
  set (u := Rsub_v (Y (Radd_v y0 h) (Radd_v p0 g)) (Y y0 p0)) in *.
  assert (Lu : length u = n) by (apply Rsub_v_length; assumption).
  assert (Eu : Radd_v (Y y0 p0) u = Y (Radd_v y0 h) (Radd_v p0 g)) by (apply add_sub_l; congruence).
  assert (Lyy : length (mvec DY h) = n) by (eapply mat_mvec_length; exact MY).
  assert (Lpp : length (mvec DP g) = n) by (eapply mat_mvec_length; exact MP).
  set (lin := Radd_v (mvec DY h) (mvec DP g)) in *.
  assert (Ll : length lin = n) by (apply Radd_v_length; assumption).
  assert (Nl : Rmax_norm lin <= (K1 + K2) * mx).
  { eapply Rle_trans; [apply norm_add; congruence|]. pose proof (B1 h). pose proof (B2 g).
    pose proof (Rmult_le_compat_l K1 _ _ PK1 X1). pose proof (Rmult_le_compat_l K2 _ _ PK2 X2). lra. }
  assert (Nu : Rmax_norm u <= (K1 + K2 + 1) * mx).
  { pose proof (norm_sub_le u lin ltac:(congruence)). pose proof (Rmult_le_compat_r mx _ _ X0 Q1). lra. }
  assert (Nu2 : Rmax_norm u < d2) by (unfold KK in X4; lra).
  assert (Ng2 : Rmax_norm g < d2).
  { assert (mx <= KK * mx); [|lra]. unfold KK. pose proof (Rmult_le_pos _ _ PK1 X0). pose proof (Rmult_le_pos _ _ PK2 X0). lra. }
  specialize (H2 u g Lu Lg Nu2 Ng2). rewrite Eu in H2.
  rewrite (mmul_mv n) by assumption. rewrite (madd_mv m k) by assumption. rewrite (mmul_mv n) by assumption.
  set (dF := Rsub_v (F (Y (Radd_v y0 h) (Radd_v p0 g)) (Radd_v p0 g)) (F (Y y0 p0) p0)) in *.
  assert (LdF : length dF = m) by (apply Rsub_v_length; auto).
  assert (LAu : length (mvec A u) = m) by (eapply mat_mvec_length; exact MA).
  assert (LBg : length (mvec B g) = m) by (eapply mat_mvec_length; exact MB).
  assert (L1 : length (mvec A (mvec DY h)) = m) by (eapply mat_mvec_length; exact MA).
  assert (L2 : length (mvec A (mvec DP g)) = m) by (eapply mat_mvec_length; exact MA).
  set (r1 := Rsub_v u lin) in *. assert (Lr1 : length r1 = n) by (apply Rsub_v_length; assumption).
  assert (E : Rsub_v dF (Radd_v (mvec A (mvec DY h)) (Radd_v (mvec A (mvec DP g)) (mvec B g))) =
              Radd_v (Rsub_v dF (Radd_v (mvec A u) (mvec B g))) (mvec A r1)).
  { unfold r1. rewrite (mvec_sub A m n) by assumption. unfold lin. rewrite (mvec_add A m n) by assumption.
    revert LdF LAu LBg L1 L2. generalize dF, (mvec A u), (mvec B g), (mvec A (mvec DY h)), (mvec A (mvec DP g)).
    clear. intros a b c d e. revert b c d e m. induction a as [|x a IH]; intros [|b0 b] [|c0 c] [|d0 d] [|e0 e] m L1 L2 L3 L4 L5;
      cbn in *; try congruence. f_equal; [ring|]. apply (IH _ _ _ _ (pred m)); lia. }
  rewrite E.
  assert (LS : length (Radd_v (mvec A u) (mvec B g)) = m) by (apply Radd_v_length; assumption).
  assert (LA1 : length (mvec A r1) = m) by (eapply mat_mvec_length; exact MA).
  eapply Rle_trans; [apply norm_add; rewrite LA1; apply Rsub_v_length; assumption|].
  pose proof (BA r1) as Z1.
  assert (Z2 : KA * Rmax_norm r1 <= eps / 2 * mx).
  { apply Rle_trans with (KA * (e1 * mx)); [apply Rmult_le_compat_l; assumption|].
    rewrite <- Rmult_assoc. apply Rmult_le_compat_r; assumption. }
  assert (Z3 : e2 * Rmax (Rmax_norm u) (Rmax_norm g) <= eps / 2 * mx).
  { apply Rle_trans with (e2 * (KK * mx)).
    - apply Rmult_le_compat_l; [lra|]. pose proof (Rmult_le_pos _ _ PK1 X0). pose proof (Rmult_le_pos _ _ PK2 X0).
      apply Rmax_lub; unfold KK; lra.
    - rewrite <- Rmult_assoc. apply Rmult_le_compat_r; [exact X0|exact Q3]. }
  lra.
Qed.

Lemma zmat_mv : forall n k g, mvec (repeat (zerov k) n) g = zerov n.
Proof.
  intros n k g. induction n as [|n IH]; [reflexivity|]. cbn [repeat mvec map] in *. unfold mvec in IH.
  rewrite IH, Rdot_0_l. reflexivity.
Qed.

(** The projection on the first argument *)
Lemma first_jac2 : forall n k y p, length y = n -> length p = k ->
  jacobian2_at n k n (fun y _ => y) y p (identity_mat (N:=RN) n) (repeat (zerov k) n).
Proof.
  intros n k y p Ly Lp.
  assert (MZ : mat n k (repeat (zerov k) n)).
  { split; [apply repeat_length|]. apply Forall_forall. intros r H. apply repeat_spec in H. subst. apply zerov_length. }
  split; [exact Ly|]. split; [exact Lp|]. split; [auto|]. split; [apply identity_spd|]. split; [exact MZ|].
  intros eps He. exists 1. split; [lra|]. intros h g Lh Lg _ _.
  rewrite identity_mv by exact Lh. rewrite sub_add_l by congruence.
  rewrite zmat_mv, add_zero_r by exact Lh. rewrite Rsub_v_self, norm_zerov.
  apply Rmult_le_pos; [lra|]. eapply Rle_trans; [apply (Rmax_norm_pos h)|apply Rmax_l].
Qed.

(** A damped combination *)
Lemma damped_jac2 : forall n k F y p A B c, jacobian2_at n k n F y p A B ->
  jacobian2_at n k n (fun y p => Radd_v (Rscal (1 - c) (F y p)) (Rscal c y)) y p
    (madd (N:=RN) (map (Rscal (1 - c)) A) (map (Rscal c) (identity_mat (N:=RN) n))) (map (Rscal (1 - c)) B).
Proof.
  intros n k F y p A B c (Ly & Lp & LF & MA & MB & D).
  assert (MS : forall m k c M, mat m k M -> mat m k (map (Rscal c) M)).
  { clear. intros m k c M [L H]. split; [rewrite map_length; exact L|]. apply Forall_forall. intros r Hr.
    apply in_map_iff in Hr as (r' & <- & Hr). rewrite Rscal_length. rewrite Forall_forall in H. apply H; exact Hr. }
  assert (SV : forall c M x, mvec (map (Rscal c) M) x = Rscal c (mvec M x)).
  { clear. intros c M x. unfold mvec, Rscal at 2. rewrite !map_map. apply map_ext. intro r. apply Rdot_scal_l. }
  assert (MI : mat n n (identity_mat (N:=RN) n)) by apply identity_spd.
  split; [exact Ly|]. split; [exact Lp|]. split.
  { intros y' p' L1 L2. apply Radd_v_length; rewrite Rscal_length; auto. }
  split; [apply madd_mat; apply MS; assumption|]. split; [apply MS; exact MB|].
  intros eps He. set (e := eps / (Rabs (1 - c) + 1)). pose proof (Rabs_pos (1 - c)) as C0.
  assert (P : 0 < e) by (apply Rdiv_lt_0_compat; lra).
  assert (Pe : Rabs (1 - c) * e <= eps).
  { unfold e. apply Rmult_le_reg_r with (Rabs (1 - c) + 1); [lra|].
    replace (Rabs (1 - c) * (eps / (Rabs (1 - c) + 1)) * (Rabs (1 - c) + 1)) with (Rabs (1 - c) * eps) by (field; lra). nra. }
  destruct (D e P) as (d & Pd & H). exists d. split; [exact Pd|]. intros h g Lh Lg Nh Ng.
  specialize (H h g Lh Lg Nh Ng).
  rewrite (madd_mv n n) by (apply MS; assumption). rewrite !SV, identity_mv by exact Lh.
  assert (E : Rsub_v (Rsub_v (Radd_v (Rscal (1 - c) (F (Radd_v y h) (Radd_v p g))) (Rscal c (Radd_v y h)))
                             (Radd_v (Rscal (1 - c) (F y p)) (Rscal c y)))
                (Radd_v (Radd_v (Rscal (1 - c) (mvec A h)) (Rscal c h)) (Rscal (1 - c) (mvec B g))) =
              Rscal (1 - c) (Rsub_v (Rsub_v (F (Radd_v y h) (Radd_v p g)) (F y p)) (Radd_v (mvec A h) (mvec B g)))).
  { assert (K1 : length (F (Radd_v y h) (Radd_v p g)) = n) by (apply LF; apply Radd_v_length; assumption).
    assert (K2 : length (F y p) = n) by auto. assert (K3 : length (mvec A h) = n) by (eapply mat_mvec_length; exact MA).
    assert (K4 : length (mvec B g) = n) by (eapply mat_mvec_length; exact MB).
    revert K1 K2 K3 K4 Ly Lh. generalize (F (Radd_v y h) (Radd_v p g)), (F y p), (mvec A h), (mvec B g). clear.
    intros a b u v. revert b u v y h n. induction a as [|a0 a IH]; intros [|b0 b] [|u0 u] [|v0 v] [|y0 y] [|h0 h] n; intros; cbn in *; try congruence.
    f_equal; [ring|]. apply (IH _ _ _ _ _ (pred n)); lia. }
  rewrite E, norm_scal.
  assert (X0 : 0 <= Rmax (Rmax_norm h) (Rmax_norm g)) by (eapply Rle_trans; [apply (Rmax_norm_pos h)|apply Rmax_l]).
  eapply Rle_trans; [apply Rmult_le_compat_l; [exact C0|exact H]|]. rewrite <- Rmult_assoc.
  apply Rmult_le_compat_r; assumption.
Qed.

(** The loop *)
Section Loop.
  Variable vjp : (list R -> list R -> list R) -> list R -> list R -> list R -> list R * list R.
  Hypothesis CV : vjp_correct vjp.
  Variables (n k : nat) (G : list R -> list R -> list R) (p0 : list R) (A B : list R -> list (list R)).
  Hypothesis Lp : length p0 = k.
  Hypothesis HG : forall y, length y = n -> jacobian2_at n k n G y p0 (A y) (B y).
  Variable y0 : list R.
  Hypothesis Ly : length y0 = n.
  Let Yk (j : nat) : list R := run_body (N:=RN) G p0 y0 j.
  Fixpoint DYk (j : nat) : list (list R) :=
    match j with O => identity_mat (N:=RN) n | S i => mmul n (A (Yk i)) (DYk i) end.
  Fixpoint DPk (j : nat) : list (list R) :=
    match j with O => repeat (zerov k) n | S i => madd (N:=RN) (mmul k (A (Yk i)) (DPk i)) (B (Yk i)) end.

  Lemma loop_jac : forall j, length (Yk j) = n /\
    jacobian2_at n k n (fun y p => run_body (N:=RN) G p y j) y0 p0 (DYk j) (DPk j).
  Proof.
    induction j as [|j [L IH]].
    - split; [exact Ly|]. apply first_jac2; assumption.
    - pose proof (HG (Yk j) L) as H. split.
      + apply H; [exact L|exact Lp].
      + exact (chain2 n k n G (fun y p => run_body (N:=RN) G p y j) y0 p0 _ _ _ _ IH H).
  Qed.

  Lemma loop_vjp : forall j ct, length ct = n ->
    unrolled_vjp (N:=RN) vjp G p0 y0 j ct = (tmvec n (DYk j) ct, tmvec k (DPk j) ct).
  Proof.
    induction j as [|j IH]; intros ct Lc.
    - cbn [unrolled_vjp DYk DPk]. f_equal.
      + symmetry. apply (tmvec_char n); [apply identity_spd|exact Lc|]. intros d Ld. rewrite identity_mv by exact Ld. reflexivity.
      + symmetry. apply (tmvec_char n).
        * split; [apply repeat_length|]. apply Forall_forall. intros r H. apply repeat_spec in H. subst. apply zerov_length.
        * unfold vfull. rewrite repeat_length. exact Lp.
        * intros d Ld. unfold vfull. replace (nofQ (n:=RN) 0) with 0 by (cbn; rewrite Q2R_0; reflexivity).
          change (Rdot (zerov (length p0)) d = Rdot ct (mvec (repeat (zerov k) n) d)). rewrite Rdot_0_l.
          rewrite zmat_mv, Rdot_0_r. reflexivity.
    - cbn [unrolled_vjp]. destruct (loop_jac j) as [L J]. pose proof (HG _ L) as H.
      change (run_body (N:=RN) G p0 y0 j) with (Yk j).
      rewrite (CV n k n G (Yk j) p0 _ _ ct H Lc).
      rewrite (IH (tmvec n (A (Yk j)) ct) (tmvec_length _ _ _)).
      destruct H as (_ & _ & _ & MA & MB & _). destruct J as (_ & _ & _ & MY & MP & _).
      cbn [DYk DPk]. f_equal.
      + symmetry. apply (mmul_tmv n); assumption.
      + rewrite (madd_tmv n k) by (try apply mmul_mat; try assumption; apply MA).
        rewrite (mmul_tmv n n) by assumption. apply vadd_RN.
  Qed.

  (** Tangents of the iterates *)
  Lemma loop_tangent : forall j t0 tp, length t0 = n -> length tp = k ->
    let T i := Radd_v (mvec (DYk i) t0) (mvec (DPk i) tp) in
    T 0%nat = t0 /\ T (S j) = Radd_v (mvec (A (Yk j)) (T j)) (mvec (B (Yk j)) tp).
  Proof.
    intros j t0 tp L0 L1 T. split.
    - unfold T. cbn [DYk DPk]. rewrite identity_mv by exact L0.
      rewrite zmat_mv. apply add_zero_r. exact L0.
    - unfold T. cbn [DYk DPk]. destruct (loop_jac j) as [L (_ & _ & _ & MY & MP & _)].
      destruct (HG _ L) as (_ & _ & _ & MA & MB & _).
      rewrite (mmul_mv n) by assumption. rewrite (madd_mv n k) by (try assumption; apply mmul_mat; apply MA).
      rewrite (mmul_mv n) by assumption.
      rewrite (mvec_add _ n n) by (try exact MA; eapply mat_mvec_length; eassumption).
      assert (K1 : length (mvec (A (Yk j)) (mvec (DYk j) t0)) = n) by (eapply mat_mvec_length; exact MA).
      assert (K2 : length (mvec (A (Yk j)) (mvec (DPk j) tp)) = n) by (eapply mat_mvec_length; exact MA).
      assert (K3 : length (mvec (B (Yk j)) tp) = n) by (eapply mat_mvec_length; exact MB).
      revert K1 K2 K3. generalize (mvec (A (Yk j)) (mvec (DYk j) t0)), (mvec (A (Yk j)) (mvec (DPk j) tp)), (mvec (B (Yk j)) tp).
      clear. intros a b c. revert b c n. induction a as [|x a IH]; intros [|y b] [|z c] n K1 K2 K3; cbn in *; try congruence.
      f_equal; [ring|]. apply (IH _ _ (pred n)); lia.
  Qed.

  (** How far the tangents are from the tangent of a fixed point z *)
  Lemma loop_limit : forall (q M D : R) (z v t0 tp : list R), 0 <= q -> 0 <= M -> length z = n -> length v = n ->
    length t0 = n -> length tp = k ->
    (forall y u, length y = n -> length u = n -> Rmax_norm (mvec (A y) u) <= q * Rmax_norm u) ->
    (forall j, Rdist_inf (Yk j) z <= q ^ j * D) ->
    lipschitz_at n n M A z -> lipschitz_at n k M B z ->
    v = Radd_v (mvec (A z) v) (mvec (B z) tp) ->
    forall j, let T := Radd_v (mvec (DYk j) t0) (mvec (DPk j) tp) in
      length T = n /\
      Rmax_norm (Rsub_v T v) <= q ^ j * Rmax_norm (Rsub_v t0 v) +
        INR j * q ^ pred j * (M * D * (Rmax_norm v + Rmax_norm tp)).
  Proof.
    intros q M D z v t0 tp Hq HM Lz Lv L0 L1 HA HD HLA HLB Ev. set (W := M * D * (Rmax_norm v + Rmax_norm tp)).
    induction j as [|j [LT IH]]; intro T.
    - destruct (loop_tangent 0 t0 tp L0 L1) as [E _]. cbv zeta in E. unfold T. rewrite E. split; [exact L0|]. cbn. lra.
    - destruct (loop_tangent j t0 tp L0 L1) as [_ E]. cbv zeta in E. unfold T. rewrite E.
      set (Tj := Radd_v (mvec (DYk j) t0) (mvec (DPk j) tp)) in *.
      destruct (loop_jac j) as [LY _]. destruct (HG _ LY) as (_ & _ & _ & MA & MB & _).
      destruct (HG _ Lz) as (_ & _ & _ & MAz & MBz & _).
      set (y := Yk j) in *.
      assert (K1 : length (mvec (A y) Tj) = n) by (eapply mat_mvec_length; exact MA).
      assert (K2 : length (mvec (A y) v) = n) by (eapply mat_mvec_length; exact MA).
      assert (K3 : length (mvec (A z) v) = n) by (eapply mat_mvec_length; exact MAz).
      assert (K4 : length (mvec (B y) tp) = n) by (eapply mat_mvec_length; exact MB).
      assert (K5 : length (mvec (B z) tp) = n) by (eapply mat_mvec_length; exact MBz).
      split; [apply Radd_v_length; assumption|].
      assert (X : Rsub_v (Radd_v (mvec (A y) Tj) (mvec (B y) tp)) v =
        Radd_v (mvec (A y) (Rsub_v Tj v)) (Radd_v (Rsub_v (mvec (A y) v) (mvec (A z) v)) (Rsub_v (mvec (B y) tp) (mvec (B z) tp)))).
      { rewrite (mvec_sub (A y) n n) by assumption. rewrite Ev at 1.
        revert K1 K2 K3 K4 K5. generalize (mvec (A y) Tj), (mvec (A y) v), (mvec (A z) v), (mvec (B y) tp), (mvec (B z) tp).
        clear. intros a b c d e. revert b c d e n. induction a as [|x a IH]; intros [|b0 b] [|c0 c] [|d0 d] [|e0 e] n K1 K2 K3 K4 K5;
          cbn in *; try congruence. f_equal; [ring|]. apply (IH _ _ _ _ (pred n)); lia. }
      rewrite X.
      assert (LS : length (Rsub_v Tj v) = n) by (apply Rsub_v_length; assumption).
      assert (LA : length (mvec (A y) (Rsub_v Tj v)) = n) by (eapply mat_mvec_length; exact MA).
      assert (LD : length (Rsub_v (mvec (A y) v) (mvec (A z) v)) = n) by (apply Rsub_v_length; assumption).
      assert (LE : length (Rsub_v (mvec (B y) tp) (mvec (B z) tp)) = n) by (apply Rsub_v_length; assumption).
      assert (LDE : length (Radd_v (Rsub_v (mvec (A y) v) (mvec (A z) v)) (Rsub_v (mvec (B y) tp) (mvec (B z) tp))) = n) by (apply Radd_v_length; assumption).
      pose proof (norm_add _ _ (eq_trans LA (eq_sym LDE))) as N1. pose proof (norm_add _ _ (eq_trans LD (eq_sym LE))) as N2.
      pose proof (HA y (Rsub_v Tj v) LY LS) as N3. pose proof (HLA y v LY Lv) as N4. pose proof (HLB y tp LY L1) as N5.
      pose proof (Rmax_norm_pos v) as V0. pose proof (Rmax_norm_pos tp) as P0.
      assert (Y1 : M * Rdist_inf y z * (Rmax_norm v + Rmax_norm tp) <= q ^ j * W).
      { unfold W. replace (q ^ j * (M * D * (Rmax_norm v + Rmax_norm tp))) with (M * (q ^ j * D) * (Rmax_norm v + Rmax_norm tp)) by ring.
        apply Rmult_le_compat_r; [lra|]. apply Rmult_le_compat_l; [exact HM|apply HD]. }
      assert (Y2 : q * Rmax_norm (Rsub_v Tj v) <= q * (q ^ j * Rmax_norm (Rsub_v t0 v) + INR j * q ^ pred j * W))
        by (apply Rmult_le_compat_l; [exact Hq|exact IH]).
      assert (Y3 : q * (INR j * q ^ pred j * W) + q ^ j * W = INR (S j) * q ^ j * W).
      { rewrite S_INR. destruct j as [|j']; [cbn; ring|]. cbn [pred pow]. ring. }
      cbn [pred pow]. lra.
  Qed.
End Loop.

Lemma Rdist_sym_v : forall a b, Rmax_norm (Rsub_v a b) = Rmax_norm (Rsub_v b a).
Proof.
  induction a as [|x a IH]; intros [|z b]; cbn; try reflexivity.
  specialize (IH b). unfold Rmax_norm in IH. rewrite IH, Rabs_minus_sym. reflexivity.
Qed.

(** The derivative of a contraction contracts *)
Lemma contraction_derivative : forall n q f y J v, contraction n q f -> jacobian_at n n f y J -> length v = n ->
  Rmax_norm (mvec J v) <= q * Rmax_norm v.
Proof.
  intros n q f y J v (Hq & Lf & HC) (Ly & _ & MJ & D) Lv.
  pose proof (Rmax_norm_pos v) as V0.
  apply le_epsilon. intros eps He. set (e := eps / (Rmax_norm v + 1)).
  assert (Pe : 0 < e) by (apply Rdiv_lt_0_compat; lra).
  assert (Ee : e * Rmax_norm v <= eps).
  { unfold e. apply Rmult_le_reg_r with (Rmax_norm v + 1); [lra|].
    replace (eps / (Rmax_norm v + 1) * Rmax_norm v * (Rmax_norm v + 1)) with (eps * Rmax_norm v) by (field; lra). nra. }
  destruct (D e Pe) as (d & Pd & H). set (s := d / (2 * (Rmax_norm v + 1))).
  assert (Ps : 0 < s) by (apply Rdiv_lt_0_compat; lra).
  assert (Es : s * Rmax_norm v < d).
  { unfold s. apply Rmult_lt_reg_r with (2 * (Rmax_norm v + 1)); [lra|].
    replace (d / (2 * (Rmax_norm v + 1)) * Rmax_norm v * (2 * (Rmax_norm v + 1))) with (d * Rmax_norm v) by (field; lra). nra. }
  assert (Nh : Rmax_norm (Rscal s v) = s * Rmax_norm v) by (rewrite norm_scal, Rabs_pos_eq by lra; reflexivity).
  assert (Lh : length (Rscal s v) = n) by (rewrite Rscal_length; exact Lv).
  specialize (H (Rscal s v) Lh ltac:(lra)). rewrite mvec_scal, Nh in H.
  assert (Ly' : length (Radd_v y (Rscal s v)) = n) by (apply Radd_v_length; assumption).
  pose proof (HC _ _ Ly' Ly) as C. unfold Rdist_inf in C. rewrite (sub_add_l y) in C by congruence. rewrite Nh in C.
  set (dF := Rsub_v (f (Radd_v y (Rscal s v))) (f y)) in *.
  assert (LF : length dF = n) by (apply Rsub_v_length; auto).
  assert (LJ : length (mvec J v) = n) by (eapply mat_mvec_length; exact MJ).
  assert (LJs : length (Rscal s (mvec J v)) = n) by (rewrite Rscal_length; exact LJ).
  pose proof (norm_sub_le (Rscal s (mvec J v)) dF ltac:(congruence)) as T.
  assert (SW : Rmax_norm (Rsub_v (Rscal s (mvec J v)) dF) = Rmax_norm (Rsub_v dF (Rscal s (mvec J v)))).
  { apply Rdist_sym_v. }
  rewrite SW in T. rewrite (norm_scal s), (Rabs_pos_eq s) in T by lra.
  apply (Rmult_le_reg_l s); [exact Ps|].
  assert (s * (e * Rmax_norm v) <= s * eps) by (apply Rmult_le_compat_l; lra). lra.
Qed.

Lemma fp_body_RN : forall damp (F : list R -> list R -> list R) y p,
  fp_body (N:=RN) damp (fun y p => (F y p, tt)) y p = Radd_v (Rscal (1 - damp) (F y p)) (Rscal damp y).
Proof.
  intros damp F y p. unfold fp_body, fp_update. cbn [fst]. generalize (F y p). intro a.
  revert y. induction a as [|x a IH]; intros [|b y]; try reflexivity. cbn [vmap2 Rscal map Radd_v] in *.
  f_equal; [cbn; rewrite Q2R_1; ring|]. apply IH.
Qed.

Lemma run_steps : forall damp (F : list R -> list R -> list R) K y p,
  run_body (N:=RN) (fp_body (N:=RN) damp (fun y p => (F y p, tt))) p y K = damped_steps damp F K y p.
Proof.
  intros damp F K y p. induction K as [|K IH]; [reflexivity|]. cbn [run_body]. rewrite fp_body_RN.
  unfold damped_steps in *. cbn [Nat.iter nat_rect] in *. rewrite IH. reflexivity.
Qed.

Lemma rupdate_eq : forall damp f u, rupdate damp f u = Radd_v (Rscal (1 - damp) (f u)) (Rscal damp u).
Proof.
  intros damp f u. unfold rupdate. generalize (f u). intro a. revert u.
  induction a as [|x a IHa]; intros [|b u]; try reflexivity. cbn. f_equal. apply IHa.
Qed.

Lemma rorbit_steps : forall damp (F : list R -> list R -> list R) K y p,
  rorbit damp (fun y => F y p) y K = damped_steps damp F K y p.
Proof.
  intros damp F K y p. induction K as [|K IH]; [reflexivity|]. cbn [rorbit]. rewrite IH, rupdate_eq. reflexivity.
Qed.

(** The solve, its number of steps and the cotangents *)
Lemma checkpointed_run : forall vjp (F : list R -> list R -> list R) p0 y0 rtol atol damp norm fs auxs fuel budget throw sol,
  let s := fixed_point_iteration (N:=XR) rtol atol (Fin damp) norm in
  iterative_solve vallfinite s (liftv (fun y => F y p0)) fuel budget throw (map Fin y0) fs auxs = Ret sol ->
  exists K, hd_error (sol_stats sol) = Some ("num_steps"%string, Some (Z.of_nat K)) /\
    value sol = map Fin (damped_steps damp F K y0 p0) /\
    forall ct, checkpointed_vjp (N:=RN) vjp damp (fun y p => (F y p, tt)) p0 y0 (sol_stats sol) ct =
      Some (unrolled_vjp (N:=RN) vjp (fp_body (N:=RN) damp (fun y p => (F y p, tt))) p0 y0 K ct).
Proof.
  intros vjp F p0 y0 rtol atol damp norm fs auxs fuel budget throw sol s H.
  destruct (iterative_solve_inv vallfinite s (liftv (fun y => F y p0)) (map Fin y0) PInf _ fs auxs eq_refl eq_refl fuel budget throw sol H)
    as (K & _ & _ & -> & _).
  exists K.
  destruct (solution_at_fields vallfinite s (liftv (fun y => F y p0)) (map Fin y0) PInf (auxs fill0) budget K) as (_ & _ & EV & ES).
  split; [exact (f_equal (@hd_error _) ES)|]. split.
  - cbn [s_post s fixed_point_iteration] in EV. fold s in EV. apply (f_equal fst) in EV. cbn [fst] in EV.
    etransitivity; [exact EV|]. rewrite <- rorbit_steps. apply orbit_trace.
  - intro ct. pose proof (f_equal (fun st => stats_get st "num_steps") ES) as EQ. cbv beta in EQ.
    refine (eq_trans (f_equal (fun o => match o with
      | Some (Some k) => Some (unrolled_vjp (N:=RN) vjp (fp_body (N:=RN) damp (fun y p => (F y p, tt))) p0 y0 (Z.to_nat k) ct)
      | _ => None end) EQ) _).
    cbn [stats_get snd fst find]. cbn. rewrite Nat2Z.id. reflexivity.
Qed.

(** RecursiveCheckpointAdjoint computes the derivative of the algorithm: for a
    FixedPointIteration that took K steps, the cotangents it returns for y0 and for the
    parameters are the products with the transposed derivatives of "K damped steps". *)
Lemma C98_derivative_pf :
  forall vjp (F : list R -> list R -> list R) (n k : nat) p0 y0 A B rtol atol damp norm fs auxs fuel budget throw sol,
  vjp_correct vjp -> length y0 = n -> length p0 = k ->
  (forall y, length y = n -> jacobian2_at n k n F y p0 (A y) (B y)) ->
  let s := fixed_point_iteration (N:=XR) rtol atol (Fin damp) norm in
  iterative_solve vallfinite s (liftv (fun y => F y p0)) fuel budget throw (map Fin y0) fs auxs = Ret sol ->
  exists K DY DP, hd_error (sol_stats sol) = Some ("num_steps"%string, Some (Z.of_nat K)) /\
    value sol = map Fin (damped_steps damp F K y0 p0) /\
    jacobian2_at n k n (damped_steps damp F K) y0 p0 DY DP /\
    forall ct, length ct = n ->
      checkpointed_vjp (N:=RN) vjp damp (fun y p => (F y p, tt)) p0 y0 (sol_stats sol) ct =
        Some (tmvec n DY ct, tmvec k DP ct).
Proof.
  intros vjp F n k p0 y0 A B rtol atol damp norm fs auxs fuel budget throw sol CV Ly Lp HF s H.
  destruct (checkpointed_run vjp F p0 y0 rtol atol damp norm fs auxs fuel budget throw sol H) as (K & E1 & E2 & E3).
  set (G := fp_body (N:=RN) damp (fun y p => (F y p, tt))) in *.
  set (A' := fun y => madd (N:=RN) (map (Rscal (1 - damp)) (A y)) (map (Rscal damp) (identity_mat (N:=RN) n))).
  set (B' := fun y => map (Rscal (1 - damp)) (B y)).
  assert (HG : forall y, length y = n -> jacobian2_at n k n G y p0 (A' y) (B' y)).
  { intros y L. eapply jacobian2_ext; [|exact (damped_jac2 n k F y p0 _ _ damp (HF y L))].
    intros; apply fp_body_RN. }
  destruct (loop_jac n k G p0 A' B' Lp HG y0 Ly K) as [_ J].
  exists K, (DYk n G p0 A' y0 K), (DPk n k G p0 A' B' y0 K).
  split; [exact E1|]. split; [exact E2|]. split.
  - eapply jacobian2_ext; [|exact J]. intros; symmetry; apply run_steps.
  - intros ct Lc. rewrite E3. f_equal. exact (loop_vjp vjp CV n k G p0 A' B' Lp HG y0 Ly K ct Lc).
Qed.

Lemma sub_neg_eq : forall a b c, length a = length b -> length c = length b ->
  Rsub_v a b = Rscal (-1) c -> b = Radd_v a c.
Proof.
  induction a as [|x a IH]; intros [|y b] [|w c] L1 L2 E; cbn in *; try congruence.
  assert (E1 : x - y = -1 * w) by exact (f_equal (hd 0) E).
  assert (E2 : Rsub_v a b = Rscal (-1) c) by exact (f_equal (@tl R) E).
  f_equal; [lra|]. apply IH; [lia|lia|exact E2].
Qed.

Lemma damped_fixed : forall d a b c, length a = length b -> length c = length b -> b = Radd_v a c ->
  b = Radd_v (Radd_v (Rscal (1 - d) a) (Rscal d b)) (Rscal (1 - d) c).
Proof.
  intro d. induction a as [|x a IH]; intros [|y b] [|w c] L1 L2 E; cbn in *; try congruence.
  assert (E1 : y = x + w) by exact (f_equal (hd 0) E).
  assert (E2 : b = Radd_v a c) by exact (f_equal (@tl R) E).
  f_equal; [rewrite E1; ring|]. apply IH; [lia|lia|exact E2].
Qed.

(** The tangents of K damped steps approach the tangent of the fixed point *)
Lemma unrolled_bound : forall vjp jvp jacT grad lsolve (fps : PolySolver (list RN) (list RN))
    (F : list R -> list R -> list R) (n k : nat) p0 y0 z A B C Cinv q M damp (K : nat) (t : list (option R)) ct,
  vjp_correct vjp -> jvp_correct jvp -> solves_invertible n lsolve ->
  length y0 = n -> length p0 = k -> length z = n -> F z p0 = z ->
  (forall y, length y = n -> jacobian2_at n k n F y p0 (A y) (B y)) ->
  contraction n q (fun y => F y p0) -> 0 <= damp < 1 -> 0 <= M ->
  lipschitz_at n n M A z -> lipschitz_at n k M B z ->
  mat n n C -> (forall x, length x = n -> mvec C x = Rsub_v (mvec (A z) x) x) ->
  mat n n Cinv -> inverses n C Cinv ->
  length t = (k + n)%nat -> length ct = n ->
  let t_p := firstn k (filled t) in let t_y0 := skipn k (filled t) in
  let q' := damp + (1 - damp) * q in
  exists v, length v = n /\ v = Radd_v (mvec (A z) v) (mvec (B z) t_p) /\
    value_tangent (N:=RN) jvp jacT lsolve k
      (fixed_point_rewrite (N:=RN) grad (AFixedPoint fps) (fun y p => (F y p, tt))) z (p0 ++ y0) t = Ret v /\
    let c := unrolled_vjp (N:=RN) vjp (fp_body (N:=RN) damp (fun y p => (F y p, tt))) p0 y0 K ct in
    Rabs (Rdot (fst c) t_y0 + Rdot (snd c) t_p - Rdot ct v) <=
      Rsum_abs ct * (q' ^ K * Rmax_norm (Rsub_v t_y0 v) +
        INR K * q' ^ pred K * ((1 - damp) * M * Rdist_inf y0 z * (Rmax_norm v + Rmax_norm t_p))).
Proof.
  intros vjp jvp jacT grad lsolve fps F n k p0 y0 z A B C Cinv q M damp K t ct
    CV CJ CS Ly Lp Lz Fz HF HC Hd HM HLA HLB MC EC MI INV Lt Lct t_p t_y0 q'.
  assert (Lf : length (filled t) = (k + n)%nat) by (unfold filled; rewrite map_length; exact Lt).
  assert (L1 : length t_p = k) by (unfold t_p; rewrite firstn_length; lia).
  assert (L0 : length t_y0 = n) by (unfold t_y0; rewrite skipn_length; lia).
  destruct (HF z Lz) as (_ & _ & LF & MAz & MBz & DF).
  (* the implicit tangent *)
  assert (JR : jacobian2_at n k n (fixed_point_rewrite (N:=RN) grad (AFixedPoint fps) (fun y p => (F y p, tt))) z p0 C (B z)).
  { apply (jacobian2_ext n k n _ (fun y p => Rsub_v (F y p) y)).
    { intros y p _ _. cbn [fixed_point_rewrite]. unfold rewrite_fixed. cbn [fst]. apply vsub_RN. }
    split; [exact Lz|]. split; [exact Lp|]. split; [intros; apply Rsub_v_length; auto|].
    split; [exact MC|]. split; [exact MBz|]. intros eps He. destruct (DF eps He) as (d & Pd & H). exists d. split; [exact Pd|].
    intros h g Lh Lg Nh Ng. specialize (H h g Lh Lg Nh Ng). rewrite EC by exact Lh.
    eapply Rle_trans; [|exact H]. right. f_equal.
    assert (K1 : length (F (Radd_v z h) (Radd_v p0 g)) = n) by (apply LF; apply Radd_v_length; assumption).
    assert (K2 : length (F z p0) = n) by auto. assert (K3 : length (mvec (A z) h) = n) by (eapply mat_mvec_length; exact MAz).
    assert (K4 : length (mvec (B z) g) = n) by (eapply mat_mvec_length; exact MBz).
    revert K1 K2 K3 K4 Lz Lh. generalize (F (Radd_v z h) (Radd_v p0 g)), (F z p0), (mvec (A z) h), (mvec (B z) g). clear.
    intros a b u w. revert b u w z h n. induction a as [|a0 a IH]; intros [|b0 b] [|u0 u] [|v0 w] [|y0 y] [|h0 h] n; intros; cbn in *; try congruence.
    f_equal; [ring|]. apply (IH _ _ _ _ _ (pred n)); lia. }
  set (v := mvec (implicit_matrix k Cinv (B z)) t_p).
  assert (ET : value_tangent (N:=RN) jvp jacT lsolve k
      (fixed_point_rewrite (N:=RN) grad (AFixedPoint fps) (fun y p => (F y p, tt))) z (p0 ++ y0) t = Ret v).
  { apply (tangent_value n k _ z C Cinv (B z) (p0 ++ y0) t jvp jacT lsolve); try assumption.
    - rewrite firstn_app, <- Lp, Nat.sub_diag, firstn_all. cbn [firstn]. rewrite app_nil_r, Lp. exact JR.
    - rewrite app_length, Lp. cbn. congruence. }
  assert (Lv : length v = n) by (eapply mat_mvec_length; apply implicit_matrix_mat; exact MI).
  assert (LBt : length (mvec (B z) t_p) = n) by (eapply mat_mvec_length; exact MBz).
  assert (Ev : v = Radd_v (mvec (A z) v) (mvec (B z) t_p)).
  { assert (X : mvec C v = Rscal (-1) (mvec (B z) t_p)).
    { unfold v. rewrite (implicit_matrix_mv n) by assumption. rewrite mvec_scal. f_equal. apply INV. exact LBt. }
    rewrite EC in X by exact Lv.
    assert (K1 : length (mvec (A z) v) = n) by (eapply mat_mvec_length; exact MAz).
    apply sub_neg_eq; [congruence|congruence|exact X]. }
  exists v. split; [exact Lv|]. split; [exact Ev|]. split; [exact ET|]. intro c.
  set (G := fp_body (N:=RN) damp (fun y p => (F y p, tt))) in *.
  set (A' := fun y => madd (N:=RN) (map (Rscal (1 - damp)) (A y)) (map (Rscal damp) (identity_mat (N:=RN) n))).
  set (B' := fun y => map (Rscal (1 - damp)) (B y)).
  assert (HG : forall y, length y = n -> jacobian2_at n k n G y p0 (A' y) (B' y)).
  { intros y L. eapply jacobian2_ext; [|exact (damped_jac2 n k F y p0 _ _ damp (HF y L))].
    intros; apply fp_body_RN. }
  assert (SV : forall c M x, mvec (map (Rscal c) M) x = Rscal c (mvec M x)).
  { clear. intros c M x. unfold mvec, Rscal at 2. rewrite !map_map. apply map_ext. intro r. apply Rdot_scal_l. }
  assert (MS : forall m k c M, mat m k M -> mat m k (map (Rscal c) M)).
  { clear. intros m k c M [L H]. split; [rewrite map_length; exact L|]. apply Forall_forall. intros r Hr.
    apply in_map_iff in Hr as (r' & <- & Hr). rewrite Rscal_length. rewrite Forall_forall in H. apply H; exact Hr. }
  assert (MId : mat n n (identity_mat (N:=RN) n)) by apply identity_spd.
  assert (AV : forall y u, length y = n -> length u = n -> mvec (A' y) u = Radd_v (Rscal (1 - damp) (mvec (A y) u)) (Rscal damp u)).
  { intros y u L1' L2'. unfold A'. destruct (HF y L1') as (_ & _ & _ & MA & _). rewrite (madd_mv n n) by (apply MS; assumption).
    rewrite !SV, identity_mv by exact L2'. reflexivity. }
  destruct HC as (Hq & Lc & HCC). 
  assert (Hq' : 0 <= q') by (unfold q'; nra).
  assert (HC' : contraction n q' (fun y => G y p0)).
  { split; [unfold q'; nra|]. split.
    - intros x Lx. apply (HG x Lx); assumption.
    - intros x y Lx Ly'. unfold G. rewrite !fp_body_RN, <- !(rupdate_eq damp (fun y => F y p0)).
      apply (rupdate_contr damp (fun y => F y p0) n q); try assumption. split; [exact Hq|]. split; assumption. }
  assert (Gz : G z p0 = z).
  { unfold G. rewrite fp_body_RN, Fz. clear. induction z as [|a z IH]; cbn; [reflexivity|]. f_equal; [ring|exact IH]. }
  assert (HDist : forall j, Rdist_inf (run_body (N:=RN) G p0 y0 j) z <= q' ^ j * Rdist_inf y0 z).
  { induction j as [|j IH]; [cbn [run_body pow]; right; symmetry; apply Rmult_1_l|]. cbn [run_body pow].
    pose proof (proj1 (loop_jac n k G p0 A' B' Lp HG y0 Ly j)) as Lj.
    pose proof (proj2 (proj2 HC') (run_body (N:=RN) G p0 y0 j) z Lj Lz) as Q. cbv beta in Q. rewrite Gz in Q.
    eapply Rle_trans; [exact Q|]. rewrite Rmult_assoc. apply Rmult_le_compat_l; assumption. }
  destruct (loop_limit n k G p0 A' B' Lp HG y0 Ly q' ((1 - damp) * M) (Rdist_inf y0 z) z v t_y0 t_p Hq'
    ltac:(apply Rmult_le_pos; lra) Lz Lv L0 L1) with (j := K) as [LT BT].
  - intros y u L L'. apply (contraction_derivative n q' (fun y => G y p0) y); try assumption.
    exact (partial_1 n k n G y p0 _ _ (HG y L)).
  - exact HDist.
  - intros y u L L'. rewrite !AV by assumption.
    destruct (HF y L) as (_ & _ & _ & MA & _).
    assert (E : Rsub_v (Radd_v (Rscal (1 - damp) (mvec (A y) u)) (Rscal damp u)) (Radd_v (Rscal (1 - damp) (mvec (A z) u)) (Rscal damp u)) =
                Rscal (1 - damp) (Rsub_v (mvec (A y) u) (mvec (A z) u))).
    { assert (K1 : length (mvec (A y) u) = n) by (eapply mat_mvec_length; exact MA).
      assert (K2 : length (mvec (A z) u) = n) by (eapply mat_mvec_length; exact MAz).
      revert K1 K2 L'. generalize (mvec (A y) u), (mvec (A z) u). clear. intros a b. revert b u n.
      induction a as [|x a IH]; intros [|y b] [|w u] n K1 K2 K3; cbn in *; try congruence. f_equal; [ring|]. apply (IH _ _ (pred n)); lia. }
    rewrite E, norm_scal, Rabs_pos_eq by lra. pose proof (HLA y u L L') as Q.
    apply (Rmult_le_compat_l (1 - damp)) in Q; [|lra]. lra.
  - intros y u L L'. unfold B'. rewrite !SV.
    assert (E : Rsub_v (Rscal (1 - damp) (mvec (B y) u)) (Rscal (1 - damp) (mvec (B z) u)) =
                Rscal (1 - damp) (Rsub_v (mvec (B y) u) (mvec (B z) u))).
    { generalize (mvec (B y) u), (mvec (B z) u). clear. intros a. 
      induction a as [|x a IH]; intros [|y b]; cbn in *; try reflexivity. f_equal; [ring|]. apply IH. }
    rewrite E, norm_scal, Rabs_pos_eq by lra. pose proof (HLB y u L L') as Q.
    apply (Rmult_le_compat_l (1 - damp)) in Q; [|lra]. lra.
  - rewrite AV by assumption. unfold B'. rewrite SV.
    assert (K1 : length (mvec (A z) v) = n) by (eapply mat_mvec_length; exact MAz).
    apply damped_fixed; [congruence|congruence|exact Ev].
  - destruct (loop_jac n k G p0 A' B' Lp HG y0 Ly K) as (_ & _ & _ & _ & MY & MP & _).
    pose proof (loop_vjp vjp CV n k G p0 A' B' Lp HG y0 Ly K ct Lct) as EV. fold c in EV. rewrite EV. cbn [fst snd].
    rewrite !(tmvec_adjoint n) by assumption.
    set (dy := mvec (DYk n G p0 A' y0 K) t_y0) in *. set (dp := mvec (DPk n k G p0 A' B' y0 K) t_p) in *.
    assert (Ldy : length dy = n) by (eapply mat_mvec_length; exact MY).
    assert (Ldp : length dp = n) by (eapply mat_mvec_length; exact MP).
    assert (E : Rdot ct dy + Rdot ct dp - Rdot ct v = Rdot ct (Rsub_v (Radd_v dy dp) v)).
    { rewrite Rdot_sub_r by (rewrite Lv; apply Radd_v_length; assumption). rewrite Rdot_add_r by congruence. reflexivity. }
    rewrite E. eapply Rle_trans; [apply dot_bound|]. fold (Rsum_abs ct). apply Rmult_le_compat_l.
    + clear. induction ct as [|a ct IH]; cbn; [lra|]. pose proof (Rabs_pos a). unfold Rsum_abs in IH. lra.
    + exact BT.
Qed.

(** The two ways of differentiating a contractive fixed point agree up to the convergence
    error: after K steps the product of a cotangent with the derivative of the algorithm
    (RecursiveCheckpointAdjoint) and with the implicit derivative of the fixed point
    (ImplicitAdjoint) differ by at most q^K and K q^(K-1) multiples of the initial errors. *)
Lemma C98_implicit_pf :
  forall vjp jvp jacT grad lsolve (fps : PolySolver (list RN) (list RN))
    (F : list R -> list R -> list R) (n k : nat) p0 y0 z A B C Cinv q M rtol atol damp norm fs auxs fuel budget throw sol
    (t : list (option R)) ct,
  vjp_correct vjp -> jvp_correct jvp -> solves_invertible n lsolve ->
  length y0 = n -> length p0 = k -> length z = n -> F z p0 = z ->
  (forall y, length y = n -> jacobian2_at n k n F y p0 (A y) (B y)) ->
  contraction n q (fun y => F y p0) -> 0 <= damp < 1 -> 0 <= M ->
  lipschitz_at n n M A z -> lipschitz_at n k M B z ->
  mat n n C -> (forall x, length x = n -> mvec C x = Rsub_v (mvec (A z) x) x) ->
  mat n n Cinv -> inverses n C Cinv ->
  length t = (k + n)%nat -> length ct = n ->
  let s := fixed_point_iteration (N:=XR) rtol atol (Fin damp) norm in
  iterative_solve vallfinite s (liftv (fun y => F y p0)) fuel budget throw (map Fin y0) fs auxs = Ret sol ->
  let t_p := firstn k (filled t) in let t_y0 := skipn k (filled t) in
  let q' := damp + (1 - damp) * q in
  exists K v c_y0 c_p,
    hd_error (sol_stats sol) = Some ("num_steps"%string, Some (Z.of_nat K)) /\
    value_tangent (N:=RN) jvp jacT lsolve k
      (fixed_point_rewrite (N:=RN) grad (AFixedPoint fps) (fun y p => (F y p, tt))) z (p0 ++ y0) t = Ret v /\
    checkpointed_vjp (N:=RN) vjp damp (fun y p => (F y p, tt)) p0 y0 (sol_stats sol) ct = Some (c_y0, c_p) /\
    v = Radd_v (mvec (A z) v) (mvec (B z) t_p) /\
    Rabs (Rdot c_y0 t_y0 + Rdot c_p t_p - Rdot ct v) <=
      Rsum_abs ct * (q' ^ K * Rmax_norm (Rsub_v t_y0 v) +
        INR K * q' ^ pred K * ((1 - damp) * M * Rdist_inf y0 z * (Rmax_norm v + Rmax_norm t_p))).
Proof.
  intros vjp jvp jacT grad lsolve fps F n k p0 y0 z A B C Cinv q M rtol atol damp norm fs auxs fuel budget throw sol t ct
    CV CJ CS Ly Lp Lz Fz HF HC Hd HM HLA HLB MC EC MI INV Lt Lct s H t_p t_y0 q'.
  destruct (checkpointed_run vjp F p0 y0 rtol atol damp norm fs auxs fuel budget throw sol H) as (K & E1 & E2 & E3).
  destruct (unrolled_bound vjp jvp jacT grad lsolve fps F n k p0 y0 z A B C Cinv q M damp K t ct
    CV CJ CS Ly Lp Lz Fz HF HC Hd HM HLA HLB MC EC MI INV Lt Lct) as (v & _ & Ev & EV & HB).
  exists K, v. specialize (E3 ct).
  destruct (unrolled_vjp (N:=RN) vjp (fp_body (N:=RN) damp (fun y p => (F y p, tt))) p0 y0 K ct) as [c1 c2].
  exists c1, c2. split; [exact E1|]. split; [exact EV|]. split; [exact E3|]. split; [exact Ev|]. exact HB.
Qed.

Lemma k_pow_small : forall q W eps, 0 <= q < 1 -> 0 <= W -> 0 < eps ->
  exists K0, forall K, (K0 <= K)%nat -> INR K * q ^ pred K * W <= eps.
Proof.
  intros q W eps Hq HW He. set (h := sqrt q).
  assert (Hh : 0 <= h) by apply sqrt_pos.
  assert (Hhq : h * h = q) by (apply sqrt_sqrt; lra).
  assert (Hh1 : h < 1) by nra.
  assert (B : forall k, INR (S k) * h ^ k * (1 - h) <= 1).
  { assert (B : forall k, INR (S k) * h ^ k * (1 - h) <= 1 - h ^ S k).
    { induction k as [|k IH]; [cbn; lra|]. rewrite S_INR. cbn [pow] in *.
      pose proof (pow_le h k Hh). apply (Rmult_le_compat_l h) in IH; [|exact Hh].
      replace ((INR (S k) + 1) * (h * h ^ k) * (1 - h)) with (h * (INR (S k) * h ^ k * (1 - h)) + h * h ^ k * (1 - h)) by ring.
      assert (P1 : h ^ k <= 1) by (rewrite <- (pow1 k); apply pow_incr; lra).
      assert (P2 : h * h ^ k <= 1) by nra.
      assert (P3 : 0 <= (1 - h) * (1 - h * h ^ k)) by (apply Rmult_le_pos; lra).
      nra. }
    intro k. pose proof (B k). pose proof (pow_le h (S k) Hh). lra. }
  set (e := eps * (1 - h) / (W + 1)).
  assert (Pe : 0 < e) by (apply Rdiv_lt_0_compat; nra).
  destruct (pow_lt_1_zero h) with (y := e) as [N HN]; [rewrite Rabs_pos_eq; assumption|exact Pe|].
  exists (S N). intros K HK. destruct K as [|K]; [lia|]. cbn [pred].
  specialize (HN K ltac:(lia)). rewrite Rabs_pos_eq in HN by (apply pow_le; exact Hh).
  rewrite <- Hhq, Rpow_mult_distr. specialize (B K). pose proof (pow_le h K Hh) as P0. pose proof (pos_INR (S K)) as P1.
  assert (Ee : e * (W + 1) = eps * (1 - h)) by (unfold e; field; lra).
  assert (X : INR (S K) * h ^ K * (1 - h) * (h ^ K * W) <= 1 * (e * W)).
  { assert (Q1 : 0 <= INR (S K) * h ^ K * (1 - h)) by (apply Rmult_le_pos; [apply Rmult_le_pos; assumption|lra]).
    assert (Q2 : 0 <= h ^ K * W) by (apply Rmult_le_pos; assumption).
    assert (Q3 : h ^ K * W <= e * W) by (apply Rmult_le_compat_r; lra).
    apply Rmult_le_compat; assumption. }
  apply (Rmult_le_reg_r (1 - h)); [lra|].
  replace (INR (S K) * (h ^ K * h ^ K) * W * (1 - h)) with (INR (S K) * h ^ K * (1 - h) * (h ^ K * W)) by ring. nra.
Qed.

(** In the limit they are equal: for every tangent and cotangent and every eps, all solves
    that take enough steps have products that agree within eps. *)
Lemma C98_limit_pf :
  forall vjp jvp jacT grad lsolve (fps : PolySolver (list RN) (list RN))
    (F : list R -> list R -> list R) (n k : nat) p0 y0 z A B C Cinv q M damp
    (t : list (option R)) ct eps,
  vjp_correct vjp -> jvp_correct jvp -> solves_invertible n lsolve ->
  length y0 = n -> length p0 = k -> length z = n -> F z p0 = z ->
  (forall y, length y = n -> jacobian2_at n k n F y p0 (A y) (B y)) ->
  contraction n q (fun y => F y p0) -> 0 <= damp < 1 -> 0 <= M ->
  lipschitz_at n n M A z -> lipschitz_at n k M B z ->
  mat n n C -> (forall x, length x = n -> mvec C x = Rsub_v (mvec (A z) x) x) ->
  mat n n Cinv -> inverses n C Cinv ->
  length t = (k + n)%nat -> length ct = n -> 0 < eps ->
  exists K0 v,
    value_tangent (N:=RN) jvp jacT lsolve k
      (fixed_point_rewrite (N:=RN) grad (AFixedPoint fps) (fun y p => (F y p, tt))) z (p0 ++ y0) t = Ret v /\
    forall rtol atol norm fs auxs fuel budget throw sol K,
      let s := fixed_point_iteration (N:=XR) rtol atol (Fin damp) norm in
      iterative_solve vallfinite s (liftv (fun y => F y p0)) fuel budget throw (map Fin y0) fs auxs = Ret sol ->
      hd_error (sol_stats sol) = Some ("num_steps"%string, Some (Z.of_nat K)) -> (K0 <= K)%nat ->
      exists c_y0 c_p,
        checkpointed_vjp (N:=RN) vjp damp (fun y p => (F y p, tt)) p0 y0 (sol_stats sol) ct = Some (c_y0, c_p) /\
        Rabs (Rdot c_y0 (skipn k (filled t)) + Rdot c_p (firstn k (filled t)) - Rdot ct v) <= eps.
Proof.
  intros vjp jvp jacT grad lsolve fps F n k p0 y0 z A B C Cinv q M damp t ct eps
    CV CJ CS Ly Lp Lz Fz HF HC Hd HM HLA HLB MC EC MI INV Lt Lct He.
  destruct (unrolled_bound vjp jvp jacT grad lsolve fps F n k p0 y0 z A B C Cinv q M damp 0%nat t ct
    CV CJ CS Ly Lp Lz Fz HF HC Hd HM HLA HLB MC EC MI INV Lt Lct) as (v & _ & _ & EV & _).
  set (q' := damp + (1 - damp) * q). pose proof (proj1 HC) as Hq.
  assert (Hq' : 0 <= q' < 1) by (unfold q'; nra).
  assert (Hs : 0 <= Rsum_abs ct).
  { clear. induction ct as [|a ct IH]; cbn; [lra|]. pose proof (Rabs_pos a). unfold Rsum_abs in IH. lra. }
  set (W1 := Rsum_abs ct * Rmax_norm (Rsub_v (skipn k (filled t)) v)).
  set (W2 := Rsum_abs ct * ((1 - damp) * M * Rdist_inf y0 z * (Rmax_norm v + Rmax_norm (firstn k (filled t))))).
  assert (H1 : 0 <= W1) by (apply Rmult_le_pos; [exact Hs|apply Rmax_norm_pos]).
  assert (H2 : 0 <= W2).
  { apply Rmult_le_pos; [exact Hs|]. pose proof (Rmax_norm_pos v). pose proof (Rmax_norm_pos (firstn k (filled t))).
    pose proof (Rmax_norm_pos (Rsub_v y0 z)) as H3. change (0 <= Rdist_inf y0 z) in H3.
    apply Rmult_le_pos; [apply Rmult_le_pos; [apply Rmult_le_pos; lra|exact H3]|lra]. }
  destruct (k_pow_small q' W2 (eps / 2) Hq' H2 ltac:(lra)) as [K2 HK2].
  destruct (pow_lt_1_zero q') with (y := eps / 2 / (W1 + 1)) as [K1 HK1];
    [rewrite Rabs_pos_eq; lra|apply Rdiv_lt_0_compat; lra|].
  exists (Nat.max K1 K2), v. split; [exact EV|].
  intros rtol atol norm fs auxs fuel budget throw sol K s HR EK LK.
  destruct (checkpointed_run vjp F p0 y0 rtol atol damp norm fs auxs fuel budget throw sol HR) as (K' & E1 & _ & E3).
  assert (K' = K). { rewrite EK in E1. injection E1 as E1. lia. } subst K'. specialize (E3 ct).
  destruct (unrolled_bound vjp jvp jacT grad lsolve fps F n k p0 y0 z A B C Cinv q M damp K t ct
    CV CJ CS Ly Lp Lz Fz HF HC Hd HM HLA HLB MC EC MI INV Lt Lct) as (v' & _ & _ & EV' & HB).
  assert (v' = v) by congruence. subst v'. cbv zeta in HB. fold q' in HB.
  destruct (unrolled_vjp (N:=RN) vjp (fp_body (N:=RN) damp (fun y p => (F y p, tt))) p0 y0 K ct) as [c1 c2].
  exists c1, c2. split; [exact E3|]. cbn [fst snd] in HB. eapply Rle_trans; [exact HB|].
  specialize (HK2 K ltac:(lia)). specialize (HK1 K ltac:(lia)). rewrite Rabs_pos_eq in HK1 by (apply pow_le; lra).
  assert (X : q' ^ K * (W1 + 1) <= eps / 2).
  { apply Rmult_le_reg_r with (/ (W1 + 1)); [apply Rinv_0_lt_compat; lra|]. rewrite Rmult_assoc, Rinv_r by lra. unfold Rdiv in HK1 |- *. lra. }
  pose proof (pow_le q' K (proj1 Hq')) as PK.
  replace (Rsum_abs ct * (q' ^ K * Rmax_norm (Rsub_v (skipn k (filled t)) v) +
     INR K * q' ^ pred K * ((1 - damp) * M * Rdist_inf y0 z * (Rmax_norm v + Rmax_norm (firstn k (filled t))))))
    with (q' ^ K * W1 + INR K * q' ^ pred K * W2) by (unfold W1, W2; ring). nra.
Qed.

(** ** Examples *)

(** A correct reverse-mode differentiator *)
Definition vjp_real (f : list R -> list R -> list R) (y p ct : list R) : list R * list R :=
  (map (fun i => Rdot ct (jvp_real (fun y => f y p) y (unit_v (length y) i))) (seq 0 (length y)),
   map (fun i => Rdot ct (jvp_real (fun p => f y p) p (unit_v (length p) i))) (seq 0 (length p))).

Lemma unit_v_length : forall n i, length (unit_v n i) = n.
Proof. intros. unfold unit_v. rewrite map_length, seq_length. reflexivity. Qed.

Lemma tmvec_units : forall m n A ct, mat m n A ->
  map (fun i => Rdot ct (mvec A (unit_v n i))) (seq 0 n) = tmvec n A ct.
Proof.
  intros m n A ct MA. rewrite <- (map_nth_seq (tmvec n A ct)). rewrite tmvec_length. apply map_ext. intro i.
  rewrite <- (dot_unit (tmvec n A ct) i n) by apply tmvec_length.
  symmetry. apply (tmvec_adjoint m); [exact MA|apply unit_v_length].
Qed.

Lemma partial_2 : forall n k m F y p A B, jacobian2_at n k m F y p A B ->
  jacobian_at k m (fun p => F y p) p B.
Proof.
  intros n k m F y p A B (Ly & Lp & LF & MA & MB & D).
  split; [auto|]. split; [intros x Lx; apply LF; auto|]. split; [auto|].
  intros eps Pe. destruct (D eps Pe) as (d & Pd & H). exists d. split; auto.
  intros h Lh Nh. specialize (H (zerov n) h (zerov_length n) Lh).
  rewrite norm_zerov, (add_zero_r y), mvec_0, (add_zero_l (mvec B h)) in H
    by (auto; rewrite (mat_mvec_length m k B h MB); symmetry; apply MA).
  rewrite Rmax_right in H by apply Rmax_norm_pos. apply H; assumption.
Qed.

Lemma vjp_real_correct : vjp_correct vjp_real.
Proof.
  intros n k m f y p A B ct J Lc. pose proof J as (Ly & Lp & _ & MA & MB & _). unfold vjp_real. rewrite Ly, Lp. f_equal.
  - rewrite <- (tmvec_units m) by exact MA. apply map_ext. intro i. f_equal.
    apply (jvp_real_correct n m); [eapply partial_1; exact J|apply unit_v_length].
  - rewrite <- (tmvec_units m) by exact MB. apply map_ext. intro i. f_equal.
    apply (jvp_real_correct k m); [eapply partial_2; exact J|apply unit_v_length].
Qed.

Definition half_plus (y p : list R) : list R := [hd 0 y / 2 + hd 0 p].

Lemma half_plus_jac : forall y p, length y = 1%nat -> length p = 1%nat -> jacobian2_at 1 1 1 half_plus y p [[1/2]] [[1]].
Proof.
  intros [|y [|]] [|p [|]] L1 L2; try discriminate.
  apply (jacobian2_1 (fun y p => y / 2 + p)). intros eps Pe. exists 1. split; [lra|].
  intros h g _ _. replace ((y + h) / 2 + (p + g) - (y / 2 + p) - (1 / 2 * h + 1 * g)) with 0 by lra.
  rewrite Rabs_R0. apply Rmult_le_pos; [lra|]. eapply Rle_trans; [apply (Rabs_pos h)|apply Rmax_l].
Qed.

Lemma half_plus_contraction : forall p, contraction 1 (1/2) (fun y => half_plus y p).
Proof.
  intro p. split; [lra|]. split; [reflexivity|]. intros [|x [|]] [|y [|]] L1 L2; try discriminate.
  unfold half_plus, Rdist_inf. cbn [hd Rsub_v Rmax_norm fold_right].
  replace (x / 2 + hd 0 p - (y / 2 + hd 0 p)) with (/ 2 * (x - y)) by field.
  rewrite Rabs_mult, (Rabs_pos_eq (/ 2)) by lra. pose proof (Rabs_pos (x - y)). rewrite !Rmax_left by lra. lra.
Qed.

(** y -> y/2 + 3 from 100: after K steps the iterate is 6 + 94/2^K, and the cotangent 1 is
    pulled back to 1/2^K for y0 and to 2 (1 - 1/2^K) for the parameter (the implicit
    derivative is 2). *)
Lemma C98_derivative_ex_pf : forall fs auxs, exists fuel sol K,
  iterative_solve vallfinite (fixed_point_iteration (N:=XR) (Fin 0) (Fin (1/1000)) (Fin 0) max_norm)
    (liftv (fun y => half_plus y [3])) fuel None true [Fin 100] fs auxs = Ret sol /\
  result sol = successful /\
  hd_error (sol_stats sol) = Some ("num_steps"%string, Some (Z.of_nat K)) /\
  value sol = [Fin (6 + 94 * (1/2) ^ K)] /\
  checkpointed_vjp (N:=RN) vjp_real 0 (fun y p => (half_plus y p, tt)) [3] [100] (sol_stats sol) [1] =
    Some ([(1/2) ^ K], [2 * (1 - (1/2) ^ K)]).
Proof.
  intros fs auxs.
  destruct (C26_contraction_converges_pf 1%nat (1/2) (fun y => half_plus y [3]) 0 (1/1000) 0 [100] fs auxs
    (half_plus_contraction _) eq_refl ltac:(lra) ltac:(lra) ltac:(lra)) as [k Hk].
  destruct (Hk (S k) None true ltac:(lia) ltac:(discriminate)) as (sol & E & ER).
  destruct (checkpointed_run vjp_real half_plus [3] [100] (Fin 0) (Fin (1/1000)) 0 max_norm fs auxs (S k) None true sol E)
    as (K & E1 & E2 & E3).
  assert (ED : forall j, damped_steps 0 half_plus j [100] [3] = [6 + 94 * (1/2) ^ j]).
  { induction j as [|j IH]; [cbn; f_equal; lra|]. 
    change (damped_steps 0 half_plus (S j) [100] [3]) with (Radd_v (Rscal (1 - 0) (half_plus (damped_steps 0 half_plus j [100] [3]) [3])) (Rscal 0 (damped_steps 0 half_plus j [100] [3]))).
    rewrite IH. unfold half_plus. cbn. f_equal. lra. }
  assert (EU : forall j c, unrolled_vjp (N:=RN) vjp_real (fp_body (N:=RN) 0 (fun y p => (half_plus y p, tt))) [3] [100] j [c] =
    ([c * (1/2) ^ j], [c * (2 * (1 - (1/2) ^ j))])).
  { induction j as [|j IH]; intro c.
    - cbn. rewrite Q2R_0. f_equal; f_equal; lra.
    - cbn [unrolled_vjp]. rewrite run_steps, ED.
      rewrite (vjp_real_correct 1%nat 1%nat 1%nat _ _ _ (madd (N:=RN) (map (Rscal (1 - 0)) [[1/2]]) (map (Rscal 0) (identity_mat (N:=RN) 1%nat))) (map (Rscal (1 - 0)) [[1]]) [c]).
      + assert (X1 : tmvec 1%nat (madd (N:=RN) (map (Rscal (1 - 0)) [[1/2]]) (map (Rscal 0) (identity_mat (N:=RN) 1%nat))) [c] = [c / 2]).
        { cbn. f_equal. rewrite ?Q2R_1, ?Q2R_0. lra. }
        assert (X2 : tmvec 1%nat (map (Rscal (1 - 0)) [[1]]) [c] = [c]) by (cbn; f_equal; lra).
        rewrite X1, X2, IH. cbn [vadd vmap2 pow]. f_equal; f_equal; [lra|]. cbn [nadd RN]. lra.
      + eapply jacobian2_ext; [intros; apply fp_body_RN|]. apply damped_jac2. apply half_plus_jac; reflexivity.
      + reflexivity. }
  exists (S k), sol, K. split; [exact E|]. split; [exact ER|]. split; [exact E1|]. split.
  - etransitivity; [exact E2|]. rewrite ED. reflexivity.
  - etransitivity; [exact (E3 [1])|]. f_equal. etransitivity; [exact (EU K 1)|]. f_equal; f_equal; lra.
Qed.

Definition half_sine (y p : list R) : list R := [sin (hd 0 y) / 2 + hd 0 p].

Lemma half_sine_jac : forall y p, length y = 1%nat -> length p = 1%nat ->
  jacobian2_at 1 1 1 half_sine y p [[cos (hd 0 y) / 2]] [[1]].
Proof.
  intros [|y [|]] [|p [|]] L1 L2; try discriminate. cbn [hd].
  apply (jacobian2_1 (fun y p => sin y / 2 + p)). intros eps Pe.
  destruct (derivable_pt_lim_sin y (2 * eps) ltac:(lra)) as [d H]. exists d. split; [apply cond_pos|].
  intros h g Hh _. pose proof (Rmax_l (Rabs h) (Rabs g)) as M1. pose proof (Rabs_pos h) as M2.
  destruct (Req_dec h 0) as [->|Nh].
  - replace (sin (y + 0) / 2 + (p + g) - (sin y / 2 + p) - (cos y / 2 * 0 + 1 * g)) with 0 by (rewrite Rplus_0_r; lra).
    rewrite Rabs_R0 in *. apply Rmult_le_pos; lra.
  - specialize (H h Nh Hh).
    replace (sin (y + h) / 2 + (p + g) - (sin y / 2 + p) - (cos y / 2 * h + 1 * g))
      with (((sin (y + h) - sin y) / h - cos y) * (h / 2)) by (field; exact Nh).
    rewrite Rabs_mult. replace (Rabs (h / 2)) with (Rabs h / 2) by (unfold Rdiv; rewrite Rabs_mult, (Rabs_pos_eq (/ 2)); lra).
    nra.
Qed.

Lemma lip_of_derivative : forall f f' x y, (forall t, derivable_pt_lim f t (f' t)) -> (forall t, Rabs (f' t) <= 1) ->
  Rabs (f x - f y) <= Rabs (x - y).
Proof.
  intros f f' x y D B.
  destruct (Coquelicot.Derive.MVT_gen f y x f') as (c & _ & E).
  - intros t _. apply Coquelicot.Derive.is_derive_Reals. apply D.
  - intros t _. apply derivable_continuous_pt. exists (f' t). apply D.
  - rewrite E, Rabs_mult. pose proof (B c). pose proof (Rabs_pos (x - y)). nra.
Qed.
Lemma sin_lip : forall x y, Rabs (sin x - sin y) <= Rabs (x - y).
Proof.
  intros. apply (lip_of_derivative sin cos); [apply derivable_pt_lim_sin|]. intro t. apply Rabs_le. apply COS_bound.
Qed.
Lemma cos_lip : forall x y, Rabs (cos x - cos y) <= Rabs (x - y).
Proof.
  intros. apply (lip_of_derivative cos (fun t => - sin t)); [apply derivable_pt_lim_cos|]. intro t.
  rewrite Rabs_Ropp. apply Rabs_le. apply SIN_bound.
Qed.

Lemma half_sine_contraction : forall p, contraction 1 (1/2) (fun y => half_sine y p).
Proof.
  intro p. split; [lra|]. split; [reflexivity|]. intros [|x [|]] [|y [|]] L1 L2; try discriminate.
  unfold half_sine, Rdist_inf. cbn [hd Rsub_v Rmax_norm fold_right].
  replace (sin x / 2 + hd 0 p - (sin y / 2 + hd 0 p)) with (/ 2 * (sin x - sin y)) by field.
  rewrite Rabs_mult, (Rabs_pos_eq (/ 2)) by lra. pose proof (Rabs_pos (x - y)). pose proof (Rabs_pos (sin x - sin y)).
  pose proof (sin_lip x y). rewrite !Rmax_left by lra. lra.
Qed.

Lemma half_sine_lip : lipschitz_at 1 1 (1/2) (fun y => [[cos (hd 0 y) / 2]]) [0].
Proof.
  intros [|y [|]] [|v [|]] L1 L2; try discriminate. unfold Rdist_inf. cbn [hd mvec map Rdot Rsub_v Rmax_norm fold_right].
  replace (cos y / 2 * v + 0 - (cos 0 / 2 * v + 0)) with (/ 2 * (cos y - cos 0) * v) by field.
  rewrite !Rabs_mult, (Rabs_pos_eq (/ 2)) by lra. pose proof (cos_lip y 0). pose proof (Rabs_pos (y - 0)).
  pose proof (Rabs_pos v). pose proof (Rabs_pos (cos y - cos 0)).
  rewrite !Rmax_left; try lra; [|apply Rmult_le_pos; lra]. apply Rmult_le_compat_r; lra.
Qed.

Lemma one_lip : lipschitz_at 1 1 (1/2) (fun _ => [[1]]) [0].
Proof.
  intros [|y [|]] [|v [|]] L1 L2; try discriminate. unfold Rdist_inf. cbn [hd mvec map Rdot Rsub_v Rmax_norm fold_right].
  replace (1 * v + 0 - (1 * v + 0)) with 0 by ring. rewrite Rabs_R0, (Rmax_left 0 0) by lra.
  pose proof (Rabs_pos v). pose proof (Rabs_pos (y - 0)). rewrite !Rmax_left by lra. apply Rmult_le_pos; lra.
Qed.

(** y -> sin(y)/2 + p at p = 0 (fixed point 0, implicit derivative 2), half damped, from 1:
    the bound of C98_implicit for the cotangent 1 and the tangent 1 of the parameter. *)
Lemma C98_implicit_ex_pf : forall fs auxs, exists fuel sol K c_y0 c_p,
  iterative_solve vallfinite (fixed_point_iteration (N:=XR) (Fin 0) (Fin (1/1000)) (Fin (1/2)) max_norm)
    (liftv (fun y => half_sine y [0])) fuel None true [Fin 1] fs auxs = Ret sol /\
  result sol = successful /\
  hd_error (sol_stats sol) = Some ("num_steps"%string, Some (Z.of_nat K)) /\
  checkpointed_vjp (N:=RN) vjp_real (1/2) (fun y p => (half_sine y p, tt)) [0] [1] (sol_stats sol) [1] = Some (c_y0, c_p) /\
  Rabs (hd 0 c_p - 2) <= (3/4) ^ K * 2 + INR K * (3/4) ^ pred K * (3/4).
Proof.
  intros fs auxs.
  destruct (C26_contraction_converges_pf 1%nat (1/2) (fun y => half_sine y [0]) 0 (1/1000) (1/2) [1] fs auxs
    (half_sine_contraction _) eq_refl ltac:(lra) ltac:(lra) ltac:(lra)) as [k Hk].
  destruct (Hk (S k) None true ltac:(lia) ltac:(discriminate)) as (sol & E & ER).
  assert (FPS : PolySolver (list RN) (list RN)).
  { intro Aux. exact (fixed_point_iteration (N:=RN) 0 0 0 (fun _ => 0)). }
  destruct (C98_implicit_pf vjp_real jvp_real (fun f x r => r) grad_real divide FPS half_sine 1%nat 1%nat [0] [1] [0]
    (fun y => [[cos (hd 0 y) / 2]]) (fun _ => [[1]]) [[-1/2]] [[-2]] (1/2) (1/2) (Fin 0) (Fin (1/1000)) (1/2) max_norm fs auxs
    (S k) None true sol [Some 1; None] [1] vjp_real_correct jvp_real_correct divide_solves) as (K & v & c1 & c2 & E1 & EV & E3 & Ev & HB);
    try reflexivity; try exact E; try apply mat1; try lra.
  - unfold half_sine. cbn [hd]. rewrite sin_0. f_equal. lra.
  - intros y L. apply half_sine_jac; [exact L|reflexivity].
  - apply half_sine_contraction.
  - exact half_sine_lip.
  - exact one_lip.
  - intros [|x [|]] L; try discriminate. cbn. rewrite cos_0. f_equal. lra.
  - apply inverses1. lra.
  - exists (S k), sol, K, c1, c2. split; [exact E|]. split; [exact ER|]. split; [exact E1|]. split; [exact E3|].
    assert (Lv : length v = 1%nat).
    { rewrite Ev. apply Radd_v_length; reflexivity. }
    destruct v as [|v [|]]; try discriminate. cbn [hd] in Ev. rewrite cos_0 in Ev.
    assert (v = 2). { assert (X : v = 1 / 2 * v + 0 + (1 * 1 + 0)) by exact (f_equal (hd 0) Ev). lra. }
    subst v.
    assert (X1 : Rdot c1 (skipn 1 (filled [Some 1; None])) = 0).
    { destruct c1 as [|a [|b c1]]; cbn; try reflexivity; ring. }
    assert (X2 : Rdot c2 (firstn 1 (filled [Some 1; None])) = hd 0 c2).
    { destruct c2 as [|a [|b c2]]; cbn; try reflexivity; ring. }
    rewrite X1, X2 in HB. clear -HB.
    assert (Y1 : Rmax_norm (Rsub_v (skipn 1 (filled [Some 1; None])) [2]) = 2).
    { cbn [filled map skipn Rsub_v Rmax_norm fold_right]. replace (0 - 2) with (-2) by ring.
      rewrite (Rabs_left (-2)) by lra. rewrite Rmax_left; lra. }
    assert (Y2 : Rmax_norm (firstn 1 (filled [Some 1; None])) = 1).
    { cbn [filled map firstn Rmax_norm fold_right]. rewrite Rabs_R1, Rmax_left; lra. }
    assert (Y3 : Rmax_norm [2] = 2).
    { cbn [Rmax_norm fold_right]. rewrite (Rabs_pos_eq 2), Rmax_left; lra. }
    assert (Y4 : Rdist_inf [1] [0] = 1).
    { unfold Rdist_inf. cbn [Rsub_v Rmax_norm fold_right]. rewrite Rminus_0_r, Rabs_R1, Rmax_left; lra. }
    assert (HB' : Rabs (0 + hd 0 c2 - Rdot [1] [2]) <= Rsum_abs [1] *
      ((1 / 2 + (1 - 1 / 2) * (1 / 2)) ^ K * Rmax_norm (Rsub_v (skipn 1 (filled [Some 1; None])) [2]) +
       INR K * (1 / 2 + (1 - 1 / 2) * (1 / 2)) ^ pred K *
         ((1 - 1 / 2) * (1 / 2) * Rdist_inf [1] [0] * (Rmax_norm [2] + Rmax_norm (firstn 1 (filled [Some 1; None])))))) by exact HB.
    clear HB. rename HB' into HB.
    rewrite Y1, Y2, Y3, Y4 in HB. cbn [Rdot Rsum_abs fold_right] in HB. rewrite Rabs_R1 in HB.
    replace (0 + hd 0 c2 - (1 * 2 + 0)) with (hd 0 c2 - 2) in HB by ring.
    replace (1 / 2 + (1 - 1 / 2) * (1 / 2)) with (3 / 4) in HB by field.
    eapply Rle_trans; [exact HB|]. right. ring_simplify. field.
Qed.

(** y -> y/2 + 3 from 100: every solve with enough steps has a cotangent for the parameter
    within a thousandth of the implicit derivative 2. *)
Lemma C98_limit_ex_pf : exists K0, forall rtol atol norm fs auxs fuel budget throw sol K,
  iterative_solve vallfinite (fixed_point_iteration (N:=XR) rtol atol (Fin 0) norm)
    (liftv (fun y => half_plus y [3])) fuel budget throw [Fin 100] fs auxs = Ret sol ->
  hd_error (sol_stats sol) = Some ("num_steps"%string, Some (Z.of_nat K)) -> (K0 <= K)%nat ->
  exists c_y0 c_p,
    checkpointed_vjp (N:=RN) vjp_real 0 (fun y p => (half_plus y p, tt)) [3] [100] (sol_stats sol) [1] = Some (c_y0, c_p) /\
    Rabs (hd 0 c_p - 2) <= 1/1000.
Proof.
  assert (FPS : PolySolver (list RN) (list RN)).
  { intro Aux. exact (fixed_point_iteration (N:=RN) 0 0 0 (fun _ => 0)). }
  destruct (C98_limit_pf vjp_real jvp_real (fun f x r => r) grad_real divide FPS half_plus 1%nat 1%nat [3] [100] [6]
    (fun y => [[1/2]]) (fun _ => [[1]]) [[-1/2]] [[-2]] (1/2) 0 0 [Some 1; None] [1] (1/1000)
    vjp_real_correct jvp_real_correct divide_solves) as (K0 & v & EV & HB);
    try reflexivity; try apply mat1; try lra.
  - unfold half_plus. cbn [hd]. f_equal. lra.
  - intros y L. apply half_plus_jac; [exact L|reflexivity].
  - apply half_plus_contraction.
  - intros [|y [|]] [|w [|]] L1 L2; try discriminate. cbn [hd mvec map Rdot Rsub_v Rmax_norm fold_right].
    match goal with |- Rmax (Rabs ?e) 0 <= _ => replace e with 0 by ring end. rewrite Rabs_R0, Rmax_left by lra. right. ring.
  - intros [|y [|]] [|w [|]] L1 L2; try discriminate. cbn [hd mvec map Rdot Rsub_v Rmax_norm fold_right].
    match goal with |- Rmax (Rabs ?e) 0 <= _ => replace e with 0 by ring end. rewrite Rabs_R0, Rmax_left by lra. right. ring.
  - intros [|x [|]] L; try discriminate. cbn. f_equal. lra.
  - apply inverses1. lra.
  - assert (v = [2]).
    { pose proof (C51_fixed_point_ex_pf FPS (fun f x r => r)) as Q.
      assert (X : Ret v = Ret [2]); [|injection X; auto]. rewrite <- Q. symmetry. exact EV. }
    subst v. exists K0. intros rtol atol norm fs auxs fuel budget throw sol K E EK LK.
    destruct (HB rtol atol norm fs auxs fuel budget throw sol K E EK LK) as (c1 & c2 & E3 & HC).
    exists c1, c2. split; [exact E3|].
    assert (X1 : Rdot c1 (skipn 1 (filled [Some 1; None])) = 0).
    { destruct c1 as [|a [|b c1]]; cbn; try reflexivity; ring. }
    assert (X2 : Rdot c2 (firstn 1 (filled [Some 1; None])) = hd 0 c2).
    { destruct c2 as [|a [|b c2]]; cbn; try reflexivity; ring. }
    rewrite X1, X2 in HC. cbn [Rdot] in HC. replace (0 + hd 0 c2 - (1 * 2 + 0)) with (hd 0 c2 - 2) in HC by ring. exact HC.
Qed.

