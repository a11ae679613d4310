(** The Cholesky solver is exact in real arithmetic. *)

From Coq Require Import List Bool Arith Lia QArith Reals Lra.
From Verif Require Import Num NumFacts Vec VecFacts Spec_Vec Results Search Spec_Search Spec_Lin LinFacts LinAlg LinAlgFacts
  QuasiNewton TrustRegion_proofs BFGS_proofs LBFGSCompact Spec_LBFGS Cholesky.
Import ListNotations.
Local Open Scope nat_scope.

Lemma as_matrix_mv : forall n op (A : list (list R)), acts_as n op A -> spd n A ->
  forall x : list R, length x = n -> mvec (as_matrix (N:=RN) n op) x = mvec A x.
Proof.
  intros n op A HA (HM & HS & HP) x Lx. unfold as_matrix. rewrite transpose_mv.
  destruct (proj1 (identity_spd n)) as [LI FI].
  set (M := map (op_mv op) (identity_mat (N:=RN) n) : list (list R)).
  assert (EM : M = map (mvec A) (identity_mat (N:=RN) n)).
  { unfold M. apply map_ext_in. intros e He. rewrite Forall_forall in FI. apply HA. exact (FI e He). }
  assert (MM : mat n n M).
  { rewrite EM. split; [rewrite map_length; exact LI|]. apply Forall_forall. intros r Hr.
    apply in_map_iff in Hr as (e & <- & _). rewrite mvec_length. apply HM. }
  apply (tmvec_char n n); [exact MM|rewrite mvec_length; apply HM|].
  intros d Ld. replace (mvec M d) with (mvec A d).
  { rewrite Rdot_comm. rewrite (HS d x Ld Lx) || rewrite <- (HS d x Ld Lx). apply Rdot_comm. }
  rewrite <- (identity_mv n (mvec A d)) by (rewrite mvec_length; apply HM).
  rewrite EM. unfold mvec at 1 3. rewrite map_map. apply map_ext_in. intros e He.
  rewrite Forall_forall in FI. specialize (FI e He).
  symmetry. exact (HS e d FI Ld).
Qed.

Lemma transpose_upper : forall n (J : list (list R)), mat n n J -> lower_from 0 J ->
  upper_from 0 (transpose (N:=RN) n J).
Proof.
  intros n J [LJ FJ] HL. apply upper_from_nth. intros r Hr.
  assert (Hn : r < n) by (unfold transpose in Hr; rewrite map_length, seq_length in Hr; exact Hr).
  assert (E : forall j, nth j (nth r (transpose (N:=RN) n J) []) 0%R = nth r (nth j J []) 0%R).
  { intro j. unfold transpose.
    set (g := fun j => map (fun row : list R => nth j row (nofQ (n:=RN) 0)) J : list R).
    change (nth j (nth r (map g (seq 0 n)) []) 0%R = nth r (nth j J []) 0%R).
    rewrite (nth_indep _ [] (g 0)) by (rewrite map_length, seq_length; exact Hn).
    rewrite map_nth, seq_nth by exact Hn.
    cbn [Nat.add]. rewrite <- nth_column. f_equal. unfold g, column. apply map_ext. intro q. cbn. rewrite Q2R_0. reflexivity. }
  rewrite <- lower_from_nth in HL. cbn [Nat.add] in HL |- *. split.
  - intros j Hj. rewrite E. apply (HL j); lia.
  - rewrite E. apply (HL r). lia.
Qed.

Lemma cholesky_exact : forall n, exact_solve_op n (cholesky_solve (N:=RN)).
Proof.
  intros n op A b HA HS Lb. unfold cholesky_solve. replace (@length (T RN) b) with n by (symmetry; exact Lb). cbn [fst snd].
  assert (HS' : spd n (as_matrix (N:=RN) n op)).
  { pose proof (as_matrix_mv n op A HA HS) as E. destruct HS as (HM & HY & HP). split; [|split].
    - apply transpose_mat. rewrite map_length. apply (proj1 (identity_spd n)).
    - intros x y Hx Hy. rewrite !E by assumption. apply HY; assumption.
    - intros x Hx Hz. rewrite E by assumption. apply HP; assumption. }
  destruct (cholesky_ok n _ HS') as (J1 & J2 & J3). set (J := cholesky_lower (N:=RN) n (as_matrix (N:=RN) n op) : list (list R)) in *.
  destruct (solve_lower_ok J [] b) as (z & Ez & Lz & Mz); [rewrite Lb; symmetry; apply J1|exact J2|]. cbn [app] in Ez, Mz.
  assert (LJ : length J = n) by apply J1.
  assert (MT : mat n n (transpose (N:=RN) n J)) by (apply transpose_mat; exact LJ).
  destruct (solve_upper_ok (transpose (N:=RN) n J) 0 z []) as (Lx & Mx);
    [rewrite Lz, LJ; symmetry; apply MT|reflexivity|apply transpose_upper; assumption|].
  cbn [app] in Mx. rewrite transpose_mv in Mx.
  replace (solve_lower (N:=RN) J b) with z by (symmetry; exact Ez).
  change (solve_upper (N:=RN) (transpose (N:=RN) n J) z) with (solve_upper_from (N:=RN) 0 (transpose (N:=RN) n J) z).
  assert (Ln : length (solve_upper_from (N:=RN) 0 (transpose (N:=RN) n J) z : list R) = n) by (rewrite Lx; apply MT).
  split; [reflexivity|]. split; [exact Ln|].
  rewrite <- (as_matrix_mv n op A HA HS) by exact Ln. rewrite <- J3 by exact Ln. rewrite Mx. exact Mz.
Qed.

Lemma cholesky_exact_mat : forall n, exact_solve n (cholesky_solve (N:=RN)).
Proof.
  intros n A b HS Lb. apply cholesky_exact; auto. intros x Hx. apply op_mv_RN.
Qed.
