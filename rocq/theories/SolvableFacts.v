(** Exact linear solvers exist. *)

From Coq Require Import String List Bool Arith Lia ZArith QArith Reals Lra Psatz.
From Verif Require Import Num NumFacts Vec VecFacts Spec_Vec Spec_Lin LinFacts Results.
From Verif Require Import Search Descent Spec_Search TrustRegion_proofs BFGS_proofs LBFGSFacts LeastSquares_proofs Dogleg_proofs Spec_Isometry Isometry_proofs Spec_Solvable.
Import ListNotations.
Local Open Scope R_scope.

Section Columns.
  Variable m : nat.

  Lemma Rsub_length : forall a b : list R, length a = m -> length b = m -> length (Rsub_v a b) = m.
  Proof. intros. apply Rsub_v_length; assumption. Qed.

  Lemma null_dot : forall a v, Rdot a a = 0 -> Rdot a v = 0.
  Proof. intros a v E. rewrite (Rdot_0_inv a E). apply Rdot_0_l. Qed.
  Lemma rej_length : forall a v, length a = m -> length v = m -> length (rejection a v) = m.
  Proof. intros a v Ha Hv. unfold rejection. apply Rsub_length; [exact Hv|rewrite Rscal_length; exact Ha]. Qed.
  Lemma coef_add : forall a u v, length u = m -> length v = m -> coefficient a (Radd_v u v) = coefficient a u + coefficient a v.
  Proof. intros a u v Hu Hv. unfold coefficient. destruct (Req_EM_T _ _); [ring|]. rewrite Rdot_add_r by congruence. field. assumption. Qed.
  Lemma coef_sub : forall a u v, length u = m -> length v = m -> coefficient a (Rsub_v u v) = coefficient a u - coefficient a v.
  Proof. intros a u v Hu Hv. unfold coefficient. destruct (Req_EM_T _ _); [ring|]. rewrite Rdot_sub_r by congruence. field. assumption. Qed.
  Lemma coef_scal : forall a k u, coefficient a (Rscal k u) = k * coefficient a u.
  Proof. intros a k u. unfold coefficient. destruct (Req_EM_T _ _); [ring|]. rewrite Rdot_scal_r. field. assumption. Qed.
  Lemma coef_zero : forall a, coefficient a (zerov m) = 0.
  Proof. intros a. unfold coefficient. destruct (Req_EM_T _ _); [ring|]. rewrite Rdot_0_r. field. assumption. Qed.
  Lemma coef_eq : forall a v, coefficient a v * Rdot a a = Rdot a v.
  Proof.
    intros a v. unfold coefficient. destruct (Req_EM_T (Rdot a a) 0) as [E|E]; [|field; exact E].
    rewrite (null_dot a v E). ring.
  Qed.

  Lemma rej_dot : forall a v z, length a = m -> length v = m -> Rdot (rejection a v) z = Rdot v z - coefficient a v * Rdot a z.
  Proof. intros a v z Ha Hv. unfold rejection. rewrite Rdot_sub_l by (rewrite Rscal_length; congruence). rewrite Rdot_scal_l. ring. Qed.
  Lemma rej_le : forall a v, length a = m -> length v = m -> Rdot (rejection a v) (rejection a v) <= Rdot v v.
  Proof.
    intros a v Ha Hv. rewrite rej_dot by assumption. rewrite (Rdot_comm v), (Rdot_comm a), !rej_dot by assumption.
    pose proof (coef_eq a v) as E. pose proof (Rdot_pos a) as P. rewrite (Rdot_comm v a). rewrite <- E.
    set (t := coefficient a v) in *. set (aa := Rdot a a) in *. assert (0 <= t * t * aa) by (apply Rmult_le_pos; [nra|exact P]). nra.
  Qed.
  Lemma rej_add : forall a u v, length a = m -> length u = m -> length v = m -> rejection a (Radd_v u v) = Radd_v (rejection a u) (rejection a v).
  Proof.
    intros a u v Ha Hu Hv. apply (Rdot_ext m).
    - apply rej_length; [exact Ha|apply Radd_v_length; assumption].
    - apply Radd_v_length; apply rej_length; assumption.
    - intros z Hz. rewrite rej_dot by (try apply Radd_v_length; assumption). rewrite !Rdot_add_l by (rewrite ?rej_length by assumption; congruence).
      rewrite !rej_dot by assumption. rewrite coef_add by assumption. ring.
  Qed.
  Lemma rej_sub : forall a u v, length a = m -> length u = m -> length v = m -> rejection a (Rsub_v u v) = Rsub_v (rejection a u) (rejection a v).
  Proof.
    intros a u v Ha Hu Hv. apply (Rdot_ext m).
    - apply rej_length; [exact Ha|apply Rsub_length; assumption].
    - apply Rsub_length; apply rej_length; assumption.
    - intros z Hz. rewrite rej_dot by (try apply Rsub_length; assumption). rewrite !Rdot_sub_l by (rewrite ?rej_length by assumption; congruence).
      rewrite !rej_dot by assumption. rewrite coef_sub by assumption. ring.
  Qed.
  Lemma rej_scal : forall a k v, length a = m -> length v = m -> rejection a (Rscal k v) = Rscal k (rejection a v).
  Proof.
    intros a k v Ha Hv. apply (Rdot_ext m).
    - apply rej_length; [exact Ha|rewrite Rscal_length; exact Hv].
    - rewrite Rscal_length. apply rej_length; assumption.
    - intros z Hz. rewrite rej_dot by (rewrite ?Rscal_length; assumption). rewrite !Rdot_scal_l, rej_dot, coef_scal by assumption. ring.
  Qed.
  Lemma rej_self : forall a, length a = m -> rejection a a = zerov m.
  Proof.
    intros a Ha. apply (Rdot_ext m); [apply rej_length; assumption|apply zerov_length|]. intros z Hz. rewrite rej_dot, Rdot_0_l by assumption.
    unfold coefficient. destruct (Req_EM_T (Rdot a a) 0) as [E|E]; [rewrite (null_dot a z E); ring|field; exact E].
  Qed.

  Lemma rej_zero : forall a, length a = m -> rejection a (zerov m) = zerov m.
  Proof.
    intros a Ha. apply (Rdot_ext m); [apply rej_length; [exact Ha|apply zerov_length]|apply zerov_length|].
    intros z Hz. rewrite rej_dot by (assumption || apply zerov_length). rewrite coef_zero, Rdot_0_l. ring.
  Qed.
  Lemma rej_comb : forall a cols w, length a = m -> Forall (fun c => length c = m) cols ->
    rejection a (tmvec m cols w) = tmvec m (map (rejection a) cols) w.
  Proof.
    intros a cols w Ha HF. revert w. induction HF as [|c cols Hc HF IH]; intro w; [rewrite !tmvec_nil; apply rej_zero; exact Ha|].
    destruct w as [|x w]; [rewrite !tmvec_nil_r; apply rej_zero; exact Ha|]. cbn [map].
    rewrite !tmvec_cons by (try apply rej_length; assumption).
    rewrite rej_add by (rewrite ?Rscal_length; try apply tmvec_length; assumption). rewrite rej_scal, IH by assumption. reflexivity.
  Qed.
  Lemma coef_comb : forall a cols w, Forall (fun c => length c = m) cols -> coefficient a (tmvec m cols w) = Rdot w (map (coefficient a) cols).
  Proof.
    intros a cols w HF. revert w. induction HF as [|c cols Hc HF IH]; intro w; [rewrite tmvec_nil, coef_zero; destruct w; reflexivity|].
    destruct w as [|x w]; [rewrite tmvec_nil_r, coef_zero; reflexivity|]. cbn [map Rdot].
    rewrite tmvec_cons by assumption. rewrite coef_add by (rewrite ?Rscal_length; try apply tmvec_length; assumption). rewrite coef_scal, IH. reflexivity.
  Qed.

  Lemma eliminate_least : forall k cols b, length cols = k -> Forall (fun c => length c = m) cols -> length b = m ->
    length (eliminate k cols b) = k /\
    forall w, length w = k ->
      Rdot (Rsub_v (tmvec m cols (eliminate k cols b)) b) (Rsub_v (tmvec m cols (eliminate k cols b)) b) <= Rdot (Rsub_v (tmvec m cols w) b) (Rsub_v (tmvec m cols w) b).
  Proof.
    induction k as [|k IH]; intros [|a cols] b Lc HF Hb; try discriminate Lc.
    - split; [reflexivity|]. intros [|? ?] Hw; try discriminate Hw. apply Rle_refl.
    - pose proof (Forall_inv HF) as Ha. pose proof (Forall_inv_tail HF) as HF'. cbv beta in Ha. injection Lc as Lc.
      assert (HR : Forall (fun c => length c = m) (map (rejection a) cols)).
      { apply Forall_map. eapply Forall_impl; [|exact HF']. intros c Hc. apply rej_length; assumption. }
      destruct (IH (map (rejection a) cols) (rejection a b)) as [L1 M1]; [rewrite map_length; exact Lc|exact HR|apply rej_length; assumption|].
      cbn [eliminate]. set (x := eliminate k (map (rejection a) cols) (rejection a b)) in *. cbv zeta.
      split; [cbn; rewrite L1; reflexivity|]. intros [|w0 w] Hw; try discriminate Hw. injection Hw as Hw.
      assert (V : forall u0 u, rejection a (Rsub_v (tmvec m (a :: cols) (u0 :: u)) b) = Rsub_v (tmvec m (map (rejection a) cols) u) (rejection a b)).
      { intros u0 u. rewrite tmvec_cons by exact Ha. rewrite rej_sub by (try apply Radd_v_length; rewrite ?Rscal_length; try apply tmvec_length; assumption).
        rewrite rej_add by (rewrite ?Rscal_length; try apply tmvec_length; assumption). rewrite rej_scal, rej_self, rej_comb, Rscal_zerov by assumption.
        f_equal. apply (Rdot_ext m); [apply Radd_v_length; [apply zerov_length|apply tmvec_length]|apply tmvec_length|].
        intros z Hz. rewrite Rdot_add_l by (rewrite zerov_length, tmvec_length; reflexivity). rewrite Rdot_0_l. ring. }
      set (x0 := coefficient a b - Rdot x (map (coefficient a) cols)).
      set (v := Rsub_v (tmvec m (a :: cols) (x0 :: x)) b).
      assert (Lv : length v = m) by (apply Rsub_length; [apply tmvec_length|exact Hb]).
      assert (Ev : rejection a v = v).
      { apply (Rdot_ext m); [apply rej_length; assumption|exact Lv|]. intros z Hz. rewrite rej_dot by assumption.
        assert (Cv : coefficient a v * Rdot a z = 0).
        { destruct (Req_EM_T (Rdot a a) 0) as [E|E]; [rewrite (null_dot a z E); ring|].
          unfold v. rewrite tmvec_cons by exact Ha. rewrite coef_sub by (try apply Radd_v_length; rewrite ?Rscal_length; try apply tmvec_length; assumption).
          rewrite coef_add by (rewrite ?Rscal_length; try apply tmvec_length; assumption). rewrite coef_scal, coef_comb by assumption.
          replace (coefficient a a) with 1 by (unfold coefficient; destruct (Req_EM_T (Rdot a a) 0); [contradiction|field; assumption]).
          unfold x0. ring. }
        rewrite Cv. ring. }
      rewrite <- Ev. unfold v at 1 2. rewrite V.
      eapply Rle_trans; [apply M1; exact Hw|]. rewrite <- (V w0 w). apply rej_le; [exact Ha|]. apply Rsub_length; [apply tmvec_length|exact Hb].
  Qed.
End Columns.

Definition basis (n : nat) : list (list R) := map (fun j => map (fun i => if Nat.eqb i j then 1 else 0) (seq 0 n)) (seq 0 n).
Lemma basis_mat : forall n, mat n n (basis n).
Proof. intro n. split; [unfold basis; rewrite map_length, seq_length; reflexivity|]. apply Forall_map, Forall_forall. intros j _. rewrite map_length, seq_length. reflexivity. Qed.
Lemma basis_dot : forall (v : list R) s j, Rdot (map (fun i => if Nat.eqb i j then 1 else 0) (seq s (length v))) v = if Nat.leb s j then nth (j - s) v 0 else 0.
Proof.
  induction v as [|x v IH]; intros s j; [cbn; destruct (Nat.leb s j); [destruct (j - s)%nat|]; reflexivity|].
  cbn [length seq map Rdot]. rewrite IH. destruct (Nat.eqb_spec s j) as [->|N].
  - rewrite Nat.leb_refl, Nat.sub_diag. cbn [nth]. destruct (Nat.leb_spec (S j) j); [lia|ring].
  - destruct (Nat.leb_spec (S s) j), (Nat.leb_spec s j); try lia; [|ring].
    replace (j - s)%nat with (S (j - S s)) by lia. cbn [nth]. ring.
Qed.
Lemma basis_mvec : forall n v, length v = n -> mvec (basis n) v = v.
Proof.
  intros n v <-. unfold mvec, basis. rewrite map_map. transitivity (map (fun j => nth j v 0) (seq 0 (length v))); [|apply map_nth_seq]. apply map_ext_in. intros j Hj.
  rewrite basis_dot. cbn [Nat.leb]. rewrite Nat.sub_0_r. reflexivity.
Qed.
Lemma basis_tmvec : forall n v, length v = n -> tmvec n (basis n) v = v.
Proof.
  intros n v Hv. apply (Rdot_ext n); [apply tmvec_length|exact Hv|]. intros z Hz. rewrite (tmvec_adjoint n) by (apply basis_mat || exact Hz).
  rewrite basis_mvec by exact Hz. reflexivity.
Qed.
Lemma linear_comb : forall n m A es w, linear_op n m A -> Forall (fun c => length c = n) es -> op_mv A (tmvec n es w) = tmvec m (map (fun e => op_mv A e : list R) es) w.
Proof.
  intros n m A es w (a1 & a2 & a3) HF.
  assert (Z : op_mv A (zerov n) = zerov m).
  { rewrite <- (Rscal_zerov 0 n). rewrite a3 by apply zerov_length. rewrite scal0. rewrite a1 by apply zerov_length. reflexivity. }
  revert w. induction HF as [|c es Hc HF IH]; intro w; [cbn [map]; rewrite !tmvec_nil; exact Z|].
  destruct w as [|x w]; [rewrite !tmvec_nil_r; exact Z|]. cbn [map]. rewrite !tmvec_cons by (try apply a1; assumption).
  rewrite a2 by (rewrite ?Rscal_length; try apply tmvec_length; assumption). rewrite a3 by assumption. f_equal. apply IH.
Qed.
Lemma columns_length : forall n m A, linear_op n m A -> length (columns_of n A) = n /\ Forall (fun c => length c = m) (columns_of n A).
Proof.
  intros n m A (a1 & _). unfold columns_of. split; [rewrite map_length, seq_length; reflexivity|].
  apply Forall_map, Forall_forall. intros j _. apply a1. rewrite map_length, seq_length. reflexivity.
Qed.
Lemma columns_op : forall n m A w, linear_op n m A -> length w = n -> op_mv A w = tmvec m (columns_of n A) w.
Proof.
  intros n m A w HA Hw. rewrite <- (basis_tmvec n w Hw) at 1. rewrite (linear_comb n m) by (try exact HA; apply basis_mat).
  unfold columns_of, basis. rewrite map_map. reflexivity.
Qed.

(** Exact least-squares solvers exist for every number of unknowns, *)
Lemma least_squares_exact : forall n, exact_least_squares n (least_squares n) /\ forall A b, snd (least_squares n A b) = successful.
Proof.
  intro n. split; [|reflexivity]. intros m A b HA Hb z. destruct (columns_length n m A HA) as [C1 C2].
  destruct (eliminate_least m n (columns_of n A) b C1 C2 Hb) as [L M]. split; [exact L|]. intros w Hw.
  unfold z. cbn [least_squares fst]. rewrite (columns_op n m A _ HA L), (columns_op n m A w HA Hw). apply M. exact Hw.
Qed.

Lemma rows_mat : forall n m A, linear_op n m A -> mat m n (rows_of n A m).
Proof.
  intros n m A HA. destruct (columns_length n m A HA) as [C1 C2]. unfold rows_of. split; [rewrite map_length, seq_length; reflexivity|].
  apply Forall_map, Forall_forall. intros i _. rewrite map_length. exact C1.
Qed.
Lemma rows_op : forall n m A w, linear_op n m A -> length w = n -> op_mv A w = mvec (rows_of n A m) w.
Proof.
  intros n m A w HA Hw. rewrite (columns_op n m A w HA Hw). unfold tmvec, mvec, rows_of, column. rewrite map_map. reflexivity.
Qed.

(** The orthogonality of what a least-squares fit leaves. *)
Lemma normal_equations : forall m k cols b x, length cols = k -> Forall (fun c => length c = m) cols -> length b = m -> length x = k ->
  (forall w, length w = k -> Rdot (Rsub_v (tmvec m cols x) b) (Rsub_v (tmvec m cols x) b) <= Rdot (Rsub_v (tmvec m cols w) b) (Rsub_v (tmvec m cols w) b)) ->
  mvec cols (Rsub_v (tmvec m cols x) b) = zerov k.
Proof.
  intros m k cols b x Lc HF Hb Lx M. set (v := Rsub_v (tmvec m cols x) b) in *. assert (Lv : length v = m) by (apply Rsub_v_length; [apply tmvec_length|exact Hb]).
  apply (Rdot_ext k); [rewrite mvec_length; exact Lc|apply zerov_length|]. intros z Hz. rewrite Rdot_0_l, Rdot_comm.
  rewrite <- (tmvec_adjoint k m cols z v) by (try (split; assumption); exact Lv).
  set (g := tmvec m cols z). assert (Lg : length g = m) by apply tmvec_length.
  assert (Q : forall t, 0 <= 2 * t * Rdot g v + t * t * Rdot g g).
  { intro t. specialize (M (Radd_v x (Rscal t z))). rewrite Radd_v_length with (n := k) in M by (rewrite ?Rscal_length; assumption). specialize (M eq_refl).
    assert (E : Rsub_v (tmvec m cols (Radd_v x (Rscal t z))) b = Radd_v v (Rscal t g)).
    { apply (Rdot_ext m); [apply Rsub_v_length; [apply tmvec_length|exact Hb]|apply Radd_v_length; [exact Lv|rewrite Rscal_length; exact Lg]|].
      intros y Hy. assert (LM : forall u, length (tmvec m cols u) = length b) by (intro u; rewrite tmvec_length; congruence).
      rewrite Rdot_sub_l, Rdot_add_l by (try apply LM; rewrite Rscal_length; congruence). rewrite Rdot_scal_l. unfold v, g. rewrite Rdot_sub_l by apply LM.
      rewrite !(tmvec_adjoint k m) by (try (split; assumption); exact Hy). rewrite Rdot_add_l by (rewrite Rscal_length; congruence). rewrite Rdot_scal_l. ring. }
    rewrite E in M. rewrite Rdot_add_l, !Rdot_add_r in M by (rewrite Rscal_length; congruence). rewrite !Rdot_scal_l, !Rdot_scal_r in M. rewrite (Rdot_comm v g) in M. lra. }
  pose proof (Rdot_pos g) as P. destruct (Req_EM_T (Rdot g g) 0) as [E|E].
  - pose proof (Q 1). pose proof (Q (-1)). lra.
  - specialize (Q (- (Rdot g v / Rdot g g))). 
    replace (2 * - (Rdot g v / Rdot g g) * Rdot g v + - (Rdot g v / Rdot g g) * - (Rdot g v / Rdot g g) * Rdot g g) with (- ((Rdot g v * Rdot g v) * / Rdot g g)) in Q by (field; exact E).
    assert (I : 0 < / Rdot g g) by (apply Rinv_0_lt_compat; lra). assert (S : Rdot g v * Rdot g v <= 0) by nra. nra.
Qed.

(** and so do solvers that return the least-squares solution of least norm. *)
Lemma least_norm_exact : forall n k A (b : list R), linear_op n k A -> length b = k ->
  minimum_norm_solution n A b (fst (least_norm n A b)) /\ snd (least_norm n A b) = successful.
Proof.
  intros n k A b HA Hb. split; [|reflexivity]. destruct (least_squares_exact n) as [LS _]. destruct (LS k A b HA Hb) as [Lx Mx].
  set (x := fst (least_squares n A b)) in *. unfold least_norm. cbn [fst]. fold x. rewrite Hb.
  pose proof (rows_mat n k A HA) as HM. pose proof HM as [R1 R2].
  destruct (eliminate_least n k (rows_of n A k) x R1 R2 Lx) as [Lw Mw].
  set (w := eliminate k (rows_of n A k) x) in *. set (p := tmvec n (rows_of n A k) w) in *. assert (Lp : length p = n) by apply tmvec_length.
  pose proof (normal_equations n k (rows_of n A k) x w R1 R2 Lx Lw Mw) as NE. fold p in NE.
  assert (Ep : op_mv A p = op_mv A x).
  { rewrite !(rows_op n k) by assumption. rewrite (mvec_sub _ k n) in NE by assumption. apply (sub_0_eq k); rewrite ?mvec_length; assumption. }
  cbv zeta. split; [exact Lp|]. rewrite Ep. split; [exact Mx|]. intros v Hv I.
  (* v fits as well as x, so A v = A x *)
  assert (Ev : op_mv A v = op_mv A x).
  { set (mid := Rscal (1/2) (Radd_v x v)).
    assert (Lm : length mid = n) by (unfold mid; rewrite Rscal_length; apply Radd_v_length; assumption).
    pose proof HA as (a1 & a2 & a3). set (pp := Rsub_v (op_mv A x) b) in *. set (q := Rsub_v (op_mv A v) b) in *.
    assert (Lpp : length pp = k) by (apply Rsub_v_length; auto). assert (Lq : length q = k) by (apply Rsub_v_length; auto).
    assert (Em : Rsub_v (op_mv A mid) b = Rscal (1/2) (Radd_v pp q)).
    { unfold mid. rewrite a3 by (apply Radd_v_length; assumption). rewrite a2 by assumption. apply (half_sub k); auto. }
    pose proof (Mx mid Lm) as I3. rewrite Em, (half_sq k) in I3 by assumption. pose proof (Rdot_pos (Rsub_v pp q)) as Q.
    assert (Z : Rdot (Rsub_v pp q) (Rsub_v pp q) = 0) by (rewrite (sub_sq k) in * by assumption; lra).
    apply Rdot_0_inv in Z. rewrite (Rsub_v_length pp q k) in Z by assumption. apply (sub_0_eq k) in Z; try assumption.
    assert (C : forall j (u u' c : list R), length u = j -> length u' = j -> length c = j -> Rsub_v u c = Rsub_v u' c -> u' = u).
    { induction j as [|j IH]; intros [|e u] [|e' u'] [|f c] H1 H2 H3 E; try discriminate; [reflexivity|]. cbn in E. injection E as E1 E2. f_equal; [lra|]. apply (IH u u' c); auto. }
    apply (C k _ _ b); auto. }
  assert (O : Rdot p (Rsub_v v p) = 0).
  { unfold p at 1. rewrite (tmvec_adjoint k) by (try exact HM; apply Rsub_v_length; assumption). rewrite (mvec_sub _ k n) by assumption.
    rewrite <- !(rows_op n k) by assumption. rewrite Ev, Ep, Rsub_v_self. apply Rdot_0_r. }
  rewrite Rdot_sub_r in O by congruence. pose proof (Rdot_pos (Rsub_v v p)) as Q. rewrite (sub_sq n) in Q by assumption. rewrite (Rdot_comm v p) in Q. lra.
Qed.
