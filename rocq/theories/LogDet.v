(** Trace and logarithm of the determinant of a positive definite symmetric form,
    and how a BFGS update changes them. *)

From Coq Require Import List Arith Lia Reals Lra Psatz.
From Verif Require Import Num Vec Spec_Vec VecFacts Spec_Lin LinFacts QuasiNewton BFGS_proofs.
Import ListNotations.
Local Open Scope R_scope.

Definition form := list R -> list R -> R.
(** bilinear, symmetric and positive definite on R^n *)
Definition linear (n : nat) (l : list R -> R) : Prop :=
  forall c x z, length x = n -> length z = n -> l (Radd_v (Rscal c x) z) = c * l x + l z.
Definition good (n : nat) (q : form) : Prop :=
  (forall w, length w = n -> linear n (fun x => q x w)) /\
  (forall x z, length x = n -> length z = n -> q x z = q z x) /\
  (forall x, length x = n -> x <> zerov n -> 0 < q x x).

Definition e1 (k : nat) : list R := 1 :: zerov k.
Definition rest (q : form) : form := fun x z => q (0 :: x) (0 :: z).
(** Schur complement of the first coordinate *)
Definition schur (k : nat) (q : form) : form :=
  fun x z => q (0 :: x) (0 :: z) - q (e1 k) (0 :: x) * q (e1 k) (0 :: z) / q (e1 k) (e1 k).

Fixpoint logdet (n : nat) (q : form) : R :=
  match n with O => 0 | S k => ln (q (e1 k) (e1 k)) + logdet k (schur k q) end.
Fixpoint trace (n : nat) (q : form) : R :=
  match n with O => 0 | S k => q (e1 k) (e1 k) + trace k (rest q) end.

Lemma e1_length : forall k, length (e1 k) = S k.
Proof. intro k. unfold e1. cbn. rewrite zerov_length. reflexivity. Qed.
Lemma e1_nz : forall k, e1 k <> zerov (S k).
Proof. intros k H. unfold e1, zerov in H. cbn in H. injection H. lra. Qed.
Lemma cons0_nz : forall k x, x <> zerov k -> 0 :: x <> zerov (S k).
Proof. intros k x H E. apply H. unfold zerov in *. cbn in E. injection E. auto. Qed.
Lemma Radd_0_l : forall x, Radd_v (zerov (length x)) x = x.
Proof. induction x as [|a x IH]; [reflexivity|]. cbn. fold (zerov (length x)). rewrite IH, Rplus_0_l. reflexivity. Qed.
Lemma Rscal_zerov : forall c n, Rscal c (zerov n) = zerov n.
Proof. intros c n. induction n as [|n IH]; [reflexivity|]. cbn. fold (zerov n). unfold Rscal in IH. rewrite IH, Rmult_0_r. reflexivity. Qed.
Lemma split_e1 : forall k a x, length x = k -> a :: x = Radd_v (Rscal a (e1 k)) (0 :: x).
Proof.
  intros k a x L. unfold e1. cbn. fold (Rscal a (zerov k)). rewrite Rscal_zerov, <- L, Radd_0_l. f_equal. ring.
Qed.
Lemma cons0_add : forall c x z, 0 :: Radd_v (Rscal c x) z = Radd_v (Rscal c (0 :: x)) (0 :: z).
Proof. intros. cbn. f_equal. ring. Qed.

Section Good.
  Variables (n : nat) (q : form).
  Hypothesis G : good n q.
  Lemma lin_l : forall c x z w, length x = n -> length z = n -> length w = n ->
    q (Radd_v (Rscal c x) z) w = c * q x w + q z w.
  Proof. intros. apply (proj1 G); assumption. Qed.
  Lemma lin_r : forall c x z w, length x = n -> length z = n -> length w = n ->
    q w (Radd_v (Rscal c x) z) = c * q w x + q w z.
  Proof.
    intros c x z w Lx Lz Lw. destruct G as (_ & Sy & _).
    assert (length (Radd_v (Rscal c x) z) = n) by (apply Radd_v_length; [rewrite Rscal_length|]; assumption).
    rewrite (Sy w) by assumption. rewrite lin_l by assumption. rewrite (Sy x w), (Sy z w) by assumption. reflexivity.
  Qed.
  Lemma quad : forall c x z, length x = n -> length z = n ->
    q (Radd_v (Rscal c x) z) (Radd_v (Rscal c x) z) = c * c * q x x + 2 * c * q x z + q z z.
  Proof.
    intros c x z Lx Lz. destruct G as (_ & Sy & _).
    assert (LL : length (Radd_v (Rscal c x) z) = n) by (apply Radd_v_length; [rewrite Rscal_length|]; assumption).
    rewrite lin_l by assumption.
    rewrite !lin_r by assumption. rewrite (Sy z x) by assumption. ring.
  Qed.
  Lemma q_zero : forall w, length w = n -> q (zerov n) w = 0.
  Proof.
    intros w Lw. assert (E : zerov n = Radd_v (Rscal (-1) (zerov n)) (zerov n)).
    { rewrite Rscal_zerov. rewrite <- (zerov_length n) at 2. rewrite Radd_0_l. reflexivity. }
    rewrite E, lin_l by (auto; apply zerov_length). ring.
  Qed.
  Lemma q_nonneg : forall x, length x = n -> 0 <= q x x.
  Proof.
    intros x Lx. destruct (list_eq_dec Req_EM_T x (zerov n)) as [->|N]; [rewrite q_zero by exact Lx; lra|].
    left. apply (proj2 (proj2 G)); assumption.
  Qed.
  Lemma q_CS : forall x z, length x = n -> length z = n -> q x z * q x z <= q x x * q z z.
  Proof.
    intros x z Lx Lz. destruct (list_eq_dec Req_EM_T x (zerov n)) as [->|N].
    { rewrite !q_zero by assumption. lra. }
    pose proof (proj2 (proj2 G) x Lx N) as P.
    assert (K : 0 <= q (Radd_v (Rscal (- (q x z / q x x)) x) z) (Radd_v (Rscal (- (q x z / q x x)) x) z)).
    { apply q_nonneg. apply Radd_v_length; [rewrite Rscal_length|]; assumption. }
    rewrite quad in K by assumption.
    replace (- (q x z / q x x) * - (q x z / q x x) * q x x + 2 * - (q x z / q x x) * q x z + q z z)
      with (q z z - q x z * q x z / q x x) in K by (field; lra).
    apply (Rmult_le_compat_l (q x x)) in K; [|lra]. rewrite Rmult_0_r in K.
    replace (q x x * (q z z - q x z * q x z / q x x)) with (q x x * q z z - q x z * q x z) in K by (field; lra). lra.
  Qed.
End Good.

Lemma rest_good : forall k q, good (S k) q -> good k (rest q).
Proof.
  intros k q G. pose proof G as (_ & Sy & Po). split; [|split].
  - intros w Lw c x z Lx Lz. unfold rest. rewrite cons0_add. apply (lin_l (S k)); cbn; auto.
  - intros x z Lx Lz. unfold rest. apply Sy; cbn; auto.
  - intros x Lx N. unfold rest. apply Po; [cbn; auto|apply cons0_nz; exact N].
Qed.

Lemma pivot_pos : forall k q, good (S k) q -> 0 < q (e1 k) (e1 k).
Proof. intros k q G. apply (proj2 (proj2 G)); [apply e1_length|apply e1_nz]. Qed.

Lemma schur_good : forall k q, good (S k) q -> good k (schur k q).
Proof.
  intros k q G. pose proof G as (_ & Sy & Po). pose proof (pivot_pos k q G) as A. pose proof (e1_length k) as L1.
  split; [|split].
  - intros w Lw c x z Lx Lz. unfold schur. rewrite cons0_add.
    rewrite (lin_l (S k)), (lin_r (S k)) by (cbn; auto). field. lra.
  - intros x z Lx Lz. unfold schur. rewrite (Sy (0 :: x) (0 :: z)) by (cbn; auto). field. lra.
  - intros x Lx N. unfold schur.
    assert (P : 0 < q (Radd_v (Rscal (- (q (e1 k) (0 :: x) / q (e1 k) (e1 k))) (e1 k)) (0 :: x))
                      (Radd_v (Rscal (- (q (e1 k) (0 :: x) / q (e1 k) (e1 k))) (e1 k)) (0 :: x))).
    { rewrite <- split_e1 by exact Lx. apply Po; [cbn; auto|]. intro E. apply N. unfold zerov in *. cbn in E. injection E. auto. }
    rewrite (quad (S k)) in P by (cbn; auto).
    eapply Rlt_le_trans; [exact P|]. right. field. lra.
Qed.

Lemma trace_mono : forall n (p q : form), (forall x, length x = n -> p x x <= q x x) -> trace n p <= trace n q.
Proof.
  induction n as [|k IH]; intros p q H; cbn [trace]; [lra|].
  apply Rplus_le_compat; [apply H, e1_length|]. apply IH. intros x Lx. apply H. cbn. auto.
Qed.
Lemma trace_ext : forall n (p q : form), (forall x, length x = n -> p x x = q x x) -> trace n p = trace n q.
Proof. intros n p q H. apply Rle_antisym; apply trace_mono; intros x Lx; rewrite H by exact Lx; lra. Qed.
Lemma trace_lin : forall n c (p q : form), trace n (fun x z => p x z + c * q x z) = trace n p + c * trace n q.
Proof.
  induction n as [|k IH]; intros c p q; cbn [trace]; [ring|].
  change (rest (fun x z => p x z + c * q x z)) with (fun x z => rest p x z + c * rest q x z). rewrite IH. ring.
Qed.
Lemma trace_outer : forall n u, length u = n -> trace n (fun x z => Rdot u x * Rdot u z) = Rdot u u.
Proof.
  induction n as [|k IH]; intros [|a u] L; cbn in L; try discriminate; [reflexivity|]. cbn [trace].
  assert (E : Rdot (a :: u) (e1 k) = a) by (unfold e1; cbn; rewrite Rdot_0_r; ring).
  rewrite E. cbn [Rdot]. f_equal. rewrite <- (IH u) by lia. apply trace_ext.
  intros x Lx. unfold rest. cbn. ring.
Qed.
Lemma trace_pos : forall n q, good n q -> 0 <= trace n q.
Proof.
  induction n as [|k IH]; intros q G; cbn [trace]; [lra|].
  pose proof (pivot_pos k q G). pose proof (IH _ (rest_good k q G)). lra.
Qed.

Lemma ln_le_sub1 : forall x, 0 < x -> ln x <= x - 1.
Proof. intros x H. pose proof (exp_ineq1_le (ln x)) as E. rewrite exp_ln in E by exact H. lra. Qed.

Lemma logdet_le : forall n q, good n q -> logdet n q <= trace n q - INR n.
Proof.
  induction n as [|k IH]; intros q G; cbn [logdet trace]; [cbn; lra|].
  pose proof (pivot_pos k q G) as A. pose proof (ln_le_sub1 _ A). pose proof (IH _ (schur_good k q G)).
  assert (T : trace k (schur k q) <= trace k (rest q)).
  { apply trace_mono. intros x Lx. unfold schur, rest.
    assert (0 <= q (e1 k) (0 :: x) * q (e1 k) (0 :: x) / q (e1 k) (e1 k)); [|lra].
    apply Rmult_le_pos; [apply Rle_0_sqr|]. left. apply Rinv_0_lt_compat. exact A. }
  rewrite S_INR. lra.
Qed.

(** |v|^2 <= trace q * c when (v.z)^2 <= q(z,z) c *)
Lemma trace_bound : forall n (q : form) v c, length v = n ->
  (forall z, length z = n -> Rdot v z * Rdot v z <= q z z * c) -> Rdot v v <= trace n q * c.
Proof.
  induction n as [|k IH]; intros q [|a v] c L H; cbn in L; try discriminate; cbn [trace Rdot]; [lra|].
  pose proof (H (e1 k) (e1_length k)) as H1. assert (E : Rdot (a :: v) (e1 k) = a) by (unfold e1; cbn; rewrite Rdot_0_r; ring).
  rewrite E in H1. assert (H2 : Rdot v v <= trace k (rest q) * c).
  { apply IH; [lia|]. intros z Lz. specialize (H (0 :: z) ltac:(cbn; auto)). cbn [Rdot] in H. unfold rest.
    rewrite Rmult_0_r, Rplus_0_l in H. exact H. }
  lra.
Qed.

Lemma logdet_ext : forall n (p q : form), (forall x z, length x = n -> length z = n -> p x z = q x z) ->
  logdet n p = logdet n q.
Proof.
  induction n as [|k IH]; intros p q H; cbn [logdet]; [reflexivity|].
  rewrite (H (e1 k) (e1 k)) by apply e1_length. f_equal. apply IH. intros x z Lx Lz. unfold schur.
  rewrite !H by (cbn; rewrite ?zerov_length; auto). reflexivity.
Qed.

(** A rank-one change multiplies the determinant by 1 + t l(x), with x the solution
    of q(x, .) = l *)
Lemma logdet_rank1 : forall n (q p : form) l t x, good n q -> good n p -> linear n l -> length x = n ->
  (forall u z, length u = n -> length z = n -> p u z = q u z + t * (l u * l z)) ->
  (forall z, length z = n -> q x z = l z) ->
  0 < 1 + t * l x /\ logdet n p = logdet n q + ln (1 + t * l x).
Proof.
  induction n as [|k IH]; intros q p l t x Gq Gp Hl Lx Hp Hx.
  - assert (x = []) by (destruct x; [reflexivity|discriminate]). subst x.
    assert (E : l [] = 0).
    { specialize (Hl (-1) [] [] eq_refl eq_refl). cbn in Hl. lra. }
    rewrite E, Rmult_0_r, Rplus_0_r, ln_1. cbn. lra.
  - destruct x as [|x1 x2]; [discriminate|]. cbn in Lx. assert (L2 : length x2 = k) by lia.
    pose proof (pivot_pos k q Gq) as A. pose proof (pivot_pos k p Gp) as A'. pose proof (e1_length k) as L1.
    set (a := q (e1 k) (e1 k)) in *. set (a' := p (e1 k) (e1 k)) in *. set (l1 := l (e1 k)).
    assert (EA : a' = a + t * (l1 * l1)) by (unfold a', a, l1; apply Hp; exact L1).
    set (l' := fun z => l (0 :: z) - l1 * q (e1 k) (0 :: z) / a).
    assert (Hl' : linear k l').
    { intros c u z Lu Lz. unfold l'. rewrite cons0_add. rewrite (Hl c (0 :: u) (0 :: z)) by (cbn; auto).
      rewrite (lin_r (S k) q Gq) by (cbn; auto). field. lra. }
    pose proof (Hx (e1 k) L1) as X1. rewrite (split_e1 k x1 x2 L2) in X1. rewrite (lin_l (S k) q Gq) in X1 by (cbn; auto).
    assert (Sy : forall u z, length u = S k -> length z = S k -> q u z = q z u) by apply Gq.
    rewrite (Sy (0 :: x2)) in X1 by (cbn; auto). fold a l1 in X1.
    set (b2 := q (e1 k) (0 :: x2)) in *.
    destruct (IH (schur k q) (schur k p) l' (t * a / a') x2 (schur_good k q Gq) (schur_good k p Gp) Hl' L2) as [P E].
    { intros u z Lu Lz. unfold schur, l'. rewrite !Hp by (cbn; rewrite ?zerov_length; auto). fold a a' l1.
      rewrite EA. assert (NZ : a + t * (l1 * l1) <> 0) by lra. field. split; [lra|]. intro Z. apply NZ. rewrite <- Z. ring. }
    { intros z Lz. unfold schur, l'. pose proof (Hx (0 :: z) ltac:(cbn; auto)) as X2.
      rewrite (split_e1 k x1 x2 L2) in X2. rewrite (lin_l (S k) q Gq) in X2 by (cbn; auto). fold a. fold b2.
      rewrite <- X2, <- X1. field. lra. }
    assert (LX : l (x1 :: x2) = x1 * l1 + l (0 :: x2)).
    { rewrite (split_e1 k x1 x2 L2). rewrite (Hl x1 (e1 k) (0 :: x2)) by (cbn; auto). reflexivity. }
    assert (F : 1 + t * l (x1 :: x2) = (a' / a) * (1 + t * a / a' * l' x2)).
    { unfold l'. fold b2. rewrite LX. 
      replace (a' / a * (1 + t * a / a' * (l (0 :: x2) - l1 * b2 / a)))
        with (a' / a + t * (l (0 :: x2) - l1 * b2 / a)) by (field; lra).
      rewrite EA, <- X1. field. lra. }
    assert (P2 : 0 < a' / a) by (apply Rdiv_lt_0_compat; assumption).
    rewrite F. split; [apply Rmult_lt_0_compat; assumption|].
    rewrite ln_mult by assumption. cbn [logdet]. fold a a'. rewrite E.
    unfold Rdiv at 2. rewrite ln_mult, ln_Rinv; try assumption; [ring|apply Rinv_0_lt_compat; assumption].
Qed.

(** ** Matrices *)
Definition mform (B : list (list R)) : form := fun x z => Rdot (mvec B x) z.

Lemma mform_good : forall n B, spd n B -> good n (mform B).
Proof.
  intros n B (HM & HS & HP). unfold mform. split; [|split].
  - intros w Lw c x z Lx Lz. rewrite (mvec_add B n n) by (auto; rewrite Rscal_length; auto).
    rewrite mvec_scal, Rdot_add_l, Rdot_scal_l; [reflexivity|]. rewrite Rscal_length, !mvec_length. reflexivity.
  - intros x z Lx Lz. rewrite HS by assumption. apply Rdot_comm.
  - intros x Lx N. rewrite Rdot_comm. apply HP; assumption.
Qed.

Lemma Rdot_linear : forall n u, linear n (Rdot u).
Proof.
  intros n u c x z Lx Lz. rewrite Rdot_add_r by (rewrite Rscal_length; lia). rewrite Rdot_scal_r. reflexivity.
Qed.

Lemma trace_identity : forall n, trace n (mform (identity_mat (N:=RN) n)) = INR n.
Proof.
  intro n. rewrite (trace_ext n _ (fun x z => Rdot x z)).
  2:{ intros x Lx. unfold mform. rewrite identity_mv by exact Lx. reflexivity. }
  induction n as [|k IH]; [reflexivity|]. cbn [trace].
  replace (Rdot (e1 k) (e1 k)) with 1 by (unfold e1; cbn; rewrite Rdot_0_r; ring).
  rewrite (trace_ext k _ (fun x z => Rdot x z)) by (intros x Lx; unfold rest; cbn; ring). rewrite IH, S_INR. ring.
Qed.
Lemma logdet_identity : forall n, logdet n (mform (identity_mat (N:=RN) n)) = 0.
Proof.
  intro n. rewrite (logdet_ext n _ (fun x z => Rdot x z)).
  2:{ intros x z Lx Lz. unfold mform. rewrite identity_mv by exact Lx. reflexivity. }
  induction n as [|k IH]; [reflexivity|]. cbn [logdet].
  replace (Rdot (e1 k) (e1 k)) with 1 by (unfold e1; cbn; rewrite Rdot_0_r; ring).
  rewrite ln_1. rewrite (logdet_ext k _ (fun x z => Rdot x z)).
  - rewrite IH. ring.
  - intros x z Lx Lz. unfold schur, e1. cbn. rewrite !Rdot_0_l. field.
Qed.

(** |Bh|^2 <= trace B * h.Bh *)
Lemma trace_mat_bound : forall n B h, spd n B -> length h = n ->
  Rdot (mvec B h) (mvec B h) <= trace n (mform B) * Rdot h (mvec B h).
Proof.
  intros n B h S Lh. pose proof (mform_good n B S) as G. apply trace_bound; [eapply mvec_len; apply S|].
  intros z Lz. pose proof (q_CS n _ G h z Lh Lz) as C. unfold mform in *. rewrite (Rdot_comm h). lra.
Qed.

Section Update.
  Variables (n : nat) (B H : list (list R)) (d s : list R).
  Hypothesis SB : spd n B.
  Hypothesis SH : spd n H.
  Hypothesis HI : inverses n H B.
  Hypothesis Ld : length d = n.
  Hypothesis Ls : length s = n.
  Hypothesis Hi : 0 < Rdot s d.
  Let i := Rdot s d.
  Let B' := bfgs_direct (N:=RN) i d s B.

  Lemma upd_trace : trace n (mform B') = trace n (mform B) + Rdot d d / i - Rdot (mvec B s) (mvec B s) / Rdot s (mvec B s).
  Proof.
    rewrite (trace_ext n (mform B') (fun x z => (fun x z => mform B x z + / i * (Rdot d x * Rdot d z)) x z +
       (- / Rdot s (mvec B s)) * (Rdot (mvec B s) x * Rdot (mvec B s) z))).
    2:{ intros x Lx. unfold mform, B', i. rewrite (D_form n B d s) by (first [assumption|apply SB]). ring. }
    rewrite (trace_lin n _ (fun x z => mform B x z + / i * (Rdot d x * Rdot d z)) (fun x z => Rdot (mvec B s) x * Rdot (mvec B s) z)).
    rewrite (trace_lin n _ (mform B) (fun x z => Rdot d x * Rdot d z)).
    rewrite !trace_outer by (auto; eapply mvec_len; apply SB). unfold Rdiv. ring.
  Qed.

  Lemma upd_logdet : logdet n (mform B') = logdet n (mform B) + ln i - ln (Rdot s (mvec B s)).
  Proof.
    pose proof (mform_good n B SB) as GB.
    assert (GB' : good n (mform B')).
    { apply mform_good. unfold B', i. apply D_spd; auto; apply SB. }
    set (w := mvec B s). assert (Lw : length w = n) by (eapply mvec_len; apply SB).
    assert (s_nz : s <> zerov n) by (intros ->; rewrite Rdot_0_l in Hi; lra).
    assert (C0 : 0 < Rdot s w) by (apply SB; assumption).
    set (hd := mvec H d). assert (Lh : length hd = n) by (eapply mvec_len; apply SH).
    assert (Bh : mvec B hd = d) by (apply HI; exact Ld).
    set (eta := Rdot d hd).
    assert (E0 : 0 < eta).
    { unfold eta. apply SH; [exact Ld|]. intros ->. rewrite Rdot_0_r in Hi. lra. }
    set (q1 := fun x z => mform B x z + / i * (Rdot d x * Rdot d z)).
    assert (I0 : 0 < / i) by (apply Rinv_0_lt_compat; exact Hi).
    assert (G1 : good n q1).
    { destruct GB as (b1 & b2 & b3). unfold q1. split; [|split].
      - intros u Lu c x z Lx Lz. cbv beta. rewrite (b1 u Lu c x z Lx Lz), (Rdot_linear n d c x z Lx Lz). ring.
      - intros x z Lx Lz. rewrite (b2 x z Lx Lz). ring.
      - intros x Lx N. specialize (b3 x Lx N). assert (0 <= / i * (Rdot d x * Rdot d x)); [|lra].
        apply Rmult_le_pos; [lra|apply Rle_0_sqr]. }
    destruct (logdet_rank1 n (mform B) q1 (Rdot d) (/ i) hd GB G1 (Rdot_linear n d) Lh) as [P1 E1].
    { intros; reflexivity. }
    { intros z Lz. unfold mform. rewrite Bh. reflexivity. }
    set (x := Radd_v (Rscal (- (i / (i + eta))) hd) s).
    assert (Lx : length x = n) by (apply Radd_v_length; [rewrite Rscal_length|]; assumption).
    destruct (logdet_rank1 n q1 (mform B') (Rdot w) (- / Rdot s w) x G1 GB' (Rdot_linear n w) Lx) as [P2 E2].
    { intros u z Lu Lz. unfold q1, mform, B', i. rewrite (D_form n B d s) by (first [assumption|apply SB]). fold w. ring. }
    { intros z Lz. unfold q1. unfold x at 1.
      rewrite (lin_l n _ GB) by assumption. unfold x. rewrite (Rdot_linear n d) by assumption.
      unfold mform. rewrite Bh. fold w eta. replace (Rdot d s) with i by (unfold i; apply Rdot_comm).
      field. split; unfold i in *; lra. }
    assert (WX : Rdot w x = Rdot s w - i * i / (i + eta)).
    { unfold x. rewrite (Rdot_linear n w) by assumption.
      assert (Rdot w hd = i).
      { unfold w. rewrite (proj1 (proj2 SB)) by assumption. rewrite Bh. reflexivity. }
      rewrite H0, (Rdot_comm w s). field. unfold i in *; lra. }
    fold eta in E1, P1. rewrite E2, E1, WX.
    replace (1 + / i * eta) with ((i + eta) * / i) by (field; unfold i in *; lra).
    replace (1 + - / Rdot s w * (Rdot s w - i * i / (i + eta))) with (i * i * / (Rdot s w * (i + eta))) by (field; unfold i in *; lra).
    assert (0 < i) by exact Hi. assert (0 < i + eta) by lra.
    rewrite !ln_mult, !ln_Rinv, !ln_mult; try assumption; try (apply Rinv_0_lt_compat); try (apply Rmult_lt_0_compat); try assumption.
    ring.
  Qed.
End Update.
