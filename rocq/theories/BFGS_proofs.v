(** BFGS and DFP: secant equation, symmetry, positive definiteness (C37, C38),
    and the equivalence of the two modes (C39). *)

From Coq Require Import String List Bool Arith Lia ZArith QArith Qreals Reals Lra Psatz.
From Verif Require Import Num NumFacts Vec Results Iterate Spec_Iterate Iterate_proofs.
From Verif Require Import Spec_Vec VecFacts Spec_Lin LinFacts NumF64.
From Verif Require Import Search Spec_Search Descent Minimisers QuasiNewton Solvers Minimisers_proofs Progress_proofs TrustRegion_proofs LeastSquares_proofs.
Import ListNotations.
Local Open Scope nat_scope.

(** ** Lists of reals *)
Lemma Rdot_ext : forall n (a b : list R), length a = n -> length b = n ->
  (forall z, length z = n -> Rdot a z = Rdot b z) -> a = b.
Proof.
  intros n a b Ha Hb H.
  assert (E : Rdot (Rsub_v a b) (Rsub_v a b) = 0%R).
  { rewrite Rdot_sub_l by congruence. rewrite H; [lra|]. apply Rsub_v_length; assumption. }
  apply Rdot_0_inv in E. rewrite (Rsub_v_length a b n Ha Hb) in E.
  clear H. revert n b Ha Hb E. induction a as [|x a IH]; intros [|n] [|y b] Ha Hb E; try discriminate; [reflexivity|].
  cbn in E. injection E as E1 E2. injection Ha as Ha. injection Hb as Hb. f_equal; [lra|]. eapply IH; eauto.
Qed.

Lemma mat_mv_RN : forall (A : list (list R)) (x : list R), mat_mv (N:=RN) A x = mvec A x.
Proof. intros A x. unfold mat_mv, mvec. apply map_ext. intro r. apply vdot_RN. Qed.

Lemma mvec_len : forall m n A x, mat m n A -> length (mvec A x) = m.
Proof. intros m n A x [H _]. rewrite mvec_length. exact H. Qed.

Lemma outer_mat : forall m n (a b : list R), length a = m -> length b = n -> mat m n (outer (N:=RN) a b).
Proof.
  intros m n a b Ha Hb. unfold outer. split; [rewrite map_length; exact Ha|].
  apply Forall_forall. intros r Hr. apply in_map_iff in Hr as (x & <- & _). rewrite vscale_RN, Rscal_length. exact Hb.
Qed.

Lemma outer_mv : forall (a b x : list R), mvec (outer (N:=RN) a b) x = Rscal (Rdot b x) a.
Proof.
  intros a b x. unfold outer, mvec, Rscal. rewrite map_map. apply map_ext. intro y.
  rewrite vscale_RN, Rdot_scal_l. apply Rmult_comm.
Qed.

Lemma madd_mat : forall m n (A B : list (list R)), mat m n A -> mat m n B -> mat m n (madd (N:=RN) A B).
Proof.
  intros m n A B [LA FA] [LB FB]. unfold madd. split; [exact (vmap2_length_eq _ _ _ _ A B m LA LB)|].
  clear LA LB. revert B FB. induction FA as [|r A Hr FA IH]; intros B FB; [constructor|].
  destruct FB as [|q B Hq FB]; [constructor|]. cbn. constructor; [|apply IH; exact FB].
  rewrite vadd_RN. apply Radd_v_length; assumption.
Qed.

Lemma msub_mat : forall m n (A B : list (list R)), mat m n A -> mat m n B -> mat m n (msub (N:=RN) A B).
Proof.
  intros m n A B [LA FA] [LB FB]. unfold msub. split; [exact (vmap2_length_eq _ _ _ _ A B m LA LB)|].
  clear LA LB. revert B FB. induction FA as [|r A Hr FA IH]; intros B FB; [constructor|].
  destruct FB as [|q B Hq FB]; [constructor|]. cbn. constructor; [|apply IH; exact FB].
  rewrite vsub_RN. apply Rsub_v_length; assumption.
Qed.

Lemma madd_mv : forall m n (A B : list (list R)) x, mat m n A -> mat m n B ->
  mvec (madd (N:=RN) A B) x = Radd_v (mvec A x) (mvec B x).
Proof.
  intros m n A B x [LA FA] [LB FB]. rewrite <- LB in LA. clear LB. revert B LA FB.
  induction FA as [|r A Hr FA IH]; intros [|q B] L FB; try discriminate L; [reflexivity|].
  inversion FB; subst. cbn. rewrite vadd_RN, Rdot_add_l by congruence. f_equal. apply IH; auto.
Qed.

Lemma msub_mv : forall m n (A B : list (list R)) x, mat m n A -> mat m n B ->
  mvec (msub (N:=RN) A B) x = Rsub_v (mvec A x) (mvec B x).
Proof.
  intros m n A B x [LA FA] [LB FB]. rewrite <- LB in LA. clear LB. revert B LA FB.
  induction FA as [|r A Hr FA IH]; intros [|q B] L FB; try discriminate L; [reflexivity|].
  inversion FB; subst. cbn. rewrite vsub_RN, Rdot_sub_l by congruence. f_equal. apply IH; auto.
Qed.

Lemma mdivs_eq : forall (A : list (list R)) (c : R), mdivs (N:=RN) A c = map (Rscal (/ c)) A.
Proof.
  intros A c. unfold mdivs. apply map_ext. intro r. unfold Rscal. apply map_ext. intro x. cbn. unfold Rdiv. apply Rmult_comm.
Qed.
Lemma mscale_eq : forall (A : list (list R)) (c : R), mscale (N:=RN) c A = map (Rscal c) A.
Proof. intros A c. unfold mscale. apply map_ext. intro r. apply vscale_RN. Qed.

Lemma mapscal_mat : forall m n (A : list (list R)) c, mat m n A -> mat m n (map (Rscal c) A).
Proof.
  intros m n A c [LA FA]. split; [rewrite map_length; exact LA|].
  apply Forall_forall. intros r Hr. apply in_map_iff in Hr as (q & <- & Hq). rewrite Rscal_length.
  rewrite Forall_forall in FA. apply FA. exact Hq.
Qed.
Lemma mapscal_mv : forall (A : list (list R)) c x, mvec (map (Rscal c) A) x = Rscal c (mvec A x).
Proof.
  intros A c x. unfold mvec, Rscal at 2. rewrite !map_map. apply map_ext. intro r. apply Rdot_scal_l.
Qed.

(** Solve [length a = n] and [length a = length b] when everything has length
    [n]. *)
Ltac lenn n := first [assumption | rewrite Rscal_length; lenn n | apply Radd_v_length; lenn n
  | apply Rsub_v_length; lenn n | eapply mvec_len; eassumption].
Ltac eqn n := transitivity n; [lenn n|symmetry; lenn n].

(** ** The two rank-two updates, [u] playing the image of [v] *)
Section Rank2.
  Local Open Scope R_scope.
  Variables (n : nat) (M : list (list R)) (u v : list R).
  Hypothesis HM : mat n n M.
  Hypothesis Hu : length u = n.
  Hypothesis Hv : length v = n.
  Let i := Rdot v u.
  Let P := bfgs_inverse (N:=RN) i v u M.
  Let D := bfgs_direct (N:=RN) i u v M.

  Lemma P_mat : mat n n P.
  Proof.
    unfold P, bfgs_inverse. cbv zeta. rewrite !mdivs_eq, !mscale_eq, mat_mv_RN.
    assert (Hw : length (mvec M v) = n) by (eapply mvec_len; eauto).
    apply msub_mat; [apply madd_mat; [exact HM|]|]; repeat apply mapscal_mat; [|apply madd_mat];
      apply outer_mat; assumption.
  Qed.
  Lemma D_mat : mat n n D.
  Proof.
    unfold D, bfgs_direct. cbv zeta. rewrite !mdivs_eq, mat_mv_RN.
    assert (Hw : length (mvec M v) = n) by (eapply mvec_len; eauto).
    apply msub_mat; [apply madd_mat; [exact HM|]|]; apply mapscal_mat;
      apply outer_mat; assumption.
  Qed.

  Lemma P_form : forall x z, length x = n -> length z = n ->
    Rdot (mvec P x) z = Rdot (mvec M x) z + (i + Rdot v (mvec M v)) * / (i * i) * (Rdot u x * Rdot u z)
      - / i * (Rdot u x * Rdot (mvec M v) z + Rdot (mvec M v) x * Rdot u z).
  Proof.
    intros x z Hx Hz. unfold P, bfgs_inverse. cbv zeta. rewrite !mdivs_eq, !mscale_eq, mat_mv_RN.
    set (w := mvec M v). assert (Hw : length w = n) by (eapply mvec_len; eauto).
    rewrite (msub_mv n n), (madd_mv n n), !mapscal_mv, (madd_mv n n), !outer_mv;
      repeat first [assumption | apply madd_mat | apply mapscal_mat | apply outer_mat].
    rewrite vdot_RN. cbn [nadd nmul RN].
    assert (L1 : length (mvec M x) = n) by (eapply mvec_len; eauto).
    repeat first [rewrite Rdot_sub_l by (eqn n) | rewrite Rdot_add_l by (eqn n) | rewrite Rdot_scal_l]. lra.
  Qed.

  Lemma D_form : forall x z, length x = n -> length z = n ->
    Rdot (mvec D x) z = Rdot (mvec M x) z + / i * (Rdot u x * Rdot u z)
      - / Rdot v (mvec M v) * (Rdot (mvec M v) x * Rdot (mvec M v) z).
  Proof.
    intros x z Hx Hz. unfold D, bfgs_direct. cbv zeta. rewrite !mdivs_eq, mat_mv_RN.
    set (w := mvec M v). assert (Hw : length w = n) by (eapply mvec_len; eauto).
    rewrite (msub_mv n n), (madd_mv n n), !mapscal_mv, !outer_mv;
      repeat first [assumption | apply madd_mat | apply mapscal_mat | apply outer_mat].
    rewrite vdot_RN.
    assert (L1 : length (mvec M x) = n) by (eapply mvec_len; eauto).
    repeat first [rewrite Rdot_sub_l by (eqn n) | rewrite Rdot_add_l by (eqn n) | rewrite Rdot_scal_l]. lra.
  Qed.

  Hypothesis Hsym : symmetric n M.
  Hypothesis Hpd : positive_definite n M.
  Hypothesis Hi : 0 < i.

  Lemma M_len : forall x, length (mvec M x) = n.
  Proof. intro x. eapply mvec_len; eauto. Qed.

  Lemma v_nz : v <> zerov n.
  Proof. intro E. unfold i in Hi. rewrite E, Rdot_0_l in Hi. lra. Qed.

  Lemma vMv : 0 < Rdot v (mvec M v).
  Proof. apply Hpd; [exact Hv|exact v_nz]. Qed.

  (** Quadratic form of M at x - a v *)
  Lemma M_quad : forall a x, length x = n ->
    Rdot (Rsub_v x (Rscal a v)) (mvec M (Rsub_v x (Rscal a v))) =
    Rdot x (mvec M x) - 2 * a * Rdot x (mvec M v) + a * a * Rdot v (mvec M v).
  Proof.
    intros a x Hx. assert (La : length (Rscal a v) = n) by (rewrite Rscal_length; exact Hv).
    rewrite (mvec_sub M n n) by assumption. rewrite mvec_scal.
    pose proof (M_len x). pose proof (M_len v).
    rewrite Rdot_sub_l by (eqn n). rewrite !Rdot_sub_r by (eqn n).
    rewrite !Rdot_scal_l, !Rdot_scal_r. rewrite <- (Hsym v x Hv Hx), (Rdot_comm (mvec M v) x). lra.
  Qed.

  Lemma M_quad_nonneg : forall a x, length x = n ->
    0 <= Rdot x (mvec M x) - 2 * a * Rdot x (mvec M v) + a * a * Rdot v (mvec M v) /\
    (Rdot x (mvec M x) - 2 * a * Rdot x (mvec M v) + a * a * Rdot v (mvec M v) = 0 -> x = Rscal a v).
  Proof.
    intros a x Hx. rewrite <- M_quad by exact Hx. set (q := Rsub_v x (Rscal a v)).
    assert (Lq : length q = n) by (apply Rsub_v_length; [exact Hx|rewrite Rscal_length; exact Hv]).
    destruct (list_eq_dec Req_EM_T q (zerov n)) as [E|E].
    - split; [rewrite E, Rdot_0_l; lra|]. intros _.
      apply (Rdot_ext n); [exact Hx|rewrite Rscal_length; exact Hv|]. intros z Hz.
      assert (K : Rdot q z = 0) by (rewrite E; apply Rdot_0_l).
      unfold q in K. rewrite Rdot_sub_l in K by (rewrite Rscal_length; congruence). lra.
    - pose proof (Hpd q Lq E). split; intros; lra.
  Qed.

  Lemma P_sym : symmetric n P.
  Proof.
    intros x y Hx Hy. rewrite (Rdot_comm x). rewrite !P_form by assumption.
    rewrite (Hsym x y Hx Hy), (Rdot_comm x (mvec M y)). lra.
  Qed.
  Lemma D_sym : symmetric n D.
  Proof.
    intros x y Hx Hy. rewrite (Rdot_comm x). rewrite !D_form by assumption.
    rewrite (Hsym x y Hx Hy), (Rdot_comm x (mvec M y)). lra.
  Qed.

  Lemma P_secant : mvec P v = u.
  Proof.
    apply (Rdot_ext n); [eapply mvec_len; apply P_mat|exact Hu|]. intros z Hz.
    rewrite P_form by assumption. rewrite (Rdot_comm u v), (Rdot_comm (mvec M v) v). fold i. field. lra.
  Qed.
  Lemma D_secant : mvec D v = u.
  Proof.
    pose proof vMv.
    apply (Rdot_ext n); [eapply mvec_len; apply D_mat|exact Hu|]. intros z Hz.
    rewrite D_form by assumption. rewrite (Rdot_comm u v), (Rdot_comm (mvec M v) v). fold i. field. lra.
  Qed.

  Lemma P_pd : positive_definite n P.
  Proof.
    intros x Hx Hnz. rewrite Rdot_comm, P_form by assumption.
    destruct (M_quad_nonneg (Rdot u x / i) x Hx) as [Q0 Q1].
    set (a := Rdot u x / i) in *.
    assert (Ea : Rdot u x = a * i) by (unfold a; field; lra).
    rewrite Ea. rewrite (Rdot_comm (mvec M v) x), (Rdot_comm (mvec M x) x).
    match goal with |- 0 < ?e => replace e with (Rdot x (mvec M x) - 2 * a * Rdot x (mvec M v) + a * a * Rdot v (mvec M v) + a * a * i) by (field; lra) end.
    destruct (Req_dec a 0) as [E|E].
    - destruct Q0 as [Q0|Q0]; [assert (0 <= a * a * i) by (apply Rmult_le_pos; [apply Rle_0_sqr|lra]); lra|].
      exfalso. apply Hnz. rewrite (Q1 (eq_sym Q0)), E. clear - Hv. rewrite <- Hv. clear.
      induction v as [|y w IH]; cbn; [reflexivity|]. f_equal; [lra|exact IH].
    - assert (0 < a * a * i) by (apply Rmult_lt_0_compat; [apply Rsqr_pos_lt; exact E|exact Hi]). lra.
  Qed.

  Lemma D_pd : positive_definite n D.
  Proof.
    intros x Hx Hnz. rewrite Rdot_comm, D_form by assumption. pose proof vMv as HQ.
    set (q := Rdot v (mvec M v)) in *.
    destruct (M_quad_nonneg (Rdot x (mvec M v) / q) x Hx) as [Q0 Q1]. fold q in Q0, Q1.
    set (a := Rdot x (mvec M v) / q) in *.
    assert (Ea : Rdot x (mvec M v) = a * q) by (unfold a; field; lra).
    rewrite (Rdot_comm (mvec M v) x), (Rdot_comm (mvec M x) x), Ea in *.
    match goal with |- 0 < ?e => replace e with (Rdot x (mvec M x) - 2 * a * (a * q) + a * a * q + / i * (Rdot u x * Rdot u x)) by (field; lra) end.
    assert (Hii : 0 < / i) by (apply Rinv_0_lt_compat; exact Hi).
    destruct (Req_dec (Rdot u x) 0) as [E|E].
    - rewrite E in *. destruct Q0 as [Q0|Q0]; [lra|]. exfalso. apply Hnz.
      specialize (Q1 (eq_sym Q0)). rewrite Q1 in E. rewrite Rdot_scal_r, (Rdot_comm u v) in E. fold i in E.
      assert (a = 0) by (apply Rmult_integral in E; lra).
      rewrite Q1, H. clear - Hv. rewrite <- Hv. clear.
      induction v as [|y w IH]; cbn; [reflexivity|]. f_equal; [lra|exact IH].
    - assert (0 < / i * (Rdot u x * Rdot u x)) by (apply Rmult_lt_0_compat; [exact Hii|apply Rsqr_pos_lt; exact E]). lra.
  Qed.

  Lemma P_spd : spd n P.
  Proof. split; [exact P_mat|]. split; [exact P_sym|exact P_pd]. Qed.
  Lemma D_spd : spd n D.
  Proof. split; [exact D_mat|]. split; [exact D_sym|exact D_pd]. Qed.
End Rank2.

(** ** The two updates are inverse to each other *)
Lemma inverses_left : forall n A B, mat n n A -> mat n n B -> symmetric n A -> symmetric n B ->
  (forall x, length x = n -> mvec A (mvec B x) = x) -> inverses n A B.
Proof.
  intros n A B HA HB SA SB H x Hx. split; [apply H; exact Hx|].
  apply (Rdot_ext n); [eapply mvec_len; eauto|exact Hx|]. intros z Hz.
  rewrite SB by (auto; eapply mvec_len; eauto).
  rewrite SA by (auto; eapply mvec_len; eauto). rewrite H by exact Hz. reflexivity.
Qed.

Lemma rank2_inverse : forall n (H B : list (list R)) (u v : list R), spd n H -> spd n B -> inverses n H B ->
  length u = n -> length v = n -> (0 < Rdot v u)%R ->
  inverses n (bfgs_inverse (N:=RN) (Rdot v u) v u H) (bfgs_direct (N:=RN) (Rdot v u) v u B).
Proof.
  intros n H B u v (HH & SH & PH) (HB & SB & PB) HI Hu Hv Hi.
  assert (Hi' : (0 < Rdot u v)%R) by (rewrite Rdot_comm; exact Hi).
  assert (ED : bfgs_direct (N:=RN) (Rdot v u) v u B = bfgs_direct (N:=RN) (Rdot u v) v u B) by (rewrite Rdot_comm; reflexivity).
  rewrite ED.
  apply inverses_left.
  - apply P_mat; assumption.
  - apply D_mat; assumption.
  - apply P_sym; assumption.
  - apply D_sym; assumption.
  - intros x Hx. set (w := mvec (bfgs_direct (N:=RN) (Rdot u v) v u B) x).
    assert (Lw : length w = n) by (eapply mvec_len; apply D_mat; assumption).
    assert (LP : length (mvec (bfgs_inverse (N:=RN) (Rdot v u) v u H) w) = n) by (eapply mvec_len; apply P_mat; assumption).
    apply (Rdot_ext n); [exact LP|exact Hx|]. intros z Hz.
    rewrite (P_form n) by assumption.
    pose proof (M_len n B HB) as LB. pose proof (M_len n H HH) as LH.
    assert (Q : (0 < Rdot u (mvec B u))%R) by (apply (vMv n B v u); auto).
    rewrite SH by assumption.
    unfold w. rewrite (D_form n B v u) by auto.
    rewrite (Rdot_comm u (mvec _ x)), (D_form n B v u) by auto.
    rewrite (Rdot_comm (mvec H v) (mvec _ x)), (D_form n B v u) by auto.
    (* simplify B against H *)
    rewrite <- (SH (mvec B x) z), <- (SH (mvec B u) z), <- (SH (mvec B x) v), <- (SH (mvec B u) v) by auto.
    rewrite (proj1 (HI x Hx)), (proj1 (HI u Hu)).
    rewrite <- (SH v z) by assumption.
    rewrite (Rdot_comm (mvec B u) u), (Rdot_comm u v), (Rdot_comm x v).
    rewrite (SB x u Hx Hu), (Rdot_comm x (mvec B u)).
    field. lra.
Qed.

(** ** Identity *)
Lemma unit_dot : forall m a i (x : list R), length x = m ->
  Rdot (map (fun j => if Nat.eqb i j then 1%R else 0%R) (seq a m)) x =
  (if Nat.ltb i a then 0%R else nth (i - a) x 0%R).
Proof.
  induction m as [|m IH]; intros a i [|y x] L; try discriminate L.
  - cbn [seq map Rdot]. destruct (Nat.ltb i a); [reflexivity|]. destruct (i - a); reflexivity.
  - cbn [seq map Rdot]. rewrite IH by (now injection L).
    destruct (Nat.eqb i a) eqn:E.
    + apply Nat.eqb_eq in E. subst. rewrite Nat.ltb_irrefl, Nat.sub_diag.
      replace (Nat.ltb a (S a)) with true by (symmetry; apply Nat.ltb_lt; lia). cbn. lra.
    + apply Nat.eqb_neq in E. destruct (Nat.ltb i a) eqn:E2.
      * apply Nat.ltb_lt in E2. replace (Nat.ltb i (S a)) with true by (symmetry; apply Nat.ltb_lt; lia). lra.
      * apply Nat.ltb_ge in E2. replace (Nat.ltb i (S a)) with false by (symmetry; apply Nat.ltb_ge; lia).
        replace (i - a) with (S (i - S a)) by lia. cbn. lra.
Qed.

Lemma identity_mv : forall n (x : list R), length x = n -> mvec (identity_mat (N:=RN) n) x = x.
Proof.
  intros n x L. unfold identity_mat, mvec. rewrite map_map.
  transitivity (map (fun j => nth j x 0%R) (seq 0 (length x))); [|apply map_nth_seq].
  rewrite L. apply map_ext. intro i.
  assert (E : unit_row (N:=RN) n i = map (fun j => if Nat.eqb i j then 1%R else 0%R) (seq 0 n)).
  { unfold unit_row. apply map_ext. intro j. cbn. rewrite Q2R_0, Q2R_1. reflexivity. }
  rewrite E, unit_dot by exact L. cbn. rewrite Nat.sub_0_r. reflexivity.
Qed.

Lemma identity_spd : forall n, spd n (identity_mat (N:=RN) n).
Proof.
  intro n. split; [|split].
  - unfold identity_mat. split; [rewrite map_length, seq_length; reflexivity|].
    apply Forall_forall. intros r Hr. apply in_map_iff in Hr as (i & <- & _).
    unfold unit_row. rewrite map_length, seq_length. reflexivity.
  - intros x y Hx Hy. rewrite !identity_mv by assumption. reflexivity.
  - intros x Hx Hnz. rewrite identity_mv by exact Hx.
    destruct (Rdot_pos x) as [H|H]; [exact H|]. exfalso. apply Hnz. rewrite (Rdot_0_inv x (eq_sym H)), Hx. reflexivity.
Qed.

Lemma identity_inv : forall n, inverses n (identity_mat (N:=RN) n) (identity_mat (N:=RN) n).
Proof. intros n x Hx. rewrite identity_mv by (rewrite identity_mv; exact Hx). rewrite identity_mv by exact Hx. auto. Qed.

(** ** One update *)
Definition upd (dfp : bool) (eps : R) (ui : bool) :=
  if dfp then dfp_update (N:=RN) eps ui else bfgs_update (N:=RN) eps ui.
(** the two matrices after an update *)
Definition newH (dfp : bool) (eps : R) (d s : list R) (H : list (list R)) : list (list R) :=
  if Rltb eps (Rdot d s) then
    (if dfp then dfp_inverse (N:=RN) (Rdot d s) d s H else bfgs_inverse (N:=RN) (Rdot d s) d s H)
  else H.
Definition newB (dfp : bool) (eps : R) (d s : list R) (B : list (list R)) : list (list R) :=
  if Rltb eps (Rdot d s) then
    (if dfp then dfp_direct (N:=RN) (Rdot d s) d s B else bfgs_direct (N:=RN) (Rdot d s) d s B)
  else B.

Lemma inverses_sym : forall n A B, inverses n A B -> inverses n B A.
Proof. intros n A B H x Hx. destruct (H x Hx); auto. Qed.

Lemma upd_pair : forall dfp n eps d s H B, (0 <= eps)%R -> length d = n -> length s = n ->
  spd n H -> spd n B -> inverses n H B ->
  spd n (newH dfp eps d s H) /\ spd n (newB dfp eps d s B) /\
  inverses n (newH dfp eps d s H) (newB dfp eps d s B) /\
  ((eps < Rdot d s)%R -> mvec (newH dfp eps d s H) d = s /\ mvec (newB dfp eps d s B) s = d).
Proof.
  intros dfp n eps d s H B He Hd Hs SH SB HI. unfold newH, newB.
  destruct (Rltb eps (Rdot d s)) eqn:E.
  2:{ apply Rltb_false in E. repeat split; try apply SH; try apply SB; try apply HI; auto; lra. }
  apply Rltb_true in E. assert (Hi : (0 < Rdot d s)%R) by lra.
  assert (Hi' : (0 < Rdot s d)%R) by (rewrite Rdot_comm; exact Hi).
  pose proof SH as (H1 & H2 & H3). pose proof SB as (B1 & B2 & B3).
  destruct dfp.
  - change (dfp_inverse (N:=RN) (Rdot d s) d s H) with (bfgs_direct (N:=RN) (Rdot d s) s d H).
    change (dfp_direct (N:=RN) (Rdot d s) d s B) with (bfgs_inverse (N:=RN) (Rdot d s) s d B).
    split; [apply D_spd; auto|].
    split; [rewrite (Rdot_comm d s); apply P_spd; auto|].
    split; [rewrite (Rdot_comm d s); apply inverses_sym; apply rank2_inverse; auto; apply inverses_sym; exact HI|].
    intros _. split; [apply (D_secant n); auto|rewrite (Rdot_comm d s); apply (P_secant n); auto].
  - split; [apply P_spd; auto|].
    split; [rewrite (Rdot_comm d s); apply D_spd; auto|].
    split; [apply rank2_inverse; auto|].
    intros _. split; [apply (P_secant n); auto|rewrite (Rdot_comm d s); apply (D_secant n); auto].
Qed.

Lemma info_grad_holds : forall ui n p M, info_grad (qn_holds ui n p M) = pt_g p.
Proof. intros [|] n p M; reflexivity. Qed.

Lemma upd_eval : forall dfp eps ui n p q H B, length (pt_y p) = n ->
  let s := Rsub_v (pt_y q) (pt_y p) in
  let d := Rsub_v (pt_g q) (pt_g p) in
  upd dfp eps ui (pt_y p) (pt_y q) (qn_holds ui n p (if ui then H else B)) (pt_f q) (pt_g q) tt =
  (qn_holds ui n q (if ui then newH dfp eps d s H else newB dfp eps d s B), tt).
Proof.
  intros dfp eps ui n p q H B L s d.
  assert (E : forall a b : list R, vdot (N:=RN) (vsub (N:=RN) a (pt_g p)) (vsub (N:=RN) b (pt_y p)) = Rdot (Rsub_v a (pt_g p)) (Rsub_v b (pt_y p))).
  { intros a b. rewrite vdot_RN, !vsub_RN. reflexivity. }
  destruct dfp; cbn [upd]; unfold newH, newB, dfp_update, bfgs_update; cbv zeta; rewrite info_grad_holds, E, !vsub_RN;
    fold s d; change (Datatypes.length (pt_y p)) with (@length R (pt_y p)); rewrite L; cbn [nltb RN];
    destruct ui; cbn [qn_holds info_matrix]; destruct (Rltb eps (Rdot d s)); reflexivity.
Qed.

Lemma seq_pair : forall dfp n eps p0 l, (0 <= eps)%R -> sized n p0 -> Forall (sized n) l ->
  exists H B, spd n H /\ spd n B /\ inverses n H B /\
    (forall ui, qn_after (qn_init_hessian (N:=RN) ui) (upd dfp eps ui) p0 l =
                (qn_holds ui n (hd p0 l) (if ui then H else B), tt)).
Proof.
  intros dfp n eps p0 l He S0 SL. induction SL as [|q l Sq SL IH].
  - exists (identity_mat (N:=RN) n), (identity_mat (N:=RN) n).
    split; [apply identity_spd|]. split; [apply identity_spd|]. split; [apply identity_inv|].
    intros ui. cbn [qn_after hd]. unfold qn_init_hessian. destruct S0 as [S0 _].
    change (Datatypes.length (pt_y p0)) with (@length R (pt_y p0)). rewrite S0. destruct ui; reflexivity.
  - destruct IH as (H & B & SH & SB & HI & E). 
    assert (Sp : sized n (hd p0 l)) by (destruct SL; [exact S0|assumption]).
    set (p := hd p0 l) in *. set (s := Rsub_v (pt_y q) (pt_y p)). set (d := Rsub_v (pt_g q) (pt_g p)).
    assert (Ls : length s = n) by (apply Rsub_v_length; [apply Sq|apply Sp]).
    assert (Ld : length d = n) by (apply Rsub_v_length; [apply Sq|apply Sp]).
    destruct (upd_pair dfp n eps d s H B He Ld Ls SH SB HI) as (K1 & K2 & K3 & _).
    exists (newH dfp eps d s H), (newB dfp eps d s B). split; [exact K1|]. split; [exact K2|]. split; [exact K3|].
    intro ui. cbn [qn_after hd]. rewrite (E ui). cbn [fst snd]. fold p.
    apply upd_eval. apply Sp.
Qed.

Lemma qn_holds_inj : forall ui n p M M', qn_holds ui n p M = qn_holds ui n p M' -> M = M'.
Proof. intros [|] n p M M' E; injection E; auto. Qed.

Lemma seq_secant : forall dfp n eps ui p0 l q M M', (0 <= eps)%R -> sized n p0 -> Forall (sized n) (q :: l) ->
  fst (qn_after (qn_init_hessian (N:=RN) ui) (upd dfp eps ui) p0 l) = qn_holds ui n (hd p0 l) M ->
  fst (qn_after (qn_init_hessian (N:=RN) ui) (upd dfp eps ui) p0 (q :: l)) = qn_holds ui n q M' ->
  secant_or_skip ui eps (hd p0 l) q M M'.
Proof.
  intros dfp n eps ui p0 l q M M' He S0 SL E1 E2. inversion SL as [|? ? Sq SL']; subst.
  destruct (seq_pair dfp n eps p0 l He S0 SL') as (H & B & SH & SB & HI & E).
  assert (Sp : sized n (hd p0 l)) by (destruct SL'; [exact S0|assumption]).
  cbn [qn_after] in E2. rewrite (E ui) in E1, E2. cbn [fst snd] in E1, E2. set (p := hd p0 l) in *.
  rewrite upd_eval in E2 by apply Sp. cbn [fst] in E2.
  apply qn_holds_inj in E1. apply qn_holds_inj in E2. subst M M'. unfold secant_or_skip. cbv zeta.
  set (s := Rsub_v (pt_y q) (pt_y p)) in *. set (d := Rsub_v (pt_g q) (pt_g p)) in *.
  assert (Ls : length s = n) by (apply Rsub_v_length; [apply Sq|apply Sp]).
  assert (Ld : length d = n) by (apply Rsub_v_length; [apply Sq|apply Sp]).
  destruct (upd_pair dfp n eps d s H B He Ld Ls SH SB HI) as (_ & _ & _ & K).
  split; intro HH.
  - destruct (K HH) as [K1 K2]. destruct ui; assumption.
  - unfold newH, newB. rewrite (proj2 (Rltb_false _ _) HH). destruct ui; reflexivity.
Qed.

(** BFGS, either mode, exact arithmetic: for every sequence of points the stored
    matrix is symmetric positive definite; each update with curvature above eps
    satisfies the secant equation; each other update leaves the matrix alone. *)
Lemma C37_bfgs_pf :
  forall (n : nat) (eps : R) (use_inverse : bool) (p0 : qn_point) (l : list qn_point),
    (0 <= eps)%R -> sized n p0 -> Forall (sized n) l ->
    let info l := fst (qn_after (qn_init_hessian (N:=RN) use_inverse) (bfgs_update (N:=RN) eps use_inverse) p0 l) in
    (exists M, info l = qn_holds use_inverse n (hd p0 l) M /\ spd n M) /\
    (forall q M M', sized n q ->
       info l = qn_holds use_inverse n (hd p0 l) M -> info (q :: l) = qn_holds use_inverse n q M' ->
       secant_or_skip use_inverse eps (hd p0 l) q M M').
Proof.
  intros n eps ui p0 l He S0 SL info. split.
  - destruct (seq_pair false n eps p0 l He S0 SL) as (H & B & SH & SB & _ & E).
    exists (if ui then H else B). split; [exact (f_equal fst (E ui))|destruct ui; assumption].
  - intros q M M' Sq E1 E2. apply (seq_secant false n eps ui p0 l q M M'); auto.
Qed.

(** The same for DFP. *)
Lemma C38_dfp_pf :
  forall (n : nat) (eps : R) (use_inverse : bool) (p0 : qn_point) (l : list qn_point),
    (0 <= eps)%R -> sized n p0 -> Forall (sized n) l ->
    let info l := fst (qn_after (qn_init_hessian (N:=RN) use_inverse) (dfp_update (N:=RN) eps use_inverse) p0 l) in
    (exists M, info l = qn_holds use_inverse n (hd p0 l) M /\ spd n M) /\
    (forall q M M', sized n q ->
       info l = qn_holds use_inverse n (hd p0 l) M -> info (q :: l) = qn_holds use_inverse n q M' ->
       secant_or_skip use_inverse eps (hd p0 l) q M M').
Proof.
  intros n eps ui p0 l He S0 SL info. split.
  - destruct (seq_pair true n eps p0 l He S0 SL) as (H & B & SH & SB & _ & E).
    exists (if ui then H else B). split; [exact (f_equal fst (E ui))|destruct ui; assumption].
  - intros q M M' Sq E1 E2. apply (seq_secant true n eps ui p0 l q M M'); auto.
Qed.

Lemma solve_inverse : forall n lsolve H B (g : list R), exact_solve n lsolve -> mat n n H -> spd n B -> inverses n H B ->
  length g = n -> lsolve (MatOp n B) g = (mvec H g, successful).
Proof.
  intros n lsolve H B g HE HH HB HI Lg.
  destruct (HE B g HB Lg) as (K1 & K2 & K3).
  destruct (lsolve (MatOp n B) g) as [x r]. cbn [fst snd] in *. subst r. f_equal.
  rewrite <- K3. symmetry. apply (HI x). exact K2.
Qed.

Lemma newton_both : forall n lsolve H B ui p, exact_solve n lsolve -> mat n n H -> spd n B -> inverses n H B ->
  length (pt_g p) = n ->
  newton_step (N:=RN) lsolve (qn_holds ui n p (if ui then H else B)) = (mvec H (pt_g p), successful).
Proof.
  intros n lsolve H B [|] p HE HH HB HI Lg; cbn [qn_holds newton_step].
  - f_equal. apply op_mv_RN.
  - apply solve_inverse; assumption.
Qed.

(** Both modes on the same sequence of points: the two matrices are inverse to
    each other and, with exact linear solves, give the same Newton step. *)
Lemma C39_use_inverse_pf :
  forall (n : nat) (eps : R) (lsolve : linop RN -> list R -> list R * results) (p0 : qn_point) (l : list qn_point),
    (0 <= eps)%R -> exact_solve n lsolve -> sized n p0 -> Forall (sized n) l ->
    forall update, update = bfgs_update (N:=RN) eps \/ update = dfp_update (N:=RN) eps ->
    let info use_inverse := fst (qn_after (qn_init_hessian (N:=RN) use_inverse) (update use_inverse) p0 l) in
    (exists H B, info true = qn_holds true n (hd p0 l) H /\ info false = qn_holds false n (hd p0 l) B /\
                 inverses n H B) /\
    newton_step (N:=RN) lsolve (info true) = newton_step (N:=RN) lsolve (info false).
Proof.
  intros n eps lsolve p0 l He HE S0 SL update HU info.
  assert (K : exists dfp, update = upd dfp eps) by (destruct HU; [exists false|exists true]; assumption).
  destruct K as [dfp ->].
  destruct (seq_pair dfp n eps p0 l He S0 SL) as (H & B & SH & SB & HI & E).
  assert (Sp : sized n (hd p0 l)) by (destruct SL; [exact S0|assumption]).
  assert (ET : info true = qn_holds true n (hd p0 l) H) by exact (f_equal fst (E true)).
  assert (EF : info false = qn_holds false n (hd p0 l) B) by exact (f_equal fst (E false)).
  split; [exists H, B; auto|]. rewrite ET, EF.
  rewrite (newton_both n lsolve H B true), (newton_both n lsolve H B false); auto; try apply SH; apply Sp.
Qed.

(** Two points in the plane with curvature 4 along the step: an update that is
    not skipped. *)
Example C37_bfgs_ex_pf :
  let p := mkPoint [0; 0]%R 0%R [1; 0]%R in
  let q := mkPoint [1; 1]%R 1%R [2; 3]%R in
  sized 2 p /\ sized 2 q /\ (1 / 2 < Rdot (Rsub_v (pt_g q) (pt_g p)) (Rsub_v (pt_y q) (pt_y p)))%R /\
  bfgs_direct (N:=RN) 4%R [1; 3]%R [1; 1]%R [[1; 0]; [0; 1]]%R = [[3/4; 1/4]; [1/4; 11/4]]%R.
Proof.
  cbn. repeat split; try reflexivity; [lra|]. unfold bfgs_direct. cbn. unfold Q2R. cbn.
  repeat match goal with |- (_ :: _) = (_ :: _) => f_equal | |- _ = _ :> R => field end.
Qed.
