(** The compact representation of L-BFGS: what the two triangular solves of
    [direct_operator] compute. *)

From Coq Require Import String List Bool Arith Lia ZArith QArith Qreals Reals Lra Psatz Permutation.
From Verif Require Import Num NumFacts Vec Results Iterate Spec_Vec VecFacts Spec_Lin LinFacts.
From Verif Require Import Search Spec_Search QuasiNewton LinAlg LinAlgFacts BFGS_proofs TrustRegion_proofs LBFGS Spec_LBFGS LBFGSFacts.
Import ListNotations.
Local Open Scope nat_scope.

(** forget that scalars are those of [RN] *)
Ltac rnl := change (T RN) with R in *.

(** ** Pointwise products *)
Definition Rmulv (a b : list R) : list R := vmap2 Rmult a b.
Lemma Rmulv_length : forall a b n, length a = n -> length b = n -> length (Rmulv a b) = n.
Proof. intros a b n Ha Hb. apply vmap2_length_eq; assumption. Qed.
Lemma Rmulv_dot : forall n a b c, length a = n -> length b = n -> length c = n -> Rdot (Rmulv a b) c = Rdot b (Rmulv a c).
Proof.
  induction n as [|n IH]; intros [|x a] [|y b] [|z c] Ha Hb Hc; try discriminate; [reflexivity|].
  cbn. f_equal; [ring|]. cbn in Ha, Hb, Hc; apply IH; lia.
Qed.
Lemma Rmulv_assoc : forall a b c, Rmulv a (Rmulv b c) = Rmulv (Rmulv a b) c.
Proof. induction a as [|x a IH]; intros [|y b] [|z c]; cbn; try reflexivity. f_equal; [ring|apply IH]. Qed.
Lemma Rmulv_inv : forall a x, Forall (fun r => r <> 0%R) a -> length x = length a -> Rmulv (map Rinv a) (Rmulv a x) = x.
Proof.
  intros a x HF. revert x. induction HF as [|r a Hr HF IH]; intros [|y x] L; try discriminate; [reflexivity|].
  cbn. f_equal; [field; exact Hr|]. apply IH. now injection L.
Qed.
Lemma nth_Rmulv : forall a b n i, length a = n -> length b = n -> nth i (Rmulv a b) 0%R = (nth i a 0 * nth i b 0)%R.
Proof.
  induction a as [|x a IH]; intros [|y b] n [|i] Ha Hb; cbn in *; try lra; try (subst; discriminate).
  eapply IH; [reflexivity|]. subst. now injection Hb.
Qed.
Lemma nth_Radd_v : forall a b n i, length a = n -> length b = n -> nth i (Radd_v a b) 0%R = (nth i a 0 + nth i b 0)%R.
Proof.
  induction a as [|x a IH]; intros [|y b] n [|i] Ha Hb; cbn in *; try lra; try (subst; discriminate).
  eapply IH; [reflexivity|]. subst. now injection Hb.
Qed.
Lemma nth_Rscal : forall c a i, nth i (Rscal c a) 0%R = (c * nth i a 0)%R.
Proof. intros c. induction a as [|x a IH]; intros [|i]; cbn; try lra. apply IH. Qed.
Lemma nth_mvec : forall A x i, nth i (mvec A x) 0%R = Rdot (nth i A []) x.
Proof. induction A as [|r A IH]; intros x [|i]; cbn; try reflexivity. apply IH. Qed.
Lemma nth_tmvec : forall n A x i, i < n -> nth i (tmvec n A x) 0%R = Rdot (column i A) x.
Proof.
  intros n A x i Hi. unfold tmvec. rewrite (nth_indep _ 0%R (Rdot (column 0 A) x)) by (rewrite map_length, seq_length; exact Hi).
  rewrite (map_nth (fun j => Rdot (column j A) x)), seq_nth by exact Hi. reflexivity.
Qed.
Lemma nth_column : forall A i j, nth j (column i A) 0%R = nth i (nth j A []) 0%R.
Proof.
  induction A as [|r A IH]; intros i [|j]; cbn; try reflexivity; try (destruct i; reflexivity). apply IH.
Qed.

(** ** Triangular matrices by entries *)
Lemma lower_from_nth : forall A i,
  (forall r, r < length A -> (forall j, i + r < j -> nth j (nth r A []) 0%R = 0%R) /\ nth (i + r) (nth r A []) 0%R <> 0%R) <->
  lower_from i A.
Proof.
  induction A as [|row A IH]; intro i; [cbn; split; [auto|intros _ r Hr; lia]|]. split.
  - intro H. cbn [lower_from]. destruct (H 0 ltac:(cbn; lia)) as [H1 H2]. cbn [nth] in H1, H2. rewrite Nat.add_0_r in H1, H2.
    split; [exact H1|]. split; [exact H2|]. apply IH. intros r Hr. destruct (H (S r) ltac:(cbn; lia)) as [K1 K2].
    cbn [nth] in K1, K2. replace (i + S r) with (S i + r) in * by lia. auto.
  - intros (H1 & H2 & H3) [|r] Hr; cbn [nth].
    + rewrite Nat.add_0_r. auto.
    + apply IH with (r := r) in H3; [|cbn in Hr; lia]. replace (i + S r) with (S i + r) by lia. exact H3.
Qed.
Lemma upper_from_nth : forall A i,
  (forall r, r < length A -> (forall j, j < i + r -> nth j (nth r A []) 0%R = 0%R) /\ nth (i + r) (nth r A []) 0%R <> 0%R) ->
  upper_from i A.
Proof.
  induction A as [|row A IH]; intros i H; [exact I|]. cbn [upper_from].
  destruct (H 0 ltac:(cbn; lia)) as [H1 H2]. cbn [nth] in H1, H2. rewrite Nat.add_0_r in H1, H2.
  split; [exact H1|]. split; [exact H2|]. apply IH. intros r Hr. destruct (H (S r) ltac:(cbn; lia)) as [K1 K2].
  cbn [nth] in K1, K2. replace (i + S r) with (S i + r) in * by lia. auto.
Qed.

Lemma nth_map_in : forall A B (f : A -> B) l i d d', i < length l -> nth i (map f l) d = f (nth i l d').
Proof. intros A B f l i d d' H. rewrite (nth_indep _ d (f d')) by (rewrite map_length; exact H). apply map_nth. Qed.
Lemma nth_vmap2_in : forall A B C (f : A -> B -> C) a b i d da db, i < length a -> i < length b ->
  nth i (vmap2 f a b) d = f (nth i a da) (nth i b db).
Proof.
  induction a as [|x a IH]; intros [|y b] [|i] d da db Ha Hb; cbn in *; try lia; auto. apply IH; lia.
Qed.
Lemma mvec_app : forall A B x, mvec (A ++ B) x = mvec A x ++ mvec B x.
Proof. intros. apply map_app. Qed.
Lemma app_split : forall (x : list R) m k, length x = m + k -> exists a b, x = a ++ b /\ length a = m /\ length b = k /\ a = firstn m x /\ b = skipn m x.
Proof.
  intros x m k L. exists (firstn m x), (skipn m x). rewrite firstn_skipn, firstn_length, skipn_length.
  repeat split; lia.
Qed.

Lemma app_inj_len : forall A (a b c d : list A), length a = length c -> a ++ b = c ++ d -> a = c /\ b = d.
Proof.
  induction a as [|x a IH]; intros b [|y c] d H E; try discriminate H; [auto|].
  cbn in E. injection E as E1 E2. injection H as H. destruct (IH b c d H E2). subst. auto.
Qed.

Section Block.
  Variables (m : nat) (L J : list (list R)) (D : list R).
  Hypothesis HL : mat m m L.
  Hypothesis HJ : mat m m J.
  Hypothesis Jlow : lower_from 0 J.
  Hypothesis LD : length D = m.
  Hypothesis PD : Forall (fun r => (0 < r)%R) D.
  Let sq := map sqrt D.
  Let isq := map Rinv sq.
  Let W := map (fun row => vdiv (N:=RN) (vneg (N:=RN) row) sq : list R) L.
  Definition lowm : list (list R) :=
    map (fun row => row ++ vfull (N:=RN) m 0%R) (diag (N:=RN) sq) ++
    vmap2 (fun row jrow => vdiv (N:=RN) (vneg (N:=RN) row) sq ++ jrow) L J.

  Lemma Lsq : length sq = m. Proof. unfold sq. rewrite map_length. exact LD. Qed.
  Lemma Lisq : length isq = m. Proof. unfold isq. rewrite map_length. exact Lsq. Qed.
  Lemma sq_pos : Forall (fun r => (0 < r)%R) sq.
  Proof.
    unfold sq. apply Forall_forall. intros r Hr. apply in_map_iff in Hr as (d & <- & Hd).
    rewrite Forall_forall in PD. apply sqrt_lt_R0. apply PD. exact Hd.
  Qed.
  Lemma sq_nz : Forall (fun r => r <> 0%R) sq.
  Proof. eapply Forall_impl; [|exact sq_pos]. cbn. intros; lra. Qed.
  Lemma sq_sq : Rmulv sq sq = D.
  Proof.
    unfold sq. clear - PD. induction PD as [|r D Hr HF IH]; [reflexivity|]. cbn. f_equal; [apply sqrt_sqrt; lra|exact (IH HF)].
  Qed.

  Lemma diag_eq : diag (N:=RN) sq = map (fun i => map (fun j => if Nat.eqb i j then nth i sq 0%R else 0%R) (seq 0 m)) (seq 0 m).
  Proof.
    unfold diag. change (@Datatypes.length (T RN) sq) with (@length R sq). rewrite Lsq.
    apply map_ext. intro i. apply map_ext. intro j. cbn. rewrite Q2R_0. reflexivity.
  Qed.
  Lemma diag_mat : mat m m (diag (N:=RN) sq).
  Proof.
    rewrite diag_eq. split; [rewrite map_length, seq_length; reflexivity|]. apply Forall_forall.
    intros r Hr. apply in_map_iff in Hr as (i & <- & _). rewrite map_length, seq_length. reflexivity.
  Qed.
  Lemma diag_nth : forall i j, i < m -> j < m -> nth j (nth i (diag (N:=RN) sq) []) 0%R = if Nat.eqb i j then nth i sq 0%R else 0%R.
  Proof.
    intros i j Hi Hj. rewrite diag_eq. rewrite (nth_map_in _ _ _ _ _ _ 0) by (rewrite seq_length; exact Hi).
    rewrite seq_nth by exact Hi. rewrite (nth_map_in _ _ _ _ _ _ 0) by (rewrite seq_length; exact Hj).
    rewrite seq_nth by exact Hj. reflexivity.
  Qed.
  Lemma list_ext : forall (a b : list R), length a = m -> length b = m -> (forall i, i < m -> nth i a 0%R = nth i b 0%R) -> a = b.
  Proof. intros a b La Lb H. apply (nth_ext _ _ 0%R 0%R); [congruence|]. intros i Hi. apply H. lia. Qed.
  Lemma diag_mv : forall x, length x = m -> mvec (diag (N:=RN) sq) x = Rmulv sq x.
  Proof.
    intros x Hx. apply list_ext.
    - eapply mvec_len. apply diag_mat.
    - apply Rmulv_length; [exact Lsq|exact Hx].
    - intros i Hi. rewrite nth_mvec, (nth_Rmulv _ _ m) by (auto using Lsq).
      rewrite (Rdot_sm m).
      + rewrite (sm_single m _ i Hi).
        * rewrite diag_nth, Nat.eqb_refl by assumption. reflexivity.
        * intros j Hj Hne. rewrite diag_nth by assumption. apply not_eq_sym, Nat.eqb_neq in Hne. rewrite Hne. lra.
      + destruct diag_mat as [K1 K2]. rewrite Forall_forall in K2. apply K2. apply nth_In. rewrite K1. exact Hi.
      + exact Hx.
  Qed.

  Lemma wrow : forall row z : list R, length row = m -> length z = m ->
    Rdot (vdiv (N:=RN) (vneg (N:=RN) row) sq) z = (- Rdot row (Rmulv isq z))%R.
  Proof.
    intros row z. unfold isq. pose proof Lsq as K. revert K. generalize sq. clear.
    revert m z. induction row as [|x row IH]; intros [|m] [|y z] [|q sq] K H1 H2; try discriminate; cbn in *; try lra.
    specialize (IH m z sq ltac:(lia) ltac:(lia) ltac:(lia)). unfold vdiv, vneg in IH. cbn in IH. unfold Rmulv in IH |- *.
    unfold Rdiv in *. etransitivity; [apply f_equal; exact IH|]. ring.
  Qed.
  Lemma wrow_length : forall row : list R, length row = m -> length (vdiv (N:=RN) (vneg (N:=RN) row) sq : list R) = m.
  Proof. intros row H. unfold vdiv, vneg. apply vmap2_length_eq; [rewrite map_length; exact H|exact Lsq]. Qed.

  Lemma low_mat : mat (2 * m) (2 * m) lowm.
  Proof.
    unfold lowm. destruct HL as [L1 L2]. destruct HJ as [J1 J2]. destruct diag_mat as [D1 D2]. split.
    - rewrite app_length, map_length.
      rewrite (vmap2_length_eq _ _ _ _ L J m L1 J1). rnl. lia.
    - apply Forall_app. split.
      + apply Forall_forall. intros r Hr. apply in_map_iff in Hr as (q & <- & Hq). rewrite app_length.
        unfold vfull. rewrite repeat_length. rewrite Forall_forall in D2.
        pose proof (D2 q Hq) as K. rnl. lia.
      + clear - L2 J2 LD. revert J J2. induction L2 as [|r L' Hr L2 IH]; intros J J2; [constructor|].
        destruct J2 as [|q J' Hq J2]; [constructor|]. cbn [vmap2]. constructor; [|apply IH; exact J2].
        rewrite app_length. pose proof (wrow_length r Hr) as K.
        rnl. lia.
  Qed.

  Lemma low_mv : forall z1 z2, length z1 = m -> length z2 = m ->
    mvec lowm (z1 ++ z2) = Rmulv sq z1 ++ Radd_v (Rscal (-1) (mvec L (Rmulv isq z1))) (mvec J z2).
  Proof.
    intros z1 z2 H1 H2. unfold lowm. rewrite mvec_app. f_equal.
    - rewrite <- diag_mv by exact H1. unfold mvec. rewrite map_map. apply map_ext_in. intros r Hr.
      rewrite Rdot_app. 2:{ destruct diag_mat as [_ K]. rewrite Forall_forall in K. rewrite H1. apply K. exact Hr. }
      change (vfull (N:=RN) m 0%R) with (zerov m). rewrite Rdot_0_l. apply Rplus_0_r.
    - destruct HL as [L1 L2]. destruct HJ as [J1 J2]. rewrite <- J1 in L1. clear - L1 L2 J2 H1 LD.
      revert J L1 J2. induction L2 as [|r L' Hr L2 IH]; intros [|q J'] L1 J2; try discriminate L1; [reflexivity|].
      apply Forall_inv in J2 as Hq. apply Forall_inv_tail in J2. cbn [vmap2]. rewrite !mvec_row, Rscal_cons. cbn [Radd_v]. f_equal.
      + rewrite Rdot_app.
        * rewrite wrow by assumption. lra.
        * rewrite H1. apply wrow_length. exact Hr.
      + apply IH; [now injection L1|assumption].
  Qed.

  Lemma low_lower : lower_from 0 lowm.
  Proof.
    apply lower_from_nth. destruct low_mat as [LL _]. rewrite LL. intros r Hr. cbn [Nat.add].
    destruct diag_mat as [D1 D2]. destruct HL as [L1 L2]. destruct HJ as [J1 J2].
    rewrite Forall_forall in D2, L2, J2. unfold lowm.
    destruct (Nat.lt_ge_cases r m) as [Hrm|Hrm].
    - rewrite app_nth1 by (rewrite map_length; rnl; lia).
      rewrite (nth_map_in _ _ _ _ _ _ []) by (rnl; lia).
      assert (Lr : @length R (nth r (diag (N:=RN) sq) []) = m) by (apply D2, nth_In; rnl; lia).
      split.
      + intros j Hj. destruct (Nat.lt_ge_cases j m) as [Hjm|Hjm].
        * refine (eq_trans (app_nth1 _ _ _ _) _); [rnl; lia|].
          refine (eq_trans (diag_nth r j Hrm Hjm) _). replace (Nat.eqb r j) with false by (symmetry; apply Nat.eqb_neq; lia). reflexivity.
        * refine (eq_trans (app_nth2 _ _ _ _) _); [rnl; lia|]. apply repeat_nth0.
      + intro E. assert (E' : nth r sq 0%R = 0%R).
        { refine (eq_trans _ E). symmetry. refine (eq_trans (app_nth1 _ _ _ _) _); [rnl; lia|].
          refine (eq_trans (diag_nth r r Hrm Hrm) _). rewrite Nat.eqb_refl. reflexivity. }
        pose proof sq_nz as K. rewrite Forall_forall in K. apply (K (nth r sq 0%R)); [|exact E']. apply nth_In. rewrite Lsq. exact Hrm.
    - assert (Lm : @length (list R) (map (fun row => row ++ vfull (N:=RN) m 0%R) (diag (N:=RN) sq)) = m) by (rewrite map_length; exact D1).
      assert (ER : nth r lowm [] = (vdiv (N:=RN) (vneg (N:=RN) (nth (r - m) L [])) sq : list R) ++ nth (r - m) J []).
      { unfold lowm. refine (eq_trans (app_nth2 _ _ _ _) _); [rewrite Lm; exact Hrm|]. rewrite Lm.
        exact (nth_vmap2_in _ _ _ (fun row jrow : list R => (vdiv (N:=RN) (vneg (N:=RN) row) sq : list R) ++ jrow) L J (r - m) [] [] [] ltac:(lia) ltac:(lia)). }
      fold lowm. rewrite ER.
      assert (Lw : @length R (vdiv (N:=RN) (vneg (N:=RN) (nth (r - m) L [])) sq) = m).
      { apply wrow_length. apply L2, nth_In. lia. }
      pose proof (proj2 (lower_from_nth J 0) Jlow (r - m) ltac:(lia)) as [K1 K2]. cbn [Nat.add] in K1, K2.
      split.
      + intros j Hj. rewrite app_nth2 by lia. rewrite Lw. apply K1. lia.
      + rewrite app_nth2 by lia. rewrite Lw. exact K2.
  Qed.

  Definition upm : list (list R) :=
    let u := transpose (N:=RN) (2 * m) lowm : list (list R) in
    map (fun r => vneg (N:=RN) r : list R) (firstn m u) ++ skipn m u.
  Let U : list (list R) := transpose (N:=RN) (2 * m) lowm.
  Lemma U_mat : mat (2 * m) (2 * m) U.
  Proof. apply transpose_mat. apply low_mat. Qed.
  Lemma U_nth : forall i j, i < 2 * m -> nth j (nth i U []) 0%R = nth i (nth j lowm []) 0%R.
  Proof.
    intros i j Hi. unfold U, transpose. rewrite (nth_map_in _ _ _ _ _ _ 0) by (rewrite seq_length; exact Hi).
    rewrite seq_nth by exact Hi. cbn [Nat.add nofQ RN]. rewrite Q2R_0. exact (nth_column lowm i j).
  Qed.
  Lemma up_length : length upm = 2 * m.
  Proof.
    unfold upm. fold U. rewrite app_length, map_length, <- app_length, firstn_skipn. apply U_mat.
  Qed.
  Lemma up_upper : upper_from 0 upm.
  Proof.
    apply upper_from_nth. rewrite up_length. intros r Hr. cbn [Nat.add].
    destruct U_mat as [U1 _]. destruct low_mat as [LL _].
    pose proof (proj2 (lower_from_nth lowm 0) low_lower) as LO. rewrite LL in LO. cbn [Nat.add] in LO.
    assert (K : (forall j, j < r -> nth j (nth r U []) 0%R = 0%R) /\ nth r (nth r U []) 0%R <> 0%R).
    { split.
      - intros j Hj. rewrite U_nth by exact Hr. apply (LO j); lia.
      - rewrite U_nth by exact Hr. apply (LO r). exact Hr. }
    unfold upm. fold U.
    assert (Lf : length (map (fun r => vneg (N:=RN) r : list R) (firstn m U)) = m) by (rewrite map_length, firstn_length; lia).
    destruct (Nat.lt_ge_cases r m) as [Hrm|Hrm].
    - rewrite app_nth1 by (rewrite Lf; exact Hrm).
      rewrite (nth_map_in _ _ _ _ _ _ []) by (rewrite firstn_length; lia).
      assert (E : nth r (firstn m U) [] = nth r U []).
      { rewrite <- (firstn_skipn m U) at 2. rewrite app_nth1 by (rewrite firstn_length; lia). reflexivity. }
      rnl. rewrite E, vneg_RN. destruct K as [K1 K2]. split.
      + intros j Hj. rewrite nth_Rscal, K1 by exact Hj. lra.
      + rewrite nth_Rscal. lra.
    - rewrite app_nth2 by (rewrite Lf; exact Hrm). rewrite Lf.
      assert (E : nth (r - m) (skipn m U) [] = nth r U []).
      { rewrite <- (firstn_skipn m U) at 2. rewrite app_nth2 by (rewrite firstn_length; lia). f_equal. rewrite firstn_length. lia. }
      rewrite E. exact K.
  Qed.

  Lemma up_mv : forall p u1 u2, length p = 2 * m -> tmvec (2 * m) lowm p = u1 ++ u2 -> length u1 = m ->
    mvec upm p = Rscal (-1) u1 ++ u2.
  Proof.
    intros p u1 u2 Hp E H1. unfold upm. fold U. rewrite mvec_app.
    assert (EU : mvec U p = u1 ++ u2) by (unfold U; rewrite transpose_mv; exact E).
    assert (K1 : mvec (firstn m U) p = u1).
    { unfold mvec. rewrite <- firstn_map. fold (mvec U p). rewrite EU, firstn_app, H1, Nat.sub_diag, firstn_O, app_nil_r.
      rewrite <- H1. apply firstn_all. }
    assert (K2 : mvec (skipn m U) p = u2).
    { unfold mvec. rewrite <- skipn_map. fold (mvec U p). rewrite EU, skipn_app, H1, Nat.sub_diag.
      rewrite <- H1, skipn_all. reflexivity. }
    rewrite K2. f_equal. rewrite <- K1. unfold mvec, Rscal. rewrite !map_map. apply map_ext. intro r.
    rewrite vneg_RN, Rdot_scal_l. reflexivity.
  Qed.

  (** The solves of steps 5 and 6: they give a solution of the block system
      [-D p1 + L^T p2 = b1], [L p1 - L D^-1 L^T p2 + J J^T p2 = b2]. *)
  Lemma block_solve : forall b1 b2, length b1 = m -> length b2 = m ->
    let p := solve_upper (N:=RN) upm (solve_lower (N:=RN) lowm (b1 ++ b2)) : list R in
    let p1 := firstn m p in let p2 := skipn m p in
    length p = 2 * m /\
    (forall z, length z = m -> (- Rdot (Rmulv D p1) z + Rdot p2 (mvec L z) = Rdot b1 z)%R) /\
    (forall z, length z = m ->
       (Rdot z (mvec L p1) - Rdot p2 (mvec L (Rmulv (map Rinv D) (tmvec m L z))) + Rdot z (mvec J (tmvec m J p2)) = Rdot z b2)%R).
  Proof.
    intros b1 b2 B1 B2 p p1 p2. destruct low_mat as [LL LF].
    destruct (solve_lower_ok lowm [] (b1 ++ b2) ltac:(rewrite app_length, LL; lia) low_lower) as (z & Ez & Lz & Mz).
    cbn [app] in Ez, Mz.
    assert (Lz' : length z = 2 * m) by (rewrite Lz; exact LL).
    destruct (solve_upper_ok upm 0 z [] ltac:(rewrite up_length; exact Lz') eq_refl up_upper) as (Lp & Mp).
    cbn [app] in Mp.
    assert (Epz : p = solve_upper_from (N:=RN) 0 upm z) by exact (f_equal (solve_upper_from (N:=RN) 0 upm) Ez).
    rewrite <- Epz in Lp, Mp. clearbody p.
    rewrite up_length in Lp. split; [exact Lp|].
    assert (Ep : p = p1 ++ p2) by (symmetry; apply firstn_skipn).
    assert (L1 : length p1 = m) by (unfold p1; rewrite firstn_length; apply Nat.min_l; refine (Nat.le_trans _ _ _ _ (Nat.eq_le_incl _ _ (eq_sym Lp))); lia).
    assert (L2 : length p2 = m) by (unfold p2; rewrite skipn_length; refine (eq_trans (f_equal (fun a => a - m) Lp) _); lia).
    clearbody p1 p2.
    destruct (app_split (tmvec (2 * m) lowm p) m m ltac:(rewrite tmvec_length; lia)) as (u1 & u2 & Eu & Lu1 & Lu2 & _).
    rewrite (up_mv p u1 u2 Lp Eu Lu1) in Mp. rewrite <- Mp in Mz.
    rewrite low_mv in Mz by (rewrite ?Rscal_length; assumption).
    assert (LR : length (Rmulv sq (Rscal (-1) u1)) = m) by (apply Rmulv_length; [exact Lsq|rewrite Rscal_length; exact Lu1]).
    apply app_inj_len in Mz; [|exact (eq_trans LR (eq_sym B1))]. destruct Mz as [M1 M2].
    assert (TU : forall z1 z2, length z1 = m -> length z2 = m ->
              (Rdot u1 z1 + Rdot u2 z2 = Rdot p1 (Rmulv sq z1) - Rdot p2 (mvec L (Rmulv isq z1)) + Rdot p2 (mvec J z2))%R).
    { intros z1 z2 H1 H2.
      assert (K : Rdot (tmvec (2 * m) lowm p) (z1 ++ z2) = Rdot p (mvec lowm (z1 ++ z2))).
      { apply (tmvec_adjoint (2 * m)); [apply low_mat|rewrite app_length; lia]. }
      rewrite Eu, Rdot_app in K by congruence. rewrite low_mv in K by assumption. rewrite Ep in K.
      rewrite Rdot_app in K by (rewrite L1; symmetry; apply Rmulv_length; [exact Lsq|exact H1]).
      rewrite Rdot_add_r in K by (rewrite Rscal_length, (mvec_len m m), (mvec_len m m); auto).
      rewrite Rdot_scal_r in K. lra. }
    assert (TU1 : forall z1, length z1 = m -> (Rdot u1 z1 = Rdot p1 (Rmulv sq z1) - Rdot p2 (mvec L (Rmulv isq z1)))%R).
    { intros z1 H1. pose proof (TU z1 (zerov m) H1 (zerov_length m)) as K.
      rewrite Rdot_0_r, mvec_0, Rdot_0_r in K. lra. }
    assert (EJ : u2 = tmvec m J p2).
    { symmetry. apply (tmvec_char m); [exact HJ|exact Lu2|]. intros d Hd. pose proof (TU (zerov m) d (zerov_length m) Hd) as K.
      rewrite Rdot_0_r in K.
      assert (Z1 : Rdot p1 (Rmulv sq (zerov m)) = 0%R).
      { rewrite Rdot_comm, (Rmulv_dot m), Rdot_0_l by (auto using Lsq, zerov_length). reflexivity. }
      assert (Z2 : Rmulv isq (zerov m) = zerov m).
      { apply (Rdot_ext m); [apply Rmulv_length; [exact Lisq|apply zerov_length]|apply zerov_length|].
        intros q Hq. rewrite (Rmulv_dot m), !Rdot_0_l by (auto using Lisq, zerov_length). reflexivity. }
      rewrite Z1, Z2, mvec_0, Rdot_0_r in K. lra. }
    assert (SI : forall q, length q = m -> Rmulv isq (Rmulv sq q) = q).
    { intros q Hq. apply Rmulv_inv; [exact sq_nz|rewrite Lsq; exact Hq]. }
    split.
    - intros q Hq. rewrite <- M1. rewrite (Rmulv_dot m sq) by (rewrite ?Rscal_length; auto using Lsq).
      rewrite Rdot_scal_l. rewrite TU1 by (apply Rmulv_length; [exact Lsq|exact Hq]).
      rewrite SI by exact Hq. rewrite Rmulv_assoc, sq_sq. rewrite (Rmulv_dot m) by auto. lra.
    - intros q Hq. rewrite <- M2, EJ.
      assert (LT : length (tmvec m L q) = m) by apply tmvec_length.
      assert (Li : length (Rmulv isq (tmvec m L q)) = m) by (apply Rmulv_length; [exact Lisq|exact LT]).
      rewrite Rdot_add_r by (rewrite Rscal_length, (mvec_len m m), (mvec_len m m); auto).
      rewrite Rdot_scal_r.
      rewrite <- (tmvec_adjoint m m L q (Rmulv isq (Rscal (-1) u1))) by (first [exact HL | apply Rmulv_length; [exact Lisq|rewrite Rscal_length; exact Lu1]]).
      rewrite (Rdot_comm (tmvec m L q)), (Rmulv_dot m) by (rewrite ?Rscal_length; auto using Lisq).
      rewrite Rdot_scal_l. rewrite TU1 by exact Li.
      assert (E1 : Rmulv sq (Rmulv isq (tmvec m L q)) = tmvec m L q).
      { rewrite Rmulv_assoc. transitivity (Rmulv (Rmulv isq sq) (tmvec m L q)).
        - f_equal. clear. unfold Rmulv. generalize isq sq. intro a0. induction a0 as [|a x IH]; intros [|b y]; cbn; try reflexivity. f_equal; [ring|apply IH].
        - rewrite <- Rmulv_assoc. apply SI. exact LT. }
      rewrite E1. rewrite (Rdot_comm p1), (tmvec_adjoint m m L q p1) by auto.
      assert (E2 : Rmulv isq (Rmulv isq (tmvec m L q)) = Rmulv (map Rinv D) (tmvec m L q)).
      { rewrite Rmulv_assoc. f_equal. rewrite <- sq_sq. unfold isq. pose proof sq_nz as NZ. clear - NZ. unfold Rmulv.
        induction NZ as [|a x Ha NZ IH]; [reflexivity|]. cbn. f_equal; [field; exact Ha|exact IH]. }
      rewrite E2. lra.
  Qed.
End Block.
