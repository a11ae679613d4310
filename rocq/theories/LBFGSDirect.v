(** The direct (compact) L-BFGS operator is the BFGS Hessian recursion. *)

From Coq Require Import String List Bool Arith Lia ZArith QArith Qreals Reals Lra Psatz Permutation.
From Verif Require Import Num NumFacts Vec Results Iterate Spec_Vec VecFacts Spec_Lin LinFacts.
From Verif Require Import Search Spec_Search QuasiNewton LinAlg LinAlgFacts BFGS_proofs TrustRegion_proofs LBFGS Spec_LBFGS LBFGSFacts LBFGSCompact.
Import ListNotations.
Local Open Scope nat_scope.

Definition entry (A : list (list R)) (i j : nat) : R := nth j (nth i A []) 0%R.

Lemma mat_row : forall m n A i, mat m n A -> i < m -> length (nth i A []) = n.
Proof. intros m n A i [L F] Hi. rewrite Forall_forall in F. apply F. apply nth_In. lia. Qed.
Lemma set_at_mat : forall m n (A : list (list R)) i r, mat m n A -> length r = n -> mat m n (set_at i r A).
Proof. intros m n A i r [L F] Hr. split; [rewrite set_at_length; exact L|apply set_at_Forall; assumption]. Qed.

Lemma inv_weights : forall (D : list R) m v, Forall (fun r => (0 < r)%R) D -> length D = m -> length v = m ->
  (0 <= Rdot v (Rmulv (map Rinv D) v))%R /\ (Rdot v (Rmulv (map Rinv D) v) = 0%R -> v = zerov m).
Proof.
  intros D m v PD. revert m v. induction PD as [|r D Hr PD IH]; intros m [|x v] L1 L2.
  - cbn. split; [lra|]. intros _. rewrite <- L2. reflexivity.
  - exfalso. subst m. discriminate.
  - exfalso. subst m. discriminate.
  - destruct m as [|m]; [discriminate|]. destruct (IH m v ltac:(now injection L1) ltac:(now injection L2)) as [K1 K2].
    cbn. fold (Rmulv (map Rinv D) v). assert (P : (0 < / r)%R) by (apply Rinv_0_lt_compat; exact Hr).
    assert (P2 : (0 <= x * (/ r * x))%R).
    { replace (x * (/ r * x))%R with (/ r * (x * x))%R by ring. apply Rmult_le_pos; [lra|apply Rle_0_sqr]. }
    split; [lra|]. intro E. assert (E1 : (x * (/ r * x) = 0)%R) by lra. assert (E2 : Rdot v (Rmulv (map Rinv D) v) = 0%R) by lra.
    unfold zerov. cbn. f_equal; [|exact (K2 E2)].
    replace (x * (/ r * x))%R with (/ r * (x * x))%R in E1 by ring. apply Rmult_integral in E1 as [E1|E1]; [lra|]. nra.
Qed.

Section Dir.
  Variables (m n : nat).
  Hypothesis Hm : 0 < m.

  Definition dir_ok (ps : list (list R * list R)) (st : dir_state RN) : Prop :=
    let k := length ps in
    ld_index st = Z.of_nat k /\
    buffer m k [] (sof n ps) (ld_y_diff st) /\ mat m n (ld_y_diff st) /\
    buffer m k [] (dof n ps) (ld_grad_diff st) /\ mat m n (ld_grad_diff st) /\
    mat m m (ld_cross st) /\ mat m m (ld_gram st) /\ length (ld_inner st : list R) = m /\
    (forall t u, t < m -> u < m ->
       entry (ld_cross st) (pos m k t) (pos m k u) = if Nat.ltb t u then Rdot (sof n ps t) (dof n ps u) else 0%R) /\
    (forall t, t < m -> nth (pos m k t) (ld_inner st : list R) 0%R = if Nat.ltb t k then Rdot (sof n ps t) (dof n ps t) else 1%R) /\
    (forall t u, t < m -> u < m ->
       entry (ld_gram st) (pos m k t) (pos m k u) =
       (Rdot (sof n ps t) (sof n ps u) + if Nat.eqb t u && Nat.leb k t then 1 else 0)%R).

  Lemma sof_nil : forall t, sof n [] t = zerov n. Proof. intros [|t]; reflexivity. Qed.
  Lemma dof_nil : forall t, dof n [] t = zerov n. Proof. intros [|t]; reflexivity. Qed.

  Lemma repeat_mat : forall a b (v : list R), length v = b -> mat a b (repeat v a).
  Proof.
    intros a b v L. split; [apply repeat_length|]. apply Forall_forall. intros r Hr. apply repeat_spec in Hr. subst. reflexivity.
  Qed.
  Lemma nth_repeat_in : forall A (v d : A) k i, i < k -> nth i (repeat v k) d = v.
  Proof. intros A v d k i H. apply (repeat_spec k v). apply nth_In. rewrite repeat_length. exact H. Qed.

  Lemma identity_entry : forall i j, i < m -> j < m -> entry (identity_mat (N:=RN) m) i j = if Nat.eqb i j then 1%R else 0%R.
  Proof.
    intros i j Hi Hj. unfold entry, identity_mat, unit_row.
    rewrite (nth_map_in _ _ _ _ _ _ 0) by (rewrite seq_length; exact Hi). rewrite seq_nth by exact Hi.
    rewrite (nth_map_in _ _ _ _ _ _ 0) by (rewrite seq_length; exact Hj). rewrite seq_nth by exact Hj.
    cbn [Nat.add nofQ RN]. rewrite Q2R_0, Q2R_1. reflexivity.
  Qed.

  Lemma dir_init_ok : dir_ok [] (mkDir (N:=RN) 0 (repeat (zerov n) m) (repeat (zerov n) m)
      (repeat (zerov m) m) (repeat 1%R m) (identity_mat (N:=RN) m)).
  Proof.
    unfold dir_ok. cbn [ld_index ld_y_diff ld_grad_diff ld_cross ld_gram ld_inner length].
    split; [reflexivity|].
    split; [eapply buffer_ext; [|apply buffer_repeat; exact Hm]; intros t Ht; symmetry; apply sof_nil|].
    split; [apply repeat_mat; apply zerov_length|].
    split; [eapply buffer_ext; [|apply buffer_repeat; exact Hm]; intros t Ht; symmetry; apply dof_nil|].
    split; [apply repeat_mat; apply zerov_length|].
    split; [apply repeat_mat; apply zerov_length|].
    split; [apply identity_spd|]. split; [apply repeat_length|]. split; [|split].
    - intros t u Ht Hu. unfold entry. rewrite nth_repeat_in by (apply pos_lt; exact Hm).
      unfold zerov at 1. rewrite repeat_nth0. rewrite sof_nil, Rdot_0_l. destruct (Nat.ltb t u); reflexivity.
    - intros t Ht. apply nth_repeat_in. apply pos_lt. exact Hm.
    - intros t u Ht Hu. rewrite identity_entry by (apply pos_lt; exact Hm). rewrite sof_nil, Rdot_0_l.
      cbn [Nat.leb]. rewrite andb_true_r. destruct (Nat.eqb t u) eqn:E.
      + apply Nat.eqb_eq in E. subst. rewrite Nat.eqb_refl. lra.
      + replace (Nat.eqb (pos m 0 t) (pos m 0 u)) with false; [lra|]. symmetry. apply Nat.eqb_neq. intro K.
        apply pos_inj in K; try assumption. apply Nat.eqb_neq in E. contradiction.
  Qed.

  Lemma dir_update_ok : forall ps st inner s d, dir_ok ps st -> length s = n -> length d = n ->
    dir_ok ((s, d) :: ps) (dir_update (N:=RN) m inner d s st).
  Proof.
    intros ps st inner s d (E & By & My & Bg & Mg & Mc & MG & Li & Hc & Hi & HG) Ls Ld.
    set (k := length ps) in *.
    assert (By' : buffer m (S k) [] (sof n ((s, d) :: ps)) (set_at (slot m (Z.of_nat k)) s (ld_y_diff st))).
    { eapply buffer_ext; [|apply buffer_set; [exact Hm|exact By]]. intros [|t] Ht; reflexivity. }
    assert (Bg' : buffer m (S k) [] (dof n ((s, d) :: ps)) (set_at (slot m (Z.of_nat k)) d (ld_grad_diff st))).
    { eapply buffer_ext; [|apply buffer_set; [exact Hm|exact Bg]]. intros [|t] Ht; reflexivity. }
    assert (PN : forall t, S t < m -> slot m (Z.of_nat k) <> pos m k t).
    { intros t Ht. apply not_eq_sym, pos_not_next; assumption. }
    assert (SL : slot m (Z.of_nat k) < m) by (apply slot_lt; exact Hm).
    unfold dir_update. rewrite E. rewrite !mat_mv_RN, !vdot_RN.
    assert (Eg : nth (slot m (Z.of_nat k)) (set_at (slot m (Z.of_nat k)) d (ld_grad_diff st)) [] = d).
    { apply nth_set_same. destruct Bg as [Lg _]. rnl. lia. }
    assert (Ey : nth (slot m (Z.of_nat k)) (set_at (slot m (Z.of_nat k)) s (ld_y_diff st)) [] = s).
    { apply nth_set_same. destruct By as [Ly _]. rnl. lia. }
    rnl. rewrite Eg, Ey. clear Eg Ey.
    set (sl := slot m (Z.of_nat k)) in *.
    set (yh := set_at sl s (ld_y_diff st) : list (list R)) in *.
    set (gh := set_at sl d (ld_grad_diff st) : list (list R)) in *.
    set (row := mvec (ld_grad_diff st) s).
    assert (Lrow : length row = m) by (unfold row; rewrite mvec_length; apply Mg).
    set (ci := mvec yh s).
    assert (Myh : mat m n yh) by (apply set_at_mat; assumption).
    assert (Lci : length ci = m) by (unfold ci; rewrite mvec_length; apply Myh).
    unfold dir_ok. cbn [ld_index ld_y_diff ld_grad_diff ld_cross ld_gram ld_inner length nofQ RN]. fold k. rewrite Q2R_0.
    split; [lia|]. split; [exact By'|]. split; [exact Myh|]. split; [exact Bg'|].
    split; [apply set_at_mat; assumption|].
    assert (M1 : mat m m (set_at sl row (ld_cross st))) by (apply set_at_mat; assumption).
    assert (M2 : mat m m (set_at sl ci (ld_gram st))) by (apply set_at_mat; assumption).
    split; [|split; [|split; [|split; [|split]]]].
    - destruct M1 as [A1 A2]. split; [rewrite map_length; exact A1|]. apply Forall_forall. intros r Hr.
      apply in_map_iff in Hr as (q & <- & Hq). rewrite set_at_length. rewrite Forall_forall in A2. apply A2. exact Hq.
    - destruct M2 as [A1 A2]. split; [apply vmap2_length_eq; assumption|].
      clear - A2. revert A2. generalize ci (set_at sl ci (ld_gram st)). clear. intros c l. revert c.
      induction l as [|r l IH]; intros [|x c] F; cbn; constructor; auto.
      + rewrite set_at_length. apply Forall_inv in F. exact F.
      + apply IH. apply Forall_inv_tail in F. exact F.
    - rewrite set_at_length. exact Li.
    - intros t u Ht Hu. unfold entry.
      rewrite (nth_map_in _ _ _ _ _ _ []) by (destruct M1 as [A1 _]; rnl; rewrite A1; apply pos_lt; exact Hm).
      destruct u as [|u].
      + rewrite (pos_S_0 m Hm). fold sl. etransitivity; [apply nth_set_same|].
        { pose proof (mat_row m m _ (pos m (S k) t) M1 (pos_lt m Hm _ _)) as K. rnl. lia. }
        destruct t; reflexivity.
      + rewrite (pos_S_S m Hm). etransitivity; [apply nth_set_other; exact (PN u Hu)|].
        destruct t as [|t].
        * rewrite (pos_S_0 m Hm). fold sl. rnl. rewrite nth_set_same by (destruct Mc as [A1 _]; lia).
          unfold row. rewrite nth_mvec. destruct Bg as [_ Bg]. rewrite Bg by lia. cbn. apply Rdot_comm.
        * rewrite (pos_S_S m Hm). rnl. rewrite nth_set_other by (apply PN; exact Ht).
          exact (Hc t u ltac:(lia) ltac:(lia)).
    - intros [|t] Ht.
      + rewrite (pos_S_0 m Hm). fold sl. rewrite nth_set_same by (rnl; lia). cbn. apply Rdot_comm.
      + rewrite (pos_S_S m Hm). rewrite nth_set_other by (apply PN; exact Ht). exact (Hi t ltac:(lia)).
    - intros t u Ht Hu. unfold entry.
      assert (NC : nth (pos m (S k) t) ci 0%R = Rdot (sof n ((s, d) :: ps) t) s).
      { unfold ci. rewrite nth_mvec. destruct By' as [_ B']. rewrite B' by exact Ht. reflexivity. }
      assert (ER : nth (pos m (S k) t) (vmap2 (fun (x : RN) (row0 : list RN) => set_at sl x row0) ci (set_at sl ci (ld_gram st))) [] =
                   set_at sl (nth (pos m (S k) t) ci 0%R) (nth (pos m (S k) t) (set_at sl ci (ld_gram st)) [])).
      { apply nth_vmap2_in; [rewrite Lci; apply pos_lt; exact Hm|destruct M2 as [A1 _]; rnl; rewrite A1; apply pos_lt; exact Hm]. }
      rnl. rewrite ER, NC. destruct u as [|u].
      + rewrite (pos_S_0 m Hm). fold sl. rewrite nth_set_same.
        * destruct t as [|t]; cbn; lra.
        * rewrite (mat_row m m _ _ M2 (pos_lt m Hm _ _)). exact SL.
      + rewrite (pos_S_S m Hm). rewrite nth_set_other by (apply PN; exact Hu).
        destruct t as [|t].
        * rewrite (pos_S_0 m Hm). fold sl. rewrite nth_set_same by (destruct MG as [A1 _]; lia).
          unfold ci. rewrite nth_mvec. destruct By' as [_ B']. rewrite <- (pos_S_S m Hm k u), B' by exact Hu. cbn [Nat.eqb andb].
          rewrite Rdot_comm. change (sof n ((s, d) :: ps) 0) with s. lra.
        * rewrite (pos_S_S m Hm). rewrite nth_set_other by (apply PN; exact Ht). exact (HG t u ltac:(lia) ltac:(lia)).
  Qed.

  (** ** The operator *)
  Variables (ps : list (list R * list R)) (st : dir_state RN).
  Hypothesis Hok : dir_ok ps st.
  Hypothesis HF : Forall (curved n) ps.
  Let k := length ps.
  Let p := pos m k.
  Let s := sof n ps.
  Let d := dof n ps.

  Lemma s_length : forall t, length (s t) = n.
  Proof.
    intro t. unfold s, sof. destruct (nth_in_or_default t (map fst ps) (zerov n)) as [H|H].
    - apply in_map_iff in H as (q & E & Hq). rewrite Forall_forall in HF. rewrite <- E. apply (HF q Hq).
    - rewrite H. apply zerov_length.
  Qed.
  Lemma d_length : forall t, length (d t) = n.
  Proof.
    intro t. unfold d, dof. destruct (nth_in_or_default t (map snd ps) (zerov n)) as [H|H].
    - apply in_map_iff in H as (q & E & Hq). rewrite Forall_forall in HF. rewrite <- E. apply (HF q Hq).
    - rewrite H. apply zerov_length.
  Qed.
  Lemma sd_nth : forall t, t < k -> exists q, In q ps /\ nth t ps ([], []) = q /\ s t = fst q /\ d t = snd q.
  Proof.
    intros t Ht. exists (nth t ps ([], [])). split; [apply nth_In; exact Ht|]. split; [reflexivity|]. unfold s, d, sof, dof.
    split; apply nth_map_in; exact Ht.
  Qed.
  Lemma sd_pos : forall t, t < k -> (0 < Rdot (s t) (d t))%R.
  Proof.
    intros t Ht. destruct (sd_nth t Ht) as (q & Hq & _ & -> & ->). rewrite Forall_forall in HF.
    rewrite Rdot_comm. apply (HF q Hq).
  Qed.
  Lemma s_old : forall t, k <= t -> s t = zerov n.
  Proof. intros t Ht. unfold s, sof. apply nth_overflow. rewrite map_length. exact Ht. Qed.
  Lemma d_old : forall t, k <= t -> d t = zerov n.
  Proof. intros t Ht. unfold d, dof. apply nth_overflow. rewrite map_length. exact Ht. Qed.

  Lemma plt : forall t, p t < m. Proof. intro t. apply pos_lt. exact Hm. Qed.
  Lemma sum_p : forall f, sm m f = sm m (fun t => f (p t)).
  Proof. intro f. apply sm_perm; [intros; apply plt|intros t u Ht Hu E; eapply pos_inj; eauto]. Qed.

  Let L : list (list R) := ld_cross st.
  Let G : list (list R) := ld_gram st.
  Let D : list R := ld_inner st.
  Let Yh : list (list R) := ld_grad_diff st.
  Let Sh : list (list R) := ld_y_diff st.
  Let HL : mat m m L. Proof. apply Hok. Qed.
  Let HG : mat m m G. Proof. apply Hok. Qed.
  Let LD : length D = m. Proof. apply Hok. Qed.
  Let HY : mat m n Yh. Proof. apply Hok. Qed.
  Let HS : mat m n Sh. Proof. apply Hok. Qed.
  Let eL : forall t u, t < m -> u < m -> entry L (p t) (p u) = if Nat.ltb t u then Rdot (s t) (d u) else 0%R.
  Proof. apply Hok. Qed.
  Let eD : forall t, t < m -> nth (p t) D 0%R = if Nat.ltb t k then Rdot (s t) (d t) else 1%R.
  Proof. apply Hok. Qed.
  Let eG : forall t u, t < m -> u < m -> entry G (p t) (p u) = (Rdot (s t) (s u) + if Nat.eqb t u && Nat.leb k t then 1 else 0)%R.
  Proof. apply Hok. Qed.
  Let eY : forall t, t < m -> nth (p t) Yh [] = d t.
  Proof. destruct Hok as (_ & _ & _ & [_ H] & _). exact H. Qed.
  Let eS : forall t, t < m -> nth (p t) Sh [] = s t.
  Proof. destruct Hok as (_ & [_ H] & _). exact H. Qed.

  Lemma D_entry_pos : forall t, t < m -> (0 < nth (p t) D 0)%R.
  Proof.
    intros t Ht. rewrite eD by exact Ht. destruct (Nat.ltb t k) eqn:E; [|lra]. apply Nat.ltb_lt in E. apply sd_pos. exact E.
  Qed.
  Lemma D_all_pos : Forall (fun r => (0 < r)%R) D.
  Proof.
    apply Forall_forall. intros r Hr. apply (In_nth _ _ 0%R) in Hr as (i & Hi & <-).
    destruct (pos_surj m Hm k i ltac:(lia)) as (t & Ht & <-). apply D_entry_pos. exact Ht.
  Qed.
  Lemma safe_id : safe_inner (N:=RN) st = D.
  Proof.
    unfold safe_inner. fold D. pose proof D_all_pos as K. clear - K. revert K. generalize D. clear. intros D K. induction K as [|r l Hr K IH]; [reflexivity|].
    cbn [map]. f_equal; [|exact IH]. cbn. rewrite Q2R_0. destruct (Reqb r 0) eqn:E; [|reflexivity].
    apply Reqb_true in E. lra.
  Qed.

  (** matrix-vector products by age *)
  Lemma mv_entry : forall A x i, mat m m A -> length x = m -> i < m -> nth i (mvec A x) 0%R = sm m (fun j => entry A i j * nth j x 0)%R.
  Proof.
    intros A x i HA Hx Hi. rewrite nth_mvec. apply Rdot_sm; [eapply mat_row; eauto|exact Hx].
  Qed.
  Lemma tmv_entry : forall A x i, mat m m A -> length x = m -> i < m -> nth i (tmvec m A x) 0%R = sm m (fun j => entry A j i * nth j x 0)%R.
  Proof.
    intros A x i HA Hx Hi. rewrite nth_tmvec by exact Hi. rewrite (Rdot_sm m).
    - apply sml_ext. intros j _. rewrite nth_column. reflexivity.
    - unfold column. rewrite map_length. apply HA.
    - exact Hx.
  Qed.
  Lemma hist_t : forall (A : list (list R)) (h : nat -> list R) x z, mat m n A -> (forall t, t < m -> nth (p t) A [] = h t) ->
    length x = m -> length z = n -> Rdot (tmvec n A x) z = sm m (fun t => nth (p t) x 0 * Rdot (h t) z)%R.
  Proof.
    intros A h x z HA Hh Hx Hz. rewrite (tmvec_adjoint m n) by assumption.
    rewrite (Rdot_sm m) by (auto; rewrite mvec_length; apply HA). rewrite sum_p. apply sml_ext. intros t Ht. apply in_seq in Ht.
    rewrite nth_mvec, Hh by lia. reflexivity.
  Qed.

  Lemma Gx : forall x t, length x = m -> t < m ->
    nth (p t) (mvec G x) 0%R = (Rdot (s t) (tmvec n Sh x) + if Nat.leb k t then nth (p t) x 0 else 0)%R.
  Proof.
    intros x t Hx Ht. rewrite mv_entry by (auto using plt). rewrite sum_p.
    rewrite (Rdot_comm (s t)), (hist_t Sh s) by (auto using s_length).
    transitivity (sm m (fun u => nth (p u) x 0 * Rdot (s u) (s t) + (if Nat.eqb t u && Nat.leb k t then nth (p u) x 0 else 0)))%R.
    - apply sml_ext. intros u Hu. apply in_seq in Hu. rewrite eG by lia. rewrite (Rdot_comm (s u)).
      destruct (Nat.eqb t u && Nat.leb k t); lra.
    - rewrite sml_add. f_equal. rewrite (sm_single m _ t Ht).
      + rewrite Nat.eqb_refl. reflexivity.
      + intros u Hu Hne. replace (Nat.eqb t u) with false by (symmetry; apply Nat.eqb_neq; auto). reflexivity.
  Qed.

  Lemma xGx : forall x, length x = m ->
    Rdot x (mvec G x) = (Rdot (tmvec n Sh x) (tmvec n Sh x) + sm m (fun t => if Nat.leb k t then nth (p t) x 0 * nth (p t) x 0 else 0))%R.
  Proof.
    intros x Hx. rewrite (Rdot_sm m) by (auto; rewrite mvec_length; apply HG). rewrite sum_p.
    rewrite (hist_t Sh s x (tmvec n Sh x)) by (auto; apply tmvec_length). rewrite <- sml_add.
    apply sml_ext. intros t Ht. apply in_seq in Ht. rewrite Gx by (auto; lia). destruct (Nat.leb k t); lra.
  Qed.
  Lemma G_sym : symmetric m G.
  Proof.
    intros x y Hx Hy.
    assert (K : forall x y, length x = m -> length y = m -> Rdot x (mvec G y) =
      (Rdot (tmvec n Sh x) (tmvec n Sh y) + sm m (fun t => if Nat.leb k t then nth (p t) x 0 * nth (p t) y 0 else 0))%R).
    { clear x y Hx Hy. intros x y Hx Hy. rewrite (Rdot_sm m) by (auto; rewrite mvec_length; apply HG). rewrite sum_p.
      rewrite (hist_t Sh s x (tmvec n Sh y)) by (auto; apply tmvec_length). rewrite <- sml_add.
      apply sml_ext. intros t Ht. apply in_seq in Ht. rewrite Gx by (auto; lia). destruct (Nat.leb k t); lra. }
    rewrite (Rdot_comm (mvec G x)), !K by assumption. rewrite Rdot_comm. f_equal. apply sml_ext. intros t _.
    destruct (Nat.leb k t); lra.
  Qed.

  Variable g : R.
  Hypothesis Hg : (0 < g)%R.
  Hypothesis Eg : direct_gamma (N:=RN) m st = g.
  Let iD := map Rinv D.
  Let LiD : length iD = m. Proof. unfold iD. rewrite map_length. exact LD. Qed.
  Let Q : list (list R) := J_square (N:=RN) m st.

  Lemma vdiv_iD : forall row : list R, length row = m -> vdiv (N:=RN) row D = Rmulv iD row.
  Proof.
    intros row. unfold iD. clear - LD. revert LD. generalize m D. clear.
    induction row as [|x row IH]; intros m0 [|q D] L1 L2; try reflexivity; try (subst; discriminate).
    cbn. f_equal; [unfold Rdiv; ring|]. destruct m0 as [|m1]; [discriminate L1|]. apply (IH m1); [now injection L1|now injection L2].
  Qed.

  Lemma Q_mat : mat m m Q.
  Proof.
    unfold Q, J_square. rewrite safe_id, Eg. apply madd_mat.
    - rewrite mscale_eq. apply mapscal_mat. exact HG.
    - destruct HL as [L1 L2]. split; [rewrite map_length; exact L1|]. apply Forall_forall. intros r Hr.
      apply in_map_iff in Hr as (q & <- & Hq). rewrite mat_mv_RN, mvec_length. exact L1.
  Qed.
  Lemma Q_mv : forall x, length x = m -> mvec Q x = Radd_v (Rscal g (mvec G x)) (mvec L (Rmulv iD (tmvec m L x))).
  Proof.
    intros x Hx. unfold Q, J_square. rewrite safe_id, Eg. rewrite (madd_mv m m).
    - rewrite mscale_eq, mapscal_mv. f_equal. fold L. unfold mvec at 1. rewrite map_map. apply map_ext_in. intros row Hr.
      rewrite mat_mv_RN. destruct HL as [L1 L2]. rewrite Forall_forall in L2.
      rewrite vdiv_iD by (apply L2; exact Hr).
      assert (Lr : length row = m) by (apply L2; exact Hr).
      rewrite Rdot_comm. rewrite <- (tmvec_adjoint m m) by (auto using Rmulv_length).
      rewrite <- (Rmulv_dot m) by (auto; apply tmvec_length). apply Rdot_comm.
    - rewrite mscale_eq. apply mapscal_mat. exact HG.
    - destruct HL as [L1 L2]. split; [rewrite map_length; exact L1|]. apply Forall_forall. intros r Hr.
      apply in_map_iff in Hr as (q & <- & Hq). rewrite mat_mv_RN, mvec_length. exact L1.
  Qed.

  Lemma Q_form : forall x y, length x = m -> length y = m ->
    Rdot x (mvec Q y) = (g * Rdot x (mvec G y) + Rdot (tmvec m L x) (Rmulv iD (tmvec m L y)))%R.
  Proof.
    intros x y Hx Hy. rewrite Q_mv by exact Hy.
    assert (Li : length (Rmulv iD (tmvec m L y)) = m) by (apply Rmulv_length; [exact LiD|apply tmvec_length]).
    rewrite Rdot_add_r by (rewrite Rscal_length, !mvec_length; destruct HG as [A _]; destruct HL as [B _]; congruence).
    rewrite Rdot_scal_r. rewrite <- (tmvec_adjoint m m L x) by assumption. reflexivity.
  Qed.

  Lemma iD_pos : forall v, length v = m -> (0 <= Rdot v (Rmulv iD v))%R /\ (Rdot v (Rmulv iD v) = 0%R -> v = zerov m).
  Proof. intros v Hv. apply inv_weights; auto. exact D_all_pos. Qed.

  Lemma Q_spd : spd m Q.
  Proof.
    split; [exact Q_mat|]. split.
    - intros x y Hx Hy. rewrite (Rdot_comm (mvec Q x)), !Q_form by assumption.
      rewrite <- (G_sym y x Hy Hx), (Rdot_comm (mvec G y)). f_equal.
      rewrite <- (Rmulv_dot m) by (auto using tmvec_length). apply Rdot_comm.
    - intros x Hx Hnz. rewrite Q_form by assumption.
      destruct (iD_pos (tmvec m L x) (tmvec_length _ _ _)) as [P1 P2].
      rewrite xGx by exact Hx. set (w := tmvec n Sh x) in *.
      set (old := sm m (fun t => if Nat.leb k t then nth (p t) x 0 * nth (p t) x 0 else 0)%R).
      assert (O1 : forall t, In t (seq 0 m) -> (0 <= if Nat.leb k t then nth (p t) x 0 * nth (p t) x 0 else 0)%R).
      { intros t _. destruct (Nat.leb k t); [apply Rle_0_sqr|lra]. }
      pose proof (sml_nonneg _ _ O1) as O2. fold old in O2. pose proof (Rdot_pos w) as W.
      assert (GP : (0 <= g * (Rdot w w + old))%R) by (apply Rmult_le_pos; lra).
      destruct (Req_dec (g * (Rdot w w + old) + Rdot (tmvec m L x) (Rmulv iD (tmvec m L x))) 0) as [E|E]; [|lra].
      exfalso. apply Hnz.
      assert (Z1 : (g * (Rdot w w + old) = 0)%R) by lra.
      assert (Z2 : tmvec m L x = zerov m) by (apply P2; lra).
      apply Rmult_integral in Z1 as [Z1|Z1]; [lra|].
      assert (Zw : w = zerov n).
      { rewrite (Rdot_0_inv w) by lra. unfold w. rewrite tmvec_length. reflexivity. }
      assert (Zold : forall t, t < m -> k <= t -> nth (p t) x 0%R = 0%R).
      { intros t Ht Hk. pose proof (sml_0_inv _ _ O1 ltac:(unfold old in *; lra) t ltac:(apply in_seq; lia)) as K. cbn beta in K.
        rewrite (proj2 (Nat.leb_le k t) Hk) in K. nra. }
      assert (Zall : forall j t, t < m -> m - t <= j -> nth (p t) x 0%R = 0%R).
      { induction j as [|j IH]; intros t Ht Hj; [lia|]. destruct (Nat.le_gt_cases k t) as [Hk|Hk]; [apply Zold; assumption|].
        assert (K1 : sm m (fun u => nth (p u) x 0 * Rdot (s u) (d t))%R = 0%R).
        { rewrite <- (hist_t Sh s x (d t)) by (auto using d_length). fold w. rewrite Zw. apply Rdot_0_l. }
        assert (K2 : sm m (fun u => (if Nat.ltb u t then Rdot (s u) (d t) else 0) * nth (p u) x 0)%R = 0%R).
        { transitivity (nth (p t) (tmvec m L x) 0%R).
          - rewrite tmv_entry by (auto using plt). rewrite (sum_p (fun j => entry L j (p t) * nth j x 0)%R). apply sml_ext. intros u Hu. apply in_seq in Hu.
            rewrite eL by lia. reflexivity.
          - rewrite Z2. unfold zerov. apply repeat_nth0. }
        assert (K3 : sm m (fun u => nth (p u) x 0 * Rdot (s u) (d t) - (if Nat.ltb u t then Rdot (s u) (d t) else 0) * nth (p u) x 0)%R = 0%R).
        { rewrite sml_sub, K1, K2. lra. }
        rewrite (sm_single m _ t Ht) in K3.
        - rewrite Nat.ltb_irrefl in K3. pose proof (sd_pos t Hk).
          assert (nth (p t) x 0 * Rdot (s t) (d t) = 0)%R as K4 by lra. apply Rmult_integral in K4. lra.
        - intros u Hu Hne. destruct (Nat.ltb u t) eqn:E1; [lra|]. apply Nat.ltb_ge in E1.
          rewrite (IH u Hu) by lia. lra. }
      apply (nth_ext _ _ 0%R 0%R); [rewrite Hx, zerov_length; reflexivity|]. intros i Hi.
      destruct (pos_surj m Hm k i ltac:(lia)) as (t & Ht & <-). fold (p t). rewrite (Zall m t Ht) by lia.
      unfold zerov. rewrite repeat_nth0. reflexivity.
  Qed.

  (** ** Solving, and the recursion *)
  Variable v : list R.
  Hypothesis Lv : length v = n.
  Let J : list (list R) := J_factor (N:=RN) m st.
  Let q : list R := solve_upper (N:=RN) (upm m L J D) (solve_lower (N:=RN) (lowm m L J D) (mvec Yh v ++ Rscal g (mvec Sh v))).
  Let p1 := firstn m q.
  Let p2 := skipn m q.
  Let a t := nth (p t) p1 0%R.
  Let b t := nth (p t) p2 0%R.

  Lemma eqs : length p1 = m /\ length p2 = m /\
    (forall t, t < m -> (- ((if Nat.ltb t k then Rdot (s t) (d t) else 1) * a t) + sm t (fun u => Rdot (s u) (d t) * b u) = Rdot (d t) v)%R) /\
    (forall t, t < m -> (sml (seq (S t) (m - S t)) (fun u => Rdot (s t) (d u) * a u) +
        g * (sm m (fun u => b u * Rdot (s t) (s u)) + if Nat.leb k t then b t else 0) = g * Rdot (s t) v)%R).
  Proof.
    destruct (cholesky_sym_ok m Q Q_spd) as (J1 & J2 & J3). change (cholesky (N:=RN) m Q) with J in J1, J2, J3.
    assert (LY : length (mvec Yh v) = m) by (rewrite mvec_length; apply HY).
    assert (LS : length (Rscal g (mvec Sh v)) = m) by (rewrite Rscal_length, mvec_length; apply HS).
    destruct (block_solve m L J D HL J1 J2 LD D_all_pos _ _ LY LS) as (Lq & B1 & B2).
    change (@length R q = 2 * m) in Lq. 
    change (forall z, length z = m -> (- Rdot (Rmulv D p1) z + Rdot p2 (mvec L z) = Rdot (mvec Yh v) z)%R) in B1.
    change (forall z, length z = m ->
       (Rdot z (mvec L p1) - Rdot p2 (mvec L (Rmulv (map Rinv D) (tmvec m L z))) + Rdot z (mvec J (tmvec m J p2)) = Rdot z (Rscal g (mvec Sh v)))%R) in B2.
    assert (L1 : length p1 = m) by (unfold p1; rewrite firstn_length; lia).
    assert (L2 : length p2 = m) by (unfold p2; rewrite skipn_length; lia).
    split; [exact L1|]. split; [exact L2|].
    assert (V1 : Radd_v (Rscal (-1) (Rmulv D p1)) (tmvec m L p2) = mvec Yh v).
    { assert (LM : length (Rmulv D p1) = m) by (apply Rmulv_length; assumption).
      apply (Rdot_ext m); [apply Radd_v_length; [rewrite Rscal_length; exact LM|apply tmvec_length]|exact LY|].
      intros z Hz. rewrite <- B1 by exact Hz. rewrite Rdot_add_l by (rewrite Rscal_length, LM, tmvec_length; reflexivity).
      rewrite Rdot_scal_l, (tmvec_adjoint m m) by assumption. lra. }
    assert (V2 : Radd_v (mvec L p1) (Rscal g (mvec G p2)) = Rscal g (mvec Sh v)).
    { assert (LL : length (mvec L p1) = m) by (rewrite mvec_length; apply HL).
      assert (LG : length (mvec G p2) = m) by (rewrite mvec_length; apply HG).
      apply (Rdot_ext m); [apply Radd_v_length; [exact LL|rewrite Rscal_length; exact LG]|exact LS|].
      intros z Hz. rewrite (Rdot_comm (Rscal g (mvec Sh v))). rewrite <- (B2 z Hz). rewrite J3 by exact L2. rewrite Q_form by assumption.
      rewrite Rdot_comm, Rdot_add_r, Rdot_scal_r by (rewrite Rscal_length; congruence).
      rewrite <- (tmvec_adjoint m m L p2) by (auto using Rmulv_length, tmvec_length).
      fold iD. rewrite <- (Rmulv_dot m iD (tmvec m L p2) (tmvec m L z)) by (auto using tmvec_length).
      rewrite (Rdot_comm (tmvec m L z)). lra. }
    split.
    - intros t Ht. assert (E : nth (p t) (mvec Yh v) 0%R = Rdot (d t) v) by (rewrite nth_mvec, eY by exact Ht; reflexivity).
      rewrite <- E, <- V1. rewrite (nth_Radd_v _ _ m) by (rewrite ?Rscal_length, ?tmvec_length; auto; apply Rmulv_length; assumption).
      rewrite nth_Rscal, (nth_Rmulv _ _ m) by assumption. rewrite eD by exact Ht. fold (a t).
      rewrite tmv_entry by (auto using plt). rewrite (sum_p (fun j => entry L j (p t) * nth j p2 0)%R).
      transitivity (- ((if Nat.ltb t k then Rdot (s t) (d t) else 1) * a t) + sm m (fun u => if Nat.ltb u t then Rdot (s u) (d t) * b u else 0))%R.
      + rewrite sm_below by lia. reflexivity.
      + f_equal; [lra|]. apply sml_ext. intros u Hu. apply in_seq in Hu. rewrite eL by lia. fold (b u). destruct (Nat.ltb u t); lra.
    - intros t Ht. assert (E : nth (p t) (Rscal g (mvec Sh v)) 0%R = (g * Rdot (s t) v)%R) by (rewrite nth_Rscal, nth_mvec, eS by exact Ht; reflexivity).
      rewrite <- E, <- V2. rewrite (nth_Radd_v _ _ m) by (rewrite ?Rscal_length, mvec_length; (apply HL || apply HG)).
      rewrite nth_Rscal. f_equal.
      + rewrite mv_entry by (auto using plt). rewrite sum_p. rewrite <- sm_above by exact Ht.
        apply sml_ext. intros u Hu. apply in_seq in Hu. rewrite eL by lia. fold (a u). destruct (Nat.ltb t u); lra.
      + rewrite Gx by assumption. f_equal. f_equal. rewrite (Rdot_comm (s t)), (hist_t Sh s) by (auto using s_length).
        apply sml_ext. intros u _. fold (b u). rewrite (Rdot_comm (s t)). reflexivity.
  Qed.

  Fixpoint vt (t : nat) : list R := match t with O => v | S t' => Rsub_v (vt t') (Rscal (b t') (s t')) end.
  Fixpoint tls (j : nat) : list R :=
    match j with O => zerov n | S j' => Radd_v (Radd_v (Rscal (a (m - S j')) (d (m - S j'))) (Rscal (g * b (m - S j')) (s (m - S j')))) (tls j') end.
  Definition wt (t : nat) : list R := Rsub_v (Rscal g (vt t)) (tls (m - t)).
  Lemma vt_length : forall t, length (vt t) = n.
  Proof. induction t as [|t IH]; [exact Lv|]. cbn [vt]. apply Rsub_v_length; [exact IH|rewrite Rscal_length; apply s_length]. Qed.
  Lemma tls_length : forall j, length (tls j) = n.
  Proof.
    induction j as [|j IH]; [apply zerov_length|]. cbn [tls]. apply Radd_v_length; [apply Radd_v_length|exact IH]; rewrite Rscal_length; auto using s_length, d_length.
  Qed.
  Lemma wt_length : forall t, length (wt t) = n.
  Proof. intro t. apply Rsub_v_length; [rewrite Rscal_length; apply vt_length|apply tls_length]. Qed.
  Lemma vt_dot : forall t z, length z = n -> Rdot z (vt t) = (Rdot z v - sm t (fun u => b u * Rdot z (s u)))%R.
  Proof.
    induction t as [|t IH]; intros z Hz; [cbn; lra|]. cbn [vt].
    rewrite Rdot_sub_r by (rewrite Rscal_length, vt_length, s_length; reflexivity). rewrite IH, Rdot_scal_r by exact Hz.
    rewrite seq_S, sml_app. cbn. lra.
  Qed.
  Lemma tls_dot : forall j z, j <= m -> length z = n ->
    Rdot z (tls j) = (sml (seq (m - j) j) (fun u => a u * Rdot z (d u)) + g * sml (seq (m - j) j) (fun u => b u * Rdot z (s u)))%R.
  Proof.
    induction j as [|j IH]; intros z Hj Hz; [cbn; rewrite Rdot_0_r; lra|]. cbn [tls].
    rewrite Rdot_add_r by (rewrite tls_length; apply Radd_v_length; rewrite Rscal_length; auto using s_length, d_length).
    rewrite Rdot_add_r by (rewrite !Rscal_length, s_length, d_length; reflexivity). rewrite !Rdot_scal_r.
    rewrite IH by (auto; lia). replace (m - j) with (S (m - S j)) by lia. cbn [seq sml]. lra.
  Qed.

  Lemma skipn_cons : forall t, t < m -> t < k -> skipn t (firstn m ps) = (s t, d t) :: skipn (S t) (firstn m ps).
  Proof.
    intros t Ht Hk. destruct (sd_nth t Hk) as (r & _ & E & -> & ->). rewrite <- surjective_pairing.
    assert (Lf : t < length (firstn m ps)) by (rewrite firstn_length; lia).
    rewrite <- E. assert (E2 : nth t ps ([], []) = nth t (firstn m ps) ([], [])).
    { rewrite <- (firstn_skipn m ps) at 1. rewrite app_nth1 by exact Lf. reflexivity. }
    rewrite E2. clear - Lf. revert Lf. generalize (firstn m ps). induction t as [|t IH]; intros [|x l] H; cbn in *; try lia; auto. apply IH. lia.
  Qed.

  Lemma recursion : forall j t, t <= m -> m - t <= j -> hessian_of_pairs g (skipn t (firstn m ps)) (vt t) = wt t.
  Proof.
    destruct eqs as (_ & _ & E1 & E2).
    induction j as [|j IH]; intros t Ht Hj.
    { assert (t = m) by lia. subst t. rewrite skipn_all2 by (rewrite firstn_length; lia). cbn [hessian_of_pairs].
      unfold wt. rewrite Nat.sub_diag. cbn [tls]. rewrite <- (vt_length m), <- (Rscal_length g (vt m)) at 1. symmetry. apply Rsub_v_0_r. }
    destruct (Nat.eq_dec t m) as [->|Hne].
    { rewrite skipn_all2 by (rewrite firstn_length; lia). cbn [hessian_of_pairs].
      unfold wt. rewrite Nat.sub_diag. cbn [tls]. rewrite <- (vt_length m), <- (Rscal_length g (vt m)) at 1. symmetry. apply Rsub_v_0_r. }
    assert (Htm : t < m) by lia. specialize (IH (S t) ltac:(lia) ltac:(lia)).
    destruct (Nat.lt_ge_cases t k) as [Hk|Hk].
    - rewrite skipn_cons by assumption.
      assert (HFs : Forall (curved n) (skipn (S t) (firstn m ps))).
      { pose proof (firstn_Forall _ _ _ m HF) as K. rewrite <- (firstn_skipn (S t) (firstn m ps)) in K. apply Forall_app in K. apply K. }
      destruct (pairs_matrices n (/ g) _ (Rinv_0_lt_compat _ Hg) HFs) as (_ & B & _ & (SB1 & SB2 & SB3) & _ & _ & EB & _).
      rewrite Rinv_involutive in EB by lra.
      cbn [hessian_of_pairs]. pose proof (s_length t) as Ls. pose proof (d_length t) as Ld. pose proof (vt_length t) as Lvt.
      rewrite !EB by assumption.
      rewrite EB in IH by apply vt_length. cbn [vt] in IH.
      rewrite (mvec_sub B n n) in IH by (rewrite ?Rscal_length; assumption). rewrite mvec_scal in IH.
      assert (LB : forall x, length (mvec B x) = n) by (intro x; eapply mvec_len; eauto).
      pose proof (sd_pos t Hk) as Hsd.
      assert (Hss : (0 < Rdot (s t) (mvec B (s t)))%R).
      { apply SB3; [exact Ls|]. intro Z. rewrite Z, Rdot_0_l in Hsd. lra. }
      (* s . w_{t+1} = 0 *)
      assert (Z : Rdot (s t) (wt (S t)) = 0%R).
      { unfold wt. rewrite Rdot_sub_r by (rewrite Rscal_length, vt_length, tls_length; reflexivity).
        rewrite Rdot_scal_r, vt_dot, tls_dot by (auto; lia). replace (m - (m - S t)) with (S t) by lia.
        pose proof (E2 t Htm) as K. replace (Nat.leb k t) with false in K by (symmetry; apply Nat.leb_gt; exact Hk).
        assert (SP : sm m (fun u => b u * Rdot (s t) (s u))%R = (sm (S t) (fun u => b u * Rdot (s t) (s u)) + sml (seq (S t) (m - S t)) (fun u => b u * Rdot (s t) (s u)))%R).
        { rewrite <- sml_app, <- seq_app. f_equal. f_equal. lia. }
        rewrite SP in K. rewrite (sml_ext (seq (S t) (m - S t)) (fun u => a u * Rdot (s t) (d u))%R (fun u => Rdot (s t) (d u) * a u)%R) by (intros; ring).
        lra. }
      assert (Eb : (Rdot (s t) (mvec B (vt t)) / Rdot (s t) (mvec B (s t)) = b t)%R).
      { rewrite <- IH in Z. rewrite Rdot_sub_r in Z by (rewrite Rscal_length, !LB; reflexivity). rewrite Rdot_scal_r in Z.
        replace (Rdot (s t) (mvec B (vt t))) with (b t * Rdot (s t) (mvec B (s t)))%R by lra. field. lra. }
      assert (Ea : (Rdot (d t) (vt t) / Rdot (d t) (s t) = - a t)%R).
      { rewrite vt_dot by exact Ld. pose proof (E1 t Htm) as K. rewrite (proj2 (Nat.ltb_lt t k) Hk) in K.
        rewrite (sml_ext (seq 0 t) (fun u => b u * Rdot (d t) (s u))%R (fun u => Rdot (s u) (d t) * b u)%R) by (intros; rewrite Rdot_comm; ring).
        rewrite (Rdot_comm (d t) (s t)). replace (Rdot (d t) v - sm t (fun u => Rdot (s u) (d t) * b u))%R with (- a t * Rdot (s t) (d t))%R by lra.
        field. lra. }
      rewrite Eb, Ea, IH.
      apply (Rdot_ext n).
      + apply Radd_v_length; [apply wt_length|rewrite Rscal_length; exact Ld].
      + apply wt_length.
      + intros z Hz. rewrite Rdot_add_l by (rewrite Rscal_length, wt_length, Ld; reflexivity). rewrite Rdot_scal_l.
        unfold wt. replace (m - t) with (S (m - S t)) by lia. cbn [tls vt]. replace (m - S (m - S t)) with t by lia.
        rewrite !Rdot_sub_l, !Rdot_scal_l, Rdot_sub_l, !Rdot_add_l, !Rdot_scal_l.
        * ring.
        * rewrite !Rscal_length. congruence.
        * rewrite tls_length. apply Radd_v_length; rewrite Rscal_length; assumption.
        * rewrite Rscal_length. congruence.
        * rewrite Rscal_length, vt_length. symmetry. apply Radd_v_length; [apply Radd_v_length; rewrite Rscal_length; assumption|apply tls_length].
        * rewrite Rscal_length, tls_length. apply Rsub_v_length; [apply vt_length|rewrite Rscal_length; assumption].
    - assert (SK : forall t, k <= t -> skipn t (firstn m ps) = []) by (intros t0 Hk0; apply skipn_all2; rewrite firstn_length; fold k; lia).
      rewrite SK in IH |- * by lia. cbn [hessian_of_pairs] in IH |- *.
      unfold wt in IH |- *. replace (m - t) with (S (m - S t)) by lia. cbn [tls]. replace (m - S (m - S t)) with t by lia.
      cbn [vt] in IH. rewrite s_old in IH |- * by exact Hk. rewrite d_old by exact Hk. rewrite !Rscal_zerov in *.
      assert (Z1 : Rsub_v (vt t) (zerov n) = vt t) by (rewrite <- (vt_length t) at 1; apply Rsub_v_0_r). rewrite Z1 in IH.
      rewrite IH at 1. f_equal.
      apply (Rdot_ext n); [apply tls_length|apply Radd_v_length; [apply Radd_v_length; apply zerov_length|apply tls_length]|].
      intros z Hz. rewrite !Rdot_add_l, !Rdot_0_l; [lra| |].
      * rewrite !zerov_length. reflexivity.
      * rewrite tls_length. apply Radd_v_length; apply zerov_length.
  Qed.

  Lemma einsum_RN : forall (x : list R) (A : list (list R)), mat m n A -> einsum (N:=RN) n x A = tmvec n A x.
  Proof. intros x A HA. exact (op_mvT_RN m n A x HA). Qed.

  Lemma direct_operator_ok : direct_operator (N:=RN) m st v = hessian_of_pairs g (firstn m ps) v.
  Proof.
    pose proof (recursion m 0 ltac:(lia) ltac:(lia)) as K. cbn [skipn vt] in K. rewrite K. clear K.
    destruct eqs as (L1 & L2 & _ & _).
    unfold direct_operator. rewrite Eg. 
    assert (El : low_tri (N:=RN) m st = lowm m L J D).
    { unfold low_tri, lowm. rewrite safe_id. cbn [nofQ RN]. rewrite Q2R_0. reflexivity. }
    assert (Eu : upper_tri (N:=RN) m st = upm m L J D) by (unfold upper_tri, upm; rewrite El; reflexivity).
    rewrite El, Eu, !mat_mv_RN, vscale_RN. fold Yh Sh.
    change (solve_upper (N:=RN) (upm m L J D) (solve_lower (N:=RN) (lowm m L J D) (mvec Yh v ++ Rscal g (mvec Sh v)))) with q.
    change (firstn m q) with p1. change (skipn m q) with p2.
    rewrite (vsub_RN (vsub (N:=RN) _ _)), (vsub_RN (vscale (N:=RN) _ _)). rewrite (vscale_RN g v), (vscale_RN g (einsum _ _ _)). change (Datatypes.length v) with (@length R v). rewrite Lv.
    rewrite !einsum_RN by assumption.
    unfold wt. rewrite Nat.sub_0_r. cbn [vt].
    apply (Rdot_ext n).
    - repeat apply Rsub_v_length; rewrite ?Rscal_length, ?tmvec_length; auto.
    - apply Rsub_v_length; [rewrite Rscal_length; exact Lv|apply tls_length].
    - intros z Hz. rewrite !Rdot_sub_l, !Rdot_scal_l.
      + rewrite (hist_t Yh d p1), (hist_t Sh s p2) by assumption.
        rewrite (Rdot_comm (tls m)), tls_dot by (auto; lia). rewrite Nat.sub_diag. fold a b.
        rewrite (sml_ext (seq 0 m) (fun u => a u * Rdot z (d u))%R (fun t => nth (p t) p1 0 * Rdot (d t) z)%R) by (intros; unfold a; rewrite Rdot_comm; ring).
        rewrite (sml_ext (seq 0 m) (fun u => b u * Rdot z (s u))%R (fun t => nth (p t) p2 0 * Rdot (s t) z)%R) by (intros; unfold b; rewrite Rdot_comm; ring).
        ring.
      + rewrite Rscal_length, tls_length. exact Lv.
      + rewrite Rscal_length, tmvec_length. exact Lv.
      + rewrite Rscal_length, tmvec_length. apply Rsub_v_length; [rewrite Rscal_length; exact Lv|apply tmvec_length].
  Qed.
End Dir.
