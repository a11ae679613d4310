(** Facts about derivatives of functions between lists of reals. *)

From Coq Require Import List Reals Lra Lia.
From Verif Require Import Spec_Vec Spec_Lin VecFacts LinFacts Num Vec Results Search Implicit Spec_Implicit.
Import ListNotations.
Local Open Scope R_scope.

(** ** Norms *)
Lemma Rabs_m1 : Rabs (-1) = 1.
Proof. rewrite Rabs_left; lra. Qed.
Lemma norm_add : forall a b, length a = length b -> Rmax_norm (Radd_v a b) <= Rmax_norm a + Rmax_norm b.
Proof.
  induction a as [|x a IH]; intros [|y b] L; simpl in *; try discriminate; [lra|].
  specialize (IH b ltac:(lia)).
  pose proof (Rmax_l (Rabs x) (Rmax_norm a)). pose proof (Rmax_r (Rabs x) (Rmax_norm a)).
  pose proof (Rmax_l (Rabs y) (Rmax_norm b)). pose proof (Rmax_r (Rabs y) (Rmax_norm b)).
  apply Rmax_lub; [pose proof (Rabs_triang x y); lra|lra].
Qed.
Lemma norm_scal : forall c a, Rmax_norm (Rscal c a) = Rabs c * Rmax_norm a.
Proof.
  intros c a. induction a as [|x a IH]; simpl; [ring|].
  rewrite IH, Rabs_mult, RmaxRmult; auto using Rabs_pos.
Qed.
Lemma norm_zerov : forall n, Rmax_norm (zerov n) = 0.
Proof. induction n; simpl; auto. unfold zerov in IHn. rewrite IHn, Rabs_R0. apply Rmax_left; lra. Qed.
Lemma norm_0_inv : forall a, Rmax_norm a <= 0 -> a = zerov (length a).
Proof.
  induction a as [|x a IH]; simpl; intros H; auto.
  pose proof (Rmax_l (Rabs x) (Rmax_norm a)). pose proof (Rmax_r (Rabs x) (Rmax_norm a)).
  pose proof (Rabs_pos x).
  unfold zerov in *. simpl. f_equal; [|apply IH; lra].
  destruct (Req_dec x 0) as [|Hn]; auto. apply Rabs_pos_lt in Hn. lra.
Qed.
Lemma norm_sub_le : forall a b, length a = length b -> Rmax_norm a <= Rmax_norm (Rsub_v a b) + Rmax_norm b.
Proof.
  intros a b L. pose proof (Rdist_inf_tri a b (zerov (length a)) L ltac:(rewrite zerov_length; auto)) as T.
  unfold Rdist_inf in T. rewrite Rsub_v_0_r in T. rewrite L, Rsub_v_0_r in T. exact T.
Qed.
Lemma dot_bound : forall r x, Rabs (Rdot r x) <= fold_right (fun a s => Rabs a + s) 0 r * Rmax_norm x.
Proof.
  induction r as [|a r IH]; intros [|b x]; simpl.
  - rewrite Rabs_R0; lra.
  - rewrite Rabs_R0; lra.
  - rewrite Rabs_R0; lra.
  - specialize (IH x). pose proof (Rabs_triang (a * b) (Rdot r x)) as T. rewrite Rabs_mult in T.
    pose proof (Rmax_l (Rabs b) (Rmax_norm x)). pose proof (Rmax_r (Rabs b) (Rmax_norm x)).
    set (M := Rmax (Rabs b) (Rmax_norm x)) in *. set (s := fold_right _ 0 r) in *.
    assert (0 <= s) by (clear; unfold s; induction r; simpl; [lra|pose proof (Rabs_pos a); lra]).
    pose proof (Rabs_pos a). pose proof (Rmax_norm_pos x).
    assert (Rabs a * Rabs b <= Rabs a * M) by (apply Rmult_le_compat_l; lra).
    assert (s * Rmax_norm x <= s * M) by (apply Rmult_le_compat_l; lra). lra.
Qed.
Lemma mvec_bound : forall A, exists K, 0 <= K /\ forall x, Rmax_norm (mvec A x) <= K * Rmax_norm x.
Proof.
  induction A as [|r A (K & HK & IH)].
  - exists 0. split; [lra|]. intro x; simpl; lra.
  - set (s := fold_right (fun a s => Rabs a + s) 0 r).
    exists (Rmax s K). split; [eapply Rle_trans; [exact HK|apply Rmax_r]|].
    intro x. simpl. pose proof (Rmax_norm_pos x). apply Rmax_lub.
    + eapply Rle_trans; [apply dot_bound|]. apply Rmult_le_compat_r; auto. apply Rmax_l.
    + eapply Rle_trans; [apply IH|]. apply Rmult_le_compat_r; auto. apply Rmax_r.
Qed.

(** ** Vector algebra *)
Lemma add_sub_l : forall a b, length a = length b -> Radd_v a (Rsub_v b a) = b.
Proof. induction a as [|x a IH]; intros [|y b] L; simpl in *; try discriminate; auto. f_equal; [ring|auto]. Qed.
Lemma sub_add_l : forall a b, length a = length b -> Rsub_v (Radd_v a b) a = b.
Proof. induction a as [|x a IH]; intros [|y b] L; simpl in *; try discriminate; auto. f_equal; [ring|auto]. Qed.
Lemma sub_as_add : forall a b, length a = length b -> Rsub_v a b = Radd_v a (Rscal (-1) b).
Proof. induction a as [|x a IH]; intros [|y b] L; simpl in *; try discriminate; auto. f_equal; [ring|]. apply IH; lia. Qed.
Lemma sub_scal_m1 : forall a b, length a = length b -> Rsub_v a (Rscal (-1) b) = Radd_v a b.
Proof. induction a as [|x a IH]; intros [|y b] L; simpl in *; try discriminate; auto. f_equal; [ring|]. apply IH; lia. Qed.
Lemma zero_sub_add : forall a, Rsub_v (zerov (length a)) a = Rscal (-1) a.
Proof. induction a as [|x a IH]; simpl; auto. f_equal; [ring|auto]. Qed.
Lemma sub_zero_zero : forall n, Rsub_v (zerov n) (zerov n) = zerov n.
Proof. intro n. rewrite Rsub_v_self, zerov_length. reflexivity. Qed.
Lemma add_zero_r : forall a n, length a = n -> Radd_v a (zerov n) = a.
Proof. intros a n <-. apply Radd_v_0_r. Qed.
Lemma add_zero_l : forall a n, length a = n -> Radd_v (zerov n) a = a.
Proof. intros a n <-. induction a as [|x a IH]; simpl; auto. unfold zerov in IH. rewrite IH. f_equal. ring. Qed.

Lemma mat_mvec_length : forall m n A x, mat m n A -> length (mvec A x) = m.
Proof. intros m n A x (E & _). rewrite mvec_length. exact E. Qed.

(** The matrix - A^-1 B. *)
Definition implicit_matrix (k : nat) (Ainv B : list (list R)) : list (list R) :=
  map (fun row => Rscal (-1) (tmvec k B row)) Ainv.
Lemma implicit_matrix_mat : forall n k Ainv B, mat n n Ainv -> mat n k (implicit_matrix k Ainv B).
Proof.
  intros n k Ainv B (E & _). split; [unfold implicit_matrix; rewrite map_length; exact E|].
  apply Forall_forall. intros r H. apply in_map_iff in H. destruct H as (row & <- & _).
  rewrite Rscal_length, tmvec_length. reflexivity.
Qed.
Lemma implicit_matrix_mv : forall n k Ainv B t, mat n k B -> length t = k ->
  mvec (implicit_matrix k Ainv B) t = Rscal (-1) (mvec Ainv (mvec B t)).
Proof.
  intros n k Ainv B t HB Lt. unfold implicit_matrix, mvec at 1 2, Rscal at 2. rewrite !map_map. apply map_ext.
  intro row. rewrite Rdot_scal_l. f_equal. erewrite tmvec_adjoint; eauto.
Qed.

(** ** The implicit function theorem: a continuous branch of roots is
    differentiable. *)
Lemma implicit_derivative : forall n k F y p0 A Ainv B,
  branch n k y p0 -> jacobian2_at n k n F (y p0) p0 A B ->
  mat n n Ainv -> inverses n A Ainv ->
  near k p0 (fun p => F (y p) p = zerov n) ->
  jacobian_at k n y p0 (implicit_matrix k Ainv B).
Proof.
  intros n k F y p0 A Ainv B (Lp & My & Cy) (Ly & _ & LF & MA & MB & DF) MI INV (d0 & Pd0 & ROOT).
  split; [exact Lp|]. split; [exact My|]. split; [apply implicit_matrix_mat; auto|].
  destruct (mvec_bound Ainv) as (K & PK & BK).
  destruct (mvec_bound (implicit_matrix k Ainv B)) as (M & PM & BM).
  assert (ROOT0 : F (y p0) p0 = zerov n).
  { specialize (ROOT (zerov k) (zerov_length k)). rewrite norm_zerov, add_zero_r in ROOT; auto. }
  intros eps Peps.
  set (eta := Rmin (1/2) (eps / (2 * M + 1)) / (K + 1)).
  assert (P1 : 0 < 2 * M + 1) by lra.
  assert (P2 : 0 < Rmin (1/2) (eps / (2 * M + 1))).
  { apply Rmin_glb_lt; [lra|]. apply Rdiv_lt_0_compat; lra. }
  assert (Peta : 0 < eta) by (apply Rdiv_lt_0_compat; lra).
  assert (Keta : K * eta <= Rmin (1/2) (eps / (2 * M + 1))).
  { unfold eta. set (q := Rmin _ _) in *. apply Rmult_le_reg_r with (K + 1); [lra|].
    replace (K * (q / (K + 1)) * (K + 1)) with (K * q) by (field; lra). nra. }
  assert (Keta1 : K * eta <= 1/2) by (eapply Rle_trans; [exact Keta|apply Rmin_l]).
  assert (Keta2 : K * eta * (2 * M + 1) <= eps).
  { assert (E : K * eta <= eps / (2 * M + 1)) by (eapply Rle_trans; [exact Keta|apply Rmin_r]).
    apply (Rmult_le_compat_r (2 * M + 1)) in E; [|lra].
    replace (eps / (2 * M + 1) * (2 * M + 1)) with eps in E by (field; lra). exact E. }
  destruct (DF eta Peta) as (d1 & Pd1 & D1). destruct (Cy d1 Pd1) as (d2 & Pd2 & C2).
  exists (Rmin d0 (Rmin d1 d2)). split; [repeat apply Rmin_glb_lt; auto|].
  intros g Lg Hg.
  pose proof (Rmin_l d0 (Rmin d1 d2)). pose proof (Rmin_r d0 (Rmin d1 d2)).
  pose proof (Rmin_l d1 d2). pose proof (Rmin_r d1 d2).
  specialize (ROOT g Lg ltac:(lra)). specialize (C2 g Lg ltac:(lra)). cbv beta in C2.
  set (h := Rsub_v (y (Radd_v p0 g)) (y p0)) in *.
  assert (Lq : length (Radd_v p0 g) = k) by (apply Radd_v_length; auto).
  assert (Lh : length h = n) by (apply Rsub_v_length; auto).
  specialize (D1 h g Lh Lg C2 ltac:(lra)).
  assert (Eh : Radd_v (y p0) h = y (Radd_v p0 g)).
  { unfold h. apply add_sub_l. rewrite Ly, My; auto. }
  rewrite Eh, ROOT, ROOT0, sub_zero_zero in D1.
  assert (LAh : length (mvec A h) = n) by (eapply mat_mvec_length; eauto).
  assert (LBg : length (mvec B g) = n) by (eapply mat_mvec_length; eauto).
  set (e := Radd_v (mvec A h) (mvec B g)) in *.
  assert (Le : length e = n) by (apply Radd_v_length; auto).
  rewrite <- Le, zero_sub_add, norm_scal, Rabs_m1, Rmult_1_l in D1.
  assert (LIB : length (mvec Ainv (mvec B g)) = n) by (eapply mat_mvec_length; eauto).
  assert (ER : Rsub_v h (mvec (implicit_matrix k Ainv B) g) = mvec Ainv e).
  { rewrite (implicit_matrix_mv n); auto. rewrite sub_scal_m1 by congruence.
    unfold e. erewrite mvec_add; eauto. f_equal. symmetry. apply INV; auto. }
  change (Rmax_norm (Rsub_v h (mvec (implicit_matrix k Ainv B) g)) <= eps * Rmax_norm g).
  assert (LJ : length (mvec (implicit_matrix k Ainv B) g) = n).
  { eapply mat_mvec_length. apply implicit_matrix_mat; auto. }
  pose proof (norm_sub_le h (mvec (implicit_matrix k Ainv B) g) ltac:(congruence)) as T.
  rewrite ER in *. pose proof (BK e) as Be. pose proof (BM g) as Bg.
  set (nh := Rmax_norm h) in *. set (ng := Rmax_norm g) in *. set (ne := Rmax_norm e) in *.
  assert (0 <= ng) by apply Rmax_norm_pos. assert (0 <= nh) by apply Rmax_norm_pos.
  set (mx := Rmax nh ng) in *.
  assert (Kne : K * ne <= K * eta * mx).
  { rewrite Rmult_assoc. apply Rmult_le_compat_l; auto. }
  assert (Hmx0 : 0 <= mx) by (eapply Rle_trans; [|apply Rmax_l]; auto).
  assert (Hhalf : K * eta * mx <= 1/2 * mx) by (apply Rmult_le_compat_r; auto).
  assert (Hmx : mx <= nh + ng) by (apply Rmax_lub; lra).
  assert (Hnh : nh <= (2 * M + 1) * ng) by nra.
  assert (Hmx2 : mx <= (2 * M + 1) * ng) by (apply Rmax_lub; nra).
  assert (K * eta * mx <= K * eta * ((2 * M + 1) * ng)).
  { apply Rmult_le_compat_l; auto. apply Rmult_le_pos; lra. }
  assert (K * eta * ((2 * M + 1) * ng) <= eps * ng).
  { rewrite <- Rmult_assoc. apply Rmult_le_compat_r; auto. }
  lra.
Qed.

(** ** Partial derivatives *)
Lemma partial_1 : forall n k m F y p A B, jacobian2_at n k m F y p A B ->
  jacobian_at n m (fun y => F y p) y A.
Proof.
  intros n k m F y p A B (Ly & Lp & LF & MA & MB & D).
  split; [auto|]. split; [intros x Lx; apply LF; auto|]. split; [auto|].
  intros eps Pe. destruct (D eps Pe) as (d & Pd & H). exists d. split; auto.
  intros h Lh Hh. specialize (H h (zerov k) Lh (zerov_length k) Hh).
  rewrite norm_zerov, (add_zero_r p), mvec_0 in H by auto.
  assert (L0 : length B = length (mvec A h)) by (rewrite (mat_mvec_length m n A h MA); apply MB).
  rewrite L0, Radd_v_0_r in H. rewrite Rmax_left in H by apply Rmax_norm_pos. apply H. exact Pd.
Qed.

(** ** Differentiating with respect to some of the inputs *)
Fixpoint scatter (t : list (option R)) (h : list R) : list R :=
  match t, h with
  | Some _ :: t', a :: h' => a :: scatter t' h'
  | None :: t', _ => 0 :: scatter t' h
  | _, _ => []
  end.
Lemma diff_part_length : forall t (x : list R), length t = length x ->
  length (diff_part (N:=RN) t x) = length (tangents (N:=RN) t).
Proof.
  induction t as [|[a|] t IH]; intros [|b x] L; simpl in *; change (T RN) with R in *; try discriminate; auto.
Qed.
Lemma combine_add : forall t (x h : list R), length t = length x -> length h = length (tangents (N:=RN) t) ->
  combine (N:=RN) t x (Radd_v (diff_part (N:=RN) t x) h) = Radd_v x (scatter t h).
Proof.
  induction t as [|[a|] t IH]; intros [|b x] h L Lh; simpl in *; change (T RN) with R in *; try discriminate; auto.
  - destruct h as [|c h]; [discriminate|]. simpl. f_equal. apply IH; try (cbn in *; congruence).
  - rewrite IH by (cbn in *; congruence). f_equal. ring.
Qed.
Lemma combine_id : forall t (x : list R), length t = length x ->
  combine (N:=RN) t x (diff_part (N:=RN) t x) = x.
Proof.
  induction t as [|[a|] t IH]; intros [|b x] L; simpl in *; change (T RN) with R in *; try discriminate; auto; f_equal; apply IH; try (cbn in *; congruence).
Qed.
Lemma combine_length : forall t (x d : list R), length t = length x -> length d = length (tangents (N:=RN) t) ->
  length (combine (N:=RN) t x d) = length x.
Proof.
  induction t as [|[a|] t IH]; intros [|b x] d L Ld; simpl in *; change (T RN) with R in *; try discriminate; auto.
  destruct d as [|c d]; [discriminate|]. simpl. f_equal. apply IH; try (cbn in *; congruence).
Qed.
Lemma scatter_length : forall t h, length h = length (tangents (N:=RN) t) -> length (scatter t h) = length t.
Proof.
  induction t as [|[a|] t IH]; intros h L; simpl in *; change (T RN) with R in *; auto.
  destruct h as [|c h]; [discriminate|]. simpl. f_equal. apply IH; try (cbn in *; congruence).
Qed.
Lemma norm_scatter : forall t h, Rmax_norm (scatter t h) <= Rmax_norm h.
Proof.
  induction t as [|[a|] t IH]; intros h; simpl.
  - apply Rmax_norm_pos.
  - destruct h as [|c h]; simpl; [lra|]. apply Rle_max_compat_l. apply IH.
  - rewrite Rabs_R0. apply Rmax_lub; [apply Rmax_norm_pos|apply IH].
Qed.
Lemma norm_firstn : forall k x, Rmax_norm (firstn k x) <= Rmax_norm x.
Proof.
  induction k as [|k IH]; intros [|a x]; simpl; try lra.
  - change (0 <= Rmax_norm (a :: x)). apply Rmax_norm_pos.
  - apply Rle_max_compat_l. apply IH.
Qed.
Lemma dot_scatter : forall t r h, length r = length t -> length h = length (tangents (N:=RN) t) ->
  Rdot r (scatter t h) = Rdot (diff_part (N:=RN) t r) h.
Proof.
  induction t as [|[a|] t IH]; intros [|b r] h L Lh; simpl in *; change (T RN) with R in *; try discriminate; auto.
  - destruct h as [|c h]; [discriminate|]. simpl. rewrite IH by (cbn in *; congruence). reflexivity.
  - rewrite IH by (cbn in *; congruence). ring.
Qed.
Lemma scatter_tangents : forall t, scatter t (tangents (N:=RN) t) = filled t.
Proof. induction t as [|[a|] t IH]; simpl; auto; f_equal; auto. Qed.
Lemma firstn_add : forall k a b, firstn k (Radd_v a b) = Radd_v (firstn k a) (firstn k b).
Proof.
  induction k as [|k IH]; intros [|x a] [|y b]; simpl; auto. f_equal. apply IH.
Qed.
Lemma dot_padded : forall r z s, Rdot (r ++ zerov z) s = Rdot r (firstn (length r) s).
Proof.
  induction r as [|a r IH]; intros z s; simpl.
  - apply Rdot_0_l.
  - destruct s as [|b s]; simpl; auto. rewrite IH. reflexivity.
Qed.

Definition masked_matrix (k : nat) (t : list (option R)) (B : list (list R)) : list (list R) :=
  map (fun row => diff_part (N:=RN) t (row ++ zerov (length t - k))) B.
Lemma masked_mv : forall m k t B h, mat m k B -> (k <= length t)%nat ->
  length h = length (tangents (N:=RN) t) ->
  mvec (masked_matrix k t B) h = mvec B (firstn k (scatter t h)).
Proof.
  intros m k t B h (_ & RB) Lk Lh. unfold mvec, masked_matrix. rewrite map_map.
  apply map_ext_in. intros row Hr. rewrite Forall_forall in RB. specialize (RB _ Hr).
  assert (LR : length (row ++ zerov (length t - k)) = length t) by (rewrite app_length, zerov_length; lia).
  refine (eq_trans (eq_sym (dot_scatter _ _ _ LR Lh)) _).
  rewrite dot_padded, RB. reflexivity.
Qed.
Lemma masked_jacobian : forall n k m F y A B (inputs : list R) (t : list (option R)),
  jacobian2_at n k m F y (firstn k inputs) A B -> length t = length inputs ->
  jacobian_at (length (tangents (N:=RN) t)) m
    (fun d => F y (firstn k (combine (N:=RN) t inputs d))) (diff_part (N:=RN) t inputs)
    (masked_matrix k t B).
Proof.
  intros n k m F y A B inputs t (Ly & Lp & LF & MA & MB & D) Lt.
  assert (Lk : (k <= length inputs)%nat) by (rewrite firstn_length in Lp; lia).
  assert (Lk' : (k <= length t)%nat) by (rewrite Lt; exact Lk).
  split; [apply diff_part_length; auto|]. split; [|split].
  - intros d Ld. apply LF; auto. rewrite firstn_length, combine_length; auto. apply Nat.min_l; exact Lk.
  - destruct MB as (EB & RB). split; [unfold masked_matrix; rewrite map_length; auto|].
    apply Forall_forall. intros r Hr. apply in_map_iff in Hr. destruct Hr as (row & <- & Hr).
    rewrite Forall_forall in RB. apply diff_part_length. rewrite app_length, zerov_length, (RB _ Hr). change (length t = k + (length t - k))%nat. lia.
  - intros eps Pe. destruct (D eps Pe) as (d & Pd & H). exists d. split; auto.
    intros h Lh Hh.
    set (g := firstn k (scatter t h)).
    assert (Ng : Rmax_norm g <= Rmax_norm h).
    { eapply Rle_trans; [apply norm_firstn|apply norm_scatter]. }
    assert (Lg : length g = k).
    { unfold g. rewrite firstn_length, scatter_length; auto. apply Nat.min_l; exact Lk'. }
    rewrite combine_add, combine_id, firstn_add by auto. fold g.
    rewrite (masked_mv m) by auto. fold g.
    specialize (H (zerov n) g (zerov_length n) Lg ltac:(rewrite norm_zerov; auto) ltac:(lra)).
    rewrite (add_zero_r y), mvec_0, norm_zerov in H by auto.
    assert (E0 : length A = length (mvec B g)) by (rewrite (mat_mvec_length m k B g MB); apply MA).
    rewrite (add_zero_l (mvec B g)) in H by auto.
    eapply Rle_trans; [exact H|]. apply Rmult_le_compat_l; [lra|].
    rewrite Rmax_right by apply Rmax_norm_pos. exact Ng.
Qed.

(** ** A differentiable function has zero gradient where it is minimal *)
Lemma fermat : forall n f x g, gradient_at n f x g -> local_min n f x -> g = zerov n.
Proof.
  intros n f x g (Lx & _ & (_ & Rg) & D) (d0 & Pd0 & MIN).
  assert (Lg : length g = n) by (inversion Rg; auto). clear Rg.
  rewrite <- Lg. apply Rdot_0_inv. apply Rle_antisym; [|apply Rdot_pos].
  apply Rnot_lt_le. intro P.
  set (ng := Rmax_norm g). assert (Pn : 0 <= ng) by apply Rmax_norm_pos.
  set (eps := Rdot g g / (2 * (ng + 1))).
  assert (Pe : 0 < eps) by (apply Rdiv_lt_0_compat; lra).
  destruct (D eps Pe) as (d1 & Pd1 & H).
  set (s := Rmin d0 d1 / (2 * (ng + 1))).
  assert (Pm : 0 < Rmin d0 d1) by (apply Rmin_glb_lt; auto).
  assert (Ps : 0 < s) by (apply Rdiv_lt_0_compat; lra).
  assert (Nh : Rmax_norm (Rscal (- s) g) = s * ng).
  { rewrite norm_scal, Rabs_Ropp, Rabs_right by lra. reflexivity. }
  assert (Sm : s * ng < Rmin d0 d1).
  { unfold s. apply Rmult_lt_reg_r with (2 * (ng + 1)); [lra|].
    replace (Rmin d0 d1 / (2 * (ng + 1)) * ng * (2 * (ng + 1))) with (Rmin d0 d1 * ng) by (field; lra). nra. }
  pose proof (Rmin_l d0 d1). pose proof (Rmin_r d0 d1).
  assert (Lh : length (Rscal (- s) g) = n) by (rewrite Rscal_length; auto).
  specialize (MIN _ Lh ltac:(rewrite Nh; lra)). specialize (H _ Lh ltac:(rewrite Nh; lra)).
  cbv beta in MIN. rewrite Nh in H. cbn -[Rmult Rminus Rabs Rdot] in H.
  rewrite Rdot_scal_r in H.
  set (df := f (Radd_v x (Rscal (- s) g)) - f x) in *.
  assert (Hd : 0 <= df) by (unfold df; lra).
  pose proof (Rmax_l (Rabs (df - - s * Rdot g g)) 0) as M1.
  pose proof (Rle_abs (df - - s * Rdot g g)).
  assert (E : s * Rdot g g <= eps * (s * ng)) by lra.
  assert (E2 : Rdot g g <= eps * ng).
  { apply Rmult_le_reg_l with s; auto. lra. }
  unfold eps in E2.
  assert (E3 : Rdot g g / (2 * (ng + 1)) * ng * (2 * (ng + 1)) = Rdot g g * ng) by (field; lra).
  apply (Rmult_le_compat_r (2 * (ng + 1))) in E2; [|lra]. rewrite E3 in E2. nra.
Qed.

(** ** The tangent computed by the code *)
Lemma tangent_value : forall n k F y A Ainv B (inputs : list R) (t : list (option R)) jvp jacT lsolve,
  jvp_correct jvp -> solves_invertible n lsolve ->
  jacobian2_at n k n F y (firstn k inputs) A B ->
  mat n n Ainv -> inverses n A Ainv -> length t = length inputs ->
  value_tangent (N:=RN) jvp jacT lsolve k F y inputs t =
    Ret (mvec (implicit_matrix k Ainv B) (firstn k (filled t))).
Proof.
  intros n k F y A Ainv B inputs t jvp jacT lsolve CJ CS D MI INV Lt.
  pose proof (partial_1 _ _ _ _ _ _ _ _ D) as D1.
  pose proof (masked_jacobian _ _ _ _ _ _ _ _ _ D Lt) as D2.
  assert (MA : mat n n A) by apply D. assert (MB : mat n k B) by apply D.
  assert (Lk : (k <= length t)%nat).
  { destruct D as (_ & Lp & _). rewrite firstn_length in Lp. lia. }
  unfold value_tangent, implicit_tangent, params.
  pose proof (CJ _ _ _ _ _ (tangents (N:=RN) t) D2 eq_refl) as EJ.
  rewrite (masked_mv n), scatter_tangents in EJ by auto.
  set (rhs := mvec B (firstn k (filled t))) in *.
  assert (Lr : length rhs = n) by (eapply mat_mvec_length; eauto).
  match goal with |- context [lsolve ?o ?b] => set (op := o); change b with (jvp (fun d => F y (firstn k (combine (N:=RN) t inputs d))) (diff_part (N:=RN) t inputs) (tangents (N:=RN) t)) end.
  rewrite EJ.
  destruct (CS op A Ainv rhs MA MI INV Lr) as (x & Ex & Lx & Sx).
  { intros v Lv. unfold op. cbn. apply (CJ _ _ _ _ _ v D1 Lv). }
  rewrite Ex. cbn -[mvec]. f_equal. change (vneg (N:=RN) x = mvec (implicit_matrix k Ainv B) (firstn k (filled t))).
  rewrite vneg_RN, (implicit_matrix_mv n) by (auto; rewrite firstn_length; unfold filled; rewrite map_length; lia).
  f_equal. fold rhs. rewrite <- Sx. symmetry. apply INV. auto.
Qed.
