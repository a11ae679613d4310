(** Linear algebra on lists of reals: facts. *)

From Coq Require Import List Bool Arith Lia QArith Qreals Reals Lra.
From Verif Require Import Num NumFacts Vec Spec_Vec VecFacts Spec_Lin.
Import ListNotations.
Local Open Scope R_scope.

Lemma Radd_v_length : forall a b n, length a = n -> length b = n -> length (Radd_v a b) = n.
Proof. induction a as [|x a IH]; intros [|y b] [|n]; simpl; intros; auto; try discriminate. Qed.
Lemma Rscal_length : forall c a, length (Rscal c a) = length a.
Proof. intros; apply map_length. Qed.
Lemma zerov_length : forall n, length (zerov n) = n.
Proof. intro; apply repeat_length. Qed.
Lemma mvec_length : forall A x, length (mvec A x) = length A.
Proof. intros; apply map_length. Qed.

Lemma Rdot_comm : forall a b, Rdot a b = Rdot b a.
Proof. induction a as [|x a IH]; intros [|y b]; simpl; auto. rewrite IH. ring. Qed.
Lemma Rdot_add_r : forall a b c, length b = length c -> Rdot a (Radd_v b c) = Rdot a b + Rdot a c.
Proof.
  induction a as [|x a IH]; intros [|y b] [|z c]; simpl; intros; try discriminate; try ring.
  rewrite IH by lia. ring.
Qed.
Lemma Rdot_sub_r : forall a b c, length b = length c -> Rdot a (Rsub_v b c) = Rdot a b - Rdot a c.
Proof.
  induction a as [|x a IH]; intros [|y b] [|z c]; simpl; intros; try discriminate; try ring.
  rewrite IH by lia. ring.
Qed.
Lemma Rdot_scal_r : forall c a b, Rdot a (Rscal c b) = c * Rdot a b.
Proof. intros c. induction a as [|x a IH]; intros [|y b]; cbn; try ring. fold (Rscal c b). rewrite IH. ring. Qed.
Lemma Rdot_add_l : forall a b c, length a = length b -> Rdot (Radd_v a b) c = Rdot a c + Rdot b c.
Proof. intros. rewrite Rdot_comm, Rdot_add_r, (Rdot_comm c a), (Rdot_comm c b) by auto. reflexivity. Qed.
Lemma Rdot_sub_l : forall a b c, length a = length b -> Rdot (Rsub_v a b) c = Rdot a c - Rdot b c.
Proof. intros. rewrite Rdot_comm, Rdot_sub_r, (Rdot_comm c a), (Rdot_comm c b) by auto. reflexivity. Qed.
Lemma Rdot_scal_l : forall c a b, Rdot (Rscal c a) b = c * Rdot a b.
Proof. intros. rewrite Rdot_comm, Rdot_scal_r, Rdot_comm. reflexivity. Qed.
Lemma Rdot_0_r : forall a n, Rdot a (zerov n) = 0.
Proof. induction a as [|x a IH]; intros [|n]; simpl; auto. unfold zerov in IH. rewrite IH. ring. Qed.
Lemma Rdot_0_l : forall a n, Rdot (zerov n) a = 0.
Proof. intros. rewrite Rdot_comm. apply Rdot_0_r. Qed.
Lemma Rdot_pos : forall a, 0 <= Rdot a a.
Proof. induction a as [|x a IH]; simpl; [lra|]. nra. Qed.
Lemma Rdot_0_inv : forall a, Rdot a a = 0 -> a = zerov (length a).
Proof.
  induction a as [|x a IH]; simpl; intro H; auto. pose proof (Rdot_pos a).
  assert (x * x = 0) by nra. assert (x = 0) by nra. subst. unfold zerov in *. simpl. f_equal. apply IH. nra.
Qed.

Lemma mvec_sub : forall A m n x y, mat m n A -> length x = n -> length y = n ->
  mvec A (Rsub_v x y) = Rsub_v (mvec A x) (mvec A y).
Proof.
  intros A m n x y [_ HA] Hx Hy. induction HA as [|row A Hr HA IH]; simpl; auto.
  rewrite Rdot_sub_r by congruence. f_equal. exact IH.
Qed.
Lemma mvec_add : forall A m n x y, mat m n A -> length x = n -> length y = n ->
  mvec A (Radd_v x y) = Radd_v (mvec A x) (mvec A y).
Proof.
  intros A m n x y [_ HA] Hx Hy. induction HA as [|row A Hr HA IH]; simpl; auto.
  rewrite Rdot_add_r by congruence. f_equal. exact IH.
Qed.
Lemma mvec_scal : forall A c x, mvec A (Rscal c x) = Rscal c (mvec A x).
Proof. intros. unfold mvec, Rscal at 2. rewrite map_map. apply map_ext. intro. apply Rdot_scal_r. Qed.
Lemma mvec_0 : forall A n, mvec A (zerov n) = zerov (length A).
Proof. intros. unfold mvec. induction A; simpl; auto. rewrite Rdot_0_r. unfold zerov in *. simpl. f_equal. auto. Qed.

Lemma Rsub_v_self : forall a, Rsub_v a a = zerov (length a).
Proof. induction a; simpl; auto. unfold zerov in *. simpl. f_equal; auto. ring. Qed.
Lemma Rsub_v_0_r : forall a, Rsub_v a (zerov (length a)) = a.
Proof. induction a; simpl; auto. unfold zerov in *. f_equal; auto. ring. Qed.
Lemma Radd_v_0_r : forall a, Radd_v a (zerov (length a)) = a.
Proof. induction a; simpl; auto. unfold zerov in *. f_equal; auto. ring. Qed.
Lemma Rsub_v_add : forall a b c, length a = length b -> length b = length c ->
  Radd_v (Rsub_v a b) c = Rsub_v (Radd_v a c) b.
Proof.
  induction a as [|x a IH]; intros [|y b] [|z c]; simpl; intros; try discriminate; auto.
  rewrite IH by lia. f_equal. ring.
Qed.

(** The model's vectors, over exact reals. *)
Lemma vdot_RN : forall a b : list R, vdot (N:=RN) a b = Rdot a b.
Proof.
  induction a as [|x a IH]; intros [|y b]; cbn; try apply Q2R_0.
  unfold vdot, vsum, vmul in IH. cbn in IH. rewrite IH. reflexivity.
Qed.
Lemma vadd_RN : forall a b : list R, vadd (N:=RN) a b = Radd_v a b.
Proof. induction a as [|x a IH]; intros [|y b]; cbn; auto. unfold vadd in IH. rewrite IH. reflexivity. Qed.
Lemma vsub_RN : forall a b : list R, vsub (N:=RN) a b = Rsub_v a b.
Proof. induction a as [|x a IH]; intros [|y b]; cbn; auto. unfold vsub in IH. rewrite IH. reflexivity. Qed.
Lemma vscale_RN : forall c (a : list R), vscale (N:=RN) c a = Rscal c a.
Proof. reflexivity. Qed.
Lemma vneg_RN : forall a : list R, vneg (N:=RN) a = Rscal (-1) a.
Proof. intro a. unfold vneg, Rscal. apply map_ext. intro x. cbn. ring. Qed.
Lemma sum_squares_RN : forall a : list R, sum_squares (N:=RN) a = Rdot a a.
Proof. intro. apply vdot_RN. Qed.

(** ** Transposed products *)
Lemma Radd_v_map : forall {A} (f g : A -> R) l, Radd_v (map f l) (map g l) = map (fun x => f x + g x)%R l.
Proof. induction l; cbn; congruence. Qed.

Lemma map_nth_seq : forall (row : list R), map (fun j => nth j row 0%R) (seq 0 (length row)) = row.
Proof.
  induction row as [|x row IH]; [reflexivity|]. cbn [length seq map nth]. f_equal.
  rewrite <- seq_shift, map_map. exact IH.
Qed.

Lemma tmvec_nil : forall n x, tmvec n [] x = zerov n.
Proof.
  intros n x. unfold tmvec, zerov. replace (repeat 0 n) with (map (fun _ : nat => 0) (seq 0 n)).
  - apply map_ext. intro j. destruct x; reflexivity.
  - generalize 0%nat. induction n; cbn; intro; f_equal; auto.
Qed.
Lemma tmvec_nil_r : forall n A, tmvec n A [] = zerov n.
Proof.
  intros n A. rewrite <- (tmvec_nil n []). unfold tmvec. apply map_ext. intro j. destruct A; reflexivity.
Qed.

Lemma tmvec_cons : forall n row A a x, length row = n ->
  tmvec n (row :: A) (a :: x) = Radd_v (Rscal a row) (tmvec n A x).
Proof.
  intros n row A a x H. unfold tmvec.
  replace (Rscal a row) with (Rscal a (map (fun j => nth j row 0%R) (seq 0 n)))
    by (rewrite <- H, map_nth_seq; reflexivity).
  unfold Rscal. rewrite map_map, Radd_v_map.
  apply map_ext. intro j. unfold column. cbn [map Rdot]. ring.
Qed.

Lemma tmvec_length : forall n A x, length (tmvec n A x) = n.
Proof. intros. unfold tmvec. rewrite map_length, seq_length. reflexivity. Qed.

Lemma tmvec_adjoint : forall m n A x d, mat m n A -> length d = n ->
  Rdot (tmvec n A x) d = Rdot x (mvec A d).
Proof.
  intros m n A. revert m. induction A as [|row A IH]; intros m x d [HL HF] Hd.
  - rewrite tmvec_nil, Rdot_0_l. destruct x; reflexivity.
  - destruct x as [|a x]; [rewrite tmvec_nil_r, Rdot_0_l; reflexivity|].
    inversion HF; subst. rewrite tmvec_cons by assumption.
    rewrite Rdot_add_l by (rewrite Rscal_length, tmvec_length; assumption).
    rewrite Rdot_scal_l. cbn. rewrite (IH (length A)) by (repeat split; auto). reflexivity.
Qed.
