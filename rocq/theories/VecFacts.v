(** Facts about vectors (lists of scalars). *)

From Coq Require Import List Bool Arith Lia QArith Qreals Reals Lra.
From Verif Require Import Num NumFacts Vec Spec_Vec.
Import ListNotations.
Local Open Scope nat_scope.

Lemma vmap2_length : forall A B C (f : A -> B -> C) a b,
  length (vmap2 f a b) = Nat.min (length a) (length b).
Proof. induction a as [|x a IH]; intros [|y b]; simpl; auto. Qed.
Lemma vmap2_length_eq : forall A B C (f : A -> B -> C) a b n,
  length a = n -> length b = n -> length (vmap2 f a b) = n.
Proof. intros. rewrite vmap2_length. lia. Qed.

Lemma nth_vmap2 : forall A B C (f : A -> B -> C) a b i z,
  nth_error (vmap2 f a b) i = Some z <->
  exists x y, nth_error a i = Some x /\ nth_error b i = Some y /\ z = f x y.
Proof.
  induction a as [|x a IH]; intros [|y b] [|i] z; simpl.
  all: try (split; [discriminate|intros (? & ? & ? & ? & ?); discriminate]).
  - split; [intro E; injection E as <-; eauto 6|].
    intros (x' & y' & E1 & E2 & ->). injection E1 as ->. injection E2 as ->. reflexivity.
  - apply IH.
Qed.
Lemma nth_map : forall A B (f : A -> B) a i z,
  nth_error (map f a) i = Some z <-> exists x, nth_error a i = Some x /\ z = f x.
Proof.
  induction a as [|x a IH]; intros [|i] z; simpl.
  1,2: split; [discriminate|intros (? & ? & ?); discriminate].
  - split; [intro E; injection E as <-; eauto|intros (x' & E & ->); injection E as ->; auto].
  - apply IH.
Qed.
Lemma Forall_nth : forall A (P : A -> Prop) v,
  Forall P v <-> forall i x, nth_error v i = Some x -> P x.
Proof.
  intros A P v. rewrite Forall_forall. split.
  - intros H i x E. apply H. eapply nth_error_In; eauto.
  - intros H x Hin. apply In_nth_error in Hin. destruct Hin as (i & E). eauto.
Qed.

(** ** Lifting real vectors *)

Lemma map_toR_Fin : forall v, map toR (map Fin v) = v.
Proof. intro v. rewrite map_map. simpl. apply map_id. Qed.

Lemma liftv_Fin : forall f v, liftv f (map Fin v) = (map Fin (f v), tt).
Proof. intros. unfold liftv. rewrite map_toR_Fin. reflexivity. Qed.

Lemma allfin_Fin : forall v, vallfinite (N:=XR) (map Fin v) = true.
Proof. induction v; simpl; auto. Qed.
Lemma allfin_inv : forall v, vallfinite (N:=XR) v = true -> exists w, v = map Fin w.
Proof.
  induction v as [|[x| | |] v IH]; simpl; intro H; try discriminate.
  - exists []; auto.
  - destruct (IH H) as (w & ->). exists (x :: w); auto.
Qed.

Lemma vsub_Fin : forall a b, vsub (N:=XR) (map Fin a) (map Fin b) = map Fin (Rsub_v a b).
Proof.
  induction a as [|x a IH]; intros [|y b]; try reflexivity.
  cbn [map Rsub_v]. unfold vsub in *. cbn [vmap2]. rewrite IH. reflexivity.
Qed.

Lemma Rsub_v_length : forall a b n, length a = n -> length b = n -> length (Rsub_v a b) = n.
Proof.
  induction a as [|x a IH]; intros [|y b] [|n]; simpl; intros; auto; try discriminate.
Qed.
Lemma Rsub_v_nth : forall a b i z, nth_error (Rsub_v a b) i = Some z <->
  exists x y, nth_error a i = Some x /\ nth_error b i = Some y /\ z = (x - y)%R.
Proof.
  induction a as [|x a IH]; intros [|y b] [|i] z; simpl.
  all: try (split; [discriminate|intros (? & ? & ? & ? & ?); discriminate]).
  - split; [intro E; injection E as <-; eauto 6|].
    intros (x' & y' & E1 & E2 & ->). injection E1 as ->. injection E2 as ->. reflexivity.
  - apply IH.
Qed.

(** ** The maximum norm on real vectors *)

Lemma Rmax_norm_pos : forall v, (0 <= Rmax_norm v)%R.
Proof.
  induction v as [|x v IH]; simpl; [lra|]. eapply Rle_trans; [apply IH|apply Rmax_r].
Qed.
Lemma Rmax_norm_le : forall v c, (0 <= c)%R ->
  ((Rmax_norm v <= c)%R <-> forall i x, nth_error v i = Some x -> (Rabs x <= c)%R).
Proof.
  intros v c Hc. rewrite <- Forall_nth. induction v as [|x v IH]; simpl.
  - split; auto.
  - split.
    + intro H. constructor.
      * eapply Rle_trans; [apply Rmax_l|apply H].
      * apply IH. eapply Rle_trans; [apply Rmax_r|apply H].
    + intro H. inversion H; subst. apply Rmax_lub; auto. apply IH; auto.
Qed.
Lemma Rmax_norm_lt : forall v c, (0 < c)%R ->
  ((Rmax_norm v < c)%R <-> forall i x, nth_error v i = Some x -> (Rabs x < c)%R).
Proof.
  intros v c Hc. rewrite <- Forall_nth. induction v as [|x v IH]; simpl.
  - split; auto.
  - split.
    + intro H. constructor.
      * eapply Rle_lt_trans; [apply Rmax_l|apply H].
      * apply IH. eapply Rle_lt_trans; [apply Rmax_r|apply H].
    + intro H. inversion H; subst. apply Rmax_lub_lt; auto. apply IH; auto.
Qed.
Lemma Rmax_norm_nth : forall v i x, nth_error v i = Some x -> (Rabs x <= Rmax_norm v)%R.
Proof. intros v. apply (proj1 (Rmax_norm_le v _ (Rmax_norm_pos v))). lra. Qed.

Lemma Rdist_inf_pos : forall a b, (0 <= Rdist_inf a b)%R.
Proof. intros; apply Rmax_norm_pos. Qed.
Lemma Rdist_inf_sym : forall a b, Rdist_inf a b = Rdist_inf b a.
Proof.
  unfold Rdist_inf. induction a as [|x a IH]; intros [|y b]; simpl; auto.
  rewrite IH, Rabs_minus_sym. reflexivity.
Qed.
Lemma Rdist_inf_tri : forall a b c, length a = length b -> length b = length c ->
  (Rdist_inf a c <= Rdist_inf a b + Rdist_inf b c)%R.
Proof.
  unfold Rdist_inf. induction a as [|x a IH]; intros [|y b] [|z c]; simpl; intros; try discriminate;
    try lra.
  specialize (IH b c ltac:(lia) ltac:(lia)).
  apply Rmax_lub.
  - replace (x - z)%R with ((x - y) + (y - z))%R by ring.
    eapply Rle_trans; [apply Rabs_triang|]. apply Rplus_le_compat; apply Rmax_l.
  - eapply Rle_trans; [apply IH|]. apply Rplus_le_compat; apply Rmax_r.
Qed.
Lemma Rdist_inf_0 : forall a b, length a = length b -> Rdist_inf a b = 0%R -> a = b.
Proof.
  unfold Rdist_inf. induction a as [|x a IH]; intros [|y b]; simpl; intros; try discriminate; auto.
  pose proof (Rmax_l (Rabs (x - y)) (Rmax_norm (Rsub_v a b))).
  pose proof (Rmax_r (Rabs (x - y)) (Rmax_norm (Rsub_v a b))).
  pose proof (Rmax_norm_pos (Rsub_v a b)). pose proof (Rabs_pos (x - y)).
  f_equal.
  - apply Rminus_diag_uniq. destruct (Req_dec (x - y) 0) as [|Hn]; auto.
    apply Rabs_pos_lt in Hn. lra.
  - apply IH; auto; lra.
Qed.
