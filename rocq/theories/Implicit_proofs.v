(** Implicit differentiation: proofs. *)

From Coq Require Import List Bool QArith Qreals Reals Lra Lia.
From Coquelicot Require Import Coquelicot.
From Verif Require Import Num NumFacts Vec Results Iterate Search RootFind Implicit Spec_Vec Spec_Lin
  VecFacts LinFacts Spec_Implicit ImplicitFacts.
Import ListNotations.
Local Open Scope R_scope.

Lemma firstn_app_exact : forall (p rest : list R) k, length p = k -> firstn k (p ++ rest) = p.
Proof. intros p rest k <-. rewrite firstn_app, Nat.sub_diag, firstn_all. simpl. apply app_nil_r. Qed.

Lemma jacobian2_ext : forall n k m F G y p A B,
  (forall y p, length y = n -> length p = k -> F y p = G y p) ->
  jacobian2_at n k m G y p A B -> jacobian2_at n k m F y p A B.
Proof.
  intros n k m F G y p A B E (Ly & Lp & LF & MA & MB & D).
  split; [auto|]. split; [auto|]. split; [intros; rewrite E; auto|]. split; [auto|]. split; [auto|].
  intros eps Pe. destruct (D eps Pe) as (d & Pd & H). exists d. split; auto.
  intros h g Lh Lg Hh Hg. rewrite !E by auto using Radd_v_length. auto.
Qed.
Lemma jacobian_ext : forall n m f g x J, (forall x, length x = n -> f x = g x) ->
  jacobian_at n m g x J -> jacobian_at n m f x J.
Proof.
  intros n m f g x J E (Lx & Mg & MJ & D).
  split; [auto|]. split; [intros z Lz; rewrite E; auto|]. split; [auto|].
  intros eps Pe. destruct (D eps Pe) as (d & Pd & H). exists d. split; auto.
  intros h Lh Hh. rewrite !E by auto using Radd_v_length. auto.
Qed.

(** The common core: a rewrite function that vanishes along the branch. *)
Lemma tangent_of_branch : forall jvp jacT lsolve (F : list R -> list R -> list R) n k y p0 A Ainv B,
  jvp_correct jvp -> solves_invertible n lsolve -> branch n k y p0 ->
  jacobian2_at n k n F (y p0) p0 A B -> mat n n Ainv -> inverses n A Ainv ->
  near k p0 (fun p => F (y p) p = zerov n) ->
  exists J, jacobian_at k n y p0 J /\
    forall (rest : list R) (t : list (option R)), length t = (k + length rest)%nat ->
      value_tangent (N:=RN) jvp jacT lsolve k F (y p0) (p0 ++ rest) t
        = Ret (mvec J (firstn k (filled t))).
Proof.
  intros jvp jacT lsolve F n k y p0 A Ainv B CJ CS BR D MI INV ROOT.
  exists (implicit_matrix k Ainv B). split.
  - eapply implicit_derivative; eauto.
  - intros rest t Lt. assert (Lp : length p0 = k) by apply BR.
    eapply tangent_value; eauto.
    + rewrite firstn_app_exact; eauto.
    + rewrite app_length, Lp. exact Lt.
Qed.

(** C51: root_find, with a root finder or a least-squares solver *)
Lemma C51_root_find_pf :
  forall jvp jacT grad lsolve (Aux : Type) (s : any_solver (N:=RN))
    (fn : list R -> list R -> list R * Aux) n k y p0 A Ainv B,
  jvp_correct jvp -> solves_invertible n lsolve ->
  (forall m norm atol, s <> AMinimiser m norm atol) ->
  branch n k y p0 ->
  near k p0 (fun p => fst (fn (y p) p) = zerov n) ->
  jacobian2_at n k n (fun y p => fst (fn y p)) (y p0) p0 A B ->
  mat n n Ainv -> inverses n A Ainv ->
  exists J, jacobian_at k n y p0 J /\
    forall (rest : list R) (t : list (option R)), length t = (k + length rest)%nat ->
      value_tangent (N:=RN) jvp jacT lsolve k (root_find_rewrite (N:=RN) grad s fn) (y p0) (p0 ++ rest) t
        = Ret (mvec J (firstn k (filled t))).
Proof.
  intros jvp jacT grad lsolve Aux s fn n k y p0 A Ainv B CJ CS NM BR ROOT D MI INV.
  assert (E : forall y p, root_find_rewrite (N:=RN) grad s fn y p = fst (fn y p)).
  { intros v p. destruct s as [s|s|s nm a|s nm a]; cbn; auto.
    - unfold rewrite_root, to_lstsq_fn. destruct (fn v p); reflexivity.
    - exfalso. eapply NM. reflexivity. }
  eapply tangent_of_branch; eauto.
  - eapply jacobian2_ext; [|exact D]. intros; apply E.
  - destruct ROOT as (d & Pd & H). exists d. split; auto. intros g Lg Hg. rewrite E. apply H; auto.
Qed.

(** C51: fixed_point; A and B are the derivatives of fn, and C is A - I *)
Lemma C51_fixed_point_pf :
  forall jvp jacT grad lsolve (Aux : Type) (s : any_solver (N:=RN))
    (fn : list R -> list R -> list R * Aux) n k y p0 A B C Cinv,
  jvp_correct jvp -> solves_invertible n lsolve ->
  (forall m norm atol, s <> AMinimiser m norm atol) ->
  branch n k y p0 ->
  near k p0 (fun p => fst (fn (y p) p) = y p) ->
  jacobian2_at n k n (fun y p => fst (fn y p)) (y p0) p0 A B ->
  mat n n C -> (forall x, length x = n -> mvec C x = Rsub_v (mvec A x) x) ->
  mat n n Cinv -> inverses n C Cinv ->
  exists J, jacobian_at k n y p0 J /\
    forall (rest : list R) (t : list (option R)), length t = (k + length rest)%nat ->
      value_tangent (N:=RN) jvp jacT lsolve k (fixed_point_rewrite (N:=RN) grad s fn) (y p0) (p0 ++ rest) t
        = Ret (mvec J (firstn k (filled t))).
Proof.
  intros jvp jacT grad lsolve Aux s fn n k y p0 A B C Cinv CJ CS NM BR ROOT D MC EC MI INV.
  assert (E : forall y p, fixed_point_rewrite (N:=RN) grad s fn y p = Rsub_v (fst (fn y p)) y).
  { intros v p. rewrite <- vsub_RN. destruct s as [s|s|s nm a|s nm a]; cbn; auto.
    - unfold rewrite_root, fixed_to_root_fn. destruct (fn v p); reflexivity.
    - unfold rewrite_root, to_lstsq_fn, fixed_to_root_fn. destruct (fn v p); reflexivity.
    - exfalso. eapply NM. reflexivity. }
  destruct D as (Ly & Lp & LF & MA & MB & D).
  eapply tangent_of_branch with (A := C) (Ainv := Cinv) (B := B); eauto.
  - apply (jacobian2_ext n k n _ (fun y p => Rsub_v (fst (fn y p)) y)); [intros; apply E|].
    split; [auto|]. split; [auto|]. split; [intros; apply Rsub_v_length; auto|].
    split; [auto|]. split; [auto|].
    intros eps Pe. destruct (D eps Pe) as (d & Pd & H). exists d. split; auto.
    intros h g Lh Lg Hh Hg. specialize (H h g Lh Lg Hh Hg). rewrite EC by auto.
    assert (L1 : length (fst (fn (Radd_v (y p0) h) (Radd_v p0 g))) = n) by (apply LF; apply Radd_v_length; auto).
    assert (L2 : length (fst (fn (y p0) p0)) = n) by (apply LF; auto).
    assert (L3 : length (mvec A h) = n) by (eapply mat_mvec_length; eauto).
    assert (L4 : length (mvec B g) = n) by (eapply mat_mvec_length; eauto).
    revert H. generalize (y p0) (fst (fn (Radd_v (y p0) h) (Radd_v p0 g))) (fst (fn (y p0) p0)) (mvec A h) (mvec B g) L1 L2 L3 L4 Ly.
    intros q a b c e K1 K2 K3 K4 K5 H.
    match goal with |- Rmax_norm ?u <= _ => match type of H with Rmax_norm ?w <= _ => replace u with w; [exact H|] end end.
    clear - K1 K2 K3 K4 K5 Lh.
    revert b c e q h n K1 K2 K3 K4 K5 Lh. induction a as [|a0 a IH]; intros [|b0 b] [|c0 c] [|e0 e] [|q0 q] [|h0 h] n K1 K2 K3 K4 K5 Lh;
      simpl in *; try congruence. f_equal; [ring|]. apply (IH _ _ _ _ _ (pred n)); lia.
  - destruct ROOT as (d & Pd & H). exists d. split; auto. intros g Lg Hg. rewrite E, H by auto.
    rewrite Rsub_v_self. f_equal. apply BR. destruct BR as (Lp0 & _). apply Radd_v_length; auto.
Qed.

(** C51: minimise; G is the gradient of fn in its first argument, H and B are
    the derivatives of G *)
Lemma C51_minimise_pf :
  forall jvp jacT grad lsolve (Aux : Type) (fn : list R -> list R -> R * Aux) G n k y p0 H Hinv B,
  jvp_correct jvp -> grad_correct grad -> solves_invertible n lsolve ->
  branch n k y p0 ->
  near k p0 (fun p => local_min n (fun x => fst (fn x p)) (y p)) ->
  (forall y p, length y = n -> length p = k -> gradient_at n (fun x => fst (fn x p)) y (G y p)) ->
  jacobian2_at n k n G (y p0) p0 H B ->
  mat n n Hinv -> inverses n H Hinv ->
  exists J, jacobian_at k n y p0 J /\
    forall (rest : list R) (t : list (option R)), length t = (k + length rest)%nat ->
      value_tangent (N:=RN) jvp jacT lsolve k (rewrite_min (N:=RN) grad fn) (y p0) (p0 ++ rest) t
        = Ret (mvec J (firstn k (filled t))).
Proof.
  intros jvp jacT grad lsolve Aux fn G n k y p0 H Hinv B CJ (_ & CG) CS BR MIN GR D MI INV.
  assert (E : forall y p, length y = n -> length p = k -> rewrite_min (N:=RN) grad fn y p = G y p).
  { intros v p Lv Lp. unfold rewrite_min. eapply CG. apply GR; auto. }
  eapply tangent_of_branch; eauto.
  - eapply jacobian2_ext; [|exact D]. apply E.
  - destruct MIN as (d & Pd & M). exists d. split; auto. intros g Lg Hg.
    destruct BR as (Lp0 & My & _).
    assert (Lq : length (Radd_v p0 g) = k) by (apply Radd_v_length; auto).
    rewrite E by auto. eapply fermat; [apply GR; auto|]. apply M; auto.
Qed.

(** C51: least_squares, with any solver *)
Lemma C51_least_squares_pf :
  forall jvp jacT grad lsolve (Aux : Type) (s : any_solver (N:=RN))
    (fn : list R -> list R -> list R * Aux) G n k y p0 H Hinv B,
  jvp_correct jvp -> grad_correct grad -> solves_invertible n lsolve ->
  branch n k y p0 ->
  near k p0 (fun p => local_min n (fun x => 1/2 * Rdot (fst (fn x p)) (fst (fn x p))) (y p)) ->
  (forall y p, length y = n -> length p = k ->
     gradient_at n (fun x => 1/2 * Rdot (fst (fn x p)) (fst (fn x p))) y (G y p)) ->
  jacobian2_at n k n G (y p0) p0 H B ->
  mat n n Hinv -> inverses n H Hinv ->
  exists J, jacobian_at k n y p0 J /\
    forall (rest : list R) (t : list (option R)), length t = (k + length rest)%nat ->
      value_tangent (N:=RN) jvp jacT lsolve k (least_squares_rewrite (N:=RN) grad s fn) (y p0) (p0 ++ rest) t
        = Ret (mvec J (firstn k (filled t))).
Proof.
  intros jvp jacT grad lsolve Aux s fn G n k y p0 H Hinv B CJ CG0 CS BR MIN GR D MI INV.
  pose proof CG0 as (_ & CG).
  assert (EO : forall r : list R, nmul (n:=RN) (nofQ (n:=RN) (1#2)) (sum_squares (N:=RN) r) = 1/2 * Rdot r r).
  { intro r. rewrite sum_squares_RN. cbn. unfold Q2R. simpl. lra. }
  assert (E : forall y p, length y = n -> length p = k -> least_squares_rewrite (N:=RN) grad s fn y p = G y p).
  { intros v p Lv Lp.
    assert (E1 : rewrite_lstsq (N:=RN) grad fn v p = G v p).
    { unfold rewrite_lstsq. apply (CG n). eapply jacobian_ext; [|apply GR; auto]. intros x Lx. cbv beta. f_equal. apply EO. }
    destruct s; cbn; auto.
    unfold rewrite_min. apply (CG n). eapply jacobian_ext; [|apply GR; auto]. intros x Lx. cbv beta. f_equal.
    unfold lstsq_to_minimise_fn. destruct (fn x p) as [r a]. cbn [fst]. apply EO. }
  eapply tangent_of_branch; eauto.
  - eapply jacobian2_ext; [|exact D]. apply E.
  - destruct MIN as (d & Pd & M). exists d. split; auto. intros g Lg Hg.
    destruct BR as (Lp0 & My & _).
    assert (Lq : length (Radd_v p0 g) = k) by (apply Radd_v_length; auto).
    rewrite E by auto. eapply fermat; [apply GR; auto|]. apply M; auto.
Qed.

(** ** A correct differentiator *)
Definition jvp_real (f : list R -> list R) (x t : list R) : list R :=
  map (fun i => Derive (fun s => nth i (f (Radd_v x (Rscal s t))) 0) 0) (seq 0 (length (f x))).
Definition unit_v (n i : nat) : list R := map (fun j => if Nat.eqb i j then 1 else 0) (seq 0 n).
Definition grad_real (f : list R -> R) (x : list R) : list R :=
  map (fun i => hd 0 (jvp_real (fun z => [f z]) x (unit_v (length x) i))) (seq 0 (length x)).

Lemma norm_nth : forall v i, Rabs (nth i v 0) <= Rmax_norm v.
Proof.
  intros v i. destruct (nth_error v i) as [z|] eqn:E.
  - rewrite (nth_error_nth _ _ _ E). eapply Rmax_norm_nth; eauto.
  - apply nth_error_None in E. rewrite nth_overflow, Rabs_R0 by auto. apply Rmax_norm_pos.
Qed.
Lemma nth_sub : forall a b i, length a = length b -> nth i (Rsub_v a b) 0 = nth i a 0 - nth i b 0.
Proof.
  induction a as [|x a IH]; intros [|y b] [|i] L; simpl in *; try discriminate; auto; try ring.
Qed.
Lemma nth_scal : forall c a i, nth i (Rscal c a) 0 = c * nth i a 0.
Proof. intros c a. induction a as [|x a IH]; intros [|i]; simpl; auto; ring. Qed.

Lemma scal_0 : forall a, Rscal 0 a = zerov (length a).
Proof. induction a as [|x a IH]; [reflexivity|]. cbn. f_equal; [ring|exact IH]. Qed.

Lemma jvp_real_component : forall n m f x J t i, jacobian_at n m f x J -> length t = n ->
  is_derive (fun s => nth i (f (Radd_v x (Rscal s t))) 0) 0 (nth i (mvec J t) 0).
Proof.
  intros n m f x J t i (Lx & Mf & MJ & D) Lt. apply is_derive_Reals. intros eps Pe.
  set (nt := Rmax_norm t). assert (Pn : 0 <= nt) by apply Rmax_norm_pos.
  assert (Pe' : 0 < eps / (2 * (nt + 1))) by (apply Rdiv_lt_0_compat; lra).
  destruct (D _ Pe') as (d & Pd & H).
  assert (Pd' : 0 < d / (nt + 1)) by (apply Rdiv_lt_0_compat; lra).
  exists (mkposreal _ Pd'). intros s Ns Hs. simpl in Hs.
  rewrite Rplus_0_l.
  assert (E0 : Radd_v x (Rscal 0 t) = x).
  { rewrite scal_0, Lt. apply add_zero_r. auto. }
  rewrite E0.
  assert (Lst : length (Rscal s t) = n) by (rewrite Rscal_length; auto).
  specialize (H (Rscal s t) Lst).
  rewrite norm_scal in H. fold nt in H. pose proof (Rabs_pos s).
  assert (Hsm : Rabs s * nt < d).
  { apply (Rmult_lt_compat_r (nt + 1)) in Hs; [|lra].
    replace (d / (nt + 1) * (nt + 1)) with d in Hs by (field; lra). nra. }
  specialize (H Hsm).
  assert (Lf1 : length (f (Radd_v x (Rscal s t))) = m) by (apply Mf; apply Radd_v_length; auto).
  assert (Lf0 : length (f x) = m) by auto.
  pose proof (norm_nth (Rsub_v (Rsub_v (f (Radd_v x (Rscal s t))) (f x)) (mvec J (Rscal s t))) i) as B.
  rewrite nth_sub in B by (rewrite (Rsub_v_length _ _ m), (mat_mvec_length m n) by auto; auto).
  rewrite nth_sub in B by congruence. rewrite mvec_scal, nth_scal in B.
  set (df := nth i (f (Radd_v x (Rscal s t))) 0 - nth i (f x) 0) in *. set (l := nth i (mvec J t) 0) in *.
  rewrite mvec_scal in H.
  replace (df / s - l) with ((df - s * l) / s) by (field; auto).
  unfold Rdiv at 1. rewrite Rabs_mult, Rabs_inv.
  assert (Ps : 0 < Rabs s) by (apply Rabs_pos_lt; auto).
  apply Rmult_lt_reg_r with (Rabs s); auto. rewrite Rmult_assoc, Rinv_l, Rmult_1_r by lra.
  eapply Rle_lt_trans; [exact B|]. eapply Rle_lt_trans; [exact H|].
  replace (eps / (2 * (nt + 1)) * (Rabs s * nt)) with (eps * Rabs s * (nt / (2 * (nt + 1)))) by (field; lra).
  assert (nt / (2 * (nt + 1)) < 1).
  { apply Rmult_lt_reg_r with (2 * (nt + 1)); [lra|].
    replace (nt / (2 * (nt + 1)) * (2 * (nt + 1))) with nt by (field; lra). lra. }
  assert (0 < eps * Rabs s) by (apply Rmult_lt_0_compat; auto). nra.
Qed.
Lemma map_nth_seq0 : forall (v : list R), map (fun i => nth i v 0) (seq 0 (length v)) = v.
Proof. exact map_nth_seq. Qed.
Lemma jvp_real_correct : jvp_correct jvp_real.
Proof.
  intros n m f x J t D Lt. unfold jvp_real.
  assert (Lf : length (f x) = m) by (apply D; apply D).
  assert (Lm : length (mvec J t) = m) by (eapply mat_mvec_length; apply D).
  rewrite Lf, <- Lm. rewrite <- (map_nth_seq (mvec J t)) at 2. apply map_ext. intro i.
  apply is_derive_unique. eapply jvp_real_component; eauto.
Qed.
Lemma dot_unit_from : forall g i k n, length g = n ->
  Rdot g (map (fun j => if Nat.eqb i j then 1 else 0) (seq k n)) = if Nat.leb k i then nth (i - k) g 0 else 0.
Proof.
  induction g as [|a g IH]; intros i k [|n] L; simpl in *; try discriminate.
  - destruct (Nat.leb k i); [destruct (i - k)%nat|]; reflexivity.
  - rewrite IH by lia. destruct (Nat.eqb_spec i k) as [->|N].
    + rewrite Nat.leb_refl, Nat.sub_diag. replace (Nat.leb (S k) k) with false by (symmetry; apply Nat.leb_gt; lia). simpl. ring.
    + destruct (Nat.leb_spec k i).
      * replace (Nat.leb (S k) i) with true by (symmetry; apply Nat.leb_le; lia).
        replace (i - k)%nat with (S (i - S k)) by lia. simpl. ring.
      * replace (Nat.leb (S k) i) with false by (symmetry; apply Nat.leb_gt; lia). ring.
Qed.
Lemma dot_unit : forall g i n, length g = n -> Rdot g (unit_v n i) = nth i g 0.
Proof. intros g i n L. unfold unit_v. rewrite dot_unit_from by auto. simpl. rewrite Nat.sub_0_r. reflexivity. Qed.
Lemma grad_real_correct : grad_correct grad_real.
Proof.
  split.
  - intros f x. unfold grad_real. rewrite map_length, seq_length. reflexivity.
  - intros n f x g D.
    assert (Lx : length x = n) by apply D.
    assert (Lg : length g = n) by (destruct D as (_ & _ & (_ & F) & _); inversion F; auto).
    unfold grad_real. rewrite Lx, <- Lg. rewrite <- (map_nth_seq g) at 2. apply map_ext. intro i.
    rewrite (jvp_real_correct _ _ _ _ _ (unit_v (length g) i) D)
      by (unfold unit_v; rewrite map_length, seq_length; auto).
    simpl. apply dot_unit. reflexivity.
Qed.

(** Division solves every invertible 1 x 1 system. *)
Definition divide (op : linop RN) (b : list R) : list R * results :=
  ([hd 0 b / hd 0 (op_mv op [1])], successful).
Lemma divide_solves : solves_invertible 1 divide.
Proof.
  intros op A B b (LA & RA) (LB & RB) INV Lb E.
  destruct A as [|[|a [|]] [|]]; try discriminate; inversion RA as [|? ? H ?]; try discriminate.
  destruct B as [|[|c [|]] [|]]; try discriminate; inversion RB as [|? ? H' ?]; try discriminate.
  destruct b as [|b [|]]; try discriminate.
  destruct (INV [1] eq_refl) as (I1 & _). cbn in I1. injection I1 as I1.
  assert (a <> 0) by (intro; subst; lra).
  exists [b / a]. unfold divide. rewrite (E [1] eq_refl). cbn. split; [|split; auto].
  - do 2 f_equal. f_equal. ring.
  - f_equal. field. auto.
Qed.

(** ** Examples *)
Lemma norm1 : forall x, Rmax_norm [x] = Rabs x.
Proof. intro x. simpl. apply Rmax_left. apply Rabs_pos. Qed.
Lemma mat1 : forall a : R, mat 1 1 [[a]].
Proof. intro a. split; auto. Qed.
Lemma inverses1 : forall a b, a * b = 1 -> inverses 1 [[a]] [[b]].
Proof.
  intros a b E [|x [|]] L; try discriminate. cbn. split; f_equal; (transitivity (a * b * x); [ring|rewrite E; ring]).
Qed.
Lemma jacobian2_1 : forall f y p a b,
  (forall eps, 0 < eps -> exists delta, 0 < delta /\ forall h g, Rabs h < delta -> Rabs g < delta ->
     Rabs (f (y + h) (p + g) - f y p - (a * h + b * g)) <= eps * Rmax (Rabs h) (Rabs g)) ->
  jacobian2_at 1 1 1 (fun y p => [f (hd 0 y) (hd 0 p)]) [y] [p] [[a]] [[b]].
Proof.
  intros f y p a b D. repeat split; auto using mat1. intros eps Pe. destruct (D eps Pe) as (d & Pd & H).
  exists d. split; auto. intros [|h [|]] [|g [|]] Lh Lg; try discriminate. rewrite !norm1. intros Hh Hg.
  specialize (H h g Hh Hg). cbn [Radd_v mvec map Rdot Rsub_v hd]. rewrite norm1.
  replace (a * h + 0 + (b * g + 0)) with (a * h + b * g) by ring. exact H.
Qed.
Lemma gradient1 : forall f x g,
  (forall eps, 0 < eps -> exists delta, 0 < delta /\ forall h, Rabs h < delta ->
     Rabs (f (x + h) - f x - g * h) <= eps * Rabs h) ->
  gradient_at 1 (fun x => f (hd 0 x)) [x] [g].
Proof.
  intros f x g D. repeat split; auto. intros eps Pe. destruct (D eps Pe) as (d & Pd & H).
  exists d. split; auto. intros [|h [|]] Lh; try discriminate. rewrite !norm1. intros Hh.
  specialize (H h Hh). cbn [Radd_v mvec map Rdot Rsub_v hd]. rewrite norm1.
  replace (g * h + 0) with (g * h) by ring. exact H.
Qed.
Lemma near1 : forall p d (P : list R -> Prop), 0 < d -> (forall g, Rabs g < d -> P [p + g]) -> near 1 [p] P.
Proof.
  intros p d P Pd H. exists d. split; auto. intros [|g [|]] L Hg; try discriminate.
  rewrite norm1 in Hg. apply H; auto.
Qed.
Lemma branch1 : forall y p, (forall eps, 0 < eps -> exists d, 0 < d /\ forall g, Rabs g < d -> Rabs (y (p + g) - y p) < eps) ->
  branch 1 1 (fun q => [y (hd 0 q)]) [p].
Proof.
  intros y p C. repeat split; auto. intros eps Pe. destruct (C eps Pe) as (d & Pd & H).
  apply (near1 p d); auto. intros g Hg. cbn [Rsub_v hd]. rewrite norm1. auto.
Qed.
Lemma square_small : forall c h g eps, 0 <= c -> 0 < eps -> Rabs h < eps / (c + 1) -> 
  Rabs (c * (h * h)) <= eps * Rmax (Rabs h) g.
Proof.
  intros c h g eps Pc Pe Hh. rewrite !Rabs_mult, (Rabs_right c) by lra.
  pose proof (Rabs_pos h). pose proof (Rmax_l (Rabs h) g).
  assert (c * Rabs h <= eps).
  { apply (Rmult_lt_compat_r (c + 1)) in Hh; [|lra]. replace (eps / (c + 1) * (c + 1)) with eps in Hh by (field; lra). nra. }
  nra.
Qed.

(** C51: the root of y^2 = p at p = 4 is 2, and its derivative 1/4, whatever the
    starting point (here 7) and its tangent (5) *)
Lemma C51_root_find_ex_pf : forall r jacT,
  jacobian_at 1 1 (fun p => [sqrt (hd 0 p)]) [4] [[1/4]] /\
  value_tangent (N:=RN) jvp_real jacT divide 1
    (root_find_rewrite (N:=RN) grad_real (ARootFinder r)
       (fun y p => ([hd 0 y * hd 0 y - hd 0 p], tt))) [2] [4; 7] [Some 1; Some 5] = Ret [1/4].
Proof.
  intros r jacT.
  set (F := fun y p : list R => [hd 0 y * hd 0 y - hd 0 p]).
  assert (S4 : sqrt 4 = 2) by (replace 4 with (2 * 2) by ring; apply sqrt_square; lra).
  assert (D : jacobian2_at 1 1 1 F [2] [4] [[4]] [[-1]]).
  { apply (jacobian2_1 (fun y p => y * y - p)). intros eps Pe. exists eps. split; auto.
    intros h g Hh Hg. replace ((2 + h) * (2 + h) - (4 + g) - (2 * 2 - 4) - (4 * h + -1 * g)) with (1 * (h * h)) by ring.
    rewrite Rmult_1_l, Rabs_mult. pose proof (Rabs_pos h). pose proof (Rmax_l (Rabs h) (Rabs g)). nra. }
  assert (BR : branch 1 1 (fun p => [sqrt (hd 0 p)]) [4]).
  { apply branch1. intros eps Pe. exists (Rmin 4 eps). split; [apply Rmin_glb_lt; lra|].
    intros g Hg. pose proof (Rmin_l 4 eps). pose proof (Rmin_r 4 eps). rewrite S4.
    assert (P : 0 <= 4 + g) by (pose proof (Rle_abs (- g)); rewrite Rabs_Ropp in *; lra).
    pose proof (sqrt_pos (4 + g)) as P2. pose proof (sqrt_sqrt _ P) as P3. set (q := sqrt (4 + g)) in *.
    assert (E : (q - 2) * (q + 2) = g) by nra.
    assert (E2 : Rabs (q - 2) * (q + 2) = Rabs g) by (rewrite <- E, Rabs_mult, (Rabs_right (q + 2)); lra).
    pose proof (Rabs_pos (q - 2)). nra. }
  assert (INV : inverses 1 [[4]] [[1/4]]) by (apply inverses1; lra).
  assert (EJ : implicit_matrix 1 [[1/4]] [[-1]] = [[1/4]]).
  { cbn. do 2 f_equal. lra. }
  split.
  - rewrite <- EJ. apply (implicit_derivative 1 1 F _ _ [[4]]); auto using mat1.
    + cbn [hd]. rewrite S4. exact D.
    + apply (near1 4 4); [lra|]. intros g Hg. unfold F. cbn [hd].
      rewrite sqrt_sqrt by (pose proof (Rle_abs (- g)); rewrite Rabs_Ropp in *; lra).
      unfold zerov. cbn. f_equal. ring.
  - etransitivity; [apply (tangent_value 1 1 F [2] [[4]] [[1/4]] [[-1]] [4; 7] [Some 1; Some 5] jvp_real);
      auto using mat1, jvp_real_correct, divide_solves|].
    rewrite EJ. cbn. do 2 f_equal. lra.
Qed.

Lemma jacobian_unique : forall n m f x J K t, jacobian_at n m f x J -> jacobian_at n m f x K -> length t = n ->
  mvec J t = mvec K t.
Proof.
  intros n m f x J K t DJ DK Lt.
  rewrite <- (jvp_real_correct _ _ _ _ _ t DJ Lt). apply (jvp_real_correct _ _ _ _ _ t DK Lt).
Qed.
Lemma jacobian1 : forall f x a,
  (forall eps, 0 < eps -> exists delta, 0 < delta /\ forall h, Rabs h < delta ->
     Rabs (f (x + h) - f x - a * h) <= eps * Rabs h) ->
  jacobian_at 1 1 (fun x => [f (hd 0 x)]) [x] [[a]].
Proof. exact gradient1. Qed.
Lemma use_branch : forall (Tan : list R -> list (option R) -> outcome (list R)) y p0 K,
  (exists J, jacobian_at 1 1 y [p0] J /\
     forall (rest : list R) (t : list (option R)), length t = (1 + length rest)%nat ->
       Tan rest t = Ret (mvec J (firstn 1 (filled t)))) ->
  jacobian_at 1 1 y [p0] K ->
  forall rest t, length t = (1 + length rest)%nat -> Tan rest t = Ret (mvec K (firstn 1 (filled t))).
Proof.
  intros Tan y p0 K (J & DJ & H) DK rest t Lt. rewrite H by auto. f_equal.
  eapply jacobian_unique; eauto. unfold filled. rewrite firstn_length, map_length, Lt. reflexivity.
Qed.
Lemma square_jacobian : forall a, jacobian_at 1 1 (fun p => [hd 0 p * hd 0 p]) [a] [[2 * a]].
Proof.
  intro a. apply (jacobian1 (fun p => p * p)). intros eps Pe. exists eps. split; auto. intros h Hh.
  replace ((a + h) * (a + h) - a * a - 2 * a * h) with (h * h) by ring. rewrite Rabs_mult.
  pose proof (Rabs_pos h). nra.
Qed.
Lemma square_branch : forall a, branch 1 1 (fun p => [hd 0 p * hd 0 p]) [a].
Proof.
  intro a. apply (branch1 (fun p => p * p)). intros eps Pe. pose proof (Rabs_pos a).
  exists (Rmin 1 (eps / (2 * Rabs a + 2))).
  assert (0 < eps / (2 * Rabs a + 2)) by (apply Rdiv_lt_0_compat; lra).
  split; [apply Rmin_glb_lt; lra|]. intros g Hg.
  pose proof (Rmin_l 1 (eps / (2 * Rabs a + 2))). pose proof (Rmin_r 1 (eps / (2 * Rabs a + 2))).
  replace ((a + g) * (a + g) - a * a) with ((2 * a + g) * g) by ring. rewrite Rabs_mult.
  assert (Rabs (2 * a + g) <= 2 * Rabs a + 1).
  { eapply Rle_trans; [apply Rabs_triang|]. rewrite Rabs_mult, (Rabs_right 2) by lra. lra. }
  assert (Hg2 : Rabs g * (2 * Rabs a + 2) < eps).
  { apply Rlt_le_trans with (eps / (2 * Rabs a + 2) * (2 * Rabs a + 2)); [|apply Req_le; field; lra].
    apply Rmult_lt_compat_r; lra. }
  pose proof (Rabs_pos g). pose proof (Rabs_pos (2 * a + g)). nra.
Qed.

(** C51: y = y/2 + p has the fixed point 2p, with derivative 2; the starting
    point (100) is not differentiated *)
Lemma C51_fixed_point_ex_pf : forall s jacT,
  value_tangent (N:=RN) jvp_real jacT divide 1
    (fixed_point_rewrite (N:=RN) grad_real (AFixedPoint s)
       (fun y p => ([hd 0 y / 2 + hd 0 p], tt))) [6] [3; 100] [Some 1; None] = Ret [2].
Proof.
  intros s jacT.
  assert (BR : branch 1 1 (fun p => [2 * hd 0 p]) [3]).
  { apply (branch1 (fun p => 2 * p)). intros eps Pe. exists (eps / 2). split; [lra|]. intros g Hg.
    replace (2 * (3 + g) - 2 * 3) with (2 * g) by ring. rewrite Rabs_mult, (Rabs_right 2); lra. }
  assert (DK : jacobian_at 1 1 (fun p => [2 * hd 0 p]) [3] [[2]]).
  { apply (jacobian1 (fun p => 2 * p)). intros eps Pe. exists 1. split; [lra|]. intros h _.
    replace (2 * (3 + h) - 2 * 3 - 2 * h) with 0 by ring. rewrite Rabs_R0.
    apply Rmult_le_pos; [lra|apply Rabs_pos]. }
  pose proof (C51_fixed_point_pf jvp_real jacT grad_real divide unit (AFixedPoint s)
    (fun y p => ([hd 0 y / 2 + hd 0 p], tt)) 1 1 (fun p => [2 * hd 0 p]) [3] [[1/2]] [[1]] [[-1/2]] [[-2]]
    jvp_real_correct divide_solves ltac:(discriminate) BR) as H.
  replace [6] with [2 * hd 0 [3]] by (cbn; f_equal; lra).
  etransitivity; [refine (use_branch (fun rest t => value_tangent (N:=RN) jvp_real jacT divide 1 _ [2 * hd 0 [3]] ([3] ++ rest) t) _ _ _ (H _ _ _ _ _ _) DK [100] [Some 1; None] eq_refl)|].
  - apply (near1 3 1); [lra|]. intros g _. cbn [hd fst]. f_equal. lra.
  - cbn [fst]. cbn [hd]. apply (jacobian2_1 (fun y p => y / 2 + p)). intros eps Pe. exists 1. split; [lra|].
    intros h g _ _. replace ((2 * 3 + h) / 2 + (3 + g) - (2 * 3 / 2 + 3) - (1 / 2 * h + 1 * g)) with 0 by lra.
    rewrite Rabs_R0. apply Rmult_le_pos; [lra|]. eapply Rle_trans; [apply (Rabs_pos h)|apply Rmax_l].
  - apply mat1.
  - intros [|x [|]] L; try discriminate. cbn. f_equal. lra.
  - apply mat1.
  - apply inverses1. lra.
  - cbn. do 2 f_equal. lra.
Qed.

Lemma parabola_hessian : forall y p, jacobian2_at 1 1 1 (fun y p => [hd 0 y - hd 0 p * hd 0 p]) [y] [p] [[1]] [[- (2 * p)]].
Proof.
  intros y p. apply (jacobian2_1 (fun y p => y - p * p)). intros eps Pe. exists eps. split; auto.
  intros h g Hh Hg. replace (y + h - (p + g) * (p + g) - (y - p * p) - (1 * h + - (2 * p) * g)) with (- (g * g)) by ring.
  rewrite Rabs_Ropp, Rabs_mult. pose proof (Rabs_pos g). pose proof (Rmax_r (Rabs h) (Rabs g)). nra.
Qed.
Lemma parabola_gradient : forall c x q, gradient_at 1 (fun x => 1/2 * ((hd 0 x - q) * (hd 0 x - q) + c)) [x] [x - q].
Proof.
  intros c x q. apply (gradient1 (fun x => 1/2 * ((x - q) * (x - q) + c))). intros eps Pe. exists eps. split; auto.
  intros h Hh. 
  replace (1/2 * ((x + h - q) * (x + h - q) + c) - 1/2 * ((x - q) * (x - q) + c) - (x - q) * h) with (1/2 * (h * h)) by field.
  rewrite !Rabs_mult, (Rabs_right (1/2)) by lra. pose proof (Rabs_pos h). nra.
Qed.

(** C51: (y - p^2)^2 / 2 is least at y = p^2, with derivative 2p (here p = 3) *)
Lemma C51_minimise_ex_pf : forall jacT,
  value_tangent (N:=RN) jvp_real jacT divide 1
    (rewrite_min (N:=RN) grad_real
       (fun y p => (1/2 * ((hd 0 y - hd 0 p * hd 0 p) * (hd 0 y - hd 0 p * hd 0 p) + 0), tt)))
    [9] [3; 100] [Some 1; Some 20] = Ret [6].
Proof.
  intros jacT.
  set (fn := fun y p : list R => (1/2 * ((hd 0 y - hd 0 p * hd 0 p) * (hd 0 y - hd 0 p * hd 0 p) + 0), tt)).
  pose proof (C51_minimise_pf jvp_real jacT grad_real divide unit fn
    (fun y p => [hd 0 y - hd 0 p * hd 0 p]) 1 1 (fun p => [hd 0 p * hd 0 p]) [3] [[1]] [[1]] [[- (2 * 3)]]
    jvp_real_correct grad_real_correct divide_solves (square_branch 3)) as H.
  replace [9] with [hd 0 [3] * hd 0 [3]] by (cbn; f_equal; lra).
  etransitivity; [refine (use_branch (fun rest t => value_tangent (N:=RN) jvp_real jacT divide 1 _ [hd 0 [3] * hd 0 [3]] ([3] ++ rest) t) _ _ _ (H _ _ _ _ _) (square_jacobian 3) [100] [Some 1; Some 20] eq_refl)|].
  - apply (near1 3 1); [lra|]. intros g _. exists 1. split; [lra|]. intros [|h [|]] L _; try discriminate.
    cbn. nra.
  - intros [|y [|]] [|p [|]] Ly Lp; try discriminate. cbn [hd fst fn]. apply (parabola_gradient 0).
  - apply parabola_hessian.
  - apply mat1.
  - apply inverses1. lra.
  - cbn. do 2 f_equal. lra.
Qed.

(** C51: least squares with the residuals y - p^2 and 1 *)
Lemma C51_least_squares_ex_pf : forall s jacT,
  value_tangent (N:=RN) jvp_real jacT divide 1
    (least_squares_rewrite (N:=RN) grad_real s (fun y p => ([hd 0 y - hd 0 p * hd 0 p; 1], tt)))
    [9] [3; 100] [Some 1; Some 20] = Ret [6].
Proof.
  intros s jacT.
  pose proof (C51_least_squares_pf jvp_real jacT grad_real divide unit s
    (fun y p => ([hd 0 y - hd 0 p * hd 0 p; 1], tt))
    (fun y p => [hd 0 y - hd 0 p * hd 0 p]) 1 1 (fun p => [hd 0 p * hd 0 p]) [3] [[1]] [[1]] [[- (2 * 3)]]
    jvp_real_correct grad_real_correct divide_solves (square_branch 3)) as H.
  replace [9] with [hd 0 [3] * hd 0 [3]] by (cbn; f_equal; lra).
  etransitivity; [refine (use_branch (fun rest t => value_tangent (N:=RN) jvp_real jacT divide 1 _ [hd 0 [3] * hd 0 [3]] ([3] ++ rest) t) _ _ _ (H _ _ _ _ _) (square_jacobian 3) [100] [Some 1; Some 20] eq_refl)|].
  - apply (near1 3 1); [lra|]. intros g _. exists 1. split; [lra|]. intros [|h [|]] L _; try discriminate.
    cbn. nra.
  - intros [|y [|]] [|p [|]] Ly Lp; try discriminate. cbn [hd fst].
    eapply jacobian_ext; [|apply (parabola_gradient 1)]. intros [|x [|]] L; try discriminate. cbn. f_equal. ring.
  - apply parabola_hessian.
  - apply mat1.
  - apply inverses1. lra.
  - cbn. do 2 f_equal. lra.
Qed.

Lemma nmax_RN : forall a b : R, nmax (N:=RN) a b = Rmax a b.
Proof.
  intros a b. unfold nmax, nisnan. cbn. unfold Reqb, Rltb, Rmax.
  destruct (Req_EM_T a a) as [_|H]; [|congruence]. destruct (Req_EM_T b b) as [_|H]; [|congruence]. cbn.
  destruct (Rlt_dec a b), (Rle_dec a b); lra.
Qed.

(** C51 refuted for root_find with a minimiser: there the derivative of the norm
    of fn is rewritten.  For fn(y, p) = y - p, whose root is p, the tangent
    computed at any other point is the same in every direction, whatever the
    linear solver does. *)
Lemma C51_root_find_minimiser_refuted_pf :
  forall jvp jacT grad lsolve (m : PolySolver (list RN) RN) (atol p : R),
  jvp_correct jvp -> grad_correct grad ->
  exists (fn : list R -> list R -> list R * unit) (root : list R -> list R),
    (forall q, length q = 1%nat -> fst (fn (root q) q) = [0]) /\
    jacobian_at 1 1 root [p] [[1]] /\
    forall value, value <> p ->
      value_tangent (N:=RN) jvp jacT lsolve 1
        (root_find_rewrite (N:=RN) grad (AMinimiser m (max_norm (N:=RN)) atol) fn) [value] [p] [Some 1] =
      value_tangent (N:=RN) jvp jacT lsolve 1
        (root_find_rewrite (N:=RN) grad (AMinimiser m (max_norm (N:=RN)) atol) fn) [value] [p] [Some 0].
Proof.
  intros jvp jacT grad lsolve m atol p CJ (LG & CG).
  exists (fun y q => ([hd 0 y - hd 0 q], tt)), (fun q => [hd 0 q]).
  split; [intros q _; cbn; f_equal; ring|]. split.
  { apply (jacobian1 (fun p => p)). intros eps Pe. exists 1. split; [lra|]. intros h _.
    replace (p + h - p - 1 * h) with 0 by ring. rewrite Rabs_R0. apply Rmult_le_pos; [lra|apply Rabs_pos]. }
  intros value Nv.
  set (rw := root_find_rewrite (N:=RN) grad _ _).
  assert (NN : forall x : R, max_norm (N:=RN) [x] = Rabs x).
  { intro x. change (nmax (N:=RN) (Rabs x) (IZR 0 * / 1) = Rabs x). rewrite nmax_RN.
    apply Rmax_left. pose proof (Rabs_pos x). lra. }
  assert (GR : forall q, q <> value -> rw [value] [q] = [if Rlt_dec value q then -1 else 1]).
  { intros q Nq. apply (CG 1%nat).
    apply (jacobian_ext 1 1 _ (fun x => [Rabs (hd 0 x - q)])).
    - intros x _. cbn [to_minimise_fn fst hd]. f_equal. apply NN.
    - apply (gradient1 (fun x => Rabs (x - q))). intros eps Pe. exists (Rabs (value - q)).
      split; [apply Rabs_pos_lt; lra|]. intros h Hh.
      match goal with |- Rabs ?e <= _ => replace e with 0 end.
      { rewrite Rabs_R0. apply Rmult_le_pos; [lra|apply Rabs_pos]. }
      unfold Rabs in *. repeat destruct (Rcase_abs _) in *; destruct (Rlt_dec value q); lra. }
  assert (K : forall c, jvp (fun d => rw [value] (params (N:=RN) 1 (combine (N:=RN) [Some c] [p] d))) [p] [c] = [0]).
  { intro c. assert (DK : jacobian_at 1 1 (fun d => rw [value] (params (N:=RN) 1 (combine (N:=RN) [Some c] [p] d))) [p] [[0]]).
    { split; [auto|]. split; [|split; [apply mat1|]].
      - intros [|d [|]] L; try discriminate. cbn. apply LG.
      - intros eps Pe. exists (Rabs (value - p)). split; [apply Rabs_pos_lt; lra|].
        intros [|h [|]] L Hh; try discriminate. rewrite norm1 in Hh.
        assert (E1 : params (N:=RN) 1 (combine (N:=RN) [Some c] [p] (Radd_v [p] [h])) = [p + h]) by reflexivity.
        assert (E2 : params (N:=RN) 1 (combine (N:=RN) [Some c] [p] [p]) = [p]) by reflexivity.
        rewrite E1, E2, !GR.
        + cbn [mvec map Rdot Rsub_v]. rewrite !norm1.
          match goal with |- Rabs ?e <= _ => replace e with 0 end.
          { rewrite Rabs_R0. apply Rmult_le_pos; [lra|apply Rabs_pos]. }
          unfold Rabs in Hh. repeat destruct (Rcase_abs _) in Hh;
            repeat destruct (Rlt_dec _ _); lra.
        + auto.
        + unfold Rabs in Hh. repeat destruct (Rcase_abs _) in Hh; lra. }
    rewrite (CJ _ _ _ _ _ [c] DK eq_refl). cbn. f_equal. ring. }
  unfold value_tangent, implicit_tangent.
  pose proof (K 1) as K1. pose proof (K 0) as K0.
  cbv zeta.
  match goal with |- context [lsolve ?o (jvp ?a ?b ?c)] =>
    replace (jvp a b c) with [0]; try (symmetry; exact K1) end.
  match goal with |- context [lsolve ?o (jvp ?a ?b ?c)] =>
    replace (jvp a b c) with [0]; try (symmetry; exact K0) end.
  reflexivity.
Qed.
