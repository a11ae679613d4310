(** Global monotone convergence of Newton's method (C93). *)

From Coq Require Import String List Bool Arith Lia ZArith QArith Qreals Reals Lra Psatz.
From Verif Require Import Num NumFacts NumDiv Vec Results Iterate Spec_Iterate Iterate_proofs.
From Verif Require Import Spec_Vec VecFacts Spec_Lin LinFacts NewtonChord Spec_NewtonChord NumF64 NumF64_facts.
From Verif Require Import FixedPoint_proofs NewtonChord_proofs Spec_NewtonMono.
Import ListNotations.
Local Open Scope nat_scope.

(** ** Componentwise order *)
Lemma vle_nth : forall a b, vle a b <-> (length a = length b /\ forall i, (nth i a 0 <= nth i b 0)%R).
Proof.
  intros a b. split.
  - intros H. induction H as [| x y a b Hx H [IL IH]]; [split; [reflexivity | intros [| i]; cbn; lra] |].
    split; [cbn; congruence | intros [| i]; cbn; auto].
  - revert b. induction a as [| x a IH]; intros [| y b] [L H]; try discriminate; constructor.
    + exact (H 0).
    + apply IH. split; [cbn in L; congruence | intros i; exact (H (S i))].
Qed.
Lemma nth_sub : forall a b i, length a = length b -> nth i (Rsub_v a b) 0%R = (nth i a 0 - nth i b 0)%R.
Proof.
  induction a as [| x a IH]; intros [| y b] i L; try discriminate; destruct i; cbn; try lra.
  apply IH. cbn in L. congruence.
Qed.
Lemma nth_add : forall a b i, length a = length b -> nth i (Radd_v a b) 0%R = (nth i a 0 + nth i b 0)%R.
Proof.
  induction a as [| x a IH]; intros [| y b] i L; try discriminate; destruct i; cbn; try lra.
  apply IH. cbn in L. congruence.
Qed.
Lemma nth_scal : forall c a i, nth i (Rscal c a) 0%R = (c * nth i a 0)%R.
Proof. intros c. induction a as [| x a IH]; intros [| i]; cbn; try lra. apply IH. Qed.
Lemma nth_zero : forall n i, nth i (zerov n) 0%R = 0%R.
Proof. induction n as [| n IH]; intros [| i]; cbn; auto; apply IH. Qed.
Lemma nth_abs_le : forall v i, (Rabs (nth i v 0) <= Rmax_norm v)%R.
Proof.
  intros v i. destruct (nth_error v i) as [x |] eqn:E.
  - rewrite (nth_error_nth v i 0%R E). now apply Rmax_norm_nth in E.
  - apply nth_error_None in E. rewrite nth_overflow by exact E. rewrite Rabs_R0. apply Rmax_norm_pos.
Qed.
Lemma vle_trans : forall a b c, vle a b -> vle b c -> vle a c.
Proof.
  intros a b c H K. apply vle_nth in H, K. apply vle_nth. destruct H as [H1 H2], K as [K1 K2].
  split; [congruence | intros i; specialize (H2 i); specialize (K2 i); lra].
Qed.
Lemma vle_refl : forall a, vle a a.
Proof. intros a. apply vle_nth. split; [reflexivity | intros; lra]. Qed.
Lemma norm_sum : forall v, vle (zerov (length v)) v -> (Rmax_norm v <= Rsum_v v)%R.
Proof.
  induction v as [| x v IH]; intros H; cbn; [lra |].
  inversion H as [| ? ? ? ? Hx Hv]; subst. specialize (IH Hv).
  fold (Rmax_norm v). fold (Rsum_v v). pose proof (Rmax_norm_pos v).
  apply Rmax_lub; [rewrite Rabs_pos_eq by exact Hx; lra | lra].
Qed.
Lemma sum_sub : forall a b, length a = length b -> Rsum_v (Rsub_v a b) = (Rsum_v a - Rsum_v b)%R.
Proof.
  induction a as [| x a IH]; intros [| y b] L; try discriminate; cbn; [lra |].
  fold (Rsum_v (Rsub_v a b)) (Rsum_v a) (Rsum_v b). rewrite IH by (cbn in L; congruence). lra.
Qed.
Lemma sum_le : forall a b, vle a b -> (Rsum_v a <= Rsum_v b)%R.
Proof. intros a b H. induction H; cbn; [lra |]. fold (Rsum_v l) (Rsum_v l'). lra. Qed.

(** ** One step *)
Section Step.
  Variables (n : nat) (F : list R -> list R) (J : list R -> list (list R)) (root : list R) (D : list R -> Prop).
  Hypothesis HD : forall x, D x -> length x = n /\ length (F x) = n /\ mat n n (J x).
  Hypothesis Droot : D root.
  Hypothesis HF0 : F root = zerov n.
  Hypothesis Hcv : convex_on D F J.
  Hypothesis Hip : forall x, D x -> inverse_positive n (J x).

  Ltac lens := rewrite ?Rsub_v_length with (n := n), ?mvec_length; auto.

  Lemma above_root : forall x d, D x -> length d = n -> mvec (J x) d = F x -> vle root (Rsub_v x d).
  Proof.
    intros x d Dx Ld Ed. destruct (HD _ Dx) as (Lx & LF & MJ). destruct (HD _ Droot) as (Lr & _ & _).
    pose proof (Hcv x root Dx Droot) as K. rewrite HF0 in K.
    assert (L1 : length (Rsub_v x d) = n) by now apply Rsub_v_length.
    assert (L2 : length (Rsub_v (Rsub_v x d) root) = n) by now apply Rsub_v_length.
    assert (LM : forall v, length (mvec (J x) v) = n) by (intros v; rewrite mvec_length; apply MJ).
    assert (W : vle (zerov n) (Rsub_v (Rsub_v x d) root)).
    { apply (Hip x Dx); [exact L2 |].
      rewrite (mvec_sub _ n n), (mvec_sub _ n n), Ed by assumption.
      rewrite (mvec_sub _ n n) in K by assumption.
      apply vle_nth in K. destruct K as [_ K]. apply vle_nth. 
      assert (L3 : length (Rsub_v (mvec (J x) x) (F x)) = n) by now apply Rsub_v_length.
      split; [rewrite zerov_length; symmetry; now apply Rsub_v_length |].
      intros i. specialize (K i). rewrite nth_zero in *.
      rewrite nth_add, nth_sub in K by (rewrite ?LM, ?(Rsub_v_length _ _ n (LM _) (LM _)); congruence).
      rewrite !nth_sub by (rewrite ?L3, ?LM; congruence). lra. }
    apply vle_nth in W. destruct W as [_ W]. apply vle_nth. split; [congruence |].
    intros i. specialize (W i). rewrite nth_zero, nth_sub in W by congruence. lra.
  Qed.

  Lemma value_nonneg : forall x d, D x -> D (Rsub_v x d) -> length d = n -> mvec (J x) d = F x ->
    vle (zerov n) (F (Rsub_v x d)).
  Proof.
    intros x d Dx Dx' Ld Ed. destruct (HD _ Dx) as (Lx & LF & MJ). destruct (HD _ Dx') as (L1 & LF' & _).
    assert (LM : forall v, length (mvec (J x) v) = n) by (intros v; rewrite mvec_length; apply MJ).
    pose proof (Hcv x _ Dx Dx') as K.
    rewrite (mvec_sub _ n n), (mvec_sub _ n n), Ed in K by assumption.
    assert (L3 : length (Rsub_v (mvec (J x) x) (F x)) = n) by now apply Rsub_v_length.
    apply vle_nth in K. destruct K as [_ K]. apply vle_nth. split; [now rewrite zerov_length |].
    intros i. specialize (K i). rewrite nth_zero.
    rewrite nth_add, nth_sub, nth_sub in K by (rewrite ?L3, ?LM, ?(Rsub_v_length _ _ n L3 (LM _)); congruence). lra.
  Qed.

  Lemma decreases : forall x d, D x -> length d = n -> mvec (J x) d = F x -> vle (zerov n) (F x) ->
    vle (Rsub_v x d) x.
  Proof.
    intros x d Dx Ld Ed Hp. destruct (HD _ Dx) as (Lx & LF & MJ). rewrite <- Ed in Hp.
    pose proof (Hip x Dx d Ld Hp) as K. apply vle_nth in K. destruct K as [_ K]. apply vle_nth.
    split; [rewrite (Rsub_v_length _ _ n); congruence |]. intros i. specialize (K i).
    rewrite nth_zero in K. rewrite nth_sub by congruence. lra.
  Qed.

  Lemma error_bound : forall x w c, D x -> length w = n -> mvec (J root) w = repeat 1%R n ->
    (forall i, nth i (F x) 0 <= c)%R -> vle (Rsub_v x root) (Rscal c w).
  Proof.
    intros x w c Dx Lw Ew Hc. destruct (HD _ Dx) as (Lx & LF & _). destruct (HD _ Droot) as (Lr & _ & MJ).
    pose proof (Hcv root x Droot Dx) as K. rewrite HF0 in K.
    assert (Lv : length (Rsub_v x root) = n) by now apply Rsub_v_length.
    assert (Lcw : length (Rscal c w) = n) by now rewrite Rscal_length.
    assert (LM : forall v, length (mvec (J root) v) = n) by (intros v; rewrite mvec_length; apply MJ).
    assert (Esc : mvec (J root) (Rscal c w) = Rscal c (repeat 1%R n)).
    { rewrite <- Ew. unfold mvec, Rscal at 2. rewrite map_map. apply map_ext. intros r. apply Rdot_scal_r. }
    assert (W : vle (zerov n) (Rsub_v (Rscal c w) (Rsub_v x root))).
    { apply (Hip root Droot); [now apply Rsub_v_length |].
      rewrite (mvec_sub _ n n) by assumption. rewrite Esc.
      assert (L4 : length (Rscal c (repeat 1%R n)) = n) by now rewrite Rscal_length, repeat_length.
      apply vle_nth in K. destruct K as [_ K]. apply vle_nth.
      split; [rewrite zerov_length; symmetry; now apply Rsub_v_length |].
      intros i. specialize (K i). specialize (Hc i).
      rewrite nth_zero. rewrite nth_sub by (rewrite L4, LM; reflexivity).
      rewrite nth_add, nth_zero in K by (rewrite zerov_length, LM; reflexivity).
      rewrite nth_scal. destruct (Nat.lt_ge_cases i n) as [Hi | Hi].
      - rewrite (nth_indep (repeat 1%R n) 0%R 1%R) by now rewrite repeat_length. rewrite nth_repeat. lra.
      - rewrite (nth_overflow (repeat 1%R n)) by (rewrite repeat_length; exact Hi).
        rewrite (nth_overflow (mvec (J root) _)) by (rewrite LM; exact Hi). lra. }
    apply vle_nth in W. destruct W as [_ W]. apply vle_nth. split; [congruence |].
    intros i. specialize (W i). rewrite nth_zero, nth_sub in W by congruence. lra.
  Qed.
End Step.

(** A sum of K nonnegative numbers that is at most S has a term of at most S / K. *)
Lemma pigeon : forall (f : nat -> R) (T : R) K, 1 <= K ->
  (f 1%nat - f (S K) <= T)%R ->
  exists k, 1 <= k <= K /\ (f k - f (S k) <= T / INR K)%R.
Proof.
  intros f T K HK HT.
  assert (PK : (0 < INR K)%R) by (apply lt_0_INR; lia).
  assert (G : forall c m, 1 <= m -> (forall k, 1 <= k <= m -> (c < f k - f (S k))%R) -> (INR m * c < f 1%nat - f (S m))%R).
  { intros c m. induction m as [| m IH]; intros Hm H; [lia |].
    destruct (Nat.eq_dec m 0) as [-> | Hm0].
    - specialize (H 1 ltac:(lia)). cbn. lra.
    - specialize (IH ltac:(lia) ltac:(intros k Hk; apply H; lia)). specialize (H (S m) ltac:(lia)).
      rewrite S_INR. lra. }
  destruct (Classical_Prop.classic (exists k, 1 <= k <= K /\ (f k - f (S k) <= T / INR K)%R)) as [| NE]; [assumption |].
  exfalso. specialize (G (T / INR K)%R K HK).
  assert (INR K * (T / INR K) < f 1%nat - f (S K))%R.
  { apply G. intros k Hk. apply Rnot_le_lt. intros H. apply NE. eauto. }
  replace (INR K * (T / INR K))%R with T in H by (field; lra). lra.
Qed.

(** Newton's method in exact arithmetic on a componentwise convex system with inverse-positive
    Jacobians, from anywhere in the domain.  From the first step on the iterates are above the root,
    decrease towards it, and the residuals are nonnegative.  If moreover the Jacobians between the root
    and the first iterate are bounded by C, and w solves J(root) w = (1, ..., 1), the K-th iterate is
    within (C T / K) w of the root, T being the sum of the components of x_1 - root, and the solve
    succeeds within K + 1 steps once T / K and C T / K are below atol. *)
Lemma C93_monotone_convergence_pf :
  forall (n : nat) (F : list R -> list R) (J : list R -> list (list R)) (root y0 : list R) (D : list R -> Prop) (rtol atol : R)
         (jac : (list xr -> list xr * unit) -> list xr -> list (list R)) lsolve (P : nc_params (N:=XR)) fs auxs,
    0 < n ->
    (forall x, D x -> length x = n /\ length (F x) = n /\ mat n n (J x) /\ jac (liftv F) (map Fin x) = J x) ->
    D y0 -> D root -> F root = zerov n -> (forall x y, D x -> vle x y -> D y) ->
    convex_on D F J -> (forall x, D x -> inverse_positive n (J x)) ->
    (forall x c, D x -> length c = n ->
       exists d, lsolve (J x) (map Fin c) = (map Fin d, successful) /\ length d = n /\ mvec (J x) d = c) ->
    nc_rtol P = Fin rtol -> nc_atol P = Fin atol -> (0 <= rtol)%R -> (0 < atol)%R ->
    nc_norm P = max_norm (N:=XR) -> nc_lower P = None -> nc_upper P = None -> nc_cauchy P = true -> nc_is_newton P = true ->
    let s := newton_chord jac lsolve P in
    forall st0, s_init s (liftv F) (map Fin y0) fs auxs = Ret st0 ->
    exists x : nat -> list R,
      (forall k, y_at s (liftv F) (map Fin y0) st0 (auxs fill0) k = map Fin (x k)) /\
      (forall k, vle root (x (S k)) /\ vle (x (S (S k))) (x (S k)) /\ vle (zerov n) (F (x (S k)))) /\
      forall C w, (0 <= C)%R ->
      (forall z v, vle root z -> vle z (x 1) -> length v = n -> (Rmax_norm (mvec (J z) v) <= C * Rmax_norm v)%R) ->
      length w = n -> mvec (J root) w = repeat 1%R n ->
      let T := Rsum_v (Rsub_v (x 1) root) in
      forall K, 1 <= K ->
        vle (Rsub_v (x K) root) (Rscal (C * (T / INR K)) w) /\
        ((T / INR K < atol)%R -> (C * (T / INR K) < atol)%R ->
         exists k, 1 <= k <= S K /\
         forall fuel ms throw, k < fuel -> (forall m, ms = Some m -> k <= m) ->
          exists sol, iterative_solve vallfinite s (liftv F) fuel ms throw (map Fin y0) fs auxs = Ret sol /\
            result sol = successful /\ value sol = map Fin (x k)).
Proof.
  intros n F J root y0 D rtol atol jac lsolve P fs auxs Hn HD' Dy0 Droot HF0 Hup_cl Hcv Hip Hls
    Hra Haa Hr0 Ha0 Hnm Hlo Hup HC HN s st0 Hi.
  assert (HD : forall x, D x -> length x = n /\ length (F x) = n /\ mat n n (J x)) by (intros z Hz; destruct (HD' z Hz) as (? & ? & ? & ?); auto).
  set (fn := liftv F) in *.
  change (Ret (nc_st0 jac P fn (map Fin y0) fs) = Ret st0) in Hi. injection Hi as <-.
  set (st0 := nc_st0 jac P fn (map Fin y0) fs).
  set (Y := y_at s fn (map Fin y0) st0 (auxs fill0)).
  set (S_ := st_at s fn (map Fin y0) st0 (auxs fill0)).
  assert (Hbox : has_box P = false) by (unfold has_box; rewrite Hlo, Hup; reflexivity).
  assert (Hclip : forall v, nc_clip P v = v) by (intro; unfold nc_clip; rewrite Hlo, Hup; reflexivity).
  assert (TF : forall v, map toR (map Fin v) = v) by (intro v; rewrite map_map; cbn [toR]; apply map_id).
  assert (Step : forall x, D x -> exists d, lin_sol jac lsolve (nc_is_newton P) fn (map Fin y0) (map Fin x) = (map Fin d, successful) /\
            length d = n /\ mvec (J x) d = F x /\ vle root (Rsub_v x d)).
  { intros x Hx. destruct (HD' x Hx) as (Lx & LF & MJ & EJ).
    destruct (Hls _ (F x) Hx LF) as (d & Ed & Ld & Md). exists d. split; [|split; [exact Ld|split; [exact Md|]]].
    - unfold lin_sol, fn. rewrite liftv_Fin. cbn [fst]. rewrite <- Ed. f_equal. rewrite HN. exact EJ.
    - apply (above_root n F J root D); auto. }
  set (x k := map toR (Y k)).
  assert (Inv : forall k, Y k = map Fin (x k) /\ D (x k)).
  { induction k as [|k [IH1 IH2]].
    - unfold x. change (Y 0) with (map Fin y0). rewrite TF. auto.
    - destruct (Step (x k) IH2) as (d & Ed & Ld & Md & Ab).
      assert (EY : Y (S k) = map Fin (Rsub_v (x k) d)).
      { unfold Y. refine (eq_trans (nc_y_S jac lsolve P fn (map Fin y0) fs (auxs fill0) k) _).
        rewrite Hclip. change (y_at _ _ _ _ _ k) with (Y k). rewrite IH1, Ed. apply vsub_Fin. }
      assert (EX : x (S k) = Rsub_v (x k) d) by (unfold x at 1; rewrite EY; apply TF).
      rewrite EX. split; [exact EY|]. exact (Hup_cl _ _ Droot Ab). }
  assert (XS : forall k, exists d, lin_sol jac lsolve (nc_is_newton P) fn (map Fin y0) (Y k) = (map Fin d, successful) /\ length d = n /\
                 x (S k) = Rsub_v (x k) d /\ mvec (J (x k)) d = F (x k)).
  { intro k. destruct (Inv k) as [IH1 IH2]. destruct (Step (x k) IH2) as (d & Ed & Ld & Md & _). exists d. rewrite IH1. split; [exact Ed|]. split; [exact Ld|].
    split; [|exact Md].
    unfold x at 1. transitivity (map toR (map Fin (Rsub_v (x k) d))); [|apply TF]. f_equal.
    unfold Y. refine (eq_trans (nc_y_S jac lsolve P fn (map Fin y0) fs (auxs fill0) k) _).
    rewrite Hclip. change (y_at _ _ _ _ _ k) with (Y k). rewrite IH1, Ed. apply vsub_Fin. }
  exists x. split; [intro k; apply Inv|].
  assert (Mono : forall k, vle root (x (S k)) /\ vle (x (S (S k))) (x (S k)) /\ vle (zerov n) (F (x (S k)))).
  { intro k. destruct (XS k) as (d & _ & Ld & Ex & Md).
    assert (P0 : vle (zerov n) (F (x (S k)))).
    { rewrite Ex. apply (value_nonneg n F J D); auto; [apply Inv|]. rewrite <- Ex. apply Inv. }
    split; [|split; [|exact P0]].
    - rewrite Ex. apply (above_root n F J root D); auto. apply Inv.
    - destruct (XS (S k)) as (d' & _ & Ld' & Ex' & Md'). rewrite Ex'.
      apply (decreases n F J D); auto. apply Inv. }
  split; [exact Mono|].
  intros C w HC0 HCb Lw Ew T K HK.
  assert (Lx : forall k, length (x k) = n) by (intro k; apply (HD _ (proj2 (Inv k)))).
  assert (Dec : forall i j, 1 <= i <= j -> vle (x j) (x i)).
  { intros i j [H1 H2]. induction H2 as [| j H2 IH]; [apply vle_refl|].
    eapply vle_trans; [|exact IH]. destruct j as [|j]; [lia|]. apply Mono. }
  assert (Lr : length root = n) by apply (HD _ Droot).
  destruct (pigeon (fun k => Rsum_v (x k)) T K HK) as (k0 & Hk0 & Hs).
  { unfold T. rewrite sum_sub by (rewrite Lx; congruence). pose proof (sum_le _ _ (proj1 (Mono K))). lra. }
  set (c := (T / INR K)%R) in *.
  assert (St : (Rmax_norm (Rsub_v (x k0) (x (S k0))) <= c)%R).
  { eapply Rle_trans; [apply norm_sum|].
    - rewrite (Rsub_v_length _ _ n) by apply Lx. destruct k0 as [|j]; [lia|].
      destruct (Mono j) as (_ & M & _). apply vle_nth in M. destruct M as [_ M]. apply vle_nth.
      split; [rewrite zerov_length, (Rsub_v_length _ _ n) by apply Lx; reflexivity|].
      intro i. specialize (M i). rewrite nth_zero, nth_sub by (rewrite !Lx; reflexivity). lra.
    - rewrite sum_sub by (rewrite !Lx; reflexivity). exact Hs. }
  assert (Fs : (Rmax_norm (F (x k0)) <= C * c)%R).
  { destruct (XS k0) as (d & _ & Ld & Ex & Md). rewrite <- Md.
    assert (Ed : d = Rsub_v (x k0) (x (S k0))) by (rewrite Ex; symmetry; apply vsub_cancel; rewrite Lx; auto).
    rewrite Ed. eapply Rle_trans; [apply HCb|].
    - destruct k0 as [|j]; [lia|]. apply Mono.
    - apply Dec. lia.
    - apply Rsub_v_length; apply Lx.
    - apply Rmult_le_compat_l; assumption. }
  split.
  { apply vle_trans with (Rsub_v (x k0) root).
    - pose proof (Dec k0 K ltac:(lia)) as M. apply vle_nth in M. destruct M as [_ M]. apply vle_nth.
      split; [rewrite !(Rsub_v_length _ _ n); auto|].
      intro i. specialize (M i). rewrite !nth_sub by (rewrite Lx; congruence). lra.
    - apply (error_bound n F J root D); auto; [apply Inv|].
      intro i. pose proof (nth_abs_le (F (x k0)) i) as A. pose proof (Rle_abs (nth i (F (x k0)) 0%R)). lra. }
  intros HT1 HT2.
  assert (HS : forall k, S_ (S k) = mkNc (Some (map Fin (F (x k)))) (if nc_is_newton P then None else Some (jac fn (map Fin y0)))
                 (map Fin (Rsub_v (x k) (x (S k)))) (nc_diffsize (S_ (S k))) (nc_diffsize_prev (S_ (S k))) successful (nc_step (S_ (S k)))).
  { intro k. destruct (XS k) as (d & Ed & Ld & EX & _).
    assert (E : S_ (S k) = _) by exact (nc_st_S jac lsolve P fn (map Fin y0) fs (auxs fill0) k). cbv zeta in E.
    rewrite Hbox, HC in E. change (y_at _ _ _ _ _ k) with (Y k) in E. rewrite Ed in E. cbn [fst snd] in E.
    rewrite (proj1 (Inv k)) in E. unfold fn in E at 1. rewrite liftv_Fin in E. cbn [fst] in E.
    assert (ED : Rsub_v (x k) (x (S k)) = d).
    { rewrite EX. apply vsub_cancel. rewrite Ld. apply Lx. }
    rewrite ED. rewrite E. reflexivity. }
  assert (SR : forall k, says_result s fn (map Fin y0) st0 (auxs fill0) k = successful).
  { intros [|k]; unfold says_result; cbn [s_terminate s newton_chord]; unfold nc_terminate; rewrite HC.
    - change (st_at _ _ _ _ _ 0) with st0. reflexivity.
    - change (st_at _ _ _ _ _ (S k)) with (S_ (S k)). rewrite HS. reflexivity. }
  assert (AF : forall k, vallfinite (N:=XR) (asked s fn (map Fin y0) st0 (auxs fill0) k) = true).
  { intro k. unfold asked. change (y_at _ _ _ _ _ (pred k)) with (Y (pred k)). rewrite (proj1 (Inv _)). apply allfin_Fin. }
  assert (HT0 : says_terminate s fn (map Fin y0) st0 (auxs fill0) 0 = false).
  { unfold says_terminate. change (asked s fn (map Fin y0) st0 (auxs fill0) 0) with (map Fin y0). change (st_at _ _ _ _ _ 0) with st0.
    cbn [s_terminate s newton_chord]. unfold nc_terminate. unfold st0, nc_st0; rewrite HC; cbn [nc_result nc_step nc_diff nc_f results_eqb negb orb fst].
    unfold cauchy_termination. apply andb_false_iff. left. rewrite Hnm, Hra, Haa.
    destruct (nltb _ _) eqn:E; auto. exfalso.
    apply (max_norm_lt XR_laws) in E; [|apply (dl_01 XR XR_div)]. rewrite Forall_nth in E.
    pose proof (proj1 (HD _ Dy0)) as Hy. destruct y0 as [|a y0']; [simpl in Hy; lia|].
    specialize (E 0 (xdiv (xabs PInf) (xadd (Fin atol) (xmul (Fin rtol) (xabs (Fin a))))) eq_refl).
    cbn in E. destruct (Rlt_dec _ 0); discriminate. }
  assert (HTK : says_terminate s fn (map Fin y0) st0 (auxs fill0) (S k0) = true).
  { unfold says_terminate, asked. cbn [pred]. change (y_at _ _ _ _ _ k0) with (Y k0). change (st_at _ _ _ _ _ (S k0)) with (S_ (S k0)).
    rewrite HS, (proj1 (Inv k0)). cbn [s_terminate s newton_chord]. unfold nc_terminate. rewrite HC.
    cbn [nc_result nc_step nc_diff nc_f results_eqb negb orb fst].
    unfold cauchy_termination. rewrite Hnm, Hra, Haa. apply andb_true_iff. split.
    - apply (max_norm_lt XR_laws); [apply (dl_01 XR XR_div)|]. apply Forall_nth.
      intros i z Hz. unfold vdiv in Hz. apply nth_vmap2 in Hz. destruct Hz as (d & sc & E1 & E2 & ->).
      unfold vabs in E1. apply nth_map in E1. destruct E1 as (d' & E1 & ->). apply nth_map in E1. destruct E1 as (d0 & E1 & ->).
      unfold vscale_tol in E2. apply nth_map in E2. destruct E2 as (v & E2 & ->). apply nth_map in E2. destruct E2 as (v' & _ & ->).
      pose proof (Rabs_pos v'). cbn [nadd nmul nabs ndiv nltb nofQ XR xabs xmul xadd]. rewrite xdiv_fin by nra.
      cbn [xabs]. apply xltb_fin. rewrite Q2R_1. assert (0 < atol + rtol * Rabs v')%R by nra.
      unfold Rdiv. rewrite Rabs_mult, Rabs_Rabsolu, Rabs_inv, (Rabs_pos_eq (atol + _)) by lra.
      apply (Rmult_lt_reg_r (atol + rtol * Rabs v')); auto. rewrite Rmult_assoc, Rinv_l, Rmult_1_r, Rmult_1_l by lra.
      apply Rmax_norm_nth in E1. nra.
    - apply (max_norm_lt XR_laws); [apply (dl_01 XR XR_div)|]. apply Forall_nth.
      intros i z Hz. unfold vdiv in Hz. apply nth_vmap2 in Hz. destruct Hz as (d & sc & E1 & E2 & ->).
      unfold vabs in E1. apply nth_map in E1. destruct E1 as (d' & E1 & ->). apply nth_map in E1. destruct E1 as (d0 & E1 & ->).
      unfold vscale_tol in E2. apply nth_map in E2. destruct E2 as (v & E2 & ->). apply nth_error_In in E2. unfold vfull in E2. apply repeat_spec in E2. subst v.
      cbn [nadd nmul nabs ndiv nltb nofQ XR xabs xmul xadd]. rewrite Q2R_0, Q2R_1, Rabs_R0, Rmult_0_r, Rplus_0_r. rewrite xdiv_fin by lra.
      cbn [xabs]. apply xltb_fin.
      unfold Rdiv. rewrite Rabs_mult, Rabs_Rabsolu, Rabs_inv, (Rabs_pos_eq atol) by lra.
      apply (Rmult_lt_reg_r atol); auto. rewrite Rmult_assoc, Rinv_l, Rmult_1_r, Rmult_1_l by lra.
      apply Rmax_norm_nth in E1. lra. }
  destruct (solve_succeeds vallfinite s fn (map Fin y0) st0 _ fs auxs eq_refl eq_refl SR AF (ex_intro _ _ HTK)) as (k & Tk & M & Sol).
  assert (1 <= k) by (destruct k; [unfold st0 in *; congruence|lia]).
  exists k. split.
  - split; [assumption|]. destruct (le_lt_dec k (S k0)) as [|NK]; [lia|]. rewrite (M _ NK) in HTK. discriminate.
  - intros fuel ms throw Hf Hms. eexists. destruct (Sol fuel ms throw Hf Hms) as [E1 E2]. split; [exact E1|]. split; [exact E2|].
    etransitivity; [|apply (proj1 (Inv k))]. reflexivity.
Qed.

(** The system x^2 = 1, y^2 = x on x, y > 0: from every start (a, b) with a, b > 0, however far, Newton
    is above the root (1, 1) and decreasing from the first step on, and succeeds after finitely many steps. *)
Definition mono2 (v : list R) : list R :=
  [nth 0 v 0 * nth 0 v 0 - 1; nth 1 v 0 * nth 1 v 0 - nth 0 v 0]%R.
Definition mono2_J (v : list R) : list (list R) := [[2 * nth 0 v 0; 0]; [-1; 2 * nth 1 v 0]]%R.
Definition mono2_solve (A : list (list R)) (c : list xr) : list xr * results :=
  let d := (toR (nth 0 c PInf) / nth 0 (nth 0 A []) 0)%R in
  ([Fin d; Fin ((toR (nth 1 c PInf) + d) / nth 1 (nth 1 A []) 0)%R], successful).
Example C93_monotone_convergence_ex_pf : forall a b, (0 < a)%R -> (0 < b)%R ->
  let s := newton_chord (fun _ v => mono2_J (map toR v)) mono2_solve (sq1_P true) in
  forall st0, s_init s (liftv mono2) [Fin a; Fin b] (fun _ => [PInf; PInf]) (fun _ => tt) = Ret st0 ->
  exists x : nat -> list R,
    (forall k, y_at s (liftv mono2) [Fin a; Fin b] st0 tt k = map Fin (x k)) /\
    (forall k, vle [1%R; 1%R] (x (S k)) /\ vle (x (S (S k))) (x (S k))) /\
    exists k, 1 <= k /\ forall fuel, k < fuel ->
      exists sol, iterative_solve vallfinite s (liftv mono2) fuel None true [Fin a; Fin b] (fun _ => [PInf; PInf]) (fun _ => tt) = Ret sol /\
        result sol = successful /\ value sol = map Fin (x k).
Proof.
  intros a b Ha Hb s st0 Hi.
  set (D := fun v : list R => exists p q, v = [p; q] /\ (0 < p)%R /\ (0 < q)%R).
  assert (N2 : forall v : list R, length v = 2 -> exists p q, v = [p; q]).
  { intros [| p [| q [|]]] H; try discriminate. eauto. }
  assert (I2 : forall p q r t, vle [p; q] [r; t] <-> (p <= r /\ q <= t)%R).
  { intros p q r t. split.
    - intros H. apply vle_nth in H. destruct H as [_ H]. exact (conj (H 0) (H 1)).
    - intros [H1 H2]. constructor; [exact H1 | constructor; [exact H2 | constructor]]. }
  destruct (C93_monotone_convergence_pf 2 mono2 mono2_J [1; 1]%R [a; b] D 0 (1/1000)
     (fun _ v => mono2_J (map toR v)) mono2_solve (sq1_P true) (fun _ => [PInf; PInf]) (fun _ => tt)) with (st0 := st0) as (x & H1 & H2 & H3);
    try reflexivity; try lra; try lia; try exact Hi.
  - intros z (p & q & -> & Hp & Hq). repeat split; repeat constructor.
  - exists a, b. auto.
  - exists 1%R, 1%R. split; [reflexivity | lra].
  - unfold mono2, zerov. cbn. f_equal; [ring | f_equal; ring].
  - intros z y (p & q & -> & Hp & Hq) V. pose proof (proj1 (proj1 (vle_nth _ _) V)) as L. destruct (N2 y (eq_sym L)) as (r & t & ->).
    apply I2 in V. exists r, t. split; [reflexivity | lra].
  - intros z y (p & q & -> & Hp & Hq) (r & t & -> & Hr & Ht). unfold mono2, mono2_J, mvec. cbn [nth map Rsub_v Rdot Radd_v].
    apply I2. pose proof (Rle_0_sqr (r - p)). pose proof (Rle_0_sqr (t - q)). unfold Rsqr in *. lra.
  - intros z (p & q & -> & Hp & Hq) v Lv V. destruct (N2 v Lv) as (r & t & ->).
    unfold mono2_J, mvec, zerov in V |- *. cbn [nth map Rdot repeat] in V |- *. apply I2 in V. apply I2.
    assert (0 <= r)%R by nra. split; [assumption | nra].
  - intros z c (p & q & -> & Hp & Hq) Lc. destruct (N2 c Lc) as (r & t & ->).
    exists [r / (2 * p); (t + r / (2 * p)) / (2 * q)]%R. split; [reflexivity |]. split; [reflexivity |].
    unfold mono2_J, mvec. cbn [nth map Rdot]. f_equal; [field; lra | f_equal; field; lra].
  - exists x. split; [exact H1 |]. split; [intros k; split; apply H2 |].
    pose proof (proj1 (H2 0)) as V. pose proof (proj1 (proj1 (vle_nth _ _) V)) as L. destruct (N2 _ (eq_sym L)) as (p & q & Ex).
    rewrite Ex in *. apply I2 in V.
    set (C := (2 * (p + q) + 1)%R).
    assert (RA : forall u v, Rmax_norm [u; v] = Rmax (Rabs u) (Rabs v)).
    { intros. cbn. rewrite (Rmax_left (Rabs v) 0) by apply Rabs_pos. reflexivity. }
    specialize (H3 C [1/2; 3/4]%R).
    assert (HC : (0 <= C)%R) by (unfold C; lra). specialize (H3 HC).
    assert (HJ : forall z v, vle [1%R; 1%R] z -> vle z [p; q] -> length v = 2 ->
                 (Rmax_norm (mvec (mono2_J z) v) <= C * Rmax_norm v)%R).
    { intros z v V1 V2 Lv. pose proof (proj1 (proj1 (vle_nth _ _) V1)) as Lz. destruct (N2 _ (eq_sym Lz)) as (z1 & z2 & ->).
      destruct (N2 _ Lv) as (u1 & u2 & ->). apply I2 in V1, V2. unfold mono2_J, mvec. cbn [nth map Rdot].
      rewrite !RA. set (m := Rmax (Rabs u1) (Rabs u2)).
      assert (M1 : (Rabs u1 <= m)%R) by apply Rmax_l. assert (M2 : (Rabs u2 <= m)%R) by apply Rmax_r.
      pose proof (Rabs_pos u1). pose proof (Rabs_pos u2).
      apply Rmax_lub.
      - replace (2 * z1 * u1 + (0 * u2 + 0))%R with (2 * z1 * u1)%R by ring.
        rewrite Rabs_mult, (Rabs_pos_eq (2 * z1)) by lra. apply Rmult_le_compat; unfold C; lra.
      - eapply Rle_trans; [apply Rabs_triang |]. rewrite Rplus_0_r, (Rabs_mult (-1) u1), (Rabs_mult (2 * z2) u2), (Rabs_pos_eq (2 * z2)) by lra.
        replace (Rabs (-1)) with 1%R by (rewrite Rabs_left; lra).
        assert (2 * z2 * Rabs u2 <= 2 * (p + q) * m)%R by (apply Rmult_le_compat; lra).
        unfold C. lra. }
    specialize (H3 HJ eq_refl).
    assert (EW : mvec (mono2_J [1; 1]%R) [1/2; 3/4]%R = repeat 1%R 2).
    { unfold mono2_J, mvec. cbn [nth map Rdot repeat]. f_equal; [field | f_equal; field]. }
    specialize (H3 EW). cbv zeta in H3.
    set (T := Rsum_v (Rsub_v [p; q] [1; 1]%R)) in *.
    assert (HT : (0 <= T)%R) by (unfold T; cbn; lra).
    destruct (archimed_cor1 (1 / (1000 * (C + 1) * (T + 1)))) as (K & K1 & K2).
    { apply Rdiv_lt_0_compat; [lra |]. apply Rmult_lt_0_compat; nra. }
    assert (PK : (0 < INR K)%R) by (apply lt_0_INR; lia).
    assert (B : ((C + 1) * (T / INR K) < 1 / 1000)%R).
    { apply Rle_lt_trans with ((C + 1) * (T + 1) * / INR K)%R.
      - unfold Rdiv. rewrite <- Rmult_assoc. apply Rmult_le_compat_r; [left; now apply Rinv_0_lt_compat | nra].
      - apply (Rmult_lt_compat_l ((C + 1) * (T + 1))) in K1; [| nra].
        eapply Rlt_le_trans; [exact K1 |]. apply Req_le. field. split; lra. }
    assert (0 <= T / INR K)%R by (apply Rmult_le_pos; [assumption | left; now apply Rinv_0_lt_compat]).
    destruct (H3 K ltac:(lia)) as [_ H4].
    destruct H4 as (k & Hk & Sk); [nra | nra |].
    exists k. split; [lia |]. intros fuel Hf. apply (Sk fuel None true Hf). discriminate.
Qed.
