(** Newton-Kantorovich: convergence from checkable conditions at the start, with no root assumed (C107). *)

From Coq Require Import String List Bool Arith Lia ZArith QArith Qreals Reals Lra Psatz.
From Verif Require Import Num NumFacts NumDiv Vec Results Iterate Spec_Iterate Iterate_proofs.
From Verif Require Import Spec_Vec VecFacts Spec_Lin LinFacts NewtonChord Spec_NewtonChord NumF64 NumF64_facts.
From Verif Require Import FixedPoint_proofs NewtonChord_proofs ImplicitFacts.
Import ListNotations.
Local Open Scope nat_scope.

(** ** Sequences of vectors *)

Lemma norm_le_nth : forall (v : list R) c, (0 <= c)%R -> (forall i, (Rabs (nth i v 0) <= c)%R) -> (Rmax_norm v <= c)%R.
Proof.
  intros v c Hc H. apply Rmax_norm_le; auto. intros i x E. specialize (H i).
  rewrite (nth_error_nth v i 0%R E) in H. exact H.
Qed.
Lemma nth_le_norm : forall (v : list R) i, (Rabs (nth i v 0) <= Rmax_norm v)%R.
Proof.
  intros v i. destruct (nth_error v i) eqn:E.
  - rewrite (nth_error_nth v i 0%R E). apply (Rmax_norm_nth v i). exact E.
  - apply nth_error_None in E. rewrite nth_overflow by exact E. rewrite Rabs_R0. apply Rmax_norm_pos.
Qed.
Lemma nth_sub0 : forall a b i, length a = length b -> nth i (Rsub_v a b) 0%R = (nth i a 0 - nth i b 0)%R.
Proof.
  induction a as [|x a IH]; intros [|y b] [|i] H; try discriminate; cbn; try ring; auto.
Qed.
Lemma dist_nth : forall a b i, length a = length b -> (Rabs (nth i a 0 - nth i b 0) <= Rdist_inf a b)%R.
Proof. intros a b i H. rewrite <- nth_sub0 by exact H. apply nth_le_norm. Qed.
Lemma dist_self : forall a, Rdist_inf a a = 0%R.
Proof.
  intros a. unfold Rdist_inf. induction a as [|x a IH]; [reflexivity|].
  change (Rmax (Rabs (x - x)) (Rmax_norm (Rsub_v a a)) = 0%R). rewrite IH.
  replace (x - x)%R with 0%R by ring. rewrite Rabs_R0. apply Rmax_left, Rle_refl.
Qed.

Lemma mvlen : forall m n A x, mat m n A -> length x = n -> length (mvec A x) = m.
Proof. intros m n A x [H _] _. rewrite mvec_length. exact H. Qed.

(** A sequence of vectors whose distances are bounded by a null sequence has a limit, approached at that rate. *)
Lemma vec_complete : forall n (x : nat -> list R) (b : nat -> R),
  (forall k, length (x k) = n) -> (forall k, (0 <= b k)%R) -> Un_cv b 0 ->
  (forall k j, (Rdist_inf (x (k + j)%nat) (x k) <= b k)%R) ->
  exists l, length l = n /\ forall k, (Rdist_inf (x k) l <= b k)%R.
Proof.
  intros n x b Lx Hb Cb H.
  assert (C : forall i, { l : R | Un_cv (fun k => nth i (x k) 0%R) l }).
  { intro i. apply R_complete. intros eps He. destruct (Cb (eps / 2)%R ltac:(lra)) as [N HN].
    exists N. assert (B : (b N < eps / 2)%R).
    { specialize (HN N (le_n N)). unfold R_dist in HN. rewrite Rminus_0_r, Rabs_pos_eq in HN; auto. }
    intros p q Hp Hq. unfold R_dist.
    assert (P : forall m, m >= N -> (Rabs (nth i (x m) 0 - nth i (x N) 0) <= b N)%R).
    { intros m Hm. replace m with (N + (m - N)) by lia. eapply Rle_trans; [|apply (H N (m - N))]. apply dist_nth. rewrite !Lx. reflexivity. }
    pose proof (P p Hp) as P1. pose proof (P q Hq) as P2.
    replace (nth i (x p) 0 - nth i (x q) 0)%R with ((nth i (x p) 0 - nth i (x N) 0) + - (nth i (x q) 0 - nth i (x N) 0))%R by ring.
    eapply Rle_lt_trans; [apply Rabs_triang|]. rewrite Rabs_Ropp. lra. }
  exists (map (fun i => proj1_sig (C i)) (seq 0 n)).
  assert (LL : length (map (fun i => proj1_sig (C i)) (seq 0 n)) = n) by (rewrite map_length, seq_length; reflexivity).
  split; [exact LL|]. intro k. apply norm_le_nth; [apply Hb|]. intro i.
  rewrite nth_sub0 by congruence. destruct (le_lt_dec n i) as [G|G].
  - rewrite !nth_overflow by (rewrite ?LL, ?Lx; exact G). rewrite Rminus_0_r, Rabs_R0. apply Hb.
  - rewrite (nth_indep (map (fun i => proj1_sig (C i)) (seq 0 n)) 0%R (proj1_sig (C 0))) by (rewrite LL; exact G).
    rewrite (map_nth (fun i => proj1_sig (C i)) (seq 0 n) 0 i), seq_nth by exact G. cbn [plus].
    destruct (C i) as [l Cl]. cbn [proj1_sig].
    apply Rnot_lt_le. intro B. destruct (Cl (Rabs (nth i (x k) 0 - l) - b k)%R ltac:(lra)) as [N HN].
    specialize (HN (k + N) ltac:(lia)). unfold R_dist in HN.
    pose proof (dist_nth (x (k + N)%nat) (x k) i ltac:(rewrite !Lx; reflexivity)) as D. specialize (H k N).
    pose proof (Rabs_triang (nth i (x k) 0 - nth i (x (k + N)%nat) 0)%R (nth i (x (k + N)%nat) 0 - l)%R) as T.
    replace (nth i (x k) 0 - nth i (x (k + N)%nat) 0 + (nth i (x (k + N)%nat) 0 - l))%R with (nth i (x k) 0 - l)%R in T by ring.
    rewrite Rabs_minus_sym in D. lra.
Qed.

Lemma null_geo : forall c, Un_cv (fun k => (c / 2 ^ k)%R) 0.
Proof.
  intros c. replace 0%R with (c * 0)%R by ring.
  apply (CV_mult (fun _ => c) (fun k => (/ 2 ^ k)%R)).
  - intros e He. exists 0. intros. unfold R_dist. rewrite Rminus_diag_eq, Rabs_R0; auto.
  - intros e He. destruct (pow_lt_1_zero (1/2) ltac:(rewrite Rabs_pos_eq; lra) e He) as [N HN].
    exists N. intros m Hm. unfold R_dist. rewrite Rminus_0_r. specialize (HN m Hm).
    replace (/ 2 ^ m)%R with ((1/2) ^ m)%R; [exact HN|].
    unfold Rdiv. rewrite Rmult_1_l. apply pow_inv.
Qed.

Lemma le_null : forall (a : R) (b : nat -> R), Un_cv b 0 -> (forall k, (a <= b k)%R) -> (a <= 0)%R.
Proof.
  intros a b Cb H. apply Rnot_lt_le. intro G. destruct (Cb a G) as [N HN]. specialize (HN N (le_n N)).
  unfold R_dist in HN. rewrite Rminus_0_r in HN. pose proof (Rle_abs (b N)). specialize (H N). lra.
Qed.

Lemma rearr : forall m (a b c : list R), length a = m -> length b = m -> length c = m ->
  Rsub_v (Rsub_v b a) c = Rsub_v (Rsub_v (zerov m) a) (Rsub_v c b).
Proof.
  induction m as [|m IH]; intros [|a l] [|b l'] [|c l'']; intros; try discriminate; auto.
  cbn. f_equal; [ring|]. apply IH; auto.
Qed.

(** ** Kantorovich's induction *)

Section Kantorovich.
  Variables (n : nat) (F : list R -> list R) (J : list R -> list (list R)) (y0 : list R) (beta eta L : R).
  Definition inball (x : list R) : Prop := length x = n /\ (Rdist_inf x y0 <= 2 * eta)%R.
  Hypothesis Hy0 : length y0 = n.
  Hypothesis HF : forall x, inball x -> length (F x) = n /\ mat n n (J x).
  Hypothesis HJ0 : forall v, length v = n -> (Rmax_norm v <= beta * Rmax_norm (mvec (J y0) v))%R.
  Hypothesis HJL : forall x z v, inball x -> inball z -> length v = n ->
    (Rmax_norm (Rsub_v (mvec (J x) v) (mvec (J z) v)) <= L * Rdist_inf x z * Rmax_norm v)%R.
  Hypothesis HFL : forall x z, inball x -> inball z ->
    (Rmax_norm (Rsub_v (Rsub_v (F z) (F x)) (mvec (J x) (Rsub_v z x))) <= L / 2 * Rdist_inf z x ^ 2)%R.
  Hypothesis Hb : (0 < beta)%R.
  Hypothesis HL : (0 <= L)%R.
  Hypothesis He : (0 <= eta)%R.
  Hypothesis Hh : (2 * (beta * L * eta) <= 1)%R.

  (** The bounds on the inverse Jacobian and on the step, one step on. *)
  Definition next (p : R * R) : R * R :=
    let h := (fst p * L * snd p)%R in (fst p / (1 - h), h * snd p / (2 * (1 - h)))%R.
  Fixpoint bd (k : nat) : R * R := match k with 0 => (beta, eta) | S j => next (bd j) end.
  Definition bk k := fst (bd k).
  Definition ek k := snd (bd k).
  Definition hk k := (bk k * L * ek k)%R.
  Lemma bk_S : forall k, bk (S k) = (bk k / (1 - hk k))%R. Proof. reflexivity. Qed.
  Lemma ek_S : forall k, ek (S k) = (hk k * ek k / (2 * (1 - hk k)))%R. Proof. reflexivity. Qed.

  Lemma bd_inv : forall k, (0 < bk k /\ 0 <= ek k /\ 0 <= hk k /\ 2 * hk k <= 1)%R.
  Proof.
    assert (P : forall k, (0 < bk k -> 0 <= ek k -> 0 <= hk k)%R).
    { intros k B E. unfold hk. apply Rmult_le_pos; [|exact E]. apply Rmult_le_pos; [lra|exact HL]. }
    induction k as [|k (B & E & H0 & H1)].
    - assert (B : (0 < bk 0)%R) by exact Hb. assert (E : (0 <= ek 0)%R) by exact He.
      split; [exact B|]. split; [exact E|]. split; [exact (P 0 B E)|exact Hh].
    - assert (B' : (0 < bk (S k))%R) by (rewrite bk_S; apply Rdiv_lt_0_compat; lra).
      assert (E' : (0 <= ek (S k))%R).
      { rewrite ek_S. apply Rmult_le_pos; [nra|]. left. apply Rinv_0_lt_compat. lra. }
      split; [exact B'|]. split; [exact E'|]. split; [exact (P _ B' E')|].
      unfold hk at 1. rewrite bk_S, ek_S.
      replace (2 * (bk k / (1 - hk k) * L * (hk k * ek k / (2 * (1 - hk k)))))%R
        with ((hk k / (1 - hk k)) * (hk k / (1 - hk k)))%R by (unfold hk; field; unfold hk in *; lra).
      assert (0 <= hk k / (1 - hk k) <= 1)%R.
      { split; [apply Rmult_le_pos; [lra|left; apply Rinv_0_lt_compat; lra]|].
        apply (Rmult_le_reg_r (1 - hk k)); [lra|]. unfold Rdiv. rewrite Rmult_assoc, Rinv_l; lra. }
      nra.
  Qed.
  Lemma ek_half : forall k, (ek (S k) <= ek k / 2)%R.
  Proof.
    intro k. destruct (bd_inv k) as (B & E & H0 & H1). rewrite ek_S.
    replace (hk k * ek k / (2 * (1 - hk k)))%R with (ek k / 2 * (hk k / (1 - hk k)))%R by (field; lra).
    assert (hk k / (1 - hk k) <= 1)%R.
    { apply (Rmult_le_reg_r (1 - hk k)); [lra|]. unfold Rdiv. rewrite Rmult_assoc, Rinv_l; lra. }
    nra.
  Qed.
  Lemma ek_geo : forall k, (ek k <= eta / 2 ^ k)%R.
  Proof.
    induction k as [|k IH]; [unfold ek; cbn; lra|]. eapply Rle_trans; [apply ek_half|].
    assert (0 < 2 ^ k)%R by (apply pow_lt; lra).
    replace (eta / 2 ^ S k)%R with (eta / 2 ^ k / 2)%R by (cbn; field; lra). lra.
  Qed.

  Lemma norm_sub_le : forall a b, length a = length b -> (Rmax_norm a <= Rmax_norm (Rsub_v b a) + Rmax_norm b)%R.
  Proof.
    intros a b Lab.
    assert (E : forall v : list R, Rmax_norm v = Rdist_inf v (zerov (length v))).
    { intro v. unfold Rdist_inf. f_equal. symmetry. induction v as [|x v IH]; [reflexivity|]. cbn. f_equal; [ring|exact IH]. }
    rewrite (E a), (E b). fold (Rdist_inf b a). rewrite (Rdist_inf_sym b a), <- Lab.
    apply Rdist_inf_tri; [exact Lab|]. rewrite zerov_length. auto.
  Qed.

  Variable x : nat -> list R.
  Variable d : nat -> list R.
  Hypothesis X0 : x 0 = y0.

  (** What is known after k steps. *)
  Definition kinv (k : nat) : Prop :=
    length (x k) = n /\ (Rdist_inf (x k) y0 <= 2 * eta - 2 * ek k)%R /\
    (forall v, length v = n -> (Rmax_norm v <= bk k * Rmax_norm (mvec (J (x k)) v))%R).
  Lemma kinv_ball : forall k, kinv k -> inball (x k).
  Proof. intros k (A & B & _). destruct (bd_inv k) as (_ & E & _). split; [exact A|lra]. Qed.
  Lemma kinv_0 : kinv 0.
  Proof.
    unfold kinv. rewrite X0. split; [exact Hy0|]. split; [|exact HJ0]. rewrite dist_self. change (ek 0) with eta. lra.
  Qed.
  Lemma kstep_ball : forall k, kinv k -> length (d k) = n -> (Rmax_norm (d k) <= ek k)%R ->
    x (S k) = Rsub_v (x k) (d k) ->
    inball (x (S k)) /\ (Rdist_inf (x (S k)) y0 <= 2 * eta - 2 * ek (S k))%R /\ Rdist_inf (x (S k)) (x k) = Rmax_norm (d k).
  Proof.
    intros k K Ld Hd EX. pose proof (kinv_ball k K) as (A & B'). destruct K as (_ & B & _).
    destruct (bd_inv k) as (_ & E & _). destruct (bd_inv (S k)) as (_ & E' & _). pose proof (ek_half k) as EH.
    assert (LS : length (x (S k)) = n) by (rewrite EX; apply Rsub_v_length; auto).
    assert (D : Rdist_inf (x (S k)) (x k) = Rmax_norm (d k)).
    { rewrite Rdist_inf_sym. unfold Rdist_inf. rewrite EX, vsub_cancel by congruence. reflexivity. }
    pose proof (Rdist_inf_tri (x (S k)) (x k) y0 ltac:(congruence) ltac:(congruence)) as T.
    assert (R1 : (Rdist_inf (x (S k)) y0 <= 2 * eta - 2 * ek (S k))%R) by lra.
    split; [split; [exact LS|lra]|]. split; assumption.
  Qed.
  Lemma kinv_S : forall k, kinv k -> length (d k) = n -> mvec (J (x k)) (d k) = F (x k) -> (Rmax_norm (d k) <= ek k)%R ->
    x (S k) = Rsub_v (x k) (d k) -> kinv (S k).
  Proof.
    intros k K Ld Md Hd EX. destruct (kstep_ball k K Ld Hd EX) as (IB & R1 & D).
    pose proof (kinv_ball k K) as IK. destruct (bd_inv k) as (B & E & H0 & H1).
    split; [apply IB|]. split; [exact R1|]. intros v Lv.
    destruct K as (_ & _ & KB). specialize (KB v Lv).
    pose proof (HJL (x (S k)) (x k) v IB IK Lv) as Q. rewrite D in Q.
    pose proof (norm_sub_le (mvec (J (x k)) v) (mvec (J (x (S k))) v)) as T.
    rewrite (mvlen _ _ _ _ (proj2 (HF _ IK)) Lv), (mvlen _ _ _ _ (proj2 (HF _ IB)) Lv) in T. specialize (T eq_refl).
    set (a := Rmax_norm v) in *. set (m := Rmax_norm (mvec (J (x (S k))) v)) in *. set (m0 := Rmax_norm (mvec (J (x k)) v)) in *.
    assert (Pa : (0 <= a)%R) by apply Rmax_norm_pos.
    assert (Q' : (L * Rmax_norm (d k) * a <= L * ek k * a)%R).
    { apply Rmult_le_compat_r; [exact Pa|]. apply Rmult_le_compat_l; assumption. }
    rewrite bk_S. apply (Rmult_le_reg_r (1 - hk k)); [lra|].
    replace (bk k / (1 - hk k) * m * (1 - hk k))%R with (bk k * m)%R by (field; lra).
    assert (bk k * m0 <= bk k * (L * ek k * a + m))%R by (apply Rmult_le_compat_l; lra).
    unfold hk. lra.
  Qed.
  (** The residual after the step, and with it the next step. *)
  Lemma kres : forall k, kinv k -> length (d k) = n -> mvec (J (x k)) (d k) = F (x k) -> (Rmax_norm (d k) <= ek k)%R ->
    x (S k) = Rsub_v (x k) (d k) -> (Rmax_norm (F (x (S k))) <= L / 2 * ek k ^ 2)%R.
  Proof.
    intros k K Ld Md Hd EX. destruct (kstep_ball k K Ld Hd EX) as (IB & R1 & D).
    pose proof (kinv_ball k K) as IK. pose proof (HFL (x k) (x (S k)) IK IB) as Q. rewrite D in Q.
    assert (EV : Rsub_v (x (S k)) (x k) = Rscal (-1) (d k)).
    { rewrite EX. assert (LL : length (x k) = length (d k)) by (rewrite Ld; apply IK).
      revert LL. generalize (x k) (d k). induction l as [|a l IH]; intros [|b l'] H; try discriminate; auto.
      cbn. f_equal; [ring|]. apply IH. auto. }
    rewrite EV, mvec_scal, Md in Q.
    assert (EF : Rsub_v (Rsub_v (F (x (S k))) (F (x k))) (Rscal (-1) (F (x k))) = F (x (S k))).
    { assert (LL : length (F (x (S k))) = length (F (x k))) by (rewrite (proj1 (HF _ IB)), (proj1 (HF _ IK)); reflexivity).
      revert LL. generalize (F (x (S k))) (F (x k)). induction l as [|a l IH]; intros [|b l'] H; try discriminate; auto.
      cbn. f_equal; [ring|]. apply IH. auto. }
    rewrite EF in Q. eapply Rle_trans; [exact Q|]. apply Rmult_le_compat_l; [lra|]. apply pow_incr.
    split; [apply Rmax_norm_pos|exact Hd].
  Qed.
  Lemma kstep_small : forall k, kinv k -> length (d k) = n -> mvec (J (x k)) (d k) = F (x k) -> (Rmax_norm (d k) <= ek k)%R ->
    x (S k) = Rsub_v (x k) (d k) -> forall d', length d' = n -> mvec (J (x (S k))) d' = F (x (S k)) -> (Rmax_norm d' <= ek (S k))%R.
  Proof.
    intros k K Ld Md Hd EX d' Ld' Md'. pose proof (kinv_S k K Ld Md Hd EX) as (_ & _ & KB).
    pose proof (kres k K Ld Md Hd EX) as Q. specialize (KB d' Ld'). rewrite Md' in KB.
    destruct (bd_inv k) as (B & E & H0 & H1). destruct (bd_inv (S k)) as (B' & _).
    eapply Rle_trans; [exact KB|]. eapply Rle_trans; [apply Rmult_le_compat_l; [lra|exact Q]|].
    rewrite ek_S, bk_S. unfold hk at 2. apply Req_le. unfold hk in *. field. lra.
  Qed.

  (** ** The limit *)
  Hypothesis Steps : forall k, kinv k /\ length (d k) = n /\ mvec (J (x k)) (d k) = F (x k) /\
    (Rmax_norm (d k) <= ek k)%R /\ x (S k) = Rsub_v (x k) (d k).

  Lemma k_ball : forall k, inball (x k).
  Proof. intro k. apply kinv_ball. apply Steps. Qed.
  Lemma k_dist : forall k j, (Rdist_inf (x (k + j)%nat) (x k) <= 2 * ek k - 2 * ek (k + j)%nat)%R.
  Proof.
    intro k. induction j as [|j IH].
    - rewrite Nat.add_0_r, dist_self. lra.
    - destruct (Steps (k + j)) as (K & Ld & Md & Hd & EX). destruct (kstep_ball _ K Ld Hd EX) as (IB & _ & D).
      rewrite <- plus_n_Sm. pose proof (ek_half (k + j)). destruct (bd_inv (S (k + j))) as (_ & E & _).
      pose proof (Rdist_inf_tri (x (S (k + j)%nat)) (x (k + j)%nat) (x k)) as T.
      rewrite !(proj1 (k_ball _)) in T. specialize (T eq_refl eq_refl). lra.
  Qed.
  Lemma k_bounded : exists C, (0 <= C)%R /\ forall z v, inball z -> length v = n -> (Rmax_norm (mvec (J z) v) <= C * Rmax_norm v)%R.
  Proof.
    destruct (mvec_bound (J y0)) as (C & HC & HB). exists (L * (2 * eta) + C)%R. split; [nra|].
    assert (I0 : inball y0) by (split; [exact Hy0|rewrite dist_self; lra]).
    intros z v Hz Lv. pose proof (HJL y0 z v I0 Hz Lv) as Q. specialize (HB v).
    pose proof (norm_sub_le (mvec (J z) v) (mvec (J y0) v)) as T.
    rewrite (mvlen _ _ _ _ (proj2 (HF _ Hz)) Lv), (mvlen _ _ _ _ (proj2 (HF _ I0)) Lv) in T. specialize (T eq_refl).
    pose proof (Rmax_norm_pos v). rewrite Rdist_inf_sym in Q.
    assert (L * Rdist_inf z y0 * Rmax_norm v <= L * (2 * eta) * Rmax_norm v)%R.
    { apply Rmult_le_compat_r; [lra|]. apply Rmult_le_compat_l; [exact HL|apply Hz]. }
    lra.
  Qed.

  Lemma k_root : exists root, inball root /\ F root = zerov n /\
    (forall k, (Rdist_inf (x k) root <= 2 * ek k)%R) /\
    forall z, inball z -> F z = zerov n -> z = root.
  Proof.
    assert (NE : Un_cv (fun k => (2 * ek k)%R) 0).
    { intros e He'. destruct (null_geo (2 * eta) e He') as [N HN]. exists N. intros m Hm. specialize (HN m Hm).
      unfold R_dist in *. rewrite Rminus_0_r in *. destruct (bd_inv m) as (_ & E & _). pose proof (ek_geo m) as G.
      rewrite Rabs_pos_eq by lra. eapply Rle_lt_trans; [|exact HN]. eapply Rle_trans; [|apply Rle_abs].
      unfold Rdiv in *. lra. }
    destruct (vec_complete n x (fun k => (2 * ek k)%R)) as (root & Lr & Hr).
    { intro k. apply k_ball. }
    { intro k. destruct (bd_inv k) as (_ & E & _). lra. }
    { exact NE. }
    { intros k j. pose proof (k_dist k j). destruct (bd_inv (k + j)) as (_ & E & _). lra. }
    assert (IR : inball root).
    { split; [exact Lr|]. specialize (Hr 0). rewrite X0, Rdist_inf_sym in Hr. exact Hr. }
    exists root. split; [exact IR|].
    assert (F0 : F root = zerov n).
    { destruct k_bounded as (C & HC & HB).
      apply Rdist_inf_0; [rewrite zerov_length; apply HF; exact IR|].
      apply Rle_antisym; [|apply Rdist_inf_pos].
      apply (le_null _ (fun k => ((C + L * eta) * (2 * ek k) + C * (2 * ek k))%R)).
      { replace 0%R with ((C + L * eta) * 0 + C * 0)%R by ring.
        apply CV_plus; (apply (CV_mult (fun _ => _)); [|exact NE]);
          (intros e He'; exists 0; intros; unfold R_dist; rewrite Rminus_diag_eq, Rabs_R0; auto). }
      intro k. destruct (Steps k) as (K & Ld & Md & Hd & EX). pose proof (k_ball k) as IK.
      pose proof (HFL (x k) root IK IR) as Q. pose proof (Hr k) as Hrk. rewrite Rdist_inf_sym in Hrk.
      destruct (bd_inv k) as (_ & E & _ & _). pose proof (ek_geo k) as G.
      assert (EE : (ek k <= eta)%R).
      { clear - He G. assert (1 <= 2 ^ k)%R by (apply pow_R1_Rle; lra). eapply Rle_trans; [exact G|].
        apply (Rmult_le_reg_r (2 ^ k)); [lra|]. unfold Rdiv. rewrite Rmult_assoc, Rinv_l by lra. nra. }
      pose proof (HB (x k) (Rsub_v root (x k)) IK ltac:(apply Rsub_v_length; [exact Lr|apply IK])) as B1.
      pose proof (HB (x k) (d k) IK Ld) as B2. rewrite Md in B2.
      fold (Rdist_inf root (x k)) in B1.
      set (w := mvec (J (x k)) (Rsub_v root (x k))) in *.
      assert (Lw : length w = n).
      { unfold w. apply (mvlen n n); [apply HF; exact IK|]. apply Rsub_v_length; [exact Lr|apply IK]. }
      assert (T : (Rdist_inf (F root) (zerov n) <= Rmax_norm (Rsub_v (Rsub_v (F root) (F (x k))) w) + Rmax_norm w + Rmax_norm (F (x k)))%R).
      { assert (Z : forall v, length v = n -> Rmax_norm v = Rdist_inf v (zerov n)).
        { intros v Lv. rewrite <- Lv. unfold Rdist_inf. f_equal. symmetry. clear. induction v as [|a v IH]; [reflexivity|]. cbn. f_equal; [ring|exact IH]. }
        pose proof (proj1 (HF _ IR)) as L1. pose proof (proj1 (HF _ IK)) as L2.
        pose proof (Rdist_inf_tri (F root) (F (x k)) (zerov n) ltac:(congruence) ltac:(rewrite zerov_length; exact L2)) as T1.
        rewrite <- (Z (F (x k)) L2) in T1.
        assert (L3 : length (Rsub_v (F root) (F (x k))) = n) by (apply Rsub_v_length; assumption).
        pose proof (Rdist_inf_tri (Rsub_v (F root) (F (x k))) w (zerov n) ltac:(congruence) ltac:(rewrite zerov_length; exact Lw)) as T2.
        rewrite <- (Z w Lw), <- (Z _ L3) in T2. unfold Rdist_inf at 1 in T2. fold (Rdist_inf (F root) (F (x k))) in T2. 
        unfold Rdist_inf at 2 in T1. unfold Rdist_inf at 1 in T2. lra. }
      pose proof (Rdist_inf_pos root (x k)) as Pr.
      assert (Rdist_inf root (x k) ^ 2 <= (2 * eta) * (2 * ek k))%R by nra.
      assert (C * Rdist_inf root (x k) <= C * (2 * ek k))%R by (apply Rmult_le_compat_l; assumption).
      assert (C * Rmax_norm (d k) <= C * (2 * ek k))%R by (apply Rmult_le_compat_l; lra).
      assert (L / 2 * Rdist_inf root (x k) ^ 2 <= L / 2 * (2 * eta * (2 * ek k)))%R by (apply Rmult_le_compat_l; lra).
      lra. }
    split; [exact F0|]. split; [exact Hr|].
    intros z Iz Fz.
    (* distance of z to the iterates *)
    assert (Zi : forall k, (bk k * L * Rdist_inf z (x k) <= 1 /\ Rdist_inf z (x k) <= 2 * eta / 2 ^ k)%R).
    { induction k as [|k (I1 & I2)].
      - rewrite X0. change (bk 0) with beta. split.
        + assert (beta * L * Rdist_inf z y0 <= beta * L * (2 * eta))%R; [|lra].
          apply Rmult_le_compat_l; [apply Rmult_le_pos; lra|apply Iz].
        + cbn [pow]. replace (2 * eta / 1)%R with (2 * eta)%R by field. apply Iz.
      - destruct (Steps k) as (K & Ld & Md & Hd & EX). pose proof (k_ball k) as IK.
        pose proof (HFL (x k) z IK Iz) as Q. destruct (bd_inv k) as (B & E & H0 & H1).
        destruct K as (_ & _ & KB).
        assert (LX : length (x k) = n) by apply IK. assert (LZ : length z = n) by apply Iz.
        assert (LS : length (x (S k)) = n) by apply k_ball.
        specialize (KB (Rsub_v (x (S k)) z) ltac:(apply Rsub_v_length; assumption)). fold (Rdist_inf (x (S k)) z) in KB.
        assert (EV : mvec (J (x k)) (Rsub_v (x (S k)) z) = Rsub_v (Rsub_v (F z) (F (x k))) (mvec (J (x k)) (Rsub_v z (x k)))).
        { rewrite EX. assert (M : mat n n (J (x k))) by (apply HF; exact IK).
          rewrite (mvec_sub _ n n _ _ M), (mvec_sub _ n n _ _ M), (mvec_sub _ n n _ _ M), Md, Fz; try assumption; [|apply Rsub_v_length; assumption].
          pose proof (proj1 (HF _ IK)) as L1. pose proof (mvlen _ _ _ _ M LX) as L2. pose proof (mvlen _ _ _ _ M LZ) as L3.
          apply rearr; assumption. }
        rewrite EV in KB. rewrite (Rdist_inf_sym (x (S k)) z) in KB.
        set (r := Rdist_inf z (x k)) in *. set (r' := Rdist_inf z (x (S k))) in *.
        assert (Pr : (0 <= r)%R) by apply Rdist_inf_pos. assert (Pr' : (0 <= r')%R) by apply Rdist_inf_pos.
        assert (Rh : (r' <= r / 2)%R).
        { eapply Rle_trans; [exact KB|]. eapply Rle_trans; [apply Rmult_le_compat_l; [lra|exact Q]|].
          replace (bk k * (L / 2 * r ^ 2))%R with (bk k * L * r * (r / 2))%R by field. nra. }
        split.
        + rewrite bk_S. apply (Rmult_le_reg_r (1 - hk k)); [lra|].
          replace (bk k / (1 - hk k) * L * r' * (1 - hk k))%R with (bk k * L * r')%R by (field; lra).
          assert (bk k * L * r' <= bk k * L * (r / 2))%R; [|lra].
          apply Rmult_le_compat_l; [apply Rmult_le_pos; lra|exact Rh].
        + assert (0 < 2 ^ k)%R by (apply pow_lt; lra).
          replace (2 * eta / 2 ^ S k)%R with (2 * eta / 2 ^ k / 2)%R by (cbn; field; lra). lra. }
    apply Rdist_inf_0; [rewrite Lr; apply Iz|]. apply Rle_antisym; [|apply Rdist_inf_pos].
    apply (le_null _ (fun k => (2 * eta / 2 ^ k + 2 * ek k)%R)).
    { replace 0%R with (0 + 0)%R by ring. apply CV_plus; [apply null_geo|exact NE]. }
    intro k. pose proof (Rdist_inf_tri z (x k) root) as T. rewrite (proj1 (k_ball k)), Lr in T.
    specialize (T (proj1 Iz) eq_refl). specialize (Hr k). destruct (Zi k) as (_ & Z2). lra.
  Qed.
End Kantorovich.

(** ** Success of a run whose steps and residuals become small *)
Lemma nc_run_succeeds :
  forall (n : nat) (F : list R -> list R) (y0 : list R) (rtol atol : R)
         (jac : (list xr -> list xr * unit) -> list xr -> list (list R)) lsolve (P : nc_params (N:=XR)) fs auxs,
    0 < n -> length y0 = n ->
    nc_rtol P = Fin rtol -> nc_atol P = Fin atol -> (0 <= rtol)%R -> (0 < atol)%R ->
    nc_norm P = max_norm (N:=XR) -> nc_lower P = None -> nc_upper P = None -> nc_cauchy P = true ->
    let s := newton_chord jac lsolve P in
    let st0 := nc_st0 jac P (liftv F) (map Fin y0) fs in
    let Y := y_at s (liftv F) (map Fin y0) st0 (auxs fill0) in
    forall (x d : nat -> list R),
    (forall k, Y k = map Fin (x k)) -> (forall k, length (x k) = n) -> (forall k, length (d k) = n) ->
    (forall k, lin_sol jac lsolve (nc_is_newton P) (liftv F) (map Fin y0) (Y k) = (map Fin (d k), successful)) ->
    (forall k, x (S k) = Rsub_v (x k) (d k)) ->
    forall K, (Rmax_norm (d K) < atol)%R -> (Rmax_norm (F (x K)) < atol)%R ->
    exists k, 1 <= k <= S K /\
      forall fuel ms throw, k < fuel -> (forall m, ms = Some m -> k <= m) ->
        exists sol, iterative_solve vallfinite s (liftv F) fuel ms throw (map Fin y0) fs auxs = Ret sol /\
          result sol = successful /\ value sol = map Fin (x k).
Proof.
  intros n F y0 rtol atol jac lsolve P fs auxs Hn Hy0 Hra Haa Hr0 Ha0 Hnm Hlo Hup HC s st0 Y x d Inv Lx Ldk Els EXk K St' Fs.
  set (fn := liftv F) in *.
  set (S_ := st_at s fn (map Fin y0) st0 (auxs fill0)).
  assert (Hbox : has_box P = false) by (unfold has_box; rewrite Hlo, Hup; reflexivity).
  assert (ED : forall k, Rsub_v (x k) (x (S k)) = d k).
  { intro k. rewrite EXk. apply vsub_cancel. rewrite Ldk. apply Lx. }
  assert (St : (Rmax_norm (Rsub_v (x K) (x (S K))) < atol)%R) by (rewrite ED; exact St').
  assert (HS : forall k, S_ (S k) = mkNc (Some (map Fin (F (x k)))) (if nc_is_newton P then None else Some (jac fn (map Fin y0)))
                 (map Fin (Rsub_v (x k) (x (S k)))) (nc_diffsize (S_ (S k))) (nc_diffsize_prev (S_ (S k))) successful (nc_step (S_ (S k)))).
  { intro k. pose proof (Inv k) as I1. pose proof (Els k) as Ed.
    assert (E : S_ (S k) = _) by exact (nc_st_S jac lsolve P fn (map Fin y0) fs (auxs fill0) k). cbv zeta in E.
    rewrite Hbox, HC in E. change (y_at _ _ _ _ _ k) with (Y k) in E. rewrite Ed in E. cbn [fst snd] in E.
    rewrite I1 in E. unfold fn in E at 1. rewrite liftv_Fin in E. cbn [fst] in E.
    rewrite ED. rewrite E. reflexivity. }
  assert (SR : forall k, says_result s fn (map Fin y0) st0 (auxs fill0) k = successful).
  { intros [|k]; unfold says_result; cbn [s_terminate s newton_chord]; unfold nc_terminate; rewrite HC.
    - change (st_at _ _ _ _ _ 0) with st0. reflexivity.
    - change (st_at _ _ _ _ _ (S k)) with (S_ (S k)). rewrite HS. reflexivity. }
  assert (AF : forall k, vallfinite (N:=XR) (asked s fn (map Fin y0) st0 (auxs fill0) k) = true).
  { intro k. unfold asked. change (y_at _ _ _ _ _ (pred k)) with (Y (pred k)). rewrite (Inv _). apply allfin_Fin. }
  assert (HT0 : says_terminate s fn (map Fin y0) st0 (auxs fill0) 0 = false).
  { unfold says_terminate. change (asked s fn (map Fin y0) st0 (auxs fill0) 0) with (map Fin y0). change (st_at _ _ _ _ _ 0) with st0.
    cbn [s_terminate s newton_chord]. unfold nc_terminate. unfold st0, nc_st0; rewrite HC; cbn [nc_result nc_step nc_diff nc_f results_eqb negb orb fst].
    unfold cauchy_termination. apply andb_false_iff. left. rewrite Hnm, Hra, Haa.
    destruct (nltb _ _) eqn:E; auto. exfalso.
    apply (max_norm_lt XR_laws) in E; [|apply (dl_01 XR XR_div)]. rewrite Forall_nth in E.
    clear - Hy0 Hn E. destruct y0 as [|a y0']; [simpl in Hy0; lia|].
    specialize (E 0 (xdiv (xabs PInf) (xadd (Fin atol) (xmul (Fin rtol) (xabs (Fin a))))) eq_refl).
    cbn in E. destruct (Rlt_dec _ 0); discriminate. }
  assert (HTK : says_terminate s fn (map Fin y0) st0 (auxs fill0) (S K) = true).
  { unfold says_terminate, asked. cbn [pred]. change (y_at _ _ _ _ _ K) with (Y K). change (st_at _ _ _ _ _ (S K)) with (S_ (S K)).
    rewrite HS, (Inv K). cbn [s_terminate s newton_chord]. unfold nc_terminate. rewrite HC.
    cbn [nc_result nc_step nc_diff nc_f results_eqb negb orb fst].
    unfold cauchy_termination. rewrite Hnm, Hra, Haa. apply andb_true_iff. split.
    - apply (max_norm_lt XR_laws); [apply (dl_01 XR XR_div)|]. apply Forall_nth.
      intros i z Hz. unfold vdiv in Hz. apply nth_vmap2 in Hz. destruct Hz as (e & sc & E1 & E2 & ->).
      unfold vabs in E1. apply nth_map in E1. destruct E1 as (d' & E1 & ->). apply nth_map in E1. destruct E1 as (d0 & E1 & ->).
      unfold vscale_tol in E2. apply nth_map in E2. destruct E2 as (v & E2 & ->). apply nth_map in E2. destruct E2 as (v' & _ & ->).
      pose proof (Rabs_pos v'). cbn [nadd nmul nabs ndiv nltb nofQ XR xabs xmul xadd]. rewrite xdiv_fin by nra.
      cbn [xabs]. apply xltb_fin. rewrite Q2R_1. assert (0 < atol + rtol * Rabs v')%R by nra.
      unfold Rdiv. rewrite Rabs_mult, Rabs_Rabsolu, Rabs_inv, (Rabs_pos_eq (atol + _)) by lra.
      apply (Rmult_lt_reg_r (atol + rtol * Rabs v')); auto. rewrite Rmult_assoc, Rinv_l, Rmult_1_r, Rmult_1_l by lra.
      apply Rmax_norm_nth in E1. nra.
    - apply (max_norm_lt XR_laws); [apply (dl_01 XR XR_div)|]. apply Forall_nth.
      intros i z Hz. unfold vdiv in Hz. apply nth_vmap2 in Hz. destruct Hz as (e & sc & E1 & E2 & ->).
      unfold vabs in E1. apply nth_map in E1. destruct E1 as (d' & E1 & ->). apply nth_map in E1. destruct E1 as (d0 & E1 & ->).
      unfold vscale_tol in E2. apply nth_map in E2. destruct E2 as (v & E2 & ->). apply nth_error_In in E2. unfold vfull in E2. apply repeat_spec in E2. subst v.
      cbn [nadd nmul nabs ndiv nltb nofQ XR xabs xmul xadd]. rewrite Q2R_0, Q2R_1, Rabs_R0, Rmult_0_r, Rplus_0_r. rewrite xdiv_fin by lra.
      cbn [xabs]. apply xltb_fin.
      unfold Rdiv. rewrite Rabs_mult, Rabs_Rabsolu, Rabs_inv, (Rabs_pos_eq atol) by lra.
      apply (Rmult_lt_reg_r atol); auto. rewrite Rmult_assoc, Rinv_l, Rmult_1_r, Rmult_1_l by lra.
      apply Rmax_norm_nth in E1. lra. }
  destruct (solve_succeeds vallfinite s fn (map Fin y0) st0 _ fs auxs eq_refl eq_refl SR AF (ex_intro _ _ HTK)) as (k & Tk & M & Sol).
  assert (1 <= k) by (destruct k; [congruence|lia]).
  exists k. split.
  - split; [assumption|]. destruct (le_lt_dec k (S K)) as [|NK]; [lia|]. rewrite (M _ NK) in HTK. discriminate.
  - intros fuel ms throw Hf Hms. eexists. destruct (Sol fuel ms throw Hf Hms) as [E1 E2]. split; [exact E1|]. split; [exact E2|].
    etransitivity; [|apply (Inv k)]. reflexivity.
Qed.

(** ** The solver *)

(** Newton's method in exact arithmetic, nothing assumed about a root.  Suppose that at the start the
    inverse Jacobian is bounded by beta and the Newton step has length at most eta, that the Jacobian has
    Lipschitz constant L on the ball of radius 2 eta around the start, and that 2 beta L eta <= 1.  Then the
    ball contains exactly one root, every iterate stays in the ball, the k-th iterate is within
    2 eta / 2^k of that root, and once eta / 2^K (and C eta / 2^K for a bound C on the Jacobians of the
    ball) is below atol the solve succeeds after at most K + 1 steps. *)
Lemma C107_kantorovich_pf :
  forall (n : nat) (F : list R -> list R) (J : list R -> list (list R)) (y0 : list R) (beta eta L rtol atol : R)
         (jac : (list xr -> list xr * unit) -> list xr -> list (list R)) lsolve (P : nc_params (N:=XR)) fs auxs,
    let ball x := length x = n /\ (Rdist_inf x y0 <= 2 * eta)%R in
    0 < n -> length y0 = n -> (0 < beta)%R -> (0 <= eta)%R -> (0 <= L)%R ->
    (forall x, ball x -> length (F x) = n /\ mat n n (J x) /\ jac (liftv F) (map Fin x) = J x) ->
    (forall x c, ball x -> injective_mat n (J x) -> length c = n ->
       exists d, lsolve (J x) (map Fin c) = (map Fin d, successful) /\ length d = n /\ mvec (J x) d = c) ->
    (forall v, length v = n -> Rmax_norm v <= beta * Rmax_norm (mvec (J y0) v))%R ->
    (forall d, length d = n -> mvec (J y0) d = F y0 -> (Rmax_norm d <= eta)%R) ->
    (forall x z v, ball x -> ball z -> length v = n ->
       Rmax_norm (Rsub_v (mvec (J x) v) (mvec (J z) v)) <= L * Rdist_inf x z * Rmax_norm v)%R ->
    (forall x z, ball x -> ball z ->
       Rmax_norm (Rsub_v (Rsub_v (F z) (F x)) (mvec (J x) (Rsub_v z x))) <= L / 2 * Rdist_inf z x ^ 2)%R ->
    (2 * (beta * L * eta) <= 1)%R ->
    nc_rtol P = Fin rtol -> nc_atol P = Fin atol -> (0 <= rtol)%R -> (0 < atol)%R ->
    nc_norm P = max_norm (N:=XR) -> nc_lower P = None -> nc_upper P = None -> nc_cauchy P = true -> nc_is_newton P = true ->
    let s := newton_chord jac lsolve P in
    forall st0, s_init s (liftv F) (map Fin y0) fs auxs = Ret st0 ->
    exists (x : nat -> list R) (root : list R),
      (forall k, y_at s (liftv F) (map Fin y0) st0 (auxs fill0) k = map Fin (x k)) /\
      ball root /\ F root = zerov n /\ (forall z, ball z -> F z = zerov n -> z = root) /\
      (forall k, ball (x k) /\ (Rdist_inf (x k) root <= 2 * eta / 2 ^ k)%R) /\
      forall C K,
        (forall z v, ball z -> length v = n -> (Rmax_norm (mvec (J z) v) <= C * Rmax_norm v)%R) ->
        (eta / 2 ^ K < atol)%R -> (C * (eta / 2 ^ K) < atol)%R ->
        exists k, 1 <= k <= S K /\
        forall fuel ms throw, k < fuel -> (forall m, ms = Some m -> k <= m) ->
          exists sol, iterative_solve vallfinite s (liftv F) fuel ms throw (map Fin y0) fs auxs = Ret sol /\
            result sol = successful /\ value sol = map Fin (x k).
Proof.
  intros n F J y0 beta eta L rtol atol jac lsolve P fs auxs ball Hn Hy0 Hb He HL HD Hls HJ0 Hd0 HJL HFL Hh
    Hra Haa Hr0 Ha0 Hnm Hlo Hup HC HN s st0 Hi.
  set (fn := liftv F) in *.
  change (Ret (nc_st0 jac P fn (map Fin y0) fs) = Ret st0) in Hi. injection Hi as <-.
  set (st0 := nc_st0 jac P fn (map Fin y0) fs).
  set (Y := y_at s fn (map Fin y0) st0 (auxs fill0)).
  set (S_ := st_at s fn (map Fin y0) st0 (auxs fill0)).
  assert (Hbox : has_box P = false) by (unfold has_box; rewrite Hlo, Hup; reflexivity).
  assert (Hclip : forall v, nc_clip P v = v) by (intro; unfold nc_clip; rewrite Hlo, Hup; reflexivity).
  assert (TF : forall v, map toR (map Fin v) = v) by (intro v; rewrite map_map; cbn [toR]; apply map_id).
  assert (HF : forall x, inball n y0 eta x -> length (F x) = n /\ mat n n (J x)) by (intros z Hz; destruct (HD z Hz) as (? & ? & ?); auto).
  set (x k := map toR (Y k)).
  set (d k := map toR (fst (lin_sol jac lsolve (nc_is_newton P) fn (map Fin y0) (Y k)))).
  assert (X0 : x 0 = y0) by (unfold x; change (Y 0) with (map Fin y0); apply TF).
  assert (Step : forall k, Y k = map Fin (x k) -> kinv n J y0 beta eta L x k ->
            lin_sol jac lsolve (nc_is_newton P) fn (map Fin y0) (Y k) = (map Fin (d k), successful) /\
            length (d k) = n /\ mvec (J (x k)) (d k) = F (x k) /\ x (S k) = Rsub_v (x k) (d k) /\ Y (S k) = map Fin (x (S k))).
  { intros k EY K. pose proof (kinv_ball n J y0 beta eta L Hb HL He Hh x k K) as IB.
    destruct (HD _ IB) as (LF & MJ & EJ).
    assert (Inj : injective_mat n (J (x k))).
    { intros v Lv Ev. destruct K as (_ & _ & KB). specialize (KB v Lv). rewrite Ev in KB.
      assert (Z : forall m, Rmax_norm (zerov m) = 0%R).
      { induction m as [|m IH]; [reflexivity|]. change (Rmax (Rabs 0) (Rmax_norm (zerov m)) = 0%R). rewrite IH, Rabs_R0. apply Rmax_left, Rle_refl. }
      rewrite Z, Rmult_0_r in KB. apply Rdist_inf_0; [rewrite zerov_length; exact Lv|].
      assert (E : Rsub_v v (zerov n) = v).
      { rewrite <- Lv. clear. induction v as [|a v IH]; [reflexivity|]. cbn. f_equal; [ring|exact IH]. }
      unfold Rdist_inf. rewrite E. pose proof (Rmax_norm_pos v). lra. }
    destruct (Hls _ (F (x k)) IB Inj LF) as (d' & Ed & Ld & Md).
    assert (EL : lin_sol jac lsolve (nc_is_newton P) fn (map Fin y0) (Y k) = (map Fin d', successful)).
    { rewrite EY. unfold lin_sol, fn. rewrite liftv_Fin. cbn [fst]. rewrite <- Ed. f_equal. rewrite HN. exact EJ. }
    assert (Dk : d k = d') by (unfold d; rewrite EL; cbn [fst]; apply TF). rewrite Dk.
    split; [exact EL|]. split; [exact Ld|]. split; [exact Md|].
    assert (EYS : Y (S k) = map Fin (Rsub_v (x k) d')).
    { unfold Y. refine (eq_trans (nc_y_S jac lsolve P fn (map Fin y0) fs (auxs fill0) k) _).
      rewrite Hclip. change (y_at _ _ _ _ _ k) with (Y k). rewrite EL, EY. apply vsub_Fin. }
    assert (EX : x (S k) = Rsub_v (x k) d') by (unfold x at 1; rewrite EYS; apply TF).
    split; [exact EX|]. rewrite EX. exact EYS. }
  assert (Inv : forall k, Y k = map Fin (x k) /\ kinv n J y0 beta eta L x k /\
            forall d', length d' = n -> mvec (J (x k)) d' = F (x k) -> (Rmax_norm d' <= ek beta eta L k)%R).
  { induction k as [|k (IH1 & IH2 & IH3)].
    - rewrite X0. split; [reflexivity|]. split; [apply kinv_0; auto|]. exact Hd0.
    - destruct (Step k IH1 IH2) as (EL & Ld & Md & EX & EYS). specialize (IH3 (d k) Ld Md).
      split; [exact EYS|]. split.
      + eapply (kinv_S n F J y0) with (d := d); eauto.
      + eapply (kstep_small n F J y0) with (d := d); eauto. }
  assert (Steps : forall k, kinv n J y0 beta eta L x k /\ length (d k) = n /\ mvec (J (x k)) (d k) = F (x k) /\
    (Rmax_norm (d k) <= ek beta eta L k)%R /\ x (S k) = Rsub_v (x k) (d k)).
  { intro k. destruct (Inv k) as (I1 & I2 & I3). destruct (Step k I1 I2) as (_ & Ld & Md & EX & _).
    split; [exact I2|]. split; [exact Ld|]. split; [exact Md|]. split; [exact (I3 _ Ld Md)|exact EX]. }
  destruct (k_root n F J y0 beta eta L Hy0 HF HJL HFL Hb HL He Hh x d X0 Steps) as (root & IR & F0 & Hr & Un).
  exists x, root. split; [intro k; apply Inv|]. split; [exact IR|]. split; [exact F0|]. split; [exact Un|]. split.
  { intro k. split; [apply (kinv_ball n J y0 beta eta L Hb HL He Hh x k); apply Steps|].
    eapply Rle_trans; [apply Hr|]. pose proof (ek_geo beta eta L Hb HL He Hh k). unfold Rdiv in *. lra. }
  intros C K HCb HT1 HT2.
  assert (Lx : forall k, length (x k) = n) by (intro k; apply (proj1 (Steps k))).
  assert (ED : forall k, Rsub_v (x k) (x (S k)) = d k).
  { intro k. destruct (Steps k) as (_ & Ld & _ & _ & EX). rewrite EX. apply vsub_cancel. rewrite Ld. apply Lx. }
  assert (St : (Rmax_norm (Rsub_v (x K) (x (S K))) < atol)%R).
  { rewrite ED. destruct (Steps K) as (_ & _ & _ & Hd & _). pose proof (ek_geo beta eta L Hb HL He Hh K). lra. }
  assert (Fs : (Rmax_norm (F (x K)) < atol)%R).
  { destruct (Steps K) as (KI & Ld & Md & Hd & _). rewrite <- Md.
    pose proof (kinv_ball n J y0 beta eta L Hb HL He Hh x K KI) as IB. pose proof (HCb _ _ IB Ld) as Q.
    pose proof (ek_geo beta eta L Hb HL He Hh K) as G. pose proof (Rmax_norm_pos (d K)). pose proof (Rmax_norm_pos (mvec (J (x K)) (d K))).
    destruct (Rle_or_lt 0 C) as [PC|NC]; [|nra].
    assert (C * Rmax_norm (d K) <= C * (eta / 2 ^ K))%R by (apply Rmult_le_compat_l; lra). lra. }
  apply (nc_run_succeeds n F y0 rtol atol jac lsolve P fs auxs) with (d := d); auto.
  - intro k. apply Inv.
  - intro k. apply Steps.
  - intro k. destruct (Inv k) as (I1 & I2 & _). apply (Step k I1 I2).
  - intro k. apply Steps.
  - rewrite <- ED. exact St.
Qed.

(** x^2 = 2 from 3/2: the root is never mentioned in the hypotheses and is not rational.  The solve
    succeeds within ten steps and returns a number within 1/6 / 2^k of sqrt 2 after k steps. *)
Definition sq2 (v : list R) : list R := [nth 0 v 0 * nth 0 v 0 - 2]%R.
Example C107_kantorovich_ex_pf :
  let s := newton_chord (fun _ v => sq1_J (map toR v)) sq1_solve (sq1_P true) in
  forall st0, s_init s (liftv sq2) [Fin (3/2)] (fun _ => [PInf]) (fun _ => tt) = Ret st0 ->
  exists x : nat -> list R,
    (forall k, y_at s (liftv sq2) [Fin (3/2)] st0 tt k = map Fin (x k)) /\
    (forall k, Rdist_inf (x k) [sqrt 2] <= 1 / 6 / 2 ^ k)%R /\
    exists k, 1 <= k <= 10 /\ forall fuel, k < fuel ->
      exists sol, iterative_solve vallfinite s (liftv sq2) fuel None true [Fin (3/2)] (fun _ => [PInf]) (fun _ => tt) = Ret sol /\
        result sol = successful /\ value sol = map Fin (x k).
Proof.
  intros s st0 Hi.
  assert (N1 : forall v, length v = 1 -> v = [nth 0 v 0%R]) by (intros [|a [|]] H; try discriminate; reflexivity).
  assert (RA : forall a, Rmax_norm [a] = Rabs a) by (intro a; cbn; apply Rmax_left, Rabs_pos).
  assert (RD : forall a b, Rdist_inf [a] [b] = Rabs (a - b)) by (intros a b; apply RA).
  assert (BE : forall z, length z = 1 -> (Rdist_inf z [3/2] <= 2 * (1 / 12))%R -> exists a, z = [a] /\ (4/3 <= a <= 5/3)%R).
  { intros z Hz H. rewrite (N1 z Hz) in H |- *. exists (nth 0 z 0%R). split; [reflexivity|]. rewrite RD in H.
    unfold Rabs in H. destruct (Rcase_abs _); lra. }
  destruct (C107_kantorovich_pf 1 sq2 sq1_J [3/2]%R (1/3) (1/12) 2 0 (1/1000)
     (fun _ v => sq1_J (map toR v)) sq1_solve (sq1_P true) (fun _ => [PInf]) (fun _ => tt)) with (st0 := st0)
     as (x & root & H1 & H2 & H3 & H4 & H5 & H6); try reflexivity; try lra; try lia; try exact Hi.
  - intros z _. split; [reflexivity|]. split; [split; repeat constructor|]. rewrite map_map. cbn [toR]. rewrite map_id. reflexivity.
  - intros z c [Hz Hd] _ Hc. destruct (BE z Hz Hd) as (a & -> & Ha). rewrite (N1 c Hc). exists [(nth 0 c 0 / (2 * a))%R].
    split; [reflexivity|]. split; [reflexivity|]. unfold sq1_J, mvec. cbn. f_equal. field. lra.
  - intros v Hv. rewrite (N1 v Hv). unfold sq1_J, mvec. cbn [map nth Rdot]. rewrite !RA, Rplus_0_r, Rabs_mult, (Rabs_pos_eq (2 * (3/2))) by lra. lra.
  - intros d Ld Md. rewrite (N1 d Ld) in Md |- *. unfold sq1_J, sq2, mvec in Md. cbn [map nth Rdot] in Md. injection Md as Md.
    rewrite RA. unfold Rabs. destruct (Rcase_abs _); lra.
  - intros z1 z2 v [Hz1 Hd1] [Hz2 Hd2] Lv. destruct (BE z1 Hz1 Hd1) as (a & -> & Ha). destruct (BE z2 Hz2 Hd2) as (b & -> & Hb).
    rewrite (N1 v Lv). unfold sq1_J, mvec. cbn [map nth Rdot Rsub_v]. rewrite !RA, RD, !Rplus_0_r.
    apply Req_le. set (w := nth 0 v 0%R). replace (2 * a * w - 2 * b * w)%R with (2 * (a - b) * w)%R by ring.
    rewrite !Rabs_mult, (Rabs_pos_eq 2) by lra. reflexivity.
  - intros z1 z2 [Hz1 Hd1] [Hz2 Hd2]. destruct (BE z1 Hz1 Hd1) as (a & -> & Ha). destruct (BE z2 Hz2 Hd2) as (b & -> & Hb).
    unfold sq1_J, sq2, mvec. cbn [map nth Rdot Rsub_v]. rewrite RA, RD, Rplus_0_r.
    apply Req_le. rewrite pow2_abs. replace (b * b - 2 - (a * a - 2) - 2 * a * (b - a))%R with ((b - a) ^ 2)%R by ring.
    rewrite Rabs_pos_eq by apply pow2_ge_0. field.
  - assert (R2 : root = [sqrt 2]).
    { destruct H2 as [Lr Dr]. destruct (BE root Lr Dr) as (a & -> & Ha). unfold sq2 in H3. cbn [nth zerov repeat] in H3. injection H3 as H3.
      f_equal. symmetry. apply sqrt_lem_1; lra. }
    subst root. exists x. split; [exact H1|]. split.
    + intro k. eapply Rle_trans; [apply H5|]. apply Req_le. field. apply pow_nonzero. lra.
    + destruct (H6 (10/3)%R 9) as (k & K1 & K2).
      * intros z v [Hz Hd] Lv. destruct (BE z Hz Hd) as (a & -> & Ha). rewrite (N1 v Lv). unfold sq1_J, mvec. cbn [map nth Rdot].
        rewrite !RA, Rplus_0_r, Rabs_mult, (Rabs_pos_eq (2 * a)) by lra. pose proof (Rabs_pos (nth 0 v 0%R)). nra.
      * lra.
      * lra.
      * exists k. split; [exact K1|]. intros fuel Hf. apply (K2 fuel None true Hf). discriminate.
Qed.

(** ** Chord *)

Lemma rem_split : forall (a b c e : list R) m, length a = m -> length b = m -> length c = m -> length e = m ->
  Rsub_v (Rsub_v a b) c = Radd_v (Rsub_v (Rsub_v a b) e) (Rsub_v e c).
Proof.
  induction a as [|a l IH]; intros [|b l2] [|c l3] [|e l4] m; intros; subst; try discriminate; auto.
  cbn. f_equal; [ring|]. eapply IH; try reflexivity; auto.
Qed.
Lemma norm_add_le : forall a b, length a = length b -> (Rmax_norm (Radd_v a b) <= Rmax_norm a + Rmax_norm b)%R.
Proof.
  induction a as [|x a IH]; intros [|y b] H; try discriminate.
  - cbn. lra.
  - change (Rmax (Rabs (x + y)) (Rmax_norm (Radd_v a b)) <= Rmax (Rabs x) (Rmax_norm a) + Rmax (Rabs y) (Rmax_norm b))%R.
    specialize (IH b ltac:(auto)). pose proof (Rabs_triang x y).
    pose proof (Rmax_l (Rabs x) (Rmax_norm a)). pose proof (Rmax_r (Rabs x) (Rmax_norm a)).
    pose proof (Rmax_l (Rabs y) (Rmax_norm b)). pose proof (Rmax_r (Rabs y) (Rmax_norm b)). apply Rmax_lub; lra.
Qed.

Section ChordKantorovich.
  Variables (n : nat) (F : list R -> list R) (J : list R -> list (list R)) (y0 : list R) (beta eta L : R).
  Notation ball := (inball n y0 eta).
  Hypothesis Hy0 : length y0 = n.
  Hypothesis HF : forall x, ball x -> length (F x) = n /\ mat n n (J x).
  Hypothesis HJ0 : forall v, length v = n -> (Rmax_norm v <= beta * Rmax_norm (mvec (J y0) v))%R.
  Hypothesis HJL : forall x z v, ball x -> ball z -> length v = n ->
    (Rmax_norm (Rsub_v (mvec (J x) v) (mvec (J z) v)) <= L * Rdist_inf x z * Rmax_norm v)%R.
  Hypothesis HFL : forall x z, ball x -> ball z ->
    (Rmax_norm (Rsub_v (Rsub_v (F z) (F x)) (mvec (J x) (Rsub_v z x))) <= L / 2 * Rdist_inf z x ^ 2)%R.
  Hypothesis Hb : (0 < beta)%R.
  Hypothesis HL : (0 <= L)%R.
  Hypothesis He : (0 <= eta)%R.
  Hypothesis Hh : (2 * (beta * L * eta) < 1)%R.
  Let q := (2 * (beta * L * eta))%R.

  Lemma ball_0 : ball y0.
  Proof. split; [exact Hy0|]. rewrite dist_self. lra. Qed.

  (** The remainder of F linearised with the Jacobian of the start. *)
  Lemma rem0 : forall x z, ball x -> ball z ->
    (Rmax_norm (Rsub_v (Rsub_v (F z) (F x)) (mvec (J y0) (Rsub_v z x))) <=
     L * (Rdist_inf z x / 2 + Rdist_inf x y0) * Rdist_inf z x)%R.
  Proof.
    intros x z Hx Hz. pose proof (HFL x z Hx Hz) as Q.
    assert (Lv : length (Rsub_v z x) = n) by (apply Rsub_v_length; [apply Hz|apply Hx]).
    pose proof (HJL x y0 (Rsub_v z x) Hx ball_0 Lv) as Q2. fold (Rdist_inf z x) in Q2.
    pose proof (proj1 (HF _ Hx)) as L1. pose proof (proj1 (HF _ Hz)) as L2.
    pose proof (mvlen _ _ _ _ (proj2 (HF _ Hx)) Lv) as L3. pose proof (mvlen _ _ _ _ (proj2 (HF _ ball_0)) Lv) as L4.
    rewrite (rem_split (F z) (F x) (mvec (J y0) (Rsub_v z x)) (mvec (J x) (Rsub_v z x)) n) by assumption.
    eapply Rle_trans; [apply norm_add_le|].
    - rewrite !(Rsub_v_length _ _ n); auto. apply Rsub_v_length; auto.
    - lra.
  Qed.

  (** The majorising sequence. *)
  Fixpoint tk (k : nat) : R := match k with 0 => 0%R | S j => (eta + beta * L / 2 * tk j ^ 2)%R end.
  Lemma tk_inv : forall k, (0 <= tk k <= tk (S k) /\ tk (S k) <= 2 * eta)%R.
  Proof.
    assert (BL : (0 <= beta * L)%R) by (apply Rmult_le_pos; lra).
    assert (G : forall t, (0 <= t <= 2 * eta -> eta + beta * L / 2 * t ^ 2 <= 2 * eta)%R).
    { intros t Ht. assert (t ^ 2 <= 2 * eta * (2 * eta))%R by nra.
      assert (beta * L / 2 * t ^ 2 <= beta * L / 2 * (2 * eta * (2 * eta)))%R by (apply Rmult_le_compat_l; lra). nra. }
    induction k as [|k ((I1 & I2) & I3)].
    - cbn [tk]. assert (E := G 0%R ltac:(lra)). split; [split|]; try lra; nra.
    - assert (M : (tk (S k) <= tk (S (S k)))%R).
      { change (eta + beta * L / 2 * tk k ^ 2 <= eta + beta * L / 2 * tk (S k) ^ 2)%R.
        apply Rplus_le_compat_l. apply Rmult_le_compat_l; [lra|]. apply pow_incr. lra. }
      split; [lra|]. apply (G (tk (S k))). lra.
  Qed.
  Lemma tk_le : forall k, (0 <= tk k <= 2 * eta)%R.
  Proof. intro k. destruct (tk_inv k) as ((? & ?) & ?). lra. Qed.

  Variable x : nat -> list R.
  Variable d : nat -> list R.
  Hypothesis X0 : x 0 = y0.
  Hypothesis Hd0 : (Rmax_norm (d 0%nat) <= eta)%R.
  (** As long as the iterates are in the ball, the next step is a chord step. *)
  Hypothesis Hst : forall k, ball (x k) -> length (d k) = n /\ mvec (J y0) (d k) = F (x k) /\ x (S k) = Rsub_v (x k) (d k).

  Lemma c_dist : forall k, ball (x k) -> Rdist_inf (x (S k)) (x k) = Rmax_norm (d k) /\ length (x (S k)) = n.
  Proof.
    intros k Hk. destruct (Hst k Hk) as (Ld & Md & EX). split.
    - rewrite Rdist_inf_sym. unfold Rdist_inf. rewrite EX, vsub_cancel; [reflexivity|]. rewrite Ld. apply Hk.
    - rewrite EX. apply Rsub_v_length; [apply Hk|exact Ld].
  Qed.
  Lemma c_inv : forall k, (ball (x k) /\ Rdist_inf (x k) y0 <= tk k /\ Rmax_norm (d k) <= tk (S k) - tk k /\ Rmax_norm (d k) <= eta * q ^ k)%R.
  Proof.
    induction k as [|k (I1 & I2 & I3 & I4)].
    - rewrite X0. split; [exact ball_0|]. rewrite dist_self. cbn [tk pow]. split; [lra|]. split; [lra|]. lra.
    - destruct (c_dist k I1) as (D & LS). destruct (Hst k I1) as (Ld & Md & EX).
      pose proof (Rdist_inf_tri (x (S k)) (x k) y0) as T. rewrite LS, (proj1 I1), Hy0 in T. specialize (T eq_refl eq_refl).
      assert (R1 : (Rdist_inf (x (S k)) y0 <= tk (S k))%R) by lra.
      assert (IB : ball (x (S k))) by (split; [exact LS|]; pose proof (tk_le (S k)); lra).
      split; [exact IB|]. split; [exact R1|].
      destruct (Hst (S k) IB) as (Ld' & Md' & _).
      pose proof (HJ0 (d (S k)) Ld') as Q. rewrite Md' in Q.
      pose proof (rem0 (x k) (x (S k)) I1 IB) as Q2.
      assert (EV : Rsub_v (x (S k)) (x k) = Rscal (-1) (d k)).
      { rewrite EX. assert (LL : length (x k) = length (d k)) by (rewrite Ld; apply I1).
        revert LL. generalize (x k) (d k). induction l as [|a l IH]; intros [|b l'] H; try discriminate; auto.
        cbn. f_equal; [ring|]. apply IH. auto. }
      rewrite EV, mvec_scal, Md in Q2.
      assert (EF : Rsub_v (Rsub_v (F (x (S k))) (F (x k))) (Rscal (-1) (F (x k))) = F (x (S k))).
      { assert (LL : length (F (x (S k))) = length (F (x k))) by (rewrite (proj1 (HF _ IB)), (proj1 (HF _ I1)); reflexivity).
        revert LL. generalize (F (x (S k))) (F (x k)). induction l as [|a l IH]; intros [|b l'] H; try discriminate; auto.
        cbn. f_equal; [ring|]. apply IH. auto. }
      rewrite EF, D in Q2.
      destruct (tk_inv k) as ((T1 & T2) & T3). pose proof (Rmax_norm_pos (d k)) as Pd.
      assert (BL : (0 <= beta * L)%R) by (apply Rmult_le_pos; lra).
      set (u := Rmax_norm (d k)) in *. set (t := tk k) in *. set (t' := tk (S k)) in *.
      assert (Q3 : (Rmax_norm (d (S k)) <= beta * L * (u / 2 + t) * u)%R).
      { eapply Rle_trans; [exact Q|]. replace (beta * L * (u / 2 + t) * u)%R with (beta * (L * (u / 2 + t) * u))%R by ring.
        apply Rmult_le_compat_l; [lra|]. eapply Rle_trans; [exact Q2|].
        apply Rmult_le_compat_r; [lra|]. apply Rmult_le_compat_l; lra. }
      split.
      + change (tk (S (S k))) with (eta + beta * L / 2 * t' ^ 2)%R. unfold t' at 2. change (tk (S k)) with (eta + beta * L / 2 * t ^ 2)%R.
        eapply Rle_trans; [exact Q3|].
        replace (eta + beta * L / 2 * t' ^ 2 - (eta + beta * L / 2 * t ^ 2))%R with (beta * L * (((t' - t) / 2 + t) * (t' - t)))%R by field.
        rewrite Rmult_assoc. apply Rmult_le_compat_l; [exact BL|]. apply Rmult_le_compat; lra.
      + eapply Rle_trans; [exact Q3|].
        assert (u / 2 + t <= 2 * eta)%R by lra.
        assert (beta * L * (u / 2 + t) <= q)%R.
        { unfold q. replace (2 * (beta * L * eta))%R with (beta * L * (2 * eta))%R by ring. apply Rmult_le_compat_l; assumption. }
        cbn [pow]. assert (beta * L * (u / 2 + t) * u <= q * u)%R by (apply Rmult_le_compat_r; assumption).
        assert (0 <= q)%R by (unfold q; assert (0 <= beta * L * eta)%R by (apply Rmult_le_pos; assumption); lra).
        assert (q * u <= q * (eta * q ^ k))%R by (apply Rmult_le_compat_l; assumption). lra.
  Qed.
  Lemma q_range : (0 <= q < 1)%R.
  Proof. unfold q. split; [|exact Hh]. assert (0 <= beta * L * eta)%R by (repeat apply Rmult_le_pos; lra). lra. Qed.
  Lemma c_cauchy : forall k j, (Rdist_inf (x (k + j)%nat) (x k) <= eta * (q ^ k - q ^ (k + j)%nat) / (1 - q))%R.
  Proof.
    pose proof q_range as Q. intro k. induction j as [|j IH].
    - rewrite Nat.add_0_r, dist_self. rewrite Rminus_diag_eq by reflexivity. unfold Rdiv. lra.
    - destruct (c_inv (k + j)) as (I1 & _ & _ & I4). destruct (c_dist _ I1) as (D & LS).
      rewrite <- plus_n_Sm. pose proof (Rdist_inf_tri (x (S (k + j)%nat)) (x (k + j)%nat) (x k)) as T.
      rewrite LS, (proj1 I1), (proj1 (proj1 (c_inv k))) in T. specialize (T eq_refl eq_refl).
      replace (eta * (q ^ k - q ^ S (k + j)) / (1 - q))%R with (eta * (q ^ k - q ^ (k + j)%nat) / (1 - q) + eta * q ^ (k + j)%nat)%R by (cbn [pow]; field; lra).
      lra.
  Qed.
  Lemma q_null : forall c, Un_cv (fun k => (c * q ^ k)%R) 0.
  Proof.
    intro c. replace 0%R with (c * 0)%R by ring. apply (CV_mult (fun _ => c)).
    - intros e He'. exists 0. intros. unfold R_dist. rewrite Rminus_diag_eq, Rabs_R0; auto.
    - intros e He'. pose proof q_range. destruct (pow_lt_1_zero q ltac:(rewrite Rabs_pos_eq; lra) e He') as [N HN].
      exists N. intros m Hm. unfold R_dist. rewrite Rminus_0_r. apply HN, Hm.
  Qed.

  Lemma c_root : exists root, ball root /\ F root = zerov n /\
    (forall k, (Rdist_inf (x k) root <= eta / (1 - q) * q ^ k)%R) /\
    forall z, ball z -> F z = zerov n -> z = root.
  Proof.
    pose proof q_range as Q.
    assert (PI : (0 <= eta / (1 - q))%R) by (apply Rmult_le_pos; [exact He|]; left; apply Rinv_0_lt_compat; lra).
    assert (Pq : forall k, (0 <= q ^ k)%R) by (intro k; apply pow_le; lra).
    destruct (vec_complete n x (fun k => (eta / (1 - q) * q ^ k)%R)) as (root & Lr & Hr).
    { intro k. apply c_inv. }
    { intro k. apply Rmult_le_pos; auto. }
    { apply q_null. }
    { intros k j. eapply Rle_trans; [apply c_cauchy|]. pose proof (Pq (k + j)%nat). unfold Rdiv in *.
      replace (eta * (q ^ k - q ^ (k + j)%nat) * / (1 - q))%R with (eta * / (1 - q) * (q ^ k - q ^ (k + j)%nat))%R by ring.
      apply Rmult_le_compat_l; [exact PI|lra]. }
    assert (IR : ball root).
    { split; [exact Lr|]. apply Rnot_lt_le. intro G.
      assert ((Rdist_inf root y0 - 2 * eta) <= 0)%R; [|lra].
      apply (le_null _ (fun k => (eta / (1 - q) * q ^ k)%R)); [apply q_null|]. intro k.
      pose proof (Rdist_inf_tri root (x k) y0) as T. destruct (c_inv k) as ((B1 & B2) & _). rewrite Lr, B1, Hy0 in T. specialize (T eq_refl eq_refl).
      rewrite (Rdist_inf_sym root (x k)) in T. specialize (Hr k). lra. }
    exists root. split; [exact IR|].
    assert (F0 : F root = zerov n).
    { destruct (mvec_bound (J y0)) as (C & HC & HB).
      apply Rdist_inf_0; [rewrite zerov_length; apply HF; exact IR|].
      apply Rle_antisym; [|apply Rdist_inf_pos].
      apply (le_null _ (fun k => ((L * (4 * eta) + C) * (eta / (1 - q) * q ^ k) + C * (eta * q ^ k))%R)).
      { replace 0%R with ((L * (4 * eta) + C) * 0 + C * 0)%R by ring.
        apply CV_plus; (apply (CV_mult (fun _ => _)); [|apply q_null]);
          (intros e He'; exists 0; intros; unfold R_dist; rewrite Rminus_diag_eq, Rabs_R0; auto). }
      intro k. destruct (c_inv k) as (IK & _ & _ & Hdk). destruct (Hst k IK) as (Ld & Md & _).
      pose proof (rem0 (x k) root IK IR) as Q1. pose proof (Hr k) as Hrk. rewrite Rdist_inf_sym in Hrk.
      pose proof (HB (Rsub_v root (x k))) as B1. pose proof (HB (d k)) as B2. rewrite Md in B2. fold (Rdist_inf root (x k)) in B1.
      set (w := mvec (J y0) (Rsub_v root (x k))) in *.
      assert (Lw : length w = n).
      { unfold w. apply (mvlen n n); [apply HF; exact ball_0|]. apply Rsub_v_length; [exact Lr|apply IK]. }
      assert (T : (Rdist_inf (F root) (zerov n) <= Rmax_norm (Rsub_v (Rsub_v (F root) (F (x k))) w) + Rmax_norm w + Rmax_norm (F (x k)))%R).
      { assert (Z : forall v, length v = n -> Rmax_norm v = Rdist_inf v (zerov n)).
        { intros v Lv. rewrite <- Lv. unfold Rdist_inf. f_equal. symmetry. clear. induction v as [|a v IH]; [reflexivity|]. cbn. f_equal; [ring|exact IH]. }
        pose proof (proj1 (HF _ IR)) as L1. pose proof (proj1 (HF _ IK)) as L2.
        pose proof (Rdist_inf_tri (F root) (F (x k)) (zerov n) ltac:(congruence) ltac:(rewrite zerov_length; exact L2)) as T1.
        rewrite <- (Z (F (x k)) L2) in T1.
        assert (L3 : length (Rsub_v (F root) (F (x k))) = n) by (apply Rsub_v_length; assumption).
        pose proof (Rdist_inf_tri (Rsub_v (F root) (F (x k))) w (zerov n) ltac:(congruence) ltac:(rewrite zerov_length; exact Lw)) as T2.
        rewrite <- (Z w Lw), <- (Z _ L3) in T2. unfold Rdist_inf at 1 in T2. fold (Rdist_inf (F root) (F (x k))) in T2.
        unfold Rdist_inf at 2 in T1. unfold Rdist_inf at 1 in T2. lra. }
      pose proof (Rdist_inf_pos root (x k)) as Pr.
      assert (D4 : (Rdist_inf root (x k) <= 4 * eta)%R).
      { pose proof (Rdist_inf_tri root y0 (x k)) as T4. rewrite Lr, Hy0, (proj1 IK) in T4. specialize (T4 eq_refl eq_refl).
        rewrite (Rdist_inf_sym y0) in T4. destruct IR, IK. lra. }
      assert (C * Rdist_inf root (x k) <= C * (eta / (1 - q) * q ^ k))%R by (apply Rmult_le_compat_l; assumption).
      assert (C * Rmax_norm (d k) <= C * (eta * q ^ k))%R by (apply Rmult_le_compat_l; lra).
      assert (L * (Rdist_inf root (x k) / 2 + Rdist_inf (x k) y0) * Rdist_inf root (x k) <= L * (4 * eta) * (eta / (1 - q) * q ^ k))%R.
      { assert (0 <= Rdist_inf (x k) y0)%R by apply Rdist_inf_pos. apply Rmult_le_compat; try lra.
        - apply Rmult_le_pos; lra.
        - apply Rmult_le_compat_l; [exact HL|]. destruct IK. lra. }
      lra. }
    split; [exact F0|]. split; [exact Hr|].
    intros z Iz Fz.
    assert (Zi : forall k, (Rdist_inf z (x k) <= 2 * eta - tk k /\ Rdist_inf z (x k) <= 2 * eta * q ^ k)%R).
    { induction k as [|k (I1 & I2)].
      - rewrite X0. cbn [tk pow]. destruct Iz. lra.
      - destruct (c_inv k) as (IK & Dk & _). destruct (Hst k IK) as (Ld & Md & EX).
        pose proof (rem0 (x k) z IK Iz) as Q1.
        assert (LX : length (x k) = n) by apply IK. assert (LZ : length z = n) by apply Iz.
        assert (LS : length (x (S k)) = n) by apply c_inv.
        pose proof (HJ0 (Rsub_v (x (S k)) z) ltac:(apply Rsub_v_length; assumption)) as KB. fold (Rdist_inf (x (S k)) z) in KB.
        assert (EV : mvec (J y0) (Rsub_v (x (S k)) z) = Rsub_v (Rsub_v (F z) (F (x k))) (mvec (J y0) (Rsub_v z (x k)))).
        { rewrite EX. assert (M : mat n n (J y0)) by (apply HF; exact ball_0).
          rewrite (mvec_sub _ n n _ _ M), (mvec_sub _ n n _ _ M), (mvec_sub _ n n _ _ M), Md, Fz; try assumption; [|apply Rsub_v_length; assumption].
          pose proof (proj1 (HF _ IK)) as L1. pose proof (mvlen _ _ _ _ M LX) as L2. pose proof (mvlen _ _ _ _ M LZ) as L3.
          apply rearr; assumption. }
        rewrite EV in KB. rewrite (Rdist_inf_sym (x (S k)) z) in KB.
        pose proof (Rdist_inf_pos z (x k)) as Pr. pose proof (Rdist_inf_pos (x k) y0) as Pd. pose proof (tk_le k) as Tk.
        set (r := Rdist_inf z (x k)) in *. set (r' := Rdist_inf z (x (S k))) in *. set (t := tk k) in *.
        assert (BL : (0 <= beta * L)%R) by (apply Rmult_le_pos; lra).
        assert (Q3 : (r' <= beta * L * ((r / 2 + t) * r))%R).
        { eapply Rle_trans; [exact KB|]. replace (beta * L * ((r / 2 + t) * r))%R with (beta * (L * (r / 2 + t) * r))%R by ring.
          apply Rmult_le_compat_l; [lra|]. eapply Rle_trans; [exact Q1|].
          apply Rmult_le_compat_r; [lra|]. apply Rmult_le_compat_l; lra. }
        split.
        + change (tk (S k)) with (eta + beta * L / 2 * t ^ 2)%R.
          assert (beta * L * ((r / 2 + t) * r) <= beta * L * (((2 * eta - t) / 2 + t) * (2 * eta - t)))%R.
          { apply Rmult_le_compat_l; [exact BL|]. apply Rmult_le_compat; lra. }
          assert (beta * L / 2 * (2 * eta * (2 * eta)) <= eta)%R by (unfold q in Q; nra). lra.
        + cbn [pow]. assert (beta * L * (r / 2 + t) <= q)%R.
          { unfold q. replace (2 * (beta * L * eta))%R with (beta * L * (2 * eta))%R by ring. apply Rmult_le_compat_l; lra. }
          assert (beta * L * (r / 2 + t) * r <= q * r)%R by (apply Rmult_le_compat_r; assumption).
          assert (q * r <= q * (2 * eta * q ^ k))%R by (apply Rmult_le_compat_l; lra). lra. }
    apply Rdist_inf_0; [rewrite Lr; apply Iz|]. apply Rle_antisym; [|apply Rdist_inf_pos].
    apply (le_null _ (fun k => (2 * eta * q ^ k + eta / (1 - q) * q ^ k)%R)).
    { replace 0%R with (0 + 0)%R by ring. apply CV_plus; apply q_null. }
    intro k. pose proof (Rdist_inf_tri z (x k) root) as T. rewrite (proj1 (proj1 (c_inv k))), Lr in T.
    specialize (T (proj1 Iz) eq_refl). specialize (Hr k). destruct (Zi k) as (_ & Z2). lra.
  Qed.
End ChordKantorovich.

(** Chord under the same conditions, strictly: with q = 2 beta L eta < 1 it converges to the one root of the
    ball at the rate q, although it only ever uses the Jacobian of the start, and the solve succeeds. *)
Lemma C107_chord_pf :
  forall (n : nat) (F : list R -> list R) (J : list R -> list (list R)) (y0 : list R) (beta eta L rtol atol : R)
         (jac : (list xr -> list xr * unit) -> list xr -> list (list R)) lsolve (P : nc_params (N:=XR)) fs auxs,
    let ball x := length x = n /\ (Rdist_inf x y0 <= 2 * eta)%R in
    let q := (2 * (beta * L * eta))%R in
    0 < n -> length y0 = n -> (0 < beta)%R -> (0 <= eta)%R -> (0 <= L)%R ->
    (forall x, ball x -> length (F x) = n /\ mat n n (J x)) ->
    jac (liftv F) (map Fin y0) = J y0 ->
    (forall c, length c = n ->
       exists d, lsolve (J y0) (map Fin c) = (map Fin d, successful) /\ length d = n /\ mvec (J y0) d = c) ->
    (forall v, length v = n -> Rmax_norm v <= beta * Rmax_norm (mvec (J y0) v))%R ->
    (forall d, length d = n -> mvec (J y0) d = F y0 -> (Rmax_norm d <= eta)%R) ->
    (forall x z v, ball x -> ball z -> length v = n ->
       Rmax_norm (Rsub_v (mvec (J x) v) (mvec (J z) v)) <= L * Rdist_inf x z * Rmax_norm v)%R ->
    (forall x z, ball x -> ball z ->
       Rmax_norm (Rsub_v (Rsub_v (F z) (F x)) (mvec (J x) (Rsub_v z x))) <= L / 2 * Rdist_inf z x ^ 2)%R ->
    (q < 1)%R ->
    nc_rtol P = Fin rtol -> nc_atol P = Fin atol -> (0 <= rtol)%R -> (0 < atol)%R ->
    nc_norm P = max_norm (N:=XR) -> nc_lower P = None -> nc_upper P = None -> nc_cauchy P = true -> nc_is_newton P = false ->
    let s := newton_chord jac lsolve P in
    forall st0, s_init s (liftv F) (map Fin y0) fs auxs = Ret st0 ->
    exists (x : nat -> list R) (root : list R),
      (forall k, y_at s (liftv F) (map Fin y0) st0 (auxs fill0) k = map Fin (x k)) /\
      ball root /\ F root = zerov n /\ (forall z, ball z -> F z = zerov n -> z = root) /\
      (forall k, ball (x k) /\ (Rdist_inf (x k) root <= eta / (1 - q) * q ^ k)%R) /\
      forall C K,
        (forall v, length v = n -> (Rmax_norm (mvec (J y0) v) <= C * Rmax_norm v)%R) ->
        (eta * q ^ K < atol)%R -> (C * (eta * q ^ K) < atol)%R ->
        exists k, 1 <= k <= S K /\
        forall fuel ms throw, k < fuel -> (forall m, ms = Some m -> k <= m) ->
          exists sol, iterative_solve vallfinite s (liftv F) fuel ms throw (map Fin y0) fs auxs = Ret sol /\
            result sol = successful /\ value sol = map Fin (x k).
Proof.
  intros n F J y0 beta eta L rtol atol jac lsolve P fs auxs ball q Hn Hy0 Hb He HL HF Hjac Hls HJ0 Hd0 HJL HFL Hh
    Hra Haa Hr0 Ha0 Hnm Hlo Hup HC HN s st0 Hi.
  set (fn := liftv F) in *.
  change (Ret (nc_st0 jac P fn (map Fin y0) fs) = Ret st0) in Hi. injection Hi as <-.
  set (st0 := nc_st0 jac P fn (map Fin y0) fs).
  set (Y := y_at s fn (map Fin y0) st0 (auxs fill0)).
  assert (Hclip : forall v, nc_clip P v = v) by (intro; unfold nc_clip; rewrite Hlo, Hup; reflexivity).
  assert (TF : forall v, map toR (map Fin v) = v) by (intro v; rewrite map_map; cbn [toR]; apply map_id).
  set (x k := map toR (Y k)).
  set (d k := map toR (fst (lin_sol jac lsolve (nc_is_newton P) fn (map Fin y0) (Y k)))).
  assert (X0 : x 0 = y0) by (unfold x; change (Y 0) with (map Fin y0); apply TF).
  assert (Step : forall k, Y k = map Fin (x k) -> length (F (x k)) = n ->
            lin_sol jac lsolve (nc_is_newton P) fn (map Fin y0) (Y k) = (map Fin (d k), successful) /\
            length (d k) = n /\ mvec (J y0) (d k) = F (x k) /\ x (S k) = Rsub_v (x k) (d k) /\ Y (S k) = map Fin (x (S k))).
  { intros k EY LF.
    destruct (Hls (F (x k)) LF) as (d' & Ed & Ld & Md).
    assert (EL : lin_sol jac lsolve (nc_is_newton P) fn (map Fin y0) (Y k) = (map Fin d', successful)).
    { rewrite EY. unfold lin_sol, fn. rewrite liftv_Fin. cbn [fst]. rewrite <- Ed. f_equal. rewrite HN. exact Hjac. }
    assert (Dk : d k = d') by (unfold d; rewrite EL; cbn [fst]; apply TF). rewrite Dk.
    split; [exact EL|]. split; [exact Ld|]. split; [exact Md|].
    assert (EYS : Y (S k) = map Fin (Rsub_v (x k) d')).
    { unfold Y. refine (eq_trans (nc_y_S jac lsolve P fn (map Fin y0) fs (auxs fill0) k) _).
      rewrite Hclip. change (y_at _ _ _ _ _ k) with (Y k). rewrite EL, EY. apply vsub_Fin. }
    assert (EX : x (S k) = Rsub_v (x k) d') by (unfold x at 1; rewrite EYS; apply TF).
    split; [exact EX|]. rewrite EX. exact EYS. }
  assert (IB0 : ball y0) by (split; [exact Hy0|rewrite dist_self; lra]).
  assert (Hd0' : (Rmax_norm (d 0%nat) <= eta)%R).
  { destruct (Step 0) as (_ & Ld & Md & _); [rewrite X0; reflexivity|rewrite X0; apply HF, IB0|].
    rewrite X0 in Md. apply Hd0; assumption. }
  (* a step is only claimed for iterates of the ball; all of them are in it *)
  assert (Inv : forall k, Y k = map Fin (x k) /\ ball (x k)).
  { set (xr_ := fix xr_ (k : nat) : list R := match k with 0 => y0 | S j => Rsub_v (xr_ j) (map toR (fst (lsolve (J y0) (map Fin (F (xr_ j)))))) end).
    set (dr k := map toR (fst (lsolve (J y0) (map Fin (F (xr_ k)))))).
    assert (SR : forall k, inball n y0 eta (xr_ k) -> length (dr k) = n /\ mvec (J y0) (dr k) = F (xr_ k) /\ xr_ (S k) = Rsub_v (xr_ k) (dr k)).
    { intros k Hk. destruct (Hls (F (xr_ k)) (proj1 (HF _ Hk))) as (d' & Ed & Ld & Md).
      assert (E : dr k = d') by (unfold dr; rewrite Ed; cbn [fst]; apply TF). rewrite E. split; [exact Ld|]. split; [exact Md|].
      rewrite <- E. reflexivity. }
    assert (D0 : (Rmax_norm (dr 0%nat) <= eta)%R).
    { destruct (SR 0 IB0) as (Ld & Md & _). apply Hd0; assumption. }
    pose proof (c_inv n F J y0 beta eta L Hy0 HF HJ0 HJL HFL Hb HL He Hh xr_ dr eq_refl D0 SR) as CI.
    assert (EQ : forall k, Y k = map Fin (x k) /\ x k = xr_ k).
    { induction k as [|k (IH1 & IH2)]; [rewrite X0; split; reflexivity|].
      pose proof (proj1 (CI k)) as Bk. rewrite <- IH2 in Bk.
      destruct (Step k IH1 (proj1 (HF _ Bk))) as (EL & Ld & Md & EX & EYS). split; [exact EYS|].
      rewrite EX. cbn [xr_]. rewrite <- IH2. f_equal. unfold d.
      rewrite IH1. unfold lin_sol, fn. rewrite liftv_Fin. cbn [fst]. pose proof Hjac as Hj. unfold fn in Hj. rewrite HN, Hj. reflexivity. }
    intro k. destruct (EQ k) as (E1 & E2). split; [exact E1|]. rewrite E2. apply CI. }
  assert (Hst : forall k, inball n y0 eta (x k) -> length (d k) = n /\ mvec (J y0) (d k) = F (x k) /\ x (S k) = Rsub_v (x k) (d k)).
  { intros k Hk. destruct (Step k (proj1 (Inv k)) (proj1 (HF _ Hk))) as (_ & A1 & A2 & A3 & _). auto. }
  pose proof (c_inv n F J y0 beta eta L Hy0 HF HJ0 HJL HFL Hb HL He Hh x d X0 Hd0' Hst) as CI.
  destruct (c_root n F J y0 beta eta L Hy0 HF HJ0 HJL HFL Hb HL He Hh x d X0 Hd0' Hst) as (root & IR & F0 & Hr & Un).
  exists x, root. split; [intro k; apply Inv|]. split; [exact IR|]. split; [exact F0|]. split; [exact Un|]. split.
  { intro k. split; [apply Inv|apply Hr]. }
  intros C K HCb HT1 HT2. destruct (CI K) as (BK & _ & _ & DK). fold q in DK. destruct (Hst K BK) as (Ld & Md & _).
  apply (nc_run_succeeds n F y0 rtol atol jac lsolve P fs auxs) with (d := d); auto.
  - intro k. apply Inv.
  - intro k. apply (proj2 (Inv k)).
  - intro k. apply Hst, Inv.
  - intro k. apply Step; [apply Inv|]. apply HF, Inv.
  - intro k. apply Hst, Inv.
  - lra.
  - rewrite <- Md. pose proof (HCb (d K) Ld) as Q. pose proof (Rmax_norm_pos (d K)). pose proof (Rmax_norm_pos (mvec (J y0) (d K))).
    destruct (Rle_or_lt 0 C) as [PC|NC]; [|nra].
    assert (C * Rmax_norm (d K) <= C * (eta * q ^ K))%R by (apply Rmult_le_compat_l; lra). lra.
Qed.

(** x^2 = 2 again: Chord from 3/2 has q = 1/9. *)
Example C107_chord_ex_pf :
  let s := newton_chord (fun _ v => sq1_J (map toR v)) sq1_solve (sq1_P false) in
  forall st0, s_init s (liftv sq2) [Fin (3/2)] (fun _ => [PInf]) (fun _ => tt) = Ret st0 ->
  exists x : nat -> list R,
    (forall k, y_at s (liftv sq2) [Fin (3/2)] st0 tt k = map Fin (x k)) /\
    (forall k, Rdist_inf (x k) [sqrt 2] <= 3 / 32 * (1 / 9) ^ k)%R /\
    exists k, 1 <= k <= 4 /\ forall fuel, k < fuel ->
      exists sol, iterative_solve vallfinite s (liftv sq2) fuel None true [Fin (3/2)] (fun _ => [PInf]) (fun _ => tt) = Ret sol /\
        result sol = successful /\ value sol = map Fin (x k).
Proof.
  intros s st0 Hi.
  assert (N1 : forall v, length v = 1 -> v = [nth 0 v 0%R]) by (intros [|a [|]] H; try discriminate; reflexivity).
  assert (RA : forall a, Rmax_norm [a] = Rabs a) by (intro a; cbn; apply Rmax_left, Rabs_pos).
  assert (RD : forall a b, Rdist_inf [a] [b] = Rabs (a - b)) by (intros a b; apply RA).
  assert (BE : forall z, length z = 1 -> (Rdist_inf z [3/2] <= 2 * (1 / 12))%R -> exists a, z = [a] /\ (4/3 <= a <= 5/3)%R).
  { intros z Hz H. rewrite (N1 z Hz) in H |- *. exists (nth 0 z 0%R). split; [reflexivity|]. rewrite RD in H.
    unfold Rabs in H. destruct (Rcase_abs _); lra. }
  assert (Q9 : (2 * (1 / 3 * 2 * (1 / 12)) = 1 / 9)%R) by field.
  destruct (C107_chord_pf 1 sq2 sq1_J [3/2]%R (1/3) (1/12) 2 0 (1/1000)
     (fun _ v => sq1_J (map toR v)) sq1_solve (sq1_P false) (fun _ => [PInf]) (fun _ => tt)) with (st0 := st0)
     as (x & root & H1 & H2 & H3 & H4 & H5 & H6); try reflexivity; try lra; try lia; try exact Hi.
  - intros z _. split; [reflexivity|]. split; repeat constructor.
  - intros c Hc. rewrite (N1 c Hc). exists [(nth 0 c 0 / (2 * (3/2)))%R].
    split; [reflexivity|]. split; [reflexivity|]. unfold sq1_J, mvec. cbn. f_equal. field.
  - intros v Hv. rewrite (N1 v Hv). unfold sq1_J, mvec. cbn [map nth Rdot]. rewrite !RA, Rplus_0_r, Rabs_mult, (Rabs_pos_eq (2 * (3/2))) by lra. lra.
  - intros d Ld Md. rewrite (N1 d Ld) in Md |- *. unfold sq1_J, sq2, mvec in Md. cbn [map nth Rdot] in Md. injection Md as Md.
    rewrite RA. unfold Rabs. destruct (Rcase_abs _); lra.
  - intros z1 z2 v [Hz1 Hd1] [Hz2 Hd2] Lv. destruct (BE z1 Hz1 Hd1) as (a & -> & Ha). destruct (BE z2 Hz2 Hd2) as (b & -> & Hb).
    rewrite (N1 v Lv). unfold sq1_J, mvec. cbn [map nth Rdot Rsub_v]. rewrite !RA, RD, !Rplus_0_r.
    apply Req_le. set (w := nth 0 v 0%R). replace (2 * a * w - 2 * b * w)%R with (2 * (a - b) * w)%R by ring.
    rewrite !Rabs_mult, (Rabs_pos_eq 2) by lra. reflexivity.
  - intros z1 z2 [Hz1 Hd1] [Hz2 Hd2]. destruct (BE z1 Hz1 Hd1) as (a & -> & Ha). destruct (BE z2 Hz2 Hd2) as (b & -> & Hb).
    unfold sq1_J, sq2, mvec. cbn [map nth Rdot Rsub_v]. rewrite RA, RD, Rplus_0_r.
    apply Req_le. rewrite pow2_abs. replace (b * b - 2 - (a * a - 2) - 2 * a * (b - a))%R with ((b - a) ^ 2)%R by ring.
    rewrite Rabs_pos_eq by apply pow2_ge_0. field.
  - assert (R2 : root = [sqrt 2]).
    { destruct H2 as [Lr Dr]. destruct (BE root Lr Dr) as (a & -> & Ha). unfold sq2 in H3. cbn [nth zerov repeat] in H3. injection H3 as H3.
      f_equal. symmetry. apply sqrt_lem_1; lra. }
    subst root. rewrite Q9 in *. exists x. split; [exact H1|]. split.
    + intro k. eapply Rle_trans; [apply H5|]. apply Req_le. field.
    + destruct (H6 3%R 3) as (k & K1 & K2).
      * intros v Lv. rewrite (N1 v Lv). unfold sq1_J, mvec. cbn [map nth Rdot].
        rewrite !RA, Rplus_0_r, Rabs_mult, (Rabs_pos_eq (2 * (3/2))) by lra. lra.
      * lra.
      * lra.
      * exists k. split; [exact K1|]. intros fuel Hf. apply (K2 fuel None true Hf). discriminate.
Qed.
