(** Newton and Chord with a linear solver that is only approximate (C110). *)

From Coq Require Import String List Bool Arith Lia ZArith QArith Qreals Reals Lra Psatz.
From Verif Require Import Num NumFacts NumDiv Vec Results Iterate Spec_Iterate Iterate_proofs.
From Verif Require Import Spec_Vec VecFacts Spec_Lin LinFacts NewtonChord Spec_NewtonChord NumF64 NumF64_facts.
From Verif Require Import FixedPoint_proofs NewtonChord_proofs ImplicitFacts Kanto_proofs.
Import ListNotations.
Local Open Scope nat_scope.

Lemma pow_null : forall t c, (0 <= t < 1)%R -> Un_cv (fun k => (c * t ^ k)%R) 0.
Proof.
  intros t c Ht. replace 0%R with (c * 0)%R by ring. apply (CV_mult (fun _ => c)).
  - intros e He. exists 0. intros. unfold R_dist. rewrite Rminus_diag_eq, Rabs_R0; auto.
  - intros e He. destruct (pow_lt_1_zero t ltac:(rewrite Rabs_pos_eq; lra) e He) as [N HN]. exists N. intros m Hm.
    unfold R_dist. rewrite Rminus_0_r. apply HN. exact Hm.
Qed.

Section Inexact.
  Variables (n : nat) (F : list R -> list R) (A : list R -> list (list R)) (y0 : list R) (beta kappa eta r : R).
  Let ball x := length x = n /\ (Rdist_inf x y0 <= r)%R.
  Let B := (beta * (1 + eta))%R.
  Let t := (eta + kappa * B)%R.
  Hypothesis Hy0 : length y0 = n.
  Hypothesis HF : forall x, ball x -> length (F x) = n /\ mat n n (A x).
  Hypothesis HB : forall x v, ball x -> length v = n -> (Rmax_norm v <= beta * Rmax_norm (mvec (A x) v))%R.
  Hypothesis HK : forall x z, ball x -> ball z ->
    (Rmax_norm (Rsub_v (Rsub_v (F z) (F x)) (mvec (A x) (Rsub_v z x))) <= kappa * Rdist_inf z x)%R.
  Hypothesis Hb : (0 < beta)%R.
  Hypothesis Hk : (0 <= kappa)%R.
  Hypothesis He : (0 <= eta)%R.
  Hypothesis Ht : (t < 1)%R.
  Hypothesis Hr : (B * Rmax_norm (F y0) <= (1 - t) * r)%R.

  Lemma B_pos : (0 < B)%R. Proof. unfold B. apply Rmult_lt_0_compat; lra. Qed.
  Lemma t_range : (0 <= t < 1)%R.
  Proof. split; [|exact Ht]. pose proof B_pos. unfold t. pose proof (Rmult_le_pos kappa B Hk ltac:(lra)). lra. Qed.
  Lemma r_pos : (0 <= r)%R.
  Proof.
    pose proof B_pos. pose proof (Rmax_norm_pos (F y0)) as P. pose proof (Rmult_le_pos B _ ltac:(lra) P).
    apply (Rmult_le_reg_l (1 - t)); lra.
  Qed.
  Lemma ball0 : ball y0.
  Proof. split; [exact Hy0|]. rewrite dist_self. exact r_pos. Qed.

  Lemma norm_split : forall a b : list R, length a = n -> length b = n -> (Rmax_norm a <= Rmax_norm (Rsub_v a b) + Rmax_norm b)%R.
  Proof.
    intros a b La Lb.
    assert (Z : forall v, Rmax_norm v = Rdist_inf v (zerov (length v))).
    { intros v. unfold Rdist_inf. f_equal. symmetry. clear. induction v as [|u v IH]; [reflexivity|]. cbn. f_equal; [ring|exact IH]. }
    rewrite (Z a), (Z b), La, Lb. fold (Rdist_inf a b). apply Rdist_inf_tri; [congruence|rewrite zerov_length; congruence].
  Qed.

  (** one step with an approximate solution d of A x d = F x *)
  Lemma istep : forall x d, ball x -> length d = n -> (Rmax_norm (Rsub_v (mvec (A x) d) (F x)) <= eta * Rmax_norm (F x))%R ->
    (Rmax_norm d <= B * Rmax_norm (F x))%R /\ Rdist_inf (Rsub_v x d) x = Rmax_norm d /\
    (ball (Rsub_v x d) ->
     (Rmax_norm (F (Rsub_v x d)) <= t * Rmax_norm (F x))%R /\
     (Rmax_norm (F (Rsub_v x d)) <=
        Rmax_norm (Rsub_v (Rsub_v (F (Rsub_v x d)) (F x)) (mvec (A x) (Rsub_v (Rsub_v x d) x))) +
        Rmax_norm (Rsub_v (mvec (A x) d) (F x)))%R).
  Proof.
    intros x d Bx Ld Hd. destruct (HF x Bx) as (LF & MA). pose proof (mvlen n n (A x) d MA Ld) as LA.
    assert (LX : length x = n) by apply Bx.
    assert (D1 : (Rmax_norm d <= B * Rmax_norm (F x))%R).
    { eapply Rle_trans; [apply (HB x d Bx Ld)|]. unfold B. rewrite Rmult_assoc. apply Rmult_le_compat_l; [lra|].
      pose proof (norm_split _ _ LA LF). lra. }
    split; [exact D1|].
    assert (EN : Rsub_v (Rsub_v x d) x = Rscal (-1) d).
    { rewrite <- Ld in LX. clear - LX. revert d LX. induction x as [|u x IH]; intros [|v d] L; try discriminate; [reflexivity|].
      cbn. f_equal; [ring|apply IH; injection L as L; exact L]. }
    assert (ENn : forall v : list R, Rmax_norm (Rscal (-1) v) = Rmax_norm v).
    { induction v as [|u v IH]; [reflexivity|]. change (Rmax (Rabs (-1 * u)) (Rmax_norm (Rscal (-1) v)) = Rmax (Rabs u) (Rmax_norm v)).
      rewrite IH. f_equal. rewrite Rabs_mult, Rabs_left by lra. lra. }
    assert (ED : Rdist_inf (Rsub_v x d) x = Rmax_norm d) by (unfold Rdist_inf; rewrite EN; apply ENn).
    split; [exact ED|]. intro BS. destruct (HF _ BS) as (LS & _).
    assert (P2 : (Rmax_norm (F (Rsub_v x d)) <=
        Rmax_norm (Rsub_v (Rsub_v (F (Rsub_v x d)) (F x)) (mvec (A x) (Rsub_v (Rsub_v x d) x))) +
        Rmax_norm (Rsub_v (mvec (A x) d) (F x)))%R).
    { set (z := Rsub_v x d) in *. 
      assert (EM : mvec (A x) (Rsub_v z x) = Rscal (-1) (mvec (A x) d)).
      { rewrite EN. rewrite mvec_scal. reflexivity. }
      rewrite EM. clear EN EM. set (w := mvec (A x) d) in *.
      assert (L1 : length (Rsub_v (F x) w) = n) by (apply Rsub_v_length; assumption).
      pose proof (norm_split (F z) (Rsub_v (F x) w) LS L1) as T.
      assert (E1 : Rsub_v (F z) (Rsub_v (F x) w) = Rsub_v (Rsub_v (F z) (F x)) (Rscal (-1) w)).
      { rewrite <- LF in LA, LS. clear - LA LS. revert LA LS. generalize (F x) (F z). revert w.
        induction w as [|u w IH]; intros [|v a] [|c b] H1 H2; try discriminate; [reflexivity|].
        cbn. f_equal; [ring|apply IH; [injection H1 as H1; exact H1|injection H2 as H2; exact H2]]. }
      assert (E2 : Rmax_norm (Rsub_v (F x) w) = Rmax_norm (Rsub_v w (F x))) by apply Rdist_inf_sym.
      rewrite E1, E2 in T. exact T. }
    split; [|exact P2]. eapply Rle_trans; [exact P2|].
    pose proof (HK x _ Bx BS) as K1. rewrite ED in K1.
    assert (kappa * Rmax_norm d <= kappa * (B * Rmax_norm (F x)))%R by (apply Rmult_le_compat_l; assumption).
    unfold t. lra.
  Qed.

  Variables (x d : nat -> list R).
  Hypothesis X0 : x 0 = y0.
  Hypothesis Hst : forall k, ball (x k) -> length (d k) = n /\ (Rmax_norm (Rsub_v (mvec (A (x k)) (d k)) (F (x k))) <= eta * Rmax_norm (F (x k)))%R /\
    x (S k) = Rsub_v (x k) (d k).

  Lemma i_inv : forall k, (ball (x k) /\ (1 - t) * Rdist_inf (x k) y0 <= B * Rmax_norm (F y0) * (1 - t ^ k) /\
    Rmax_norm (F (x k)) <= t ^ k * Rmax_norm (F y0))%R.
  Proof.
    pose proof t_range as T. pose proof B_pos as PB. pose proof (Rmax_norm_pos (F y0)) as P0.
    induction k as [|k (I1 & I2 & I3)].
    - rewrite X0. split; [exact ball0|]. rewrite dist_self. cbn [pow]. lra.
    - destruct (Hst k I1) as (Ld & Hd & EX). destruct (istep _ _ I1 Ld Hd) as (D1 & D2 & D3).
      assert (Pk : (0 <= t ^ k)%R) by (apply pow_le; lra).
      assert (L1 : length (x (S k)) = n) by (rewrite EX; apply Rsub_v_length; [apply I1|exact Ld]).
      assert (DI : ((1 - t) * Rdist_inf (x (S k)) y0 <= B * Rmax_norm (F y0) * (1 - t ^ S k))%R).
      { pose proof (Rdist_inf_tri (x (S k)) (x k) y0) as TR. rewrite L1, Hy0, (proj1 I1) in TR. specialize (TR eq_refl eq_refl).
        rewrite EX in TR at 2. rewrite D2 in TR.
        assert (B * Rmax_norm (F (x k)) <= B * (t ^ k * Rmax_norm (F y0)))%R by (apply Rmult_le_compat_l; lra).
        assert ((1 - t) * Rdist_inf (x (S k)) y0 <= (1 - t) * (B * (t ^ k * Rmax_norm (F y0)) + Rdist_inf (x k) y0))%R by (apply Rmult_le_compat_l; lra).
        cbn [pow]. lra. }
      assert (BS : ball (x (S k))).
      { split; [exact L1|]. apply (Rmult_le_reg_l (1 - t)); [lra|]. eapply Rle_trans; [exact DI|]. eapply Rle_trans; [|exact Hr].
        assert (0 <= t ^ S k)%R by (apply pow_le; lra). pose proof (Rmult_le_pos B _ ltac:(lra) P0) as PP.
        pose proof (Rmult_le_pos _ _ PP H). lra. }
      split; [exact BS|]. split; [exact DI|]. rewrite EX in BS |- *. destruct (D3 BS) as (D4 & _).
      eapply Rle_trans; [exact D4|]. cbn [pow]. rewrite Rmult_assoc. apply Rmult_le_compat_l; [lra|exact I3].
  Qed.

  Lemma i_step_small : forall k, (Rmax_norm (d k) <= B * Rmax_norm (F y0) * t ^ k)%R.
  Proof.
    intro k. destruct (i_inv k) as (I1 & _ & I3). destruct (Hst k I1) as (Ld & Hd & EX). destruct (istep _ _ I1 Ld Hd) as (D1 & _).
    pose proof B_pos. eapply Rle_trans; [exact D1|]. rewrite Rmult_assoc. apply Rmult_le_compat_l; [lra|]. lra.
  Qed.

  Lemma i_cauchy : forall k j, ((1 - t) * Rdist_inf (x (k + j)%nat) (x k) <= B * Rmax_norm (F y0) * (t ^ k - t ^ (k + j)))%R.
  Proof.
    intros k. pose proof t_range as T. induction j as [|j IH].
    - rewrite Nat.add_0_r, dist_self. lra.
    - destruct (i_inv (k + j)) as (I1 & _). destruct (Hst _ I1) as (Ld & Hd & EX). destruct (istep _ _ I1 Ld Hd) as (_ & D2 & _).
      pose proof (i_step_small (k + j)) as SS. replace (k + S j) with (S (k + j)) by lia.
      pose proof (Rdist_inf_tri (x (S (k + j))) (x (k + j)) (x k)) as TR.
      rewrite (proj1 (proj1 (i_inv (S (k + j))))), (proj1 (proj1 (i_inv k))), (proj1 I1) in TR. specialize (TR eq_refl eq_refl).
      rewrite EX in TR at 2. rewrite D2 in TR.
      assert ((1 - t) * Rdist_inf (x (S (k + j))) (x k) <= (1 - t) * (B * Rmax_norm (F y0) * t ^ (k + j) + Rdist_inf (x (k + j)%nat) (x k)))%R
        by (apply Rmult_le_compat_l; lra).
      cbn [pow]. lra.
  Qed.

  Lemma i_root : exists root, ball root /\ F root = zerov n /\
    (forall k, (Rdist_inf (x k) root <= B * Rmax_norm (F y0) / (1 - t) * t ^ k)%R) /\
    forall z, ball z -> F z = zerov n -> z = root.
  Proof.
    pose proof t_range as T. pose proof B_pos as PB. pose proof (Rmax_norm_pos (F y0)) as P0.
    pose proof (Rmult_le_pos B _ ltac:(lra) P0) as PP.
    set (c := (B * Rmax_norm (F y0) / (1 - t))%R).
    assert (Pc : (0 <= c)%R) by (unfold c; apply Rmult_le_pos; [exact PP|]; left; apply Rinv_0_lt_compat; lra).
    assert (Pq : forall k, (0 <= t ^ k)%R) by (intro k; apply pow_le; lra).
    destruct (vec_complete n x (fun k => (c * t ^ k)%R)) as (root & Lr & Hroot).
    { intro k. apply i_inv. }
    { intro k. apply Rmult_le_pos; auto. }
    { apply pow_null. exact T. }
    { intros k j. apply (Rmult_le_reg_l (1 - t)); [lra|]. eapply Rle_trans; [apply i_cauchy|].
      replace ((1 - t) * (c * t ^ k))%R with (B * Rmax_norm (F y0) * t ^ k)%R by (unfold c; field; lra).
      apply Rmult_le_compat_l; [exact PP|]. pose proof (Pq (k + j)). lra. }
    assert (IR : ball root).
    { split; [exact Lr|]. specialize (Hroot 0). rewrite X0, Rdist_inf_sym in Hroot. cbn [pow] in Hroot. rewrite Rmult_1_r in Hroot.
      eapply Rle_trans; [exact Hroot|]. apply (Rmult_le_reg_l (1 - t)); [lra|].
      replace ((1 - t) * c)%R with (B * Rmax_norm (F y0))%R by (unfold c; field; lra). exact Hr. }
    exists root. split; [exact IR|].
    assert (NS : forall v, length v = n -> Rdist_inf v (zerov n) = Rmax_norm v).
    { intros v <-. unfold Rdist_inf. f_equal. clear. induction v as [|u v IH]; [reflexivity|]. cbn. f_equal; [ring|exact IH]. }
    assert (F0 : F root = zerov n).
    { destruct (mvec_bound (A root)) as (C & HC & HBd). destruct (HF _ IR) as (LR & MR).
      apply Rdist_inf_0; [rewrite zerov_length; exact LR|]. apply Rle_antisym; [|apply Rdist_inf_pos].
      apply (le_null _ (fun k => ((kappa + C) * (c * t ^ k) + Rmax_norm (F y0) * t ^ k)%R)).
      { replace 0%R with ((kappa + C) * 0 + 0)%R by ring. apply CV_plus; [|apply pow_null; exact T].
        apply (CV_mult (fun _ => _)); [|apply pow_null; exact T].
        intros e He'; exists 0; intros; unfold R_dist; rewrite Rminus_diag_eq, Rabs_R0; auto. }
      intro k. destruct (i_inv k) as (IK & _ & FK). destruct (HF _ IK) as (LK & _).
      pose proof (HK root (x k) IR IK) as K1. pose proof (Hroot k) as Hrk.
      pose proof (HBd (Rsub_v (x k) root)) as B1. fold (Rdist_inf (x k) root) in B1.
      set (w := mvec (A root) (Rsub_v (x k) root)) in *.
      assert (Lw : length w = n).
      { unfold w. apply (mvlen n n); [exact MR|]. apply Rsub_v_length; [apply IK|exact Lr]. }
      rewrite NS by exact LR.
      assert (L3 : length (Rsub_v (F (x k)) (F root)) = n) by (apply Rsub_v_length; assumption).
      pose proof (norm_split _ _ L3 Lw) as T1. pose proof (norm_split _ _ LR LK) as T2.
      fold (Rdist_inf (F root) (F (x k))) in T2. rewrite Rdist_inf_sym in T2. unfold Rdist_inf in T2.
      assert ((kappa + C) * Rdist_inf (x k) root <= (kappa + C) * (c * t ^ k))%R by (apply Rmult_le_compat_l; lra). lra. }
    split; [exact F0|]. split; [exact Hroot|].
    intros z Iz Fz. destruct (HF _ IR) as (LR & MR).
    assert (LD : length (Rsub_v z root) = n) by (apply Rsub_v_length; [apply Iz|exact Lr]).
    pose proof (HK root z IR Iz) as K1. pose proof (HB root _ IR LD) as K2. fold (Rdist_inf z root) in K2.
    rewrite Fz, F0 in K1. pose proof (mvlen _ _ _ _ MR LD) as Lw. set (w := mvec (A root) (Rsub_v z root)) in *.
    assert (E : Rmax_norm (Rsub_v (Rsub_v (zerov n) (zerov n)) w) = Rmax_norm w).
    { assert (EZ : Rsub_v (zerov n) (zerov n) = zerov n) by (clear; unfold zerov; induction n as [|m IH]; [reflexivity|]; cbn; f_equal; [ring|exact IH]).
      rewrite EZ. fold (Rdist_inf (zerov n) w). rewrite Rdist_inf_sym. apply NS. exact Lw. }
    rewrite E in K1. pose proof (Rdist_inf_pos z root) as Pz.
    assert (KB : (kappa * beta < 1)%R).
    { unfold t, B in Ht. assert (0 <= kappa * (beta * eta))%R by (apply Rmult_le_pos; [exact Hk|apply Rmult_le_pos; lra]). lra. }
    apply Rdist_inf_0; [rewrite Lr; apply Iz|].
    assert (beta * Rmax_norm w <= beta * (kappa * Rdist_inf z root))%R by (apply Rmult_le_compat_l; lra).
    assert (0 <= (1 - kappa * beta) * Rdist_inf z root)%R by (apply Rmult_le_pos; lra). 
    destruct (Req_dec (Rdist_inf z root) 0) as [|NZ]; [assumption|].
    assert (0 < (1 - kappa * beta) * Rdist_inf z root)%R by (apply Rmult_lt_0_compat; lra). lra.
  Qed.
End Inexact.

(** ** The solver *)

(** Newton and Chord when the linear solver is iterative and leaves a relative residual of at most eta < 1.
    [A x] is the matrix in use at x (the Jacobian at x for Newton, at the start for Chord).  If it is boundedly
    invertible on a ball around the start, accurate there to kappa, t = eta + kappa beta (1 + eta) < 1 and the
    first residual is small enough for the radius of the ball, then the ball contains exactly one root, the
    residual falls by the factor t in every step and the iterates converge to the root at that rate.  A linear
    residual of order |F|^2 keeps the quadratic convergence of Newton.  Once t^K is small compared with atol the
    solve succeeds after at most K + 1 steps. *)
Lemma C110_inexact_pf :
  forall (n : nat) (F : list R -> list R) (J : list R -> list (list R)) (y0 : list R) (beta kappa eta r rtol atol : R)
         (jac : (list xr -> list xr * unit) -> list xr -> list (list R)) lsolve (P : nc_params (N:=XR)) fs auxs,
    let A x := J (if nc_is_newton P then x else y0) in
    let ball x := length x = n /\ (Rdist_inf x y0 <= r)%R in
    let linear_error x z := Rmax_norm (Rsub_v (Rsub_v (F z) (F x)) (mvec (A x) (Rsub_v z x))) in
    let B := (beta * (1 + eta))%R in
    let t := (eta + kappa * B)%R in
    0 < n -> length y0 = n -> (0 < beta)%R -> (0 <= kappa)%R -> (0 <= eta)%R ->
    (forall x, ball x -> length (F x) = n /\ mat n n (J x) /\ jac (liftv F) (map Fin x) = J x) ->
    (forall x, ball x -> exists d, lsolve (A x) (map Fin (F x)) = (map Fin d, successful) /\ length d = n /\
       (Rmax_norm (Rsub_v (mvec (A x) d) (F x)) <= eta * Rmax_norm (F x))%R) ->
    (forall x v, ball x -> length v = n -> Rmax_norm v <= beta * Rmax_norm (mvec (A x) v))%R ->
    (forall x z, ball x -> ball z -> (linear_error x z <= kappa * Rdist_inf z x)%R) ->
    (t < 1)%R -> (B * Rmax_norm (F y0) <= (1 - t) * r)%R ->
    nc_rtol P = Fin rtol -> nc_atol P = Fin atol -> (0 <= rtol)%R -> (0 < atol)%R ->
    nc_norm P = max_norm (N:=XR) -> nc_lower P = None -> nc_upper P = None -> nc_cauchy P = true ->
    let s := newton_chord jac lsolve P in
    forall st0, s_init s (liftv F) (map Fin y0) fs auxs = Ret st0 ->
    exists (x : nat -> list R) (root : list R),
      (forall k, y_at s (liftv F) (map Fin y0) st0 (auxs fill0) k = map Fin (x k)) /\
      ball root /\ F root = zerov n /\ (forall z, ball z -> F z = zerov n -> z = root) /\
      (forall k, ball (x k) /\ (Rmax_norm (F (x (S k))) <= t * Rmax_norm (F (x k)))%R /\
         (Rdist_inf (x k) root <= B * Rmax_norm (F y0) / (1 - t) * t ^ k)%R) /\
      (forall gamma theta, (0 <= gamma)%R ->
         (forall z z', ball z -> ball z' -> (linear_error z z' <= gamma * Rdist_inf z' z ^ 2)%R) ->
         (forall z d, ball z -> lsolve (A z) (map Fin (F z)) = (map Fin d, successful) ->
            (Rmax_norm (Rsub_v (mvec (A z) d) (F z)) <= theta * Rmax_norm (F z) ^ 2)%R) ->
         forall k, (Rmax_norm (F (x (S k))) <= (theta + gamma * B ^ 2) * Rmax_norm (F (x k)) ^ 2)%R) /\
      forall K,
        (B * Rmax_norm (F y0) * t ^ K < atol)%R -> (Rmax_norm (F y0) * t ^ K < atol)%R ->
        exists k, 1 <= k <= S K /\
        forall fuel ms throw, k < fuel -> (forall m, ms = Some m -> k <= m) ->
          exists sol, iterative_solve vallfinite s (liftv F) fuel ms throw (map Fin y0) fs auxs = Ret sol /\
            result sol = successful /\ value sol = map Fin (x k).
Proof.
  intros n F J y0 beta kappa eta r rtol atol jac lsolve P fs auxs A ball linear_error B t Hn Hy0 Hb Hk He HD Hls HB HK Ht Hr
    Hra Haa Hr0 Ha0 Hnm Hlo Hup HC s st0 Hi.
  set (fn := liftv F) in *.
  change (Ret (nc_st0 jac P fn (map Fin y0) fs) = Ret st0) in Hi. injection Hi as <-.
  set (st0 := nc_st0 jac P fn (map Fin y0) fs).
  set (Y := y_at s fn (map Fin y0) st0 (auxs fill0)).
  assert (Hclip : forall v, nc_clip P v = v) by (intro; unfold nc_clip; rewrite Hlo, Hup; reflexivity).
  assert (TF : forall v, map toR (map Fin v) = v) by (intro v; rewrite map_map; cbn [toR]; apply map_id).
  pose proof (ball0 n F y0 beta kappa eta r Hy0 Hb He Ht Hr) as B0.
  assert (HF : forall x, ball x -> length (F x) = n /\ mat n n (A x)).
  { intros z Hz. split; [apply HD, Hz|]. unfold A. destruct (nc_is_newton P); [apply HD, Hz|apply HD, B0]. }
  set (xs := fix xs (k : nat) : list R := match k with 0 => y0 | S j => Rsub_v (xs j) (map toR (fst (lsolve (A (xs j)) (map Fin (F (xs j)))))) end).
  set (d k := map toR (fst (lsolve (A (xs k)) (map Fin (F (xs k)))))).
  assert (DS : forall k, ball (xs k) -> lsolve (A (xs k)) (map Fin (F (xs k))) = (map Fin (d k), successful) /\ length (d k) = n /\
            (Rmax_norm (Rsub_v (mvec (A (xs k)) (d k)) (F (xs k))) <= eta * Rmax_norm (F (xs k)))%R).
  { intros k Bk. destruct (Hls _ Bk) as (d' & Ed & Ld & Rd). assert (E : d k = d') by (unfold d; rewrite Ed; cbn [fst]; apply TF).
    rewrite E. auto. }
  assert (Hst : forall k, ball (xs k) -> length (d k) = n /\ (Rmax_norm (Rsub_v (mvec (A (xs k)) (d k)) (F (xs k))) <= eta * Rmax_norm (F (xs k)))%R /\
     xs (S k) = Rsub_v (xs k) (d k)).
  { intros k Bk. destruct (DS k Bk) as (_ & D1 & D2). split; [exact D1|]. split; [exact D2|reflexivity]. }
  pose proof (i_inv n F A y0 beta kappa eta r Hy0 HF HB HK Hb Hk He Ht Hr xs d eq_refl Hst) as II.
  assert (Els : forall k, Y k = map Fin (xs k) -> lin_sol jac lsolve (nc_is_newton P) fn (map Fin y0) (Y k) = (map Fin (d k), successful)).
  { intros k EY. destruct (II k) as (Bk & _). destruct (DS k Bk) as (Ed & _). rewrite EY. unfold lin_sol, fn. rewrite liftv_Fin. cbn [fst].
    rewrite <- Ed. f_equal. unfold A. destruct (nc_is_newton P); apply HD; [exact Bk|exact B0]. }
  assert (Inv : forall k, Y k = map Fin (xs k)).
  { induction k as [|k IH]; [reflexivity|].
    unfold Y. refine (eq_trans (nc_y_S jac lsolve P fn (map Fin y0) fs (auxs fill0) k) _).
    rewrite Hclip. change (y_at _ _ _ _ _ k) with (Y k). rewrite (Els k IH), IH. apply vsub_Fin. }
  destruct (i_root n F A y0 beta kappa eta r Hy0 HF HB HK Hb Hk He Ht Hr xs d eq_refl Hst) as (root & R1 & R2 & R3 & R4).
  exists xs, root. split; [exact Inv|]. split; [exact R1|]. split; [exact R2|]. split; [exact R4|].
  assert (ST : forall k, (Rmax_norm (d k) <= B * Rmax_norm (F (xs k)))%R /\ Rdist_inf (xs (S k)) (xs k) = Rmax_norm (d k) /\
     (Rmax_norm (F (xs (S k))) <= t * Rmax_norm (F (xs k)))%R /\
     (Rmax_norm (F (xs (S k))) <= linear_error (xs k) (xs (S k)) + Rmax_norm (Rsub_v (mvec (A (xs k)) (d k)) (F (xs k))))%R).
  { intro k. destruct (II k) as (Bk & _). destruct (Hst k Bk) as (Ld & Hd & EX).
    destruct (istep n F A y0 beta kappa eta r HF HB HK Hb Hk _ _ Bk Ld Hd) as (S1 & S2 & S3).
    destruct (II (S k)) as (BS & _). destruct (S3 BS) as (S4 & S5). rewrite EX. auto. }
  split.
  { intro k. split; [apply II|]. split; [apply ST|apply R3]. }
  split.
  { intros gamma theta Hg HG HT k. destruct (ST k) as (S1 & S2 & _ & S4). eapply Rle_trans; [exact S4|].
    destruct (II k) as (Bk & _). destruct (II (S k)) as (BS & _). destruct (DS k Bk) as (Ed & _).
    pose proof (HG _ _ Bk BS) as G. pose proof (HT _ _ Bk Ed) as Q. rewrite S2 in G. pose proof (Rmax_norm_pos (d k)) as Pd.
    assert (Rmax_norm (d k) ^ 2 <= (B * Rmax_norm (F (xs k))) ^ 2)%R by (apply pow_incr; lra).
    assert (gamma * Rmax_norm (d k) ^ 2 <= gamma * (B * Rmax_norm (F (xs k))) ^ 2)%R by (apply Rmult_le_compat_l; assumption). lra. }
  intros K HT1 HT2.
  apply (nc_run_succeeds n F y0 rtol atol jac lsolve P fs auxs) with (d := d); auto.
  - intro k. apply II.
  - intro k. apply Hst, II.
  - pose proof (i_step_small n F A y0 beta kappa eta r Hy0 HF HB HK Hb Hk He Ht Hr xs d eq_refl Hst K) as Q.
    eapply Rle_lt_trans; [exact Q|exact HT1].
  - destruct (II K) as (_ & _ & FK). eapply Rle_lt_trans; [exact FK|]. rewrite Rmult_comm. exact HT2.
Qed.

(** x^2 = 2 from 3/2, with a linear solver that always returns 90% of the solution. *)
Definition lazy_solve (A : list (list R)) (c : list xr) : list xr * results :=
  ([Fin (9 / 10 * (toR (nth 0 c PInf) / nth 0 (nth 0 A []) 0))%R], successful).
Example C110_inexact_ex_pf : forall newton,
  let s := newton_chord (fun _ v => sq1_J (map toR v)) lazy_solve (sq1_P newton) in
  forall st0, s_init s (liftv sq2) [Fin (3/2)] (fun _ => [PInf]) (fun _ => tt) = Ret st0 ->
  exists x : nat -> list R,
    (forall k, y_at s (liftv sq2) [Fin (3/2)] st0 tt k = map Fin (x k)) /\
    (forall k, Rdist_inf (x k) [sqrt 2] <= 11 / 28 * (13 / 20) ^ k)%R /\
    exists k, 1 <= k <= 14 /\ forall fuel, k < fuel ->
      exists sol, iterative_solve vallfinite s (liftv sq2) fuel None true [Fin (3/2)] (fun _ => [PInf]) (fun _ => tt) = Ret sol /\
        result sol = successful /\ value sol = map Fin (x k).
Proof.
  intros newton s st0 Hi.
  assert (N1 : forall v, length v = 1 -> v = [nth 0 v 0%R]) by (intros [|a [|]] H; try discriminate; reflexivity).
  assert (RA : forall a, Rmax_norm [a] = Rabs a) by (intro a; cbn; apply Rmax_left, Rabs_pos).
  assert (RD : forall a b, Rdist_inf [a] [b] = Rabs (a - b)) by (intros a b; apply RA).
  assert (BE : forall z, length z = 1 -> (Rdist_inf z [3/2] <= 1 / 2)%R -> exists a, z = [a] /\ (1 <= a <= 2)%R).
  { intros z Hz H. rewrite (N1 z Hz) in H |- *. exists (nth 0 z 0%R). split; [reflexivity|]. rewrite RD in H.
    unfold Rabs in H. destruct (Rcase_abs _); lra. }
  assert (F0 : Rmax_norm (sq2 [3/2]%R) = (1/4)%R) by (unfold sq2; cbn [nth]; rewrite RA, Rabs_pos_eq; lra).
  assert (AJ : forall a, (1 <= a <= 2)%R -> exists j, sq1_J (if newton then [a] else [3/2]%R) = [[j]]%R /\ (2 <= j)%R /\
     forall b, (1 <= b <= 2)%R -> (Rabs (b * b - 2 - (a * a - 2) - j * (b - a)) <= Rabs (b - a))%R).
  { intros a Ha. destruct newton; eexists; (split; [reflexivity|]); cbn [nth]; (split; [lra|]); intros b Hb.
    - replace (b * b - 2 - (a * a - 2) - 2 * a * (b - a))%R with ((b - a) * (b - a))%R by ring.
      rewrite Rabs_mult. pose proof (Rabs_pos (b - a)). assert (Rabs (b - a) <= 1)%R by (unfold Rabs; destruct (Rcase_abs _); lra). nra.
    - replace (b * b - 2 - (a * a - 2) - 2 * (3 / 2) * (b - a))%R with ((b + a - 3) * (b - a))%R by field.
      rewrite Rabs_mult. pose proof (Rabs_pos (b - a)). assert (Rabs (b + a - 3) <= 1)%R by (unfold Rabs; destruct (Rcase_abs _); lra). nra. }
  destruct (C110_inexact_pf 1 sq2 sq1_J [3/2]%R (1/2) 1 (1/10) (1/2) 0 (1/1000)
     (fun _ v => sq1_J (map toR v)) lazy_solve (sq1_P newton) (fun _ => [PInf]) (fun _ => tt)) with (st0 := st0)
     as (x & root & H1 & H2 & H3 & H4 & H5 & _ & H6); try reflexivity; try lra; try lia; try exact Hi.
  - intros z _. split; [reflexivity|]. split; [split; repeat constructor|]. rewrite map_map. cbn [toR]. rewrite map_id. reflexivity.
  - intros z [Hz Hd]. destruct (BE z Hz Hd) as (a & -> & Ha). destruct (AJ a Ha) as (j & EJ & Hj & _).
    change (nc_is_newton (sq1_P newton)) with newton. rewrite EJ.
    exists [(9 / 10 * ((a * a - 2) / j))%R]. split; [reflexivity|]. split; [reflexivity|].
    unfold mvec, sq2. cbn [map nth Rdot Rsub_v]. rewrite !RA, Rplus_0_r.
    replace (j * (9 / 10 * ((a * a - 2) / j)) - (a * a - 2))%R with (- (1 / 10) * (a * a - 2))%R by (field; lra).
    rewrite Rabs_mult, Rabs_Ropp, (Rabs_pos_eq (1/10)) by lra. lra.
  - intros z v [Hz Hd] Hv. destruct (BE z Hz Hd) as (a & -> & Ha). destruct (AJ a Ha) as (j & EJ & Hj & _).
    change (nc_is_newton (sq1_P newton)) with newton. rewrite EJ, (N1 v Hv). unfold mvec. cbn [map nth Rdot].
    rewrite !RA, Rplus_0_r, Rabs_mult, (Rabs_pos_eq j) by lra. pose proof (Rabs_pos (nth 0 v 0%R)). nra.
  - intros z z' [Hz Hd] [Hz' Hd']. destruct (BE z Hz Hd) as (a & -> & Ha). destruct (BE z' Hz' Hd') as (b & -> & Hb).
    destruct (AJ a Ha) as (j & EJ & Hj & Q). change (nc_is_newton (sq1_P newton)) with newton. rewrite EJ.
    unfold sq2, mvec. cbn [map nth Rdot Rsub_v]. rewrite RA, RD, Rplus_0_r, Rmult_1_l. apply Q. exact Hb.
  - assert (R2 : root = [sqrt 2]).
    { destruct H2 as [Lr Dr]. destruct (BE root Lr Dr) as (a & -> & Ha). unfold sq2 in H3. cbn [nth zerov repeat] in H3. injection H3 as H3.
      f_equal. symmetry. apply sqrt_lem_1; lra. }
    subst root. exists x. split; [exact H1|]. rewrite F0 in H5, H6.
    assert (ET : (1 / 10 + 1 * (1 / 2 * (1 + 1 / 10)) = 13 / 20)%R) by field. rewrite ET in H5, H6. split.
    + intro k. eapply Rle_trans; [apply H5|]. apply Req_le. field.
    + destruct (H6 13) as (k & K1 & K2); [lra|lra|]. exists k. split; [exact K1|]. intros fuel Hf. apply (K2 fuel None true Hf). discriminate.
Qed.
