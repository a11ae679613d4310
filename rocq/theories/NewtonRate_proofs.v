(** Newton and Chord with cauchy_termination=False (C90). *)

From Coq Require Import String List Bool Arith Lia ZArith QArith Qreals Reals Lra Psatz.
From Verif Require Import Num NumFacts NumDiv Vec Results Iterate Spec_Iterate Iterate_proofs.
From Verif Require Import Spec_Vec VecFacts Spec_Lin LinFacts NewtonChord Spec_NewtonChord NumF64 NumF64_facts.
From Verif Require Import FixedPoint_proofs NewtonChord_proofs.
Import ListNotations.
Local Open Scope nat_scope.

Lemma max_norm_Fin : forall v : list R, max_norm (N:=XR) (map Fin v) = Fin (Rmax_norm v).
Proof.
  unfold max_norm, vabs. induction v as [|x v IH]; [cbn; rewrite Q2R_0; reflexivity|].
  cbn [map fold_right]. rewrite IH. cbn [nabs XR xabs]. unfold nmax, nisnan. cbn [neqb XR xeqb nltb xltb].
  replace (Reqb (Rabs x) (Rabs x)) with true by (symmetry; rb; lra).
  replace (Reqb (Rmax_norm v) (Rmax_norm v)) with true by (symmetry; rb; lra). cbn [negb Rmax_norm fold_right].
  fold (Rmax_norm v). destruct (Rltb (Rabs x) (Rmax_norm v)) eqn:E; f_equal.
  - apply Rltb_true in E. rewrite Rmax_right; lra.
  - apply Rltb_false in E. rewrite Rmax_left; lra.
Qed.

(** The scaled step. *)
Fixpoint scaled (rtol atol : R) (d y : list R) : list R :=
  match d, y with a :: d', b :: y' => (a / (atol + rtol * Rabs b))%R :: scaled rtol atol d' y' | _, _ => [] end.
Lemma rel_size_Fin : forall rtol atol (d y : list R), (0 <= rtol)%R -> (0 < atol)%R ->
  rel_size (N:=XR) (max_norm (N:=XR)) (Fin rtol) (Fin atol) (map Fin d) (map Fin y) = Fin (Rmax_norm (scaled rtol atol d y)).
Proof.
  intros rtol atol d y Hr Ha. unfold rel_size. rewrite <- max_norm_Fin. f_equal.
  revert y. induction d as [|a d IH]; intros [|b y]; try reflexivity.
  cbn [map vmap2 scaled]. rewrite IH. f_equal. pose proof (Rabs_pos b).
  cbn [nadd nmul nabs ndiv XR xabs xmul xadd]. apply xdiv_fin. nra.
Qed.
Lemma scaled_bounds : forall rtol atol B (d y : list R), (0 <= rtol)%R -> (0 < atol)%R -> (0 <= B)%R -> length d = length y ->
  (Rmax_norm y <= B)%R ->
  (Rmax_norm d / (atol + rtol * B) <= Rmax_norm (scaled rtol atol d y) <= Rmax_norm d / atol)%R.
Proof.
  intros rtol atol B d y Hr Ha HB. revert y.
  assert (P0 : (0 < atol + rtol * B)%R) by nra.
  assert (I0 : (0 < / (atol + rtol * B))%R) by (apply Rinv_0_lt_compat; exact P0).
  assert (I1 : (0 < / atol)%R) by (apply Rinv_0_lt_compat; exact Ha).
  induction d as [|a d IH]; intros [|b y] HL HY; try discriminate; cbn [scaled Rmax_norm fold_right] in *.
  - unfold Rmax_norm. cbn [fold_right]. unfold Rdiv. rewrite !Rmult_0_l. split; apply Rle_refl.
  - fold (Rmax_norm d). fold (Rmax_norm y) in HY. fold (Rmax_norm (scaled rtol atol d y)).
    destruct (IH y ltac:(injection HL; auto)) as [L U]; [eapply Rle_trans; [apply Rmax_r|exact HY]|].
    assert (Hb : (Rabs b <= B)%R) by (eapply Rle_trans; [apply Rmax_l|exact HY]).
    pose proof (Rabs_pos a) as PA. pose proof (Rabs_pos b) as PB.
    assert (P1 : (0 < atol + rtol * Rabs b)%R) by nra.
    assert (E : Rabs (a / (atol + rtol * Rabs b)) = (Rabs a * / (atol + rtol * Rabs b))%R).
    { unfold Rdiv. rewrite Rabs_mult, Rabs_inv, (Rabs_pos_eq (atol + _)) by lra. reflexivity. }
    rewrite E. assert (C1 : (/ (atol + rtol * B) <= / (atol + rtol * Rabs b))%R) by (apply Rinv_le_contravar; nra).
    assert (C2 : (/ (atol + rtol * Rabs b) <= / atol)%R) by (apply Rinv_le_contravar; nra).
    unfold Rdiv in *. split.
    + apply Rmax_case_strong; intros _.
      * eapply Rle_trans; [|apply Rmax_l]. apply Rmult_le_compat_l; assumption.
      * eapply Rle_trans; [exact L|apply Rmax_r].
    + apply Rmax_lub.
      * eapply Rle_trans; [apply Rmult_le_compat_l; [exact PA|exact C2]|]. apply Rmult_le_compat_r; [lra|apply Rmax_l].
      * eapply Rle_trans; [exact U|]. apply Rmult_le_compat_r; [lra|apply Rmax_r].
Qed.

(** The verdict with cauchy_termination=False, in any arithmetic: none before the second step; after
    step number j+2, with a successful linear solve, the solver stops exactly when the step is tiny,
    or the ratio of successive relative step sizes is not finite or exceeds 2, or the predicted
    remaining error size * rate / (1 - rate) is positive and below kappa; and it reports success
    unless the step is not tiny and the ratio is bad. *)
Lemma C90_verdict_pf :
  forall (N : Num) (Aux M : Type) jac lsolve (P : nc_params (N:=N))
         (fn : list N -> list N * Aux) y0 fs auxs st0 j,
    let s := newton_chord (M:=M) jac lsolve P in
    let y := y_at s fn y0 st0 (auxs fill0) in
    let lin k := lin_sol jac lsolve (nc_is_newton P) fn y0 (y k) in
    let size k := rel_size (nc_norm P) (nc_rtol P) (nc_atol P)
                    (match nc_lower P, nc_upper P with
                     | None, None => fst (lin k)
                     | _, _ => vsub (y k) (y (S k))
                     end) (y (S k)) in
    s_init s fn y0 fs auxs = Ret st0 -> nc_cauchy P = false ->
    says_terminate s fn y0 st0 (auxs fill0) 0 = false /\
    (snd (lin 0) = successful -> says_terminate s fn y0 st0 (auxs fill0) 1 = false) /\
    (snd (lin (S j)) = successful ->
      let rate := ndiv (size (S j)) (size j) in
      let rest := ndiv (nmul (size (S j)) rate) (nsub (nofQ 1) rate) in
      let tiny := nltb (size (S j)) (nc_resolution P) = true in
      let bad := nisfin rate = false \/ nltb (nofQ 2) rate = true in
      let done := nltb (nofQ 0) rest = true /\ nltb rest (nc_kappa P) = true in
      (says_terminate s fn y0 st0 (auxs fill0) (S (S j)) = true <-> tiny \/ bad \/ done) /\
      (says_result s fn y0 st0 (auxs fill0) (S (S j)) = successful <-> tiny \/ ~ bad)).
Proof.
  intros N Aux M jac lsolve P fn y0 fs auxs st0 j s y lin size Hi EC.
  change (Ret (nc_st0 jac P fn y0 fs) = Ret st0) in Hi. injection Hi as <-.
  set (st0 := nc_st0 jac P fn y0 fs) in *.
  split; [|split].
  - unfold says_terminate. cbn [s_terminate s newton_chord]. fold s. unfold nc_terminate. rewrite EC.
    change (st_at s fn y0 st0 (auxs fill0) 0) with st0. reflexivity.
  - intro HL. unfold says_terminate. cbn [s_terminate s newton_chord]. fold s. unfold nc_terminate. rewrite EC.
    pose proof (nc_st_S jac lsolve P fn y0 fs (auxs fill0) 0) as HST. fold s in HST. fold st0 in HST. cbv zeta in HST.
    rewrite HST. cbn [nc_result nc_step]. change (snd (lin_sol jac lsolve (nc_is_newton P) fn y0 (y_at s fn y0 st0 (auxs fill0) 0))) with (snd (lin 0)).
    rewrite HL. reflexivity.
  - intros HL rate rest tiny bad done.
    assert (HD : forall k, nc_diffsize (st_at s fn y0 st0 (auxs fill0) (S k)) = size k).
    { intro k. pose proof (nc_st_S jac lsolve P fn y0 fs (auxs fill0) k) as HST. fold s in HST. fold st0 in HST. cbv zeta in HST.
      rewrite HST. cbn [nc_diffsize]. unfold size, has_box. destruct (nc_lower P), (nc_upper P); reflexivity. }
    pose proof (nc_st_S jac lsolve P fn y0 fs (auxs fill0) (S j)) as HST. fold s in HST. fold st0 in HST. cbv zeta in HST.
    assert (HP : nc_diffsize_prev (st_at s fn y0 st0 (auxs fill0) (S (S j))) = size j).
    { rewrite HST. cbn [nc_diffsize_prev]. apply HD. }
    assert (HRs : nc_result (st_at s fn y0 st0 (auxs fill0) (S (S j))) = successful).
    { rewrite HST. cbn [nc_result]. exact HL. }
    pose proof (nc_step_k jac lsolve P fn y0 fs (auxs fill0) (S (S j))) as HK. fold s in HK. fold st0 in HK.
    assert (HT : s_terminate s fn (asked s fn y0 st0 (auxs fill0) (S (S j))) (st_at s fn y0 st0 (auxs fill0) (S (S j))) =
      (nltb (size (S j)) (nc_resolution P) || nc_diverged rate || (nltb (nofQ 0) rest && nltb rest (nc_kappa P)),
       if negb (nltb (size (S j)) (nc_resolution P)) && nc_diverged rate then nonlinear_divergence else successful)).
    { cbn [s_terminate s newton_chord]. fold s. unfold nc_terminate. rewrite EC, HK, HRs, HP, (HD (S j)).
      cbn [results_eqb negb orb]. unfold nc_small, nc_converged. reflexivity. }
    unfold says_terminate, says_result. rewrite HT. cbn [fst snd]. unfold nc_diverged, tiny, bad, done.
    destruct (nltb (size (S j)) (nc_resolution P)), (nisfin rate), (nltb (nofQ 2) rate), (nltb (nofQ 0) rest), (nltb rest (nc_kappa P)); cbn;
      (split; split; [intuition congruence|intuition congruence|intuition congruence|intuition congruence]).
Qed.

(** Newton or Chord with cauchy_termination=False in exact arithmetic, in the setting of C70 (started
    within rho of a root, the matrices in use boundedly invertible and accurate to q near the root).
    If theta, the factor by which relative step sizes shrink, is below 1, the solve never reports
    divergence; it succeeds within K + 2 steps once 2 rho q^(K+1) / atol * theta / (1 - theta) is
    below kappa, and the value returned after k steps is within q^k rho of the root, and within
    q / (1 - q) times the length of the last step. *)
Lemma C90_local_convergence_pf :
  forall (n : nat) (F : list R -> list R) (J : list R -> list (list R)) (root y0 : list R) (beta q rho B rtol atol kappa resolution : R)
         (jac : (list xr -> list xr * unit) -> list xr -> list (list R)) lsolve (P : nc_params (N:=XR)) fs auxs,
    let A x := J (if nc_is_newton P then x else y0) in
    let near x := length x = n /\ (Rdist_inf x root <= rho)%R in
    let linear_error x := Rmax_norm (Rsub_v (F x) (mvec (A x) (Rsub_v x root))) in
    length root = n -> F root = zerov n -> near y0 ->
    (forall x, near x -> length (F x) = n /\ mat n n (J x) /\ jac (liftv F) (map Fin x) = J x) ->
    (forall x c, near x -> length c = n ->
       exists d, lsolve (J x) (map Fin c) = (map Fin d, successful) /\ length d = n /\ mvec (J x) d = c) ->
    (forall x v, near x -> length v = n -> Rmax_norm v <= beta * Rmax_norm (mvec (A x) v))%R ->
    (forall x, near x -> beta * linear_error x <= q * Rdist_inf x root)%R ->
    (forall x, near x -> Rmax_norm x <= B)%R -> (0 <= q < 1)%R -> (0 <= beta)%R ->
    nc_rtol P = Fin rtol -> nc_atol P = Fin atol -> (0 <= rtol)%R -> (0 < atol)%R ->
    nc_kappa P = Fin kappa -> nc_resolution P = Fin resolution -> (0 < resolution)%R ->
    nc_norm P = max_norm (N:=XR) -> nc_lower P = None -> nc_upper P = None -> nc_cauchy P = false ->
    let theta := ((1 + rtol * B / atol) * (q * (1 + q) / (1 - q)))%R in
    (theta < 1)%R ->
    let s := newton_chord jac lsolve P in
    forall st0, s_init s (liftv F) (map Fin y0) fs auxs = Ret st0 ->
    exists x : nat -> list R,
      (forall k, y_at s (liftv F) (map Fin y0) st0 (auxs fill0) k = map Fin (x k)) /\
      (forall k, Rdist_inf (x (S k)) root <= q * Rdist_inf (x k) root)%R /\
      forall K, (2 * rho * q ^ S K / atol * (theta / (1 - theta)) < kappa)%R ->
      exists k, 2 <= k <= S (S K) /\ (Rdist_inf (x k) root <= q ^ k * rho)%R /\
        ((1 - q) * Rdist_inf (x k) root <= q * Rdist_inf (x (pred k)) (x k))%R /\
        forall fuel ms throw, k < fuel -> (forall m, ms = Some m -> k <= m) ->
          exists sol, iterative_solve vallfinite s (liftv F) fuel ms throw (map Fin y0) fs auxs = Ret sol /\
            result sol = successful /\ value sol = map Fin (x k).
Proof.
  intros n F J root y0 beta q rho B rtol atol kappa res jac lsolve P fs auxs A near linear_error Hroot HF0 Hy0 HF Hls Hbeta Hlin HB Hq Hb
    Hra Haa Hr0 Ha0 Hka Hre Hre0 Hnm Hlo Hup HC theta Hth s st0 Hi.
  set (fn := liftv F) in *.
  change (Ret (nc_st0 jac P fn (map Fin y0) fs) = Ret st0) in Hi. injection Hi as <-.
  set (st0 := nc_st0 jac P fn (map Fin y0) fs).
  set (Y := y_at s fn (map Fin y0) st0 (auxs fill0)).
  set (S_ := st_at s fn (map Fin y0) st0 (auxs fill0)).
  assert (Hbox : has_box P = false) by (unfold has_box; rewrite Hlo, Hup; reflexivity).
  assert (Hclip : forall v, nc_clip P v = v) by (intro; unfold nc_clip; rewrite Hlo, Hup; reflexivity).
  assert (HAx : forall x, near x -> near (if nc_is_newton P then x else y0)) by (intros x Hx; destruct (nc_is_newton P); auto).
  assert (Sub : forall a d, length a = n -> length d = n -> Rsub_v (Rsub_v a d) root = Rsub_v (Rsub_v a root) d).
  { clear - Hroot. revert root Hroot. induction n as [|m IH]; intros [|r root] Hr [|a0 a] [|d0 d] H1 H2; try discriminate; auto.
    cbn. f_equal; [ring|]. apply IH; auto. }
  assert (TF : forall v, map toR (map Fin v) = v) by (intro v; rewrite map_map; cbn [toR]; apply map_id).
  assert (Step : forall x, near x -> exists d, lin_sol jac lsolve (nc_is_newton P) fn (map Fin y0) (map Fin x) = (map Fin d, successful) /\
            length d = n /\ (Rdist_inf (Rsub_v x d) root <= beta * linear_error x)%R).
  { intros x Hx. destruct (HF x Hx) as (LF & MJ & EJ).
    destruct (Hls _ (F x) (HAx x Hx) LF) as (d & Ed & Ld & Md). exists d. split; [|split; [exact Ld|]].
    - unfold lin_sol, fn. rewrite liftv_Fin. cbn [fst]. rewrite <- Ed. f_equal.
      destruct (nc_is_newton P); [exact EJ|]. exact (proj2 (proj2 (HF y0 Hy0))).
    - unfold Rdist_inf. rewrite (Sub x d (proj1 Hx) Ld).
      assert (LX : length (Rsub_v x root) = n) by (apply Rsub_v_length; [apply Hx|exact Hroot]).
      eapply Rle_trans; [apply (Hbeta x _ Hx); apply Rsub_v_length; auto|].
      apply Rmult_le_compat_l; [exact Hb|]. unfold linear_error, A. rewrite (mvec_sub _ n n _ _ (proj1 (proj2 (HF _ (HAx x Hx)))) LX Ld), Md.
      fold (Rdist_inf (F x) (mvec (J (if nc_is_newton P then x else y0)) (Rsub_v x root))). rewrite Rdist_inf_sym. apply Rle_refl. }
  set (x k := map toR (Y k)).
  assert (Inv : forall k, Y k = map Fin (x k) /\ near (x k)).
  { induction k as [|k [IH1 IH2]].
    - unfold x. change (Y 0) with (map Fin y0). rewrite TF. auto.
    - destruct (Step (x k) IH2) as (d & Ed & Ld & Md).
      assert (EY : Y (S k) = map Fin (Rsub_v (x k) d)).
      { unfold Y. refine (eq_trans (nc_y_S jac lsolve P fn (map Fin y0) fs (auxs fill0) k) _).
        rewrite Hclip. change (y_at _ _ _ _ _ k) with (Y k). rewrite IH1, Ed. apply vsub_Fin. }
      assert (EX : x (S k) = Rsub_v (x k) d) by (unfold x at 1; rewrite EY; apply TF).
      rewrite EX. split; [exact EY|]. split; [apply Rsub_v_length; [apply IH2|exact Ld]|].
      pose proof (Hlin (x k) IH2). pose proof (proj2 IH2). pose proof (Rdist_inf_pos (x k) root). nra. }
  assert (XS : forall k, exists d, lin_sol jac lsolve (nc_is_newton P) fn (map Fin y0) (Y k) = (map Fin d, successful) /\ length d = n /\
                 x (S k) = Rsub_v (x k) d /\ (Rdist_inf (x (S k)) root <= beta * linear_error (x k))%R).
  { intro k. destruct (Inv k) as [IH1 IH2]. destruct (Step (x k) IH2) as (d & Ed & Ld & Md). exists d. rewrite IH1. split; [exact Ed|]. split; [exact Ld|].
    assert (EX : x (S k) = Rsub_v (x k) d).
    { unfold x at 1. transitivity (map toR (map Fin (Rsub_v (x k) d))); [|apply TF]. f_equal.
      unfold Y. refine (eq_trans (nc_y_S jac lsolve P fn (map Fin y0) fs (auxs fill0) k) _).
      rewrite Hclip. change (y_at _ _ _ _ _ k) with (Y k). rewrite IH1, Ed. apply vsub_Fin. }
    split; [exact EX|]. rewrite EX. exact Md. }
  exists x. split; [intro k; apply Inv|].
  assert (Con : forall k, (Rdist_inf (x (S k)) root <= q * Rdist_inf (x k) root)%R).
  { intro k. destruct (XS k) as (d & _ & _ & _ & M). eapply Rle_trans; [exact M|]. apply Hlin, Inv. }
  split; [exact Con|].
  assert (Geo : forall k, (Rdist_inf (x k) root <= q ^ k * rho)%R).
  { induction k as [|k IH]; [rewrite Rmult_1_l; apply Inv|]. eapply Rle_trans; [apply Con|]. cbn [pow]. rewrite Rmult_assoc. apply Rmult_le_compat_l; [lra|exact IH]. }
  assert (Tri : forall k, (Rdist_inf (x k) (x (S k)) <= 2 * Rdist_inf (x k) root /\ (1 - q) * Rdist_inf (x (S k)) root <= q * Rdist_inf (x k) (x (S k)))%R).
  { intro k. pose proof (proj1 (proj2 (Inv k))) as L1. pose proof (proj1 (proj2 (Inv (S k)))) as L2.
    pose proof (Rdist_inf_tri (x k) root (x (S k)) ltac:(congruence) ltac:(congruence)) as T1. rewrite (Rdist_inf_sym root) in T1.
    pose proof (Rdist_inf_tri (x k) (x (S k)) root ltac:(congruence) ltac:(congruence)) as T2.
    pose proof (Con k). pose proof (Rdist_inf_pos (x k) root). split; nra. }
  assert (HB0 : (0 <= B)%R) by (eapply Rle_trans; [apply Rmax_norm_pos|apply (HB y0 Hy0)]).
  assert (Lx : forall k, length (x k) = n) by (intro k; apply Inv).
  set (size k := Rmax_norm (scaled rtol atol (Rsub_v (x k) (x (S k))) (x (S k)))).
  assert (Sz : forall k, (0 <= size k /\ Rdist_inf (x k) (x (S k)) <= size k * (atol + rtol * B) /\ size k * atol <= Rdist_inf (x k) (x (S k)))%R).
  { intro k. destruct (scaled_bounds rtol atol B (Rsub_v (x k) (x (S k))) (x (S k)) Hr0 Ha0 HB0) as [L U].
    - rewrite (Rsub_v_length (x k) (x (S k)) n); auto; symmetry; apply Lx.
    - apply HB, Inv.
    - fold (size k) in L, U. fold (Rdist_inf (x k) (x (S k))) in L, U. split; [apply Rmax_norm_pos|].
      assert (0 < atol + rtol * B)%R by nra. split.
      + apply (Rmult_le_compat_r (atol + rtol * B)) in L; [|lra]. unfold Rdiv in L. rewrite Rmult_assoc, Rinv_l, Rmult_1_r in L by lra. exact L.
      + apply (Rmult_le_compat_r atol) in U; [|lra]. unfold Rdiv in U. rewrite Rmult_assoc, Rinv_l, Rmult_1_r in U by lra. exact U. }
  assert (Dr : forall k, (Rdist_inf (x (S k)) (x (S (S k))) <= q * (1 + q) / (1 - q) * Rdist_inf (x k) (x (S k)))%R).
  { intro k. pose proof (Rdist_inf_tri (x (S k)) root (x (S (S k))) ltac:(rewrite Lx, Hroot; reflexivity) ltac:(rewrite Lx, Hroot; reflexivity)) as T1.
    rewrite (Rdist_inf_sym root) in T1. pose proof (Con (S k)) as C1. pose proof (Con k) as C0.
    pose proof (Rdist_inf_tri (x k) (x (S k)) root ltac:(rewrite !Lx; reflexivity) ltac:(rewrite Lx, Hroot; reflexivity)) as T2.
    pose proof (Rdist_inf_pos (x k) root) as P0.
    set (e := Rdist_inf (x k) root) in *. set (e1 := Rdist_inf (x (S k)) root) in *.
    assert (E1 : ((1 - q) * e <= Rdist_inf (x k) (x (S k)))%R) by nra.
    assert (E2 : (Rdist_inf (x (S k)) (x (S (S k))) <= q * (1 + q) * e)%R) by nra.
    assert (I : (0 < / (1 - q))%R) by (apply Rinv_0_lt_compat; lra).
    assert (E3 : (e <= / (1 - q) * Rdist_inf (x k) (x (S k)))%R).
    { apply (Rmult_le_reg_l (1 - q)); [lra|]. rewrite <- Rmult_assoc, Rinv_r, Rmult_1_l by lra. exact E1. }
    eapply Rle_trans; [exact E2|]. unfold Rdiv. rewrite (Rmult_assoc (q * (1 + q))). apply Rmult_le_compat_l; [nra|exact E3]. }
  assert (R0 : (0 <= q * (1 + q) / (1 - q))%R).
  { unfold Rdiv. apply Rmult_le_pos; [nra|]. left. apply Rinv_0_lt_compat. lra. }
  assert (Th0 : (0 <= theta)%R).
  { unfold theta. apply Rmult_le_pos; [|exact R0]. assert (0 <= rtol * B / atol)%R; [|lra]. unfold Rdiv.
    apply Rmult_le_pos; [nra|]. left. apply Rinv_0_lt_compat. exact Ha0. }
  assert (Shr : forall k, (size (S k) <= theta * size k)%R).
  { intro k. destruct (Sz (S k)) as (_ & _ & U). destruct (Sz k) as (P0 & L & _). pose proof (Dr k) as D.
    apply (Rmult_le_reg_r atol); [exact Ha0|]. eapply Rle_trans; [exact U|]. eapply Rle_trans; [exact D|].
    eapply Rle_trans; [apply Rmult_le_compat_l; [exact R0|exact L]|]. apply Req_le. unfold theta. field. split; lra. }
  assert (HL : forall k, snd (lin_sol jac lsolve (nc_is_newton P) fn (map Fin y0) (Y k)) = successful).
  { intro k. destruct (XS k) as (d & Ed & _). rewrite Ed. reflexivity. }
  assert (HZ : forall k, rel_size (nc_norm P) (nc_rtol P) (nc_atol P)
                    (match nc_lower P, nc_upper P with
                     | None, None => fst (lin_sol jac lsolve (nc_is_newton P) fn (map Fin y0) (Y k))
                     | _, _ => vsub (Y k) (Y (S k))
                     end) (Y (S k)) = Fin (size k)).
  { intro k. rewrite Hlo, Hup, Hnm, Hra, Haa. destruct (XS k) as (d & Ed & Ld & EX & _). rewrite Ed. cbn [fst].
    rewrite (proj1 (Inv (S k))). rewrite rel_size_Fin by assumption. unfold size. do 2 f_equal.
    assert (ED : Rsub_v (x k) (x (S k)) = d).
    { rewrite EX. apply vsub_cancel. rewrite Ld. apply Inv. }
    rewrite ED. reflexivity. }
  assert (V : forall j, says_result s fn (map Fin y0) st0 (auxs fill0) (S (S j)) = successful /\
     ((size (S j) < res)%R \/ (0 < size (S j) /\ size (S j) * (theta / (1 - theta)) < kappa)%R ->
       says_terminate s fn (map Fin y0) st0 (auxs fill0) (S (S j)) = true)).
  { intro j. destruct (C90_verdict_pf XR unit _ jac lsolve P fn (map Fin y0) fs auxs st0 j eq_refl HC) as (_ & _ & V).
    specialize (V (HL (S j))). cbv zeta in V.
    fold s in V. fold Y in V. rewrite !HZ, Hre, Hka in V. destruct V as [V1 V2]. rewrite V1, V2. clear V1 V2.
    pose proof (Shr j) as H1. destruct (Sz j) as (P0 & _ & _). destruct (Sz (S j)) as (P1 & _ & _).
    cbn [nltb nofQ ndiv nmul nsub XR nisfin]. rewrite ?Q2R_0, ?Q2R_1, ?Q2R_2.
    destruct (Req_dec (size j) 0) as [Z|Z].
    - assert (Z1 : size (S j) = 0%R) by (rewrite Z in H1; lra). split; [left|intros _; left]; apply xltb_fin; lra.
    - assert (Rt : (0 <= size (S j) / size j <= theta)%R).
      { assert (0 < / size j)%R by (apply Rinv_0_lt_compat; lra). unfold Rdiv. split; [apply Rmult_le_pos; lra|].
        apply (Rmult_le_reg_r (size j)); [lra|]. rewrite Rmult_assoc, Rinv_l, Rmult_1_r by lra. exact H1. }
      rewrite xdiv_fin by exact Z. set (rt := (size (S j) / size j)%R) in *. cbn [xisfin xsub xmul xadd xneg]. split.
      + right. intros [X|X]; [discriminate X|]. apply xltb_fin in X. lra.
      + intros [X|[X0 X]]; [left; apply xltb_fin; exact X|].
        right. right. replace (1 + - rt)%R with (1 - rt)%R by ring. rewrite xdiv_fin by lra.
        assert (RP : (0 < rt)%R) by (unfold rt, Rdiv; apply Rmult_lt_0_compat; [lra|apply Rinv_0_lt_compat; lra]).
        assert (IP : (0 < / (1 - rt))%R) by (apply Rinv_0_lt_compat; lra).
        split; apply xltb_fin.
        * unfold Rdiv. apply Rmult_lt_0_compat; [nra|exact IP].
        * eapply Rle_lt_trans; [|exact X]. unfold Rdiv. rewrite Rmult_assoc. apply Rmult_le_compat_l; [lra|].
          apply Rmult_le_compat; [lra|lra|lra|]. apply Rinv_le_contravar; lra. }
  assert (T01 : says_terminate s fn (map Fin y0) st0 (auxs fill0) 0 = false /\ says_terminate s fn (map Fin y0) st0 (auxs fill0) 1 = false /\
     says_result s fn (map Fin y0) st0 (auxs fill0) 0 = successful /\ says_result s fn (map Fin y0) st0 (auxs fill0) 1 = successful).
  { destruct (C90_verdict_pf XR unit _ jac lsolve P fn (map Fin y0) fs auxs st0 0 eq_refl HC) as (V0 & V1 & _).
    split; [exact V0|]. split; [exact (V1 (HL 0))|]. split.
    - unfold says_result. cbn [s_terminate s newton_chord]. unfold nc_terminate. rewrite HC. reflexivity.
    - unfold says_result. cbn [s_terminate s newton_chord]. fold s. unfold nc_terminate. rewrite HC.
      pose proof (nc_st_S jac lsolve P fn (map Fin y0) fs (auxs fill0) 0) as HST. fold s in HST. fold st0 in HST. cbv zeta in HST.
      rewrite HST. cbn [nc_result nc_step].
      change (snd (lin_sol jac lsolve (nc_is_newton P) fn (map Fin y0) (y_at s fn (map Fin y0) st0 (auxs fill0) 0))) with
        (snd (lin_sol jac lsolve (nc_is_newton P) fn (map Fin y0) (Y 0))). rewrite HL. reflexivity. }
  destruct T01 as (T0 & T1 & U0 & U1).
  assert (SR : forall k, says_result s fn (map Fin y0) st0 (auxs fill0) k = successful).
  { intros [|[|k]]; [exact U0|exact U1|apply V]. }
  assert (AF : forall k, vallfinite (N:=XR) (asked s fn (map Fin y0) st0 (auxs fill0) k) = true).
  { intro k. unfold asked. change (y_at _ _ _ _ _ (pred k)) with (Y (pred k)). rewrite (proj1 (Inv _)). apply allfin_Fin. }
  intros K HK.
  assert (HTK : says_terminate s fn (map Fin y0) st0 (auxs fill0) (S (S K)) = true).
  { apply V. destruct (Rlt_or_le (size (S K)) res) as [|G]; [left; assumption|right]. split; [lra|].
    eapply Rle_lt_trans; [|exact HK]. apply Rmult_le_compat_r.
    - unfold Rdiv. apply Rmult_le_pos; [exact Th0|]. left. apply Rinv_0_lt_compat. lra.
    - destruct (Sz (S K)) as (_ & _ & U). pose proof (proj1 (Tri (S K))) as T. pose proof (Geo (S K)) as G'.
      apply (Rmult_le_reg_r atol); [exact Ha0|]. unfold Rdiv. rewrite Rmult_assoc, Rinv_l, Rmult_1_r by lra. lra. }
  destruct (solve_succeeds vallfinite s fn (map Fin y0) st0 _ fs auxs eq_refl eq_refl SR AF (ex_intro _ _ HTK)) as (k & T & M & Sol).
  assert (2 <= k) by (destruct k as [|[|k]]; [unfold st0 in *; congruence|unfold st0 in *; congruence|lia]).
  exists k. split; [|split; [apply Geo|split]].
  - split; [assumption|]. destruct (le_lt_dec k (S (S K))) as [|NK]; auto. rewrite (M _ NK) in HTK. discriminate.
  - destruct k as [|k]; [lia|]. cbn [pred]. apply Tri.
  - intros fuel ms throw Hf Hms. eexists. destruct (Sol fuel ms throw Hf Hms) as [E1 E2]. split; [exact E1|]. split; [exact E2|].
    etransitivity; [|apply (proj1 (Inv k))]. reflexivity.
Qed.

(** f(x) = x^2 - 1 from 9/8, root 1: Newton and Chord both shrink the error by 4 and, with
    atol = 1/1000, kappa = 1/100, succeed within 9 steps. *)
Definition sq1_Q (newton : bool) : nc_params (N:=XR) :=
  mkNcParams (N:=XR) (Fin 0) (Fin (1/1000)) (max_norm (N:=XR)) (Fin (1/100)) false newton None None (Fin (1/1000000)).
Example C90_local_convergence_ex_pf : forall newton,
  let s := newton_chord (fun _ v => sq1_J (map toR v)) sq1_solve (sq1_Q newton) in
  forall st0, s_init s (liftv sq1) [Fin (9/8)] (fun _ => [PInf]) (fun _ => tt) = Ret st0 ->
  exists x : nat -> list R,
    (forall k, y_at s (liftv sq1) [Fin (9/8)] st0 tt k = map Fin (x k)) /\
    (forall k, Rdist_inf (x (S k)) [1] <= 1 / 4 * Rdist_inf (x k) [1])%R /\
    exists k, 2 <= k <= 9 /\ forall fuel, k < fuel ->
      exists sol, iterative_solve vallfinite s (liftv sq1) fuel None true [Fin (9/8)] (fun _ => [PInf]) (fun _ => tt) = Ret sol /\
        result sol = successful /\ value sol = map Fin (x k).
Proof.
  intros newton s st0 Hi.
  assert (N1 : forall v, length v = 1 -> v = [nth 0 v 0%R]) by (intros [|a [|]] H; try discriminate; reflexivity).
  assert (RA : forall a, Rmax_norm [a] = Rabs a) by (intro a; cbn; apply Rmax_left, Rabs_pos).
  assert (BE : forall z, length z = 1 -> (Rdist_inf z [1%R] <= 1 / 8)%R -> exists a, z = [a] /\ Rdist_inf z [1%R] = Rabs (a - 1) /\ (-1/8 <= a - 1 <= 1/8)%R).
  { intros z Hz H. rewrite (N1 z Hz) in H |- *. exists (nth 0 z 0%R). split; [reflexivity|]. unfold Rdist_inf in *. cbn [Rsub_v] in *. rewrite RA in *. split; [reflexivity|].
    unfold Rabs in H. destruct (Rcase_abs _); lra. }
  assert (LE : forall a, (-1/8 <= a - 1 <= 1/8)%R ->
     Rmax_norm (Rsub_v (sq1 [a]) (mvec (sq1_J (if newton then [a] else [9/8]%R)) (Rsub_v [a] [1%R]))) = (Rabs (a - 1) * (if newton then Rabs (a - 1) else 5/4 - a))%R).
  { intros a Ha. unfold sq1, sq1_J, mvec. cbn [map nth Rsub_v Rdot]. destruct newton; cbn [map nth Rsub_v Rdot]; rewrite RA.
    - rewrite <- Rabs_mult. rewrite <- Rabs_Ropp. f_equal. ring.
    - rewrite <- (Rabs_pos_eq (5/4 - a)) by lra. rewrite <- Rabs_mult, <- Rabs_Ropp. f_equal. cbn. field. }
  destruct (C90_local_convergence_pf 1 sq1 sq1_J [1%R] [9/8]%R (4/7) (1/4) (1/8) (9/8) 0 (1/1000) (1/100) (1/1000000)
     (fun _ v => sq1_J (map toR v)) sq1_solve (sq1_Q newton) (fun _ => [PInf]) (fun _ => tt)) with (st0 := st0) as (x & H1 & H2 & H4); try reflexivity; try lra; try lia; try exact Hi.
  - unfold sq1, zerov. cbn. f_equal. ring.
  - split; [reflexivity|]. unfold Rdist_inf. cbn [Rsub_v]. rewrite RA. rewrite Rabs_pos_eq; lra.
  - intros z _. split; [reflexivity|]. split; [split; repeat constructor|]. rewrite map_map. cbn [toR]. rewrite map_id. reflexivity.
  - intros z c [Hz Hd] Hc. destruct (BE z Hz Hd) as (a & -> & _ & Ha). rewrite (N1 c Hc). exists [(nth 0 c 0 / (2 * a))%R].
    split; [reflexivity|]. split; [reflexivity|]. unfold sq1_J, mvec. cbn. f_equal. field. lra.
  - intros z v [Hz Hd] Hv. destruct (BE z Hz Hd) as (a & -> & _ & Ha). rewrite (N1 v Hv). unfold sq1_J, mvec. cbn [sq1_Q nc_is_newton].
    destruct newton; cbn [map nth Rdot]; rewrite !RA, Rplus_0_r, Rabs_mult; pose proof (Rabs_pos (nth 0 v 0%R)).
    + rewrite (Rabs_pos_eq (2 * a)) by lra. nra.
    + rewrite (Rabs_pos_eq (2 * (9/8))) by lra. nra.
  - intros z [Hz Hd]. destruct (BE z Hz Hd) as (a & -> & -> & Ha). cbn [sq1_Q nc_is_newton]. rewrite (LE a Ha).
    pose proof (Rabs_pos (a - 1)). assert (Rabs (a - 1) <= 1/8)%R by (unfold Rabs; destruct (Rcase_abs _); lra). destruct newton; nra.
  - intros z [Hz Hd]. destruct (BE z Hz Hd) as (a & -> & _ & Ha). rewrite RA. rewrite Rabs_pos_eq; lra.
  - exists x. split; [exact H1|]. split; [exact H2|].
    destruct (H4 7) as (k & K1 & _ & _ & K2); [cbn [pow]; lra|]. exists k. split; [exact K1|]. intros fuel Hf. apply (K2 fuel None true Hf). discriminate.
Qed.

(** A verdict of every kind: the four runs of Newton and Chord for x^2 = 2 in binary64 (both modes succeed near
    sqrt 2, Chord from 1/10 is reported to diverge). *)
Example C90_verdict_ex_pf :
  (forall newton : bool, exists sol, sq2_run false newton None None (3#2) = Ret sol /\
     results_eqb (result sol) successful && in_range (value sol) (14142#10000) (14143#10000) = true) /\
  (exists sol, sq2_run false false None None (1#10) = Ret sol /\ results_eqb (result sol) nonlinear_divergence = true).
Proof. split; [intros [|]; apply check_ret'; vm_compute; reflexivity|apply check_ret'; vm_compute; reflexivity]. Qed.

(** With cauchy_termination=False success does not mean that a root is near.  Newton's method in
    binary64 for x^2 - 2 on the box [-1/2, 3], which contains the root sqrt 2, started at -1/4: the
    first step is clipped to the lower bound, the second is clipped to nothing, and this is taken for
    convergence.  The value returned is -1/2, where the function is below -1. *)
Lemma C90_success_near_root_refuted_pf :
  exists (fn : list f64 -> list f64 * unit) (jac : (list f64 -> list f64 * unit) -> list f64 -> f64)
         (lsolve : f64 -> list f64 -> list f64 * results) (P : nc_params (N:=F64)) (y0 lo up : f64) sol,
    (forall x, fn [x] = ([fsub (fmul x x) (f64_ofZ 2)], tt)) /\
    (forall x, jac fn [x] = fmul (f64_ofZ 2) x) /\
    (forall m v, neqb (n:=F64) m (f64_ofZ 0) = false -> lsolve m v = (map (fun x => fdiv x m) v, successful)) /\
    nc_kappa P = f64_ofQ (1#100) /\ nc_norm P = max_norm (N:=F64) /\ nc_resolution P = f64_ofQ (1#10000000000000) /\
    nc_is_newton P = true /\ nc_cauchy P = false /\ nc_lower P = Some [lo] /\ nc_upper P = Some [up] /\
    (nleb (n:=F64) lo y0 && nleb (n:=F64) y0 up = true) /\
    (exists a b : f64, nleb (n:=F64) lo a && nleb (n:=F64) b up && nltb (n:=F64) a b = true /\
       nltb (n:=F64) (hd (f64_ofZ 0) (fst (fn [a]))) (f64_ofZ 0) && nltb (n:=F64) (f64_ofZ 0) (hd (f64_ofZ 0) (fst (fn [b]))) = true) /\
    iterative_solve vallfinite (newton_chord jac lsolve P) fn 10 (Some 9) true [y0] (fun _ => [f64_ofZ 0]) (fun _ => tt) = Ret sol /\
    result sol = successful /\
    exists v, value sol = [v] /\ neqb (n:=F64) v lo = true /\ nltb (n:=F64) (hd (f64_ofZ 0) (fst (fn [v]))) (f64_ofZ (-1)) = true.
Proof.
  exists sq2, sq2_jac, div_solve, (sq2_P false true (Some [f64_ofQ (-1#2)]) (Some [f64_ofZ 3])), (f64_ofQ (-1#4)), (f64_ofQ (-1#2)), (f64_ofZ 3).
  destruct (check_ret' _ (iterative_solve vallfinite (newton_chord sq2_jac div_solve (sq2_P false true (Some [f64_ofQ (-1#2)]) (Some [f64_ofZ 3]))) sq2
    10 (Some 9) true [f64_ofQ (-1#4)] (fun _ => [f64_ofZ 0]) (fun _ => tt))
    (fun sol => results_eqb (result sol) successful && match value sol with [x] => neqb (n:=F64) x (f64_ofQ (-1#2)) &&
       nltb (n:=F64) (hd (f64_ofZ 0) (fst (sq2 [x]))) (f64_ofZ (-1)) | _ => false end)) as (sol & E & H).
  { vm_compute. reflexivity. }
  exists sol. apply andb_true_iff in H. destruct H as [HR HV].
  split; [reflexivity|]. split; [reflexivity|]. split.
  { intros m v Hm. unfold div_solve. rewrite Hm. reflexivity. }
  split; [reflexivity|]. split; [reflexivity|]. split; [reflexivity|]. split; [reflexivity|]. split; [reflexivity|]. split; [reflexivity|]. split; [reflexivity|]. split; [vm_compute; reflexivity|]. split.
  { exists (f64_ofZ 1), (f64_ofZ 2). split; vm_compute; reflexivity. }
  split; [exact E|]. split; [destruct (result sol); try discriminate HR; reflexivity|].
  destruct (value sol) as [|v [|]]; try discriminate HV. exists v. apply andb_true_iff in HV. destruct HV as [H1 H2].
  split; [reflexivity|]. split; [exact H1|exact H2].
Qed.
