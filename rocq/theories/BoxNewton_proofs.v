(** Newton and Chord with bounds around the root (C113). *)

From Coq Require Import String List Bool Arith Lia ZArith QArith Qreals Reals Lra Psatz.
From Verif Require Import Num NumFacts NumDiv Vec Results Iterate Spec_Iterate Iterate_proofs.
From Verif Require Import Spec_Vec VecFacts Spec_Lin LinFacts NewtonChord Spec_NewtonChord NumF64 NumF64_facts.
From Verif Require Import FixedPoint_proofs NewtonChord_proofs Spec_BoxNewton.
Import ListNotations.
Local Open Scope nat_scope.

Lemma fin_ok : forall v : R, nisnan (N:=XR) (Fin v) = false.
Proof. intro v. unfold nisnan. cbn. rewrite (proj2 (Reqb_true v v) eq_refl). reflexivity. Qed.
(** ** Clipping towards a box that contains the root *)
Definition lo_ok (b : xr) (v : R) : Prop := xleb b (Fin v) = true.
Definition up_ok (b : xr) (v : R) : Prop := xleb (Fin v) b = true.
Lemma max1 : forall b r v, lo_ok b r -> exists w, nmax (N:=XR) (Fin v) b = Fin w /\ lo_ok b w /\ (Rabs (w - r) <= Rabs (v - r))%R /\
  (forall u, up_ok u r -> up_ok u v -> up_ok u w).
Proof.
  intros [l| | |] r v H; unfold lo_ok, up_ok in *; cbn in H; try discriminate H.
  - change (xleb (Fin l) (Fin r) = true) in H. rewrite xleb_fin_iff in H. unfold nmax. rewrite !fin_ok. cbn [XR nltb].
    destruct (xltb (Fin v) (Fin l)) eqn:E.
    + rewrite xltb_fin in E. exists l. split; [reflexivity|]. split; [rewrite xleb_fin_iff; lra|]. split.
      * rewrite !Rabs_left1 by lra. lra.
      * intros [u| | |] H1 H2; auto. rewrite xleb_fin_iff in *. lra.
    + assert (~ (v < l)%R) by (rewrite <- xltb_fin; congruence). exists v. split; [reflexivity|]. split; [rewrite xleb_fin_iff; lra|]. split; [lra|auto].
  - exists v. unfold nmax, nmin. rewrite fin_ok. split; [reflexivity|]. split; [reflexivity|]. split; [lra|auto].
Qed.
Lemma min1 : forall b r v, up_ok b r -> exists w, nmin (N:=XR) (Fin v) b = Fin w /\ up_ok b w /\ (Rabs (w - r) <= Rabs (v - r))%R /\
  (forall l, lo_ok l r -> lo_ok l v -> lo_ok l w).
Proof.
  intros [l| | |] r v H; unfold lo_ok, up_ok in *; cbn in H; try discriminate H.
  - change (xleb (Fin r) (Fin l) = true) in H. rewrite xleb_fin_iff in H. unfold nmin. rewrite !fin_ok. cbn [XR nltb].
    destruct (xltb (Fin l) (Fin v)) eqn:E.
    + rewrite xltb_fin in E. exists l. split; [reflexivity|]. split; [rewrite xleb_fin_iff; lra|]. split.
      * rewrite !Rabs_pos_eq by lra. lra.
      * intros [u| | |] H1 H2; auto. rewrite xleb_fin_iff in *. lra.
    + assert (~ (l < v)%R) by (rewrite <- xltb_fin; congruence). exists v. split; [reflexivity|]. split; [rewrite xleb_fin_iff; lra|]. split; [lra|auto].
  - exists v. unfold nmax, nmin. rewrite fin_ok. split; [reflexivity|]. split; [reflexivity|]. split; [lra|auto].
Qed.
Lemma maxv : forall l root, Forall2 lo_ok l root -> forall v, length v = length root ->
  exists w, vmap2 (nmax (N:=XR)) (map Fin v) l = map Fin w /\ length w = length root /\ Forall2 lo_ok l w /\ (Rdist_inf w root <= Rdist_inf v root)%R.
Proof.
  intros l root H. induction H as [|b r l root H1 _ IH]; intros [|a v] Hv; try discriminate Hv.
  - exists []. split; [reflexivity|]. split; [reflexivity|]. split; [constructor|lra].
  - injection Hv as Hv. destruct (IH v Hv) as (w & E & L & I & D). destruct (max1 b r a H1) as (c & Ec & Ic & Dc & _).
    exists (c :: w). split; [cbn [map vmap2]; rewrite Ec; f_equal; exact E|]. split; [cbn; lia|]. split; [constructor; auto|].
    unfold Rdist_inf in *. cbn. apply Rmax_case; [eapply Rle_trans; [exact Dc|apply Rmax_l]|eapply Rle_trans; [exact D|apply Rmax_r]].
Qed.
Lemma minv : forall u root, Forall2 up_ok u root -> forall v, length v = length root ->
  exists w, vmap2 (nmin (N:=XR)) (map Fin v) u = map Fin w /\ length w = length root /\ Forall2 up_ok u w /\ (Rdist_inf w root <= Rdist_inf v root)%R /\
    (forall l, Forall2 lo_ok l root -> Forall2 lo_ok l v -> Forall2 lo_ok l w).
Proof.
  intros u root H. induction H as [|b r u root H1 _ IH]; intros [|a v] Hv; try discriminate Hv.
  - exists []. split; [reflexivity|]. split; [reflexivity|]. split; [constructor|]. split; [lra|auto].
  - injection Hv as Hv. destruct (IH v Hv) as (w & E & L & I & D & K). destruct (min1 b r a H1) as (c & Ec & Ic & Dc & Kc).
    exists (c :: w). split; [cbn [map vmap2]; rewrite Ec; f_equal; exact E|]. split; [cbn; lia|]. split; [constructor; auto|]. split.
    + unfold Rdist_inf in *. cbn. apply Rmax_case; [eapply Rle_trans; [exact Dc|apply Rmax_l]|eapply Rle_trans; [exact D|apply Rmax_r]].
    + intros l Hr Hl. inversion Hr; subst. inversion Hl; subst. constructor; auto.
Qed.
Lemma clip_closer : forall (P : nc_params (N:=XR)) root, inside (nc_lower P) (nc_upper P) root -> forall v, length v = length root ->
  exists w, nc_clip P (map Fin v) = map Fin w /\ length w = length root /\ inside (nc_lower P) (nc_upper P) w /\ (has_box P = false -> w = v) /\
    (Rdist_inf w root <= Rdist_inf v root)%R.
Proof.
  intros P root (HL & HU) v Hv. unfold nc_clip, has_box.
  assert (exists a, match nc_lower P with Some l => vmap2 (nmax (N:=XR)) (map Fin v) l | None => map Fin v end = map Fin a /\ length a = length root /\
    (forall l, nc_lower P = Some l -> Forall2 lo_ok l a) /\ (nc_lower P = None -> a = v) /\ (Rdist_inf a root <= Rdist_inf v root)%R) as (a & -> & La & Ia & Na & Da).
  { destruct (nc_lower P) as [l|].
    - destruct (maxv l root (HL l eq_refl) v Hv) as (w & E & L & I & D). exists w. split; [exact E|]. split; [exact L|].
      split; [intros l' [= <-]; exact I|]. split; [discriminate|exact D].
    - exists v. split; [reflexivity|]. split; [exact Hv|]. split; [discriminate|]. split; [reflexivity|lra]. }
  destruct (nc_upper P) as [u|].
  - destruct (minv u root (HU u eq_refl) a La) as (w & E & L & I & D & K). exists w. split; [exact E|]. split; [exact L|]. split; [|split; [|lra]].
    + split; [|intros u' [= <-]; exact I]. intros l El. apply K; [exact (HL l El)|exact (Ia l El)].
    + destruct (nc_lower P); discriminate.
  - exists a. split; [reflexivity|]. split; [exact La|]. split; [split; [exact Ia|discriminate]|]. split; [|lra].
    destruct (nc_lower P); [discriminate|]. auto.
Qed.

(** Newton and Chord with the options lower and upper, around a root inside the bounds (bounds may be infinite or
    absent).  The conditions are only required of points inside the bounds and of y0, so the function need not be
    defined elsewhere.  Then everything said in C70 without bounds holds: every iterate is closer to the root by the
    factor q, quadratically if the linearisation error is quadratic, and the solve succeeds within K + 1 steps. *)
Lemma C113_local_convergence_pf :
  forall (n : nat) (F : list R -> list R) (J : list R -> list (list R)) (root y0 : list R) (beta q rho L rtol atol : R)
         (jac : (list xr -> list xr * unit) -> list xr -> list (list R)) lsolve (P : nc_params (N:=XR)) fs auxs,
    let A x := J (if nc_is_newton P then x else y0) in
    let near x := length x = n /\ (Rdist_inf x root <= rho)%R /\ (inside (nc_lower P) (nc_upper P) x \/ x = y0) in
    let linear_error x := Rmax_norm (Rsub_v (F x) (mvec (A x) (Rsub_v x root))) in
    0 < n -> length root = n -> F root = zerov n -> inside (nc_lower P) (nc_upper P) root -> near y0 ->
    (forall x, near x -> length (F x) = n /\ mat n n (J x) /\ jac (liftv F) (map Fin x) = J x) ->
    (forall x c, near x -> length c = n ->
       exists d, lsolve (J x) (map Fin c) = (map Fin d, successful) /\ length d = n /\ mvec (J x) d = c) ->
    (forall x v, near x -> length v = n -> Rmax_norm v <= beta * Rmax_norm (mvec (A x) v))%R ->
    (forall x, near x -> beta * linear_error x <= q * Rdist_inf x root)%R ->
    (forall x, near x -> Rmax_norm (F x) <= L * Rdist_inf x root)%R -> (0 <= q < 1)%R -> (0 <= beta)%R -> (0 <= L)%R ->
    nc_rtol P = Fin rtol -> nc_atol P = Fin atol -> (0 <= rtol)%R -> (0 < atol)%R ->
    nc_norm P = max_norm (N:=XR) -> nc_cauchy P = true ->
    let s := newton_chord jac lsolve P in
    forall st0, s_init s (liftv F) (map Fin y0) fs auxs = Ret st0 ->
    exists x : nat -> list R,
      (forall k, y_at s (liftv F) (map Fin y0) st0 (auxs fill0) k = map Fin (x k)) /\
      (forall k, Rdist_inf (x (S k)) root <= q * Rdist_inf (x k) root)%R /\
      (forall gamma, (forall z, near z -> beta * linear_error z <= gamma * Rdist_inf z root ^ 2)%R ->
         forall k, Rdist_inf (x (S k)) root <= gamma * Rdist_inf (x k) root ^ 2)%R /\
      forall K, (2 * rho * q ^ K < atol)%R -> (L * rho * q ^ K < atol)%R ->
      exists k, 1 <= k <= S K /\ (Rdist_inf (x k) root <= q ^ k * rho)%R /\
        ((1 - q) * Rdist_inf (x k) root <= q * Rdist_inf (x (pred k)) (x k))%R /\
        forall fuel ms throw, k < fuel -> (forall m, ms = Some m -> k <= m) ->
          exists sol, iterative_solve vallfinite s (liftv F) fuel ms throw (map Fin y0) fs auxs = Ret sol /\
            result sol = successful /\ value sol = map Fin (x k).
Proof.
  intros n F J root y0 beta q rho L rtol atol jac lsolve P fs auxs A near linear_error Hn Hroot HF0 HIn Hy0 HF Hls Hbeta Hlin HL Hq Hb HL0
    Hra Haa Hr0 Ha0 Hnm HC s st0 Hi.
  set (fn := liftv F) in *.
  change (Ret (nc_st0 jac P fn (map Fin y0) fs) = Ret st0) in Hi. injection Hi as <-.
  set (st0 := nc_st0 jac P fn (map Fin y0) fs).
  set (Y := y_at s fn (map Fin y0) st0 (auxs fill0)).
  set (S_ := st_at s fn (map Fin y0) st0 (auxs fill0)).
  assert (Hclip := clip_closer P root HIn).
  assert (HAx : forall x, near x -> near (if nc_is_newton P then x else y0)) by (intros x Hx; destruct (nc_is_newton P); auto).
  assert (Sub : forall a d, length a = n -> length d = n -> Rsub_v (Rsub_v a d) root = Rsub_v (Rsub_v a root) d).
  { clear - Hroot. revert root Hroot. induction n as [|m IH]; intros [|r root] Hr [|a0 a] [|d0 d] H1 H2; try discriminate; auto.
    cbn. f_equal; [ring|]. apply IH; auto. }
  assert (TF : forall v, map toR (map Fin v) = v) by (intro v; rewrite map_map; cbn [toR]; apply map_id).
  assert (Step : forall x, near x -> exists d, lin_sol jac lsolve (nc_is_newton P) fn (map Fin y0) (map Fin x) = (map Fin d, successful) /\
            length d = n /\ (Rdist_inf (Rsub_v x d) root <= beta * linear_error x)%R).
  { intros x Hx. destruct (HF x Hx) as (LF & MJ & EJ).
    destruct (Hls _ (F x) (HAx x Hx) LF) as (d & Ed & Ld & Md). exists d. split; [|split; [exact Ld|]].
    - unfold lin_sol, fn. rewrite liftv_Fin. cbn [fst]. rewrite <- Ed. f_equal.
      destruct (nc_is_newton P); [exact EJ|]. exact (proj2 (proj2 (HF y0 Hy0))).
    - unfold Rdist_inf. rewrite (Sub x d (proj1 Hx) Ld).
      assert (LX : length (Rsub_v x root) = n) by (apply Rsub_v_length; [apply Hx|exact Hroot]).
      eapply Rle_trans; [apply (Hbeta x _ Hx); apply Rsub_v_length; auto|].
      apply Rmult_le_compat_l; [exact Hb|]. unfold linear_error, A. rewrite (mvec_sub _ n n _ _ (proj1 (proj2 (HF _ (HAx x Hx)))) LX Ld), Md.
      fold (Rdist_inf (F x) (mvec (J (if nc_is_newton P then x else y0)) (Rsub_v x root))). rewrite Rdist_inf_sym. apply Rle_refl. }
  set (x k := map toR (Y k)).
  assert (Next : forall k, Y k = map Fin (x k) -> near (x k) -> exists d, lin_sol jac lsolve (nc_is_newton P) fn (map Fin y0) (Y k) = (map Fin d, successful) /\
            length d = n /\ Y (S k) = map Fin (x (S k)) /\ length (x (S k)) = n /\ inside (nc_lower P) (nc_upper P) (x (S k)) /\
            (has_box P = false -> x (S k) = Rsub_v (x k) d) /\ (Rdist_inf (x (S k)) root <= beta * linear_error (x k))%R).
  { intros k IH1 IH2. destruct (Step (x k) IH2) as (d & Ed & Ld & Md). exists d. rewrite IH1. split; [exact Ed|]. split; [exact Ld|].
    assert (LD : length (Rsub_v (x k) d) = length root) by (rewrite Hroot; apply Rsub_v_length; [apply IH2|exact Ld]).
    destruct (Hclip _ LD) as (z & Ez & Lz & Iz & Bz & Dz).
    assert (EY : Y (S k) = map Fin z).
    { unfold Y. refine (eq_trans (nc_y_S jac lsolve P fn (map Fin y0) fs (auxs fill0) k) _).
      change (y_at _ _ _ _ _ k) with (Y k). rewrite IH1, Ed. cbn [fst]. rewrite vsub_Fin. exact Ez. }
    assert (EX : x (S k) = z) by (unfold x at 1; rewrite EY; apply TF).
    rewrite EX. split; [exact EY|]. split; [congruence|]. split; [exact Iz|]. split; [exact Bz|]. eapply Rle_trans; [exact Dz|exact Md]. }
  assert (Inv : forall k, Y k = map Fin (x k) /\ near (x k)).
  { induction k as [|k [IH1 IH2]].
    - unfold x. change (Y 0) with (map Fin y0). rewrite TF. auto.
    - destruct (Next k IH1 IH2) as (d & _ & _ & EY & LX & IX & _ & Md).
      split; [exact EY|]. split; [exact LX|]. split; [|left; exact IX].
      pose proof (Hlin (x k) IH2). pose proof (proj1 (proj2 IH2)). pose proof (Rdist_inf_pos (x k) root). nra. }
  assert (XS : forall k, exists d, lin_sol jac lsolve (nc_is_newton P) fn (map Fin y0) (Y k) = (map Fin d, successful) /\ length d = n /\
                 (has_box P = false -> x (S k) = Rsub_v (x k) d) /\ (Rdist_inf (x (S k)) root <= beta * linear_error (x k))%R).
  { intro k. destruct (Inv k) as [IH1 IH2]. destruct (Next k IH1 IH2) as (d & Ed & Ld & _ & _ & _ & B & Md). exists d. auto. }
  exists x. split; [intro k; apply Inv|].
  assert (Con : forall k, (Rdist_inf (x (S k)) root <= q * Rdist_inf (x k) root)%R).
  { intro k. destruct (XS k) as (d & _ & _ & _ & M). eapply Rle_trans; [exact M|]. apply Hlin, Inv. }
  split; [exact Con|]. split.
  { intros gamma Hg k. destruct (XS k) as (d & _ & _ & _ & M). eapply Rle_trans; [exact M|]. apply Hg, Inv. }
  assert (Geo : forall k, (Rdist_inf (x k) root <= q ^ k * rho)%R).
  { induction k as [|k IH]; [rewrite Rmult_1_l; apply (Inv 0)|]. eapply Rle_trans; [apply Con|]. cbn [pow]. rewrite Rmult_assoc. apply Rmult_le_compat_l; [lra|exact IH]. }
  assert (Tri : forall k, (Rdist_inf (x k) (x (S k)) <= 2 * Rdist_inf (x k) root /\ (1 - q) * Rdist_inf (x (S k)) root <= q * Rdist_inf (x k) (x (S k)))%R).
  { intro k. pose proof (proj1 (proj2 (Inv k))) as L1. pose proof (proj1 (proj2 (Inv (S k)))) as L2.
    pose proof (Rdist_inf_tri (x k) root (x (S k)) ltac:(congruence) ltac:(congruence)) as T1. rewrite (Rdist_inf_sym root) in T1.
    pose proof (Rdist_inf_tri (x k) (x (S k)) root ltac:(congruence) ltac:(congruence)) as T2.
    pose proof (Con k). pose proof (Rdist_inf_pos (x k) root). split; nra. }
  assert (HS : forall k, S_ (S k) = mkNc (Some (map Fin (F (x k)))) (if nc_is_newton P then None else Some (jac fn (map Fin y0)))
                 (map Fin (Rsub_v (x k) (x (S k)))) (nc_diffsize (S_ (S k))) (nc_diffsize_prev (S_ (S k))) successful (nc_step (S_ (S k)))).
  { intro k. destruct (XS k) as (d & Ed & Ld & EX & _).
    assert (E : S_ (S k) = _) by exact (nc_st_S jac lsolve P fn (map Fin y0) fs (auxs fill0) k). cbv zeta in E.
    rewrite HC in E. change (y_at _ _ _ _ _ k) with (Y k) in E. change (y_at _ _ _ _ _ (S k)) with (Y (S k)) in E. rewrite Ed in E. cbn [fst snd] in E.
    rewrite (proj1 (Inv k)), (proj1 (Inv (S k))) in E. unfold fn in E at 1. rewrite liftv_Fin in E. cbn [fst] in E.
    assert (ED : (if has_box P then vsub (N:=XR) (map Fin (x k)) (map Fin (x (S k))) else map Fin d) = map Fin (Rsub_v (x k) (x (S k)))).
    { destruct (has_box P); [apply vsub_Fin|]. rewrite (EX eq_refl). f_equal. symmetry. apply vsub_cancel. rewrite Ld. apply Inv. }
    rewrite ED in E. rewrite E. reflexivity. }
  assert (SR : forall k, says_result s fn (map Fin y0) st0 (auxs fill0) k = successful).
  { intros [|k]; unfold says_result; cbn [s_terminate s newton_chord]; unfold nc_terminate; rewrite HC.
    - change (st_at _ _ _ _ _ 0) with st0. reflexivity.
    - change (st_at _ _ _ _ _ (S k)) with (S_ (S k)). rewrite HS. reflexivity. }
  assert (AF : forall k, vallfinite (N:=XR) (asked s fn (map Fin y0) st0 (auxs fill0) k) = true).
  { intro k. unfold asked. change (y_at _ _ _ _ _ (pred k)) with (Y (pred k)). rewrite (proj1 (Inv _)). apply allfin_Fin. }
  intros K HK1 HK2.
  assert (HT0 : says_terminate s fn (map Fin y0) st0 (auxs fill0) 0 = false).
  { unfold says_terminate. change (asked s fn (map Fin y0) st0 (auxs fill0) 0) with (map Fin y0). change (st_at _ _ _ _ _ 0) with st0.
    cbn [s_terminate s newton_chord]. unfold nc_terminate. unfold st0, nc_st0; rewrite HC; cbn [nc_result nc_step nc_diff nc_f results_eqb negb orb fst].
    unfold cauchy_termination. apply andb_false_iff. left. rewrite Hnm, Hra, Haa.
    destruct (nltb _ _) eqn:E; auto. exfalso.
    apply (max_norm_lt XR_laws) in E; [|apply (dl_01 XR XR_div)]. rewrite Forall_nth in E.
    pose proof (proj1 Hy0) as Hy. destruct y0 as [|a y0']; [simpl in Hy; lia|].
    specialize (E 0 (xdiv (xabs PInf) (xadd (Fin atol) (xmul (Fin rtol) (xabs (Fin a))))) eq_refl).
    cbn in E. destruct (Rlt_dec _ 0); discriminate. }
  assert (HTK : says_terminate s fn (map Fin y0) st0 (auxs fill0) (S K) = true).
  { unfold says_terminate, asked. cbn [pred]. change (y_at _ _ _ _ _ K) with (Y K). change (st_at _ _ _ _ _ (S K)) with (S_ (S K)).
    rewrite HS, (proj1 (Inv K)). cbn [s_terminate s newton_chord]. unfold nc_terminate. rewrite HC.
    cbn [nc_result nc_step nc_diff nc_f results_eqb negb orb fst].
    pose proof (Geo K) as G. pose proof (Rdist_inf_pos (x K) root). pose proof (pow_le q K (proj1 Hq)).
    unfold cauchy_termination. rewrite Hnm, Hra, Haa. apply andb_true_iff. split.
    - apply (max_norm_lt XR_laws); [apply (dl_01 XR XR_div)|]. apply Forall_nth.
      intros i z Hz. unfold vdiv in Hz. apply nth_vmap2 in Hz. destruct Hz as (d & sc & E1 & E2 & ->).
      unfold vabs in E1. apply nth_map in E1. destruct E1 as (d' & E1 & ->). apply nth_map in E1. destruct E1 as (d0 & E1 & ->).
      unfold vscale_tol in E2. apply nth_map in E2. destruct E2 as (v & E2 & ->). apply nth_map in E2. destruct E2 as (v' & _ & ->).
      pose proof (Rabs_pos v'). cbn [nadd nmul nabs ndiv nltb nofQ XR xabs xmul xadd]. rewrite xdiv_fin by nra.
      cbn [xabs]. apply xltb_fin. rewrite Q2R_1. assert (0 < atol + rtol * Rabs v')%R by nra.
      unfold Rdiv. rewrite Rabs_mult, Rabs_Rabsolu, Rabs_inv, (Rabs_pos_eq (atol + _)) by lra.
      apply (Rmult_lt_reg_r (atol + rtol * Rabs v')); auto. rewrite Rmult_assoc, Rinv_l, Rmult_1_r, Rmult_1_l by lra.
      apply Rmax_norm_nth in E1. fold (Rdist_inf (x K) (x (S K))) in E1. pose proof (proj1 (Tri K)). nra.
    - apply (max_norm_lt XR_laws); [apply (dl_01 XR XR_div)|]. apply Forall_nth.
      intros i z Hz. unfold vdiv in Hz. apply nth_vmap2 in Hz. destruct Hz as (d & sc & E1 & E2 & ->).
      unfold vabs in E1. apply nth_map in E1. destruct E1 as (d' & E1 & ->). apply nth_map in E1. destruct E1 as (d0 & E1 & ->).
      unfold vscale_tol in E2. apply nth_map in E2. destruct E2 as (v & E2 & ->). apply nth_error_In in E2. unfold vfull in E2. apply repeat_spec in E2. subst v.
      cbn [nadd nmul nabs ndiv nltb nofQ XR xabs xmul xadd]. rewrite Q2R_0, Q2R_1, Rabs_R0, Rmult_0_r, Rplus_0_r. rewrite xdiv_fin by lra.
      cbn [xabs]. apply xltb_fin.
      unfold Rdiv. rewrite Rabs_mult, Rabs_Rabsolu, Rabs_inv, (Rabs_pos_eq atol) by lra.
      apply (Rmult_lt_reg_r atol); auto. rewrite Rmult_assoc, Rinv_l, Rmult_1_r, Rmult_1_l by lra.
      apply Rmax_norm_nth in E1. pose proof (HL (x K) (proj2 (Inv K))). nra. }
  destruct (solve_succeeds vallfinite s fn (map Fin y0) st0 _ fs auxs eq_refl eq_refl SR AF (ex_intro _ _ HTK)) as (k & T & M & Sol).
  assert (1 <= k) by (destruct k; [unfold st0 in *; congruence|lia]).
  exists k. split; [|split; [apply Geo|split]].
  - split; [assumption|]. destruct (le_lt_dec k (S K)) as [|NK]; auto. rewrite (M _ NK) in HTK. discriminate.
  - destruct k as [|k]; [lia|]. cbn [pred]. apply Tri.
  - intros fuel ms throw Hf Hms. eexists. destruct (Sol fuel ms throw Hf Hms) as [E1 E2]. split; [exact E1|]. split; [exact E2|].
    etransitivity; [|apply (proj1 (Inv k))]. reflexivity.
Qed.


(** ** Bounds do not make the method global *)
Definition side (k : nat) : R := if Nat.even k then 10%R else (-10)%R.
Lemma side_S : forall k, side (S k) = (- side k)%R.
Proof. intro k. unfold side. rewrite Nat.even_succ, <- Nat.negb_even. destruct (Nat.even k); cbn; lra. Qed.
Lemma side_cases : forall k, side k = 10%R \/ side k = (-10)%R.
Proof. intro k. unfold side. destruct (Nat.even k); auto. Qed.
Lemma atan_big : (3/4 <= atan 10)%R.
Proof. pose proof (atan_increasing 1 10 ltac:(lra)) as H. rewrite atan_1 in H. pose proof PI2_3_2. lra. Qed.
Lemma clip_side : forall b v, (10 < Rabs v)%R -> nc_clip (atan_P b) [Fin v] = [Fin (if Rlt_dec v 0 then -10 else 10)].
Proof.
  intros b v H. cbn. unfold nmax, nmin. rewrite !fin_ok. cbn [nltb XR].
  destruct (Rlt_dec v 0) as [N|N]; [rewrite Rabs_left in H by lra|rewrite Rabs_pos_eq in H by lra].
  - rewrite (proj2 (xltb_fin v (-10)) ltac:(lra)). rewrite fin_ok.
    destruct (xltb (Fin 10) (Fin (-10))) eqn:E; [rewrite xltb_fin in E; lra|reflexivity].
  - destruct (xltb (Fin v) (Fin (-10))) eqn:E; [rewrite xltb_fin in E; lra|]. rewrite fin_ok, (proj2 (xltb_fin 10 v) ltac:(lra)). reflexivity.
Qed.
Lemma atan_size : forall d y, (d = 20 \/ d = -20)%R -> (y = 10 \/ y = -10)%R ->
  rel_size (max_norm (N:=XR)) (Fin (1/1000)) (Fin (1/1000)) [Fin d] [Fin y] = Fin (20000/11).
Proof.
  intros d y Hd Hy. unfold rel_size. cbn [map vmap2 nadd nmul nabs ndiv XR xabs xmul xadd].
  assert (Ey : (1/1000 + 1/1000 * Rabs y = 11/1000)%R).
  { destruct Hy as [-> | ->]; [rewrite Rabs_pos_eq by lra|rewrite Rabs_left by lra]; lra. }
  rewrite Ey, xdiv_fin by lra. unfold max_norm. cbn [map fold_right nabs XR xabs nofQ].
  assert (Ed : Rabs (d / (11/1000)) = (20000/11)%R).
  { destruct Hd as [-> | ->]; [rewrite Rabs_pos_eq by lra|rewrite Rabs_left by lra]; lra. }
  unfold vabs. cbn [map fold_right nabs XR xabs]. rewrite Ed. unfold nmax. rewrite !fin_ok. cbn [nltb XR].
  match goal with |- context [xltb ?a ?b] => destruct (xltb a b) eqn:E end; [|reflexivity]. rewrite xltb_fin, Q2R_0 in E. lra.
Qed.

(** Bounds around the only root of a smooth, strictly increasing function do not make Newton converge: for atan on
    [-10, 10] from 10 the steps are clipped to -10, 10, -10, ... for ever, with either termination criterion, and
    every budget is used up. *)
Lemma C113_bounds_do_not_globalise_pf :
  forall cauchy : bool,
    let s := newton_chord (fun _ v => atan_J (map toR v)) sq1_solve (atan_P cauchy) in
    (forall x, derivable_pt_lim atan x (nth 0 (nth 0 (atan_J [x]) []) 0%R) /\ (0 < nth 0 (nth 0 (atan_J [x]) []) 0)%R) /\
    inside (nc_lower (atan_P cauchy)) (nc_upper (atan_P cauchy)) [0%R] /\ atan_F [0%R] = [0%R] /\
    forall st0, s_init s (liftv atan_F) [Fin 10] (fun _ => [PInf]) (fun _ => tt) = Ret st0 ->
      (forall k, y_at s (liftv atan_F) [Fin 10] st0 tt k = [Fin (if Nat.even k then 10 else -10)]) /\
      (forall m fuel, m < fuel -> exists sol, iterative_solve vallfinite s (liftv atan_F) fuel (Some m) false [Fin 10] (fun _ => [PInf]) (fun _ => tt) = Ret sol /\
         result sol = nonlinear_max_steps_reached).
Proof.
  intros cauchy s. split; [|split; [|split]].
  - intro x. cbn [nth atan_J]. split.
    + replace (/ (1 + x²))%R with (1 / (1 + x²))%R by (unfold Rdiv; ring). pose proof (derivable_pt_lim_atan x) as D. unfold Rsqr in *. cbn in D.
      replace (1 / (1 + x * x))%R with (/ (1 + x * (x * 1)))%R; [exact D|]. unfold Rdiv. rewrite Rmult_1_l. f_equal. ring.
    + apply Rinv_0_lt_compat. pose proof (Rle_0_sqr x). lra.
  - split; intros l [= <-]; repeat constructor; apply (proj2 (xleb_fin_iff _ _)); lra.
  - unfold atan_F. cbn. rewrite atan_0. reflexivity.
  - intros st0 Hi. set (fn := liftv atan_F) in *. set (jac := fun (_ : list xr -> list xr * unit) v => atan_J (map toR v)) in *.
    change (Ret (nc_st0 jac (atan_P cauchy) fn [Fin 10] (fun _ => [PInf])) = Ret st0) in Hi. injection Hi as <-.
    set (st0 := nc_st0 jac (atan_P cauchy) fn [Fin 10] (fun _ => [PInf])).
    set (Y := y_at s fn [Fin 10] st0 tt). set (S_ := st_at s fn [Fin 10] st0 tt).
    assert (LS : forall c, lin_sol jac sq1_solve true fn [Fin 10] [Fin c] = ([Fin (atan c / / (1 + c²))%R], successful)).
    { intro c. unfold lin_sol, fn. change [Fin c] with (map Fin [c]). rewrite liftv_Fin. reflexivity. }
    assert (YK : forall k, Y k = [Fin (side k)]).
    { induction k as [|k IH]; [reflexivity|].
      unfold Y. refine (eq_trans (nc_y_S jac sq1_solve (atan_P cauchy) fn [Fin 10] (fun _ => [PInf]) tt k) _).
      change (y_at _ _ _ _ _ k) with (Y k). rewrite IH. cbn [nc_is_newton atan_P]. rewrite LS. cbn [fst].
      change (vsub (N:=XR) [Fin (side k)] [Fin (atan (side k) / / (1 + (side k)²))%R]) with [Fin (side k - atan (side k) / / (1 + (side k)²))%R].
      rewrite side_S. pose proof atan_big as B. unfold Rdiv. rewrite Rinv_inv. unfold Rsqr.
      destruct (side_cases k) as [-> | ->].
      - rewrite clip_side by (rewrite Rabs_left; lra). destruct (Rlt_dec _ 0); [reflexivity|lra].
      - replace (atan (-10)) with (- atan 10)%R by (rewrite <- atan_opp; f_equal; lra). rewrite clip_side by (rewrite Rabs_pos_eq; lra). destruct (Rlt_dec _ 0); [lra|]. do 2 f_equal. lra. }
    assert (SK : forall k, S_ (S k) = mkNc (if cauchy then Some [Fin (atan (side k))] else None) None [Fin (side k - side (S k))] (Fin (20000/11))
        (nc_diffsize (S_ k)) successful (S (nc_step (S_ k)))).
    { intro k. assert (E : S_ (S k) = _) by exact (nc_st_S jac sq1_solve (atan_P cauchy) fn [Fin 10] (fun _ => [PInf]) tt k). cbv zeta in E.
      change (y_at _ _ _ _ _ k) with (Y k) in E. change (y_at _ _ _ _ _ (S k)) with (Y (S k)) in E. rewrite (YK k), (YK (S k)) in E.
      cbn [nc_is_newton nc_cauchy nc_norm nc_rtol nc_atol atan_P has_box nc_lower nc_upper] in E.
      match type of E with context [lin_sol _ _ _ _ _ ?z] => change z with (Y k) in E end. rewrite (YK k), LS in E. cbn [fst snd] in E.
      change (vsub (N:=XR) [Fin (side k)] [Fin (side (S k))]) with [Fin (side k - side (S k))] in E.
      rewrite atan_size in E; [|rewrite side_S; destruct (side_cases k) as [-> | ->]; lra|apply side_cases].
      rewrite E. unfold fn. change [Fin (side k)] with (map Fin [side k]). rewrite liftv_Fin. reflexivity. }
    assert (ST : forall k, nc_step (S_ k) = k).
    { intro k. exact (nc_step_k jac sq1_solve (atan_P cauchy) fn [Fin 10] (fun _ => [PInf]) tt k). }
    assert (BIG : forall d y : xr, (d = PInf \/ exists r, d = Fin r /\ (Rabs r = 20)%R) -> (exists r, y = Fin r /\ (Rabs r = 10)%R) ->
      nltb (n:=XR) (max_norm (N:=XR) (vdiv (N:=XR) (vabs (N:=XR) [d]) (vscale_tol (N:=XR) (Fin (1/1000)) (Fin (1/1000)) [y]))) (nofQ 1) = false).
    { intros d y Hd (r & -> & Hr). destruct (nltb _ _) eqn:E; auto. exfalso.
      apply (max_norm_lt XR_laws) in E; [|apply (dl_01 XR XR_div)]. rewrite Forall_nth in E.
      specialize (E 0 _ eq_refl). cbn [nabs nadd nmul ndiv nltb nofQ XR xabs xmul xadd] in E. rewrite Hr in E. destruct Hd as [-> |(q & -> & Hq)].
      - cbn in E. destruct (Rlt_dec _ 0) in E; cbn in E; discriminate E.
      - cbn [xabs] in E. rewrite Hq, xdiv_fin in E by lra. cbn [xabs] in E. rewrite xltb_fin, Q2R_1, Rabs_pos_eq in E by lra. lra. }
    assert (SR : forall k, says_result s fn [Fin 10] st0 tt k = successful /\ says_terminate s fn [Fin 10] st0 tt k = false).
    { intros [|k].
      - unfold says_result, says_terminate. change (st_at _ _ _ _ _ 0) with st0. change (asked s fn [Fin 10] st0 tt 0) with [Fin 10].
        cbn [s_terminate s newton_chord]. unfold nc_terminate. destruct cauchy; cbn [nc_cauchy atan_P].
        + split; [reflexivity|]. cbn [fst]. unfold cauchy_termination. cbv zeta. apply andb_false_iff. left.
          apply (BIG PInf (Fin 10)); [left; reflexivity|]. exists 10%R. split; [reflexivity|]. apply Rabs_pos_eq. lra.
        + split; reflexivity.
      - unfold says_result, says_terminate. change (st_at _ _ _ _ _ (S k)) with (S_ (S k)).
        assert (EA : asked s fn [Fin 10] st0 tt (S k) = [Fin (side k)]) by exact (YK k). rewrite EA, SK.
        cbn [s_terminate s newton_chord]. unfold nc_terminate. destruct cauchy; cbn [nc_cauchy atan_P nc_result results_eqb negb].
        + split; [reflexivity|]. cbn [fst orb]. unfold cauchy_termination. cbv zeta. apply andb_false_iff. left. cbn [nc_diff nc_rtol nc_atol nc_norm atan_P].
          apply (BIG (Fin (side k - side (S k))) (Fin (side k))).
          * right. eexists. split; [reflexivity|]. rewrite side_S. destruct (side_cases k) as [-> | ->]; [rewrite Rabs_pos_eq|rewrite Rabs_left]; lra.
          * eexists. split; [reflexivity|]. destruct (side_cases k) as [-> | ->]; [rewrite Rabs_pos_eq|rewrite Rabs_left]; lra.
        + cbn [nc_step nc_diffsize nc_diffsize_prev nc_resolution nc_kappa atan_P]. rewrite ST. destruct k as [|k]; [split; reflexivity|].
          rewrite SK. cbn [nc_diffsize Nat.leb andb].
          assert (R1 : ndiv (n:=XR) (Fin (20000/11)) (Fin (20000/11)) = Fin 1).
          { cbn [ndiv XR]. rewrite xdiv_fin by lra. f_equal. field. }
          rewrite R1. cbn [nmul nsub XR xmul xsub nofQ]. rewrite Q2R_1.
          assert (R2 : ndiv (n:=XR) (Fin (20000 / 11 * 1)) (xsub (Fin 1) (Fin 1)) = PInf).
          { cbn. destruct (Req_EM_T _ 0) as [_|N]; [|lra]. unfold xsgn_inf. repeat (destruct (Rlt_dec _ _)); try lra; reflexivity. }
          rewrite R2.
          assert (R3 : nc_small (N:=XR) (Fin (1/1000)) (Fin (20000/11)) = false).
          { unfold nc_small. cbn [nltb XR]. destruct (xltb _ _) eqn:E; auto. rewrite xltb_fin in E. lra. }
          assert (R4 : nc_diverged (N:=XR) (Fin 1) = false).
          { unfold nc_diverged. cbn [nltb nisfin XR nofQ]. destruct (xltb _ _) eqn:E; auto. rewrite xltb_fin in E. unfold Q2R in E. cbn in E. lra. }
          rewrite R3, R4. split; reflexivity. }
    split; [exact YK|].
    assert (AF : forall k, vallfinite (N:=XR) (asked s fn [Fin 10] st0 tt k) = true).
    { intro k. unfold asked. change (y_at _ _ _ _ _ (pred k)) with (Y (pred k)). rewrite YK. reflexivity. }
    intros m fuel Hm.
    assert (SI : stop_index (vallfinite (N:=XR)) s fn [Fin 10] st0 tt (Some m) m).
    { split; [right; reflexivity|]. split; [|intros m' [= <-]; lia]. intros j _ [H|[H|H]].
      - rewrite (proj2 (SR j)) in H. discriminate H.
      - apply H. apply SR.
      - rewrite AF in H. discriminate H. }
    pose proof (proj1 (iterative_solve_spec (vallfinite (N:=XR)) s fn [Fin 10] st0 tt (fun _ => [PInf]) (fun _ => tt) eq_refl eq_refl fuel (Some m) false) m Hm SI) as E.
    eexists. split; [exact E|].
    rewrite (proj1 (solution_at_fields (vallfinite (N:=XR)) s fn [Fin 10] st0 tt (Some m) m)). unfold final_result. rewrite AF, (proj1 (SR m)), (proj2 (SR m)). reflexivity.
Qed.

(** x^2 - 1 from 4/5 with the upper bound 101/100: the first Newton step, to 41/40, is clipped to the bound; the
    solve with atol = 1/1000 succeeds within 4 steps. *)
Definition capped_P : nc_params (N:=XR) :=
  mkNcParams (N:=XR) (Fin 0) (Fin (1/1000)) (max_norm (N:=XR)) (Fin (1/100)) true true (Some [NInf]) (Some [Fin (101/100)]) (Fin (1/1000)).
Example C113_local_convergence_ex_pf :
  let s := newton_chord (fun _ v => sq1_J (map toR v)) sq1_solve capped_P in
  forall st0, s_init s (liftv sq1) [Fin (4/5)] (fun _ => [PInf]) (fun _ => tt) = Ret st0 ->
  exists x : nat -> list R,
    (forall k, y_at s (liftv sq1) [Fin (4/5)] st0 tt k = map Fin (x k)) /\ x 1 = [(101/100)%R] /\
    (forall k, Rdist_inf (x (S k)) [1] <= 1 / 8 * Rdist_inf (x k) [1])%R /\
    exists k, 1 <= k <= 4 /\ forall fuel, k < fuel ->
      exists sol, iterative_solve vallfinite s (liftv sq1) fuel None true [Fin (4/5)] (fun _ => [PInf]) (fun _ => tt) = Ret sol /\
        result sol = successful /\ value sol = map Fin (x k).
Proof.
  intros s st0 Hi.
  assert (N1 : forall v, length v = 1 -> v = [nth 0 v 0%R]) by (intros [|a [|]] H; try discriminate; reflexivity).
  assert (RA : forall a, Rmax_norm [a] = Rabs a) by (intro a; cbn; apply Rmax_left, Rabs_pos).
  assert (BE : forall z, length z = 1 -> (Rdist_inf z [1%R] <= 1 / 5)%R -> exists a, z = [a] /\ Rdist_inf z [1%R] = Rabs (a - 1) /\ (-1/5 <= a - 1 <= 1/5)%R).
  { intros z Hz H. rewrite (N1 z Hz) in H |- *. exists (nth 0 z 0%R). split; [reflexivity|]. unfold Rdist_inf in *. cbn [Rsub_v] in *. rewrite RA in *. split; [reflexivity|].
    unfold Rabs in H. destruct (Rcase_abs _); lra. }
  assert (LE : forall a, (-1/5 <= a - 1 <= 1/5)%R ->
     Rmax_norm (Rsub_v (sq1 [a]) (mvec (sq1_J [a]) (Rsub_v [a] [1%R]))) = (Rabs (a - 1) * Rabs (a - 1))%R).
  { intros a Ha. unfold sq1, sq1_J, mvec. cbn [map nth Rsub_v Rdot]. rewrite RA. rewrite <- Rabs_mult. rewrite <- Rabs_Ropp. f_equal. ring. }
  destruct (C113_local_convergence_pf 1 sq1 sq1_J [1%R] [4/5]%R (5/8) (1/8) (1/5) (11/5) 0 (1/1000)
     (fun _ v => sq1_J (map toR v)) sq1_solve capped_P (fun _ => [PInf]) (fun _ => tt)) with (st0 := st0) as (x & H1 & H2 & H3 & H4); try reflexivity; try lra; try lia; try exact Hi.
  - unfold sq1, zerov. cbn. f_equal. ring.
  - split; intros l [= <-]; repeat constructor. apply (proj2 (xleb_fin_iff _ _)). lra.
  - split; [reflexivity|]. split; [|right; reflexivity]. unfold Rdist_inf. cbn [Rsub_v]. rewrite RA. rewrite Rabs_left; lra.
  - intros z _. split; [reflexivity|]. split; [split; repeat constructor|]. rewrite map_map. cbn [toR]. rewrite map_id. reflexivity.
  - intros z c (Hz & Hd & _) Hc. destruct (BE z Hz Hd) as (a & -> & _ & Ha). rewrite (N1 c Hc). exists [(nth 0 c 0 / (2 * a))%R].
    split; [reflexivity|]. split; [reflexivity|]. unfold sq1_J, mvec. cbn. f_equal. field. lra.
  - intros z v (Hz & Hd & _) Hv. destruct (BE z Hz Hd) as (a & -> & _ & Ha). rewrite (N1 v Hv). unfold sq1_J, mvec. cbn [capped_P nc_is_newton].
    cbn [map nth Rdot]; rewrite !RA, Rplus_0_r, Rabs_mult; pose proof (Rabs_pos (nth 0 v 0%R)).
    rewrite (Rabs_pos_eq (2 * a)) by lra. nra.
  - intros z (Hz & Hd & _). destruct (BE z Hz Hd) as (a & -> & -> & Ha). cbn [capped_P nc_is_newton]. rewrite (LE a Ha).
    pose proof (Rabs_pos (a - 1)). assert (Rabs (a - 1) <= 1/5)%R by (unfold Rabs; destruct (Rcase_abs _); lra). nra.
  - intros z (Hz & Hd & _). destruct (BE z Hz Hd) as (a & -> & -> & Ha). unfold sq1. cbn [nth]. rewrite RA.
    replace (a * a - 1)%R with ((a + 1) * (a - 1))%R by ring. rewrite Rabs_mult, (Rabs_pos_eq (a + 1)) by lra. pose proof (Rabs_pos (a - 1)). nra.
  - exists x. split; [exact H1|]. split; [|split; [exact H2|]].
    + assert (E : map Fin (x 1) = [Fin (101/100)]).
      { rewrite <- H1. change (Ret (nc_st0 (fun _ v => sq1_J (map toR v)) capped_P (liftv sq1) [Fin (4/5)] (fun _ => [PInf])) = Ret st0) in Hi. injection Hi as <-.
        refine (eq_trans (nc_y_S (fun _ v => sq1_J (map toR v)) sq1_solve capped_P (liftv sq1) [Fin (4/5)] (fun _ => [PInf]) tt 0) _).
        change (y_at _ _ _ _ _ 0) with [Fin (4/5)]. unfold lin_sol. change [Fin (4/5)] with (map Fin [4/5]%R). rewrite liftv_Fin. cbn [fst snd capped_P nc_is_newton].
        change (nc_clip capped_P [Fin (4/5 - ((4/5 * (4/5) - 1) / (2 * (4/5))))] = [Fin (101/100)]).
        assert (M1 : forall v, nmax (N:=XR) (Fin v) NInf = Fin v) by (intro v; unfold nmax; rewrite fin_ok; reflexivity).
        assert (M2 : forall v, (101/100 < v)%R -> nmin (N:=XR) (Fin v) (Fin (101/100)) = Fin (101/100)).
        { intros v Hv. unfold nmin. rewrite !fin_ok. cbn [nltb XR]. rewrite (proj2 (xltb_fin _ _) Hv). reflexivity. }
        unfold nc_clip. cbn [capped_P nc_lower nc_upper vmap2]. rewrite M1, M2; [reflexivity|lra]. }
      destruct (x 1) as [|a [|]]; try discriminate E. cbn in E. injection E as ->. reflexivity.
    + destruct (H4 3) as (k & K1 & _ & _ & K2); [lra|lra|]. exists k. split; [exact K1|]. intros fuel Hf. apply (K2 fuel None true Hf). discriminate.
Qed.
