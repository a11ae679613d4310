(** Proofs about Newton and Chord. *)

From Coq Require Import String List Bool Arith Lia ZArith QArith Qreals Reals Lra Psatz.
From Verif Require Import Num NumFacts NumDiv Vec Results Iterate Spec_Iterate Iterate_proofs.
From Verif Require Import Spec_Vec VecFacts Spec_Lin LinFacts NewtonChord Spec_NewtonChord NumF64 NumF64_facts.
From Verif Require Import FixedPoint_proofs.
Import ListNotations.
Local Open Scope nat_scope.

Section Trace.
  Context {N : Num} {Aux M : Type}.
  Variable jac : (list N -> list N * Aux) -> list N -> M.
  Variable lsolve : M -> list N -> list N * results.
  Variable P : nc_params (N:=N).
  Variable fn : list N -> list N * Aux.
  Variables (y0 : list N) (fs : fillv -> list N) (aux0 : Aux).
  Definition nc_st0 : nc_state (N:=N) (M:=M) :=
    mkNc (if nc_cauchy P then Some (fs fillinf) else None)
         (if nc_is_newton P then None else Some (jac fn y0))
         (vfull (List.length y0) ninf) ninf (nofQ 1) successful 0.
  Let s := newton_chord jac lsolve P.
  Let Y := y_at s fn y0 nc_st0 aux0.
  Let S_ := st_at s fn y0 nc_st0 aux0.
  Let sol_at k := lin_sol jac lsolve (nc_is_newton P) fn y0 (Y k).

  Lemma nc_init_eq : forall auxs, s_init s fn y0 fs auxs = Ret nc_st0.
  Proof. reflexivity. Qed.

  Lemma nc_lin_inv : forall k,
    nc_linear_state (S_ k) = if nc_is_newton P then None else Some (jac fn y0).
  Proof.
    induction k as [|k IH]; [reflexivity|].
    unfold S_, st_at in *. cbn [trace s_step s newton_chord]. fold s.
    unfold nc_step_fn. destruct (fn _) as [fx a]. destruct (nc_solve _ _ _ _ _ _ _).
    cbn [fst snd nc_linear_state]. exact IH.
  Qed.

  Lemma nc_trace_S : forall k,
    let y := Y k in
    let d := fst (sol_at k) in
    let y' := nc_clip P (vsub y d) in
    let diff := if has_box P then vsub y y' else d in
    trace s fn y0 nc_st0 aux0 (S k) =
    (y', mkNc (if nc_cauchy P then Some (fst (fn y)) else None)
              (if nc_is_newton P then None else Some (jac fn y0))
              diff (rel_size (nc_norm P) (nc_rtol P) (nc_atol P) diff y')
              (nc_diffsize (S_ k)) (snd (sol_at k)) (S (nc_step (S_ k))),
     snd (fn y)).
  Proof.
    intros k y d y' diff. cbn [trace s_step s newton_chord]. fold s.
    fold (y_at s fn y0 nc_st0 aux0 k). fold (st_at s fn y0 nc_st0 aux0 k).
    change (y_at s fn y0 nc_st0 aux0 k) with y. change (st_at s fn y0 nc_st0 aux0 k) with (S_ k).
    pose proof (nc_lin_inv k) as HL.
    unfold nc_step_fn.
    destruct (fn y) as [fx a] eqn:Ef.
    assert (E : nc_solve jac lsolve P fn y fx (S_ k) = sol_at k).
    { unfold nc_solve, sol_at, lin_sol. fold y. rewrite HL, Ef. destruct (nc_is_newton P); reflexivity. }
    rewrite E. rewrite HL. unfold diff, y', d. destruct (sol_at k) as [dd r]. reflexivity.
  Qed.

  Lemma nc_y_S : forall k, Y (S k) = nc_clip P (vsub (Y k) (fst (sol_at k))).
  Proof. intro k. unfold Y at 1, y_at. rewrite nc_trace_S. reflexivity. Qed.
  Lemma nc_st_S : forall k,
    S_ (S k) =
    let diff := if has_box P then vsub (Y k) (Y (S k)) else fst (sol_at k) in
    mkNc (if nc_cauchy P then Some (fst (fn (Y k))) else None)
              (if nc_is_newton P then None else Some (jac fn y0))
              diff (rel_size (nc_norm P) (nc_rtol P) (nc_atol P) diff (Y (S k)))
              (nc_diffsize (S_ k)) (snd (sol_at k)) (S (nc_step (S_ k))).
  Proof. intro k. unfold S_ at 1, st_at. rewrite nc_trace_S. cbn [fst snd]. rewrite nc_y_S. reflexivity. Qed.
  Lemma nc_aux_S : forall k, aux_at s fn y0 nc_st0 aux0 (S k) = snd (fn (Y k)).
  Proof. intro k. unfold aux_at. rewrite nc_trace_S. reflexivity. Qed.
  Lemma nc_step_k : forall k, nc_step (S_ k) = k.
  Proof. induction k as [|k IH]; [reflexivity|]. rewrite nc_st_S. cbn [nc_step]. congruence. Qed.

End Trace.

(** ** C21 *)

(** With both bounds: every component of every iterate after the first step
    is NaN or inside the box, whatever the function, Jacobian and linear solver
    return, in every arithmetic. *)
Lemma C21_iterates_in_box_pf :
  forall (N : Num) (L : OrdLaws N) (Aux M : Type) jac lsolve (P : nc_params (N:=N))
         (fn : list N -> list N * Aux) y0 fs aux0 lo up,
    nc_lower P = Some lo -> nc_upper P = Some up ->
    (forall i l u, nth_error lo i = Some l -> nth_error up i = Some u -> nleb l u = true) ->
    let s := newton_chord (M:=M) jac lsolve P in
    forall st0, s_init s fn y0 fs (fun _ => aux0) = Ret st0 ->
    forall k i z, nth_error (y_at s fn y0 st0 aux0 (S k)) i = Some z ->
      exists l u, nth_error lo i = Some l /\ nth_error up i = Some u /\
        (nisnan z = true \/ nleb l z = true /\ nleb z u = true).
Proof.
  intros N L Aux M jac lsolve P fn y0 fs aux0 lo up Hl Hu Hb s st0 Hi k i z Hz.
  change (Ret (nc_st0 jac P fn y0 fs) = Ret st0) in Hi. injection Hi as <-.
  unfold s in Hz. rewrite nc_y_S in Hz. unfold nc_clip in Hz. rewrite Hl, Hu in Hz.
  apply nth_vmap2 in Hz. destruct Hz as (a & u & Ha & Eu & ->).
  apply nth_vmap2 in Ha. destruct Ha as (x & l & Hx & El & ->).
  exists l, u. split; auto. split; auto. fold (nclip x l u).
  destruct (nisnan x) eqn:Ex.
  - left. unfold nclip, nmax. rewrite Ex. unfold nmin. rewrite Ex. exact Ex.
  - right. apply (clip_in L); [apply (nisnan_false (N:=N)); auto|]. eapply Hb; eauto.
Qed.

(** With only one of the bounds. *)
Lemma C21_one_sided_pf :
  forall (N : Num) (L : OrdLaws N) (Aux M : Type) jac lsolve (P : nc_params (N:=N))
         (fn : list N -> list N * Aux) y0 fs aux0,
    let s := newton_chord (M:=M) jac lsolve P in
    forall st0, s_init s fn y0 fs (fun _ => aux0) = Ret st0 ->
    forall k i z, nth_error (y_at s fn y0 st0 aux0 (S k)) i = Some z -> nisnan z = false ->
      (forall lo, nc_lower P = Some lo -> nc_upper P = None ->
         exists l, nth_error lo i = Some l /\ nleb l z = true) /\
      (forall up, nc_lower P = None -> nc_upper P = Some up ->
         exists u, nth_error up i = Some u /\ nleb z u = true).
Proof.
  intros N L Aux M jac lsolve P fn y0 fs aux0 s st0 Hi k i z Hz Hn.
  change (Ret (nc_st0 jac P fn y0 fs) = Ret st0) in Hi. injection Hi as <-.
  unfold s in Hz. rewrite nc_y_S in Hz. unfold nc_clip in Hz.
  split.
  - intros lo Hl Hu. rewrite Hl, Hu in Hz.
    apply nth_vmap2 in Hz. destruct Hz as (x & l & Hx & El & ->). exists l. split; auto.
    unfold nmax in *. destruct (nisnan x) eqn:Ex; [congruence|].
    destruct (nisnan l) eqn:Ell; [congruence|].
    apply nisnan_false in Ex. apply nisnan_false in Ell.
    destruct (nltb x l) eqn:Exl.
    + apply (le_refl L); auto.
    + apply (not_lt_le L); auto.
  - intros up Hl Hu. rewrite Hl, Hu in Hz.
    apply nth_vmap2 in Hz. destruct Hz as (x & l & Hx & El & ->). exists l. split; auto.
    unfold nmin in *. destruct (nisnan x) eqn:Ex; [congruence|].
    destruct (nisnan l) eqn:Ell; [congruence|].
    apply nisnan_false in Ex. apply nisnan_false in Ell.
    destruct (nltb l x) eqn:Exl.
    + apply (le_refl L); auto.
    + apply (not_lt_le L); auto.
Qed.

(** The returned value: if at least one step was taken it is in the box,
    except for NaN components. *)
Lemma C21_value_in_box_pf :
  forall (N : Num) (L : OrdLaws N) (Aux M : Type) jac lsolve (P : nc_params (N:=N)) allfinite
         (fn : list N -> list N * Aux) y0 fs auxs lo up fuel ms throw sol,
    nc_lower P = Some lo -> nc_upper P = Some up ->
    (forall i l u, nth_error lo i = Some l -> nth_error up i = Some u -> nleb l u = true) ->
    iterative_solve allfinite (newton_chord (M:=M) jac lsolve P) fn fuel ms throw y0 fs auxs = Ret sol ->
    stats_get (sol_stats sol) "num_steps" <> Some (Some 0%Z) ->
    forall i z, nth_error (value sol) i = Some z ->
      exists l u, nth_error lo i = Some l /\ nth_error up i = Some u /\
        (nisnan z = true \/ nleb l z = true /\ nleb z u = true).
Proof.
  intros N L Aux M jac lsolve P allfinite fn y0 fs auxs lo up fuel ms throw sol Hl Hu Hb H Hn i z Hz.
  set (s := newton_chord (M:=M) jac lsolve P) in *.
  destruct (iterative_solve_inv allfinite s fn y0 (nc_st0 jac P fn y0 fs) _ fs auxs eq_refl
              (nc_init_eq jac lsolve P fn y0 fs auxs) fuel ms throw sol H)
    as (k & Hk & HS & -> & _).
  destruct k as [|k].
  { exfalso. apply Hn. reflexivity. }
  cbn [value solution_at s_post s newton_chord] in Hz.
  eapply (C21_iterates_in_box_pf N L Aux M jac lsolve P fn y0 fs (auxs fill0) lo up Hl Hu Hb); eauto.
  apply nc_init_eq.
Qed.

(** Success excludes NaN: the computed step is y - value, and a NaN there
    would make the convergence test fail or be reported as divergence. *)
Lemma max_norm_nan : forall (N : Num) (L : OrdLaws N) (Z : NanLaws N) (v : list N) i x,
  nth_error v i = Some x -> nisnan x = true -> nisnan (max_norm v) = true.
Proof.
  intros N L Z v. unfold max_norm, vabs. induction v as [|a v IH]; intros [|i] x H Hx; try discriminate.
  - injection H as ->. cbn [map fold_right]. unfold nmax at 1.
    assert (E : nisnan (nabs x) = true) by (rewrite (nl_abs N Z); auto). rewrite E. exact E.
  - cbn [map fold_right]. unfold nmax at 1.
    destruct (nisnan (nabs a)) eqn:E; auto. rewrite (IH i x H Hx). exact (IH i x H Hx).
Qed.

Lemma C21_success_in_box_pf :
  forall (N : Num) (L : OrdLaws N) (Z : NanLaws N) (Aux M : Type) jac lsolve (P : nc_params (N:=N)) allfinite
         (fn : list N -> list N * Aux) y0 fs auxs lo up fuel ms throw sol,
    nc_lower P = Some lo -> nc_upper P = Some up -> nc_norm P = max_norm ->
    (forall i l u, nth_error lo i = Some l -> nth_error up i = Some u -> nleb l u = true) ->
    iterative_solve allfinite (newton_chord (M:=M) jac lsolve P) fn fuel ms throw y0 fs auxs = Ret sol ->
    result sol = successful ->
    stats_get (sol_stats sol) "num_steps" <> Some (Some 0%Z) ->
    forall i z, nth_error (value sol) i = Some z ->
      exists l u, nth_error lo i = Some l /\ nth_error up i = Some u /\
        nleb l z = true /\ nleb z u = true.
Proof.
  intros N L Z Aux M jac lsolve P allfinite fn y0 fs auxs lo up fuel ms throw sol Hl Hu Hnm Hb H HR Hn i z Hz.
  destruct (C21_value_in_box_pf N L Aux M jac lsolve P allfinite fn y0 fs auxs lo up fuel ms throw sol
              Hl Hu Hb H Hn i z Hz) as (l & u & El & Eu & [Hnan|Hin]); [exfalso|eauto 6].
  set (s := newton_chord (M:=M) jac lsolve P) in *.
  destruct (success_inv _ _ _ allfinite s fn y0 (nc_st0 jac P fn y0 fs) fs auxs fuel ms throw sol
              (nc_init_eq jac lsolve P fn y0 fs auxs) H HR)
    as (k & _ & HS & -> & HF & HT & HRR).
  destruct k as [|k]; [apply Hn; reflexivity|].
  cbn [value solution_at s_post s newton_chord] in Hz. fold s in Hz.
  unfold says_terminate in HT. unfold says_result in HRR.
  unfold s in Hz, HT, HRR. cbn [s_terminate newton_chord] in HT, HRR.
  unfold asked in HT, HRR. cbn [pred] in HT, HRR.
  pose proof (nc_st_S jac lsolve P fn y0 fs (auxs fill0) k) as HST.
  set (Yk := y_at (newton_chord jac lsolve P) fn y0 (nc_st0 jac P fn y0 fs) (auxs fill0)) in *.
  set (St := st_at (newton_chord jac lsolve P) fn y0 (nc_st0 jac P fn y0 fs) (auxs fill0)) in *.
  assert (HY : exists yi, nth_error (Yk k) i = Some yi).
  { pose proof Hz as Hz'. unfold Yk in Hz'. rewrite nc_y_S in Hz'. unfold nc_clip in Hz'. rewrite Hl, Hu in Hz'.
    apply nth_vmap2 in Hz'. destruct Hz' as (a & b1 & Ha & _ & _).
    apply nth_vmap2 in Ha. destruct Ha as (x & b2 & Ha & _ & _).
    unfold vsub in Ha. apply nth_vmap2 in Ha. destruct Ha as (yi & b3 & Ha & _ & _). eauto. }
  destruct HY as (yi & Hyi).
  assert (HB : has_box P = true) by (unfold has_box; rewrite Hl; reflexivity).
  rewrite HB in HST. cbv zeta in HST.
  assert (Hd : nth_error (vsub (Yk k) (Yk (S k))) i = Some (nsub yi z)).
  { unfold vsub. apply nth_vmap2. eauto. }
  assert (Hdn : nisnan (nsub yi z) = true) by (apply (nl_sub N Z); auto).
  unfold nc_terminate in HT, HRR. rewrite HST in HT, HRR. 
  cbn [nc_f nc_diff nc_diffsize nc_diffsize_prev nc_result nc_step] in HT, HRR.
  destruct (results_eqb (snd (lin_sol jac lsolve (nc_is_newton P) fn y0 (Yk k))) successful) eqn:ER;
    cbn [negb orb] in HT, HRR.
  2: { destruct (nc_cauchy P); cbn in HRR; rewrite HRR in ER; discriminate. }
  destruct (nc_cauchy P) eqn:EC; cbn [fst snd] in HT, HRR.
  - unfold cauchy_termination in HT. apply andb_true_iff in HT. destruct HT as [HT _].
    rewrite Hnm in HT. apply (ol_lt_nan_l N L) in HT.
    assert (HM : nisnan (max_norm (vdiv (vabs (vsub (Yk k) (Yk (S k)))) (vscale_tol (nc_rtol P) (nc_atol P) (Yk k)))) = true).
    { apply (max_norm_nan N L Z) with (i := i) (x := ndiv (nabs (nsub yi z)) (nadd (nc_atol P) (nmul (nc_rtol P) (nabs yi)))).
      - unfold vdiv. apply nth_vmap2. exists (nabs (nsub yi z)), (nadd (nc_atol P) (nmul (nc_rtol P) (nabs yi))).
        split; [unfold vabs; apply nth_map; eauto|]. split; auto. unfold vscale_tol. apply nth_map. eauto.
      - apply (nl_div N Z). rewrite (nl_abs N Z). exact Hdn. }
    unfold nisnan in HM. rewrite HT in HM. discriminate.
  - assert (HM : nisnan (rel_size (nc_norm P) (nc_rtol P) (nc_atol P) (vsub (Yk k) (Yk (S k))) (Yk (S k))) = true).
    { rewrite Hnm. unfold rel_size. 
      apply (max_norm_nan N L Z) with (i := i) (x := ndiv (nsub yi z) (nadd (nc_atol P) (nmul (nc_rtol P) (nabs z)))).
      - apply nth_vmap2. exists (nsub yi z), (nadd (nc_atol P) (nmul (nc_rtol P) (nabs z))).
        split; auto. split; auto. apply nth_map. eauto.
      - apply (nl_div N Z). exact Hdn. }
    set (ds := rel_size _ _ _ _ _) in *.
    assert (E1 : nc_small (nc_resolution P) ds = false).
    { unfold nc_small. destruct (nltb ds (nc_resolution P)) eqn:E; auto. apply (ol_lt_nan_l N L) in E.
      unfold nisnan in HM. rewrite E in HM. discriminate. }
    assert (E2 : nc_diverged (ndiv ds (nc_diffsize (St k))) = true).
    { unfold nc_diverged. rewrite (nl_fin N Z); auto. apply (nl_div N Z); auto. }
    rewrite E1, E2 in HT, HRR. cbn [orb negb andb] in HT, HRR. rewrite andb_true_r in HT, HRR.
    unfold St in *. rewrite nc_step_k in *.
    destruct k as [|k]; [discriminate|]. cbn in HRR. discriminate.
Qed.

(** ** Exact arithmetic: finiteness and certificates *)

Lemma xltb_PInf : forall b, xltb PInf b = false. Proof. intros [| | |]; reflexivity. Qed.
Lemma xltb_NaN : forall b, xltb NaN b = false. Proof. intros [| | |]; reflexivity. Qed.

(** If y is finite but the new point y' = y - d (or the clipped one with
    d := y - y') is not, the relative step is NaN. *)
Lemma nonfin_ratio : forall (rtol atol : R) (d z : xr),
  (0 <= rtol)%R -> xisfin z = false -> xisfin d = false ->
  xdiv d (xadd (Fin atol) (xmul (Fin rtol) (xabs z))) = NaN.
Proof.
  intros rtol atol d z Hr Hz Hd.
  assert (HZ : xadd (Fin atol) (xmul (Fin rtol) (xabs z)) = PInf \/
               xadd (Fin atol) (xmul (Fin rtol) (xabs z)) = NaN).
  { destruct z as [z| | |]; try discriminate; cbn [xabs xmul]; auto;
      destruct (xsgn_inf_cases rtol) as [[? ->]|[[? ->]|[? ->]]]; cbn; auto; lra. }
  destruct HZ as [-> | ->]; destruct d; try discriminate; reflexivity.
Qed.

Lemma xsub_nonfin : forall (y : R) d, xisfin (xsub (Fin y) d) = xisfin d.
Proof. intros y [d| | |]; reflexivity. Qed.

Section Success.
  Variables (Aux M : Type) (jac : (list xr -> list xr * Aux) -> list xr -> M)
            (lsolve : M -> list xr -> list xr * results) (P : nc_params (N:=XR)).
  Variables (fn : list xr -> list xr * Aux) (y0 : list xr) (fs : fillv -> list xr) (auxs : fillv -> Aux).
  Variables (rtol atol : R).
  Hypothesis Hra : nc_rtol P = Fin rtol.
  Hypothesis Haa : nc_atol P = Fin atol.
  Hypothesis Hr0 : (0 <= rtol)%R.
  Hypothesis Hnm : nc_norm P = max_norm (N:=XR).
  Let s := newton_chord (M:=M) jac lsolve P.
  Let st0 := nc_st0 jac P fn y0 fs.
  Let Y := y_at s fn y0 st0 (auxs fill0).

  (** Entry i of the recorded step of step k, with the point it leads to. *)
  Lemma step_entry : forall k i z, nth_error (Y (S k)) i = Some z ->
    exists yi d, nth_error (Y k) i = Some yi /\
      nth_error (if has_box P then vsub (Y k) (Y (S k)) else fst (lin_sol jac lsolve (nc_is_newton P) fn y0 (Y k))) i = Some d /\
      (has_box P = true -> d = xsub yi z) /\ (has_box P = false -> z = xsub yi d).
  Proof.
    intros k i z Hz. pose proof Hz as Hz'. unfold Y, st0, s in Hz'.
    rewrite nc_y_S in Hz'.
    fold s st0 in Hz'. fold Y in Hz'. unfold nc_clip in Hz'.
    destruct (has_box P) eqn:HB.
    - assert (HY : exists yi, nth_error (Y k) i = Some yi).
      { destruct (nc_lower P) as [lo|], (nc_upper P) as [up|].
        - apply nth_vmap2 in Hz'. destruct Hz' as (a & b1 & Ha & _ & _).
          apply nth_vmap2 in Ha. destruct Ha as (x & b2 & Ha & _ & _).
          unfold vsub in Ha. apply nth_vmap2 in Ha. destruct Ha as (yi & b3 & Ha & _ & _). eauto.
        - apply nth_vmap2 in Hz'. destruct Hz' as (a & b1 & Ha & _ & _).
          unfold vsub in Ha. apply nth_vmap2 in Ha. destruct Ha as (yi & b3 & Ha & _ & _). eauto.
        - apply nth_vmap2 in Hz'. destruct Hz' as (a & b1 & Ha & _ & _).
          unfold vsub in Ha. apply nth_vmap2 in Ha. destruct Ha as (yi & b3 & Ha & _ & _). eauto.
        - unfold vsub in Hz'. apply nth_vmap2 in Hz'. destruct Hz' as (yi & b3 & Ha & _ & _). eauto. }
      destruct HY as (yi & Hyi). exists yi, (xsub yi z). split; auto. split.
      { unfold vsub. apply nth_vmap2. exists yi, z. auto. }
      split; auto. discriminate.
    - unfold has_box in HB. destruct (nc_lower P), (nc_upper P); try discriminate.
      unfold vsub in Hz'. apply nth_vmap2 in Hz'. destruct Hz' as (yi & d & E1 & E2 & ->).
      exists yi, d. split; auto. split; auto. split; [discriminate|auto].
  Qed.

  Lemma nonfin_step : forall k, vallfinite (N:=XR) (Y k) = true -> vallfinite (N:=XR) (Y (S k)) = false ->
    exists i z d, nth_error (Y (S k)) i = Some z /\ xisfin z = false /\ xisfin d = false /\
      (exists yi, nth_error (Y k) i = Some (Fin yi)) /\
      nth_error (if has_box P then vsub (Y k) (Y (S k)) else fst (lin_sol jac lsolve (nc_is_newton P) fn y0 (Y k))) i = Some d.
  Proof.
    intros k H1 H2.
    assert (HX : exists i z, nth_error (Y (S k)) i = Some z /\ xisfin z = false).
    { clear H1. revert H2. generalize (Y (S k)). induction l as [|a l IH]; cbn; intro H; [discriminate|].
      destruct (xisfin a) eqn:Ea.
      - cbn [andb] in H. destruct (IH H) as (i & z & E1 & E2). exists (S i), z. auto.
      - exists 0, a. auto. }
    destruct HX as (i & z & Hz & Hzf). exists i, z.
    destruct (step_entry k i z Hz) as (yi & d & E1 & E2 & E3 & E4). exists d.
    destruct (allfin_inv _ H1) as (w & Ew).
    assert (E1' : exists r, yi = Fin r).
    { rewrite Ew in E1. apply nth_map in E1. destruct E1 as (r & _ & ->). eauto. }
    destruct E1' as (r & ->). split; auto. split; auto.
    split; [|split; [eauto|exact E2]].
    destruct (has_box P).
    - rewrite (E3 eq_refl), xsub_nonfin. auto.
    - rewrite (E4 eq_refl), xsub_nonfin in Hzf. auto.
  Qed.

  Lemma rel_size_nonfin : forall k, vallfinite (N:=XR) (Y k) = true -> vallfinite (N:=XR) (Y (S k)) = false ->
    rel_size (N:=XR) (nc_norm P) (nc_rtol P) (nc_atol P)
      (if has_box P then vsub (Y k) (Y (S k)) else fst (lin_sol jac lsolve (nc_is_newton P) fn y0 (Y k)))
      (Y (S k)) = NaN.
  Proof.
    intros k H1 H2. destruct (nonfin_step k H1 H2) as (i & z & d & E1 & E2 & E3 & _ & E4).
    apply XR_nan_iff. rewrite Hnm, Hra, Haa. unfold rel_size.
    apply (max_norm_nan XR XR_laws XR_nan _ i NaN); [|reflexivity].
    apply nth_vmap2. exists d, (xadd (Fin atol) (xmul (Fin rtol) (xabs z))).
    split; auto. split; [apply nth_map; exists z; auto|]. symmetry. apply nonfin_ratio; auto.
  Qed.

  Lemma abs_div_lt1_fin : forall d sc, nltb (n:=XR) (nabs (n:=XR) (ndiv (n:=XR) (xabs d) (Fin sc))) (nofQ 1) = true ->
    exists r, d = Fin r /\ (Rabs r < Rabs sc)%R.
  Proof.
    intros d sc H. apply (dl_lt1 XR XR_div) in H.
    destruct d as [r| | |]; cbn in H; try discriminate.
    exists r. split; auto. rewrite Rabs_Rabsolu in H. rb. exact H.
  Qed.

  Lemma success_last : forall fuel ms throw sol,
    iterative_solve vallfinite s fn fuel ms throw y0 fs auxs = Ret sol ->
    result sol = successful ->
    exists k, k < fuel /\ value sol = Y k /\
      vallfinite (N:=XR) (asked s fn y0 st0 (auxs fill0) k) = true /\
      (nc_cauchy P = true ->
       cauchy_termination (N:=XR) (nc_rtol P) (nc_atol P) (nc_norm P)
         (asked s fn y0 st0 (auxs fill0) k)
         (nc_diff (st_at s fn y0 st0 (auxs fill0) k)) 
         (vfull (List.length (match nc_f (st_at s fn y0 st0 (auxs fill0) k) with Some f => f | None => [] end)) (nofQ 0))
         (match nc_f (st_at s fn y0 st0 (auxs fill0) k) with Some f => f | None => [] end) = true) /\
      (nc_cauchy P = false -> 2 <= k /\
        let ds := nc_diffsize (st_at s fn y0 st0 (auxs fill0) k) in
        let dp := nc_diffsize_prev (st_at s fn y0 st0 (auxs fill0) k) in
        nc_small (nc_resolution P) ds = true \/ nc_diverged (ndiv ds dp) = false) /\
      nc_result (st_at s fn y0 st0 (auxs fill0) k) = successful.
  Proof.
    intros fuel ms throw sol H HR.
    destruct (success_inv _ _ _ vallfinite s fn y0 st0 fs auxs fuel ms throw sol
                (nc_init_eq jac lsolve P fn y0 fs auxs) H HR)
      as (k & Hk & HS & -> & HF & HT & HRR).
    exists k. split; auto. split; [reflexivity|]. split; auto.
    unfold says_terminate in HT. unfold says_result in HRR.
    cbn [s_terminate s newton_chord] in HT, HRR. fold s in HT, HRR.
    pose proof (nc_step_k jac lsolve P fn y0 fs (auxs fill0) k) as HK. fold s in HK. fold st0 in HK.
    set (S_ := st_at s fn y0 st0 (auxs fill0) k) in *.
    unfold nc_terminate in HT, HRR.
    destruct (results_eqb (nc_result S_) successful) eqn:ER; cbn [negb orb] in HT, HRR.
    2: { exfalso. destruct (nc_cauchy P); cbn in HRR; rewrite HRR in ER; discriminate. }
    apply results_eqb_eq in ER.
    destruct (nc_cauchy P); cbn [fst snd] in HT, HRR.
    - split; [intros _; exact HT|]. split; [discriminate|exact ER].
    - split; [discriminate|]. split; [|exact ER]. intros _. rewrite HK in HT, HRR.
      apply andb_true_iff in HT. destruct HT as [H2 HT]. split; [apply Nat.leb_le; auto|].
      cbv zeta. destruct (nc_small (nc_resolution P) (nc_diffsize S_)) eqn:E1; auto.
      right. rewrite H2 in HRR. cbn [negb andb] in HRR.
      destruct (nc_diverged _); [discriminate|reflexivity].
  Qed.
End Success.

(** A successful value of Newton or Chord is finite (exact arithmetic), in
    both termination modes, with or without a box. *)
Lemma C04_newton_success_finite_pf :
  forall (Aux M : Type) jac lsolve (P : nc_params (N:=XR)) (rtol atol : R)
         (fn : list xr -> list xr * Aux) y0 fs auxs fuel ms throw sol,
    nc_rtol P = Fin rtol -> nc_atol P = Fin atol -> (0 <= rtol)%R -> nc_norm P = max_norm (N:=XR) ->
    iterative_solve vallfinite (newton_chord (M:=M) jac lsolve P) fn fuel ms throw y0 fs auxs = Ret sol ->
    result sol = successful ->
    exists v : list R, value sol = map Fin v.
Proof.
  intros Aux M jac lsolve P rtol atol fn y0 fs auxs fuel ms throw sol Hra Haa Hr0 Hnm H HR.
  destruct (success_last Aux M jac lsolve P fn y0 fs auxs fuel ms throw sol H HR)
    as (k & Hk & -> & HF & HC & HN & _).
  destruct k as [|k].
  { apply allfin_inv. exact HF. }
  set (s := newton_chord (M:=M) jac lsolve P) in *.
  set (st0 := nc_st0 jac P fn y0 fs) in *.
  change (asked s fn y0 st0 (auxs fill0) (S k)) with (y_at s fn y0 st0 (auxs fill0) k) in *.
  destruct (vallfinite (N:=XR) (y_at s fn y0 st0 (auxs fill0) (S k))) eqn:EF; [apply allfin_inv; exact EF|].
  exfalso. pose proof (nc_st_S jac lsolve P fn y0 fs (auxs fill0) k) as HST. fold s in HST. fold st0 in HST.
  cbv zeta in HST.
  destruct (nc_cauchy P) eqn:EC.
  - specialize (HC eq_refl).
    destruct (nonfin_step Aux M jac lsolve P fn y0 fs auxs k HF EF)
      as (i & z & d & E1 & E2 & E3 & (yi & E5) & E4).
    fold s in E1, E4, E5. fold st0 in E1, E4, E5.
    unfold cauchy_termination in HC. apply andb_true_iff in HC. destruct HC as [HC _].
    rewrite HST, Hra, Haa, Hnm in HC. cbn [nc_diff] in HC.
    apply (max_norm_lt XR_laws) in HC; [|apply (dl_01 XR XR_div)]. rewrite Forall_nth in HC.
    destruct (abs_div_lt1_fin d (atol + rtol * Rabs yi)) as (r & -> & _); [|discriminate].
    apply (HC i). unfold vdiv. apply nth_vmap2. exists (xabs d), (Fin (atol + rtol * Rabs yi)).
    split; [unfold vabs; apply nth_map; exists d; split; [exact E4|reflexivity]|]. split; [|reflexivity].
    unfold vscale_tol. apply nth_map. exists (Fin yi). split; [exact E5|reflexivity].
  - destruct (HN eq_refl) as (H2 & HN'). rewrite HST in HN'. cbn [nc_diffsize nc_diffsize_prev] in HN'.
    pose proof (rel_size_nonfin Aux M jac lsolve P fn y0 fs auxs rtol atol Hra Haa Hr0 Hnm k HF EF) as HQ.
    fold s in HQ. fold st0 in HQ. rewrite HQ in HN'.
    destruct HN' as [HN'|HN'].
    + unfold nc_small in HN'. cbn [nltb XR] in HN'. rewrite xltb_NaN in HN'. discriminate.
    + unfold nc_diverged in HN'. rewrite (nl_fin XR XR_nan) in HN'; [discriminate|].
      apply (nl_div XR XR_nan). reflexivity.
Qed.

(** Success certificate with Cauchy termination, exact arithmetic. *)
Lemma C22_certificate_pf :
  forall (Aux M : Type) jac lsolve (P : nc_params (N:=XR)) (rtol atol : R)
         (fn : list xr -> list xr * Aux) y0 fs auxs fuel ms throw sol,
    nc_rtol P = Fin rtol -> nc_atol P = Fin atol -> (0 <= rtol)%R -> (0 < atol)%R ->
    nc_norm P = max_norm (N:=XR) -> nc_cauchy P = true -> y0 <> [] ->
    let s := newton_chord (M:=M) jac lsolve P in
    iterative_solve vallfinite s fn fuel ms throw y0 fs auxs = Ret sol ->
    result sol = successful ->
    exists (y v : list R),
      (exists k st0, s_init s fn y0 fs auxs = Ret st0 /\
         y_at s fn y0 st0 (auxs fill0) k = map Fin y /\ y_at s fn y0 st0 (auxs fill0) (S k) = map Fin v) /\
      value sol = map Fin v /\
      aux sol = snd (fn (map Fin y)) /\
      snd (lin_sol jac lsolve (nc_is_newton P) fn y0 (map Fin y)) = successful /\
      (forall i fi, nth_error (fst (fn (map Fin y))) i = Some fi -> exists r, fi = Fin r /\ (Rabs r < atol)%R) /\
      (forall i vi, nth_error v i = Some vi ->
         exists yi, nth_error y i = Some yi /\ (Rabs (vi - yi) < atol + rtol * Rabs yi)%R).
Proof.
  intros Aux M jac lsolve P rtol atol fn y0 fs auxs fuel ms throw sol Hra Haa Hr0 Ha0 Hnm EC Hy0 s H HR.
  pose proof (C04_newton_success_finite_pf Aux M jac lsolve P rtol atol fn y0 fs auxs fuel ms throw sol
                Hra Haa Hr0 Hnm H HR) as (v & Hv).
  assert (HAX : exists k, aux sol = aux_at s fn y0 (nc_st0 jac P fn y0 fs) (auxs fill0) k /\
                 value sol = y_at s fn y0 (nc_st0 jac P fn y0 fs) (auxs fill0) k /\
                 vallfinite (N:=XR) (asked s fn y0 (nc_st0 jac P fn y0 fs) (auxs fill0) k) = true /\
                 fst (nc_terminate P (asked s fn y0 (nc_st0 jac P fn y0 fs) (auxs fill0) k)
                        (st_at s fn y0 (nc_st0 jac P fn y0 fs) (auxs fill0) k)) = true /\
                 snd (nc_terminate P (asked s fn y0 (nc_st0 jac P fn y0 fs) (auxs fill0) k)
                        (st_at s fn y0 (nc_st0 jac P fn y0 fs) (auxs fill0) k)) = successful).
  { destruct (success_inv _ _ _ vallfinite s fn y0 (nc_st0 jac P fn y0 fs) fs auxs fuel ms throw sol
                (nc_init_eq jac lsolve P fn y0 fs auxs) H HR)
      as (k & Hk & HS & -> & HF & HT & HRR). exists k. split; [reflexivity|]. split; [reflexivity|]. auto. }
  destruct HAX as (k & EA & EV & HF & HT & HRR).
  unfold nc_terminate in HT, HRR. rewrite EC in HT, HRR. 
  set (st0 := nc_st0 jac P fn y0 fs) in *. 
  destruct (results_eqb (nc_result (st_at s fn y0 st0 (auxs fill0) k)) successful) eqn:ER;
    cbn [negb orb fst snd] in HT, HRR.
  2: { rewrite HRR in ER. discriminate. }
  apply results_eqb_eq in ER. clear HRR.
  unfold cauchy_termination in HT. apply andb_true_iff in HT. destruct HT as [HT1 HT2].
  rewrite Hra, Haa, Hnm in HT1, HT2.
  apply (max_norm_lt XR_laws) in HT1; [|apply (dl_01 XR XR_div)]. rewrite Forall_nth in HT1.
  apply (max_norm_lt XR_laws) in HT2; [|apply (dl_01 XR XR_div)]. rewrite Forall_nth in HT2.
  destruct (allfin_inv _ HF) as (y & Ey).
  destruct k as [|k].
  { exfalso. destruct y0 as [|a y0]; [congruence|]. destruct y as [|r y]; [discriminate|].
    assert (Ea : a = Fin r) by (injection Ey as E1 _; exact E1).
    specialize (HT1 0 (xdiv (xabs PInf) (xadd (Fin atol) (xmul (Fin rtol) (xabs a)))) eq_refl).
    subst a. cbn in HT1. destruct (Rlt_dec _ 0); discriminate. }
  change (asked s fn y0 st0 (auxs fill0) (S k)) with (y_at s fn y0 st0 (auxs fill0) k) in *.
  pose proof (nc_st_S jac lsolve P fn y0 fs (auxs fill0) k) as HST. fold s in HST. fold st0 in HST.
  cbv zeta in HST. rewrite HST, EC in HT1, HT2. rewrite HST in ER. cbn [nc_diff nc_f nc_result] in HT1, HT2, ER.
  assert (HSE := fun i z => step_entry Aux M jac lsolve P fn y0 fs auxs k i z).
  fold s in HSE. fold st0 in HSE. 
  pose proof (nc_aux_S jac lsolve P fn y0 fs (auxs fill0) k) as EA'. fold s in EA'. fold st0 in EA'.
  exists y, v. split.
  { exists k, st0. split; [reflexivity|]. split; [exact Ey|]. rewrite <- EV. exact Hv. }
  split; [exact Hv|]. split; [rewrite EA, EA', Ey; reflexivity|].
  split; [rewrite <- Ey; exact ER|]. split.
  - intros i fi Hfi. rewrite <- Ey in Hfi.
    destruct (abs_div_lt1_fin fi (atol + rtol * Rabs (Q2R 0))) as (r & -> & Hlt).
    + apply (HT2 i). unfold vdiv. apply nth_vmap2.
      exists (xabs fi), (Fin (atol + rtol * Rabs (Q2R 0))).
      split; [unfold vabs; apply nth_map; exists fi; split; [exact Hfi|reflexivity]|]. split; [|reflexivity].
      unfold vscale_tol. apply nth_map. exists (Fin (Q2R 0)). split; [|reflexivity].
      apply nth_error_repeat. apply nth_error_Some. intro HN.
      exact (eq_ind (Some fi) (fun o => match o with Some _ => True | None => False end) I _ (eq_trans (eq_sym Hfi) HN)).
    + exists r. split; auto. rewrite Q2R_0, Rabs_R0, Rmult_0_r, Rplus_0_r, (Rabs_pos_eq atol) in Hlt by lra. exact Hlt.
  - intros i vi Hvi.
    assert (Hz : nth_error (y_at s fn y0 st0 (auxs fill0) (S k)) i = Some (Fin vi)).
    { rewrite <- EV, Hv. apply nth_map. eauto. }
    destruct (HSE i _ Hz) as (yi & d & E1 & E2 & E3 & E4).
    rewrite Ey in E1. apply nth_map in E1. destruct E1 as (r & E1 & ->). exists r. split; auto.
    destruct (abs_div_lt1_fin d (atol + rtol * Rabs r)) as (dr & -> & Hlt).
    { apply (HT1 i). unfold vdiv. apply nth_vmap2.
      exists (xabs d), (Fin (atol + rtol * Rabs r)).
      split; [unfold vabs; apply nth_map; exists d; split; [exact E2|reflexivity]|]. split; [|reflexivity].
      unfold vscale_tol. apply nth_map. exists (Fin r). split; [|reflexivity].
      rewrite Ey. apply nth_map. eauto. }
    pose proof (Rabs_pos r). rewrite (Rabs_pos_eq (atol + _)) in Hlt by nra.
    destruct (has_box P).
    + specialize (E3 eq_refl). cbn in E3. injection E3 as ->.
      rewrite Rabs_minus_sym. exact Hlt.
    + specialize (E4 eq_refl). cbn in E4. injection E4 as ->.
      replace (r + - dr - r)%R with (- dr)%R by ring. rewrite Rabs_Ropp. exact Hlt.
Qed.

(** ** C23: failures *)

Lemma nc_says_result_fail : forall (N : Num) (P : nc_params (N:=N)) M y (st : nc_state (N:=N) (M:=M)),
  nc_result st <> successful -> nc_terminate P y st = (true, nc_result st).
Proof.
  intros N P M y st H. unfold nc_terminate. apply results_eqb_neq in H. rewrite H.
  destruct (nc_cauchy P); reflexivity.
Qed.

(** If the linear solve at the j-th iterate fails, the solve stops right after
    that step with the linear solver's code (or with `nonfinite` if that
    iterate was not finite). *)
Lemma C23_linear_failure_stops_pf :
  forall (N : Num) (Aux M : Type) jac lsolve (P : nc_params (N:=N)) allfinite
         (fn : list N -> list N * Aux) y0 fs auxs st0 j,
    let s := newton_chord (M:=M) jac lsolve P in
    let y := y_at s fn y0 st0 (auxs fill0) in
    s_init s fn y0 fs auxs = Ret st0 ->
    let r := snd (lin_sol jac lsolve (nc_is_newton P) fn y0 (y j)) in
    r <> successful ->
    (forall i, i <= j -> ~ stops allfinite s fn y0 st0 (auxs fill0) i) ->
    forall fuel ms, S j < fuel -> (forall m, ms = Some m -> S j <= m) ->
    let code := if allfinite (y j) then r else nonfinite in
    (exists sol, iterative_solve allfinite s fn fuel ms false y0 fs auxs = Ret sol /\
       result sol = code /\ stats_get (sol_stats sol) "num_steps" = Some (Some (Z.of_nat (S j)))) /\
    iterative_solve allfinite s fn fuel ms true y0 fs auxs = Raise (SolveFailed code).
Proof.
  intros N Aux M jac lsolve P allfinite fn y0 fs auxs st0 j s y Hi r Hr Hns fuel ms Hf Hms code.
  change (Ret (nc_st0 jac P fn y0 fs) = Ret st0) in Hi. injection Hi as <-.
  set (st0 := nc_st0 jac P fn y0 fs) in *.
  pose proof (nc_st_S jac lsolve P fn y0 fs (auxs fill0) j) as HST. fold s in HST. fold st0 in HST.
  cbv zeta in HST. fold y in HST.
  assert (HT : s_terminate s fn (asked s fn y0 st0 (auxs fill0) (S j)) (st_at s fn y0 st0 (auxs fill0) (S j)) = (true, r)).
  { cbn [s_terminate s newton_chord]. fold s. rewrite nc_says_result_fail; rewrite HST; cbn [nc_result]; auto. }
  assert (HS : stop_index allfinite s fn y0 st0 (auxs fill0) ms (S j)).
  { split; [|split; auto].
    - left. left. unfold says_terminate. rewrite HT. reflexivity.
    - intros i Hi. apply Hns. lia. }
  assert (HFR : final_result allfinite s fn y0 st0 (auxs fill0) (S j) = code).
  { unfold final_result, says_terminate, says_result. rewrite HT. cbn [fst snd].
    change (asked s fn y0 st0 (auxs fill0) (S j)) with (y j). unfold code.
    destruct (allfinite (y j)); [|reflexivity].
    apply results_eqb_neq in Hr. rewrite Hr. reflexivity. }
  assert (Hc : results_eqb code successful = false).
  { unfold code. destruct (allfinite (y j)); [apply results_eqb_neq; auto|reflexivity]. }
  split.
  - exists (solution_at allfinite s fn y0 st0 (auxs fill0) ms (S j)).
    destruct (iterative_solve_spec allfinite s fn y0 st0 _ fs auxs eq_refl eq_refl fuel ms false) as [H4 _].
    rewrite (H4 (S j) Hf HS). split; [reflexivity|].
    rewrite (proj1 (solution_at_fields allfinite s fn y0 st0 (auxs fill0) ms (S j))). split; auto.
  - destruct (iterative_solve_spec allfinite s fn y0 st0 _ fs auxs eq_refl eq_refl fuel ms true) as [H4 _].
    rewrite (H4 (S j) Hf HS), HFR, Hc. reflexivity.
Qed.

(** So a successful solve performed only successful linear solves. *)
Lemma C23_success_all_linear_ok_pf :
  forall (N : Num) (Aux M : Type) jac lsolve (P : nc_params (N:=N)) allfinite
         (fn : list N -> list N * Aux) y0 fs auxs fuel ms throw sol st0,
    let s := newton_chord (M:=M) jac lsolve P in
    s_init s fn y0 fs auxs = Ret st0 ->
    iterative_solve allfinite s fn fuel ms throw y0 fs auxs = Ret sol ->
    result sol = successful ->
    exists n, stats_get (sol_stats sol) "num_steps" = Some (Some (Z.of_nat n)) /\
      (nc_cauchy P = false -> 2 <= n) /\
      forall j, j < n -> snd (lin_sol jac lsolve (nc_is_newton P) fn y0 (y_at s fn y0 st0 (auxs fill0) j)) = successful.
Proof.
  intros N Aux M jac lsolve P allfinite fn y0 fs auxs fuel ms throw sol st0 s Hi H HR.
  change (Ret (nc_st0 jac P fn y0 fs) = Ret st0) in Hi. injection Hi as <-.
  set (st0 := nc_st0 jac P fn y0 fs) in *.
  destruct (success_inv _ _ _ allfinite s fn y0 st0 fs auxs fuel ms throw sol eq_refl H HR)
    as (k & Hk & HS & -> & HF & HT & HRR).
  exists k. split; [reflexivity|]. split.
  - intro EC. unfold says_terminate in HT. unfold says_result in HRR. cbn [s_terminate s newton_chord] in HT, HRR. fold s in HT, HRR.
    unfold nc_terminate in HT, HRR. rewrite EC in HT, HRR.
    pose proof (nc_step_k jac lsolve P fn y0 fs (auxs fill0) k) as HK. fold s in HK. fold st0 in HK. rewrite HK in HT, HRR.
    destruct (results_eqb (nc_result (st_at s fn y0 st0 (auxs fill0) k)) successful) eqn:ER; cbn [negb orb fst snd] in HT, HRR.
    + apply andb_true_iff in HT. destruct HT as [HT _]. apply Nat.leb_le. exact HT.
    + rewrite HRR in ER. discriminate.
  - intros j Hj.
    destruct (results_eqb (snd (lin_sol jac lsolve (nc_is_newton P) fn y0 (y_at s fn y0 st0 (auxs fill0) j))) successful) eqn:E.
    { apply results_eqb_eq; exact E. }
    exfalso. apply results_eqb_neq in E.
    pose proof (nc_st_S jac lsolve P fn y0 fs (auxs fill0) j) as HST. fold s in HST. fold st0 in HST. cbv zeta in HST.
    assert (HT' : s_terminate s fn (asked s fn y0 st0 (auxs fill0) (S j)) (st_at s fn y0 st0 (auxs fill0) (S j)) =
                 (true, snd (lin_sol jac lsolve (nc_is_newton P) fn y0 (y_at s fn y0 st0 (auxs fill0) j)))).
    { cbn [s_terminate s newton_chord]. fold s. rewrite nc_says_result_fail; rewrite HST; cbn [nc_result]; auto. }
    destruct (Nat.eq_dec (S j) k) as [Hjk|Hjk].
    + subst k. unfold says_result in HRR. rewrite HT' in HRR. cbn [snd] in HRR. contradiction.
    + destruct HS as (_ & HS & _). apply (HS (S j) ltac:(lia)). left. unfold says_terminate. rewrite HT'. reflexivity.
Qed.

(** With cauchy_termination=False: the verdict after step number j+2 is
    `nonlinear_divergence` exactly when the step is not tiny and the ratio of
    successive relative step sizes is not finite or exceeds 2. *)
Lemma C23_divergence_iff_pf :
  forall (N : Num) (Aux M : Type) jac lsolve (P : nc_params (N:=N))
         (fn : list N -> list N * Aux) y0 fs auxs st0 j,
    let s := newton_chord (M:=M) jac lsolve P in
    let y := y_at s fn y0 st0 (auxs fill0) in
    let lin k := lin_sol jac lsolve (nc_is_newton P) fn y0 (y k) in
    let size k := rel_size (nc_norm P) (nc_rtol P) (nc_atol P)
                    (match nc_lower P, nc_upper P with
                     | None, None => fst (lin k)
                     | _, _ => vsub (y k) (y (S k))
                     end) (y (S k)) in
    s_init s fn y0 fs auxs = Ret st0 -> nc_cauchy P = false ->
    snd (lin (S j)) = successful ->
    let rate := ndiv (size (S j)) (size j) in
    (says_result s fn y0 st0 (auxs fill0) (S (S j)) = nonlinear_divergence <->
       nltb (size (S j)) (nc_resolution P) = false /\ (nisfin rate = false \/ nltb (nofQ 2) rate = true)) /\
    (says_result s fn y0 st0 (auxs fill0) (S (S j)) = nonlinear_divergence \/
     says_result s fn y0 st0 (auxs fill0) (S (S j)) = successful).
Proof.
  intros N Aux M jac lsolve P fn y0 fs auxs st0 j s y lin size Hi EC HL rate.
  change (Ret (nc_st0 jac P fn y0 fs) = Ret st0) in Hi. injection Hi as <-.
  set (st0 := nc_st0 jac P fn y0 fs) in *.
  assert (HD : forall k, nc_diffsize (st_at s fn y0 st0 (auxs fill0) (S k)) = size k).
  { intro k. pose proof (nc_st_S jac lsolve P fn y0 fs (auxs fill0) k) as HST. fold s in HST. fold st0 in HST. cbv zeta in HST.
    rewrite HST. cbn [nc_diffsize]. unfold size, has_box. destruct (nc_lower P), (nc_upper P); reflexivity. }
  pose proof (nc_st_S jac lsolve P fn y0 fs (auxs fill0) (S j)) as HST. fold s in HST. fold st0 in HST. cbv zeta in HST.
  assert (HP : nc_diffsize_prev (st_at s fn y0 st0 (auxs fill0) (S (S j))) = size j).
  { rewrite HST. cbn [nc_diffsize_prev]. apply HD. }
  assert (HRs : nc_result (st_at s fn y0 st0 (auxs fill0) (S (S j))) = successful).
  { rewrite HST. cbn [nc_result]. exact HL. }
  pose proof (nc_step_k jac lsolve P fn y0 fs (auxs fill0) (S (S j))) as HK. fold s in HK. fold st0 in HK.
  assert (HR : says_result s fn y0 st0 (auxs fill0) (S (S j)) =
               if negb (nltb (size (S j)) (nc_resolution P)) && nc_diverged rate then nonlinear_divergence else successful).
  { unfold says_result. cbn [s_terminate s newton_chord]. fold s. unfold nc_terminate. rewrite EC, HK, HRs, HP, (HD (S j)).
    cbn [results_eqb negb orb snd]. unfold nc_small. reflexivity. }
  rewrite HR. unfold nc_diverged.
  destruct (nltb (size (S j)) (nc_resolution P)), (nisfin rate), (nltb (nofQ 2) rate); cbn;
    (split; [split; [intro X; try discriminate; auto|intros [X Z]; try discriminate; auto; destruct Z; discriminate]|auto]).
Qed.

(** ** C24: affine systems *)

Lemma vsub_cancel : forall a d : list R, length a = length d -> Rsub_v a (Rsub_v a d) = d.
Proof. induction a as [|x a IH]; intros [|y d]; simpl; intros; try discriminate; auto. f_equal; [ring|auto]. Qed.

Lemma allzero_norm : forall rtol atol n (v : list R), (0 < atol)%R -> (0 <= rtol)%R -> 
  rel_size (N:=XR) (max_norm (N:=XR)) (Fin rtol) (Fin atol) (map Fin (zerov n)) (map Fin v) = Fin 0.
Proof.
  intros rtol atol n v Ha Hr. unfold rel_size. revert v. induction n as [|n IH]; intros [|x v]; try (cbn; rewrite Q2R_0; reflexivity).
  cbn [zerov repeat map vmap2]. cbn [ndiv nadd nmul nabs XR xabs xmul xadd].
  pose proof (Rabs_pos x). rewrite xdiv_fin by nra.
  unfold max_norm, vabs in *. cbn [map fold_right]. cbn [map] in IH.
  change (@map R xr Fin (repeat 0%R n)) with (map Fin (zerov n)). rewrite IH.
  cbn [nabs XR xabs]. unfold Rdiv. rewrite Rmult_0_l, Rabs_R0.
  unfold nmax, nisnan. cbn [neqb XR xeqb nltb xltb].
  replace (Reqb 0 0) with true by (symmetry; rb; lra). replace (Rltb 0 0) with false by (symmetry; rb; lra). reflexivity.
Qed.

Lemma affine_root_step : forall n A b y d, mat n n A -> length b = n -> length y = n -> length d = n ->
  mvec A d = affine A b y -> affine A b (Rsub_v y d) = zerov n.
Proof.
  intros n A b y d HA Hb Hy Hd E. unfold affine in *.
  rewrite (mvec_sub A n n) by auto.
  assert (Hl : length (mvec A y) = n) by (rewrite mvec_length; apply HA).
  assert (Hl' : length (mvec A d) = n) by (rewrite mvec_length; apply HA).
  rewrite Rsub_v_add by congruence. rewrite <- E, Rsub_v_self. congruence.
Qed.

(** One step of Newton or Chord on an invertible affine system with an exact
    linear solver lands on the root, and the solve succeeds within two steps
    there; both termination modes. *)
Lemma C24_affine_exact_pf :
  forall (n : nat) (A : list (list R)) (b y0 : list R) (jac : (list xr -> list xr * unit) -> list xr -> list (list R))
         lsolve (P : nc_params (N:=XR)) (rtol atol : R) (resolution : R) fs auxs,
    mat n n A -> injective_mat n A -> length b = n -> length y0 = n -> 0 < n ->
    (forall y, jac (liftv (affine A b)) y = A) ->
    (forall c, length c = n -> exists d, lsolve A (map Fin c) = (map Fin d, successful) /\
                                length d = n /\ mvec A d = c) ->
    nc_rtol P = Fin rtol -> nc_atol P = Fin atol -> (0 <= rtol)%R -> (0 < atol)%R ->
    nc_norm P = max_norm (N:=XR) -> nc_lower P = None -> nc_upper P = None ->
    nc_resolution P = Fin resolution -> (0 < resolution)%R ->
    let s := newton_chord jac lsolve P in
    exists root, length root = n /\ affine A b root = zerov n /\
      (forall x, length x = n -> affine A b x = zerov n -> x = root) /\
      (forall st0, s_init s (liftv (affine A b)) (map Fin y0) fs auxs = Ret st0 ->
         y_at s (liftv (affine A b)) (map Fin y0) st0 (auxs fill0) 1 = map Fin root) /\
      exists k, 1 <= k <= 2 /\ (nc_cauchy P = false -> k = 2) /\
        forall fuel ms throw, k < fuel -> (forall m, ms = Some m -> k <= m) ->
          exists sol, iterative_solve vallfinite s (liftv (affine A b)) fuel ms throw (map Fin y0) fs auxs = Ret sol /\
            result sol = successful /\ value sol = map Fin root /\
            stats_get (sol_stats sol) "num_steps" = Some (Some (Z.of_nat k)).
Proof.
  intros n A b y0 jac lsolve P rtol atol resolution fs auxs HA Hinj Hb Hy Hn Hjac Hls Hra Haa Hr0 Ha0 Hnm Hlo Hup Hre Hre0 s.
  set (fn := liftv (affine A b)).
  set (st0 := nc_st0 jac P fn (map Fin y0) fs).
  assert (Haff : forall y, length y = n -> length (affine A b y) = n).
  { intros y Hl. unfold affine. apply Radd_v_length; auto. rewrite mvec_length. apply HA. }
  destruct (Hls (affine A b y0) (Haff y0 Hy)) as (d & Ed & Hd & Emd).
  set (root := Rsub_v y0 d).
  assert (Hrl : length root = n) by (apply Rsub_v_length; auto).
  assert (Hroot : affine A b root = zerov n) by (apply affine_root_step; auto).
  set (Y := y_at s fn (map Fin y0) st0 (auxs fill0)).
  set (S_ := st_at s fn (map Fin y0) st0 (auxs fill0)).
  assert (Hlin : forall y, lin_sol jac lsolve (nc_is_newton P) fn (map Fin y0) (map Fin y) = lsolve A (map Fin (affine A b y))).
  { intro y. unfold lin_sol, fn. rewrite Hjac. rewrite liftv_Fin. reflexivity. }
  assert (Hbox : has_box P = false) by (unfold has_box; rewrite Hlo, Hup; reflexivity).
  assert (Hclip : forall v, nc_clip P v = v) by (intro; unfold nc_clip; rewrite Hlo, Hup; reflexivity).
  assert (HY1 : Y 1 = map Fin root).
  { unfold Y. refine (eq_trans (nc_y_S jac lsolve P fn (map Fin y0) fs (auxs fill0) 0) _).
    rewrite Hclip. change (y_at _ _ _ _ _ 0) with (map Fin y0). rewrite Hlin, Ed. apply vsub_Fin. }
  destruct (Hls (zerov n) (zerov_length n)) as (d2 & Ed2 & Hd2 & Emd2).
  assert (Hd20 : d2 = zerov n) by (apply Hinj; auto).
  subst d2.
  assert (Hlin1 : lin_sol jac lsolve (nc_is_newton P) fn (map Fin y0) (Y 1) = (map Fin (zerov n), successful)).
  { rewrite HY1, Hlin, Hroot. exact Ed2. }
  assert (HY2 : Y 2 = map Fin root).
  { unfold Y. refine (eq_trans (nc_y_S jac lsolve P fn (map Fin y0) fs (auxs fill0) 1) _).
    rewrite Hclip. change (y_at _ _ _ _ _ 1) with (Y 1). rewrite Hlin1, HY1. cbn [fst].
    rewrite vsub_Fin. rewrite <- Hrl at 1. rewrite Rsub_v_0_r. reflexivity. }
  assert (HS1 : S_ 1 = mkNc (if nc_cauchy P then Some (fst (fn (map Fin y0))) else None)
              (if nc_is_newton P then None else Some (jac fn (map Fin y0)))
              (map Fin d) (rel_size (nc_norm P) (nc_rtol P) (nc_atol P) (map Fin d) (map Fin root))
              PInf successful 1).
  { refine (eq_trans (nc_st_S jac lsolve P fn (map Fin y0) fs (auxs fill0) 0) _). cbv zeta.
    rewrite Hbox. change (y_at _ _ _ _ _ 0) with (map Fin y0). rewrite Hlin, Ed. cbn [fst snd].
    change (y_at _ _ _ _ _ 1) with (Y 1). rewrite HY1. reflexivity. }
  assert (HS2 : S_ 2 = mkNc (if nc_cauchy P then Some (map Fin (zerov n)) else None)
              (if nc_is_newton P then None else Some (jac fn (map Fin y0)))
              (map Fin (zerov n)) (Fin 0) (nc_diffsize (S_ 1)) successful 2).
  { refine (eq_trans (nc_st_S jac lsolve P fn (map Fin y0) fs (auxs fill0) 1) _). cbv zeta.
    rewrite Hbox. change (y_at _ _ _ _ _ 1) with (Y 1). change (st_at _ _ _ _ _ 1) with (S_ 1). rewrite Hlin1. cbn [fst snd].
    change (y_at _ _ _ _ _ 2) with (Y 2). rewrite HY2, HY1, Hnm, Hra, Haa, allzero_norm by auto.
    unfold fn at 1. rewrite liftv_Fin. cbn [fst]. rewrite Hroot.
    f_equal. rewrite HS1. reflexivity. }
  assert (HT0 : s_terminate s fn (map Fin y0) (S_ 0) = (false, successful)).
  { cbn [s_terminate s newton_chord]. unfold nc_terminate. change (S_ 0) with st0.
    destruct (nc_cauchy P) eqn:EC; unfold st0, nc_st0; rewrite EC; cbn [nc_result nc_step nc_diff nc_f results_eqb negb orb]; [|reflexivity].
    f_equal. unfold cauchy_termination. apply andb_false_iff. left. rewrite Hnm, Hra, Haa.
    destruct (nltb _ _) eqn:E; auto. exfalso.
    apply (max_norm_lt XR_laws) in E; [|apply (dl_01 XR XR_div)]. rewrite Forall_nth in E.
    destruct y0 as [|a y0']; [simpl in Hy; lia|].
    specialize (E 0 (xdiv (xabs PInf) (xadd (Fin atol) (xmul (Fin rtol) (xabs (Fin a))))) eq_refl).
    cbn in E. destruct (Rlt_dec _ 0); discriminate. }
  assert (HT1 : exists t, s_terminate s fn (map Fin y0) (S_ 1) = (t, successful) /\ (nc_cauchy P = false -> t = false)).
  { cbn [s_terminate s newton_chord]. unfold nc_terminate. rewrite HS1.
    destruct (nc_cauchy P) eqn:EC; cbn [nc_result nc_step nc_diff nc_f results_eqb negb orb]; eexists; (split; [reflexivity|]).
    - discriminate.
    - reflexivity. }
  assert (HT2 : s_terminate s fn (map Fin root) (S_ 2) = (true, successful)).
  { cbn [s_terminate s newton_chord]. unfold nc_terminate. rewrite HS2.
    destruct (nc_cauchy P) eqn:EC; cbn [nc_result nc_step nc_diff nc_f nc_diffsize nc_diffsize_prev results_eqb negb orb].
    - f_equal. unfold cauchy_termination. rewrite Hnm, Hra, Haa. apply andb_true_iff. split.
      + apply (max_norm_lt XR_laws); [apply (dl_01 XR XR_div)|]. apply Forall_nth.
        intros i z Hz. unfold vdiv in Hz. apply nth_vmap2 in Hz. destruct Hz as (x & sc & E1 & E2 & ->).
        unfold vabs in E1. apply nth_map in E1. destruct E1 as (x' & E1 & ->). apply nth_map in E1. destruct E1 as (x0 & E1 & ->).
        apply nth_error_In in E1. apply repeat_spec in E1. subst x0.
        unfold vscale_tol in E2. apply nth_map in E2. destruct E2 as (v & E2 & ->). apply nth_map in E2. destruct E2 as (v' & _ & ->).
        pose proof (Rabs_pos v'). cbn [nadd nmul nabs ndiv nltb nofQ XR xabs xmul xadd]. rewrite xdiv_fin by nra.
        cbn [xabs]. apply xltb_fin. unfold Rdiv. rewrite Rabs_R0, Rmult_0_l, Rabs_R0, Q2R_1. lra.
      + apply (max_norm_lt XR_laws); [apply (dl_01 XR XR_div)|]. apply Forall_nth.
        intros i z Hz. unfold vdiv in Hz. apply nth_vmap2 in Hz. destruct Hz as (x & sc & E1 & E2 & ->).
        unfold vabs in E1. apply nth_map in E1. destruct E1 as (x' & E1 & ->). apply nth_map in E1. destruct E1 as (x0 & E1 & ->).
        apply nth_error_In in E1. apply repeat_spec in E1. subst x0.
        unfold vscale_tol in E2. apply nth_map in E2. destruct E2 as (v & E2 & ->).
        apply nth_error_In in E2. unfold vfull in E2. apply repeat_spec in E2. subst v.
        cbn [nadd nmul nabs ndiv nltb nofQ XR xabs xmul xadd]. rewrite Q2R_0, Q2R_1, Rabs_R0.
        rewrite xdiv_fin by nra.
        cbn [xabs]. apply xltb_fin. unfold Rdiv. rewrite Rmult_0_l, Rabs_R0. lra.
    - f_equal.
      + apply andb_true_iff. split; [reflexivity|].
        unfold nc_small. rewrite Hre. cbn [nltb XR xltb]. replace (Rltb 0 resolution) with true by (symmetry; rb; lra). reflexivity.
      + unfold nc_small. rewrite Hre. cbn [nltb XR xltb]. replace (Rltb 0 resolution) with true by (symmetry; rb; lra).
        cbn [negb andb]. rewrite andb_false_r. reflexivity. }
  exists root. split; [exact Hrl|]. split; [exact Hroot|]. split.
  { intros x Hx Ex. assert (Rsub_v x root = zerov n) as E.
    { apply Hinj; [apply Rsub_v_length; auto|]. rewrite (mvec_sub A n n) by auto.
      assert (E' : forall u v w : list R, length u = n -> length v = n -> length w = n ->
                 Radd_v u w = zerov n -> Radd_v v w = zerov n -> Rsub_v u v = zerov n).
      { clear. induction n as [|n IH]; intros [|u0 u] [|v0 v] [|w0 w]; simpl; intros; try discriminate; auto.
        unfold zerov in *. simpl in *. injection H2 as E1 E2. injection H3 as E3 E4. f_equal; [lra|].
        apply (IH u v w); auto. }
      apply (E' _ _ b); auto; rewrite mvec_length; apply HA. }
    assert (E'' : forall u v : list R, length u = n -> length v = n -> Rsub_v u v = zerov n -> u = v).
    { clear. induction n as [|n IH]; intros [|u0 u] [|v0 v]; simpl; intros; try discriminate; auto.
      unfold zerov in *. simpl in *. injection H1 as E1 E2. f_equal; [lra|]. apply IH; auto. }
    apply E''; auto. }
  split.
  { intros st Hst. change (Ret st0 = Ret st) in Hst. injection Hst as <-. exact HY1. }
  assert (Fin0 : forall v, vallfinite (N:=XR) (map Fin v) = true) by apply allfin_Fin.
  assert (NS0 : ~ stops vallfinite s fn (map Fin y0) st0 (auxs fill0) 0).
  { unfold stops, says_terminate, says_result. change (asked s fn (map Fin y0) st0 (auxs fill0) 0) with (map Fin y0).
    change (st_at s fn (map Fin y0) st0 (auxs fill0) 0) with (S_ 0). rewrite HT0, Fin0. cbn. intuition discriminate. }
  destruct HT1 as (t & HT1 & Ht).
  destruct t.
  - exists 1. split; [lia|]. split; [intro E; specialize (Ht E); discriminate|].
    intros fuel ms throw Hf Hms. exists (solution_at vallfinite s fn (map Fin y0) st0 (auxs fill0) ms 1).
    assert (HSI : stop_index vallfinite s fn (map Fin y0) st0 (auxs fill0) ms 1).
    { split; [|split; auto].
      - left. left. unfold says_terminate. change (asked s fn (map Fin y0) st0 (auxs fill0) 1) with (map Fin y0).
        change (st_at s fn (map Fin y0) st0 (auxs fill0) 1) with (S_ 1). rewrite HT1. reflexivity.
      - intros i Hi. assert (i = 0) by lia. subst i. exact NS0. }
    assert (HFR : final_result vallfinite s fn (map Fin y0) st0 (auxs fill0) 1 = successful).
    { unfold final_result, says_terminate, says_result. change (asked s fn (map Fin y0) st0 (auxs fill0) 1) with (map Fin y0).
      change (st_at s fn (map Fin y0) st0 (auxs fill0) 1) with (S_ 1). rewrite HT1, Fin0. reflexivity. }
    destruct (iterative_solve_spec vallfinite s fn (map Fin y0) st0 _ fs auxs eq_refl eq_refl fuel ms throw) as [H4 _].
    rewrite (H4 1 Hf HSI), HFR. rewrite andb_comm. cbn [results_eqb negb andb]. split; [reflexivity|].
    rewrite (proj1 (solution_at_fields vallfinite s fn (map Fin y0) st0 (auxs fill0) ms 1)). split; [exact HFR|].
    split; [exact HY1|reflexivity].
  - exists 2. split; [lia|]. split; [auto|].
    intros fuel ms throw Hf Hms. exists (solution_at vallfinite s fn (map Fin y0) st0 (auxs fill0) ms 2).
    assert (HA2 : asked s fn (map Fin y0) st0 (auxs fill0) 2 = map Fin root) by exact HY1.
    assert (HSI : stop_index vallfinite s fn (map Fin y0) st0 (auxs fill0) ms 2).
    { split; [|split; auto].
      - left. left. unfold says_terminate. rewrite HA2.
        change (st_at s fn (map Fin y0) st0 (auxs fill0) 2) with (S_ 2). rewrite HT2. reflexivity.
      - intros i Hi. assert (i = 0 \/ i = 1) as [-> | ->] by lia; [exact NS0|].
        unfold stops, says_terminate, says_result. change (asked s fn (map Fin y0) st0 (auxs fill0) 1) with (map Fin y0).
        change (st_at s fn (map Fin y0) st0 (auxs fill0) 1) with (S_ 1). rewrite HT1, Fin0. cbn. intuition discriminate. }
    assert (HFR : final_result vallfinite s fn (map Fin y0) st0 (auxs fill0) 2 = successful).
    { unfold final_result, says_terminate, says_result. rewrite HA2.
      change (st_at s fn (map Fin y0) st0 (auxs fill0) 2) with (S_ 2). rewrite HT2, Fin0. reflexivity. }
    destruct (iterative_solve_spec vallfinite s fn (map Fin y0) st0 _ fs auxs eq_refl eq_refl fuel ms throw) as [H4 _].
    rewrite (H4 2 Hf HSI), HFR. rewrite andb_comm. cbn [results_eqb negb andb]. split; [reflexivity|].
    rewrite (proj1 (solution_at_fields vallfinite s fn (map Fin y0) st0 (auxs fill0) ms 2)). split; [exact HFR|].
    split; [exact HY2|reflexivity].
Qed.

(** ** Examples *)

(** Scalar problem x^2 = 2 in binary64, with the true derivative; the linear
    solver reports failure when the derivative is zero. *)
Definition sq2 (v : list f64) : list f64 * unit :=
  match v with [x] => ([fsub (fmul x x) (f64_ofZ 2)], tt) | _ => ([], tt) end.
Definition sq2_jac (_ : list f64 -> list f64 * unit) (v : list f64) : f64 :=
  match v with [x] => fmul (f64_ofZ 2) x | _ => f64_ofZ 0 end.
Definition div_solve (m : f64) (v : list f64) : list f64 * results :=
  (map (fun x => fdiv x m) v, if neqb (n:=F64) m (f64_ofZ 0) then linear 1 else successful).
Definition sq2_P (cauchy newton : bool) (lo up : option (list f64)) : nc_params (N:=F64) :=
  mkNcParams (N:=F64) (f64_ofQ (1#1000000)) (f64_ofQ (1#1000000)) max_norm (f64_ofQ (1#100)) cauchy newton lo up
    (f64_ofQ (1#10000000000000)).
Definition sq2_run cauchy newton lo up (x0 : Q) :=
  iterative_solve vallfinite (newton_chord sq2_jac div_solve (sq2_P cauchy newton lo up)) sq2
    80 (Some 70) false [f64_ofQ x0] (fun _ => [f64_ofZ 0]) (fun _ => tt).
Definition in_range (v : list f64) (a b : Q) : bool :=
  match v with [x] => nltb (n:=F64) (f64_ofQ a) x && nltb (n:=F64) x (f64_ofQ b) | _ => false end.

Lemma check_ret' : forall A (x : outcome A) (p : A -> bool),
  match x with Ret a => p a | _ => false end = true -> exists a, x = Ret a /\ p a = true.
Proof. intros A [a|e|] p H; try discriminate. exists a; auto. Qed.

(** Newton and Chord, both termination modes, all succeed near sqrt 2. *)
Example C22_certificate_ex_pf :
  forall cauchy newton : bool, exists sol,
    sq2_run cauchy newton None None (3#2) = Ret sol /\
    results_eqb (result sol) successful && in_range (value sol) (14142#10000) (14143#10000) = true.
Proof. intros [|] [|]; apply check_ret'; vm_compute; reflexivity. Qed.

(** With the box [1.5, 3] (which does not contain the root) the result sits on
    the boundary; it fails because f is not small there. *)
Example C21_iterates_in_box_ex_pf :
  exists sol,
    sq2_run true true (Some [f64_ofQ (3#2)]) (Some [f64_ofZ 3]) (3#1) = Ret sol /\
    results_eqb (result sol) nonlinear_max_steps_reached &&
    match value sol with [x] => neqb (n:=F64) x (f64_ofQ (3#2)) | _ => false end = true.
Proof. apply check_ret'; vm_compute; reflexivity. Qed.
Example C21_success_in_box_ex_pf :
  exists sol,
    sq2_run true true (Some [f64_ofZ 1]) (Some [f64_ofZ 3]) (1#10) = Ret sol /\
    results_eqb (result sol) successful && in_range (value sol) (14142#10000) (14143#10000) = true.
Proof. apply check_ret'; vm_compute; reflexivity. Qed.

(** A singular Jacobian at the start is reported with the linear solver's
    code after one step. *)
Example C23_linear_failure_stops_ex_pf :
  exists sol,
    sq2_run true true None None 0 = Ret sol /\
    results_eqb (result sol) (linear 1) &&
    match stats_get (sol_stats sol) "num_steps" with Some (Some n) => Z.eqb n 1 | _ => false end = true.
Proof. apply check_ret'; vm_compute; reflexivity. Qed.

(** Chord from a bad starting point diverges and says so. *)
Example C23_divergence_iff_ex_pf :
  exists sol,
    sq2_run false false None None (1#10) = Ret sol /\
    results_eqb (result sol) nonlinear_divergence = true.
Proof. apply check_ret'; vm_compute; reflexivity. Qed.

(** The hypotheses of C24 for a concrete 2x2 system. *)
Example C24_affine_exact_ex_pf :
  let A := [[2; 1]; [1; 3]]%R in
  let lsolve := fun (_ : list (list R)) (c : list xr) =>
    match c with
    | [Fin a; Fin b] => ([Fin ((3 * a - b) / 5); Fin ((2 * b - a) / 5)], successful)
    | _ => ([], linear 1)
    end in
  mat 2 2 A /\ injective_mat 2 A /\
  (forall c, length c = 2 -> exists d, lsolve A (map Fin c) = (map Fin d, successful) /\
                                length d = 2 /\ mvec A d = c) /\
  affine A [-5; -10]%R [1; 3]%R = zerov 2.
Proof.
  intros A lsolve. repeat split.
  - repeat constructor.
  - intros [|x [|y [|z w]]] H E; try discriminate. unfold A, mvec, zerov in *. cbn in *.
    injection E as E1 E2. assert (x = 0)%R by lra. assert (y = 0)%R by lra. subst. reflexivity.
  - intros [|x [|y [|z w]]] H; try discriminate. exists [(3 * x - y) / 5; (2 * y - x) / 5]%R.
    split; [reflexivity|]. split; [reflexivity|]. unfold A, mvec. cbn. f_equal; [lra|f_equal; lra].
  - unfold affine, A, mvec, zerov. cbn. f_equal; [lra|f_equal; lra].
Qed.

(** ** Local convergence *)

(** Newton or Chord in exact arithmetic, started within rho of a root, where [A x] is the
    matrix in use at x (the Jacobian at x for Newton, at the start for Chord), boundedly
    invertible and accurate to q < 1 near the root. Every iterate is closer to the root by
    the factor q; if the linearisation error is quadratic so is the convergence; and the
    solve succeeds within K + 1 steps once 2 rho q^K and L rho q^K are below atol. *)
Lemma C70_local_convergence_pf :
  forall (n : nat) (F : list R -> list R) (J : list R -> list (list R)) (root y0 : list R) (beta q rho L rtol atol : R)
         (jac : (list xr -> list xr * unit) -> list xr -> list (list R)) lsolve (P : nc_params (N:=XR)) fs auxs,
    let A x := J (if nc_is_newton P then x else y0) in
    let near x := length x = n /\ (Rdist_inf x root <= rho)%R in
    let linear_error x := Rmax_norm (Rsub_v (F x) (mvec (A x) (Rsub_v x root))) in
    0 < n -> length root = n -> F root = zerov n -> near y0 ->
    (forall x, near x -> length (F x) = n /\ mat n n (J x) /\ jac (liftv F) (map Fin x) = J x) ->
    (forall x c, near x -> length c = n ->
       exists d, lsolve (J x) (map Fin c) = (map Fin d, successful) /\ length d = n /\ mvec (J x) d = c) ->
    (forall x v, near x -> length v = n -> Rmax_norm v <= beta * Rmax_norm (mvec (A x) v))%R ->
    (forall x, near x -> beta * linear_error x <= q * Rdist_inf x root)%R ->
    (forall x, near x -> Rmax_norm (F x) <= L * Rdist_inf x root)%R -> (0 <= q < 1)%R -> (0 <= beta)%R -> (0 <= L)%R ->
    nc_rtol P = Fin rtol -> nc_atol P = Fin atol -> (0 <= rtol)%R -> (0 < atol)%R ->
    nc_norm P = max_norm (N:=XR) -> nc_lower P = None -> nc_upper P = None -> nc_cauchy P = true ->
    let s := newton_chord jac lsolve P in
    forall st0, s_init s (liftv F) (map Fin y0) fs auxs = Ret st0 ->
    exists x : nat -> list R,
      (forall k, y_at s (liftv F) (map Fin y0) st0 (auxs fill0) k = map Fin (x k)) /\
      (forall k, Rdist_inf (x (S k)) root <= q * Rdist_inf (x k) root)%R /\
      (forall gamma, (forall z, near z -> beta * linear_error z <= gamma * Rdist_inf z root ^ 2)%R ->
         forall k, Rdist_inf (x (S k)) root <= gamma * Rdist_inf (x k) root ^ 2)%R /\
      forall K, (2 * rho * q ^ K < atol)%R -> (L * rho * q ^ K < atol)%R ->
      exists k, 1 <= k <= S K /\ (Rdist_inf (x k) root <= q ^ k * rho)%R /\
        ((1 - q) * Rdist_inf (x k) root <= q * Rdist_inf (x (pred k)) (x k))%R /\
        forall fuel ms throw, k < fuel -> (forall m, ms = Some m -> k <= m) ->
          exists sol, iterative_solve vallfinite s (liftv F) fuel ms throw (map Fin y0) fs auxs = Ret sol /\
            result sol = successful /\ value sol = map Fin (x k).
Proof.
  intros n F J root y0 beta q rho L rtol atol jac lsolve P fs auxs A near linear_error Hn Hroot HF0 Hy0 HF Hls Hbeta Hlin HL Hq Hb HL0
    Hra Haa Hr0 Ha0 Hnm Hlo Hup HC s st0 Hi.
  set (fn := liftv F) in *.
  change (Ret (nc_st0 jac P fn (map Fin y0) fs) = Ret st0) in Hi. injection Hi as <-.
  set (st0 := nc_st0 jac P fn (map Fin y0) fs).
  set (Y := y_at s fn (map Fin y0) st0 (auxs fill0)).
  set (S_ := st_at s fn (map Fin y0) st0 (auxs fill0)).
  assert (Hbox : has_box P = false) by (unfold has_box; rewrite Hlo, Hup; reflexivity).
  assert (Hclip : forall v, nc_clip P v = v) by (intro; unfold nc_clip; rewrite Hlo, Hup; reflexivity).
  assert (HAx : forall x, near x -> near (if nc_is_newton P then x else y0)) by (intros x Hx; destruct (nc_is_newton P); auto).
  assert (Sub : forall a d, length a = n -> length d = n -> Rsub_v (Rsub_v a d) root = Rsub_v (Rsub_v a root) d).
  { clear - Hroot. revert root Hroot. induction n as [|m IH]; intros [|r root] Hr [|a0 a] [|d0 d] H1 H2; try discriminate; auto.
    cbn. f_equal; [ring|]. apply IH; auto. }
  assert (TF : forall v, map toR (map Fin v) = v) by (intro v; rewrite map_map; cbn [toR]; apply map_id).
  assert (Step : forall x, near x -> exists d, lin_sol jac lsolve (nc_is_newton P) fn (map Fin y0) (map Fin x) = (map Fin d, successful) /\
            length d = n /\ (Rdist_inf (Rsub_v x d) root <= beta * linear_error x)%R).
  { intros x Hx. destruct (HF x Hx) as (LF & MJ & EJ).
    destruct (Hls _ (F x) (HAx x Hx) LF) as (d & Ed & Ld & Md). exists d. split; [|split; [exact Ld|]].
    - unfold lin_sol, fn. rewrite liftv_Fin. cbn [fst]. rewrite <- Ed. f_equal.
      destruct (nc_is_newton P); [exact EJ|]. exact (proj2 (proj2 (HF y0 Hy0))).
    - unfold Rdist_inf. rewrite (Sub x d (proj1 Hx) Ld).
      assert (LX : length (Rsub_v x root) = n) by (apply Rsub_v_length; [apply Hx|exact Hroot]).
      eapply Rle_trans; [apply (Hbeta x _ Hx); apply Rsub_v_length; auto|].
      apply Rmult_le_compat_l; [exact Hb|]. unfold linear_error, A. rewrite (mvec_sub _ n n _ _ (proj1 (proj2 (HF _ (HAx x Hx)))) LX Ld), Md.
      fold (Rdist_inf (F x) (mvec (J (if nc_is_newton P then x else y0)) (Rsub_v x root))). rewrite Rdist_inf_sym. apply Rle_refl. }
  set (x k := map toR (Y k)).
  assert (Inv : forall k, Y k = map Fin (x k) /\ near (x k)).
  { induction k as [|k [IH1 IH2]].
    - unfold x. change (Y 0) with (map Fin y0). rewrite TF. auto.
    - destruct (Step (x k) IH2) as (d & Ed & Ld & Md).
      assert (EY : Y (S k) = map Fin (Rsub_v (x k) d)).
      { unfold Y. refine (eq_trans (nc_y_S jac lsolve P fn (map Fin y0) fs (auxs fill0) k) _).
        rewrite Hclip. change (y_at _ _ _ _ _ k) with (Y k). rewrite IH1, Ed. apply vsub_Fin. }
      assert (EX : x (S k) = Rsub_v (x k) d) by (unfold x at 1; rewrite EY; apply TF).
      rewrite EX. split; [exact EY|]. split; [apply Rsub_v_length; [apply IH2|exact Ld]|].
      pose proof (Hlin (x k) IH2). pose proof (proj2 IH2). pose proof (Rdist_inf_pos (x k) root). nra. }
  assert (XS : forall k, exists d, lin_sol jac lsolve (nc_is_newton P) fn (map Fin y0) (Y k) = (map Fin d, successful) /\ length d = n /\
                 x (S k) = Rsub_v (x k) d /\ (Rdist_inf (x (S k)) root <= beta * linear_error (x k))%R).
  { intro k. destruct (Inv k) as [IH1 IH2]. destruct (Step (x k) IH2) as (d & Ed & Ld & Md). exists d. rewrite IH1. split; [exact Ed|]. split; [exact Ld|].
    assert (EX : x (S k) = Rsub_v (x k) d).
    { unfold x at 1. transitivity (map toR (map Fin (Rsub_v (x k) d))); [|apply TF]. f_equal.
      unfold Y. refine (eq_trans (nc_y_S jac lsolve P fn (map Fin y0) fs (auxs fill0) k) _).
      rewrite Hclip. change (y_at _ _ _ _ _ k) with (Y k). rewrite IH1, Ed. apply vsub_Fin. }
    split; [exact EX|]. rewrite EX. exact Md. }
  exists x. split; [intro k; apply Inv|].
  assert (Con : forall k, (Rdist_inf (x (S k)) root <= q * Rdist_inf (x k) root)%R).
  { intro k. destruct (XS k) as (d & _ & _ & _ & M). eapply Rle_trans; [exact M|]. apply Hlin, Inv. }
  split; [exact Con|]. split.
  { intros gamma Hg k. destruct (XS k) as (d & _ & _ & _ & M). eapply Rle_trans; [exact M|]. apply Hg, Inv. }
  assert (Geo : forall k, (Rdist_inf (x k) root <= q ^ k * rho)%R).
  { induction k as [|k IH]; [rewrite Rmult_1_l; apply Inv|]. eapply Rle_trans; [apply Con|]. cbn [pow]. rewrite Rmult_assoc. apply Rmult_le_compat_l; [lra|exact IH]. }
  assert (Tri : forall k, (Rdist_inf (x k) (x (S k)) <= 2 * Rdist_inf (x k) root /\ (1 - q) * Rdist_inf (x (S k)) root <= q * Rdist_inf (x k) (x (S k)))%R).
  { intro k. pose proof (proj1 (proj2 (Inv k))) as L1. pose proof (proj1 (proj2 (Inv (S k)))) as L2.
    pose proof (Rdist_inf_tri (x k) root (x (S k)) ltac:(congruence) ltac:(congruence)) as T1. rewrite (Rdist_inf_sym root) in T1.
    pose proof (Rdist_inf_tri (x k) (x (S k)) root ltac:(congruence) ltac:(congruence)) as T2.
    pose proof (Con k). pose proof (Rdist_inf_pos (x k) root). split; nra. }
  assert (HS : forall k, S_ (S k) = mkNc (Some (map Fin (F (x k)))) (if nc_is_newton P then None else Some (jac fn (map Fin y0)))
                 (map Fin (Rsub_v (x k) (x (S k)))) (nc_diffsize (S_ (S k))) (nc_diffsize_prev (S_ (S k))) successful (nc_step (S_ (S k)))).
  { intro k. destruct (XS k) as (d & Ed & Ld & EX & _).
    assert (E : S_ (S k) = _) by exact (nc_st_S jac lsolve P fn (map Fin y0) fs (auxs fill0) k). cbv zeta in E.
    rewrite Hbox, HC in E. change (y_at _ _ _ _ _ k) with (Y k) in E. rewrite Ed in E. cbn [fst snd] in E.
    rewrite (proj1 (Inv k)) in E. unfold fn in E at 1. rewrite liftv_Fin in E. cbn [fst] in E.
    assert (ED : Rsub_v (x k) (x (S k)) = d).
    { rewrite EX. apply vsub_cancel. rewrite Ld. apply Inv. }
    rewrite ED. rewrite E. reflexivity. }
  assert (SR : forall k, says_result s fn (map Fin y0) st0 (auxs fill0) k = successful).
  { intros [|k]; unfold says_result; cbn [s_terminate s newton_chord]; unfold nc_terminate; rewrite HC.
    - change (st_at _ _ _ _ _ 0) with st0. reflexivity.
    - change (st_at _ _ _ _ _ (S k)) with (S_ (S k)). rewrite HS. reflexivity. }
  assert (AF : forall k, vallfinite (N:=XR) (asked s fn (map Fin y0) st0 (auxs fill0) k) = true).
  { intro k. unfold asked. change (y_at _ _ _ _ _ (pred k)) with (Y (pred k)). rewrite (proj1 (Inv _)). apply allfin_Fin. }
  intros K HK1 HK2.
  assert (HT0 : says_terminate s fn (map Fin y0) st0 (auxs fill0) 0 = false).
  { unfold says_terminate. change (asked s fn (map Fin y0) st0 (auxs fill0) 0) with (map Fin y0). change (st_at _ _ _ _ _ 0) with st0.
    cbn [s_terminate s newton_chord]. unfold nc_terminate. unfold st0, nc_st0; rewrite HC; cbn [nc_result nc_step nc_diff nc_f results_eqb negb orb fst].
    unfold cauchy_termination. apply andb_false_iff. left. rewrite Hnm, Hra, Haa.
    destruct (nltb _ _) eqn:E; auto. exfalso.
    apply (max_norm_lt XR_laws) in E; [|apply (dl_01 XR XR_div)]. rewrite Forall_nth in E.
    pose proof (proj1 Hy0) as Hy. destruct y0 as [|a y0']; [simpl in Hy; lia|].
    specialize (E 0 (xdiv (xabs PInf) (xadd (Fin atol) (xmul (Fin rtol) (xabs (Fin a))))) eq_refl).
    cbn in E. destruct (Rlt_dec _ 0); discriminate. }
  assert (HTK : says_terminate s fn (map Fin y0) st0 (auxs fill0) (S K) = true).
  { unfold says_terminate, asked. cbn [pred]. change (y_at _ _ _ _ _ K) with (Y K). change (st_at _ _ _ _ _ (S K)) with (S_ (S K)).
    rewrite HS, (proj1 (Inv K)). cbn [s_terminate s newton_chord]. unfold nc_terminate. rewrite HC.
    cbn [nc_result nc_step nc_diff nc_f results_eqb negb orb fst].
    pose proof (Geo K) as G. pose proof (Rdist_inf_pos (x K) root). pose proof (pow_le q K (proj1 Hq)).
    unfold cauchy_termination. rewrite Hnm, Hra, Haa. apply andb_true_iff. split.
    - apply (max_norm_lt XR_laws); [apply (dl_01 XR XR_div)|]. apply Forall_nth.
      intros i z Hz. unfold vdiv in Hz. apply nth_vmap2 in Hz. destruct Hz as (d & sc & E1 & E2 & ->).
      unfold vabs in E1. apply nth_map in E1. destruct E1 as (d' & E1 & ->). apply nth_map in E1. destruct E1 as (d0 & E1 & ->).
      unfold vscale_tol in E2. apply nth_map in E2. destruct E2 as (v & E2 & ->). apply nth_map in E2. destruct E2 as (v' & _ & ->).
      pose proof (Rabs_pos v'). cbn [nadd nmul nabs ndiv nltb nofQ XR xabs xmul xadd]. rewrite xdiv_fin by nra.
      cbn [xabs]. apply xltb_fin. rewrite Q2R_1. assert (0 < atol + rtol * Rabs v')%R by nra.
      unfold Rdiv. rewrite Rabs_mult, Rabs_Rabsolu, Rabs_inv, (Rabs_pos_eq (atol + _)) by lra.
      apply (Rmult_lt_reg_r (atol + rtol * Rabs v')); auto. rewrite Rmult_assoc, Rinv_l, Rmult_1_r, Rmult_1_l by lra.
      apply Rmax_norm_nth in E1. fold (Rdist_inf (x K) (x (S K))) in E1. pose proof (proj1 (Tri K)). nra.
    - apply (max_norm_lt XR_laws); [apply (dl_01 XR XR_div)|]. apply Forall_nth.
      intros i z Hz. unfold vdiv in Hz. apply nth_vmap2 in Hz. destruct Hz as (d & sc & E1 & E2 & ->).
      unfold vabs in E1. apply nth_map in E1. destruct E1 as (d' & E1 & ->). apply nth_map in E1. destruct E1 as (d0 & E1 & ->).
      unfold vscale_tol in E2. apply nth_map in E2. destruct E2 as (v & E2 & ->). apply nth_error_In in E2. unfold vfull in E2. apply repeat_spec in E2. subst v.
      cbn [nadd nmul nabs ndiv nltb nofQ XR xabs xmul xadd]. rewrite Q2R_0, Q2R_1, Rabs_R0, Rmult_0_r, Rplus_0_r. rewrite xdiv_fin by lra.
      cbn [xabs]. apply xltb_fin.
      unfold Rdiv. rewrite Rabs_mult, Rabs_Rabsolu, Rabs_inv, (Rabs_pos_eq atol) by lra.
      apply (Rmult_lt_reg_r atol); auto. rewrite Rmult_assoc, Rinv_l, Rmult_1_r, Rmult_1_l by lra.
      apply Rmax_norm_nth in E1. pose proof (HL (x K) (proj2 (Inv K))). nra. }
  destruct (solve_succeeds vallfinite s fn (map Fin y0) st0 _ fs auxs eq_refl eq_refl SR AF (ex_intro _ _ HTK)) as (k & T & M & Sol).
  assert (1 <= k) by (destruct k; [unfold st0 in *; congruence|lia]).
  exists k. split; [|split; [apply Geo|split]].
  - split; [assumption|]. destruct (le_lt_dec k (S K)) as [|NK]; auto. rewrite (M _ NK) in HTK. discriminate.
  - destruct k as [|k]; [lia|]. cbn [pred]. apply Tri.
  - intros fuel ms throw Hf Hms. eexists. destruct (Sol fuel ms throw Hf Hms) as [E1 E2]. split; [exact E1|]. split; [exact E2|].
    etransitivity; [|apply (proj1 (Inv k))]. reflexivity.
Qed.

(** f(x) = x^2 - 1 from 5/4, root 1: Newton and Chord both at least halve the error,
    Newton squares it, and with atol = 1/1000 both succeed within 11 steps. *)
Definition sq1 (v : list R) : list R := [nth 0 v 0 * nth 0 v 0 - 1]%R.
Definition sq1_J (v : list R) : list (list R) := [[2 * nth 0 v 0]]%R.
Definition sq1_solve (A : list (list R)) (c : list xr) : list xr * results :=
  ([Fin (toR (nth 0 c PInf) / nth 0 (nth 0 A []) 0)%R], successful).
Definition sq1_P (newton : bool) : nc_params (N:=XR) :=
  mkNcParams (N:=XR) (Fin 0) (Fin (1/1000)) (max_norm (N:=XR)) (Fin (1/100)) true newton None None (Fin (1/1000)).
Example C70_local_convergence_ex_pf : forall newton,
  let s := newton_chord (fun _ v => sq1_J (map toR v)) sq1_solve (sq1_P newton) in
  forall st0, s_init s (liftv sq1) [Fin (5/4)] (fun _ => [PInf]) (fun _ => tt) = Ret st0 ->
  exists x : nat -> list R,
    (forall k, y_at s (liftv sq1) [Fin (5/4)] st0 tt k = map Fin (x k)) /\
    (forall k, Rdist_inf (x (S k)) [1] <= 1 / 2 * Rdist_inf (x k) [1])%R /\
    (newton = true -> forall k, Rdist_inf (x (S k)) [1] <= 2 / 3 * Rdist_inf (x k) [1] ^ 2)%R /\
    exists k, 1 <= k <= 11 /\ forall fuel, k < fuel ->
      exists sol, iterative_solve vallfinite s (liftv sq1) fuel None true [Fin (5/4)] (fun _ => [PInf]) (fun _ => tt) = Ret sol /\
        result sol = successful /\ value sol = map Fin (x k).
Proof.
  intros newton s st0 Hi.
  assert (N1 : forall v, length v = 1 -> v = [nth 0 v 0%R]) by (intros [|a [|]] H; try discriminate; reflexivity).
  assert (RA : forall a, Rmax_norm [a] = Rabs a) by (intro a; cbn; apply Rmax_left, Rabs_pos).
  assert (BE : forall z, length z = 1 -> (Rdist_inf z [1%R] <= 1 / 4)%R -> exists a, z = [a] /\ Rdist_inf z [1%R] = Rabs (a - 1) /\ (-1/4 <= a - 1 <= 1/4)%R).
  { intros z Hz H. rewrite (N1 z Hz) in H |- *. exists (nth 0 z 0%R). split; [reflexivity|]. unfold Rdist_inf in *. cbn [Rsub_v] in *. rewrite RA in *. split; [reflexivity|].
    unfold Rabs in H. destruct (Rcase_abs _); lra. }
  assert (LE : forall a, (-1/4 <= a - 1 <= 1/4)%R ->
     Rmax_norm (Rsub_v (sq1 [a]) (mvec (sq1_J (if newton then [a] else [5/4]%R)) (Rsub_v [a] [1%R]))) = (Rabs (a - 1) * (if newton then Rabs (a - 1) else 3/2 - a))%R).
  { intros a Ha. unfold sq1, sq1_J, mvec. cbn [map nth Rsub_v Rdot]. destruct newton; cbn [map nth Rsub_v Rdot]; rewrite RA.
    - rewrite <- Rabs_mult. rewrite <- Rabs_Ropp. f_equal. ring.
    - rewrite <- (Rabs_pos_eq (3/2 - a)) by lra. rewrite <- Rabs_mult, <- Rabs_Ropp. f_equal. cbn. field. }
  destruct (C70_local_convergence_pf 1 sq1 sq1_J [1%R] [5/4]%R (2/3) (1/2) (1/4) (9/4) 0 (1/1000)
     (fun _ v => sq1_J (map toR v)) sq1_solve (sq1_P newton) (fun _ => [PInf]) (fun _ => tt)) with (st0 := st0) as (x & H1 & H2 & H3 & H4); try reflexivity; try lra; try lia; try exact Hi.
  - unfold sq1, zerov. cbn. f_equal. ring.
  - split; [reflexivity|]. unfold Rdist_inf. cbn [Rsub_v]. rewrite RA. rewrite Rabs_pos_eq; lra.
  - intros z _. split; [reflexivity|]. split; [split; repeat constructor|]. rewrite map_map. cbn [toR]. rewrite map_id. reflexivity.
  - intros z c [Hz Hd] Hc. destruct (BE z Hz Hd) as (a & -> & _ & Ha). rewrite (N1 c Hc). exists [(nth 0 c 0 / (2 * a))%R].
    split; [reflexivity|]. split; [reflexivity|]. unfold sq1_J, mvec. cbn. f_equal. field. lra.
  - intros z v [Hz Hd] Hv. destruct (BE z Hz Hd) as (a & -> & _ & Ha). rewrite (N1 v Hv). unfold sq1_J, mvec. cbn [sq1_P nc_is_newton]. 
    destruct newton; cbn [map nth Rdot]; rewrite !RA, Rplus_0_r, Rabs_mult; pose proof (Rabs_pos (nth 0 v 0%R)).
    + rewrite (Rabs_pos_eq (2 * a)) by lra. nra.
    + rewrite (Rabs_pos_eq (2 * (5/4))) by lra. nra.
  - intros z [Hz Hd]. destruct (BE z Hz Hd) as (a & -> & -> & Ha). cbn [sq1_P nc_is_newton]. rewrite (LE a Ha).
    pose proof (Rabs_pos (a - 1)). assert (Rabs (a - 1) <= 1/4)%R by (unfold Rabs; destruct (Rcase_abs _); lra). destruct newton; nra.
  - intros z [Hz Hd]. destruct (BE z Hz Hd) as (a & -> & -> & Ha). unfold sq1. cbn [nth]. rewrite RA.
    replace (a * a - 1)%R with ((a + 1) * (a - 1))%R by ring. rewrite Rabs_mult, (Rabs_pos_eq (a + 1)) by lra. pose proof (Rabs_pos (a - 1)). nra.
  - exists x. split; [exact H1|]. split; [exact H2|]. split.
    + intros ->. apply H3. intros z [Hz Hd]. destruct (BE z Hz Hd) as (a & -> & -> & Ha). cbn [sq1_P nc_is_newton]. rewrite (LE a Ha). apply Req_le. ring.
    + destruct (H4 10) as (k & K1 & _ & _ & K2); [lra|lra|]. exists k. split; [exact K1|]. intros fuel Hf. apply (K2 fuel None true Hf). discriminate.
Qed.
