(** What the search of cauchy_point.py computes (C56). *)

From Coq Require Import List Bool Lia QArith.
From Verif Require Import Num NumF64 Vec Results Search Bounds Spec_CauchySearch.
Import ListNotations.
Local Open Scope nat_scope.

Lemma breakpoints_eq : forall (N : Num), nisfin (ninf (n:=N)) = false -> forall y l u g : list N,
  length l = length y -> length u = length y -> length g = length y ->
  boundary_intercepts y l u g = breakpoints y l u g.
Proof.
  intros N HI.
  assert (K : forall y b g : N, leaf_intercept y b g = meets y b g).
  { intros y b g. unfold leaf_intercept, meets. cbv zeta. unfold nwhere.
    destruct (neqb g (lit 0)); cbn [negb andb]; [rewrite HI; reflexivity|].
    destruct (nleb (lit 0) (ndiv (nsub y b) g)); cbn [andb]; [reflexivity|rewrite HI; reflexivity]. }
  unfold boundary_intercepts. induction y as [|a y IH]; intros [|p l] [|q u] [|c g] H1 H2 H3; try discriminate; [reflexivity|].
  cbn in *. rewrite !K. f_equal. apply IH; lia.
Qed.

Section Search.
Context {N : Num}.

Lemma first_false_spec : forall l,
  match first_false l with
  | Some i => nth_error l i = Some false /\ forall j, j < i -> nth_error l j = Some true
  | None => forall j b, nth_error l j = Some b -> b = true
  end.
Proof.
  induction l as [|b l IH]; cbn; [intros [|j] b H; discriminate|].
  destruct b; cbn.
  - destruct (first_false l) as [i|]; cbn.
    + destruct IH as [H1 H2]. split; [exact H1|]. intros [|j] Hj; cbn; [reflexivity|]. apply H2. lia.
    + intros [|j] b H; cbn in H; [congruence|]. eapply IH; eauto.
  - split; [reflexivity|]. intros j Hj. lia.
Qed.

Lemma next_intercept_breakpoint : forall (ts : list N) prev, ts <> [] ->
  next_breakpoint ts prev (next_intercept ts prev).
Proof.
  intros ts prev Hne. unfold next_intercept, argmin_bool.
  set (c := fun i : N => if nisfin i then negb (nltb prev i) else true).
  pose proof (first_false_spec (map c ts)) as H. destruct (first_false (map c ts)) as [i|].
  - left. destruct H as [H1 H2]. rewrite nth_error_map in H1.
    destruct (nth_error ts i) as [t|] eqn:E; cbn in H1; [|discriminate]. injection H1 as H1.
    destruct (nth_error_split ts i E) as (l1 & l2 & E2 & L). exists l1, l2.
    rewrite (nth_error_nth ts i ninf E). split; [exact E2|].
    unfold c in H1. destruct (nisfin t) eqn:F; [|discriminate]. apply negb_false_iff in H1.
    split; [reflexivity|]. split; [exact H1|]. intros s Hs Fs. apply In_nth_error in Hs. destruct Hs as [j Ej].
    assert (j < length l1) by (apply nth_error_Some; congruence).
    specialize (H2 j ltac:(lia)). rewrite nth_error_map, E2, nth_error_app1, Ej in H2 by assumption.
    cbn in H2. injection H2 as H2. unfold c in H2. rewrite Fs in H2. apply negb_true_iff in H2. exact H2.
  - right. split.
    + intros s Hs Fs. apply In_nth_error in Hs. destruct Hs as [j Ej].
      specialize (H j (c s)). rewrite nth_error_map, Ej in H. specialize (H eq_refl).
      unfold c in H. rewrite Fs in H. apply negb_true_iff in H. exact H.
    + destruct ts as [|t ts]; [congruence|]. exists ts. reflexivity.
Qed.

Lemma loop_searched : forall (y lower upper grad : list N) (H : linop N) ts, ts <> [] ->
  forall fuel prev p x,
  cauchy_loop y lower upper grad H ts fuel (mkCauchy prev p false) = Ret x ->
  searched (fun t => box_point y grad t lower upper)
    (fun p d => nadd (vdot grad d) (vdot p (op_mv H d))) (fun d => vdot d (op_mv H d)) y ts prev p x.
Proof.
  intros y l u g H ts Hne. induction fuel as [|k IH]; intros prev p x E; cbn [cauchy_loop c_terminate] in E; [discriminate|].
  pose proof (next_intercept_breakpoint ts prev Hne) as B.
  unfold cauchy_body in E. cbn [c_previous c_point] in E. cbv zeta in E.
  set (t := next_intercept ts prev) in *. clearbody t.
  set (path := fun t => box_point y g t l u) in *.
  set (slope := fun p d : list N => nadd (vdot g d) (vdot p (op_mv H d))).
  set (curv := fun d : list N => vdot d (op_mv H d)).
  change (box_point y g t l u) with (path t) in E.
  change (nadd (vdot g (vsub (path t) y)) (vdot p (op_mv H (vsub (path t) y)))) with (slope p (vsub (path t) y)) in E.
  change (vdot (vsub (path t) y) (op_mv H (vsub (path t) y))) with (curv (vsub (path t) y)) in E.
  destruct (nltb (lit 0) (slope p (vsub (path t) y))) eqn:S1;
  destruct (nltb t (ndiv (nneg (slope p (vsub (path t) y))) (curv (vsub (path t) y)))) eqn:S2;
  cbn [nwhere orb negb andb] in E.
  - destruct k; cbn [cauchy_loop c_terminate c_point] in E; injection E as E; (match type of E with box_point _ _ ?z _ _ = _ => change (path z = x) in E end); rewrite <- E; eapply s_both; eauto.
  - destruct k; cbn [cauchy_loop c_terminate c_point] in E; injection E as E; (match type of E with box_point _ _ ?z _ _ = _ => change (path z = x) in E end); rewrite <- E; eapply s_uphill; eauto.
  - destruct (existsb (fun i => nltb t i) ts) eqn:M; cbn [negb] in E.
    + apply existsb_exists in M. destruct M as (s & Hs & Ls). eapply s_next; eauto.
    + assert (M' : forall s, In s ts -> nltb t s = false).
      { intros s Hs. destruct (nltb t s) eqn:F; [|reflexivity].
        rewrite <- M. symmetry. apply existsb_exists. eauto. }
      destruct k; cbn [cauchy_loop c_terminate c_point] in E; injection E as E; (match type of E with box_point _ _ ?z _ _ = _ => change (path z = x) in E end); rewrite <- E; eapply s_last; eauto.
  - destruct k; cbn [cauchy_loop c_terminate c_point] in E; injection E as E; (match type of E with box_point _ _ ?z _ _ = _ => change (path z = x) in E end); rewrite <- E; eapply s_inside; eauto.
Qed.
End Search.

(** Any arithmetic whose infinity is not finite. Whatever the search of cauchy_point returns, it found by
    walking the projected path clip(y - t g) from breakpoint to breakpoint: on the
    segment ending at breakpoint t, with d = clip(y - t g) - y, it takes the slope
    g.d + p.Hd at the current point p and the curvature d.Hd; it stops at once at
    the previous breakpoint if the slope is positive, at - slope / curvature if
    that is no further than t, and goes on to t only if the slope is not positive,
    - slope / curvature exceeds t, and some breakpoint lies beyond t. Missing from
    the full claim, and false of this search (C56_not_minimiser_refuted): that the
    point is a minimiser of the model along the path. *)
Lemma C56_search_partial_pf :
  forall (N : Num) (y lower upper grad : list N) (H : linop N) (fuel : nat) (pt : list N),
    nisfin (ninf (n:=N)) = false ->
    length lower = length y -> length upper = length y -> length grad = length y ->
    existsb (fun t => nltb (lit 0) t && nltb t (lit 1)) (breakpoints y lower upper grad) = true ->
    cauchy_point y lower upper grad H fuel = Ret pt ->
    searched (fun t => vclip (vsub y (vscale t grad)) lower upper)
      (fun p d => nadd (vdot grad d) (vdot p (op_mv H d))) (fun d => vdot d (op_mv H d))
      y (breakpoints y lower upper grad) (lit 0) y pt.
Proof.
  intros N y l u g H fuel pt HI L1 L2 L3 B E. unfold cauchy_point in E.
  rewrite (breakpoints_eq N HI y l u g L1 L2 L3) in E. rewrite B in E.
  refine (loop_searched y l u g H _ _ fuel (lit 0) y pt E).
  intro Z. rewrite Z in B. discriminate.
Qed.

(** binary64, the square [0,1] x [0,1] from (1/2, 1/2) with gradient (1, 2) and H =
    I/8: there are breakpoints, and the search returns after two passes and not
    after one. *)
Example C56_search_ex_pf :
  let c := f64_ofQ (1#8) in
  let y := [f64_ofQ (1#2); f64_ofQ (1#2)] in
  let l := [f64_ofZ 0; f64_ofZ 0] in
  let u := [f64_ofZ 1; f64_ofZ 1] in
  let g := [f64_ofZ 1; f64_ofZ 2] in
  let H := MatOp (N:=F64) 2 [[c; f64_ofZ 0]; [f64_ofZ 0; c]] in
  nisfin (ninf (n:=F64)) = false /\
  existsb (fun i => nltb (n:=F64) (lit 0) i && nltb (n:=F64) i (lit 1)) (breakpoints (N:=F64) y l u g) = true /\
  exists pt, cauchy_point (N:=F64) y l u g H 10 = Ret pt.
Proof. cbv zeta. split; [vm_compute; reflexivity|]. split; [vm_compute; reflexivity|]. eexists. vm_compute. reflexivity. Qed.
