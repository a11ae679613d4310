(** Solves in other units, tolerances included (C123). *)

From Coq Require Import String List Bool Arith Lia ZArith QArith Reals Lra Psatz.
From Coquelicot Require Import Coquelicot.
From Coq Require Import List.
From Verif Require Import Num NumFacts Vec VecFacts Results Iterate Spec_Iterate Iterate_proofs.
From Verif Require Import FixedPoint Bisection Golden NewtonChord NelderMead Search Descent Minimisers Solvers Spec_Dimension.
Import ListNotations.
Local Open Scope nat_scope.

(** ** Two solves in lockstep *)

Section Lockstep.
  Context {Y Out Out' Aux : Type}.
  Variables (s1 : Solver Y Out Aux) (s2 : Solver Y Out' Aux).
  Variables (fn1 : Y -> Out * Aux) (fn2 : Y -> Out' * Aux) (isfin : Y -> bool).
  Variable U : Y -> Y.
  Variable Rel : Y -> St s1 -> St s2 -> Prop.
  Variables (y0 : Y) (fs1 : fillv -> Out) (fs2 : fillv -> Out') (auxs : fillv -> Aux).
  Hypothesis Hfin : forall y a b, Rel y a b -> isfin (U y) = isfin y.
  Hypothesis Hinit : match s_init s1 fn1 y0 fs1 auxs, s_init s2 fn2 (U y0) fs2 auxs with
    | Ret a, Ret b => Rel y0 a b | Raise e, Raise e' => e' = e | Unfinished, Unfinished => True | _, _ => False end.
  Hypothesis Hstep : forall y a b, Rel y a b ->
    fst (fst (s_step s2 fn2 (U y) b)) = U (fst (fst (s_step s1 fn1 y a))) /\ snd (s_step s2 fn2 (U y) b) = snd (s_step s1 fn1 y a) /\
    Rel (fst (fst (s_step s1 fn1 y a))) (snd (fst (s_step s1 fn1 y a))) (snd (fst (s_step s2 fn2 (U y) b))).
  Hypothesis Hterm : forall y a b y' a' b', Rel y a b -> Rel y' a' b' -> s_terminate s2 fn2 (U y) b' = s_terminate s1 fn1 y a'.
  Hypothesis Hpost : forall y a b x r, Rel y a b ->
    s_post s2 fn2 (U y) x b r = (U (fst (fst (s_post s1 fn1 y x a r))), snd (fst (s_post s1 fn1 y x a r)), snd (s_post s1 fn1 y x a r)).

  Definition crel (c1 : carry (Y:=Y) (Aux:=Aux) (St s1)) (c2 : carry (Y:=Y) (Aux:=Aux) (St s2)) : Prop :=
    c_y c2 = U (c_y c1) /\ c_num_steps c2 = c_num_steps c1 /\ c_aux c2 = c_aux c1 /\ c_terminate c2 = c_terminate c1 /\
    c_result c2 = c_result c1 /\ Rel (c_y c1) (c_state c1) (c_state c2).

  Lemma tr_rel : forall y y' a b a' b', Rel y a b -> Rel y' a' b' ->
    terminate_and_result isfin s2 fn2 (U y) b' = terminate_and_result isfin s1 fn1 y a'.
  Proof. intros. unfold terminate_and_result. rewrite (Hterm y a b y' a' b') by assumption. rewrite (Hfin y a b) by assumption. reflexivity. Qed.

  Lemma while_crel : forall fuel ms c1 c2, crel c1 c2 ->
    match while_loop fuel (cond_fun s1) (body_fun isfin s1 fn1) ms c1, while_loop fuel (cond_fun s2) (body_fun isfin s2 fn2) ms c2 with
    | Ret a, Ret b => crel a b | Raise e, Raise e' => e' = e | Unfinished, Unfinished => True | _, _ => False end.
  Proof.
    induction fuel as [|fuel IH]; intros ms c1 c2 C; cbn; [exact I|].
    assert (E : cond_fun s2 c2 = cond_fun s1 c1).
    { destruct C as (C1 & C2 & C3 & C4 & C5 & C6). unfold cond_fun. rewrite C4, C5. reflexivity. }
    assert (B : crel (body_fun isfin s1 fn1 c1) (body_fun isfin s2 fn2 c2)).
    { destruct C as (C1 & C2 & C3 & C4 & C5 & C6). unfold body_fun. rewrite C1.
      pose proof (Hstep _ _ _ C6) as (S1 & S2 & S3).
      destruct (s_step s1 fn1 (c_y c1) (c_state c1)) as [[y1 a1] x1], (s_step s2 fn2 (U (c_y c1)) (c_state c2)) as [[y2 b2] x2].
      cbn [fst snd] in S1, S2, S3. subst y2 x2.
      rewrite (tr_rel _ _ _ _ _ _ C6 S3). destruct (terminate_and_result isfin s1 fn1 (c_y c1) a1) as [t r].
      repeat split; cbn; auto. }
    destruct ms as [[|m]|]; [exact C| |]; rewrite E; destruct (cond_fun s1 c1); try exact C; apply IH; exact B.
  Qed.

  Lemma lockstep : forall fuel ms throw,
    same_in_units U (iterative_solve isfin s1 fn1 fuel ms throw y0 fs1 auxs) (iterative_solve isfin s2 fn2 fuel ms throw (U y0) fs2 auxs).
  Proof.
    intros fuel ms throw. unfold iterative_solve, iterate.
    destruct (s_init s1 fn1 y0 fs1 auxs) as [a|e|], (s_init s2 fn2 (U y0) fs2 auxs) as [b|e'|]; try contradiction Hinit; cbn [obind];
      [|exact Hinit|exact I].
    rewrite (tr_rel _ _ _ _ _ _ Hinit Hinit). destruct (terminate_and_result isfin s1 fn1 y0 a) as [t r].
    pose proof (while_crel fuel ms (mkCarry y0 0 a (auxs fill0) t r) (mkCarry (U y0) 0 b (auxs fill0) t r)) as W.
    assert (C0 : crel (mkCarry y0 0 a (auxs fill0) t r) (mkCarry (U y0) 0 b (auxs fill0) t r)) by (repeat split; exact Hinit).
    specialize (W C0).
    destruct (while_loop fuel (cond_fun s1) (body_fun isfin s1 fn1) ms _) as [c1|e1|],
      (while_loop fuel (cond_fun s2) (body_fun isfin s2 fn2) ms _) as [c2|e2|]; try contradiction W; cbn [obind];
      [|exact W|exact I].
    destruct W as (C1 & C2 & C3 & C4 & C5 & C6). rewrite C1, C4, C5, C3.
    rewrite (Hpost _ _ _ _ _ C6).
    destruct (s_post s1 fn1 (c_y c1) (c_aux c1) (c_state c1) _) as [[fy fa] stt]. cbn [obind fst snd]. rewrite C2.
    match goal with |- context [throw && ?b] => destruct (throw && b) end; [reflexivity|]. repeat split.
  Qed.
End Lockstep.

(** ** Arithmetic in other units *)

Section Scale.
  Variable u : R.
  Hypothesis Hu : (0 < u)%R.

  Lemma sgn_scale : forall x, xsgn_inf (u * x) = xsgn_inf x.
  Proof.
    intro x. unfold xsgn_inf. destruct (Rlt_dec 0 (u * x)), (Rlt_dec 0 x); try reflexivity; try (exfalso; nra).
    destruct (Rlt_dec (u * x) 0), (Rlt_dec x 0); try reflexivity; exfalso; nra.
  Qed.
  Lemma sgn_u : xsgn_inf u = PInf.
  Proof. unfold xsgn_inf. destruct (Rlt_dec 0 u); [reflexivity|contradiction]. Qed.

  Lemma u_fin : forall x, unit_of u (Fin x) = Fin (u * x). Proof. reflexivity. Qed.
  Lemma u_pinf : unit_of u PInf = PInf. Proof. unfold unit_of; cbn. apply sgn_u. Qed.
  Lemma u_ninf : unit_of u NInf = NInf. Proof. unfold unit_of; cbn. rewrite sgn_u. reflexivity. Qed.
  Lemma u_nan : unit_of u NaN = NaN. Proof. reflexivity. Qed.

  Ltac xs := cbn [xadd xsub xmul xneg xabs xltb xeqb xdiv xisfin].
  Ltac go := xs; rewrite ?u_fin, ?u_pinf, ?u_ninf, ?u_nan; xs; rewrite ?u_fin, ?u_pinf, ?u_ninf, ?u_nan; try reflexivity.

  Lemma u_add : forall a b, xadd (unit_of u a) (unit_of u b) = unit_of u (xadd a b).
  Proof. intros [x| | |] [y| | |]; go. f_equal. ring. Qed.
  Lemma u_neg : forall a, xneg (unit_of u a) = unit_of u (xneg a).
  Proof. intros [x| | |]; go. f_equal. ring. Qed.
  Lemma u_sgn : forall x, unit_of u (xsgn_inf x) = xsgn_inf x.
  Proof. intro x. unfold xsgn_inf. repeat destruct Rlt_dec; go. Qed.
  Lemma u_sub : forall a b, xsub (unit_of u a) (unit_of u b) = unit_of u (xsub a b).
  Proof. intros a b. unfold xsub. rewrite u_neg. apply u_add. Qed.
  Lemma u_abs : forall a, xabs (unit_of u a) = unit_of u (xabs a).
  Proof. intros [x| | |]; go. f_equal. rewrite Rabs_mult, (Rabs_pos_eq u) by lra. reflexivity. Qed.
  Lemma u_mul : forall a b, xmul a (unit_of u b) = unit_of u (xmul a b).
  Proof.
    intros [x| | |] [y| | |]; go; rewrite ?sgn_scale, <- ?u_neg, ?u_sgn; try reflexivity.
    f_equal. ring.
  Qed.
  Lemma u_ltb : forall a b, xltb (unit_of u a) (unit_of u b) = xltb a b.
  Proof.
    intros [x| | |] [y| | |]; go. unfold Rltb. destruct (Rlt_dec (u * x) (u * y)), (Rlt_dec x y); try reflexivity; exfalso; nra.
  Qed.
  Lemma u_eqb : forall a b, xeqb (unit_of u a) (unit_of u b) = xeqb a b.
  Proof.
    intros [x| | |] [y| | |]; go. unfold Reqb. destruct (Req_EM_T (u * x) (u * y)), (Req_EM_T x y); try reflexivity; exfalso; nra.
  Qed.
  Lemma u_leb : forall a b, xleb (unit_of u a) (unit_of u b) = xleb a b.
  Proof. intros a b. unfold xleb. rewrite u_ltb, u_eqb. reflexivity. Qed.
  Lemma u_isfin : forall a, xisfin (unit_of u a) = xisfin a.
  Proof. intros [x| | |]; go. Qed.
  Lemma u_div : forall a b, xdiv (unit_of u a) (unit_of u b) = xdiv a b.
  Proof.
    intros [x| | |] [y| | |]; go; rewrite ?sgn_scale.
    - destruct (Req_EM_T (u * y) 0), (Req_EM_T y 0); try reflexivity; try (exfalso; nra). f_equal. field. lra.
    - destruct (Rlt_dec (u * y) 0), (Rlt_dec y 0); try reflexivity; exfalso; nra.
    - destruct (Rlt_dec (u * y) 0), (Rlt_dec y 0); try reflexivity; exfalso; nra.
  Qed.
  Lemma u_div_l : forall a b, xdiv (unit_of u a) b = unit_of u (xdiv a b).
  Proof.
    intros [x| | |] [y| | |]; go; rewrite ?sgn_scale; try (f_equal; ring).
    - destruct (Req_EM_T y 0); [symmetry; apply u_sgn|]. change (unit_of u (Fin (x / y))) with (Fin (u * (x / y))). f_equal. field. assumption.
    - destruct (Rlt_dec y 0); go.
    - destruct (Rlt_dec y 0); go.
  Qed.
  Lemma u_nan_test : forall a, nisnan (N:=XR) (unit_of u a) = nisnan (N:=XR) a.
  Proof. intro a. unfold nisnan. cbn [neqb XR]. rewrite u_eqb. reflexivity. Qed.
  Lemma u_max : forall a b, nmax (N:=XR) (unit_of u a) (unit_of u b) = unit_of u (nmax (N:=XR) a b).
  Proof.
    intros a b. unfold nmax. rewrite !u_nan_test. cbn [nltb XR]. rewrite u_ltb.
    destruct (nisnan (N:=XR) a), (nisnan (N:=XR) b), (xltb a b); reflexivity.
  Qed.
  Lemma u_min : forall a b, nmin (N:=XR) (unit_of u a) (unit_of u b) = unit_of u (nmin (N:=XR) a b).
  Proof.
    intros a b. unfold nmin. rewrite !u_nan_test. cbn [nltb XR]. rewrite u_ltb.
    destruct (nisnan (N:=XR) a), (nisnan (N:=XR) b), (xltb b a); reflexivity.
  Qed.
  Lemma u_zero : unit_of u (nofQ (n:=XR) 0) = nofQ (n:=XR) 0.
  Proof. change (Fin (u * Q2R 0) = Fin (Q2R 0)). f_equal. rewrite Q2R_0. ring. Qed.
  Lemma u_lt0 : forall a, xltb (unit_of u a) (nofQ (n:=XR) 0) = xltb a (nofQ (n:=XR) 0).
  Proof. intro a. rewrite <- u_zero at 1. apply u_ltb. Qed.
  Lemma u_0lt : forall a, xltb (nofQ (n:=XR) 0) (unit_of u a) = xltb (nofQ (n:=XR) 0) a.
  Proof. intro a. rewrite <- u_zero at 1. apply u_ltb. Qed.
  Lemma u_le0 : forall a, xleb (unit_of u a) (nofQ (n:=XR) 0) = xleb a (nofQ (n:=XR) 0).
  Proof. intro a. rewrite <- u_zero at 1. apply u_leb. Qed.
End Scale.

Lemma xmul_comm : forall a b, xmul a b = xmul b a.
Proof. intros [x| | |] [y| | |]; cbn; try reflexivity. f_equal. ring. Qed.

Lemma u_mul2 : forall a b x y, (0 < a)%R -> (0 < b)%R -> xmul (unit_of a x) (unit_of b y) = unit_of (a * b) (xmul x y).
Proof.
  intros a b x y Ha Hb. rewrite (u_mul b Hb), (xmul_comm (unit_of a x)), (u_mul a Ha), (xmul_comm y x).
  destruct (xmul x y) as [r| | |]; rewrite ?(u_pinf a Ha), ?(u_ninf a Ha), ?(u_pinf b Hb), ?(u_ninf b Hb), ?(u_pinf (a * b)), ?(u_ninf (a * b)) by nra;
    try reflexivity. rewrite !u_fin. f_equal. ring.
Qed.

(** ** Lists *)

Lemma units_length : forall d v, length d = length v -> length (units d v) = length v.
Proof. induction d as [|u d IH]; intros [|x v] E; cbn in *; try reflexivity; try discriminate. f_equal. apply IH. lia. Qed.

Lemma units_map2 : forall (f : xr -> xr -> xr) d a b, positive_units d -> (forall u x y, (0 < u)%R -> f (unit_of u x) (unit_of u y) = unit_of u (f x y)) ->
  vmap2 f (units d a) (units d b) = units d (vmap2 f a b).
Proof.
  intros f d a b Hd Hf. revert a b. induction Hd as [|u d Hu _ IH]; intros [|x a] [|y b]; cbn; try reflexivity.
  unfold units in IH. f_equal; [apply Hf; exact Hu|apply IH].
Qed.

Lemma units_finite : forall d v, positive_units d -> length d = length v -> vallfinite (N:=XR) (units d v) = vallfinite (N:=XR) v.
Proof.
  intros d v Hd. revert v. induction Hd as [|u d Hu _ IH]; intros [|x v] E; try reflexivity; try discriminate.
  cbn in *. rewrite (u_isfin u Hu). f_equal. apply IH. lia.
Qed.

Lemma scale_tol_units : forall d rtol atol atol' y, positive_units d -> tolerance_in d atol atol' -> length d = length y ->
  vscale_tol (N:=XR) rtol atol' (units d y) = units d (vscale_tol (N:=XR) rtol atol y).
Proof.
  intros d rtol atol atol' y Hd Ht. revert y. induction Hd as [|u d Hu _ IH]; intros [|x y] E; try reflexivity; try discriminate.
  apply Forall_cons_iff in Ht as (T1 & T2). cbn in *. f_equal; [|apply IH; [exact T2|lia]].
  rewrite (u_abs u Hu), (u_mul u Hu), T1. apply (u_add u Hu).
Qed.

Lemma div_units : forall d a b, positive_units d -> length a = length d -> vdiv (N:=XR) (units d a) (units d b) = vdiv (N:=XR) a b.
Proof.
  intros d a b Hd. revert a b. induction Hd as [|u d Hu _ IH]; intros [|x a] [|y b] E; try reflexivity; try discriminate.
  cbn in *. f_equal; [apply (u_div u Hu)|]. apply IH. lia.
Qed.

Lemma abs_units : forall d a, positive_units d -> vabs (N:=XR) (units d a) = units d (vabs (N:=XR) a).
Proof.
  intros d a Hd. revert a. induction Hd as [|u d Hu _ IH]; intros [|x a]; try reflexivity. cbn. f_equal; [apply (u_abs u Hu)|apply IH].
Qed.

Lemma zeros_units : forall d n, positive_units d -> length d = n -> units d (vfull (N:=XR) n (nofQ (n:=XR) 0)) = vfull (N:=XR) n (nofQ (n:=XR) 0).
Proof.
  intros d n Hd E. subst n. induction Hd as [|u d Hu _ IH]; [reflexivity|]. cbn in *. f_equal; [|exact IH]. apply u_zero.
Qed.
Lemma infs_units : forall d n, positive_units d -> length d = n -> units d (vfull (N:=XR) n PInf) = vfull (N:=XR) n PInf.
Proof.
  intros d n Hd E. subst n. induction Hd as [|u d Hu _ IH]; [reflexivity|]. cbn in *. f_equal; [|exact IH]. apply (u_pinf u Hu).
Qed.

Lemma map2_length : forall (A B C : Type) (f : A -> B -> C) a b, length a = length b -> length (vmap2 f a b) = length a.
Proof. induction a as [|x a IH]; intros [|y b] E; cbn in *; try reflexivity; try discriminate. f_equal. apply IH. lia. Qed.

Lemma cauchy_units : forall d e rtol atol atol' norm y dy f df,
  positive_units d -> positive_units e -> tolerance_in d atol atol' -> tolerance_in e atol atol' ->
  length y = length d -> length dy = length d -> length f = length e -> length df = length e ->
  cauchy_termination (N:=XR) rtol atol' norm (units d y) (units d dy) (units e f) (units e df) = cauchy_termination (N:=XR) rtol atol norm y dy f df.
Proof.
  intros. unfold cauchy_termination. rewrite !(scale_tol_units _ rtol atol atol') by (assumption || lia).
  rewrite !abs_units by assumption.
  rewrite !div_units; try assumption; try (unfold vabs; rewrite map_length; assumption). reflexivity.
Qed.

(** ** Fixed points *)

(** Fixed-point iteration with every unknown in a unit of its own. *)
Lemma C123_fixed_point_pf :
  forall (Aux : Type) (d : list R) rtol atol atol' damp norm (fn fn' : list xr -> list xr * Aux),
    let n := length d in let U := units d in
    positive_units d -> tolerance_in d atol atol' -> same_function (of_length n) (of_length n) U U fn fn' ->
  forall fuel ms throw y0 fs auxs, length y0 = n ->
    same_in_units U
      (iterative_solve (vallfinite (N:=XR)) (fixed_point_iteration (N:=XR) rtol atol damp norm) fn fuel ms throw y0 fs auxs)
      (iterative_solve (vallfinite (N:=XR)) (fixed_point_iteration (N:=XR) rtol atol' damp norm) fn' fuel ms throw (U y0) fs auxs).
Proof.
  intros Aux d rtol atol atol' damp norm fn fn' n U Hd Ht Hf fuel ms throw y0 fs auxs Hy.
  refine (lockstep (Y:=list xr) (fixed_point_iteration (N:=XR) rtol atol damp norm) (fixed_point_iteration (N:=XR) rtol atol' damp norm)
            fn fn' _ U (fun y (a b : xr) => length y = n /\ b = a) y0 fs fs auxs _ _ _ _ _ fuel ms throw).
  - intros y a b (L & _). apply units_finite; [exact Hd|symmetry; exact L].
  - cbn. split; [exact Hy|reflexivity].
  - intros y a b (L & E). subst b. destruct (Hf y L) as (L1 & E1). cbn [s_step fixed_point_iteration]. unfold fp_step. unfold U in *. rewrite E1.
    destruct (fn y) as [fy x]. cbn [fst snd] in *. unfold of_length in L1.
    assert (EU : fp_update (N:=XR) damp (units d fy) (units d y) = units d (fp_update (N:=XR) damp fy y)).
    { unfold fp_update. apply units_map2; [exact Hd|]. intros u p q Hu. cbn. rewrite !(u_mul u Hu). apply (u_add u Hu). }
    assert (LU : length (fp_update (N:=XR) damp fy y) = n).
    { unfold fp_update. rewrite map2_length; [exact L1|]. transitivity n; [exact L1|symmetry; exact L]. }
    split; [exact EU|split; [reflexivity|split; [exact LU|]]].
    rewrite EU. unfold vsub at 1. rewrite units_map2 by (try exact Hd; intros; apply u_sub; assumption).
    rewrite (scale_tol_units d rtol atol atol') by (try assumption; symmetry; exact LU).
    rewrite div_units; [reflexivity|exact Hd|]. rewrite map2_length; [exact L|]. transitivity n; [exact L|symmetry; exact LU].
  - intros y a b y' a' b' _ (_ & E). subst b'. reflexivity.
  - intros y a b x r (_ & E). reflexivity.
Qed.

(** ** Newton and Chord *)

(** Newton and chord methods: unknowns and residuals each in units of their own; box bounds are converted too, the tolerance of the residuals only matters for the Cauchy test. The linear solver is asked to give the converted step for the converted system. *)
Lemma C123_newton_pf :
  forall (Aux M : Type) (d e : list R) (jac : (list xr -> list xr * Aux) -> list xr -> M) lsolve
         rtol atol atol' norm kappa cauchy is_newton lower upper resolution (fn fn' : list xr -> list xr * Aux) y0 fs fs' auxs,
    let n := length d in let m := length e in let U := units d in let V := units e in
    let solver atol lower upper := newton_chord (N:=XR) jac lsolve (mkNcParams (N:=XR) rtol atol norm kappa cauchy is_newton lower upper resolution) in
    positive_units d -> positive_units e -> tolerance_in d atol atol' -> (cauchy = true -> tolerance_in e atol atol') ->
    (forall l, lower = Some l \/ upper = Some l -> length l = n) ->
    length y0 = n -> length (fs fillinf) = m -> fs' fillinf = V (fs fillinf) ->
    same_function (of_length n) (of_length m) U V fn fn' ->
    (forall y, length y = n ->
       let p := if is_newton then y else y0 in
       let step := lsolve (jac fn p) (fst (fn y)) in
       length (fst step) = n /\ lsolve (jac fn' (U p)) (V (fst (fn y))) = (U (fst step), snd step)) ->
  forall fuel ms throw,
    same_in_units U
      (iterative_solve (vallfinite (N:=XR)) (solver atol lower upper) fn fuel ms throw y0 fs auxs)
      (iterative_solve (vallfinite (N:=XR)) (solver atol' (option_map U lower) (option_map U upper)) fn' fuel ms throw (U y0) fs' auxs).
Proof.
  intros Aux M d e jac lsolve rtol atol atol' norm kappa cauchy is_newton lower upper resolution fn fn' y0 fs fs' auxs n m U V solver
    Hd He Td Te Hbox Hy Hfs Hfs' Hf Hs fuel ms throw.
  set (rel := fun (y : list xr) (a b : nc_state (N:=XR) (M:=M)) =>
    length y = n /\
    (nc_linear_state a = (if is_newton then None else Some (jac fn y0)) /\ nc_linear_state b = (if is_newton then None else Some (jac fn' (U y0)))) /\
    (nc_f b = option_map V (nc_f a) /\ (forall f, nc_f a = Some f -> length f = m) /\ (cauchy = true -> nc_f a <> None)) /\
    nc_diff b = U (nc_diff a) /\ length (nc_diff a) = n /\ nc_diffsize b = nc_diffsize a /\ nc_diffsize_prev b = nc_diffsize_prev a /\
    nc_result b = nc_result a /\ nc_step b = nc_step a).
  refine (lockstep (Y:=list xr) (solver atol lower upper) (solver atol' (option_map U lower) (option_map U upper))
            fn fn' _ U rel y0 fs fs' auxs _ _ _ _ _ fuel ms throw).
  - intros y a b (L & _). apply units_finite; [exact Hd|symmetry; exact L].
  - cbn. unfold rel; cbn. split; [exact Hy|]. split; [destruct is_newton; auto|]. split; [|].
    + destruct cauchy; cbn; split; try reflexivity; [f_equal; exact Hfs'|split; [intros f E; injection E as <-; exact Hfs|discriminate]|split; discriminate].
    + split; [|split; [|auto]].
      * unfold U. rewrite units_length by (symmetry; exact Hy). symmetry. apply infs_units; [exact Hd|symmetry; exact Hy].
      * unfold vfull. rewrite repeat_length. exact Hy.
  - intros y a b (L & (La & Lb) & (F1 & F2 & F3) & D1 & D2 & D3 & D4 & D5 & D6).
    destruct (Hf y L) as (L1 & E1). destruct (Hs y L) as (L2 & E2).
    cbn [s_step solver newton_chord]. unfold nc_step_fn. rewrite E1.
    assert (S1 : nc_solve (N:=XR) jac lsolve (mkNcParams (N:=XR) rtol atol norm kappa cauchy is_newton lower upper resolution) fn y (fst (fn y)) a =
                 lsolve (jac fn (if is_newton then y else y0)) (fst (fn y))).
    { unfold nc_solve; cbn [nc_is_newton]. rewrite La. destruct is_newton; reflexivity. }
    assert (S2 : nc_solve (N:=XR) jac lsolve (mkNcParams (N:=XR) rtol atol' norm kappa cauchy is_newton (option_map U lower) (option_map U upper) resolution) fn' (U y) (V (fst (fn y))) b =
                 lsolve (jac fn' (U (if is_newton then y else y0))) (V (fst (fn y)))).
    { unfold nc_solve; cbn [nc_is_newton]. rewrite Lb. destruct is_newton; reflexivity. }
    destruct (fn y) as [fx x]. cbn [fst snd] in *.
    rewrite S2, S1, E2.
    destruct (lsolve (jac fn (if is_newton then y else y0)) fx) as [step res]. cbn [fst snd] in *.
    set (P1 := mkNcParams (N:=XR) rtol atol norm kappa cauchy is_newton lower upper resolution).
    set (P2 := mkNcParams (N:=XR) rtol atol' norm kappa cauchy is_newton (option_map U lower) (option_map U upper) resolution).
    assert (V0 : vsub (N:=XR) (U y) (U step) = U (vsub (N:=XR) y step)).
    { unfold vsub, U. apply units_map2; [exact Hd|]. intros; apply u_sub; assumption. }
    assert (L0 : length (vsub (N:=XR) y step) = n).
    { unfold vsub. rewrite map2_length; [exact L|]. transitivity n; [exact L|symmetry; exact L2]. }
    assert (C : nc_clip P2 (U (vsub (N:=XR) y step)) = U (nc_clip P1 (vsub (N:=XR) y step)) /\ length (nc_clip P1 (vsub (N:=XR) y step)) = n).
    { generalize dependent (vsub (N:=XR) y step). intros z _ Lz. unfold nc_clip. cbn [nc_lower nc_upper P1 P2].
      assert (A : exists z', match lower with Some l => vmap2 (nmax (N:=XR)) z l | None => z end = z' /\ length z' = n /\
                  match option_map U lower with Some l => vmap2 (nmax (N:=XR)) (U z) l | None => U z end = U z').
      { eexists; split; [reflexivity|]. destruct lower as [l|]; cbn [option_map]; [|auto].
        assert (Ll : length l = n) by (apply Hbox; left; reflexivity). split.
        - rewrite map2_length; [exact Lz|]. transitivity n; [exact Lz|symmetry; exact Ll].
        - unfold U. apply units_map2; [exact Hd|]. intros; apply u_max; assumption. }
      destruct A as (z' & A1 & A2 & A3). cbn [T XR] in *. rewrite A1, A3. destruct upper as [l|]; cbn [option_map]; [|auto].
      assert (Ll : length l = n) by (apply Hbox; right; reflexivity). split.
      - unfold U. apply units_map2; [exact Hd|]. intros; apply u_min; assumption.
      - rewrite map2_length; [exact A2|]. transitivity n; [exact A2|symmetry; exact Ll]. }
    destruct C as (C1 & C2). rewrite V0, C1.
    assert (HB : has_box (N:=XR) P2 = has_box (N:=XR) P1) by (unfold has_box; cbn; destruct lower, upper; reflexivity).
    rewrite HB. set (z := nc_clip P1 (vsub (N:=XR) y step)) in *.
    assert (DD : (if has_box (N:=XR) P1 then vsub (N:=XR) (U y) (U z) else U step) = U (if has_box (N:=XR) P1 then vsub (N:=XR) y z else step) /\
                 length (if has_box (N:=XR) P1 then vsub (N:=XR) y z else step) = n).
    { destruct (has_box (N:=XR) P1); [|auto]. split.
      - unfold vsub, U. apply units_map2; [exact Hd|]. intros; apply u_sub; assumption.
      - unfold vsub. rewrite map2_length; [exact L|]. transitivity n; [exact L|symmetry; exact C2]. }
    destruct DD as (DD1 & DD2). rewrite DD1. set (dd := if has_box (N:=XR) P1 then vsub (N:=XR) y z else step) in *.
    split; [reflexivity|split; [reflexivity|]]. unfold rel. cbn [fst snd nc_linear_state nc_f nc_diff nc_diffsize nc_diffsize_prev nc_result nc_step nc_rtol nc_atol nc_norm nc_cauchy P1 P2].
    split; [exact C2|]. split; [auto|]. split.
    { destruct cauchy; cbn; split; try reflexivity; [split; [intros f E; injection E as <-; exact L1|discriminate]|split; discriminate]. }
    split; [reflexivity|split; [exact DD2|split; [|auto]]].
    unfold U. rewrite (scale_tol_units d rtol atol atol') by (try assumption; symmetry; exact C2).
    rewrite div_units; [reflexivity|exact Hd|exact DD2].
  - intros y a b y' a' b' (L & _) (_ & _ & (F1 & F2 & F3) & D1 & D2 & D3 & D4 & D5 & D6).
    cbn [s_terminate solver newton_chord]. unfold nc_terminate. cbn [nc_cauchy nc_rtol nc_atol nc_norm nc_kappa nc_resolution].
    rewrite D3, D4, D5, D6. destruct cauchy; [|reflexivity].
    rewrite F1, D1. specialize (F3 eq_refl). destruct (nc_f a') as [f|]; [|congruence]. cbn [option_map].
    specialize (F2 f eq_refl).
    assert (EV : vfull (N:=XR) (length (V f)) (nofQ (n:=XR) 0) = V (vfull (N:=XR) (length f) (nofQ (n:=XR) 0))).
    { unfold V. rewrite units_length by (symmetry; exact F2). symmetry. apply zeros_units; [exact He|symmetry; exact F2]. }
    cbn [T XR] in *. rewrite EV. unfold U, V. rewrite (cauchy_units d e rtol atol atol'); auto.
    unfold vfull. rewrite repeat_length. exact F2.
  - intros y a b x r _. reflexivity.
Qed.

(** ** Bisection *)

Lemma tol1 : forall u atol atol', tolerance_in [u] atol atol' -> atol' = unit_of u atol.
Proof. intros u atol atol' H. inversion H. assumption. Qed.

Lemma obind_units : forall (S : Type) u (rel : S -> S -> Prop) (o o' : outcome (xr * xr)) (g g' : xr * xr -> outcome S),
  match o, o' with Ret a, Ret b => b = (unit_of u (fst a), unit_of u (snd a)) | Unfinished, Unfinished => True | _, _ => False end ->
  (forall c, match g c, g' (unit_of u (fst c), unit_of u (snd c)) with Ret a, Ret b => rel a b | Raise e, Raise e' => e' = e | Unfinished, Unfinished => True | _, _ => False end) ->
  match obind o g, obind o' g' with Ret a, Ret b => rel a b | Raise e, Raise e' => e' = e | Unfinished, Unfinished => True | _, _ => False end.
Proof. intros S u rel [a|e|] [b|e'|] g g' W H; try contradiction W; cbn [obind]; [subst b; apply H|exact I]. Qed.

(** Bisection, interval and its expansion included; the fillers of init do not matter. *)
Lemma C123_bisection_pf :
  forall (Aux : Type) (u w : R) rtol atol atol' flip expand efuel lower upper (fn fn' : xr -> xr * Aux),
    (0 < u)%R -> (0 < w)%R -> tolerance_in [u; w] atol atol' -> same_function any any (unit_of u) (unit_of w) fn fn' ->
  forall fuel ms throw y0 fs fs' auxs,
    same_in_units (unit_of u)
      (iterative_solve xisfin (bisection (N:=XR) rtol atol flip expand efuel lower upper) fn fuel ms throw y0 fs auxs)
      (iterative_solve xisfin (bisection (N:=XR) rtol atol' flip expand efuel (unit_of u lower) (unit_of u upper)) fn' fuel ms throw (unit_of u y0) fs' auxs).
Proof.
  intros Aux u w rtol atol atol' flip expand efuel lower upper fn fn' Hu Hw Ht Hf fuel ms throw y0 fs fs' auxs.
  pose proof (Forall_inv Ht) as T1. pose proof (Forall_inv (Forall_inv_tail Ht)) as T2. cbv beta in T1, T2.
  set (rel := fun (y : xr) (a b : bis_state (N:=XR)) => bis_lower b = unit_of u (bis_lower a) /\ bis_upper b = unit_of u (bis_upper a) /\
                bis_flip b = bis_flip a /\ bis_error b = unit_of w (bis_error a)).
  assert (FN : forall y, fn' (unit_of u y) = (unit_of w (fst (fn y)), snd (fn y))) by (intro y; apply (Hf y I)).
  refine (lockstep (Y:=xr) (bisection (N:=XR) rtol atol flip expand efuel lower upper) (bisection (N:=XR) rtol atol' flip expand efuel (unit_of u lower) (unit_of u upper))
            fn fn' _ (unit_of u) rel y0 fs fs' auxs _ _ _ _ _ fuel ms throw).
  - intros y a b _. apply u_isfin; exact Hu.
  - cbn [s_init bisection]. unfold bis_init. destruct flip as [fb|].
    + unfold rel; cbn. rewrite (u_pinf w Hw). auto.
    + cbn [T XR] in *. rewrite !FN. cbn [fst nltb XR].
      assert (LV : xltb (unit_of w (fst (fn upper))) (unit_of w (fst (fn lower))) = xltb (fst (fn upper)) (fst (fn lower))) by (apply u_ltb; exact Hw).
      destruct expand.
      * unfold expand_interval_repeatedly. cbn [nltb XR]. rewrite LV, !(u_lt0 w Hw).
        set (ex := xorb (xltb (fst (fn lower)) (nofQ (n:=XR) 0)) (xltb (fst (fn upper)) (fst (fn lower)))).
        set (np := xltb (fst (fn lower)) (nofQ (n:=XR) 0)).
        assert (W : forall k c, match while_loop k (interval_contains_root (N:=XR) np ex fn) (expand_interval (N:=XR) ex) None c,
                     while_loop k (interval_contains_root (N:=XR) np ex fn') (expand_interval (N:=XR) ex) None (unit_of u (fst c), unit_of u (snd c)) with
                   | Ret a, Ret b => b = (unit_of u (fst a), unit_of u (snd a)) | Unfinished, Unfinished => True | _, _ => False end).
        { induction k as [|k IH]; intros c; cbn [while_loop]; [exact I|].
          assert (E1 : interval_contains_root (N:=XR) np ex fn' (unit_of u (fst c), unit_of u (snd c)) = interval_contains_root (N:=XR) np ex fn c).
          { unfold interval_contains_root. cbn [fst snd T XR]. destruct ex; rewrite FN; cbn [fst nltb XR]; rewrite (u_0lt w Hw); reflexivity. }
          assert (E2 : expand_interval (N:=XR) ex (unit_of u (fst c), unit_of u (snd c)) =
                       (unit_of u (fst (expand_interval (N:=XR) ex c)), unit_of u (snd (expand_interval (N:=XR) ex c)))).
          { destruct c as [lo up]. unfold expand_interval. cbn [fst snd]. cbn [nadd nsub nmul XR].
            rewrite (u_sub u Hu), (u_mul u Hu), (u_sub u Hu), (u_add u Hu). destruct ex; reflexivity. }
          rewrite E1. destruct (interval_contains_root (N:=XR) np ex fn c); [|destruct c; reflexivity].
          cbn [option_map]. rewrite E2. apply IH. }
        specialize (W efuel (lower, upper)). cbn [fst snd] in W. cbn [T XR] in *.
        refine (obind_units _ u (rel y0) _ _ _ _ W _). intros [l1 u1]. unfold rel; cbn. rewrite (u_pinf w Hw). auto.
      * rewrite LV, !(u_lt0 w Hw). destruct (eqb _ _); [reflexivity|]. unfold rel; cbn. rewrite (u_pinf w Hw). auto.
  - intros y a b (R1 & R2 & R3 & R4). cbn [s_step bisection]. unfold bis_step. cbn [T XR] in *. rewrite FN. destruct (fn y) as [er x].
    cbn [fst snd nltb XR]. rewrite (u_lt0 w Hw), R1, R2, R3. set (neg := xorb (bis_flip a) (xltb er (nofQ (n:=XR) 0))).
    unfold rel. cbn [bis_lower bis_upper bis_flip bis_error].
    assert (G : forall p q, nadd (n:=XR) (unit_of u p) (nmul (n:=XR) (nofQ (n:=XR) (1#2)) (nsub (n:=XR) (unit_of u q) (unit_of u p))) =
                  unit_of u (nadd (n:=XR) p (nmul (n:=XR) (nofQ (n:=XR) (1#2)) (nsub (n:=XR) q p)))).
    { intros p q. cbn [nadd nsub nmul XR]. rewrite (u_sub u Hu), (u_mul u Hu), (u_add u Hu). reflexivity. }
    destruct neg; rewrite G; repeat split; reflexivity.
  - intros y a b y' a' b' _ (R1 & R2 & R3 & R4). cbn [s_terminate bisection]. unfold bis_terminate. rewrite R1, R2, R4.
    cbn [nadd nsub nmul nabs nltb XR]. rewrite (u_sub u Hu), !(u_abs u Hu), (u_mul u Hu), (u_abs w Hw).
    rewrite T1 at 1. rewrite (u_add u Hu), (u_ltb u Hu). rewrite T2, (u_ltb w Hw). reflexivity.
  - intros y a b x r _. reflexivity.
Qed.

(** ** Golden-section search *)

Lemma cauchy1_units : forall u w rtol atol atol' norm y dy f df, (0 < u)%R -> (0 < w)%R -> tolerance_in [u; w] atol atol' ->
  cauchy_termination (N:=XR) rtol atol' norm [unit_of u y] [unit_of u dy] [unit_of w f] [unit_of w df] = cauchy_termination (N:=XR) rtol atol norm [y] [dy] [f] [df].
Proof.
  intros u w rtol atol atol' norm y dy f df Hu Hw Ht. apply (cauchy_units [u] [w] rtol atol atol' norm [y] [dy] [f] [df]); try reflexivity.
  - constructor; auto. - constructor; auto.
  - constructor; [exact (Forall_inv Ht)|auto]. - exact (Forall_inv_tail Ht).
Qed.

(** Golden-section search. *)
Lemma C123_golden_pf :
  forall (Aux : Type) (u w : R) rtol atol atol' lower upper (fn fn' : xr -> xr * Aux),
    (0 < u)%R -> (0 < w)%R -> tolerance_in [u; w] atol atol' -> same_function any any (unit_of u) (unit_of w) fn fn' ->
  forall fuel ms throw y0 fs fs' auxs,
    same_in_units (unit_of u)
      (iterative_solve xisfin (golden (N:=XR) rtol atol lower upper) fn fuel ms throw y0 fs auxs)
      (iterative_solve xisfin (golden (N:=XR) rtol atol' (unit_of u lower) (unit_of u upper)) fn' fuel ms throw (unit_of u y0) fs' auxs).
Proof.
  intros Aux u w rtol atol atol' lower upper fn fn' Hu Hw Ht Hf fuel ms throw y0 fs fs' auxs.
  set (rel := fun (y : xr) (a b : gs_state (N:=XR)) => gs_lower b = unit_of u (gs_lower a) /\ gs_middle b = unit_of u (gs_middle a) /\
                gs_upper b = unit_of u (gs_upper a) /\ gs_f_middle b = unit_of w (gs_f_middle a) /\ gs_first b = gs_first a /\ gs_terminate b = gs_terminate a).
  assert (FN : forall y, fn' (unit_of u y) = (unit_of w (fst (fn y)), snd (fn y))) by (intro y; apply (Hf y I)).
  refine (lockstep (Y:=xr) (golden (N:=XR) rtol atol lower upper) (golden (N:=XR) rtol atol' (unit_of u lower) (unit_of u upper))
            fn fn' _ (unit_of u) rel y0 fs fs' auxs _ _ _ _ _ fuel ms throw).
  - intros y a b _. apply u_isfin; exact Hu.
  - cbn [s_init golden]. unfold gs_init, rel. cbn [gs_lower gs_middle gs_upper gs_f_middle gs_first gs_terminate ndiv nsub XR T] in *.
    rewrite (u_sub u Hu), (u_div_l u Hu), FN. repeat split; reflexivity.
  - intros y a b (R1 & R2 & R3 & R4 & R5 & R6). cbn [s_step golden]. unfold gs_step. cbn [nadd nsub nltb XR T] in *.
    rewrite R1, R2, R3, R4, R5.
    assert (Y : (if gs_first a then xadd (unit_of u (gs_lower a)) (xsub (unit_of u (gs_upper a)) (unit_of u (gs_middle a))) else unit_of u y) =
                unit_of u (if gs_first a then xadd (gs_lower a) (xsub (gs_upper a) (gs_middle a)) else y)).
    { destruct (gs_first a); [|reflexivity]. rewrite (u_sub u Hu), (u_add u Hu). reflexivity. }
    rewrite Y. set (y_ := if gs_first a then xadd (gs_lower a) (xsub (gs_upper a) (gs_middle a)) else y). rewrite FN.
    destruct (fn y_) as [f x]. cbn [fst snd]. rewrite (u_sub u Hu), (u_sub w Hw), (u_ltb w Hw), (u_ltb u Hu).
    rewrite (cauchy1_units u w rtol atol atol') by assumption.
    unfold rel. destruct (xltb f (gs_f_middle a)), (xltb y_ (gs_middle a)); cbn [gs_lower gs_middle gs_upper gs_f_middle gs_first gs_terminate fst snd];
      rewrite (u_sub u Hu), (u_add u Hu); repeat split; reflexivity.
  - intros y a b y' a' b' _ (R1 & R2 & R3 & R4 & R5 & R6). cbn [s_terminate golden]. rewrite R6. reflexivity.
  - intros y a b x r _. reflexivity.
Qed.

(** ** Nelder-Mead *)

Section AllUnits.
  Variable u : R.
  Hypothesis Hu : (0 < u)%R.
  Lemma all_map2 : forall (f : xr -> xr -> xr) a b, (forall x y, f (unit_of u x) (unit_of u y) = unit_of u (f x y)) ->
    vmap2 f (all_units u a) (all_units u b) = all_units u (vmap2 f a b).
  Proof. intros f a b Hf. revert b. induction a as [|x a IH]; intros [|y b]; cbn; try reflexivity. f_equal; [apply Hf|apply IH]. Qed.
  Lemma all_add : forall a b, vadd (N:=XR) (all_units u a) (all_units u b) = all_units u (vadd (N:=XR) a b).
  Proof. intros. apply all_map2. intros; apply u_add; exact Hu. Qed.
  Lemma all_sub : forall a b, vsub (N:=XR) (all_units u a) (all_units u b) = all_units u (vsub (N:=XR) a b).
  Proof. intros. apply all_map2. intros; apply u_sub; exact Hu. Qed.
  Lemma all_where : forall p a b, vwhere (N:=XR) p (all_units u a) (all_units u b) = all_units u (vwhere (N:=XR) p a b).
  Proof. intros. unfold vwhere. apply all_map2. intros; destruct p; reflexivity. Qed.
  Lemma all_scale : forall c a, vscale (N:=XR) c (all_units u a) = all_units u (vscale (N:=XR) c a).
  Proof. intros. unfold vscale, all_units. rewrite !map_map. apply map_ext. intro x. cbn. apply u_mul; exact Hu. Qed.
  Lemma all_abs : forall a, vabs (N:=XR) (all_units u a) = all_units u (vabs (N:=XR) a).
  Proof. intros. unfold vabs, all_units. rewrite !map_map. apply map_ext. intro x. cbn. apply u_abs; exact Hu. Qed.
  Lemma all_div : forall a b, vdiv (N:=XR) (all_units u a) (all_units u b) = vdiv (N:=XR) a b.
  Proof. induction a as [|x a IH]; intros [|y b]; cbn; try reflexivity. f_equal; [apply u_div; exact Hu|apply IH]. Qed.
  Lemma all_length : forall a, length (all_units u a) = length a. Proof. intros; apply map_length. Qed.
  Lemma all_finite : forall a, vallfinite (N:=XR) (all_units u a) = vallfinite (N:=XR) a.
  Proof. induction a as [|x a IH]; cbn; [reflexivity|]. rewrite (u_isfin u Hu). f_equal. exact IH. Qed.
  Lemma all_zeros : forall n, all_units u (vfull (N:=XR) n (nofQ (n:=XR) 0)) = vfull (N:=XR) n (nofQ (n:=XR) 0).
  Proof. induction n as [|n IH]; [reflexivity|]. cbn in *. f_equal; [apply u_zero|exact IH]. Qed.
  Lemma all_infs : forall n, all_units u (vfull (N:=XR) n PInf) = vfull (N:=XR) n PInf.
  Proof. induction n as [|n IH]; [reflexivity|]. cbn in *. f_equal; [apply (u_pinf u Hu)|exact IH]. Qed.
  Lemma all_tol : forall rtol atol y, vscale_tol (N:=XR) rtol (unit_of u atol) (all_units u y) = all_units u (vscale_tol (N:=XR) rtol atol y).
  Proof.
    intros. unfold vscale_tol, all_units. rewrite !map_map. apply map_ext. intro x. cbn. rewrite (u_abs u Hu), (u_mul u Hu). apply (u_add u Hu).
  Qed.
  Lemma all_nth : forall i l, nth i (map (all_units u) l) [] = all_units u (nth i l []).
  Proof. intros. change (@nil xr) with (all_units u []) at 1. apply map_nth. Qed.

  (** the simplex *)
  Lemma all_direction : forall s (wv : list xr), search_direction (N:=XR) (map (all_units u) s) (all_units u wv) = all_units u (search_direction (N:=XR) s wv).
  Proof.
    intros s wv. unfold search_direction. rewrite map_length, all_length.
    assert (G : forall sc : xr, fold_right (vadd (N:=XR)) (vfull (N:=XR) (length wv) (nofQ (n:=XR) 0)) (map (fun a => map (fun x => ndiv (n:=XR) x sc) (vsub (N:=XR) a (all_units u wv))) (map (all_units u) s)) =
                all_units u (fold_right (vadd (N:=XR)) (vfull (N:=XR) (length wv) (nofQ (n:=XR) 0)) (map (fun a => map (fun x => ndiv (n:=XR) x sc) (vsub (N:=XR) a wv)) s))).
    { intro sc. induction s as [|a s IH]; cbn [map fold_right].
      - symmetry. apply all_zeros.
      - rewrite IH, all_sub. rewrite <- all_add. f_equal. unfold all_units. rewrite !map_map. apply map_ext. intro x. cbn. apply u_div_l; exact Hu. }
    apply G.
  Qed.
  Lemma all_along : forall (a b : list xr) c, along (N:=XR) (all_units u a) (all_units u b) c = all_units u (along (N:=XR) a b c).
  Proof. intros. unfold along. rewrite all_scale. apply all_add. Qed.

  Lemma all_leaf : forall adelta rdelta size running leaf,
    leaf_rows (N:=XR) (unit_of u adelta) rdelta size running (all_units u leaf) = map (all_units u) (leaf_rows (N:=XR) adelta rdelta size running leaf).
  Proof.
    intros. unfold leaf_rows. rewrite all_length, map_map. apply map_ext. intro row. unfold all_units. rewrite map_map. apply map_ext. intro c.
    assert (E : forall k, nth k (map (unit_of u) leaf) (nofQ (n:=XR) 0) = unit_of u (nth k leaf (nofQ (n:=XR) 0))).
    { intro k. rewrite <- (u_zero u) at 1. apply map_nth. }
    cbn [T XR] in *. rewrite !E. destruct (_ && _); [|reflexivity]. cbn [nadd nmul XR]. rewrite (u_mul u Hu), !(u_add u Hu). reflexivity.
  Qed.
  Lemma all_app : forall a b : list (list xr), vmap2 (@app xr) (map (all_units u) a) (map (all_units u) b) = map (all_units u) (vmap2 (@app xr) a b).
  Proof. induction a as [|x a IH]; intros [|y b]; cbn; try reflexivity. f_equal; [symmetry; apply map_app|apply IH]. Qed.
  Lemma all_rows : forall adelta rdelta size leaves running,
    build_rows (N:=XR) (unit_of u adelta) rdelta size running (map (all_units u) leaves) = map (all_units u) (build_rows (N:=XR) adelta rdelta size running leaves).
  Proof.
    induction leaves as [|l leaves IH]; intro running; cbn [map build_rows].
    - generalize (S size). induction n as [|n IH]; cbn; [reflexivity|]. f_equal. exact IH.
    - rewrite all_leaf, all_length, IH. apply all_app.
  Qed.
  Lemma all_split : forall shape y, split_leaves (N:=XR) shape (all_units u y) = map (all_units u) (split_leaves (N:=XR) shape y).
  Proof. induction shape as [|k shape IH]; intro y; cbn; [reflexivity|]. f_equal; [apply firstn_map|]. unfold all_units at 1. rewrite skipn_map. apply IH. Qed.
  Lemma all_simplex : forall adelta rdelta shape y,
    initial_simplex (N:=XR) (unit_of u adelta) rdelta shape (all_units u y) = map (all_units u) (initial_simplex (N:=XR) adelta rdelta shape y).
  Proof. intros. unfold initial_simplex. rewrite all_length, all_split. apply all_rows. Qed.

  Lemma all_top_gt : forall a b, top_gt (N:=XR) (unit_of u a) (unit_of u b) = top_gt (N:=XR) a b.
  Proof. intros. unfold top_gt. rewrite !(u_nan_test u Hu). cbn [nltb XR]. rewrite (u_ltb u Hu). reflexivity. Qed.
  Lemma all_top_from : forall l best ib i, top_from (N:=XR) (unit_of u best) ib i (all_units u l) =
    (fst (top_from (N:=XR) best ib i l), unit_of u (snd (top_from (N:=XR) best ib i l))).
  Proof.
    induction l as [|x l IH]; intros; cbn [all_units map top_from]; [reflexivity|]. cbn [T XR] in *. rewrite all_top_gt.
    destruct (top_gt (N:=XR) x best); apply IH.
  Qed.
  Lemma all_top1 : forall l, top1 (N:=XR) (all_units u l) = (fst (top1 (N:=XR) l), unit_of u (snd (top1 (N:=XR) l))).
  Proof. intros [|x l]; cbn [all_units map top1]; [cbn; rewrite (u_pinf u Hu); reflexivity|]. apply all_top_from. Qed.
  Lemma all_neg : forall l, map (nneg (n:=XR)) (all_units u l) = all_units u (map (nneg (n:=XR)) l).
  Proof. intro l. unfold all_units. rewrite !map_map. apply map_ext. intro x. apply (u_neg u Hu). Qed.
End AllUnits.

Lemma map_remove_at : forall (A B : Type) (f : A -> B) i l, remove_at i (map f l) = map f (remove_at i l).
Proof. intros A B f. induction i as [|i IH]; intros [|x l]; cbn; try reflexivity. f_equal. apply IH. Qed.
Lemma map_set_at : forall (A B : Type) (f : A -> B) i a l, set_at i (f a) (map f l) = map f (set_at i a l).
Proof. intros A B f. induction i as [|i IH]; intros a [|x l]; cbn; try reflexivity. f_equal. apply IH. Qed.

Lemma let4 : forall (A B C D : Type) (g : A -> A) (h : B -> B) (v : A) (s : C) (p : B * D),
  (g v, h (fst p), s, snd p) = let '(v0, f, s0, x) := (let '(b, x) := p in (v, b, s, x)) in (g v0, h f, s0, x).
Proof. intros. destruct p. reflexivity. Qed.

Section Finish.
  Context {Aux : Type}.
  Variables u w : R.
  Hypothesis Hu : (0 < u)%R.
  Hypothesis Hw : (0 < w)%R.
  Definition nmrel (a b : nm_state XR Aux) : Prop :=
     nm_simplex b = map (all_units u) (nm_simplex a) /\ nm_f_simplex b = all_units w (nm_f_simplex a) /\ nm_f_best b = unit_of w (nm_f_best a) /\
     nm_best b = all_units u (nm_best a) /\ nm_best_index b = nm_best_index a /\ nm_f_worst b = unit_of w (nm_f_worst a) /\ nm_worst b = all_units u (nm_worst a) /\
     nm_worst_index b = nm_worst_index a /\ nm_second_worst b = unit_of w (nm_second_worst a) /\ nm_counts b = nm_counts a /\
     nm_first_pass b = nm_first_pass a /\ nm_aux b = nm_aux a /\ nm_step_count b = nm_step_count a.

  (** [nm_step] after the trial vertex; after the new simplex *)
  Definition finish2 (st : nm_state XR Aux) (stats : nm_stats) (aux : Aux) (p : list XR * list (list XR)) : list XR * nm_state XR Aux * Aux :=
    let '(f_new_simplex, new_simplex) := p in
    let simplex := nm_simplex st in
    let '(best_index, f_best_neg) := top1 (map nneg f_new_simplex) in
    let '(worst_index, f_worst) := top1 f_new_simplex in
    let f_second_worst := snd (top1 (remove_at worst_index f_new_simplex)) in
    let best := nth best_index simplex [] in
    let worst := nth worst_index simplex [] in
    (best,
     mkNM new_simplex f_new_simplex (nneg f_best_neg) best best_index f_worst worst worst_index
       f_second_worst stats false aux (S (nm_step_count st)),
     aux).
  Definition finish (fn : list XR -> XR * Aux) (st : nm_state XR Aux) (q : list XR * XR * nm_stats * Aux) : list XR * nm_state XR Aux * Aux :=
    let '(new_vertex, f_new, stats, aux) := q in
    let simplex := nm_simplex st in
    let new_best := nltb f_new (nm_f_best st) in
    let best := vwhere new_best new_vertex (nm_best st) in
    let shrink := if nm_first_pass st then true else nltb (nm_f_worst st) f_new in
    let stats := update_stats stats false false false false shrink in
    finish2 st stats aux
      (if shrink then shrink_simplex fn best simplex (nm_first_pass st)
       else (set_at (nm_worst_index st) f_new (nm_f_simplex st), set_at (nm_worst_index st) new_vertex simplex)).

  Definition step_rel (r1 r2 : list XR * nm_state XR Aux * Aux) : Prop :=
    fst (fst r2) = all_units u (fst (fst r1)) /\ snd r2 = snd r1 /\ nmrel (snd (fst r1)) (snd (fst r2)).

  Lemma finish2_units : forall a b, nm_simplex b = map (all_units u) (nm_simplex a) -> nm_step_count b = nm_step_count a ->
    forall stats aux p, step_rel (finish2 a stats aux p) (finish2 b stats aux (all_units w (fst p), map (all_units u) (snd p))).
  Proof.
    intros a b R1 R13 stats aux [fs ss]. unfold finish2. cbn [fst snd]. rewrite R1, R13.
    rewrite (all_neg w Hw), !(all_top1 w Hw).
    destruct (top1 (N:=XR) (map (nneg (n:=XR)) fs)) as [bi fb]. destruct (top1 (N:=XR) fs) as [wi fw]. cbn [fst snd].
    unfold step_rel, nmrel. cbn [fst snd nm_simplex nm_f_simplex nm_f_best nm_best nm_best_index nm_f_worst nm_worst nm_worst_index nm_second_worst nm_counts nm_first_pass nm_aux nm_step_count].
    repeat split; try reflexivity; try apply all_nth.
    - apply (u_neg w Hw).
    - unfold all_units at 1. rewrite map_remove_at. change (map (unit_of w) (remove_at wi fs)) with (all_units w (remove_at wi fs)). rewrite (all_top1 w Hw). reflexivity.
  Qed.

  Lemma finish_units : forall (fn fn' : list XR -> XR * Aux) a b,
    (forall y, fn' (all_units u y) = (unit_of w (fst (fn y)), snd (fn y))) ->
    nm_simplex b = map (all_units u) (nm_simplex a) -> nm_f_simplex b = all_units w (nm_f_simplex a) -> nm_f_best b = unit_of w (nm_f_best a) ->
    nm_best b = all_units u (nm_best a) -> nm_f_worst b = unit_of w (nm_f_worst a) -> nm_worst_index b = nm_worst_index a ->
    nm_first_pass b = nm_first_pass a -> nm_step_count b = nm_step_count a ->
    forall q q', q' = (let '(v, f, s, x) := q in (all_units u v, unit_of w f, s, x)) -> step_rel (finish fn a q) (finish fn' b q').
  Proof.
    intros fn fn' a b FN R1 R2 R3 R4 R6 R8 R11 R13 [[[v f] s] x] q' ->. unfold finish. rewrite R1, R2, R3, R4, R6, R8, R11.
    assert (L1 : nltb (n:=XR) (unit_of w f) (unit_of w (nm_f_best a)) = nltb (n:=XR) f (nm_f_best a)) by (apply u_ltb; exact Hw).
    assert (L2 : nltb (n:=XR) (unit_of w (nm_f_worst a)) (unit_of w f) = nltb (n:=XR) (nm_f_worst a) f) by (apply u_ltb; exact Hw).
    rewrite L1, L2, (all_where u). clear L1 L2.
    generalize (vwhere (N:=XR) (nltb (n:=XR) f (nm_f_best a)) v (nm_best a)). intro best.
    generalize (if nm_first_pass a then true else nltb (n:=XR) (nm_f_worst a) f). intro sh.
    pose proof (finish2_units a b R1 R13 (update_stats s false false false false sh) x) as F2.
    destruct sh.
    - specialize (F2 (shrink_simplex fn best (nm_simplex a) (nm_first_pass a))).
      assert (E : shrink_simplex fn' (all_units u best) (map (all_units u) (nm_simplex a)) (nm_first_pass a) =
                  (all_units w (fst (shrink_simplex fn best (nm_simplex a) (nm_first_pass a))), map (all_units u) (snd (shrink_simplex fn best (nm_simplex a) (nm_first_pass a))))).
      { unfold shrink_simplex. cbn [fst snd].
        assert (E : (if nm_first_pass a then map (all_units u) (nm_simplex a) else map (fun z => vadd (N:=XR) (all_units u best) (vscale (N:=XR) (nofQ (n:=XR) (1#2)) (vsub (N:=XR) z (all_units u best)))) (map (all_units u) (nm_simplex a))) =
                    map (all_units u) (if nm_first_pass a then nm_simplex a else map (fun z => vadd (N:=XR) best (vscale (N:=XR) (nofQ (n:=XR) (1#2)) (vsub (N:=XR) z best))) (nm_simplex a))).
        { destruct (nm_first_pass a); [reflexivity|]. rewrite !map_map. apply map_ext. intro z. rewrite (all_sub u Hu), (all_scale u Hu), (all_add u Hu). reflexivity. }
        refine (f_equal2 pair _ E). refine (eq_trans (f_equal (map (fun v => fst (fn' v))) E) _). unfold all_units at 2. rewrite !map_map. apply map_ext. intro z. rewrite FN. reflexivity. }
      rewrite E. exact F2.
    - specialize (F2 (set_at (nm_worst_index a) f (nm_f_simplex a), set_at (nm_worst_index a) v (nm_simplex a))). cbn [fst snd] in F2.
      unfold all_units at 1. rewrite !map_set_at. exact F2.
  Qed.
End Finish.

(** Nelder-Mead, with the initial simplex in the new units (adelta converted, rdelta not). *)
Lemma C123_nelder_mead_pf :
  forall (Aux : Type) (u w : R) rtol atol atol' norm rdelta adelta shape (fn fn' : list xr -> xr * Aux),
    (0 < u)%R -> (0 < w)%R -> tolerance_in [u; w] atol atol' -> same_function any any (all_units u) (unit_of w) fn fn' ->
  forall fuel ms throw y0 fs fs' auxs,
    same_in_units (all_units u)
      (iterative_solve (vallfinite (N:=XR)) (NelderMead (N:=XR) rtol atol norm rdelta adelta shape) fn fuel ms throw y0 fs auxs)
      (iterative_solve (vallfinite (N:=XR)) (NelderMead (N:=XR) rtol atol' norm rdelta (unit_of u adelta) shape) fn' fuel ms throw (all_units u y0) fs' auxs).
Proof.
  intros Aux u w rtol atol atol' norm rdelta adelta shape fn fn' Hu Hw Ht Hf fuel ms throw y0 fs fs' auxs.
  pose proof (Forall_inv Ht) as T1. pose proof (Forall_inv (Forall_inv_tail Ht)) as T2. cbv beta in T1, T2.
  set (U := all_units u).
  set (rel := fun (y : list xr) (a b : nm_state XR Aux) => nmrel u w a b).
  assert (FN : forall y, fn' (U y) = (unit_of w (fst (fn y)), snd (fn y))) by (intro y; apply (Hf y I)).
  refine (lockstep (Y:=list xr) (NelderMead (N:=XR) rtol atol norm rdelta adelta shape) (NelderMead (N:=XR) rtol atol' norm rdelta (unit_of u adelta) shape)
            fn fn' _ U rel y0 fs fs' auxs _ _ _ _ _ fuel ms throw).
  - intros y a b _. apply all_finite; exact Hu.
  - cbn [s_init NelderMead]. unfold U. rewrite (all_simplex u Hu). unfold nm_start, rel, nmrel.
    cbn [nm_simplex nm_f_simplex nm_f_best nm_best nm_best_index nm_f_worst nm_worst nm_worst_index nm_second_worst nm_counts nm_first_pass nm_aux nm_step_count].
    rewrite map_length, all_nth, (u_zero w). repeat split; try reflexivity. symmetry. apply (all_infs w Hw).
  - intros y a b (R1 & R2 & R3 & R4 & R5 & R6 & R7 & R8 & R9 & R10 & R11 & R12 & R13).
    change (s_step (NelderMead (N:=XR) rtol atol norm rdelta adelta shape) fn y a) with (finish fn a (if nm_first_pass a then init_step (N:=XR) a else main_step (N:=XR) fn a)).
    change (s_step (NelderMead (N:=XR) rtol atol' norm rdelta (unit_of u adelta) shape) fn' (U y) b) with (finish fn' b (if nm_first_pass b then init_step (N:=XR) b else main_step (N:=XR) fn' b)).
    rewrite R11.
    assert (V : (if nm_first_pass a then init_step (N:=XR) b else main_step (N:=XR) fn' b) =
                let '(v, f, s, x) := (if nm_first_pass a then init_step (N:=XR) a else main_step (N:=XR) fn a) in (U v, unit_of w f, s, x)).
    { destruct (nm_first_pass a).
      - unfold init_step. rewrite R1, R10, R12. unfold U. rewrite all_nth. cbn [ninf XR]. rewrite (u_pinf w Hw). reflexivity.
      - unfold main_step. rewrite R1, R3, R6, R7, R9, R10. unfold U. rewrite (all_direction u Hu), !(all_along u Hu).
        cbn [T XR nltb] in *. assert (FNu : forall y, fn' (all_units u y) = (unit_of w (fst (fn y)), snd (fn y))) by exact FN.
        rewrite !FNu. cbn [fst nltb XR]. rewrite !(u_ltb w Hw). rewrite !(all_where u). rewrite ?FNu.
        apply let4. }
    pose proof (finish_units u w Hu Hw fn fn' a b FN R1 R2 R3 R4 R6 R8 R11 R13) as FU.
    refine (FU _ _ V).
  - intros y a b y' a' b' _ (R1 & R2 & R3 & R4 & R5 & R6 & R7 & R8 & R9 & R10 & R11 & R12 & R13).
    cbn [s_terminate NelderMead]. unfold nm_terminate. rewrite R3. cbn [nisfin XR]. rewrite (u_isfin w Hw).
    assert (E : nm_converged (N:=XR) rtol atol' norm b' = nm_converged (N:=XR) rtol atol norm a'); [|rewrite E; reflexivity].
    unfold nm_converged. rewrite R1, R2, R3, R4.
    assert (X : forall z, vdiv (N:=XR) (vabs (N:=XR) (vsub (N:=XR) (U z) (U (nm_best a')))) (map (fun q => nadd (n:=XR) atol' (nmul (n:=XR) rtol (nabs (n:=XR) q))) (U (nm_best a'))) =
                        vdiv (N:=XR) (vabs (N:=XR) (vsub (N:=XR) z (nm_best a'))) (map (fun q => nadd (n:=XR) atol (nmul (n:=XR) rtol (nabs (n:=XR) q))) (nm_best a'))).
    { intro z. unfold U. rewrite (all_sub u Hu), (all_abs u Hu). change (map (fun q => nadd (n:=XR) atol' (nmul (n:=XR) rtol (nabs (n:=XR) q))) (all_units u (nm_best a'))) with (vscale_tol (N:=XR) rtol atol' (all_units u (nm_best a'))).
      rewrite T1, (all_tol u Hu), (all_div u Hu). reflexivity. }
    cbn [T XR] in *. rewrite map_map. rewrite (map_ext _ _ X).
    unfold all_units. rewrite map_map. f_equal. f_equal. f_equal. apply map_ext. intro z. cbn [nadd nsub nmul nabs ndiv XR].
    rewrite T2, (u_sub w Hw), !(u_abs w Hw), (u_mul w Hw), (u_add w Hw), (u_div w Hw). reflexivity.
  - intros y a b x r (R1 & R2 & R3 & R4 & R5 & R6 & R7 & R8 & R9 & R10 & R11 & R12 & R13). cbn [s_post NelderMead fst snd]. unfold nm_post_stats. rewrite R10. reflexivity.
Qed.

(** ** Gradient descent *)

Lemma cauchy_all : forall u w rtol atol atol' norm y dy f df, (0 < u)%R -> (0 < w)%R -> tolerance_in [u; w] atol atol' ->
  cauchy_termination (N:=XR) rtol atol' norm (all_units u y) (all_units u dy) [unit_of w f] [unit_of w df] = cauchy_termination (N:=XR) rtol atol norm y dy [f] [df].
Proof.
  intros u w rtol atol atol' norm y dy f df Hu Hw Ht. pose proof (Forall_inv Ht) as T1. pose proof (Forall_inv (Forall_inv_tail Ht)) as T2. cbv beta in T1, T2.
  unfold cauchy_termination. change [unit_of w f] with (all_units w [f]). change [unit_of w df] with (all_units w [df]).
  rewrite T1 at 1. rewrite T2, !all_tol, !all_abs, !all_div by assumption. reflexivity.
Qed.

Lemma all_dot : forall a b x y, (0 < a)%R -> (0 < b)%R -> vdot (N:=XR) (all_units a x) (all_units b y) = unit_of (a * b) (vdot (N:=XR) x y).
Proof.
  intros a b x y Ha Hb. assert (Hab : (0 < a * b)%R) by (apply Rmult_lt_0_compat; assumption). unfold vdot, vsum, vmul. revert y.
  induction x as [|p x IH]; intros [|q y]; cbn [all_units map vmap2 fold_right]; try (symmetry; apply (u_zero (a * b))).
  rewrite <- (u_add (a * b) Hab). apply (f_equal2 xadd); [apply u_mul2; assumption|apply IH].
Qed.

Section GD.
  Context {Aux : Type}.
  Variables u w : R.
  Hypothesis Hu : (0 < u)%R.
  Hypothesis Hw : (0 < w)%R.
  Notation h := (u * u / w)%R.
  Lemma h_pos : (0 < h)%R. Proof. apply Rdiv_lt_0_compat; nra. Qed.
  Lemma q_pos : (0 < w / u)%R. Proof. apply Rdiv_lt_0_compat; assumption. Qed.

  Definition grel (f1 f2 : finfo XR) : Prop :=
    exists f g, f1 = EvalGrad (N:=XR) f g /\ f2 = EvalGrad (N:=XR) (unit_of w f) (all_units (w / u) g).

  Variables S1 S2 : Search XR.
  Variable sr : SSt S1 -> SSt S2 -> Prop.
  Definition search_in_units : Prop :=
    (forall y y' f f', sr (se_init S1 y f) (se_init S2 y' f')) /\ (forall f g, se_supports S1 (EvalGrad (N:=XR) f g) = true /\ se_supports S2 (EvalGrad (N:=XR) f g) = true) /\
    forall first y ye f1 f2 fe s1 s2, (first = true \/ grel f1 f2) -> sr s1 s2 ->
    exists t acc res s1' s2', se_step S1 first y ye f1 (Eval (N:=XR) fe) s1 = (t, acc, res, s1') /\
      se_step S2 first (all_units u y) (all_units u ye) f2 (Eval (N:=XR) (unit_of w fe)) s2 = (unit_of h t, acc, res, s2') /\ sr s1' s2' /\
      (first = true -> acc = true).
  Hypothesis HS : search_in_units.

  Variables (rtol atol atol' : XR) (norm : list XR -> XR) (grad_of : (list XR -> XR * Aux) -> list XR -> list XR) (fn fn' : list XR -> XR * Aux).
  Hypothesis Ht : tolerance_in [u; w] atol atol'.
  Hypothesis FN : forall y, fn' (all_units u y) = (unit_of w (fst (fn y)), snd (fn y)).
  Hypothesis HG : forall y, grad_of fn' (all_units u y) = all_units (w / u) (grad_of fn y).
  Notation P1 := (mkTols rtol atol norm).
  Notation P2 := (mkTols rtol atol' norm).
  Notation sol1 := (gradient_descent_solver P1 S1 (steepest_descent None) grad_of).
  Notation sol2 := (gradient_descent_solver P2 S2 (steepest_descent None) grad_of).

  Definition gdrel (y : list XR) (a : gd_state (Aux:=Aux) S1 (steepest_descent None)) (b : gd_state (Aux:=Aux) S2 (steepest_descent None)) : Prop :=
    gd_first_step b = gd_first_step a /\ gd_y_eval b = all_units u (gd_y_eval a) /\ sr (gd_search_state a) (gd_search_state b) /\
    (gd_first_step a = true \/ (grel (gd_f_info a) (gd_f_info b) /\ gd_descent_state b = all_units (w / u) (gd_descent_state a))) /\
    gd_aux b = gd_aux a /\ gd_terminate b = gd_terminate a /\ gd_result b = gd_result a.

  Lemma descent_units : forall t g, vscale (N:=XR) (nneg (n:=XR) (unit_of h t)) (all_units (w / u) g) = all_units u (vscale (N:=XR) (nneg (n:=XR) t) g).
  Proof.
    intros t g. unfold vscale, all_units. rewrite !map_map. apply map_ext. intro x. cbn [nneg nmul XR].
    rewrite (u_neg h h_pos), (u_mul2 h (w / u)) by (apply h_pos || apply q_pos).
    replace (h * (w / u))%R with u by (field; split; lra). reflexivity.
  Qed.

  Lemma gd_units_step : forall y a b, gdrel y a b ->
    fst (fst (gd_step P2 S2 (steepest_descent None) grad_of fn' (all_units u y) b)) = all_units u (fst (fst (gd_step P1 S1 (steepest_descent None) grad_of fn y a))) /\
    snd (gd_step P2 S2 (steepest_descent None) grad_of fn' (all_units u y) b) = snd (gd_step P1 S1 (steepest_descent None) grad_of fn y a) /\
    gdrel (fst (fst (gd_step P1 S1 (steepest_descent None) grad_of fn y a))) (snd (fst (gd_step P1 S1 (steepest_descent None) grad_of fn y a)))
          (snd (fst (gd_step P2 S2 (steepest_descent None) grad_of fn' (all_units u y) b))).
  Proof.
    intros y a b (A1 & A2 & A3 & A4 & A5 & A6 & A7). destruct a as [fi ye ss inf ax ds te re], b as [fi' ye' ss' inf' ax' ds' te' re'].
    cbn [gd_first_step gd_y_eval gd_search_state gd_f_info gd_aux gd_descent_state gd_terminate gd_result] in *. subst fi' ye' ax' te' re'.
    unfold gd_step. cbn [gd_first_step gd_y_eval gd_search_state gd_f_info gd_aux gd_descent_state gd_terminate gd_result].
    rewrite FN. destruct (fn ye) as [fe xe]. cbn [fst snd].
    destruct HS as (_ & _ & HS3).
    destruct (HS3 fi y ye inf inf' fe ss ss') as (t & acc & res & s1' & s2' & E1 & E2 & E3 & E4); [tauto|exact A3|].
    rewrite E1, E2. unfold gdrel. destruct acc; cbn [d_query d_step steepest_descent normalise info_grad].
    - assert (TT : (if fi then false else cauchy_termination (N:=XR) rtol atol' norm (all_units u ye) (vsub (N:=XR) (all_units u ye) (all_units u y)) [unit_of w fe] [nsub (n:=XR) (unit_of w fe) (as_min inf')]) =
                   (if fi then false else cauchy_termination (N:=XR) rtol atol norm ye (vsub (N:=XR) ye y) [fe] [nsub (n:=XR) fe (as_min inf)])).
      { destruct fi; [reflexivity|]. destruct A4 as [A4|((f & g & -> & ->) & _)]; [discriminate|]. cbn [as_min].
        assert (E : nsub (n:=XR) (unit_of w fe) (unit_of w f) = unit_of w (nsub (n:=XR) fe f)) by (apply u_sub; exact Hw).
        rewrite E, (all_sub u Hu). apply cauchy_all; assumption. }
      cbn [fst snd gd_first_step gd_y_eval gd_search_state gd_f_info gd_aux gd_descent_state gd_terminate gd_result].
      split; [reflexivity|]. split; [reflexivity|]. split; [reflexivity|]. split; [|split; [exact E3|split; [|split; [reflexivity|split; [exact TT|reflexivity]]]]].
      + refine (eq_trans _ (all_add u Hu ye (vscale (N:=XR) (nneg (n:=XR) t) (grad_of fn ye)))). apply (f_equal2 (vadd (N:=XR))); [reflexivity|].
        refine (eq_trans _ (descent_units t (grad_of fn ye))). apply (f_equal (vscale (N:=XR) _)). apply HG.
      + right. split; [|apply HG]. exists fe, (grad_of fn ye). split; [reflexivity|]. apply (f_equal (EvalGrad (N:=XR) (unit_of w fe))). apply HG.
    - destruct fi; [specialize (E4 eq_refl); discriminate|]. destruct A4 as [A4|(A4 & A8)]; [discriminate|].
      cbn [fst snd gd_first_step gd_y_eval gd_search_state gd_f_info gd_aux gd_descent_state gd_terminate gd_result].
      split; [reflexivity|]. split; [reflexivity|]. split; [reflexivity|]. split; [|split; [exact E3|split; [|split; [reflexivity|split; [reflexivity|reflexivity]]]]].
      + refine (eq_trans _ (all_add u Hu y (vscale (N:=XR) (nneg (n:=XR) t) ds))). apply (f_equal2 (vadd (N:=XR))); [reflexivity|].
        refine (eq_trans _ (descent_units t ds)). apply (f_equal (vscale (N:=XR) _)). exact A8.
      + right. split; [exact A4|exact A8].
  Qed.

  Lemma gd_units : forall fuel ms throw y0 fs fs' auxs,
    same_in_units (all_units u) (iterative_solve (vallfinite (N:=XR)) sol1 fn fuel ms throw y0 fs auxs)
      (iterative_solve (vallfinite (N:=XR)) sol2 fn' fuel ms throw (all_units u y0) fs' auxs).
  Proof.
    intros fuel ms throw y0 fs fs' auxs.
    refine (lockstep (Y:=list XR) sol1 sol2 fn fn' _ (all_units u) gdrel y0 fs fs' auxs _ _ _ _ _ fuel ms throw).
    - intros y a b _. apply all_finite; exact Hu.
    - cbn [s_init gradient_descent_solver]. unfold gd_init. destruct HS as (H1 & H2 & _).
      rewrite (proj1 (H2 _ _)), (proj2 (H2 _ _)). cbn [d_supports steepest_descent has_grad andb negb].
      unfold gdrel. cbn [gd_first_step gd_y_eval gd_search_state gd_f_info gd_aux gd_descent_state gd_terminate gd_result].
      repeat split; try reflexivity; [apply H1|left; reflexivity].
    - intros y a b G. exact (gd_units_step y a b G).
    - intros y a b y' a' b' _ (_ & _ & _ & _ & _ & A6 & A7). cbn [s_terminate gradient_descent_solver]. rewrite A6, A7. reflexivity.
    - intros y a b x r _. reflexivity.
  Qed.
End GD.

(** Gradient descent: a learning rate has the unit of the unknown squared over the unit of the value. *)
Lemma C123_gradient_descent_pf :
  forall (Aux : Type) (u w : R) rtol atol atol' norm grad_of rate (fn fn' : list xr -> xr * Aux),
    (0 < u)%R -> (0 < w)%R -> tolerance_in [u; w] atol atol' -> same_function any any (all_units u) (unit_of w) fn fn' ->
    (forall y, grad_of fn' (all_units u y) = all_units (w / u) (grad_of fn y)) ->
  forall fuel ms throw y0 fs fs' auxs,
    same_in_units (all_units u)
      (iterative_solve (vallfinite (N:=XR)) (GradientDescent (N:=XR) (mkTols (N:=XR) rtol atol norm) grad_of rate) fn fuel ms throw y0 fs auxs)
      (iterative_solve (vallfinite (N:=XR)) (GradientDescent (N:=XR) (mkTols (N:=XR) rtol atol' norm) grad_of (unit_of (u * u / w) rate)) fn' fuel ms throw (all_units u y0) fs' auxs).
Proof.
  intros Aux u w rtol atol atol' norm grad_of rate fn fn' Hu Hw Ht Hf Hg fuel ms throw y0 fs fs' auxs.
  unfold GradientDescent. apply (gd_units u w Hu Hw _ _ (fun _ _ => True)); try assumption; [|intro y; apply (Hf y I)].
  split; [auto|split; [split; reflexivity|]]. intros first y ye f1 f2 fe s1 s2 _ _. cbn [se_step learning_rate].
  do 5 eexists. repeat split.
Qed.

(** Gradient descent with backtracking: only the initial step is converted, decrease factor and slope are not. *)
Lemma C123_backtracking_pf :
  forall (Aux : Type) (u w : R) rtol atol atol' norm grad_of decrease slope init (fn fn' : list xr -> xr * Aux),
    (0 < u)%R -> (0 < w)%R -> tolerance_in [u; w] atol atol' -> same_function any any (all_units u) (unit_of w) fn fn' ->
    (forall y, grad_of fn' (all_units u y) = all_units (w / u) (grad_of fn y)) ->
    let solver atol init := gradient_descent_solver (N:=XR) (mkTols (N:=XR) rtol atol norm) (armijo (N:=XR) decrease slope init) (steepest_descent None) grad_of in
  forall fuel ms throw y0 fs fs' auxs,
    same_in_units (all_units u)
      (iterative_solve (vallfinite (N:=XR)) (solver atol init) fn fuel ms throw y0 fs auxs)
      (iterative_solve (vallfinite (N:=XR)) (solver atol' (unit_of (u * u / w) init)) fn' fuel ms throw (all_units u y0) fs' auxs).
Proof.
  intros Aux u w rtol atol atol' norm grad_of decrease slope init fn fn' Hu Hw Ht Hf Hg solver fuel ms throw y0 fs fs' auxs. unfold solver.
  apply (gd_units u w Hu Hw (armijo (N:=XR) decrease slope init) (armijo (N:=XR) decrease slope (unit_of (u * u / w) init)) (fun s1 s2 => s2 = unit_of (u * u / w) s1)); try assumption; [|intro y; apply (Hf y I)].
  assert (Hh := h_pos u w Hu Hw). assert (Hq := q_pos u w Hu Hw).
  split; [reflexivity|split; [split; reflexivity|]]. intros first y ye f1 f2 fe s1 s2 Hg2 ->. cbn [se_step armijo]. unfold armijo_step.
  assert (ACC : first || ((nleb (n:=XR) (nsub (n:=XR) (as_min (Eval (N:=XR) (unit_of w fe))) (as_min f2)) (nmul (n:=XR) slope (compute_grad_dot f2 (vsub (N:=XR) (all_units u ye) (all_units u y)))) && nleb (n:=XR) (compute_grad_dot f2 (vsub (N:=XR) (all_units u ye) (all_units u y))) (nofQ (n:=XR) 0))%bool) =
                first || ((nleb (n:=XR) (nsub (n:=XR) (as_min (Eval (N:=XR) fe)) (as_min f1)) (nmul (n:=XR) slope (compute_grad_dot f1 (vsub (N:=XR) ye y))) && nleb (n:=XR) (compute_grad_dot f1 (vsub (N:=XR) ye y)) (nofQ (n:=XR) 0))%bool)).
  { destruct first; [reflexivity|]. destruct Hg2 as [Hg2|(f & g & -> & ->)]; [discriminate|]. cbn [as_min compute_grad_dot orb].
    rewrite (all_sub u Hu), (all_dot (w / u) u) by assumption. replace (w / u * u)%R with w by (field; lra).
    cbn [nleb nsub nmul XR]. rewrite (u_sub w Hw), (u_mul w Hw), (u_leb w Hw), (u_le0 w Hw). reflexivity. }
  assert (X : forall A2 A1 : bool, A2 = A1 ->
    ((if A2 then unit_of (u * u / w) init else xmul decrease (unit_of (u * u / w) s1)), A2, successful, (if A2 then unit_of (u * u / w) init else xmul decrease (unit_of (u * u / w) s1))) =
    (unit_of (u * u / w) (if A1 then init else xmul decrease s1), A1, successful, unit_of (u * u / w) (if A1 then init else xmul decrease s1))).
  { intros A2 A1 ->. destruct A1; [reflexivity|]. rewrite (u_mul _ Hh). reflexivity. }
  do 5 eexists. split; [reflexivity|]. split; [exact (X _ _ ACC)|]. split; [reflexivity|]. intros ->. reflexivity.
Qed.

(** ** Examples *)

Lemma unconvert : forall k x, (0 < k)%R -> xdiv (unit_of k x) (Fin k) = x.
Proof.
  intros k x Hk. assert (E : Fin k = unit_of k (Fin 1)) by (rewrite u_fin; apply (f_equal Fin); ring).
  transitivity (xdiv (unit_of k x) (unit_of k (Fin 1))); [rewrite <- E; reflexivity|]. rewrite (u_div k Hk).
  destruct x as [x| | |]; cbn; try reflexivity; [destruct Req_EM_T; [lra|apply (f_equal Fin); field]|destruct Rlt_dec; [lra|reflexivity]|destruct Rlt_dec; [lra|reflexivity]].
Qed.
Lemma parabola_units : forall k w x, (0 < k)%R -> parabola k w (unit_of k x) = (unit_of w (fst (parabola 1 1 x)), tt).
Proof.
  intros k w x Hk. unfold parabola. cbn [fst]. rewrite (unconvert k x Hk). f_equal.
  assert (E : xdiv x (Fin 1) = x).
  { destruct x as [x| | |]; cbn; try reflexivity; [destruct Req_EM_T; [lra|apply (f_equal Fin); field]|destruct Rlt_dec; [lra|reflexivity]|destruct Rlt_dec; [lra|reflexivity]]. }
  rewrite E. assert (F : forall z, unit_of 1 z = z) by (intros [z| | |]; [rewrite u_fin; apply (f_equal Fin); ring|apply u_pinf; lra|apply u_ninf; lra|reflexivity]).
  rewrite F. reflexivity.
Qed.
Lemma nth_units : forall k v, nth 0 (all_units k v) NaN = unit_of k (nth 0 v NaN).
Proof. intros k [|x v]; reflexivity. Qed.
Lemma parabola_fin : forall k w z, (0 < k)%R -> fst (parabola k w (Fin z)) = Fin (w * (z / k * (z / k) + - 2)).
Proof. intros k w z Hk. unfold parabola. cbn [xdiv]. destruct Req_EM_T; [lra|]. reflexivity. Qed.
Lemma parabola_slope : forall k w x, (0 < k)%R -> Derive (fun z => w * (z / k * (z / k) + - 2))%R (k * x) = (2 * w * x / k)%R.
Proof. intros k w x Hk. apply is_derive_unique. auto_derive; [trivial|]. field. lra. Qed.
Lemma slope_units : forall k w v, (0 < k)%R -> (0 < w)%R -> slope1 (sqrt2 k w) (all_units k v) = unit_of (w / k) (slope1 (sqrt2 1 1) v).
Proof.
  intros k w v Hk Hw. destruct v as [|x [|x2 v]]; [reflexivity| |destruct x as [x| | |]; rewrite ?u_pinf, ?u_ninf by assumption; try reflexivity;
    unfold all_units; cbn [map]; rewrite ?u_pinf, ?u_ninf by assumption; reflexivity].
  unfold all_units; cbn [map]. destruct x as [x| | |]; [|rewrite u_pinf by assumption; reflexivity|rewrite u_ninf by assumption; reflexivity|reflexivity].
  rewrite u_fin. cbn [slope1]. rewrite u_fin. f_equal. cbn [sqrt2 fst nth].
  rewrite (Derive_ext _ (fun z => w * (z / k * (z / k) + - 2))%R) by (intro z; rewrite (parabola_fin k w z Hk); reflexivity).
  rewrite (parabola_slope k w x Hk).
  rewrite (Derive_ext _ (fun z => 1 * (z / 1 * (z / 1) + - 2))%R) by (intro z; rewrite (parabola_fin 1 1 z Rlt_0_1); reflexivity).
  replace x with (1 * x)%R at 2 by ring. rewrite (parabola_slope 1 1 x Rlt_0_1). field. lra.
Qed.
Lemma gradient_units : forall k w v, (0 < k)%R -> (0 < w)%R -> gradient1 (bowl k w) (all_units k v) = all_units (w / k) (gradient1 (bowl 1 1) v).
Proof.
  intros k w v Hk Hw.
  assert (NN : forall v : list xr, map (fun _ => NaN) (all_units k v) = all_units (w / k) (map (fun _ => NaN) v)).
  { intro l. unfold all_units. rewrite !map_map. apply map_ext. intro. reflexivity. }
  destruct v as [|x [|x2 v]]; [reflexivity| |].
  - unfold all_units; cbn [map]. destruct x as [x| | |]; [|rewrite u_pinf by assumption; reflexivity|rewrite u_ninf by assumption; reflexivity|reflexivity].
    rewrite u_fin. cbn [gradient1 map]. rewrite u_fin. do 2 f_equal. cbn [bowl nth].
    rewrite (Derive_ext _ (fun z => w * (z / k * (z / k) + - 2))%R) by (intro z; unfold bowl; cbn [nth]; rewrite (parabola_fin k w z Hk); reflexivity).
    rewrite (parabola_slope k w x Hk).
    rewrite (Derive_ext _ (fun z => 1 * (z / 1 * (z / 1) + - 2))%R) by (intro z; unfold bowl; cbn [nth]; rewrite (parabola_fin 1 1 z Rlt_0_1); reflexivity).
    replace x with (1 * x)%R at 2 by ring. rewrite (parabola_slope 1 1 x Rlt_0_1). field. lra.
  - transitivity (map (fun _ => NaN) (all_units k (x :: x2 :: v))); [|rewrite NN; destruct x; reflexivity].
    unfold all_units. cbn [map]. destruct (unit_of k x); reflexivity.
Qed.

Lemma tol2 : forall u w atol atol', atol' = unit_of u atol -> atol' = unit_of w atol -> tolerance_in [u; w] atol atol'.
Proof. intros. unfold tolerance_in. repeat constructor; assumption. Qed.

(** Newton on x^2 - 2 and the solve in other units *)
Example C123_newton_ex_pf : forall k w : R, (0 < k)%R -> (0 < w)%R ->
  positive_units [k] /\ positive_units [w] /\ tolerance_in [k] (Fin (1/10)) (Fin (k * (1/10))) /\
  same_function (of_length 1) (of_length 1) (units [k]) (units [w]) (sqrt2 1 1) (sqrt2 k w) /\
  forall y, length y = 1 ->
    length (fst (divide1 (slope1 (sqrt2 1 1) y) (fst (sqrt2 1 1 y)))) = 1 /\
    divide1 (slope1 (sqrt2 k w) (units [k] y)) (units [w] (fst (sqrt2 1 1 y))) =
      (units [k] (fst (divide1 (slope1 (sqrt2 1 1) y) (fst (sqrt2 1 1 y)))), successful).
Proof.
  intros k w Hk Hw. assert (Hq : (0 < w / k)%R) by (apply Rdiv_lt_0_compat; assumption).
  repeat split; try (repeat constructor; assumption).
  - destruct y as [|x [|]]; try discriminate. cbn [units vmap2]. unfold sqrt2. cbn [nth fst snd]. rewrite parabola_units by assumption. reflexivity.
  - destruct y as [|x [|]]; try discriminate. change (units [k] [x]) with (all_units k [x]). rewrite slope_units by assumption.
    set (s := slope1 _ _). set (f := fst (parabola 1 1 x)).
    change (([xdiv (unit_of w f) (unit_of (w / k) s)], successful) = ([unit_of k (xdiv f s)], successful)).
    apply (f_equal (fun z => ([z], successful))).
    transitivity (xdiv (unit_of (w / k) (unit_of k f)) (unit_of (w / k) s)).
    + apply (f_equal (fun z => xdiv z _)). destruct f as [f| | |]; rewrite ?u_fin, ?u_pinf, ?u_ninf, ?u_nan by assumption; try reflexivity. apply (f_equal Fin). field. lra.
    + rewrite (u_div _ Hq). apply u_div_l. exact Hk.
Qed.

(** x^2 - 2 by bisection and by golden section, in millimetres for metres; the value in the same unit, or with atol = 0 in any *)
Example C123_bisection_ex_pf : forall w : R, (0 < w)%R ->
  same_function any any (unit_of 1000) (unit_of w) (parabola 1 1) (parabola 1000 w) /\ tolerance_in [1000%R; w] (Fin 0) (Fin 0) /\
  tolerance_in [1000%R; 1000%R] (Fin (1/10)) (Fin 100).
Proof.
  intros w Hw. repeat split.
  - rewrite parabola_units by lra. cbn [fst snd]. reflexivity.
  - apply tol2; rewrite u_fin; apply (f_equal Fin); ring.
  - apply tol2; rewrite u_fin; apply (f_equal Fin); lra.
Qed.
Example C123_golden_ex_pf : same_function any any (unit_of 1000) (unit_of 1000) (parabola 1 1) (parabola 1000 1000) /\ tolerance_in [1000%R; 1000%R] (Fin (1/10)) (Fin 100).
Proof. assert (H := C123_bisection_ex_pf 1000 ltac:(lra)). tauto. Qed.

(** the same with a gradient *)
Example C123_gradient_descent_ex_pf : forall k w : R, (0 < k)%R -> (0 < w)%R ->
  same_function any any (all_units k) (unit_of w) (bowl 1 1) (bowl k w) /\ tolerance_in [k; w] (Fin 0) (Fin 0) /\
  forall y, gradient1 (bowl k w) (all_units k y) = all_units (w / k) (gradient1 (bowl 1 1) y).
Proof.
  intros k w Hk Hw. repeat split.
  - unfold bowl. rewrite nth_units, parabola_units by assumption. reflexivity.
  - apply tol2; rewrite u_fin; apply (f_equal Fin); ring.
  - intro y. apply gradient_units; assumption.
Qed.
Example C123_backtracking_ex_pf : same_function any any (all_units 1000) (unit_of 1000) (bowl 1 1) (bowl 1000 1000) /\
  tolerance_in [1000%R; 1000%R] (Fin (1/10)) (Fin 100) /\ forall y, gradient1 (bowl 1000 1000) (all_units 1000 y) = all_units (1000 / 1000) (gradient1 (bowl 1 1) y).
Proof.
  destruct (C123_gradient_descent_ex_pf 1000 1000 ltac:(lra) ltac:(lra)) as (A & _ & B). split; [exact A|split; [|exact B]].
  apply tol2; rewrite u_fin; apply (f_equal Fin); lra.
Qed.
Example C123_nelder_mead_ex_pf : same_function any any (all_units 1000) (unit_of 1000) (bowl 1 1) (bowl 1000 1000) /\ tolerance_in [1000%R; 1000%R] (Fin (1/10)) (Fin 100).
Proof. destruct C123_backtracking_ex_pf as (A & B & _). split; assumption. Qed.

(** halving is the same function in any units *)
Example C123_fixed_point_ex_pf : forall k : R, (0 < k)%R ->
  same_function (of_length 1) (of_length 1) (units [k]) (units [k]) halving halving /\ tolerance_in [k] (Fin (3/4)) (Fin (k * (3/4))).
Proof.
  intros k Hk. split; [|repeat constructor]. intros [|x [|]] Hy; try discriminate. split; [reflexivity|].
  cbn [units vmap2 halving map fst snd]. unfold halving. cbn [map fst snd units vmap2]. do 2 f_equal. apply u_div_l. exact Hk.
Qed.

Lemma halving_step : forall x, fp_step (N:=XR) (Fin 0) (Fin (3/4)) (Fin 0) (fun v => nth 0 (map xabs v) NaN) halving [Fin x] PInf =
  ([Fin (x / 2)], Fin (Rabs (x / 2 / (3/4))), tt).
Proof.
  intro x. unfold fp_step, halving. cbn [map].
  assert (E1 : xdiv (Fin x) (Fin 2) = Fin (x / 2)) by (cbn; destruct Req_EM_T; [lra|reflexivity]). rewrite E1.
  assert (E2 : fp_update (N:=XR) (Fin 0) [Fin (x / 2)] [Fin x] = [Fin (x / 2)]).
  { cbn. apply (f_equal (fun z => [Fin z])). rewrite Q2R_1. ring. }
  rewrite E2. apply (f_equal2 pair); [|reflexivity]. apply (f_equal2 pair); [reflexivity|].
  cbn -[Req_EM_T Rabs Rdiv]. replace (3 / 4 + 0 * Rabs (x / 2))%R with (3 / 4)%R by ring.
  destruct Req_EM_T; [lra|]. cbn [xabs]. apply (f_equal Fin). apply f_equal. field.
Qed.

(** The absolute tolerance has to be converted: with the same atol = 3/4 halving stops after one step in metres and not in
    millimetres. *)
Lemma C123_tolerance_matters_pf :
  let solve y0 := iterative_solve (vallfinite (N:=XR)) (fixed_point_iteration (N:=XR) (Fin 0) (Fin (3/4)) (Fin 0) (fun v => nth 0 (map xabs v) NaN)) halving 3 (Some 1) false y0 (fun _ => [Fin 0]) (fun _ => tt) in
  same_function (of_length 1) (of_length 1) (units [1000%R]) (units [1000%R]) halving halving /\
  exists s s', solve [Fin 1] = Ret s /\ solve (units [1000%R] [Fin 1]) = Ret s' /\ result s = successful /\ result s' = nonlinear_max_steps_reached.
Proof.
  intro solve. split; [apply C123_fixed_point_ex_pf; lra|]. unfold solve.
  assert (U : units [1000%R] [Fin 1] = [Fin 1000]) by (cbn; apply (f_equal (fun z => [Fin z])); ring). rewrite U. clear U.
  assert (G : forall x, exists s,
    iterative_solve (vallfinite (N:=XR)) (fixed_point_iteration (N:=XR) (Fin 0) (Fin (3/4)) (Fin 0) (fun v => nth 0 (map xabs v) NaN)) halving 3 (Some 1) false [Fin x] (fun _ => [Fin 0]) (fun _ => tt) = Ret s /\
    result s = if xltb (Fin (Rabs (x / 2 / (3/4)))) (Fin (Q2R 1)) then successful else nonlinear_max_steps_reached).
  { intro x. unfold iterative_solve, iterate. cbn -[fp_step Rlt_dec Req_EM_T Rdiv Rabs xltb]. 
    change (xltb PInf (Fin (Q2R 1))) with false. unfold cond_fun, body_fun.
    cbn -[fp_step Rlt_dec Req_EM_T Rdiv Rabs xltb]. rewrite halving_step. cbn -[Rlt_dec Req_EM_T Rdiv Rabs xltb].
    destruct (xltb (Fin (Rabs (x / 2 / (3/4)))) (Fin (Q2R 1))); cbn; eexists; split; reflexivity. }
  destruct (G 1%R) as (s & E & Rs). destruct (G 1000%R) as (s' & E' & Rs'). exists s, s'. split; [exact E|]. split; [exact E'|].
  rewrite Rs, Rs'. cbn -[Rlt_dec Rdiv Rabs]. rewrite Q2R_1, !Rabs_pos_eq by lra. unfold Rltb. repeat destruct Rlt_dec; try lra. split; reflexivity.
Qed.
