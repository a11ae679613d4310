(** Independent problems in one solve (C124). *)

From Coq Require Import String List Bool Arith Lia ZArith QArith Reals Lra Psatz.
From Verif Require Import Num NumFacts NumF64 NumF64_facts F64Mono Vec VecFacts Results Iterate Spec_Iterate Iterate_proofs.
From Verif Require Import FixedPoint NewtonChord Search Descent Minimisers Solvers Spec_Together.
Import ListNotations.
Local Open Scope nat_scope.

(** ** A solve that stops no earlier *)

Section Later.
  Context {Y1 Y O1 O A1 A : Type}.
  Variables (s1 : Solver Y1 O1 A1) (s : Solver Y O A) (fn1 : Y1 -> O1 * A1) (fn : Y -> O * A).
  Variables (fin1 : Y1 -> bool) (fin : Y -> bool) (y1 : Y1) (y : Y).
  Variables (fs1 : fillv -> O1) (fs : fillv -> O) (auxs1 : fillv -> A1) (auxs : fillv -> A) (i1 : St s1) (i : St s).
  Hypothesis Hi1 : s_init s1 fn1 y1 fs1 auxs1 = Ret i1.
  Hypothesis Hi : s_init s fn y fs auxs = Ret i.
  Notation a1 := (auxs1 fill0). Notation a := (auxs fill0).
  Hypothesis Hres : forall k, says_result s fn y i a k = successful -> says_result s1 fn1 y1 i1 a1 k = successful.
  Hypothesis Hterm : forall k, says_result s fn y i a k = successful -> says_terminate s fn y i a k = true -> says_terminate s1 fn1 y1 i1 a1 k = true.
  Hypothesis Hfin : forall k, fin (asked s fn y i a k) = true -> fin1 (asked s1 fn1 y1 i1 a1 k) = true.

  Lemma later : forall fuel ms throw, no_later_than (iterative_solve fin1 s1 fn1 fuel ms throw y1 fs1 auxs1) (iterative_solve fin s fn fuel ms throw y fs auxs).
  Proof.
    intros fuel ms throw sol k H R K.
    destruct (iterative_solve_inv fin s fn y i a fs auxs eq_refl Hi fuel ms throw sol H) as (k' & Hk & (S1 & S2 & S3) & -> & _).
    pose proof (solution_at_fields fin s fn y i a ms k') as (ER & ES & EV & ET).
    unfold steps in K. rewrite ET in K. assert (k' = k) by (injection K as K; lia). subst k'. rewrite ER in R.
    assert (HST : status fin s fn y i a k successful) by (apply final_result_status; congruence).
    destruct HST as [[_ E]|[(_ & HN & E)|[(HA & HSu & HT & _)|(_ & _ & _ & E)]]]; try discriminate; try congruence.
    destruct (stop_index_exists fin1 s1 fn1 y1 i1 a1 k) as (j & Hj & J1 & J2 & J3).
    assert (Q : fin1 (asked s1 fn1 y1 i1 a1 j) = true /\ says_result s1 fn1 y1 i1 a1 j = successful).
    { destruct (Nat.eq_dec j k) as [->|NE]; [split; auto|]. assert (N : ~ stops fin s fn y i a j) by (apply S2; lia).
      unfold stops in N. split.
      - apply Hfin. destruct (fin (asked s fn y i a j)); [reflexivity|exfalso; apply N; auto].
      - apply Hres. destruct (results_eqb (says_result s fn y i a j) successful) eqn:E; [apply results_eqb_eq; exact E|apply results_eqb_neq in E; exfalso; apply N; auto]. }
    destruct Q as [Q1 Q2].
    assert (TJ : says_terminate s1 fn1 y1 i1 a1 j = true).
    { destruct (Nat.eq_dec j k) as [->|NE]; [auto|]. destruct J1 as [[J1|[J1|J1]]|J1]; [exact J1|contradiction|congruence|injection J1 as J1; lia]. }
    assert (SI : stop_index fin1 s1 fn1 y1 i1 a1 ms j).
    { split; [left; left; exact TJ|]. split; [exact J2|]. intros m Hm. specialize (S3 m Hm). lia. }
    destruct (iterative_solve_spec fin1 s1 fn1 y1 i1 a1 fs1 auxs1 eq_refl Hi1 fuel ms throw) as [HT1 _].
    pose proof (solution_at_fields fin1 s1 fn1 y1 i1 a1 ms j) as (ER1 & _ & _ & ET1).
    assert (FR : final_result fin1 s1 fn1 y1 i1 a1 j = successful).
    { symmetry. apply final_result_status. right; right; left. auto. }
    specialize (HT1 j ltac:(lia) SI). rewrite FR in HT1. replace (throw && negb (results_eqb successful successful)) with false in HT1 by (destruct throw; reflexivity).
    exists (solution_at fin1 s1 fn1 y1 i1 a1 ms j), j. split; [exact HT1|]. split; [congruence|]. split; [|exact Hj]. unfold steps. rewrite ET1. reflexivity.
  Qed.
End Later.

(** ** Norms of blocks *)

Definition below_one (N : Num) : Prop :=
  (forall a b : N, nltb (nmax a b) (lit 1) = nltb a (lit 1) && nltb b (lit 1)) /\ nltb (lit 0 : N) (lit 1) = true.

Lemma XR_below : below_one XR.
Proof.
  split.
  - intros a b. unfold nmax, nisnan. destruct a as [a| | |], b as [b| | |]; cbn -[Q2R]; rewrite ?(proj2 (Reqb_true _ _) eq_refl); cbn -[Q2R];
      rewrite ?andb_false_r, ?andb_true_r; try reflexivity.
    destruct (Rltb a b) eqn:E; cbn [xltb].
    + rewrite Rltb_true in E. destruct (Rltb b (Q2R 1)) eqn:E1; [|rewrite andb_false_r; reflexivity]. rewrite Rltb_true in E1. rewrite (proj2 (Rltb_true a (Q2R 1))) by lra. reflexivity.
    + rewrite Rltb_false in E. destruct (Rltb a (Q2R 1)) eqn:E1; [|reflexivity]. rewrite Rltb_true in E1. rewrite (proj2 (Rltb_true b (Q2R 1))) by lra. reflexivity.
  - cbn -[Q2R]. apply Rltb_true. rewrite Q2R_0, Q2R_1. lra.
Qed.
Lemma RN_below : below_one RN.
Proof.
  split.
  - intros a b. unfold nmax, nisnan. cbn -[Q2R]. rewrite ?(proj2 (Reqb_true _ _) eq_refl). cbn -[Q2R].
    destruct (Rltb a b) eqn:E.
    + rewrite Rltb_true in E. destruct (Rltb b (Q2R 1)) eqn:E1; [|rewrite andb_false_r; reflexivity]. rewrite Rltb_true in E1. rewrite (proj2 (Rltb_true a (Q2R 1))) by lra. reflexivity.
    + rewrite Rltb_false in E. destruct (Rltb a (Q2R 1)) eqn:E1; [|reflexivity]. rewrite Rltb_true in E1. rewrite (proj2 (Rltb_true b (Q2R 1))) by lra. reflexivity.
  - cbn -[Q2R]. apply Rltb_true. rewrite Q2R_0, Q2R_1. lra.
Qed.
Lemma F64_below : below_one F64.
Proof.
  split; [|vm_compute; reflexivity]. intros a b. cbn [nltb nofQ F64]. apply eq_true_iff_eq. rewrite andb_true_iff. apply nmax_lt.
Qed.
Lemma ours_below : forall N, one_of_ours N -> below_one N.
Proof. intros N [->|[->| ->]]; [apply RN_below|apply XR_below|apply F64_below]. Qed.

Section Blocks.
  Context {N : Num}.
  Hypothesis HB : below_one N.

  Lemma max_norm_app : forall a b : list N, nltb (max_norm (a ++ b)) (lit 1) = nltb (max_norm a) (lit 1) && nltb (max_norm b) (lit 1).
  Proof.
    destruct HB as [H0 H1]. intros a b. unfold max_norm, vabs. induction a as [|x a IH]; cbn [app map fold_right].
    - rewrite H1. reflexivity.
    - rewrite !H0, IH, andb_assoc. reflexivity.
  Qed.
  Lemma map2_app : forall {A B C : Type} (f : A -> B -> C) a a' b b', length a = length a' -> vmap2 f (a ++ b) (a' ++ b') = vmap2 f a a' ++ vmap2 f b b'.
  Proof. induction a as [|x a IH]; intros [|x' a'] b b' L; try discriminate; [reflexivity|]. cbn. f_equal. apply IH. injection L as L; exact L. Qed.
  Lemma map2_len : forall {A B C : Type} (f : A -> B -> C) a b, length a = length b -> length (vmap2 f a b) = length a.
  Proof. induction a as [|x a IH]; intros [|y b] L; try discriminate; [reflexivity|]. cbn. f_equal. apply IH. injection L as L; exact L. Qed.
  Lemma tol_app : forall rtol atol (a b : list N), vscale_tol rtol atol (a ++ b) = vscale_tol rtol atol a ++ vscale_tol rtol atol b.
  Proof. intros. apply map_app. Qed.
  Lemma tol_len : forall rtol atol (a : list N), length (vscale_tol rtol atol a) = length a.
  Proof. intros. apply map_length. Qed.
  Lemma fin_app : forall a b : list N, vallfinite (a ++ b) = vallfinite a && vallfinite b.
  Proof. intros. apply forallb_app. Qed.
  Lemma cauchy_app : forall rtol atol (y y' dy dy' f f' df df' : list N), length y = length dy -> length f = length df ->
    cauchy_termination rtol atol max_norm (y ++ y') (dy ++ dy') (f ++ f') (df ++ df') =
    cauchy_termination rtol atol max_norm y dy f df && cauchy_termination rtol atol max_norm y' dy' f' df'.
  Proof.
    intros rtol atol y y' dy dy' f f' df df' Ly Lf. unfold cauchy_termination, vdiv, vabs. rewrite !tol_app, !map_app, !map2_app, !max_norm_app.
    - set (A := nltb _ _). set (B := nltb _ _). set (C := nltb _ _). set (D := nltb _ _). destruct A, B, C, D; reflexivity.
    - rewrite map_length, tol_len. congruence.
    - rewrite map_length, tol_len. congruence.
  Qed.
End Blocks.

(** ** Fixed points *)

Section FP.
  Context {N : Num} {Aux1 Aux2 : Type}.
  Hypothesis HB : below_one N.
  Variables (n1 n2 : nat) (rtol atol damp : N) (fn1 : list N -> list N * Aux1) (fn2 : list N -> list N * Aux2) (fn : list N -> list N * (Aux1 * Aux2)).
  Hypothesis Hf : side_by_side n1 n2 fn1 fn2 fn.
  Hypothesis L1 : keeps_length n1 fn1.
  Hypothesis L2 : keeps_length n2 fn2.
  Variables (y1 y2 : list N) (a1 : Aux1) (a2 : Aux2).
  Hypothesis Y1 : length y1 = n1.
  Hypothesis Y2 : length y2 = n2.
  Notation s1 := (fixed_point_iteration (Aux:=Aux1) rtol atol damp max_norm).
  Notation s2 := (fixed_point_iteration (Aux:=Aux2) rtol atol damp max_norm).
  Notation s := (fixed_point_iteration (Aux:=Aux1 * Aux2) rtol atol damp max_norm).

  Lemma fp_blocks : forall k,
    let p1 := trace s1 fn1 y1 ninf a1 k in let p2 := trace s2 fn2 y2 ninf a2 k in let p := trace s fn (y1 ++ y2) ninf (a1, a2) k in
    length (fst (fst p1)) = n1 /\ length (fst (fst p2)) = n2 /\ fst (fst p) = fst (fst p1) ++ fst (fst p2) /\ snd p = (snd p1, snd p2) /\
    nltb (snd (fst p)) (lit 1) = nltb (snd (fst p1)) (lit 1) && nltb (snd (fst p2)) (lit 1).
  Proof.
    induction k as [|k IH]; cbv zeta in *; cbn [trace].
    - cbn [fst snd]. split; [exact Y1|]. split; [exact Y2|]. split; [reflexivity|]. split; [reflexivity|]. destruct (nltb (ninf : N) (lit 1)); reflexivity.
    - destruct IH as (I1 & I2 & I3 & I4 & I5). rewrite I3.
      set (z1 := fst (fst (trace s1 fn1 y1 ninf a1 k))) in *. set (z2 := fst (fst (trace s2 fn2 y2 ninf a2 k))) in *.
      cbn [s_step fixed_point_iteration]. unfold fp_step.
      rewrite (Hf z1 z2 I1 I2). specialize (L1 z1 I1). specialize (L2 z2 I2). destruct (fn1 z1) as [f1 x1], (fn2 z2) as [f2 x2]. cbn [fst snd] in *.
      unfold fp_update. rewrite map2_app by congruence. set (u1 := vmap2 _ f1 z1). set (u2 := vmap2 _ f2 z2).
      assert (U1 : length u1 = n1) by (unfold u1; rewrite map2_len by congruence; exact L1).
      assert (U2 : length u2 = n2) by (unfold u2; rewrite map2_len by congruence; exact L2).
      split; [exact U1|]. split; [exact U2|]. split; [reflexivity|]. split; [reflexivity|].
      unfold vsub, vdiv. rewrite tol_app, (map2_app nsub z1 u1) by congruence.
      rewrite (map2_app ndiv) by (rewrite tol_len, map2_len; congruence). apply max_norm_app. exact HB.
  Qed.
End FP.

(** Fixed-point iteration on two problems at once performs both iterations, and stops when both would stop. *)
Lemma C124_fixed_point_pf :
  forall (N : Num) (Aux1 Aux2 : Type) n1 n2 (rtol atol damp : N) (fn1 : list N -> list N * Aux1) (fn2 : list N -> list N * Aux2) fn y1 y2 a1 a2,
    one_of_ours N -> side_by_side n1 n2 fn1 fn2 fn -> keeps_length n1 fn1 -> keeps_length n2 fn2 -> length y1 = n1 -> length y2 = n2 ->
    let solver Aux := fixed_point_iteration (Aux:=Aux) rtol atol damp max_norm in
  forall k,
    y_at (solver _) fn (y1 ++ y2) ninf (a1, a2) k = y_at (solver _) fn1 y1 ninf a1 k ++ y_at (solver _) fn2 y2 ninf a2 k /\
    aux_at (solver _) fn (y1 ++ y2) ninf (a1, a2) k = (aux_at (solver _) fn1 y1 ninf a1 k, aux_at (solver _) fn2 y2 ninf a2 k) /\
    says_terminate (solver _) fn (y1 ++ y2) ninf (a1, a2) k = says_terminate (solver _) fn1 y1 ninf a1 k && says_terminate (solver _) fn2 y2 ninf a2 k.
Proof.
  intros N Aux1 Aux2 n1 n2 rtol atol damp fn1 fn2 fn y1 y2 a1 a2 HN Hf L1 L2 Y1 Y2 solver k.
  destruct (fp_blocks (ours_below N HN) n1 n2 rtol atol damp fn1 fn2 fn Hf L1 L2 y1 y2 a1 a2 Y1 Y2 k) as (_ & _ & A & B & C).
  split; [exact A|]. split; [exact B|exact C].
Qed.

(** So each of the problems alone is solved, in no more steps, if both together are. *)
Lemma C124_fixed_point_solve_pf :
  forall (N : Num) (Aux1 Aux2 : Type) n1 n2 (rtol atol damp : N) (fn1 : list N -> list N * Aux1) (fn2 : list N -> list N * Aux2) fn y1 y2,
    one_of_ours N -> side_by_side n1 n2 fn1 fn2 fn -> keeps_length n1 fn1 -> keeps_length n2 fn2 -> length y1 = n1 -> length y2 = n2 ->
    let solve Aux := iterative_solve vallfinite (fixed_point_iteration (Aux:=Aux) rtol atol damp max_norm) in
  forall fuel ms throw fs fs1 fs2 auxs1 auxs2,
    let together := solve _ fn fuel ms throw (y1 ++ y2) fs (fun v => (auxs1 v, auxs2 v)) in
    no_later_than (solve _ fn1 fuel ms throw y1 fs1 auxs1) together /\ no_later_than (solve _ fn2 fuel ms throw y2 fs2 auxs2) together.
Proof.
  intros N Aux1 Aux2 n1 n2 rtol atol damp fn1 fn2 fn y1 y2 HN Hf L1 L2 Y1 Y2 solve fuel ms throw fs fs1 fs2 auxs1 auxs2 together.
  pose proof (fp_blocks (ours_below N HN) n1 n2 rtol atol damp fn1 fn2 fn Hf L1 L2 y1 y2 (auxs1 fill0) (auxs2 fill0) Y1 Y2) as FB. cbv zeta in FB.
  split.
  - apply (later (fixed_point_iteration rtol atol damp max_norm) (fixed_point_iteration rtol atol damp max_norm) fn1 fn vallfinite vallfinite y1 (y1 ++ y2) fs1 fs auxs1 _ ninf ninf eq_refl eq_refl).
    + reflexivity.
    + intros k _ H. destruct (FB k) as (_ & _ & _ & _ & E). unfold says_terminate in *. cbn [s_terminate fixed_point_iteration fst] in *.
      unfold st_at in *. rewrite E in H. apply andb_true_iff in H. apply H.
    + intros k H. destruct (FB (pred k)) as (_ & _ & E & _ & _). unfold asked, y_at in *. rewrite E, fin_app in H. apply andb_true_iff in H. apply H.
  - apply (later (fixed_point_iteration rtol atol damp max_norm) (fixed_point_iteration rtol atol damp max_norm) fn2 fn vallfinite vallfinite y2 (y1 ++ y2) fs2 fs auxs2 _ ninf ninf eq_refl eq_refl).
    + reflexivity.
    + intros k _ H. destruct (FB k) as (_ & _ & _ & _ & E). unfold says_terminate in *. cbn [s_terminate fixed_point_iteration fst] in *.
      unfold st_at in *. rewrite E in H. apply andb_true_iff in H. apply H.
    + intros k H. destruct (FB (pred k)) as (_ & _ & E & _ & _). unfold asked, y_at in *. rewrite E, fin_app in H. apply andb_true_iff in H. apply H.
Qed.

(** ** Newton and chord *)

Lemma let2 : forall {A B C : Type} (p : A * B) (f : A -> B -> C), (let '(a, b) := p in f a b) = f (fst p) (snd p).
Proof. intros A B C [a b] f. reflexivity. Qed.

Section NC.
  Context {N : Num} {Aux1 Aux2 M1 M2 M : Type}.
  Hypothesis HB : below_one N.
  Variables (jac1 : (list N -> list N * Aux1) -> list N -> M1) (jac2 : (list N -> list N * Aux2) -> list N -> M2)
            (jac : (list N -> list N * (Aux1 * Aux2)) -> list N -> M).
  Variables (ls1 : M1 -> list N -> list N * results) (ls2 : M2 -> list N -> list N * results) (ls : M -> list N -> list N * results).
  Variables (n1 n2 : nat) (fn1 : list N -> list N * Aux1) (fn2 : list N -> list N * Aux2) (fn : list N -> list N * (Aux1 * Aux2)).
  Hypothesis Hf : side_by_side n1 n2 fn1 fn2 fn.
  Variables (rtol atol kappa res : N) (newton : bool) (lo1 lo2 lo up1 up2 up : option (list N)).
  Hypothesis Hlo : box_of n1 n2 lo1 lo2 lo.
  Hypothesis Hup : box_of n1 n2 up1 up2 up.
  Variables (y1 y2 : list N) (a1 : Aux1) (a2 : Aux2) (fs1 fs2 fs : fillv -> list N).
  Hypothesis Y1 : length y1 = n1.
  Hypothesis Y2 : length y2 = n2.
  Hypothesis Hfs : fs fillinf = fs1 fillinf ++ fs2 fillinf.
  Hypothesis Hls : forall z1 z2, length z1 = n1 -> length z2 = n2 ->
    blockwise n1 n2 (ls1 (jac1 fn1 (if newton then z1 else y1)) (fst (fn1 z1))) (ls2 (jac2 fn2 (if newton then z2 else y2)) (fst (fn2 z2)))
      (ls (jac fn (if newton then z1 ++ z2 else y1 ++ y2)) (fst (fn (z1 ++ z2)))).
  Notation P1 := (mkNcParams rtol atol max_norm kappa true newton lo1 up1 res).
  Notation P2 := (mkNcParams rtol atol max_norm kappa true newton lo2 up2 res).
  Notation P := (mkNcParams rtol atol max_norm kappa true newton lo up res).
  Notation s1 := (newton_chord jac1 ls1 P1). Notation s2 := (newton_chord jac2 ls2 P2). Notation s := (newton_chord jac ls P).
  Notation i1 := (mkNc (Some (fs1 fillinf)) (if newton then None else Some (jac1 fn1 y1)) (vfull (length y1) ninf) ninf (lit 1) successful 0).
  Notation i2 := (mkNc (Some (fs2 fillinf)) (if newton then None else Some (jac2 fn2 y2)) (vfull (length y2) ninf) ninf (lit 1) successful 0).
  Notation i0 := (mkNc (Some (fs fillinf)) (if newton then None else Some (jac fn (y1 ++ y2))) (vfull (length (y1 ++ y2)) ninf) ninf (lit 1) successful 0).

  Lemma clip_app : forall (z1 z2 : list N), length z1 = n1 -> length z2 = n2 ->
    nc_clip P (z1 ++ z2) = nc_clip P1 z1 ++ nc_clip P2 z2 /\ length (nc_clip P1 z1) = n1 /\ length (nc_clip P2 z2) = n2.
  Proof.
    intros z1 z2 Z1 Z2. unfold nc_clip. cbn [nc_lower nc_upper].
    destruct Hlo as [(-> & -> & ->)|(l1 & l2 & -> & -> & -> & E1 & E2)], Hup as [(-> & -> & ->)|(u1 & u2 & -> & -> & -> & E3 & E4)];
      rewrite ?(map2_app nmax z1 l1) by congruence; rewrite ?map2_app by (rewrite ?map2_len; congruence); rewrite ?map2_len by (rewrite ?map2_len; congruence);
      repeat split; try assumption; try (rewrite map2_len; congruence).
  Qed.
  Lemma box_same : has_box P1 = has_box P /\ has_box P2 = has_box P.
  Proof.
    unfold has_box. cbn [nc_lower nc_upper].
    destruct Hlo as [(-> & -> & ->)|(l1 & l2 & -> & -> & -> & E1 & E2)], Hup as [(-> & -> & ->)|(u1 & u2 & -> & -> & -> & E3 & E4)]; split; reflexivity.
  Qed.

  Definition ncrel (p1 : list N * nc_state (N:=N) (M:=M1) * Aux1) (p2 : list N * nc_state (N:=N) (M:=M2) * Aux2) (p : list N * nc_state (N:=N) (M:=M) * (Aux1 * Aux2)) : Prop :=
    length (fst (fst p1)) = n1 /\ length (fst (fst p2)) = n2 /\ fst (fst p) = fst (fst p1) ++ fst (fst p2) /\ snd p = (snd p1, snd p2) /\
    (exists f1 f2, nc_f (M:=M1) (snd (fst p1)) = Some f1 /\ nc_f (M:=M2) (snd (fst p2)) = Some f2 /\ nc_f (M:=M) (snd (fst p)) = Some (f1 ++ f2)) /\
    length (nc_diff (snd (fst p1))) = n1 /\ length (nc_diff (snd (fst p2))) = n2 /\ nc_diff (snd (fst p)) = nc_diff (snd (fst p1)) ++ nc_diff (snd (fst p2)) /\
    (nc_linear_state (snd (fst p1)) = (if newton then None else Some (jac1 fn1 y1)) /\ nc_linear_state (snd (fst p2)) = (if newton then None else Some (jac2 fn2 y2)) /\
     nc_linear_state (snd (fst p)) = (if newton then None else Some (jac fn (y1 ++ y2)))) /\
    nc_result (snd (fst p)) = (if results_eqb (nc_result (snd (fst p1))) successful then nc_result (snd (fst p2)) else nc_result (snd (fst p1))).

  Lemma nc_step_blocks : forall p1 p2 p, ncrel p1 p2 p ->
    ncrel (nc_step_fn jac1 ls1 P1 fn1 (fst (fst p1)) (snd (fst p1))) (nc_step_fn jac2 ls2 P2 fn2 (fst (fst p2)) (snd (fst p2))) (nc_step_fn jac ls P fn (fst (fst p)) (snd (fst p))).
  Proof.
      intros [[z1 t1] b1] [[z2 t2] b2] [[z t] b0] (I1 & I2 & I3 & I4 & I5 & I6 & I7 & I8 & (I9 & I10 & I11) & I12). cbn [fst snd] in *. subst z. unfold nc_step_fn.
      assert (S1 : nc_solve jac1 ls1 P1 fn1 z1 (fst (fn1 z1)) t1 = ls1 (jac1 fn1 (if newton then z1 else y1)) (fst (fn1 z1))).
      { unfold nc_solve. cbn [nc_is_newton]. rewrite I9. destruct newton; reflexivity. }
      assert (S2 : nc_solve jac2 ls2 P2 fn2 z2 (fst (fn2 z2)) t2 = ls2 (jac2 fn2 (if newton then z2 else y2)) (fst (fn2 z2))).
      { unfold nc_solve. cbn [nc_is_newton]. rewrite I10. destruct newton; reflexivity. }
      assert (S0 : nc_solve jac ls P fn (z1 ++ z2) (fst (fn (z1 ++ z2))) t = ls (jac fn (if newton then z1 ++ z2 else y1 ++ y2)) (fst (fn (z1 ++ z2)))).
      { unfold nc_solve. cbn [nc_is_newton]. rewrite I11. destruct newton; reflexivity. }
      destruct (Hls z1 z2 I1 I2) as (D1 & D2 & D3). rewrite <- S1, <- S2, <- S0 in D3. rewrite <- S1 in D1. rewrite <- S2 in D2.
      specialize (Hf z1 z2 I1 I2). rewrite Hf in *. destruct (fn1 z1) as [f1 x1], (fn2 z2) as [f2 x2]. cbn [fst snd] in *.
      rewrite D3. destruct (nc_solve jac1 ls1 P1 fn1 z1 f1 t1) as [d1 r1], (nc_solve jac2 ls2 P2 fn2 z2 f2 t2) as [d2 r2]. cbn [fst snd] in *.
      unfold vsub. rewrite (map2_app nsub z1 d1) by congruence.
      destruct (clip_app (vmap2 nsub z1 d1) (vmap2 nsub z2 d2)) as (E & C1 & C2); [rewrite map2_len; congruence|rewrite map2_len; congruence|].
      rewrite E. destruct box_same as [-> ->].
      set (u1 := nc_clip P1 _) in *. set (u2 := nc_clip P2 _) in *. clearbody u1 u2.
      unfold ncrel. cbn [fst snd nc_f nc_diff nc_linear_state nc_result nc_cauchy].
      split; [exact C1|]. split; [exact C2|]. split; [reflexivity|]. split; [reflexivity|].
      split; [exists f1, f2; repeat split; reflexivity|].
      destruct (has_box P).
      + rewrite (map2_app nsub z1 u1) by congruence. split; [rewrite map2_len; congruence|]. split; [rewrite map2_len; congruence|]. split; [reflexivity|].
        split; [repeat split; assumption|reflexivity].
      + split; [congruence|]. split; [congruence|]. split; [reflexivity|]. split; [repeat split; assumption|reflexivity].
  Qed.

  Lemma nc_blocks : forall k, ncrel (trace s1 fn1 y1 i1 a1 k) (trace s2 fn2 y2 i2 a2 k) (trace s fn (y1 ++ y2) i0 (a1, a2) k).
  Proof.
    induction k as [|k IH]; cbn [trace].
    - unfold ncrel. cbn [fst snd nc_f nc_diff nc_linear_state nc_result]. unfold vfull. rewrite !repeat_length.
      split; [exact Y1|]. split; [exact Y2|]. split; [reflexivity|]. split; [reflexivity|].
      split; [exists (fs1 fillinf), (fs2 fillinf); repeat split; rewrite Hfs; reflexivity|].
      split; [exact Y1|]. split; [exact Y2|]. split; [rewrite app_length; apply repeat_app|]. split; [repeat split|reflexivity].
    - exact (nc_step_blocks _ _ _ IH).
  Qed.

  Lemma nc_stop_rel : forall p1 p2 p z1 z2, ncrel p1 p2 p -> length z1 = n1 -> length z2 = n2 ->
    let t1 := nc_terminate P1 z1 (snd (fst p1)) in let t2 := nc_terminate P2 z2 (snd (fst p2)) in
    let t := nc_terminate P (z1 ++ z2) (snd (fst p)) in
    (snd t = successful <-> snd t1 = successful /\ snd t2 = successful) /\ (snd t = successful -> fst t = fst t1 && fst t2).
  Proof.
    intros [[w1 t1] b1] [[w2 t2] b2] [[w t] b0] z1 z2 (_ & _ & _ & _ & (f1 & f2 & F1 & F2 & F) & I6 & I7 & I8 & _ & I12) Z1 Z2. cbn [fst snd] in *. cbv zeta. unfold nc_terminate.
    cbn [nc_cauchy nc_norm nc_rtol nc_atol]. rewrite F1, F2, F, I8, I12, app_length. unfold vfull. rewrite repeat_app, (cauchy_app HB) by (rewrite ?repeat_length; congruence).
    set (c1 := cauchy_termination _ _ _ z1 _ _ _). set (c2 := cauchy_termination _ _ _ z2 _ _ _). clearbody c1 c2.
    set (r1 := nc_result t1). set (r2 := nc_result t2). clearbody r1 r2.
    destruct (results_eqb r1 successful) eqn:E1.
    - destruct (results_eqb r2 successful) eqn:E2; cbn [negb orb fst snd].
      + split; [split; auto|auto].
      + apply results_eqb_neq in E2. split; [tauto|contradiction].
    - cbn [negb orb fst snd]. rewrite E1. apply results_eqb_neq in E1. cbn [negb orb fst snd]. split; [tauto|contradiction].
  Qed.
End NC.

(** Newton and chord methods with the Cauchy test, box bounds included: the iterates are those of the two problems; the status
    is that of a failing linear solve, if there is one; otherwise the solve stops when both would stop. *)
Lemma C124_newton_pf :
  forall (N : Num) (Aux1 Aux2 M1 M2 M : Type) jac1 jac2 jac (ls1 : M1 -> list N -> list N * results) (ls2 : M2 -> list N -> list N * results)
         (ls : M -> list N -> list N * results) n1 n2 (fn1 : list N -> list N * Aux1) (fn2 : list N -> list N * Aux2) fn
         rtol atol kappa res (newton : bool) lo1 lo2 lo up1 up2 up y1 y2 a1 a2 fs1 fs2 fs (auxs1 : fillv -> Aux1) (auxs2 : fillv -> Aux2) (auxs : fillv -> Aux1 * Aux2) i1 i2 i,
    one_of_ours N -> side_by_side n1 n2 fn1 fn2 fn -> box_of n1 n2 lo1 lo2 lo -> box_of n1 n2 up1 up2 up -> length y1 = n1 -> length y2 = n2 ->
    fs fillinf = fs1 fillinf ++ fs2 fillinf ->
    (forall z1 z2, length z1 = n1 -> length z2 = n2 ->
       blockwise n1 n2 (ls1 (jac1 fn1 (if newton then z1 else y1)) (fst (fn1 z1))) (ls2 (jac2 fn2 (if newton then z2 else y2)) (fst (fn2 z2)))
         (ls (jac fn (if newton then z1 ++ z2 else y1 ++ y2)) (fst (fn (z1 ++ z2))))) ->
    let s1 := newton_chord jac1 ls1 (mkNcParams rtol atol max_norm kappa true newton lo1 up1 res) in
    let s2 := newton_chord jac2 ls2 (mkNcParams rtol atol max_norm kappa true newton lo2 up2 res) in
    let s := newton_chord jac ls (mkNcParams rtol atol max_norm kappa true newton lo up res) in
    s_init s1 fn1 y1 fs1 auxs1 = Ret i1 -> s_init s2 fn2 y2 fs2 auxs2 = Ret i2 -> s_init s fn (y1 ++ y2) fs auxs = Ret i ->
  forall k,
    y_at s fn (y1 ++ y2) i (a1, a2) k = y_at s1 fn1 y1 i1 a1 k ++ y_at s2 fn2 y2 i2 a2 k /\
    aux_at s fn (y1 ++ y2) i (a1, a2) k = (aux_at s1 fn1 y1 i1 a1 k, aux_at s2 fn2 y2 i2 a2 k) /\
    (says_result s fn (y1 ++ y2) i (a1, a2) k = successful <-> says_result s1 fn1 y1 i1 a1 k = successful /\ says_result s2 fn2 y2 i2 a2 k = successful) /\
    (says_result s fn (y1 ++ y2) i (a1, a2) k = successful ->
     says_terminate s fn (y1 ++ y2) i (a1, a2) k = says_terminate s1 fn1 y1 i1 a1 k && says_terminate s2 fn2 y2 i2 a2 k).
Proof.
  intros N Aux1 Aux2 M1 M2 M jac1 jac2 jac ls1 ls2 ls n1 n2 fn1 fn2 fn rtol atol kappa res newton lo1 lo2 lo up1 up2 up y1 y2 a1 a2 fs1 fs2 fs auxs1 auxs2 auxs i1 i2 i
    HN Hf Hlo Hup Y1 Y2 Hfs Hls s1 s2 s E1 E2 E k.
  injection E1 as <-. injection E2 as <-. injection E as <-.
  pose proof (nc_blocks jac1 jac2 jac ls1 ls2 ls n1 n2 fn1 fn2 fn Hf rtol atol kappa res newton lo1 lo2 lo up1 up2 up Hlo Hup y1 y2 a1 a2 fs1 fs2 fs Y1 Y2 Hfs Hls) as B.
  destruct (B k) as (_ & _ & Ek & Ak & _). destruct (B (pred k)) as (Q1 & Q2 & Q & _).
  split; [exact Ek|]. split; [exact Ak|].
  pose proof (nc_stop_rel (ours_below N HN) jac1 jac2 jac n1 n2 fn1 fn2 fn rtol atol kappa res newton lo1 lo2 lo up1 up2 up y1 y2 _ _ _ _ _ (B k) Q1 Q2) as T.
  cbv zeta in T. rewrite <- Q in T. exact T.
Qed.

(** So each of the problems alone is solved by Newton, in no more steps, if both together are. *)
Lemma C124_newton_solve_pf :
  forall (N : Num) (Aux1 Aux2 M1 M2 M : Type) jac1 jac2 jac (ls1 : M1 -> list N -> list N * results) (ls2 : M2 -> list N -> list N * results)
         (ls : M -> list N -> list N * results) n1 n2 (fn1 : list N -> list N * Aux1) (fn2 : list N -> list N * Aux2) fn
         rtol atol kappa res (newton : bool) lo1 lo2 lo up1 up2 up y1 y2 fs1 fs2 fs (auxs1 : fillv -> Aux1) (auxs2 : fillv -> Aux2),
    one_of_ours N -> side_by_side n1 n2 fn1 fn2 fn -> box_of n1 n2 lo1 lo2 lo -> box_of n1 n2 up1 up2 up -> length y1 = n1 -> length y2 = n2 ->
    fs fillinf = fs1 fillinf ++ fs2 fillinf ->
    (forall z1 z2, length z1 = n1 -> length z2 = n2 ->
       blockwise n1 n2 (ls1 (jac1 fn1 (if newton then z1 else y1)) (fst (fn1 z1))) (ls2 (jac2 fn2 (if newton then z2 else y2)) (fst (fn2 z2)))
         (ls (jac fn (if newton then z1 ++ z2 else y1 ++ y2)) (fst (fn (z1 ++ z2))))) ->
    let s1 := newton_chord jac1 ls1 (mkNcParams rtol atol max_norm kappa true newton lo1 up1 res) in
    let s2 := newton_chord jac2 ls2 (mkNcParams rtol atol max_norm kappa true newton lo2 up2 res) in
    let s := newton_chord jac ls (mkNcParams rtol atol max_norm kappa true newton lo up res) in
  forall fuel ms throw,
    let together := iterative_solve vallfinite s fn fuel ms throw (y1 ++ y2) fs (fun v => (auxs1 v, auxs2 v)) in
    no_later_than (iterative_solve vallfinite s1 fn1 fuel ms throw y1 fs1 auxs1) together /\
    no_later_than (iterative_solve vallfinite s2 fn2 fuel ms throw y2 fs2 auxs2) together.
Proof.
  intros N Aux1 Aux2 M1 M2 M jac1 jac2 jac ls1 ls2 ls n1 n2 fn1 fn2 fn rtol atol kappa res newton lo1 lo2 lo up1 up2 up y1 y2 fs1 fs2 fs auxs1 auxs2
    HN Hf Hlo Hup Y1 Y2 Hfs Hls s1 s2 s fuel ms throw together.
  pose proof (C124_newton_pf N Aux1 Aux2 M1 M2 M jac1 jac2 jac ls1 ls2 ls n1 n2 fn1 fn2 fn rtol atol kappa res newton lo1 lo2 lo up1 up2 up y1 y2
    (auxs1 fill0) (auxs2 fill0) fs1 fs2 fs auxs1 auxs2 (fun v => (auxs1 v, auxs2 v)) _ _ _ HN Hf Hlo Hup Y1 Y2 Hfs Hls eq_refl eq_refl eq_refl) as B.
  fold s1 s2 s in B.
  split.
  - apply (later s1 s fn1 fn vallfinite vallfinite y1 (y1 ++ y2) fs1 fs auxs1 _ _ _ eq_refl eq_refl).
    + intros k H. destruct (B k) as (_ & _ & C & _). apply C. exact H.
    + intros k H T. destruct (B k) as (_ & _ & _ & D). specialize (D H). refine (proj1 (proj1 (andb_true_iff _ _) _)). rewrite <- D. exact T.
    + intros k H. destruct (B (pred k)) as (E & _). unfold asked in *. refine (proj1 (proj1 (andb_true_iff _ _) _)). rewrite <- fin_app, <- E. exact H.
  - apply (later s2 s fn2 fn vallfinite vallfinite y2 (y1 ++ y2) fs2 fs auxs2 _ _ _ eq_refl eq_refl).
    + intros k H. destruct (B k) as (_ & _ & C & _). apply C. exact H.
    + intros k H T. destruct (B k) as (_ & _ & _ & D). specialize (D H). refine (proj2 (proj1 (andb_true_iff _ _) _)). rewrite <- D. exact T.
    + intros k H. destruct (B (pred k)) as (E & _). unfold asked in *. refine (proj2 (proj1 (andb_true_iff _ _) _)). rewrite <- fin_app, <- E. exact H.
Qed.

(** Gradient descent with a learning rate performs both descents when the gradient is made of the two gradients, as it is for a
    sum of two objectives. *)
Lemma C124_gradient_descent_pf :
  forall (N : Num) (Aux1 Aux2 Aux : Type) n1 n2 P1 P2 P rate grad1 grad2 grad (fn1 : list N -> N * Aux1) (fn2 : list N -> N * Aux2) (fn : list N -> N * Aux)
         y1 y2 fs1 fs2 fs auxs1 auxs2 auxs a1 a2 a i1 i2 i,
    (forall z1 z2, length z1 = n1 -> length z2 = n2 ->
       grad fn (z1 ++ z2) = grad1 fn1 z1 ++ grad2 fn2 z2 /\ length (grad1 fn1 z1) = n1 /\ length (grad2 fn2 z2) = n2) ->
    length y1 = n1 -> length y2 = n2 ->
    let s1 := GradientDescent P1 grad1 rate in let s2 := GradientDescent P2 grad2 rate in let s := GradientDescent P grad rate in
    s_init s1 fn1 y1 fs1 auxs1 = Ret i1 -> s_init s2 fn2 y2 fs2 auxs2 = Ret i2 -> s_init s fn (y1 ++ y2) fs auxs = Ret i ->
  forall k, y_at s fn (y1 ++ y2) i a k = y_at s1 fn1 y1 i1 a1 k ++ y_at s2 fn2 y2 i2 a2 k.
Proof.
  intros N Aux1 Aux2 Aux n1 n2 P1 P2 P rate grad1 grad2 grad fn1 fn2 fn y1 y2 fs1 fs2 fs auxs1 auxs2 auxs a1 a2 a i1 i2 i HG Y1 Y2 s1 s2 s E1 E2 E k.
  injection E1 as <-. injection E2 as <-. injection E as <-.
  assert (ST : forall (A : Type) (P : ar_tols N) grad (fn : list N -> N * A) y (st : gd_state (Aux:=A) (learning_rate rate) (steepest_descent None)),
    fst (fst (gd_step P (learning_rate rate) (steepest_descent None) grad fn y st)) = gd_y_eval st /\
    gd_y_eval (snd (fst (gd_step P (learning_rate rate) (steepest_descent None) grad fn y st))) = vadd (gd_y_eval st) (vscale (nneg rate) (grad fn (gd_y_eval st)))).
  { intros A Pq g f y st. unfold gd_step. destruct (f (gd_y_eval st)) as [v x]. split; reflexivity. }
  match goal with |- y_at _ _ _ ?j _ _ = y_at _ _ _ ?j1 _ _ ++ y_at _ _ _ ?j2 _ _ =>
    assert (H : forall k,
      (length (y_at s1 fn1 y1 j1 a1 k) = n1 /\ length (y_at s2 fn2 y2 j2 a2 k) = n2 /\ y_at s fn (y1 ++ y2) j a k = y_at s1 fn1 y1 j1 a1 k ++ y_at s2 fn2 y2 j2 a2 k) /\
      (length (gd_y_eval (st_at s1 fn1 y1 j1 a1 k)) = n1 /\ length (gd_y_eval (st_at s2 fn2 y2 j2 a2 k)) = n2 /\
       gd_y_eval (st_at s fn (y1 ++ y2) j a k) = gd_y_eval (st_at s1 fn1 y1 j1 a1 k) ++ gd_y_eval (st_at s2 fn2 y2 j2 a2 k))); [|apply H]
  end.
  clear k. induction k as [|k (_ & I1 & I2 & I3)].
  - repeat split; assumption.
  - unfold y_at, st_at in *. cbn [trace].
    match goal with |- context [s_step s fn ?y ?t] => destruct (ST _ P grad fn y t) as [U V] end.
    match goal with |- context [s_step s1 fn1 ?y ?t] => destruct (ST _ P1 grad1 fn1 y t) as [U1 V1] end.
    match goal with |- context [s_step s2 fn2 ?y ?t] => destruct (ST _ P2 grad2 fn2 y t) as [U2 V2] end.
    unfold s_step, s, s1, s2, GradientDescent, gradient_descent_solver in *. cbn [s_step] in *.
    split; [split; [refine (eq_trans (f_equal (@length _) U1) I1)|split; [refine (eq_trans (f_equal (@length _) U2) I2)|]]|].
    + refine (eq_trans U (eq_trans I3 _)). symmetry. exact (f_equal2 (@app _) U1 U2).
    + destruct (HG _ _ I1 I2) as (G & G1 & G2).
      assert (W1 := f_equal (@length _) V1). assert (W2 := f_equal (@length _) V2).
      unfold vadd in W1, W2. rewrite map2_len in W1 by (unfold vscale; rewrite map_length; congruence). rewrite map2_len in W2 by (unfold vscale; rewrite map_length; congruence).
      split; [exact (eq_trans W1 I1)|]. split; [exact (eq_trans W2 I2)|]. refine (eq_trans V (eq_trans _ (eq_sym (f_equal2 (@app _) V1 V2)))).
      refine (eq_trans (f_equal (fun z => vadd z (vscale (nneg rate) (grad fn z))) I3) _). rewrite G. unfold vscale, vadd. rewrite map_app. apply map2_app. rewrite map_length. congruence.
Qed.

(** ** Examples *)

Lemma halve_sides : forall N n1 n2, side_by_side n1 n2 (halve (N:=N)) halve halve2 /\ keeps_length n1 (halve (N:=N)).
Proof. intros N n1 n2. split; [intros y1 y2 _ _; unfold halve, halve2; cbn [fst snd]; rewrite map_app; reflexivity|]. intros y H. cbn [halve fst]. rewrite map_length. exact H. Qed.

Example C124_fixed_point_ex_pf : one_of_ours F64 /\ side_by_side 1 2 (halve (N:=F64)) halve halve2 /\ keeps_length 1 (halve (N:=F64)) /\ keeps_length 2 (halve (N:=F64)).
Proof. split; [unfold one_of_ours; tauto|]. repeat split; apply (halve_sides F64 _ 2). Qed.

(** In doubles with atol = 1: from 8 alone 4 steps, from 64 and 2 alone 7, together 7. *)
Example C124_fixed_point_solve_ex_pf :
  let q (z : Z) := f64_ofZ z in
  let run (Aux : Type) (fn : list f64 -> list f64 * Aux) y a :=
    match iterative_solve (vallfinite (N:=F64)) (fixed_point_iteration (N:=F64) (q 0%Z) (q 1%Z) (q 0%Z) max_norm) fn 20 (Some 15) false y (fun _ => y) a with
    | Ret s => Some (result s, hd_error (sol_stats s)) | _ => None end in
  run _ halve [q 8%Z] (fun _ => tt) = Some (successful, Some ("num_steps"%string, Some 4%Z)) /\
  run _ halve [q 64%Z; q 2%Z] (fun _ => tt) = Some (successful, Some ("num_steps"%string, Some 7%Z)) /\
  run _ halve2 [q 8%Z; q 64%Z; q 2%Z] (fun _ => (tt, tt)) = Some (successful, Some ("num_steps"%string, Some 7%Z)).
Proof. vm_compute. repeat split; reflexivity. Qed.

Example C124_newton_ex_pf : forall (N : Num) n1 n2, box_of 1 1 (Some [lit 0 : N]) (Some [lit 1]) (Some [lit 0; lit 1]) /\
  forall z1 z2 : list N, length z1 = n1 -> length z2 = n2 ->
    blockwise n1 n2 (divide (slope halve z1) (fst (halve z1))) (divide (slope halve z2) (fst (halve z2))) (divide (slope halve2 (z1 ++ z2)) (fst (halve2 (z1 ++ z2)))).
Proof.
  intros N n1 n2. split; [right; exists [lit 0], [lit 1]; repeat split|]. intros z1 z2 H1 H2. unfold blockwise, divide, halve, halve2, slope. cbn [fst snd].
  rewrite !map_length, !map_app. repeat split; assumption.
Qed.
(** Newton in doubles on y/2 = 0: both blocks and both together *)
Example C124_newton_solve_ex_pf :
  let q (z : Z) := f64_ofZ z in
  let run (Aux : Type) (fn : list f64 -> list f64 * Aux) y a :=
    match iterative_solve (vallfinite (N:=F64)) (newton_chord (N:=F64) slope divide (mkNcParams (N:=F64) (q 0%Z) (q 1%Z) max_norm (q 1%Z) true true None None (q 0%Z))) fn 20 (Some 15) false y (fun _ => y) a with
    | Ret s => Some (result s, hd_error (sol_stats s)) | _ => None end in
  run _ halve [q 8%Z] (fun _ => tt) = Some (successful, Some ("num_steps"%string, Some 2%Z)) /\
  run _ halve2 [q 8%Z; q 64%Z; q 2%Z] (fun _ => (tt, tt)) = Some (successful, Some ("num_steps"%string, Some 2%Z)).
Proof. vm_compute. repeat split; reflexivity. Qed.

(** |y|^2 / 2, whose gradient is y *)
Example C124_gradient_descent_ex_pf : forall (N : Num) (z1 z2 : list N) n1 n2, length z1 = n1 -> length z2 = n2 ->
  let grad (fn : list N -> N * unit) (y : list N) := y in let fn y := (nmul (lit (1#2)) (sum_squares y), tt) in
  grad fn (z1 ++ z2) = grad fn z1 ++ grad fn z2 /\ length (grad fn z1) = n1 /\ length (grad fn z2) = n2.
Proof. intros. repeat split; assumption. Qed.

Lemma later_steps : forall {Y Aux1 Aux2 S1 S2 : Type} (alone : outcome (Solution Y Aux1 S1)) (together : outcome (Solution Y Aux2 S2)),
  match alone with Ret s => (result s, hd_error (sol_stats s)) = (successful, Some ("num_steps"%string, Some 2%Z)) | _ => False end ->
  match together with Ret s => (result s, hd_error (sol_stats s)) = (successful, Some ("num_steps"%string, Some 1%Z)) | _ => False end ->
  ~ no_later_than alone together.
Proof.
  intros Y Aux1 Aux2 S1 S2 [s1| |] [s| |] A B; try contradiction. injection A as A1 A2. injection B as B1 B2. intro H.
  destruct (H s 1 eq_refl B1) as (t & k & E & _ & K & L); [exact B2|]. injection E as <-. unfold steps in K. rewrite A2 in K. injection K as K. lia.
Qed.

(** With rms_norm, which averages, this fails: in doubles, halving 0 and 2.25 together is successful after 1 step, the second
    problem alone after 2. *)
Lemma C124_rms_norm_stops_early_pf :
  let q (z : Z) := f64_ofZ z in
  let solve (Aux : Type) (fn : list f64 -> list f64 * Aux) y a :=
    iterative_solve (vallfinite (N:=F64)) (fixed_point_iteration (N:=F64) (q 0%Z) (q 1%Z) (q 0%Z) rms_norm) fn 20 None false y (fun _ => y) a in
  let y := f64_ofQ (9#4) in
  side_by_side 1 1 (halve (N:=F64)) halve halve2 /\ keeps_length 1 (halve (N:=F64)) /\
  ~ no_later_than (solve _ halve [y] (fun _ => tt)) (solve _ halve2 ([q 0%Z] ++ [y]) (fun _ => (tt, tt))).
Proof.
  intros q solve y. split; [apply (halve_sides F64 1 1)|]. split; [apply (halve_sides F64 1 1)|].
  apply later_steps; vm_compute; reflexivity.
Qed.
