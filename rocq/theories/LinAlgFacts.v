(** Facts about finite sums, triangular solves and the Cholesky factorisation. *)

From Coq Require Import List Bool Arith Lia ZArith QArith Qreals Reals Lra Psatz Permutation.
From Verif Require Import Num NumFacts Vec Spec_Vec VecFacts Spec_Lin LinFacts LinAlg QuasiNewton BFGS_proofs.
Import ListNotations.
Local Open Scope nat_scope.

(** ** Finite sums *)
Fixpoint sml (l : list nat) (f : nat -> R) : R :=
  match l with [] => 0%R | i :: l' => (f i + sml l' f)%R end.
Notation sm m f := (sml (seq 0 m) f).

Lemma sml_ext : forall l f g, (forall i, In i l -> f i = g i) -> sml l f = sml l g.
Proof.
  induction l as [|i l IH]; intros f g H; [reflexivity|]. cbn. rewrite (H i) by (left; auto).
  f_equal. apply IH. intros j Hj. apply H. right; auto.
Qed.
Lemma sml_add : forall l f g, sml l (fun i => f i + g i)%R = (sml l f + sml l g)%R.
Proof. induction l as [|i l IH]; intros f g; cbn; [lra|]. rewrite IH. lra. Qed.
Lemma sml_sub : forall l f g, sml l (fun i => f i - g i)%R = (sml l f - sml l g)%R.
Proof. induction l as [|i l IH]; intros f g; cbn; [lra|]. rewrite IH. lra. Qed.
Lemma sml_scal : forall l c f, sml l (fun i => c * f i)%R = (c * sml l f)%R.
Proof. induction l as [|i l IH]; intros c f; cbn; [lra|]. rewrite IH. lra. Qed.
Lemma sml_0 : forall l f, (forall i, In i l -> f i = 0%R) -> sml l f = 0%R.
Proof.
  induction l as [|i l IH]; intros f H; [reflexivity|]. cbn. rewrite (H i) by (left; auto).
  rewrite IH; [lra|]. intros j Hj. apply H. right; auto.
Qed.
Lemma sml_app : forall l l' f, sml (l ++ l') f = (sml l f + sml l' f)%R.
Proof. induction l as [|i l IH]; intros l' f; cbn; [lra|]. rewrite IH. lra. Qed.
Lemma sml_perm : forall l l' f, Permutation l l' -> sml l f = sml l' f.
Proof. intros l l' f H. induction H; cbn; lra. Qed.
Lemma sml_map : forall l g f, sml (map g l) f = sml l (fun i => f (g i)).
Proof. induction l as [|i l IH]; intros g f; cbn; [reflexivity|]. rewrite IH. reflexivity. Qed.
Lemma sml_nonneg : forall l f, (forall i, In i l -> (0 <= f i)%R) -> (0 <= sml l f)%R.
Proof.
  induction l as [|i l IH]; intros f H; cbn; [lra|]. pose proof (H i (or_introl eq_refl)).
  assert (0 <= sml l f)%R by (apply IH; intros j Hj; apply H; right; auto). lra.
Qed.
Lemma sml_0_inv : forall l f, (forall i, In i l -> (0 <= f i)%R) -> sml l f = 0%R -> forall i, In i l -> f i = 0%R.
Proof.
  induction l as [|j l IH]; intros f H E i Hi; [destruct Hi|]. cbn in E.
  pose proof (H j (or_introl eq_refl)).
  assert (0 <= sml l f)%R by (apply sml_nonneg; intros k Hk; apply H; right; auto).
  destruct Hi as [->|Hi]; [lra|]. apply IH; auto; [|lra]. intros k Hk; apply H; right; auto.
Qed.
Lemma sm_single : forall m f k, k < m -> (forall i, i < m -> i <> k -> f i = 0%R) -> sm m f = f k.
Proof.
  intros m f k Hk H. replace m with (k + (1 + (m - k - 1))) by lia.
  rewrite !seq_app, !sml_app. rewrite (sml_0 (seq 0 k)), (sml_0 (seq (0 + k + 1) (m - k - 1))).
  - cbn. lra.
  - intros i Hi. apply in_seq in Hi. apply H; lia.
  - intros i Hi. apply in_seq in Hi. apply H; lia.
Qed.
(** sum restricted to the indices below / above t *)
Lemma sm_below : forall m t f, t <= m -> sm m (fun u => if Nat.ltb u t then f u else 0%R) = sm t f.
Proof.
  intros m t f H. replace m with (t + (m - t)) by lia. rewrite seq_app, sml_app.
  rewrite (sml_0 (seq (0 + t) _)).
  - rewrite Rplus_0_r. apply sml_ext. intros i Hi. apply in_seq in Hi.
    replace (Nat.ltb i t) with true by (symmetry; apply Nat.ltb_lt; lia). reflexivity.
  - intros i Hi. apply in_seq in Hi. replace (Nat.ltb i t) with false by (symmetry; apply Nat.ltb_ge; lia). reflexivity.
Qed.
Lemma sm_above : forall m t f, t < m -> sm m (fun u => if Nat.ltb t u then f u else 0%R) = sml (seq (S t) (m - S t)) f.
Proof.
  intros m t f H. replace m with (S t + (m - S t)) at 1 by lia. rewrite seq_app, sml_app.
  rewrite (sml_0 (seq 0 (S t))).
  - rewrite Rplus_0_l. apply sml_ext. intros i Hi. apply in_seq in Hi.
    replace (Nat.ltb t i) with true by (symmetry; apply Nat.ltb_lt; lia). reflexivity.
  - intros i Hi. apply in_seq in Hi. replace (Nat.ltb t i) with false by (symmetry; apply Nat.ltb_ge; lia). reflexivity.
Qed.
Lemma sm_perm : forall m (pos : nat -> nat) f, (forall t, t < m -> pos t < m) ->
  (forall t u, t < m -> u < m -> pos t = pos u -> t = u) -> sm m f = sm m (fun t => f (pos t)).
Proof.
  intros m pos f H1 H2. rewrite <- (sml_map (seq 0 m) pos f). apply sml_perm. symmetry.
  apply NoDup_Permutation_bis.
  - apply NoDup_nth with (d := 0). intros i j Hi Hj E. rewrite map_length, seq_length in Hi, Hj.
    rewrite !(nth_indep _ 0 (pos 0)) in E by (rewrite map_length, seq_length; assumption).
    rewrite !map_nth, !seq_nth in E by assumption. cbn in E. apply H2; assumption.
  - rewrite map_length. lia.
  - intros i Hi. apply in_map_iff in Hi as (t & <- & Ht). apply in_seq in Ht. apply in_seq. specialize (H1 t). lia.
Qed.

Lemma Rdot_sm : forall n (a b : list R), length a = n -> length b = n ->
  Rdot a b = sm n (fun i => nth i a 0 * nth i b 0)%R.
Proof.
  induction n as [|n IH]; intros [|x a] [|y b] Ha Hb; try discriminate; [reflexivity|].
  cbn [seq sml Rdot nth]. f_equal. rewrite <- seq_shift.
  rewrite (IH a b) by (first [now injection Ha | now injection Hb]). symmetry.
  exact (sml_map (seq 0 n) S (fun i => (nth i (x :: a) 0 * nth i (y :: b) 0)%R)).
Qed.

(** ** Dot products of concatenations *)
Lemma Rdot_app : forall a b c d : list R, length a = length c -> Rdot (a ++ b) (c ++ d) = (Rdot a c + Rdot b d)%R.
Proof.
  induction a as [|x a IH]; intros b [|y c] d L; try discriminate; cbn; [lra|].
  rewrite IH by (now injection L). lra.
Qed.
Lemma Rdot_split : forall (acc rest row : list R) z,
  Rdot row (acc ++ z :: rest) = (Rdot row acc + nth (length acc) row 0 * z + Rdot (skipn (S (length acc)) row) rest)%R.
Proof.
  induction acc as [|a acc IH]; intros rest [|x row] z; cbn [app Rdot length nth skipn]; try lra.
  rewrite IH. cbn [length nth skipn]. lra.
Qed.
Lemma Rdot_all0 : forall a b : list R, (forall j, nth j a 0%R = 0%R) -> Rdot a b = 0%R.
Proof.
  induction a as [|x a IH]; intros [|y b] H; cbn; try reflexivity.
  rewrite IH by (intro j; exact (H (S j))). rewrite (H 0 : x = 0%R). lra.
Qed.
Lemma Rdot_prefix0 : forall (p a : list R), (forall j, j < length p -> nth j a 0%R = 0%R) -> Rdot a p = 0%R.
Proof.
  induction p as [|y p IH]; intros [|x a] H; cbn; try reflexivity.
  rewrite IH by (intros j Hj; apply (H (S j)); cbn; lia). rewrite (H 0 ltac:(cbn; lia) : x = 0%R). lra.
Qed.
Lemma nth_skipn : forall (l : list R) k j, nth j (skipn k l) 0%R = nth (k + j) l 0%R.
Proof. induction l as [|x l IH]; intros [|k] j; cbn; auto. destruct j; reflexivity. Qed.

(** ** Triangular solves *)
(** [A] is a block of rows, starting with row [i], of a lower (upper) triangular
    matrix without zeros on the diagonal. *)
Fixpoint lower_from (i : nat) (A : list (list R)) : Prop :=
  match A with
  | [] => True
  | row :: A' => (forall j, i < j -> nth j row 0%R = 0%R) /\ nth i row 0%R <> 0%R /\ lower_from (S i) A'
  end.
Fixpoint upper_from (i : nat) (A : list (list R)) : Prop :=
  match A with
  | [] => True
  | row :: A' => (forall j, j < i -> nth j row 0%R = 0%R) /\ nth i row 0%R <> 0%R /\ upper_from (S i) A'
  end.

Lemma solve_lower_ok : forall (A : list (list R)) (acc b : list R),
  length b = length A -> lower_from (length acc) A ->
  exists rest, solve_lower_from (N:=RN) acc A b = acc ++ rest /\ length rest = length A /\
    mvec A (acc ++ rest) = b.
Proof.
  induction A as [|row A IH]; intros acc [|x b] L H; try discriminate L.
  - exists []. cbn. rewrite app_nil_r. auto.
  - destruct H as (H1 & H2 & H3). cbn [solve_lower_from]. rewrite vdot_RN. cbn [nsub ndiv RN nofQ].
    rewrite Q2R_0. set (z := ((x - Rdot row acc) / nth (Datatypes.length acc) row 0)%R).
    assert (Lz : length (acc ++ [z]) = S (length acc)) by (rewrite app_length; cbn; lia).
    rewrite <- Lz in H3. destruct (IH (acc ++ [z]) b ltac:(now injection L) H3) as (rest & E & Lr & M).
    exists (z :: rest). rewrite <- app_assoc in E, M. cbn [app] in E, M.
    split; [exact E|]. split; [cbn; lia|]. cbn [mvec map]. f_equal; [|exact M].
    rewrite Rdot_split, (Rdot_all0 (skipn _ row)).
    + unfold z. change (Datatypes.length acc) with (@length R acc). field. exact H2.
    + intro j. rewrite nth_skipn. apply H1. lia.
Qed.

Lemma solve_upper_ok : forall (A : list (list R)) i (b p : list R),
  length b = length A -> length p = i -> upper_from i A ->
  length (solve_upper_from (N:=RN) i A b : list R) = length A /\
  mvec A (p ++ solve_upper_from (N:=RN) i A b) = b.
Proof.
  induction A as [|row A IH]; intros i [|x b] p L Lp H; try discriminate L.
  - split; reflexivity.
  - destruct H as (H1 & H2 & H3). cbn [solve_upper_from]. rewrite vdot_RN. cbn [nsub ndiv RN nofQ].
    rewrite Q2R_0.
    set (zs := solve_upper_from (N:=RN) (S i) A b : list R) in *.
    set (z := ((x - Rdot (skipn (S i) row) zs) / nth i row 0)%R).
    destruct (IH (S i) b (p ++ [z]) ltac:(now injection L) ltac:(rewrite app_length; cbn; lia) H3) as (K1 & K2).
    fold zs in K1, K2. rewrite <- app_assoc in K2. cbn [app] in K2.
    split; [cbn; f_equal; exact K1|]. cbn [mvec map]. f_equal; [|exact K2].
    rewrite Rdot_split, Lp, (Rdot_prefix0 p row).
    + unfold z. change (@nth (T RN)) with (@nth R). change (@skipn (T RN)) with (@skipn R). field. exact H2.
    + intros j Hj. apply H1. lia.
Qed.

(** ** Cholesky *)
Lemma mvec_row : forall (r : list R) A x, mvec (r :: A) x = Rdot r x :: mvec A x.
Proof. reflexivity. Qed.
Lemma Rscal_cons : forall c a (v : list R), Rscal c (a :: v) = (c * a)%R :: Rscal c v.
Proof. reflexivity. Qed.
Lemma map_tl_mat : forall m n (A : list (list R)), mat m (S n) A -> mat m n (map (@tl R) A).
Proof.
  intros m n A [L F]. split; [rewrite map_length; exact L|]. apply Forall_forall. intros r Hr.
  apply in_map_iff in Hr as (q & <- & Hq). rewrite Forall_forall in F. specialize (F q Hq).
  destruct q; [discriminate F|]. now injection F.
Qed.
Lemma mvec_cons : forall m n (A : list (list R)) x0 (x : list R), mat m (S n) A ->
  mvec A (x0 :: x) = Radd_v (Rscal x0 (map (hd 0%R) A)) (mvec (map (@tl R) A) x).
Proof.
  intros m n A x0 x [_ F]. induction F as [|r A Hr F IH]; [reflexivity|]. cbn [map]. rewrite !mvec_row, Rscal_cons, IH.
  destruct r as [|a r]; [discriminate Hr|]. cbn. f_equal. lra.
Qed.
Lemma Rsub_v_scal_eq : forall (w row : list R) wi,
  vmap2 (fun wj x : RN => nsub x (nmul wi wj)) w row = Rsub_v row (Rscal wi w).
Proof.
  induction w as [|a w IH]; intros [|x row] wi; cbn; try reflexivity. f_equal. apply IH.
Qed.

Lemma schur_eq : forall (B : list (list R)) (w w' : list R),
  vmap2 (fun wi row => vmap2 (fun wj x : RN => nsub x (nmul wi wj)) w' (tl row)) w B =
  vmap2 (fun wi row => Rsub_v row (Rscal wi w')) w (map (@tl R) B).
Proof.
  induction B as [|r B IH]; intros [|a w] w'; cbn; try reflexivity. f_equal; [|apply IH].
  apply Rsub_v_scal_eq.
Qed.
Lemma schur_mat : forall m n (B : list (list R)) (w w' : list R), mat m n B -> length w = m -> length w' = n ->
  mat m n (vmap2 (fun wi row => Rsub_v row (Rscal wi w')) w B).
Proof.
  intros m n B w w' [L F] Lw Lw'. split; [apply vmap2_length_eq; assumption|]. clear L Lw. revert w.
  induction F as [|r B Hr F IH]; intros [|a w]; cbn; constructor; auto.
  apply Rsub_v_length; [exact Hr|rewrite Rscal_length; exact Lw'].
Qed.
Lemma schur_mv : forall m n (B : list (list R)) (w w' x : list R), mat m n B -> length w = m -> length w' = n -> length x = n ->
  mvec (vmap2 (fun wi row => Rsub_v row (Rscal wi w')) w B) x = Rsub_v (mvec B x) (Rscal (Rdot w' x) w).
Proof.
  intros m n B w w' x [L F] Lw Lw' Lx. rewrite <- L in Lw. clear L. revert w Lw.
  induction F as [|r B Hr F IH]; intros [|a w] Lw; try discriminate Lw; [reflexivity|].
  cbn [vmap2]. rewrite !mvec_row, Rscal_cons. cbn [Rsub_v]. rewrite Rdot_sub_l by (rewrite Rscal_length; congruence).
  rewrite Rdot_scal_l. f_equal; [lra|]. apply IH. now injection Lw.
Qed.

Lemma rows_cons_mat : forall m n (w : list R) (J : list (list R)), length w = m -> mat m n J -> mat m (S n) (vmap2 cons w J).
Proof.
  intros m n w J Lw [L F]. split; [apply vmap2_length_eq; assumption|]. clear L Lw. revert w.
  induction F as [|r J Hr F IH]; intros [|a w]; cbn; constructor; auto. cbn. f_equal. exact Hr.
Qed.
Lemma rows_cons_mv : forall (w : list R) (J : list (list R)) x0 (x : list R), length w = length J ->
  mvec (vmap2 cons w J) (x0 :: x) = Radd_v (Rscal x0 w) (mvec J x).
Proof.
  induction w as [|a w IH]; intros [|r J] x0 x L; try discriminate L; [reflexivity|].
  cbn [vmap2]. rewrite !mvec_row, Rscal_cons. cbn [Radd_v Rdot]. f_equal; [lra|]. apply IH. now injection L.
Qed.
Lemma rows_cons_lower : forall (w : list R) (J : list (list R)) i, lower_from i J -> lower_from (S i) (vmap2 cons w J).
Proof.
  intros w J. revert w. induction J as [|r J IH]; intros [|a w] i H; cbn; auto.
  destruct H as (H1 & H2 & H3). split; [|split; [exact H2|apply IH; exact H3]].
  intros [|j] Hj; [lia|]. apply H1. lia.
Qed.

Lemma repeat_nth0 : forall n j, nth j (repeat 0%R n) 0%R = 0%R.
Proof. induction n as [|n IH]; intros [|j]; cbn; auto. Qed.

Lemma tmvec_char : forall m n (A : list (list R)) (x t : list R), mat m n A -> length t = n ->
  (forall d, length d = n -> Rdot t d = Rdot x (mvec A d)) -> tmvec n A x = t.
Proof.
  intros m n A x t HA Lt H. apply (Rdot_ext n); [apply tmvec_length|exact Lt|].
  intros z Hz. rewrite (tmvec_adjoint m n) by assumption. symmetry. apply H. exact Hz.
Qed.

Lemma cholesky_ok : forall n (A : list (list R)), spd n A ->
  let J := cholesky_lower (N:=RN) n A in
  mat n n J /\ lower_from 0 J /\ forall x, length x = n -> mvec J (tmvec n J x) = mvec A x.
Proof.
  induction n as [|n IH]; intros A (HM & HS & HP).
  - cbn. split; [split; constructor|]. split; [exact I|]. intros x Hx. destruct HM as [L _]. destruct A; [|discriminate L].
    reflexivity.
  - pose proof HM as [L F]. destruct A as [|r rows]; [discriminate L|].
    inversion F as [|? ? Lr Fr]; subst. destruct r as [|a v]; [discriminate Lr|].
    assert (Hrows : mat n (S n) rows) by (split; [now injection L|exact Fr]).
    assert (Lv : length v = n) by (now injection Lr).
    set (B := map (@tl R) rows). pose proof (map_tl_mat n n rows Hrows : mat n n B) as HB.
    (* first column = first row *)
    assert (Ev : map (hd 0%R) rows = v).
    { apply (Rdot_ext n); [rewrite map_length; apply Hrows|exact Lv|]. intros z Hz.
      pose proof (HS (1%R :: zerov n) (0%R :: z) ltac:(cbn; rewrite zerov_length; reflexivity) ltac:(cbn; rewrite Hz; reflexivity)) as K.
      rewrite !mvec_row in K.
      rewrite (mvec_cons n n rows 1 (zerov n)) in K by exact Hrows.
      cbn [Rdot] in K. rewrite !Rdot_0_l, mvec_0 in K.
      rewrite Rdot_add_l in K.
      - rewrite Rdot_scal_l, Rdot_0_l in K. lra.
      - rewrite Rscal_length, map_length, zerov_length, map_length. reflexivity. }
    (* the first pivot *)
    assert (Ha : (0 < a)%R).
    { pose proof (HP (1%R :: zerov n) ltac:(cbn; rewrite zerov_length; reflexivity)
        ltac:(intro E; injection E as E; lra)) as K.
      rewrite mvec_row in K. cbn [Rdot] in K. rewrite Rdot_0_l, Rdot_0_r in K. lra. }
    set (l := sqrt a). assert (Hl : (0 < l)%R) by (apply sqrt_lt_R0; exact Ha).
    assert (Hll : (l * l = a)%R) by (apply sqrt_sqrt; lra).
    cbn [cholesky_lower]. cbn [nsqrt ndiv RN nofQ]. rewrite !Q2R_0. fold l.
    set (w := map (fun row : list R => hd 0 row / l)%R rows).
    assert (Ew : w = Rscal (/ l) v).
    { unfold w, Rscal. rewrite <- Ev, map_map. apply map_ext. intro q. unfold Rdiv. apply Rmult_comm. }
    assert (Lw : length w = n) by (rewrite Ew, Rscal_length; exact Lv).
    assert (Evw : v = Rscal l w).
    { rewrite Ew. unfold Rscal. rewrite map_map. symmetry. erewrite map_ext; [apply map_id|].
      intro q. cbn. field. lra. }
    set (A' := vmap2 (fun wi row => Rsub_v row (Rscal wi w)) w B).
    assert (EA' : vmap2 (fun wi row => vmap2 (fun wj x : RN => nsub x (nmul wi wj)) w (tl row)) w rows = A').
    { apply schur_eq. }
    match goal with |- context [cholesky_lower n ?X] => change X with (vmap2 (fun wi row => vmap2 (fun wj x : RN => nsub x (nmul wi wj)) w (tl row)) w rows) end.
    rewrite EA'.
    assert (HA' : mat n n A') by (apply schur_mat; assumption).
    assert (MA' : forall x, length x = n -> mvec A' x = Rsub_v (mvec B x) (Rscal (Rdot w x) w)).
    { intros x Hx. apply (schur_mv n n); assumption. }
    assert (LB : forall x, length (mvec B x) = n) by (intro x; eapply mvec_len; eauto).
    assert (MA : forall x0 x, length x = n -> mvec ((a :: v) :: rows) (x0 :: x) =
              (a * x0 + Rdot v x)%R :: Radd_v (Rscal x0 v) (mvec B x)).
    { intros x0 x Hx. rewrite mvec_row. cbn [Rdot]. f_equal.
      rewrite (mvec_cons n n) by exact Hrows. rewrite Ev. reflexivity. }
    assert (SA' : spd n A').
    { split; [exact HA'|]. split.
      - intros x y Hx Hy. rewrite !MA' by assumption.
        rewrite Rdot_sub_l, Rdot_sub_r by (rewrite Rscal_length, LB, Lw; reflexivity).
        rewrite Rdot_scal_l, Rdot_scal_r.
        pose proof (HS (0%R :: x) (0%R :: y) ltac:(cbn; rewrite Hx; reflexivity) ltac:(cbn; rewrite Hy; reflexivity)) as K.
        rewrite !MA in K by assumption. cbn [Rdot] in K.
        rewrite Rdot_add_l, Rdot_add_r in K by (rewrite Rscal_length, LB; exact Lv).
        rewrite !Rdot_scal_l, !Rdot_scal_r in K. rewrite (Rdot_comm w y), (Rdot_comm x w). rewrite (Rdot_comm x v) in K. lra.
      - intros x Hx Hnz. rewrite MA' by assumption.
        rewrite Rdot_sub_r by (rewrite Rscal_length, LB, Lw; reflexivity). rewrite Rdot_scal_r.
        set (c := (- (Rdot w x / l))%R).
        pose proof (HP (c :: x) ltac:(cbn; rewrite Hx; reflexivity) ltac:(intro E; injection E as _ E; exact (Hnz E))) as K.
        rewrite MA in K by assumption. cbn [Rdot] in K.
        rewrite Rdot_add_r in K by (rewrite Rscal_length, LB; exact Lv). rewrite Rdot_scal_r in K.
        rewrite Evw in K. rewrite Rdot_scal_l, Rdot_scal_r, <- Hll in K. rewrite (Rdot_comm x w) in K |- *.
        assert (E : (c * l = - Rdot w x)%R) by (unfold c; field; lra).
        replace (c * (l * l * c + l * Rdot w x) + (c * (l * Rdot w x) + Rdot x (mvec B x)))%R
          with ((c * l) * (c * l) + 2 * ((c * l) * Rdot w x) + Rdot x (mvec B x))%R in K by ring.
        rewrite E in K. lra. }
    destruct (IH A' SA') as (J1 & J2 & J3). set (J' := cholesky_lower (N:=RN) n A' : list (list R)) in *.
    assert (LJ : length J' = n) by apply J1.
    set (J := (l :: vfull (N:=RN) n 0%R : list R) :: vmap2 cons w J').
    change (mat (S n) (S n) J /\ lower_from 0 J /\ forall x, length x = S n -> mvec J (tmvec (S n) J x) = mvec ((a :: v) :: rows) x).
    assert (HJ : mat (S n) (S n) J).
    { destruct (rows_cons_mat n n w J' Lw J1) as [K1 K2]. split; [cbn; f_equal; exact K1|].
      constructor; [cbn; f_equal; apply repeat_length|exact K2]. }
    assert (MJ : forall x0 x, length x = n -> mvec J (x0 :: x) = (l * x0)%R :: Radd_v (Rscal x0 w) (mvec J' x)).
    { intros x0 x Hx. unfold J. rewrite mvec_row. cbn [Rdot].
      rewrite rows_cons_mv by congruence. f_equal. change (vfull (N:=RN) n 0%R) with (zerov n). rewrite Rdot_0_l. lra. }
    split; [exact HJ|]. split.
    { cbn. split; [|split; [lra|apply rows_cons_lower; exact J2]].
      intros [|j] Hj; [lia|]. apply repeat_nth0. }
    intros [|x0 x] Hx; [discriminate Hx|]. assert (Lx : length x = n) by (now injection Hx).
    assert (LJx : forall z, length (mvec J' z) = n) by (intro z; eapply mvec_len; eauto).
    assert (ET : tmvec (S n) J (x0 :: x) = (l * x0 + Rdot w x)%R :: tmvec n J' x).
    { apply (tmvec_char (S n)); [exact HJ|cbn; f_equal; apply tmvec_length|].
      intros [|d0 d] Hd; [discriminate Hd|]. assert (Ld : length d = n) by (now injection Hd).
      rewrite MJ by exact Ld. cbn [Rdot]. rewrite (tmvec_adjoint n n) by assumption.
      rewrite Rdot_add_r by (rewrite Rscal_length, LJx; exact Lw). rewrite Rdot_scal_r, (Rdot_comm x w). lra. }
    rewrite ET, MJ by apply tmvec_length. rewrite J3 by exact Lx. rewrite MA, MA' by exact Lx. f_equal.
    + rewrite <- Hll. rewrite Evw at 1. rewrite Rdot_scal_l. ring.
    + apply (Rdot_ext n).
      * apply Radd_v_length; [rewrite Rscal_length; exact Lw|apply Rsub_v_length; [apply LB|rewrite Rscal_length; exact Lw]].
      * apply Radd_v_length; [rewrite Rscal_length; exact Lv|apply LB].
      * intros z Hz.
        rewrite Rdot_add_l by (rewrite Rscal_length, Lw; symmetry; apply Rsub_v_length; [apply LB|rewrite Rscal_length; exact Lw]).
        rewrite Rdot_sub_l by (rewrite Rscal_length, Lw; apply LB).
        rewrite Rdot_add_l by (rewrite Rscal_length, LB; exact Lv).
        rewrite !Rdot_scal_l. rewrite Evw, Rdot_scal_l. ring.
Qed.

(** ** Transpose and symmetrisation *)
Lemma transpose_mat : forall m n (A : list (list R)), length A = m -> mat n m (transpose (N:=RN) n A).
Proof.
  intros m n A L. unfold transpose. split; [rewrite map_length, seq_length; reflexivity|].
  apply Forall_forall. intros r Hr. apply in_map_iff in Hr as (j & <- & _). rewrite map_length. exact L.
Qed.
Lemma transpose_mv : forall n (A : list (list R)) (x : list R), mvec (transpose (N:=RN) n A) x = tmvec n A x.
Proof.
  intros n A x. unfold mvec, transpose, tmvec, column. rewrite map_map. apply map_ext. intro j.
  f_equal. apply map_ext. intro r. cbn. rewrite Q2R_0. reflexivity.
Qed.

Lemma half_sum_mv : forall m n (A B : list (list R)) (x : list R), mat m n A -> mat m n B -> length x = n ->
  let S := vmap2 (vmap2 (fun a b : RN => ndiv (nadd a b) (nofQ 2))) A B in
  mat m n S /\ mvec S x = Rscal (/ 2) (Radd_v (mvec A x) (mvec B x)).
Proof.
  intros m n A B x [LA FA] [LB FB] Hx S. rewrite <- LB in LA.
  assert (Hrow : forall r q : list R, vmap2 (fun a b : RN => ndiv (nadd a b) (nofQ 2)) r q = Rscal (/ 2) (Radd_v r q)).
  { induction r as [|a r IH]; intros [|b q]; cbn; try reflexivity. f_equal; [|apply IH].
    rewrite Q2R_2. unfold Rdiv. ring. }
  split.
  - split; [rewrite <- LB; apply vmap2_length_eq; auto|]. unfold S. clear S LB. revert B LA FB.
    induction FA as [|r A Hr FA IH]; intros [|q B] L FB; try discriminate L; cbn; [constructor|].
    inversion FB; subst. constructor; [|apply IH; [now injection L|assumption]].
    rewrite Hrow. rewrite Rscal_length. apply Radd_v_length; congruence.
  - unfold S. clear S LB. revert B LA FB.
    induction FA as [|r A Hr FA IH]; intros [|q B] L FB; try discriminate L; [reflexivity|].
    inversion FB; subst. cbn [vmap2]. rewrite !mvec_row. cbn [Radd_v]. rewrite Rscal_cons. f_equal; [|apply IH; [now injection L|assumption]].
    rewrite Hrow, Rdot_scal_l, Rdot_add_l by congruence. reflexivity.
Qed.

Lemma symmetrize_ok : forall n (A : list (list R)), spd n A ->
  spd n (symmetrize (N:=RN) n A) /\ forall x, length x = n -> mvec (symmetrize (N:=RN) n A) x = mvec A x.
Proof.
  intros n A (HM & HS & HP).
  assert (HT : mat n n (transpose (N:=RN) n A)) by (apply transpose_mat; apply HM).
  assert (E : forall x, length x = n -> mvec (symmetrize (N:=RN) n A) x = mvec A x).
  { intros x Hx. unfold symmetrize.
    destruct (half_sum_mv n n A (transpose (N:=RN) n A) x HM HT Hx) as [_ K].
    refine (eq_trans K _). rewrite transpose_mv.
    rewrite (tmvec_char n n A x (mvec A x)); [|exact HM|eapply mvec_len; eauto|].
    - clear. induction (mvec A x) as [|a r IH]; [reflexivity|]. cbn. f_equal; [field|exact IH].
    - intros d Hd. apply HS; assumption. }
  assert (HMs : mat n n (symmetrize (N:=RN) n A)).
  { unfold symmetrize. destruct (half_sum_mv n n A (transpose (N:=RN) n A) (zerov n) HM HT (zerov_length n)) as [K _]. exact K. }
  split; [|exact E]. split; [exact HMs|]. split.
  - intros x y Hx Hy. rewrite !E by assumption. apply HS; assumption.
  - intros x Hx Hnz. rewrite E by assumption. apply HP; assumption.
Qed.

Lemma cholesky_sym_ok : forall n (A : list (list R)), spd n A ->
  let J := cholesky (N:=RN) n A in
  mat n n J /\ lower_from 0 J /\ forall x, length x = n -> mvec J (tmvec n J x) = mvec A x.
Proof.
  intros n A HA J. destruct (symmetrize_ok n A HA) as [HS E].
  destruct (cholesky_ok n _ HS) as (K1 & K2 & K3). split; [exact K1|]. split; [exact K2|].
  intros x Hx. rewrite <- E by exact Hx. apply K3. exact Hx.
Qed.
