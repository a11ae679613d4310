(** Nelder-Mead (C46-C49, C57, C58, and C11 for NelderMead). *)

From Coq Require Import String List Bool Arith Lia ZArith QArith Qreals Reals Lra Psatz.
From Verif Require Import Num NumFacts NumF64 NumF64_facts Vec Results Iterate Spec_Iterate Iterate_proofs.
From Verif Require Import Spec_Vec VecFacts Spec_Lin LinFacts LeastSquares_proofs BestSoFar RootFind Progress_proofs.
From Verif Require Import NelderMead Spec_NelderMead.
Import ListNotations.
Local Open Scope nat_scope.

(** ** Lists *)
Lemma set_at_length : forall A i (a : A) l, length (set_at i a l) = length l.
Proof. intros A i. induction i; intros a [|x l]; cbn; auto. Qed.
Lemma set_at_map : forall A B (f : A -> B) i a l, map f (set_at i a l) = set_at i (f a) (map f l).
Proof. intros A B f i. induction i; intros a [|x l]; cbn; auto. f_equal. auto. Qed.
Lemma set_at_Forall : forall A (P : A -> Prop) i a l, P a -> Forall P l -> Forall P (set_at i a l).
Proof. intros A P i. induction i; intros a [|x l] Ha H; cbn; auto; inversion H; subst; constructor; auto. Qed.
Lemma set_at_nth : forall A i (a : A) l j d, j < length l -> nth j (set_at i a l) d = if j =? i then a else nth j l d.
Proof.
  intros A i. induction i; intros a [|x l] [|j] d H; cbn in *; try lia; auto. apply IHi. lia.
Qed.

Lemma top_from_lt : forall (N : Num) (l : list N) b ib i, ib < i -> fst (top_from b ib i l) < i + length l.
Proof.
  intros N. induction l as [|x l IH]; intros b ib i H; cbn; [lia|].
  destruct (top_gt x b); [specialize (IH x i (S i) ltac:(lia))|specialize (IH b ib (S i) ltac:(lia))]; lia.
Qed.
Lemma top1_lt : forall (N : Num) (l : list N), l <> [] -> fst (top1 l) < length l.
Proof. intros N [|x l] H; [contradiction|]. cbn. pose proof (top_from_lt N l x 0 1 ltac:(lia)). lia. Qed.

Lemma vwhere_pick : forall (N : Num) b (v w : list N), length v = length w -> vwhere b v w = if b then v else w.
Proof.
  intros N b. unfold vwhere. induction v as [|x v IH]; intros [|z w] L; cbn in *; try discriminate; [destruct b; reflexivity|].
  rewrite IH by congruence. destruct b; reflexivity.
Qed.

(** ** One step, by cases *)
Lemma shrink_fst : forall (N : Num) Aux (fn : list N -> N * Aux) b s f,
  fst (shrink_simplex fn b s f) = map (fun v => fst (fn v)) (snd (shrink_simplex fn b s f)).
Proof. reflexivity. Qed.

Section Generic.
  Context {N : Num} {Aux : Type}.
  Variable fn : list N -> N * Aux.

  Lemma step_y : forall st, fst (fst (nm_step fn st)) = nm_best (snd (fst (nm_step fn st))).
  Proof.
    intro st. unfold nm_step. destruct (if nm_first_pass st then _ else _) as [[[v f] s] a].
    destruct (if (if nm_first_pass st then true else _) then _ else _) as [fs vs].
    destruct (top1 (map nneg fs)), (top1 fs). reflexivity.
  Qed.
  Lemma step_first : forall st, nm_first_pass (snd (fst (nm_step fn st))) = false.
  Proof.
    intro st. unfold nm_step. destruct (if nm_first_pass st then _ else _) as [[[v f] s] a].
    destruct (if (if nm_first_pass st then true else _) then _ else _) as [fs vs].
    destruct (top1 (map nneg fs)), (top1 fs). reflexivity.
  Qed.

  (** what a step does to the simplex and its values *)
  Lemma step_simplex : forall st,
    let st' := snd (fst (nm_step fn st)) in
    (nm_first_pass st = true /\ nm_simplex st' = nm_simplex st /\
       nm_f_simplex st' = map (fun v => fst (fn v)) (nm_simplex st)) \/
    (nm_first_pass st = false /\ exists v f s a, main_step fn st = (v, f, s, a) /\ fn v = (f, a) /\
       ((nltb (nm_f_worst st) f = true /\
         let best := vwhere (nltb f (nm_f_best st)) v (nm_best st) in
         nm_simplex st' = map (fun a => vadd best (vscale (lit (1#2)) (vsub a best))) (nm_simplex st) /\
         nm_f_simplex st' = map (fun v => fst (fn v)) (nm_simplex st') /\
         n_shrink (nm_counts st') = (n_shrink (nm_counts st) + 1)%Z) \/
        (nltb (nm_f_worst st) f = false /\
         nm_simplex st' = set_at (nm_worst_index st) v (nm_simplex st) /\
         nm_f_simplex st' = set_at (nm_worst_index st) f (nm_f_simplex st) /\
         n_shrink (nm_counts st') = n_shrink (nm_counts st)))).
  Proof.
    intro st. unfold nm_step. destruct (nm_first_pass st) eqn:F.
    - left. cbn -[top1]. destruct (top1 (map nneg _)), (top1 (map _ (nm_simplex st))). cbn. auto.
    - right. split; [reflexivity|]. unfold main_step.
      match goal with |- context [fn (vwhere ?c ?x ?z)] => destruct (fn (vwhere c x z)) as [f a] eqn:E end.
      eexists _, f, _, a. split; [reflexivity|]. split; [exact E|]. cbv zeta.
      destruct (nltb (nm_f_worst st) f) eqn:W; cbn -[top1 vwhere along search_direction];
      match goal with |- context [top1 (map nneg ?x)] => destruct (top1 (map nneg x)); destruct (top1 x) end;
      cbn -[vwhere along search_direction]; auto 6.
  Qed.

  (** which vertices are remembered *)
  Lemma step_indexed : forall st,
    let st' := snd (fst (nm_step fn st)) in
    nm_best_index st' = fst (top1 (map nneg (nm_f_simplex st'))) /\
    nm_f_best st' = nneg (snd (top1 (map nneg (nm_f_simplex st')))) /\
    nm_worst_index st' = fst (top1 (nm_f_simplex st')) /\
    nm_f_worst st' = snd (top1 (nm_f_simplex st')) /\
    nm_best st' = nth (nm_best_index st') (nm_simplex st) [] /\
    nm_worst st' = nth (nm_worst_index st') (nm_simplex st) [].
  Proof.
    intro st. unfold nm_step. destruct (if nm_first_pass st then _ else _) as [[[v f] s] a].
    destruct (if (if nm_first_pass st then true else _) then _ else _) as [fs vs].
    destruct (top1 (map nneg fs)) eqn:E1, (top1 fs) eqn:E2. cbn. rewrite E1, E2. cbn. repeat split; reflexivity.
  Qed.
End Generic.

(** ** C47: the stored values belong to the stored simplex (any arithmetic) *)

Lemma nm_st_S : forall (N : Num) Aux rtol atol norm rdelta adelta shape (fn : list N -> N * Aux) y0 st0 aux0 k,
  let s := NelderMead rtol atol norm rdelta adelta shape in
  st_at s fn y0 st0 aux0 (S k) = snd (fst (nm_step fn (st_at s fn y0 st0 aux0 k))).
Proof. reflexivity. Qed.
Lemma nm_y_S : forall (N : Num) Aux rtol atol norm rdelta adelta shape (fn : list N -> N * Aux) y0 st0 aux0 k,
  let s := NelderMead rtol atol norm rdelta adelta shape in
  y_at s fn y0 st0 aux0 (S k) = nm_best (st_at s fn y0 st0 aux0 (S k)).
Proof. intros. exact (step_y fn _). Qed.

(** After at least one step the stored values are the function values at the stored
    vertices, in order. Missing from the full claim: the stored best vertex, for which
    it is false ([C47_stale_refuted]). *)
Lemma C47_values_partial_pf :
  forall (N : Num) Aux (rtol atol : N) norm rdelta adelta shape (fn : list N -> N * Aux) (y0 : list N) fs auxs st0 (k : nat),
    let s := NelderMead rtol atol norm rdelta adelta shape in
    s_init s fn y0 fs auxs = Ret st0 -> 1 <= k ->
    let st := st_at s fn y0 st0 (auxs fill0) k in
    nm_f_simplex st = map (fun v => fst (fn v)) (nm_simplex st).
Proof.
  intros N Aux rtol atol norm rdelta adelta shape fn y0 fs auxs st0 k s Hinit Hk. destruct k as [|k]; [lia|]. clear Hk.
  injection Hinit as <-. cbv zeta.
  assert (K : forall k, (k = 0 -> nm_first_pass (st_at s fn y0 (nm_start (initial_simplex adelta rdelta shape y0) (auxs fill0)) (auxs fill0) k) = true) /\
    (k <> 0 -> nm_first_pass (st_at s fn y0 (nm_start (initial_simplex adelta rdelta shape y0) (auxs fill0)) (auxs fill0) k) = false)).
  { intros [|j]; split; intro; try lia; [reflexivity|]. unfold s. rewrite nm_st_S. apply step_first. }
  induction k as [|k IH].
  - unfold s. rewrite nm_st_S.
    match goal with |- context [nm_step fn ?st] => pose proof (step_simplex fn st) as S end. cbv zeta in S.
    destruct S as [(_ & E1 & E2)|(F & _)]; [rewrite E2, E1; reflexivity|]. pose proof (proj1 (K 0) eq_refl) as F'. unfold s in F'. cbv zeta in F, F'. rewrite F' in F. discriminate.
  - unfold s in *. rewrite nm_st_S.
    match goal with |- context [nm_step fn ?st] => pose proof (step_simplex fn st) as S; set (st1 := st) in * end. cbv zeta in S.
    destruct S as [(_ & E1 & E2)|(_ & v & f & c & a & _ & Ef & [(_ & _ & E & _)|(_ & E1 & E2 & _)])].
    + rewrite E2, E1. reflexivity.
    + exact E.
    + rewrite E1, E2, set_at_map, Ef. cbn. f_equal. exact IH.
Qed.

Lemma vmap2_len : forall A B C (f : A -> B -> C) a b n, length a = n -> length b = n -> length (vmap2 f a b) = n.
Proof. induction a as [|x a IH]; intros [|y b] n H1 H2; cbn in *; try congruence. destruct n; [discriminate|]. f_equal. apply IH; congruence. Qed.
Lemma rows_length : forall (N : Num) (ad rd : N) sz leaves r, length (build_rows ad rd sz r leaves) = S sz.
Proof.
  intros N ad rd sz. induction leaves as [|l ls IH]; intro r; cbn [build_rows].
  - apply repeat_length.
  - apply vmap2_len; [|apply IH]. unfold leaf_rows. rewrite map_length, seq_length. reflexivity.
Qed.
Lemma initial_length : forall (N : Num) (ad rd : N) shape y, length (initial_simplex ad rd shape y) = S (length y).
Proof. intros. apply rows_length. Qed.

(** ** Affine moves over exact reals *)

Section Affine.
  Variables (d : nat) (A : list R -> Prop).
  Hypothesis HA : affine_set d A.

  Lemma affine_len : forall v, A v -> length v = d. Proof. apply HA. Qed.

  Lemma along_step : forall (p v w r : list R) c s, length v = length p -> length w = length p -> length r = length p ->
    Radd_v p (Rscal c (Radd_v (map (fun x => x / s)%R (Rsub_v v w)) r)) =
    Radd_v (Radd_v p (Rscal (c / s) (Rsub_v v w))) (Rscal c r).
  Proof.
    clear. induction p as [|a p IH]; intros [|x v] [|y w] [|z r] c s H1 H2 H3; cbn in *; try discriminate; auto.
    f_equal; [unfold Rdiv; ring|]. apply IH; congruence.
  Qed.
  Lemma add_zeros : forall (p : list R) c n, n = length p -> Radd_v p (Rscal c (repeat 0%R n)) = p.
  Proof.
    clear. induction p as [|a p IH]; intros c n ->; cbn; auto. f_equal; [ring|]. apply IH. reflexivity.
  Qed.

  Lemma dir_len : forall (vs : list (list R)) (w : list R) s, Forall A vs -> A w ->
    length (fold_right (vadd (N:=RN)) (vfull (N:=RN) (length w) 0%R) (map (fun a => map (fun x => x / s)%R (vsub (N:=RN) a w)) vs)) = d.
  Proof.
    intros vs w s H Hw. pose proof (affine_len w Hw) as Lw. induction vs as [|v vs IH]; cbn [map fold_right].
    - unfold vfull. rewrite repeat_length. exact Lw.
    - pose proof (Forall_inv H) as H1. pose proof (Forall_inv_tail H) as H2. rewrite vadd_RN. apply Radd_v_length; [|apply IH; exact H2].
      rewrite map_length, vsub_RN. apply Rsub_v_length; [apply affine_len; exact H1|exact Lw].
  Qed.
  Lemma dir_in : forall (vs : list (list R)) (w p : list R) c s, Forall A vs -> A w -> A p ->
    A (Radd_v p (Rscal c (fold_right (vadd (N:=RN)) (vfull (N:=RN) (length w) 0%R)
         (map (fun a => map (fun x => x / s)%R (vsub (N:=RN) a w)) vs)))).
  Proof.
    intros vs w p c s H Hw. revert p. induction vs as [|v vs IH]; intros p Hp.
    - cbn [map fold_right]. unfold vfull. change (repeat 0%R (length w)) with (@repeat R 0%R (@length R w)). rewrite add_zeros; [exact Hp|]. rewrite (affine_len p Hp). apply affine_len. exact Hw.
    - pose proof (Forall_inv H) as H1. pose proof (Forall_inv_tail H) as H2. cbn [map fold_right]. rewrite vadd_RN, vsub_RN.
      rewrite along_step.
      + apply IH; [exact H2|]. apply HA; assumption.
      + rewrite (affine_len p Hp). apply affine_len. exact H1.
      + rewrite (affine_len p Hp). apply affine_len. exact Hw.
      + rewrite (affine_len p Hp). apply dir_len; assumption.
  Qed.

  Lemma along_in : forall (vs : list (list R)) (w : list R) c, Forall A vs -> A w ->
    A (along (N:=RN) w (search_direction (N:=RN) vs w) c).
  Proof.
    intros vs w c H Hw. unfold along, search_direction. rewrite vadd_RN, vscale_RN.
    change (nofQ (n:=RN) 0) with (Q2R 0). rewrite Q2R_0. apply dir_in; assumption.
  Qed.
  Lemma vwhere_in : forall b (v w : list R), A v -> A w -> A (vwhere (N:=RN) b v w).
  Proof.
    intros b v w Hv Hw. rewrite vwhere_pick; [destruct b; assumption|].
    exact (eq_trans (affine_len v Hv) (eq_sym (affine_len w Hw))).
  Qed.
  Lemma shrink_in : forall (b a : list R), A b -> A a -> A (vadd (N:=RN) b (vscale (N:=RN) (nofQ (n:=RN) (1#2)) (vsub (N:=RN) a b))).
  Proof. intros b a Hb Ha. rewrite vadd_RN, vscale_RN, vsub_RN. apply HA; assumption. Qed.

  (** the invariant *)
  Definition nm_in {Aux} (st : nm_state RN Aux) : Prop :=
    Forall A (nm_simplex st) /\ A (nm_best st) /\ A (nm_worst st) /\
    length (nm_f_simplex st) = length (nm_simplex st) /\ nm_simplex st <> [].

  Lemma nth_in : forall i (vs : list (list R)), i < length vs -> Forall A vs -> A (nth i vs []).
  Proof. intros i vs Hi H. rewrite Forall_forall in H. apply H. apply nth_In. exact Hi. Qed.

  Lemma main_in : forall Aux (fn : list R -> R * Aux) (st : nm_state RN Aux) v f c a, nm_in st -> main_step (N:=RN) fn st = (v, f, c, a) -> A v.
  Proof.
    intros Aux fn st v f c a (H1 & H2 & H3 & H4 & H5) Em. unfold main_step in Em. revert Em.
    match goal with |- context [vwhere (N:=RN) ?p1 ?q1 (vwhere (N:=RN) ?p2 ?q2 ?r2)] => set (nv := vwhere (N:=RN) p1 q1 (vwhere (N:=RN) p2 q2 r2)) end.
    intro Em. destruct (fn nv) as [f' a']. injection Em as <- _ _ _.
    unfold nv. apply vwhere_in; [apply along_in; assumption|]. apply vwhere_in; apply along_in; assumption.
  Qed.

  Lemma step_in : forall Aux (fn : list R -> R * Aux) (st : nm_state RN Aux), nm_in st -> nm_in (snd (fst (nm_step (N:=RN) fn st))).
  Proof.
    intros Aux fn st (H1 & H2 & H3 & H4 & H5).
    pose proof (step_simplex (N:=RN) fn st) as S. pose proof (step_indexed (N:=RN) fn st) as I. cbv zeta in S, I.
    set (st' := snd (fst (nm_step (N:=RN) fn st))) in *.
    assert (G : Forall A (nm_simplex st') /\ length (nm_f_simplex st') = length (nm_simplex st) /\ length (nm_simplex st') = length (nm_simplex st)).
    { destruct S as [(_ & E1 & E2)|(_ & v & f & c & a & Em & Ef & [(_ & E1 & E2 & _)|(_ & E1 & E2 & _)])].
      - rewrite E1, E2, map_length. auto.
      - assert (HV : A v) by (eapply main_in; [repeat split; eassumption|exact Em]).
        assert (HB : A (vwhere (N:=RN) (nltb (n:=RN) f (nm_f_best st)) v (nm_best st))) by (apply vwhere_in; assumption).
        rewrite E1, E2, E1, !map_length. split; [|auto].
        rewrite Forall_forall in H1 |- *. intros x Hx. apply in_map_iff in Hx. destruct Hx as (b & <- & Hb). apply shrink_in; auto.
      - assert (HV : A v) by (eapply main_in; [repeat split; eassumption|exact Em]).
        rewrite E1, E2, !set_at_length. split; [apply set_at_Forall; assumption|auto]. }
    destruct G as (G1 & G2 & G3). destruct I as (I1 & I2 & I3 & I4 & I5 & I6).
    assert (NE : nm_f_simplex st' <> []). { intro E. rewrite E in G2. cbn in G2. destruct (nm_simplex st); [contradiction|discriminate]. }
    split; [exact G1|]. split; [|split; [|split]].
    - rewrite I5. apply nth_in; [|exact H1]. rewrite I1.
      pose proof (top1_lt RN (map (nneg (n:=RN)) (nm_f_simplex st'))) as L. rewrite map_length, G2 in L. apply L.
      destruct (nm_f_simplex st'); [contradiction|discriminate].
    - rewrite I6. apply nth_in; [|exact H1]. rewrite I3. pose proof (top1_lt RN _ NE) as L. rewrite G2 in L. exact L.
    - congruence.
    - intro E. rewrite E in G3. destruct (nm_simplex st); [contradiction|discriminate].
  Qed.
End Affine.

Lemma nm_in_at : forall Aux (rtol atol : R) (norm : list R -> R) rdelta adelta shape (fn : list R -> R * Aux) (y0 : list R) auxs (d : nat) (A : list R -> Prop) (k : nat),
  let s := NelderMead (N:=RN) rtol atol norm rdelta adelta shape in
  affine_set d A -> Forall A (initial_simplex (N:=RN) adelta rdelta shape y0) ->
  nm_in A (st_at s fn y0 (nm_start (initial_simplex (N:=RN) adelta rdelta shape y0) (auxs fill0)) (auxs fill0) k).
Proof.
  intros Aux rtol atol norm rdelta adelta shape fn y0 auxs d A k s HA H0.
  assert (NE : initial_simplex (N:=RN) adelta rdelta shape y0 <> []).
  { intro E. pose proof (initial_length RN adelta rdelta shape y0) as L. rewrite E in L. discriminate L. }
  revert k. intro j. induction j as [|j IH].
  - unfold st_at. cbn -[initial_simplex]. unfold nm_in, nm_start. cbn -[initial_simplex].
    assert (A0 : A (nth 0 (initial_simplex (N:=RN) adelta rdelta shape y0) [])).
    { apply nth_in; [|exact H0]. destruct (initial_simplex adelta rdelta shape y0); [contradiction|cbn; lia]. }
    repeat split; auto. apply (repeat_length (ninf (n:=RN))).
  - unfold s in *. rewrite nm_st_S. apply (step_in d A HA). exact IH.
Qed.

(** Exact arithmetic, any function, any number of steps: a set closed under
    p + t (q - r) that contains the initial vertices contains every vertex of
    every later simplex and every point handed back. *)
Lemma C48_affine_pf :
  forall Aux (rtol atol : R) (norm : list R -> R) rdelta adelta shape (fn : list R -> R * Aux) (y0 : list R) fs auxs st0
         (d : nat) (A : list R -> Prop) (k : nat),
    let s := NelderMead (N:=RN) rtol atol norm rdelta adelta shape in
    s_init s fn y0 fs auxs = Ret st0 -> affine_set d A ->
    Forall A (initial_simplex (N:=RN) adelta rdelta shape y0) ->
    Forall A (nm_simplex (st_at s fn y0 st0 (auxs fill0) k)) /\
    A (y_at s fn y0 st0 (auxs fill0) (S k)).
Proof.
  intros Aux rtol atol norm rdelta adelta shape fn y0 fs auxs st0 d A k s Hinit HA H0. injection Hinit as <-.
  assert (IN := fun j => nm_in_at Aux rtol atol norm rdelta adelta shape fn y0 auxs d A j HA H0).
  split; [apply IN|]. unfold s. rewrite nm_y_S. apply IN.
Qed.

(** As a linear functional: if w . v is the same at all initial vertices, it is
    the same at every later vertex and iterate. *)
Lemma C48_functional_pf :
  forall Aux (rtol atol : R) (norm : list R -> R) rdelta adelta shape (fn : list R -> R * Aux) (y0 : list R) fs auxs st0
         (d : nat) (w : list R) (c : R) (k : nat),
    let s := NelderMead (N:=RN) rtol atol norm rdelta adelta shape in
    s_init s fn y0 fs auxs = Ret st0 ->
    Forall (fun v => length v = d /\ Rdot w v = c) (initial_simplex (N:=RN) adelta rdelta shape y0) ->
    Forall (fun v => Rdot w v = c) (nm_simplex (st_at s fn y0 st0 (auxs fill0) k)) /\
    Rdot w (y_at s fn y0 st0 (auxs fill0) (S k)) = c.
Proof.
  intros Aux rtol atol norm rdelta adelta shape fn y0 fs auxs st0 d w c k s Hinit H0.
  destruct (C48_affine_pf Aux rtol atol norm rdelta adelta shape fn y0 fs auxs st0 d (fun v => length v = d /\ Rdot w v = c) k Hinit) as [K1 K2].
  - split; [intros v [L _]; exact L|]. intros p q r t [L1 E1] [L2 E2] [L3 E3].
    assert (L4 : length (Rscal t (Rsub_v q r)) = d) by (rewrite Rscal_length; apply Rsub_v_length; assumption).
    split; [apply Radd_v_length; assumption|].
    rewrite Rdot_add_r by congruence. rewrite Rdot_scal_r, Rdot_sub_r by congruence. rewrite E1, E2, E3. ring.
  - exact H0.
  - split; [|apply K2]. eapply Forall_impl; [|exact K1]. intros v [_ E]. exact E.
Qed.

(** Example: the array (0, 0, 0) with displacements 1 gives the vertices (0, 1, 1),
    (1, 0, 0), (0, 0, 0), (0, 0, 0), on which x_2 - x_3 is constant. *)
Example C48_affine_ex_pf :
  let A := fun v : list R => length v = 3 /\ Rdot [0; 1; -1]%R v = 0%R in
  affine_set 3 A /\ Forall A (initial_simplex (N:=RN) 1%R 0%R [3] [0; 0; 0]%R).
Proof.
  intro A. split.
  - split; [intros v [L _]; exact L|]. intros [|p1 [|p2 [|p3 [|? ?]]]] [|q1 [|q2 [|q3 [|? ?]]]] [|r1 [|r2 [|r3 [|? ?]]]] t [L1 E1] [L2 E2] [L3 E3];
      try discriminate. split; [reflexivity|]. cbn in *. nra.
  - unfold initial_simplex. repeat (constructor; [split; [reflexivity|cbn; lra]|]). constructor.
Qed.

(** ** C46: the initial simplex *)

(** One array of d entries: which entries are displaced *)
Lemma app_nil_rows : forall (N : Num) (rows : list (list N)), vmap2 (@app N) rows (repeat [] (length rows)) = rows.
Proof. induction rows as [|x rows IH]; cbn; auto. rewrite app_nil_r, IH. reflexivity. Qed.
Lemma array_rows : forall (N : Num) (ad rd : N) (y : list N),
  initial_simplex ad rd [length y] y = leaf_rows ad rd (length y) 0 y.
Proof.
  intros N ad rd y. unfold initial_simplex. cbn [split_leaves build_rows]. rewrite firstn_all.
  rewrite <- (app_nil_rows N (leaf_rows ad rd (length y) 0 y)) at 2. f_equal.
  f_equal. unfold leaf_rows. rewrite map_length, seq_length. reflexivity.
Qed.

Lemma dot_skip : forall (f g : nat -> R) n m, (forall j, m <= j -> f j = 0%R) -> Rdot (map f (seq m n)) (map g (seq m n)) = 0%R.
Proof.
  intros f g n. induction n as [|n IH]; intros m H; cbn; [reflexivity|]. rewrite (H m) by lia. rewrite IH; [ring|]. intros j Hj. apply H. lia.
Qed.

(** A single array of d >= 3 entries, any y0, adelta, rdelta: some non-zero
    functional is constant on the initial simplex, so it does not span; and every
    iterate, for every function, stays in that hyperplane through y0. *)
Lemma C46_array_refuted_pf :
  forall (adelta rdelta : R) (y0 : list R), 3 <= length y0 ->
    exists w, length w = length y0 /\ w <> zerov (length y0) /\
      Forall (fun v => Rdot w v = Rdot w y0) (initial_simplex (N:=RN) adelta rdelta [length y0] y0) /\
      ~ affinely_spans (length y0) (initial_simplex (N:=RN) adelta rdelta [length y0] y0) /\
      forall Aux (rtol atol : R) norm (fn : list R -> R * Aux) fs auxs st0 (k : nat),
        let s := NelderMead (N:=RN) rtol atol norm rdelta adelta [length y0] in
        s_init s fn y0 fs auxs = Ret st0 -> Rdot w (y_at s fn y0 st0 (auxs fill0) k) = Rdot w y0.
Proof.
  intros ad rd y0 Hd. destruct y0 as [|y [|a [|b ys]]]; cbn in Hd; try lia. set (y0 := y :: a :: b :: ys).
  set (da := (ad + rd * a)%R). set (db := (ad + rd * b)%R).
  assert (W : exists p q, (p <> 0 \/ q <> 0)%R /\ (p * da + q * db = 0)%R).
  { destruct (Req_EM_T da 0) as [E|E]; [exists 1%R, 0%R; rewrite E; split; [left; lra|ring]|].
    exists db, (- da)%R. split; [right; lra|ring]. }
  destruct W as (p & q & Hpq & Hz). set (w := 0%R :: p :: q :: map (fun _ => 0%R) ys).
  assert (Lw : length w = length y0) by (cbn; rewrite map_length; reflexivity).
  assert (Nw : w <> zerov (length y0)). { intro E. unfold w, y0, zerov in E. cbn in E. injection E as E1 E2 _. destruct Hpq; lra. }
  assert (Z : forall (u : list R), Rdot (map (fun _ => 0%R) ys) u = 0%R).
  { clear. induction ys as [|z zs IH]; intros [|x u]; cbn; auto. rewrite IH. ring. }
  assert (V : Forall (fun v => length v = length y0 /\ Rdot w v = Rdot w y0) (initial_simplex (N:=RN) ad rd [length y0] y0)).
  { change (@length R y0) with (@length (T RN) y0). rewrite array_rows. unfold leaf_rows.
    rewrite Forall_forall. intros v Hv. apply in_map_iff in Hv. destruct Hv as (row & <- & _).
    set (L := @length (T RN) y0). split; [rewrite map_length, seq_length; reflexivity|].
    assert (HL : L = S (S (S (length ys)))) by reflexivity.
    match goal with |- Rdot w (map ?F _) = _ => set (g := F) end.
    assert (E1 : (g 1%nat = a + (if (row =? 0)%nat then da else 0))%R).
    { unfold g. destruct (Nat.eqb_spec row 0) as [->|Hr].
      - replace ((0 + 1 <=? 0 * L + 1) && (0 * L + 1 <=? 0 + L)) with true by (symmetry; apply andb_true_iff; rewrite !Nat.leb_le; lia).
        replace (Nat.min (0 * L + 1 - 0) (L - 1)) with 1 by lia. cbn. unfold da. ring.
      - replace (row * L + 1 <=? 0 + L) with false by (symmetry; apply Nat.leb_gt; nia). rewrite andb_false_r. cbn. ring. }
    assert (E2 : (g 2%nat = b + (if (row =? 0)%nat then db else 0))%R).
    { unfold g. destruct (Nat.eqb_spec row 0) as [->|Hr].
      - replace ((0 + 1 <=? 0 * L + 2) && (0 * L + 2 <=? 0 + L)) with true by (symmetry; apply andb_true_iff; rewrite !Nat.leb_le; lia).
        replace (Nat.min (0 * L + 2 - 0) (L - 1)) with 2 by lia. cbn. unfold db. ring.
      - replace (row * L + 2 <=? 0 + L) with false by (symmetry; apply Nat.leb_gt; nia). rewrite andb_false_r. cbn. ring. }
    clearbody g. rewrite HL. cbn [seq map]. unfold w, y0. cbn [Rdot]. rewrite !Z, E1, E2. destruct (row =? 0); nra. }
  exists w. split; [exact Lw|]. split; [exact Nw|]. split; [|split].
  - eapply Forall_impl; [|exact V]. intros v [_ E]. exact E.
  - intro SP. apply Nw. apply (SP w (Rdot w y0) Lw). eapply Forall_impl; [|exact V]. intros v [_ E]. exact E.
  - intros Aux rtol atol norm fn fs auxs st0 [|k] s Hinit; [reflexivity|].
    apply (C48_functional_pf Aux rtol atol norm rd ad [length y0] fn y0 fs auxs st0 (length y0) w (Rdot w y0) k Hinit V).
Qed.

(** d scalar leaves (any arithmetic): vertex 0 is y0 and vertex i+1 is y0 with
    entry i displaced. *)
Fixpoint bump_row {N : Num} (ad rd : N) (v r : nat) (y : list N) : list N :=
  match y with
  | [] => []
  | x :: y' => (if v =? S r then nadd (nadd x ad) (nmul rd x) else x) :: bump_row ad rd v (S r) y'
  end.
Lemma vmap2_nth : forall A B C (f : A -> B -> C) a b i da db dc, i < length a -> i < length b -> nth i (vmap2 f a b) dc = f (nth i a da) (nth i b db).
Proof. induction a as [|x a IH]; intros [|y b] [|i] da db dc H1 H2; cbn in *; try lia; auto. apply IH; lia. Qed.
Lemma split_scalars : forall (N : Num) (y : list N), split_leaves (repeat 1 (length y)) y = map (fun x => [x]) y.
Proof. induction y as [|x y IH]; cbn; auto. f_equal. exact IH. Qed.
Lemma scalar_rows : forall (N : Num) (ad rd : N) sz y r v, v <= sz ->
  nth v (build_rows ad rd sz r (map (fun x => [x]) y)) [] = bump_row ad rd v r y.
Proof.
  intros N ad rd sz. induction y as [|x y IH]; intros r v Hv.
  - cbn [map build_rows bump_row]. apply nth_repeat.
  - cbn [map build_rows bump_row]. rewrite (vmap2_nth _ _ _ _ _ _ v [] []); [|unfold leaf_rows; rewrite map_length, seq_length; lia|rewrite rows_length; lia].
    replace (r + length [x]) with (S r) by (cbn; lia). rewrite IH by lia.
    unfold leaf_rows. rewrite (nth_indep _ [] ((fun row => map (fun c => x) (seq 0 1)) 0)) by (rewrite map_length, seq_length; lia).
    match goal with |- nth v (map ?F (seq 0 (S sz))) _ ++ _ = _ => rewrite (nth_indep _ _ (F 0)) by (rewrite map_length, seq_length; lia); rewrite (map_nth F) end.
    rewrite seq_nth by lia. cbn [Datatypes.length seq map app].
    replace (v * 1 + 0) with v by lia. rewrite Nat.add_0_l.
    destruct (Nat.eqb_spec v (S r)) as [->|Hn].
    + replace ((r + 1 <=? S r * 1 + 0) && (S r * 1 + 0 <=? r + 1)) with true by (symmetry; apply andb_true_iff; rewrite !Nat.leb_le; lia).
      replace (Nat.min (S r * 1 + 0 - r) (1 - 1)) with 0 by lia. reflexivity.
    + replace ((r + 1 <=? v * 1 + 0) && (v * 1 + 0 <=? r + 1)) with false; [reflexivity|].
      symmetry. apply andb_false_iff. rewrite !Nat.leb_gt. lia.
Qed.
Lemma bump_nth : forall (N : Num) (ad rd : N) y v r i d, i < length y ->
  nth i (bump_row ad rd v r y) d = if v =? S (r + i) then nadd (nadd (nth i y d) ad) (nmul rd (nth i y d)) else nth i y d.
Proof.
  intros N ad rd. induction y as [|x y IH]; intros v r [|i] d H; cbn [bump_row nth length] in *; try lia.
  - rewrite Nat.add_0_r. reflexivity.
  - rewrite IH by lia. replace (S r + i) with (r + S i) by lia. reflexivity.
Qed.
Lemma bump_length : forall (N : Num) (ad rd : N) y v r, length (bump_row ad rd v r y) = length y.
Proof. induction y as [|x y IH]; intros v r; cbn; auto. Qed.

(** When every leaf of y0 is a scalar the initial simplex is the textbook one: d + 1
    vertices, vertex 0 is y0 and vertex i + 1 displaces coordinate i by
    adelta + rdelta y0_i. Missing from the full claim: array leaves, for which it is
    false ([C46_array_refuted]). *)
Lemma C46_scalar_leaves_partial_pf :
  forall (N : Num) (adelta rdelta d : N) (y0 : list N),
    let simplex := initial_simplex adelta rdelta (repeat 1 (length y0)) y0 in
    length simplex = S (length y0) /\
    (forall v, v <= length y0 -> length (nth v simplex []) = length y0) /\
    (forall v i, v <= length y0 -> i < length y0 ->
       nth i (nth v simplex []) d =
       if v =? S i then nadd (nadd (nth i y0 d) adelta) (nmul rdelta (nth i y0 d)) else nth i y0 d).
Proof.
  intros N ad rd d y0 simplex. unfold simplex, initial_simplex. rewrite split_scalars. split; [apply rows_length|]. split.
  - intros v Hv. rewrite scalar_rows by exact Hv. apply bump_length.
  - intros v i Hv Hi. rewrite scalar_rows by exact Hv. rewrite bump_nth by exact Hi. reflexivity.
Qed.

(** Over the reals they span when no displacement is zero. *)
Lemma bump_dot : forall (ad rd : R) y w v r i, v = S (r + i) -> i < length y -> length w = length y ->
  Rdot w (bump_row (N:=RN) ad rd v r y) = (Rdot w y + nth i w 0 * (ad + rd * nth i y 0))%R.
Proof.
  intros ad rd. induction y as [|x y IH]; intros [|z w] v r i Hv Hi L; cbn [length] in *; try lia.
  cbn [bump_row Rdot nth]. destruct i as [|i].
  - replace (v =? S r) with true by (symmetry; apply Nat.eqb_eq; lia).
    assert (E : forall (y : list R) v r, v <= r -> bump_row (N:=RN) ad rd v r y = y).
    { clear. intros y. induction y as [|x y IH]; intros v r H; cbn; auto.
      replace (v =? S r) with false by (symmetry; apply Nat.eqb_neq; lia). f_equal. apply IH. lia. }
    rewrite (E y) by lia. cbn [nth]. cbn. ring.
  - replace (v =? S r) with false by (symmetry; apply Nat.eqb_neq; lia). rewrite (IH w v (S r) i) by lia. cbn [nth]. ring.
Qed.
(** Scalar leaves, exact arithmetic: if no displacement is zero the initial simplex
    affinely spans the space. Missing: array leaves and zero displacements, for which
    it is false ([C46_array_refuted], [C46_collapse_refuted]). *)
Lemma C46_scalar_leaves_span_partial_pf :
  forall (adelta rdelta : R) (y0 : list R), Forall (fun x => adelta + rdelta * x <> 0)%R y0 ->
    affinely_spans (length y0) (initial_simplex (N:=RN) adelta rdelta (repeat 1 (length y0)) y0).
Proof.
  intros ad rd y0 HD w c Lw HF. rewrite Forall_forall in HF.
  assert (E : forall v, v <= length y0 -> Rdot w (bump_row (N:=RN) ad rd v 0 y0) = c).
  { intros v Hv. apply HF. rewrite <- (scalar_rows RN ad rd (length y0) y0 0 v Hv). unfold initial_simplex.
    change (@repeat nat 1 (@length R y0)) with (repeat 1 (@length (T RN) y0)). rewrite split_scalars. apply nth_In.
    rewrite rows_length. change (@length (T RN) y0) with (@length R y0). lia. }
  assert (E0 : Rdot w y0 = c).
  { rewrite <- (E 0) by lia. f_equal. clear. generalize 0 at 2. induction y0 as [|x y IH]; intro r; cbn; auto. f_equal. apply IH. }
  apply (nth_ext _ _ 0%R 0%R); [rewrite zerov_length; exact Lw|]. intros i Hi. unfold zerov. rewrite nth_repeat.
  assert (Hi' : i < length y0) by (rewrite <- Lw; exact Hi).
  pose proof (E (S i) ltac:(lia)) as K. rewrite (bump_dot ad rd y0 w (S i) 0 i) in K by (auto; lia).
  rewrite Forall_forall in HD. specialize (HD (nth i y0 0%R) (nth_In _ _ Hi')).
  assert (K' : (nth i w 0%R * (ad + rd * nth i y0 0%R) = 0)%R).
  { change (nth i y0 0%R) with (@nth R i y0 0%R) in K. rewrite E0 in K. change (@nth (T RN) i y0 0%R) with (@nth R i y0 0%R) in K. nra. }
  apply Rmult_integral in K'. tauto.
Qed.
Example C46_scalar_leaves_span_ex_pf : Forall (fun x => / 4000 + / 20 * x <> 0)%R [1; 2; 3; 4]%R.
Proof. repeat constructor; lra. Qed.
Example C46_array_ex_pf : 3 <= length [1; 2; 3]%R.
Proof. cbn. lia. Qed.

(** Started at the scalar -adelta/rdelta the two vertices coincide: whatever the
    function, the first termination test after one step reports success at the
    starting point (exact arithmetic). *)
Lemma C46_collapse_refuted_pf :
  forall Aux (fn : list R -> R * Aux) (rtol atol adelta rdelta : R) fs auxs st0,
    (0 <= rtol)%R -> (0 < atol)%R -> rdelta <> 0%R ->
    let y0 := [(- (adelta / rdelta))%R] in
    let s := NelderMead (N:=RN) rtol atol (max_norm (N:=RN)) rdelta adelta [1] in
    s_init s fn y0 fs auxs = Ret st0 ->
    y_at s fn y0 st0 (auxs fill0) 1 = y0 /\
    s_terminate s fn y0 (st_at s fn y0 st0 (auxs fill0) 1) = (true, successful).
Proof.
  intros Aux fn rtol atol ad rd fs auxs st0 Hr Ha Hd y0 s Hinit. injection Hinit as <-.
  assert (ES : initial_simplex (N:=RN) ad rd [1] y0 = [y0; y0]).
  { unfold initial_simplex, y0. cbn -[Rdiv]. repeat f_equal. field. exact Hd. }
  set (st0 := nm_start (initial_simplex (N:=RN) ad rd [1] y0) (auxs fill0)).
  set (st1 := st_at s fn y0 st0 (auxs fill0) 1).
  pose proof (step_simplex (N:=RN) fn st0) as S. pose proof (step_indexed (N:=RN) fn st0) as I. cbv zeta in S, I.
  change (snd (fst (nm_step fn st0))) with st1 in S, I.
  assert (F0 : nm_simplex st0 = [y0; y0]) by exact ES.
  destruct S as [(_ & E1 & E2)|(F & _)]; [|discriminate F]. rewrite F0 in E1, E2. cbn [map] in E2.
  destruct I as (I1 & I2 & _ & _ & I5 & _). rewrite E2 in I1, I2. set (f := fst (fn y0)) in *.
  assert (T1 : top1 (N:=RN) (map (nneg (n:=RN)) [f; f]) = (0, (- f)%R)).
  { cbn. unfold top_gt. rewrite !nisnan_RN. cbn. destruct (Rltb (- f) (- f)) eqn:E; rb; [lra|reflexivity]. }
  assert (I1' : nm_best_index st1 = 0) by exact (eq_trans I1 (f_equal fst T1)).
  assert (I2' : nm_f_best st1 = (- - f)%R) by exact (eq_trans I2 (f_equal (fun x => Ropp (snd x)) T1)).
  rewrite F0, I1' in I5. cbn in I5.
  split; [unfold st1, s in *; rewrite nm_y_S; exact I5|].
  change (nm_terminate (N:=RN) rtol atol (max_norm (N:=RN)) st1 = (true, successful)).
  unfold nm_terminate, nm_converged. rewrite E1, E2, I5, I2'.
  change (nisfin (n:=RN) (- - f)%R) with true. cbn [negb]. rewrite orb_false_r. f_equal.
  assert (C1 : (0 < atol + rtol * Rabs (- (ad / rd)))%R) by (pose proof (Rabs_pos (- (ad / rd))); nra).
  assert (C2 : (0 < atol + rtol * Rabs (- - f))%R) by (pose proof (Rabs_pos (- - f)); nra).
  apply andb_true_iff. split; unfold y0; cbn -[Rdiv]; rewrite !nmax_RN; rb; rewrite ?Q2R_0, ?Q2R_1.
  - replace (- (ad / rd) - - (ad / rd))%R with 0%R by ring. rewrite Rabs_R0. unfold Rdiv at 1 3. rewrite !Rmult_0_l, Rabs_R0.
    rewrite !(Rmax_left 0 0) by lra. lra.
  - change (fst (fn [- (ad / rd)]%R)) with f. replace (f - - - f)%R with 0%R by ring. rewrite Rabs_R0. unfold Rdiv. rewrite !Rmult_0_l, Rabs_R0.
    rewrite !(Rmax_left 0 0) by lra. lra.
Qed.
(** The same in binary64 with the default adelta and rdelta: minimising
    (x - 3)^2 from -0.005 is reported successful at -0.005. *)
Definition nm64 (Aux : Type) : Solver (list f64) f64 Aux :=
  NelderMead (N:=F64) (f64_ofQ (1#1000)) (f64_ofQ (1#1000)) (max_norm (N:=F64)) (f64_ofQ (5#100)) (f64_ofQ (25#100000)) [1].
Definition to3 (v : list f64) : f64 * unit := match v with [x] => let d := fsub x (f64_ofZ 3) in (fmul d d, tt) | _ => (f64_ofZ 0, tt) end.
Example C46_collapse_ex_pf :
  exists sol, iterative_solve (vallfinite (N:=F64)) (nm64 unit) to3 100 None true [f64_ofQ (-5#1000)] (fun _ => f64_ofZ 0) (fun _ => tt) = Ret sol /\
    (results_eqb (result sol) successful &&
     forallb (fun x => neqb (n:=F64) x (f64_ofQ (-5#1000))) (value sol)) = true.
Proof. apply check_out. vm_compute. reflexivity. Qed.

(** ** C49 *)

(** leaves with n >= 2 vertices each: accepted iff the total dimension is 1 *)
Lemma C49_accepts_iff_pf :
  forall (n : nat) (dims : list nat), 2 <= n -> dims <> [] ->
    (simplex_check (map (fun d => (n, d)) dims) = Ret n /\ fold_right Nat.add 0 dims = 1) \/
    (simplex_check (map (fun d => (n, d)) dims) = Raise ValueError /\ fold_right Nat.add 0 dims <> 1).
Proof.
  intros n dims Hn Hd. unfold simplex_check. rewrite map_map. cbn [fst].
  assert (ND : nodup Nat.eq_dec (map (fun _ : nat => n) dims) = [n]).
  { destruct dims as [|d dims]; [contradiction|]. clear Hd. revert d. induction dims as [|e dims IH]; intro d; [reflexivity|].
    specialize (IH e). cbn [map] in IH |- *. cbn [nodup] in IH |- *.
    destruct (in_dec Nat.eq_dec n (n :: map (fun _ => n) dims)) as [_|Hno]; [exact IH|]. exfalso. apply Hno. left. reflexivity. }
  rewrite ND. rewrite map_map. cbn [fst snd].
  assert (SZ : fold_right Nat.add 0 (map (fun d => (n - 1) * d) dims) = (n - 1) * fold_right Nat.add 0 dims).
  { clear. induction dims as [|d dims IH]; cbn; [lia|]. rewrite IH. lia. }
  rewrite SZ. destruct (Nat.eqb_spec n ((n - 1) * fold_right Nat.add 0 dims + 1)) as [E|E]; [left|right]; (split; [reflexivity|]); nia.
Qed.
(** In particular every simplex of d+1 points of dimension d >= 2 is rejected. *)
Lemma C49_rejects_refuted_pf :
  forall d, 2 <= d -> simplex_check [(S d, d)] = Raise ValueError.
Proof.
  intros d Hd. destruct (C49_accepts_iff_pf (S d) [d] ltac:(lia) ltac:(discriminate)) as [[_ H]|[H _]]; [cbn in H; lia|exact H].
Qed.
Example C49_accepts_ex_pf : 2 <= 3 /\ [2] <> [] /\ simplex_check [(2, 1)] = Ret 2 /\ simplex_check [(3, 2)] = Raise ValueError.
Proof. repeat split; try lia; discriminate. Qed.

(** A pytree without leaves, or with two leaves of different leading lengths, is rejected. *)
Lemma C49_leading_pf :
  forall leaves : list (nat * nat),
    leaves = [] \/ (exists a b, In a leaves /\ In b leaves /\ fst a <> fst b) -> simplex_check leaves = Raise ValueError.
Proof.
  intros leaves [-> | (a & b & Ha & Hb & D)]; [reflexivity|]. unfold simplex_check.
  assert (Ia : In (fst a) (nodup Nat.eq_dec (map fst leaves))) by (apply nodup_In, in_map; exact Ha).
  assert (Ib : In (fst b) (nodup Nat.eq_dec (map fst leaves))) by (apply nodup_In, in_map; exact Hb).
  destruct (nodup Nat.eq_dec (map fst leaves)) as [|n [|m l]]; [reflexivity| |reflexivity].
  destruct Ia as [Ia|[]]. destruct Ib as [Ib|[]]. congruence.
Qed.
Example C49_leading_ex_pf : simplex_check [(2, 0); (3, 1)] = Raise ValueError /\ simplex_check [(2, 0); (2, 1)] = Ret 2.
Proof. split; reflexivity. Qed.

(** ** C47: best and worst values, exact arithmetic *)

Lemma top_gt_RN : forall a b : R, top_gt (N:=RN) a b = Rltb b a.
Proof. intros a b. unfold top_gt. rewrite !nisnan_RN. reflexivity. Qed.
Lemma top_from_RN : forall (l : list R) b ib i (pre : list R), length pre = i -> ib < i -> nth ib pre 0%R = b -> Forall (fun x => (x <= b)%R) pre ->
  let r := top_from (N:=RN) b ib i l in
  nth (fst r) (pre ++ l) 0%R = snd r /\ Forall (fun x => (x <= snd r)%R) (pre ++ l).
Proof.
  induction l as [|x l IH]; intros b ib i pre Hl Hi Hn HF; cbn [top_from].
  - cbn. rewrite app_nil_r. auto.
  - rewrite top_gt_RN. replace (pre ++ x :: l) with ((pre ++ [x]) ++ l) by (rewrite <- app_assoc; reflexivity).
    destruct (Rltb b x) eqn:E; rb.
    + apply IH; [rewrite app_length; cbn; lia|lia| |].
      * rewrite app_nth2 by lia. rewrite Hl, Nat.sub_diag. reflexivity.
      * apply Forall_app. split; [eapply Forall_impl; [|exact HF]; cbn; intros; lra|constructor; [lra|constructor]].
    + apply IH; [rewrite app_length; cbn; lia|lia| |].
      * rewrite app_nth1 by lia. exact Hn.
      * apply Forall_app. split; [exact HF|constructor; [lra|constructor]].
Qed.
Lemma top1_RN : forall l : list R, l <> [] ->
  nth (fst (top1 (N:=RN) l)) l 0%R = snd (top1 (N:=RN) l) /\ Forall (fun x => (x <= snd (top1 (N:=RN) l))%R) l.
Proof.
  intros [|x l] H; [contradiction|]. cbn [top1]. apply (top_from_RN l x 0 1 [x]); cbn; auto. constructor; [lra|constructor].
Qed.

(** the remembered values after a step *)
Lemma marked : forall Aux (fn : list R -> R * Aux) st, let st' := snd (fst (nm_step (N:=RN) fn st)) in
  nm_f_simplex st' <> [] ->
  let fs : list R := nm_f_simplex st' in
  nm_best_index st' < length fs /\ nth (nm_best_index st') fs 0%R = nm_f_best st' /\
  Forall (fun x => (nm_f_best st' <= x <= nm_f_worst st')%R) fs /\
  nm_worst_index st' < length fs /\ nth (nm_worst_index st') fs 0%R = nm_f_worst st'.
Proof.
  intros Aux fn st st' NE fs. destruct (step_indexed (N:=RN) fn st) as (I1 & I2 & I3 & I4 & _). fold st' in I1, I2, I3, I4.
  assert (NE' : map Ropp fs <> []) by (unfold fs; destruct (nm_f_simplex st'); [contradiction|discriminate]).
  pose proof (top1_RN (map Ropp fs) NE') as [B1 B2]. pose proof (top1_RN fs NE) as [W1 W2].
  pose proof (top1_lt RN (map Ropp fs) NE') as LB. rewrite map_length in LB. pose proof (top1_lt RN fs NE) as LW.
  change (map (nneg (n:=RN)) (nm_f_simplex st')) with (map Ropp fs) in I1, I2. fold fs in I3, I4.
  rewrite <- I1 in B1, LB. rewrite <- I3 in W1, LW. rewrite <- I4 in W1, W2.
  assert (FB : nth (nm_best_index st') fs 0%R = nm_f_best st').
  { rewrite (nth_indep _ 0%R (Ropp 0)) in B1 by (rewrite map_length; exact LB). rewrite (map_nth Ropp) in B1.
    rewrite I2. change (nneg (n:=RN)) with Ropp. rewrite <- B1. change (nth (nm_best_index st') fs 0%R = - - nth (nm_best_index st') fs 0)%R. ring. }
  split; [exact LB|]. split; [exact FB|]. split; [|split; [exact LW|exact W1]].
  rewrite Forall_forall in B2, W2 |- *. intros x Hx. split; [|apply W2; exact Hx].
  specialize (B2 (- x)%R (in_map Ropp _ _ Hx)). rewrite I2. change (nneg (n:=RN)) with Ropp. cbn beta in B2. lra.
Qed.

Lemma full_affine : forall d, affine_set d (fun v : list R => length v = d).
Proof. intro d. split; [auto|]. intros p q r t Hp Hq Hr. apply Radd_v_length; [exact Hp|]. rewrite Rscal_length. apply Rsub_v_length; assumption. Qed.
Lemma shrink_self : forall v : list R, Radd_v v (Rscal (nofQ (n:=RN) (1#2)) (Rsub_v v v)) = v.
Proof. induction v as [|x v IH]; cbn; [reflexivity|]. f_equal; [ring|exact IH]. Qed.
Lemma vmap2_app_len : forall A (a b : list (list A)) n m, Forall (fun v => length v = n) a -> Forall (fun v => length v = m) b ->
  Forall (fun v => length v = n + m) (vmap2 (@app A) a b).
Proof.
  induction a as [|x a IH]; intros [|z b] n m Ha Hb; cbn; try constructor.
  - rewrite app_length. rewrite (Forall_inv Ha), (Forall_inv Hb). reflexivity.
  - apply IH; [exact (Forall_inv_tail Ha)|exact (Forall_inv_tail Hb)].
Qed.
Lemma build_rows_len : forall (N : Num) (ad rd : N) sz leaves r,
  Forall (fun v => length v = fold_right Nat.add 0 (map (@length N) leaves)) (build_rows ad rd sz r leaves).
Proof.
  intros N ad rd sz. induction leaves as [|l leaves IH]; intro r.
  - apply Forall_forall. intros x Hx. apply repeat_spec in Hx. subst x. reflexivity.
  - cbn [build_rows map fold_right]. apply vmap2_app_len; [|apply IH].
    apply Forall_forall. intros x Hx. unfold leaf_rows in Hx. apply in_map_iff in Hx. destruct Hx as (i & <- & _). rewrite map_length. apply seq_length.
Qed.
Lemma split_sizes : forall (N : Num) shape (y : list N), fold_right Nat.add 0 shape = length y -> map (@length N) (split_leaves shape y) = shape.
Proof.
  intros N. induction shape as [|k shape IH]; intros y H; [reflexivity|]. cbn in H |- *. f_equal.
  - rewrite firstn_length. lia.
  - apply IH. rewrite skipn_length. lia.
Qed.
Lemma initial_rows : forall (N : Num) (ad rd : N) shape y, fold_right Nat.add 0 shape = length y ->
  Forall (fun v => length v = length y) (initial_simplex ad rd shape y).
Proof.
  intros N ad rd shape y H. unfold initial_simplex. pose proof (build_rows_len N ad rd (length y) (split_leaves shape y) 0) as B.
  rewrite (split_sizes N shape y H), H in B. exact B.
Qed.

Section Bookkeeping.
  Variables (Aux : Type) (rtol atol : R) (norm : list R -> R) (rdelta adelta : R) (shape : list nat).
  Variables (fn : list R -> R * Aux) (y0 : list R) (auxs : fillv -> Aux).
  Let s := NelderMead (N:=RN) (Aux:=Aux) rtol atol norm rdelta adelta shape.
  Let st0 := nm_start (Aux:=Aux) (initial_simplex (N:=RN) adelta rdelta shape y0) (auxs fill0).
  Let st k := st_at s fn y0 st0 (auxs fill0) k.

  Lemma len_inv : forall k, length (nm_simplex (st k)) = S (length y0) /\ length (nm_f_simplex (st k)) = S (length y0).
  Proof.
    induction k as [|k [IH1 IH2]].
    - split; [apply initial_length|]. unfold st, st_at. cbn -[initial_simplex]. 
      etransitivity; [apply (repeat_length (ninf (n:=RN)))|]. apply initial_length.
    - unfold st, s. rewrite nm_st_S. pose proof (step_simplex (N:=RN) fn (st k)) as S. cbv zeta in S. fold s. fold (st k).
      destruct S as [(_ & E1 & E2)|(_ & v & f & c & a & _ & Ef & [(_ & E1 & E2 & _)|(_ & E1 & E2 & _)])]; rewrite ?E2, E1.
      + rewrite map_length. auto.
      + rewrite !map_length. auto.
      + rewrite !set_at_length. auto.
  Qed.
  Lemma ne_inv : forall k, nm_f_simplex (st k) <> [].
  Proof. intros k E. destruct (len_inv k) as [_ H]. rewrite E in H. discriminate H. Qed.
  Lemma first_inv : forall k, nm_first_pass (st (S k)) = false.
  Proof. intro k. unfold st, s. rewrite nm_st_S. apply step_first. Qed.
End Bookkeeping.

(** Exact arithmetic, after at least one step: the stored best value is the value
    at the vertex of the stored simplex with the stored index, and the least of
    all vertex values. (The full claim that the stored best *vertex* is that
    vertex is false, see below.) *)
Lemma C47_best_value_partial_pf :
  forall Aux (rtol atol : R) norm rdelta adelta shape (fn : list R -> R * Aux) (y0 : list R) fs auxs st0 (k : nat),
    let s := NelderMead (N:=RN) rtol atol norm rdelta adelta shape in
    s_init s fn y0 fs auxs = Ret st0 -> 1 <= k ->
    let st := st_at s fn y0 st0 (auxs fill0) k in
    nm_best_index st < length (nm_simplex st) /\
    fst (fn (nth (nm_best_index st) (nm_simplex st) [])) = nm_f_best st /\
    Forall (fun v => (nm_f_best st <= fst (fn v) <= nm_f_worst st)%R) (nm_simplex st).
Proof.
  intros Aux rtol atol norm rdelta adelta shape fn y0 fs auxs st0 k s Hinit Hk. cbv zeta.
  pose proof (C47_values_partial_pf RN Aux rtol atol norm rdelta adelta shape fn y0 fs auxs st0 k Hinit Hk) as V. cbv zeta in V.
  injection Hinit as <-. destruct k as [|k]; [lia|].
  destruct (len_inv Aux rtol atol norm rdelta adelta shape fn y0 auxs (S k)) as [L1 L2].
  pose proof (ne_inv Aux rtol atol norm rdelta adelta shape fn y0 auxs (S k)) as NE.
  pose proof (marked Aux fn (st_at s fn y0 (nm_start (initial_simplex (N:=RN) adelta rdelta shape y0) (auxs fill0)) (auxs fill0) k)) as M.
  cbv zeta in M. unfold s in *. rewrite <- nm_st_S in M. specialize (M NE). destruct M as (M1 & M2 & M3 & _).
  set (st := st_at _ _ _ _ _ (S k)) in *.
  assert (LT : nm_best_index st < length (nm_simplex st)) by (rewrite L1; rewrite <- L2; exact M1).
  split; [exact LT|]. split.
  - rewrite <- M2. rewrite V. rewrite (nth_indep _ 0%R ((fun v => fst (fn v)) [])) by (rewrite map_length; exact LT).
    symmetry. apply (map_nth (fun v => fst (fn v))).
  - rewrite V in M3. rewrite Forall_map in M3. exact M3.
Qed.

(** Over steps without a shrink, and over shrinks started from a stored best
    vertex that really is the best vertex of the simplex, the best value never
    increases. *)
Lemma C47_monotone_partial_pf :
  forall Aux (rtol atol : R) norm rdelta adelta shape (fn : list R -> R * Aux) (y0 : list R) fs auxs st0 (k : nat),
    let s := NelderMead (N:=RN) rtol atol norm rdelta adelta shape in
    s_init s fn y0 fs auxs = Ret st0 -> 1 <= k -> y0 <> [] -> fold_right Nat.add 0 shape = length y0 ->
    let st := st_at s fn y0 st0 (auxs fill0) k in
    let st' := st_at s fn y0 st0 (auxs fill0) (S k) in
    n_shrink (nm_counts st') = n_shrink (nm_counts st) \/
      nm_best st = nth (nm_best_index st) (nm_simplex st) [] ->
    (nm_f_best st' <= nm_f_best st)%R.
Proof.
  intros Aux rtol atol norm rdelta adelta shape fn y0 fs auxs st0 k s Hinit Hk Hy Hsh. cbv zeta. intro Hc.
  pose proof (C47_best_value_partial_pf Aux rtol atol norm rdelta adelta shape fn y0 fs auxs st0 k Hinit Hk) as B. cbv zeta in B.
  pose proof (C47_values_partial_pf RN Aux rtol atol norm rdelta adelta shape fn y0 fs auxs st0 k Hinit Hk) as V. cbv zeta in V.
  assert (V' := C47_values_partial_pf RN Aux rtol atol norm rdelta adelta shape fn y0 fs auxs st0 (S k) Hinit ltac:(lia)). cbv zeta in V'.
  injection Hinit as <-. destruct k as [|k]; [lia|].
  destruct (len_inv Aux rtol atol norm rdelta adelta shape fn y0 auxs (S k)) as [L1 L2].
  destruct (len_inv Aux rtol atol norm rdelta adelta shape fn y0 auxs (S (S k))) as [L1' L2'].
  pose proof (ne_inv Aux rtol atol norm rdelta adelta shape fn y0 auxs (S k)) as NE.
  pose proof (ne_inv Aux rtol atol norm rdelta adelta shape fn y0 auxs (S (S k))) as NE'.
  pose proof (first_inv Aux rtol atol norm rdelta adelta shape fn y0 auxs k) as F1.
  set (st00 := nm_start (initial_simplex (N:=RN) adelta rdelta shape y0) (auxs fill0)) in *.
  pose proof (marked Aux fn (st_at s fn y0 st00 (auxs fill0) k)) as M.
  pose proof (marked Aux fn (st_at s fn y0 st00 (auxs fill0) (S k))) as M'.
  cbv zeta in M, M'. unfold s in *. rewrite <- nm_st_S in M. specialize (M NE). rewrite <- nm_st_S in M'. specialize (M' NE').
  pose proof (step_simplex (N:=RN) fn (st_at (NelderMead (N:=RN) rtol atol norm rdelta adelta shape) fn y0 st00 (auxs fill0) (S k))) as SS.
  cbv zeta in SS. rewrite <- nm_st_S in SS.
  pose proof (nm_in_at Aux rtol atol norm rdelta adelta shape fn y0 auxs (length y0) _ (S k) (full_affine (length y0)) (initial_rows RN adelta rdelta shape y0 Hsh)) as IN.
  cbv zeta in IN. fold st00 in IN.
  set (st := st_at _ _ _ _ _ (S k)) in *. set (st' := st_at _ _ _ _ _ (S (S k))) in *.
  destruct M as (M1 & M2 & M3 & M4 & M5). destruct M' as (_ & _ & M3' & _ & _). destruct B as (B1 & B2 & B3).
  assert (Lny : 1 <= length y0) by (destruct y0; [contradiction|cbn; lia]).
  destruct SS as [(F & _)|(_ & v & f & c & a & Em & Ef & [(SW & E1 & E2 & E3)|(SW & E1 & E2 & E3)])].
  - rewrite F1 in F. discriminate.
  - destruct Hc as [Hc|Hc]; [lia|].
    assert (NB : nltb (n:=RN) f (nm_f_best st) = false).
    { cbn in SW |- *. rb. rewrite Forall_forall in M3. specialize (M3 _ (nth_In _ 0%R M1)). lra. }
    rewrite NB in E1.
    rewrite Forall_forall in M3'. apply M3'. rewrite E2, E1.
    apply in_map_iff. exists (nth (nm_best_index st) (nm_simplex st) []). split; [exact B2|].
    apply in_map_iff. exists (nth (nm_best_index st) (nm_simplex st) []). split; [|apply nth_In; exact B1].
    destruct (IN) as (IN1 & IN2 & _).
    rewrite vwhere_pick by (exact (eq_trans (main_in (length y0) _ (full_affine (length y0)) _ _ _ _ _ _ _ IN Em) (eq_sym IN2))).
    rewrite Hc. rewrite vadd_RN, vscale_RN, vsub_RN. apply shrink_self.
  - rewrite Forall_forall in M3'.
    destruct (Nat.eq_dec (nm_best_index st) (nm_worst_index st)) as [Eq|Ne].
    + (* all values are equal; take another vertex *)
      set (j := if nm_worst_index st =? 0 then 1 else 0).
      assert (Hj : j < length (nm_f_simplex st)) by (apply Nat.lt_le_trans with 2; [unfold j; destruct (nm_worst_index st =? 0); lia|]; rewrite L2; exact (le_n_S _ _ Lny)).
      assert (Hne : (j =? nm_worst_index st) = false) by (unfold j; destruct (nm_worst_index st) as [|w]; reflexivity).
      assert (Ej : nth j (nm_f_simplex st) 0%R = nm_f_best st).
      { rewrite Forall_forall in M3. pose proof (M3 _ (nth_In _ 0%R Hj)) as Q. cbn beta in Q. rewrite <- Eq in M5. apply Rle_antisym; [|apply Q]. rewrite <- M2, M5. apply Q. }
      apply M3'. rewrite E2.
      assert (Q : nth j (set_at (nm_worst_index st) f (nm_f_simplex st)) 0%R = nm_f_best st)
        by (rewrite set_at_nth by exact Hj; rewrite Hne; exact Ej).
      rewrite <- Q. apply nth_In. rewrite set_at_length. exact Hj.
    + apply M3'. rewrite E2.
      assert (Q : nth (nm_best_index st) (set_at (nm_worst_index st) f (nm_f_simplex st)) 0%R = nm_f_best st).
      { rewrite set_at_nth by exact M1. apply Nat.eqb_neq in Ne. rewrite Ne. exact M2. }
      rewrite <- Q. apply nth_In. rewrite set_at_length. exact M1.
Qed.

(** Example: minimising (x - 3)^2 from 0 in binary64: after 5 steps a shrink-free
    history with decreasing best value. *)
Definition nm_unit : Solver (list f64) f64 unit :=
  NelderMead (N:=F64) (f64_ofQ (1#1000)) (f64_ofQ (1#1000)) (max_norm (N:=F64)) (f64_ofZ 0) (f64_ofZ 1) [1].
Definition nm_unit_st (fn : list f64 -> f64 * unit) (y0 : list f64) (k : nat) : nm_state F64 unit :=
  st_at nm_unit fn y0 (nm_start (initial_simplex (N:=F64) (f64_ofZ 1) (f64_ofZ 0) [1] y0) tt) tt k.
Example C47_values_ex_pf :
  let st := nm_unit_st to3 [f64_ofZ 0] 4 in
  (forallb (fun p => neqb (n:=F64) (fst (to3 (fst p))) (snd p)) (combine (nm_simplex st) (nm_f_simplex st)) &&
   (length (nm_simplex st) =? 2) && (n_shrink (nm_counts st) =? 0)%Z &&
   nltb (n:=F64) (nm_f_best st) (nm_f_best (nm_unit_st to3 [f64_ofZ 0] 1))) = true.
Proof. vm_compute. reflexivity. Qed.

(** The stored best vertex is not the best vertex: it is looked up, with the index
    of the new simplex, in the simplex before the update. Minimising x from 0 with
    displacement 1: after two steps the simplex is {0, -2}, the best value -2, and
    the stored best vertex (and returned iterate) is 1, the vertex just thrown out
    as worst. *)
Definition ident (v : list f64) : f64 * unit := match v with [x] => (x, tt) | _ => (f64_ofZ 0, tt) end.
Definition is1 (z : Z) (v : list f64) : bool := match v with [x] => neqb (n:=F64) x (f64_ofZ z) | _ => false end.
(** The stored best vertex is a vertex no longer in the simplex and its value is not
    the stored best value; it is also the iterate returned. *)
Lemma C47_stale_refuted_pf :
  exists (fn : list f64 -> f64 * unit) (y0 : list f64) (k : nat),
    let st := nm_unit_st fn y0 k in
    1 <= k /\
    is1 1 (nm_best st) = true /\
    map (fun v => is1 0 v || is1 (-2) v) (nm_simplex st) = [true; true] /\
    nltb (n:=F64) (nm_f_best st) (fst (fn (nm_best st))) = true /\
    y_at nm_unit fn y0 (nm_start (initial_simplex (N:=F64) (f64_ofZ 1) (f64_ofZ 0) [1] y0) tt) tt k = nm_best st.
Proof.
  exists ident, [f64_ofZ 0], 2. cbv zeta. split; [lia|]. split; [vm_compute; reflexivity|]. split; [vm_compute; reflexivity|].
  split; [vm_compute; reflexivity|]. unfold nm_unit, nm_unit_st. rewrite nm_y_S. reflexivity.
Qed.

(** The best value can go up: a shrink contracts towards the stale vertex and loses
    the best point. Values f(0) = 1, f(1) = 2, f(-1) = 3/2, f(-1/2) = 0, and 5
    elsewhere. *)
Definition bumpy (v : list f64) : f64 * unit :=
  match v with
  | [x] => if neqb (n:=F64) x (f64_ofZ 0) then (f64_ofZ 1, tt) else if neqb (n:=F64) x (f64_ofZ 1) then (f64_ofZ 2, tt)
           else if neqb (n:=F64) x (f64_ofZ (-1)) then (f64_ofQ (3#2), tt) else if neqb (n:=F64) x (f64_ofQ (-1#2)) then (f64_ofZ 0, tt) else (f64_ofZ 5, tt)
  | _ => (f64_ofZ 0, tt)
  end.
(** A shrink makes the best value go up. *)
Lemma C47_increase_refuted_pf :
  exists (fn : list f64 -> f64 * unit) (y0 : list f64) (k : nat),
    1 <= k /\
    nltb (n:=F64) (nm_f_best (nm_unit_st fn y0 k)) (nm_f_best (nm_unit_st fn y0 (S k))) = true /\
    (n_shrink (nm_counts (nm_unit_st fn y0 (S k))) = n_shrink (nm_counts (nm_unit_st fn y0 k)) + 1)%Z.
Proof. exists bumpy, [f64_ofZ 0], 2. split; [lia|]. split; vm_compute; reflexivity. Qed.

(** ** C57: what success certifies *)

(** Any ordered arithmetic. When NelderMead with the max norm reports success after
    at least one step, every vertex of the final simplex is within
    atol + rtol |y| of the returned point y in every coordinate, the vertex
    values are the values at the vertices, the best of them is finite, and all are
    within atol + rtol |f_best| of it. *)
Lemma C57_success_certificate_pf :
  forall (N : Num) (HN : OrdLaws N), nltb (n:=N) (nofQ 0) (nofQ 1) = true ->
  forall Aux (rtol atol rdelta adelta : N) shape (fn : list N -> N * Aux) (y0 : list N) fs auxs allfinite fuel ms throw sol,
    let s := NelderMead rtol atol max_norm rdelta adelta shape in
    iterative_solve allfinite s fn fuel ms throw y0 fs auxs = Ret sol ->
    result sol = successful -> nm_step_count (state sol) <> 0 ->
    let y := value sol in
    let fb := nm_f_best (state sol) in
    nisfin fb = true /\
    Forall (fun v => Forall (fun r => nltb (nabs r) (nofQ 1) = true)
             (vdiv (vabs (vsub v y)) (map (fun b => nadd atol (nmul rtol (nabs b))) y))) (nm_simplex (state sol)) /\
    Forall (fun v => nltb (nabs (ndiv (nabs (nsub (fst (fn v)) fb)) (nadd atol (nmul rtol (nabs fb))))) (nofQ 1) = true) (nm_simplex (state sol)).
Proof.
  intros N HN H01 Aux rtol atol rdelta adelta shape fn y0 fs auxs allfinite fuel ms throw sol s Hsolve Hres Hk0. cbv zeta.
  destruct (solve_ret_init _ _ _ _ _ _ _ _ _ _ Hsolve) as [st0 Hinit].
  destruct (C03_success_sound_pf _ _ _ allfinite s fn y0 fs auxs st0 ms fuel throw sol Hinit Hsolve Hres) as (k & _ & _ & Ht & _ & Est & Ev).
  destruct k as [|k].
  { exfalso. apply Hk0. refine (eq_trans (f_equal nm_step_count Est) _). injection Hinit as <-. reflexivity. }
  pose proof (C47_values_partial_pf N Aux rtol atol max_norm rdelta adelta shape fn y0 fs auxs st0 (S k) Hinit ltac:(lia)) as V. cbv zeta in V.
  fold s in V. set (stk := st_at s fn y0 st0 (auxs fill0) (S k)) in *. destruct sol as [v r a ss stt]. cbn [value result aux sol_stats state] in *. subst stt.
  assert (Ey : v = nm_best stk).
  { injection Ev as Ev _. rewrite Ev. unfold s. exact (nm_y_S N Aux rtol atol max_norm rdelta adelta shape fn y0 st0 (auxs fill0) k). }
  change (nm_terminate rtol atol max_norm stk = (true, successful)) in Ht. unfold nm_terminate in Ht. injection Ht as Ht Hd.
  destruct (nisfin (nm_f_best stk)) eqn:Ff; [|cbn in Hd; discriminate Hd]. split; [reflexivity|].
  cbn [negb] in Ht. rewrite orb_false_r in Ht. unfold nm_converged in Ht. apply andb_true_iff in Ht. destruct Ht as [Hx Hf].
  apply (max_norm_lt HN) in Hx; [|exact H01]. apply (max_norm_lt HN) in Hf; [|exact H01].
  rewrite Ey. split.
  - rewrite Forall_forall in Hx |- *. intros u Hu. apply Forall_forall. intros x Hr. apply Hx. apply in_concat.
    eexists. split; [|exact Hr]. apply in_map_iff. exists u. split; [reflexivity|exact Hu].
  - rewrite V in Hf. rewrite !Forall_map in Hf. exact Hf.
Qed.
(** Example: the binary64 solve of (x - 3)^2 from 0 with default displacements. *)
Example C57_success_certificate_ex_pf :
  exists sol, iterative_solve (vallfinite (N:=F64)) (nm64 unit) to3 100 None true [f64_ofZ 0] (fun _ => f64_ofZ 0) (fun _ => tt) = Ret sol /\
    (results_eqb (result sol) successful && negb (nm_step_count (state sol) =? 0) && nltb (n:=F64) (nofQ 0) (nofQ 1)) = true.
Proof. apply check_out. vm_compute. reflexivity. Qed.

(** Divergence is reported, and only when the best stored value is not finite: a solve that has not
    stopped within j steps and whose best vertex value after step j + 1 is infinite or NaN stops there with
    `nonlinear_divergence` (`nonfinite` if the iterate it started from was not finite); with a finite best
    value the solver's own verdict is never a failure. *)
Lemma C57_divergence_pf :
  forall (N : Num) Aux (rtol atol rdelta adelta : N) norm shape (fn : list N -> N * Aux) (y0 : list N) fs auxs allfinite st0 j,
    let s := NelderMead rtol atol norm rdelta adelta shape in
    s_init s fn y0 fs auxs = Ret st0 ->
    let fb := nm_f_best (st_at s fn y0 st0 (auxs fill0) (S j)) in
    (nisfin fb = true -> says_result s fn y0 st0 (auxs fill0) (S j) = successful) /\
    (nisfin fb = false -> (forall i, i <= j -> ~ stops allfinite s fn y0 st0 (auxs fill0) i) ->
     forall fuel ms, S j < fuel -> (forall m, ms = Some m -> S j <= m) ->
     let code := if allfinite (y_at s fn y0 st0 (auxs fill0) j) then nonlinear_divergence else nonfinite in
     (exists sol, iterative_solve allfinite s fn fuel ms false y0 fs auxs = Ret sol /\
        result sol = code /\ stats_get (sol_stats sol) "num_steps" = Some (Some (Z.of_nat (S j)))) /\
     iterative_solve allfinite s fn fuel ms true y0 fs auxs = Raise (SolveFailed code)).
Proof.
  intros N Aux rtol atol rdelta adelta norm shape fn y0 fs auxs allfinite st0 j s Hi fb. split.
  - intro F. unfold says_result. change (snd (nm_terminate rtol atol norm (st_at s fn y0 st0 (auxs fill0) (S j))) = successful).
    unfold nm_terminate. fold fb. rewrite F. reflexivity.
  - intros F Hns fuel ms Hf Hms code.
    assert (HT : s_terminate s fn (asked s fn y0 st0 (auxs fill0) (S j)) (st_at s fn y0 st0 (auxs fill0) (S j)) = (true, nonlinear_divergence)).
    { change (nm_terminate rtol atol norm (st_at s fn y0 st0 (auxs fill0) (S j)) = (true, nonlinear_divergence)).
      unfold nm_terminate. fold fb. rewrite F. cbn [negb]. rewrite orb_true_r. reflexivity. }
    assert (HS : stop_index allfinite s fn y0 st0 (auxs fill0) ms (S j)).
    { split; [|split; auto].
      - left. left. unfold says_terminate. rewrite HT. reflexivity.
      - intros i Hi'. apply Hns. lia. }
    assert (HFR : final_result allfinite s fn y0 st0 (auxs fill0) (S j) = code).
    { unfold final_result, says_terminate, says_result. rewrite HT. cbn [fst snd].
      change (asked s fn y0 st0 (auxs fill0) (S j)) with (y_at s fn y0 st0 (auxs fill0) j). unfold code.
      destruct (allfinite _); reflexivity. }
    assert (Hc : results_eqb code successful = false).
    { unfold code. destruct (allfinite _); reflexivity. }
    split.
    + exists (solution_at allfinite s fn y0 st0 (auxs fill0) ms (S j)).
      destruct (iterative_solve_spec allfinite s fn y0 st0 _ fs auxs eq_refl Hi fuel ms false) as [H4 _].
      rewrite (H4 (S j) Hf HS). split; [reflexivity|].
      rewrite (proj1 (solution_at_fields allfinite s fn y0 st0 (auxs fill0) ms (S j))). split; auto.
    + destruct (iterative_solve_spec allfinite s fn y0 st0 _ fs auxs eq_refl Hi fuel ms true) as [H4 _].
      rewrite (H4 (S j) Hf HS), HFR, Hc. reflexivity.
Qed.
(** Example: a function that is infinite everywhere diverges after the first step. *)
Example C57_divergence_ex_pf :
  exists sol, iterative_solve (vallfinite (N:=F64)) (nm64 unit) (fun _ => (ninf (n:=F64), tt)) 100 None false [f64_ofZ 0] (fun _ => f64_ofZ 0) (fun _ => tt) = Ret sol /\
    (results_eqb (result sol) nonlinear_divergence && (nm_step_count (state sol) =? 1)) = true.
Proof. apply check_out. vm_compute. reflexivity. Qed.

(** ** C58: a point worse than the initial one *)

(** Minimising x from 0 with a budget of two steps returns 1. *)
Lemma C58_worse_than_start_refuted_pf :
  exists (fn : list f64 -> f64 * unit) (y0 : list f64) sol,
    iterative_solve (vallfinite (N:=F64)) nm_unit fn 3 (Some 2) false y0 (fun _ => f64_ofZ 0) (fun _ => tt) = Ret sol /\
    result sol = nonlinear_max_steps_reached /\
    nltb (n:=F64) (fst (fn y0)) (fst (fn (value sol))) = true /\
    vallfinite (N:=F64) (value sol) = true.
Proof.
  exists ident, [f64_ofZ 0].
  match goal with |- exists sol, ?a = _ /\ _ =>
    destruct (check_out _ a (fun sol => results_eqb (result sol) nonlinear_max_steps_reached &&
      (nltb (n:=F64) (fst (ident [f64_ofZ 0])) (fst (ident (value sol))) && vallfinite (N:=F64) (value sol)))) as (sol & E & P);
    [vm_compute; reflexivity|] end.
  exists sol. split; [exact E|]. apply andb_true_iff in P. destruct P as [P1 P2]. apply andb_true_iff in P2. destruct P2.
  split; [apply results_eqb_eq; exact P1|]. auto.
Qed.

(** ** C11 for NelderMead *)

(** BestSoFarMinimiser(NelderMead) returns y0 for every function that is nowhere
    negative, whatever the solve did: NelderMead's first step hands back an aux of
    zeros, which BestSoFar books as loss 0 of y0. *)
Lemma C11_nelder_mead_refuted_pf :
  forall (N : Num) Aux (rtol atol : N) norm rdelta adelta shape (fn : list N -> N * Aux) (y0 : list N) fs auxs
         allfinite fuel ms throw sol,
    nltb (n:=N) (nofQ 0) ninf = true -> fs fill0 = nofQ 0 ->
    (forall v, nltb (fst (fn v)) (nofQ 0) = false) ->
    let s := best_so_far loss_minimiser (NelderMead rtol atol norm rdelta adelta shape) in
    iterative_solve allfinite s fn fuel ms throw y0 fs auxs = Ret sol ->
    value sol = y0.
Proof.
  intros N Aux rtol atol norm rdelta adelta shape fn y0 fs auxs allfinite fuel ms throw sol H0i Hfs Hpos s Hsolve.
  destruct (solve_ret_init _ _ _ _ _ _ _ _ _ _ Hsolve) as [st0 Hinit].
  destruct (iterative_solve_inv allfinite s fn y0 st0 (auxs fill0) fs auxs eq_refl Hinit fuel ms throw sol Hsolve) as (k & _ & _ & -> & _).
  pose proof (solution_at_fields allfinite s fn y0 st0 (auxs fill0) ms k) as (_ & _ & EV & _).
  assert (INV : forall k, let st := st_at s fn y0 st0 (auxs fill0) k in
     best_y st = y0 /\
     ((k = 0 /\ best_loss st = ninf /\ y_at s fn y0 st0 (auxs fill0) k = y0 /\ nm_first_pass (inner st) = true /\ nm_aux (inner st) = (fs fill0, auxs fill0)) \/
      (best_loss st = nofQ 0 /\ nm_first_pass (inner st) = false))).
  { clear EV Hsolve. cbn in Hinit. injection Hinit as <-. intro j. induction j as [|j [IH1 IH2]].
    - cbv zeta. split; [reflexivity|]. left. repeat split; reflexivity.
    - cbv zeta. unfold st_at, y_at in *. cbn [trace]. cbv zeta in IH1, IH2. destruct (trace s fn y0 _ (auxs fill0) j) as [[y st] a0] eqn:Etr.
      cbn [fst snd] in *. destruct st as [b1 b2 b3 st]. cbn [best_y best_loss inner] in *.
      unfold s. cbn [s_step best_so_far NelderMead inner].
      destruct IH2 as [(-> & B & Ey & F & A)|(B & F)].
      + pose proof (step_first (auxmented fn) st) as SF.
        assert (SA : snd (nm_step (auxmented fn) st) = (fs fill0, auxs fill0)).
        { unfold nm_step. rewrite F. cbn -[top1]. destruct (top1 (map nneg _)), (top1 (map _ _)). exact A. }
        destruct (nm_step (auxmented fn) st) as [[ny nst] [f na]]. cbn in SA, SF. injection SA as -> ->.
        cbn. unfold loss_minimiser. rewrite B, Hfs, H0i. split; [exact Ey|]. right. auto.
      + pose proof (step_first (auxmented fn) st) as SF.
        assert (SA : exists v, fst (snd (nm_step (auxmented fn) st)) = fst (fn v)).
        { unfold nm_step. rewrite F. unfold main_step.
          match goal with |- context [auxmented fn (vwhere ?c ?x (vwhere ?p ?q ?r))] => exists (vwhere c x (vwhere p q r)); set (nv := vwhere c x (vwhere p q r)) end.
          unfold auxmented at 1. destruct (fn nv) as [f' a'].
          match goal with |- context [if ?b then shrink_simplex _ _ _ _ else _] => destruct b end;
          cbn -[top1 auxmented]; repeat match goal with |- context [top1 ?x] => destruct (top1 x) end; reflexivity. }
        destruct SA as [v SA].
        destruct (nm_step (auxmented fn) st) as [[ny nst] [f na]]. cbn in SA, SF. subst f.
        cbn. unfold loss_minimiser. rewrite B, Hpos. split; [exact IH1|]. right. auto. }
  destruct (INV k) as [IK _]. exact (eq_trans (f_equal fst EV) IK).
Qed.
(** Example: minimising (x - 3)^2 >= 0 from 0 converges (C57's example); wrapped in
    BestSoFarMinimiser it returns 0. *)
Example C11_nelder_mead_ex_pf :
  nltb (n:=F64) (nofQ 0) ninf = true /\ exists sol, iterative_solve (vallfinite (N:=F64)) (best_so_far loss_minimiser (nm64 (f64 * unit)%type)) to3 100 None true [f64_ofZ 0] (fun _ => f64_ofZ 0) (fun _ => tt) = Ret sol /\ (results_eqb (result sol) successful && is1 0 (value sol)) = true.
Proof. split; [vm_compute; reflexivity|]. apply check_out. vm_compute. reflexivity. Qed.
