(** Which solvers look only at the sign, or only at the order, of the values
    of the user's function (C91). *)

From Coq Require Import List Bool Arith ZArith QArith Reals Lra Lia.
From Verif Require Import Num NumF64 NumFacts NumF64_facts Vec Results Iterate Spec_Iterate Bisection Golden
  NelderMead NelderMead_proofs Spec_Invariance.
From Flocq Require Import Core.
From Flocq.IEEE754 Require Import BinarySingleNaN.
Import ListNotations.
Local Open Scope nat_scope.

(** ** Laws of negation *)
Lemma XR_neg : NegLaws XR.
Proof.
  split.
  - intros [r | | |]; cbn; try reflexivity. now rewrite Ropp_involutive.
  - intros [r | | |] [t | | |]; cbn; try reflexivity.
    unfold Rltb. destruct (Rlt_dec (- r) (- t)), (Rlt_dec t r); auto; lra.
  - intros [r | | |]; cbn; try reflexivity.
    unfold Reqb. destruct (Req_EM_T (- r) (- r)), (Req_EM_T r r); auto; congruence.
Qed.

Lemma F64_neg : NegLaws F64.
Proof.
  split.
  - intros a. apply (Bopp_involutive 53 1024 a).
  - intros a b. cbn. unfold Bltb, SpecFloat.SFltb.
    destruct a as [[]|[]| |[] m e h], b as [[]|[]| |[] m' e' h']; cbn; try reflexivity.
    all: change (Pos.compare_cont Eq) with Pos.compare; rewrite ?(Pos.compare_antisym m m'), ?(Z.compare_antisym e e');
      destruct (Z.compare e e'), (Pos.compare m m'); reflexivity.
  - intros a. cbn. unfold Beqb, SpecFloat.SFeqb.
    destruct a as [[]|[]| |[] m e h]; cbn; rewrite ?Z.compare_refl; try reflexivity.
    all: change (Pos.compare_cont Eq) with Pos.compare; now rewrite Pos.compare_refl.
Qed.

(** ** Bisection *)
Section Bis.
  Context {N : Num} {Aux : Type}.
  Variable L : OrdLaws N.
  Variables f g : N -> N * Aux.

  Lemma while_ext : forall (A : Type) (c1 c2 : A -> bool) b,
    (forall x, c1 x = c2 x) -> forall n cap x, while_loop n c1 b cap x = while_loop n c2 b cap x.
  Proof.
    intros A c1 c2 b H n. induction n as [| n IH]; intros cap x; cbn; [reflexivity |].
    destruct cap as [[| m] |]; rewrite ?H, ?IH; reflexivity.
  Qed.

  Lemma flip_same : same_signs f g -> forall l u,
    eqb (nltb (fst (f l)) (lit 0)) (nltb (fst (f u)) (lit 0)) = false ->
    nltb (fst (f u)) (fst (f l)) = nltb (fst (g u)) (fst (g l)).
  Proof.
    assert (K : forall f : N -> N * Aux, forall l u,
      eqb (nltb (fst (f l)) (lit 0)) (nltb (fst (f u)) (lit 0)) = false ->
      nltb (fst (f u)) (fst (f l)) =
        nltb (fst (f u)) (lit 0) && neqb (fst (f l)) (fst (f l))).
    { intros h l u E. apply eqb_false_iff in E.
      destruct (nltb (fst (h u)) (lit 0)) eqn:U; cbn.
      - destruct (nltb (fst (h l)) (lit 0)) eqn:W; [congruence |].
        destruct (neqb (fst (h l)) (fst (h l))) eqn:Q.
        + destruct (ol_total _ L (fst (h l)) (lit 0) Q (ol_lt_nan_r _ L _ _ U)) as [A | [A | A]].
          * congruence.
          * eapply (ol_lt_eq _ L); [exact U |]. now apply (ol_eq_sym _ L).
          * eapply (ol_trans _ L); eauto.
        + destruct (nltb (fst (h u)) (fst (h l))) eqn:A; [| reflexivity].
          apply (ol_lt_nan_r _ L) in A. congruence.
      - destruct (nltb (fst (h u)) (fst (h l))) eqn:A; [| reflexivity].
        destruct (nltb (fst (h l)) (lit 0)) eqn:W; [| congruence].
        pose proof (ol_trans _ L _ _ _ A W). congruence. }
    intros H l u E.
    rewrite (K f l u E).
    destruct (H l) as (A1 & _ & A3 & _), (H u) as (B1 & _ & _ & _).
    rewrite (K g l u) by now rewrite <- A1, <- B1.
    now rewrite <- A3, <- B1.
  Qed.

  Lemma bis_init_same : forall fuel flip expand l u,
    same_signs f g -> (flip = Detect -> expand = true -> same_order f g) ->
    bis_init fuel flip expand l u f = bis_init fuel flip expand l u g.
  Proof.
    intros fuel flip expand l u H O. destruct flip as [b |]; [reflexivity |].
    unfold bis_init.
    destruct (H l) as (A1 & A2 & A3 & A4), (H u) as (B1 & B2 & B3 & B4).
    destruct expand.
    - destruct (O eq_refl eq_refl) as (O1 & _).
      unfold expand_interval_repeatedly. rewrite O1, A1.
      erewrite while_ext; [reflexivity |].
      intros [p q]. unfold interval_contains_root. cbn.
      now rewrite (proj1 (proj2 (H _))).
    - rewrite <- A1, <- B1. destruct (eqb _ _) eqn:E; [reflexivity |].
      now rewrite (flip_same H l u E).
  Qed.

  Lemma bis_step_same : forall y s t, same_signs f g ->
    bis_lower s = bis_lower t -> bis_upper s = bis_upper t -> bis_flip s = bis_flip t ->
    let '(y1, s1, a1) := bis_step f y s in
    let '(y2, s2, a2) := bis_step g y t in
    y1 = y2 /\ a1 = a2 /\ bis_lower s1 = bis_lower s2 /\ bis_upper s1 = bis_upper s2 /\
    bis_flip s1 = bis_flip s2.
  Proof.
    intros y s t H E1 E2 E3. destruct (H y) as (A1 & _ & _ & A4). unfold bis_step.
    destruct (f y) as [fy a], (g y) as [gy b]. cbn in *. subst b.
    rewrite A1, E1, E2, E3. repeat split.
  Qed.
End Bis.

Lemma C91_bisection_signs_pf :
  forall (N : Num) (Aux : Type), OrdLaws N ->
  forall (f g : N -> N * Aux) rtol atol flip expand fuel lower upper y0 fs auxs a0,
  same_signs f g -> (flip = Detect -> expand = true -> same_order f g) ->
  let s := bisection rtol atol flip expand fuel lower upper in
  s_init s f y0 fs auxs = s_init s g y0 fs auxs /\
  forall st0, s_init s f y0 fs auxs = Ret st0 ->
  forall k,
    y_at s f y0 st0 a0 k = y_at s g y0 st0 a0 k /\
    aux_at s f y0 st0 a0 k = aux_at s g y0 st0 a0 k /\
    bis_lower (st_at s f y0 st0 a0 k) = bis_lower (st_at s g y0 st0 a0 k) /\
    bis_upper (st_at s f y0 st0 a0 k) = bis_upper (st_at s g y0 st0 a0 k).
Proof.
  intros N Aux L f g rtol atol flip expand fuel lower upper y0 fs auxs a0 H O s.
  split; [now apply bis_init_same |]. intros st0 _ k.
  cut (y_at s f y0 st0 a0 k = y_at s g y0 st0 a0 k /\
    aux_at s f y0 st0 a0 k = aux_at s g y0 st0 a0 k /\
    bis_lower (st_at s f y0 st0 a0 k) = bis_lower (st_at s g y0 st0 a0 k) /\
    bis_upper (st_at s f y0 st0 a0 k) = bis_upper (st_at s g y0 st0 a0 k) /\
    bis_flip (st_at s f y0 st0 a0 k) = bis_flip (st_at s g y0 st0 a0 k)); [tauto |].
  induction k as [| k (I1 & I2 & I3 & I4 & I5)]; [repeat split |].
  unfold y_at, aux_at, st_at in *. cbn [trace]. 
  destruct (trace s f y0 st0 a0 k) as [[y1 s1] b1], (trace s g y0 st0 a0 k) as [[y2 s2] b2].
  cbn [fst snd] in *. subst y2.
  pose proof (bis_step_same f g y1 s1 s2 H I3 I4 I5) as K.
  cbn [s_step s bisection].
  destruct (bis_step f y1 s1) as [[u1 v1] w1], (bis_step g y1 s2) as [[u2 v2] w2].
  cbn [fst snd]. tauto.
Qed.

(** ** Golden-section search *)
Lemma C91_golden_order_pf :
  forall (N : Num) (Aux : Type) (f g : N -> N * Aux) rtol atol lower upper y0 fs auxs a0 st st',
  same_order f g ->
  let s := golden rtol atol lower upper in
  s_init s f y0 fs auxs = Ret st -> s_init s g y0 fs auxs = Ret st' ->
  forall k,
    y_at s f y0 st a0 k = y_at s g y0 st' a0 k /\
    aux_at s f y0 st a0 k = aux_at s g y0 st' a0 k /\
    gs_lower (st_at s f y0 st a0 k) = gs_lower (st_at s g y0 st' a0 k) /\
    gs_middle (st_at s f y0 st a0 k) = gs_middle (st_at s g y0 st' a0 k) /\
    gs_upper (st_at s f y0 st a0 k) = gs_upper (st_at s g y0 st' a0 k).
Proof.
  intros N Aux f g rtol atol lower upper y0 fs auxs a0 st st' (O1 & O2) s I I' k.
  cbn in I, I'. injection I as <-. injection I' as <-.
  set (st := mkGs _ _ _ (fst (f _)) _ _). set (st' := mkGs _ _ _ (fst (g _)) _ _).
  cut ((y_at s f y0 st a0 k = y_at s g y0 st' a0 k /\
    aux_at s f y0 st a0 k = aux_at s g y0 st' a0 k /\
    gs_lower (st_at s f y0 st a0 k) = gs_lower (st_at s g y0 st' a0 k) /\
    gs_middle (st_at s f y0 st a0 k) = gs_middle (st_at s g y0 st' a0 k) /\
    gs_upper (st_at s f y0 st a0 k) = gs_upper (st_at s g y0 st' a0 k)) /\
    gs_first (st_at s f y0 st a0 k) = gs_first (st_at s g y0 st' a0 k) /\
    exists m, gs_f_middle (st_at s f y0 st a0 k) = fst (f m) /\
              gs_f_middle (st_at s g y0 st' a0 k) = fst (g m)); [tauto |].
  induction k as [| k ((I1 & I2 & I3 & I4 & I5) & I6 & m & I7 & I8)].
  { repeat split. exists ((upper - lower) / (golden_ratio + lit 1))%num. split; reflexivity. }
  unfold y_at, aux_at, st_at in *. cbn [trace].
  destruct (trace s f y0 st a0 k) as [[y1 s1] b1], (trace s g y0 st' a0 k) as [[y2 s2] b2].
  cbn [fst snd] in *. subst y2 b2. clear st st'.
  cbn [s_step s golden]. unfold gs_step.
  rewrite <- I3, <- I4, <- I5, <- I6, I7, I8.
  set (p := if gs_first s1 then _ else y1). clearbody p.
  destruct (O2 p) as (_ & _ & A). pose proof (O1 p m) as B.
  destruct (f p) as [fp a] eqn:EF, (g p) as [gp b] eqn:EG. cbn in A, B. subst b. rewrite <- B.
  destruct (nltb fp (fst (f m))); cbn [fst snd gs_lower gs_middle gs_upper gs_first gs_f_middle].
  - repeat split. exists p. rewrite EF, EG. split; reflexivity.
  - repeat split. exists m. split; reflexivity.
Qed.

(** ** Nelder-Mead *)
Section NM.
  Context {N : Num} {Aux : Type}.
  Variable L : OrdLaws N.
  Variable G : NegLaws N.
  Variables f g : list N -> N * Aux.
  Hypothesis O : same_order f g.

  Definition Rel (a b : N) : Prop := (exists x, a = fst (f x) /\ b = fst (g x)) \/ (a = ninf /\ b = ninf).

  Lemma rel_lt : forall a b a' b', Rel a b -> Rel a' b' -> nltb a a' = nltb b b'.
  Proof.
    destruct O as (O1 & O2).
    intros a b a' b' [(x & -> & ->) | (-> & ->)] [(y & -> & ->) | (-> & ->)].
    - apply O1.
    - apply O2.
    - now rewrite !(ol_inf_top _ L).
    - reflexivity.
  Qed.
  Lemma rel_nan : forall a b, Rel a b -> nisnan a = nisnan b.
  Proof.
    intros a b [(x & -> & ->) | (-> & ->)]; [| reflexivity].
    unfold nisnan. f_equal. apply (proj2 O).
  Qed.

  Section Top.
    Variable P : N -> N -> Prop.
    Hypothesis Pl : forall a b a' b', P a b -> P a' b' -> nltb a a' = nltb b b'.
    Hypothesis Pn : forall a b, P a b -> nisnan a = nisnan b.

    Lemma top_from_rel : forall l l', Forall2 P l l' -> forall b b' i j, P b b' ->
      fst (top_from b i j l) = fst (top_from b' i j l') /\
      P (snd (top_from b i j l)) (snd (top_from b' i j l')).
    Proof.
      induction 1 as [| x x' l l' E F IH]; intros b b' i j Hb; cbn; [auto |].
      assert (T : top_gt x b = top_gt x' b').
      { unfold top_gt. rewrite (Pn _ _ E), (Pn _ _ Hb), (Pl _ _ _ _ Hb E). reflexivity. }
      rewrite T. destruct (top_gt x' b'); apply IH; assumption.
    Qed.
    Lemma top1_rel : forall l l', Forall2 P l l' -> l <> [] ->
      fst (top1 l) = fst (top1 l') /\ P (snd (top1 l)) (snd (top1 l')).
    Proof. intros l l' [| x x' r r' E F] Hn; [congruence |]. cbn. now apply top_from_rel. Qed.
  End Top.

  Lemma top1_Rel : forall l l', Forall2 Rel l l' ->
    fst (top1 l) = fst (top1 l') /\ Rel (snd (top1 l)) (snd (top1 l')).
  Proof.
    intros l l' F. destruct l as [| x l].
    - inversion F; subst. cbn. split; [reflexivity | right; auto].
    - apply top1_rel; auto using rel_lt, rel_nan; congruence.
  Qed.

  Lemma top1_neg : forall l l', Forall2 Rel l l' -> l <> [] ->
    fst (top1 (map nneg l)) = fst (top1 (map nneg l')) /\
    Rel (nneg (snd (top1 (map nneg l)))) (nneg (snd (top1 (map nneg l')))).
  Proof.
    intros l l' F Hn.
    apply (top1_rel (fun a b => Rel (nneg a) (nneg b))).
    - intros a b a' b' A B. rewrite <- (ng_lt _ G a' a), <- (ng_lt _ G b' b). now apply rel_lt.
    - intros a b A. pose proof (rel_nan _ _ A) as K. unfold nisnan in *. now rewrite !(ng_nan _ G) in K.
    - induction F; cbn; constructor; [now rewrite !(ng_invol _ G) | ].
      destruct l; [inversion F; subst; constructor | apply IHF; congruence].
    - destruct l; cbn; congruence.
  Qed.

  Lemma remove_at_rel : forall i l l', Forall2 Rel l l' -> Forall2 Rel (remove_at i l) (remove_at i l').
  Proof.
    induction i as [| i IH]; intros l l' F; destruct F; cbn; try constructor; auto.
  Qed.
  Lemma set_at_rel : forall i a b l l', Rel a b -> Forall2 Rel l l' ->
    Forall2 Rel (set_at i a l) (set_at i b l').
  Proof.
    induction i as [| i IH]; intros a b l l' R F; destruct F; cbn; try constructor; auto.
  Qed.
  Lemma set_at_ne : forall (A : Type) i (a : A) l, l <> [] -> set_at i a l <> [].
  Proof. intros A [| i] a [| x l] H; cbn; congruence. Qed.

  (** The parts of the state that do not hold function values agree. *)
  Definition geo (s t : nm_state N Aux) : Prop :=
    nm_simplex s = nm_simplex t /\ nm_best s = nm_best t /\ nm_best_index s = nm_best_index t /\
    nm_worst s = nm_worst t /\ nm_worst_index s = nm_worst_index t /\ nm_counts s = nm_counts t /\
    nm_first_pass s = nm_first_pass t /\ nm_aux s = nm_aux t /\ nm_step_count s = nm_step_count t.
  Definition sim (s t : nm_state N Aux) : Prop :=
    geo s t /\ nm_simplex s <> [] /\
    ((nm_first_pass s = true /\ s = t) \/
     (nm_first_pass s = false /\ nm_f_simplex s <> [] /\
      Forall2 Rel (nm_f_simplex s) (nm_f_simplex t) /\
      Rel (nm_f_best s) (nm_f_best t) /\ Rel (nm_f_worst s) (nm_f_worst t) /\
      Rel (nm_second_worst s) (nm_second_worst t))).

  Lemma vals_rel : forall l, Forall2 Rel (map (fun v => fst (f v)) l) (map (fun v => fst (g v)) l).
  Proof. induction l as [| x l IH]; cbn; constructor; [left; exists x; auto | exact IH]. Qed.

  (** The end of the step, nelder_mead.py 383-411. *)
  Lemma finish : forall fs fs' new_simplex simplex counts aux n,
    Forall2 Rel fs fs' -> fs <> [] -> new_simplex <> [] ->
    let fin fs :=
      let '(best_index, f_best_neg) := top1 (map nneg fs) in
      let '(worst_index, f_worst) := top1 fs in
      let f_second_worst := snd (top1 (remove_at worst_index fs)) in
      let best := nth best_index simplex [] in
      let worst := nth worst_index simplex [] in
      (best,
       mkNM new_simplex fs (nneg f_best_neg) best best_index f_worst worst worst_index
         f_second_worst counts false aux n,
       aux : Aux) in
    fst (fst (fin fs)) = fst (fst (fin fs')) /\ snd (fin fs) = snd (fin fs') /\
    sim (snd (fst (fin fs))) (snd (fst (fin fs'))).
  Proof.
    intros fs fs' ns simplex counts aux n F Hn Hs fin. unfold fin.
    destruct (top1_neg _ _ F Hn) as (B1 & B2), (top1_Rel _ _ F) as (W1 & W2).
    destruct (top1 (map nneg fs)) as [bi fb], (top1 (map nneg fs')) as [bi' fb'].
    destruct (top1 fs) as [wi fw], (top1 fs') as [wi' fw']. cbn [fst snd] in *. subst bi' wi'.
    split; [reflexivity |]. split; [reflexivity |].
    split; [repeat split |]. split; [exact Hs |]. right. cbn.
    repeat split; auto. apply top1_Rel. now apply remove_at_rel.
  Qed.

  Lemma step_sim : forall s t, sim s t ->
    fst (fst (nm_step f s)) = fst (fst (nm_step g t)) /\
    snd (nm_step f s) = snd (nm_step g t) /\
    sim (snd (fst (nm_step f s))) (snd (fst (nm_step g t))).
  Proof.
    intros s t ((E1 & E2 & E3 & E4 & E5 & E6 & E7 & E8 & E9) & Hs & [(Ff & <-) | (Ff & Hn & R1 & R2 & R3 & R4)]).
    - unfold nm_step. rewrite Ff. cbn [init_step]. unfold init_step, shrink_simplex.
      apply finish; auto using vals_rel.
      intros K. apply map_eq_nil in K. contradiction.
    - unfold nm_step. rewrite <- E7, Ff.
      unfold main_step. rewrite <- E1, <- E4, <- E5, <- E2, <- E6, <- E9.
      set (dir := search_direction (nm_simplex s) (nm_worst s)).
      set (r := along (nm_worst s) dir (lit 2)).
      assert (Rr : Rel (fst (f r)) (fst (g r))) by (left; exists r; auto).
      rewrite <- (rel_lt _ _ _ _ Rr R2), <- (rel_lt _ _ _ _ R3 Rr), <- (rel_lt _ _ _ _ R4 Rr),
        <- (rel_lt _ _ _ _ R2 Rr), <- (rel_lt _ _ _ _ Rr R4).
      set (v := vwhere (nltb (nm_second_worst s) _) _ _).
      assert (Rv : Rel (fst (f v)) (fst (g v))) by (left; exists v; auto).
      assert (Av : snd (f v) = snd (g v)) by apply (proj2 O).
      destruct (f v) as [fv a], (g v) as [gv b]. cbn [fst snd] in Rv, Av. subst b.
      rewrite <- (rel_lt _ _ _ _ Rv R2), <- (rel_lt _ _ _ _ R3 Rv).
      destruct (nltb (nm_f_worst s) fv); [unfold shrink_simplex |].
      + apply finish; auto using vals_rel.
        * intros K. apply map_eq_nil, map_eq_nil in K. contradiction.
        * intros K. apply map_eq_nil in K. contradiction.
      + apply finish; auto using set_at_rel, set_at_ne.
  Qed.
End NM.

Lemma C91_nelder_mead_order_pf :
  forall (N : Num) (Aux : Type), OrdLaws N -> NegLaws N ->
  forall (f g : list N -> N * Aux) rtol atol norm rdelta adelta shape y0 fs auxs a0 st,
  same_order f g ->
  let s := NelderMead rtol atol norm rdelta adelta shape in
  s_init s f y0 fs auxs = Ret st ->
  s_init s g y0 fs auxs = Ret st /\
  forall k,
    y_at s f y0 st a0 k = y_at s g y0 st a0 k /\
    aux_at s f y0 st a0 k = aux_at s g y0 st a0 k /\
    nm_simplex (st_at s f y0 st a0 k) = nm_simplex (st_at s g y0 st a0 k) /\
    nm_counts (st_at s f y0 st a0 k) = nm_counts (st_at s g y0 st a0 k).
Proof.
  intros N Aux L G f g rtol atol norm rdelta adelta shape y0 fs auxs a0 st O s I.
  split; [exact I |]. intros k.
  cut ((y_at s f y0 st a0 k = y_at s g y0 st a0 k /\
        aux_at s f y0 st a0 k = aux_at s g y0 st a0 k) /\
       sim f g (st_at s f y0 st a0 k) (st_at s g y0 st a0 k)).
  { intros ((A & B) & (C & _)). unfold geo in C. tauto. }
  induction k as [| k ((I1 & I2) & I3)].
  - split; [split; reflexivity |]. cbn. cbn in I. injection I as <-.
    split; [repeat split |]. split; [| left; split; reflexivity].
    cbn. intros K. apply (f_equal (@length _)) in K. unfold initial_simplex in K.
    rewrite rows_length in K. discriminate.
  - destruct (step_sim L G f g O _ _ I3) as (A & B & C).
    unfold y_at, aux_at, st_at in *. cbn [trace]. cbn [s_step s NelderMead].
    split; [split; assumption |]. exact C.
Qed.

(** ** Examples *)

Lemma xfun_signs : forall h1 h2 : R -> R,
  (forall r, (h1 r < 0 <-> h2 r < 0)%R) -> (forall r, (0 < h1 r <-> 0 < h2 r)%R) ->
  same_signs (xfun h1) (xfun h2).
Proof.
  intros h1 h2 A B [r | | |]; cbn; repeat split; try reflexivity.
  all: unfold Rltb, Reqb, Q2R; cbn; specialize (A r); specialize (B r).
  - replace (0 * / 1)%R with 0%R by lra.
    destruct (Rlt_dec (h1 r) 0), (Rlt_dec (h2 r) 0); tauto.
  - replace (0 * / 1)%R with 0%R by lra.
    destruct (Rlt_dec 0 (h1 r)), (Rlt_dec 0 (h2 r)); tauto.
  - destruct (Req_EM_T (h1 r) (h1 r)), (Req_EM_T (h2 r) (h2 r)); congruence.
Qed.

(** x - 1 and (x - 1)^3 on [0, 3]. *)
Example C91_bisection_signs_ex_pf :
  let f := xfun (fun r => r - 1)%R in
  let g := xfun (fun r => (r - 1) ^ 3)%R in
  let s := bisection (N := XR) (Fin 1) (Fin 1) Detect false 1 (Fin 0) (Fin 3) in
  same_signs f g /\ fst (f (Fin 3)) <> fst (g (Fin 3)) :> xr /\
  exists st0, s_init s f (Fin 1) (fun _ => Fin 0) (fun _ => tt) = Ret st0.
Proof.
  split; [| split].
  - apply xfun_signs; intros r; split; intros H.
    + replace ((r - 1) ^ 3)%R with (- ((1 - r) * ((1 - r) * (1 - r))))%R by ring.
      assert (0 < (1 - r) * ((1 - r) * (1 - r)))%R by (repeat apply Rmult_lt_0_compat; lra). lra.
    + destruct (Rlt_le_dec (r - 1) 0) as [K | K]; [exact K |].
      pose proof (pow_le _ 3 K). lra.
    + now apply pow_lt.
    + destruct (Rlt_le_dec 0 (r - 1)) as [K | K]; [exact K |].
      assert (0 <= (1 - r) ^ 3)%R by (apply pow_le; lra).
      replace ((r - 1) ^ 3)%R with (- (1 - r) ^ 3)%R in H by ring. lra.
  - cbn. intros K. injection K as K. lra.
  - eexists. cbn. unfold bis_init. cbn. unfold Rltb, Q2R; cbn.
    destruct (Rlt_dec (0 - 1) (0 * / 1)); [| lra]. destruct (Rlt_dec (3 - 1) (0 * / 1)); [lra |].
    cbn. reflexivity.
Qed.

(** (x - 1)^2 and (x - 1)^4 on [0, 3]. *)
Lemma sq_order : forall a b : R, (0 <= a -> 0 <= b -> (a < b <-> a ^ 2 < b ^ 2))%R.
Proof. intros a b A B. split; intros H; nra. Qed.

Example C91_golden_order_ex_pf :
  let f := xfun (fun r => (r - 1) ^ 2)%R in
  let g := xfun (fun r => ((r - 1) ^ 2) ^ 2)%R in
  same_order f g /\ fst (f (Fin 3)) <> fst (g (Fin 3)) :> xr.
Proof.
  split.
  - split.
    + intros [r | | |] [t | | |]; cbn; try reflexivity.
      pose proof (sq_order ((r - 1) ^ 2) ((t - 1) ^ 2) (pow2_ge_0 _) (pow2_ge_0 _)) as K.
      cbn in K. unfold Rltb.
      destruct (Rlt_dec _ _) as [A | A], (Rlt_dec _ _) as [B | B]; tauto.
    + intros [r | | |]; cbn; repeat split; try reflexivity.
      unfold Reqb. destruct (Req_EM_T _ _), (Req_EM_T _ _); congruence.
  - cbn. intros K. injection K as K. lra.
Qed.

(** a^2 + b^2 and its square, from (1, 1). *)
Example C91_nelder_mead_order_ex_pf :
  let q (h : R -> R) (v : list XR) : XR * unit :=
    (match v with [Fin a; Fin b] => Fin (h (a ^ 2 + b ^ 2)%R) | _ => PInf end, tt) in
  let f := q (fun r => r) in
  let g := q (fun r => r ^ 2)%R in
  same_order f g /\ fst (f [Fin 1; Fin 1]) <> fst (g [Fin 1; Fin 1]) :> xr /\
  NegLaws XR /\ NegLaws F64 /\
  exists st, s_init (NelderMead (N := XR) (Fin 1) (Fin 1) (fun _ => Fin 0) (Fin 1) (Fin 1) [2])
    f [Fin 1; Fin 1] (fun _ => Fin 0) (fun _ => tt) = Ret st.
Proof.
  intros q f g. split; [| split; [| split; [exact XR_neg | split; [exact F64_neg | eexists; reflexivity]]]].
  - assert (D : forall v, (exists r, 0 <= r /\ fst (f v) = Fin r /\ fst (g v) = Fin (r ^ 2))%R \/
                          (fst (f v) = PInf /\ fst (g v) = PInf)).
    { intros v. unfold f, g, q.
      destruct v as [| [a | | |] [| [b | | |] [| c v]]]; cbn [fst]; try (right; split; reflexivity).
      left. exists (a ^ 2 + b ^ 2)%R. split; [| split; reflexivity].
      pose proof (pow2_ge_0 a). pose proof (pow2_ge_0 b). lra. }
    split.
    + intros x y. destruct (D x) as [(r & Hr & -> & ->) | (-> & ->)], (D y) as [(t & Ht & -> & ->) | (-> & ->)];
        try reflexivity.
      cbn [nltb XR xltb]. pose proof (sq_order r t Hr Ht) as K. unfold Rltb.
      destruct (Rlt_dec _ _) as [A | A], (Rlt_dec _ _) as [B | B]; tauto.
    + intros x. split; [| split; [| reflexivity]].
      * destruct (D x) as [(r & Hr & -> & ->) | (-> & ->)]; [| reflexivity].
        cbn [neqb XR xeqb]. unfold Reqb. destruct (Req_EM_T _ _), (Req_EM_T _ _); congruence.
      * destruct (D x) as [(r & Hr & -> & ->) | (-> & ->)]; reflexivity.
  - unfold f, g, q. cbn [fst]. intros K. injection K as K. lra.
Qed.

(** Why [C91_bisection_signs] asks for more when `expand_if_necessary` is set and
    `flip` is detected: the direction of the expansion is chosen by
    comparing the two values, so functions of the same sign everywhere can be
    told apart, and one of the two searches never ends. *)
Lemma C91_bisection_expand_needs_order_pf :
  exists (f g : XR -> XR * unit) (lower upper y0 : XR),
  same_signs f g /\
  let s fuel := bisection (N := XR) (Fin 1) (Fin 1) Detect true fuel lower upper in
  (exists st0, forall fuel, (2 <= fuel)%nat -> s_init (s fuel) f y0 (fun _ => Fin 0) (fun _ => tt) = Ret st0) /\
  forall fuel, s_init (s fuel) g y0 (fun _ => Fin 0) (fun _ => tt) = Unfinished.
Proof.
  set (h2 := fun x : R => if Rle_dec x 1 then (-1 - Rabs x)%R else (x - 2)%R).
  exists (xfun (fun x => x - 2)%R), (xfun h2), (Fin 0), (Fin 1), (Fin 0).
  assert (Z : (Q2R 0 = 0)%R) by (unfold Q2R; cbn; lra).
  assert (Two : (Q2R 2 = 2)%R) by (unfold Q2R; cbn; lra).
  assert (L : forall x, (x <= 1)%R -> (h2 x < 0)%R).
  { intros x Hx. unfold h2. destruct (Rle_dec x 1); [| contradiction]. pose proof (Rabs_pos x). lra. }
  split.
  { apply xfun_signs; intros r; unfold h2; destruct (Rle_dec r 1); pose proof (Rabs_pos r); lra. }
  cbn zeta. split.
  - eexists. intros fuel Hf. destruct fuel as [| [| fuel]]; [lia | lia |].
    cbn [s_init bisection bis_init]. unfold expand_interval_repeatedly.
    cbn [nltb XR xltb fst xfun nofQ]. rewrite Z.
    replace (Rltb (0 - 2) 0) with true by (symmetry; unfold Rltb; destruct (Rlt_dec _ _); auto; lra).
    replace (Rltb (1 - 2) (0 - 2)) with false by (symmetry; unfold Rltb; destruct (Rlt_dec _ _); auto; lra).
    cbn [xorb negb]. cbn [while_loop].
    match goal with |- context [if interval_contains_root true true ?h ?c then _ else _] =>
      assert (E : interval_contains_root true true h c = true) end.
    { unfold interval_contains_root. cbn. rewrite Z. unfold Rltb. destruct (Rlt_dec _ _); auto; lra. }
    rewrite E. cbn [option_map].
    match goal with |- context [if interval_contains_root true true ?h ?c then _ else _] =>
      assert (E' : interval_contains_root true true h c = false) end.
    { unfold interval_contains_root, expand_interval. cbn. rewrite Z, Two. unfold Rltb.
      destruct (Rlt_dec _ _); auto; lra. }
    rewrite E'.
    reflexivity.
  - intros fuel. cbn [s_init bisection bis_init]. unfold expand_interval_repeatedly.
    cbn [nltb XR xltb fst xfun nofQ]. rewrite Z.
    replace (Rltb (h2 0%R) 0) with true.
    2:{ symmetry. unfold Rltb. destruct (Rlt_dec _ _) as [| K]; [reflexivity |]. exfalso. apply K, L. lra. }
    replace (Rltb (h2 1%R) (h2 0%R)) with true.
    2:{ symmetry. unfold Rltb. destruct (Rlt_dec _ _) as [| K]; [reflexivity |]. exfalso. apply K.
        unfold h2. destruct (Rle_dec 1 1)%R; [| lra]. destruct (Rle_dec 0 1)%R; [| lra].
        rewrite Rabs_R0, Rabs_R1. lra. }
    cbn [xorb negb].
    assert (W : forall n a b, (a < b)%R -> (a <= 1)%R ->
      while_loop n (interval_contains_root true false (xfun h2)) (expand_interval false) None
        ((Fin a : XR), (Fin b : XR)) = Unfinished).
    { induction n as [| n IH]; intros a b Hab Ha; [reflexivity |].
      cbn [while_loop].
      replace (interval_contains_root true false (xfun h2) ((Fin a : XR), (Fin b : XR))) with true.
      2:{ symmetry. unfold interval_contains_root. cbn. rewrite Z. unfold Rltb. specialize (L a Ha).
          destruct (Rlt_dec _ _); auto; lra. }
      assert (E : expand_interval false ((Fin a : XR), (Fin b : XR)) = (Fin (a + - (2 * (b + - a))), Fin a)).
      { unfold expand_interval. cbn. now rewrite Two. }
      cbn [option_map]. eapply eq_trans; [apply f_equal; exact E | apply IH; lra]. }
    rewrite W by lra. reflexivity.
Qed.
