(** Feasible step lengths (C44) and the Cauchy point (C45). *)

From Coq Require Import String List Bool Arith Lia ZArith QArith Qreals Reals Lra Psatz.
From Flocq Require Import IEEE754.BinarySingleNaN.
From Verif Require Import Num NumFacts NumF64 NumF64_facts Vec Results Search Spec_Vec VecFacts Spec_Lin LinFacts.
From Verif Require Import Bounds Spec_Bounds Progress_proofs.
Import ListNotations.
Local Open Scope nat_scope.

Ltac rdec := repeat match goal with
  | |- context [Rltb ?a ?b] => let E := fresh "E" in destruct (Rltb a b) eqn:E; rb
  | |- context [Reqb ?a ?b] => let E := fresh "E" in destruct (Reqb a b) eqn:E; rb
  end.

Lemma Reqb_refl : forall a, Reqb a a = true. Proof. intro a. rb. reflexivity. Qed.
Lemma nisnan_Fin : forall r, nisnan (N:=XR) (Fin r) = false.
Proof. intro r. unfold nisnan. cbn. rewrite Reqb_refl. reflexivity. Qed.
Lemma nmin_Fin : forall a b, nmin (N:=XR) (Fin a) (Fin b) = Fin (Rmin a b).
Proof.
  intros a b. unfold nmin. rewrite !nisnan_Fin. cbn. destruct (Rltb b a) eqn:E; rb; f_equal.
  - rewrite Rmin_right by lra. reflexivity.
  - rewrite Rmin_left by lra. reflexivity.
Qed.
Lemma nmax_Fin : forall a b, nmax (N:=XR) (Fin a) (Fin b) = Fin (Rmax a b).
Proof.
  intros a b. unfold nmax. rewrite !nisnan_Fin. cbn. destruct (Rltb a b) eqn:E; rb; f_equal.
  - rewrite Rmax_right by lra. reflexivity.
  - rewrite Rmax_left by lra. reflexivity.
Qed.
Definition clip01 (r : R) : R := Rmin (Rmax r 0) 1.
Lemma clip01_Fin : forall r, nclip (N:=XR) (Fin r) (Fin 0) (Fin 1) = Fin (clip01 r).
Proof. intro r. unfold nclip. rewrite nmax_Fin, nmin_Fin. reflexivity. Qed.
Lemma clip01_PInf : nclip (N:=XR) PInf (Fin 0) (Fin 1) = Fin 1.
Proof.
  unfold nclip. assert (E : nmax (N:=XR) PInf (Fin 0) = PInf) by (unfold nmax; rewrite nisnan_Fin; reflexivity).
  rewrite E. unfold nmin. rewrite nisnan_Fin. reflexivity.
Qed.
Lemma clip01_cases : forall r, (r <= 0 /\ clip01 r = 0)%R \/ (0 <= r <= 1 /\ clip01 r = r)%R \/ (1 <= r /\ clip01 r = 1)%R.
Proof.
  intro r. unfold clip01. destruct (Rle_dec r 0).
  - left. rewrite Rmax_right, Rmin_left; lra.
  - right. rewrite Rmax_left by lra. destruct (Rle_dec r 1); [left; rewrite Rmin_left; lra|right; rewrite Rmin_right; lra].
Qed.

(** the step length of one entry, over the reals *)
Definition len1 (o x dx : R) (l u : xr) : R :=
  if Rlt_dec dx 0 then match l with Fin a => clip01 (- ((1 - o) * (x - a)) / dx) | _ => 1%R end
  else if Rlt_dec 0 dx then match u with Fin b => clip01 ((1 - o) * (b - x) / dx) | _ => 1%R end
  else 1%R.

Lemma sgn_inf_pos : forall r, (0 < r)%R -> xsgn_inf r = PInf.
Proof. intros r H. unfold xsgn_inf. destruct (Rlt_dec 0 r); [reflexivity|lra]. Qed.

Lemma max_step_len1 : forall o x dx l u, (0 <= o < 1)%R -> proper l u ->
  max_step (N:=XR) (Fin o) (Fin x) (Fin dx) l u = Fin (len1 o x dx l u).
Proof.
  intros o x dx l u Ho HP. unfold max_step, len1.
  change (nofQ (n:=XR) 0) with (Fin (Q2R 0)). change (nofQ (n:=XR) 1) with (Fin (Q2R 1)). rewrite Q2R_0, Q2R_1.
  assert (S : xsgn_inf (1 + - o) = PInf) by (apply sgn_inf_pos; lra).
  destruct (Rlt_dec dx 0) as [Hd|Hd]; [|destruct (Rlt_dec 0 dx) as [Hd'|Hd']].
  - assert (B1 : nltb (n:=XR) (Fin dx) (Fin 0) = true) by (cbn; rb; exact Hd).
    assert (B2 : nltb (n:=XR) (Fin 0) (Fin dx) = false) by (cbn; rb; lra).
    rewrite B1, B2. cbn [nwhere]. change (ninf (n:=XR)) with PInf. rewrite clip01_PInf.
    assert (K : forall r, nwhere (nltb (n:=XR) (Fin (clip01 r)) (Fin 1)) (Fin (clip01 r)) (Fin 1) = Fin (clip01 r)).
    { intro r. cbn. destruct (Rltb _ _) eqn:E; rb; cbn; [reflexivity|]. f_equal. destruct (clip01_cases r) as [?|[?|?]]; lra. }
    destruct l as [a| | |]; try (destruct u; contradiction).
    + cbn [nneg nsub nmul ndiv XR xsub xneg xadd xmul xdiv]. destruct (Req_EM_T dx 0); [lra|]. rewrite clip01_Fin, K.
      reflexivity.
    + cbn [nneg nsub nmul ndiv XR xsub xneg xadd xmul xdiv]. rewrite S. cbn [xneg xdiv]. destruct (Rlt_dec dx 0); [|lra].
      rewrite clip01_PInf. cbn. destruct (Rltb 1 1); reflexivity.
  - assert (B1 : nltb (n:=XR) (Fin dx) (Fin 0) = false) by (cbn; rb; lra).
    assert (B2 : nltb (n:=XR) (Fin 0) (Fin dx) = true) by (cbn; rb; exact Hd').
    rewrite B1, B2. cbn [nwhere]. change (ninf (n:=XR)) with PInf. rewrite clip01_PInf.
    assert (K : forall r, nwhere (nltb (n:=XR) (Fin 1) (Fin (clip01 r))) (Fin 1) (Fin (clip01 r)) = Fin (clip01 r)).
    { intro r. cbn. destruct (Rltb _ _) eqn:E; rb; cbn; [|reflexivity]. f_equal. destruct (clip01_cases r) as [?|[?|?]]; lra. }
    destruct u as [b| | |]; try (destruct l; contradiction).
    + cbn [nneg nsub nmul ndiv XR xsub xneg xadd xmul xdiv]. destruct (Req_EM_T dx 0); [lra|]. rewrite clip01_Fin, K.
      reflexivity.
    + cbn [nneg nsub nmul ndiv XR xsub xneg xadd xmul xdiv]. rewrite S. cbn [xneg xdiv]. destruct (Rlt_dec dx 0); [lra|].
      rewrite clip01_PInf. cbn. destruct (Rltb 1 1); reflexivity.
  - assert (B1 : nltb (n:=XR) (Fin dx) (Fin 0) = false) by (cbn; rb; lra).
    assert (B2 : nltb (n:=XR) (Fin 0) (Fin dx) = false) by (cbn; rb; lra).
    rewrite B1, B2. cbn [nwhere]. change (ninf (n:=XR)) with PInf. rewrite clip01_PInf. cbn. destruct (Rltb 1 1); reflexivity.
Qed.

Lemma within_proper : forall l u v, within l u v -> proper l u.
Proof. intros [a| | |] [b| | |] v [H1 H2]; cbn in *; try contradiction; auto; lra. Qed.

Lemma len1_range : forall o x dx l u, (0 <= len1 o x dx l u <= 1)%R.
Proof.
  intros o x dx l u. unfold len1. destruct (Rlt_dec dx 0); [|destruct (Rlt_dec 0 dx)]; try lra;
    [destruct l|destruct u]; try lra; match goal with |- context [clip01 ?r] => destruct (clip01_cases r) as [?|[?|?]] end; lra.
Qed.

Lemma scale_bound : forall o c w d, (0 <= o < 1)%R -> (0 <= w)%R -> (0 < d)%R -> (c <= (1 - o) * w / d)%R -> (0 <= c)%R ->
  (c * d <= w)%R /\ ((0 < o)%R -> (0 < w)%R -> (c * d < w)%R).
Proof.
  intros o c w d Ho Hw Hd Hc H0. assert (K : (c * d <= (1 - o) * w)%R).
  { apply (Rmult_le_compat_r d) in Hc; [|lra]. replace ((1 - o) * w / d * d)%R with ((1 - o) * w)%R in Hc by (field; lra). exact Hc. }
  split; [nra|]. intros. nra.
Qed.

Lemma len1_safe : forall o x dx l u, (0 <= o < 1)%R -> within l u x ->
  within l u (x + len1 o x dx l u * dx) /\
  ((0 < o)%R -> strictly_within l u x -> strictly_within l u (x + len1 o x dx l u * dx) \/ dx = 0%R).
Proof.
  intros o x dx l u Ho [Hl Hu]. unfold len1.
  destruct (Rlt_dec dx 0) as [Hd|Hd]; [|destruct (Rlt_dec 0 dx) as [Hd'|Hd']].
  - destruct l as [a| | |]; cbn in Hl; try contradiction.
    + set (r := (- ((1 - o) * (x - a)) / dx)%R).
      assert (Er : r = ((1 - o) * (x - a) / - dx)%R) by (unfold r; field; lra).
      assert (Hr : (0 <= r)%R). { rewrite Er. apply Rmult_le_pos; [nra|]. left. apply Rinv_0_lt_compat. lra. }
      assert (C : (0 <= clip01 r <= r)%R) by (destruct (clip01_cases r) as [?|[?|?]]; lra).
      destruct (scale_bound o (clip01 r) (x - a) (- dx) Ho ltac:(lra) ltac:(lra) ltac:(rewrite <- Er; lra) ltac:(lra)) as [K1 K2].
      split.
      * split; cbn; [lra|]. destruct u as [b| | |]; cbn in *; auto. nra.
      * intros Hp [S1 S2]. left. split; cbn in *; [specialize (K2 Hp ltac:(lra)); lra|]. destruct u as [b| | |]; cbn in *; auto. nra.
    + split; [split; cbn; auto|]; [destruct u as [b| | |]; cbn in *; auto; lra|].
      intros Hp [S1 S2]. left. split; cbn; auto. destruct u as [b| | |]; cbn in *; auto; lra.
  - destruct u as [b| | |]; cbn in Hu; try contradiction.
    + set (r := ((1 - o) * (b - x) / dx)%R).
      assert (Hr : (0 <= r)%R). { apply Rmult_le_pos; [nra|]. left. apply Rinv_0_lt_compat. lra. }
      assert (C : (0 <= clip01 r <= r)%R) by (destruct (clip01_cases r) as [?|[?|?]]; lra).
      destruct (scale_bound o (clip01 r) (b - x) dx Ho ltac:(lra) ltac:(lra) ltac:(exact (proj2 C)) ltac:(lra)) as [K1 K2].
      split.
      * split; cbn; [|lra]. destruct l as [a| | |]; cbn in *; auto. nra.
      * intros Hp [S1 S2]. left. split; cbn in *; [|specialize (K2 Hp ltac:(lra)); lra]. destruct l as [a| | |]; cbn in *; auto. nra.
    + split; [split; cbn; auto|]; [destruct l as [a| | |]; cbn in *; auto; lra|].
      intros Hp [S1 S2]. left. split; cbn; auto. destruct l as [a| | |]; cbn in *; auto; lra.
  - assert (dx = 0)%R by lra. subst dx. rewrite Rmult_0_r, Rplus_0_r. split; [split; assumption|]. right. reflexivity.
Qed.
Lemma len1_strict : forall o x dx l u, (0 < o < 1)%R -> strictly_within l u x -> strictly_within l u (x + len1 o x dx l u * dx).
Proof.
  intros o x dx l u Ho S. assert (W : within l u x).
  { destruct S as [S1 S2]. split; [destruct l|destruct u]; cbn in *; auto; lra. }
  destruct (len1_safe o x dx l u ltac:(lra) W) as [_ K]. destruct (K ltac:(lra) S) as [K'| ->]; [exact K'|].
  rewrite Rmult_0_r, Rplus_0_r. exact S.
Qed.
Lemma len1_maximal : forall x dx l u t', within l u x -> (len1 0 x dx l u < t' <= 1)%R -> ~ within l u (x + t' * dx).
Proof.
  intros x dx l u t' [Hl Hu]. unfold len1.
  destruct (Rlt_dec dx 0) as [Hd|Hd]; [|destruct (Rlt_dec 0 dx) as [Hd'|Hd']]; [| |intros; lra].
  - destruct l as [a| | |]; cbn in Hl; try contradiction; [|intros; lra].
    intros Ht [W _]. cbn in W. set (r := (- ((1 - 0) * (x - a)) / dx)%R) in Ht.
    assert (Er : (r * - dx = x - a)%R) by (unfold r; field; lra).
    assert (Hr : (0 <= r)%R) by nra.
    destruct (clip01_cases r) as [?|[?|?]]; nra.
  - destruct u as [b| | |]; cbn in Hu; try contradiction; [|intros; lra].
    intros Ht [_ W]. cbn in W. set (r := ((1 - 0) * (b - x) / dx)%R) in Ht.
    assert (Er : (r * dx = b - x)%R) by (unfold r; field; lra).
    assert (Hr : (0 <= r)%R) by nra.
    destruct (clip01_cases r) as [?|[?|?]]; nra.
Qed.

Fixpoint lens (o : R) (x dx : list R) (l u : list xr) : list R :=
  match x, dx, l, u with
  | a :: x', d :: dx', p :: l', q :: u' => len1 o a d p q :: lens o x' dx' l' u'
  | _, _, _, _ => []
  end.
Lemma lens_ok : forall o x dx l u, (0 <= o < 1)%R -> length dx = length x -> all3 (fun p q _ => proper p q) l u x ->
  feasible_step_length (N:=XR) (Fin o) (map Fin x) (map Fin dx) l u = map Fin (lens o x dx l u) /\
  length (lens o x dx l u) = length x.
Proof.
  intros o x. induction x as [|a x IH]; intros [|d dx] [|p l] [|q u] Ho HL HB; cbn in *; try contradiction; try discriminate; auto.
  destruct HB as [Hp HB]. destruct (IH dx l u Ho ltac:(congruence) HB) as [K1 K2].
  rewrite max_step_len1 by assumption. split; [f_equal; exact K1|f_equal; exact K2].
Qed.
Lemma in_box_proper : forall l u x, in_box l u x -> all3 (fun p q _ => proper p q) l u x.
Proof.
  unfold in_box. induction l as [|p l IH]; intros [|q u] [|a x]; cbn; auto. intros [H1 H2]. split; [eapply within_proper; eauto|auto].
Qed.

(** feasible_step_length with finite points and steps and possibly infinite
    bounds, exact arithmetic, 0 <= offset < 1, point in the box: every length is
    a number in [0,1]; the moved point is in the box, and strictly inside when
    the point is and offset > 0; with offset 0 no larger length up to 1 keeps the
    entry in its bounds. *)
Lemma C44_feasible_pf :
  forall (offset : R) (x dx : list R) (lower upper : list xr),
    (0 <= offset < 1)%R -> length dx = length x -> in_box lower upper x ->
    exists ts, feasible_step_length (N:=XR) (Fin offset) (map Fin x) (map Fin dx) lower upper = map Fin ts /\
      length ts = length x /\ Forall (fun t => (0 <= t <= 1)%R) ts /\
      in_box lower upper (moved x ts dx) /\
      ((0 < offset)%R -> strictly_in_box lower upper x -> strictly_in_box lower upper (moved x ts dx)) /\
      (offset = 0%R -> forall i t', i < length x -> (nth i ts 0%R < t' <= 1)%R ->
         ~ within (nth i lower NaN) (nth i upper NaN) (nth i x 0%R + t' * nth i dx 0%R)%R).
Proof.
  intros o x dx l u Ho HL HB. exists (lens o x dx l u).
  destruct (lens_ok o x dx l u Ho HL (in_box_proper _ _ _ HB)) as [K1 K2]. split; [exact K1|]. split; [exact K2|]. clear K1 K2.
  revert x dx u HL HB. unfold in_box, strictly_in_box.
  induction l as [|p l IH]; intros [|a x] [|d dx] [|q u] HL HB; cbn in HL, HB |- *; try contradiction; try discriminate; auto.
  - repeat split; auto. intros; lia.
  - destruct HB as [Hw HB]. destruct (IH x dx u ltac:(congruence) HB) as (I1 & I2 & I3 & I4).
    split; [constructor; [apply len1_range|exact I1]|]. split; [split; [apply len1_safe; assumption|exact I2]|].
    split.
    + intros Hp [S1 S2]. split; [apply len1_strict; [lra|exact S1]|auto].
    + intros -> [|i] t' Hi Ht; [apply len1_maximal; assumption|]. apply I4; auto. lia.
Qed.

(** least entry *)
Lemma tree_min_Fin : forall ts a, exists t, tree_min (N:=XR) (map Fin (a :: ts)) = Fin t /\ In t (a :: ts) /\ Forall (fun s => (t <= s)%R) (a :: ts).
Proof.
  intros ts. unfold tree_min. cbn [map]. induction ts as [|b ts IH]; intro a; cbn [map fold_left].
  - exists a. cbn. split; [reflexivity|]. split; [left; reflexivity|]. constructor; [lra|constructor].
  - rewrite nmin_Fin. destruct (IH (Rmin a b)) as (t & E & Hin & HF). exists t. split; [exact E|].
    inversion HF as [|? ? H1 H2]; subst. pose proof (Rmin_l a b). pose proof (Rmin_r a b). split.
    + destruct Hin as [Hin|Hin]; [|right; right; exact Hin]. unfold Rmin in Hin. destruct (Rle_dec a b); [left|right; left]; exact Hin.
    + constructor; [lra|]. constructor; [lra|exact H2].
Qed.

(** The least of the lengths, applied to the whole step: the point stays in the
    box, and with offset 0 no larger step up to 1 does. *)
Lemma C44_whole_step_pf :
  forall (offset : R) (x dx : list R) (lower upper : list xr),
    (0 <= offset < 1)%R -> length dx = length x -> x <> [] -> in_box lower upper x ->
    exists t, tree_min (N:=XR) (feasible_step_length (N:=XR) (Fin offset) (map Fin x) (map Fin dx) lower upper) = Fin t /\
      (0 <= t <= 1)%R /\ in_box lower upper (Radd_v x (Rscal t dx)) /\
      (offset = 0%R -> forall t', (t < t' <= 1)%R -> ~ in_box lower upper (Radd_v x (Rscal t' dx))).
Proof.
  intros o x dx l u Ho HL Hne HB.
  destruct (lens_ok o x dx l u Ho HL (in_box_proper _ _ _ HB)) as [K1 K2]. rewrite K1.
  set (ts := lens o x dx l u) in *.
  assert (R1 : Forall (fun t => (0 <= t <= 1)%R) ts).
  { unfold ts. clear. revert dx l u. induction x as [|a x IH]; intros [|d dx] [|p l] [|q u]; cbn; constructor; [apply len1_range|apply IH]. }
  destruct ts as [|a ts'] eqn:Ets; [destruct x; [contradiction|discriminate K2]|].
  destruct (tree_min_Fin ts' a) as (t & E & Hin & Hle). exists t. split; [exact E|].
  rewrite <- Ets in *. unfold ts in *. clear Ets ts a ts' E.
  rewrite Forall_forall in R1. split; [apply R1; exact Hin|]. split.
  - assert (Ht : (0 <= t)%R) by (apply R1; exact Hin). clear Hin R1 Hne K1 K2. revert x dx u HL HB Hle. unfold in_box.
    induction l as [|p l IH]; intros [|a x] [|d dx] [|q u] HL HB Hle; cbn in *; try contradiction; try discriminate; auto.
    destruct HB as [Hw HB]. inversion Hle as [|? ? H1 H2]; subst. split; [|apply IH; auto].
    destruct (len1_safe o a d p q Ho Hw) as [S _]. set (r := len1 o a d p q) in *. destruct Hw as [W1 W2], S as [S1 S2].
    clearbody r. split; [destruct p|destruct q]; cbn in *; auto; destruct (Rle_dec 0 d); nra.
  - intros -> t' Ht'. clear Hle R1 Hne K1 K2. revert x dx u HL HB Hin. unfold in_box.
    induction l as [|p l IH]; intros [|a x] [|d dx] [|q u] HL HB Hin; cbn in *; try contradiction; try discriminate; auto.
    destruct HB as [Hw HB]. intros [K1 K2]. destruct Hin as [Hin|Hin].
    + revert K1. apply len1_maximal; [exact Hw|lra].
    + revert K2. apply IH; auto.
Qed.

(** A point outside its bounds is never moved further out. *)
Lemma C44_outside_pf :
  forall (offset x dx : R) (lower upper : xr), (0 <= offset < 1)%R -> proper lower upper ->
    exists t, max_step (N:=XR) (Fin offset) (Fin x) (Fin dx) lower upper = Fin t /\ (0 <= t <= 1)%R /\
      (excess lower upper (x + t * dx) <= excess lower upper x)%R.
Proof.
  intros o x dx l u Ho HP. exists (len1 o x dx l u). split; [apply max_step_len1; assumption|]. split; [apply len1_range|].
  unfold len1. destruct (Rlt_dec dx 0) as [Hd|Hd]; [|destruct (Rlt_dec 0 dx) as [Hd'|Hd']].
  - destruct l as [a| | |]; try (destruct u; contradiction).
    + set (r := (- ((1 - o) * (x - a)) / dx)%R).
      assert (Er : (r * - dx = (1 - o) * (x - a))%R) by (unfold r; field; lra).
      assert (K : ((x < a)%R -> clip01 r = 0%R) /\ ((a <= x)%R -> (clip01 r * - dx <= x - a)%R) /\ (0 <= clip01 r)%R).
      { destruct (clip01_cases r) as [?|[?|?]]; (split; [intro; try lra; exfalso; nra|split; [intro; nra|nra]]). }
      destruct K as (Ka & Kb & Kc). unfold excess.
      destruct (Rlt_dec x a) as [Hx|Hx].
      * rewrite (Ka Hx). rewrite Rmult_0_l, Rplus_0_r. lra.
      * assert (Kb' := Kb ltac:(lra)). assert (Hm : (x + clip01 r * dx <= x)%R) by nra.
        apply Rmax_lub; [apply Rmax_l|]. destruct u as [b| | |]; cbn in HP; try contradiction.
        -- apply Rmax_lub; [pose proof (Rmax_l 0 (Rmax (a - x) (x - b))); lra|].
           pose proof (Rmax_r 0 (Rmax (a - x) (x - b))). pose proof (Rmax_r (a - x) (x - b)). lra.
        -- apply Rmax_lub; [pose proof (Rmax_l 0 (Rmax (a - x) 0)); lra|apply Rmax_l].
    + unfold excess. apply Rmax_lub; [apply Rmax_l|]. destruct u as [b| | |]; cbn in HP; try contradiction.
      * apply Rmax_lub; [apply Rmax_l|]. pose proof (Rmax_r 0 (Rmax 0 (x - b))). pose proof (Rmax_r 0 (x - b)). lra.
      * apply Rmax_lub; apply Rmax_l.
  - destruct u as [b| | |]; try (destruct l; contradiction).
    + set (r := ((1 - o) * (b - x) / dx)%R).
      assert (Er : (r * dx = (1 - o) * (b - x))%R) by (unfold r; field; lra).
      assert (K : ((b < x)%R -> clip01 r = 0%R) /\ ((x <= b)%R -> (clip01 r * dx <= b - x)%R) /\ (0 <= clip01 r)%R).
      { destruct (clip01_cases r) as [?|[?|?]]; (split; [intro; try lra; exfalso; nra|split; [intro; nra|nra]]). }
      destruct K as (Ka & Kb & Kc). unfold excess.
      destruct (Rlt_dec b x) as [Hx|Hx].
      * rewrite (Ka Hx). rewrite Rmult_0_l, Rplus_0_r. lra.
      * assert (Kb' := Kb ltac:(lra)). assert (Hm : (x <= x + clip01 r * dx)%R) by nra.
        apply Rmax_lub; [apply Rmax_l|]. destruct l as [a| | |]; cbn in HP; try contradiction.
        -- apply Rmax_lub; [|pose proof (Rmax_l 0 (Rmax (a - x) (x - b))); lra].
           pose proof (Rmax_r 0 (Rmax (a - x) (x - b))). pose proof (Rmax_l (a - x) (x - b)). lra.
        -- apply Rmax_lub; [apply Rmax_l|]. pose proof (Rmax_l 0 (Rmax 0 (x - b))). lra.
    + unfold excess. apply Rmax_lub; [apply Rmax_l|]. destruct l as [a| | |]; cbn in HP; try contradiction.
      * apply Rmax_lub; [|apply Rmax_l]. pose proof (Rmax_r 0 (Rmax (a - x) 0)). pose proof (Rmax_l (a - x) 0). lra.
      * apply Rmax_lub; apply Rmax_l.
  - assert (dx = 0)%R by lra. subst. rewrite Rmult_0_r, Rplus_0_r. lra.
Qed.

(** Examples: a limited entry, an entry with an infinite bound, and a resting
    entry; and a point outside. *)
Example C44_feasible_ex_pf :
  in_box [Fin 0; NInf; Fin 0] [Fin 4; PInf; Fin 1] [1; 7; 1]%R /\
  feasible_step_length (N:=XR) (Fin 0) (map Fin [1; 7; 1]%R) (map Fin [6; -9; 0]%R)
    [Fin 0; NInf; Fin 0] [Fin 4; PInf; Fin 1] = map Fin [1 / 2; 1; 1]%R.
Proof.
  split; [unfold in_box; cbn; repeat (split || exact I); cbn; lra|]. cbn [map feasible_step_length].
  rewrite !max_step_len1 by (cbn; try exact I; lra). unfold len1.
  repeat match goal with |- context [Rlt_dec ?a ?b] => destruct (Rlt_dec a b); try (exfalso; lra) end.
  repeat f_equal. destruct (clip01_cases ((1 - 0) * (4 - 1) / 6)) as [?|[?|?]]; lra.
Qed.
Example C44_outside_ex_pf : proper (Fin 0) (Fin 1) /\ excess (Fin 0) (Fin 1) 3 = 2%R.
Proof.
  split; [cbn; lra|]. unfold excess. rewrite (Rmax_right (0 - 3)) by lra. rewrite Rmax_right by lra. lra.
Qed.

(** ** The Cauchy point: vectors of finite numbers *)

Notation fins := (map Fin).
Lemma vsub_Fin : forall a b, vsub (N:=XR) (fins a) (fins b) = fins (Rsub_v a b).
Proof. induction a as [|x a IH]; intros [|y b]; cbn; auto. unfold vsub in IH. rewrite IH. reflexivity. Qed.
Lemma vadd_Fin : forall a b, vadd (N:=XR) (fins a) (fins b) = fins (Radd_v a b).
Proof. induction a as [|x a IH]; intros [|y b]; cbn; auto. unfold vadd in IH. rewrite IH. reflexivity. Qed.
Lemma vscale_Fin : forall c a, vscale (N:=XR) (Fin c) (fins a) = fins (Rscal c a).
Proof. intros c a. unfold vscale, Rscal. rewrite !map_map. reflexivity. Qed.
Lemma vneg_Fin : forall a, vneg (N:=XR) (fins a) = fins (Rscal (-1) a).
Proof. intro a. unfold vneg, Rscal. rewrite !map_map. apply map_ext. intro x. cbn. f_equal. ring. Qed.
Lemma vdot_Fin : forall a b, vdot (N:=XR) (fins a) (fins b) = Fin (Rdot a b).
Proof.
  induction a as [|x a IH]; intros [|y b]; cbn; try (rewrite Q2R_0; reflexivity).
  unfold vdot, vsum, vmul in IH. cbn in IH. rewrite IH. reflexivity.
Qed.
Lemma op_mv_Fin : forall n M x, op_mv (MatOp (N:=XR) n (map fins M)) (fins x) = fins (mvec M x).
Proof. intros n M x. cbn. unfold mvec. rewrite !map_map. apply map_ext. intro row. apply vdot_Fin. Qed.

(** the clip of a number to extended bounds *)
Definition clipb (l u : xr) (v : R) : R :=
  let w := match l with Fin a => Rmax v a | _ => v end in
  match u with Fin b => Rmin w b | _ => w end.
Lemma nclip_Fin : forall l u v, proper l u -> nclip (N:=XR) (Fin v) l u = Fin (clipb l u v).
Proof.
  intros [a| | |] [b| | |] v H; cbn in H; try contradiction; unfold nclip, clipb.
  - rewrite nmax_Fin, nmin_Fin. reflexivity.
  - rewrite nmax_Fin. unfold nmin. rewrite nisnan_Fin. reflexivity.
  - assert (E : nmax (N:=XR) (Fin v) NInf = Fin v) by (unfold nmax; rewrite nisnan_Fin; reflexivity). rewrite E, nmin_Fin. reflexivity.
  - assert (E : nmax (N:=XR) (Fin v) NInf = Fin v) by (unfold nmax; rewrite nisnan_Fin; reflexivity). rewrite E.
    unfold nmin. rewrite nisnan_Fin. reflexivity.
Qed.
Lemma clipb_within : forall l u v, proper l u -> within l u (clipb l u v).
Proof.
  intros [a| | |] [b| | |] v H; cbn in H; try contradiction; unfold within, clipb, above, below; split; auto.
  - apply Rmin_glb; [apply Rmax_r|exact H].
  - apply Rmin_r.
  - apply Rmax_r.
  - apply Rmin_r.
Qed.
Lemma clipb_id : forall l u v, within l u v -> clipb l u v = v.
Proof.
  intros [a| | |] [b| | |] v [H1 H2]; cbn in *; try contradiction; unfold clipb;
    rewrite ?Rmax_left by lra; rewrite ?Rmin_left by lra; reflexivity.
Qed.
Lemma clipb_mono : forall l u v w, proper l u -> (v <= w)%R -> (clipb l u v <= clipb l u w)%R.
Proof.
  intros [a| | |] [b| | |] v w H L; cbn in H; try contradiction; unfold clipb; try lra.
  - apply Rle_min_compat_r. apply Rle_max_compat_r. exact L.
  - apply Rle_max_compat_r. exact L.
  - apply Rle_min_compat_r. exact L.
Qed.

Fixpoint boxp (y grad : list R) (t : R) (l u : list xr) : list R :=
  match y, grad, l, u with
  | a :: y', g :: grad', p :: l', q :: u' => clipb p q (a - t * g) :: boxp y' grad' t l' u'
  | _, _, _, _ => []
  end.
Lemma box_point_Fin : forall y grad t l u, length grad = length y -> all3 (fun p q _ => proper p q) l u y ->
  box_point (N:=XR) (fins y) (fins grad) (Fin t) l u = fins (boxp y grad t l u).
Proof.
  unfold box_point, vclip. induction y as [|a y IH]; intros [|g grad] t [|p l] [|q u] HL HB; cbn in *; try contradiction; try discriminate; auto.
  destruct HB as [HP HB]. specialize (IH grad t l u ltac:(congruence) HB). f_equal.
  - rewrite (nclip_Fin p q (a + - (t * g))) by exact HP. reflexivity.
  - exact IH.
Qed.
Lemma boxp_length : forall y grad t l u, length grad = length y -> all3 (fun p q (_ : R) => proper p q) l u y ->
  length (boxp y grad t l u) = length y.
Proof. induction y as [|a y IH]; intros [|g grad] t [|p l] [|q u] HL HB; cbn in *; try contradiction; try discriminate; auto. f_equal. apply IH; [congruence|tauto]. Qed.
Lemma boxp_in : forall y grad t l u, length grad = length y -> all3 (fun p q (_ : R) => proper p q) l u y ->
  in_box l u (boxp y grad t l u).
Proof.
  unfold in_box. induction y as [|a y IH]; intros [|g grad] t [|p l] [|q u] HL HB; cbn in *; try contradiction; try discriminate; auto.
  destruct HB as [HP HB]. split; [apply clipb_within; exact HP|apply IH; [congruence|exact HB]].
Qed.

(** ** Intercepts *)

Lemma leaf_fin : forall y b g, g <> 0%R ->
  leaf_intercept (N:=XR) (Fin y) (Fin b) (Fin g) = if Rle_dec 0 ((y - b) / g) then Fin (Rmin ((y - b) / g) 1) else PInf.
Proof.
  intros y b g Hg. unfold leaf_intercept. change (nofQ (n:=XR) 0) with (Fin (Q2R 0)). change (nofQ (n:=XR) 1) with (Fin (Q2R 1)).
  rewrite Q2R_0, Q2R_1. cbn [nsub ndiv XR xsub xadd xneg xdiv]. destruct (Req_EM_T g 0); [contradiction|].
  fold ((y - b) / g)%R. change (y + - b)%R with (y - b)%R. set (q := ((y - b) / g)%R).
  assert (Eg : neqb (n:=XR) (Fin g) (Fin 0) = false) by (cbn; rb; exact Hg). rewrite Eg. cbn [negb].
  destruct (Rle_dec 0 q) as [H|H].
  - assert (E : nleb (n:=XR) (Fin 0) (Fin q) = true) by (apply xleb_fin; exact H). rewrite E. cbn [nwhere nisfin XR]. apply nmin_Fin.
  - assert (E : nleb (n:=XR) (Fin 0) (Fin q) = false) by (apply xleb_fin_false; lra). rewrite E. reflexivity.
Qed.
Lemma leaf_inf : forall y b g, g <> 0%R -> b = PInf \/ b = NInf -> leaf_intercept (N:=XR) (Fin y) b (Fin g) = PInf.
Proof.
  intros y b g Hg Hb. unfold leaf_intercept. change (nofQ (n:=XR) 0) with (Fin (Q2R 0)). change (nofQ (n:=XR) 1) with (Fin (Q2R 1)).
  rewrite Q2R_0, Q2R_1. assert (Eg : neqb (n:=XR) (Fin g) (Fin 0) = false) by (cbn; rb; exact Hg). rewrite Eg. cbn [negb].
  destruct Hb as [-> | ->]; cbn; destruct (Rlt_dec g 0); reflexivity.
Qed.

Lemma nmin_PInf_r : forall r, nmin (N:=XR) (Fin r) PInf = Fin r.
Proof. intro r. unfold nmin. rewrite nisnan_Fin. reflexivity. Qed.
Lemma nmin_PInf_l : forall r, nmin (N:=XR) PInf (Fin r) = Fin r.
Proof. intro r. unfold nmin. rewrite nisnan_Fin. reflexivity. Qed.

(** going against g, the intercept of coordinate y is a number in [0,1] (it is 0
    for a coordinate that sits on its other bound); up to there the path is not
    clipped *)
Lemma icpt_ok : forall y g l u, within l u y -> hits_bound l u g ->
  exists i, nmin (N:=XR) (leaf_intercept (N:=XR) (Fin y) l (Fin g)) (leaf_intercept (N:=XR) (Fin y) u (Fin g)) = Fin i /\
    (0 <= i <= 1)%R /\ forall t, (0 <= t <= i)%R -> within l u (y - t * g).
Proof.
  intros y g l u [Hl Hu] [[Hg [a ->]]|[Hg [b ->]]]; cbn in Hl, Hu.
  - rewrite (leaf_fin y a) by lra. set (q := ((y - a) / g)%R).
    assert (Eq : (q * g = y - a)%R) by (unfold q; field; lra). assert (Q0 : (0 <= q)%R) by nra.
    destruct (Rle_dec 0 q); [|contradiction].
    assert (Hm : (0 <= Rmin q 1 <= 1)%R) by (split; [apply Rmin_glb; lra|apply Rmin_r]).
    assert (W : forall t, (0 <= t <= Rmin q 1)%R -> within (Fin a) u (y - t * g)).
    { intros t Ht. pose proof (Rmin_l q 1). split; cbn; [nra|]. destruct u as [b| | |]; cbn in *; auto; nra. }
    destruct u as [b| | |]; cbn in Hu; try contradiction.
    + rewrite leaf_fin by lra. destruct (Rle_dec 0 ((y - b) / g)) as [Hb|Hb].
      * rewrite nmin_Fin. eexists. split; [reflexivity|].
        set (q' := ((y - b) / g)%R) in *. assert (E' : (q' * g = y - b)%R) by (unfold q'; field; lra).
        assert (q' = 0%R) by nra. rewrite H. rewrite (Rmin_left 0 1) by lra. rewrite (Rmin_right (Rmin q 1) 0) by lra.
        split; [lra|]. intros t Ht. apply W. lra.
      * rewrite nmin_PInf_r. exists (Rmin q 1). auto.
    + rewrite leaf_inf by (auto; lra). rewrite nmin_PInf_r. exists (Rmin q 1). auto.
  - rewrite (leaf_fin y b) by lra. set (q := ((y - b) / g)%R).
    assert (Eq : (q * g = y - b)%R) by (unfold q; field; lra). assert (Q0 : (0 <= q)%R) by nra.
    destruct (Rle_dec 0 q); [|contradiction].
    assert (Hm : (0 <= Rmin q 1 <= 1)%R) by (split; [apply Rmin_glb; lra|apply Rmin_r]).
    assert (W : forall t, (0 <= t <= Rmin q 1)%R -> within l (Fin b) (y - t * g)).
    { intros t Ht. pose proof (Rmin_l q 1). split; cbn; [|nra]. destruct l as [a| | |]; cbn in *; auto; nra. }
    destruct l as [a| | |]; cbn in Hl; try contradiction.
    + rewrite leaf_fin by lra. destruct (Rle_dec 0 ((y - a) / g)) as [Hb|Hb].
      * rewrite nmin_Fin. eexists. split; [reflexivity|].
        set (q' := ((y - a) / g)%R) in *. assert (E' : (q' * g = y - a)%R) by (unfold q'; field; lra).
        assert (q' = 0%R) by nra. rewrite H. rewrite (Rmin_left 0 1) by lra. rewrite (Rmin_left 0 (Rmin q 1)) by lra.
        split; [lra|]. intros t Ht. apply W. lra.
      * rewrite nmin_PInf_l. exists (Rmin q 1). auto.
    + rewrite leaf_inf by (auto; lra). rewrite nmin_PInf_l. exists (Rmin q 1). auto.
Qed.

Fixpoint descends (y grad is : list R) (l u : list xr) : Prop :=
  match y, grad, is, l, u with
  | a :: y', g :: grad', i :: is', p :: l', q :: u' =>
      ((0 <= i <= 1)%R /\ g <> 0%R /\ forall t, (0 <= t <= i)%R -> within p q (a - t * g)) /\ descends y' grad' is' l' u'
  | [], [], [], [], [] => True
  | _, _, _, _, _ => False
  end.
Lemma intercepts_ok : forall y grad l u, length grad = length y -> in_box l u y -> all3 hits_bound l u grad ->
  exists is, boundary_intercepts (N:=XR) (fins y) l u (fins grad) = fins is /\ descends y grad is l u.
Proof.
  unfold boundary_intercepts, in_box. induction y as [|a y IH]; intros [|g grad] [|p l] [|q u] HL HB HH; cbn in *; try contradiction; try discriminate.
  - exists []. cbn. auto.
  - destruct HB as [HW HB], HH as [HH1 HH]. destruct (IH grad l u ltac:(congruence) HB HH) as (is & E & D).
    destruct (icpt_ok a g p q HW HH1) as (i & E1 & R1 & W). exists (i :: is). cbn. rewrite <- E, <- E1. split; [reflexivity|].
    repeat split; try apply R1; try apply W; auto. destruct HH1 as [[? _]|[? _]]; lra.
Qed.

(** gradient times displacement along the projected path *)
Lemma slope_neg : forall y grad is l u t, in_box l u y -> descends y grad is l u -> (0 < t)%R ->
  (Rdot grad (Rsub_v (boxp y grad t l u) y) <= 0)%R /\
  (In t is -> (Rdot grad (Rsub_v (boxp y grad t l u) y) < 0)%R).
Proof.
  unfold in_box. induction y as [|a y IH]; intros [|g grad] [|i is] [|p l] [|q u] t HB D Ht; cbn in *; try contradiction.
  - split; [lra|tauto].
  - destruct HB as [HW HB], D as [(Hi & Hg & Hwi) D]. destruct (IH grad is l u t HB D Ht) as [K1 K2].
    assert (P := within_proper _ _ _ HW).
    assert (S1 : (g * (clipb p q (a - t * g) - a) <= 0)%R).
    { rewrite <- (clipb_id p q a HW) at 2. destruct (Rle_dec 0 g).
      - pose proof (clipb_mono p q (a - t * g) a P ltac:(nra)). nra.
      - pose proof (clipb_mono p q a (a - t * g) P ltac:(nra)). nra. }
    split; [lra|]. intros [->|Hin].
    + rewrite clipb_id by (apply Hwi; lra). assert (0 < g * g)%R by nra. assert (0 < t * (g * g))%R by nra. nra.
    + specialize (K2 Hin). lra.
Qed.

(** a symmetric positive semidefinite matrix kills its null directions *)
Lemma psd_null : forall n M x, psd n M -> length x = n -> Rdot x (mvec M x) = 0%R -> mvec M x = zerov n.
Proof.
  intros n M x (HM & HS & HP) HL H0. set (z := mvec M x).
  assert (Lz : length z = n) by (unfold z; rewrite mvec_length; apply HM).
  set (a := Rdot z z). set (b := Rdot z (mvec M z)). assert (Hb : (0 <= b)%R) by (apply HP; exact Lz).
  assert (Ha : (0 <= a)%R) by apply Rdot_pos.
  assert (K : forall s, (0 <= - 2 * s * a + s * s * b)%R).
  { intro s. assert (L : length (Radd_v x (Rscal (- s) z)) = n) by (apply Radd_v_length; [exact HL|rewrite Rscal_length; exact Lz]).
    pose proof (HP _ L) as Q. rewrite (mvec_add M n n) in Q by (auto; rewrite Rscal_length; exact Lz). rewrite mvec_scal in Q.
    assert (LM : forall v, length (mvec M v) = n) by (intro v; rewrite mvec_length; apply HM).
    rewrite Rdot_add_l, !Rdot_add_r in Q by (rewrite ?Rscal_length, ?LM; auto; congruence).
    rewrite !Rdot_scal_l, !Rdot_scal_r, H0 in Q. rewrite <- (HS x z HL Lz) in Q. fold z in Q. fold a b in Q. nra. }
  assert (a = 0)%R.
  { destruct (Req_EM_T b 0) as [E|E]; [specialize (K 1%R); nra|].
    specialize (K (a / b)%R). replace (-2 * (a / b) * a + a / b * (a / b) * b)%R with (- (a * a) / b)%R in K by (field; exact E).
    assert ((- (a * a) / b * b = - (a * a))%R) by (field; exact E). nra. }
  unfold a in H. apply Rdot_0_inv in H. rewrite Lz in H. exact H.
Qed.

(** ** One pass of the search *)

Lemma nltb_Fin : forall a b, nltb (n:=XR) (Fin a) (Fin b) = Rltb a b. Proof. reflexivity. Qed.

Lemma candidates_Fin : forall is p,
  map (fun i => if nisfin (n:=XR) i then negb (nltb (n:=XR) (Fin p) i) else true) (fins is) = map (fun i => negb (Rltb p i)) is.
Proof. intros. rewrite map_map. reflexivity. Qed.
Lemma first_false_some : forall is p, (exists i, In i is /\ (p < i)%R) ->
  exists k, first_false (map (fun i => negb (Rltb p i)) is) = Some k /\ k < length is /\ (p < nth k is 0)%R.
Proof.
  induction is as [|j is IH]; intros p (i & Hin & Hp); [destruct Hin|]. cbn [map first_false].
  destruct (Rltb p j) eqn:E; rb; cbn [negb].
  - exists 0%nat. cbn. repeat split; [lia|exact E].
  - destruct Hin as [->|Hin]; [lra|]. destruct (IH p (ex_intro _ i (conj Hin Hp))) as (k & E' & L & Hk).
    rewrite E'. exists (S k). cbn. repeat split; [lia|exact Hk].
Qed.
Lemma next_ok : forall is p, (exists i, In i is /\ (p < i)%R) ->
  exists t, next_intercept (N:=XR) (fins is) (Fin p) = Fin t /\ In t is /\ (p < t)%R.
Proof.
  intros is p H. unfold next_intercept. rewrite candidates_Fin. destruct (first_false_some is p H) as (k & E & L & Hk).
  unfold argmin_bool. rewrite E. exists (nth k is 0%R). split; [|split; [apply nth_In; exact L|exact Hk]].
  rewrite (nth_indep _ _ (Fin 0)) by (rewrite map_length; exact L). apply map_nth.
Qed.

Lemma more_Fin : forall is t, existsb (fun i => nltb (n:=XR) (Fin t) i) (fins is) = true -> exists i, In i is /\ (t < i)%R.
Proof.
  intros is t H. apply existsb_exists in H. destruct H as (x & Hin & Hx). apply in_map_iff in Hin. destruct Hin as (i & <- & Hi).
  exists i. split; [exact Hi|]. cbn in Hx. rb. exact Hx.
Qed.

Lemma filter_len_le : forall (f : R -> bool) js, length (filter f js) <= length js.
Proof. induction js as [|j js IH]; cbn; [lia|]. destruct (f j); cbn; lia. Qed.

Section Search.
  Variables (y grad is : list R) (l u : list xr) (n : nat) (M : list (list R)).
  Hypothesis Hn : length y = n.
  Hypothesis Hg : length grad = n.
  Hypothesis HB : in_box l u y.
  Hypothesis HD : descends y grad is l u.
  Hypothesis HM : psd n M.
  Let H := MatOp (N:=XR) n (map fins M).

  Lemma body_ok : forall p pt, (0 <= p)%R -> length pt = n -> (exists i, In i is /\ (p < i)%R) ->
    exists t pt' b, cauchy_body (N:=XR) (fins y) l u (fins grad) H (fins is) (mkCauchy (N:=XR) (Fin p) (fins pt) false) =
        mkCauchy (N:=XR) (Fin t) (fins pt') b /\
      (p < t)%R /\ In t is /\ length pt' = n /\ in_box l u pt' /\ (b = false -> exists i, In i is /\ (t < i)%R).
  Proof.
    intros p pt Hp Hpt Hex. destruct (next_ok is p Hex) as (t & Et & Hin & Hlt).
    assert (LG : length grad = length y) by congruence.
    assert (HP := in_box_proper _ _ _ HB).
    assert (BP : forall s, box_point (N:=XR) (fins y) (fins grad) (Fin s) l u = fins (boxp y grad s l u)) by (intro; apply box_point_Fin; assumption).
    unfold cauchy_body. cbn [c_previous c_point]. rewrite Et, BP.
    rewrite vsub_Fin. set (d := Rsub_v (boxp y grad t l u) y).
    assert (Ld : length d = n). { unfold d. pose proof (boxp_length y grad t l u LG HP) as L. apply Rsub_v_length; congruence. }
    unfold H. rewrite !op_mv_Fin, !vdot_Fin. cbn [nadd XR xadd nneg xneg ndiv xdiv].
    change (nofQ (n:=XR) 0) with (Fin (Q2R 0)). rewrite Q2R_0.
    set (lin := (Rdot grad d + Rdot pt (mvec M d))%R). set (qd := Rdot d (mvec M d)).
    assert (Hq : (0 <= qd)%R) by (apply HM; exact Ld).
    assert (Ht : (0 < t)%R) by lra.
    destruct (slope_neg y grad is l u t HB HD Ht) as [_ SL]. specialize (SL Hin). fold d in SL.
    rewrite !nltb_Fin.
    assert (Fin_case : exists s, nwhere (nltb (n:=XR) (Fin t) (if Req_EM_T qd 0 then xsgn_inf (- lin) else Fin (- lin / qd)))
        (Fin t) (nwhere (Rltb 0 lin) (Fin p) (if Req_EM_T qd 0 then xsgn_inf (- lin) else Fin (- lin / qd))) = Fin s).
    { destruct (Req_EM_T qd 0) as [E|E].
      - assert (Z := psd_null n M d HM Ld E). assert (lin < 0)%R.
        { unfold lin. rewrite Z, Rdot_0_r. lra. }
        rewrite sgn_inf_pos by lra. cbn. eexists; reflexivity.
      - cbn. destruct (Rltb t _); cbn; [eexists; reflexivity|]. destruct (Rltb 0 lin); cbn; eexists; reflexivity. }
    destruct Fin_case as [s Es]. match goal with |- context [box_point _ _ ?z l u] => replace z with (Fin s) by (symmetry; exact Es) end. rewrite BP.
    exists t, (boxp y grad s l u). eexists. split; [reflexivity|]. split; [exact Hlt|]. split; [exact Hin|].
    split; [rewrite boxp_length; assumption|]. split; [apply boxp_in; assumption|].
    intro Hb. apply orb_false_iff in Hb. destruct Hb as [_ Hb]. apply negb_false_iff in Hb. apply more_Fin in Hb. exact Hb.
  Qed.

  Definition above_count (p : R) : nat := length (filter (fun i => Rltb p i) is).
  Lemma count_le : forall (js : list R) p t, (p <= t)%R -> length (filter (fun i => Rltb t i) js) <= length (filter (fun i => Rltb p i) js).
  Proof.
    clear. induction js as [|j js IH]; intros p t L; cbn; [lia|]. specialize (IH p t L).
    destruct (Rltb t j) eqn:E1, (Rltb p j) eqn:E2; rb; cbn; try lia. lra.
  Qed.
  Lemma count_lt : forall (js : list R) p t, (p < t)%R -> In t js -> length (filter (fun i => Rltb t i) js) < length (filter (fun i => Rltb p i) js).
  Proof.
    clear. induction js as [|j js IH]; intros p t L Hin; [destruct Hin|]. cbn. destruct Hin as [->|Hin].
    - assert (E1 : Rltb t t = false) by (rb; lra). assert (E2 : Rltb p t = true) by (rb; lra). rewrite E1, E2. cbn.
      pose proof (count_le js p t ltac:(lra)). lia.
    - specialize (IH p t L Hin). destruct (Rltb t j) eqn:E1, (Rltb p j) eqn:E2; rb; cbn; try lia. lra.
  Qed.

  Lemma loop_ok : forall fuel p pt, above_count p <= fuel -> (0 <= p)%R -> length pt = n -> (exists i, In i is /\ (p < i)%R) ->
    exists pt', cauchy_loop (N:=XR) (fins y) l u (fins grad) H (fins is) fuel (mkCauchy (N:=XR) (Fin p) (fins pt) false) = Ret (fins pt') /\
      in_box l u pt'.
  Proof.
    induction fuel as [|fuel IH]; intros p pt Hf Hp Hl Hex.
    - exfalso. destruct Hex as (i & Hin & Hi). pose proof (count_lt is p i Hi Hin). unfold above_count in Hf. lia.
    - cbn [cauchy_loop c_terminate].
      destruct (body_ok p pt Hp Hl Hex) as (t & pt' & b & E & Hlt & Hin & Hl' & Hbox & Hmore). rewrite E.
      destruct b.
      + exists pt'. split; [destruct fuel; reflexivity|exact Hbox].
      + apply IH; auto; [|lra]. pose proof (count_lt is p t Hlt Hin). unfold above_count in *. lia.
  Qed.
End Search.

(** Exact arithmetic; y in the box; every coordinate moves against the gradient
    and meets a finite bound; H symmetric positive semidefinite. Then cauchy_point
    finishes within n passes and its result is a point of finite numbers in the
    box. Missing from the full claim: gradients with a zero entry and infinite
    bounds, for which it is false (next two theorems). *)
Lemma C45_cauchy_partial_pf :
  forall (n : nat) (y grad : list R) (lower upper : list xr) (M : list (list R)) (fuel : nat),
    n <> 0 -> length y = n -> length grad = n -> in_box lower upper y -> all3 hits_bound lower upper grad ->
    psd n M -> n <= fuel ->
    exists pt, cauchy_point (N:=XR) (map Fin y) lower upper (map Fin grad) (MatOp (N:=XR) n (map (map Fin) M)) fuel = Ret (map Fin pt) /\
      in_box lower upper pt.
Proof.
  intros n y grad l u M fuel Hn Hy Hg HB HH HM Hf. unfold cauchy_point.
  destruct (intercepts_ok y grad l u ltac:(congruence) HB HH) as (is & E & D). rewrite E.
  change (nofQ (n:=XR) 0) with (Fin (Q2R 0)). change (nofQ (n:=XR) 1) with (Fin (Q2R 1)). rewrite Q2R_0, Q2R_1.
  match goal with |- context [if ?c then _ else _] => destruct c eqn:EX end.
  - apply existsb_exists in EX. destruct EX as (x & Hin & Hx). apply in_map_iff in Hin. destruct Hin as (i & <- & Hi).
    apply andb_true_iff in Hx. destruct Hx as [Hx _]. cbn in Hx. rb.
    unfold find_cauchy_point. change (nofQ (n:=XR) 0) with (Fin (Q2R 0)). rewrite Q2R_0.
    apply (loop_ok y grad is l u n M Hy Hg HB D HM); auto; try lra; [|exists i; auto].
    unfold above_count. assert (LI : length is = n).
    { rewrite <- Hy. clear - D. revert grad is l u D. induction y as [|a y IH]; intros [|g grad] [|i is] [|p l] [|q u] D; cbn in *; try contradiction; auto.
      f_equal. eapply IH. apply D. }
    pose proof (filter_len_le (fun i => Rltb 0 i) is). lia.
  - unfold just_move. rewrite vneg_Fin. change (nofQ (n:=XR) 0) with (Fin (Q2R 0)). rewrite Q2R_0.
    destruct (C44_whole_step_pf 0 y (Rscal (-1) grad) l u ltac:(lra) ltac:(rewrite Rscal_length; congruence)
      ltac:(intros ->; cbn in Hy; congruence) HB) as (t & Et & _ & Hbox & _).
    rewrite Et, vscale_Fin, vadd_Fin. eexists. split; [reflexivity|exact Hbox].
Qed.

(** y = (3/4, 1/4), box [0,1] x [0,inf), gradient (1, 2), H = identity: the
    hypotheses hold. *)
Example C45_cauchy_ex_pf :
  in_box [Fin 0; Fin 0] [Fin 1; PInf] [3 / 4; / 4]%R /\ all3 hits_bound [Fin 0; Fin 0] [Fin 1; PInf] [1; 2]%R /\
  psd 2 [[1; 0]; [0; 1]]%R.
Proof.
  split; [unfold in_box; cbn; repeat (split || exact I); cbn; lra|]. split.
  - cbn. split; [|split; [|exact I]]; left; (split; [lra|exists 0%R; reflexivity]).
  - split; [split; [reflexivity|repeat constructor]|]. split.
    + intros [|a [|b [|c x]]] [|p [|q [|r z]]] H1 H2; cbn in *; try discriminate. ring.
    + intros [|a [|b [|c x]]] H1; cbn in *; try discriminate. nra.
Qed.

(** ** The claim fails in binary64 when an entry of the gradient is zero *)

Definition id2 (c : f64) : linop F64 := MatOp 2 [[c; f64_ofZ 0]; [f64_ofZ 0; c]].
Definition box2 (y lower upper : list f64) : bool :=
  forallb (fun b => b) (vmap2 (nleb (n:=F64)) lower y) && forallb (fun b => b) (vmap2 (nleb (n:=F64)) y upper).

Lemma stuck_loop : forall (N : Num) (y l u g : list N) H is st,
  c_terminate st = false -> cauchy_body y l u g H is st = st ->
  forall fuel, cauchy_loop y l u g H is fuel st = Unfinished.
Proof. intros N y l u g H is st Ht Hb. induction fuel as [|k IH]; cbn [cauchy_loop]; rewrite Ht; [reflexivity|]. rewrite Hb. exact IH. Qed.

Lemma map_inj : forall (A B : Type) (f : A -> B), (forall a b, f a = f b -> a = b) -> forall l1 l2, map f l1 = map f l2 -> l1 = l2.
Proof.
  intros A B f Hf. induction l1 as [|a l1 IH]; intros [|b l2] H; cbn in H; try discriminate; auto.
  injection H as H1 H2. f_equal; auto.
Qed.
Lemma cauchy_state_inj : forall a b : cauchy_state F64,
  B2SF (c_previous a) = B2SF (c_previous b) -> map (@B2SF _ _) (c_point a) = map (@B2SF _ _) (c_point b) ->
  c_terminate a = c_terminate b -> a = b.
Proof.
  intros [p1 q1 t1] [p2 q2 t2] H1 H2 H3. cbn in *. apply B2SF_inj in H1. apply (map_inj _ _ _ (B2SF_inj _ _)) in H2. subst. reflexivity.
Qed.
Definition stuck_y : list f64 := [f64_ofQ (1#2); f64_ofQ (1#2)].
Definition stuck_l : list f64 := [f64_ofZ 0; f64_ofZ 0].
Definition stuck_u : list f64 := [f64_ofZ 1; f64_ofZ 1].
Definition stuck_g : list f64 := [f64_ofZ 1; f64_ofZ 0].
Definition stuck_H : linop F64 := id2 (f64_ofQ (1#8)).
(** In the unit square from (1/2, 1/2) with gradient (1, 0) and Hessian I/8 the
    search never ends: the second coordinate's intercept is inf, which always
    counts as "more to try". *)
Lemma C45_termination_refuted_pf :
  exists (y lower upper grad : list f64) (H : linop F64),
    box2 y lower upper = true /\
    forall fuel, cauchy_point (N:=F64) y lower upper grad H fuel = Unfinished.
Proof.
  exists stuck_y, stuck_l, stuck_u, stuck_g, stuck_H. split; [vm_compute; reflexivity|].
  intro fuel. unfold cauchy_point.
  match goal with |- context [if ?c then _ else _] => assert (E : c = true) by (vm_compute; reflexivity); rewrite E end.
  set (is := boundary_intercepts (N:=F64) stuck_y stuck_l stuck_u stuck_g). unfold find_cauchy_point.
  set (st0 := mkCauchy (N:=F64) _ _ _).
  set (st1 := cauchy_body (N:=F64) stuck_y stuck_l stuck_u stuck_g stuck_H is st0).
  assert (T0 : c_terminate st0 = false) by reflexivity.
  assert (T1 : c_terminate st1 = false) by (vm_compute; reflexivity).
  assert (B1 : cauchy_body (N:=F64) stuck_y stuck_l stuck_u stuck_g stuck_H is st1 = st1).
  { apply cauchy_state_inj; vm_compute; reflexivity. }
  destruct fuel as [|k]; cbn [cauchy_loop]; rewrite T0; [reflexivity|]. fold st1. apply stuck_loop; assumption.
Qed.

(** Same with gradient (0, 1): the second pass picks the infinite intercept and
    the point returned contains NaN. *)
Lemma C45_nan_refuted_pf :
  exists (y lower upper grad : list f64) (H : linop F64) pt,
    box2 y lower upper = true /\
    cauchy_point (N:=F64) y lower upper grad H 10 = Ret pt /\ existsb (nisnan (N:=F64)) pt = true.
Proof.
  exists stuck_y, stuck_l, stuck_u, [f64_ofZ 0; f64_ofZ 1], stuck_H. eexists.
  split; [vm_compute; reflexivity|]. split; [vm_compute; reflexivity|]. vm_compute. reflexivity.
Qed.

(** Whatever the number system, gradient and Hessian: an entry of the point
    returned by the search that is not NaN lies between its bounds, provided the
    bounds are ordered. *)
Lemma C45_clipped_partial_pf :
  forall (N : Num) (L : OrdLaws N) (y lower upper grad : list N) (H : linop N) (is : list N) (fuel : nat) pt (i : nat) d,
    (forall j, j < length pt -> nleb (nth j lower d) (nth j upper d) = true) ->
    find_cauchy_point y lower upper grad H is fuel = Ret pt ->
    i < length pt -> nisnan (nth i pt d) = false ->
    nleb (nth i lower d) (nth i pt d) = true /\ nleb (nth i pt d) (nth i upper d) = true.
Proof.
  intros N L y l u g H is fuel pt i d Hlu E Hi Hnan.
  assert (K : exists t, pt = box_point y g t l u).
  { unfold find_cauchy_point in E.
    assert (G : forall fuel st, (c_terminate st = true -> exists t, c_point st = box_point y g t l u) ->
      cauchy_loop y l u g H is fuel st = Ret pt -> exists t, pt = box_point y g t l u).
    { clear. induction fuel as [|k IH]; intros st Hst E; cbn [cauchy_loop] in E; destruct (c_terminate st) eqn:T0; try discriminate.
      - injection E as <-. auto.
      - injection E as <-. auto.
      - refine (IH (cauchy_body y l u g H is st) _ E). intros _. eexists. reflexivity. }
    refine (G fuel _ _ E). discriminate. }
  destruct K as [t ->]. unfold box_point, vclip in *.
  remember (vsub y (vscale t g)) as v. clear Heqv E.
  revert v l u Hlu Hi Hnan. induction i as [|i IH]; intros [|a v] [|p l] [|q u] Hlu Hi Hnan; cbn in *; try lia.
  - specialize (Hlu 0 ltac:(lia)). cbn in Hlu.
    destruct (neqb a a) eqn:Ea; [apply clip_in; assumption|]. exfalso.
    unfold nclip, nmax, nmin, nisnan in Hnan. rewrite Ea in Hnan. cbn in Hnan. rewrite Ea in Hnan. cbn in Hnan. rewrite Ea in Hnan. discriminate.
  - apply IH; auto; [|lia]. intros j Hj. apply (Hlu (S j)). lia.
Qed.
Example C45_clipped_ex_pf :
  OrdLaws F64 /\
  exists pt, cauchy_point (N:=F64) stuck_y stuck_l stuck_u [f64_ofZ 1; f64_ofZ 2] stuck_H 10 = Ret pt /\
    (box2 pt stuck_l stuck_u && negb (existsb (nisnan (N:=F64)) pt)) = true.
Proof. split; [apply F64_laws|]. apply check_out. vm_compute. reflexivity. Qed.

(** ** Rounding: the feasible step of 25 from 0 towards the bound 7 ends above 7 *)
Lemma C55_rounding_refuted_pf :
  exists (x dx lower upper : f64),
    nleb (n:=F64) lower x = true /\ nleb (n:=F64) x upper = true /\
    let t := max_step (N:=F64) (f64_ofZ 0) x dx lower upper in
    nltb (n:=F64) upper (nadd (n:=F64) x (nmul (n:=F64) t dx)) = true.
Proof. exists (f64_ofZ 0), (f64_ofZ 25), (f64_ofZ 0), (f64_ofZ 7). vm_compute. repeat split; reflexivity. Qed.

(** ** The point returned need not minimise the model along the projected path *)

(** One dimension, y = 1/2 in [0,1], gradient 1, Hessian 8: the search returns 0,
    where the quadratic model is larger than at y, although the point 3/8 of the
    path lowers it. *)
Lemma C56_not_minimiser_refuted_pf :
  exists (y lower upper grad h pt t : R),
    (lower < y < upper)%R /\ (0 < h)%R /\
    (forall fuel, 1 <= fuel ->
       cauchy_point (N:=XR) [Fin y] [Fin lower] [Fin upper] [Fin grad] (MatOp (N:=XR) 1 [[Fin h]]) fuel = Ret [Fin pt]) /\
    (model_change [grad] [[h]] [0] < model_change [grad] [[h]] [pt - y])%R /\
    (0 <= t)%R /\
    (model_change [grad] [[h]] [project lower upper (y - t * grad) - y] < model_change [grad] [[h]] [0])%R.
Proof.
  exists (/ 2)%R, 0%R, 1%R, 1%R, 8%R, 0%R, (/ 8)%R. split; [lra|]. split; [lra|]. split; [|split; [|split]].
  - intros [|k] Hk; [lia|]. unfold cauchy_point.
    assert (EI : boundary_intercepts (N:=XR) [Fin (/ 2)] [Fin 0] [Fin 1] [Fin 1] = [Fin (/ 2)]).
    { unfold boundary_intercepts. cbn [vmap3 vmap2]. rewrite !leaf_fin by lra.
      destruct (Rle_dec 0 ((/ 2 - 0) / 1)); [|exfalso; lra]. destruct (Rle_dec 0 ((/ 2 - 1) / 1)); [exfalso; lra|].
      rewrite nmin_PInf_r. rewrite Rmin_left by lra. f_equal. f_equal. field. }
    rewrite EI. change (nofQ (n:=XR) 0) with (Fin (Q2R 0)). change (nofQ (n:=XR) 1) with (Fin (Q2R 1)). rewrite Q2R_0, Q2R_1.
    assert (EX : existsb (fun i => nltb (n:=XR) (Fin 0) i && nltb (n:=XR) i (Fin 1)) [Fin (/ 2)] = true).
    { cbn. apply orb_true_iff. left. apply andb_true_iff. split; rb; lra. }
    rewrite EX. unfold find_cauchy_point. change (nofQ (n:=XR) 0) with (Fin (Q2R 0)). rewrite Q2R_0. cbn [cauchy_loop c_terminate].
    assert (EN : next_intercept (N:=XR) [Fin (/ 2)] (Fin 0) = Fin (/ 2)).
    { destruct (next_ok [/ 2]%R 0) as (t & Et & [<-|[]] & _); [|exact Et]. exists (/ 2)%R. cbn. split; [auto|lra]. }
    assert (EB : cauchy_body (N:=XR) [Fin (/ 2)] [Fin 0] [Fin 1] [Fin 1] (MatOp (N:=XR) 1 [[Fin 8]]) [Fin (/ 2)]
      (mkCauchy (N:=XR) (Fin 0) [Fin (/ 2)] false) = mkCauchy (N:=XR) (Fin (/ 2)) [Fin 0] true).
    { unfold cauchy_body. cbn [c_previous c_point]. rewrite EN.
      assert (BP : box_point (N:=XR) [Fin (/ 2)] [Fin 1] (Fin (/ 2)) [Fin 0] [Fin 1] = [Fin 0]).
      { unfold box_point, vclip. cbn [vsub vscale map vmap2 vmap3 nmul nsub XR xmul xsub xadd xneg].
        rewrite nclip_Fin by (cbn; lra). unfold clipb. rewrite Rmax_right by lra. rewrite Rmin_left by lra. reflexivity. }
      rewrite BP.
      change [Fin 0] with (fins [0%R]). change [Fin (/ 2)] with (fins [/ 2]%R). change [Fin 1] with (fins [1]%R).
      change [[Fin 8]] with (map fins [[8]]%R). rewrite vsub_Fin, !op_mv_Fin, !vdot_Fin. cbn [nadd XR xadd nneg xneg ndiv xdiv Rsub_v mvec map Rdot].
      change (nofQ (n:=XR) 0) with (Fin (Q2R 0)). rewrite Q2R_0.
      match goal with |- context [Req_EM_T ?a 0] => destruct (Req_EM_T a 0) as [Z|Z]; [exfalso; lra|] end.
      rewrite !nltb_Fin.
      match goal with |- context [Rltb (/ 2) ?a] => assert (E1 : Rltb (/ 2) a = true) by (rb; lra); rewrite E1 end.
      match goal with |- context [Rltb 0 ?a] => assert (E2 : Rltb 0 a = false) by (rb; lra); rewrite E2 end.
      cbn [nwhere]. cbn [map] in BP |- *. rewrite BP. cbn [existsb].
      rewrite nltb_Fin. assert (E3 : Rltb (/ 2) (/ 2) = false) by (rb; lra). rewrite E3. reflexivity. }
    rewrite EB. destruct k; reflexivity.
  - unfold model_change. cbn. lra.
  - lra.
  - unfold model_change, project. rewrite Rmin_left by lra. rewrite Rmax_right by lra. cbn. lra.
Qed.
