(** Facts about L-BFGS: the recursions over pairs, the circular buffer, the
    two-loop recursion and the compact representation. *)

From Coq Require Import String List Bool Arith Lia ZArith QArith Qreals Reals Lra Psatz Permutation.
From Verif Require Import Num NumFacts Vec Results Iterate Spec_Vec VecFacts Spec_Lin LinFacts.
From Verif Require Import Search Spec_Search QuasiNewton LinAlg LinAlgFacts BFGS_proofs TrustRegion_proofs LBFGS Spec_LBFGS.
Import ListNotations.
Local Open Scope nat_scope.

(** ** Matrices of the recursions *)
Definition curved (n : nat) (p : list R * list R) : Prop :=
  length (fst p) = n /\ length (snd p) = n /\ (0 < Rdot (snd p) (fst p))%R.

Definition scaled_id (n : nat) (g : R) := map (Rscal g) (identity_mat (N:=RN) n).
Lemma scaled_id_mat : forall n g, mat n n (scaled_id n g).
Proof. intros n g. apply mapscal_mat. apply identity_spd. Qed.
Lemma scaled_id_mv : forall n g x, length x = n -> mvec (scaled_id n g) x = Rscal g x.
Proof. intros n g x Hx. unfold scaled_id. rewrite mapscal_mv, identity_mv by exact Hx. reflexivity. Qed.
Lemma scaled_id_spd : forall n g, (0 < g)%R -> spd n (scaled_id n g).
Proof.
  intros n g Hg. split; [apply scaled_id_mat|]. split.
  - intros x y Hx Hy. rewrite !scaled_id_mv by assumption. rewrite Rdot_scal_l, Rdot_scal_r. reflexivity.
  - intros x Hx Hnz. rewrite scaled_id_mv by assumption. rewrite Rdot_scal_r.
    destruct (identity_spd n) as (_ & _ & HP). specialize (HP x Hx Hnz). rewrite identity_mv in HP by exact Hx.
    apply Rmult_lt_0_compat; assumption.
Qed.
Lemma Rscal_Rscal : forall a b (x : list R), Rscal a (Rscal b x) = Rscal (a * b) x.
Proof. intros a b x. unfold Rscal. rewrite map_map. apply map_ext. intro. ring. Qed.
Lemma Rscal_1 : forall x : list R, Rscal 1 x = x.
Proof. intro x. unfold Rscal. erewrite map_ext; [apply map_id|]. intro. cbn. ring. Qed.

Lemma pairs_matrices : forall n g pairs, (0 < g)%R -> Forall (curved n) pairs ->
  exists H B, spd n H /\ spd n B /\ inverses n H B /\
    (forall x, length x = n -> inverse_of_pairs g pairs x = mvec H x) /\
    (forall x, length x = n -> hessian_of_pairs (/ g) pairs x = mvec B x) /\
    match pairs with [] => True | (s, d) :: _ => mvec H d = s /\ mvec B s = d end.
Proof.
  intros n g pairs Hg HF. induction HF as [|[s d] pairs (Ls & Ld & Hi) HF IH].
  - exists (scaled_id n g), (scaled_id n (/ g)).
    split; [apply scaled_id_spd; exact Hg|]. split; [apply scaled_id_spd; apply Rinv_0_lt_compat; exact Hg|].
    split; [|split; [|split; [|exact I]]].
    + intros x Hx. rewrite !scaled_id_mv by (rewrite ?scaled_id_mv, ?Rscal_length; assumption).
      rewrite !Rscal_Rscal, Rinv_l, Rinv_r, Rscal_1 by lra. auto.
    + intros x Hx. cbn. rewrite scaled_id_mv by exact Hx. reflexivity.
    + intros x Hx. cbn. rewrite scaled_id_mv by exact Hx. reflexivity.
  - cbn [fst snd] in Ls, Ld, Hi. destruct IH as (H & B & SH & SB & HI & EH & EB & _).
    destruct SH as (H1 & H2 & H3). destruct SB as (B1 & B2 & B3).
    assert (Hi' : (0 < Rdot s d)%R) by (rewrite Rdot_comm; exact Hi).
    exists (bfgs_inverse (N:=RN) (Rdot d s) d s H), (bfgs_direct (N:=RN) (Rdot d s) d s B).
    split; [apply P_spd; auto|].
    split; [rewrite (Rdot_comm d s); apply D_spd; auto|].
    split; [apply rank2_inverse; auto; split; auto|].
    assert (LH : forall x, length (mvec H x) = n) by (intro x; eapply mvec_len; eauto).
    assert (LB : forall x, length (mvec B x) = n) by (intro x; eapply mvec_len; eauto).
    split; [|split].
    + intros x Hx. cbn [inverse_of_pairs].
      assert (Lq : length (Rsub_v x (Rscal (/ Rdot d s * Rdot s x) d)) = n) by (apply Rsub_v_length; [exact Hx|rewrite Rscal_length; exact Ld]).
      rewrite EH by exact Lq.
      rewrite (mvec_sub H n n) by (rewrite ?Rscal_length; assumption). rewrite mvec_scal.
      apply (Rdot_ext n).
      { repeat first [apply Radd_v_length|apply Rsub_v_length|rewrite Rscal_length; assumption|rewrite Rscal_length|apply LH]; auto. }
      { eapply mvec_len. apply P_mat; assumption. }
      intros z Hz.
      assert (L1 : length (Rsub_v (mvec H x) (Rscal (/ Rdot d s * Rdot s x) (mvec H d))) = n).
      { apply Rsub_v_length; [apply LH|rewrite Rscal_length; apply LH]. }
      rewrite Rdot_add_l. 2:{ rewrite Rscal_length, Ls. apply Rsub_v_length; [exact L1|rewrite Rscal_length; exact Ls]. }
      rewrite Rdot_sub_l by (rewrite Rscal_length, Ls; exact L1).
      rewrite (Rdot_sub_l (mvec H x)) by (rewrite Rscal_length, !LH; reflexivity).
      rewrite !Rdot_scal_l.
      rewrite (Rdot_sub_r d) by (rewrite Rscal_length, !LH; reflexivity). rewrite Rdot_scal_r.
      rewrite (P_form n) by assumption. rewrite <- (H2 d x) by assumption. field. lra.
    + intros x Hx. cbn [hessian_of_pairs]. rewrite !EB by assumption.
      pose proof (vMv n B d s Ls B3 Hi') as Q.
      apply (Rdot_ext n).
      { repeat first [apply Radd_v_length|apply Rsub_v_length|rewrite Rscal_length; assumption|rewrite Rscal_length|apply LB]; auto. }
      { eapply mvec_len. rewrite (Rdot_comm d s). apply D_mat; assumption. }
      intros z Hz.
      rewrite Rdot_add_l. 2:{ rewrite Rscal_length, Ld. apply Rsub_v_length; [apply LB|rewrite Rscal_length; apply LB]. }
      rewrite Rdot_sub_l by (rewrite Rscal_length, !LB; reflexivity). rewrite !Rdot_scal_l.
      rewrite (Rdot_comm d s). rewrite (D_form n B d s) by assumption.
      rewrite <- (B2 s x) by assumption. field. split; lra.
    + split; [apply (P_secant n); auto|rewrite (Rdot_comm d s); apply (D_secant n); auto].
Qed.

Lemma nth_set_same : forall A (x : list A) i v d, i < length x -> nth i (set_at i v x) d = v.
Proof. induction x as [|a x IH]; intros [|i] v d H; cbn in *; try lia; auto. apply IH. lia. Qed.
Lemma nth_set_other : forall A (x : list A) i j v d, i <> j -> nth j (set_at i v x) d = nth j x d.
Proof. induction x as [|a x IH]; intros [|i] [|j] v d H; cbn; auto; try lia. Qed.
Lemma set_at_length : forall A (x : list A) i v, length (set_at i v x) = length x.
Proof. induction x as [|a x IH]; intros [|i] v; cbn; auto. Qed.
Lemma set_at_Forall : forall A (Q : A -> Prop) (x : list A) i v, Forall Q x -> Q v -> Forall Q (set_at i v x).
Proof. intros A Q x i v HF Hv. revert i. induction HF as [|a x Ha HF IH]; intros [|i]; cbn; constructor; auto. Qed.

Lemma map_nth_pad : forall A (l : list A) d k, map (fun t => nth t l d) (seq 0 k) = firstn k l ++ repeat d (k - length l).
Proof.
  intros A l d k. revert l. induction k as [|k IH]; intro l; [reflexivity|].
  cbn [seq map]. rewrite <- seq_shift, map_map. destruct l as [|a l]; cbn [nth firstn length app].
  - rewrite Nat.sub_0_r. cbn [repeat app]. f_equal. specialize (IH []). cbn [length] in IH. rewrite firstn_nil, Nat.sub_0_r in IH. cbn in IH.
    rewrite <- IH. apply map_ext. intro t. destruct t; reflexivity.
  - cbn [Nat.sub]. f_equal. apply IH.
Qed.
Lemma rev_seq_map : forall A (f : nat -> A) k, rev (map f (seq 0 k)) = map (fun j => f (k - 1 - j)) (seq 0 k).
Proof.
  intros A f k. apply (nth_ext _ _ (f 0) (f 0)); [rewrite rev_length, !map_length; reflexivity|].
  intros i Hi. rewrite rev_length, map_length, seq_length in Hi.
  rewrite rev_nth by (rewrite map_length, seq_length; exact Hi). rewrite map_length, seq_length.
  rewrite map_nth, seq_nth by lia. rewrite (nth_indep _ (f 0) (f (k - 1 - 0))) by (rewrite map_length, seq_length; exact Hi).
  rewrite (map_nth (fun j => f (k - 1 - j))), seq_nth by exact Hi. f_equal. lia.
Qed.
Lemma map_seq_ext : forall A (f g : nat -> A) k, (forall t, t < k -> f t = g t) -> map f (seq 0 k) = map g (seq 0 k).
Proof. intros A f g k H. apply map_ext_in. intros t Ht. apply in_seq in Ht. apply H. lia. Qed.

(** ** Slots of the circular buffer *)
Section Slots.
  Variable m : nat.
  Hypothesis Hm : 0 < m.

  Lemma slot_lt : forall i, slot m i < m.
  Proof. intro i. unfold slot. pose proof (Z.mod_pos_bound i (Z.of_nat m)). lia. Qed.
  Lemma slot_eq : forall i j q, (i = j + q * Z.of_nat m)%Z -> slot m i = slot m j.
  Proof. intros i j q ->. unfold slot. rewrite Z_mod_plus_full. reflexivity. Qed.
  Lemma slot_inj : forall i j, slot m i = slot m j -> (Z.abs (i - j) < Z.of_nat m)%Z -> i = j.
  Proof.
    intros i j E A. unfold slot in E.
    pose proof (Z.mod_pos_bound i (Z.of_nat m)). pose proof (Z.mod_pos_bound j (Z.of_nat m)).
    assert (E' : (i mod Z.of_nat m = j mod Z.of_nat m)%Z) by lia.
    pose proof (Z_div_mod_eq_full i (Z.of_nat m)). pose proof (Z_div_mod_eq_full j (Z.of_nat m)).
    assert (Q : (i - j = Z.of_nat m * (i / Z.of_nat m - j / Z.of_nat m))%Z) by lia.
    assert ((i / Z.of_nat m - j / Z.of_nat m)%Z = 0%Z) by nia. lia.
  Qed.

  (** position of the entry of age t (0 the newest) after k updates *)
  Definition pos (k t : nat) : nat := slot m (Z.of_nat k - 1 - Z.of_nat t)%Z.
  Lemma pos_lt : forall k t, pos k t < m.
  Proof. intros. apply slot_lt. Qed.
  Lemma pos_inj : forall k t u, t < m -> u < m -> pos k t = pos k u -> t = u.
  Proof. intros k t u Ht Hu E. apply slot_inj in E; lia. Qed.
  Lemma pos_S_0 : forall k, pos (S k) 0 = slot m (Z.of_nat k).
  Proof. intro k. unfold pos. f_equal. lia. Qed.
  Lemma pos_S_S : forall k t, pos (S k) (S t) = pos k t.
  Proof. intros k t. unfold pos. f_equal. lia. Qed.
  Lemma pos_not_next : forall k t, S t < m -> pos k t <> slot m (Z.of_nat k).
  Proof. intros k t Ht E. unfold pos in E. apply slot_inj in E; lia. Qed.
  (** position j in circular order is age m-1-j *)
  Lemma circ_pos : forall k j, j < m -> slot m (Z.of_nat j + Z.of_nat k)%Z = pos k (m - 1 - j).
  Proof. intros k j Hj. unfold pos. apply (slot_eq _ _ 1). lia. Qed.
  Lemma pos_surj : forall k i, i < m -> exists t, t < m /\ pos k t = i.
  Proof.
    intros k i Hi. exists (m - 1 - slot m (Z.of_nat i - Z.of_nat k)%Z). pose proof (slot_lt (Z.of_nat i - Z.of_nat k)%Z).
    split; [lia|]. rewrite <- circ_pos by assumption. unfold slot at 2.
    pose proof (Z.mod_pos_bound (Z.of_nat i - Z.of_nat k) (Z.of_nat m)).
    rewrite Z2Nat.id by lia. unfold slot. rewrite Zplus_mod_idemp_l.
    replace (Z.of_nat i - Z.of_nat k + Z.of_nat k)%Z with (Z.of_nat i) by lia.
    rewrite Z.mod_small by lia. lia.
  Qed.

  (** The buffer holds the sequence [h] (newest first, padded). *)
  Definition buffer {A} (k : nat) (dflt : A) (h : nat -> A) (x : list A) : Prop :=
    length x = m /\ forall t, t < m -> nth (pos k t) x dflt = h t.
  Definition push {A} (v : A) (h : nat -> A) (t : nat) : A := match t with O => v | S t' => h t' end.
  Lemma buffer_set : forall A k (dflt : A) h x v, buffer k dflt h x ->
    buffer (S k) dflt (push v h) (set_at (slot m (Z.of_nat k)) v x).
  Proof.
    intros A k dflt h x v [L H]. split; [rewrite set_at_length; exact L|]. intros [|t] Ht; cbn [push].
    - rewrite pos_S_0. apply nth_set_same. rewrite L. apply slot_lt.
    - rewrite pos_S_S, nth_set_other by (apply not_eq_sym, pos_not_next; exact Ht). apply H. lia.
  Qed.
  Lemma push_nth : forall A (v : A) l d t, push v (fun t => nth t l d) t = nth t (v :: l) d.
  Proof. intros A v l d [|t]; reflexivity. Qed.
  Lemma buffer_ext : forall A k (dflt : A) h h' x, (forall t, t < m -> h t = h' t) -> buffer k dflt h x -> buffer k dflt h' x.
  Proof. intros A k dflt h h' x E [L H]. split; [exact L|]. intros t Ht. rewrite H by exact Ht. apply E. exact Ht. Qed.

  Lemma buffer_circular : forall A k (dflt pad : A) (l : list A) x, buffer k dflt (fun t => nth t l pad) x ->
    circular dflt (Z.of_nat k) x = repeat pad (m - length l) ++ rev (firstn m l).
  Proof.
    intros A k dflt pad l x [L H]. unfold circular. rewrite L.
    rewrite <- (rev_involutive (repeat pad (m - length l) ++ rev (firstn m l))).
    rewrite rev_app_distr, rev_involutive.
    assert (E : rev (repeat pad (m - length l)) = repeat pad (m - length l)).
    { clear. induction (m - length l) as [|q IH]; [reflexivity|]. cbn. rewrite IH. symmetry. apply repeat_cons. }
    rewrite E, <- map_nth_pad, rev_seq_map. apply map_seq_ext. intros j Hj.
    rewrite <- H by lia. f_equal. rewrite <- circ_pos by exact Hj. unfold slot. f_equal. f_equal. lia.
  Qed.
End Slots.

(** ** The two-loop recursion *)
(** over (step, gradient change, reciprocal) triples, newest first *)
Fixpoint trec (g : R) (ts : list (list R * list R * R)) (x : list R) : list R :=
  match ts with
  | [] => Rscal g x
  | (s, d, rho) :: rest =>
      let a := (rho * Rdot s x)%R in
      let r := trec g rest (Rsub_v x (Rscal a d)) in
      Radd_v r (Rscal (a - rho * Rdot d r) s)
  end.

Section TwoLoop.
  Variable st : inv_state RN.
  Definition trip (i : nat) : list R * list R * R :=
    (nth i (li_y_diff st) [], nth i (li_grad_diff st) [], nth i (li_inner st) 0%R).
  (** one forward step, given the coefficient and the slot *)
  Definition fwd (al : R) (i : nat) (x : list R) : list R :=
    let '(s, d, rho) := trip i in Radd_v x (Rscal (al - rho * Rdot d x) s).

  Lemma scan_reverse_snoc : forall C X Y (f : C -> X -> C * Y) xs x c,
    scan_reverse f c (xs ++ [x]) =
    let '(c1, y) := f c x in let '(c2, ys) := scan_reverse f c1 xs in (c2, ys ++ [y]).
  Proof.
    intros C X Y f xs x c. induction xs as [|x' xs IH].
    - cbn. destruct (f c x). reflexivity.
    - cbn [app scan_reverse]. rewrite IH. destruct (f c x) as [c1 y]. destruct (scan_reverse f c1 xs) as [c2 ys].
      destruct (f c2 x'). reflexivity.
  Qed.
  Lemma scan_reverse_length : forall C X Y (f : C -> X -> C * Y) xs c, length (snd (scan_reverse f c xs)) = length xs.
  Proof.
    intros C X Y f xs c. induction xs as [|x xs IH]; [reflexivity|]. cbn [scan_reverse].
    destruct (scan_reverse f c xs) as [c1 ys]. destruct (f c1 x). cbn in *. f_equal. exact IH.
  Qed.
  Lemma fold_left_ext_in : forall A B (f g : A -> B -> A) l a, (forall b x, In b l -> f x b = g x b) -> fold_left f l a = fold_left g l a.
  Proof.
    induction l as [|b l IH]; intros a H; [reflexivity|]. cbn. rewrite H by (left; auto). apply IH.
    intros b' x Hb. apply H. right; auto.
  Qed.

  Lemma backward_RN : forall x i, backward_iter (N:=RN) st x i =
    let '(s, d, rho) := trip i in (Rsub_v x (Rscal (rho * Rdot s x) d), (rho * Rdot s x)%R).
  Proof.
    intros x i. unfold backward_iter, trip. rewrite vdot_RN, vsub_RN, vscale_RN. cbn [nmul RN nofQ]. rewrite Q2R_0. reflexivity.
  Qed.

  Lemma two_loop : forall g xs x,
    (let '(q, al) := scan_reverse (backward_iter (N:=RN) st) x xs in
     fold_left (fun dd j => fwd (nth j al 0%R) (nth j xs 0) dd) (seq 0 (length xs)) (Rscal g q)) =
    trec g (rev (map trip xs)) x.
  Proof.
    intros g xs. induction xs as [|i xs IH] using rev_ind; intro x; [reflexivity|].
    rewrite scan_reverse_snoc, backward_RN.
    destruct (trip i) as [[s d] rho] eqn:Et.
    specialize (IH (Rsub_v x (Rscal (rho * Rdot s x) d))).
    pose proof (scan_reverse_length _ _ _ (backward_iter (N:=RN) st) xs (Rsub_v x (Rscal (rho * Rdot s x) d))) as Lal.
    destruct (scan_reverse (backward_iter (N:=RN) st) (Rsub_v x (Rscal (rho * Rdot s x) d)) xs) as [q al].
    cbn [snd] in Lal.
    rewrite app_length. cbn [length]. rewrite Nat.add_1_r, seq_S, fold_left_app. cbn [fold_left Nat.add].
    rewrite map_app, rev_app_distr. cbn [map rev app]. rewrite Et. cbn [trec]. rewrite <- IH.
    rewrite (fold_left_ext_in _ _ _ (fun dd j => fwd (nth j al 0%R) (nth j xs 0) dd)).
    - assert (N1 : nth (length xs) (al ++ [(rho * Rdot s x)%R] : list R) 0%R = (rho * Rdot s x)%R).
      { rewrite app_nth2 by (apply Nat.eq_le_incl; exact Lal).
        replace (length xs - length al) with 0 by (apply eq_sym; apply Nat.sub_0_le; apply Nat.eq_le_incl; symmetry; exact Lal).
        reflexivity. }
      assert (N2 : nth (length xs) (xs ++ [i]) 0 = i) by (rewrite app_nth2, Nat.sub_diag by lia; reflexivity).
      refine (eq_trans (f_equal2 (fun a b => fwd a b _) N1 N2) _). unfold fwd at 1. rewrite Et. reflexivity.
    - intros j y Hj. apply in_seq in Hj. f_equal; [|rewrite app_nth1 by lia; reflexivity].
      apply app_nth1. refine (Nat.lt_le_trans _ _ _ _ (Nat.eq_le_incl _ _ (eq_sym Lal))). lia.
  Qed.
End TwoLoop.

Lemma trec_length : forall g n ts x, Forall (fun t => length (fst (fst t)) = n /\ length (snd (fst t)) = n) ts ->
  length x = n -> length (trec g ts x) = n.
Proof.
  intros g n ts x HF. revert x. induction HF as [|[[s d] rho] ts [Hs Hd] HF IH]; intros x Hx; cbn in *.
  - rewrite Rscal_length. exact Hx.
  - apply Radd_v_length; [|rewrite Rscal_length; exact Hs]. apply IH. apply Rsub_v_length; [exact Hx|rewrite Rscal_length; exact Hd].
Qed.

Lemma Rscal_zerov : forall c n, Rscal c (zerov n) = zerov n.
Proof. intros c n. unfold zerov, Rscal. induction n as [|n IH]; cbn; [reflexivity|]. f_equal; [lra|exact IH]. Qed.

Lemma trec_neutral : forall g n j x, length x = n -> trec g (repeat (zerov n, zerov n, 0%R) j) x = Rscal g x.
Proof.
  intros g n j x Hx. induction j as [|j IH]; [reflexivity|]. cbn [repeat trec].
  rewrite !Rscal_zerov.
  assert (E : Rsub_v x (zerov n) = x) by (rewrite <- Hx; apply Rsub_v_0_r). rewrite E, IH.
  rewrite <- Hx at 1. rewrite <- (Rscal_length g x). apply Radd_v_0_r.
Qed.

Definition triple (p : list R * list R) : list R * list R * R := (fst p, snd p, / Rdot (fst p) (snd p))%R.
Lemma trec_pairs : forall g n j pairs x, Forall (curved n) pairs -> length x = n ->
  trec g (map triple pairs ++ repeat (zerov n, zerov n, 0%R) j) x = inverse_of_pairs g pairs x.
Proof.
  intros g n j pairs x HF. revert x. induction HF as [|[s d] pairs (Ls & Ld & Hi) HF IH]; intros x Hx.
  - apply trec_neutral. exact Hx.
  - cbn [map app triple fst snd trec inverse_of_pairs] in *. rewrite (Rdot_comm s d).
    assert (Lq : length (Rsub_v x (Rscal (/ Rdot d s * Rdot s x) d)) = n) by (apply Rsub_v_length; [exact Hx|rewrite Rscal_length; exact Ld]).
    assert (Lr : length (inverse_of_pairs g pairs (Rsub_v x (Rscal (/ Rdot d s * Rdot s x) d))) = n).
    { rewrite <- IH by exact Lq. apply trec_length; [|exact Lq]. apply Forall_app. split.
      - apply Forall_forall. intros t Ht. apply in_map_iff in Ht as (p & <- & Hp). rewrite Forall_forall in HF.
        destruct (HF p Hp) as (K1 & K2 & _). cbn. auto.
      - apply Forall_forall. intros t Ht. apply repeat_spec in Ht. subst t. cbn. rewrite zerov_length. auto. }
    rewrite IH by exact Lq. set (r := inverse_of_pairs g pairs _) in *. clearbody r.
    apply (Rdot_ext n).
    + apply Radd_v_length; [exact Lr|rewrite Rscal_length; exact Ls].
    + apply Radd_v_length; [apply Rsub_v_length; [exact Lr|]|]; rewrite Rscal_length; exact Ls.
    + intros z Hz. rewrite !Rdot_add_l, Rdot_sub_l, !Rdot_scal_l.
      * lra.
      * rewrite Rscal_length. congruence.
      * rewrite Rscal_length, Ls. apply Rsub_v_length; [exact Lr|rewrite Rscal_length; exact Ls].
      * rewrite Rscal_length. congruence.
Qed.

Lemma firstn_Forall : forall A (P : A -> Prop) l k, Forall P l -> Forall P (firstn k l).
Proof. intros A P l k HF. revert k. induction HF as [|a l Ha HF IH]; intros [|k]; cbn; constructor; auto. Qed.

(** ** The buffers of the inverse state *)
Section InvBuf.
  Variables (m n : nat).
  Hypothesis Hm : 0 < m.

  Definition sof (n : nat) (ps : list (list R * list R)) (t : nat) : list R := nth t (map fst ps) (zerov n).
  Definition dof (n : nat) (ps : list (list R * list R)) (t : nat) : list R := nth t (map snd ps) (zerov n).
  Definition rof (ps : list (list R * list R)) (t : nat) : R := nth t (map (fun p => / Rdot (fst p) (snd p))%R ps) 0%R.

  Definition inv_ok (ps : list (list R * list R)) (st : inv_state RN) : Prop :=
    li_index st = Z.of_nat (length ps) /\
    buffer m (length ps) [] (sof n ps) (li_y_diff st) /\
    buffer m (length ps) [] (dof n ps) (li_grad_diff st) /\
    buffer m (length ps) 0%R (rof ps) (li_inner st).

  Lemma buffer_repeat : forall A k (dflt v : A), buffer m k dflt (fun _ => v) (repeat v m).
  Proof.
    intros A k dflt v. split; [apply repeat_length|]. intros t Ht.
    apply (repeat_spec m v). apply nth_In. rewrite repeat_length. apply pos_lt. exact Hm.
  Qed.

  Lemma inv_init_ok : inv_ok [] (mkInv 0 (repeat (zerov n) m) (repeat (zerov n) m) (repeat 0%R m)).
  Proof.
    split; [reflexivity|]. cbn [li_y_diff li_grad_diff li_inner length].
    split; [|split]; (eapply buffer_ext; [|apply buffer_repeat]); intros [|t] Ht; reflexivity.
  Qed.

  Lemma inv_update_ok : forall eps ps st s d, inv_ok ps st -> (eps < Rdot s d)%R ->
    inv_ok ((s, d) :: ps) (inv_update (N:=RN) eps m (Rdot s d) d s st).
  Proof.
    intros eps ps st s d (E & B1 & B2 & B3) Hi. unfold inv_update. cbn [nltb RN].
    rewrite (proj2 (Rltb_true _ _) Hi). rewrite E. split; [cbn [length li_index]; lia|].
    cbn [length li_y_diff li_grad_diff li_inner].
    split; [|split]; (eapply buffer_ext; [|apply buffer_set; [exact Hm|eassumption]]).
    - intros [|t] Ht; reflexivity.
    - intros [|t] Ht; reflexivity.
    - intros [|t] Ht; [|reflexivity]. cbn. rewrite Q2R_1. unfold Rdiv. ring.
  Qed.

  Lemma inv_operator_ok : forall ps st x, inv_ok ps st -> Forall (curved n) ps -> length x = n ->
    inverse_operator (N:=RN) m st x = inverse_of_pairs (initial_scale (firstn m ps)) (firstn m ps) x.
  Proof.
    intros ps st x (E & B1 & B2 & B3) HF Hx.
    assert (Eg : inverse_gamma (N:=RN) m st = initial_scale (firstn m ps)).
    { unfold inverse_gamma. rewrite !vdot_RN, E.
      assert (P0 : slot m (Z.of_nat (length ps) - 1) = pos m (length ps) 0) by (unfold pos; f_equal; lia).
      rewrite P0. destruct B1 as [_ B1]. destruct B2 as [_ B2].
      change (@nth (list (T RN))) with (@nth (list R)).
      rewrite B1, B2 by exact Hm. unfold sof, dof. destruct m as [|m']; [lia|].
      destruct ps as [|[s d] ps]; cbn [map nth firstn initial_scale fst snd nltb RN nofQ ndiv nwhere].
      - rewrite Rdot_0_l, Q2R_0, Q2R_1. replace (Rltb 0 0) with false by (symmetry; apply Rltb_false; lra). reflexivity.
      - inversion HF as [|? ? (Ls & Ld & Hi) _]; subst. cbn [fst snd] in *.
        rewrite Q2R_0, Q2R_1.
        assert (Hd : (0 < Rdot d d)%R).
        { destruct (Rdot_pos d) as [H|H]; [exact H|]. symmetry in H. apply Rdot_0_inv in H. rewrite H, Rdot_0_l in Hi. lra. }
        rewrite (proj2 (Rltb_true _ _) Hd). reflexivity. }
    unfold inverse_operator. rewrite Eg.
    pose proof (two_loop st (initial_scale (firstn m ps)) (circ_index (N:=RN) m st) x) as TL.
    rewrite (surjective_pairing (scan_reverse _ _ _)) in TL |- *.
    set (al := snd (scan_reverse (backward_iter (N:=RN) st) x (circ_index (N:=RN) m st)) : list R) in *.
    set (q := fst (scan_reverse (backward_iter (N:=RN) st) x (circ_index (N:=RN) m st)) : list R) in *.
    assert (Lc : length (circ_index (N:=RN) m st) = m) by (unfold circ_index; rewrite map_length, seq_length; reflexivity).
    rewrite Lc in TL.
    refine (eq_trans _ (eq_trans TL _)).
    - rewrite vscale_RN. apply fold_left_ext_in. intros j y _. unfold forward_iter, fwd, trip.
      rewrite vadd_RN, vdot_RN. cbn [nsub nmul RN nofQ]. rewrite !Q2R_0. f_equal.
      unfold Rscal. apply map_ext. intro. apply Rmult_comm.
    - unfold circ_index. rewrite map_map, rev_seq_map. rewrite E.
      transitivity (trec (initial_scale (firstn m ps)) (map triple (firstn m ps) ++ repeat (zerov n, zerov n, 0%R) (m - length (firstn m ps))) x).
      + f_equal.
        transitivity (map (fun t => nth t (map triple ps) (zerov n, zerov n, 0%R)) (seq 0 m)).
        * apply map_seq_ext. intros j Hj. rewrite circ_pos by lia. replace (m - 1 - (m - 1 - j)) with j by lia.
          unfold trip. destruct B1 as [_ B1]. destruct B2 as [_ B2]. destruct B3 as [_ B3].
          change (@nth (list (T RN))) with (@nth (list R)). change (@nth (T RN)) with (@nth R).
          rewrite B1, B2, B3 by exact Hj. unfold sof, dof, rof.
          clear. revert j. induction ps as [|p ps IH]; intros [|j]; cbn; try reflexivity. apply IH.
        * rewrite map_nth_pad, firstn_map. f_equal. f_equal. rewrite map_length, firstn_length. lia.
      + apply trec_pairs; [|exact Hx]. apply firstn_Forall. exact HF.
  Qed.
End InvBuf.
