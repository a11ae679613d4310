(** Coordinates in which a positive definite form is the dot product, and how a BFGS
    update changes trace and determinant in such coordinates. *)

From Coq Require Import List Arith Lia Reals Lra Psatz.
From Verif Require Import Num Vec Spec_Vec VecFacts Spec_Lin LinFacts QuasiNewton BFGS_proofs LogDet.
Import ListNotations.
Local Open Scope R_scope.

(** c maps R^n onto itself linearly, d is a right inverse, and q(c x, c z) = x.z *)
Definition frame (n : nat) (q : form) (c d : list R -> list R) : Prop :=
  (forall x, length x = n -> length (c x) = n /\ length (d x) = n /\ c (d x) = x) /\
  (forall a x z, length x = n -> length z = n -> c (Radd_v (Rscal a x) z) = Radd_v (Rscal a (c x)) (c z)) /\
  (forall x z, length x = n -> length z = n -> q (c x) (c z) = Rdot x z).

Lemma cons_e1 : forall k a x, length x = k -> Radd_v (Rscal a (e1 k)) (0 :: x) = a :: x.
Proof. intros. symmetry. apply split_e1. assumption. Qed.

Lemma Radd_ext : forall a a' b b' : list R, a = a' -> b = b' -> Radd_v a b = Radd_v a' b'.
Proof. intros. subst. reflexivity. Qed.

Lemma has_frame : forall n q, good n q -> exists c d, frame n q c d.
Proof.
  induction n as [|k IH]; intros q G.
  - exists (fun x => x), (fun x => x). split; [intros x Lx; auto|]. split; [reflexivity|].
    intros [|? ?] [|? ?] Lx Lz; try discriminate. cbn. apply (q_zero 0 q G []). reflexivity.
  - destruct (IH (schur k q) (schur_good k q G)) as (c & d & F1 & F2 & F3).
    pose proof (pivot_pos k q G) as P. set (p := q (e1 k) (e1 k)) in *.
    pose proof (sqrt_lt_R0 p P) as SP. assert (SS : sqrt p * sqrt p = p) by (apply sqrt_sqrt; lra). set (r := sqrt p) in *.
    exists (fun v => match v with [] => [] | a :: x => (a / r - q (e1 k) (0 :: c x) / p) :: c x end).
    exists (fun v => match v with [] => [] | b :: z => (r * (b + q (e1 k) (0 :: z) / p)) :: d z end).
    assert (LC : forall x, length x = k -> length (0 :: c x) = S k) by (intros x Lx; cbn; rewrite (proj1 (F1 x Lx)); reflexivity).
    split; [|split].
    + intros [|a x] Lx; [discriminate|]. injection Lx as Lx. destruct (F1 x Lx) as (A1 & A2 & A3). cbn [length].
      rewrite A1, A2. split; [reflexivity|]. split; [reflexivity|]. rewrite A3. f_equal. field. split; lra.
    + intros t [|a x] [|b z] Lx Lz; try discriminate. injection Lx as Lx. injection Lz as Lz.
      cbn [Radd_v Rscal map]. change (map (Rmult t) x) with (Rscal t x).
      rewrite (F2 t x z Lx Lz). change (map (Rmult t) (c x)) with (Rscal t (c x)).
      rewrite cons0_add, (lin_r (S k) q G) by (auto using e1_length). f_equal. unfold Rdiv. ring.
    + intros [|a x] [|b z] Lx Lz; try discriminate. injection Lx as Lx. injection Lz as Lz.
      rewrite <- (cons_e1 k _ (c x)) by (apply F1; exact Lx). rewrite <- (cons_e1 k _ (c z)) by (apply F1; exact Lz).
      pose proof (e1_length k) as LE. pose proof (LC x Lx) as L1. pose proof (LC z Lz) as L2.
      set (a' := a / r - q (e1 k) (0 :: c x) / p). set (b' := b / r - q (e1 k) (0 :: c z) / p).
      assert (L3 : length (Radd_v (Rscal b' (e1 k)) (0 :: c z)) = S k) by (apply Radd_v_length; [rewrite Rscal_length|]; assumption).
      rewrite (lin_l (S k) q G) by assumption. rewrite !(lin_r (S k) q G) by assumption.
      cbn [Rdot]. rewrite <- (F3 x z Lx Lz). unfold schur. fold p.
      rewrite (proj1 (proj2 G) (0 :: c x) (e1 k)) by assumption. unfold a', b'. fold p. clearbody r p. subst p. field. lra.
Qed.

(** every linear functional is a dot product *)
Fixpoint rep (n : nat) (l : list R -> R) : list R :=
  match n with O => [] | S k => l (e1 k) :: rep k (fun x => l (0 :: x)) end.
Lemma represented : forall n l, linear n l -> length (rep n l) = n /\ forall x, length x = n -> Rdot (rep n l) x = l x.
Proof.
  induction n as [|k IH]; intros l HL.
  - split; [reflexivity|]. intros [|? ?] Lx; [|discriminate]. cbn.
    pose proof (HL 1 [] [] eq_refl eq_refl) as H. cbn in H. lra.
  - destruct (IH (fun x => l (0 :: x))) as (Lv & E).
    { intros c x z Lx Lz. rewrite cons0_add. apply HL; cbn; congruence. }
    cbn [rep]. split; [cbn; congruence|]. intros [|a x] Lx; [discriminate|]. injection Lx as Lx.
    cbn [Rdot]. rewrite E by exact Lx. rewrite (split_e1 k a x Lx), HL by (cbn; try rewrite zerov_length; congruence). ring.
Qed.

Lemma dot_unique : forall n (v w : list R), length v = n -> length w = n -> (forall x, length x = n -> Rdot v x = Rdot w x) -> v = w.
Proof.
  induction n as [|k IH]; intros [|a v] [|b w] Lv Lw H; try discriminate; [reflexivity|].
  injection Lv as Lv. injection Lw as Lw. f_equal.
  - specialize (H (e1 k) (e1_length k)). cbn in H. rewrite !Rdot_0_r in H. lra.
  - apply IH; auto. intros x Lx. specialize (H (0 :: x) ltac:(cbn; congruence)). cbn in H. lra.
Qed.

Section InFrame.
  Variables (n : nat) (q : form) (c d : list R -> list R).
  Hypothesis F : frame n q c d.
  Definition along (p : form) : form := fun x z => p (c x) (c z).
  Lemma c_len : forall x, length x = n -> length (c x) = n. Proof. intros. apply F. assumption. Qed.
  Lemma d_len : forall x, length x = n -> length (d x) = n. Proof. intros. apply F. assumption. Qed.
  Lemma c_d : forall x, length x = n -> c (d x) = x. Proof. intros. apply F. assumption. Qed.
  Lemma c_zero : c (zerov n) = zerov n.
  Proof.
    destruct F as (F1 & F2 & F3). pose proof (zerov_length n) as LZ.
    pose proof (F2 (-1) (zerov n) (zerov n) LZ LZ) as E.
    assert (Z : Radd_v (Rscal (-1) (zerov n)) (zerov n) = zerov n).
    { rewrite Rscal_zerov. rewrite <- (zerov_length n) at 1. apply Radd_0_l. }
    rewrite Z in E. rewrite E. pose proof (proj1 (F1 _ LZ)) as L. revert L. generalize (c (zerov n)). clear. intros v Lv. subst n.
    induction v as [|a v IH]; [reflexivity|]. cbn. fold (zerov (length v)). unfold Rscal in IH. rewrite IH. f_equal. ring.
  Qed.
  Lemma c_inj : forall x, length x = n -> c x = zerov n -> x = zerov n.
  Proof.
    intros x Lx E. destruct F as (F1 & F2 & F3). rewrite <- Lx. apply Rdot_0_inv. rewrite <- (F3 x x Lx Lx), E.
    rewrite <- c_zero. rewrite F3 by apply zerov_length. apply Rdot_0_l.
  Qed.
  Lemma along_good : forall p, good n p -> good n (along p).
  Proof.
    intros p (G1 & G2 & G3). destruct F as (F1 & F2 & F3). unfold along. split; [|split].
    - intros w Lw a x z Lx Lz. cbv beta. rewrite F2 by assumption. apply (G1 (c w) (proj1 (F1 w Lw))); apply F1; assumption.
    - intros x z Lx Lz. apply G2; apply F1; assumption.
    - intros x Lx Hx. apply G3; [apply F1; exact Lx|]. intro E. apply Hx. apply c_inj; assumption.
  Qed.
  (** the adjoint of c *)
  Definition adj (u : list R) : list R := rep n (fun x => Rdot u (c x)).
  Definition is_adj (u v : list R) : Prop := length v = n /\ forall x, length x = n -> Rdot v x = Rdot u (c x).
  Lemma adj_is : forall u, length u = n -> is_adj u (adj u).
  Proof.
    intros u Lu. apply represented. intros a x z Lx Lz. destruct F as (F1 & F2 & F3). rewrite F2 by assumption.
    refine (Rdot_linear n u a (c x) (c z) _ _); apply F1; assumption.
  Qed.
  Lemma adj_scal : forall u v a, is_adj u v -> is_adj (Rscal a u) (Rscal a v).
  Proof. intros u v a (H1 & H2). split; [rewrite Rscal_length; exact H1|]. intros x Lx. rewrite !Rdot_scal_l, H2 by exact Lx. reflexivity. Qed.
  Lemma adj_add : forall u v u' v', length u = n -> length u' = n -> is_adj u v -> is_adj u' v' -> is_adj (Radd_v u u') (Radd_v v v').
  Proof.
    intros u v u' v' Lu Lu' (H1 & H2) (H3 & H4). split; [apply Radd_v_length; assumption|]. intros x Lx.
    rewrite !Rdot_add_l, H2, H4 by (congruence || exact Lx). reflexivity.
  Qed.
  Lemma adj_sub : forall u v u' v', length u = n -> length u' = n -> is_adj u v -> is_adj u' v' -> is_adj (Rsub_v u u') (Rsub_v v v').
  Proof.
    intros u v u' v' Lu Lu' (H1 & H2) (H3 & H4). split; [apply Rsub_v_length; assumption|]. intros x Lx.
    rewrite !Rdot_sub_l, H2, H4 by (congruence || exact Lx). reflexivity.
  Qed.
  Lemma adj_dot : forall u v s, length s = n -> is_adj u v -> Rdot u s = Rdot v (d s).
  Proof. intros u v s Ls (H1 & H2). rewrite H2 by (apply d_len; exact Ls). rewrite c_d by exact Ls. reflexivity. Qed.
  Lemma d_sq : forall s, length s = n -> Rdot (d s) (d s) = q s s.
  Proof. intros s Ls. destruct F as (F1 & F2 & F3). rewrite <- F3 by (apply F1; exact Ls). rewrite c_d by exact Ls. reflexivity. Qed.
  (** the adjoint of c takes q(s, .) to d s *)
  Lemma adj_form : forall u s, length s = n -> (forall z, length z = n -> Rdot u z = q s z) -> is_adj u (d s).
  Proof.
    intros u s Ls H. destruct F as (F1 & F2 & F3). split; [apply F1; exact Ls|]. intros x Lx.
    rewrite H by (apply F1; exact Lx). rewrite <- F3 by (first [apply F1; exact Ls|exact Lx]). rewrite c_d by exact Ls. reflexivity.
  Qed.
End InFrame.

Section Update.
  Variables (n : nat) (q : form) (c dd : list R -> list R).
  Hypothesis F : frame n q c dd.
  Variables (B H : list (list R)) (d s : list R).
  Hypothesis SB : spd n B.
  Hypothesis SH : spd n H.
  Hypothesis HI : inverses n H B.
  Hypothesis Ld : length d = n.
  Hypothesis Ls : length s = n.
  Hypothesis Hi : 0 < Rdot s d.
  Let i := Rdot s d.
  Let B' := bfgs_direct (N:=RN) i d s B.
  Let A := along c (mform B).
  Let A' := along c (mform B').
  Variables (dt wt : list R).
  Hypothesis Hdt : is_adj n c d dt.
  Hypothesis Hwt : is_adj n c (mvec B s) wt.

  Lemma frame_trace : trace n A' = trace n A + Rdot dt dt / i - Rdot wt wt / Rdot s (mvec B s).
  Proof.
    destruct Hdt as (L1 & E1). destruct Hwt as (L2 & E2).
    rewrite (trace_ext n A' (fun x z => (fun x z => A x z + / i * (Rdot dt x * Rdot dt z)) x z +
       (- / Rdot s (mvec B s)) * (Rdot wt x * Rdot wt z))).
    2:{ intros x Lx. unfold A, A', along, mform, B', i.
        pose proof (c_len n q c dd F x Lx).
        rewrite (D_form n B d s) by (first [assumption|apply SB]). rewrite E1, E2 by exact Lx. ring. }
    rewrite (trace_lin n _ (fun x z => A x z + / i * (Rdot dt x * Rdot dt z)) (fun x z => Rdot wt x * Rdot wt z)).
    rewrite (trace_lin n _ A (fun x z => Rdot dt x * Rdot dt z)).
    rewrite !trace_outer by assumption. unfold Rdiv. ring.
  Qed.

  Lemma frame_logdet : logdet n A' = logdet n A + ln i - ln (Rdot s (mvec B s)).
  Proof.
    destruct Hdt as (L1 & E1). destruct Hwt as (L2 & E2).
    pose proof (along_good n q c dd F _ (mform_good n B SB)) as GB. fold A in GB.
    assert (GB' : good n A').
    { apply (along_good n q c dd F), mform_good. unfold B', i. apply D_spd; auto; apply SB. }
    set (w := mvec B s) in *. assert (Lw : length w = n) by (eapply mvec_len; apply SB).
    assert (s_nz : s <> zerov n) by (intros ->; rewrite Rdot_0_l in Hi; lra).
    assert (C0 : 0 < Rdot s w) by (apply SB; assumption).
    set (hd := mvec H d). assert (Lh : length hd = n) by (eapply mvec_len; apply SH).
    assert (Bh : mvec B hd = d) by (apply HI; exact Ld).
    set (eta := Rdot d hd).
    assert (E0 : 0 < eta).
    { unfold eta. apply SH; [exact Ld|]. intros ->. rewrite Rdot_0_r in Hi. lra. }
    set (q1 := fun x z => A x z + / i * (Rdot dt x * Rdot dt z)).
    assert (I0 : 0 < / i) by (apply Rinv_0_lt_compat; exact Hi).
    assert (G1 : good n q1).
    { destruct GB as (b1 & b2 & b3). unfold q1. split; [|split].
      - intros u Lu a x z Lx Lz. cbv beta. rewrite (b1 u Lu a x z Lx Lz), (Rdot_linear n dt a x z Lx Lz). ring.
      - intros x z Lx Lz. rewrite (b2 x z Lx Lz). ring.
      - intros x Lx N. specialize (b3 x Lx N). assert (0 <= / i * (Rdot dt x * Rdot dt x)); [|lra].
        apply Rmult_le_pos; [lra|apply Rle_0_sqr]. }
    set (ht := dd hd). assert (Lht : length ht = n) by (apply (d_len n q c dd F); exact Lh).
    set (st := dd s). assert (Lst : length st = n) by (apply (d_len n q c dd F); exact Ls).
    assert (Eta : Rdot dt ht = eta) by (unfold eta, ht; symmetry; apply (adj_dot n q c dd F d dt hd Lh (conj L1 E1))).
    destruct (logdet_rank1 n A q1 (Rdot dt) (/ i) ht GB G1 (Rdot_linear n dt) Lht) as [P1 Q1].
    { intros; reflexivity. }
    { intros z Lz. unfold A, along, mform, ht. rewrite (c_d n q c dd F) by exact Lh. rewrite Bh, E1 by exact Lz. reflexivity. }
    set (x := Radd_v (Rscal (- (i / (i + eta))) ht) st).
    assert (Lx : length x = n) by (apply Radd_v_length; [rewrite Rscal_length|]; assumption).
    assert (Dst : Rdot dt st = i).
    { unfold st, i. rewrite <- (adj_dot n q c dd F d dt s Ls (conj L1 E1)). apply Rdot_comm. }
    assert (Wst : Rdot wt st = Rdot s w).
    { unfold st. rewrite <- (adj_dot n q c dd F w wt s Ls (conj L2 E2)). apply Rdot_comm. }
    assert (Wht : Rdot wt ht = i).
    { unfold ht. rewrite <- (adj_dot n q c dd F w wt hd Lh (conj L2 E2)). unfold w, i.
      rewrite (proj1 (proj2 SB)) by assumption. rewrite Bh. reflexivity. }
    destruct (logdet_rank1 n q1 A' (Rdot wt) (- / Rdot s w) x G1 GB' (Rdot_linear n wt) Lx) as [P2 Q2].
    { intros u z Lu Lz. unfold q1, A, A', along, mform, B', i.
      pose proof (c_len n q c dd F u Lu). pose proof (c_len n q c dd F z Lz).
      rewrite (D_form n B d s) by (first [assumption|apply SB]). fold w. rewrite !E1, !E2 by assumption. ring. }
    { intros z Lz. unfold q1. unfold x at 1.
      rewrite (lin_l n _ GB) by assumption. unfold x. rewrite (Rdot_linear n dt) by assumption. rewrite Dst, Eta.
      assert (K1 : A ht z = Rdot dt z).
      { unfold A, along, mform, ht. rewrite (c_d n q c dd F) by exact Lh. rewrite Bh, E1 by exact Lz. reflexivity. }
      assert (K2 : A st z = Rdot wt z).
      { unfold A, along, mform, st. rewrite (c_d n q c dd F) by exact Ls. fold w. rewrite E2 by exact Lz. reflexivity. }
      rewrite K1, K2. field. split; unfold i in *; lra. }
    assert (WX : Rdot wt x = Rdot s w - i * i / (i + eta)).
    { unfold x. rewrite (Rdot_linear n wt) by assumption. rewrite Wht, Wst. field. unfold i in *; lra. }
    rewrite Eta in Q1, P1. rewrite Q2, Q1, WX.
    replace (1 + / i * eta) with ((i + eta) * / i) by (field; unfold i in *; lra).
    replace (1 + - / Rdot s w * (Rdot s w - i * i / (i + eta))) with (i * i * / (Rdot s w * (i + eta))) by (field; unfold i in *; lra).
    assert (0 < i) by exact Hi. assert (0 < i + eta) by lra.
    rewrite !ln_mult, !ln_Rinv, !ln_mult; try assumption; try (apply Rinv_0_lt_compat); try (apply Rmult_lt_0_compat); try assumption.
    ring.
  Qed.
End Update.
