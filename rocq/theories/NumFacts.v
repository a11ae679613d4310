(** Facts about scalars: order laws shared by all instances, and computation
    rules for the extended reals. *)

From Coq Require Import Reals QArith Qreals Lra Bool List.
From Verif Require Import Num Vec.
Import ListNotations.

(** Laws of the comparison operators that hold in exact, extended-real and
    IEEE binary64 arithmetic alike (NaN included). *)
Record OrdLaws (N : Num) : Prop := mkOrdLaws {
  ol_irrefl : forall a : N, nltb a a = false;
  ol_trans : forall a b c : N, nltb a b = true -> nltb b c = true -> nltb a c = true;
  ol_le : forall a b : N, nleb a b = nltb a b || neqb a b;
  ol_lt_nan_l : forall a b : N, nltb a b = true -> neqb a a = true;
  ol_lt_nan_r : forall a b : N, nltb a b = true -> neqb b b = true;
  ol_eq_nan_l : forall a b : N, neqb a b = true -> neqb a a = true;
  ol_eq_sym : forall a b : N, neqb a b = true -> neqb b a = true;
  ol_eq_trans : forall a b c : N, neqb a b = true -> neqb b c = true -> neqb a c = true;
  ol_eq_lt : forall a b c : N, neqb a b = true -> nltb b c = true -> nltb a c = true;
  ol_lt_eq : forall a b c : N, nltb a b = true -> neqb b c = true -> nltb a c = true;
  ol_total : forall a b : N, neqb a a = true -> neqb b b = true ->
      nltb a b = true \/ neqb a b = true \/ nltb b a = true;
  ol_fin_eq : forall a : N, nisfin a = true -> neqb a a = true;
  ol_inf_top : forall a : N, nltb ninf a = false
}.

Lemma Rltb_true : forall a b, Rltb a b = true <-> (a < b)%R.
Proof. intros; unfold Rltb; destruct (Rlt_dec a b); split; auto; discriminate. Qed.
Lemma Rltb_false : forall a b, Rltb a b = false <-> (b <= a)%R.
Proof.
  intros; unfold Rltb; destruct (Rlt_dec a b); split; intros; try discriminate; try lra; auto.
Qed.
Lemma Rleb_true : forall a b, Rleb a b = true <-> (a <= b)%R.
Proof. intros; unfold Rleb; destruct (Rle_dec a b); split; auto; discriminate. Qed.
Lemma Rleb_false : forall a b, Rleb a b = false <-> (b < a)%R.
Proof.
  intros; unfold Rleb; destruct (Rle_dec a b); split; intros; try discriminate; try lra; auto.
Qed.
Lemma Reqb_true : forall a b, Reqb a b = true <-> a = b.
Proof. intros; unfold Reqb; destruct (Req_EM_T a b); split; auto; discriminate. Qed.
Lemma Reqb_false : forall a b, Reqb a b = false <-> a <> b.
Proof. intros; unfold Reqb; destruct (Req_EM_T a b); split; auto; try discriminate; contradiction. Qed.

Ltac rb := repeat match goal with
  | H : Rltb _ _ = true |- _ => apply Rltb_true in H
  | H : Rltb _ _ = false |- _ => apply Rltb_false in H
  | H : Rleb _ _ = true |- _ => apply Rleb_true in H
  | H : Rleb _ _ = false |- _ => apply Rleb_false in H
  | H : Reqb _ _ = true |- _ => apply Reqb_true in H
  | H : Reqb _ _ = false |- _ => apply Reqb_false in H
  | |- Rltb _ _ = true => apply Rltb_true
  | |- Rltb _ _ = false => apply Rltb_false
  | |- Rleb _ _ = true => apply Rleb_true
  | |- Rleb _ _ = false => apply Rleb_false
  | |- Reqb _ _ = true => apply Reqb_true
  | |- Reqb _ _ = false => apply Reqb_false
  end.

Lemma Rleb_split : forall a b, Rleb a b = Rltb a b || Reqb a b.
Proof.
  intros a b. destruct (Rltb a b) eqn:E1; simpl.
  - rb; lra.
  - destruct (Reqb a b) eqn:E2; rb; lra.
Qed.

Lemma RN_ltb : forall a b : RN, nltb a b = Rltb a b. Proof. reflexivity. Qed.

Lemma XR_laws : OrdLaws XR.
Proof.
  constructor; simpl.
  - intros [x| | |]; simpl; auto. rb; lra.
  - intros [x| | |] [y| | |] [z| | |]; simpl; intros; try discriminate; auto. rb; lra.
  - reflexivity.
  - intros [x| | |] [y| | |]; simpl; intros; try discriminate; auto; rb; lra.
  - intros [x| | |] [y| | |]; simpl; intros; try discriminate; auto; rb; lra.
  - intros [x| | |] [y| | |]; simpl; intros; try discriminate; auto; rb; lra.
  - intros [x| | |] [y| | |]; simpl; intros; try discriminate; auto; rb; lra.
  - intros [x| | |] [y| | |] [z| | |]; simpl; intros; try discriminate; auto; rb; lra.
  - intros [x| | |] [y| | |] [z| | |]; simpl; intros; try discriminate; auto; rb; lra.
  - intros [x| | |] [y| | |] [z| | |]; simpl; intros; try discriminate; auto; rb; lra.
  - intros [x| | |] [y| | |]; simpl; intros; try discriminate; auto.
    destruct (Rtotal_order x y) as [H1|[H1|H1]]; [left|right;left|right;right]; rb; lra.
  - intros [x| | |]; simpl; intros; try discriminate; rb; lra.
  - intros [x| | |]; simpl; auto.
Qed.

Section Ord.
  Context {N : Num} (L : OrdLaws N).

  Lemma lt_asym : forall a b : N, nltb a b = true -> nltb b a = false.
  Proof.
    intros a b H. destruct (nltb b a) eqn:E; auto.
    pose proof (ol_trans N L _ _ _ H E). rewrite (ol_irrefl N L) in H0. discriminate.
  Qed.
  Lemma nisnan_false : forall a : N, nisnan a = false <-> neqb a a = true.
  Proof. intro a; unfold nisnan; destruct (neqb a a); simpl; split; congruence. Qed.
  Lemma nisnan_true : forall a : N, nisnan a = true <-> neqb a a = false.
  Proof. intro a; unfold nisnan; destruct (neqb a a); simpl; split; congruence. Qed.
  Lemma lt_eq_excl : forall a b : N, nltb a b = true -> neqb a b = false.
  Proof.
    intros a b H. destruct (neqb a b) eqn:E; auto.
    apply (ol_eq_sym N L) in E.
    pose proof (ol_lt_eq N L _ _ _ H E). rewrite (ol_irrefl N L) in H0. discriminate.
  Qed.
  Lemma le_trans : forall a b c : N, nleb a b = true -> nleb b c = true -> nleb a c = true.
  Proof.
    intros a b c. rewrite !(ol_le N L), !orb_true_iff.
    intros [H|H] [H'|H'].
    - left; eapply (ol_trans N L); eauto.
    - left; eapply (ol_lt_eq N L); eauto.
    - left; eapply (ol_eq_lt N L); eauto.
    - right; eapply (ol_eq_trans N L); eauto.
  Qed.
  Lemma lt_le : forall a b : N, nltb a b = true -> nleb a b = true.
  Proof. intros; rewrite (ol_le N L), H; reflexivity. Qed.
  Lemma le_lt_trans : forall a b c : N, nleb a b = true -> nltb b c = true -> nltb a c = true.
  Proof.
    intros a b c. rewrite (ol_le N L), orb_true_iff. intros [H|H] H'.
    - eapply (ol_trans N L); eauto.
    - eapply (ol_eq_lt N L); eauto.
  Qed.
  Lemma lt_le_trans : forall a b c : N, nltb a b = true -> nleb b c = true -> nltb a c = true.
  Proof.
    intros a b c H. rewrite (ol_le N L), orb_true_iff. intros [H'|H'].
    - eapply (ol_trans N L); eauto.
    - eapply (ol_lt_eq N L); eauto.
  Qed.
  Lemma le_refl : forall a : N, neqb a a = true -> nleb a a = true.
  Proof. intros a H; rewrite (ol_le N L), H; apply orb_true_r. Qed.
  Lemma not_lt_le : forall a b : N, neqb a a = true -> neqb b b = true ->
    nltb a b = false -> nleb b a = true.
  Proof.
    intros a b Ha Hb H. rewrite (ol_le N L), orb_true_iff.
    destruct (ol_total N L a b Ha Hb) as [E|[E|E]]; [congruence| |auto].
    right; apply (ol_eq_sym N L); auto.
  Qed.
  Lemma le_not_lt : forall a b : N, nleb a b = true -> nltb b a = false.
  Proof.
    intros a b H. destruct (nltb b a) eqn:E; auto.
    pose proof (le_lt_trans _ _ _ H E). rewrite (ol_irrefl N L) in H0; discriminate.
  Qed.

  Lemma nmax_lt : forall a b c : N,
    nltb (nmax a b) c = true <-> nltb a c = true /\ nltb b c = true.
  Proof.
    intros a b c. unfold nmax.
    destruct (nisnan a) eqn:Ea.
    { apply nisnan_true in Ea. split.
      - intro H. apply (ol_lt_nan_l N L) in H. congruence.
      - intros [H _]. apply (ol_lt_nan_l N L) in H. congruence. }
    destruct (nisnan b) eqn:Eb.
    { apply nisnan_true in Eb. split.
      - intro H. apply (ol_lt_nan_l N L) in H. congruence.
      - intros [_ H]. apply (ol_lt_nan_l N L) in H. congruence. }
    destruct (nltb a b) eqn:E.
    - split; [|tauto]. intro H; split; auto. eapply (ol_trans N L); eauto.
    - split; [|tauto]. intro H; split; auto.
      apply nisnan_false in Ea. apply nisnan_false in Eb.
      eapply le_lt_trans; [apply not_lt_le; [..|exact E]|]; auto.
  Qed.

  Lemma nmax_ge_l : forall a b : N, neqb a a = true -> neqb b b = true -> nleb a (nmax a b) = true.
  Proof.
    intros a b Ha Hb. unfold nmax.
    rewrite (proj2 (nisnan_false a) Ha), (proj2 (nisnan_false b) Hb).
    destruct (nltb a b) eqn:E; [apply lt_le; auto| apply le_refl; auto].
  Qed.
  Lemma nmax_ge_r : forall a b : N, neqb a a = true -> neqb b b = true -> nleb b (nmax a b) = true.
  Proof.
    intros a b Ha Hb. unfold nmax.
    rewrite (proj2 (nisnan_false a) Ha), (proj2 (nisnan_false b) Hb).
    destruct (nltb a b) eqn:E; [apply le_refl; auto| apply not_lt_le; auto].
  Qed.
  Lemma nmin_le_l : forall a b : N, neqb a a = true -> neqb b b = true -> nleb (nmin a b) a = true.
  Proof.
    intros a b Ha Hb. unfold nmin.
    rewrite (proj2 (nisnan_false a) Ha), (proj2 (nisnan_false b) Hb).
    destruct (nltb b a) eqn:E; [apply lt_le; auto| apply le_refl; auto].
  Qed.
  Lemma nmin_le_r : forall a b : N, neqb a a = true -> neqb b b = true -> nleb (nmin a b) b = true.
  Proof.
    intros a b Ha Hb. unfold nmin.
    rewrite (proj2 (nisnan_false a) Ha), (proj2 (nisnan_false b) Hb).
    destruct (nltb b a) eqn:E; [apply le_refl; auto| apply not_lt_le; auto].
  Qed.
  Lemma nmin_case : forall a b : N, nmin a b = a \/ nmin a b = b.
  Proof. intros; unfold nmin; destruct (nisnan a), (nisnan b), (nltb b a); auto. Qed.
  Lemma nmax_case : forall a b : N, nmax a b = a \/ nmax a b = b.
  Proof. intros; unfold nmax; destruct (nisnan a), (nisnan b), (nltb a b); auto. Qed.

  (** The max norm is below a positive bound iff every entry is. *)
  Lemma max_norm_lt : forall (v : list N) (c : N), nltb (nofQ 0) c = true ->
    (nltb (max_norm v) c = true <-> Forall (fun x => nltb (nabs x) c = true) v).
  Proof.
    intros v c Hc. unfold max_norm, vabs. induction v as [|x v IH]; simpl.
    - split; auto.
    - rewrite nmax_lt, IH. split.
      + intros [H1 H2]; constructor; auto.
      + intro H; inversion H; auto.
  Qed.

  Lemma clip_in : forall x l u : N,
    neqb x x = true -> nleb l u = true ->
    nleb l (nclip x l u) = true /\ nleb (nclip x l u) u = true.
  Proof.
    intros x l u Hx Hlu.
    assert (Hl : neqb l l = true).
    { rewrite (ol_le N L), orb_true_iff in Hlu. destruct Hlu as [H|H];
        [eapply (ol_lt_nan_l N L)|eapply (ol_eq_nan_l N L)]; eauto. }
    assert (Hu : neqb u u = true).
    { rewrite (ol_le N L), orb_true_iff in Hlu. destruct Hlu as [H|H];
        [eapply (ol_lt_nan_r N L)|eapply (ol_eq_nan_l N L); apply (ol_eq_sym N L)]; eauto. }
    assert (Hm : neqb (nmax x l) (nmax x l) = true) by (destruct (nmax_case x l) as [->| ->]; auto).
    unfold nclip. split; [|apply nmin_le_r; auto].
    destruct (nmin_case (nmax x l) u) as [->| ->]; auto.
    apply nmax_ge_r; auto.
  Qed.
End Ord.

(** ** Extended reals *)

Lemma xltb_fin : forall a b, xltb (Fin a) (Fin b) = true <-> (a < b)%R.
Proof. intros; simpl; apply Rltb_true. Qed.
Lemma xltb_fin_false : forall a b, xltb (Fin a) (Fin b) = false <-> (b <= a)%R.
Proof. intros; simpl; apply Rltb_false. Qed.
Lemma xleb_fin : forall a b, xleb (Fin a) (Fin b) = true <-> (a <= b)%R.
Proof. intros; unfold xleb; simpl; rewrite <- Rleb_split; apply Rleb_true. Qed.
Lemma xleb_fin_false : forall a b, xleb (Fin a) (Fin b) = false <-> (b < a)%R.
Proof. intros; unfold xleb; simpl; rewrite <- Rleb_split; apply Rleb_false. Qed.
Lemma xdiv_fin : forall a b, (b <> 0)%R -> xdiv (Fin a) (Fin b) = Fin (a / b).
Proof. intros; simpl; destruct (Req_EM_T b 0); [contradiction|reflexivity]. Qed.

Lemma Q2R_0 : Q2R 0 = 0%R. Proof. unfold Q2R; simpl; lra. Qed.
Lemma Q2R_1 : Q2R 1 = 1%R. Proof. unfold Q2R; simpl; lra. Qed.
Lemma Q2R_2 : Q2R 2 = 2%R. Proof. unfold Q2R; simpl; lra. Qed.
Lemma Q2R_half : Q2R (1#2) = (/2)%R. Proof. unfold Q2R; simpl; lra. Qed.
