(** Order and sign laws of binary64, by embedding into the extended reals. *)

From Coq Require Import ZArith Reals QArith Bool Lra Floats.SpecFloat.
From Flocq Require Import Core Plus_error IEEE754.BinarySingleNaN.
From Verif Require Import Num NumFacts NumF64.

Lemma f2x_fin : forall a, is_finite a = true -> f2x a = Fin (B2R a).
Proof. intros [s|s| |s m e H]; simpl; intros; try discriminate; auto. Qed.

Lemma Rcompare_Rltb : forall x y, Rltb x y = match Rcompare x y with Lt => true | _ => false end.
Proof.
  intros. destruct (Rcompare_spec x y); [apply Rltb_true|apply Rltb_false|apply Rltb_false]; lra.
Qed.
Lemma Rcompare_Reqb : forall x y, Reqb x y = match Rcompare x y with Eq => true | _ => false end.
Proof.
  intros. destruct (Rcompare_spec x y); [apply Reqb_false|apply Reqb_true|apply Reqb_false]; lra.
Qed.

Lemma f2x_ltb : forall a b : f64, Bltb a b = xltb (f2x a) (f2x b).
Proof.
  intros a b. destruct (is_finite a && is_finite b) eqn:E.
  - apply andb_true_iff in E. destruct E as [Ea Eb].
    rewrite (f2x_fin a Ea), (f2x_fin b Eb). simpl. rewrite Rcompare_Rltb.
    pose proof (Bcompare_correct 53 1024 a b Ea Eb) as H. unfold Bcompare in H.
    unfold Bltb, SFltb. rewrite H. destruct (Rcompare _ _); reflexivity.
  - destruct a as [s|[|]| |[|] m e H], b as [s'|[|]| |[|] m' e' H']; try discriminate; reflexivity.
Qed.
Lemma f2x_eqb : forall a b : f64, Beqb a b = xeqb (f2x a) (f2x b).
Proof.
  intros a b. destruct (is_finite a && is_finite b) eqn:E.
  - apply andb_true_iff in E. destruct E as [Ea Eb].
    rewrite (f2x_fin a Ea), (f2x_fin b Eb). simpl. rewrite Rcompare_Reqb.
    pose proof (Bcompare_correct 53 1024 a b Ea Eb) as H. unfold Bcompare in H.
    unfold Beqb, SFeqb. rewrite H. destruct (Rcompare _ _); reflexivity.
  - destruct a as [s|[|]| |[|] m e H], b as [s'|[|]| |[|] m' e' H']; try discriminate; reflexivity.
Qed.
Lemma f2x_leb : forall a b : f64, Bleb a b = xleb (f2x a) (f2x b).
Proof.
  intros a b. unfold xleb. rewrite <- f2x_ltb, <- f2x_eqb.
  unfold Bleb, Bltb, Beqb, SFleb, SFltb, SFeqb.
  destruct (SFcompare _ _) as [[| |]|]; reflexivity.
Qed.
Lemma f2x_isfin : forall a : f64, is_finite a = xisfin (f2x a).
Proof. intros [s|[|]| |s m e H]; reflexivity. Qed.

Lemma F64_laws : OrdLaws F64.
Proof.
  constructor; simpl; intros *; rewrite ?f2x_ltb, ?f2x_leb, ?f2x_eqb, ?f2x_isfin.
  - apply (ol_irrefl XR XR_laws).
  - apply (ol_trans XR XR_laws).
  - reflexivity.
  - apply (ol_lt_nan_l XR XR_laws).
  - apply (ol_lt_nan_r XR XR_laws).
  - apply (ol_eq_nan_l XR XR_laws).
  - apply (ol_eq_sym XR XR_laws).
  - apply (ol_eq_trans XR XR_laws).
  - apply (ol_eq_lt XR XR_laws).
  - apply (ol_lt_eq XR XR_laws).
  - apply (ol_total XR XR_laws).
  - apply (ol_fin_eq XR XR_laws).
  - apply (ol_inf_top XR XR_laws).
Qed.

(** Sign laws used by line searches. *)
Record SgnLaws (N : Num) : Prop := mkSgnLaws {
  sl_sub_le : forall a b z : N,
    nleb (nsub a b) z = true -> nleb z (nofQ 0) = true -> nleb a b = true;
  sl_mul_neg : forall s p z : N,
    nleb (nofQ 0) s = true -> nleb p (nofQ 0) = true -> nleb z (nmul s p) = true ->
    nleb (nmul s p) (nofQ 0) = true
}.

Lemma xleb_fin_iff : forall a b, xleb (Fin a) (Fin b) = true <-> (a <= b)%R.
Proof. exact xleb_fin. Qed.

Lemma xsgn_inf_cases : forall x,
  ((0 < x)%R /\ xsgn_inf x = PInf) \/ ((x < 0)%R /\ xsgn_inf x = NInf) \/ (x = 0%R /\ xsgn_inf x = NaN).
Proof.
  intro x. unfold xsgn_inf. destruct (Rlt_dec 0 x); auto. destruct (Rlt_dec x 0); auto.
  right; right; split; auto; lra.
Qed.

Lemma XR_sgn : SgnLaws XR.
Proof.
  constructor; simpl.
  - rewrite Q2R_0. intros [a| | |] [b| | |] [z| | |]; simpl; unfold xsub; cbn [xneg xadd];
      rewrite ?xleb_fin; try discriminate; auto; intros; lra.
  - rewrite Q2R_0. intros [s| | |] [p| | |] z; simpl; intros H1 H2 H3;
      rewrite ?xleb_fin in *; try discriminate; auto.
    + nra.
    + destruct (xsgn_inf_cases s) as [[? E]|[[? E]|[? E]]]; rewrite E in *; simpl in *; auto; try lra.
      destruct z; discriminate.
    + destruct (xsgn_inf_cases p) as [[? E]|[[? E]|[? E]]]; rewrite E in *; simpl in *; auto; try lra.
      destruct z; discriminate.
Qed.

Lemma f64_0 : f64_ofQ 0 = B754_zero false.
Proof. reflexivity. Qed.

Lemma f2x_0 : f2x (f64_ofQ 0) = Fin 0.
Proof. reflexivity. Qed.

Definition fexp64 := SpecFloat.fexp 53 1024.

Lemma overflow_inf : forall s (a : f64), B2SF a = binary_overflow 53 1024 mode_NE s ->
  a = B754_infinity s.
Proof. intros s [| | |]; simpl; unfold binary_overflow; simpl; intro H; inversion H; auto. Qed.

Lemma f64_sub_le : forall a b z : f64,
  Bleb (fsub a b) z = true -> Bleb z (f64_ofQ 0) = true -> Bleb a b = true.
Proof.
  intros a b z H1 H2.
  assert (H : Bleb (fsub a b) (f64_ofQ 0) = true) by (eapply (le_trans F64_laws); eauto).
  clear H1 H2. rewrite f2x_leb in *. rewrite f2x_0 in H.
  destruct (is_finite a && is_finite b) eqn:E.
  - apply andb_true_iff in E. destruct E as [Ea Eb].
    rewrite (f2x_fin a Ea), (f2x_fin b Eb). rewrite xleb_fin.
    pose proof (Bminus_correct 53 1024 f64_prec f64_emax mode_NE a b Ea Eb) as HC.
    destruct (Rlt_bool _ _) in HC.
    + destruct HC as (HR & HF & _). unfold fsub in H. rewrite f2x_fin in H by exact HF.
      rewrite xleb_fin, HR in H.
      destruct (Rle_or_lt (B2R a) (B2R b)) as [|Hlt]; auto. exfalso.
      assert (Hpos : (0 < B2R a - B2R b)%R) by lra.
      assert (Hge : (0 <= round radix2 fexp64 (round_mode mode_NE) (B2R a - B2R b))%R).
      { rewrite <- (round_0 radix2 fexp64 (round_mode mode_NE)).
        apply round_le; [apply (fexp_correct 53 1024), f64_prec|apply valid_rnd_N|lra]. }
      assert (Hne : round radix2 fexp64 (round_mode mode_NE) (B2R a + - B2R b) <> 0%R).
      { apply round_plus_neq_0.
        - apply (fexp_correct 53 1024), f64_prec.
        - apply monotone_exp_not_FTZ; [apply (fexp_correct 53 1024), f64_prec|].
          apply (fexp_monotone 53 1024).
        - apply valid_rnd_N.
        - apply generic_format_B2R.
        - apply generic_format_opp, generic_format_B2R.
        - lra. }
      unfold Rminus in Hge, H. unfold fexp64 in *. lra.
    + destruct HC as (HO & HS).
      apply overflow_inf in HO. unfold fsub in H. rewrite HO in H.
      destruct (Bsign a) eqn:Sa.
      * (* a negative, b of opposite sign *)
        assert (Sb : Bsign b = false) by (destruct (Bsign b); simpl in HS; congruence).
        destruct a as [[]| | |[] m e Hm], b as [[]| | |[] m' e' Hm']; simpl in *; try discriminate;
          try lra.
        apply Rle_trans with 0%R; apply Rlt_le; [apply F2R_lt_0|apply F2R_gt_0]; reflexivity.
      * simpl in H. discriminate.
  - destruct a as [sa|[|]| |sa m e Hm], b as [sb|[|]| |sb m' e' Hm'];
      simpl in *; try discriminate; auto.
Qed.

Lemma f64_mul_neg : forall s p z : f64,
  Bleb (f64_ofQ 0) s = true -> Bleb p (f64_ofQ 0) = true -> Bleb z (fmul s p) = true ->
  Bleb (fmul s p) (f64_ofQ 0) = true.
Proof.
  intros s p z Hs Hp Hz. rewrite f2x_leb in *. rewrite f2x_0 in *.
  destruct (is_finite s && is_finite p) eqn:E.
  - apply andb_true_iff in E. destruct E as [Es Ep].
    rewrite (f2x_fin s Es) in Hs. rewrite (f2x_fin p Ep) in Hp. rewrite xleb_fin in Hs, Hp.
    pose proof (Bmult_correct 53 1024 f64_prec f64_emax mode_NE s p) as HC.
    destruct (Rlt_bool _ _) in HC.
    + destruct HC as (HR & HF & _). unfold fmul. rewrite f2x_fin; [|rewrite HF, Es, Ep; auto].
      rewrite xleb_fin, HR.
      rewrite <- (round_0 radix2 fexp64 (round_mode mode_NE)).
      apply round_le; [apply (fexp_correct 53 1024), f64_prec|apply valid_rnd_N|nra].
    + apply overflow_inf in HC. unfold fmul. rewrite HC.
      destruct s as [[]| | |[] m e Hm], p as [[]| | |[] m' e' Hm']; simpl in *; try discriminate;
        auto; exfalso.
      all: try match goal with HC : B754_zero _ = _ |- _ => discriminate HC end.
      all: try (pose proof (F2R_lt_0 radix2 (Float radix2 (Zneg m) e) eq_refl); lra).
      all: try (pose proof (F2R_gt_0 radix2 (Float radix2 (Zpos m') e') eq_refl); lra).
  - destruct s as [ss|[|]| |[] m e Hm], p as [sp|[|]| |[] m' e' Hm'];
      simpl in *; try discriminate; auto;
      try (destruct (f2x z); discriminate).
    all: exfalso; rewrite xleb_fin in *.
    all: try (pose proof (F2R_lt_0 radix2 (Float radix2 (Zneg m) e) eq_refl); lra).
    all: try (pose proof (F2R_gt_0 radix2 (Float radix2 (Zpos m') e') eq_refl); lra).
Qed.

Lemma F64_sgn : SgnLaws F64.
Proof. constructor; simpl; [exact f64_sub_le|exact f64_mul_neg]. Qed.
