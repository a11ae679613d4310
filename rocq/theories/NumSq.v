(** Sums of non-positive numbers, and x * (-x), are non-positive: extended
    reals and binary64. *)

From Coq Require Import ZArith Reals QArith Qreals Bool List Lra.
From Flocq Require Import Core IEEE754.BinarySingleNaN.
From Verif Require Import Num NumFacts NumF64 NumF64_facts NumDiv.

Record SqLaws (N : Num) : Prop := mkSqLaws {
  sq_neg : forall a : N, nisnan a = false -> nleb (nmul a (nneg a)) (nofQ 0) = true;
  sq_add : forall a b : N, nleb a (nofQ 0) = true -> nleb b (nofQ 0) = true ->
    nleb (nadd a b) (nofQ 0) = true
}.

Lemma XR_sq : SqLaws XR.
Proof.
  constructor; cbn [nmul nneg nadd nleb nofQ XR]; rewrite Q2R_0.
  - intros [a| | |] H; try reflexivity.
    + cbn [xmul xneg]. apply xleb_fin. nra.
    + discriminate.
  - intros [a| | |] [b| | |] H1 H2; try reflexivity; try discriminate.
    rewrite xleb_fin in *. cbn [xadd]. rewrite xleb_fin. lra.
Qed.

Lemma F64_sq : SqLaws F64.
Proof.
  constructor; cbn [nmul nneg nadd nleb F64]; change (nofQ (n:=F64) 0) with (f64_ofQ 0).
  - intros a H. rewrite f2x_leb, f2x_0.
    destruct (is_finite a) eqn:Ea.
    + pose proof (Bmult_correct 53 1024 f64_prec f64_emax mode_NE a (Bopp a)) as HC.
      rewrite B2R_Bopp in HC.
      destruct (Rlt_bool _ _) in HC.
      * destruct HC as (HR & HF & _). unfold fmul. rewrite f2x_fin by (rewrite HF, is_finite_Bopp, Ea; auto).
        rewrite xleb_fin, HR. rewrite <- (round_0 radix2 fexp64 (round_mode mode_NE)).
        apply round_le; [apply (fexp_correct 53 1024), f64_prec|apply valid_rnd_N|nra].
      * apply overflow_inf in HC. unfold fmul. rewrite HC.
        destruct a as [[]|[]| |[] m e Hm]; try discriminate; reflexivity.
    + destruct a as [[]|[]| |[] m e Hm]; try discriminate; reflexivity.
  - intros a b H1 H2. rewrite f2x_leb in *. rewrite f2x_0 in *.
    destruct (is_finite a && is_finite b) eqn:E.
    + apply andb_true_iff in E. destruct E as [Ea Eb].
      rewrite (f2x_fin a Ea) in H1. rewrite (f2x_fin b Eb) in H2. rewrite xleb_fin in H1, H2.
      pose proof (Bplus_correct 53 1024 f64_prec f64_emax mode_NE a b Ea Eb) as HC.
      destruct (Rlt_bool _ _) in HC.
      * destruct HC as (HR & HF & _). unfold fadd. rewrite f2x_fin by exact HF.
        rewrite xleb_fin, HR. rewrite <- (round_0 radix2 fexp64 (round_mode mode_NE)).
        apply round_le; [apply (fexp_correct 53 1024), f64_prec|apply valid_rnd_N|lra].
      * destruct HC as (HO & HS). apply overflow_inf in HO. unfold fadd. rewrite HO.
        destruct (Bsign a) eqn:Sa; [reflexivity|].
        exfalso. symmetry in HS.
        destruct a as [[]|[]| |[] m e Hm], b as [[]|[]| |[] m' e' Hm']; try discriminate; cbn in H1, H2, HO.
        all: try (pose proof (F2R_gt_0 radix2 (Float radix2 (Zpos m) e) eq_refl); lra).
        all: try (pose proof (F2R_gt_0 radix2 (Float radix2 (Zpos m') e') eq_refl); lra).
    + destruct a as [[]|[]| |[] m e Hm], b as [[]|[]| |[] m' e' Hm']; try discriminate; reflexivity.
Qed.
