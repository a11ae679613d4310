(** A quotient below 1 in magnitude means the numerator is below the
    denominator: exact, extended-real and binary64 arithmetic. *)

From Coq Require Import ZArith Reals QArith Qreals Bool Lra Floats.SpecFloat.
From Flocq Require Import Core IEEE754.BinarySingleNaN.
From Verif Require Import Num NumFacts NumF64 NumF64_facts.

Record DivLaws (N : Num) : Prop := mkDivLaws {
  dl_lt1 : forall a b : N,
    nltb (nabs (ndiv a b)) (nofQ 1) = true -> nltb (nabs a) (nabs b) = true;
  dl_absabs : forall a : N, nabs (nabs a) = nabs a;
  dl_01 : nltb (nofQ 0 : N) (nofQ 1) = true
}.

Lemma abs_div_lt1 : forall a b : R, b <> 0%R -> (Rabs (a / b) < 1)%R -> (Rabs a < Rabs b)%R.
Proof.
  intros a b Hb H. unfold Rdiv in H. rewrite Rabs_mult, Rabs_inv in H.
  pose proof (Rabs_pos_lt b Hb). apply (Rmult_lt_compat_r (Rabs b)) in H; auto.
  rewrite Rmult_assoc, Rinv_l, Rmult_1_r, Rmult_1_l in H by lra. exact H.
Qed.


Lemma XR_div : DivLaws XR.
Proof.
  constructor.
  - intros a b. cbn [ndiv nabs nltb nofQ XR]. rewrite Q2R_1.
    destruct a as [a| | |], b as [b| | |]; cbn [xdiv xabs xltb]; try discriminate; auto.
    + destruct (Req_EM_T b 0) as [E|E].
      * destruct (xsgn_inf_cases a) as [[? Ex]|[[? Ex]|[? Ex]]]; rewrite Ex; cbn; discriminate.
      * cbn [xabs xltb]. intro H. rb. apply abs_div_lt1; auto.
    + destruct (Rlt_dec b 0); discriminate.
    + destruct (Rlt_dec b 0); discriminate.
  - intros [a| | |]; cbn; auto. rewrite Rabs_Rabsolu. reflexivity.
  - cbn [nltb nofQ XR xltb]. rewrite Q2R_0, Q2R_1. rb; lra.
Qed.

Lemma f2x_abs : forall a : f64, f2x (nabs (n:=F64) a) = xabs (f2x a).
Proof.
  intros [s|s| |s m e H]; cbn; auto; try (destruct s; reflexivity).
  - rewrite Rabs_R0. reflexivity.
  - f_equal. unfold B2R. rewrite <- F2R_Zabs. f_equal. destruct s; reflexivity.
Qed.

Lemma f2x_1 : f2x (f64_ofQ 1) = Fin 1.
Proof.
  assert (E : B2SF (f64_ofQ 1) = S754_finite false 4503599627370496 (-52)) by (vm_compute; reflexivity).
  rewrite f2x_fin by (vm_compute; reflexivity). rewrite <- SF2R_B2SF, E.
  unfold SF2R, F2R. simpl. f_equal. lra.
Qed.

Lemma F64_div : DivLaws F64.
Proof.
  constructor.
  - intros a b. cbn [nltb F64]. change (nofQ (n:=F64) 1) with (f64_ofQ 1).
    rewrite !f2x_ltb, !f2x_abs, f2x_1.
    change (ndiv (n:=F64) a b) with (fdiv a b).
    destruct (is_finite a) eqn:Ea; destruct (is_finite b) eqn:Eb.
    + rewrite (f2x_fin a Ea), (f2x_fin b Eb). cbn [xabs xltb].
      destruct (Req_EM_T (B2R b) 0) as [E0|E0].
      * (* division by zero *)
        assert (Hb : exists s, b = B754_zero s).
        { destruct b as [s| | |s m e Hm]; try discriminate; eauto.
          exfalso. apply (F2R_neq_0 radix2 (Float radix2 (cond_Zopp s (Zpos m)) e)) in E0; auto.
          destruct s; discriminate. }
        destruct Hb as (s & ->).
        destruct s; destruct a as [[|]| | |[|] m e Hm]; try discriminate; cbn; discriminate.
      * pose proof (Bdiv_correct 53 1024 f64_prec f64_emax mode_NE a b E0) as HC.
        destruct (Rlt_bool _ _) in HC.
        -- destruct HC as (HR & HF & _). unfold fdiv. rewrite f2x_fin by (rewrite HF; exact Ea).
           cbn [xabs xltb]. intro H. rb. rewrite HR in H.
           apply abs_div_lt1; auto.
           destruct (Rlt_or_le (Rabs (B2R a / B2R b)) 1) as [|Hge]; auto. exfalso.
           assert (HG : generic_format radix2 (SpecFloat.fexp 53 1024) 1).
           { replace 1%R with (B2R (f64_ofQ 1)).
             - apply generic_format_B2R.
             - pose proof f2x_1 as H1. rewrite f2x_fin in H1 by (vm_compute; reflexivity). congruence. }
           pose proof (@abs_round_ge_generic radix2 (SpecFloat.fexp 53 1024)
                         (fexp_correct 53 1024 f64_prec) (round_mode mode_NE)
                         (valid_rnd_N _) _ _ HG Hge). lra.
        -- apply overflow_inf in HC. unfold fdiv. rewrite HC. destruct (xorb _ _); cbn; discriminate.
    + rewrite (f2x_fin a Ea). destruct b as [| [|] | |]; try discriminate; cbn [xabs xltb f2x]; auto.
      all: destruct a as [sa|sa| |sa m e Hm]; cbn; discriminate.
    + destruct a as [| [|] | |]; try discriminate; destruct b as [[|]|[|]| |[|] ? ? ?]; cbn; discriminate.
    + destruct a as [| [|] | |]; try discriminate; destruct b as [[|]|[|]| |[|] ? ? ?]; cbn; discriminate.
  - intros [s|s| |s m e H]; reflexivity.
  - vm_compute; reflexivity.
Qed.

(** NaN propagation. *)
Record NanLaws (N : Num) : Prop := mkNanLaws {
  nl_sub : forall a b : N, nisnan b = true -> nisnan (nsub a b) = true;
  nl_abs : forall a : N, nisnan (nabs a) = nisnan a;
  nl_div : forall a b : N, nisnan a = true -> nisnan (ndiv a b) = true;
  nl_fin : forall a : N, nisnan a = true -> nisfin a = false;
  nl_sub_l : forall a b : N, nisnan a = true -> nisnan (nsub a b) = true;
  nl_mul_l : forall a b : N, nisnan a = true -> nisnan (nmul a b) = true;
  nl_0 : nisnan (nofQ 0 : N) = false
}.

Lemma XR_nan_iff : forall a : XR, nisnan a = true <-> a = NaN.
Proof.
  intros [x| | |]; cbn; split; intro H; try discriminate; auto.
  unfold nisnan in H. cbn in H. replace (Reqb x x) with true in H by (symmetry; rb; lra). discriminate.
Qed.
Lemma XR_nan : NanLaws XR.
Proof.
  constructor.
  - intros a b H. apply XR_nan_iff in H. rewrite H. destruct a; reflexivity.
  - intros [a| | |]; try reflexivity. unfold nisnan. cbn.
    replace (Reqb a a) with true by (symmetry; rb; lra).
    replace (Reqb (Rabs a) (Rabs a)) with true by (symmetry; rb; lra). reflexivity.
  - intros a b H. apply XR_nan_iff in H. rewrite H. destruct b; reflexivity.
  - intros a H. apply XR_nan_iff in H. rewrite H. reflexivity.
  - intros a b H. apply XR_nan_iff in H. rewrite H. destruct b; reflexivity.
  - intros a b H. apply XR_nan_iff in H. rewrite H. destruct b; reflexivity.
  - unfold nisnan. cbn. replace (Reqb (Q2R 0) (Q2R 0)) with true by (symmetry; rb; lra). reflexivity.
Qed.

Lemma F64_nan_iff : forall a : F64, nisnan a = true <-> a = B754_nan.
Proof.
  intro a. unfold nisnan. cbn [neqb F64]. rewrite f2x_eqb.
  destruct a as [s|s| |s m e H]; split; intro E; try discriminate; auto; exfalso; cbn in E.
  - replace (Reqb 0 0) with true in E by (symmetry; rb; lra). discriminate.
  - destruct s; discriminate.
  - match type of E with negb (Reqb ?x ?x) = true => replace (Reqb x x) with true in E by (symmetry; rb; lra) end.
    discriminate.
Qed.
Lemma F64_nan : NanLaws F64.
Proof.
  constructor.
  - intros a b H. apply F64_nan_iff in H. rewrite H. destruct a; reflexivity.
  - intro a. destruct (nisnan a) eqn:E.
    + apply F64_nan_iff in E. rewrite E. reflexivity.
    + destruct (nisnan (nabs a)) eqn:E2; auto. apply F64_nan_iff in E2.
      destruct a; try discriminate.
  - intros a b H. apply F64_nan_iff in H. rewrite H. destruct b; reflexivity.
  - intros a H. apply F64_nan_iff in H. rewrite H. reflexivity.
  - intros a b H. apply F64_nan_iff in H. rewrite H. destruct b; reflexivity.
  - intros a b H. apply F64_nan_iff in H. rewrite H. destruct b; reflexivity.
  - vm_compute. reflexivity.
Qed.
