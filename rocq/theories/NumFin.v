(** Finiteness of differences and of bounded numbers. *)

From Coq Require Import ZArith Reals QArith Bool Lra.
From Flocq Require Import Core IEEE754.BinarySingleNaN.
From Verif Require Import Num NumFacts NumF64 NumF64_facts.

Record FinLaws (N : Num) : Prop := mkFinLaws {
  fl_lt : forall x b : N, nltb (nabs x) b = true -> nisfin x = true;
  fl_sub_l : forall a b : N, nisfin (nsub a b) = true -> nisfin a = true;
  fl_sub_r : forall a b : N, nisfin (nsub a b) = true -> nisfin b = true
}.

Lemma XR_fin : FinLaws XR.
Proof.
  constructor.
  - intros [x| | |] [b| | |]; cbn; auto; discriminate.
  - intros [x| | |] [b| | |]; cbn; auto; discriminate.
  - intros [x| | |] [b| | |]; cbn; auto; discriminate.
Qed.

Lemma F64_fin : FinLaws F64.
Proof.
  constructor.
  - intros [s|s| |s m e H] [s'|s'| |s' m' e' H']; cbn; auto; destruct s'; discriminate.
  - intros [s|s| |s m e H] [s'|s'| |s' m' e' H']; cbn; auto; try destruct s; try destruct s'; discriminate.
  - intros [s|s| |s m e H] [s'|s'| |s' m' e' H']; cbn; auto; try destruct s; try destruct s'; discriminate.
Qed.
