(** Property theorems: Invariance.
    Statements only; each is closed by the lemma of the same name (suffix _pf)
    in the proof file.  [Example]s show concrete cases meeting the hypotheses. *)

From Coq Require Import List Bool Arith ZArith QArith Reals Lra Lia.
From Verif Require Import Num NumF64 NumFacts NumF64_facts Vec Results Iterate Spec_Iterate Bisection Golden
  NelderMead NelderMead_proofs Spec_Invariance.
From Flocq Require Import Core.
From Flocq.IEEE754 Require Import BinarySingleNaN.
Import ListNotations.
Local Open Scope nat_scope.
From Verif Require Import Invariance_proofs.

Theorem C91_bisection_signs :
  forall (N : Num) (Aux : Type), OrdLaws N ->
  forall (f g : N -> N * Aux) rtol atol flip expand fuel lower upper y0 fs auxs a0,
  same_signs f g -> (flip = Detect -> expand = true -> same_order f g) ->
  let s := bisection rtol atol flip expand fuel lower upper in
  s_init s f y0 fs auxs = s_init s g y0 fs auxs /\
  forall st0, s_init s f y0 fs auxs = Ret st0 ->
  forall k,
    y_at s f y0 st0 a0 k = y_at s g y0 st0 a0 k /\
    aux_at s f y0 st0 a0 k = aux_at s g y0 st0 a0 k /\
    bis_lower (st_at s f y0 st0 a0 k) = bis_lower (st_at s g y0 st0 a0 k) /\
    bis_upper (st_at s f y0 st0 a0 k) = bis_upper (st_at s g y0 st0 a0 k).
Proof. exact C91_bisection_signs_pf. Qed.
Print Assumptions C91_bisection_signs.

(** ** Golden-section search *)
Theorem C91_golden_order :
  forall (N : Num) (Aux : Type) (f g : N -> N * Aux) rtol atol lower upper y0 fs auxs a0 st st',
  same_order f g ->
  let s := golden rtol atol lower upper in
  s_init s f y0 fs auxs = Ret st -> s_init s g y0 fs auxs = Ret st' ->
  forall k,
    y_at s f y0 st a0 k = y_at s g y0 st' a0 k /\
    aux_at s f y0 st a0 k = aux_at s g y0 st' a0 k /\
    gs_lower (st_at s f y0 st a0 k) = gs_lower (st_at s g y0 st' a0 k) /\
    gs_middle (st_at s f y0 st a0 k) = gs_middle (st_at s g y0 st' a0 k) /\
    gs_upper (st_at s f y0 st a0 k) = gs_upper (st_at s g y0 st' a0 k).
Proof. exact C91_golden_order_pf. Qed.
Print Assumptions C91_golden_order.

Theorem C91_nelder_mead_order :
  forall (N : Num) (Aux : Type), OrdLaws N -> NegLaws N ->
  forall (f g : list N -> N * Aux) rtol atol norm rdelta adelta shape y0 fs auxs a0 st,
  same_order f g ->
  let s := NelderMead rtol atol norm rdelta adelta shape in
  s_init s f y0 fs auxs = Ret st ->
  s_init s g y0 fs auxs = Ret st /\
  forall k,
    y_at s f y0 st a0 k = y_at s g y0 st a0 k /\
    aux_at s f y0 st a0 k = aux_at s g y0 st a0 k /\
    nm_simplex (st_at s f y0 st a0 k) = nm_simplex (st_at s g y0 st a0 k) /\
    nm_counts (st_at s f y0 st a0 k) = nm_counts (st_at s g y0 st a0 k).
Proof. exact C91_nelder_mead_order_pf. Qed.
Print Assumptions C91_nelder_mead_order.

(** x - 1 and (x - 1)^3 on [0, 3]. *)
Example C91_bisection_signs_ex :
  let f := xfun (fun r => r - 1)%R in
  let g := xfun (fun r => (r - 1) ^ 3)%R in
  let s := bisection (N := XR) (Fin 1) (Fin 1) Detect false 1 (Fin 0) (Fin 3) in
  same_signs f g /\ fst (f (Fin 3)) <> fst (g (Fin 3)) :> xr /\
  exists st0, s_init s f (Fin 1) (fun _ => Fin 0) (fun _ => tt) = Ret st0.
Proof. exact C91_bisection_signs_ex_pf. Qed.

Example C91_golden_order_ex :
  let f := xfun (fun r => (r - 1) ^ 2)%R in
  let g := xfun (fun r => ((r - 1) ^ 2) ^ 2)%R in
  same_order f g /\ fst (f (Fin 3)) <> fst (g (Fin 3)) :> xr.
Proof. exact C91_golden_order_ex_pf. Qed.

(** a^2 + b^2 and its square, from (1, 1). *)
Example C91_nelder_mead_order_ex :
  let q (h : R -> R) (v : list XR) : XR * unit :=
    (match v with [Fin a; Fin b] => Fin (h (a ^ 2 + b ^ 2)%R) | _ => PInf end, tt) in
  let f := q (fun r => r) in
  let g := q (fun r => r ^ 2)%R in
  same_order f g /\ fst (f [Fin 1; Fin 1]) <> fst (g [Fin 1; Fin 1]) :> xr /\
  NegLaws XR /\ NegLaws F64 /\
  exists st, s_init (NelderMead (N := XR) (Fin 1) (Fin 1) (fun _ => Fin 0) (Fin 1) (Fin 1) [2])
    f [Fin 1; Fin 1] (fun _ => Fin 0) (fun _ => tt) = Ret st.
Proof. exact C91_nelder_mead_order_ex_pf. Qed.

(** Why [C91_bisection_signs] asks for more when `expand_if_necessary` is set and
    `flip` is detected: the direction of the expansion is chosen by
    comparing the two values, so functions of the same sign everywhere can be
    told apart, and one of the two searches never ends. *)
Theorem C91_bisection_expand_needs_order :
  exists (f g : XR -> XR * unit) (lower upper y0 : XR),
  same_signs f g /\
  let s fuel := bisection (N := XR) (Fin 1) (Fin 1) Detect true fuel lower upper in
  (exists st0, forall fuel, (2 <= fuel)%nat -> s_init (s fuel) f y0 (fun _ => Fin 0) (fun _ => tt) = Ret st0) /\
  forall fuel, s_init (s fuel) g y0 (fun _ => Fin 0) (fun _ => tt) = Unfinished.
Proof. exact C91_bisection_expand_needs_order_pf. Qed.
Print Assumptions C91_bisection_expand_needs_order.
