(** Solvers that perform the same iteration (C92). *)

From Coq Require Import List Bool Arith ZArith QArith Reals Lra Lia.
From Verif Require Import Num NumF64 NumFacts NumF64_facts Vec VecFacts Results Iterate Search Descent Minimisers Solvers
  NewtonChord Optax FixedPoint F64Facts Spec_Iterate Spec_Vec Spec_Lin LinFacts Minimisers_proofs GaussNewton_proofs Steps_proofs NewtonChord_proofs Spec_NewtonChord Spec_Coincide.
From Flocq Require Import Core.
From Flocq.IEEE754 Require Import BinarySingleNaN.
Import ListNotations.
Local Open Scope nat_scope.

(** ** a + (-1) b is a - b *)
Lemma RN_neg_add : neg_add RN.
Proof. intros a b. cbn. unfold Q2R. cbn. lra. Qed.

Lemma XR_neg_add : neg_add XR.
Proof.
  intros a b. cbn. unfold xsub. f_equal.
  destruct b as [b | | |]; cbn; try reflexivity.
  - f_equal. unfold Q2R. cbn. lra.
  - unfold xsgn_inf, Q2R. cbn. destruct (Rlt_dec _ _); [lra |]. destruct (Rlt_dec _ _); [reflexivity | lra].
  - unfold xsgn_inf, Q2R. cbn. destruct (Rlt_dec _ _); [lra |]. destruct (Rlt_dec _ _); [reflexivity | lra].
Qed.

Lemma sub_add_opp : forall a b : f64, fsub a b = fadd a (Bopp b).
Proof. intros [] []; reflexivity. Qed.

Lemma F64_neg_add : neg_add F64.
Proof.
  intros a b. cbn [nadd nsub nmul nneg nofQ F64]. rewrite sub_add_opp. f_equal.
  set (m := Bopp (f64_ofQ 1)).
  assert (Mf : is_finite m = true) by reflexivity.
  assert (Mv : B2R m = (-1)%R).
  { unfold m. rewrite B2R_Bopp. rewrite (one_val : B2R (f64_ofQ 1) = 1%R). lra. }
  assert (Ms : Bsign m = true) by reflexivity.
  clearbody m.
  destruct (is_finite b) eqn:Fb.
  - pose proof (Bmult_correct 53 1024 f64_prec f64_emax mode_NE m b) as K.
    assert (Q : round radix2 (SpecFloat.fexp 53 1024) (round_mode mode_NE) (B2R m * B2R b) = (- B2R b)%R).
    { rewrite Mv. replace (-1 * B2R b)%R with (- B2R b)%R by lra.
      apply round_generic; [typeclasses eauto |]. apply generic_format_opp, generic_format_B2R. }
    rewrite Q in K. rewrite Rlt_bool_true in K by (rewrite Rabs_Ropp; apply abs_B2R_lt_emax).
    destruct K as (K1 & K2 & K3). rewrite Mf, Fb in K2. cbn in K2.
    apply B2R_Bsign_inj.
    + exact K2.
    + now rewrite is_finite_Bopp.
    + rewrite B2R_Bopp. exact K1.
    + assert (NN : forall z : f64, is_finite z = true -> is_nan z = false) by (intros []; auto; discriminate).
      etransitivity; [exact (K3 (NN _ K2)) |]. rewrite Ms.
      rewrite Bsign_Bopp by now apply NN. reflexivity.
  - destruct b as [| [] | |]; try discriminate; destruct m as [| | | [] m' e' h']; try discriminate;
      try (exfalso; cbn in Mv; lra); reflexivity.
Qed.

Lemma vsub_scale : forall N, neg_add N -> forall a b : list N,
  vadd a (vscale (nneg (nofQ 1)) b) = vsub a b.
Proof.
  intros N H a. induction a as [| x a IH]; intros [| y b]; cbn; try reflexivity.
  f_equal; [apply H | apply IH].
Qed.

(** GaussNewton and Newton without bounds, given the same Jacobians and the
    same linear solver: GaussNewton's first step only evaluates, after that the
    iterates are the same, in every arithmetic. *)
Lemma C92_gauss_newton_is_newton_pf :
  forall (N : Num) (Aux : Type), neg_add N ->
  forall (P : ar_tols N) (Q : nc_params (N := N)) jac_of lsolve (fn : list N -> list N * Aux) y0 fs auxs st0 st0',
  nc_is_newton Q = true -> nc_lower Q = None -> nc_upper Q = None ->
  let gn := GaussNewton P jac_of lsolve in
  let newton := newton_chord jac_of lsolve Q in
  s_init gn fn y0 fs auxs = Ret st0 -> s_init newton fn y0 fs auxs = Ret st0' ->
  forall k, y_at gn fn y0 st0 (auxs fill0) (S k) = y_at newton fn y0 st0' (auxs fill0) k.
Proof.
  intros N Aux H P Q jac_of lsolve fn y0 fs auxs st0 st0' HN HL HU gn newton Hi Hi'.
  unfold gn in *. apply gn_init_inv in Hi. subst st0.
  destruct (accepts_first_builtin N) as (_ & _ & _ & A4).
  set (lr := learning_rate (nofQ 1)) in *. set (nd := newton_descent lsolve None) in *.
  pose proof (gn_trace_S P lr nd jac_of fn y0 fs auxs) as T.
  assert (Nx : forall k, y_at newton fn y0 st0' (auxs fill0) (S k) =
     let x := y_at newton fn y0 st0' (auxs fill0) k in
     vsub x (fst (lsolve (jac_of fn x) (fst (fn x))))).
  { intros k. unfold y_at at 1. cbn [trace]. fold (y_at newton fn y0 st0' (auxs fill0) k).
    set (x := y_at _ _ _ _ _ k). unfold newton. cbn [s_step newton_chord]. unfold nc_step_fn, nc_solve, nc_clip.
    rewrite HN, HL, HU. destruct (fn x) as [fx a]. destruct (lsolve _ _) as [d r]. reflexivity. }
  induction k as [| k IH].
  - destruct (gn_step_cases _ _ _ _ _ _ _ _ _ _ (T 0)) as (step & acc & sr & sst & Es & _ & _ & _ & _ & _ & E5).
    cbn in Es. injection Es as _ <- _ _. apply E5.
  - destruct (gn_step_cases _ _ _ _ _ _ _ _ _ _ (T (S k))) as (step & acc & sr & sst & Es & _ & _ & _ & _ & _ & E5).
    cbn in Es. injection Es as _ <- _ _. destruct E5 as (E5 & _).
    destruct (gn_proposal P lr nd jac_of fn y0 fs auxs (A4 _) ltac:(intros ? ? ? ?; reflexivity) k (y0, successful))
      as (step' & sr' & E & _ & (f & a & b & c & d & e & acc & Es')).
    cbn in Es'. injection Es' as <- _ _. 
    rewrite Nx. cbn zeta. rewrite <- IH.
    etransitivity; [exact E5 |]. etransitivity; [exact E |].
    cbn [nd newton_descent d_step d_query newton_step fst snd].
    destruct (lsolve _ _) as [v r] eqn:El. cbn [normalise fst snd].
    apply (vsub_scale N H).
Qed.

(** Chord's first step is Newton's, in every arithmetic and with bounds. *)
Lemma C92_chord_first_step_pf :
  forall (N : Num) (Aux M : Type) (P Q : nc_params (N := N)) (jac : _ -> _ -> M) lsolve (fn : list N -> list N * Aux)
    y0 fs auxs st0 st0',
  nc_is_newton P = true -> nc_is_newton Q = false ->
  nc_lower P = nc_lower Q -> nc_upper P = nc_upper Q ->
  let newton := newton_chord jac lsolve P in
  let chord := newton_chord jac lsolve Q in
  s_init newton fn y0 fs auxs = Ret st0 -> s_init chord fn y0 fs auxs = Ret st0' ->
  y_at newton fn y0 st0 (auxs fill0) 1 = y_at chord fn y0 st0' (auxs fill0) 1.
Proof.
  intros N Aux M P Q jac lsolve fn y0 fs auxs st0 st0' HP HQ HL HU newton chord I I'.
  cbn in I, I'. injection I as <-. injection I' as <-.
  unfold newton, chord, y_at. cbn [trace s_step newton_chord fst snd]. unfold nc_step_fn, nc_solve, nc_clip.
  cbn [nc_linear_state]. rewrite HP, HQ, HL, HU. destruct (fn y0) as [fx a]. destruct (lsolve _ _) as [d r]. reflexivity.
Qed.

(** GradientDescent is OptaxMinimiser(optax.sgd) delayed by the first,
    evaluating step, in every arithmetic. *)
Lemma C92_gradient_descent_is_sgd_pf :
  forall (N : Num) (Aux : Type) (P P' : ar_tols N) (rate fmax : N) grad_of (fn : list N -> N * Aux) y0 fs auxs st0 st0',
  let gd := GradientDescent P grad_of rate in
  let sgd := OptaxMinimiser (sgd rate) P' grad_of fmax in
  s_init gd fn y0 fs auxs = Ret st0 -> s_init sgd fn y0 fs auxs = Ret st0' ->
  forall k, y_at gd fn y0 st0 (auxs fill0) (S k) = y_at sgd fn y0 st0' (auxs fill0) k.
Proof.
  intros N Aux P P' rate fmax grad_of fn y0 fs auxs st0 st0' gd sg Hi Hi'.
  unfold gd in *. apply gd_init_inv in Hi. subst st0.
  set (lr := learning_rate rate) in *. set (sd := steepest_descent None) in *.
  pose proof (gd_trace_S P lr sd grad_of fn y0 fs auxs) as T.
  assert (Nx : forall k, y_at sg fn y0 st0' (auxs fill0) (S k) =
     let x := y_at sg fn y0 st0' (auxs fill0) k in vadd x (vscale (nneg rate) (grad_of fn x))).
  { intros k. unfold y_at at 1. cbn [trace]. fold (y_at sg fn y0 st0' (auxs fill0) k).
    set (x := y_at _ _ _ _ _ k). unfold sg. cbn [s_step OptaxMinimiser]. unfold optax_step.
    destruct (fn x) as [fx a]. reflexivity. }
  cut (forall k, let Y := y_at (gradient_descent_solver P lr sd grad_of) fn y0 (gd_st0 lr sd y0 fs auxs) (auxs fill0) (S k) in
    Y = y_at sg fn y0 st0' (auxs fill0) k /\
    gd_y_eval (st_at (gradient_descent_solver P lr sd grad_of) fn y0 (gd_st0 lr sd y0 fs auxs) (auxs fill0) (S k))
      = vadd Y (vscale (nneg rate) (grad_of fn Y))).
  { intros K k. apply (K k). }
  induction k as [| k IH]; intros Y.
  - destruct (gd_step_cases _ _ _ _ _ _ _ _ _ _ (T 0)) as (step & acc & sr & sst & Es & _ & _ & Ee & _ & _ & E5).
    cbn in Es. injection Es as <- <- _ _. destruct E5 as (E5 & _ & _ & E6 & _).
    split; [exact E5 |]. etransitivity; [exact Ee |]. rewrite E6. reflexivity.
  - destruct (gd_step_cases _ _ _ _ _ _ _ _ _ _ (T (S k))) as (step & acc & sr & sst & Es & _ & _ & Ee & _ & _ & E5).
    cbn in Es. injection Es as <- <- _ _. destruct E5 as (E5 & _ & _ & E6 & _).
    destruct IH as (I1 & I2).
    split.
    + etransitivity; [exact E5 |]. etransitivity; [exact I2 |]. rewrite I1, Nx. reflexivity.
    + etransitivity; [exact Ee |]. rewrite E6. reflexivity.
Qed.

Lemma inj_of : forall n A, mat n n A -> injective_mat n A ->
  forall u v : list R, length u = n -> length v = n -> mvec A u = mvec A v -> u = v.
Proof.
  intros n A HA HI u v Hu Hv E.
  assert (Z : forall a b : list R, length a = n -> length b = n -> Rsub_v a b = zerov n -> a = b).
  { clear. induction n as [| n IH]; intros [| x a] [| y b]; cbn; intros H1 H2 H3; try discriminate; auto.
    injection H3 as H3 H4. f_equal; [lra | apply IH; auto]. }
  assert (ZZ : forall a : list R, length a = n -> Rsub_v a a = zerov n).
  { clear. induction n as [| n IH]; intros [| x a]; cbn; intros H1; try discriminate; auto.
    unfold zerov. cbn. f_equal; [lra | apply IH; auto]. }
  apply Z; auto. apply HI; [apply Rsub_v_length; assumption |].
  rewrite (mvec_sub A n n) by assumption. rewrite E. apply ZZ. rewrite mvec_length. apply HA.
Qed.

(** Newton and Chord commute with affine changes of variables and with
    recombining the equations.  F is solved for x from A z0 + b, and
    G(z) = B F(A z + b) for z from z0; linear solves are exact (that of G for
    the matrix B J(A z + b) A of the chain rule).  Then x_k = A z_k + b
    throughout. *)
Lemma C92_newton_affine_pf :
  forall (n : nat) (F : list R -> list R) (J : list R -> list (list R)) (A B : list (list R)) (b z0 : list R)
    (M : Type) (jac : (list R -> list R * unit) -> list R -> M) (lsolve : M -> list R -> list R * results)
    (P Q : nc_params (N := RN)) (D : list R -> Prop) fs auxs st0 st0',
  mat n n A -> mat n n B -> length b = n -> length z0 = n -> injective_mat n B ->
  nc_is_newton P = nc_is_newton Q ->
  nc_lower P = None -> nc_upper P = None -> nc_lower Q = None -> nc_upper Q = None ->
  let fF x := (F x, tt) in
  let fG z := (mvec B (F (affine A b z)), tt) in
  (forall x, D x -> length x = n /\ length (F x) = n /\ mat n n (J x) /\ injective_mat n (J x)) ->
  (forall x c, D x -> length c = n ->
     let d := fst (lsolve (jac fF x) c) in length d = n /\ mvec (J x) d = c) ->
  (forall z c, length z = n -> D (affine A b z) -> length c = n ->
     let e := fst (lsolve (jac fG z) c) in
     length e = n /\ mvec B (mvec (J (affine A b z)) (mvec A e)) = c) ->
  let sF := newton_chord (N := RN) jac lsolve P in
  let sG := newton_chord (N := RN) jac lsolve Q in
  s_init sF fF (affine A b z0) fs auxs = Ret st0 -> s_init sG fG z0 fs auxs = Ret st0' ->
  let x := y_at sF fF (affine A b z0) st0 (auxs fill0) in
  let z := y_at sG fG z0 st0' (auxs fill0) in
  (forall k, D (x k)) ->
  forall k, x k = affine A b (z k).
Proof.
  intros n F J A B b z0 M jac lsolve P Q D fs auxs st0 st0' HA HB Hb Hz0 IB HN L1 L2 L3 L4 fF fG HD SF SG sF sG I I' x z Dx.
  change (Ret (nc_st0 jac P fF (affine A b z0) fs) = Ret st0) in I. injection I as <-.
  change (Ret (nc_st0 jac Q fG z0 fs) = Ret st0') in I'. injection I' as <-.
  assert (Xs : forall k, x (S k) = Rsub_v (x k) (fst (lsolve (jac fF (if nc_is_newton P then x k else x 0)) (F (x k))))).
  { intros k. unfold x, sF. rewrite nc_y_S. unfold nc_clip. rewrite L1, L2, vsub_RN. reflexivity. }
  assert (Zs : forall k, z (S k) = Rsub_v (z k) (fst (lsolve (jac fG (if nc_is_newton P then z k else z 0))
     (mvec B (F (affine A b (z k))))))).
  { intros k. unfold z, sG. rewrite nc_y_S. unfold nc_clip. rewrite L3, L4, vsub_RN, HN. reflexivity. }
  cut (forall k, length (z k) = n /\ x k = affine A b (z k)). { intros K k. apply K. }
  assert (X0 : length (z 0) = n /\ x 0 = affine A b (z 0)) by (split; [exact Hz0 | reflexivity]).
  clearbody x z. clear sF sG fs auxs.
  assert (LS : forall u v : list R, length u = n -> length v = n -> length (Rsub_v u v) = n).
  { clear. intros u. revert n. induction u as [| a u IH]; intros [| n] [| c v]; cbn; intros; try discriminate; auto. }
  assert (SA : forall u v w : list R, length u = n -> length v = n -> length w = n ->
     Rsub_v (Radd_v u v) w = Radd_v (Rsub_v u w) v).
  { clear. intros u. revert n. induction u as [| a u IH]; intros [| n] [| c v] [| d w]; cbn; intros; try discriminate; auto.
    f_equal; [ring | apply (IH n); congruence]. }
  induction k as [| k (IL & IH)]; [exact X0 |].
  pose proof (Dx k) as Dk.
  destruct (HD _ Dk) as (_ & LF & _).
  set (p := if nc_is_newton P then x k else x 0). set (q := if nc_is_newton P then z k else z 0).
  pose proof (Xs k : _ = Rsub_v (x k) (fst (lsolve (jac fF p) (F (x k))))) as Xk.
  pose proof (Zs k : _ = Rsub_v (z k) (fst (lsolve (jac fG q) (mvec B (F (affine A b (z k))))))) as Zk.
  assert (Pq : length q = n /\ p = affine A b q) by (unfold p, q; destruct (nc_is_newton P); [split; assumption | exact X0]).
  destruct Pq as (Lq & Epq).
  assert (Dp : D p) by (unfold p; destruct (nc_is_newton P); apply Dx). clearbody p q.
  destruct (HD _ Dp) as (_ & _ & MJ & IJ).
  destruct (SF p (F (x k)) Dp LF) as (Ld & Ed).
  assert (LB : length (mvec B (F (affine A b (z k)))) = n) by (rewrite mvec_length; apply HB).
  destruct (SG q (mvec B (F (affine A b (z k)))) Lq ltac:(now rewrite <- Epq) LB) as (Le & Ee).
  set (d := fst (lsolve (jac fF p) (F (x k)))) in *.
  set (e := fst (lsolve (jac fG q) (mvec B (F (affine A b (z k)))))) in *.
  rewrite Xk, Zk. split; [apply LS; [exact IL | exact Le] |].
  rewrite <- Epq in Ee. rewrite <- IH in Ee.
  assert (LA : forall u, length (mvec A u) = n) by (intros u; rewrite mvec_length; apply HA).
  assert (Q1 : mvec (J p) (mvec A e) = F (x k)).
  { apply (inj_of n B HB IB); [rewrite mvec_length; apply MJ | exact LF | exact Ee]. }
  assert (Q2 : mvec A e = d).
  { apply (inj_of n _ MJ IJ); [apply LA | exact Ld |]. now rewrite Q1, Ed. }
  rewrite IH. unfold affine. rewrite (mvec_sub A n n) by assumption. rewrite Q2.
  apply SA; auto.
Qed.

(** ** Examples *)

(** The law behind the coincidence holds in all three arithmetics; both solvers
    start from any point. *)
Example C92_gauss_newton_is_newton_ex_pf :
  neg_add RN /\ neg_add XR /\ neg_add F64 /\
  let Q := mkNcParams (N := F64) (f64_ofQ 0) (f64_ofQ (1#8)) (fun _ => f64_ofQ 0) (f64_ofQ (1#100)) true true None None (f64_ofQ 0) in
  nc_is_newton Q = true /\ nc_lower Q = None /\ nc_upper Q = None.
Proof. split; [exact RN_neg_add | split; [exact XR_neg_add | split; [exact F64_neg_add | repeat split]]]. Qed.

(** x^3 + x - 1 = 0, with x = 2 z + 1 and the equation multiplied by 3. *)
Example C92_newton_affine_ex_pf :
  let F x := match x with [a] => [a ^ 3 + a - 1]%R | _ => [] end in
  let J x := match x with [a] => [[3 * a ^ 2 + 1]]%R | _ => [] end in
  let A := [[2]]%R in let B := [[3]]%R in let b := [1]%R in
  let D (x : list R) := length x = 1 in
  let fF x := (F x, tt) in
  let fG z := (mvec B (F (affine A b z)), tt) in
  exists (jac : (list R -> list R * unit) -> list R -> R) (lsolve : R -> list R -> list R * results),
  mat 1 1 A /\ mat 1 1 B /\ injective_mat 1 B /\
  (forall x, D x -> length x = 1 /\ length (F x) = 1 /\ mat 1 1 (J x) /\ injective_mat 1 (J x)) /\
  (forall x c, D x -> length c = 1 ->
     let d := fst (lsolve (jac fF x) c) in length d = 1 /\ mvec (J x) d = c) /\
  (forall z c, length z = 1 -> D (affine A b z) -> length c = 1 ->
     let e := fst (lsolve (jac fG z) c) in
     length e = 1 /\ mvec B (mvec (J (affine A b z)) (mvec A e)) = c) /\
  forall P : nc_params (N := RN), nc_lower P = None -> nc_upper P = None ->
  forall k, D (y_at (newton_chord (N := RN) jac lsolve P) fF (affine A b [0%R])
                 (nc_st0 jac P fF (affine A b [0%R]) (fun _ => [0%R])) tt k).
Proof.
  cbv zeta.
  set (F := fun x : list R => match x with [a] => [a ^ 3 + a - 1]%R | _ => [] end).
  (* the derivative, read off from the difference of values one apart *)
  set (jac := fun (f : list R -> list R * unit) (x : list R) =>
     match x with
     | [a] => ((nth 0 (fst (f [a + 1])) 0 - nth 0 (fst (f [a - 1])) 0) / 2 -
               (nth 0 (fst (f [2])) 0 - 2 * nth 0 (fst (f [1])) 0 + nth 0 (fst (f [0])) 0 -
                (nth 0 (fst (f [1])) 0 - 2 * nth 0 (fst (f [0])) 0 + nth 0 (fst (f [-1])) 0)) / 6)%R
     | _ => 0%R end).
  exists jac, (fun m c => (map (fun t => t / m)%R c, successful)).
  assert (One : forall c : list R, length c = 1 -> exists a, c = [a]).
  { intros [| a [| ? ?]] H; try discriminate. eauto. }
  split; [repeat constructor |]. split; [repeat constructor |]. split.
  { intros u Hu. destruct (One u Hu) as (a & ->). unfold zerov. cbn. intros H.
    injection H as H. f_equal. lra. }
  split.
  { intros x Hx. destruct (One x Hx) as (a & ->). repeat split; try (repeat constructor).
    intros u Hu. destruct (One u Hu) as (p & ->). unfold zerov. cbn. intros H.
    injection H as H. f_equal. apply (Rmult_eq_reg_l (3 * (a * (a * 1)) + 1)); [lra | nra]. }
  split.
  { intros x c Hx Hc. destruct (One x Hx) as (a & ->), (One c Hc) as (t & ->). split; [reflexivity |].
    unfold jac. cbn. f_equal. field. nra. }
  split.
  { intros z c Hz _ Hc. destruct (One z Hz) as (a & ->), (One c Hc) as (t & ->). split; [reflexivity |].
    unfold jac, affine. cbn. f_equal. field. match goal with |- ?e <> _ => replace e with (72 * (3 * ((2 * a + 1) * (2 * a + 1)) + 1))%R by ring end. pose proof (Rle_0_sqr (2 * a + 1)) as K. unfold Rsqr in K. lra. }
  intros P L1 L2 k. induction k as [| k IH]; [reflexivity |].
  rewrite nc_y_S. unfold nc_clip. rewrite L1, L2, vsub_RN.
  destruct (One _ IH) as (a & Ea). unfold lin_sol. rewrite Ea. reflexivity.
Qed.
