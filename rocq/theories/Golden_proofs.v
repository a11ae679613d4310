(** Proofs about golden-section search. *)

From Coq Require Import String List Bool Arith Lia ZArith QArith Qreals Reals Lra Psatz.
From Verif Require Import Num NumFacts Vec Results Iterate Spec_Iterate Iterate_proofs.
From Verif Require Import Golden Spec_Golden NumF64 NumF64_facts BestSoFar.
Import ListNotations.
Local Open Scope nat_scope.

Lemma sqrt5 : (2 < sqrt 5 < 3)%R /\ (sqrt 5 * sqrt 5 = 5)%R.
Proof.
  assert (H : (sqrt 5 * sqrt 5 = 5)%R) by (apply sqrt_sqrt; lra).
  assert (H0 : (0 <= sqrt 5)%R) by apply sqrt_pos.
  split; auto. split; nra.
Qed.
Lemma phi_sq : (phi * phi = phi + 1)%R.
Proof. unfold phi. destruct sqrt5 as [_ H]. nra. Qed.
Lemma phi_bounds : (3/2 < phi < 2)%R.
Proof. unfold phi. destruct sqrt5 as [H _]. lra. Qed.
Lemma golden_ratio_phi : golden_ratio (N:=RN) = phi.
Proof.
  unfold golden_ratio, phi. cbn [nadd ndiv nsqrt nofQ RN].
  rewrite Q2R_1, Q2R_2. replace (Q2R 5) with 5%R; [reflexivity|unfold Q2R; simpl; lra].
Qed.

(** One step on real numbers, as a relation between intervals. *)
Section Step.
  Context {Aux : Type}.
  Variables (rtol atol : R) (fn : R -> R * Aux).
  Let f := fun x => fst (fn x).

  Definition mirror (l m u : R) : R := (l + (u - m))%R.

  Definition rterm (m ym : R) : bool :=
    Rltb (Rabs (Rabs (m - ym) / (atol + rtol * Rabs m))) 1 &&
    Rltb (Rabs (Rabs (f m - f ym) / (atol + rtol * Rabs (f m)))) 1.

  Lemma step_real : forall y l m u first t,
    (first = false -> y = mirror l m u) ->
    let y_ := mirror l m u in
    let st' := if Rltb (f y_) (f m)
               then if Rltb y_ m then mkGs (N:=RN) l y_ m (f y_) false (rterm m y_)
                    else mkGs (N:=RN) m y_ u (f y_) false (rterm m y_)
               else if Rltb y_ m then mkGs (N:=RN) y_ m u (f m) false (rterm m y_)
                    else mkGs (N:=RN) l m y_ (f m) false (rterm m y_) in
    gs_step (N:=RN) rtol atol fn y (mkGs (N:=RN) l m u (f m) first t) =
    (mirror (gs_lower st') (gs_middle st') (gs_upper st'), st', snd (fn y_)).
  Proof.
    intros y l m u first t Hy y_ st'. unfold gs_step.
    cbn [gs_first gs_lower gs_middle gs_upper gs_f_middle].
    assert (E : (if first then nadd (n:=RN) l (nsub (n:=RN) u m) else y) = y_).
    { destruct first; [reflexivity|]. rewrite Hy; auto. }
    rewrite E. destruct (fn y_) as [fv a] eqn:EF.
    assert (Ef : f y_ = fv) by (unfold f; rewrite EF; reflexivity).
    unfold cauchy_termination, vscale_tol, vdiv, vabs.
    cbn [map vmap2 scalar_norm nabs ndiv nsub nadd nmul nltb nofQ RN]. rewrite Q2R_1.
    subst fv. fold (rterm m y_). unfold st'.
    destruct (Rltb (f y_) (f m)), (Rltb y_ m); cbn [gs_lower gs_middle gs_upper];
      unfold mirror; cbn [nadd nsub RN snd]; reflexivity.
  Qed.
End Step.

(** What a step does to a golden triple. *)
Lemma golden_step : forall l m u, golden_split l m u -> (l < u)%R ->
  (l < m < u)%R /\ (l < mirror l m u < u)%R /\
  (mirror l m u < m -> golden_split l (mirror l m u) m /\ m - l = (u - l) / phi /\
     golden_split (mirror l m u) m u /\ u - mirror l m u = (u - l) / phi)%R /\
  (m <= mirror l m u -> golden_split m (mirror l m u) u /\ u - m = (u - l) / phi /\
     golden_split l m (mirror l m u) /\ mirror l m u - l = (u - l) / phi)%R /\
  (Rabs (m - mirror l m u) * (phi * phi * phi) = u - l)%R.
Proof.
  intros l m u HG Hlu. pose proof phi_sq as HP. pose proof phi_bounds as HB.
  unfold golden_split, mirror in *.
  assert (Hi : (/ phi = phi - 1)%R).
  { apply (Rmult_eq_reg_l phi); [|lra]. rewrite Rinv_r; lra. }
  unfold Rdiv. rewrite Hi.
  set (a := (m - l)%R) in *. set (b := (u - m)%R) in *.
  assert (Eu : (u = l + a + b)%R) by (unfold a, b; lra).
  assert (Em : (m = l + a)%R) by (unfold a; lra).
  clearbody a b. subst m u.
  assert (H3 : (phi * phi * phi = 2 * phi + 1)%R) by (rewrite HP; nra).
  rewrite H3.
  destruct HG as [HG|HG].
  - (* b = phi * a *)
    subst b. assert (0 < a)%R by nra. split; [nra|]. split; [nra|].
    split; [intro; nra|]. split.
    + intros _. repeat split; try (left; nra); try (right; nra); nra.
    + match goal with |- (Rabs ?t * _ = _)%R =>
        replace t with (- ((phi - 1) * a))%R by ring end.
      rewrite Rabs_Ropp, Rabs_pos_eq by nra. nra.
  - subst a. assert (0 < b)%R by nra. split; [nra|]. split; [nra|].
    split; [|split; [intro; nra|]].
    + intros _. repeat split; try (left; nra); try (right; nra); nra.
    + match goal with |- (Rabs ?t * _ = _)%R =>
        replace t with ((phi - 1) * b)%R by ring end.
      rewrite Rabs_pos_eq by nra. nra.
Qed.

Definition gs0 {Aux} (lower upper : R) (fn : R -> R * Aux) : gs_state (N:=RN) :=
  mkGs (N:=RN) lower ((upper - lower) / (phi + 1))%R upper
    (fst (fn ((upper - lower) / (phi + 1))%R)) true false.

Lemma gs_init_real : forall Aux rtol atol lower upper (fn : R -> R * Aux) y0 fs auxs,
  s_init (golden (N:=RN) rtol atol lower upper) fn y0 fs auxs = Ret (gs0 lower upper fn).
Proof.
  intros. cbn [s_init golden]. unfold gs_init, gs0. rewrite golden_ratio_phi.
  cbn [nadd ndiv nsub nofQ RN]. rewrite Q2R_1. reflexivity.
Qed.

Definition ginv {Aux} (fn : R -> R * Aux) (upper : R) (k : nat) (y : R) (st : gs_state (N:=RN)) : Prop :=
  let l := gs_lower st in let m := gs_middle st in let u := gs_upper st in
  golden_split l m u /\ (0 <= l /\ l < u /\ u <= upper)%R /\
  gs_f_middle st = fst (fn m) /\ (u - l = upper / phi ^ k)%R /\
  gs_first st = Nat.eqb k 0 /\ (k <> 0 -> y = mirror l m u).

Lemma phi_pow_pos : forall k, (0 < phi ^ k)%R.
Proof. intro k. apply pow_lt. pose proof phi_bounds; lra. Qed.

Lemma ginv_step : forall Aux (fn : R -> R * Aux) rtol atol upper k y st,
  ginv fn upper k y st ->
  let '(y', st', a) := gs_step (N:=RN) rtol atol fn y st in
  ginv fn upper (S k) y' st' /\
  a = snd (fn (mirror (gs_lower st) (gs_middle st) (gs_upper st))) /\
  gs_terminate st' = rterm rtol atol fn (gs_middle st) (mirror (gs_lower st) (gs_middle st) (gs_upper st)).
Proof.
  intros Aux fn rtol atol upper k y st (HG & HR & Hf & HW & H1 & Hy).
  destruct st as [l m u fm first t]. cbn [gs_lower gs_middle gs_upper gs_f_middle gs_first] in *.
  subst fm.
  rewrite step_real.
  2:{ intro E. apply Hy. rewrite E in H1. destruct k; [discriminate|]. lia. }
  destruct (golden_step l m u HG ltac:(lra)) as (Hm & Hmi & Hlo & Hup & _).
  set (y_ := mirror l m u) in *.
  assert (HS : (upper / phi ^ S k = (u - l) / phi)%R).
  { rewrite HW. simpl. pose proof (phi_pow_pos k). pose proof phi_bounds. field. split; lra. }
  unfold ginv. rewrite HS.
  destruct (Rltb (fst (fn y_)) (fst (fn m))), (Rltb y_ m) eqn:EL;
    cbn [gs_lower gs_middle gs_upper gs_f_middle gs_first gs_terminate]; rb;
    try (destruct (Hlo EL) as (A1 & A2 & A3 & A4)); try (destruct (Hup EL) as (A1 & A2 & A3 & A4));
    repeat split; auto; lra.
Qed.

Lemma ginv_0 : forall Aux (fn : R -> R * Aux) upper y0, (0 < upper)%R ->
  ginv fn upper 0 y0 (gs0 0 upper fn).
Proof.
  intros Aux fn upper y0 H. unfold ginv, gs0. cbn [gs_lower gs_middle gs_upper gs_f_middle gs_first].
  pose proof phi_sq. pose proof phi_bounds. rewrite Rminus_0_r. split.
  - left. rewrite !Rminus_0_r. apply (Rmult_eq_reg_r (phi + 1)); [|lra]. field_simplify; [|lra|lra].
    nra.
  - split; [lra|]. split; [reflexivity|]. split; [simpl; lra|]. split; [reflexivity|]. intro; lia.
Qed.

Lemma ginv_at : forall Aux (fn : R -> R * Aux) rtol atol upper y0 aux0 k, (0 < upper)%R ->
  let s := golden (N:=RN) (Aux:=Aux) rtol atol 0%R upper in
  ginv fn upper k (y_at s fn y0 (gs0 0 upper fn) aux0 k) (st_at s fn y0 (gs0 0 upper fn) aux0 k).
Proof.
  intros Aux fn rtol atol upper y0 aux0 k H s. induction k as [|k IH].
  - apply ginv_0; auto.
  - unfold y_at, st_at in *. cbn [trace s_step s golden].
    pose proof (ginv_step Aux fn rtol atol upper k _ _ IH) as HS.
    destruct (gs_step _ _ _ _ _) as [[y' st'] a]. exact (proj1 HS).
Qed.

(** *** C19 *)

(** Missing from the full claim: intervals with lower <> 0 (for those the
    claim is false, see C19_refuted). *)
Lemma C19_golden_ratio_kept_partial_pf :
  forall (Aux : Type) (rtol atol upper : R) (fn : R -> R * Aux) (y0 : R) fs auxs st0 (n : nat),
    let s := golden (N:=RN) rtol atol 0%R upper in
    (0 < upper)%R ->
    s_init s fn y0 fs auxs = Ret st0 ->
    let st := st_at s fn y0 st0 (auxs fill0) n in
    golden_split (gs_lower st) (gs_middle st) (gs_upper st) /\
    (gs_upper st - gs_lower st = upper / phi ^ n)%R.
Proof.
  intros Aux rtol atol upper fn y0 fs auxs st0 n s HU Hi st.
  assert (E : Ret st0 = Ret (gs0 0 upper fn)) by (etransitivity; [symmetry; exact Hi|apply gs_init_real]).
  injection E as ->.
  destruct (ginv_at Aux fn rtol atol upper y0 (auxs fill0) n HU) as (H1 & _ & _ & H2 & _).
  split; auto.
Qed.

(** *** C18 *)

(** Two functions that agree on [0, upper] cannot be told apart: fn is
    evaluated nowhere else.  Missing from the full claim: lower <> 0. *)
Lemma C18_evaluates_inside_partial_pf :
  forall (Aux : Type) (rtol atol upper : R) (fn fn' : R -> R * Aux) (y0 : R) fs auxs fuel ms throw,
    let s := golden (N:=RN) rtol atol 0%R upper in
    (0 < upper)%R ->
    (forall x, (0 <= x <= upper)%R -> fn x = fn' x) ->
    iterative_solve (fun _ => true) s fn fuel ms throw y0 fs auxs =
    iterative_solve (fun _ => true) s fn' fuel ms throw y0 fs auxs.
Proof.
  intros Aux rtol atol upper fn fn' y0 fs auxs fuel ms throw s HU HE.
  pose proof phi_bounds as HB.
  assert (HM : (0 <= (upper - 0) / (phi + 1) <= upper)%R).
  { rewrite Rminus_0_r. split.
    - apply Rmult_le_pos; [lra|]. apply Rlt_le, Rinv_0_lt_compat; lra.
    - apply (Rmult_le_reg_r (phi + 1)); [lra|]. unfold Rdiv. rewrite Rmult_assoc, Rinv_l, Rmult_1_r; nra. }
  assert (H0 : gs0 0 upper fn = gs0 0 upper fn').
  { unfold gs0. rewrite HE by exact HM. reflexivity. }
  set (st0 := gs0 0 upper fn) in *.
  set (aux0 := auxs fill0).
  assert (HT : forall k, trace s fn y0 st0 aux0 k = trace s fn' y0 st0 aux0 k).
  { induction k as [|k IH]; [reflexivity|]. cbn [trace]. rewrite <- IH.
    pose proof (ginv_at Aux fn rtol atol upper y0 aux0 k HU) as HI.
    fold s st0 in HI. unfold y_at, st_at in HI.
    destruct (trace s fn y0 st0 aux0 k) as [[y st] a]. cbn [fst snd] in *.
    cbn [s_step s golden]. destruct HI as (HG & HR & Hf & _ & H1 & Hy).
    destruct (golden_step _ _ _ HG ltac:(lra)) as (Hm & Hmi & _ & _).
    unfold gs_step.
    set (y_ := if gs_first st then _ else _).
    assert (Ey : y_ = mirror (gs_lower st) (gs_middle st) (gs_upper st)).
    { unfold y_. rewrite H1. destruct k; [reflexivity|]. simpl. apply Hy. lia. }
    rewrite (HE y_); [reflexivity|]. rewrite Ey. lra. }
  assert (Hi : forall g, gs0 0 upper g = st0 -> s_init s g y0 fs auxs = Ret st0).
  { intros g Eg. rewrite <- Eg. apply gs_init_real. }
  assert (HSI : forall k, stop_index (fun _ => true) s fn y0 st0 aux0 ms k <->
                          stop_index (fun _ => true) s fn' y0 st0 aux0 ms k).
  { intro k. unfold stop_index, stops, says_terminate, says_result, st_at.
    cbn [s_terminate s golden]. rewrite HT.
    split; intros (A & B & C); (split; [exact A|split; [|exact C]]); intros j Hj;
      specialize (B j Hj); rewrite HT in *; exact B. }
  assert (HSol : forall k, solution_at (fun _ => true) s fn y0 st0 aux0 ms k =
                           solution_at (fun _ => true) s fn' y0 st0 aux0 ms k).
  { intro k. unfold solution_at, final_result, says_terminate, says_result, y_at, st_at, aux_at.
    cbn [s_terminate s_post s golden]. rewrite HT. reflexivity. }
  assert (HF : forall k, final_result (fun _ => true) s fn y0 st0 aux0 k =
                         final_result (fun _ => true) s fn' y0 st0 aux0 k).
  { intro k. unfold final_result, says_terminate, says_result, st_at.
    cbn [s_terminate s golden]. rewrite HT. reflexivity. }
  destruct (iterative_solve_spec (fun _ => true) s fn y0 st0 aux0 fs auxs eq_refl (Hi fn eq_refl)
              fuel ms throw) as [A1 A2].
  destruct (iterative_solve_spec (fun _ => true) s fn' y0 st0 aux0 fs auxs eq_refl
              (Hi fn' (eq_sym H0)) fuel ms throw) as [B1 B2].
  assert (HD : (exists k, k < fuel /\ stop_index (fun _ => true) s fn y0 st0 aux0 ms k) \/
               (forall k, k < fuel -> ~ stop_index (fun _ => true) s fn y0 st0 aux0 ms k)).
  { destruct (iterative_solve (fun _ => true) s fn fuel ms throw y0 fs auxs) eqn:E.
    - left. destruct (iterative_solve_inv _ _ _ _ _ _ _ _ eq_refl (Hi fn eq_refl) _ _ _ _ E)
        as (k & Hk & Hs & _). eauto.
    - left. destruct (iterative_solve_raise_inv _ _ _ _ _ _ _ _ eq_refl (Hi fn eq_refl) _ _ _ _ E)
        as (k & Hk & Hs & _). eauto.
    - right. intros k Hk Hs. specialize (A1 k Hk Hs).
      match type of A1 with _ = (if ?b then _ else _) => destruct b end; discriminate A1. }
  destruct HD as [(k & Hk & Hs)|HN].
  - rewrite (A1 k Hk Hs), (B1 k Hk (proj1 (HSI k) Hs)), HF, HSol. reflexivity.
  - rewrite A2 by exact HN. rewrite B2; [reflexivity|].
    intros k Hk Hs. apply (HN k Hk). apply HSI; auto.
Qed.

(** Every iterate, and so every returned value, lies in (0, upper).  Missing
    from the full claim: lower <> 0. *)
Lemma C18_returns_inside_partial_pf :
  forall (Aux : Type) (rtol atol upper : R) (fn : R -> R * Aux) (y0 : R) fs auxs fuel ms throw sol,
    let s := golden (N:=RN) rtol atol 0%R upper in
    (0 < upper)%R -> ms <> Some 0 ->
    iterative_solve (fun _ => true) s fn fuel ms throw y0 fs auxs = Ret sol ->
    (0 < value sol < upper)%R.
Proof.
  intros Aux rtol atol upper fn y0 fs auxs fuel ms throw sol s HU Hms H.
  assert (Hi : s_init s fn y0 fs auxs = Ret (gs0 0 upper fn)) by apply gs_init_real.
  destruct (iterative_solve_inv (fun _ => true) s fn y0 _ _ fs auxs eq_refl Hi fuel ms throw sol H)
    as (k & Hk & (HS1 & HS2 & HS3) & -> & _).
  assert (Hk0 : k <> 0).
  { intros ->. destruct HS1 as [[HS|[HS|HS]]|HS]; try discriminate; try congruence.
    apply HS. reflexivity. }
  destruct (ginv_at Aux fn rtol atol upper y0 (auxs fill0) k HU) as (HG & HR & _ & _ & _ & Hy).
  fold s in HG, HR, Hy.
  destruct (golden_step _ _ _ HG ltac:(lra)) as (_ & Hmi & _ & _).
  unfold solution_at. cbn [s_post s golden value]. fold s. rewrite (Hy Hk0). lra.
Qed.

(** *** C20 *)

Lemma uni_at : forall Aux (fn : R -> R * Aux) rtol atol upper y0 aux0 x k, (0 < upper)%R ->
  unimodal (fun z => fst (fn z)) 0 upper x ->
  let s := golden (N:=RN) (Aux:=Aux) rtol atol 0%R upper in
  let st := st_at s fn y0 (gs0 0 upper fn) aux0 k in
  (gs_lower st <= x <= gs_upper st)%R.
Proof.
  intros Aux fn rtol atol upper y0 aux0 x k HU HX s st. unfold st. clear st. induction k as [|k IH].
  - unfold st_at. cbn [trace fst snd gs0 gs_lower gs_upper]. destruct HX as [HX _]. lra.
  - pose proof (ginv_at Aux fn rtol atol upper y0 aux0 k HU) as HI. fold s in HI.
    unfold st_at, y_at in *. cbn [trace s_step s golden]. fold s.
    destruct (trace s fn y0 (gs0 0 upper fn) aux0 k) as [[y st] a]. cbn [fst snd] in *.
    destruct HI as (HG & HR & Hf & HW & H1 & Hy).
    destruct st as [l m u fm first t]. cbn [gs_lower gs_middle gs_upper gs_f_middle gs_first] in *.
    subst fm. rewrite step_real.
    2:{ intro E. apply Hy. rewrite E in H1. destruct k; [discriminate|]. lia. }
    destruct (golden_step l m u HG ltac:(lra)) as (Hm & Hmi & _ & _).
    set (y_ := mirror l m u) in *. destruct HX as (HX & HD & HI).
    destruct (Rltb (fst (fn y_)) (fst (fn m))) eqn:EF, (Rltb y_ m) eqn:EL;
      cbn [fst snd gs_lower gs_upper]; rb.
    + destruct (Rle_dec x m); [lra|]. specialize (HD y_ m). lra.
    + destruct (Rle_dec m x); [lra|]. destruct (Req_dec m y_) as [E|E]; [rewrite E in EF; lra|].
      specialize (HI m y_). lra.
    + destruct (Rle_dec y_ x); [lra|]. specialize (HI y_ m). lra.
    + destruct (Rle_dec x y_); [lra|]. destruct (Req_dec m y_) as [E|E].
      * exfalso. destruct (golden_step l m u HG ltac:(lra)) as (_ & _ & _ & _ & HA).
        fold y_ in HA. rewrite E, Rminus_diag_eq, Rabs_R0 in HA by reflexivity. lra.
      * specialize (HD m y_). lra.
Qed.

(** After n steps the iterate is within upper/phi^n of the minimiser of a
    unimodal function, and the minimiser stays in the stored interval.
    Missing from the full claim: lower <> 0. *)
Lemma C20_unimodal_partial_pf :
  forall (Aux : Type) (rtol atol upper : R) (fn : R -> R * Aux) (y0 : R) fs auxs st0 (x : R) (n : nat),
    let s := golden (N:=RN) rtol atol 0%R upper in
    (0 < upper)%R -> unimodal (fun z => fst (fn z)) 0 upper x ->
    s_init s fn y0 fs auxs = Ret st0 ->
    let st := st_at s fn y0 st0 (auxs fill0) n in
    (gs_lower st <= x <= gs_upper st)%R /\
    (1 <= n -> (Rabs (y_at s fn y0 st0 (auxs fill0) n - x) <= upper / phi ^ n)%R).
Proof.
  intros Aux rtol atol upper fn y0 fs auxs st0 x n s HU HX Hi st.
  assert (E : Ret st0 = Ret (gs0 0 upper fn)) by (etransitivity; [symmetry; exact Hi|apply gs_init_real]).
  injection E as ->.
  pose proof (uni_at Aux fn rtol atol upper y0 (auxs fill0) x n HU HX) as H1. fold s in H1.
  split; [exact H1|]. intro Hn.
  destruct (ginv_at Aux fn rtol atol upper y0 (auxs fill0) n HU) as (HG & HR & _ & HW & _ & Hy).
  fold s in HG, HR, HW, Hy.
  destruct (golden_step _ _ _ HG ltac:(lra)) as (_ & Hmi & _ & _).
  rewrite Hy by lia. rewrite <- HW. apply Rabs_le. lra.
Qed.

(** Success means the minimiser is close: within phi^2 tolerances.
    Missing from the full claim: lower <> 0. *)
Lemma C20_success_near_minimum_partial_pf :
  forall (Aux : Type) (rtol atol upper : R) (fn : R -> R * Aux) (y0 : R) fs auxs fuel ms throw sol (x : R),
    let s := golden (N:=RN) rtol atol 0%R upper in
    (0 < upper)%R -> (0 < atol)%R -> (0 <= rtol)%R ->
    unimodal (fun z => fst (fn z)) 0 upper x ->
    iterative_solve (fun _ => true) s fn fuel ms throw y0 fs auxs = Ret sol ->
    result sol = successful ->
    (Rabs (value sol - x) <= phi ^ 2 * (atol + rtol * upper))%R.
Proof.
  intros Aux rtol atol upper fn y0 fs auxs fuel ms throw sol x s HU Ha Hr HX H HR.
  assert (Hi : s_init s fn y0 fs auxs = Ret (gs0 0 upper fn)) by apply gs_init_real.
  destruct (iterative_solve_inv (fun _ => true) s fn y0 _ _ fs auxs eq_refl Hi fuel ms throw sol H)
    as (k & Hk & (HS1 & HS2 & HS3) & -> & _).
  assert (HT : says_terminate s fn y0 (gs0 0 upper fn) (auxs fill0) k = true).
  { destruct (says_terminate s fn y0 (gs0 0 upper fn) (auxs fill0) k) eqn:E; auto.
    unfold solution_at, final_result in HR. rewrite E in HR.
    cbn [s_post s golden result says_result s_terminate snd] in HR. discriminate. }
  destruct k as [|k].
  { discriminate. }
  pose proof (ginv_at Aux fn rtol atol upper y0 (auxs fill0) k HU) as HI. fold s in HI.
  pose proof (ginv_step Aux fn rtol atol upper k _ _ HI) as HSt.
  pose proof (uni_at Aux fn rtol atol upper y0 (auxs fill0) x (S k) HU HX) as HX'. fold s in HX'.
  unfold says_terminate in HT. cbn [s_terminate s golden fst] in HT.
  unfold solution_at. cbn [s_post s golden value]. fold s.
  unfold y_at, st_at in *. cbn [trace] in *. cbn [s_step s golden] in HT, HSt, HX', HI |- *. fold s in HT, HSt, HX', HI |- *.
  destruct (trace s fn y0 (gs0 0 upper fn) (auxs fill0) k) as [[y st] a0]. cbn [fst snd] in *.
  destruct (gs_step rtol atol fn y st) as [[y' st'] a] eqn:ES. cbn [fst snd] in *.
  destruct HSt as (HI' & _ & Ht). rewrite HT in Ht. symmetry in Ht.
  unfold rterm in Ht. apply andb_true_iff in Ht. destruct Ht as [Ht _]. rb.
  destruct HI as (HG & HR1 & _ & HW & _). destruct HI' as (HG' & HR' & _ & HW' & _ & Hy').
  destruct (golden_step _ _ _ HG ltac:(lra)) as (Hm & Hmi & _ & _ & HA).
  destruct (golden_step _ _ _ HG' ltac:(lra)) as (_ & Hmi' & _ & _).
  set (m := gs_middle st) in *. set (ym := mirror (gs_lower st) m (gs_upper st)) in *.
  assert (Hsc : (0 < atol + rtol * Rabs m <= atol + rtol * upper)%R).
  { pose proof (Rabs_pos m). rewrite Rabs_pos_eq by lra. nra. }
  rewrite Rabs_pos_eq in Ht.
  2:{ apply Rmult_le_pos; [apply Rabs_pos|]. apply Rlt_le, Rinv_0_lt_compat; lra. }
  assert (Ht' : (Rabs (m - ym) < atol + rtol * Rabs m)%R).
  { apply (Rmult_lt_compat_r (atol + rtol * Rabs m)) in Ht; [|lra].
    unfold Rdiv in Ht. rewrite Rmult_assoc, Rinv_l, Rmult_1_r, Rmult_1_l in Ht by lra. exact Ht. }
  rewrite Hy' by lia. pose proof phi_bounds. pose proof phi_sq.
  assert (HD : (gs_upper st' - gs_lower st' = Rabs (m - ym) * phi ^ 2)%R).
  { rewrite HW'. transitivity ((gs_upper st - gs_lower st) / phi)%R.
    - rewrite HW. simpl. pose proof (phi_pow_pos k). field. split; lra.
    - rewrite <- HA. simpl. field. lra. }
  apply Rle_trans with (gs_upper st' - gs_lower st')%R; [apply Rabs_le; lra|].
  rewrite HD. pose proof (phi_pow_pos 2). nra.
Qed.

Lemma phi_pow_small : forall c eps, (0 < c)%R -> (0 < eps)%R -> exists n, forall k, n <= k -> (c / phi ^ k < eps)%R.
Proof.
  intros c eps Hc He. pose proof phi_bounds as HB.
  destruct (Pow_x_infinity phi ltac:(rewrite Rabs_pos_eq; lra) (c / eps + 1)) as (n & Hn).
  exists n. intros k Hk. specialize (Hn k Hk). rewrite Rabs_pos_eq in Hn by (apply Rlt_le, phi_pow_pos).
  pose proof (phi_pow_pos k). apply (Rmult_lt_reg_r (phi ^ k)); auto.
  unfold Rdiv. rewrite Rmult_assoc, Rinv_l, Rmult_1_r by lra.
  assert (c / eps < phi ^ k)%R by lra.
  apply (Rmult_lt_compat_l eps) in H0; auto. unfold Rdiv in H0.
  rewrite <- Rmult_assoc, (Rmult_comm eps c), Rmult_assoc, Rinv_r in H0; lra.
Qed.

(** For a continuous function (unimodal or not) the search ends successfully
    after finitely many steps.  Missing from the full claim: lower <> 0. *)
Lemma C20_terminates_partial_pf :
  forall (Aux : Type) (rtol atol upper : R) (fn : R -> R * Aux) (y0 : R) fs auxs,
    let s := golden (N:=RN) rtol atol 0%R upper in
    (0 < upper)%R -> (0 < atol)%R -> (0 <= rtol)%R ->
    continuity (fun z => fst (fn z)) ->
    exists k, forall fuel ms throw, k < fuel -> (forall m, ms = Some m -> k <= m) ->
      exists sol, iterative_solve (fun _ => true) s fn fuel ms throw y0 fs auxs = Ret sol /\
        result sol = successful.
Proof.
  intros Aux rtol atol upper fn y0 fs auxs s HU Ha Hr HC.
  assert (Hi : s_init s fn y0 fs auxs = Ret (gs0 0 upper fn)) by apply gs_init_real.
  set (f := fun z => fst (fn z)) in *.
  assert (HCa : forall z, (0 <= z <= upper)%R -> continuity_pt f z) by (intros; apply HC).
  destruct (Heine_cor2 (f:=f) (a:=0%R) (b:=upper) HCa (mkposreal _ Ha)) as (d & Hd).
  cbn [pos] in Hd.
  assert (Hd' : (0 < Rmin d atol)%R) by (apply Rmin_pos; [apply cond_pos|auto]).
  destruct (phi_pow_small upper _ HU Hd') as (n & Hn).
  assert (HT : exists k, says_terminate s fn y0 (gs0 0 upper fn) (auxs fill0) k = true).
  { exists (S n). unfold says_terminate. cbn [s_terminate s golden fst]. fold s.
    pose proof (ginv_at Aux fn rtol atol upper y0 (auxs fill0) n HU) as HI. fold s in HI.
    pose proof (ginv_step Aux fn rtol atol upper n _ _ HI) as HSt.
    unfold y_at, st_at in *. cbn [trace] in *. cbn [s_step s golden] in HSt, HI |- *. fold s in HSt, HI |- *.
    destruct (trace s fn y0 (gs0 0 upper fn) (auxs fill0) n) as [[y st] a0]. cbn [fst snd] in *.
    destruct (gs_step rtol atol fn y st) as [[y' st'] a] eqn:ES. cbn [fst snd] in *.
    destruct HSt as (_ & _ & ->). destruct HI as (HG & HR1 & _ & HW & _).
    destruct (golden_step _ _ _ HG ltac:(lra)) as (Hm & Hmi & _ & _ & HA).
    set (m := gs_middle st) in *. set (ym := mirror (gs_lower st) m (gs_upper st)) in *.
    specialize (Hn n (le_n _)). rewrite <- HW in Hn.
    assert (HD : (Rabs (m - ym) < Rmin d atol)%R).
    { eapply Rlt_trans; [|exact Hn]. apply Rabs_def1; lra. }
    pose proof (Rmin_l d atol). pose proof (Rmin_r d atol).
    specialize (Hd m ym ltac:(lra) ltac:(lra) ltac:(lra)).
    assert (HQ : forall num z, (Rabs num < atol)%R ->
       (Rabs (Rabs num / (atol + rtol * Rabs z)) < 1)%R).
    { intros num z Hz. pose proof (Rabs_pos z). assert (0 < atol + rtol * Rabs z)%R by nra.
      rewrite Rabs_pos_eq.
      2:{ apply Rmult_le_pos; [apply Rabs_pos|]. apply Rlt_le, Rinv_0_lt_compat; lra. }
      apply (Rmult_lt_reg_r (atol + rtol * Rabs z)); auto.
      unfold Rdiv. rewrite Rmult_assoc, Rinv_l by lra. nra. }
    unfold rterm. apply andb_true_iff. fold (f m) (f ym). split; rb; apply HQ; [lra|exact Hd]. }
  destruct HT as (k1 & HT).
  destruct (solve_succeeds (fun _ => true) s fn y0 _ _ fs auxs eq_refl Hi
              (fun _ => eq_refl) (fun _ => eq_refl) (ex_intro _ k1 HT)) as (k & _ & _ & Hk).
  exists k. intros fuel ms throw Hf Hms. eexists. destruct (Hk fuel ms throw Hf Hms). split; eauto.
Qed.

(** *** Refutations for lower <> 0 *)

Definition parabola (x : R) : R * unit := ((x - 103/10) * (x - 103/10), tt)%R.

Lemma parabola_unimodal : unimodal (fun z => fst (parabola z)) 10 11 (103/10).
Proof.
  unfold unimodal, parabola; cbn [fst]. split; [lra|]. split; intros p q H1 H2 H3; nra.
Qed.

(** One step on [10, 11] for (x - 10.3)^2. *)
Lemma parabola_run :
  let s := golden (N:=RN) (Aux:=unit) 0%R (/1000)%R 10%R 11%R in
  let m := (/ (phi + 1))%R in
  s_step s parabola 10%R (gs0 10 11 parabola) =
  (31 - 2 * m, mkGs (N:=RN) 10 m (21 - m) (fst (parabola m)) false false, tt)%R.
Proof.
  intros s m. pose proof phi_bounds as HB. pose proof phi_sq as HQ.
  assert (Hm : (1/4 < m < 1/2)%R).
  { unfold m. split.
    - apply (Rmult_lt_reg_r (phi + 1)); [lra|]. rewrite Rinv_l by lra. lra.
    - apply (Rmult_lt_reg_r (phi + 1)); [lra|]. rewrite Rinv_l by lra. lra. }
  cbn [s_step s golden].
  assert (E0 : gs0 10 11 parabola = mkGs (N:=RN) 10%R m 11%R (fst (parabola m)) true false).
  { unfold gs0. replace ((11 - 10) / (phi + 1))%R with m by (unfold m, Rdiv; ring). reflexivity. }
  rewrite E0. rewrite (step_real 0 (/1000) parabola 10 10 m 11 true false) by discriminate.
  set (y_ := mirror 10 m 11). assert (Ey : y_ = (21 - m)%R) by (unfold y_, mirror; lra).
  assert (E1 : Rltb (fst (parabola y_)) (fst (parabola m)) = false).
  { unfold parabola; cbn [fst]. rb. rewrite Ey. nra. }
  assert (E2 : Rltb y_ m = false) by (rb; lra).
  rewrite E1, E2. cbn [gs_lower gs_middle gs_upper].
  assert (E3 : rterm 0 (/ 1000) parabola m y_ = false).
  { unfold rterm. apply andb_false_iff. left. rb. rewrite Ey.
    replace (m - (21 - m))%R with (- (21 - 2 * m))%R by ring.
    rewrite Rabs_Ropp. rewrite (Rabs_pos_eq (21 - 2 * m)) by lra.
    rewrite Rmult_0_l, Rplus_0_r. unfold Rdiv. rewrite Rinv_inv, Rabs_pos_eq; lra. }
  rewrite E3, Ey.
  replace (mirror 10 m (21 - m)) with (31 - 2 * m)%R by (unfold mirror; lra). reflexivity.
Qed.

(** The claims C18-C20 fail for intervals that do not start at 0: for the
    unimodal function (x - 10.3)^2 on [10, 11], one step leads to a "solution"
    larger than 30, outside the interval, and to a stored interval more than
    10 times as long as the initial one. *)
Lemma golden_refuted :
  exists (rtol atol lower upper x y0 : R) (fn : R -> R * unit) fs auxs sol,
    (0 <= rtol)%R /\ (0 < atol)%R /\ (lower < x < upper)%R /\ (lower <= y0 <= upper)%R /\
    unimodal (fun z => fst (fn z)) lower upper x /\
    iterative_solve (fun _ => true) (golden (N:=RN) rtol atol lower upper) fn 2 (Some 1) false y0 fs auxs
      = Ret sol /\
    (upper + 10 < value sol)%R /\
    (gs_upper (state sol) - gs_lower (state sol) > 10 * (upper - lower))%R /\
    (Rabs (value sol - x) > 10 * (upper - lower))%R.
Proof.
  exists 0%R, (/1000)%R, 10%R, 11%R, (103/10)%R, 10%R, parabola, (fun _ => 0%R), (fun _ => tt).
  set (s := golden (N:=RN) 0%R (/1000)%R 10%R 11%R).
  pose proof phi_bounds as HB.
  set (m := (/ (phi + 1))%R).
  assert (Hm : (1/4 < m < 1/2)%R).
  { unfold m. split.
    - apply (Rmult_lt_reg_r (phi + 1)); [lra|]. rewrite Rinv_l by lra. lra.
    - apply (Rmult_lt_reg_r (phi + 1)); [lra|]. rewrite Rinv_l by lra. lra. }
  assert (Hi : s_init s parabola 10%R (fun _ => 0%R) (fun _ => tt) = Ret (gs0 10 11 parabola))
    by apply gs_init_real.
  assert (HT : trace s parabola 10%R (gs0 10 11 parabola) tt 1 =
    (31 - 2 * m, mkGs (N:=RN) 10 m (21 - m) (fst (parabola m)) false false, tt)%R)
    by exact parabola_run.
  assert (HS : stop_index (fun _ => true) s parabola 10%R (gs0 10 11 parabola) tt (Some 1) 1).
  { split; [right; reflexivity|]. split.
    - intros j Hj. assert (j = 0) by lia. subst j. intros [H|[H|H]]; try discriminate. apply H; reflexivity.
    - intros m' E. injection E as <-. auto. }
  destruct (iterative_solve_spec (fun _ => true) s parabola 10%R _ tt (fun _ => 0%R) (fun _ => tt)
              eq_refl Hi 2 (Some 1) false) as [H1 _].
  eexists. split; [lra|]. split; [lra|]. split; [lra|]. split; [lra|].
  split; [apply parabola_unimodal|].
  split; [exact (H1 1 (le_n 2) HS)|].
  unfold solution_at. cbn [s_post s golden value state]. fold s. unfold y_at, st_at.
  rewrite HT. cbn [fst snd gs_lower gs_upper].
  rewrite Rabs_pos_eq by lra. lra.
Qed.

(** C18 fails in general: see the comment on the common witness. *)
Lemma C18_stays_inside_refuted_pf :
  exists (rtol atol lower upper x y0 : R) (fn : R -> R * unit) fs auxs sol,
    (0 <= rtol)%R /\ (0 < atol)%R /\ (lower < x < upper)%R /\ (lower <= y0 <= upper)%R /\
    unimodal (fun z => fst (fn z)) lower upper x /\
    iterative_solve (fun _ => true) (golden (N:=RN) rtol atol lower upper) fn 2 (Some 1) false y0 fs auxs
      = Ret sol /\
    (upper + 10 < value sol)%R.
Proof.
  destruct golden_refuted as (rtol & atol & lower & upper & x & y0 & fn & fs & auxs & sol & H).
  exists rtol, atol, lower, upper, x, y0, fn, fs, auxs, sol. tauto.
Qed.

(** C19 fails in general: the interval kept after one step is more than ten
    times as long as the one given. *)
Lemma C19_golden_ratio_kept_refuted_pf :
  exists (rtol atol lower upper x y0 : R) (fn : R -> R * unit) fs auxs sol,
    (0 <= rtol)%R /\ (0 < atol)%R /\ (lower < x < upper)%R /\ (lower <= y0 <= upper)%R /\
    unimodal (fun z => fst (fn z)) lower upper x /\
    iterative_solve (fun _ => true) (golden (N:=RN) rtol atol lower upper) fn 2 (Some 1) false y0 fs auxs
      = Ret sol /\
    (gs_upper (state sol) - gs_lower (state sol) > 10 * (upper - lower))%R.
Proof.
  destruct golden_refuted as (rtol & atol & lower & upper & x & y0 & fn & fs & auxs & sol & H).
  exists rtol, atol, lower, upper, x, y0, fn, fs, auxs, sol. tauto.
Qed.

(** C20 fails in general: the value returned after one step is more than ten
    interval lengths away from the minimiser. *)
Lemma C20_unimodal_refuted_pf :
  exists (rtol atol lower upper x y0 : R) (fn : R -> R * unit) fs auxs sol,
    (0 <= rtol)%R /\ (0 < atol)%R /\ (lower < x < upper)%R /\ (lower <= y0 <= upper)%R /\
    unimodal (fun z => fst (fn z)) lower upper x /\
    iterative_solve (fun _ => true) (golden (N:=RN) rtol atol lower upper) fn 2 (Some 1) false y0 fs auxs
      = Ret sol /\
    (Rabs (value sol - x) > 10 * (upper - lower))%R.
Proof.
  destruct golden_refuted as (rtol & atol & lower & upper & x & y0 & fn & fs & auxs & sol & H).
  exists rtol, atol, lower, upper, x, y0, fn, fs, auxs, sol. tauto.
Qed.

(** Concrete runs in binary64 for (x - 10.5)^2: on [0, 11] the search succeeds
    near 10.5; on [10, 20] it has not converged after 199 steps and returns a
    value above 1000. *)
Definition dist105 (x : f64) : f64 * unit :=
  let d := fsub x (f64_ofQ (21#2)) in (fmul d d, tt).
Definition golden_ex (lo up : Z) :=
  iterative_solve (fun x => nisfin (n:=F64) x)
    (golden (N:=F64) (f64_ofQ (1#1000)) (f64_ofQ (1#1000)) (f64_ofZ lo) (f64_ofZ up))
    dist105 200 (Some 199) false (f64_ofZ lo) (fun _ => f64_ofZ 0) (fun _ => tt).
Example C20_unimodal_ex_pf :
  (exists sol, golden_ex 0 11 = Ret sol /\
     results_eqb (result sol) successful &&
     nltb (n:=F64) (f64_ofQ (1049#100)) (value sol) &&
     nltb (n:=F64) (value sol) (f64_ofQ (1051#100)) = true) /\
  (exists sol, golden_ex 10 20 = Ret sol /\
     results_eqb (result sol) nonlinear_max_steps_reached &&
     nltb (n:=F64) (f64_ofZ 1000) (value sol) = true).
Proof.
  assert (CR : forall A (x : outcome A) (p : A -> bool),
    match x with Ret a => p a | _ => false end = true -> exists a, x = Ret a /\ p a = true).
  { intros A [a|e|] p H; try discriminate. exists a; auto. }
  split; apply CR; vm_compute; reflexivity.
Qed.

(** The hypotheses of the theorems for lower = 0 hold for |x - 2| on [0, 5]. *)
Example C20_hypotheses_ex_pf :
  let fn := fun x : R => (Rabs (x - 2), tt) in
  unimodal (fun z => fst (fn z)) 0 5 2 /\ continuity (fun z => fst (fn z)).
Proof.
  intro fn. split.
  - unfold unimodal, fn; cbn [fst]. split; [lra|].
    split; intros p q H1 H2 H3; unfold Rabs; destruct (Rcase_abs (p - 2)), (Rcase_abs (q - 2)); lra.
  - unfold fn; cbn [fst]. apply (continuity_comp (fun z => z - 2)%R Rabs).
    + apply continuity_minus; [apply derivable_continuous, derivable_id|].
      apply continuity_const. intros x y; reflexivity.
    + apply Rcontinuity_abs.
Qed.

(** *** C11 for GoldenSearch *)

(** BestSoFarMinimiser(GoldenSearch) does not return the best iterate, not
    even on [0, 11] where GoldenSearch itself works: GoldenSearch's first step
    evaluates another point than the y0 it is given, and BestSoFar books that
    point's loss under y0.  Witness in binary64: f(x) = (x - c)^2 with c the
    first point evaluated by `step` (about 6.8), y0 = 3.  The solve reports
    success and returns y0 = 3, although the second iterate has a smaller
    loss. *)
Definition gs_c : f64 :=
  let lo := f64_ofZ 0 in let up := f64_ofZ 11 in
  fadd lo (fsub up (fdiv (fsub up lo) (fadd (golden_ratio (N:=F64)) (f64_ofZ 1)))).
Definition dist_c (x : f64) : f64 * unit := let d := fsub x gs_c in (fmul d d, tt).
(** BestSoFarMinimiser(GoldenSearch) reports success and returns y0 although a later
    iterate has a smaller loss (binary64 witness just defined). *)
Lemma C11_golden_refuted_pf :
  exists (lower upper y0 : f64) (fn : f64 -> f64 * unit) sol sol1,
    let g := fun Aux => golden (N:=F64) (Aux:=Aux) (f64_ofQ (1#1000)) (f64_ofQ (1#1000)) lower upper in
    iterative_solve (fun x => nisfin (n:=F64) x) (best_so_far loss_minimiser (g (f64 * unit)%type))
      fn 200 None true y0 (fun _ => f64_ofZ 0) (fun _ => tt) = Ret sol /\
    iterative_solve (fun x => nisfin (n:=F64) x) (g unit)
      fn 2 (Some 1) false y0 (fun _ => f64_ofZ 0) (fun _ => tt) = Ret sol1 /\
    nltb (n:=F64) lower y0 = true /\ nltb (n:=F64) y0 upper = true /\
    result sol = successful /\
    nltb (n:=F64) (fst (fn (value sol1))) (fst (fn (value sol))) = true.
Proof.
  exists (f64_ofZ 0), (f64_ofZ 11), (f64_ofZ 3), dist_c. cbv zeta.
  assert (CR : forall A (x : outcome A) (p : A -> bool),
    match x with Ret a => p a | _ => false end = true -> exists a, x = Ret a /\ p a = true).
  { intros A [a|e|] p H; try discriminate. exists a; auto. }
  match goal with |- exists sol sol1, ?a = _ /\ ?b = _ /\ _ =>
    destruct (CR _ a (fun sol => results_eqb (result sol) successful &&
      nltb (n:=F64) (f64_ofZ 14) (fst (dist_c (value sol))))) as (sol & E & P);
    [vm_compute; reflexivity|];
    destruct (CR _ b (fun sol => nltb (n:=F64) (fst (dist_c (value sol))) (f64_ofZ 14)))
      as (sol1 & E1 & P1); [vm_compute; reflexivity|] end.
  exists sol, sol1. split; [exact E|]. split; [exact E1|].
  split; [vm_compute; reflexivity|]. split; [vm_compute; reflexivity|].
  apply andb_true_iff in P. destruct P as [P2 P3]. split; [apply results_eqb_eq; exact P2|].
  apply (ol_trans F64 F64_laws _ (f64_ofZ 14)); assumption.
Qed.
