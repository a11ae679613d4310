(** Proofs about bisection. *)

From Coq Require Import String List Bool Arith Lia ZArith QArith Qreals Reals Lra.
From Verif Require Import Num NumFacts Results Iterate Spec_Iterate Iterate_proofs.
From Verif Require Import Bisection Spec_Bisection NumF64 Spec_Wrappers.
Import ListNotations.
Local Open Scope nat_scope.

Lemma bis_step_flip : forall (N : Num) Aux (fn : N -> N * Aux) y st,
  bis_flip (snd (fst (bis_step fn y st))) = bis_flip st.
Proof. intros. unfold bis_step. destruct (fn y). reflexivity. Qed.

Lemma bis_step_sign : forall (N : Num) Aux (fn : N -> N * Aux) y st,
  sign_change (fun x => fst (fn x)) (bis_flip st) (bis_lower st) (bis_upper st) ->
  let st' := snd (fst (bis_step fn y st)) in
  sign_change (fun x => fst (fn x)) (bis_flip st') (bis_lower st') (bis_upper st').
Proof.
  intros N Aux fn y st [H1 H2]. unfold bis_step.
  destruct (fn y) as [e a] eqn:E. simpl. unfold sign_change.
  destruct (bis_flip st) eqn:EF, (nltb e (nofQ 0)) eqn:EE; simpl in *; rewrite ?E; simpl; auto.
Qed.

(** Whatever y0, the stored interval keeps its sign change and orientation:
    user-specified flip. *)
Lemma C12_sign_change_kept_pf :
  forall (N : Num) (Aux : Type) (rtol atol : N) flip expand bfuel lower upper
         (fn : N -> N * Aux) (y0 : N) st0 aux0 (k : nat),
    let f := fun x => fst (fn x) in
    let s := bisection rtol atol flip expand bfuel lower upper in
    sign_change f (bis_flip st0) (bis_lower st0) (bis_upper st0) ->
    let st := st_at s fn y0 st0 aux0 k in
    bis_flip st = bis_flip st0 /\ sign_change f (bis_flip st0) (bis_lower st) (bis_upper st).
Proof.
  intros N Aux rtol atol flip expand bfuel lower upper fn y0 st0 aux0 k f s H st.
  assert (HK : bis_flip st = bis_flip st0 /\
               sign_change f (bis_flip st) (bis_lower st) (bis_upper st)).
  { unfold st. clear st. induction k as [|k IH]; [split; auto|].
    destruct IH as [IH1 IH2]. unfold st_at. cbn [trace s_step s bisection]. split.
    - rewrite bis_step_flip. exact IH1.
    - apply bis_step_sign. exact IH2. }
  destruct HK as [H1 H2]. rewrite H1 in H2. auto.
Qed.

(** What `init` does with flip="detect" and no expansion: it raises exactly
    when both values are negative or both are not; otherwise the orientation
    found is the true one. *)
Lemma C16_detect_pf :
  forall (N : Num) (L : OrdLaws N) (Aux : Type) (rtol atol : N) bfuel lower upper
         (fn : N -> N * Aux) (y0 : N) fs auxs,
    let f := fun x => fst (fn x) in
    let s := bisection rtol atol Detect false bfuel lower upper in
    nisnan (f lower) = false -> nisnan (f upper) = false ->
    (nltb (f lower) (lit 0) = nltb (f upper) (lit 0) ->
       s_init s fn y0 fs auxs = Raise RuntimeError) /\
    (nltb (f lower) (lit 0) <> nltb (f upper) (lit 0) ->
       exists st0, s_init s fn y0 fs auxs = Ret st0 /\
         bis_lower st0 = lower /\ bis_upper st0 = upper /\
         sign_change f (bis_flip st0) lower upper).
Proof.
  intros N L Aux rtol atol bfuel lower upper fn y0 fs auxs f s Hl Hu.
  apply nisnan_false in Hl. apply nisnan_false in Hu.
  cbn [s_init s bisection]. unfold bis_init. fold (f lower) (f upper).
  split; intro H.
  - rewrite H, eqb_reflx. reflexivity.
  - destruct (nltb (f lower) (nofQ 0)) eqn:El, (nltb (f upper) (nofQ 0)) eqn:Eu;
      try congruence; simpl.
    + eexists. split; [reflexivity|]. repeat split; auto; simpl.
      * destruct (nltb (f upper) (f lower)) eqn:E; auto.
        pose proof (ol_trans N L _ _ _ E El) as HC. congruence.
      * destruct (nltb (f upper) (f lower)) eqn:E; auto.
        pose proof (ol_trans N L _ _ _ E El) as HC. congruence.
    + eexists. split; [reflexivity|].
      assert (E : nltb (f upper) (f lower) = true).
      { destruct (nltb (f upper) (f lower)) eqn:E; auto.
        pose proof (not_lt_le L _ _ Hu Hl E) as HC.
        pose proof (le_lt_trans L _ _ _ HC Eu). congruence. }
      repeat split; auto; simpl; rewrite E; auto.
Qed.

(** With flip="detect": every solve that gets past `init` keeps a sign change
    of the detected orientation. *)
Lemma C12_detect_pf :
  forall (N : Num) (L : OrdLaws N) (Aux : Type) (rtol atol : N) bfuel lower upper
         (fn : N -> N * Aux) (y0 : N) fs auxs st0 aux0 (k : nat),
    let f := fun x => fst (fn x) in
    let s := bisection rtol atol Detect false bfuel lower upper in
    nisnan (f lower) = false -> nisnan (f upper) = false ->
    s_init s fn y0 fs auxs = Ret st0 ->
    let st := st_at s fn y0 st0 aux0 k in
    sign_change f (bis_flip st0) lower upper /\
    sign_change f (bis_flip st0) (bis_lower st) (bis_upper st).
Proof.
  intros N L Aux rtol atol bfuel lower upper fn y0 fs auxs st0 aux0 k f s Hl Hu Hi st.
  destruct (C16_detect_pf N L Aux rtol atol bfuel lower upper fn y0 fs auxs Hl Hu) as [H1 H2].
  fold s f in H1, H2.
  destruct (bool_dec (nltb (f lower) (nofQ 0)) (nltb (f upper) (nofQ 0))) as [E|E].
  - rewrite (H1 E) in Hi. discriminate.
  - destruct (H2 E) as (st1 & Hi1 & El & Eu & HS). rewrite Hi in Hi1. injection Hi1 as <-.
    split; auto.
    apply (C12_sign_change_kept_pf N Aux rtol atol Detect false bfuel lower upper fn y0 st0 aux0 k).
    rewrite El, Eu. exact HS.
Qed.

(** *** Exact arithmetic: halving *)

Lemma half_lit : @nofQ RN (1#2) = (/2)%R. Proof. apply Q2R_half. Qed.

(** From the first step on the iterate is the midpoint of the stored interval,
    and from the second on each step exactly halves the interval. *)
Lemma C13_halving_pf :
  forall (Aux : Type) (rtol atol : R) flip expand bfuel (lower upper : R)
         (fn : R -> R * Aux) (y0 : R) st0 aux0 (n : nat),
    let s := bisection (N:=RN) rtol atol flip expand bfuel lower upper in
    let l := fun k => bis_lower (st_at s fn y0 st0 aux0 k) in
    let u := fun k => bis_upper (st_at s fn y0 st0 aux0 k) in
    y_at s fn y0 st0 aux0 (S n) = ((l (S n) + u (S n)) / 2)%R /\
    (u (S (S n)) - l (S (S n)) = (u (S n) - l (S n)) / 2)%R /\
    (u (S n) - l (S n) = (u 1%nat - l 1%nat) / 2 ^ n)%R.
Proof.
  intros Aux rtol atol flip expand bfuel lower upper fn y0 st0 aux0 n s l u.
  assert (HM : forall k, y_at s fn y0 st0 aux0 (S k) = ((l (S k) + u (S k)) / 2)%R).
  { intro k. unfold l, u, y_at, st_at. cbn [trace s_step s bisection].
    unfold bis_step. destruct (fn _) as [e a]. cbn [fst snd bis_lower bis_upper].
    cbn [nadd nmul nsub RN]. rewrite half_lit.
    set (P := fst (fst (trace s fn y0 st0 aux0 k))).
    destruct (xorb _ _); cbv iota; simpl; lra. }
  assert (HH : forall k, (u (S (S k)) - l (S (S k)) = (u (S k) - l (S k)) / 2)%R).
  { intro k. pose proof (HM k) as Hy. unfold l, u in *.
    set (st := st_at s fn y0 st0 aux0 (S k)) in *.
    assert (E : st_at s fn y0 st0 aux0 (S (S k)) =
                snd (fst (bis_step fn (y_at s fn y0 st0 aux0 (S k)) st))) by reflexivity.
    rewrite E, Hy. unfold bis_step. destruct (fn _) as [e a]. cbn [fst snd bis_lower bis_upper].
    simpl in *. destruct (xorb _ _); simpl; lra. }
  split; [apply HM|]. split; [apply HH|].
  induction n as [|n IH].
  - simpl. lra.
  - rewrite HH, IH. simpl. field. apply pow_nonzero. lra.
Qed.

(** *** Real functions, extended-real arithmetic *)

(** One step on real numbers. *)
Definition rstep (f : R -> R) (flip : bool) (c : R * R * R) : R * R * R :=
  let '(y, l, u) := c in
  let neg := xorb flip (Rltb (f y) 0) in
  let l' := if neg then y else l in
  let u' := if neg then u else y in
  ((l' + / 2 * (u' - l'))%R, l', u').

Fixpoint rtrace (f : R -> R) (flip : bool) (c : R * R * R) (k : nat) : R * R * R :=
  match k with O => c | S j => rstep f flip (rtrace f flip c j) end.

Section Lifted.
  Variables (f : R -> R) (rtol atol : xr) (fa : flip_arg) (ex : bool) (bf : nat) (lo up : xr).
  Variables (y0 l0 u0 : R) (flip : bool) (e0 : xr).
  Let s := bisection (N:=XR) (Aux:=unit) rtol atol fa ex bf lo up.
  Let st0 : St s := mkBis (N:=XR) (Fin l0) (Fin u0) flip e0.
  Let rt := rtrace f flip (y0, l0, u0).

  Lemma trace_lift : forall k,
    y_at s (lift f) (Fin y0) st0 tt k = Fin (fst (fst (rt k))) /\
    bis_lower (st_at s (lift f) (Fin y0) st0 tt k) = Fin (snd (fst (rt k))) /\
    bis_upper (st_at s (lift f) (Fin y0) st0 tt k) = Fin (snd (rt k)) /\
    bis_flip (st_at s (lift f) (Fin y0) st0 tt k) = flip /\
    (forall j, k = S j ->
       bis_error (st_at s (lift f) (Fin y0) st0 tt k) = Fin (f (fst (fst (rt j))))).
  Proof.
    induction k as [|k IH].
    - repeat split; auto. intros; discriminate.
    - destruct IH as (IHy & IHl & IHu & IHf & _).
      unfold y_at at 1, st_at. cbn [trace s_step s bisection].
      fold (y_at s (lift f) (Fin y0) st0 tt k). fold (st_at s (lift f) (Fin y0) st0 tt k).
      fold s. rewrite IHy. unfold bis_step. cbn [lift].
      unfold st_at in IHl, IHu, IHf. fold s in IHl, IHu, IHf.
      change (snd (fst (trace s (lift f) (Fin y0) st0 tt k)))
        with (st_at s (lift f) (Fin y0) st0 tt k) in *.
      rewrite IHl, IHu, IHf. cbn [fst snd bis_lower bis_upper bis_flip bis_error].
      cbn [nltb nofQ XR xltb]. rewrite Q2R_0.
      unfold rt in *. cbn [rtrace].
      destruct (rtrace f flip (y0, l0, u0) k) as [[y l] u] eqn:ER.
      unfold rstep. cbn [fst snd].
      assert (EH : Q2R (1#2) = (/2)%R) by apply Q2R_half.
      destruct (xorb flip (Rltb (f y) 0)); cbn [nadd nmul nsub XR xadd xmul];
        unfold xsub; cbn [xneg xadd xmul nofQ XR]; rewrite ?EH; repeat split; auto;
        intros j Hj; injection Hj as <-; rewrite ER; reflexivity.
  Qed.

End Lifted.

Section RTrace.
  Variables (f : R -> R) (y0 l0 u0 : R) (flip : bool).
  Let rt := rtrace f flip (y0, l0, u0).

  Lemma rtrace_bracket : weak_sign_change f flip l0 u0 -> forall k,
    weak_sign_change f flip (snd (fst (rt k))) (snd (rt k)).
  Proof.
    intros HB k. induction k as [|k IH]; [exact HB|].
    unfold rt in *. cbn [rtrace]. destruct (rtrace f flip (y0, l0, u0) k) as [[y l] u].
    unfold rstep. cbn [fst snd] in *.
    unfold weak_sign_change in *.
    destruct flip, (Rltb (f y) 0) eqn:E; simpl; rb; lra.
  Qed.

  Lemma rtrace_mid : forall k,
    let '(y, l, u) := rt (S k) in y = ((l + u) / 2)%R.
  Proof.
    intro k. unfold rt. cbn [rtrace]. destruct (rtrace f flip (y0, l0, u0) k) as [[y l] u].
    unfold rstep. lra.
  Qed.

  (** The point evaluated in a step is an end of the new interval. *)
  Lemma rtrace_end : forall k,
    fst (fst (rt k)) = snd (fst (rt (S k))) \/ fst (fst (rt k)) = snd (rt (S k)).
  Proof.
    intro k. unfold rt. cbn [rtrace]. destruct (rtrace f flip (y0, l0, u0) k) as [[y l] u].
    unfold rstep. cbn [fst snd]. destruct (xorb _ _); auto.
  Qed.

  Lemma rtrace_width : forall n,
    (snd (rt (S n)) - snd (fst (rt (S n))) =
     (snd (rt 1%nat) - snd (fst (rt 1%nat))) / 2 ^ n)%R.
  Proof.
    induction n as [|n IH]; [simpl; lra|].
    pose proof (rtrace_mid n) as HM.
    unfold rt in *. cbn [rtrace] in *.
    set (c := rstep f flip (rtrace f flip (y0, l0, u0) n)) in *.
    destruct c as [[y l] u]. unfold rstep at 1 2. cbn [fst snd] in *.
    assert (E : ((if xorb flip (Rltb (f y) 0) then u else y) -
             (if xorb flip (Rltb (f y) 0) then y else l) = (u - l) / 2)%R).
    { destruct (xorb _ _); lra. }
    rewrite E, IH. simpl. field. apply pow_nonzero. lra.
  Qed.

  (** All intervals after the first step lie inside the first one. *)
  Lemma rtrace_inside : forall n,
    let a := Rmin (snd (fst (rt 1%nat))) (snd (rt 1%nat)) in
    let b := Rmax (snd (fst (rt 1%nat))) (snd (rt 1%nat)) in
    (a <= snd (fst (rt (S n))) <= b)%R /\ (a <= snd (rt (S n)) <= b)%R /\
    (a <= fst (fst (rt (S n))) <= b)%R.
  Proof.
    intros n a b.
    assert (H : (a <= snd (fst (rt (S n))) <= b)%R /\ (a <= snd (rt (S n)) <= b)%R).
    { induction n as [|n IH].
      - unfold a, b. pose proof (Rmin_l (snd (fst (rt 1%nat))) (snd (rt 1%nat))).
        pose proof (Rmin_r (snd (fst (rt 1%nat))) (snd (rt 1%nat))).
        pose proof (Rmax_l (snd (fst (rt 1%nat))) (snd (rt 1%nat))).
        pose proof (Rmax_r (snd (fst (rt 1%nat))) (snd (rt 1%nat))). lra.
      - pose proof (rtrace_mid n) as HM. clearbody a b.
        unfold rt in *. cbn [rtrace] in *.
        set (c := rstep f flip (rtrace f flip (y0, l0, u0) n)) in *.
        destruct c as [[y l] u]. unfold rstep. cbn [fst snd] in *.
        destruct (xorb _ _); lra. }
    split; [tauto|split; [tauto|]].
    pose proof (rtrace_mid n) as HM. destruct (rt (S n)) as [[y l] u]. cbn [fst snd] in *. lra.
  Qed.

End RTrace.

Lemma root_between : forall f flip, continuity f -> forall l u, weak_sign_change f flip l u ->
    exists r, f r = 0%R /\ (Rmin l u <= r <= Rmax l u)%R.
  Proof.
    intros f flip HC l u H.
    assert (HP : (f (Rmin l u) * f (Rmax l u) <= 0)%R).
    { unfold weak_sign_change in H. unfold Rmin, Rmax.
      destruct (Rle_dec l u); destruct flip; nra. }
    assert (HL : (Rmin l u <= Rmax l u)%R)
      by (unfold Rmin, Rmax; destruct (Rle_dec l u); lra).
    destruct (IVT_cor f (Rmin l u) (Rmax l u) HC HL HP) as (r & Hr1 & Hr2).
    exists r; auto.
  Qed.

Lemma xabs_sub_fin : forall a b, xabs (xsub (Fin a) (Fin b)) = Fin (Rabs (a - b)).
Proof. intros. unfold xsub. simpl. reflexivity. Qed.

(** Success means that a true root is close: [y] is the last evaluated point. *)
Lemma bis_success :
  forall (f : R -> R) (rtol atol : R) fa ex bf lo up (y0 l0 u0 : R) flip fs auxs fuel ms throw sol,
    continuity f ->
    let s := bisection (N:=XR) (Aux:=unit) (Fin rtol) (Fin atol) fa ex bf lo up in
    s_init s (lift f) (Fin y0) fs auxs = Ret (mkBis (N:=XR) (Fin l0) (Fin u0) flip PInf) ->
    auxs fill0 = tt ->
    weak_sign_change f flip l0 u0 ->
    iterative_solve xisfin s (lift f) fuel ms throw (Fin y0) fs auxs = Ret sol ->
    result sol = successful ->
    exists v y r : R,
      value sol = Fin v /\ (exists k, y_at s (lift f) (Fin y0) (mkBis (N:=XR) (Fin l0) (Fin u0) flip PInf) tt k = Fin y) /\
      f r = 0%R /\
      (Rabs (v - r) < / 2 * (atol + rtol * Rabs y))%R /\ (Rabs (f y) < atol)%R.
Proof.
  intros f rtol atol fa ex bf lo up y0 l0 u0 flip fs auxs fuel ms throw sol HC s Hi Ha HB H HR.
  destruct (C03_success_sound_pf _ _ _ xisfin s (lift f) (Fin y0) fs auxs _ ms fuel throw sol Hi H HR)
    as (k & _ & _ & HT & _ & ES & EV).
  rewrite Ha in *. unfold asked in HT. rewrite ES in HT.
  destruct k as [|k].
  - exfalso. cbn [s_terminate s bisection] in HT. unfold bis_terminate in HT.
    change (st_at _ _ _ _ _ 0) with (mkBis (N:=XR) (Fin l0) (Fin u0) flip PInf) in HT.
    cbn [bis_error nabs nltb XR xabs xltb] in HT. rewrite andb_false_r in HT. discriminate.
  - pose proof (trace_lift f (Fin rtol) (Fin atol) fa ex bf lo up y0 l0 u0 flip PInf) as TL.
    fold s in TL.
    destruct (TL (S k)) as (Ty & Tl & Tu & _ & Te). specialize (Te k eq_refl).
    destruct (TL k) as (Ty' & _).
    cbn [pred] in HT.
    set (Yk := y_at _ _ _ _ _ k) in HT. set (Sk := st_at _ _ _ _ _ (S k)) in HT.
    change (bis_terminate (N:=XR) (Fin rtol) (Fin atol) Yk Sk = (true, successful)) in HT.
    unfold bis_terminate in HT.
    rewrite (Ty' : Yk = _), (Tl : bis_lower Sk = _), (Tu : bis_upper Sk = _),
      (Te : bis_error Sk = _) in HT.
    pose proof (rtrace_bracket f y0 l0 u0 flip HB (S k)) as HBk.
    destruct (root_between f flip HC _ _ HBk) as (r & Hr & Hrb).
    pose proof (rtrace_mid f y0 l0 u0 flip k) as HM.
    set (rt := rtrace f flip (y0, l0, u0)) in *.
    destruct (rt (S k)) as [[v l] u] eqn:ERT. cbn [fst snd] in *.
    injection HT as HT. apply andb_true_iff in HT. destruct HT as [HT1 HT2].
    change (xltb (Fin (Rabs (l - u))) (Fin (atol + rtol * Rabs (fst (fst (rt k))))) = true) in HT1.
    apply xltb_fin in HT1. apply xltb_fin in HT2.
    exists v, (fst (fst (rt k))), r.
    split.
    { cbn [s_post s bisection] in EV. injection EV as EV _. exact (eq_trans EV Ty). }
    split; [exists k; exact Ty'|]. split; auto. split; auto.
    assert (HW : (Rabs (v - r) <= / 2 * Rabs (l - u))%R).
    { unfold Rmin, Rmax in Hrb. destruct (Rle_dec l u).
      - rewrite (Rabs_left1 (l - u)) by lra. apply Rabs_le. lra.
      - rewrite (Rabs_pos_eq (l - u)) by lra. apply Rabs_le. lra. }
    lra.
Qed.

Lemma init_lift_detect : forall f rtol atol bf l u y0 fs auxs st0,
  s_init (bisection (N:=XR) (Aux:=unit) rtol atol Detect false bf (Fin l) (Fin u))
     (lift f) (Fin y0) fs auxs = Ret st0 ->
  exists flip, st0 = mkBis (N:=XR) (Fin l) (Fin u) flip PInf /\ weak_sign_change f flip l u.
Proof.
  intros f rtol atol bf l u y0 fs auxs st0 H.
  cbn [s_init bisection] in H. unfold bis_init in H. cbn [lift fst] in H.
  cbn [nltb nofQ XR xltb ninf] in H. rewrite Q2R_0 in H.
  destruct (eqb (Rltb (f l) 0) (Rltb (f u) 0)) eqn:E; [discriminate|].
  injection H as <-. eexists; split; [reflexivity|].
  apply eqb_false_iff in E. unfold weak_sign_change.
  destruct (Rltb (f l) 0) eqn:E1, (Rltb (f u) 0) eqn:E2, (Rltb (f u) (f l)) eqn:E3;
    try congruence; rb; lra.
Qed.

(** For a continuous function, flip="detect": if the solve succeeds there is
    an exact root within half the tolerance of the returned value, and the
    last evaluated point has a small function value. *)
Lemma C14_success_near_root_pf :
  forall (f : R -> R) (rtol atol lower upper y0 : R) bfuel fs fuel ms throw sol,
    continuity f ->
    let s := bisection (N:=XR) (Aux:=unit) (Fin rtol) (Fin atol) Detect false bfuel
               (Fin lower) (Fin upper) in
    iterative_solve xisfin s (lift f) fuel ms throw (Fin y0) fs (fun _ => tt) = Ret sol ->
    result sol = successful ->
    exists v y r : R,
      value sol = Fin v /\
      (forall st0, s_init s (lift f) (Fin y0) fs (fun _ => tt) = Ret st0 ->
         exists k, y_at s (lift f) (Fin y0) st0 tt k = Fin y) /\
      f r = 0%R /\
      (Rabs (v - r) < / 2 * (atol + rtol * Rabs y))%R /\ (Rabs (f y) < atol)%R.
Proof.
  intros f rtol atol lower upper y0 bfuel fs fuel ms throw sol HC s H HR.
  destruct (solve_ret_init _ _ _ _ _ _ _ _ _ _ H) as [st0 Hi].
  destruct (init_lift_detect _ _ _ _ _ _ _ _ _ _ Hi) as (flip & -> & HB).
  destruct (bis_success f rtol atol Detect false bfuel (Fin lower) (Fin upper) y0 lower upper flip
              fs (fun _ => tt) fuel ms throw sol HC Hi eq_refl HB H HR)
    as (v & y & r & Hv & Hk & Hr & H1 & H2).
  exists v, y, r. repeat split; auto. intros st0 E.
  pose proof (eq_trans (eq_sym Hi) E) as E'. injection E' as <-. exact Hk.
Qed.

(** The same with the orientation given by the user. *)
Lemma C14_success_near_root_flip_pf :
  forall (f : R -> R) (rtol atol lower upper y0 : R) flip expand bfuel fs fuel ms throw sol,
    continuity f -> weak_sign_change f flip lower upper ->
    let s := bisection (N:=XR) (Aux:=unit) (Fin rtol) (Fin atol) (Flip flip) expand bfuel
               (Fin lower) (Fin upper) in
    iterative_solve xisfin s (lift f) fuel ms throw (Fin y0) fs (fun _ => tt) = Ret sol ->
    result sol = successful ->
    exists v y r : R,
      value sol = Fin v /\ f r = 0%R /\
      (Rabs (v - r) < / 2 * (atol + rtol * Rabs y))%R /\ (Rabs (f y) < atol)%R.
Proof.
  intros f rtol atol lower upper y0 flip expand bfuel fs fuel ms throw sol HC HB s H HR.
  destruct (bis_success f rtol atol (Flip flip) expand bfuel (Fin lower) (Fin upper) y0 lower upper flip
              fs (fun _ => tt) fuel ms throw sol HC eq_refl eq_refl HB H HR)
    as (v & y & r & Hv & Hk & Hr & H1 & H2).
  exists v, y, r. auto.
Qed.

(** *** Liveness *)

Lemma bis_live :
  forall (f : R -> R) (rtol atol : R) fa ex bf lo up (y0 l0 u0 : R) flip fs,
    continuity f -> (0 < atol)%R -> (0 <= rtol)%R ->
    let s := bisection (N:=XR) (Aux:=unit) (Fin rtol) (Fin atol) fa ex bf lo up in
    s_init s (lift f) (Fin y0) fs (fun _ => tt) = Ret (mkBis (N:=XR) (Fin l0) (Fin u0) flip PInf) ->
    weak_sign_change f flip l0 u0 ->
    exists k, forall fuel ms throw, k < fuel -> (forall m, ms = Some m -> k <= m) ->
      exists sol,
        iterative_solve xisfin s (lift f) fuel ms throw (Fin y0) fs (fun _ => tt) = Ret sol /\
        result sol = successful.
Proof.
  intros f rtol atol fa ex bf lo up y0 l0 u0 flip fs HC Ha Hr s Hi HB.
  set (st0 := mkBis (N:=XR) (Fin l0) (Fin u0) flip PInf) in *.
  pose proof (trace_lift f (Fin rtol) (Fin atol) fa ex bf lo up y0 l0 u0 flip PInf) as TL.
  fold s st0 in TL. set (rt := rtrace f flip (y0, l0, u0)) in *.
  assert (HT : exists k, says_terminate s (lift f) (Fin y0) st0 tt k = true).
  { pose (a := Rmin (snd (fst (rt 1%nat))) (snd (rt 1%nat))).
    pose (b := Rmax (snd (fst (rt 1%nat))) (snd (rt 1%nat))).
    assert (Hab : (a <= b)%R)
      by (unfold a, b, Rmin, Rmax; destruct (Rle_dec _ _); lra).
    assert (HCa : forall x, (a <= x <= b)%R -> continuity_pt f x) by (intros; apply HC).
    destruct (Heine_cor2 (f:=f) (a:=a) (b:=b) HCa (mkposreal atol Ha)) as (delta & Hd). cbn [pos] in Hd.
    pose (w := Rabs (snd (rt 1%nat) - snd (fst (rt 1%nat)))).
    assert (Hw : (0 <= w)%R) by apply Rabs_pos.
    set (e := Rmin delta atol).
    assert (He : (0 < e)%R) by (apply Rmin_glb_lt; [apply cond_pos|auto]).
    destruct (pow_lt_1_zero (/2) ltac:(rewrite Rabs_pos_eq; lra) (e / (w + 1)))
      as (n & Hn).
    { apply Rdiv_lt_0_compat; lra. }
    specialize (Hn n (le_n n)).
    assert (Hpow : (w / 2 ^ n < e)%R).
    { rewrite Rabs_pos_eq in Hn by (apply pow_le; lra).
      rewrite pow_inv in Hn.
      assert (H2 : (0 < / 2 ^ n)%R) by (apply Rinv_0_lt_compat, pow_lt; lra).
      apply Rle_lt_trans with ((w + 1) * / 2 ^ n)%R.
      - unfold Rdiv. nra.
      - apply (Rmult_lt_compat_l (w + 1)) in Hn; [|lra].
        replace ((w + 1) * (e / (w + 1)))%R with e in Hn by (field; lra). exact Hn. }
    assert (HWn : forall m, m = n \/ m = S n -> (Rabs (snd (fst (rt (S m))) - snd (rt (S m))) < e)%R).
    { intros m Hm.
      rewrite Rabs_minus_sym.
      pose proof (rtrace_width f y0 l0 u0 flip m) as HW. fold rt in HW. rewrite HW.
      unfold Rdiv. rewrite Rabs_mult. fold w. rewrite (Rabs_pos_eq (/ 2 ^ m)).
      - destruct Hm as [->| ->]; [exact Hpow|].
        apply Rle_lt_trans with (w / 2 ^ n)%R; [|exact Hpow].
        unfold Rdiv. apply Rmult_le_compat_l; auto.
        apply Rinv_le_contravar; [apply pow_lt; lra|]. simpl.
        assert (0 < 2 ^ n)%R by (apply pow_lt; lra). lra.
      - apply Rlt_le, Rinv_0_lt_compat, pow_lt; lra. }
    exists (S (S n)).
    unfold says_terminate, asked. cbn [pred].
    destruct (TL (S (S n))) as (_ & Tl & Tu & _ & Te). specialize (Te _ eq_refl).
    destruct (TL (S n)) as (Ty & _).
    set (Yk := y_at _ _ _ _ _ (S n)) in *. set (Sk := st_at _ _ _ _ _ (S (S n))) in *.
    change (fst (bis_terminate (N:=XR) (Fin rtol) (Fin atol) Yk Sk) = true).
    unfold bis_terminate.
    rewrite (Ty : Yk = _), (Tl : bis_lower Sk = _), (Tu : bis_upper Sk = _),
      (Te : bis_error Sk = _). cbn [fst].
    change (xltb (Fin (Rabs (snd (fst (rt (S (S n)))) - snd (rt (S (S n))))))
              (Fin (atol + rtol * Rabs (fst (fst (rt (S n)))))) &&
            xltb (Fin (Rabs (f (fst (fst (rt (S n))))))) (Fin atol) = true).
    apply andb_true_iff. rewrite !xltb_fin.
    pose proof (HWn (S n) (or_intror eq_refl)) as HW.
    assert (Hea : (e <= atol)%R) by apply Rmin_r.
    assert (Hed : (e <= delta)%R) by apply Rmin_l.
    split.
    - pose proof (Rabs_pos (fst (fst (rt (S n))))). nra.
    - pose proof (rtrace_bracket f y0 l0 u0 flip HB (S (S n))) as HBk. fold rt in HBk.
      destruct (root_between f flip HC _ _ HBk) as (r & Hr0 & Hrb).
      destruct (rtrace_inside f y0 l0 u0 flip n) as (_ & _ & Iy).
      destruct (rtrace_inside f y0 l0 u0 flip (S n)) as (Il & Iu & _).
      fold rt in Iy, Il, Iu. fold a b in Iy, Il, Iu.
      pose proof (rtrace_end f y0 l0 u0 flip (S n)) as HE. fold rt in HE.
      set (y := fst (fst (rt (S n)))) in *.
      set (l := snd (fst (rt (S (S n))))) in *. set (u := snd (rt (S (S n)))) in *.
      replace (f y) with (f y - f r)%R by lra.
      apply Hd.
      + exact Iy.
      + unfold Rmin, Rmax in Hrb. destruct (Rle_dec l u); lra.
      + apply Rle_lt_trans with (Rabs (l - u)); [|lra].
        unfold Rmin, Rmax in Hrb. destruct (Rle_dec l u).
        * rewrite (Rabs_left1 (l - u)) by lra. apply Rabs_le. destruct HE; lra.
        * rewrite (Rabs_pos_eq (l - u)) by lra. apply Rabs_le. destruct HE; lra. }
  destruct (solve_succeeds xisfin s (lift f) (Fin y0) st0 tt fs (fun _ => tt) eq_refl Hi)
    as (k & _ & _ & HS).
  - intro k. reflexivity.
  - intro k. unfold asked. destruct (TL (pred k)) as (Ty & _). exact (f_equal xisfin Ty).
  - exact HT.
  - exists k. intros fuel ms throw Hf Hm. destruct (HS fuel ms throw Hf Hm) as [E1 E2].
    eexists; split; eauto.
Qed.

(** Bisection always converges: for a continuous function whose values at
    lower and upper have different signs there is a step count after which
    every solve with enough budget (or none) has succeeded. *)
Lemma C15_converges_pf :
  forall (f : R -> R) (rtol atol lower upper y0 : R) bfuel fs,
    continuity f -> (0 < atol)%R -> (0 <= rtol)%R ->
    (f lower < 0 <= f upper \/ f upper < 0 <= f lower)%R ->
    let s := bisection (N:=XR) (Aux:=unit) (Fin rtol) (Fin atol) Detect false bfuel
               (Fin lower) (Fin upper) in
    exists k, forall fuel ms throw, k < fuel -> (forall m, ms = Some m -> k <= m) ->
      exists sol,
        iterative_solve xisfin s (lift f) fuel ms throw (Fin y0) fs (fun _ => tt) = Ret sol /\
        result sol = successful.
Proof.
  intros f rtol atol lower upper y0 bfuel fs HC Ha Hr HB s.
  assert (Hi : exists st0, s_init s (lift f) (Fin y0) fs (fun _ => tt) = Ret st0).
  { cbn [s_init s bisection]. unfold bis_init. cbn [lift fst nltb XR xltb nofQ].
    rewrite Q2R_0. destruct HB as [HB|HB].
    - replace (Rltb (f lower) 0) with true by (symmetry; rb; lra).
      replace (Rltb (f upper) 0) with false by (symmetry; rb; lra). eexists; reflexivity.
    - replace (Rltb (f lower) 0) with false by (symmetry; rb; lra).
      replace (Rltb (f upper) 0) with true by (symmetry; rb; lra). eexists; reflexivity. }
  destruct Hi as [st0 Hi].
  destruct (init_lift_detect _ _ _ _ _ _ _ _ _ _ Hi) as (flip & -> & HB').
  exact (bis_live f rtol atol Detect false bfuel (Fin lower) (Fin upper) y0 lower upper flip fs
           HC Ha Hr Hi HB').
Qed.

(** *** Interval expansion *)

Lemma first_false : forall (p : nat -> bool) K, p K = false ->
  exists k, k <= K /\ p k = false /\ forall j, j < k -> p j = true.
Proof.
  intros p K. induction K as [K IH] using (well_founded_induction lt_wf). intro H.
  destruct (forallb p (seq 0 K)) eqn:E.
  - exists K. rewrite forallb_forall in E. repeat split; auto.
    intros j Hj. apply E. apply in_seq. lia.
  - assert (HX : exists j, j < K /\ p j = false).
    { clear -E. induction K as [|K IHK]; [discriminate|].
      rewrite seq_S, forallb_app, andb_false_iff in E. simpl in E.
      destruct E as [E|E].
      - destruct (IHK E) as (j & Hj & Hp). exists j; auto.
      - exists K. destruct (p K); auto; discriminate. }
    destruct HX as (j & Hj & Hp). destruct (IH j Hj Hp) as (k & Hk & H1 & H2).
    exists k. repeat split; auto. lia.
Qed.

Definition rexp (up : bool) (c : R * R) : R * R :=
  let '(l, u) := c in
  if up then (u, u + 2 * (u - l))%R else (l - 2 * (u - l), l)%R.
Fixpoint rexps (up : bool) (c : R * R) (k : nat) : R * R :=
  match k with O => c | S j => rexp up (rexps up c j) end.
Definition lift2 (c : R * R) : T XR * T XR := (Fin (fst c), Fin (snd c)).

Lemma expand_lift : forall up c, expand_interval (N:=XR) up (lift2 c) = lift2 (rexp up c).
Proof.
  intros up [l u]. unfold expand_interval, lift2. cbn [fst snd].
  assert (E2 : Q2R 2 = 2%R) by apply Q2R_2.
  destruct up; unfold rexp; cbn [nsub nmul nadd nofQ XR]; unfold xsub; cbn [xadd xneg xmul];
    rewrite E2; cbn [xadd xneg fst snd]; reflexivity.
Qed.
Lemma expands_lift : forall up c k,
  iter_body (expand_interval (N:=XR) up) k (lift2 c) = lift2 (rexps up c k).
Proof.
  intros up c k. induction k; cbn [iter_body rexps]; [reflexivity|].
  rewrite IHk. apply expand_lift.
Qed.

Definition rcond (f : R -> R) (np up : bool) (c : R * R) : bool :=
  xorb np (Rltb 0 (f (if up then snd c else fst c))).
Lemma cond_lift : forall f np up c,
  interval_contains_root (N:=XR) np up (lift f) (lift2 c) = rcond f np up c.
Proof.
  intros f np up [l u]. unfold interval_contains_root, rcond, lift2.
  destruct up; cbn [fst snd lift nltb nofQ XR xltb]; rewrite Q2R_0; reflexivity.
Qed.

(** The interval used after expansion, if the expansion loop finishes. *)
Lemma init_expand_inv : forall f rtol atol bf l u y0 fs auxs st0,
  s_init (bisection (N:=XR) (Aux:=unit) rtol atol Detect true bf (Fin l) (Fin u))
     (lift f) (Fin y0) fs auxs = Ret st0 ->
  let np := Rltb (f l) 0 in let flip := Rltb (f u) (f l) in let up := xorb np flip in
  exists k, k < bf /\
    st0 = mkBis (N:=XR) (Fin (fst (rexps up (l, u) k))) (Fin (snd (rexps up (l, u) k))) flip PInf /\
    rcond f np up (rexps up (l, u) k) = false /\
    (forall j, j < k -> rcond f np up (rexps up (l, u) j) = true).
Proof.
  intros f rtol atol bf l u y0 fs auxs st0 H np flip up.
  cbn [s_init bisection] in H. unfold bis_init in H. cbn [lift fst] in H.
  cbn [nltb nofQ XR xltb ninf] in H. rewrite Q2R_0 in H.
  unfold expand_interval_repeatedly in H. cbn [nltb XR xltb] in H.
  fold np flip in H. fold up in H. change (Fin l, Fin u) with (lift2 (l, u)) in H.
  set (W := while_loop _ _ _ _ _) in H.
  destruct W as [[l' u']| |] eqn:EW; cbn [obind] in H; try discriminate.
  injection H as <-. unfold W in EW. apply while_loop_spec in EW.
  destruct EW as (k & Hk & Ec & Hs & _ & Hj).
  rewrite expands_lift in Ec. injection Ec as -> ->.
  exists k. split; auto. split; auto. split.
  - destruct Hs as [Hs|Hs]; [discriminate|].
    rewrite expands_lift, cond_lift in Hs. exact Hs.
  - intros j Hjk. specialize (Hj j Hjk). rewrite expands_lift, cond_lift in Hj. exact Hj.
Qed.

(** Whenever the expansion loop finishes, for any function at all, the
    interval it leaves has a sign change (possibly with a root at an end). *)
Lemma C17_expansion_sound_pf :
  forall (f : R -> R) (rtol atol : xr) bfuel (lower upper y0 : R) fs auxs st0,
    s_init (bisection (N:=XR) (Aux:=unit) rtol atol Detect true bfuel (Fin lower) (Fin upper))
      (lift f) (Fin y0) fs auxs = Ret st0 ->
    exists l u : R, bis_lower st0 = Fin l /\ bis_upper st0 = Fin u /\
      weak_sign_change f (bis_flip st0) l u.
Proof.
  intros f rtol atol bfuel lower upper y0 fs auxs st0 H.
  destruct (init_expand_inv _ _ _ _ _ _ _ _ _ _ H) as (k & _ & -> & Hc & Hj).
  cbn [bis_lower bis_upper bis_flip].
  set (np := Rltb (f lower) 0) in *. set (flip := Rltb (f upper) (f lower)) in *.
  eexists _, _. split; [reflexivity|]. split; [reflexivity|].
  unfold weak_sign_change. unfold rcond in Hc, Hj.
  destruct k as [|k].
  - cbn [rexps fst snd] in *. unfold np, flip in *.
    destruct (Rltb (f lower) 0) eqn:E1, (Rltb (f upper) (f lower)) eqn:E2;
      cbn [xorb] in *;
      match type of Hc with ?b = _ => idtac | _ => idtac end;
      destruct (Rltb 0 (f upper)) eqn:E3, (Rltb 0 (f lower)) eqn:E4; simpl in Hc; try discriminate;
      rb; lra.
  - specialize (Hj k (le_n _)). cbn [rexps] in *.
    destruct (rexps (xorb np flip) (lower, upper) k) as [l u].
    assert (HX : forall a b : bool, xorb a b = true -> b = negb a) by (intros [] []; auto).
    assert (HY : forall a b : bool, xorb a b = false -> b = a) by (intros [] []; auto).
    apply HX in Hj. apply HY in Hc.
    destruct np, flip; cbn [xorb negb rexp fst snd] in *; rb; lra.
Qed.

(** An interval whose end values have strictly opposite signs is left
    unchanged. *)
Lemma C17_bracket_unchanged_pf :
  forall (f : R -> R) (rtol atol : xr) bfuel (lower upper y0 : R) fs auxs,
    (f lower < 0 < f upper \/ f upper < 0 < f lower)%R ->
    exists st0,
      s_init (bisection (N:=XR) (Aux:=unit) rtol atol Detect true (S bfuel) (Fin lower) (Fin upper))
        (lift f) (Fin y0) fs auxs = Ret st0 /\
      bis_lower st0 = Fin lower /\ bis_upper st0 = Fin upper.
Proof.
  intros f rtol atol bfuel lower upper y0 fs auxs H.
  cbn [s_init bisection]. unfold bis_init. cbn [lift fst].
  cbn [nltb nofQ XR xltb ninf]. rewrite Q2R_0.
  unfold expand_interval_repeatedly. cbn [nltb XR xltb while_loop].
  change (Fin lower, Fin upper) with (lift2 (lower, upper)). rewrite cond_lift.
  unfold rcond. cbn [fst snd].
  assert (E : xorb (Rltb (f lower) 0) (Rltb 0 (f (if xorb (Rltb (f lower) 0) (Rltb (f upper) (f lower))
                 then upper else lower))) = false).
  { destruct H as [H|H].
    - replace (Rltb (f lower) 0) with true by (symmetry; rb; lra).
      replace (Rltb (f upper) (f lower)) with false by (symmetry; rb; lra). simpl.
      replace (Rltb 0 (f upper)) with true by (symmetry; rb; lra). reflexivity.
    - replace (Rltb (f lower) 0) with false by (symmetry; rb; lra).
      replace (Rltb (f upper) (f lower)) with true by (symmetry; rb; lra). simpl.
      replace (Rltb 0 (f upper)) with false by (symmetry; rb; lra). reflexivity. }
  rewrite E. cbn [obind lift2 fst snd]. eexists. split; [reflexivity|]. auto.
Qed.

Lemma INR_unbounded' : forall x : R, exists K, (x < INR K)%R.
Proof.
  intro x. exists (Z.to_nat (up (Rmax x 0))). rewrite INR_IZR_INZ, Z2Nat.id.
  - pose proof (archimed (Rmax x 0)) as [H _]. pose proof (Rmax_l x 0). lra.
  - apply le_IZR. pose proof (archimed (Rmax x 0)) as [H _]. pose proof (Rmax_r x 0). lra.
Qed.

Lemma rexps_grow : forall up l u k, (l < u)%R ->
  let '(l', u') := rexps up (l, u) k in
  (u - l <= u' - l')%R /\
  (if up then u + INR k * (u - l) <= u' else l' <= l - INR k * (u - l))%R.
Proof.
  intros up l u k H. induction k as [|k IH].
  - simpl. destruct up; lra.
  - cbn [rexps]. destruct (rexps up (l, u) k) as [l' u']. destruct IH as [IH1 IH2].
    rewrite S_INR. destruct up; cbn [rexp]; split; lra.
Qed.

(** For a strictly monotone function with a root and lower < upper the
    expansion finishes (after some number of doublings), whatever the signs at
    the ends. *)
Lemma C17_expansion_finishes_pf :
  forall (f : R -> R) (rtol atol : xr) (lower upper y0 r : R) fs auxs,
    (strictly_increasing f \/ strictly_decreasing f) -> f r = 0%R -> (lower < upper)%R ->
    exists n, forall bfuel, n < bfuel ->
      exists st0,
        s_init (bisection (N:=XR) (Aux:=unit) rtol atol Detect true bfuel (Fin lower) (Fin upper))
          (lift f) (Fin y0) fs auxs = Ret st0.
Proof.
  intros f rtol atol lower upper y0 r fs auxs HM Hr Hlu.
  set (np := Rltb (f lower) 0). set (flip := Rltb (f upper) (f lower)).
  set (up := xorb np flip).
  (* a number of expansions after which the boundary is beyond the root *)
  destruct (INR_unbounded' ((Rabs r + Rabs lower + Rabs upper) / (upper - lower))) as (K & HK).
  assert (HK' : (Rabs r + Rabs lower + Rabs upper < INR K * (upper - lower))%R).
  { apply (Rmult_lt_compat_r (upper - lower)) in HK; [|lra].
    replace ((Rabs r + Rabs lower + Rabs upper) / (upper - lower) * (upper - lower))%R
      with (Rabs r + Rabs lower + Rabs upper)%R in HK by (field; lra). exact HK. }
  pose proof (Rle_abs r). pose proof (Rle_abs lower). pose proof (Rle_abs upper).
  pose proof (Rle_abs (- r)) as Hr'. rewrite Rabs_Ropp in Hr'.
  pose proof (Rle_abs (- lower)) as Hl'. rewrite Rabs_Ropp in Hl'.
  pose proof (Rle_abs (- upper)) as Hu'. rewrite Rabs_Ropp in Hu'.
  assert (HX : rcond f np up (rexps up (lower, upper) K) = false).
  { pose proof (rexps_grow up lower upper K Hlu) as HG.
    destruct (rexps up (lower, upper) K) as [l u]. destruct HG as [_ HG].
    unfold rcond, up, np, flip in *. cbn [fst snd].
    destruct HM as [HM|HM].
    - assert (E : Rltb (f upper) (f lower) = false) by (rb; apply Rlt_le, HM; lra).
      rewrite E in *. destruct (Rltb (f lower) 0) eqn:E1; cbn [xorb] in *.
      + assert (H3 : Rltb 0 (f u) = true) by (rb; rewrite <- Hr; apply HM; lra).
        rewrite H3. reflexivity.
      + assert (H3 : Rltb 0 (f l) = false) by (rb; apply Rlt_le; rewrite <- Hr; apply HM; lra).
        rewrite H3. reflexivity.
    - assert (E : Rltb (f upper) (f lower) = true) by (rb; apply HM; lra).
      rewrite E in *. destruct (Rltb (f lower) 0) eqn:E1; cbn [xorb] in *.
      + assert (H3 : Rltb 0 (f l) = true) by (rb; rewrite <- Hr; apply HM; lra).
        rewrite H3. reflexivity.
      + assert (H3 : Rltb 0 (f u) = false) by (rb; apply Rlt_le; rewrite <- Hr; apply HM; lra).
        rewrite H3. reflexivity. }
  destruct (first_false (fun k => rcond f np up (rexps up (lower, upper) k)) K HX)
    as (k & _ & Hk & Hj).
  exists k. intros bfuel Hb.
  cbn [s_init bisection]. unfold bis_init. cbn [lift fst].
  cbn [nltb nofQ XR xltb ninf]. rewrite Q2R_0.
  unfold expand_interval_repeatedly. cbn [nltb XR xltb].
  fold np flip. fold up. change (Fin lower, Fin upper) with (lift2 (lower, upper)).
  assert (EW : while_loop bfuel (interval_contains_root (N:=XR) np up (lift f))
                 (expand_interval (N:=XR) up) None (lift2 (lower, upper)) =
               Ret (lift2 (rexps up (lower, upper) k))).
  { apply while_loop_spec. exists k. rewrite expands_lift. split; auto. split; auto.
    split; [right; rewrite cond_lift; exact Hk|]. split; [intros; discriminate|].
    intros j Hjk. rewrite expands_lift, cond_lift. apply Hj; auto. }
  set (W := while_loop _ _ _ _ _) in *. rewrite (EW : W = _). eexists; reflexivity.
Qed.

Lemma expand_state : forall f rtol atol bf l u y0 fs auxs st0,
  s_init (bisection (N:=XR) (Aux:=unit) rtol atol Detect true bf (Fin l) (Fin u))
     (lift f) (Fin y0) fs auxs = Ret st0 ->
  exists l' u' flip, st0 = mkBis (N:=XR) (Fin l') (Fin u') flip PInf /\ weak_sign_change f flip l' u'.
Proof.
  intros f rtol atol bf l u y0 fs auxs st0 H.
  destruct (C17_expansion_sound_pf _ _ _ _ _ _ _ _ _ _ H) as (l' & u' & El & Eu & HS).
  destruct (init_expand_inv _ _ _ _ _ _ _ _ _ _ H) as (k & _ & -> & _).
  cbn [bis_lower bis_upper bis_flip] in *. rewrite El, Eu.
  do 3 eexists; split; [reflexivity|exact HS].
Qed.

(** Expansion together with bisection: for a strictly monotone continuous
    function with a root, any interval and any y0 lead to success, and every
    success is near a root. *)
Lemma C17_expand_and_solve_pf :
  forall (f : R -> R) (rtol atol lower upper y0 r : R) fs,
    continuity f -> (strictly_increasing f \/ strictly_decreasing f) -> f r = 0%R ->
    (lower < upper)%R -> (0 < atol)%R -> (0 <= rtol)%R ->
    exists n, forall bfuel, n < bfuel ->
      let s := bisection (N:=XR) (Aux:=unit) (Fin rtol) (Fin atol) Detect true bfuel
               (Fin lower) (Fin upper) in
      exists k, forall fuel ms throw, k < fuel -> (forall m, ms = Some m -> k <= m) ->
        exists sol,
          iterative_solve xisfin s (lift f) fuel ms throw (Fin y0) fs (fun _ => tt) = Ret sol /\
          result sol = successful /\
          exists v y : R, value sol = Fin v /\
            (Rabs (v - r) < / 2 * (atol + rtol * Rabs y))%R /\ (Rabs (f y) < atol)%R.
Proof.
  intros f rtol atol lower upper y0 r fs HC HM Hr Hlu Ha Hrt.
  destruct (C17_expansion_finishes_pf f (Fin rtol) (Fin atol) lower upper y0 r fs (fun _ => tt)
              HM Hr Hlu) as (n & Hn).
  exists n. intros bfuel Hb s. destruct (Hn bfuel Hb) as (st0 & Hi).
  destruct (expand_state _ _ _ _ _ _ _ _ _ _ Hi) as (l' & u' & flip & -> & HB).
  destruct (bis_live f rtol atol Detect true bfuel (Fin lower) (Fin upper) y0 l' u' flip fs
              HC Ha Hrt Hi HB) as (k & Hk).
  exists k. intros fuel ms throw Hf Hm. destruct (Hk fuel ms throw Hf Hm) as (sol & E1 & E2).
  exists sol. split; auto. split; auto.
  destruct (bis_success f rtol atol Detect true bfuel (Fin lower) (Fin upper) y0 l' u' flip
              fs (fun _ => tt) fuel ms throw sol HC Hi eq_refl HB E1 E2)
    as (v & y & r' & Hv & _ & Hr' & H1 & H2).
  exists v, y. split; auto.
  assert (r' = r).
  { destruct (Rtotal_order r r') as [H|[H|H]]; auto;
      destruct HM as [HM|HM]; apply HM in H; lra. }
  subst r'. auto.
Qed.

(** *** Examples *)

(** f(x) = x^3 - 2 on [0, 4] from y0 = 10 (outside the interval), in binary64:
    converges; on [2, 4] it raises; with expansion from [3, 4] it converges. *)
Definition cubic (x : f64) : f64 * unit := (fsub (fmul x (fmul x x)) (f64_ofZ 2), tt).
Definition bis_ex (ex : bool) (lo up y0 : Z) :=
  iterative_solve (fun x => nisfin (n:=F64) x)
    (bisection (N:=F64) (f64_ofQ (1#1000)) (f64_ofQ (1#1000)) Detect ex 20 (f64_ofZ lo) (f64_ofZ up))
    cubic 60 (Some 50) true (f64_ofZ y0) (fun _ => f64_ofZ 0) (fun _ => tt).

Lemma check_ret : forall A (x : outcome A) (p : A -> bool),
  match x with Ret a => p a | _ => false end = true -> exists a, x = Ret a /\ p a = true.
Proof. intros A [a|e|] p H; try discriminate. exists a; auto. Qed.

Lemma check_raise : forall A (x : outcome A),
  match x with Raise RuntimeError => true | _ => false end = true -> x = Raise RuntimeError.
Proof. intros A [a|[]|] H; try discriminate. reflexivity. Qed.

Example C15_converges_ex_pf :
  (exists sol, bis_ex false 0 4 10 = Ret sol /\
     nltb (n:=F64) (f64_ofQ (1259#1000)) (value sol) &&
     nltb (n:=F64) (value sol) (f64_ofQ (1261#1000)) = true) /\
  bis_ex false 2 4 3 = Raise RuntimeError /\
  (exists sol, bis_ex true 3 4 3 = Ret sol /\
     nltb (n:=F64) (f64_ofQ (1259#1000)) (value sol) &&
     nltb (n:=F64) (value sol) (f64_ofQ (1261#1000)) = true).
Proof.
  split; [apply check_ret; vm_compute; reflexivity|].
  split; [apply check_raise; vm_compute; reflexivity|apply check_ret; vm_compute; reflexivity].
Qed.

(** The hypotheses of the convergence theorems hold for f(x) = x - 1/3 on
    [0, 1] (no iterate ever hits the root). *)
Example C15_hypotheses_ex_pf :
  let f := fun x => (x - / 3)%R in
  continuity f /\ (f 0 < 0 <= f 1)%R /\ strictly_increasing f /\ f (/3)%R = 0%R /\
  exists st0, s_init (bisection (N:=XR) (Aux:=unit) (Fin 0) (Fin (/ 8)) Detect false 0 (Fin 0) (Fin 1))
      (lift f) (Fin (/2)) (fun _ => NaN) (fun _ => tt) = Ret st0.
Proof.
  intro f. assert (HC : continuity f).
  { unfold f. apply continuity_minus; [apply derivable_continuous, derivable_id|].
    apply continuity_const. intros x y; reflexivity. }
  split; auto. unfold f, strictly_increasing. split; [lra|]. split; [intros; lra|]. split; [lra|].
  cbn [s_init bisection]. unfold bis_init. cbn [lift fst nltb XR xltb nofQ]. rewrite Q2R_0.
  replace (Rltb (0 - / 3) 0) with true by (symmetry; rb; lra).
  replace (Rltb (1 - / 3) 0) with false by (symmetry; rb; lra). eexists; reflexivity.
Qed.

Lemma while_loop_no_raise : forall C fuel cond (body : C -> C) ms c e,
  while_loop fuel cond body ms c <> Raise e.
Proof.
  intros C fuel cond body. induction fuel as [|fuel IH]; intros ms c e; simpl; [discriminate|].
  destruct ms as [[|m]|]; try discriminate; destruct (cond c); try discriminate; apply IH.
Qed.

(** The converse of the termination theorem: on a function without a root
    that is positive everywhere, the expansion loop never finishes. *)
Lemma C17_rootless_never_finishes_pf :
  forall (f : R -> R) (rtol atol : xr) bfuel (lower upper y0 : R) fs auxs,
    (forall x, 0 < f x)%R ->
    s_init (bisection (N:=XR) (Aux:=unit) rtol atol Detect true bfuel (Fin lower) (Fin upper))
      (lift f) (Fin y0) fs auxs = Unfinished.
Proof.
  intros f rtol atol bfuel lower upper y0 fs auxs Hf.
  destruct (s_init _ _ _ _ _) as [st0|e|] eqn:E; auto; exfalso.
  - apply init_expand_inv in E. destruct E as (k & _ & _ & Hc & _).
    unfold rcond in Hc. pose proof (Hf lower) as H1.
    replace (Rltb (f lower) 0) with false in Hc by (symmetry; rb; lra).
    match type of Hc with context [Rltb 0 (f ?x)] =>
      pose proof (Hf x) as H2; replace (Rltb 0 (f x)) with true in Hc by (symmetry; rb; lra) end.
    discriminate.
  - cbn [s_init bisection] in E. unfold bis_init, expand_interval_repeatedly in E.
    match type of E with context [while_loop ?a ?b ?c ?d ?x] =>
      pose proof (fun e => while_loop_no_raise _ a b c d x e) as HN; set (W := while_loop a b c d x) in * end.
    destruct W as [[? ?]|e'|]; cbn [obind] in E; try discriminate. apply (HN e'). reflexivity.
Qed.

(** Corner case outside the "strictly opposite signs" theorem: when the
    non-negative end is itself an exact root, the interval is moved although
    it already brackets: f(x) = x on [-1, 0] becomes [0, 2]. *)
Lemma C17_zero_end_expands_pf :
  exists st0,
    s_init (bisection (N:=XR) (Aux:=unit) (Fin 0) (Fin 1) Detect true 2 (Fin (-1)) (Fin 0))
      (lift (fun x => x)) (Fin 0) (fun _ => NaN) (fun _ => tt) = Ret st0 /\
    bis_lower st0 = Fin 0 /\ bis_upper st0 = Fin 2.
Proof.
  set (f := fun x : R => x).
  assert (EW : while_loop 2 (interval_contains_root (N:=XR) true true (lift f))
                 (expand_interval (N:=XR) true) None (lift2 (-1, 0)%R) =
               Ret (lift2 (rexps true (-1, 0)%R 1))).
  { apply while_loop_spec. exists 1. rewrite expands_lift. split; auto. split; auto.
    split; [right; rewrite cond_lift|split; [intros; discriminate|]].
    - unfold rcond. cbn [rexps rexp fst snd]. unfold f.
      replace (Rltb 0 (0 + 2 * (0 - -1))) with true by (symmetry; rb; lra). reflexivity.
    - intros j Hj. assert (j = 0) by lia. subst j. rewrite expands_lift, cond_lift.
      unfold rcond. cbn [rexps fst snd]. unfold f.
      replace (Rltb 0 0) with false by (symmetry; rb; lra). reflexivity. }
  cbn [s_init bisection]. unfold bis_init. cbn [lift fst].
  cbn [nltb nofQ XR xltb ninf]. rewrite Q2R_0.
  unfold expand_interval_repeatedly. cbn [nltb XR xltb].
  assert (E1 : Rltb (f (-1)%R) 0 = true) by (unfold f; rb; lra).
  assert (E2 : Rltb (f 0%R) (f (-1)%R) = false) by (unfold f; rb; lra).
  rewrite E1, E2. cbn [xorb].
  change (Fin (-1), Fin 0) with (lift2 (-1, 0)%R).
  set (W := while_loop _ _ _ _ _) in *. rewrite (EW : W = _).
  cbn [obind lift2 rexps rexp fst snd bis_lower bis_upper]. eexists. split; [reflexivity|].
  cbn [bis_lower bis_upper]. split; auto. f_equal. lra.
Qed.

(** Binary64: f = cubic with the interval [0, 4]: the interval kept after 7
    steps from y0 = 10 still has a sign change, and 3 steps of halving. *)
Example C12_detect_ex_pf :
  let fn := cubic in
  let s := bisection (N:=F64) (f64_ofQ (1#1000)) (f64_ofQ (1#1000)) Detect false 20
             (f64_ofZ 0) (f64_ofZ 4) in
  nisnan (N:=F64) (fst (fn (f64_ofZ 0))) = false /\ nisnan (N:=F64) (fst (fn (f64_ofZ 4))) = false /\
  exists st0, s_init s fn (f64_ofZ 10) (fun _ => f64_ofZ 0) (fun _ => tt) = Ret st0 /\
    (bis_flip st0 = false /\
     nltb (n:=F64) (fst (fn (bis_lower st0))) (f64_ofZ 0) &&
     negb (nltb (n:=F64) (fst (fn (bis_upper st0))) (f64_ofZ 0)) = true).
Proof.
  split; [vm_compute; reflexivity|]. split; [vm_compute; reflexivity|].
  exists (mkBis (N:=F64) (f64_ofZ 0) (f64_ofZ 4) false ninf).
  split; [reflexivity|]. split; [reflexivity|vm_compute; reflexivity].
Qed.

(** Both outcomes of detection occur (binary64): [0, 4] is accepted and
    [2, 4] rejected for x^3 - 2. *)
Example C16_detect_ex_pf :
  nltb (n:=F64) (fst (cubic (f64_ofZ 0))) (f64_ofZ 0) <>
    nltb (n:=F64) (fst (cubic (f64_ofZ 4))) (f64_ofZ 0) /\
  nltb (n:=F64) (fst (cubic (f64_ofZ 2))) (f64_ofZ 0) =
    nltb (n:=F64) (fst (cubic (f64_ofZ 4))) (f64_ofZ 0).
Proof. split; vm_compute; [discriminate|reflexivity]. Qed.

(** The interval [3, 4] needs expansion downwards to reach the root 1/3 of
    x - 1/3, which is strictly increasing; [0, 1] does not. *)
Example C17_hypotheses_ex_pf :
  let f := fun x => (x - / 3)%R in
  strictly_increasing f /\ continuity f /\ f (/ 3)%R = 0%R /\ (0 < f 3)%R /\ (0 < f 4)%R /\
  (f 0 < 0 < f 1)%R.
Proof.
  intro f. assert (HC : continuity f).
  { unfold f. apply continuity_minus; [apply derivable_continuous, derivable_id|].
    apply continuity_const. intros x y; reflexivity. }
  split; [unfold f, strictly_increasing; intros; lra|]. split; auto. unfold f. lra.
Qed.
