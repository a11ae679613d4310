(** Proofs about root_find/fixed_point/least_squares conversions and about
    the BestSoFar wrappers. *)

From Coq Require Import String List Bool Arith Lia ZArith QArith Qreals Reals Lra.
From Verif Require Import Num Vec NumFacts Results Iterate Spec_Iterate Iterate_proofs.
From Verif Require Import RootFind BestSoFar NumF64 NumF64_facts Spec_Wrappers.
Import ListNotations.
Local Open Scope nat_scope.

Lemma snd_to_minimise : forall (N : Num) Aux norm (fn : list N -> list N * Aux) y,
  snd (to_minimise_fn norm fn y) = fn y.
Proof. intros; unfold to_minimise_fn; destruct (fn y); reflexivity. Qed.
Lemma snd_to_lstsq : forall (N : Num) Aux (fn : list N -> list N * Aux) y,
  snd (to_lstsq_fn fn y) = fn y.
Proof. intros; unfold to_lstsq_fn; destruct (fn y); reflexivity. Qed.
Lemma snd_auxmented : forall Y Out Aux (fn : Y -> Out * Aux) y,
  snd (auxmented fn y) = fn y.
Proof. intros; unfold auxmented; destruct (fn y); reflexivity. Qed.

Lemma to_minimise_eta : forall (N : Num) Aux norm (fn : list N -> list N * Aux),
  to_minimise_fn norm fn = (fun y => (norm (fst (fn y)), fn y)).
Proof.
  intros. apply FunctionalExtensionality.functional_extensionality. intro y.
  unfold to_minimise_fn; destruct (fn y); reflexivity.
Qed.
Lemma to_lstsq_eta : forall (N : Num) Aux (fn : list N -> list N * Aux),
  to_lstsq_fn fn = (fun y => (fst (fn y), fn y)).
Proof.
  intros. apply FunctionalExtensionality.functional_extensionality. intro y.
  unfold to_lstsq_fn; destruct (fn y); reflexivity.
Qed.
Lemma auxmented_eta : forall Y Out Aux (fn : Y -> Out * Aux),
  auxmented fn = (fun y => (fst (fn y), fn y)).
Proof.
  intros. apply FunctionalExtensionality.functional_extensionality. intro y.
  unfold auxmented; destruct (fn y); reflexivity.
Qed.

(** *** _ToRoot *)

Section ToRoot.
  Context {N : Num} {Out Aux : Type}.
  Variables (atol : N) (norm : list N -> N) (s : Solver (list N) Out (list N * Aux)).
  Variable fn : list N -> Out * (list N * Aux).
  Variables (y0 : list N) (st0 : St s) (aux0 : list N * Aux) (finf : list N).

  Definition last_f (k : nat) : list N :=
    match k with O => finf | S _ => fst (aux_at s fn y0 st0 aux0 k) end.

  Lemma trace_to_root : forall k,
    trace (to_root atol norm s) fn y0 (st0, finf) aux0 k =
    (y_at s fn y0 st0 aux0 k, (st_at s fn y0 st0 aux0 k, last_f k), aux_at s fn y0 st0 aux0 k).
  Proof.
    induction k; [reflexivity|].
    cbn [trace]. rewrite IHk. simpl.
    unfold y_at, st_at, aux_at, last_f. simpl. unfold aux_at. simpl.
    destruct (s_step s fn _ _) as [[y' st'] [f a]]. reflexivity.
  Qed.
End ToRoot.

Lemma to_root_success :
  forall (N : Num) (Out Aux : Type) (atol : N) (norm : list N -> N)
         (s : Solver (list N) Out (list N * Aux)) fn y0 fs auxs st0 ms fuel throw sol,
    s_init s fn y0 fs auxs = Ret st0 ->
    nltb (norm (fst (auxs fillinf))) atol = false ->
    iterative_solve vallfinite (to_root atol norm s) fn fuel ms throw y0 fs auxs = Ret sol ->
    result sol = successful ->
    exists j,
      let k := S j in
      s_terminate s fn (y_at s fn y0 st0 (auxs fill0) j)
                       (st_at s fn y0 st0 (auxs fill0) k) = (true, successful) /\
      nltb (norm (fst (aux_at s fn y0 st0 (auxs fill0) k))) atol = true /\
      (value sol, aux sol) =
        fst (s_post s fn (y_at s fn y0 st0 (auxs fill0) k)
               (aux_at s fn y0 st0 (auxs fill0) k)
               (st_at s fn y0 st0 (auxs fill0) k) successful).
Proof.
  intros N Out Aux atol norm s fn y0 fs auxs st0 ms fuel throw sol Hi Hinf H HR.
  set (finf := fst (auxs fillinf)) in *.
  assert (Hi' : s_init (to_root atol norm s) fn y0 fs auxs =
                Ret ((st0, finf) : St (to_root atol norm s)))
    by (simpl; rewrite Hi; reflexivity).
  destruct (C03_success_sound_pf _ _ _ vallfinite (to_root atol norm s) fn y0 fs auxs
              (st0, finf) ms fuel throw sol Hi' H HR)
    as (k & _ & _ & HT & _ & ES & EV).
  rewrite ES in HT, EV. unfold asked, y_at, st_at, aux_at in HT, EV.
  rewrite !trace_to_root in HT. rewrite !trace_to_root in EV.
  simpl in HT, EV.
  destruct (s_terminate s fn (y_at s fn y0 st0 (auxs fill0) (pred k))
              (st_at s fn y0 st0 (auxs fill0) k)) as [t r] eqn:ET.
  injection HT as HT1 HT2. apply andb_true_iff in HT1. destruct HT1 as [HT1 HT3]. subst.
  destruct k as [|j].
  - simpl in HT3. rewrite Hinf in HT3. discriminate.
  - exists j. simpl in *. auto.
Qed.

Lemma C07_root_find_minimiser_aux :
  forall (N : Num) (Aux : Type) (m : PolySolver (list N) N) (norm : list N -> N) (atol : N)
         (fn : list N -> list N * Aux) (auxs : fillv -> Aux) (y0 : list N)
         fuel ms throw ans st0,
    let s := m (list N * Aux)%type in
    let g := to_minimise_fn norm fn in
    let fs := vec_struct (length (fst (fn y0))) in
    let auxs' := fun v => (fs v, auxs v) in
    s_init s g y0 scalar_struct auxs' = Ret st0 ->
    nltb (norm (fs fillinf)) atol = false ->
    reports_aux s g y0 st0 (auxs' fill0) ->
    root_find fuel ms throw (AMinimiser m norm atol) fn auxs y0 = Ret ans ->
    a_result ans = successful ->
    exists j,
      let y := y_at s g y0 st0 (auxs' fill0) j in
      nltb (norm (fst (fn y))) atol = true /\
      s_terminate s g y (st_at s g y0 st0 (auxs' fill0) (S j)) = (true, successful).
Proof.
  intros N Aux m norm atol fn auxs y0 fuel ms throw ans st0 s g fs auxs' Hi Hinf Hrep H HR.
  unfold root_find in H. fold fs in H.
  change (fun v => (fs v, auxs v)) with auxs' in H. fold g in H.
  destruct (iterative_solve vallfinite (to_root atol norm (m (list N * Aux)%type)) g fuel ms
              throw y0 scalar_struct auxs') as [sol| |] eqn:E; simpl in H; try discriminate.
  injection H as <-. simpl in HR.
  destruct (to_root_success N N Aux atol norm s g y0 scalar_struct auxs' st0 ms fuel throw sol
              Hi Hinf E HR) as (j & HT & Hn & _).
  exists j. simpl. split; auto.
  rewrite (Hrep j) in Hn. unfold g at 1 in Hn. rewrite snd_to_minimise in Hn. exact Hn.
Qed.

(** root_find with a minimiser: success requires norm(fn(y)) < atol at the
    last reported point and the minimiser's own verdict "terminate,
    successful".  [s] is the minimiser run on y |-> norm(fn(y)). *)
Lemma C07_root_find_minimiser_pf :
  forall (N : Num) (Aux : Type) (m : PolySolver (list N) N) (norm : list N -> N) (atol : N)
         (fn : list N -> list N * Aux) (auxs : fillv -> Aux) (y0 : list N)
         fuel ms throw ans st0,
    let s := m (list N * Aux)%type in
    let g := fun y => (norm (fst (fn y)), fn y) in
    let fs := vec_struct (length (fst (fn y0))) in
    let auxs' := fun v => (fs v, auxs v) in
    s_init s g y0 scalar_struct auxs' = Ret st0 ->
    nltb (norm (fs fillinf)) atol = false ->
    reports_aux s g y0 st0 (auxs' fill0) ->
    root_find fuel ms throw (AMinimiser m norm atol) fn auxs y0 = Ret ans ->
    a_result ans = successful ->
    exists j,
      let y := y_at s g y0 st0 (auxs' fill0) j in
      nltb (norm (fst (fn y))) atol = true /\
      s_terminate s g y (st_at s g y0 st0 (auxs' fill0) (S j)) = (true, successful).
Proof.
  intros *. repeat match goal with x := _ |- _ => subst x end. cbv beta.
  rewrite <- (to_minimise_eta N Aux norm fn). apply C07_root_find_minimiser_aux.
Qed.

Lemma C07_root_find_least_squares_aux :
  forall (N : Num) (Aux : Type) (l : PolySolver (list N) (list N)) (norm : list N -> N) (atol : N)
         (fn : list N -> list N * Aux) (auxs : fillv -> Aux) (y0 : list N)
         fuel ms throw ans st0,
    let s := l (list N * Aux)%type in
    let g := to_lstsq_fn fn in
    let fs := vec_struct (length (fst (fn y0))) in
    let auxs' := fun v => (fs v, auxs v) in
    s_init s g y0 fs auxs' = Ret st0 ->
    nltb (norm (fs fillinf)) atol = false ->
    reports_aux s g y0 st0 (auxs' fill0) ->
    root_find fuel ms throw (ALeastSquares l norm atol) fn auxs y0 = Ret ans ->
    a_result ans = successful ->
    exists j,
      let y := y_at s g y0 st0 (auxs' fill0) j in
      nltb (norm (fst (fn y))) atol = true /\
      s_terminate s g y (st_at s g y0 st0 (auxs' fill0) (S j)) = (true, successful).
Proof.
  intros N Aux l norm atol fn auxs y0 fuel ms throw ans st0 s g fs auxs' Hi Hinf Hrep H HR.
  unfold root_find in H. fold fs in H.
  change (fun v => (fs v, auxs v)) with auxs' in H. fold g in H.
  destruct (iterative_solve vallfinite (to_root atol norm (l (list N * Aux)%type)) g fuel ms
              throw y0 fs auxs') as [sol| |] eqn:E; simpl in H; try discriminate.
  injection H as <-. simpl in HR.
  destruct (to_root_success N (list N) Aux atol norm s g y0 fs auxs' st0 ms fuel throw sol
              Hi Hinf E HR) as (j & HT & Hn & _).
  exists j. simpl. split; auto.
  rewrite (Hrep j) in Hn. unfold g at 1 in Hn. rewrite snd_to_lstsq in Hn. exact Hn.
Qed.

(** root_find with a least-squares solver. *)
Lemma C07_root_find_least_squares_pf :
  forall (N : Num) (Aux : Type) (l : PolySolver (list N) (list N)) (norm : list N -> N) (atol : N)
         (fn : list N -> list N * Aux) (auxs : fillv -> Aux) (y0 : list N)
         fuel ms throw ans st0,
    let s := l (list N * Aux)%type in
    let g := fun y => (fst (fn y), fn y) in
    let fs := vec_struct (length (fst (fn y0))) in
    let auxs' := fun v => (fs v, auxs v) in
    s_init s g y0 fs auxs' = Ret st0 ->
    nltb (norm (fs fillinf)) atol = false ->
    reports_aux s g y0 st0 (auxs' fill0) ->
    root_find fuel ms throw (ALeastSquares l norm atol) fn auxs y0 = Ret ans ->
    a_result ans = successful ->
    exists j,
      let y := y_at s g y0 st0 (auxs' fill0) j in
      nltb (norm (fst (fn y))) atol = true /\
      s_terminate s g y (st_at s g y0 st0 (auxs' fill0) (S j)) = (true, successful).
Proof.
  intros *. repeat match goal with x := _ |- _ => subst x end. cbv beta.
  rewrite <- (to_lstsq_eta N Aux fn). apply C07_root_find_least_squares_aux.
Qed.

(** The side condition on the norm holds for max_norm on extended reals
    whenever fn has at least one output. *)
Lemma C07_max_norm_of_inf_pf :
  forall n (atol : XR), nltb (max_norm (vec_struct (N:=XR) (S n) fillinf)) atol = false.
Proof.
  intros n atol.
  destruct (nltb (max_norm (vec_struct (N:=XR) (S n) fillinf)) atol) eqn:E; auto.
  exfalso. unfold max_norm in E. simpl in E.
  apply (nmax_lt XR_laws) in E. destruct E as [E _]. simpl in E. destruct atol; discriminate.
Qed.

(** *** BestSoFar *)

Section Bsf.
  Context {N : Num} {Y Out Aux : Type}.
  Variables (to_loss : Y -> Out -> N) (s : Solver Y Out (Out * Aux)).
  Variable fn : Y -> Out * Aux.
  Variables (y0 : Y) (st0 : St s) (aux0 : Aux) (iaux0 : Out * Aux).
  Let g := auxmented fn.
  Notation bsf := (best_so_far to_loss s).
  Notation b0 := (mkBsf y0 aux0 ninf st0).

  Definition bsf_loss (j : nat) : N :=
    to_loss (y_at s g y0 st0 iaux0 j) (fst (aux_at s g y0 st0 iaux0 (S j))).

  (** Index of the record holder among the first [k] reports. *)
  Fixpoint record_holder (k : nat) : option nat :=
    match k with
    | O => None
    | S j =>
        let best := match record_holder j with Some b => bsf_loss b | None => ninf end in
        if nltb (bsf_loss j) best then Some j else record_holder j
    end.

  Lemma trace_bsf : forall k,
    y_at bsf fn y0 b0 aux0 k = y_at s g y0 st0 iaux0 k /\
    inner (st_at bsf fn y0 b0 aux0 k) = st_at s g y0 st0 iaux0 k /\
    (forall j, k = S j -> aux_at bsf fn y0 b0 aux0 k = snd (aux_at s g y0 st0 iaux0 k)) /\
    best_y (st_at bsf fn y0 b0 aux0 k) =
      match record_holder k with Some b => y_at s g y0 st0 iaux0 b | None => y0 end /\
    best_aux (st_at bsf fn y0 b0 aux0 k) =
      match record_holder k with
      | Some b => snd (aux_at s g y0 st0 iaux0 (S b)) | None => aux0 end /\
    best_loss (st_at bsf fn y0 b0 aux0 k) =
      match record_holder k with Some b => bsf_loss b | None => ninf end.
  Proof.
    induction k as [|k IH].
    - repeat split; auto. intros; discriminate.
    - destruct IH as (IHy & IHi & _ & IHby & IHba & IHbl).
      assert (EY : fst (fst (trace bsf fn y0 b0 aux0 k)) = y_at s g y0 st0 iaux0 k) by exact IHy.
      assert (EI : inner (snd (fst (trace bsf fn y0 b0 aux0 k))) = st_at s g y0 st0 iaux0 k)
        by exact IHi.
      unfold y_at at 1, st_at at 1, aux_at at 1.
      unfold st_at at 2 3 4.
      cbn [trace]. cbn [s_step best_so_far].
      rewrite EY, EI. fold g.
      assert (ET : trace s g y0 st0 iaux0 (S k) =
                   s_step s g (y_at s g y0 st0 iaux0 k) (st_at s g y0 st0 iaux0 k))
        by reflexivity.
      assert (EL : bsf_loss k =
        to_loss (y_at s g y0 st0 iaux0 k)
          (fst (snd (s_step s g (y_at s g y0 st0 iaux0 k) (st_at s g y0 st0 iaux0 k)))))
        by reflexivity.
      destruct (s_step s g (y_at s g y0 st0 iaux0 k) (st_at s g y0 st0 iaux0 k))
        as [[ny ns] [f na]] eqn:ES.
      simpl in EL.
      cbn [fst snd best_y best_aux best_loss inner].
      change (best_loss (snd (fst (trace bsf fn y0 b0 aux0 k))))
        with (best_loss (st_at bsf fn y0 b0 aux0 k)).
      change (best_y (snd (fst (trace bsf fn y0 b0 aux0 k))))
        with (best_y (st_at bsf fn y0 b0 aux0 k)).
      change (best_aux (snd (fst (trace bsf fn y0 b0 aux0 k))))
        with (best_aux (st_at bsf fn y0 b0 aux0 k)).
      rewrite IHby, IHba, IHbl, <- EL. cbn [record_holder].
      unfold y_at at 1, st_at at 1, aux_at at 1. rewrite !ET. cbn [fst snd].
      repeat split; auto.
      + destruct (nltb (bsf_loss k) _); auto.
      + destruct (nltb (bsf_loss k) _); auto.
        unfold aux_at. rewrite ET. reflexivity.
      + destruct (nltb (bsf_loss k) _); auto.
  Qed.

  Hypothesis L : OrdLaws N.

  Lemma record_holder_spec : forall k,
    match record_holder k with
    | Some b => b < k /\ nltb (bsf_loss b) ninf = true /\
        (forall j, j < k -> nltb (bsf_loss j) (bsf_loss b) = false) /\
        (forall j, j < b -> nleb (bsf_loss j) (bsf_loss b) = false)
    | None => forall j, j < k -> nltb (bsf_loss j) ninf = false
    end.
  Proof.
    induction k as [|k IH]; cbn [record_holder].
    - intros; lia.
    - destruct (record_holder k) as [b|].
      + destruct IH as (Hb & Hinf & Hmin & Hfirst).
        destruct (nltb (bsf_loss k) (bsf_loss b)) eqn:E.
        * split; [lia|]. split; [eapply (ol_trans N L); eauto|]. split.
          -- intros j Hj. destruct (Nat.eq_dec j k) as [->|]; [apply (ol_irrefl N L)|].
             destruct (nltb (bsf_loss j) (bsf_loss k)) eqn:E2; auto.
             rewrite <- (Hmin j); [|lia]. symmetry. eapply (ol_trans N L); eauto.
          -- intros j Hj. destruct (nleb (bsf_loss j) (bsf_loss k)) eqn:E2; auto.
             rewrite <- (Hmin j); [|lia]. symmetry. eapply (le_lt_trans L); eauto.
        * split; [lia|]. split; auto. split; auto.
          intros j Hj. destruct (Nat.eq_dec j k) as [->|]; auto. apply Hmin; lia.
      + destruct (nltb (bsf_loss k) ninf) eqn:E.
        * split; [lia|]. split; auto. split.
          -- intros j Hj. destruct (Nat.eq_dec j k) as [->|]; [apply (ol_irrefl N L)|].
             destruct (nltb (bsf_loss j) (bsf_loss k)) eqn:E2; auto.
             rewrite <- (IH j); [|lia]. symmetry. eapply (ol_trans N L); eauto.
          -- intros j Hj. destruct (nleb (bsf_loss j) (bsf_loss k)) eqn:E2; auto.
             rewrite <- (IH j); [|lia]. symmetry. eapply (le_lt_trans L); eauto.
        * intros j Hj. destruct (Nat.eq_dec j k) as [->|]; auto. apply IH; lia.
  Qed.
End Bsf.

Lemma C09_best_so_far_aux :
  forall (N : Num) (L : OrdLaws N) (Y Out Aux : Type) (allfinite : Y -> bool)
         (to_loss : Y -> Out -> N) (s : Solver Y Out (Out * Aux)) (fn : Y -> Out * Aux)
         y0 fs auxs st0 ms fuel throw sol,
    let g := auxmented fn in
    let auxs' := fun v => (fs v, auxs v) in
    let y := y_at s g y0 st0 (auxs' fill0) in
    let l := fun j => to_loss (y j) (fst (fn (y j))) in
    s_init s g y0 fs auxs' = Ret st0 ->
    reports_aux s g y0 st0 (auxs' fill0) ->
    iterative_solve allfinite (best_so_far to_loss s) fn fuel ms throw y0 fs auxs = Ret sol ->
    exists n, hd_error (sol_stats sol) = Some ("num_steps"%string, Some (Z.of_nat n)) /\
      ((exists b, b < n /\ value sol = y b /\ aux sol = snd (fn (y b)) /\
          (forall j, j < n -> nltb (l j) (l b) = false) /\
          (forall j, j < b -> nleb (l j) (l b) = false)) \/
       (value sol = y0 /\ aux sol = auxs fill0 /\
          forall j, j < n -> nltb (l j) ninf = false)).
Proof.
  intros N L Y Out Aux allfinite to_loss s fn y0 fs auxs st0 ms fuel throw sol
    g auxs' y l Hi Hrep H.
  assert (Hi' : s_init (best_so_far to_loss s) fn y0 fs auxs =
                Ret (mkBsf y0 (auxs fill0) (ninf (n:=N)) st0 : St (best_so_far to_loss s))).
  { simpl. fold g. change (fun v => (fs v, auxs v)) with auxs'. rewrite Hi. reflexivity. }
  destruct (iterative_solve_inv allfinite (best_so_far to_loss s) fn y0 _ _ fs auxs eq_refl Hi'
              fuel ms throw sol H) as (n & Hn & Hs & -> & _).
  pose proof (solution_at_fields allfinite (best_so_far to_loss s) fn y0
      (mkBsf y0 (auxs fill0) ninf st0) (auxs fill0) ms n) as (_ & _ & EV & ET).
  exists n. rewrite ET. split; [reflexivity|].
  cbn [s_post best_so_far fst] in EV. apply pair_equal_spec in EV; destruct EV as [EV EA].
  pose proof (trace_bsf to_loss s fn y0 st0 (auxs fill0) (auxs' fill0) n)
    as (_ & _ & _ & EBy & EBa & _).
  pose proof (record_holder_spec to_loss s fn y0 st0 (auxs' fill0) L n) as HRH.
  fold g in EBy, EBa.
  assert (EL : forall j, bsf_loss to_loss s fn y0 st0 (auxs' fill0) j = l j).
  { intro j. unfold bsf_loss, l, y. fold g. rewrite (Hrep j). unfold g at 2.
    rewrite snd_auxmented. reflexivity. }
  rewrite EV, EA, EBy, EBa.
  destruct (record_holder to_loss s fn y0 st0 (auxs' fill0) n) as [b|].
  - left. exists b. destruct HRH as (Hb & _ & Hmin & Hfirst).
    split; auto. split; auto. split.
    + rewrite (Hrep b). unfold g at 1. rewrite snd_auxmented. reflexivity.
    + split; intros j Hj; rewrite <- !EL; auto.
  - right. split; auto. split; auto. intros j Hj. rewrite <- EL; auto.
Qed.

(** BestSoFar returns the earliest best iterate among those on which the
    wrapped solver reported the function's output; [l j] is the loss of the
    j-th iterate.  If no reported loss is below infinity it returns y0 (with
    the zero-filled aux).  Holds for any arithmetic satisfying the order laws,
    so also with NaN losses. *)
Lemma C09_best_so_far_pf :
  forall (N : Num) (L : OrdLaws N) (Y Out Aux : Type) (allfinite : Y -> bool)
         (to_loss : Y -> Out -> N) (s : Solver Y Out (Out * Aux)) (fn : Y -> Out * Aux)
         y0 fs auxs st0 ms fuel throw sol,
    let g := fun y => (fst (fn y), fn y) in
    let auxs' := fun v => (fs v, auxs v) in
    let y := y_at s g y0 st0 (auxs' fill0) in
    let l := fun j => to_loss (y j) (fst (fn (y j))) in
    s_init s g y0 fs auxs' = Ret st0 ->
    reports_aux s g y0 st0 (auxs' fill0) ->
    iterative_solve allfinite (best_so_far to_loss s) fn fuel ms throw y0 fs auxs = Ret sol ->
    exists n, hd_error (sol_stats sol) = Some ("num_steps"%string, Some (Z.of_nat n)) /\
      ((exists b, b < n /\ value sol = y b /\ aux sol = snd (fn (y b)) /\
          (forall j, j < n -> nltb (l j) (l b) = false) /\
          (forall j, j < b -> nleb (l j) (l b) = false)) \/
       (value sol = y0 /\ aux sol = auxs fill0 /\
          forall j, j < n -> nltb (l j) ninf = false)).
Proof.
  intros N L Y Out Aux allfinite to_loss s fn *.
  repeat match goal with x := _ |- _ => subst x end. cbv beta.
  rewrite <- (auxmented_eta Y Out Aux fn). apply (C09_best_so_far_aux N L).
Qed.

Lemma xsum_squares : forall v : list R, sum_squares (N:=XR) (map Fin v) = Fin (R_sum_squares v).
Proof.
  induction v as [|x v IH]; [exact (f_equal Fin Q2R_0)|].
  change (xadd (Fin (x * x)) (sum_squares (N:=XR) (map Fin v)) = Fin (R_sum_squares (x :: v))). rewrite IH. reflexivity.
Qed.
Lemma xvsub : forall a b : list R, vsub (N:=XR) (map Fin a) (map Fin b) = map Fin (map (fun p => fst p - snd p)%R (combine a b)).
Proof.
  induction a as [|x a IH]; destruct b as [|y b]; try reflexivity.
  exact (f_equal (cons (Fin (x - y))) (IH b)).
Qed.

(* the best iterate for a loss that is finite on every iterate *)
Lemma bsf_finite : forall (Y Out Aux : Type) (allfinite : Y -> bool)
         (to_loss : Y -> Out -> XR) (s : Solver Y Out (Out * Aux)) (fn : Y -> Out * Aux)
         y0 fs auxs st0 ms fuel throw sol (q : nat -> R),
    let g := fun y => (fst (fn y), fn y) in
    let auxs' := fun v => (fs v, auxs v) in
    let y := y_at s g y0 st0 (auxs' fill0) in
    (forall j, to_loss (y j) (fst (fn (y j))) = Fin (q j)) ->
    s_init s g y0 fs auxs' = Ret st0 ->
    reports_aux s g y0 st0 (auxs' fill0) ->
    iterative_solve allfinite (best_so_far to_loss s) fn fuel ms throw y0 fs auxs = Ret sol ->
    exists n, hd_error (sol_stats sol) = Some ("num_steps"%string, Some (Z.of_nat n)) /\
      ((n = 0 /\ value sol = y0) \/
       exists b, b < n /\ value sol = y b /\ aux sol = snd (fn (y b)) /\
          (forall j, j < n -> (q b <= q j)%R) /\ (forall j, j < b -> (q b < q j)%R)).
Proof.
  intros Y Out Aux allfinite to_loss s fn y0 fs auxs st0 ms fuel throw sol q g auxs' y HQ Hi Hr H.
  destruct (C09_best_so_far_pf XR XR_laws Y Out Aux allfinite to_loss s fn y0 fs auxs st0 ms fuel throw sol Hi Hr H)
    as (n & Hn & HB). exists n. split; [exact Hn|].
  fold g auxs' y in HB. destruct HB as [(b & B1 & B2 & B3 & B4 & B5)|(E1 & _ & E3)].
  - right. exists b. split; [exact B1|]. split; [exact B2|]. split; [exact B3|].
    split; intros j Hj; [specialize (B4 j Hj)|specialize (B5 j Hj)].
    + rewrite !HQ in B4. cbn [nltb XR xltb] in B4. rb. lra.
    + rewrite !HQ in B5. change (orb (Rltb (q j) (q b)) (Reqb (q j) (q b)) = false) in B5. apply orb_false_iff in B5. destruct B5 as [B5 B6]. rb. lra.
  - left. split; [|exact E1]. destruct n as [|n]; [reflexivity|]. specialize (E3 0 ltac:(lia)). rewrite HQ in E3. discriminate E3.
Qed.

(** BestSoFarMinimiser on finite values: the iterate with the least objective, the earliest such. *)
Lemma C09_minimiser_pf :
  forall (Y Aux : Type) (allfinite : Y -> bool) (s : Solver Y XR (XR * Aux)) (fn : Y -> XR * Aux)
         y0 fs auxs st0 ms fuel throw sol (F : nat -> R),
    let g := fun y => (fst (fn y), fn y) in
    let auxs' := fun v => (fs v, auxs v) in
    let y := y_at s g y0 st0 (auxs' fill0) in
    (forall j, fst (fn (y j)) = Fin (F j)) ->
    s_init s g y0 fs auxs' = Ret st0 -> reports_aux s g y0 st0 (auxs' fill0) ->
    iterative_solve allfinite (best_so_far (N:=XR) loss_minimiser s) fn fuel ms throw y0 fs auxs = Ret sol ->
    exists n, hd_error (sol_stats sol) = Some ("num_steps"%string, Some (Z.of_nat n)) /\
      ((n = 0 /\ value sol = y0) \/
       exists b, b < n /\ value sol = y b /\ aux sol = snd (fn (y b)) /\
          (forall j, j < n -> (F b <= F j)%R) /\ (forall j, j < b -> (F b < F j)%R)).
Proof.
  intros Y Aux allfinite s fn y0 fs auxs st0 ms fuel throw sol F g auxs' y HF.
  apply (bsf_finite Y XR Aux allfinite _ s fn y0 fs auxs st0 ms fuel throw sol F HF).
Qed.

(** BestSoFarLeastSquares and BestSoFarRootFinder: the iterate with the least sum of squared residuals. *)
Lemma C09_residuals_pf :
  forall (Y Aux : Type) (allfinite : Y -> bool) (s : Solver Y (list XR) (list XR * Aux)) (fn : Y -> list XR * Aux)
         y0 fs auxs st0 ms fuel throw to_loss sol (F : nat -> list R),
    to_loss = loss_least_squares (N:=XR) \/ to_loss = loss_root_finder (N:=XR) ->
    let g := fun y => (fst (fn y), fn y) in
    let auxs' := fun v => (fs v, auxs v) in
    let y := y_at s g y0 st0 (auxs' fill0) in
    (forall j, fst (fn (y j)) = map Fin (F j)) ->
    s_init s g y0 fs auxs' = Ret st0 -> reports_aux s g y0 st0 (auxs' fill0) ->
    iterative_solve allfinite (best_so_far to_loss s) fn fuel ms throw y0 fs auxs = Ret sol ->
    exists n, hd_error (sol_stats sol) = Some ("num_steps"%string, Some (Z.of_nat n)) /\
      ((n = 0 /\ value sol = y0) \/
       exists b, b < n /\ value sol = y b /\ aux sol = snd (fn (y b)) /\
          (forall j, j < n -> (R_sum_squares (F b) <= R_sum_squares (F j))%R) /\
          (forall j, j < b -> (R_sum_squares (F b) < R_sum_squares (F j))%R)).
Proof.
  intros Y Aux allfinite s fn y0 fs auxs st0 ms fuel throw to_loss sol F HT g auxs' y HF.
  apply (bsf_finite Y (list XR) Aux allfinite to_loss s fn y0 fs auxs st0 ms fuel throw sol (fun j => R_sum_squares (F j))).
  intro j. fold g auxs'. change (y_at s g y0 st0 (auxs' fill0)) with y. rewrite HF. destruct HT as [-> | ->]; apply xsum_squares.
Qed.

(** BestSoFarFixedPoint: the iterate closest to its image. *)
Lemma C09_fixed_point_pf :
  forall (Aux : Type) (allfinite : list XR -> bool) (s : Solver (list XR) (list XR) (list XR * Aux))
         (fn : list XR -> list XR * Aux) y0 fs auxs st0 ms fuel throw sol (V F : nat -> list R),
    let g := fun y => (fst (fn y), fn y) in
    let auxs' := fun v => (fs v, auxs v) in
    let y := y_at s g y0 st0 (auxs' fill0) in
    (forall j, y j = map Fin (V j) /\ fst (fn (y j)) = map Fin (F j)) ->
    s_init s g y0 fs auxs' = Ret st0 -> reports_aux s g y0 st0 (auxs' fill0) ->
    iterative_solve allfinite (best_so_far (N:=XR) loss_fixed_point s) fn fuel ms throw y0 fs auxs = Ret sol ->
    let gap j := R_sum_squares (map (fun p => fst p - snd p)%R (combine (V j) (F j))) in
    exists n, hd_error (sol_stats sol) = Some ("num_steps"%string, Some (Z.of_nat n)) /\
      ((n = 0 /\ value sol = y0) \/
       exists b, b < n /\ value sol = y b /\ aux sol = snd (fn (y b)) /\
          (forall j, j < n -> (gap b <= gap j)%R) /\ (forall j, j < b -> (gap b < gap j)%R)).
Proof.
  intros Aux allfinite s fn y0 fs auxs st0 ms fuel throw sol V F g auxs' y HF Hi Hr H gap.
  apply (bsf_finite (list XR) (list XR) Aux allfinite _ s fn y0 fs auxs st0 ms fuel throw sol gap); try assumption.
  intro j. destruct (HF j) as [H1 H2]. change (loss_fixed_point (N:=XR) (y j) (fst (fn (y j))) = Fin (gap j)).
  rewrite H2, H1. unfold loss_fixed_point. refine (eq_trans (f_equal _ (xvsub _ _)) _). apply xsum_squares.
Qed.

(** Wrapping does not disturb the run: same stop, same status, same number of
    steps, same inner state. *)
Lemma C10_best_so_far_transparent_pf :
  forall (N : Num) (Y Out Aux : Type) (allfinite : Y -> bool)
         (to_loss : Y -> Out -> N) (s : Solver Y Out (Out * Aux)) (fn : Y -> Out * Aux)
         y0 fs auxs ms fuel sol,
    iterative_solve allfinite (best_so_far to_loss s) fn fuel ms false y0 fs auxs = Ret sol ->
    exists sol',
      iterative_solve allfinite s (auxmented fn) fuel ms false y0 fs
        (fun v => (fs v, auxs v)) = Ret sol' /\
      result sol = result sol' /\
      hd_error (sol_stats sol) = hd_error (sol_stats sol') /\
      inner (state sol) = state sol'.
Proof.
  intros N Y Out Aux allfinite to_loss s fn y0 fs auxs ms fuel sol H.
  set (g := auxmented fn) in *. set (auxs' := fun v => (fs v, auxs v)).
  destruct (s_init s g y0 fs auxs') as [st0|e|] eqn:Hi.
  2:{ unfold iterative_solve, iterate in H. simpl in H. fold g auxs' in H.
      rewrite Hi in H. discriminate. }
  2:{ unfold iterative_solve, iterate in H. simpl in H. fold g auxs' in H.
      rewrite Hi in H. discriminate. }
  assert (Hi' : s_init (best_so_far to_loss s) fn y0 fs auxs =
                Ret (mkBsf y0 (auxs fill0) (ninf (n:=N)) st0 : St (best_so_far to_loss s))).
  { simpl. fold g. change (fun v => (fs v, auxs v)) with auxs'. rewrite Hi. reflexivity. }
  destruct (iterative_solve_inv allfinite (best_so_far to_loss s) fn y0 _ _ fs auxs eq_refl Hi'
              fuel ms false sol H) as (n & Hn & Hs & -> & _).
  set (b0 := mkBsf y0 (auxs fill0) ninf st0) in *.
  pose proof (trace_bsf to_loss s fn y0 st0 (auxs fill0) (auxs' fill0)) as HT.
  fold g b0 in HT.
  assert (Eask : forall k, asked (best_so_far to_loss s) fn y0 b0 (auxs fill0) k =
                           asked s g y0 st0 (auxs' fill0) k)
    by (intro k; unfold asked; apply HT).
  assert (Eterm : forall k, says_terminate (best_so_far to_loss s) fn y0 b0 (auxs fill0) k =
                           says_terminate s g y0 st0 (auxs' fill0) k).
  { intro k. unfold says_terminate. rewrite Eask. cbn [s_terminate best_so_far]. fold g.
    destruct (HT k) as (_ & EI & _). rewrite EI. reflexivity. }
  assert (Eres : forall k, says_result (best_so_far to_loss s) fn y0 b0 (auxs fill0) k =
                           says_result s g y0 st0 (auxs' fill0) k).
  { intro k. unfold says_result. rewrite Eask. cbn [s_terminate best_so_far]. fold g.
    destruct (HT k) as (_ & EI & _). rewrite EI. reflexivity. }
  assert (Estop : forall k, stops allfinite (best_so_far to_loss s) fn y0 b0 (auxs fill0) k <->
                            stops allfinite s g y0 st0 (auxs' fill0) k).
  { intro k. unfold stops. rewrite Eask, Eterm, Eres. reflexivity. }
  assert (Hs' : stop_index allfinite s g y0 st0 (auxs' fill0) ms n).
  { destruct Hs as (H1 & H2 & H3). split; [|split; auto].
    - destruct H1 as [H1|H1]; [left; apply Estop; auto|auto].
    - intros j Hj. rewrite <- Estop. auto. }
  destruct (iterative_solve_spec allfinite s g y0 st0 (auxs' fill0) fs auxs' eq_refl Hi
              fuel ms false) as [HS _].
  eexists. split; [rewrite (HS n Hn Hs'); reflexivity|].
  pose proof (solution_at_fields allfinite (best_so_far to_loss s) fn y0 b0 (auxs fill0) ms n)
    as (ER & ES & _ & EST).
  pose proof (solution_at_fields allfinite s g y0 st0 (auxs' fill0) ms n)
    as (ER' & ES' & _ & EST').
  rewrite ER, ER', ES, ES', EST, EST'. repeat split.
  - unfold final_result. rewrite Eask, Eterm, Eres. reflexivity.
  - apply HT.
Qed.

(** *** C08: conversions *)

Lemma vsub_zero : forall a b : list R, length a = length b ->
  (vsub (N:=RN) a b = repeat 0%R (length b) <-> a = b).
Proof.
  induction a as [|x a IH]; intros [|y b] H; simpl in *; try discriminate.
  - tauto.
  - injection H as H. specialize (IH b H). split; intro E.
    + unfold vsub in E. cbn [vmap2] in E. injection E as E1 E2. simpl in E1.
      f_equal; [lra|]. apply IH; auto.
    + injection E as -> ->. cbn [vsub vmap2]. f_equal; [simpl; lra|]. apply IH; auto.
Qed.

Lemma sum_squares_cons : forall x (a : list R),
  sum_squares (N:=RN) (x :: a) = (x * x + sum_squares (N:=RN) a)%R.
Proof. reflexivity. Qed.
Lemma sum_squares_nonneg : forall a : list R, (0 <= sum_squares (N:=RN) a)%R.
Proof.
  induction a as [|x a IH].
  - unfold sum_squares, vdot, vsum; simpl. rewrite Q2R_0; lra.
  - rewrite sum_squares_cons. pose proof (Rle_0_sqr x). unfold Rsqr in *. lra.
Qed.
Lemma sum_squares_zero : forall a : list R,
  sum_squares (N:=RN) a = 0%R <-> a = repeat 0%R (length a).
Proof.
  induction a as [|x a IH].
  - unfold sum_squares, vdot, vsum; simpl. rewrite Q2R_0. tauto.
  - rewrite sum_squares_cons. pose proof (Rle_0_sqr x). unfold Rsqr in *.
    pose proof (sum_squares_nonneg a). simpl. split.
    + intro E. assert (x * x = 0)%R by lra. assert (x = 0)%R by nra.
      f_equal; auto. apply IH. lra.
    + intro E. injection E as -> E. rewrite (proj2 IH E). lra.
Qed.

(** fixed_point with any solver that is not a fixed-point solver is root_find
    on fn(y)-y with the same aux; and the roots of that function are exactly
    the fixed points. *)
Lemma C08_fixed_point_pf :
  forall (Aux : Type) (s : any_solver (N:=RN)) (fn : list R -> list R * Aux) auxs y0 fuel ms throw,
    (forall p, s <> AFixedPoint p) ->
    fixed_point fuel ms throw s fn auxs y0 =
      (if Nat.eqb (length (fst (fn y0))) (length y0)
       then root_find fuel ms throw s
              (fun y => (vmap2 Rminus (fst (fn y)) y, snd (fn y))) auxs y0
       else Raise ValueError) /\
    forall y, length (fst (fn y)) = length y ->
      (vmap2 Rminus (fst (fn y)) y = repeat 0%R (length y) <-> fst (fn y) = y).
Proof.
  intros Aux s fn auxs y0 fuel ms throw Hs. split.
  - unfold fixed_point.
    assert (E : fixed_to_root_fn (N:=RN) fn = (fun y => (vmap2 Rminus (fst (fn y)) y, snd (fn y)))).
    { apply FunctionalExtensionality.functional_extensionality. intro y.
      unfold fixed_to_root_fn. destruct (fn y); reflexivity. }
    rewrite E. destruct (Nat.eqb _ _); simpl; auto.
    destruct s; auto. exfalso; eapply Hs; eauto.
  - intros y H. apply (vsub_zero (fst (fn y)) y H).
Qed.

Lemma R_sum_squares_eq : forall v, sum_squares (N:=RN) v = R_sum_squares v.
Proof.
  induction v as [|x v IH]; [unfold sum_squares, vdot, vsum; simpl; apply Q2R_0|].
  rewrite sum_squares_cons, IH. reflexivity.
Qed.

(** least_squares with a minimiser is minimise on half the sum of squared
    residuals, with the same aux; zero loss means zero residuals, and smaller
    loss means smaller sum of squares. *)
Lemma C08_least_squares_pf :
  forall (Aux : Type) (m : PolySolver (list R) R) norm atol (fn : list R -> list R * Aux)
         auxs y0 fuel ms throw,
    let half_ss := fun v : list R => (/ 2 * fold_right (fun x acc => x * x + acc) 0 v)%R in
    least_squares (N:=RN) fuel ms throw (AMinimiser (N:=RN) m norm atol) fn auxs y0 =
      minimise (N:=RN) fuel ms throw m (fun y => (half_ss (fst (fn y)), snd (fn y))) auxs y0 /\
    (forall v, half_ss v = 0%R <-> Forall (fun x => x = 0%R) v) /\
    (forall v, (0 <= half_ss v)%R).
Proof.
  intros Aux m norm atol fn auxs y0 fuel ms throw half_ss.
  assert (EH : forall v, half_ss v = (/2 * sum_squares (N:=RN) v)%R)
    by (intro v; rewrite R_sum_squares_eq; reflexivity).
  split; [|split].
  - unfold least_squares.
    replace (lstsq_to_minimise_fn (N:=RN) fn) with (fun y => (half_ss (fst (fn y)), snd (fn y)));
      [reflexivity|].
    apply FunctionalExtensionality.functional_extensionality. intro y.
    unfold lstsq_to_minimise_fn. destruct (fn y) as [r a]. cbn [fst snd]. rewrite EH.
    cbn [nmul RN nofQ]. rewrite Q2R_half. reflexivity.
  - intro v. rewrite EH. split.
    + intro H. assert (H0 : sum_squares (N:=RN) v = 0%R) by lra.
      apply sum_squares_zero in H0. rewrite H0. clear. induction (length v); simpl; auto.
    + intro H. assert (H0 : v = repeat 0%R (length v)).
      { induction H; simpl; congruence. }
      apply sum_squares_zero in H0. lra.
  - intro v. rewrite EH. pose proof (sum_squares_nonneg v). lra.
Qed.

Lemma C08_root_find_aux_aux :
  forall (N : Num) (Aux : Type) (l : PolySolver (list N) (list N)) (norm : list N -> N) (atol : N)
         (fn : list N -> list N * Aux) (auxs : fillv -> Aux) (y0 : list N)
         fuel ms throw ans st0,
    let s := l (list N * Aux)%type in
    let g := to_lstsq_fn fn in
    let fs := vec_struct (length (fst (fn y0))) in
    let auxs' := fun v => (fs v, auxs v) in
    s_init s g y0 fs auxs' = Ret st0 ->
    reports_aux s g y0 st0 (auxs' fill0) ->
    (forall y a st r, snd (fst (s_post s g y a st r)) = a) ->
    root_find fuel ms throw (ALeastSquares l norm atol) fn auxs y0 = Ret ans ->
    exists n, hd_error (a_stats ans) = Some ("num_steps"%string, Some (Z.of_nat n)) /\
      a_aux ans = match n with
                  | O => auxs fill0
                  | S j => snd (fn (y_at s g y0 st0 (auxs' fill0) j))
                  end.
Proof.
  intros N Aux l norm atol fn auxs y0 fuel ms throw ans st0 s g fs auxs' Hi Hrep Hpost H.
  unfold root_find in H. fold fs in H.
  change (fun v => (fs v, auxs v)) with auxs' in H. fold g in H. fold s in H.
  destruct (iterative_solve vallfinite (to_root atol norm s) g fuel ms
              throw y0 fs auxs') as [sol| |] eqn:E; simpl in H; try discriminate.
  injection H as <-. cbn [a_stats a_aux drop_fst_aux answer_of].
  set (finf := fst (auxs' fillinf)).
  assert (Hi' : s_init (to_root atol norm s) g y0 fs auxs' =
                Ret ((st0, finf) : St (to_root atol norm s)))
    by (simpl; rewrite Hi; reflexivity).
  destruct (iterative_solve_inv vallfinite (to_root atol norm s) g y0 _ _ fs auxs' eq_refl Hi'
              fuel ms throw sol E) as (n & _ & _ & -> & _).
  pose proof (solution_at_fields vallfinite (to_root atol norm s) g y0
      (st0, finf) (auxs' fill0) ms n) as (_ & _ & EV & ET).
  exists n. split; [exact (f_equal (@hd_error _) ET)|].
  cbn [s_post to_root] in EV. unfold aux_at, y_at, st_at in EV. rewrite !trace_to_root in EV.
  cbn [fst snd] in EV.
  pose proof (f_equal snd EV) as EA. cbn [snd] in EA. rewrite Hpost in EA.
  etransitivity; [exact (f_equal snd EA)|].
  destruct n as [|j]; [reflexivity|].
  change (snd (aux_at s g y0 st0 (auxs' fill0) (S j)) = snd (fn (y_at s g y0 st0 (auxs' fill0) j))).
  rewrite (Hrep j). unfold g at 1. rewrite snd_to_lstsq. reflexivity.
Qed.

(** root_find hands user aux through: with a least-squares solver (or
    minimiser) that reports aux and whose postprocess returns aux unchanged,
    the aux returned is the user's aux at the last point stepped from. *)
Lemma C08_root_find_aux_pf :
  forall (N : Num) (Aux : Type) (l : PolySolver (list N) (list N)) (norm : list N -> N) (atol : N)
         (fn : list N -> list N * Aux) (auxs : fillv -> Aux) (y0 : list N)
         fuel ms throw ans st0,
    let s := l (list N * Aux)%type in
    let g := fun y => (fst (fn y), fn y) in
    let fs := vec_struct (length (fst (fn y0))) in
    let auxs' := fun v => (fs v, auxs v) in
    s_init s g y0 fs auxs' = Ret st0 ->
    reports_aux s g y0 st0 (auxs' fill0) ->
    (forall y a st r, snd (fst (s_post s g y a st r)) = a) ->
    root_find fuel ms throw (ALeastSquares l norm atol) fn auxs y0 = Ret ans ->
    exists n, hd_error (a_stats ans) = Some ("num_steps"%string, Some (Z.of_nat n)) /\
      a_aux ans = match n with
                  | O => auxs fill0
                  | S j => snd (fn (y_at s g y0 st0 (auxs' fill0) j))
                  end.
Proof.
  intros *. repeat match goal with x := _ |- _ => subst x end. cbv beta.
  rewrite <- (to_lstsq_eta N Aux fn). apply C08_root_find_aux_aux.
Qed.

(** The documentation of root_find says that with a minimiser
    `sum(fn(y, args)^2)` is minimised.  What is minimised is solver.norm of
    fn(y), by default the max norm: here is a minimiser that picks the better
    of two points, and a function for which root_find returns the point with
    the larger sum of squares. *)
Lemma C54_root_find_minimises_sum_of_squares_refuted_pf :
  exists (m : PolySolver (list R) R) (fn : list R -> list R * unit) (y0 better : list R) ans,
    (* the minimiser picks the best of the points [0] and [1] *)
    (forall (g : list R -> R * unit),
       exists a, minimise (N:=RN) 2 (Some 1) false m g (fun _ => tt) y0 = Ret a /\
         (a_value a = [0%R] \/ a_value a = [1%R]) /\
         (fst (g (a_value a)) <= fst (g [0]))%R /\ (fst (g (a_value a)) <= fst (g [1]))%R) /\
    (better = [0%R] \/ better = [1%R]) /\
    root_find (N:=RN) 2 (Some 1) false (AMinimiser (N:=RN) m max_norm (/ 10)%R) fn
      (fun _ => tt) y0 = Ret ans /\
    (R_sum_squares (fst (fn better)) < R_sum_squares (fst (fn (a_value ans))))%R.
Proof.
  set (fn := fun y : list R => (if Reqb (hd 0%R y) 1 then [12/10; 0]%R else [1; 1]%R, tt)).
  exists two_point, fn, [0%R], [1%R].
  assert (EL0 : @nofQ RN 0 = 0%R) by (apply Q2R_0).
  assert (EL1 : @nofQ RN 1 = 1%R) by (apply Q2R_1).
  assert (EB1 : Reqb 1 1 = true) by (rb; lra).
  assert (EB0 : Reqb 0 1 = false) by (rb; lra).
  assert (EM : Rltb (max_norm (N:=RN) [12/10; 0]%R) (max_norm (N:=RN) [1; 1]%R) = false).
  { unfold max_norm, vabs; cbn [map fold_right]. rb.
    assert (E1 : forall a b : R, nmax (N:=RN) a b = if Rltb a b then b else a).
    { intros. unfold nmax, nisnan. cbn [neqb RN].
      replace (Reqb a a) with true by (symmetry; rb; lra).
      replace (Reqb b b) with true by (symmetry; rb; lra). reflexivity. }
    rewrite !E1. cbn [nabs RN nofQ]. rewrite Q2R_0, Rabs_R0, Rabs_R1.
    rewrite (Rabs_pos_eq (12/10)) by lra.
    repeat match goal with |- context [Rltb ?a ?b] => destruct (Rltb a b) eqn:?; rb end; lra. }
  eexists. split; [|split; [auto|split]].
  - intro g. unfold minimise, iterative_solve, iterate. simpl.
    destruct (Rltb (fst (g [Q2R 1])) (fst (g [Q2R 0]))) eqn:E; simpl;
      (eexists; split; [reflexivity|]); simpl; rewrite ?Q2R_0, ?Q2R_1 in *;
      rb; (split; [auto|]); lra.
  - unfold root_find, iterative_solve, iterate. simpl. rewrite ?Q2R_0, ?Q2R_1.
    rewrite EB1, EB0, EM. reflexivity.
  - simpl. rewrite EB1, EB0. unfold R_sum_squares; simpl. lra.
Qed.

(** With the two-norm the documented statement is right: the two objectives
    order points in the same way. *)
Lemma C54_two_norm_objective_partial_pf :
  forall a b : list R,
    (two_norm (N:=RN) a < two_norm (N:=RN) b)%R <-> (R_sum_squares a < R_sum_squares b)%R.
Proof.
  intros a b. unfold two_norm. cbn [nsqrt RN].
  rewrite <- !R_sum_squares_eq. split; intro H.
  - apply sqrt_lt_0_alt; auto.
  - apply sqrt_lt_1_alt. split; auto. apply sum_squares_nonneg.
Qed.

(** *** Examples, in binary64 *)

Lemma check_ret : forall A (x : outcome A) (p : A -> bool),
  match x with Ret a => p a | _ => false end = true -> exists a, x = Ret a /\ p a = true.
Proof. intros A [a|e|] p H; try discriminate. exists a; auto. Qed.

(** A minimiser that is content after one step, run on f(y)=y from -2 with
    atol 1/2: root_find keeps going until the root is reached. *)
Example C07_root_find_minimiser_ex_pf :
  (exists ans,
    root_find (N:=F64) 9 (Some 8) true (AMinimiser (N:=F64) (walker 1 f64) max_norm (f64_ofQ (1#2)))
      (fun y => (y, y)) (fun _ => []) [f64_ofZ (-2)] = Ret ans /\
    results_eqb (a_result ans) successful && eqvec (a_aux ans) [f64_ofZ 0] &&
    eqvec (a_value ans) [f64_ofZ 1] = true) /\
  reports_aux (walker (N:=F64) 1 f64 _) (to_minimise_fn (N:=F64) max_norm (fun y => (y, y)))
      [f64_ofZ (-2)] 0 ([f64_ofZ 0], []).
Proof.
  split; [apply check_ret; vm_compute; reflexivity|intro k; reflexivity].
Qed.

(** f(y) = (y-2)^2 visited at 0,1,2,3,4: the best iterate 2 is returned
    although the wrapped solver ends at 5. *)
Example C09_best_so_far_ex_pf :
  let f := fun y : list f64 => sum_squares (N:=F64) (vsub y [f64_ofZ 2]) in
  (exists sol,
    iterative_solve (vallfinite (N:=F64)) (best_so_far (N:=F64) loss_minimiser (walker 5 f64 _))
      (fun y => (f y, y)) 9 (Some 8) true [f64_ofZ 0] (scalar_struct (N:=F64)) (fun _ => []) = Ret sol /\
    eqvec (value sol) [f64_ofZ 2] && eqvec (aux sol) [f64_ofZ 2] = true) /\
  reports_aux (walker (N:=F64) 5 f64 _) (auxmented (fun y => (f y, y))) [f64_ofZ 0] 0 (f64_ofZ 0, []).
Proof.
  split; [apply check_ret; vm_compute; reflexivity|intro k; reflexivity].
Qed.

(** A walk 0, 1, 2, ... and the map y -> 6 - y: the iterate nearest its image is 3. *)
Example C09_fixed_point_ex_pf :
  let fn := fun y : list XR => (map (fun x => xsub (Fin 6) x) y, tt) in
  let V := fun j => [INR j] in
  let F := fun j => [(6 - INR j)%R] in
  (forall j, y_at (walker (N:=XR) 9 (list XR) (list XR * unit)%type) (fun y => (fst (fn y), fn y)) [Fin 0] 0%nat ([], tt) j = map Fin (V j) /\
     fst (fn (map Fin (V j))) = map Fin (F j)) /\
  reports_aux (walker (N:=XR) 9 (list XR) (list XR * unit)%type) (fun y => (fst (fn y), fn y)) [Fin 0] 0%nat ([], tt) /\
  (exists sol, iterative_solve (fun _ => true) (best_so_far (N:=XR) loss_fixed_point (walker (N:=XR) 9 (list XR) _)) fn 20 None true [Fin 0] (fun _ => []) (fun _ => tt) = Ret sol) /\
  forall j, j <> 3%nat -> (R_sum_squares (map (fun p => fst p - snd p) (combine (V 3%nat) (F 3%nat))) < R_sum_squares (map (fun p => fst p - snd p) (combine (V j) (F j))))%R.
Proof.
  intros fn V F. split; [|split; [intro k; reflexivity|split]].
  - intro j. split; [|reflexivity]. unfold y_at. induction j as [|j IH]; [reflexivity|].
    cbn [trace s_step walker]. destruct (trace _ _ _ _ _ j) as [[yj stj] aj]. cbn [fst] in IH |- *. rewrite IH. unfold V.
    rewrite S_INR. cbn [map nadd XR xadd nofQ]. rewrite Q2R_1. reflexivity.
  - eexists. vm_compute. reflexivity.
  - intros j Hj. unfold V, F, R_sum_squares. cbn [combine map fold_right fst snd]. 
    assert (E : INR 3 = 3%R) by (simpl; lra). rewrite E.
    assert (H : (INR j - 3 <> 0)%R).
    { intro Q. apply Hj. apply INR_eq. lra. }
    assert (0 < (INR j - 3) * (INR j - 3))%R by (apply Rsqr_pos_lt in H; exact H). lra.
Qed.

(** The same walk judged by residuals y - 3 and by the objective (y - 3)^2. *)
Example C09_residuals_ex_pf :
  let fn := fun y : list XR => (map (fun x => xsub x (Fin 3)) y, tt) in
  (forall j, fst (fn (y_at (walker (N:=XR) 9 (list XR) (list XR * unit)%type) (fun y => (fst (fn y), fn y)) [Fin 0] 0%nat ([], tt) j)) = map Fin [(INR j - 3)%R]) /\
  reports_aux (walker (N:=XR) 9 (list XR) (list XR * unit)%type) (fun y => (fst (fn y), fn y)) [Fin 0] 0%nat ([], tt) /\
  exists sol, iterative_solve (fun _ => true) (best_so_far (N:=XR) loss_root_finder (walker (N:=XR) 9 (list XR) _)) fn 20 None true [Fin 0] (fun _ => []) (fun _ => tt) = Ret sol.
Proof.
  intro fn. split; [|split; [intro k; reflexivity|eexists; vm_compute; reflexivity]].
  intro j. transitivity (fst (fn [Fin (INR j)])); [|reflexivity]. apply (f_equal (fun y => fst (fn y))).
  unfold y_at. induction j as [|j IH]; [reflexivity|].
  cbn [trace s_step walker]. destruct (trace _ _ _ _ _ j) as [[yj stj] aj]. cbn [fst] in IH |- *. rewrite IH.
  rewrite S_INR. cbn [map nadd XR xadd nofQ]. rewrite Q2R_1. reflexivity.
Qed.
Example C09_minimiser_ex_pf :
  let fn := fun y : list XR => match y with [Fin x] => (Fin ((x - 3) * (x - 3)), tt) | _ => (NaN, tt) end in
  (forall j, fst (fn (y_at (walker (N:=XR) 9 XR (XR * unit)%type) (fun y => (fst (fn y), fn y)) [Fin 0] 0%nat (Fin 0, tt) j)) = Fin ((INR j - 3) * (INR j - 3))) /\
  reports_aux (walker (N:=XR) 9 XR (XR * unit)%type) (fun y => (fst (fn y), fn y)) [Fin 0] 0%nat (Fin 0, tt) /\
  exists sol, iterative_solve (fun _ => true) (best_so_far (N:=XR) loss_minimiser (walker (N:=XR) 9 XR _)) fn 20 None true [Fin 0] (fun _ => Fin 0) (fun _ => tt) = Ret sol.
Proof.
  intro fn. split; [|split; [intro k; reflexivity|eexists; cbv - [Rltb Rmult Rplus Rminus Q2R IZR]; reflexivity]].
  intro j. transitivity (fst (fn [Fin (INR j)])); [|reflexivity]. apply (f_equal (fun y => fst (fn y))).
  unfold y_at. induction j as [|j IH]; [reflexivity|].
  cbn [trace s_step walker]. destruct (trace _ _ _ _ _ j) as [[yj stj] aj]. cbn [fst] in IH |- *. rewrite IH.
  rewrite S_INR. cbn [map nadd XR xadd nofQ]. rewrite Q2R_1. reflexivity.
Qed.

(** All losses NaN: y0 comes back. *)
Example C09_best_so_far_nan_ex_pf :
  exists sol,
    iterative_solve (vallfinite (N:=F64)) (best_so_far (N:=F64) loss_minimiser (walker 3 f64 _))
      (fun y => (fdiv (f64_ofZ 0) (f64_ofZ 0), y)) 9 (Some 8) true [f64_ofZ 7] (scalar_struct (N:=F64))
      (fun _ => [f64_ofZ 0]) = Ret sol /\
    eqvec (value sol) [f64_ofZ 7] && eqvec (aux sol) [f64_ofZ 0] = true.
Proof. apply check_ret; vm_compute; reflexivity. Qed.

(** least_squares / fixed_point conversions on concrete data. *)
Example C08_conversions_ex_pf :
  (exists a,
    least_squares (N:=F64) 9 (Some 8) true (AMinimiser (N:=F64) (walker 2 f64) max_norm (f64_ofZ 1))
      (fun y => (y, y)) (fun _ => []) [f64_ofZ 3] = Ret a /\
    eqvec (a_value a) [f64_ofZ 5] = true) /\
  (exists b,
    fixed_point (N:=F64) 9 (Some 8) true
      (ALeastSquares (N:=F64) (walker 1 (list f64)) max_norm (f64_ofZ 1))
      (fun y => ([f64_ofZ 5], y)) (fun _ => []) [f64_ofZ 3] = Ret b /\
    eqvec (a_aux b) [f64_ofZ 5] = true).
Proof. split; apply check_ret; vm_compute; reflexivity. Qed.

(** The four entry points: [throw] only decides whether a failure is raised. *)
Lemma solve_throw : forall (Y Out Aux : Type) allfinite (s : Solver Y Out Aux) fn fuel ms y0 fs auxs,
  iterative_solve allfinite s fn fuel ms true y0 fs auxs =
  obind (iterative_solve allfinite s fn fuel ms false y0 fs auxs)
    (fun sol => if results_eqb (result sol) successful then Ret sol else Raise (SolveFailed (result sol))).
Proof.
  intros. unfold iterative_solve. destruct (iterate _ _ _ _ _ _ _ _) as [[[[[[o k] r] st] a] ss]| |]; try reflexivity.
  cbn. destruct (results_eqb r successful); reflexivity.
Qed.

(** The same for the entry points minimise, least_squares, root_find and
    fixed_point, whatever kind of solver is passed: with throw=True a failed
    status is raised and a successful answer is that of throw=False. *)
Lemma C05_entry_points_pf :
  forall (N : Num) (Aux : Type) fuel ms (auxs : fillv -> Aux) (y0 : list N)
         (m : PolySolver (list N) N) (s : any_solver (N:=N))
         (f : list N -> N * Aux) (g : list N -> list N * Aux),
    let checked := fun o : outcome (Answer (list N) Aux) =>
      match o with
      | Ret a => if results_eqb (a_result a) successful then Ret a else Raise (SolveFailed (a_result a))
      | o => o
      end in
    minimise fuel ms true m f auxs y0 = checked (minimise fuel ms false m f auxs y0) /\
    least_squares fuel ms true s g auxs y0 = checked (least_squares fuel ms false s g auxs y0) /\
    root_find fuel ms true s g auxs y0 = checked (root_find fuel ms false s g auxs y0) /\
    fixed_point fuel ms true s g auxs y0 = checked (fixed_point fuel ms false s g auxs y0).
Proof.
  intros N Aux fuel ms auxs y0 m s f g checked.
  assert (A1 : forall (Out : Type) (s : Solver (list N) Out Aux) fn fs,
    omap answer_of (iterative_solve vallfinite s fn fuel ms true y0 fs auxs) =
    checked (omap answer_of (iterative_solve vallfinite s fn fuel ms false y0 fs auxs))).
  { intros. rewrite solve_throw. destruct (iterative_solve _ _ _ _ _ false _ _ _) as [sol| |]; try reflexivity.
    cbn. destruct (results_eqb (result sol) successful); reflexivity. }
  assert (A2 : forall (Out : Type) (s : Solver (list N) Out (list N * Aux)) fn fs auxs',
    omap drop_fst_aux (omap answer_of (iterative_solve vallfinite s fn fuel ms true y0 fs auxs')) =
    checked (omap drop_fst_aux (omap answer_of (iterative_solve vallfinite s fn fuel ms false y0 fs auxs')))).
  { intros. rewrite solve_throw. destruct (iterative_solve _ _ _ _ _ false _ _ _) as [sol| |]; try reflexivity.
    cbn. destruct (results_eqb (result sol) successful); reflexivity. }
  assert (A3 : forall g', root_find fuel ms true s g' auxs y0 = checked (root_find fuel ms false s g' auxs y0)).
  { intro g'. unfold root_find. destruct s; auto. }
  split; [|split; [|split]].
  - unfold minimise. apply A1.
  - unfold least_squares, minimise. destruct s; apply A1.
  - apply A3.
  - unfold fixed_point. destruct (Nat.eqb _ _); [|reflexivity]. cbn [negb]. destruct s; auto.
Qed.
