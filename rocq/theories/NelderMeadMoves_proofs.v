(** The moves of Nelder-Mead and its statistics (C73). *)

From Coq Require Import String List Bool Arith Lia ZArith QArith Qreals Reals Lra Psatz.
From Verif Require Import Num NumFacts NumF64 NumF64_facts Vec Results Iterate Spec_Iterate Iterate_proofs.
From Verif Require Import Spec_Vec VecFacts Spec_Lin LinFacts LeastSquares_proofs.
From Verif Require Import NelderMead Spec_NelderMead NelderMead_proofs.
Import ListNotations.
Local Open Scope nat_scope.

Lemma set_at_split : forall A i (a : A) l, i < length l -> set_at i a l = firstn i l ++ a :: skipn (S i) l.
Proof. intros A i. induction i; intros a [|x l] H; cbn in *; try lia; [reflexivity|]. f_equal. rewrite IHi by lia. reflexivity. Qed.
Lemma remove_at_split : forall A i (l : list A), remove_at i l = firstn i l ++ skipn (S i) l.
Proof. intros A i. induction i; intros [|x l]; cbn; auto. f_equal. rewrite IHi. destruct l; reflexivity. Qed.

(** Sum of the differences from w, entry by entry *)
Lemma dir_sum : forall d (c : R) (vs : list (list R)) (w : list R), Forall (fun v => length v = d) vs -> length w = d ->
  fold_right (vadd (N:=RN)) (vfull (N:=RN) (length w) (nofQ (n:=RN) 0)) (map (fun a => map (fun x => (x / c)%R) (vsub (N:=RN) a w)) vs) =
  Rscal (/ c) (Rsub_v (fold_right Radd_v (zerov d) vs) (Rscal (INR (length vs)) w)) /\
  length (fold_right Radd_v (zerov d) vs) = d.
Proof.
  intros d c vs w H Lw. induction vs as [|v vs IH].
  - cbn. split; [|unfold zerov; apply repeat_length]. rewrite Q2R_0. subst d. unfold vfull, zerov. clear. induction w as [|x w IH]; cbn; [reflexivity|].
    f_equal; [ring|exact IH].
  - pose proof (Forall_inv H) as Lv. destruct (IH (Forall_inv_tail H)) as [E L]. cbn [map fold_right length]. rewrite E.
    split; [|apply Radd_v_length; assumption].
    rewrite vadd_RN, vsub_RN, S_INR. clear E IH H. set (u := fold_right Radd_v (zerov d) vs) in *. clearbody u.
    generalize (INR (length vs)). intro n. clear vs. revert u v w Lw Lv L.
    induction d as [|d IH]; intros [|x u] [|y v] [|z w]; cbn; try discriminate; [reflexivity|]. intros A B C.
    f_equal; [unfold Rdiv; ring|]. apply IH; congruence.
Qed.

Lemma along_beyond : forall d (vs : list (list R)) (w : list R) (c : R),
  2 <= length vs -> Forall (fun v => length v = d) vs -> length w = d ->
  along (N:=RN) w (search_direction (N:=RN) vs w) c = beyond (centroid_without d vs w) w (c - 1).
Proof.
  intros d vs w c L2 H Lw.
  destruct (dir_sum d (INR (length vs - 1)) vs w H Lw) as [E L].
  assert (SC : nofQ (n:=RN) (inject_Z (Z.of_nat (length vs - 1))) = INR (length vs - 1)).
  { cbn. unfold Q2R, inject_Z. cbn. rewrite INR_IZR_INZ. field. }
  assert (E' : search_direction (N:=RN) vs w = Rscal (/ INR (length vs - 1)) (Rsub_v (fold_right Radd_v (zerov d) vs) (Rscal (INR (length vs)) w))).
  { refine (eq_trans _ E). rewrite <- SC. reflexivity. }
  unfold along. rewrite E'.
  rewrite vadd_RN, vscale_RN. unfold beyond, centroid_without.
  assert (V : (INR (length vs) = INR (length vs - 1) + 1)%R) by (rewrite <- S_INR; f_equal; lia).
  assert (V0 : (INR (length vs - 1) <> 0)%R) by (apply not_0_INR; lia).
  rewrite V. revert V0. generalize (INR (length vs - 1)). intros m V0. revert L. generalize (fold_right Radd_v (zerov d) vs). clear - Lw V0.
  intro u. revert u w Lw. induction d as [|d IH]; intros [|x u] [|z w]; cbn; try discriminate; [reflexivity|]. intros A B.
  f_equal; [field; exact V0|]. apply IH; congruence.
Qed.

Lemma step_second : forall (N : Num) Aux (fn : list N -> N * Aux) st,
  let st' := snd (fst (nm_step fn st)) in
  nm_second_worst st' = snd (top1 (remove_at (nm_worst_index st') (nm_f_simplex st'))).
Proof.
  intros N Aux fn st. unfold nm_step. destruct (if nm_first_pass st then _ else _) as [[[v f] s] a].
  destruct (if (if nm_first_pass st then true else _) then _ else _) as [fs vs].
  destruct (top1 (map nneg fs)) eqn:E1, (top1 fs) eqn:E2. reflexivity.
Qed.

Lemma step_counts : forall (N : Num) Aux (fn : list N -> N * Aux) st, nm_first_pass st = false ->
  let st' := snd (fst (nm_step fn st)) in
  let f := fst (fn (along (nm_worst st) (search_direction (nm_simplex st) (nm_worst st)) (lit 2))) in
  let c := nm_counts st in let c' := nm_counts st' in
  n_reflect c' = bump (nltb (nm_f_best st) f && nltb f (nm_second_worst st)) (n_reflect c) /\
  n_inner_contract c' = bump (nltb (nm_f_worst st) f) (n_inner_contract c) /\
  n_outer_contract c' = bump (negb (nltb f (nm_f_best st) || nltb (nm_second_worst st) f)) (n_outer_contract c) /\
  n_expand c' = bump (nltb f (nm_f_best st)) (n_expand c).
Proof.
  intros N Aux fn st F. unfold nm_step. rewrite F. unfold main_step.
  match goal with |- context [fn (vwhere ?c ?x ?z)] => destruct (fn (vwhere c x z)) as [f a] eqn:E end.
  cbv zeta. cbn -[top1 along search_direction shrink_simplex bump].
  match goal with |- context [if nltb (nm_f_worst st) f then ?x else ?y] => destruct (if nltb (nm_f_worst st) f then x else y) as [fs vs] end.
  destruct (top1 (map nneg fs)), (top1 fs). cbn -[along search_direction bump]. repeat split; reflexivity.
Qed.

Lemma main_vertex : forall (N : Num) Aux (fn : list N -> N * Aux) st v f c a, main_step fn st = (v, f, c, a) ->
  let dir := search_direction (nm_simplex st) (nm_worst st) in
  let fr := fst (fn (along (nm_worst st) dir (lit 2))) in
  v = vwhere (nltb (nm_second_worst st) fr) (along (nm_worst st) dir (nwhere (nltb (nm_f_worst st) fr) (lit (1#2)) (lit (3#2))))
        (vwhere (nltb fr (nm_f_best st)) (along (nm_worst st) dir (lit 3)) (along (nm_worst st) dir (lit 2))).
Proof.
  intros N Aux fn st v f c a H dir fr. unfold main_step in H. 
  match type of H with (let '(_, _) := fn ?x in _) = _ => destruct (fn x) as [f' a'] end.
  injection H as <- _ _ _. reflexivity.
Qed.

Lemma top1_removed : forall (l : list R) i, i < length l -> 2 <= length l ->
  let m := snd (top1 (N:=RN) (remove_at i l)) in
  (exists j, j <> i /\ j < length l /\ nth j l 0%R = m) /\
  (forall j, j <> i -> j < length l -> (nth j l 0 <= m)%R).
Proof.
  intros l i Hi H2 m.
  assert (NE : remove_at i l <> []).
  { intro E. apply (f_equal (@length R)) in E. rewrite remove_at_split, app_length, firstn_length, skipn_length in E. cbn in E. lia. }
  pose proof (top1_RN _ NE) as [A B]. pose proof (top1_lt RN _ NE) as C. fold m in A, B.
  assert (NT : forall j, nth j (remove_at i l) 0%R = nth (if j <? i then j else S j) l 0%R).
  { clear. revert l. induction i as [|i IH]; intros [|x l] j.
    - destruct j; reflexivity.
    - reflexivity.
    - cbn [remove_at]. destruct (j <? S i); destruct j; reflexivity.
    - cbn [remove_at]. destruct j as [|j]; [reflexivity|]. cbn [nth]. rewrite IH. change (S j <? S i) with (j <? i). destruct (j <? i); reflexivity. }
  assert (LN : length (remove_at i l) = length l - 1).
  { rewrite remove_at_split, app_length, firstn_length, skipn_length. lia. }
  split.
  - change (fst (top1 (N:=RN) (remove_at i l)) < length (remove_at i l : list R)) in C. rewrite LN in C. rewrite NT in A.
    match type of A with nth ?z _ _ = _ => exists z end.
    destruct (Nat.ltb_spec (fst (top1 (N:=RN) (remove_at i l))) i); (split; [lia|]; split; [lia|exact A]).
  - intros j Hj Hl. rewrite Forall_forall in B.
    destruct (le_lt_dec j i) as [Q|Q].
    + assert (E : nth j l 0%R = nth j (remove_at i l) 0%R).
      { rewrite NT. destruct (Nat.ltb_spec j i); [reflexivity|lia]. }
      rewrite E. apply B. apply nth_In. rewrite LN. lia.
    + assert (E : nth j l 0%R = nth (j - 1) (remove_at i l) 0%R).
      { rewrite NT. destruct (Nat.ltb_spec (j - 1) i); [lia|]. f_equal. lia. }
      rewrite E. apply B. apply nth_In. rewrite LN. lia.
Qed.

(** Exact arithmetic, after the first step: the worst value is the value at the
    vertex with the stored index, the second worst is the greatest of the others, and
    best <= second worst <= worst. *)
Lemma C73_order_pf :
  forall Aux (rtol atol : R) norm rdelta adelta shape (fn : list R -> R * Aux) (y0 : list R) fs auxs st0 (k : nat),
    let s := NelderMead (N:=RN) rtol atol norm rdelta adelta shape in
    s_init s fn y0 fs auxs = Ret st0 -> 1 <= k -> y0 <> [] ->
    let st := st_at s fn y0 st0 (auxs fill0) k in
    let F (j : nat) : R := fst (fn (nth j (nm_simplex st) [])) in
    length (nm_simplex st) = S (length y0) /\ nm_worst_index st <= length y0 /\
    F (nm_worst_index st) = nm_f_worst st /\
    (exists j, j <> nm_worst_index st /\ j <= length y0 /\ F j = nm_second_worst st) /\
    (forall j, j <> nm_worst_index st -> j <= length y0 -> (F j <= nm_second_worst st)%R) /\
    (nm_f_best st <= nm_second_worst st <= nm_f_worst st)%R.
Proof.
  intros Aux rtol atol norm rdelta adelta shape fn y0 fs auxs st0 k s Hinit Hk Hy. cbv zeta.
  pose proof (C47_values_partial_pf RN Aux rtol atol norm rdelta adelta shape fn y0 fs auxs st0 k Hinit Hk) as V. cbv zeta in V.
  injection Hinit as <-. destruct k as [|k]; [lia|].
  destruct (len_inv Aux rtol atol norm rdelta adelta shape fn y0 auxs (S k)) as [L1 L2].
  pose proof (ne_inv Aux rtol atol norm rdelta adelta shape fn y0 auxs (S k)) as NE.
  pose proof (marked Aux fn (st_at s fn y0 (nm_start (initial_simplex (N:=RN) adelta rdelta shape y0) (auxs fill0)) (auxs fill0) k)) as M.
  pose proof (step_second RN Aux fn (st_at s fn y0 (nm_start (initial_simplex (N:=RN) adelta rdelta shape y0) (auxs fill0)) (auxs fill0) k)) as S2.
  cbv zeta in M, S2. unfold s in *. rewrite <- nm_st_S in M, S2. specialize (M NE). destruct M as (M1 & M2 & M3 & M4 & M5).
  set (st := st_at _ _ _ _ _ (S k)) in *.
  assert (Y1 : 1 <= length y0) by (destruct y0; [contradiction|cbn; lia]).
  assert (FN : forall j, j <= length y0 -> nth j (nm_f_simplex st) 0%R = fst (fn (nth j (nm_simplex st) []))).
  { intros j Hj. rewrite V. rewrite (nth_indep _ 0%R ((fun v => fst (fn v)) [])) by (rewrite map_length; refine (eq_ind_r (fun z => j < z) _ L1); lia).
    apply (map_nth (fun v => fst (fn v))). }
  assert (W : nm_worst_index st <= length y0) by (pose proof (eq_ind _ (fun z => nm_worst_index st < z) M4 _ L2) as Q; cbn beta in Q; lia).
  destruct (top1_removed (nm_f_simplex st) (nm_worst_index st) M4) as [(j & J1 & J2 & J3) T].
  { refine (eq_ind_r (fun z => 2 <= z) _ L2). lia. }
  assert (J2' : j <= length y0) by (pose proof (eq_ind _ (fun z => j < z) J2 _ L2) as Q; cbn beta in Q; lia).
  assert (J3' : nth j (nm_f_simplex st) 0%R = nm_second_worst st) by exact (eq_trans J3 (eq_sym S2)). clear J3. rename J3' into J3.
  split; [exact L1|]. split; [exact W|]. split; [rewrite <- FN by exact W; exact M5|]. split; [|split].
  - exists j. split; [exact J1|]. split; [exact J2'|]. rewrite <- FN by exact J2'. exact J3.
  - intros i I1 I2. rewrite <- FN by exact I2. eapply Rle_trans; [apply T; [exact I1|]|right; exact (eq_sym S2)]. refine (eq_ind_r (fun z => i < z) _ L2). lia.
  - rewrite <- J3. rewrite Forall_forall in M3. apply M3. apply nth_In. exact J2.
Qed.

(** Exact arithmetic, every step after the first: with w the stored worst vertex, c the
    centroid of the simplex without w, fr the value at the reflected point c + (c - w)
    and rho the textbook move, the new vertex is c + rho (c - w); if its value is not
    above the worst it replaces the vertex at the worst index and nothing else changes,
    otherwise every vertex moves half way to the stored best vertex. *)
Lemma C73_move_pf :
  forall Aux (rtol atol : R) norm rdelta adelta shape (fn : list R -> R * Aux) (y0 : list R) fs auxs st0 (k : nat),
    let s := NelderMead (N:=RN) rtol atol norm rdelta adelta shape in
    s_init s fn y0 fs auxs = Ret st0 -> 1 <= k -> y0 <> [] -> fold_right Nat.add 0 shape = length y0 ->
    let st := st_at s fn y0 st0 (auxs fill0) k in
    let st' := st_at s fn y0 st0 (auxs fill0) (S k) in
    let f v := fst (fn v) in
    let vs := nm_simplex st in let w := nm_worst st in
    let c := centroid_without (length y0) vs w in
    let fr := f (beyond c w 1) in
    let rho := textbook_move (nm_f_best st) (nm_second_worst st) (nm_f_worst st) fr in
    let new := beyond c w rho in
    ((f new <= nm_f_worst st)%R ->
       nm_simplex st' = firstn (nm_worst_index st) vs ++ new :: skipn (S (nm_worst_index st)) vs) /\
    ((nm_f_worst st < f new)%R ->
       nm_simplex st' = map (fun a => Radd_v (nm_best st) (Rscal (/ 2) (Rsub_v a (nm_best st)))) vs) /\
    n_shrink (nm_counts st') = (n_shrink (nm_counts st) + count_if (Rlt_dec (nm_f_worst st) (f new)))%Z.
Proof.
  intros Aux rtol atol norm rdelta adelta shape fn y0 fs auxs st0 k s Hinit Hk Hy Hsh. cbv zeta.
  pose proof (C73_order_pf Aux rtol atol norm rdelta adelta shape fn y0 fs auxs st0 k Hinit Hk Hy) as O. cbv zeta in O.
  injection Hinit as <-. destruct k as [|k]; [lia|].
  pose proof (first_inv Aux rtol atol norm rdelta adelta shape fn y0 auxs k) as F1.
  set (st00 := nm_start (initial_simplex (N:=RN) adelta rdelta shape y0) (auxs fill0)) in *. unfold s in *.
  pose proof (step_simplex (N:=RN) fn (st_at (NelderMead (N:=RN) rtol atol norm rdelta adelta shape) fn y0 st00 (auxs fill0) (S k))) as SS.
  cbv zeta in SS. rewrite <- nm_st_S in SS.
  pose proof (nm_in_at Aux rtol atol norm rdelta adelta shape fn y0 auxs (length y0) _ (S k) (full_affine (length y0)) (initial_rows RN adelta rdelta shape y0 Hsh)) as IN.
  cbv zeta in IN. fold st00 in IN.
  set (st := st_at _ _ _ _ _ (S k)) in *. set (st' := st_at _ _ _ _ _ (S (S k))) in *.
  destruct O as (O1 & O2 & O3 & _ & _ & O4 & O5).
  assert (Lny : 1 <= length y0) by (destruct y0; [contradiction|cbn; lia]).
  destruct IN as (IN1 & IN2 & IN3 & _ & _).
  assert (AB : forall cc, along (N:=RN) (nm_worst st) (search_direction (N:=RN) (nm_simplex st) (nm_worst st)) cc =
     beyond (centroid_without (length y0) (nm_simplex st) (nm_worst st)) (nm_worst st) (cc - 1)).
  { intro cc. apply along_beyond; [refine (eq_ind_r (fun z => 2 <= z) _ O1); lia|exact IN1|exact IN3]. }
  set (C := centroid_without (length y0) (nm_simplex st) (nm_worst st)) in *.
  assert (LB : forall x z, length (beyond C (nm_worst st) x) = length (beyond C (nm_worst st) z)).
  { intros x z. unfold beyond. clearbody C. clear. revert C. generalize (nm_worst st : list R). induction l as [|q w IH]; intros [|p u]; cbn; auto. f_equal. apply IH. }
  destruct SS as [(F & _)|(_ & v & f & cc & a & Em & Ef & SS)]; [rewrite F1 in F; discriminate|].
  assert (EV : v = beyond C (nm_worst st) (textbook_move (nm_f_best st) (nm_second_worst st) (nm_f_worst st) (fst (fn (beyond C (nm_worst st) 1))))).
  { apply main_vertex in Em. cbv zeta in Em. rewrite !AB in Em.
    replace (nofQ (n:=RN) 2 - 1)%R with 1%R in Em by (cbn; unfold Q2R; cbn; lra).
    replace (nofQ (n:=RN) 3 - 1)%R with 2%R in Em by (cbn; unfold Q2R; cbn; lra).
    rewrite !vwhere_pick in Em by (rewrite ?vwhere_pick by apply LB; repeat match goal with |- context [if ?b then _ else _] => destruct b end; apply LB).
    set (fr := fst (fn (beyond C (nm_worst st) 1))) in *. match type of Em with context [nltb (nm_second_worst st) ?z] => change z with fr in Em end.
    unfold textbook_move. rewrite Em. clearbody fr. clear - O4 O5. revert O4 O5.
    generalize (nm_f_best st : R) (nm_second_worst st : R) (nm_f_worst st : R) (fr : R). clear. intros fb fs fw r O4 O5.
    cbn [nltb RN nwhere nofQ].
    destruct (Rltb fs r) eqn:Q1; [apply Rltb_true in Q1|apply Rltb_false in Q1];
    destruct (Rltb r fb) eqn:Q2; [apply Rltb_true in Q2|apply Rltb_false in Q2| apply Rltb_true in Q2|apply Rltb_false in Q2];
    destruct (Rlt_dec r fb) as [D1|D1]; try (exfalso; lra); auto.
    - destruct (Rle_dec r fs) as [D2|D2]; [exfalso; lra|].
      destruct (Rltb fw r) eqn:Q3; [apply Rltb_true in Q3|apply Rltb_false in Q3];
      destruct (Rle_dec r fw) as [D3|D3]; try (exfalso; lra); unfold nwhere; f_equal; cbn; unfold Q2R; cbn; lra.
    - destruct (Rle_dec r fs) as [D2|D2]; [reflexivity|exfalso; lra]. }
  rewrite <- EV. assert (Ef' : fst (fn v) = f) by (rewrite Ef; reflexivity). rewrite Ef'. unfold count_if.
  destruct SS as [(SW & E1 & E2 & E3)|(SW & E1 & E2 & E3)].
  - cbn [nltb RN] in SW. apply Rltb_true in SW. destruct (Rlt_dec (nm_f_worst st) f) as [D|D]; [|contradiction].
    split; [intro; exfalso; apply (Rlt_not_le _ _ SW); assumption|]. split; [intros _|exact E3].
    assert (NB : nltb (n:=RN) f (nm_f_best st) = false) by (cbn; apply Rltb_false; lra).
    rewrite NB in E1. assert (Lv : length v = length (nm_best st)).
    { exact (eq_trans (main_in (length y0) _ (full_affine (length y0)) _ _ _ _ _ _ _ (nm_in_at Aux rtol atol norm rdelta adelta shape fn y0 auxs (length y0) _ (S k) (full_affine (length y0)) (initial_rows RN adelta rdelta shape y0 Hsh)) Em) (eq_sym IN2)). }
    rewrite vwhere_pick in E1 by exact Lv. rewrite E1. apply map_ext. intro b. rewrite vadd_RN, vscale_RN, vsub_RN. f_equal. f_equal. cbn. unfold Q2R. cbn. lra.
  - cbn [nltb RN] in SW. apply Rltb_false in SW. destruct (Rlt_dec (nm_f_worst st) f) as [D|D]; [exfalso; lra|].
    split; [intros _|split; [intro; exfalso; lra|rewrite E3; lia]].
    rewrite E1. apply set_at_split. refine (eq_ind_r (fun z => nm_worst_index st < z) _ O1). lia.
Qed.

(** The counters, exact arithmetic: none has been counted after the first step; from
    then on each step counts an expansion when fr < best, a reflection when
    best < fr < second worst, an inner contraction when worst < fr, and, under the name
    of outer contractions, the steps with best <= fr <= second worst. *)
Lemma C73_counters_partial_pf :
  forall Aux (rtol atol : R) norm rdelta adelta shape (fn : list R -> R * Aux) (y0 : list R) fs auxs st0 (k : nat),
    let s := NelderMead (N:=RN) rtol atol norm rdelta adelta shape in
    s_init s fn y0 fs auxs = Ret st0 -> y0 <> [] -> fold_right Nat.add 0 shape = length y0 ->
    let st k := st_at s fn y0 st0 (auxs fill0) k in
    nm_counts (st 1) = mkNMStats 0 0 0 0 0 /\
    (1 <= k ->
     let fr := fst (fn (beyond (centroid_without (length y0) (nm_simplex (st k)) (nm_worst (st k))) (nm_worst (st k)) 1)) in
     let c := nm_counts (st k) in let c' := nm_counts (st (S k)) in
     n_expand c' = (n_expand c + count_if (Rlt_dec fr (nm_f_best (st k))))%Z /\
     n_reflect c' = (n_reflect c + count_if (Rlt_dec (nm_f_best (st k)) fr) * count_if (Rlt_dec fr (nm_second_worst (st k))))%Z /\
     n_inner_contract c' = (n_inner_contract c + count_if (Rlt_dec (nm_f_worst (st k)) fr))%Z /\
     n_outer_contract c' = (n_outer_contract c + count_if (Rle_dec (nm_f_best (st k)) fr) * count_if (Rle_dec fr (nm_second_worst (st k))))%Z).
Proof.
  intros Aux rtol atol norm rdelta adelta shape fn y0 fs auxs st0 k s Hinit Hy Hsh. cbv zeta.
  split.
  { injection Hinit as <-. unfold s. rewrite nm_st_S.
    match goal with |- nm_counts (snd (fst (nm_step fn ?z))) = _ => change z with (nm_start (initial_simplex (N:=RN) adelta rdelta shape y0) (auxs fill0)) end.
    unfold nm_step, nm_start. cbn -[top1 initial_simplex]. 
    repeat match goal with |- context [top1 ?x] => destruct (top1 x) end. reflexivity. }
  intro Hk.
  pose proof (C73_order_pf Aux rtol atol norm rdelta adelta shape fn y0 fs auxs st0 k Hinit Hk Hy) as O. cbv zeta in O.
  injection Hinit as <-. destruct k as [|k]; [lia|].
  pose proof (first_inv Aux rtol atol norm rdelta adelta shape fn y0 auxs k) as F1.
  set (st00 := nm_start (initial_simplex (N:=RN) adelta rdelta shape y0) (auxs fill0)) in *. unfold s in *.
  pose proof (step_counts RN Aux fn (st_at (NelderMead (N:=RN) rtol atol norm rdelta adelta shape) fn y0 st00 (auxs fill0) (S k)) F1) as SS.
  cbv zeta in SS. rewrite <- nm_st_S in SS.
  pose proof (nm_in_at Aux rtol atol norm rdelta adelta shape fn y0 auxs (length y0) _ (S k) (full_affine (length y0)) (initial_rows RN adelta rdelta shape y0 Hsh)) as IN.
  cbv zeta in IN. fold st00 in IN.
  set (st := st_at _ _ _ _ _ (S k)) in *. set (st' := st_at _ _ _ _ _ (S (S k))) in *.
  destruct O as (O1 & _ & _ & _ & _ & _ & _).
  assert (Lny : 1 <= length y0) by (destruct y0; [contradiction|cbn; lia]).
  destruct IN as (IN1 & IN2 & IN3 & _ & _).
  rewrite (along_beyond (length y0)) in SS by (try exact IN1; try exact IN3; refine (eq_ind_r (fun z => 2 <= z) _ O1); lia).
  replace (nofQ (n:=RN) 2 - 1)%R with 1%R in SS by (cbn; unfold Q2R; cbn; lra).
  match type of SS with context [nltb (nm_second_worst st) ?z] => change z with (fst (fn (beyond (centroid_without (length y0) (nm_simplex st) (nm_worst st)) (nm_worst st) 1))) in SS end.
  revert SS. generalize (fst (fn (beyond (centroid_without (length y0) (nm_simplex st) (nm_worst st)) (nm_worst st) 1))).
  generalize (nm_f_best st : R) (nm_second_worst st : R) (nm_f_worst st : R). clear. intros fb fs fw r (E1 & E2 & E3 & E4).
  rewrite E1, E2, E3, E4. unfold bump, count_if. cbn [nltb RN].
  repeat split.
  - destruct (Rltb r fb) eqn:Q; [apply Rltb_true in Q|apply Rltb_false in Q]; destruct (Rlt_dec r fb); try (exfalso; lra); lia.
  - destruct (Rltb fb r) eqn:Q; [apply Rltb_true in Q|apply Rltb_false in Q]; destruct (Rlt_dec fb r); try (exfalso; lra);
    destruct (Rltb r fs) eqn:Q'; [apply Rltb_true in Q'|apply Rltb_false in Q'|apply Rltb_true in Q'|apply Rltb_false in Q']; destruct (Rlt_dec r fs); try (exfalso; lra); cbn [andb]; lia.
  - destruct (Rltb fw r) eqn:Q; [apply Rltb_true in Q|apply Rltb_false in Q]; destruct (Rlt_dec fw r); try (exfalso; lra); lia.
  - destruct (Rltb r fb) eqn:Q; [apply Rltb_true in Q|apply Rltb_false in Q]; destruct (Rle_dec fb r); try (exfalso; lra);
    destruct (Rltb fs r) eqn:Q'; [apply Rltb_true in Q'|apply Rltb_false in Q'|apply Rltb_true in Q'|apply Rltb_false in Q']; destruct (Rle_dec r fs); try (exfalso; lra); cbn [orb negb]; lia.
Qed.

(** So, under the name of outer contractions, the solver counts exactly the plain
    reflections and never an outer contraction. *)
Lemma C73_outer_counts_reflections_partial_pf :
  forall Aux (rtol atol : R) norm rdelta adelta shape (fn : list R -> R * Aux) (y0 : list R) fs auxs st0 (k : nat),
    let s := NelderMead (N:=RN) rtol atol norm rdelta adelta shape in
    s_init s fn y0 fs auxs = Ret st0 -> 1 <= k -> y0 <> [] -> fold_right Nat.add 0 shape = length y0 ->
    let st := st_at s fn y0 st0 (auxs fill0) k in
    let st' := st_at s fn y0 st0 (auxs fill0) (S k) in
    let w := nm_worst st in
    let fr := fst (fn (beyond (centroid_without (length y0) (nm_simplex st) w) w 1)) in
    let rho := textbook_move (nm_f_best st) (nm_second_worst st) (nm_f_worst st) fr in
    (rho = 1%R -> n_outer_contract (nm_counts st') = (n_outer_contract (nm_counts st) + 1)%Z) /\
    (rho <> 1%R -> n_outer_contract (nm_counts st') = n_outer_contract (nm_counts st)).
Proof.
  intros Aux rtol atol norm rdelta adelta shape fn y0 fs auxs st0 k s Hinit Hk Hy Hsh. cbv zeta.
  pose proof (C73_order_pf Aux rtol atol norm rdelta adelta shape fn y0 fs auxs st0 k Hinit Hk Hy) as O. cbv zeta in O.
  destruct (C73_counters_partial_pf Aux rtol atol norm rdelta adelta shape fn y0 fs auxs st0 k Hinit Hy Hsh) as (_ & C).
  destruct (C Hk) as (_ & _ & _ & E). unfold s. rewrite E. clear E C. destruct O as (_ & _ & _ & _ & _ & O1 & O2).
  match goal with |- context [textbook_move ?a ?b ?c ?d] => set (fb := a : R) in *; set (fs' := b : R) in *; set (fw := c : R) in *; set (r := d : R) in * end.
  change (fb <= fs')%R in O1. change (fs' <= fw)%R in O2.
  match goal with |- context [(?z + _)%Z] => generalize z end. intro z.
  change ((textbook_move fb fs' fw r = 1%R -> (z + count_if (Rle_dec fb r) * count_if (Rle_dec r fs') = z + 1)%Z) /\
          (textbook_move fb fs' fw r <> 1%R -> (z + count_if (Rle_dec fb r) * count_if (Rle_dec r fs') = z)%Z)).
  clearbody fb fs' fw r. clear - O1 O2. unfold textbook_move, count_if.
  destruct (Rlt_dec r fb), (Rle_dec fb r), (Rle_dec r fs'), (Rle_dec r fw); split; intro; try (exfalso; lra); lia.
Qed.

(** num_outer_contractions does not count outer contractions. Two steps of binary64
    Nelder-Mead from the simplex {0, 1}: for (x + 1/4)^2 the second step contracts
    outside, replacing 1 by -1/2, and the solver reports 0 outer contractions; for
    max (x, 0) it reflects 1 to -1, and the solver reports one outer contraction and
    no reflection. *)
Definition quarter64 (v : list f64) : f64 * unit :=
  match v with [x] => let d := fadd x (f64_ofQ (1#4)) in (fmul d d, tt) | _ => (f64_ofZ 0, tt) end.
Definition relu64 (v : list f64) : f64 * unit :=
  match v with [x] => ((if nltb (n:=F64) x (f64_ofZ 0) then f64_ofZ 0 else x), tt) | _ => (f64_ofZ 0, tt) end.
Definition counts64 (fn : list f64 -> f64 * unit) : stats :=
  match iterative_solve (vallfinite (N:=F64)) nm_unit fn 10 (Some 2) false [f64_ofZ 0] (fun _ => f64_ofZ 0) (fun _ => tt) with
  | Ret sol => sol_stats sol | _ => [] end.
(** An outer contraction is counted nowhere and a reflection is counted as an outer
    contraction. *)
Lemma C73_outer_count_refuted_pf :
  exists fn gn : list f64 -> f64 * unit,
    map (fun v => is1 0 v || forallb (fun x => neqb (n:=F64) x (f64_ofQ (-1#2))) v) (nm_simplex (nm_unit_st fn [f64_ofZ 0] 2)) = [true; true] /\
    In ("num_outer_contractions"%string, Some 0%Z) (counts64 fn) /\
    map (fun v => is1 0 v || is1 (-1) v) (nm_simplex (nm_unit_st gn [f64_ofZ 0] 2)) = [true; true] /\
    In ("num_outer_contractions"%string, Some 1%Z) (counts64 gn) /\
    In ("num_reflections"%string, Some 0%Z) (counts64 gn).
Proof.
  exists quarter64, relu64. split; [vm_compute; reflexivity|]. split; [vm_compute; tauto|]. split; [vm_compute; reflexivity|].
  split; vm_compute; tauto.
Qed.

(** Example: two unknowns, f(x, y) = x + 2 y from (0, 0) with displacement 1, one
    scalar leaf each: the vertices (0,0), (1,0), (0,1); the worst is (0,1), the
    centroid of the others (1/2, 0), the reflected point (1, -1) has the value -1,
    below the best, so the simplex expands to (3/2, -2). *)
Definition slope2 (v : list R) : R * unit :=
  match v with [x; y] => ((x + 2 * y)%R, tt) | _ => (0%R, tt) end.
Example C73_move_ex_pf :
  let vs := [[0; 0]; [1; 0]; [0; 1]]%R in let w := [0; 1]%R in
  fold_right Nat.add 0 [1; 1] = length [0; 0]%R /\
  initial_simplex (N:=RN) 1%R 0%R [1; 1] [0; 0]%R = vs /\
  centroid_without 2 vs w = [/ 2; 0]%R /\
  beyond [/ 2; 0]%R w 1 = [1; -1]%R /\
  textbook_move 0 1 2 (fst (slope2 [1; -1]%R)) = 2%R /\
  beyond [/ 2; 0]%R w 2 = [3 / 2; -2]%R.
Proof.
  cbv zeta. split; [reflexivity|]. split.
  { unfold initial_simplex. cbn. unfold Q2R; cbn. repeat (f_equal; try lra). }
  split; [unfold centroid_without; cbn; repeat (f_equal; try lra)|].
  split; [unfold beyond; cbn; repeat (f_equal; try lra)|].
  split; [|unfold beyond; cbn; repeat (f_equal; try lra)].
  unfold textbook_move. cbn. destruct (Rlt_dec _ _); [reflexivity|exfalso; lra].
Qed.
