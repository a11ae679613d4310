(** Proofs about batched solves. *)

From Coq Require Import List Bool Arith Lia ZArith.
From Verif Require Import Results Iterate Spec_Iterate Iterate_proofs Batch Spec_Batch.
Import ListNotations.

Section B.
  Context {Y Out Aux : Type}.
  Variable allfinite : Y -> bool.
  Variable s : Solver Y Out Aux.
  Notation crr := (carry (Y:=Y) (Aux:=Aux) (St s)).

  Lemma rows_columns : forall (cs : list crr) ks, rows_of s (columns s cs ks) = cs.
  Proof.
    unfold rows_of, columns. cbn. induction cs as [|[y n st a t r] cs IH]; intros ks; cbn; auto.
    f_equal. apply (IH []).
  Qed.

  Lemma select_map : forall A B (f : A -> B) p a b, select p (map f a) (map f b) = map f (select p a b).
  Proof.
    intros A B f. induction p as [|x p IH]; intros [|a1 a] [|b1 b]; cbn; auto. rewrite IH. destruct x; auto.
  Qed.

  Lemma bselect_columns : forall p (new old : list crr) k' k,
    bselect s p (columns s new k') (columns s old k) = columns s (select p new old) (select p k' k).
  Proof. intros. unfold bselect, columns. cbn. rewrite !select_map. reflexivity. Qed.

  (** One lane *)
  Definition lane_loop fuel ms fn (c : crr) (k : nat) : outcome crr :=
    while_loop fuel (cond_fun s) (body_fun allfinite s fn) (option_map (fun m => m - k) ms) c.

  Lemma lane_loop_S : forall f ms fn c k,
    lane_loop (S f) ms fn c k = if wants s ms c k then lane_loop f ms fn (body_fun allfinite s fn c) (S k) else Ret c.
  Proof.
    intros f ms fn c k. unfold lane_loop, wants. cbn [while_loop]. destruct ms as [m|]; cbn [option_map andb].
    - destruct (Nat.ltb_spec k m); cbn [andb].
      + replace (m - k) with (S (m - S k)) by lia. cbn [pred]. reflexivity.
      + replace (m - k) with 0 by lia. reflexivity.
    - reflexivity.
  Qed.

  Fixpoint lanes3 {A B C D : Type} (f : A -> B -> C -> D) (a : list A) (b : list B) (c : list C) : list D :=
    match a, b, c with
    | x :: a', y :: b', z :: c' => f x y z :: lanes3 f a' b' c'
    | _, _, _ => []
    end.

  Lemma lanes2_length : forall A B C (f : A -> B -> C) a b, length a = length b -> length (lanes2 f a b) = length a.
  Proof. intros A B C f. induction a; intros [|b1 b] H; cbn in *; auto; lia. Qed.

  Lemma select_length : forall A p (a b : list A), length p = length a -> length a = length b -> length (select p a b) = length a.
  Proof. intros A. induction p; intros [|a1 a'] [|b1 b] H1 H2; cbn in *; auto; lia. Qed.

  (** No lane wants to go on: every lane loop returns at once. *)
  Lemma none_wants : forall f ms fns cs ks,
    length fns = length cs -> length ks = length cs ->
    existsb (fun b => b) (lanes2 (wants s ms) cs ks) = false ->
    lanes_outcome (lanes3 (lane_loop (S f) ms) fns cs ks) = Ret cs.
  Proof.
    induction fns as [|fn fns IH]; intros [|c cs] [|k ks] H1 H2 H; cbn [length] in *; try lia; auto.
    cbn [lanes2 existsb] in H. apply orb_false_elim in H. destruct H as [Ha Hb].
    cbn [lanes3 lanes_outcome]. rewrite lane_loop_S, Ha. cbn [obind]. rewrite IH; auto.
  Qed.

  (** Otherwise, with enough fuel, every lane loop goes on from the selected carry. *)
  Lemma some_wants : forall f ms fns cs ks,
    length fns = length cs -> length ks = length cs ->
    lanes3 (lane_loop (S (S f)) ms) fns cs ks =
    lanes3 (lane_loop (S f) ms) fns
      (select (lanes2 (wants s ms) cs ks) (lanes2 (body_fun allfinite s) fns cs) cs)
      (select (lanes2 (wants s ms) cs ks) (map S ks) ks).
  Proof.
    intros f ms. induction fns as [|fn fns IH]; intros [|c cs] [|k ks] H1 H2; cbn [length] in *; try lia; auto.
    cbn [lanes3 lanes2 select map]. rewrite IH by lia. f_equal.
    rewrite lane_loop_S. destruct (wants s ms c k) eqn:W; auto.
    rewrite lane_loop_S, W. reflexivity.
  Qed.

  Lemma lanes_unfinished : forall ms fns cs ks,
    length fns = length cs -> length ks = length cs ->
    existsb (fun b => b) (lanes2 (wants s ms) cs ks) = true ->
    lanes_outcome (lanes3 (lane_loop 1 ms) fns cs ks) = Unfinished.
  Proof.
    induction fns as [|fn fns IH]; intros [|c cs] [|k ks] H1 H2 H; cbn [length] in *; try lia; try discriminate.
    cbn [lanes2 existsb] in H. cbn [lanes3 lanes_outcome]. rewrite lane_loop_S.
    destruct (wants s ms c k) eqn:W; [reflexivity|]. cbn [orb] in H. cbn [obind]. rewrite IH; auto.
  Qed.

  Lemma batched_lanes : forall fuel ms fns cs ks,
    0 < fuel -> length fns = length cs -> length ks = length cs ->
    obind (batched_while allfinite s fuel fns ms (columns s cs ks)) (fun c => Ret (rows_of s c)) =
    lanes_outcome (lanes3 (lane_loop fuel ms) fns cs ks).
  Proof.
    induction fuel as [|f IH]; intros ms fns cs ks Hf H1 H2; [lia|].
    cbn [batched_while]. rewrite !rows_columns. change (b_count s (columns s cs ks)) with ks.
    destruct (existsb _ (lanes2 (wants s ms) cs ks)) eqn:E.
    - destruct f as [|f].
      + rewrite lanes_unfinished; auto.
      + rewrite some_wants by auto. rewrite bselect_columns. rewrite IH; try lia; auto;
        rewrite !select_length; rewrite ?lanes2_length, ?map_length; try lia;
        rewrite ?lanes2_length; lia.
    - cbn [obind]. rewrite rows_columns, none_wants; auto.
  Qed.

  (** A single solve in the same terms *)
  Lemma solve_lane : forall fuel ms throw fn y0 fs auxs,
    iterative_solve allfinite s fn fuel ms throw y0 fs auxs =
    obind (s_init s fn y0 fs auxs) (fun st =>
    obind (lane_loop fuel ms fn (start allfinite s fn y0 (auxs fill0) st) 0) (fun c =>
      let sol := finish s ms fn c in
      if throw && negb (results_eqb (result sol) successful) then Raise (SolveFailed (result sol)) else Ret sol)).
  Proof.
    intros. unfold iterative_solve, iterate, start, lane_loop, finish.
    destruct (s_init s fn y0 fs auxs) as [st| |]; cbn [obind]; auto.
    destruct (terminate_and_result allfinite s fn y0 st) as [t r].
    replace (option_map (fun m => m - 0) ms) with ms by (destruct ms; cbn; rewrite ?Nat.sub_0_r; auto).
    destruct (while_loop _ _ _ _ _) as [c| |]; cbn [obind]; auto.
    destruct (s_post _ _ _ _ _ _) as [[y a] sts]. reflexivity.
  Qed.

  Lemma lane_loop_no_raise : forall fuel ms fn c k e, lane_loop fuel ms fn c k <> Raise e.
  Proof.
    induction fuel as [|f IH]; intros ms fn c k e; [discriminate|]. rewrite lane_loop_S.
    destruct (wants s ms c k); [apply IH|discriminate].
  Qed.

  Lemma lanes_ret : forall A (l : list (outcome A)) r, lanes_outcome l = Ret r <-> l = map (@Ret A) r.
  Proof.
    intros A. induction l as [|o l IH]; intros r; cbn [lanes_outcome].
    - split; intro H. { inversion H. reflexivity. } destruct r; [reflexivity|discriminate].
    - destruct o as [a| |]; cbn [obind]; [|split; intro H; [discriminate|destruct r; discriminate]..].
      destruct (lanes_outcome l) as [r'| |] eqn:E; cbn [obind].
      + apply (proj1 (IH r')) in eq_refl as E2 || pose proof (proj1 (IH r') eq_refl) as E2.
        split; intro H.
        * inversion H. cbn. rewrite E2. reflexivity.
        * destruct r as [|b r]; [discriminate|]. cbn in H. inversion H as [[Ha Hb]]. apply IH in Hb. inversion Hb. reflexivity.
      + split; intro H; [discriminate|]. destruct r as [|b r]; [discriminate|]. cbn in H. inversion H as [[Ha Hb]].
        apply IH in Hb. discriminate.
      + split; intro H; [discriminate|]. destruct r as [|b r]; [discriminate|]. cbn in H. inversion H as [[Ha Hb]].
        apply IH in Hb. discriminate.
  Qed.

  Lemma lanes_raise : forall A (l : list (outcome A)) e, lanes_outcome l = Raise e -> In (Raise e) l.
  Proof.
    intros A. induction l as [|o l IH]; intros e H; cbn [lanes_outcome] in H; [discriminate|].
    destruct o as [a| |]; cbn [obind] in H.
    - right. apply IH. destruct (lanes_outcome l); cbn [obind] in H; try discriminate. congruence.
    - left. congruence.
    - discriminate.
  Qed.
  Lemma lanes_unf : forall A (l : list (outcome A)), lanes_outcome l = Unfinished -> In Unfinished l.
  Proof.
    intros A. induction l as [|o l IH]; intros H; cbn [lanes_outcome] in H; [discriminate|].
    destruct o as [a| |]; cbn [obind] in H; [|discriminate|left; reflexivity].
    right. apply IH. destruct (lanes_outcome l); cbn [obind] in H; try discriminate. reflexivity.
  Qed.

  (** The batched solve once the initial states are there *)
  Lemma vmap_after_init : forall pick fuel ms throw lanes fs auxs sts,
    0 < fuel -> map (fun l => s_init s (fst l) (snd l) fs auxs) lanes = map (@Ret _) sts ->
    vmap_solve allfinite s pick fuel ms throw lanes fs auxs =
    obind (lanes_outcome (lanes2 (fun l st => lane_loop fuel ms (fst l) (start allfinite s (fst l) (snd l) (auxs fill0) st) 0) lanes sts))
      (fun cs => let sols := lanes2 (finish s ms) (map fst lanes) cs in
         if throw && existsb (fun x => negb (results_eqb (result x) successful)) sols
         then Raise (SolveFailed (pick (map result sols))) else Ret sols).
  Proof.
    intros pick fuel ms throw lanes fs auxs sts Hf Hi. unfold vmap_solve.
    rewrite (proj2 (lanes_ret _ _ sts) Hi). cbn [obind].
    assert (L : length lanes = length sts).
    { rewrite <- (map_length (fun l => s_init s (fst l) (snd l) fs auxs) lanes), Hi. apply map_length. }
    set (cs := lanes2 (fun l st => start allfinite s (fst l) (snd l) (auxs fill0) st) lanes sts).
    assert (Lc : length cs = length lanes) by (apply lanes2_length; auto).
    pose proof (batched_lanes fuel ms (map fst lanes) cs (map (fun _ => 0) lanes) Hf) as B.
    rewrite !map_length in B. specialize (B (eq_sym Lc) (eq_sym Lc)).
    assert (E : lanes3 (lane_loop fuel ms) (map fst lanes) cs (map (fun _ => 0) lanes) =
                lanes2 (fun l st => lane_loop fuel ms (fst l) (start allfinite s (fst l) (snd l) (auxs fill0) st) 0) lanes sts).
    { unfold cs. clear. revert sts. induction lanes as [|l lanes IH]; intros [|st sts]; cbn; auto. f_equal. apply IH. }
    rewrite E in B. rewrite <- B. destruct (batched_while _ _ _ _ _ _); reflexivity.
  Qed.

  Lemma forall2_map : forall A B (f : A -> outcome B) l r, map f l = map (@Ret B) r <-> Forall2 (fun a b => f a = Ret b) l r.
  Proof.
    intros A B f. induction l as [|a l IH]; intros [|b r]; cbn; split; intro H; try constructor; try inversion H; subst; auto; try discriminate.
    - apply IH; auto.
    - f_equal; auto. apply IH; auto.
  Qed.

  Lemma eqb_iff : forall r, negb (results_eqb r successful) = false <-> r = successful.
  Proof. intro r. rewrite negb_false_iff. apply results_eqb_eq. Qed.

  Notation alone fuel ms throw fs auxs l := (iterative_solve allfinite s (fst l) fuel ms throw (snd l) fs auxs).

  Lemma vmap_ret : forall pick fuel ms throw lanes fs auxs sols, 0 < fuel ->
    vmap_solve allfinite s pick fuel ms throw lanes fs auxs = Ret sols <->
    Forall2 (fun l sol => alone fuel ms throw fs auxs l = Ret sol) lanes sols.
  Proof.
    intros pick fuel ms throw lanes fs auxs sols Hf. split.
    - intro H. destruct (lanes_outcome (map (fun l => s_init s (fst l) (snd l) fs auxs) lanes)) as [sts| |] eqn:E;
        [|unfold vmap_solve in H; rewrite E in H; discriminate..].
      apply lanes_ret in E. rewrite (vmap_after_init _ _ _ _ _ _ _ _ Hf E) in H.
      destruct (lanes_outcome (lanes2 _ lanes sts)) as [cs| |] eqn:C; try discriminate. cbn [obind] in H.
      apply lanes_ret in C. cbv zeta in H.
      destruct (throw && existsb _ _) eqn:T; [discriminate|]. inversion H as [HS]. clear H.
      assert (Hok : throw = false \/ Forall (fun x => result x = successful) (lanes2 (finish s ms) (map fst lanes) cs)).
      { destruct throw; auto. right. cbn [andb] in T. apply Forall_forall. intros x Hx. apply eqb_iff.
        destruct (negb (results_eqb (result x) successful)) eqn:B; auto. exfalso.
        assert (X : existsb (fun x => negb (results_eqb (result x) successful)) (lanes2 (finish s ms) (map fst lanes) cs) = true).
        { apply existsb_exists. exists x. auto. } congruence. }
      clear T HS sols. revert sts cs E C Hok. induction lanes as [|l lanes IH]; intros [|st sts] [|c cs] E C Hok; cbn in *; try discriminate; [constructor|].
      inversion E as [[E1 E2]]. inversion C as [[C1 C2]]. constructor.
      + rewrite solve_lane, E1. cbn [obind]. rewrite C1. cbn [obind].
        destruct Hok as [->|Hok]; [reflexivity|]. inversion Hok as [|? ? H1 H2]; subst. rewrite H1. destruct throw; reflexivity.
      + apply (IH sts cs); auto. destruct Hok as [->|Hok]; auto. right. inversion Hok; auto.
    - intro H.
      assert (X : exists sts cs, map (fun l => s_init s (fst l) (snd l) fs auxs) lanes = map (@Ret _) sts /\
        lanes2 (fun l st => lane_loop fuel ms (fst l) (start allfinite s (fst l) (snd l) (auxs fill0) st) 0) lanes sts = map (@Ret _) cs /\
        lanes2 (finish s ms) (map fst lanes) cs = sols /\
        (throw = true -> Forall (fun x => result x = successful) sols)).
      { induction H as [|l sol lanes sols H1 H2 IH]. { exists [], []. repeat split; auto. }
        destruct IH as (sts & cs & A1 & A2 & A3 & A4). rewrite solve_lane in H1.
        destruct (s_init s (fst l) (snd l) fs auxs) as [st| |] eqn:I; try discriminate. cbn [obind] in H1.
        destruct (lane_loop fuel ms (fst l) _ 0) as [c| |] eqn:W; try discriminate. cbn [obind] in H1. cbv zeta in H1.
        destruct (throw && negb _) eqn:T; [discriminate|]. inversion H1; subst.
        exists (st :: sts), (c :: cs). cbn. rewrite I, A1, A2, W. repeat split; auto.
        intros ->. constructor; auto. apply eqb_iff. exact T. }
      destruct X as (sts & cs & A1 & A2 & A3 & A4).
      rewrite (vmap_after_init _ _ _ _ _ _ _ _ Hf A1), (proj2 (lanes_ret _ _ cs) A2). cbn [obind]. cbv zeta. rewrite A3.
      destruct throw; cbn [andb]; auto.
      assert (Z : existsb (fun x => negb (results_eqb (result x) successful)) sols = false).
      { specialize (A4 eq_refl). clear -A4. induction A4 as [|x l H1 H2 IH]; cbn; auto. rewrite IH, H1. reflexivity. }
      rewrite Z. reflexivity.
  Qed.

  Lemma vmap_raise : forall pick fuel ms throw lanes fs auxs e, 0 < fuel -> picks_a_failure pick ->
    vmap_solve allfinite s pick fuel ms throw lanes fs auxs = Raise e ->
    exists l, In l lanes /\ alone fuel ms throw fs auxs l = Raise e.
  Proof.
    intros pick fuel ms throw lanes fs auxs e Hf Hp H.
    destruct (lanes_outcome (map (fun l => s_init s (fst l) (snd l) fs auxs) lanes)) as [sts|e'|] eqn:E.
    - apply lanes_ret in E. rewrite (vmap_after_init _ _ _ _ _ _ _ _ Hf E) in H.
      destruct (lanes_outcome (lanes2 _ lanes sts)) as [cs|e'|] eqn:C; try discriminate.
      + cbn [obind] in H. cbv zeta in H. destruct (throw && existsb _ _) eqn:T; [|discriminate].
        apply andb_true_iff in T. destruct T as [-> T]. apply existsb_exists in T. destruct T as (x & Hx & Fx).
        injection H as He.
        assert (P : In (pick (map result (lanes2 (finish s ms) (map fst lanes) cs))) (map result (lanes2 (finish s ms) (map fst lanes) cs)) /\
                    pick (map result (lanes2 (finish s ms) (map fst lanes) cs)) <> successful).
        { apply Hp. exists (result x). split; [apply in_map; auto|]. intro Z. apply eqb_iff in Z. congruence. }
        destruct P as [P1 P2]. apply in_map_iff in P1. destruct P1 as (z & Z1 & Z2). rewrite <- Z1 in He, P2.
        apply lanes_ret in C. clear Hp Hx Fx x Z1. revert sts cs E C Z2.
        induction lanes as [|l lanes IH]; intros [|st sts] [|c cs] E C Z2; cbn in *; try discriminate; try contradiction.
        inversion E as [[E1 E2]]. inversion C as [[C1 C2]]. destruct Z2 as [Z2|Z2].
        * exists l. split; [left; auto|]. rewrite solve_lane, E1. cbn [obind]. rewrite C1. cbn [obind]. cbv zeta. rewrite Z2.
          destruct (negb (results_eqb (result z) successful)) eqn:B. { cbn. rewrite He. reflexivity. }
          apply eqb_iff in B. contradiction.
        * destruct (IH sts cs E2 C2 Z2) as (l' & A & B). exists l'. auto.
      + exfalso. apply lanes_raise in C. clear -C. revert sts C. induction lanes as [|l lanes IH]; intros [|st sts] C; cbn in C; try contradiction.
        destruct C as [C|C]; [exact (lane_loop_no_raise _ _ _ _ _ _ C)|eauto].
    - assert (e' = e). { unfold vmap_solve in H. rewrite E in H. cbn in H. congruence. } subst e'.
      apply lanes_raise in E. apply in_map_iff in E. destruct E as (l & L1 & L2). exists l. split; auto. rewrite solve_lane, L1. reflexivity.
    - unfold vmap_solve in H. rewrite E in H. discriminate.
  Qed.

  Lemma vmap_unf : forall pick fuel ms throw lanes fs auxs, 0 < fuel ->
    vmap_solve allfinite s pick fuel ms throw lanes fs auxs = Unfinished ->
    exists l, In l lanes /\ alone fuel ms throw fs auxs l = Unfinished.
  Proof.
    intros pick fuel ms throw lanes fs auxs Hf H.
    destruct (lanes_outcome (map (fun l => s_init s (fst l) (snd l) fs auxs) lanes)) as [sts|e'|] eqn:E.
    - apply lanes_ret in E. rewrite (vmap_after_init _ _ _ _ _ _ _ _ Hf E) in H.
      destruct (lanes_outcome (lanes2 _ lanes sts)) as [cs|e'|] eqn:C; try discriminate.
      + cbn [obind] in H. cbv zeta in H. destruct (throw && existsb _ _); discriminate.
      + clear H. apply lanes_unf in C. revert sts E C. induction lanes as [|l lanes IH]; intros [|st sts] E C; cbn in *; try contradiction; try discriminate.
        inversion E as [[E1 E2]]. destruct C as [C|C].
        * exists l. split; auto. rewrite solve_lane, E1. cbn [obind]. rewrite C. reflexivity.
        * destruct (IH sts E2 C) as (l' & A & B). exists l'; auto.
    - unfold vmap_solve in H. rewrite E in H. discriminate.
    - apply lanes_unf in E. apply in_map_iff in E. destruct E as (l & L1 & L2). exists l. split; auto. rewrite solve_lane, L1. reflexivity.
  Qed.
End B.

(** ** C99: batched solves *)

(** A batched solve returns exactly when every lane solved on its own would, and then its lanes are the
    solutions (value, result, aux, stats and state) of the lanes solved on their own.  For both values of
    `throw`, any solver, any functions and starting points in the lanes, and the same bound on the number of
    rounds of the loop (so the batch takes no more rounds than its slowest lane). *)
Lemma C99_lanes_pf :
  forall Y Out Aux (allfinite : Y -> bool) (s : Solver Y Out Aux) pick fuel ms throw (lanes : list ((Y -> Out * Aux) * Y)) fs auxs sols,
    0 < fuel ->
    (vmap_solve allfinite s pick fuel ms throw lanes fs auxs = Ret sols <->
     Forall2 (fun l sol => iterative_solve allfinite s (fst l) fuel ms throw (snd l) fs auxs = Ret sol) lanes sols).
Proof. intros. apply vmap_ret. assumption. Qed.

(** It raises only what one of its lanes would raise on its own, and with an unbounded loop it runs forever
    only if one of its lanes does; conversely if a lane raises, the batch does not return. *)
Lemma C99_failures_pf :
  forall Y Out Aux (allfinite : Y -> bool) (s : Solver Y Out Aux) pick fuel ms throw (lanes : list ((Y -> Out * Aux) * Y)) fs auxs,
    0 < fuel -> picks_a_failure pick ->
    let batch := vmap_solve allfinite s pick fuel ms throw lanes fs auxs in
    let alone l := iterative_solve allfinite s (fst l) fuel ms throw (snd l) fs auxs in
    (forall e, batch = Raise e -> exists l, In l lanes /\ alone l = Raise e) /\
    (batch = Unfinished -> exists l, In l lanes /\ alone l = Unfinished) /\
    ((forall l, In l lanes -> alone l <> Unfinished) -> (exists l e, In l lanes /\ alone l = Raise e) -> exists e, batch = Raise e).
Proof.
  intros Y Out Aux allfinite s pick fuel ms throw lanes fs auxs Hf Hp batch alone. repeat split.
  - intros e H. exact (vmap_raise allfinite s pick fuel ms throw lanes fs auxs e Hf Hp H).
  - intro H. exact (vmap_unf allfinite s pick fuel ms throw lanes fs auxs Hf H).
  - intros Hu (l & e & Hl & He). destruct batch as [sols|e'|] eqn:E.
    + exfalso. apply (vmap_ret allfinite s pick fuel ms throw lanes fs auxs sols Hf) in E. clear -E Hl He.
      induction E as [|a b la lb H1 H2 IH]; [contradiction|]. destruct Hl as [->|Hl]; [unfold alone in He; congruence|auto].
    + eauto.
    + exfalso. destruct (vmap_unf allfinite s pick fuel ms throw lanes fs auxs Hf E) as (l' & A & B). exact (Hu l' A B).
Qed.

(** Example: counting down from 3, 20 and 5, the second of which diverges at 13 and the others take different
    numbers of steps; at most 10 steps each. *)
Example C99_lanes_ex_pf :
  exists a b c,
    vmap_solve toy_finite toy first_failure 30 (Some 10) false
      [(toy_fn, Some 3); (toy_fn, Some 20); (toy_fn, Some 5)] toy_struct toy_struct = Ret [a; b; c] /\
    value a = Some 0 /\ result a = successful /\ result b = nonlinear_divergence /\ result c = successful /\
    (state a, state b, state c) = (4, 8, 6).
Proof. do 3 eexists. split; [vm_compute; reflexivity|]. vm_compute. repeat split. Qed.
Example C99_failures_ex_pf :
  picks_a_failure first_failure /\
  vmap_solve toy_finite toy first_failure 30 (Some 10) true
    [(toy_fn, Some 3); (toy_fn, Some 20); (toy_fn, Some 5)] toy_struct toy_struct = Raise (SolveFailed nonlinear_divergence).
Proof.
  split; [|vm_compute; reflexivity].
  intros rs (r & Hr & Fr). unfold first_failure.
  destruct (find (fun r => negb (results_eqb r successful)) rs) as [r'|] eqn:E.
  - apply find_some in E. destruct E as [E1 E2]. split; auto. intro Z. apply eqb_iff in Z. congruence.
  - exfalso. pose proof (find_none _ _ E r Hr) as N. cbv beta in N. apply eqb_iff in N. contradiction.
Qed.
