(** Proofs about the solve loop. *)

From Coq Require Import List Bool Arith Lia ZArith String.
From Verif Require Import Results Iterate Spec_Iterate.
Import ListNotations.

Lemma results_eqb_eq : forall a b, results_eqb a b = true <-> a = b.
Proof.
  destruct a, b; simpl; split; intro H; try reflexivity; try discriminate.
  - apply Nat.eqb_eq in H; congruence.
  - injection H as ->; apply Nat.eqb_refl.
Qed.

Lemma results_eqb_neq : forall a b, results_eqb a b = false <-> a <> b.
Proof.
  intros a b; split.
  - intros H E; apply results_eqb_eq in E; congruence.
  - intros H; destruct (results_eqb a b) eqn:E; auto.
    apply results_eqb_eq in E; contradiction.
Qed.

Section While.
  Context {C : Type}.
  Variables (cond : C -> bool) (body : C -> C).

  Fixpoint iter_body (k : nat) (c : C) : C :=
    match k with O => c | S k' => body (iter_body k' c) end.

  Lemma iter_body_succ : forall k c, iter_body (S k) c = iter_body k (body c).
  Proof. induction k; intro c; simpl; auto. rewrite <- IHk. reflexivity. Qed.

  Lemma while_loop_spec : forall fuel ms c c',
    while_loop fuel cond body ms c = Ret c' <->
    exists k, k < fuel /\ c' = iter_body k c /\
      (ms = Some k \/ cond (iter_body k c) = false) /\
      (forall m, ms = Some m -> k <= m) /\
      (forall j, j < k -> cond (iter_body j c) = true).
  Proof.
    induction fuel as [|fuel IH]; intros ms c c'; simpl.
    - split; [discriminate | intros (k & Hk & _); lia].
    - assert (Hz : (match ms with Some 0 => Ret c
               | _ => if cond c then while_loop fuel cond body (option_map pred ms) (body c)
                      else Ret c end) = Ret c' <->
             ((ms = Some 0 /\ c' = c) \/
              (ms <> Some 0 /\ cond c = false /\ c' = c) \/
              (ms <> Some 0 /\ cond c = true /\
               while_loop fuel cond body (option_map pred ms) (body c) = Ret c'))).
      { destruct ms as [[|m]|]; [ | destruct (cond c) eqn:E .. ].
        - split; intro H.
          + injection H as <-. auto.
          + destruct H as [[_ ->]|[[H _]|[H _]]]; congruence.
        - split; intro H.
          + right; right; repeat split; auto; congruence.
          + destruct H as [[H _]|[[_ [H _]]|[_ [_ H]]]]; congruence.
        - split; intro H.
          + right; left; repeat split; congruence.
          + destruct H as [[H _]|[[_ [_ H]]|[_ [H _]]]]; congruence.
        - split; intro H.
          + right; right; repeat split; auto; congruence.
          + destruct H as [[H _]|[[_ [H _]]|[_ [_ H]]]]; congruence.
        - split; intro H.
          + right; left; repeat split; congruence.
          + destruct H as [[H _]|[[_ [_ H]]|[_ [H _]]]]; congruence. }
      rewrite Hz. clear Hz. split.
      + intros [[Hm ->]|[(Hm & Hc & ->)|(Hm & Hc & HW)]].
        * exists 0. repeat split; auto; intros; lia.
        * exists 0. repeat split; auto; intros; lia.
        * apply IH in HW. destruct HW as (k & Hk & -> & Hs & Hb & Hj).
          exists (S k). rewrite iter_body_succ. repeat split; auto; try lia.
          -- destruct Hs as [Hs|Hs]; [left|right; auto].
             destruct ms as [[|m]|]; simpl in Hs; congruence.
          -- intros m ->. destruct m as [|m]; [congruence|].
             specialize (Hb m eq_refl). lia.
          -- intros j Hjk. destruct j as [|j]; simpl; auto.
             change (cond (iter_body (S j) c) = true).
             rewrite iter_body_succ. apply Hj. lia.
      + intros (k & Hk & -> & Hs & Hb & Hj).
        destruct k as [|k].
        * simpl in *. destruct ms as [[|m]|]; [left; auto| |];
            (destruct Hs as [Hs|Hs]; [congruence|]);
            right; left; repeat split; congruence.
        * right; right.
          assert (Hm : ms <> Some 0) by (intros ->; specialize (Hb 0 eq_refl); lia).
          repeat split; auto.
          -- apply (Hj 0). lia.
          -- apply IH. exists k. rewrite iter_body_succ in *.
             repeat split; auto; try lia.
             ++ destruct Hs as [->|Hs]; [left; reflexivity| right; auto].
             ++ intros m Hm'. destruct ms as [[|m']|]; simpl in Hm'; try congruence.
                injection Hm' as ->. specialize (Hb (S m) eq_refl). lia.
             ++ intros j Hjk. rewrite <- iter_body_succ. apply Hj. lia.
  Qed.
End While.

Section Loop.
  Context {Y Out Aux : Type}.
  Variable allfinite : Y -> bool.
  Variable solver : Solver Y Out Aux.
  Variable fn : Y -> Out * Aux.
  Variables (y0 : Y) (st0 : St solver) (aux0 : Aux).

  Notation Ttrace := (trace solver fn y0 st0 aux0).
  Notation Yat := (y_at solver fn y0 st0 aux0).
  Notation Stat := (st_at solver fn y0 st0 aux0).
  Notation Auxat := (aux_at solver fn y0 st0 aux0).
  Notation Asked := (asked solver fn y0 st0 aux0).
  Notation Term := (says_terminate solver fn y0 st0 aux0).
  Notation Res := (says_result solver fn y0 st0 aux0).
  Notation Stops := (stops allfinite solver fn y0 st0 aux0).

  Definition carry_at (k : nat) : carry (Aux:=Aux) (St solver) :=
    mkCarry (Yat k) k (Stat k) (Auxat k) (Term k)
            (if allfinite (Asked k) then Res k else nonfinite).

  Definition carry0 : carry (Aux:=Aux) (St solver) :=
    let '(t, r) := terminate_and_result allfinite solver fn y0 st0 in
    mkCarry y0 0 st0 aux0 t r.

  Lemma carry0_at : carry0 = carry_at 0.
  Proof.
    unfold carry0, carry_at, terminate_and_result, asked, y_at, st_at, aux_at,
      says_terminate, says_result, asked, y_at, st_at; simpl.
    destruct (s_terminate solver fn y0 st0); reflexivity.
  Qed.

  Lemma body_at : forall k, body_fun allfinite solver fn (carry_at k) = carry_at (S k).
  Proof.
    intro k. unfold body_fun, carry_at; simpl.
    unfold terminate_and_result, says_terminate, says_result, asked, y_at, st_at, aux_at;
      simpl.
    destruct (s_step solver fn (fst (fst (Ttrace k))) (snd (fst (Ttrace k))))
      as [[ny ns] a]; simpl.
    destruct (s_terminate solver fn (fst (fst (Ttrace k))) ns) as [t r]; simpl.
    reflexivity.
  Qed.

  Lemma iter_body_at : forall k,
    iter_body (body_fun allfinite solver fn) k carry0 = carry_at k.
  Proof.
    induction k; simpl.
    - apply carry0_at.
    - rewrite IHk. apply body_at.
  Qed.

  Lemma stops_dec : forall k,
    cond_fun solver (carry_at k) = true <-> ~ Stops k.
  Proof.
    intro k. unfold cond_fun, carry_at, stops; simpl.
    destruct (Term k); simpl.
    - split; [discriminate | intro H; exfalso; apply H; auto].
    - destruct (allfinite (Asked k)).
      + rewrite results_eqb_eq. split.
        * intros H [E|[E|E]]; congruence.
        * intro H. destruct (Res k) eqn:E; auto; exfalso; apply H; right; left; congruence.
      + simpl. split; [discriminate | intro H; exfalso; apply H; auto].
  Qed.

  Lemma cond_false : forall k, cond_fun solver (carry_at k) = false <-> Stops k.
  Proof.
    intro k. split; intro H.
    - destruct (Term k) eqn:ET; [left; auto|].
      destruct (results_eqb (Res k) successful) eqn:ER.
      + destruct (allfinite (Asked k)) eqn:EA; [|right; right; auto].
        unfold cond_fun, carry_at in H; simpl in H.
        rewrite ET, EA, ER in H; discriminate.
      + right; left. apply results_eqb_neq; auto.
    - destruct (cond_fun solver (carry_at k)) eqn:E; auto.
      apply stops_dec in E; contradiction.
  Qed.

  Lemma stops_decidable : forall k, {Stops k} + {~ Stops k}.
  Proof.
    intro k. destruct (cond_fun solver (carry_at k)) eqn:E.
    - right; apply stops_dec; auto.
    - left; apply cond_false; auto.
  Qed.

  Definition final_result (k : nat) : results :=
    if results_eqb (if allfinite (Asked k) then Res k else nonfinite) successful
       && negb (Term k)
    then nonlinear_max_steps_reached
    else (if allfinite (Asked k) then Res k else nonfinite).

  Lemma final_result_status : forall k r,
    status allfinite solver fn y0 st0 aux0 k r <-> r = final_result k.
  Proof.
    intros k r. unfold status, final_result.
    destruct (allfinite (Asked k)).
    - destruct (results_eqb (Res k) successful) eqn:E.
      + apply results_eqb_eq in E. rewrite E.
        destruct (Term k); simpl; intuition congruence.
      + apply results_eqb_neq in E. simpl. intuition congruence.
    - simpl. intuition congruence.
  Qed.

  Variables (f_struct : fillv -> Out) (aux_struct : fillv -> Aux).
  Hypothesis Haux0 : aux0 = aux_struct fill0.
  Hypothesis Hinit : s_init solver fn y0 f_struct aux_struct = Ret st0.

  Definition post_at (k : nat) :=
    let '(fy, fa, st) :=
      s_post solver fn (Yat k) (Auxat k) (Stat k) (final_result k) in
    (fy, k, final_result k, Stat k, fa, st).

  Theorem iterate_spec : forall fuel ms out,
    iterate allfinite solver fn fuel ms y0 f_struct aux_struct = Ret out <->
    exists k, k < fuel /\ stop_index allfinite solver fn y0 st0 aux0 ms k /\
              out = post_at k.
  Proof.
    intros fuel ms out. unfold iterate. rewrite Hinit. cbn [obind].
    rewrite <- Haux0.
    destruct (terminate_and_result allfinite solver fn y0 st0) as [t0 r0] eqn:E0.
    assert (HC : mkCarry y0 0 st0 aux0 t0 r0 = carry0) by (unfold carry0; rewrite E0; reflexivity).
    rewrite HC; clear HC E0.
    assert (Hpost : forall k,
      (let res := if results_eqb (c_result (carry_at k)) successful &&
                negb (c_terminate (carry_at k)) then nonlinear_max_steps_reached
                else c_result (carry_at k) in
           let '(fy, fa, st) := s_post solver fn (c_y (carry_at k)) (c_aux (carry_at k)) (c_state (carry_at k)) res in
           Ret (fy, c_num_steps (carry_at k), res, c_state (carry_at k), fa, st)) = Ret (post_at k)).
    { intro k. unfold post_at, carry_at; simpl. fold (final_result k).
      destruct (s_post solver fn (Yat k) (Auxat k) (Stat k) (final_result k)) as [[? ?] ?];
        reflexivity. }
    split.
    - destruct (while_loop fuel _ _ ms carry0) as [c| |] eqn:EW; cbn [obind]; try discriminate.
      apply while_loop_spec in EW. destruct EW as (k & Hk & -> & Hs & Hb & Hj).
      rewrite iter_body_at in *. rewrite Hpost. intro E; injection E as <-.
      exists k. repeat split; auto.
      + destruct Hs as [Hs|Hs]; [right; auto | left; apply cond_false; auto].
      + intros j Hjk. apply stops_dec. rewrite <- iter_body_at. auto.
    - intros (k & Hk & (Hs & Hj & Hb) & ->).
      assert (EW : while_loop fuel (cond_fun solver) (body_fun allfinite solver fn) ms carry0
                   = Ret (carry_at k)).
      { apply while_loop_spec. exists k. rewrite iter_body_at. repeat split; auto.
        - destruct Hs as [Hs|Hs]; [right; apply cond_false; auto | left; auto].
        - intros j Hjk. rewrite iter_body_at. apply stops_dec; auto. }
      rewrite EW; cbn [obind]. apply Hpost.
  Qed.

  Lemma stop_index_unique : forall ms j k,
    stop_index allfinite solver fn y0 st0 aux0 ms j ->
    stop_index allfinite solver fn y0 st0 aux0 ms k -> j = k.
  Proof.
    intros ms j k (Hj1 & Hj2 & Hj3) (Hk1 & Hk2 & Hk3).
    destruct (lt_eq_lt_dec j k) as [[L|E]|L]; auto; exfalso.
    - destruct Hj1 as [Hj1|Hj1]; [eapply Hk2; eauto|].
      specialize (Hk3 _ Hj1). lia.
    - destruct Hk1 as [Hk1|Hk1]; [eapply Hj2; eauto|].
      specialize (Hj3 _ Hk1). lia.
  Qed.

  Lemma stop_index_exists : forall m,
    exists k, k <= m /\ stop_index allfinite solver fn y0 st0 aux0 (Some m) k.
  Proof.
    assert (H : forall n m, n <= m ->
       (exists k, k < n /\ Stops k /\ forall j, j < k -> ~ Stops j) \/
       (forall j, j < n -> ~ Stops j)).
    { induction n; intros m Hm.
      - right; intros; lia.
      - destruct (IHn m) as [(k & Hk & HS & Hj)|HN]; [lia|left; exists k; auto|].
        destruct (stops_decidable n) as [HS|HS].
        + left; exists n; auto.
        + right. intros j Hj. destruct (Nat.eq_dec j n) as [->|]; auto. apply HN; lia. }
    intro m. destruct (H m m (le_n m)) as [(k & Hk & HS & Hj)|HN].
    - exists k. split; [lia|]. repeat split; auto. intros m' E; injection E as <-; lia.
    - exists m. split; auto. repeat split; auto. intros m' E; injection E as <-; lia.
  Qed.

  (** What iterative_solve returns, in full. *)
  Definition solution_at (ms : option nat) (k : nat) : Solution Y Aux (St solver) :=
    let '(fy, fa, st) :=
      s_post solver fn (Yat k) (Auxat k) (Stat k) (final_result k) in
    mkSolution fy (final_result k) fa
      (("num_steps"%string, Some (Z.of_nat k))
         :: ("max_steps"%string, option_map Z.of_nat ms) :: st) (Stat k).

  Theorem iterative_solve_spec : forall fuel ms throw,
    (forall k, k < fuel -> stop_index allfinite solver fn y0 st0 aux0 ms k ->
       iterative_solve allfinite solver fn fuel ms throw y0 f_struct aux_struct =
       if throw && negb (results_eqb (final_result k) successful)
       then Raise (SolveFailed (final_result k)) else Ret (solution_at ms k)) /\
    ((forall k, k < fuel -> ~ stop_index allfinite solver fn y0 st0 aux0 ms k) ->
       iterative_solve allfinite solver fn fuel ms throw y0 f_struct aux_struct = Unfinished).
  Proof.
    intros fuel ms throw. split.
    - intros k Hk Hstop. unfold iterative_solve.
      assert (E : iterate allfinite solver fn fuel ms y0 f_struct aux_struct = Ret (post_at k)).
      { apply iterate_spec. exists k; auto. }
      rewrite E. cbn [obind]. unfold post_at, solution_at.
      destruct (s_post solver fn (Yat k) (Auxat k) (Stat k) (final_result k)) as [[fy fa] st].
      reflexivity.
    - intro HN. unfold iterative_solve.
      destruct (iterate allfinite solver fn fuel ms y0 f_struct aux_struct) as [o|e|] eqn:E;
        cbn [obind]; auto.
      + apply iterate_spec in E. destruct E as (k & Hk & Hs & _).
        exfalso; eapply HN; eauto.
      + exfalso. unfold iterate in E. rewrite Hinit in E; cbn [obind] in E.
        destruct (terminate_and_result allfinite solver fn y0 st0) as [t r].
        assert (HW : forall fuel ms (c : carry (Aux:=Aux) (St solver)) e,
          while_loop fuel (cond_fun solver) (body_fun allfinite solver fn) ms c <> Raise e).
        { clear. induction fuel; intros ms c e; simpl; [discriminate|].
          destruct ms as [[|m]|]; try discriminate; destruct (cond_fun solver c);
            try discriminate; apply IHfuel. }
        destruct (while_loop fuel _ _ ms _) as [c|e'|] eqn:EW; cbn [obind] in E.
        * destruct (s_post _ _ _ _ _ _) as [[? ?] ?]; discriminate.
        * eapply HW; eauto.
        * discriminate.
  Qed.

  (** The converse reading: anything that comes back is [solution_at k]. *)
  Theorem iterative_solve_inv : forall fuel ms throw sol,
    iterative_solve allfinite solver fn fuel ms throw y0 f_struct aux_struct = Ret sol ->
    exists k, k < fuel /\ stop_index allfinite solver fn y0 st0 aux0 ms k /\
      sol = solution_at ms k /\ (throw = true -> result sol = successful).
  Proof.
    intros fuel ms throw sol H.
    destruct (iterative_solve_spec fuel ms throw) as [H1 H2].
    destruct (iterate allfinite solver fn fuel ms y0 f_struct aux_struct) as [o|e|] eqn:E.
    - apply iterate_spec in E. destruct E as (k & Hk & Hs & _).
      rewrite (H1 k Hk Hs) in H. exists k. split; auto. split; auto.
      assert (HR : result (solution_at ms k) = final_result k).
      { unfold solution_at. destruct (s_post _ _ _ _ _ _) as [[? ?] ?]; reflexivity. }
      destruct throw; simpl in H.
      + destruct (results_eqb (final_result k) successful) eqn:ER; simpl in H; [|discriminate].
        injection H as <-. split; auto. intros _. rewrite HR. apply results_eqb_eq; auto.
      + injection H as <-. split; auto. discriminate.
    - unfold iterative_solve in H. rewrite E in H. discriminate.
    - unfold iterative_solve in H. rewrite E in H. discriminate.
  Qed.

  Theorem iterative_solve_raise_inv : forall fuel ms throw e,
    iterative_solve allfinite solver fn fuel ms throw y0 f_struct aux_struct = Raise e ->
    exists k, k < fuel /\ stop_index allfinite solver fn y0 st0 aux0 ms k /\
      throw = true /\ e = SolveFailed (final_result k) /\ final_result k <> successful.
  Proof.
    intros fuel ms throw e H.
    destruct (iterative_solve_spec fuel ms throw) as [H1 H2].
    destruct (iterate allfinite solver fn fuel ms y0 f_struct aux_struct) as [o|e'|] eqn:E.
    - apply iterate_spec in E. destruct E as (k & Hk & Hs & _).
      rewrite (H1 k Hk Hs) in H. exists k. split; auto. split; auto.
      destruct throw; simpl in H; [|discriminate].
      destruct (results_eqb (final_result k) successful) eqn:ER; simpl in H; [discriminate|].
      injection H as <-. repeat split; auto. apply results_eqb_neq; auto.
    - unfold iterate in E. rewrite Hinit in E; cbn [obind] in E. exfalso.
      destruct (terminate_and_result allfinite solver fn y0 st0) as [t r].
      assert (HW : forall fuel ms (c : carry (Aux:=Aux) (St solver)) e,
          while_loop fuel (cond_fun solver) (body_fun allfinite solver fn) ms c <> Raise e).
      { clear. induction fuel; intros ms c e; simpl; [discriminate|].
        destruct ms as [[|m]|]; try discriminate; destruct (cond_fun solver c);
            try discriminate; apply IHfuel. }
      destruct (while_loop fuel _ _ ms _) as [c|e''|] eqn:EW; cbn [obind] in E.
      * destruct (s_post _ _ _ _ _ _) as [[? ?] ?]; discriminate.
      * eapply HW; eauto.
      * discriminate.
    - unfold iterative_solve in H. rewrite E in H. discriminate.
  Qed.

  Lemma solution_at_fields : forall ms k,
    result (solution_at ms k) = final_result k /\
    state (solution_at ms k) = Stat k /\
    (value (solution_at ms k), aux (solution_at ms k)) =
      fst (s_post solver fn (Yat k) (Auxat k) (Stat k) (final_result k)) /\
    sol_stats (solution_at ms k) =
      (("num_steps"%string, Some (Z.of_nat k))
         :: ("max_steps"%string, option_map Z.of_nat ms)
         :: snd (s_post solver fn (Yat k) (Auxat k) (Stat k) (final_result k))).
  Proof.
    intros ms k. unfold solution_at.
    destruct (s_post _ _ _ _ _ _) as [[fy fa] st]; simpl. auto.
  Qed.

  (** Liveness: a solver that never fails, stays finite and says "terminate"
      at some point succeeds at the first such point. *)
  Theorem solve_succeeds :
    (forall k, says_result solver fn y0 st0 aux0 k = successful) ->
    (forall k, allfinite (asked solver fn y0 st0 aux0 k) = true) ->
    (exists k, says_terminate solver fn y0 st0 aux0 k = true) ->
    exists k, says_terminate solver fn y0 st0 aux0 k = true /\
      (forall j, j < k -> says_terminate solver fn y0 st0 aux0 j = false) /\
      forall fuel ms throw, k < fuel -> (forall m, ms = Some m -> k <= m) ->
        iterative_solve allfinite solver fn fuel ms throw y0 f_struct aux_struct =
          Ret (solution_at ms k) /\ result (solution_at ms k) = successful.
  Proof.
    intros HR HF [k Hk].
    assert (HS : forall j, Stops j <-> says_terminate solver fn y0 st0 aux0 j = true).
    { intro j. unfold stops. rewrite HR, HF. split; [intros [?|[?|?]]; congruence|auto]. }
    destruct (stop_index_exists k) as (n & Hn & (H1 & H2 & H3)).
    assert (Hn' : says_terminate solver fn y0 st0 aux0 n = true).
    { destruct H1 as [H1|H1]; [apply HS; auto|injection H1 as <-; auto]. }
    exists n. split; auto. split.
    { intros j Hj. specialize (H2 j Hj). rewrite HS in H2. destruct (says_terminate _ _ _ _ _ j); tauto. }
    intros fuel ms throw Hf Hms.
    assert (Hstop : stop_index allfinite solver fn y0 st0 aux0 ms n).
    { split; [left; apply HS; auto|]. split; auto. }
    destruct (iterative_solve_spec fuel ms throw) as [H4 _].
    rewrite (H4 n Hf Hstop).
    assert (ER : final_result n = successful).
    { unfold final_result. rewrite HF. rewrite HR, Hn'. reflexivity. }
    rewrite ER. destruct throw; simpl; (split; [reflexivity|]);
      rewrite (proj1 (solution_at_fields ms n)); exact ER.
  Qed.
End Loop.

Lemma solve_ret_init : forall {Y Out Aux} allfinite (s : Solver Y Out Aux) fn fuel ms throw y0 fs auxs sol,
  iterative_solve allfinite s fn fuel ms throw y0 fs auxs = Ret sol ->
  exists st0, s_init s fn y0 fs auxs = Ret st0.
Proof.
  intros. unfold iterative_solve, iterate in H.
  destruct (s_init s fn y0 fs auxs) as [st0| |]; try discriminate. eauto.
Qed.

(** ** Claims *)

From Coq Require Import Reals.
From Verif Require Import Num.

Lemma st_at_counting : forall {Y Out Aux} (s : Solver Y Out Aux) fn y0 st0 aux0 k,
  trace (counting s) fn y0 (st0, 0) aux0 k =
  (y_at s fn y0 st0 aux0 k, (st_at s fn y0 st0 aux0 k, k), aux_at s fn y0 st0 aux0 k).
Proof.
  intros Y Out Aux s fn y0 st0 aux0 k. induction k; [reflexivity|].
  cbn [trace]. rewrite IHk. simpl.
  unfold y_at, st_at, aux_at. simpl.
  destruct (s_step s fn _ _) as [[y' st'] a]. reflexivity.
Qed.

(** A solve with budget [m] always comes back, with at most [m] calls of
    `step`, and the reported num_steps is the number of calls. *)
Lemma C01_step_budget_pf :
  forall (Y Out Aux : Type) (allfinite : Y -> bool) (s : Solver Y Out Aux)
         (fn : Y -> Out * Aux) y0 fs auxs st0 (ms : option nat) fuel throw sol,
    s_init s fn y0 fs auxs = Ret st0 ->
    iterative_solve allfinite (counting s) fn fuel ms throw y0 fs auxs = Ret sol ->
    let calls := snd (state sol) in
    hd_error (sol_stats sol) = Some ("num_steps"%string, Some (Z.of_nat calls)) /\
    (forall m, ms = Some m -> calls <= m).
Proof.
  intros Y Out Aux allfinite s fn y0 fs auxs st0 ms fuel throw sol Hi H.
  assert (Hi' : s_init (counting s) fn y0 fs auxs = Ret ((st0, 0) : St (counting s)))
    by (simpl; rewrite Hi; reflexivity).
  destruct (iterative_solve_inv allfinite (counting s) fn y0 (st0, 0) _ fs auxs eq_refl Hi'
              fuel ms throw sol H) as (k & Hk & (_ & _ & Hb) & -> & _).
  pose proof (solution_at_fields allfinite (counting s) fn y0 (st0, 0) (auxs fill0) ms k)
    as (_ & ES & _ & EST).
  rewrite EST, ES. unfold st_at. rewrite st_at_counting. simpl. auto.
Qed.

Example C01_step_budget_ex_pf :
  exists sol,
    iterative_solve toy_finite (counting toy) toy_fn 10 (Some 4) false (Some 6)
      toy_struct toy_struct = Ret sol /\
    snd (state sol) = 4 /\ value sol = Some 2 /\
    result sol = nonlinear_max_steps_reached.
Proof. eexists. split; [reflexivity|]. auto. Qed.

(** With a finite budget a solve always finishes (any fuel above the budget
    is enough), whatever the solver does. *)
Lemma C01_finite_budget_finishes_pf :
  forall (Y Out Aux : Type) (allfinite : Y -> bool) (s : Solver Y Out Aux)
         (fn : Y -> Out * Aux) y0 fs auxs st0 m fuel,
    s_init s fn y0 fs auxs = Ret st0 -> m < fuel ->
    exists sol,
      iterative_solve allfinite s fn fuel (Some m) false y0 fs auxs = Ret sol.
Proof.
  intros Y Out Aux allfinite s fn y0 fs auxs st0 m fuel Hi Hf.
  destruct (stop_index_exists allfinite s fn y0 st0 (auxs fill0) m) as (k & Hk & Hs).
  destruct (iterative_solve_spec allfinite s fn y0 st0 (auxs fill0) fs auxs eq_refl Hi
              fuel (Some m) false) as [H _].
  rewrite (H k ltac:(lia) Hs). simpl. eauto.
Qed.

(** max_steps=0: y0 and the zero-filled aux go straight to postprocess. *)
Lemma C01_zero_budget_pf :
  forall (Y Out Aux : Type) (allfinite : Y -> bool) (s : Solver Y Out Aux)
         (fn : Y -> Out * Aux) y0 fs auxs st0 fuel sol,
    s_init s fn y0 fs auxs = Ret st0 ->
    iterative_solve allfinite s fn fuel (Some 0) false y0 fs auxs = Ret sol ->
    exists r, (value sol, aux sol) = fst (s_post s fn y0 (auxs fill0) st0 r) /\
              state sol = st0 /\ result sol = r.
Proof.
  intros Y Out Aux allfinite s fn y0 fs auxs st0 fuel sol Hi H.
  destruct (iterative_solve_inv allfinite s fn y0 st0 _ fs auxs eq_refl Hi
              fuel _ _ sol H) as (k & Hk & (_ & _ & Hb) & -> & _).
  specialize (Hb 0 eq_refl). assert (k = 0) by lia; subst k.
  pose proof (solution_at_fields allfinite s fn y0 st0 (auxs fill0) (Some 0) 0)
    as (ER & ES & EV & _).
  eexists. rewrite ER, ES, EV. repeat split.
Qed.

(** The solve stops exactly at the first stopping iterate: it returns iff
    such an iterate exists (below the fuel), and what it hands to postprocess
    is that iterate. *)
Lemma C02_first_stop_pf :
  forall (Y Out Aux : Type) (allfinite : Y -> bool) (s : Solver Y Out Aux)
         (fn : Y -> Out * Aux) y0 fs auxs st0 (ms : option nat) fuel,
    s_init s fn y0 fs auxs = Ret st0 ->
    let aux0 := auxs fill0 in
    ((exists sol, iterative_solve allfinite s fn fuel ms false y0 fs auxs = Ret sol) <->
     (exists k, k < fuel /\ stop_index allfinite s fn y0 st0 aux0 ms k)) /\
    (forall sol k,
       iterative_solve allfinite s fn fuel ms false y0 fs auxs = Ret sol ->
       stop_index allfinite s fn y0 st0 aux0 ms k ->
       state sol = st_at s fn y0 st0 aux0 k /\
       (value sol, aux sol) =
         fst (s_post s fn (y_at s fn y0 st0 aux0 k) (aux_at s fn y0 st0 aux0 k)
                (st_at s fn y0 st0 aux0 k) (result sol)) /\
       hd_error (sol_stats sol) = Some ("num_steps"%string, Some (Z.of_nat k))).
Proof.
  intros Y Out Aux allfinite s fn y0 fs auxs st0 ms fuel Hi aux0.
  split.
  - split.
    + intros [sol H].
      destruct (iterative_solve_inv allfinite s fn y0 st0 _ fs auxs eq_refl Hi
                  fuel _ _ sol H) as (k & Hk & Hs & _). eauto.
    + intros (k & Hk & Hs).
      destruct (iterative_solve_spec allfinite s fn y0 st0 (auxs fill0) fs auxs eq_refl Hi
              fuel ms false) as [H _].
      rewrite (H k Hk Hs). simpl. eauto.
  - intros sol k H Hs.
    destruct (iterative_solve_inv allfinite s fn y0 st0 _ fs auxs eq_refl Hi
                fuel _ _ sol H) as (k' & Hk & Hs' & -> & _).
    assert (k' = k) by (eapply stop_index_unique; eauto). subst k'.
    pose proof (solution_at_fields allfinite s fn y0 st0 aux0 ms k) as (ER & ES & EV & ET).
    fold aux0. rewrite ER, ES, EV, ET. auto.
Qed.

Example C02_first_stop_ex_pf :
  stop_index toy_finite toy toy_fn (Some 3) 0 tt None 4 /\
  stop_index toy_finite toy toy_fn (Some 9) 0 tt None 4 /\
  iterative_solve toy_finite toy toy_fn 10 None false (Some 3) toy_struct toy_struct =
    Ret (mkSolution (Some 0) successful tt
           [("num_steps"%string, Some 4%Z); ("max_steps"%string, None)] 4).
Proof.
  split; [|split; [|reflexivity]].
  - split; [left; left; reflexivity|]. split; [|discriminate].
    intros j Hj [H|[H|H]]; do 4 (destruct j as [|j]; [try discriminate H; apply H; reflexivity|]); lia.
  - split; [left; right; right; reflexivity|]. split; [|discriminate].
    intros j Hj [H|[H|H]]; do 4 (destruct j as [|j]; [try discriminate H; apply H; reflexivity|]); lia.
Qed.

(** The reported status is the one the run deserves. *)
Lemma C03_status_pf :
  forall (Y Out Aux : Type) (allfinite : Y -> bool) (s : Solver Y Out Aux)
         (fn : Y -> Out * Aux) y0 fs auxs st0 (ms : option nat) fuel sol k,
    s_init s fn y0 fs auxs = Ret st0 ->
    iterative_solve allfinite s fn fuel ms false y0 fs auxs = Ret sol ->
    stop_index allfinite s fn y0 st0 (auxs fill0) ms k ->
    status allfinite s fn y0 st0 (auxs fill0) k (result sol).
Proof.
  intros Y Out Aux allfinite s fn y0 fs auxs st0 ms fuel sol k Hi H Hs.
  destruct (iterative_solve_inv allfinite s fn y0 st0 _ fs auxs eq_refl Hi
                fuel _ _ sol H) as (k' & Hk & Hs' & -> & _).
  assert (k' = k) by (eapply stop_index_unique; eauto). subst k'.
  apply final_result_status.
  apply (solution_at_fields allfinite s fn y0 st0 (auxs fill0) ms k).
Qed.

(** `successful` means: the solver itself said "terminate, successful" about a
    finite point, within the budget. *)
Lemma C03_success_sound_pf :
  forall (Y Out Aux : Type) (allfinite : Y -> bool) (s : Solver Y Out Aux)
         (fn : Y -> Out * Aux) y0 fs auxs st0 (ms : option nat) fuel throw sol,
    s_init s fn y0 fs auxs = Ret st0 ->
    iterative_solve allfinite s fn fuel ms throw y0 fs auxs = Ret sol ->
    result sol = successful ->
    exists k,
      hd_error (sol_stats sol) = Some ("num_steps"%string, Some (Z.of_nat k)) /\
      (forall m, ms = Some m -> k <= m) /\
      s_terminate s fn (asked s fn y0 st0 (auxs fill0) k) (state sol) = (true, successful) /\
      allfinite (asked s fn y0 st0 (auxs fill0) k) = true /\
      state sol = st_at s fn y0 st0 (auxs fill0) k /\
      (value sol, aux sol) =
        fst (s_post s fn (y_at s fn y0 st0 (auxs fill0) k)
               (aux_at s fn y0 st0 (auxs fill0) k) (state sol) successful).
Proof.
  intros Y Out Aux allfinite s fn y0 fs auxs st0 ms fuel throw sol Hi H HR.
  destruct (iterative_solve_inv allfinite s fn y0 st0 _ fs auxs eq_refl Hi
                fuel _ _ sol H) as (k & Hk & (Hs1 & Hs2 & Hs3) & -> & _).
  pose proof (solution_at_fields allfinite s fn y0 st0 (auxs fill0) ms k) as (ER & ES & EV & ET).
  exists k. rewrite ET. rewrite ER in HR.
  assert (HST : status allfinite s fn y0 st0 (auxs fill0) k successful)
    by (apply final_result_status; congruence).
  split; [reflexivity|]. split; [auto|].
  rewrite ES, EV, HR.
  destruct HST as [[_ E]|[(_ & HN & E)|[(HA & HSu & HT & _)|(_ & _ & _ & E)]]];
    try discriminate; try congruence.
  unfold says_result, says_terminate in *.
  destruct (s_terminate s fn _ _) as [t r]; simpl in *; subst.
  rewrite HA. auto.
Qed.

(** Running out of budget without convergence or failure is reported as
    `nonlinear_max_steps_reached`, and that code means nothing else (for
    solvers that do not use it themselves). *)
Lemma C03_max_steps_iff_pf :
  forall (Y Out Aux : Type) (allfinite : Y -> bool) (s : Solver Y Out Aux)
         (fn : Y -> Out * Aux) y0 fs auxs st0 (ms : option nat) fuel sol,
    s_init s fn y0 fs auxs = Ret st0 ->
    (forall y st, snd (s_terminate s fn y st) <> nonlinear_max_steps_reached) ->
    iterative_solve allfinite s fn fuel ms false y0 fs auxs = Ret sol ->
    (result sol = nonlinear_max_steps_reached <->
     exists m, ms = Some m /\
       forall j, j <= m -> ~ stops allfinite s fn y0 st0 (auxs fill0) j).
Proof.
  intros Y Out Aux allfinite s fn y0 fs auxs st0 ms fuel sol Hi Hcode H.
  destruct (iterative_solve_inv allfinite s fn y0 st0 _ fs auxs eq_refl Hi
                fuel _ _ sol H) as (k & Hk & (Hs1 & Hs2 & Hs3) & -> & _).
  pose proof (solution_at_fields allfinite s fn y0 st0 (auxs fill0) ms k) as (ER & ES & EV & ET).
  rewrite ER.
  assert (HF := final_result_status allfinite s fn y0 st0 (auxs fill0) k).
  split.
  - intro E. symmetry in E. apply HF in E.
    destruct E as [[_ E]|[(_ & HN & E)|[(HA & HSu & HT & E)|(HA & HSu & HT & _)]]];
      try discriminate.
    { exfalso. eapply Hcode. symmetry. exact E. }
    assert (HNS : ~ stops allfinite s fn y0 st0 (auxs fill0) k)
      by (intros [E|[E|E]]; congruence).
    destruct Hs1 as [Hs1|Hs1]; [contradiction|].
    exists k. split; auto. intros j Hj.
    destruct (Nat.eq_dec j k) as [->|]; auto. apply Hs2. lia.
  - intros (m & -> & HN).
    specialize (Hs3 m eq_refl).
    assert (k = m).
    { destruct Hs1 as [Hs1|Hs1]; [|congruence]. exfalso; eapply HN; eauto. }
    subst k.
    assert (HNS := HN m (le_n m)).
    symmetry. apply HF. right; right; right.
    unfold stops in HNS.
    destruct (allfinite (asked s fn y0 st0 (auxs fill0) m)); [|exfalso; apply HNS; auto].
    destruct (says_terminate s fn y0 st0 (auxs fill0) m); [exfalso; apply HNS; auto|].
    destruct (results_eqb (says_result s fn y0 st0 (auxs fill0) m) successful) eqn:E.
    + apply results_eqb_eq in E; auto.
    + apply results_eqb_neq in E. exfalso; apply HNS; auto.
Qed.

Example C03_status_ex_pf :
  let run m y := match iterative_solve toy_finite toy toy_fn 30 m false (Some y)
                         toy_struct toy_struct with
                 | Ret sol => Some (value sol, result sol) | _ => None end in
  run (Some 20) 5 = Some (Some 0, successful) /\
  run (Some 3) 5 = Some (Some 2, nonlinear_max_steps_reached) /\
  run (Some 20) 15 = Some (Some 12, nonlinear_divergence) /\
  run (Some 20) 8 = Some (None, nonfinite).
Proof. repeat split. Qed.

(** Part of C04 that holds for every solver: when success is reported, the
    point the last step started from is finite. *)
Lemma C04_previous_finite_partial_pf :
  forall (Y Out Aux : Type) (allfinite : Y -> bool) (s : Solver Y Out Aux)
         (fn : Y -> Out * Aux) y0 fs auxs st0 (ms : option nat) fuel throw sol,
    s_init s fn y0 fs auxs = Ret st0 ->
    iterative_solve allfinite s fn fuel ms throw y0 fs auxs = Ret sol ->
    result sol = successful ->
    exists k, state sol = st_at s fn y0 st0 (auxs fill0) k /\
      (forall j, j < k -> allfinite (y_at s fn y0 st0 (auxs fill0) j) = true) /\
      (k = 0 -> allfinite y0 = true).
Proof.
  intros Y Out Aux allfinite s fn y0 fs auxs st0 ms fuel throw sol Hi H HR.
  destruct (iterative_solve_inv allfinite s fn y0 st0 _ fs auxs eq_refl Hi
                fuel _ _ sol H) as (k & Hk & (Hs1 & Hs2 & Hs3) & -> & _).
  pose proof (solution_at_fields allfinite s fn y0 st0 (auxs fill0) ms k) as (ER & ES & EV & ET).
  exists k. split; [auto|].
  assert (HST : status allfinite s fn y0 st0 (auxs fill0) k successful)
    by (apply final_result_status; congruence).
  assert (HA : allfinite (asked s fn y0 st0 (auxs fill0) k) = true)
    by (destruct HST as [[_ E]|[(E & _)|[(E & _)|(E & _)]]]; auto; discriminate).
  split.
  - intros j Hj. destruct (Nat.eq_dec (S j) k) as [E|E].
    + rewrite <- E in HA. exact HA.
    + assert (HNS := Hs2 (S j) ltac:(lia)).
      destruct (allfinite (y_at s fn y0 st0 (auxs fill0) j)) eqn:EA; auto.
      exfalso; apply HNS; right; right; exact EA.
  - intros ->. exact HA.
Qed.

(** C04 itself fails: a solver that follows the documented interface can be
    reported successful while the returned value is infinite, because the
    finiteness check looks at the point before the last step. *)
Lemma C04_success_finite_refuted_pf :
  exists sol,
    iterative_solve (nisfin (n:=XR)) recip_solver recip 5 (Some 3) true (Fin 0)
      (fun _ => Fin 0) (fun _ => tt) = Ret sol /\
    result sol = successful /\ value sol = PInf.
Proof.
  assert (E1 : xdiv (Fin 1) (Fin 0) = PInf).
  { unfold xdiv, xsgn_inf. destruct (Req_EM_T 0 0); [|congruence].
    destruct (Rlt_dec 0 1) as [_|n]; [reflexivity|exfalso; apply n; apply Rlt_0_1]. }
  assert (E2 : xltb (xabs (Fin 0)) (Fin 1) = true).
  { simpl. unfold Rltb. rewrite Rabs_R0.
    destruct (Rlt_dec 0 1) as [_|n]; [reflexivity|exfalso; apply n; apply Rlt_0_1]. }
  unfold iterative_solve, iterate, terminate_and_result, cond_fun, body_fun.
  cbn -[xdiv xltb xabs]. rewrite E1.
  unfold terminate_and_result. cbn -[xdiv xltb xabs]. rewrite E2. cbn.
  eexists; repeat split; reflexivity.
Qed.

(** throw=True raises exactly when the status is not `successful`; otherwise
    both settings agree. *)
Lemma C05_throw_pf :
  forall (Y Out Aux : Type) (allfinite : Y -> bool) (s : Solver Y Out Aux)
         (fn : Y -> Out * Aux) y0 fs auxs st0 (ms : option nat) fuel sol,
    s_init s fn y0 fs auxs = Ret st0 ->
    iterative_solve allfinite s fn fuel ms false y0 fs auxs = Ret sol ->
    (result sol = successful ->
       iterative_solve allfinite s fn fuel ms true y0 fs auxs = Ret sol) /\
    (result sol <> successful ->
       iterative_solve allfinite s fn fuel ms true y0 fs auxs =
       Raise (SolveFailed (result sol))).
Proof.
  intros Y Out Aux allfinite s fn y0 fs auxs st0 ms fuel sol Hi H.
  destruct (iterative_solve_inv allfinite s fn y0 st0 _ fs auxs eq_refl Hi
                fuel _ _ sol H) as (k & Hk & Hs & -> & _).
  pose proof (solution_at_fields allfinite s fn y0 st0 (auxs fill0) ms k) as (ER & _).
  destruct (iterative_solve_spec allfinite s fn y0 st0 (auxs fill0) fs auxs eq_refl Hi
              fuel ms true) as [HT _].
  rewrite (HT k Hk Hs), ER. simpl. split; intro E.
  - rewrite E. reflexivity.
  - apply results_eqb_neq in E. rewrite E. reflexivity.
Qed.

(** throw=False never raises because of the status: the only exceptions are
    those of the solver's own init. *)
Lemma C05_no_throw_pf :
  forall (Y Out Aux : Type) (allfinite : Y -> bool) (s : Solver Y Out Aux)
         (fn : Y -> Out * Aux) y0 fs auxs (ms : option nat) fuel e,
    iterative_solve allfinite s fn fuel ms false y0 fs auxs = Raise e <->
    s_init s fn y0 fs auxs = Raise e.
Proof.
  intros Y Out Aux allfinite s fn y0 fs auxs ms fuel e.
  destruct (s_init s fn y0 fs auxs) as [st0|e0|] eqn:Hi.
  - split; [|discriminate]. intro H.
    destruct (iterative_solve_raise_inv allfinite s fn y0 st0 _ fs auxs eq_refl Hi
                fuel ms false e H) as (k & _ & _ & E & _). discriminate.
  - unfold iterative_solve, iterate. rewrite Hi. simpl. split; congruence.
  - unfold iterative_solve, iterate. rewrite Hi. simpl. split; congruence.
Qed.

Example C05_throw_ex_pf :
  iterative_solve toy_finite toy toy_fn 30 (Some 3) true (Some 5) toy_struct toy_struct =
    Raise (SolveFailed nonlinear_max_steps_reached) /\
  exists sol,
    iterative_solve toy_finite toy toy_fn 30 (Some 9) true (Some 5) toy_struct toy_struct =
      Ret sol /\ value sol = Some 0.
Proof. split; [reflexivity|]. eexists; split; reflexivity. Qed.

(** A non-finite y0 is reported without taking a step. *)
Lemma C06_nonfinite_start_pf :
  forall (Y Out Aux : Type) (allfinite : Y -> bool) (s : Solver Y Out Aux)
         (fn : Y -> Out * Aux) y0 fs auxs st0 (ms : option nat) fuel,
    s_init s fn y0 fs auxs = Ret st0 ->
    allfinite y0 = false -> 0 < fuel ->
    exists sol,
      iterative_solve allfinite s fn fuel ms false y0 fs auxs = Ret sol /\
      result sol = nonfinite /\ state sol = st0 /\
      (value sol, aux sol) = fst (s_post s fn y0 (auxs fill0) st0 nonfinite) /\
      hd_error (sol_stats sol) = Some ("num_steps"%string, Some 0%Z).
Proof.
  intros Y Out Aux allfinite s fn y0 fs auxs st0 ms fuel Hi HF Hf.
  destruct (iterative_solve_spec allfinite s fn y0 st0 (auxs fill0) fs auxs eq_refl Hi
              fuel ms false) as [HT _].
  assert (Hs : stop_index allfinite s fn y0 st0 (auxs fill0) ms 0).
  { split; [left; right; right; exact HF|]. split; intros; lia. }
  pose proof (solution_at_fields allfinite s fn y0 st0 (auxs fill0) ms 0) as (ER & ES & EV & ET).
  assert (HR : final_result allfinite s fn y0 st0 (auxs fill0) 0 = nonfinite).
  { symmetry. apply final_result_status. left. split; auto. }
  eexists. rewrite (HT 0 Hf Hs). simpl. split; [reflexivity|].
  rewrite ER, ES, EV, ET, HR. auto.
Qed.

Example C06_nonfinite_start_ex_pf :
  exists sol,
    iterative_solve toy_finite toy toy_fn 30 None false None toy_struct toy_struct = Ret sol /\
    result sol = nonfinite /\ value sol = None.
Proof. eexists; repeat split; reflexivity. Qed.
