(** Splitting states into arrays and static parts (C94). *)

From Coq Require Import String List Bool Arith ZArith Lia.
From Verif Require Import Results Iterate PyTree StaticState Spec_StaticState.
Import ListNotations.
Local Open Scope string_scope.

(** ** Trees *)
Lemma pt_ind : forall (A : Type) (P : tree A -> Prop),
  (forall x, P (Leaf x)) -> (forall tag ts, Forall P ts -> P (Node tag ts)) -> forall t, P t.
Proof.
  intros A P HL HN. fix IH 1. intros [x | tag ts]; [apply HL | apply HN].
  induction ts as [| t ts IHts]; constructor; [apply IH | exact IHts].
Qed.

Section Trees.
  Context {A J O : Type} (jeq : J -> J -> bool) (oeq : O -> O -> bool).
  Notation T := (pytree A J O).
  Notation dyn := (eqx_filter A J O (is_array A J O)).
  Notation stat := (eqx_filter A J O (fun x => negb (is_array A J O x))).

  Lemma none_eq : forall t : T, is_none A J O t = true -> t = Node "None" [].
  Proof. intros [x | tag [|]] H; try discriminate. cbn in H. apply String.eqb_eq in H. now subst. Qed.

  (** Arrays of u with the static part of t: u, when they have the same skeleton. *)
  Lemma combine_static_first : forall t u : T, skeleton t = skeleton u -> combine_tree A J O (stat t) (dyn u) = Ret u.
  Proof.
    induction t as [x | tag ts IH] using pt_ind; intros u H.
    - destruct u as [y |]; [| discriminate]. cbn in H. destruct x, y; cbn in H; try discriminate; try injection H as ->; reflexivity.
    - destruct u as [y | tag' us]; [discriminate |]. cbn in H. injection H as <- H.
      change (eqx_filter A J O (fun x => negb (is_array A J O x)) (Node tag ts)) with (Node tag (map stat ts)).
      change (eqx_filter A J O (is_array A J O) (Node tag us)) with (Node tag (map dyn us)).
      assert (G : (fix go ts us :=
                        match ts, us with
                        | [], [] => Ret []
                        | t :: ts, u :: us =>
                            obind (combine_tree A J O t u) (fun c => obind (go ts us) (fun cs => Ret (c :: cs)))
                        | _, _ => Raise ValueError
                        end) (map stat ts) (map dyn us) = Ret us).
      { revert us H. induction IH as [| t ts Ht _ IHl]; intros [| u us] H; try discriminate; [reflexivity |].
        cbn [map] in H |- *. injection H as H1 H2. rewrite (Ht u H1). cbn [obind]. rewrite (IHl us H2). reflexivity. }
      cbn [combine_tree]. destruct (is_none A J O (Node tag (map stat ts))) eqn:E.
      + apply none_eq in E. injection E as -> E. destruct ts; [| discriminate]. destruct us; [| discriminate]. reflexivity.
      + rewrite String.eqb_refl, G. reflexivity.
  Qed.
  Lemma combine_dynamic_first : forall t u : T, skeleton t = skeleton u -> combine_tree A J O (dyn u) (stat t) = Ret u.
  Proof.
    induction t as [x | tag ts IH] using pt_ind; intros u H.
    - destruct u as [y |]; [| discriminate]. cbn in H. destruct x, y; cbn in H; try discriminate; try injection H as ->; reflexivity.
    - destruct u as [y | tag' us]; [discriminate |]. cbn in H. injection H as <- H.
      change (eqx_filter A J O (fun x => negb (is_array A J O x)) (Node tag ts)) with (Node tag (map stat ts)).
      change (eqx_filter A J O (is_array A J O) (Node tag us)) with (Node tag (map dyn us)).
      assert (G : (fix go ts us :=
                        match ts, us with
                        | [], [] => Ret []
                        | t :: ts, u :: us =>
                            obind (combine_tree A J O t u) (fun c => obind (go ts us) (fun cs => Ret (c :: cs)))
                        | _, _ => Raise ValueError
                        end) (map dyn us) (map stat ts) = Ret us).
      { revert us H. induction IH as [| t ts Ht _ IHl]; intros [| u us] H; try discriminate; [reflexivity |].
        cbn [map] in H |- *. injection H as H1 H2. rewrite (Ht u H1). cbn [obind]. rewrite (IHl us H2). reflexivity. }
      cbn [combine_tree]. destruct (is_none A J O (Node tag (map dyn us))) eqn:E.
      + apply none_eq in E. injection E as -> E. destruct us; [| discriminate]. destruct ts; [| discriminate]. reflexivity.
      + rewrite String.eqb_refl, G. reflexivity.
  Qed.

  Hypothesis Hj : exact_eq jeq.
  Hypothesis Ho : exact_eq oeq.

  Lemma no_wrapper_node : forall tag (ts : list T), no_wrapper (Node tag ts) -> Forall no_wrapper ts.
  Proof.
    intros tag ts H. apply Forall_forall. intros t Ht j Hin. apply (H j). cbn. apply in_concat.
    exists (leaves t). split; [now apply in_map | assumption].
  Qed.

  (** The two checks pass exactly for equal skeletons. *)
  Lemma checks_iff : forall t u : T, no_wrapper t ->
    (tree_equal A J O jeq oeq (stat t) (stat u) = true /\ same_structure A J O (dyn t) (dyn u) = true <-> skeleton t = skeleton u).
  Proof.
    induction t as [x | tag ts IH] using pt_ind; intros u W.
    - destruct u as [y | tag' us].
      + destruct x as [| j | j | o]; [| | exfalso; apply (W j); now left |]; destruct y as [| j' | j' | o']; cbn.
        all: try (split; [intros [? ?]; discriminate | discriminate]).
        * tauto.
        * rewrite (Hj j j'). split; [intros [-> _]; reflexivity | intros H; injection H as ->; auto].
        * rewrite (Ho o o'). split; [intros [-> _]; reflexivity | intros H; injection H as ->; auto].
      + split; [| discriminate]. intros [H1 H2]. destruct x; cbn in H1, H2; discriminate.
    - destruct u as [y | tag' us].
      + split; [| discriminate]. intros [H1 H2]. destruct y; cbn in H1, H2; try discriminate.
      + change (eqx_filter A J O (fun x => negb (is_array A J O x)) (Node tag ts)) with (Node tag (map stat ts)).
        change (eqx_filter A J O (fun x => negb (is_array A J O x)) (Node tag' us)) with (Node tag' (map stat us)).
        change (eqx_filter A J O (is_array A J O) (Node tag ts)) with (Node tag (map dyn ts)).
        change (eqx_filter A J O (is_array A J O) (Node tag' us)) with (Node tag' (map dyn us)).
        change (skeleton (Node tag ts)) with (Node tag (map (skeleton (A:=A) (J:=J) (O:=O)) ts)).
        change (skeleton (Node tag' us)) with (Node tag' (map (skeleton (A:=A) (J:=J) (O:=O)) us)).
        cbn [tree_equal same_structure]; apply no_wrapper_node in W.
        match goal with |- context [String.eqb tag tag' && ?a (map stat ts) (map stat us) = true] => set (ga := a) end.
        match goal with |- context [String.eqb tag tag' && ?a (map dyn ts) (map dyn us) = true] => set (gb := a) end.
        assert (G : ga (map stat ts) (map stat us) = true /\ gb (map dyn ts) (map dyn us) = true <->
                    map (skeleton (A:=A) (J:=J) (O:=O)) ts = map (skeleton (A:=A) (J:=J) (O:=O)) us).
        { revert us W. induction IH as [| t ts Ht _ IHl]; intros [| u us] W; cbn; try (split; [intros [? ?]; discriminate | discriminate]); [tauto |].
          inversion W as [| ? ? W1 W2]; subst. rewrite !andb_true_iff. specialize (Ht u W1). specialize (IHl us W2). cbn in IHl.
          split.
          - intros [[a b] [c d]]. f_equal; [now apply Ht | now apply IHl].
          - intros E. injection E as E1 E2. apply Ht in E1. apply IHl in E2. tauto. }
        rewrite !andb_true_iff, String.eqb_eq. split.
        * intros [[-> a] [_ b]]. f_equal. now apply G.
        * intros E. injection E as -> E. apply G in E. tauto.
  Qed.

  Lemma unwrap_wrap : forall t : T, no_wrapper t -> unwrap_jaxpr A J O (wrap_jaxpr A J O t) = t.
  Proof.
    unfold unwrap_jaxpr, wrap_jaxpr. induction t as [x | tag ts IH] using pt_ind; intros W.
    - destruct x; cbn; try reflexivity. exfalso. apply (W j). now left.
    - apply no_wrapper_node in W. cbn. f_equal. induction IH as [| t ts Ht _ IHl]; [reflexivity |].
      inversion W; subst. cbn. f_equal; auto.
  Qed.
  Lemma leaves_filter : forall keep (t : T) x, In x (leaves (eqx_filter A J O keep t)) -> In x (leaves t) /\ keep x = true.
  Proof.
    intros keep. induction t as [y | tag ts IH] using pt_ind; intros x H.
    - cbn in H. destruct (keep y) eqn:E; cbn in H; [| contradiction]. destruct H as [<- | []]. split; [now left | assumption].
    - cbn in H |- *. rewrite map_map in H. apply in_concat in H. destruct H as (l & Hl & Hx). apply in_map_iff in Hl.
      destruct Hl as (t & <- & Ht). rewrite Forall_forall in IH. destruct (IH t Ht x Hx). split; [| assumption].
      apply in_concat. exists (leaves t). split; [now apply in_map | assumption].
  Qed.
  Lemma static_no_wrapper : forall t : T, no_wrapper t -> no_wrapper (stat t).
  Proof. intros t W j H. apply leaves_filter in H. apply (W j), H. Qed.
  Lemma skeleton_no_wrapper : forall t u : T, skeleton t = skeleton u -> no_wrapper t -> no_wrapper u.
  Proof.
    intros t u E W j H. assert (L : map forget_array (leaves t) = map forget_array (leaves u)).
    { revert u E H. clear W. intros u E _. revert u E. induction t as [x | tag ts IH] using pt_ind; intros [y | tag' us] E; try discriminate.
      - cbn in *. injection E as ->. reflexivity.
      - cbn in E |- *. injection E as _ E. revert us E. induction IH as [| t ts Ht _ IHl]; intros [| u us] E; try discriminate; [reflexivity |].
        cbn in E |- *. injection E as E1 E2. rewrite !map_app, (Ht u E1), (IHl us E2). reflexivity. }
    assert (K : In (Some (JaxprEqual j)) (map forget_array (leaves u))) by (apply in_map_iff; exists (JaxprEqual j); auto).
    rewrite <- L in K. apply in_map_iff in K. destruct K as (x & Ex & Hx). destruct x; cbn in Ex; try discriminate.
    injection Ex as ->. exact (W _ Hx).
  Qed.
End Trees.

(** ** The loop *)
Lemma while_sim : forall (C D : Type) (R : C -> D -> Prop) condC bodyC condD bodyD,
  (forall c d, R c d -> condC c = condD d) -> (forall c d, R c d -> R (bodyC c) (bodyD d)) ->
  forall fuel ms c d, R c d ->
  match while_loop fuel condC bodyC ms c, while_loop fuel condD bodyD ms d with
  | Ret c', Ret d' => R c' d'
  | Unfinished, Unfinished => True
  | _, _ => False
  end.
Proof.
  intros C D R cC bC cD bD Hc Hb. induction fuel as [| fuel IH]; intros ms c d H; cbn; [exact I |].
  destruct ms as [[| m] |]; cbn; [exact H | |]; rewrite (Hc c d H); destruct (cD d); [apply IH; apply Hb; exact H | exact H | apply IH; apply Hb; exact H | exact H].
Qed.

(** Splitting the solver's state into arrays and the rest, carrying only the arrays through the compiled
    loop and putting them together with the first state's other parts changes nothing: the solve is the
    one of a loop that carries whole states -- for every solver that can be traced and whose first step
    does not change the non-array part of the state.  Otherwise the solve raises. *)
Lemma C94_split_loop_pf :
  forall (A J O Y Out Aux : Type) (jeq : J -> J -> bool) (oeq : O -> O -> bool) (allfinite : Y -> bool) init step term post
         (fn : Y -> Out * Aux) y0 fs auxs st0,
    exact_eq jeq -> exact_eq oeq -> traceable (step fn) ->
    init fn y0 fs auxs = Ret st0 -> no_wrapper st0 ->
    let new := snd (fst (step fn y0 st0)) in
    (skeleton new = skeleton st0 -> forall fuel ms throw,
       split_solve A J O jeq oeq allfinite init step term post fn fuel ms throw y0 fs auxs =
       iterative_solve allfinite (mkSolver (pytree A J O) init step term post) fn fuel ms throw y0 fs auxs) /\
    (skeleton new <> skeleton st0 -> forall fuel ms throw,
       split_solve A J O jeq oeq allfinite init step term post fn fuel ms throw y0 fs auxs = Raise AssertionError \/
       split_solve A J O jeq oeq allfinite init step term post fn fuel ms throw y0 fs auxs = Raise TypeError).
Proof.
  intros A J O Y Out Aux jeq oeq af init step term post fn y0 fs auxs st0 Hj Ho Tr Hi W new.
  set (sv := mkSolver (pytree A J O) init step term post).
  assert (C0 : combine_tree A J O (eqx_filter A J O (fun x => negb (is_array A J O x)) st0)
                 (eqx_filter A J O (is_array A J O) st0) = Ret st0) by now apply combine_static_first.
  assert (TB : forall t r, trace_body A J O jeq oeq step fn (snd (partition_tree A J O st0))
                 (mkCarry y0 0 (fst (partition_tree A J O st0)) (auxs fill0) t r) =
               if tree_equal A J O jeq oeq (snd (partition_tree A J O st0)) (snd (partition_tree A J O new))
               then if same_structure A J O (fst (partition_tree A J O st0)) (fst (partition_tree A J O new)) then Ret tt else Raise TypeError
               else Raise AssertionError).
  { intros t r. unfold trace_body. cbn [c_state c_y fst snd partition_tree]. rewrite C0. cbn [obind].
    unfold new. destruct (step fn y0 st0) as [[? s1] ?]. reflexivity. }
  pose proof (checks_iff jeq oeq Hj Ho st0 new W) as CI.
  split.
  - intros SK fuel ms throw. pose proof (eq_sym SK) as E. apply CI in E. destruct E as [E1 E2].
    unfold split_solve, iterative_solve, split_iterate, iterate. cbn [s_init sv]. rewrite Hi. cbn [obind].
    unfold tree_terminate, terminate_and_result at 1. cbn [s_terminate sv].
    destruct (term fn y0 st0) as [t0 r0].
    destruct (partition_tree A J O st0) as [d0 s0] eqn:EP.
    assert (Ed : d0 = eqx_filter A J O (is_array A J O) st0) by (unfold partition_tree in EP; injection EP; auto).
    assert (Es : s0 = eqx_filter A J O (fun x => negb (is_array A J O x)) st0) by (unfold partition_tree in EP; injection EP; auto).
    cbn [fst snd] in TB. rewrite TB.
    rewrite <- Es in E1. rewrite <- Ed in E2. cbn [partition_tree fst snd]. rewrite E1, E2. cbn [obind].
    set (R := fun (c : carry (Y:=Y) (Aux:=Aux) (pytree A J O)) (d : carry (Y:=Y) (Aux:=Aux) (pytree A J O)) =>
      c_y c = c_y d /\ c_num_steps c = c_num_steps d /\ c_aux c = c_aux d /\ c_terminate c = c_terminate d /\ c_result c = c_result d /\
      skeleton (c_state d) = skeleton st0 /\ c_state c = eqx_filter A J O (is_array A J O) (c_state d)).
    pose proof (while_sim _ _ R (split_cond A J O) (split_body A J O af step term fn s0) (cond_fun sv) (body_fun af sv fn)) as WS.
    assert (H1 : forall c d, R c d -> split_cond A J O c = cond_fun sv d).
    { intros c d (_ & _ & _ & e1 & e2 & _). unfold split_cond, cond_fun. now rewrite e1, e2. }
    assert (H2 : forall c d, R c d -> R (split_body A J O af step term fn s0 c) (body_fun af sv fn d)).
    { intros c d (e1 & e2 & e3 & e4 & e5 & e6 & e7). unfold split_body, body_fun.
      rewrite e7, Es, combine_static_first by (symmetry; exact e6). rewrite e1.
      pose proof (Tr (c_y d) y0 (c_state d) st0 e6) as TS. fold new in TS.
      change (s_step sv fn (c_y d) (c_state d)) with (step fn (c_y d) (c_state d)).
      destruct (step fn (c_y d) (c_state d) : Y * pytree A J O * Aux) as [[ny ns] na]. cbn [fst snd] in TS.
      unfold tree_terminate, terminate_and_result. change (s_terminate sv fn (c_y d) ns) with (term fn (c_y d) ns).
      destruct (term fn (c_y d) ns) as [t r].
      unfold R. cbn [c_y c_num_steps c_aux c_terminate c_result c_state]. split; [reflexivity |]. split; [now rewrite e2 |]. split; [reflexivity |]. split; [reflexivity |]. split; [reflexivity |].
      split; [exact (eq_trans TS SK) | reflexivity]. }
    specialize (WS H1 H2 fuel ms (mkCarry y0 0 d0 (auxs fill0) t0 (if af y0 then r0 else nonfinite))
      (mkCarry y0 0 st0 (auxs fill0) t0 (if af y0 then r0 else nonfinite))).
    assert (R0 : R (mkCarry y0 0 d0 (auxs fill0) t0 (if af y0 then r0 else nonfinite))
      (mkCarry y0 0 st0 (auxs fill0) t0 (if af y0 then r0 else nonfinite))) by (unfold R; cbn; repeat split; auto).
    specialize (WS R0).
    match type of WS with match ?a with _ => _ end => set (w1 := a) in WS end.
    match type of WS with match _ with Ret _ => match ?a with _ => _ end | _ => _ end => set (w2 := a) in WS end.
    match goal with |- context [while_loop fuel ?x ?b ms (mkCarry y0 0 d0 ?p ?q ?r)] =>
      change (while_loop fuel x b ms (mkCarry y0 0 d0 p q r)) with w1 end.
    match goal with |- context [while_loop fuel ?x ?b ms (mkCarry y0 0 st0 ?p ?q ?r)] =>
      change (while_loop fuel x b ms (mkCarry y0 0 st0 p q r)) with w2 end.
    destruct w1 as [c | |]; destruct w2 as [d | |]; try contradiction; [| reflexivity].
    destruct WS as (e1 & e2 & e3 & e4 & e5 & e6 & e7). cbn [obind].
    rewrite e7, Es. rewrite (combine_static_first st0 (c_state d)) by (symmetry; exact e6). cbn [obind].
    rewrite e1, e2, e3, e4, e5.
    match goal with |- context [post fn ?a ?b ?c0 ?r] => set (pp := post fn a b c0 r) end.
    match goal with |- context [s_post sv fn ?a ?b ?c0 ?r] => change (s_post sv fn a b c0 r) with pp end.
    destruct pp as [[fy fa] fst_]. cbn [obind].
    rewrite unwrap_wrap by now apply static_no_wrapper.
    rewrite combine_dynamic_first by (symmetry; exact e6). reflexivity.
  - intros NE fuel ms throw.
    unfold split_solve, split_iterate. rewrite Hi. cbn [obind]. destruct (tree_terminate A J O af term fn y0 st0) as [t0 r0].
    destruct (partition_tree A J O st0) as [d0 s0] eqn:EP. cbn [fst snd] in TB. rewrite TB.
    unfold partition_tree in EP |- *. injection EP as <- <-. cbn [fst snd].
    destruct (tree_equal A J O jeq oeq _ _) eqn:E1; [| left; reflexivity].
    destruct (same_structure A J O _ _) eqn:E2; [| right; reflexivity].
    exfalso. apply NE. symmetry. apply CI. auto.
Qed.

(** `eqx.partition` and `eqx.combine`: the first part has only arrays, the second none, and they combine
    to the whole in either order; arrays from another state of the same skeleton fit in. *)
Lemma C94_partition_combine_pf : forall (A J O : Type) (t u : pytree A J O), skeleton t = skeleton u ->
  (forall x, In x (leaves (fst (partition_tree A J O t))) -> exists a, x = Arr a) /\
  no_array (snd (partition_tree A J O t)) /\
  combine_tree A J O (fst (partition_tree A J O t)) (snd (partition_tree A J O t)) = Ret t /\
  combine_tree A J O (snd (partition_tree A J O t)) (fst (partition_tree A J O t)) = Ret t /\
  combine_tree A J O (snd (partition_tree A J O t)) (fst (partition_tree A J O u)) = Ret u.
Proof.
  intros A J O t u E. cbn [partition_tree fst snd]. repeat split.
  - intros x H. apply leaves_filter in H. destruct H as [_ H]. destruct x; try discriminate. eauto.
  - intros a H. apply leaves_filter in H. destruct H as [_ H]. discriminate.
  - now apply combine_dynamic_first.
  - now apply combine_static_first.
  - now apply combine_static_first.
Qed.

(** wrap_jaxpr and unwrap_jaxpr: unwrapping gives the tree back, and two wrapped static trees compare
    equal exactly when they differ in nothing but the Jaxprs. *)
Lemma C94_wrap_jaxpr_pf : forall (A J O : Type) (jeq : J -> J -> bool) (oeq : O -> O -> bool) (t u : pytree A J O),
  exact_eq oeq -> no_wrapper t -> no_wrapper u -> no_array t -> no_array u ->
  unwrap_jaxpr A J O (wrap_jaxpr A J O t) = t /\
  (tree_equal A J O jeq oeq (wrap_jaxpr A J O t) (wrap_jaxpr A J O u) = true <->
   tree_map1 forget_jaxpr t = tree_map1 forget_jaxpr u).
Proof.
  intros A J O jeq oeq t u Ho Wt Wu At Au. split; [now apply unwrap_wrap |].
  unfold wrap_jaxpr. revert u Wu Au. induction t as [x | tag ts IH] using pt_ind; intros [y | tag' us] Wu Au.
  - destruct x as [a | j | j | o]; [exfalso; apply (At a); now left | | exfalso; apply (Wt j); now left |];
      (destruct y as [a' | j' | j' | o']; [exfalso; apply (Au a'); now left | | exfalso; apply (Wu j'); now left |]); cbn.
    + tauto.
    + split; discriminate.
    + split; discriminate.
    + rewrite (Ho o o'). split; [intros ->; reflexivity | intros E; injection E as ->; reflexivity].
  - split; [| discriminate]. destruct x; cbn; discriminate.
  - split; [| discriminate]. destruct y; cbn; discriminate.
  - apply no_wrapper_node in Wt, Wu.
    assert (AN : forall tag (ts : list (pytree A J O)), no_array (Node tag ts) -> Forall no_array ts).
    { clear. intros tag ts H. apply Forall_forall. intros t Ht a Hin. apply (H a). cbn. apply in_concat.
      exists (leaves t). split; [now apply in_map | assumption]. }
    apply AN in At, Au.
    change (tree_map1 (wrap_leaf A J O) (Node tag ts)) with (Node tag (map (tree_map1 (wrap_leaf A J O)) ts)).
    change (tree_map1 (wrap_leaf A J O) (Node tag' us)) with (Node tag' (map (tree_map1 (wrap_leaf A J O)) us)).
    cbn [tree_equal].
    match goal with |- context [String.eqb tag tag' && ?a (map _ ts) (map _ us) = true] => set (g := a) end.
    assert (G : g (map (tree_map1 (wrap_leaf A J O)) ts) (map (tree_map1 (wrap_leaf A J O)) us) = true <->
                map (tree_map1 forget_jaxpr) ts = map (tree_map1 forget_jaxpr) us).
    { revert us Wu Au. induction IH as [| t ts Ht _ IHl]; intros [| u us] Wu Au; cbn; try (split; [discriminate | discriminate]); [tauto |].
      inversion Wt as [| ? ? W1 W2]; subst. inversion Wu as [| ? ? V1 V2]; subst. inversion At as [| ? ? A1 A2]; subst. inversion Au as [| ? ? B1 B2]; subst.
      rewrite andb_true_iff. specialize (Ht W1 A1 u V1 B1). specialize (IHl W2 A2 us V2 B2). cbn in IHl.
      split.
      - intros [a b]. f_equal; [now apply Ht | now apply IHl].
      - intros E. injection E as E1 E2. split; [now apply Ht | now apply IHl]. }
    rewrite andb_true_iff, String.eqb_eq. cbn [tree_map1]. split.
    + intros [-> a]. f_equal. now apply G.
    + intros E. injection E as -> E. split; [reflexivity | now apply G].
Qed.

(** filter_cond applies true_fun if pred, else false_fun, to the operands, whenever both branches return
    and their results agree in everything but the contents of arrays; if they disagree it raises
    TypeError, and an exception raised by either branch is raised, chosen or not. *)
Lemma C94_filter_cond_pf : forall (A J O : Type) (jeq : J -> J -> bool) (oeq : O -> O -> bool) pred tf ff (ops : pytree A J O),
  exact_eq jeq -> exact_eq oeq ->
  (forall t f, tf ops = Ret t -> ff ops = Ret f -> no_wrapper t ->
     (skeleton t = skeleton f -> filter_cond A J O jeq oeq pred tf ff ops = if pred then tf ops else ff ops) /\
     (skeleton t <> skeleton f -> filter_cond A J O jeq oeq pred tf ff ops = Raise TypeError)) /\
  (forall e, tf ops = Raise e -> filter_cond A J O jeq oeq pred tf ff ops = Raise e) /\
  (forall e t, tf ops = Ret t -> ff ops = Raise e -> filter_cond A J O jeq oeq pred tf ff ops = Raise e).
Proof.
  intros A J O jeq oeq pred tf ff ops Hj Ho. unfold filter_cond. cbn [partition_tree].
  rewrite (combine_dynamic_first ops ops eq_refl). cbn [obind].
  split; [| split].
  - intros t f Et Ef W. rewrite Et, Ef. cbn [obind partition_tree].
    pose proof (checks_iff jeq oeq Hj Ho t f W) as CI. split.
    + intros E. pose proof (proj2 CI E) as [E1 E2]. rewrite E1, E2. cbn [andb]. destruct pred.
      * now apply combine_dynamic_first.
      * now apply combine_dynamic_first.
    + intros NE. destruct (same_structure A J O _ _) eqn:E2; cbn [andb]; [| reflexivity].
      destruct (tree_equal A J O jeq oeq _ _) eqn:E1; [| reflexivity]. exfalso. apply NE, CI. auto.
  - intros e ->. reflexivity.
  - intros e t -> ->. reflexivity.
Qed.

(** A state of a counter, a function object and a Jaxpr, of a solver that counts: the split loop counts to 3 like the
    plain one and returns the whole state; a solver that swaps its function object at the first step raises
    AssertionError, and one that drops its counter raises TypeError. *)
Definition count_state (n : nat) (o : string) : pytree nat nat string :=
  Node "State" [Leaf (Arr n); Node "None" []; Node "tuple" [Leaf (Obj o); Leaf (Jax 7)]].
Definition count_step (o' : string) (fn : nat -> nat * unit) (y : nat) (t : pytree nat nat string) : nat * pytree nat nat string * unit :=
  match t with
  | Node _ (Leaf (Arr n) :: _) => (S y, count_state (S n) o', tt)
  | _ => (y, t, tt)
  end.
Definition count_term (fn : nat -> nat * unit) (y : nat) (t : pytree nat nat string) : bool * results :=
  match t with Node _ (Leaf (Arr n) :: _) => (Nat.eqb n 3, successful) | _ => (true, successful) end.
Definition count_solve (step : (nat -> nat * unit) -> nat -> pytree nat nat string -> nat * pytree nat nat string * unit) :=
  split_solve nat nat string Nat.eqb String.eqb (fun _ => true) (fun _ _ _ _ => Ret (count_state 0 "f")) step count_term
    (fun _ y a _ _ => (y, a, [])) (fun y => (y, tt)) 10 None true 40 (fun _ => 0) (fun _ => tt).
Example C94_split_loop_ex_pf :
  traceable (count_step "f" (fun y => (y, tt))) /\ no_wrapper (count_state 0 "f") /\
  (exists sol, count_solve (count_step "f") = Ret sol /\ value sol = 43 /\ state sol = count_state 3 "f") /\
  count_solve (count_step "g") = Raise AssertionError /\
  count_solve (fun fn y t => (y, Node "State" [Node "None" []; Node "None" []; Node "tuple" [Leaf (Obj "f"); Leaf (Jax 7)]], tt)) = Raise TypeError.
Proof.
  split; [| split; [| split; [| split; reflexivity]]].
  - intros y y' s s' E. unfold count_step.
    destruct s as [x | tag [| [[a | j | j | o] | tg ts] r]], s' as [x' | tag' [| [[a' | j' | j' | o'] | tg' ts'] r']]; cbn in E |- *;
      try discriminate; try reflexivity; try exact E.
  - intros j H. cbn in H. repeat (destruct H as [H | H]; [discriminate |]). exact H.
  - eexists. split; [reflexivity |]. split; reflexivity.
Qed.

(** Parts of a state with a counter, None and a Jaxpr. *)
Example C94_partition_combine_ex_pf :
  partition_tree nat nat string (count_state 5 "f") =
    (Node "State" [Leaf (Arr 5); Node "None" []; Node "tuple" [Node "None" []; Node "None" []]],
     Node "State" [Node "None" []; Node "None" []; Node "tuple" [Leaf (Obj "f"); Leaf (Jax 7)]]) /\
  skeleton (count_state 5 "f") = skeleton (count_state 6 "f").
Proof. split; reflexivity. Qed.

(** Two static trees with different Jaxprs compare equal when wrapped and different when not. *)
Example C94_wrap_jaxpr_ex_pf :
  let t := Node "tuple" [Leaf (Obj "f"); Leaf (Jax 7)] : pytree nat nat string in
  let u := Node "tuple" [Leaf (Obj "f"); Leaf (Jax 8)] : pytree nat nat string in
  tree_equal nat nat string Nat.eqb String.eqb (wrap_jaxpr nat nat string t) (wrap_jaxpr nat nat string u) = true /\
  tree_equal nat nat string Nat.eqb String.eqb t u = false.
Proof. split; reflexivity. Qed.

(** Branches that return a new counter with the same function, that change the function, and one that raises. *)
Example C94_filter_cond_ex_pf :
  let go pred tf ff := filter_cond nat nat string Nat.eqb String.eqb pred tf ff (count_state 1 "f") in
  let keep (t : pytree nat nat string) := Ret t in
  go true (fun _ => Ret (count_state 2 "f")) keep = Ret (count_state 2 "f") /\
  go false (fun _ => Ret (count_state 2 "f")) keep = Ret (count_state 1 "f") /\
  go false (fun _ => Ret (count_state 2 "g")) keep = Raise TypeError /\
  go true keep (fun _ => Raise ValueError) = Raise ValueError.
Proof. repeat split; reflexivity. Qed.
