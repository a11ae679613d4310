(** Which trees the tree helpers accept (C52, C67): exactly the matching ones, and a
    ValueError otherwise. *)

From Coq Require Import String List Bool Arith Lia QArith.
From Verif Require Import Num NumFacts NumF64 Vec Results PyTree Spec_PyTree PyTree_proofs TreeOp.
Import ListNotations.
Local Open Scope nat_scope.

Definition fine {A : Type} (P : Prop) (o : outcome A) : Prop := (P /\ exists a, o = Ret a) \/ (~ P /\ o = Raise ValueError).

Lemma fine_iff : forall A (P Q : Prop) (o : outcome A), (P <-> Q) -> fine P o -> fine Q o.
Proof. unfold fine. intros A P Q o H [[H1 H2]|[H1 H2]]; [left|right]; tauto. Qed.

(** [tree_map2] over leaves of the first tree *)
Lemma map2_fine : forall A B C (f : A -> tree B -> outcome (tree C)) (rel : A -> tree B -> Prop),
  (forall a u, fine (rel a u) (f a u)) -> forall t u, fine (prefix rel t u) (tree_map2 f t u).
Proof.
  intros A B C f rel H. induction t as [a|tag ts IH] using tree_ind_nested; intro u.
  - cbn. eapply fine_iff; [|apply H]. split; [constructor; assumption|]. intro HP. inversion HP; assumption.
  - destruct u as [b|tag' us]; [right; split; [intro HP; inversion HP|reflexivity]|].
    cbn. destruct (String.eqb_spec tag tag') as [<-|Hne]; [|right; split; [intro HP; inversion HP; contradiction|reflexivity]].
    match goal with |- fine _ (obind ?g _) => assert (G : fine (Forall2 (prefix rel) ts us) g) end.
    { revert us. induction IH as [|t ts Ht HF IHF]; intros [|u us].
      - left. split; [constructor|eauto].
      - right. split; [intro HP; inversion HP|reflexivity].
      - right. split; [intro HP; inversion HP|reflexivity].
      - destruct (Ht u) as [[P1 [c E]]|[P1 E]]; rewrite E; cbn.
        + destruct (IHF us) as [[P2 [cs E2]]|[P2 E2]]; rewrite E2; cbn; [left|right].
          * split; [constructor; assumption|eauto].
          * split; [intro HP; inversion HP; contradiction|reflexivity].
        + right. split; [intro HP; inversion HP; contradiction|reflexivity]. }
    destruct G as [[P1 [c E]]|[P1 E]]; rewrite E; cbn; [left|right].
    + split; [constructor; exact P1|eauto].
    + split; [intro HP; inversion HP; contradiction|reflexivity].
Qed.

Lemma prefix_same : forall A B (rel : A -> B -> Prop) (t : tree A) (u : tree B),
  prefix (fun a u => exists b, u = Leaf b /\ rel a b) t u <-> same_structure rel t u.
Proof.
  intros A B rel. induction t as [a|tag ts IH] using tree_ind_nested; intro u.
  - split; intro H; inversion H; subst; [destruct H1 as (b & -> & Hb); constructor; exact Hb|constructor; eauto].
  - split; intro H; inversion H; subst; constructor; rewrite Forall_forall in IH; clear H;
      match goal with H : Forall2 _ _ _ |- _ => induction H as [|x y ts us Hx HF IHF]; constructor end;
      try (apply IH; [left; reflexivity|exact Hx]); apply IHF; intros z Hz; apply IH; right; exact Hz.
Qed.

Lemma map3_fine : forall A B D C (f : A -> tree B -> tree D -> outcome (tree C)) (rel : A -> tree B -> tree D -> Prop),
  (forall a u v, fine (rel a u v) (f a u v)) ->
  forall (P : tree A -> tree B -> tree D -> Prop),
    (forall a u v, P (Leaf a) u v <-> rel a u v) ->
    (forall tag ts u v, P (Node tag ts) u v <-> exists us vs, u = Node tag us /\ v = Node tag vs /\
       length us = length ts /\ length vs = length ts /\
       forall i t, nth_error ts i = Some t -> exists u' v', nth_error us i = Some u' /\ nth_error vs i = Some v' /\ P t u' v') ->
    forall t u v, fine (P t u v) (tree_map3 f t u v).
Proof.
  intros A B D C f rel H P HL HN. induction t as [a|tag ts IH] using tree_ind_nested; intros u v.
  - cbn. eapply fine_iff; [symmetry; apply HL|apply H].
  - eapply fine_iff; [symmetry; apply HN|].
    destruct u as [b|tag' us]; [right; split; [intros (us & vs & E & _); discriminate E|reflexivity]|].
    destruct v as [d|tag'' vs]; [right; split; [intros (us' & vs & _ & E & _); discriminate E|reflexivity]|].
    cbn. destruct (String.eqb_spec tag tag') as [<-|Hne]; [|right; split; [intros (us' & vs' & E & _); injection E; congruence|reflexivity]].
    destruct (String.eqb_spec tag tag'') as [<-|Hne]; [|right; split; [intros (us' & vs' & _ & E & _); injection E; congruence|reflexivity]].
    cbn.
    match goal with |- fine _ (obind ?g _) => assert (G : fine (length us = length ts /\ length vs = length ts /\
      forall i t, nth_error ts i = Some t -> exists u' v', nth_error us i = Some u' /\ nth_error vs i = Some v' /\ P t u' v') g) end.
    { revert us vs. induction IH as [|t ts Ht HF IHF]; intros [|u us] [|v vs]; try (right; split; [intros (L1 & L2 & _); discriminate|reflexivity]).
      - left. split; [repeat split; intros [|i] t Ht; discriminate Ht|eauto].
      - destruct (Ht u v) as [[P1 [c E]]|[P1 E]]; rewrite E; cbn.
        + destruct (IHF us vs) as [[(L1 & L2 & P2) [cs E2]]|[P2 E2]]; rewrite E2; cbn; [left|right].
          * split; [|eauto]. do 2 (split; [congruence|]). intros [|i] z Hz; cbn in Hz |- *; [injection Hz as <-; eauto|apply P2; exact Hz].
          * split; [|reflexivity]. intros (L1 & L2 & K). apply P2. do 2 (split; [congruence|]). intros i z Hz. exact (K (S i) z Hz).
        + right. split; [|reflexivity]. intros (_ & _ & K). destruct (K 0 t eq_refl) as (u' & v' & E1 & E2 & P2). cbn in E1, E2. injection E1 as <-. injection E2 as <-. contradiction. }
    destruct G as [[P1 [c E]]|[P1 E]]; rewrite E; cbn; [left|right].
    + split; [exists us, vs; tauto|eauto].
    + split; [|reflexivity]. intros (us' & vs' & E1 & E2 & K). injection E1 as <-. injection E2 as <-. tauto.
Qed.

(** [fits x o]: the operand is a scalar or has the size of the array. *)
Definition fits {A B : Type} (x : list A) (o : operand B) : Prop :=
  match o with Scalar _ => True | Entries l => length l = length x end.
Lemma broadcast_fits : forall A B (x : list A) (o : operand B), (exists l, broadcast (length x) o = Some l) <-> fits x o.
Proof.
  intros A B x [b|l]; cbn; [split; eauto|]. destruct (Nat.eqb_spec (length l) (length x)); split; eauto; try tauto.
  intros [z E]; discriminate E.
Qed.

(** Which trees are accepted, any arithmetic. Element-wise arithmetic on two trees
    returns iff they have the same structure with arrays of the same sizes;
    [tree_clip] iff the bounds have the structure of the tree, with scalars or arrays
    of the right sizes; [tree_where] iff the two branches have the same structure and
    sizes and the predicate is a prefix with scalars or arrays of the right sizes. In
    every other case a ValueError is raised. *)
Lemma C52_errors_pf :
  forall (N : Num),
    (forall op (a b : tree (list N)),
       let ok := same_structure (fun x y : list N => length y = length x) a b in
       (ok -> exists r, omega2 op a b = Ret r) /\ (~ ok -> omega2 op a b = Raise ValueError)) /\
    (forall (t : tree (list N)) lower upper,
       let ok := same_structure (fun x o => match o with Scalar _ => True | Entries l => length l = length x end) t lower /\
                 same_structure (fun x o => match o with Scalar _ => True | Entries l => length l = length x end) t upper in
       (ok -> exists r, tree_clip t lower upper = Ret r) /\ (~ ok -> tree_clip t lower upper = Raise ValueError)) /\
    (forall pred (t f : tree (list N)),
       let ok := same_structure (fun x y : list N => length y = length x) t f /\
                 prefix (fun p u => forall l x, p = Entries l -> In x (leaves u) -> length l = length x) pred t in
       (ok -> exists r, tree_where pred t f = Ret r) /\ (~ ok -> tree_where pred t f = Raise ValueError)).
Proof.
  assert (use : forall A (P : Prop) (o : outcome A), fine P o -> (P -> exists r, o = Ret r) /\ (~ P -> o = Raise ValueError)).
  { intros A P o [[H1 H2]|[H1 H2]]; split; intro H; try tauto. }
  intro N. split; [|split].
  - intros op a b ok. apply use. unfold ok.
    eapply fine_iff; [apply prefix_same|]. apply map2_fine. intros x [y|tag us]; cbv beta.
    + destruct (Nat.eqb_spec (length x) (length y)); [left|right].
      * split; [exists y; auto|eauto].
      * split; [intros (y' & E & K); injection E as <-; congruence|reflexivity].
    + right. split; [intros (y' & E & K); discriminate E|reflexivity].
  - intros t lower upper ok. apply use. unfold ok, tree_clip.
    apply map3_fine with (rel := fun x l u => (exists b, l = Leaf b /\ fits x b) /\ (exists b, u = Leaf b /\ fits x b))
      (P := fun t l u => same_structure fits t l /\ same_structure fits t u).
    + intros x [l|? ?] [u|? ?]; try (right; split; [intros [[b [E1 _]] [c [E2 _]]]; discriminate|reflexivity]).
      unfold leaf_clip. pose proof (broadcast_fits _ _ x l) as B1. pose proof (broadcast_fits _ _ x u) as B2.
      destruct (broadcast (length x) l) as [ls|].
      * destruct (broadcast (length x) u) as [us|]; cbn; [left|right].
        -- split; [|eauto]. split; eexists; (split; [reflexivity|]); [apply B1|apply B2]; eauto.
        -- split; [|reflexivity]. intros [_ [c [E F]]]. injection E as <-. apply B2 in F. destruct F as [z F]; discriminate F.
      * right. split; [|reflexivity]. intros [[b [E F]] _]. injection E as <-. apply B1 in F. destruct F as [z F]; discriminate F.
    + intros x l u. split.
      * intros [H1 H2]. inversion H1; inversion H2; subst. split; eexists; (split; [reflexivity|assumption]).
      * intros [[b [-> F1]] [c [-> F2]]]. split; constructor; assumption.
    + intros tag ts u v. split.
      * intros [H1 H2]. inversion H1 as [|? ? us H3]; subst. inversion H2 as [|? ? vs H4]; subst. exists us, vs. do 2 (split; [reflexivity|]).
        split; [symmetry; eapply f2_length; eauto|]. split; [symmetry; eapply f2_length; eauto|].
        intros i t' Ht. clear H1 H2. revert i vs H4 Ht.
        induction H3 as [|t0 u0 ts us Hx HF IHF]; intros i vs H4 Ht; [destruct i; discriminate Ht|].
        inversion H4 as [|? v0 ? vs' Hv HF']; subst. destruct i as [|i]; cbn in Ht |- *; [injection Ht as <-; do 2 eexists; repeat split; eassumption|]. exact (IHF i vs' HF' Ht).
      * intros (us & vs & -> & -> & L1 & L2 & K). split; constructor; (apply forall2_nth; [auto|]); intros i t' Ht;
          destruct (K i t' Ht) as (u' & v' & E1 & E2 & P1 & P2); eauto.
  - intros pred t f ok. apply use. unfold ok, tree_where.
    set (inner := fun (p : operand bool) (ti : list N) (fi : tree (list N)) => match fi with
        | Leaf fi => obind (leaf_where p ti fi) (fun z => Ret (Leaf z)) | Node _ _ => Raise ValueError end).
    assert (I : forall p t f, fine (same_structure (fun x y : list N => length y = length x /\ fits x p) t f) (tree_map2 (inner p) t f)).
    { intros p t0 f0. eapply fine_iff; [apply prefix_same|]. apply map2_fine. intros x [y|? ?]; cbn; [|right; split; [intros (b & E & _); discriminate E|reflexivity]].
      unfold leaf_where. pose proof (broadcast_fits _ _ x p) as B1. destruct (Nat.eqb_spec (length x) (length y)) as [L|L]; [|right; split; [intros (b & E & F & _); injection E as <-; congruence|reflexivity]].
      destruct (broadcast (length x) p); cbn; [left|right].
      - split; [|eauto]. exists y. split; [reflexivity|]. split; [auto|]. apply B1. eauto.
      - split; [|reflexivity]. intros (b & E & _ & F). apply B1 in F. destruct F as [z F]; discriminate F. }
    apply map3_fine with (rel := fun p t f => same_structure (fun x y : list N => length y = length x /\ fits x p) t f)
      (P := fun p t f => same_structure (fun x y : list N => length y = length x) t f /\
                 prefix (fun p u => forall l x, p = Entries l -> In x (leaves u) -> length l = length x) p t); [intros; apply I| |].
    + intros p t0 f0. split.
      * intros [H1 H2]. inversion H2 as [? ? H3|]; subst. clear H2. revert H3. pattern t0, f0. revert H1. revert t0 f0. apply same_ind.
        -- intros x y L H3. constructor. split; [exact L|]. destruct p as [b|l]; [exact Logic.I|]. cbn. apply (H3 l x eq_refl). left. reflexivity.
        -- intros tag ts us _ HF H3. constructor. induction HF as [|a b ts us Ha HF IHF]; constructor.
           ++ apply Ha. intros l x E Hx. apply (H3 l x E). cbn. apply in_or_app. auto.
           ++ apply IHF. intros l x E Hx. apply (H3 l x E). cbn. apply in_or_app. auto.
      * intro H1. assert (G : same_structure (fun x y : list N => length y = length x) t0 f0 /\
          (forall l x, p = Entries l -> In x (leaves t0) -> length l = length x)); [|split; [apply G|constructor; apply G]].
        pattern t0, f0. revert H1. revert t0 f0. apply same_ind.
        -- intros x y [L F]. split; [constructor; exact L|]. intros l x' -> [<-|[]]. exact F.
        -- intros tag ts us _ HF. split.
           ++ constructor. induction HF as [|a b ts us Ha HF IHF]; constructor; [apply Ha|exact IHF].
           ++ intros l x -> Hx. cbn in Hx. induction HF as [|a b ts us Ha HF IHF]; [destruct Hx|]. cbn in Hx. apply in_app_or in Hx.
              destruct Hx as [Hx|Hx]; [apply (proj2 Ha l x eq_refl Hx)|exact (IHF Hx)].
    + intros tag ps u v. split.
      * intros [H1 H2]. inversion H2 as [|? ? ts H3]; subst. inversion H1 as [|? ? fs H4]; subst. exists ts, fs. do 2 (split; [reflexivity|]).
        pose proof (f2_length _ _ _ _ _ H3) as L3. pose proof (f2_length _ _ _ _ _ H4) as L4. split; [congruence|]. split; [congruence|].
        clear H1 H2 L3 L4. intros i p Hp. revert i fs H4 Hp. induction H3 as [|p0 t0 ps ts Hx HF IHF]; intros i fs H4 Hp; [destruct i; discriminate Hp|].
        inversion H4 as [|? v0 ? vs' Hv HF']; subst. destruct i as [|i]; cbn in Hp |- *; [injection Hp as <-; do 2 eexists; repeat split; eassumption|]. exact (IHF i vs' HF' Hp).
      * intros (ts & fs & -> & -> & L1 & L2 & K). split; constructor.
        -- apply forall2_nth; [congruence|]. intros i t' Ht. destruct (nth_error ps i) as [p|] eqn:Hp.
           ++ destruct (K i p Hp) as (u' & v' & E1 & E2 & P1 & P2). rewrite Ht in E1. injection E1 as <-. eauto.
           ++ apply nth_error_None in Hp. assert (i < length ts) by (apply nth_error_Some; congruence). lia.
        -- apply forall2_nth; [congruence|]. intros i p Hp. destruct (K i p Hp) as (u' & v' & E1 & E2 & P1 & P2). eauto.
Qed.

(** The hypotheses are met, and fail: a dict with a scalar bound, an array bound, and
    an array bound of the wrong size; a prefix that stops early. *)
Lemma C52_errors_ex_pf :
  let t : tree (list F64) := Node "dict:a,b" [Leaf [nofQ 1; nofQ 2]; Leaf [nofQ 3]] in
  let u : tree (list F64) := Node "dict:a,b" [Leaf [nofQ 1; nofQ 2]; Leaf [nofQ 3; nofQ 4]] in
  let lo : tree (operand F64) := Node "dict:a,b" [Leaf (Scalar (nofQ 0)); Leaf (Entries [nofQ 0])] in
  let hi : tree (operand F64) := Node "dict:a,b" [Leaf (Entries [nofQ 5]); Leaf (Entries [nofQ 5])] in
  same_structure (fun x y : list F64 => length y = length x) t t /\ ~ same_structure (fun x y : list F64 => length y = length x) t u /\
  omega2 nadd t u = Raise ValueError /\
  tree_clip t lo hi = Raise ValueError /\ (exists r, tree_clip t lo lo = Ret r) /\
  (exists r, tree_where (Node "dict:a,b" [Leaf (Scalar true); Leaf (Entries [false])]) t t = Ret r) /\
  tree_where (Leaf (Entries [true])) t t = Raise ValueError.
Proof.
  pose proof (C52_errors_pf F64) as (H1 & H2 & H3). intros t u lo hi.
  assert (St : same_structure (fun x y : list F64 => length y = length x) t t) by (repeat constructor).
  assert (Su : ~ same_structure (fun x y : list F64 => length y = length x) t u).
  { intro H. inversion H as [|? ? ? HF]; subst. inversion HF as [|? ? ? ? _ HF']; subst. inversion HF' as [|? ? ? ? HL _]; subst.
    inversion HL as [? ? L|]; subst. discriminate L. }
  split; [exact St|]. split; [exact Su|]. split; [apply H1; exact Su|].
  split; [apply H2|split; [apply H2|split; [apply H3|apply H3]]].
  - intros [_ H]. inversion H as [|? ? ? HF]; subst. inversion HF as [|? ? ? ? HL _]; subst. inversion HL as [? ? L|]; subst. discriminate L.
  - split; repeat constructor.
  - split; [exact St|]. constructor. repeat constructor; intros l x E Hx; try discriminate E. injection E as <-. destruct Hx as [<-|[]]. reflexivity.
  - intros [_ H]. inversion H as [? ? K|]; subst. specialize (K [true] [nofQ 1; nofQ 2] eq_refl (or_introl eq_refl)). discriminate K.
Qed.

(** Arithmetic on two trees of blocks, any arithmetic: it returns iff the structures
    agree and every pair of blocks has the same number of rows, with rows of the same
    lengths, and raises a ValueError otherwise. *)
Lemma C67_block_errors_pf :
  forall (N : Num) op (a b : tree (list (list N))),
    let ok := same_structure (fun x y : list (list N) => map (@length N) y = map (@length N) x) a b in
    (ok -> exists r, block_omega2 op a b = Ret r) /\ (~ ok -> block_omega2 op a b = Raise ValueError).
Proof.
  intros N op a b ok.
  assert (F : fine ok (block_omega2 op a b)).
  { unfold ok. eapply fine_iff; [apply prefix_same|]. apply map2_fine. intros x [y|tag us]; cbv beta.
    - assert (E : same_shape x y = true <-> map (@length N) y = map (@length N) x).
      { unfold same_shape. revert y. induction x as [|r x IH]; intros [|s y]; cbn; try (split; [reflexivity|reflexivity]); try (split; discriminate).
        rewrite !andb_true_iff, !Nat.eqb_eq. specialize (IH y). rewrite !andb_true_iff, !Nat.eqb_eq in IH. split.
        - intros [L K]. destruct K as [E K]. f_equal; [congruence|]. apply IH. auto.
        - intro H. injection H as H1 H2. apply IH in H2. destruct H2 as [L K]. auto. }
      destruct (same_shape x y); [left|right].
      + split; [exists y; split; [reflexivity|apply E; reflexivity]|eauto].
      + split; [|reflexivity]. intros (y' & E' & K). injection E' as <-. apply E in K. discriminate K.
    - right. split; [intros (y' & E & K); discriminate E|reflexivity]. }
  destruct F as [[H1 H2]|[H1 H2]]; split; intro H; tauto.
Qed.
(** Two blocks with the same number of rows and rows of other lengths. *)
Lemma C67_block_errors_ex_pf :
  let x : list (list F64) := [[nofQ 1; nofQ 2]; [nofQ 3]] in
  let y : list (list F64) := [[nofQ 1; nofQ 2]; [nofQ 3; nofQ 4]] in
  (exists r, block_omega2 nadd (Leaf x) (Leaf x) = Ret r) /\ block_omega2 nadd (Leaf x) (Leaf y) = Raise ValueError.
Proof.
  intros x y. split; apply C67_block_errors_pf; [constructor; reflexivity|]. intro H. inversion H as [? ? L|]; subst. discriminate L.
Qed.
