(** Tree helpers (C52). *)

From Coq Require Import String List Bool Arith Lia QArith.
From Verif Require Import Num NumFacts NumF64 NumF64_facts Vec Results PyTree Spec_PyTree.
Import ListNotations.
Local Open Scope nat_scope.

Lemma tree_ind_nested : forall (A : Type) (P : tree A -> Prop),
  (forall a, P (Leaf a)) -> (forall tag ts, Forall P ts -> P (Node tag ts)) -> forall t, P t.
Proof.
  intros A P HL HN. fix IH 1. intros [a|tag ts]; [apply HL|]. apply HN. induction ts as [|t ts IHts]; constructor; [apply IH|exact IHts].
Qed.

(** ** Inversion of the prefix maps *)
Lemma map2_node : forall A B C (f : A -> tree B -> outcome (tree C)) tag ts u r,
  tree_map2 f (Node tag ts) u = Ret r ->
  exists us rs, u = Node tag us /\ r = Node tag rs /\ length us = length ts /\ length rs = length ts /\
    forall i t, nth_error ts i = Some t -> exists u' r', nth_error us i = Some u' /\ nth_error rs i = Some r' /\ tree_map2 f t u' = Ret r'.
Proof.
  intros A B C f tag ts [b|tag' us] r H; [discriminate H|]. cbn in H. destruct (String.eqb_spec tag tag') as [<-|]; [|discriminate H].
  match type of H with obind ?g _ = _ => destruct g as [rs| |] eqn:E; try discriminate H end. cbn in H. injection H as <-.
  exists us, rs. split; [reflexivity|]. split; [reflexivity|]. revert us rs E. induction ts as [|t ts IH]; intros [|u us] rs E; try discriminate E.
  - injection E as <-. repeat split. intros [|i] t H; discriminate H.
  - cbn in E. destruct (tree_map2 f t u) as [c| |] eqn:E1; try discriminate E. cbn in E.
    match type of E with obind ?g _ = _ => destruct g as [cs| |] eqn:E2; try discriminate E end. injection E as <-.
    destruct (IH us cs E2) as (L1 & L2 & K). cbn. split; [congruence|]. split; [congruence|]. intros [|i] t' H; cbn in H |- *.
    + injection H as <-. eauto.
    + apply K. exact H.
Qed.
Lemma map3_node : forall A B D C (f : A -> tree B -> tree D -> outcome (tree C)) tag ts u v r,
  tree_map3 f (Node tag ts) u v = Ret r ->
  exists us vs rs, u = Node tag us /\ v = Node tag vs /\ r = Node tag rs /\ length us = length ts /\ length vs = length ts /\ length rs = length ts /\
    forall i t, nth_error ts i = Some t -> exists u' v' r', nth_error us i = Some u' /\ nth_error vs i = Some v' /\ nth_error rs i = Some r' /\ tree_map3 f t u' v' = Ret r'.
Proof.
  intros A B D C f tag ts [b|tag' us] [d|tag'' vs] r H; try discriminate H. cbn in H.
  destruct (String.eqb_spec tag tag') as [<-|]; [|discriminate H]. destruct (String.eqb_spec tag tag'') as [<-|]; [|discriminate H]. cbn in H.
  match type of H with obind ?g _ = _ => destruct g as [rs| |] eqn:E; try discriminate H end. cbn in H. injection H as <-.
  exists us, vs, rs. do 3 (split; [reflexivity|]). revert us vs rs E. induction ts as [|t ts IH]; intros [|u us] [|v vs] rs E; try discriminate E.
  - injection E as <-. repeat split. intros [|i] t H; discriminate H.
  - cbn in E. destruct (tree_map3 f t u v) as [c| |] eqn:E1; try discriminate E. cbn in E.
    match type of E with obind ?g _ = _ => destruct g as [cs| |] eqn:E2; try discriminate E end. injection E as <-.
    destruct (IH us vs cs E2) as (L1 & L2 & L3 & K). cbn. do 3 (split; [congruence|]). intros [|i] t' H; cbn in H |- *.
    + injection H as <-. eauto 7.
    + apply K. exact H.
Qed.

Lemma forall2_nth : forall A B (P : A -> B -> Prop) l l', length l = length l' ->
  (forall i a, nth_error l i = Some a -> exists b, nth_error l' i = Some b /\ P a b) -> Forall2 P l l'.
Proof.
  induction l as [|a l IH]; intros [|b l'] L H; try discriminate L; constructor.
  - destruct (H 0 a eq_refl) as (b' & E & HP). injection E as <-. exact HP.
  - apply IH; [cbn in L; congruence|]. intros i a' Ha. exact (H (S i) a' Ha).
Qed.

(** ** tree_where *)
Section Where.
  Context {N : Num}.
  Let inner (p : operand bool) : list N -> tree (list N) -> outcome (tree (list N)) :=
    fun ti fi => match fi with
                 | Leaf fi => obind (leaf_where p ti fi) (fun z => Ret (Leaf z))
                 | Node _ _ => Raise ValueError
                 end.
  Definition picked (p : operand bool) (x y z : list N) : Prop :=
    length y = length x /\ length z = length x /\
    forall i a, nth_error x i = Some a -> exists b c, entry p i = Some b /\ nth_error y i = Some c /\ nth_error z i = Some (if b then a else c).

  Lemma leaf_where_picked : forall p x y z, leaf_where p x y = Ret z -> picked p x y z.
  Proof.
    intros p x y z H. unfold leaf_where in H. destruct (Nat.eqb_spec (length x) (length y)) as [L|]; [|discriminate H].
    destruct (broadcast (length x) p) as [bs|] eqn:E; [|discriminate H]. injection H as <-.
    assert (Lb : length bs = length x /\ forall i, i < length x -> nth_error bs i = entry p i).
    { destruct p as [b|l]; cbn in E.
      - injection E as <-. split; [apply repeat_length|]. intros i Hi. cbn. apply nth_error_repeat. exact Hi.
      - destruct (Nat.eqb_spec (length l) (length x)); [|discriminate E]. injection E as <-. auto. }
    destruct Lb as [Lb Eb]. split; [auto|]. clear E.
    assert (G : length (vmap3 (fun (b : bool) (a c : N) => if b then a else c) bs x y) = length x /\
      forall i a, nth_error x i = Some a -> exists b c, nth_error bs i = Some b /\ nth_error y i = Some c /\
        nth_error (vmap3 (fun (b : bool) (a c : N) => if b then a else c) bs x y) i = Some (if b then a else c)).
    { clear Eb. revert bs y Lb L. induction x as [|a x IH]; intros [|b bs] [|c y] Lb L; try discriminate; cbn.
      - split; [reflexivity|]. intros [|i] ? H; discriminate H.
      - destruct (IH bs y ltac:(cbn in Lb; congruence) ltac:(cbn in L; congruence)) as [G1 G2]. split; [rewrite G1; reflexivity|].
        intros [|i] a' H; cbn in H |- *; [injection H as <-; eauto|apply G2; exact H]. }
    destruct G as [G1 G2]. split; [exact G1|]. intros i a Ha. destruct (G2 i a Ha) as (b & c & E1 & E2 & E3).
    exists b, c. rewrite <- Eb; [auto|]. apply nth_error_Some. rewrite Ha. discriminate.
  Qed.

  Lemma inner_paths : forall p t f r, tree_map2 (inner p) t f = Ret r ->
    same_structure (fun x z : list N => length z = length x) t r /\
    forall q x, at_path q t = Some (Leaf x) -> exists y z, at_path q f = Some (Leaf y) /\ at_path q r = Some (Leaf z) /\ picked p x y z.
  Proof.
    intro p. induction t as [x|tag ts IH] using tree_ind_nested; intros f r H.
    - cbn in H. destruct f as [y|]; [|discriminate H]. cbn in H. destruct (leaf_where p x y) as [z| |] eqn:E; try discriminate H.
      cbn in H. injection H as <-. pose proof (leaf_where_picked p x y z E) as PK. split; [constructor; apply PK|].
      intros [|i q] x' Hq; [|discriminate Hq]. injection Hq as <-. exists y, z. cbn. auto.
    - destruct (map2_node _ _ _ _ _ _ _ _ H) as (us & rs & -> & -> & L1 & L2 & K). rewrite Forall_forall in IH. split.
      + constructor. apply forall2_nth; [auto|]. intros i t Ht. destruct (K i t Ht) as (u' & r' & _ & E2 & E3).
        exists r'. split; [exact E2|]. apply (IH t (nth_error_In _ _ Ht) u' r' E3).
      + intros [|i q] x Hq; [discriminate Hq|]. cbn in Hq |- *. destruct (nth_error ts i) as [t|] eqn:Ht; [|discriminate Hq].
        destruct (K i t Ht) as (u' & r' & E1 & E2 & E3). rewrite E1, E2. apply (IH t (nth_error_In _ _ Ht) u' r' E3). exact Hq.
  Qed.

  Lemma where_paths : forall pred t f r, tree_where pred t f = Ret r ->
    same_structure (fun x z : list N => length z = length x) t r /\
    forall q x, at_path q t = Some (Leaf x) ->
      exists q1 q2 p y z, q = q1 ++ q2 /\ at_path q1 pred = Some (Leaf p) /\ at_path q f = Some (Leaf y) /\ at_path q r = Some (Leaf z) /\ picked p x y z.
  Proof.
    induction pred as [p|tag ps IH] using tree_ind_nested; intros t f r H.
    - cbn in H. destruct (inner_paths p t f r H) as [S P]. split; [exact S|]. intros q x Hq.
      destruct (P q x Hq) as (y & z & E1 & E2 & E3). exists [], q, p, y, z. auto.
    - unfold tree_where in H. destruct (map3_node _ _ _ _ _ _ _ _ _ _ H) as (ts & fs & rs & -> & -> & -> & L1 & L2 & L3 & K). rewrite Forall_forall in IH.
      assert (K' : forall i t, nth_error ts i = Some t -> exists p f' r', nth_error ps i = Some p /\ nth_error fs i = Some f' /\ nth_error rs i = Some r' /\ tree_where p t f' = Ret r').
      { intros i t Ht. destruct (nth_error ps i) as [p|] eqn:Hp.
        - destruct (K i p Hp) as (u' & v' & r' & E1 & E2 & E3 & E4). rewrite Ht in E1. injection E1 as <-. exists p, v', r'. auto.
        - apply nth_error_None in Hp. assert (i < length ts) by (apply nth_error_Some; congruence). lia. }
      split.
      + constructor. apply forall2_nth; [congruence|]. intros i t Ht. destruct (K' i t Ht) as (p & f' & r' & Ep & _ & E2 & E3).
        exists r'. split; [exact E2|]. apply (IH p (nth_error_In _ _ Ep) t f' r' E3).
      + intros [|i q] x Hq; [discriminate Hq|]. cbn in Hq |- *. destruct (nth_error ts i) as [t|] eqn:Ht; [|discriminate Hq].
        destruct (K' i t Ht) as (p & f' & r' & Ep & Ef & Er & E3).
        destruct (proj2 (IH p (nth_error_In _ _ Ep) t f' r' E3) q x Hq) as (q1 & q2 & p' & y & z & -> & F1 & F2 & F3 & F4).
        exists (i :: q1), q2, p', y, z. rewrite Ef, Er. cbn. rewrite Ep. auto.
  Qed.
End Where.

(** tree_where: when it returns, the result has the structure of `true`; at every leaf
    of `true` there is a leaf of `pred` above it, the corresponding leaf of `false`
    has the same size, and every entry is `true`'s or `false`'s according to that leaf
    of `pred`. Any arithmetic, any trees. *)
Lemma C52_where_pf :
  forall (N : Num) pred (t f r : tree (list N)), tree_where pred t f = Ret r ->
    same_structure (fun x z : list N => length z = length x) t r /\
    forall q x, at_path q t = Some (Leaf x) ->
      exists q1 q2 p y z, q = q1 ++ q2 /\ at_path q1 pred = Some (Leaf p) /\
        at_path q f = Some (Leaf y) /\ at_path q r = Some (Leaf z) /\ length y = length x /\
        forall i a, nth_error x i = Some a -> exists b c,
          entry p i = Some b /\ nth_error y i = Some c /\ nth_error z i = Some (if b then a else c).
Proof.
  intros N pred t f r H. destruct (where_paths pred t f r H) as [S P]. split; [exact S|].
  intros q x Hq. destruct (P q x Hq) as (q1 & q2 & p & y & z & E1 & E2 & E3 & E4 & E5 & _ & E6). exists q1, q2, p, y, z. auto 7.
Qed.

Lemma f2_length : forall A B (P : A -> B -> Prop) l l', Forall2 P l l' -> length l = length l'.
Proof. intros A B P l l' H. induction H; cbn; congruence. Qed.
(** *** when it returns *)
Lemma map2_node_ret : forall A B C (f : A -> tree B -> outcome (tree C)) tag ts us,
  Forall2 (fun t u => exists r, tree_map2 f t u = Ret r) ts us -> exists r, tree_map2 f (Node tag ts) (Node tag us) = Ret r.
Proof.
  intros A B C f tag ts us H. cbn. rewrite String.eqb_refl.
  match goal with |- exists r, obind ?g _ = _ => assert (G : exists rs, g = Ret rs) end.
  { induction H as [|t u ts us [r E] H [rs IH]]; [eexists; reflexivity|]. cbn. rewrite E. cbn. rewrite IH. eexists; reflexivity. }
  destruct G as [rs ->]. eexists; reflexivity.
Qed.
Lemma map3_node_ret : forall A B D C (f : A -> tree B -> tree D -> outcome (tree C)) tag ts us vs, length vs = length us ->
  (forall i t u v, nth_error ts i = Some t -> nth_error us i = Some u -> nth_error vs i = Some v -> exists r, tree_map3 f t u v = Ret r) ->
  length us = length ts -> exists r, tree_map3 f (Node tag ts) (Node tag us) (Node tag vs) = Ret r.
Proof.
  intros A B D C f tag ts us vs Lv H Lu. cbn. rewrite String.eqb_refl. cbn.
  match goal with |- exists r, obind ?g _ = _ => assert (G : exists rs, g = Ret rs) end.
  { revert us vs Lv Lu H. induction ts as [|t ts IH]; intros [|u us] [|v vs] Lv Lu H; try discriminate; [eexists; reflexivity|].
    cbn. destruct (H 0 t u v eq_refl eq_refl eq_refl) as [r E]. rewrite E. cbn.
    destruct (IH us vs ltac:(cbn in Lv; congruence) ltac:(cbn in Lu; congruence) (fun i => H (S i))) as [rs E']. rewrite E'. eexists; reflexivity. }
  destruct G as [rs ->]. eexists; reflexivity.
Qed.

Lemma same_ind : forall A B (rel : A -> B -> Prop) (P : tree A -> tree B -> Prop),
  (forall a b, rel a b -> P (Leaf a) (Leaf b)) ->
  (forall tag ts us, Forall2 (same_structure rel) ts us -> Forall2 P ts us -> P (Node tag ts) (Node tag us)) ->
  forall t u, same_structure rel t u -> P t u.
Proof.
  intros A B rel P HL HN. induction t as [a|tag ts IH] using tree_ind_nested; intros u H; inversion H; subst.
  - apply HL. assumption.
  - apply HN; [assumption|]. clear H HN. match goal with H : Forall2 _ ts us |- _ => revert H end. intro H. induction H as [|t u ts us H1 H2 IHF]; constructor.
    + exact (Forall_inv IH u H1).
    + apply IHF. exact (Forall_inv_tail IH).
Qed.

(** tree_where returns whenever `true` and `false` have the same structure and sizes
    and `pred` is a prefix of them, with scalar leaves or leaves of the right size. *)
Lemma C52_where_returns_pf :
  forall (N : Num) pred (t f : tree (list N)),
    same_structure (fun x y : list N => length y = length x) t f ->
    prefix (fun p u => forall l x, p = Entries l -> In x (leaves u) -> length l = length x) pred t ->
    exists r, tree_where pred t f = Ret r.
Proof.
  intros N. induction pred as [p|tag ps IH] using tree_ind_nested; intros t f HS HP; inversion HP; subst.
  - cbn. match goal with H : forall l x, p = _ -> _ |- _ => rename H into HR end. clear HP. revert HR.
    pattern t, f. revert HS. revert t f. apply same_ind.
    + intros x y L HR. cbn. unfold leaf_where. rewrite L, Nat.eqb_refl.
      assert (B : exists bs, broadcast (length x) p = Some bs).
      { destruct p as [b|l]; cbn; [eauto|]. rewrite (HR l x eq_refl (or_introl eq_refl)), Nat.eqb_refl. eauto. }
      destruct B as [bs ->]. eexists; reflexivity.
    + intros tag ts us _ HF HR. apply map2_node_ret. clear -HF HR. revert HR. induction HF as [|t u ts us H HF IHF]; intro HR; constructor.
      * apply H. intros l x E Hx. apply (HR l x E). cbn. apply in_or_app. auto.
      * apply IHF. intros l x E Hx. apply (HR l x E). cbn. apply in_or_app. auto.
  - inversion HS; subst. unfold tree_where.
    match goal with H : Forall2 (same_structure _) _ _ |- _ => rename H into F1 end. match goal with H : Forall2 (prefix _) _ _ |- _ => rename H into F2 end.
    apply map3_node_ret; [exact (eq_sym (f2_length _ _ _ _ _ F1))| |exact (eq_sym (f2_length _ _ _ _ _ F2))].
    rewrite Forall_forall in IH. intros i p t' f' Ep Et Ef. apply (IH p (nth_error_In _ _ Ep)).
    + clear -F1 Et Ef. revert i Et Ef. induction F1 as [|a b l l' H F IHF]; intros [|i] Et Ef; try discriminate; cbn in *; [congruence|eauto].
    + clear -F2 Ep Et. revert i Ep Et. induction F2 as [|a b l l' H F IHF]; intros [|i] Ep Et; try discriminate; cbn in *; [congruence|eauto].
Qed.

(** A scalar predicate selects one of the two trees as a whole. *)
Lemma C52_where_scalar_pf :
  forall (N : Num) (b : bool) (t f : tree (list N)),
    same_structure (fun x y : list N => length y = length x) t f ->
    tree_where (Leaf (Scalar b)) t f = Ret (if b then t else f).
Proof.
  intros N b t f HS. cbn. pattern t, f. revert HS. revert t f. apply same_ind.
  - intros x y L. cbn. unfold leaf_where. rewrite L, Nat.eqb_refl. cbn. f_equal.
    assert (E : vmap3 (fun (b : bool) (a c : N) => if b then a else c) (repeat b (length x)) x y = if b then x else y).
    { clear -L. revert y L. induction x as [|a x IH]; intros [|c y] L; try discriminate; [destruct b; reflexivity|].
      cbn. rewrite IH by (cbn in L; congruence). destruct b; reflexivity. }
    rewrite E. destruct b; reflexivity.
  - intros tag ts us _ HF. cbn. rewrite String.eqb_refl.
    match goal with |- obind ?g _ = _ => assert (G : g = Ret (if b then ts else us)) end.
    { induction HF as [|t u ts us H HF IHF]; [destruct b; reflexivity|]. rewrite H. cbn. rewrite IHF. destruct b; reflexivity. }
    rewrite G. destruct b; reflexivity.
Qed.

(** ** The flat view used by the rest of the model *)
Lemma entries_node : forall (N : Num) tag (ts : list (tree (list N))), entries (Node tag ts) = concat (map entries ts).
Proof.
  intros N tag ts. unfold entries. cbn. induction ts as [|t ts IH]; [reflexivity|]. cbn. rewrite concat_app, IH. reflexivity.
Qed.
Lemma vmap2_app : forall A B C (f : A -> B -> C) a b a' b', length a = length b ->
  vmap2 f (a ++ a') (b ++ b') = vmap2 f a b ++ vmap2 f a' b'.
Proof. intros A B C f. induction a as [|x a IH]; intros [|y b] a' b' L; try discriminate; [reflexivity|]. cbn. rewrite IH by (cbn in L; congruence). reflexivity. Qed.
Lemma same_entries : forall (N : Num) (t u : tree (list N)), same_structure (fun x y : list N => length y = length x) t u -> length (entries u) = length (entries t).
Proof.
  intros N. apply same_ind.
  - intros a b L. unfold entries. cbn. rewrite !app_nil_r. exact L.
  - intros tag ts us _ HF. rewrite !entries_node. induction HF as [|t u ts us H HF IHF]; [reflexivity|]. cbn. rewrite !app_length, H, IHF. reflexivity.
Qed.

(** Arithmetic on trees (ω) and tree_where with a scalar predicate are the entrywise
    operations on the lists of entries; tree_allfinite is the test on that list. *)
Lemma C52_flat_pf :
  forall (N : Num),
    (forall op (a b r : tree (list N)), omega2 op a b = Ret r ->
       entries r = vmap2 op (entries a) (entries b) /\ length (entries b) = length (entries a)) /\
    (forall op (a b : tree (list N)), same_structure (fun x y : list N => length y = length x) a b -> exists r, omega2 op a b = Ret r) /\
    (forall p (t f r : tree (list N)), same_structure (fun x y : list N => length y = length x) t f ->
       tree_where (Leaf (Scalar p)) t f = Ret r -> entries r = vwhere p (entries t) (entries f)) /\
    (forall t : tree (list N), tree_allfinite t = vallfinite (entries t)).
Proof.
  intro N. split; [|split; [|split]].
  - intros op. induction a as [x|tag ts IH] using tree_ind_nested; intros b r H.
    + cbn in H. destruct b as [y|]; [|discriminate H]. destruct (Nat.eqb_spec (length x) (length y)) as [L|]; [|discriminate H].
      injection H as <-. unfold entries. cbn. rewrite !app_nil_r. auto.
    + destruct (map2_node _ _ _ _ _ _ _ _ H) as (us & rs & -> & -> & L1 & L2 & K). rewrite !entries_node. clear H.
      revert us rs L1 L2 K. induction ts as [|t ts IHts]; intros [|u us] [|r rs] L1 L2 K; try discriminate; [auto|].
      destruct (K 0 t eq_refl) as (u' & r' & E1 & E2 & E3). injection E1 as <-. injection E2 as <-.
      destruct (Forall_inv IH u r E3) as [F1 F2].
      destruct (IHts (Forall_inv_tail IH) us rs ltac:(cbn in L1; congruence) ltac:(cbn in L2; congruence) (fun i => K (S i))) as [G1 G2].
      cbn. rewrite F1, G1, vmap2_app by (symmetry; exact F2). rewrite !app_length, F2, G2. auto.
  - intros op. apply (same_ind _ _ _ (fun a b => exists r, omega2 op a b = Ret r)).
    + intros x y L. cbn. rewrite L, Nat.eqb_refl. eexists; reflexivity.
    + intros tag ts us _ HF. apply map2_node_ret. exact HF.
  - intros p t f r HS H. rewrite (C52_where_scalar_pf N p t f HS) in H. injection H as <-.
    pose proof (same_entries N t f HS) as L.
    assert (E : forall (x y : list N), length y = length x -> vwhere p x y = if p then x else y).
    { clear. induction x as [|a x IH]; intros [|c y] L; try discriminate; [destruct p; reflexivity|].
      unfold vwhere in *. cbn. rewrite IH by (cbn in L; congruence). destruct p; reflexivity. }
    rewrite E by exact L. destruct p; reflexivity.
  - intro t. unfold tree_allfinite.
    assert (E : forall l b, fold_left andb l b = b && forallb (fun x => x) l).
    { induction l as [|x l IH]; intro b; cbn; [rewrite andb_true_r; reflexivity|]. rewrite IH, andb_assoc. reflexivity. }
    rewrite E. cbn. unfold vallfinite. induction t as [x|tag ts IH] using tree_ind_nested.
    + unfold entries. cbn. rewrite app_nil_r, andb_true_r. reflexivity.
    + rewrite entries_node. cbn. rewrite map_map. induction IH as [|t ts H HF IHF]; [reflexivity|]. cbn.
      rewrite !forallb_app. f_equal; assumption.
Qed.

(** ** tree_clip *)
Lemma leaf_clip_nth : forall (N : Num) (x : list N) l u z, leaf_clip x l u = Ret z ->
  length z = length x /\ forall i a, nth_error x i = Some a -> exists b c, entry l i = Some b /\ entry u i = Some c /\ nth_error z i = Some (nclip a b c).
Proof.
  intros N x l u z H. unfold leaf_clip in H.
  assert (B : forall o bs, broadcast (A:=N) (length x) o = Some bs -> length bs = length x /\ forall i, i < length x -> nth_error bs i = entry o i).
  { intros [b|e] bs E; cbn in E.
    - injection E as <-. split; [apply repeat_length|]. intros i Hi. cbn. apply nth_error_repeat. exact Hi.
    - destruct (Nat.eqb_spec (length e) (length x)); [|discriminate E]. injection E as <-. auto. }
  destruct (broadcast (length x) l) as [ls|] eqn:El; [|discriminate H]. destruct (broadcast (length x) u) as [us|] eqn:Eu; [|discriminate H].
  destruct (B l ls El) as [L1 E1]. destruct (B u us Eu) as [L2 E2]. injection H as <-.
  assert (G : length (vclip x ls us) = length x /\ forall i a, nth_error x i = Some a -> exists b c, nth_error ls i = Some b /\ nth_error us i = Some c /\ nth_error (vclip x ls us) i = Some (nclip a b c)).
  { clear -L1 L2. revert ls us L1 L2. unfold vclip. induction x as [|a x IH]; intros [|b ls] [|c us] L1 L2; try discriminate; cbn.
    - split; [reflexivity|]. intros [|i] ? H; discriminate H.
    - destruct (IH ls us ltac:(cbn in L1; congruence) ltac:(cbn in L2; congruence)) as [G1 G2]. split; [rewrite G1; reflexivity|].
      intros [|i] a' H; cbn in H |- *; [injection H as <-; eauto|apply G2; exact H]. }
  destruct G as [G1 G2]. split; [exact G1|]. intros i a Ha. destruct (G2 i a Ha) as (b & c & F1 & F2 & F3).
  assert (Hi : i < length x) by (apply nth_error_Some; rewrite Ha; discriminate).
  exists b, c. rewrite <- E1, <- E2 by exact Hi. auto.
Qed.
Lemma clip_fix : forall (N : Num) (L : OrdLaws N) (x l u : N), nleb l x = true -> nleb x u = true -> nclip x l u = x.
Proof.
  intros N L x l u H1 H2.
  assert (Hl : neqb l l = true /\ neqb x x = true).
  { rewrite (ol_le N L), orb_true_iff in H1. destruct H1 as [H|H].
    - split; [apply (ol_lt_nan_l N L _ _ H)|apply (ol_lt_nan_r N L _ _ H)].
    - split; [apply (ol_eq_nan_l N L _ _ H)|apply (ol_eq_nan_l N L x l), (ol_eq_sym N L), H]. }
  assert (Hu : neqb u u = true).
  { rewrite (ol_le N L), orb_true_iff in H2. destruct H2 as [H|H];
      [apply (ol_lt_nan_r N L _ _ H)|apply (ol_eq_nan_l N L u x), (ol_eq_sym N L), H]. }
  destruct Hl as [Hl Hx]. unfold nclip.
  assert (E : nmax x l = x).
  { unfold nmax. rewrite (proj2 (nisnan_false x) Hx), (proj2 (nisnan_false l) Hl), (le_not_lt L l x H1). reflexivity. }
  rewrite E. unfold nmin. rewrite (proj2 (nisnan_false x) Hx), (proj2 (nisnan_false u) Hu), (le_not_lt L x u H2). reflexivity.
Qed.
Lemma clip_crossed : forall (N : Num) (L : OrdLaws N) (x l u : N), neqb x x = true -> nltb u l = true -> nclip x l u = u.
Proof.
  intros N L x l u Hx H. pose proof (ol_lt_nan_l N L _ _ H) as Hu. pose proof (ol_lt_nan_r N L _ _ H) as Hl. unfold nclip.
  pose proof (nmax_ge_r L x l Hx Hl) as M. assert (Hm : neqb (nmax x l) (nmax x l) = true) by (destruct (nmax_case x l) as [->| ->]; auto).
  unfold nmin. rewrite (proj2 (nisnan_false _) Hm), (proj2 (nisnan_false u) Hu), (lt_le_trans L _ _ _ H M). reflexivity.
Qed.

(** tree_clip: when it returns, the structure is kept, and every entry that is a
    number ends between its bounds when these are in order, is left alone when it is
    already between them, and becomes the upper bound when the bounds are crossed. *)
Lemma C52_clip_pf :
  forall (N : Num) (L : OrdLaws N) (t : tree (list N)) lower upper r, tree_clip t lower upper = Ret r ->
    same_structure (fun x z : list N => length z = length x) t r /\
    forall q x i a, at_path q t = Some (Leaf x) -> nth_error x i = Some a -> neqb a a = true ->
      exists lo up z l u c, at_path q lower = Some (Leaf lo) /\ at_path q upper = Some (Leaf up) /\ at_path q r = Some (Leaf z) /\
        entry lo i = Some l /\ entry up i = Some u /\ nth_error z i = Some c /\
        (nleb l u = true -> nleb l c = true /\ nleb c u = true) /\
        (nleb l a = true -> nleb a u = true -> c = a) /\
        (nltb u l = true -> c = u).
Proof.
  intros N L. induction t as [x|tag ts IH] using tree_ind_nested; intros lower upper r H.
  - cbn in H. destruct lower as [lo|]; [|discriminate H]. destruct upper as [up|]; [|discriminate H].
    destruct (leaf_clip x lo up) as [z| |] eqn:E; try discriminate H. injection H as <-.
    destruct (leaf_clip_nth N x lo up z E) as [G1 G2]. split; [constructor; exact G1|].
    intros [|j q] x' i a Hq Ha Hn; [|discriminate Hq]. injection Hq as <-.
    destruct (G2 i a Ha) as (l & u & E1 & E2 & E3). exists lo, up, z, l, u, (nclip a l u). cbn.
    repeat (split; [auto; fail|]).
    split; [intro Hlu; apply (clip_in L); assumption|]. split; [apply (clip_fix N L)|apply (clip_crossed N L); exact Hn].
  - destruct (map3_node _ _ _ _ _ _ _ _ _ _ H) as (ls & us & rs & -> & -> & -> & L1 & L2 & L3 & K). rewrite Forall_forall in IH. split.
    + constructor. apply forall2_nth; [auto|]. intros i t Ht. destruct (K i t Ht) as (l' & u' & r' & _ & _ & E2 & E3).
      exists r'. split; [exact E2|]. apply (IH t (nth_error_In _ _ Ht) l' u' r' E3).
    + intros [|j q] x i a Hq Ha Hn; [discriminate Hq|]. cbn in Hq |- *. destruct (nth_error ts j) as [t|] eqn:Ht; [|discriminate Hq].
      destruct (K j t Ht) as (l' & u' & r' & E1 & E2 & E3 & E4). rewrite E1, E2, E3.
      exact (proj2 (IH t (nth_error_In _ _ Ht) l' u' r' E4) q x i a Hq Ha Hn).
Qed.

(** ** tree_allfinite *)
Lemma leaves_path : forall A (t : tree A) x, In x (leaves t) <-> exists q, at_path q t = Some (Leaf x).
Proof.
  intros A. induction t as [a|tag ts IH] using tree_ind_nested; intro x.
  - cbn. split; [intros [<-|[]]; exists []; reflexivity|]. intros [[|i q] H]; cbn in H; [injection H as <-; auto|discriminate H].
  - cbn. rewrite in_concat. rewrite Forall_forall in IH. split.
    + intros (l & Hl & Hx). apply in_map_iff in Hl. destruct Hl as (t & <- & Ht). apply (IH t Ht) in Hx. destruct Hx as [q Hq].
      apply In_nth_error in Ht. destruct Ht as [i Hi]. exists (i :: q). cbn. rewrite Hi. exact Hq.
    + intros [[|i q] H]; cbn in H; [discriminate H|]. destruct (nth_error ts i) as [t|] eqn:Hi; [|discriminate H].
      exists (leaves t). split; [apply in_map; exact (nth_error_In _ _ Hi)|]. apply (IH t (nth_error_In _ _ Hi)). eauto.
Qed.
(** tree_allfinite holds iff every entry of every leaf is finite. *)
Lemma C52_allfinite_pf :
  forall (N : Num) (t : tree (list N)),
    tree_allfinite t = true <->
    forall q x i a, at_path q t = Some (Leaf x) -> nth_error x i = Some a -> nisfin a = true.
Proof.
  intros N t. rewrite (proj2 (proj2 (proj2 (C52_flat_pf N)))). unfold vallfinite, entries. rewrite forallb_forall. split.
  - intros H q x i a Hq Ha. apply H. apply in_concat. exists x. split; [apply leaves_path; eauto|exact (nth_error_In _ _ Ha)].
  - intros H a Ha. apply in_concat in Ha. destruct Ha as (x & Hx & Ha). apply leaves_path in Hx. destruct Hx as [q Hq].
    apply In_nth_error in Ha. destruct Ha as [i Hi]. exact (H q x i a Hq Hi).
Qed.

(** ** tree_full_like *)
(** It returns iff static leaves are allowed or absent; arrays become arrays of the
    same size filled with the value, static leaves are kept. *)
Lemma C52_full_like_pf :
  forall (N : Num) (S : Type) (struct : tree (struct_leaf S)) (x : N) (allow : bool),
    (forall r, tree_full_like struct x allow = Ret r ->
       same_structure (fun l z => match l with AnArray n => exists a, z = Filled a /\ length a = n /\ Forall (fun e => e = x) a
                                        | Static s => allow = true /\ z = Kept s end) struct r) /\
    ((exists r, tree_full_like struct x allow = Ret r) <-> (allow = true \/ forall q s, at_path q struct <> Some (Leaf (Static s)))).
Proof.
  intros N S struct x allow.
  assert (G1 : forall r, tree_full_like struct x allow = Ret r ->
       same_structure (fun l z => match l with AnArray n => exists a, z = Filled a /\ length a = n /\ Forall (fun e => e = x) a
                                        | Static s => allow = true /\ z = Kept s end) struct r).
  { unfold tree_full_like. generalize struct at 2 as u. induction struct as [l|tag ts IH] using tree_ind_nested; intros u r H.
    - cbn in H. destruct l as [n|s].
      + injection H as <-. constructor. exists (vfull n x). split; [reflexivity|]. split; [apply repeat_length|].
        apply Forall_forall. intros e He. exact (repeat_spec _ _ _ He).
      + destruct allow; [|discriminate H]. injection H as <-. constructor. auto.
    - destruct (map2_node _ _ _ _ _ _ _ _ H) as (us & rs & -> & -> & L1 & L2 & K). rewrite Forall_forall in IH.
      constructor. apply forall2_nth; [auto|]. intros i t Ht. destruct (K i t Ht) as (u' & r' & _ & E2 & E3).
      exists r'. split; [exact E2|]. exact (IH t (nth_error_In _ _ Ht) u' r' E3). }
  split; [exact G1|]. split.
  - intros [r Hr]. destruct allow; [auto|right]. intros q s Hq. specialize (G1 r Hr). clear Hr. revert q Hq. pattern struct, r. revert G1. revert struct r. apply same_ind.
    + intros l z H [|i q] Hq; [|discriminate Hq]. injection Hq as ->. destruct H as [H _]. discriminate H.
    + intros tag ts us _ HF [|i q] Hq; cbn in Hq; [discriminate Hq|]. destruct (nth_error ts i) as [t|] eqn:Ht; [|discriminate Hq].
      clear -HF Ht Hq. revert i Ht. induction HF as [|t0 u ts us H HF IHF]; intros [|i] Ht; try discriminate; cbn in Ht; [injection Ht as ->; exact (H q Hq)|exact (IHF i Ht)].
  - intro H. unfold tree_full_like. clear G1.
    assert (G : forall u : tree (struct_leaf S), same_structure (fun _ _ => True) struct u -> exists r : tree (full_leaf (N:=N) S),
      tree_map2 (fun l _ => match l with AnArray n => Ret (Leaf (Filled (vfull n x))) | Static s => if allow then Ret (Leaf (Kept s)) else Raise ValueError end) struct u = Ret r).
    { intros u HS. revert H. pattern struct, u. revert HS. revert struct u. apply (same_ind (struct_leaf S) (struct_leaf S)).
      - intros [n|s] b _ H; cbn; [eauto|]. destruct H as [->|H]; [eauto|]. destruct (H [] s eq_refl).
      - intros tag ts us _ HF H. apply map2_node_ret. revert H. clear -HF. intro H.
        assert (H' : allow = true \/ forall i q t s, nth_error ts i = Some t -> at_path q t <> Some (Leaf (Static s))).
        { destruct H as [H|H]; [auto|right]. intros i q t s Ht Hq. apply (H (i :: q) s). cbn. rewrite Ht. exact Hq. }
        clear H. induction HF as [|t u ts us HH HF IHF]; constructor.
        + apply HH. destruct H' as [H'|H']; [auto|right]. intros q s. exact (H' 0 q t s eq_refl).
        + apply IHF. destruct H' as [H'|H']; [auto|right]. intros i q t' s Ht. exact (H' (Datatypes.S i) q t' s Ht). }
    apply G. clear. induction struct as [l|tag ts IH] using tree_ind_nested; constructor; [exact I|].
    induction IH; constructor; assumption.
Qed.

(** ** tree_min, tree_max *)
Lemma fold_min : forall (N : Num) (L : OrdLaws N) (v : list N) x, neqb x x = true -> Forall (fun a => neqb a a = true) v ->
  (In (fold_left nmin v x) (x :: v)) /\ (forall a, In a (x :: v) -> nleb (fold_left nmin v x) a = true).
Proof.
  intros N L. induction v as [|b v IH]; intros x Hx HF; cbn [fold_left].
  - split; [left; reflexivity|]. intros a [<-|[]]. apply (le_refl L). exact Hx.
  - pose proof (Forall_inv HF) as Hb. cbn in Hb.
    assert (Hm : neqb (nmin x b) (nmin x b) = true) by (destruct (nmin_case x b) as [->| ->]; auto).
    destruct (IH (nmin x b) Hm (Forall_inv_tail HF)) as [I1 I2]. split.
    + destruct I1 as [I1|I1]; [|right; right; exact I1]. rewrite <- I1. destruct (nmin_case x b) as [->| ->]; [left|right; left]; reflexivity.
    + intros a Ha. assert (T : forall m c d : N, nleb m c = true -> nleb c d = true -> nleb m d = true).
      { intros m c d H1 H2. rewrite (ol_le N L) in H1. apply orb_true_iff in H1. rewrite (ol_le N L). apply orb_true_iff.
        rewrite (ol_le N L) in H2. apply orb_true_iff in H2. destruct H1 as [H1|H1], H2 as [H2|H2].
        - left. exact (ol_trans N L _ _ _ H1 H2). - left. exact (ol_lt_eq N L _ _ _ H1 H2).
        - left. exact (ol_eq_lt N L _ _ _ H1 H2). - right. exact (ol_eq_trans N L _ _ _ H1 H2). }
      destruct Ha as [<-|[<-|Ha]].
      * apply (T _ (nmin x b)); [apply I2; left; reflexivity|apply (nmin_le_l L); assumption].
      * apply (T _ (nmin x b)); [apply I2; left; reflexivity|apply (nmin_le_r L); assumption].
      * apply I2. right. exact Ha.
Qed.
Lemma fold_nan : forall (N : Num) op (v : list N) x, (op = nmin (N:=N) \/ op = nmax (N:=N)) -> nisnan x = true \/ Exists (fun a => nisnan a = true) v ->
  nisnan (fold_left op v x) = true.
Proof.
  intros N op v x Hop. revert x. induction v as [|b v IH]; intros x H; cbn.
  - destruct H as [H|H]; [exact H|inversion H].
  - apply IH. destruct H as [H|H].
    + left. destruct Hop as [->| ->]; unfold nmin, nmax; rewrite H; exact H.
    + inversion H; subst; [|right; assumption]. left.
      destruct Hop as [->| ->]; unfold nmin, nmax; destruct (nisnan x) eqn:E; [exact E|rewrite H1; exact H1|exact E|rewrite H1; exact H1].
Qed.
Lemma fold_max : forall (N : Num) (L : OrdLaws N) (v : list N) x, neqb x x = true -> Forall (fun a => neqb a a = true) v ->
  (In (fold_left nmax v x) (x :: v)) /\ (forall a, In a (x :: v) -> nleb a (fold_left nmax v x) = true).
Proof.
  intros N L. induction v as [|b v IH]; intros x Hx HF; cbn [fold_left].
  - split; [left; reflexivity|]. intros a [<-|[]]. apply (le_refl L). exact Hx.
  - pose proof (Forall_inv HF) as Hb. cbn in Hb.
    assert (Hm : neqb (nmax x b) (nmax x b) = true) by (destruct (nmax_case x b) as [->| ->]; auto).
    destruct (IH (nmax x b) Hm (Forall_inv_tail HF)) as [I1 I2]. split.
    + destruct I1 as [I1|I1]; [|right; right; exact I1]. rewrite <- I1. destruct (nmax_case x b) as [->| ->]; [left|right; left]; reflexivity.
    + intros a Ha. assert (T : forall m c d : N, nleb m c = true -> nleb c d = true -> nleb m d = true).
      { intros m c d H1 H2. rewrite (ol_le N L) in H1. apply orb_true_iff in H1. rewrite (ol_le N L). apply orb_true_iff.
        rewrite (ol_le N L) in H2. apply orb_true_iff in H2. destruct H1 as [H1|H1], H2 as [H2|H2].
        - left. exact (ol_trans N L _ _ _ H1 H2). - left. exact (ol_lt_eq N L _ _ _ H1 H2).
        - left. exact (ol_eq_lt N L _ _ _ H1 H2). - right. exact (ol_eq_trans N L _ _ _ H1 H2). }
      destruct Ha as [<-|[<-|Ha]].
      * apply (T _ (nmax x b)); [apply (nmax_ge_l L); assumption|apply I2; left; reflexivity].
      * apply (T _ (nmax x b)); [apply (nmax_ge_r L); assumption|apply I2; left; reflexivity].
      * apply I2. right. exact Ha.
Qed.
(** tree_min and tree_max: an exception iff there is no entry; otherwise NaN if some
    entry is NaN, else an entry that is least (greatest). *)
Lemma C52_min_max_pf :
  forall (N : Num) (L : OrdLaws N) (t : tree (list N)),
    (entries t = [] -> tree_min t = Raise ValueError /\ tree_max t = Raise ValueError) /\
    (entries t <> [] -> exists lo hi, tree_min t = Ret lo /\ tree_max t = Ret hi /\
       (Exists (fun a => nisnan a = true) (entries t) -> nisnan lo = true /\ nisnan hi = true) /\
       (Forall (fun a => nisnan a = false) (entries t) ->
          In lo (entries t) /\ In hi (entries t) /\ Forall (fun a => nleb lo a = true /\ nleb a hi = true) (entries t))).
Proof.
  intros N L t. unfold tree_min, tree_max. destruct (entries t) as [|x v]; split; intro H; try contradiction; try discriminate H; [split; reflexivity|].
  cbn [arr_reduce]. eexists _, _. split; [reflexivity|]. split; [reflexivity|]. split.
  - intro HE. inversion HE; subst; split; apply fold_nan; auto.
  - intro HF. assert (HF' : Forall (fun a : N => neqb a a = true) (x :: v)) by (eapply Forall_impl; [|exact HF]; intros a Ha; apply nisnan_false; exact Ha).
    destruct (fold_min N L v x (Forall_inv HF') (Forall_inv_tail HF')) as [A1 A2].
    destruct (fold_max N L v x (Forall_inv HF') (Forall_inv_tail HF')) as [B1 B2].
    split; [exact A1|]. split; [exact B1|]. apply Forall_forall. intros a Ha. split; [apply A2|apply B2]; exact Ha.
Qed.

(** ** Examples *)
Definition ex_t : tree (list f64) := Node "dict(a,b)" [Leaf [f64_ofZ 1; f64_ofZ 2]; Node "tuple" [Leaf [f64_ofZ 3]; Leaf []]].
Definition ex_f : tree (list f64) := Node "dict(a,b)" [Leaf [f64_ofZ 5; f64_ofZ 6]; Node "tuple" [Leaf [f64_ofZ 7]; Leaf []]].
Example C52_where_ex_pf :
  tree_where (Node "dict(a,b)" [Leaf (Entries [true; false]); Leaf (Scalar false)]) ex_t ex_f =
    Ret (Node "dict(a,b)" [Leaf [f64_ofZ 1; f64_ofZ 6]; Node "tuple" [Leaf [f64_ofZ 7]; Leaf []]]) /\
  same_structure (fun x y : list f64 => length y = length x) ex_t ex_f /\
  prefix (fun p u => forall l x, p = Entries l -> In x (leaves u) -> length l = length x)
    (Node "dict(a,b)" [Leaf (Entries [true; false]); Leaf (Scalar false)]) ex_t.
Proof.
  split; [reflexivity|]. split; [repeat constructor|].
  constructor. constructor; [|constructor; [|constructor]]; constructor.
  - intros l x E [<-|[]]. injection E as <-. reflexivity.
  - intros l x E. discriminate E.
Qed.
Example C52_clip_ex_pf :
  exists r, tree_clip ex_t (Node "dict(a,b)" [Leaf (Scalar (f64_ofZ 0)); Node "tuple" [Leaf (Scalar (f64_ofZ 5)); Leaf (Entries [])]])
      (Node "dict(a,b)" [Leaf (Entries [f64_ofQ (1#2); f64_ofZ 9]); Node "tuple" [Leaf (Scalar (f64_ofZ 4)); Leaf (Scalar (f64_ofZ 1))]]) = Ret r /\
    forallb (fun p => neqb (n:=F64) (fst p) (snd p)) (combine (entries r) [f64_ofQ (1#2); f64_ofZ 2; f64_ofZ 4]) = true /\ length (entries r) = 3.
Proof. eexists. split; [reflexivity|]. split; vm_compute; reflexivity. Qed.
Example C52_full_like_ex_pf :
  tree_full_like (Node "tuple" [Leaf (AnArray 2); Leaf (Static tt)]) (f64_ofZ 1) true =
    Ret (Node "tuple" [Leaf (Filled [f64_ofZ 1; f64_ofZ 1]); Leaf (Kept tt)]) /\
  tree_full_like (Node "tuple" [Leaf (AnArray 2); Leaf (Static tt)]) (f64_ofZ 1) false = Raise ValueError.
Proof. split; reflexivity. Qed.
Example C52_min_max_ex_pf :
  entries ex_t = [f64_ofZ 1; f64_ofZ 2; f64_ofZ 3] /\ forallb (fun a => negb (nisnan (N:=F64) a)) (entries ex_t) = true /\ tree_allfinite ex_t = true.
Proof. split; [reflexivity|]. split; vm_compute; reflexivity. Qed.
