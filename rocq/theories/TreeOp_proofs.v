(** Operators on pytrees are their flattened matrices (C67). *)

From Coq Require Import String List Bool Arith Lia QArith Qreals Reals Lra.
From Verif Require Import Num NumFacts Vec Results PyTree Spec_PyTree PyTree_proofs Search QuasiNewton TreeOp Spec_TreeOp.
From Verif Require Import Spec_Vec VecFacts Spec_Lin LinFacts Spec_Search LinAlgFacts BFGS_proofs.
Import ListNotations.
Local Open Scope nat_scope.

Lemma flat_node : forall A tag tag' (ts : list (tree (list A))) ps,
  flat_matrix (Node tag ts) (Node tag' ps) = concat (vmap2 flat_matrix ts ps).
Proof.
  intros A tag tag'. cbn. induction ts as [|t ts IH]; intros [|p ps]; try reflexivity. cbn. f_equal. apply IH.
Qed.

Lemma prefix_ind2 : forall A B (rel : A -> tree B -> Prop) (P : tree A -> tree B -> Prop),
  (forall a u, rel a u -> P (Leaf a) u) ->
  (forall tag ts us, Forall2 (prefix rel) ts us -> Forall2 P ts us -> P (Node tag ts) (Node tag us)) ->
  forall t u, prefix rel t u -> P t u.
Proof.
  intros A B rel P HL HN. induction t as [a|tag ts IH] using tree_ind_nested; intros u H; inversion H; subst.
  - apply HL. assumption.
  - apply HN; [assumption|]. clear H HN. match goal with H : Forall2 _ ts us |- _ => revert H end. intro H.
    induction H as [|t u ts us H1 H2 IHF]; constructor.
    + exact (Forall_inv IH u H1).
    + apply IHF. exact (Forall_inv_tail IH).
Qed.

Lemma prefix_mono : forall A B (r1 r2 : A -> tree B -> Prop) t u, (forall a p, r1 a p -> r2 a p) -> prefix r1 t u -> prefix r2 t u.
Proof.
  intros A B r1 r2 t u HM. revert t u. apply prefix_ind2.
  - intros a u H. constructor. auto.
  - intros tag ts us _ HF. constructor. exact HF.
Qed.

Lemma prefix_in : forall A B (rel : A -> tree B -> Prop) t u, prefix rel t u ->
  prefix (fun a p => rel a p /\ In a (leaves t)) t u.
Proof.
  intros A B rel. apply prefix_ind2.
  - intros a u H. constructor. cbn. auto.
  - intros tag ts us _ HF. constructor. cbn.
    assert (G : forall L, (forall t a, In t ts -> In a (leaves t) -> In a L) ->
      Forall2 (prefix (fun a p => rel a p /\ In a L)) ts us).
    { intros L HL. induction HF as [|t u ts us H HF IHF]; constructor.
      - eapply prefix_mono; [|exact H]. cbn. intros a p [H1 H2]. split; [exact H1|]. apply (HL t a); cbn; auto.
      - apply IHF. intros t' a Ht Ha. apply (HL t' a); cbn; auto. }
    apply G. intros t a Ht Ha. apply in_concat. exists (leaves t). split; [apply in_map; exact Ht|exact Ha].
Qed.

(** A prefix map returns, with a property built up from the leaves. *)
Lemma map2_prefix : forall A B C (rel : A -> tree B -> Prop) (f : A -> tree B -> outcome (tree C)) (Q : tree A -> tree B -> tree C -> Prop),
  (forall a p, rel a p -> exists r, f a p = Ret r /\ Q (Leaf a) p r) ->
  (forall tag ts ps rs, length ps = length ts -> length rs = length ts ->
     (forall i t p r, nth_error ts i = Some t -> nth_error ps i = Some p -> nth_error rs i = Some r -> Q t p r) ->
     Q (Node tag ts) (Node tag ps) (Node tag rs)) ->
  forall t P, prefix rel t P -> exists r, tree_map2 f t P = Ret r /\ Q t P r.
Proof.
  intros A B C rel f Q HL HN. apply prefix_ind2; [exact HL|].
  intros tag ts us _ HF. cbn. rewrite String.eqb_refl.
  match goal with |- exists r, obind ?g _ = _ /\ _ => assert (G : exists rs, g = Ret rs /\ length us = length ts /\ length rs = length ts /\
     (forall i t p r, nth_error ts i = Some t -> nth_error us i = Some p -> nth_error rs i = Some r -> Q t p r)) end.
  { induction HF as [|t u ts us (r & E & HQ) HF (rs & E' & L1 & L2 & K)].
    - exists []. do 3 (split; [reflexivity|]). intros [|i] ? ? ? H; discriminate H.
    - rewrite E. cbn. rewrite E'. exists (r :: rs). split; [reflexivity|]. split; [cbn; congruence|]. split; [cbn; congruence|].
      intros [|i] t' p' r' H1 H2 H3; cbn in *; [congruence|eauto]. }
  destruct G as (rs & -> & L1 & L2 & K). cbn. eexists. split; [reflexivity|]. apply HN; assumption.
Qed.

Lemma map2_map1 : forall A A' B C (g : A -> A') (f : A' -> tree B -> outcome (tree C)) t P,
  tree_map2 f (tree_map1 g t) P = tree_map2 (fun a => f (g a)) t P.
Proof.
  intros A A' B C g f. induction t as [a|tag ts IH] using tree_ind_nested; intros [b|tag' ps]; try reflexivity.
  cbn. destruct (String.eqb tag tag'); [|reflexivity]. f_equal.
  revert ps. induction IH as [|t ts H HF IHF]; intros [|p ps]; try reflexivity. cbn. rewrite H, IHF. reflexivity.
Qed.

(** ** Sizes *)
Lemma vmap2_len : forall A B C (f : A -> B -> C) a b, length b = length a -> length (vmap2 f a b) = length a.
Proof. intros A B C f. induction a as [|x a IH]; intros [|y b] L; try discriminate; cbn; auto. Qed.

Lemma side_length : forall A p (Bs : list (list (list A))), Forall (fun B => length B = p) Bs -> length (side_by_side p Bs) = p.
Proof.
  intros A p Bs H. unfold side_by_side. induction H as [|B Bs H HF IH]; cbn; [apply repeat_length|].
  rewrite vmap2_len by (rewrite IH; auto). exact H.
Qed.

Definition blk {A : Type} (x : list A) (y : list A) (B : list (list A)) : Prop :=
  length B = length x /\ Forall (fun row => length row = length y) B.

Lemma same_leaves : forall A B (rel : A -> B -> Prop) u p, same_structure rel u p -> Forall2 rel (leaves u) (leaves p).
Proof.
  intros A B rel. apply same_ind.
  - intros a b H. cbn. auto.
  - intros tag ts us _ HF. cbn. induction HF as [|t u ts us H HF IHF]; cbn; [constructor|]. apply Forall2_app; assumption.
Qed.

Lemma blk_rows : forall A (x : list A) ys Bs, Forall2 (blk x) ys Bs -> Forall (fun B => length B = length x) Bs.
Proof. intros A x ys Bs H. induction H as [|y B ys Bs [H1 _] HF IH]; constructor; assumption. Qed.

Lemma side_cols : forall A (x : list A) ys Bs, Forall2 (blk x) ys Bs ->
  Forall (fun row => length row = length (concat ys)) (side_by_side (length x) Bs).
Proof.
  intros A x ys Bs H. pose proof (blk_rows A x ys Bs H) as HR. induction H as [|y B ys Bs [H1 H2] HF IH]; cbn.
  - apply Forall_forall. intros r Hr. apply repeat_spec in Hr. subst r. reflexivity.
  - specialize (IH (Forall_inv_tail HR)). fold (side_by_side (length x) Bs). revert IH. rewrite app_length. generalize (side_by_side (length x) Bs). clear - H2.
    induction H2 as [|r B Hr HB IHB]; intros [|r' l] HL; cbn; constructor.
    + rewrite app_length, Hr, (Forall_inv HL). reflexivity.
    + apply IHB. exact (Forall_inv_tail HL).
Qed.

Lemma flat_size : forall (N : Num) (t u : tree (list N)) P, block_operator t u P ->
  length (flat_matrix t P) = length (entries t) /\ Forall (fun row => length row = length (entries u)) (flat_matrix t P).
Proof.
  intros N t u P. unfold block_operator. revert t P. apply prefix_ind2.
  - intros x p H. apply same_leaves in H. unfold entries. cbn. rewrite app_nil_r. split.
    + apply side_length. exact (blk_rows _ _ _ _ H).
    + exact (side_cols _ _ _ _ H).
  - intros tag ts ps _ HF. rewrite flat_node, entries_node. induction HF as [|t p ts ps [H1 H2] HF [IH1 IH2]]; cbn; [split; [reflexivity|constructor]|].
    rewrite !app_length. split; [congruence|]. apply Forall_app. split; assumption.
Qed.

Lemma entries_alike : forall (N : Num) (t u : tree (list N)), alike t u -> length (entries u) = length (entries t).
Proof. intros N t u H. apply same_entries. exact H. Qed.

Lemma alike_refl : forall A (t : tree (list A)), alike t t.
Proof.
  intro A. induction t as [x|tag ts IH] using tree_ind_nested; constructor; [reflexivity|].
  induction IH; constructor; assumption.
Qed.

Lemma same_sym : forall A B (r : A -> B -> Prop) t u, same_structure r t u -> same_structure (fun b a => r a b) u t.
Proof.
  intros A B r. apply same_ind; intros; constructor; auto. induction H0; inversion H; subst; constructor; auto.
Qed.
Lemma same_trans : forall A B C (r : A -> B -> Prop) (s : B -> C -> Prop) (q : A -> C -> Prop), (forall a b c, r a b -> s b c -> q a c) ->
  forall t u, same_structure r t u -> forall v, same_structure s u v -> same_structure q t v.
Proof.
  intros A B C r s q HQ. apply (same_ind A B r (fun t u => forall v, same_structure s u v -> same_structure q t v)).
  - intros a b H v Hv. inversion Hv; subst. constructor. eauto.
  - intros tag ts us _ HF v Hv. inversion Hv; subst. constructor. match goal with H : Forall2 (same_structure s) _ _ |- _ => revert H end.
    clear Hv. revert us0. induction HF as [|t u ts us H HF IH]; intros vs HV; inversion HV; subst; constructor; auto.
Qed.
Lemma alike_sym : forall A (t u : tree (list A)), alike t u -> alike u t.
Proof. intros A t u H. apply same_sym in H. eapply same_trans with (s := fun x y => length y = length x); [|exact H|apply alike_refl]. cbn. congruence. Qed.
Lemma alike_trans : forall A (t u v : tree (list A)), alike t u -> alike u v -> alike t v.
Proof. intros A t u v H1 H2. eapply same_trans; [|exact H1|exact H2]. cbn. congruence. Qed.

(** Operators between alike trees *)
Lemma operator_alike : forall A (t t' u u' : tree (list A)) P, alike t t' -> alike u u' -> block_operator t u P -> block_operator t' u' P.
Proof.
  intros A t t' u u' P Ht Hu. unfold block_operator. revert P. pattern t, t'. revert Ht. revert t t'. apply same_ind.
  - intros x x' L P HP. inversion HP; subst. constructor.
    eapply same_trans; [|apply same_sym; exact Hu|eassumption]. cbn. intros a b c Hab [H1 H2]. rewrite L, Hab. auto.
  - intros tag ts us _ HF P HP. inversion HP; subst. constructor.
    match goal with H : Forall2 (prefix _) ts _ |- _ => revert H end. clear HP. revert us0. induction HF as [|a b ts us H HF IH]; intros ps HPs; inversion HPs; subst; constructor; auto.
Qed.

Lemma flat_alike : forall A (t t' : tree (list A)) P, alike t t' -> flat_matrix t P = flat_matrix t' P.
Proof.
  intros A t t' P Ht. revert P. pattern t, t'. revert Ht. revert t t'. apply same_ind.
  - intros x x' L P. cbn. rewrite L. reflexivity.
  - intros tag ts us _ HF [b|tag' ps]; [reflexivity|]. rewrite !flat_node. f_equal. revert ps.
    induction HF as [|a b ts us H HF IH]; intros [|p ps]; try reflexivity. cbn. rewrite H, IH. reflexivity.
Qed.

(** ** The outer product *)
Lemma side_outer : forall (N : Num) (x : list N) ys, side_by_side (length x) (map (outer x) ys) = outer x (concat ys).
Proof.
  intros N x. induction ys as [|y ys IH]; cbn.
  - unfold outer. induction x; cbn; [reflexivity|]. f_equal. exact IHx.
  - fold (side_by_side (length x) (map (outer x) ys)). rewrite IH. unfold outer. clear IH. induction x as [|a x IH]; cbn; [reflexivity|].
    f_equal; [|exact IH]. unfold vscale. rewrite map_app. reflexivity.
Qed.

Lemma leaves_map1 : forall A B (f : A -> B) t, leaves (tree_map1 f t) = map f (leaves t).
Proof.
  intros A B f. induction t as [a|tag ts IH] using tree_ind_nested; [reflexivity|]. cbn. rewrite map_map.
  induction IH as [|t ts H HF IHF]; cbn; [reflexivity|]. rewrite map_app, H, IHF. reflexivity.
Qed.

Lemma same_map1 : forall A B (f : A -> B) (rel : A -> B -> Prop), (forall a, rel a (f a)) -> forall t, same_structure rel t (tree_map1 f t).
Proof.
  intros A B f rel H. induction t as [a|tag ts IH] using tree_ind_nested; cbn; constructor; [apply H|].
  induction IH; cbn; constructor; assumption.
Qed.

(** The tree built by `_outer` is an operator from trees like the second argument to
    trees like the first, and its matrix is the outer product of the two lists of
    entries. Any arithmetic. *)
Lemma C67_outer_pf :
  forall (N : Num) (t u : tree (list N)),
    block_operator t u (tree_outer t u) /\
    flat_matrix t (tree_outer t u) = map (fun a => map (nmul a) (entries u)) (entries t).
Proof.
  intros N t u. change (map (fun a => map (nmul a) (entries u)) (entries t)) with (outer (entries t) (entries u)).
  unfold tree_outer. induction t as [x|tag ts IH] using tree_ind_nested.
  - cbn. rewrite leaves_map1. split.
    + constructor. apply same_map1. intro y. unfold outer. rewrite map_length. split; [reflexivity|].
      apply Forall_forall. intros r Hr. apply in_map_iff in Hr. destruct Hr as (a & <- & _). apply map_length.
    + unfold entries. cbn. rewrite app_nil_r. apply side_outer.
  - cbn [tree_graft]. rewrite flat_node, entries_node. unfold block_operator in *. split.
    + constructor. induction IH as [|t ts [H _] HF IHF]; cbn; constructor; assumption.
    + induction IH as [|t ts [_ H] HF IHF]; cbn; [reflexivity|]. unfold outer in *. rewrite map_app, H, IHF. reflexivity.
Qed.

(** ** Entrywise operations *)
Lemma zip_app : forall A (op : A -> A -> A) (B C a b : list (list A)) n k,
  length B = n -> length C = n -> length a = n -> length b = n ->
  Forall (fun r => length r = k) B -> Forall (fun r => length r = k) C ->
  vmap2 (@app A) (vmap2 (vmap2 op) B C) (vmap2 (vmap2 op) a b) = vmap2 (vmap2 op) (vmap2 (@app A) B a) (vmap2 (@app A) C b).
Proof.
  intros A op. induction B as [|x B IH]; intros [|y C] [|u a] [|v b] n k L1 L2 L3 L4 R1 R2; try reflexivity; cbn in *; subst; try discriminate.
  inversion R1; inversion R2; subst. rewrite vmap2_app by congruence. f_equal. eapply IH; eauto; congruence.
Qed.

Lemma side_map2 : forall A (op : A -> A -> A) (x : list A) ys Bs Cs, Forall2 (blk x) ys Bs -> Forall2 (blk x) ys Cs ->
  side_by_side (length x) (vmap2 (vmap2 (vmap2 op)) Bs Cs) = vmap2 (vmap2 op) (side_by_side (length x) Bs) (side_by_side (length x) Cs).
Proof.
  intros A op x. induction ys as [|y ys IH]; intros Bs Cs HB HC; inversion HB as [|? B ? Bs' HB1 HB2]; inversion HC as [|? C ? Cs' HC1 HC2]; subst.
  - clear. cbn. induction x; cbn; [reflexivity|]. f_equal. exact IHx.
  - cbn. change (fold_right (vmap2 (@app A)) (repeat [] (length x))) with (@side_by_side A (length x)).
    rewrite (IH _ _ HB2 HC2). destruct HB1 as [L1 R1]. destruct HC1 as [L2 R2].
    apply (zip_app A op B C _ _ (length x) (length y)); auto; apply side_length; eapply blk_rows; eassumption.
Qed.

Lemma same_shape_true : forall (N : Num) (x y : list N) B C, blk x y B -> blk x y C -> same_shape (N:=N) B C = true.
Proof.
  intros N x y B C [L1 R1] [L2 R2]. unfold same_shape. rewrite L1, L2, Nat.eqb_refl. cbn. clear L1 L2.
  revert C R2. induction R1 as [|r B Hr HB IH]; intros [|s C] R2; try reflexivity. inversion R2; subst. cbn.
  rewrite (proj2 (Nat.eqb_eq _ _)) by congruence. apply IH. assumption.
Qed.

Lemma blk_map2 : forall A (op : A -> A -> A) (x y : list A) B C, blk x y B -> blk x y C -> blk x y (vmap2 (vmap2 op) B C).
Proof.
  intros A op x y B C [L1 R1] [L2 R2]. split; [rewrite vmap2_len; congruence|]. clear L1 L2.
  revert C R2. induction R1 as [|r B Hr HB IH]; intros [|s C] R2; cbn; try constructor; inversion R2; subst.
  - rewrite vmap2_len by congruence. assumption.
  - apply IH. assumption.
Qed.

Lemma omega_leaf : forall (N : Num) (op : N -> N -> N) (x : list N) u P Q,
  same_structure (blk x) u P -> same_structure (blk x) u Q ->
  exists R, block_omega2 (N:=N) op P Q = Ret R /\ same_structure (blk x) u R /\ leaves R = vmap2 (vmap2 (vmap2 op)) (leaves P) (leaves Q).
Proof.
  intros N op x u P Q HP. revert Q. pattern u, P. revert HP. revert u P. apply same_ind.
  - intros y B HB Q HQ. inversion HQ as [? C HC|]; subst. cbn. rewrite (same_shape_true N x y B C HB HC).
    eexists. split; [reflexivity|]. split; [constructor; apply blk_map2; assumption|reflexivity].
  - intros tag us ps HPS HF Q HQ. inversion HQ as [|? ? qs HQS]; subst. unfold block_omega2. cbn. rewrite String.eqb_refl.
    match goal with |- exists R, obind ?g _ = _ /\ _ => assert (G : exists rs, g = Ret rs /\ Forall2 (same_structure (blk x)) us rs /\
       concat (map leaves rs) = vmap2 (vmap2 (vmap2 op)) (concat (map leaves ps)) (concat (map leaves qs))) end.
    { clear HQ. revert qs HQS. induction HF as [|u p us ps H HF IH]; intros qs HQS; inversion HQS as [|? q ? qs' HQ1 HQ2]; subst.
      - exists []. split; [reflexivity|]. split; [constructor|reflexivity].
      - destruct (H q HQ1) as (r & E1 & E2 & E3). inversion HPS; subst.
        destruct (IH ltac:(assumption) qs' HQ2) as (rs & F1 & F2 & F3). unfold block_omega2 in E1. rewrite E1. cbn. rewrite F1.
        exists (r :: rs). split; [reflexivity|]. split; [constructor; assumption|]. cbn. rewrite E3, F3, vmap2_app; [reflexivity|].
        match goal with H : same_structure _ u p |- _ => apply same_leaves in H; apply f2_length in H end.
        apply same_leaves in HQ1. apply f2_length in HQ1. congruence. }
    destruct G as (rs & -> & G1 & G2). cbn. eexists. split; [reflexivity|]. split; [constructor; exact G1|exact G2].
Qed.

Lemma flat_omega2 : forall (N : Num) (op : N -> N -> N) (t u : tree (list N)) P Q,
  block_operator t u P -> block_operator t u Q ->
  exists R, block_omega2 op P Q = Ret R /\ block_operator t u R /\ flat_matrix t R = vmap2 (vmap2 op) (flat_matrix t P) (flat_matrix t Q).
Proof.
  intros N op t u P Q HP. revert Q. unfold block_operator. pattern t, P. revert HP. revert t P. apply prefix_ind2.
  - intros x p Hp Q HQ. inversion HQ as [? ? Hq|]; subst. destruct (omega_leaf N op x u p Q Hp Hq) as (R & E1 & E2 & E3).
    exists R. split; [exact E1|]. split; [constructor; exact E2|]. cbn. rewrite E3.
    apply (side_map2 N op x (leaves u)); apply same_leaves; assumption.
  - intros tag ts ps HPS HF Q HQ. inversion HQ as [|? ? qs HQS]; subst. unfold block_omega2. cbn [tree_map2]. rewrite String.eqb_refl.
    match goal with |- exists R, obind ?g _ = _ /\ _ => assert (G : exists rs, g = Ret rs /\
       Forall2 (prefix (fun x p => same_structure (fun y B => length B = length x /\ Forall (fun row => length row = length y) B) u p)) ts rs /\
       concat (vmap2 flat_matrix ts rs) = vmap2 (vmap2 op) (concat (vmap2 flat_matrix ts ps)) (concat (vmap2 flat_matrix ts qs))) end.
    { clear HQ. revert qs HQS. induction HF as [|t p ts ps H HF IH]; intros qs HQS; inversion HQS as [|? q ? qs' HQ1 HQ2]; subst.
      - exists []. split; [reflexivity|]. split; [constructor|reflexivity].
      - destruct (H q HQ1) as (r & E1 & E2 & E3). inversion HPS; subst.
        destruct (IH ltac:(assumption) qs' HQ2) as (rs & F1 & F2 & F3). unfold block_omega2 in E1. rewrite E1. cbn. rewrite F1.
        exists (r :: rs). split; [reflexivity|]. split; [constructor; assumption|]. cbn. rewrite E3, F3, vmap2_app; [reflexivity|].
        match goal with H : prefix _ t p |- _ => pose proof (proj1 (flat_size N t u p H)) end.
        pose proof (proj1 (flat_size N t u q HQ1)). congruence. }
    destruct G as (rs & -> & G1 & G2). cbn. eexists. split; [reflexivity|]. split; [constructor; exact G1|].
    rewrite <- !(flat_node _ tag tag) in G2. exact G2.
Qed.

Lemma flat_map1 : forall (N : Num) (h : N -> N) (t u : tree (list N)) P, block_operator t u P ->
  block_operator t u (tree_map1 (map (map h)) P) /\ flat_matrix t (tree_map1 (map (map h)) P) = map (map h) (flat_matrix t P).
Proof.
  intros N h t u P. unfold block_operator. revert t P. apply prefix_ind2.
  - intros x p H. split.
    + constructor. revert H. revert u p. apply same_ind.
      * intros y B [L R]. cbn. constructor. rewrite map_length. split; [exact L|]. apply Forall_forall. intros r Hr.
        apply in_map_iff in Hr. destruct Hr as (r' & <- & Hr). rewrite map_length. rewrite Forall_forall in R. apply R. exact Hr.
      * intros tag ts us _ HF. cbn. constructor. induction HF; cbn; constructor; assumption.
    + cbn. rewrite leaves_map1. generalize (leaves p). clear. intro Bs. induction Bs as [|B Bs IH]; cbn.
      * induction (length x); cbn; [reflexivity|]. f_equal. assumption.
      * change (fold_right (vmap2 (@app N)) (repeat [] (length x))) with (@side_by_side N (length x)). rewrite IH.
        generalize (side_by_side (length x) Bs). clear. induction B as [|r B IH]; intros [|s l]; try reflexivity. cbn. rewrite map_app, IH. reflexivity.
  - intros tag ts ps _ HF. cbn [tree_map1]. rewrite !flat_node. split.
    + constructor. induction HF as [|t p ts ps [H _] HF IH]; cbn; constructor; assumption.
    + induction HF as [|t p ts ps [_ H] HF IH]; cbn; [reflexivity|]. rewrite map_app, H, IH. reflexivity.
Qed.

(** ** The identity *)
Fixpoint label {A : Type} (k : nat) (t : tree A) : tree (nat * A) :=
  match t with
  | Leaf a => Leaf (k, a)
  | Node tag ts =>
      Node tag ((fix go k ts := match ts with
                                | [] => []
                                | t :: ts => label k t :: go (k + length (leaves t)) ts
                                end) k ts)
  end.

Lemma seq_combine_app : forall A k (a b : list A),
  combine (seq k (length (a ++ b))) (a ++ b) = combine (seq k (length a)) a ++ combine (seq (k + length a) (length b)) b.
Proof.
  intros A k a. revert k. induction a as [|x a IH]; intros k b; cbn; [rewrite Nat.add_0_r; reflexivity|].
  f_equal. rewrite IH. f_equal. f_equal. f_equal. lia.
Qed.

Lemma label_leaves : forall A (t : tree A) k, leaves (label k t) = combine (seq k (length (leaves t))) (leaves t).
Proof.
  intro A. induction t as [a|tag ts IH] using tree_ind_nested; intro k; [reflexivity|]. cbn.
  revert k. induction IH as [|t ts H HF IHF]; intro k; cbn; [reflexivity|]. rewrite H, IHF, seq_combine_app. reflexivity.
Qed.

Lemma label_same : forall A (t : tree A) k, same_structure (fun a p => snd p = a) t (label k t).
Proof.
  intro A. induction t as [a|tag ts IH] using tree_ind_nested; intro k; cbn; constructor; [reflexivity|].
  revert k. induction IH as [|t ts H HF IHF]; intro k; cbn; constructor; auto.
Qed.

Lemma graft_leaves : forall A B (f : A -> tree B) t, leaves (tree_graft f t) = concat (map (fun a => leaves (f a)) (leaves t)).
Proof.
  intros A B f. induction t as [a|tag ts IH] using tree_ind_nested; cbn; [rewrite app_nil_r; reflexivity|].
  rewrite map_map. induction IH as [|t ts H HF IHF]; cbn; [reflexivity|]. rewrite map_app, concat_app, H, IHF. reflexivity.
Qed.

Lemma same_struct : forall A B (r : A -> B -> Prop) t u, same_structure r t u -> structure t = structure u.
Proof.
  intros A B r. apply same_ind; [reflexivity|]. intros tag ts us _ HF. unfold structure in *. cbn. f_equal.
  induction HF as [|t u ts us H HF IH]; cbn; [reflexivity|]. rewrite H, IH. reflexivity.
Qed.

Lemma graft_structure : forall A B (f : A -> tree B) s t, (forall a, structure (f a) = s) ->
  structure (tree_graft f t) = compose (structure t) s.
Proof.
  intros A B f s t Hs. unfold structure, compose in *. induction t as [a|tag ts IH] using tree_ind_nested; cbn; [apply Hs|].
  f_equal. rewrite !map_map. induction IH as [|t ts H HF IHF]; cbn; [reflexivity|]. rewrite H, IHF. reflexivity.
Qed.

Lemma structure_map1 : forall A B (f : A -> B) t, structure (tree_map1 f t) = structure t.
Proof.
  intros A B f. unfold structure. induction t as [a|tag ts IH] using tree_ind_nested; cbn; [reflexivity|].
  f_equal. rewrite map_map. induction IH as [|t ts H HF IHF]; cbn; [reflexivity|]. rewrite H, IHF. reflexivity.
Qed.

Lemma take_ret : forall A (t : tree A) rest, take_leaves (structure t) (leaves t ++ rest) = Ret (t, rest).
Proof.
  intro A. unfold structure. induction t as [a|tag ts IH] using tree_ind_nested; intro rest; [reflexivity|]. cbn.
  match goal with |- obind ?g _ = _ => assert (G : g = Ret (ts, rest)) end.
  { revert rest. induction IH as [|t ts H HF IHF]; intro rest; cbn; [reflexivity|]. rewrite <- app_assoc, H. cbn. rewrite IHF. reflexivity. }
  rewrite G. reflexivity.
Qed.

Lemma unflatten_ret : forall A (t : tree A), unflatten (structure t) (leaves t) = Ret t.
Proof. intros A t. unfold unflatten. rewrite <- (app_nil_r (leaves t)), take_ret. reflexivity. Qed.

Lemma prefix_graft : forall A B C (r : A -> C -> Prop) (rel : A -> tree B -> Prop) (f : C -> tree B),
  (forall a c, r a c -> rel a (f c)) -> forall t T, same_structure r t T -> prefix rel t (tree_graft f T).
Proof.
  intros A B C r rel f H. apply same_ind; [intros; cbn; constructor; auto|]. intros tag ts us _ HF. cbn. constructor.
  induction HF; cbn; constructor; auto.
Qed.

Lemma flat_graft : forall A C (r : list A -> C -> Prop) (f : C -> tree (list (list A))) (g : C -> list A),
  (forall a c, r a c -> g c = a) -> forall t T, same_structure r t T ->
  flat_matrix t (tree_graft f T) = concat (map (fun c => side_by_side (length (g c)) (leaves (f c))) (leaves T)).
Proof.
  intros A C r f g H. apply same_ind.
  - intros a c Hc. cbn. rewrite app_nil_r, (H a c Hc). reflexivity.
  - intros tag ts us _ HF. cbn [tree_graft]. rewrite flat_node. cbn. induction HF as [|t u ts us E HF IH]; cbn; [reflexivity|].
    rewrite E, IH, map_app, concat_app. reflexivity.
Qed.

Lemma same_mono : forall A B (r q : A -> B -> Prop), (forall a b, r a b -> q a b) -> forall t u, same_structure r t u -> same_structure q t u.
Proof. intros A B r q H. apply same_ind; intros; constructor; auto. Qed.
Lemma same_in : forall A B (r : A -> B -> Prop) t u, same_structure r t u -> same_structure (fun a b => r a b /\ In b (leaves u)) t u.
Proof.
  intros A B r. apply same_ind.
  - intros a b H. constructor. cbn. auto.
  - intros tag ts us _ HF. constructor. cbn.
    assert (G : forall L, (forall u b, In u us -> In b (leaves u) -> In b L) ->
      Forall2 (same_structure (fun a b => r a b /\ In b L)) ts us).
    { intros L HL. induction HF as [|t u ts us H HF IHF]; constructor.
      - eapply same_mono; [|exact H]. cbn. intros a p [H1 H2]. split; [exact H1|]. apply (HL u p); cbn; auto.
      - apply IHF. intros u' b Hu Hb. apply (HL u' b); cbn; auto. }
    apply G. intros u b Hu Hb. apply in_concat. exists (leaves u). split; [apply in_map; exact Hu|exact Hb].
Qed.

Section Identity.
  Context {N : Num}.
  Definition eye_block (p q : nat * list N) : list (list N) :=
    if Nat.eqb (fst p) (fst q) then identity_mat (length (snd p)) else zero_block (length (snd p)) (length (snd q)).
  Definition eye_tree (t : tree (list N)) : tree (list (list N)) :=
    tree_graft (fun p => tree_map1 (eye_block p) (label 0 t)) (label 0 t).

  Lemma eye_tree_leaves : forall t, leaves (eye_tree t) = eye_leaves (leaves t).
  Proof.
    intro t. unfold eye_tree. rewrite graft_leaves, label_leaves. unfold eye_leaves. f_equal. apply map_ext. intros [i l].
    rewrite leaves_map1, label_leaves. unfold eye_row. apply map_ext. intros [j l']. reflexivity.
  Qed.

  Lemma eye_tree_ret : forall t, identity_pytree t = Ret (eye_tree t).
  Proof.
    intro t. unfold identity_pytree. rewrite <- eye_tree_leaves.
    rewrite (same_struct _ _ _ _ _ (label_same _ t 0)).
    rewrite <- (graft_structure _ _ (fun p => tree_map1 (eye_block p) (label 0 t)) (structure (label 0 t)) (label 0 t)
                 (fun p => structure_map1 _ _ _ _)).
    apply unflatten_ret.
  Qed.

  Lemma same_map_r : forall A B C (r : A -> B -> Prop) (f : B -> C) (q : A -> C -> Prop), (forall a b, r a b -> q a (f b)) ->
    forall t u, same_structure r t u -> same_structure q t (tree_map1 f u).
  Proof.
    intros A B C r f q H. apply same_ind; [intros; cbn; constructor; auto|]. intros tag ts us _ HF. cbn. constructor.
    induction HF; cbn; constructor; auto.
  Qed.

  Lemma label_nth : forall t i (x : list N), In (i, x) (leaves (label 0 t)) -> nth_error (leaves t) i = Some x.
  Proof.
    intros t i x H. rewrite label_leaves in H. assert (G : forall (l : list (list N)) k, In (i, x) (combine (seq k (length l)) l) -> k <= i /\ nth_error l (i - k) = Some x).
    { induction l as [|y l IH]; intros k HI; cbn in HI; [contradiction|]. destruct HI as [E|HI].
      - injection E as -> ->. split; [lia|]. rewrite Nat.sub_diag. reflexivity.
      - destruct (IH (S k) HI) as [H1 H2]. split; [lia|]. replace (i - k) with (S (i - S k)) by lia. exact H2. }
    destruct (G _ _ H) as [_ E]. rewrite Nat.sub_0_r in E. exact E.
  Qed.

  Lemma zero_blk : forall x y : list N, blk x y (zero_block (length x) (length y)).
  Proof.
    intros x y. unfold blk, zero_block. rewrite repeat_length. split; [reflexivity|].
    apply Forall_forall. intros r Hr. apply repeat_spec in Hr. subst r. apply repeat_length.
  Qed.
  Lemma identity_blk : forall x : list N, blk x x (identity_mat (length x)).
  Proof.
    intro x. unfold blk, identity_mat. rewrite map_length, seq_length. split; [reflexivity|].
    apply Forall_forall. intros r Hr. apply in_map_iff in Hr. destruct Hr as (i & <- & _). unfold unit_row. rewrite map_length, seq_length. reflexivity.
  Qed.

  Lemma eye_operator : forall t, block_operator t t (eye_tree t).
  Proof.
    intro t. unfold block_operator, eye_tree. pose proof (same_in _ _ _ _ _ (label_same _ t 0)) as HS.
    eapply prefix_graft; [|exact HS].
    intros x [i x'] [E Hi]. cbn in E. subst x'. eapply same_map_r; [|exact HS].
    intros y [j y'] [E Hj]. cbn in E. subst y'. unfold eye_block. cbn. destruct (Nat.eqb_spec i j) as [->|].
    - apply label_nth in Hi. apply label_nth in Hj. assert (x = y) by congruence. subst y. apply identity_blk.
    - apply zero_blk.
  Qed.

  (** the matrix *)
  Lemma side_app : forall p (As Bs : list (list (list N))), Forall (fun B => length B = p) As -> Forall (fun B => length B = p) Bs ->
    side_by_side p (As ++ Bs) = vmap2 (@app N) (side_by_side p As) (side_by_side p Bs).
  Proof.
    intros p As Bs HA HB. induction HA as [|A As H HA IH].
    - change (side_by_side p Bs = vmap2 (@app N) (repeat [] p) (side_by_side p Bs)).
      pose proof (side_length N p Bs HB) as L. revert L. generalize (side_by_side p Bs). intro l. generalize p. clear.
      induction l as [|r l IH]; intros [|p] L; try discriminate; cbn; [reflexivity|]. f_equal. apply IH. cbn in L. congruence.
    - change (vmap2 (@app N) A (side_by_side p (As ++ Bs)) = vmap2 (@app N) (vmap2 (@app N) A (side_by_side p As)) (side_by_side p Bs)). rewrite IH.
      generalize (side_by_side p As) (side_by_side p Bs). clear. induction A as [|r A IH]; intros [|a l] [|b l']; try reflexivity.
      cbn. rewrite app_assoc, IH. reflexivity.
  Qed.

  Lemma side_zero : forall p (ls : list (list N)), side_by_side p (map (fun l => zero_block (N:=N) p (length l)) ls) = zero_block p (length (concat ls)).
  Proof.
    intros p. induction ls as [|l ls IH].
    - unfold zero_block. reflexivity.
    - change (vmap2 (@app N) (zero_block p (length l)) (side_by_side p (map (fun l => zero_block (N:=N) p (length l)) ls)) = zero_block p (length (l ++ concat ls))).
      rewrite IH, app_length. unfold zero_block. clear.
      rewrite repeat_app. induction p as [|p IH]; cbn; [reflexivity|]. f_equal. exact IH.
  Qed.

  Lemma unit_row_split : forall a p b i, i < p ->
    unit_row (N:=N) (a + p + b) (a + i) = repeat (nofQ 0) a ++ unit_row p i ++ repeat (nofQ 0) b.
  Proof.
    intros a p b i Hi. unfold unit_row. rewrite !seq_app, !map_app, <- app_assoc. cbn [Nat.add].
    assert (Z : forall n k, (forall j, k <= j < k + n -> Nat.eqb (a + i) j = false) ->
      map (fun j => if Nat.eqb (a + i) j then nofQ 1 else nofQ 0 : N) (seq k n) = repeat (nofQ 0) n).
    { induction n as [|n IH]; intros k H; cbn; [reflexivity|]. rewrite H by lia. f_equal. apply IH. intros j Hj. apply H. lia. }
    f_equal; [|f_equal].
    - apply Z. intros j Hj. apply Nat.eqb_neq. lia.
    - assert (G : forall n k m, map (fun j => if Nat.eqb (k + i) j then nofQ 1 else nofQ 0 : N) (seq (k + m) n) = map (fun j => if Nat.eqb i j then nofQ 1 else nofQ 0) (seq m n)).
      { induction n as [|n IH]; intros k m; cbn; [reflexivity|]. rewrite <- (IH k (S m)). rewrite Nat.add_succ_r. f_equal.
        destruct (Nat.eqb_spec (k + i) (k + m)), (Nat.eqb_spec i m); auto; lia. }
      rewrite <- (G p a 0), Nat.add_0_r. reflexivity.
    - apply Z. intros j Hj. apply Nat.eqb_neq. lia.
  Qed.

  Lemma eye_row_flat : forall pre (l : list N) post,
    let ls := pre ++ l :: post in
    side_by_side (length l) (eye_row (length pre) l ls) =
    map (unit_row (length (concat ls))) (seq (length (concat pre)) (length l)).
  Proof.
    intros pre l post ls. unfold ls, eye_row. rewrite seq_combine_app, map_app. cbn [length seq combine map].
    assert (E : forall (xs : list (list N)) k, (forall j, k <= j < k + length xs -> j <> length pre) ->
      map (fun p : nat * list N => let '(i2, l2) := p in if Nat.eqb (length pre) i2 then identity_mat (N:=N) (length l) else zero_block (length l) (length l2))
        (combine (seq k (length xs)) xs) = map (fun x => zero_block (length l) (length x)) xs).
    { induction xs as [|x xs IH]; intros k H; cbn; [reflexivity|]. rewrite (proj2 (Nat.eqb_neq _ _)) by (intro; apply (H k); cbn; lia).
      f_equal. apply IH. intros j Hj. apply H. cbn. lia. }
    rewrite E by (intros; lia). rewrite Nat.add_0_l, Nat.eqb_refl, E by (intros; lia).
    rewrite side_app.
    2:{ apply Forall_forall. intros B HB. apply in_map_iff in HB. destruct HB as (x & <- & _). apply repeat_length. }
    2:{ constructor; [apply identity_blk|]. apply Forall_forall. intros B HB. apply in_map_iff in HB. destruct HB as (x & <- & _). apply repeat_length. }
    cbn [side_by_side fold_right]. change (fold_right (vmap2 (@app N)) (repeat [] (length l))) with (@side_by_side N (length l)).
    rewrite !side_zero. rewrite concat_app. cbn [concat]. rewrite !app_length.
    generalize (length (concat pre)) (length (concat post)) (length l). clear. intros a b p. rewrite Nat.add_assoc.
    unfold zero_block, identity_mat.
    assert (Z : forall k, repeat (repeat (nofQ 0 : N) k) p = map (fun _ => repeat (nofQ 0) k) (seq 0 p)).
    { intro k. generalize 0. induction p as [|p IH]; intro m; cbn; [reflexivity|]. f_equal. apply IH. }
    rewrite !Z.
    assert (M : forall (f g : nat -> list N) s, vmap2 (@app N) (map f s) (map g s) = map (fun i => f i ++ g i) s).
    { intros f g s. induction s as [|x s IH]; cbn; [reflexivity|]. rewrite IH. reflexivity. }
    rewrite !M. replace (seq a p) with (map (fun i => a + i) (seq 0 p)).
    - rewrite map_map. apply map_ext_in. intros i Hi. apply in_seq in Hi. symmetry. apply unit_row_split. lia.
    - clear. assert (G : forall n m, map (fun i => a + i) (seq m n) = seq (a + m) n).
      { induction n as [|n IH]; intro m; cbn; [reflexivity|]. rewrite IH, Nat.add_succ_r. reflexivity. }
      rewrite G, Nat.add_0_r. reflexivity.
  Qed.

  Lemma eye_flat : forall t, flat_matrix t (eye_tree t) = identity_mat (length (entries t)).
  Proof.
    intro t. unfold eye_tree.
    rewrite (flat_graft _ _ (fun a p => snd p = a) _ snd (fun a c H => H) t (label 0 t) (label_same _ t 0)).
    rewrite (map_ext _ (fun p => side_by_side (length (snd p)) (eye_row (fst p) (snd p) (leaves t)))).
    2:{ intros [i l]. cbn. rewrite leaves_map1, label_leaves. f_equal. unfold eye_row. apply map_ext. intros [j l']. reflexivity. }
    rewrite label_leaves. unfold entries, identity_mat.
    assert (G : forall suf pre, leaves t = pre ++ suf ->
      concat (map (fun p => side_by_side (length (snd p)) (eye_row (fst p) (snd p) (leaves t))) (combine (seq (length pre) (length suf)) suf)) =
      map (unit_row (length (concat (leaves t)))) (seq (length (concat pre)) (length (concat suf)))).
    { induction suf as [|l suf IH]; intros pre E; [reflexivity|]. cbn [length seq combine map concat fst snd].
      rewrite app_length, seq_app, map_app. rewrite E at 1 2. rewrite eye_row_flat. f_equal.
      specialize (IH (pre ++ [l])). rewrite <- app_assoc in IH. specialize (IH E). rewrite concat_app in IH. cbn [concat] in IH.
      rewrite app_nil_r, !app_length in IH. cbn [length] in IH. rewrite Nat.add_1_r in IH. exact IH. }
    apply (G (leaves t) []). reflexivity.
  Qed.
End Identity.

(** `_identity_pytree` returns an operator between trees like its argument, and its
    matrix is the identity. Any arithmetic. *)
Lemma C67_identity_pf :
  forall (N : Num) (t : tree (list N)), exists P, identity_pytree t = Ret P /\ block_operator t t P /\
    let n := length (entries t) in
    flat_matrix t P = map (fun i => map (fun j => if Nat.eqb i j then nofQ 1 else nofQ 0) (seq 0 n)) (seq 0 n).
Proof.
  intros N t. exists (eye_tree t). split; [apply eye_tree_ret|]. split; [apply eye_operator|]. apply eye_flat.
Qed.

(** ** Products with vectors, over the reals *)
Lemma Radd_v_assoc : forall a b c, Radd_v (Radd_v a b) c = Radd_v a (Radd_v b c).
Proof. induction a as [|x a IH]; intros [|y b] [|z c]; cbn; try reflexivity. rewrite IH. f_equal. ring. Qed.

Lemma mvec_side : forall (B S : list (list R)) (v w : list R), Forall (fun r => length r = length v) B -> length S = length B ->
  mvec (vmap2 (@app R) B S) (v ++ w) = Radd_v (mvec B v) (mvec S w).
Proof.
  intros B S v w H. revert S. induction H as [|r B Hr HB IH]; intros [|s S] L; try discriminate; [reflexivity|]. cbn.
  rewrite Rdot_app by exact Hr. f_equal. apply IH. cbn in L. congruence.
Qed.

Lemma fold_mv : forall (x : list R) ys Bs, Forall2 (blk x) ys Bs -> forall vs, Forall2 (fun y v : list R => length v = length y) ys vs ->
  forall acc : list R, length acc = length x ->
  fold_left (vadd (N:=RN)) (vmap2 (mat_mv (N:=RN)) Bs vs) acc = Radd_v acc (mvec (side_by_side (length x) Bs) (concat vs)).
Proof.
  intros x ys Bs H. induction H as [|y B ys Bs [L1 R1] HF IH]; intros vs HV acc La; inversion HV as [|? v ? vs' Lv HV']; subst.
  - cbn. rewrite <- La. symmetry. etransitivity; [|apply Radd_v_0_r]. f_equal. unfold mvec, zerov. clear. induction (length acc); cbn; [reflexivity|].
    f_equal. assumption.
  - cbn [vmap2 fold_left]. rewrite (IH vs' HV').
    + change (side_by_side (length x) (B :: Bs)) with (vmap2 (@app R) B (side_by_side (length x) Bs)). cbn [concat].
      rewrite mvec_side.
      * rewrite vadd_RN, mat_mv_RN, Radd_v_assoc. reflexivity.
      * eapply Forall_impl; [|exact R1]. cbn. intros r Hr. congruence.
      * rewrite side_length; [congruence|]. exact (blk_rows _ _ _ _ HF).
    + rewrite vadd_RN, mat_mv_RN. apply Radd_v_length; [exact La|]. rewrite mvec_length. exact L1.
Qed.

Lemma matmul_RN : forall (x : list R) ys Bs vs, Forall2 (blk x) ys Bs -> Forall2 (fun y v : list R => length v = length y) ys vs -> ys <> [] ->
  tree_matmul (N:=RN) Bs vs = Ret (mvec (side_by_side (length x) Bs) (concat vs)).
Proof.
  intros x ys Bs vs HB HV Hy. unfold tree_matmul.
  assert (L : length Bs = length vs) by (rewrite <- (f2_length _ _ _ _ _ HB); apply (f2_length _ _ _ _ _ HV)).
  change (Datatypes.length vs) with (@length (list R) vs). change (Datatypes.length Bs) with (@length (list (list R)) Bs).
  rewrite L, Nat.eqb_refl. destruct HB as [|y B ys Bs [L1 R1] HF]; [congruence|]. inversion HV as [|? v ? vs' Lv HV']; subst.
  cbn [vmap2]. f_equal.
  assert (Z : map (nadd (n:=RN) (lit 0)) (mat_mv (N:=RN) B v) = mvec B v).
  { rewrite mat_mv_RN. rewrite <- (map_id (mvec B v)) at 2. apply map_ext. intro a. cbn. unfold Q2R. cbn. lra. }
  etransitivity; [apply f_equal; exact Z|]. rewrite (fold_mv x ys Bs HF vs' HV') by (rewrite mvec_length; exact L1).
  change (side_by_side (length x) (B :: Bs)) with (vmap2 (@app R) B (side_by_side (length x) Bs)). cbn [concat].
  rewrite mvec_side; [reflexivity| |].
  - eapply Forall_impl; [|exact R1]. cbn. intros r Hr. congruence.
  - rewrite side_length; [congruence|]. exact (blk_rows _ _ _ _ HF).
Qed.

Lemma f2_nth : forall A B (r : A -> B -> Prop) l l', length l' = length l ->
  (forall i a b, nth_error l i = Some a -> nth_error l' i = Some b -> r a b) -> Forall2 r l l'.
Proof.
  intros A B r. induction l as [|a l IH]; intros [|b l'] L H; try discriminate; constructor.
  - apply (H 0); reflexivity.
  - apply IH; [cbn in L; congruence|]. intros i. apply (H (S i)).
Qed.

Lemma flat_cols_app : forall (A B : list (list R)) v, mvec (A ++ B) v = mvec A v ++ mvec B v.
Proof. intros. unfold mvec. apply map_app. Qed.

(** `mv` of an operator on pytrees is the product of its matrix with the list of
    entries, arranged like the output. Exact arithmetic. *)
Lemma C67_mv_pf :
  forall (t u v : tree (list R)) P, block_operator t u P -> alike u v -> leaves t = [] \/ leaves u <> [] ->
    exists r, tree_mv (N:=RN) (structure t) P v = Ret r /\ alike t r /\
      entries (N:=RN) r = mvec (flat_matrix t P) (entries (N:=RN) v).
Proof.
  intros t u v P HP Hv HL. unfold tree_mv, structure. rewrite map2_map1. apply prefix_in in HP.
  apply (map2_prefix _ _ _ _ _ (fun t P r => alike t r /\ entries (N:=RN) r = mvec (flat_matrix t P) (entries (N:=RN) v))) with (3 := HP).
  - intros x p [Hp Hx]. apply same_leaves in Hp. pose proof (same_leaves _ _ _ _ _ Hv) as Hv'.
    assert (Hu : leaves u <> []) by (destruct HL as [E|E]; [rewrite E in Hx; destruct Hx|exact E]).
    pose proof (matmul_RN x (leaves u) (leaves p) (leaves v) Hp Hv' Hu) as E.
    change (exists r, obind (tree_matmul (N:=RN) (leaves p) (leaves v)) (fun x => Ret (Leaf x)) = Ret r /\ alike (Leaf x) r /\
      entries (N:=RN) r = mvec (flat_matrix (Leaf x) p) (entries (N:=RN) v)).
    match goal with |- exists r, obind ?g _ = _ /\ _ => replace g with (Ret (mvec (side_by_side (length x) (leaves p)) (concat (leaves v)))) by (symmetry; exact E) end.
    cbn [obind]. eexists. split; [reflexivity|]. split.
    + constructor. rewrite mvec_length. apply side_length. exact (blk_rows _ _ _ _ Hp).
    + unfold entries. cbn. rewrite app_nil_r. reflexivity.
  - intros tag ts ps rs L1 L2 K. split.
    + constructor. apply f2_nth; [exact L2|]. intros i a r Ha Hr. destruct (nth_error ps i) as [p|] eqn:Ep.
      * apply (K i a p r Ha Ep Hr).
      * apply nth_error_None in Ep. assert (i < length ts) by (apply nth_error_Some; congruence). lia.
    + rewrite flat_node, (entries_node RN). clear -L1 L2 K. revert ps rs L1 L2 K. induction ts as [|t ts IH]; intros [|p ps] [|r rs] L1 L2 K; try discriminate; [reflexivity|].
      cbn [map concat vmap2]. rewrite flat_cols_app. f_equal.
      * apply (K 0 t p r); reflexivity.
      * apply IH; [exact (Nat.succ_inj _ _ L1)|exact (Nat.succ_inj _ _ L2)|]. intros i. apply (K (S i)).
Qed.

(** ** Arithmetic on trees, over the reals *)
Lemma omega2_alike : forall (N : Num) (op : N -> N -> N) (a b : tree (list N)), alike a b ->
  exists r, omega2 op a b = Ret r /\ alike a r /\ entries r = vmap2 op (entries a) (entries b).
Proof.
  intros N op a b H. destruct (C52_flat_pf N) as (F1 & F2 & _).
  destruct (F2 op a b H) as [r E]. exists r. split; [exact E|]. split; [|apply (F1 op a b r E)].
  clear F1 F2. revert r E. pattern a, b. revert H. revert a b. apply same_ind.
  - intros x y L r E. cbn in E. rewrite L, Nat.eqb_refl in E. injection E as <-. constructor. apply vmap2_len. exact L.
  - intros tag ts us _ HF r E. destruct (map2_node _ _ _ _ _ _ _ _ E) as (us' & rs & Eu & -> & L1 & L2 & K). injection Eu as <-.
    constructor. clear E. revert rs L2 K. induction HF as [|t u ts us H HF IH]; intros [|r rs] L2 K; try discriminate; constructor.
    + destruct (K 0 t eq_refl) as (u' & r' & E1 & E2 & E3). injection E1 as <-. injection E2 as <-. apply H. exact E3.
    + apply IH; [exact (Nat.succ_inj _ _ L1)|exact (Nat.succ_inj _ _ L2)|]. intros i. apply (K (S i)).
Qed.

Lemma dot_alike : forall a b : tree (list R), alike a b ->
  tree_dot (N:=RN) a b = Ret (Rdot (entries (N:=RN) a) (entries (N:=RN) b)).
Proof.
  intros a b H. apply same_leaves in H. unfold tree_dot.
  assert (L : length (leaves a) = length (leaves b)) by exact (f2_length _ _ _ _ _ H).
  change (@Datatypes.length (list RN) (leaves a)) with (@length (list R) (leaves a)).
  change (@Datatypes.length (list RN) (leaves b)) with (@length (list R) (leaves b)). rewrite L, Nat.eqb_refl. f_equal.
  assert (G : forall l l' : list (list R), Forall2 (fun x y : list R => length y = length x) l l' ->
    forall acc : R, fold_left Rplus (vmap2 (vdot (N:=RN)) l l') acc = (acc + Rdot (concat l) (concat l'))%R).
  { clear. intros l l' H. induction H as [|x y l l' E HF IH]; intro acc; cbn [vmap2 fold_left concat].
    - cbn. ring.
    - rewrite IH, vdot_RN, (Rdot_app x (concat l) y (concat l') (eq_sym E)). apply Rplus_assoc. }
  etransitivity; [apply (G _ _ H (nofQ (n:=RN) 0))|]. cbn [nofQ RN]. rewrite Q2R_0. apply Rplus_0_l.
Qed.

Lemma same_nil : forall A B (r : A -> B -> Prop) t u, same_structure r t u -> leaves t = [] <-> leaves u = [].
Proof.
  intros A B r t u H. apply same_leaves in H. split; intro E; rewrite E in H; inversion H; reflexivity.
Qed.

Lemma structure_alike : forall A (t u : tree (list A)), alike t u -> structure u = structure t.
Proof. intros A t u H. symmetry. eapply same_struct. exact H. Qed.

(** `mv` of an operator from trees like [t] to trees like [t] *)
Lemma mv_square : forall (t v : tree (list RN)) P s, block_operator t t P -> alike t v -> alike t s ->
  exists r, tree_mv (N:=RN) (structure s) P v = Ret r /\ alike t r /\ entries (N:=RN) r = mvec (flat_matrix t P) (entries (N:=RN) v).
Proof.
  intros t v P s HP Hv Hs. rewrite (structure_alike _ _ _ Hs). apply (C67_mv_pf t t v P HP Hv).
  change (leaves (A:=list RN) t = [] \/ leaves (A:=list RN) t <> []). destruct (leaves t); [left; reflexivity|right; discriminate].
Qed.

Lemma outer_square : forall t a b : tree (list RN), alike t a -> alike t b ->
  block_operator t t (tree_outer (N:=RN) a b) /\
  flat_matrix t (tree_outer (N:=RN) a b) = outer (N:=RN) (entries (N:=RN) a) (entries (N:=RN) b).
Proof.
  intros t a b Ha Hb. destruct (C67_outer_pf RN a b) as [H1 H2]. split.
  - eapply operator_alike; [apply alike_sym; exact Ha|apply alike_sym; exact Hb|exact H1].
  - rewrite (flat_alike _ t a _ Ha). exact H2.
Qed.

(** rewriting the first action, up to conversion of R and the carrier of RN *)
Ltac rw_ret E :=
  match type of E with
  | _ = ?rhs => match goal with |- exists r, obind ?g ?k = _ /\ _ => replace (obind g k) with (obind rhs k) by (apply (f_equal (fun z => obind z k)); symmetry; exact E) end
  end; cbn [obind].

Definition tree_new (dfp ui : bool) :=
  if dfp then if ui then tree_dfp_inverse (N:=RN) else tree_dfp_direct (N:=RN)
  else if ui then tree_bfgs_inverse (N:=RN) else tree_bfgs_direct (N:=RN).
Definition flat_new (dfp ui : bool) :=
  if dfp then if ui then dfp_inverse (N:=RN) else dfp_direct (N:=RN)
  else if ui then bfgs_inverse (N:=RN) else bfgs_direct (N:=RN).

Lemma new_rank2 : forall (t d s : tree (list RN)) H (inner : R), block_operator t t H -> alike t d -> alike t s ->
  exists H', tree_bfgs_inverse (N:=RN) inner d s H = Ret H' /\ block_operator t t H' /\
    flat_matrix t H' = bfgs_inverse (N:=RN) inner (entries (N:=RN) d) (entries (N:=RN) s) (flat_matrix t H).
Proof.
  intros t d s H inner HO Hd Hs. unfold tree_bfgs_inverse, bfgs_inverse.
  destruct (mv_square t d H d HO Hd Hd) as (m & Em & Am & Fm). rw_ret Em.
  assert (A2 : alike d m) by (eapply alike_trans; [apply alike_sym; exact Hd|exact Am]). pose proof (dot_alike d m A2) as E2. rw_ret E2. cbv zeta.
  destruct (outer_square t s s Hs Hs) as [O1 F1]. destruct (outer_square t s m Hs Am) as [O2 F2]. destruct (outer_square t m s Am Hs) as [O3 F3].
  destruct (flat_omega2 RN (nadd (n:=RN)) t t _ _ O3 O2) as (S & ES & OS & FS). rw_ret ES.
  set (c := nadd (n:=RN) inner (Rdot (entries (N:=RN) d) (entries (N:=RN) m))).
  destruct (flat_map1 RN (nmul (n:=RN) c) t t _ O1) as [O4 F4].
  destruct (flat_map1 RN (fun x => ndiv (n:=RN) x (nmul (n:=RN) inner inner)) t t _ O4) as [O5 F5].
  destruct (flat_map1 RN (fun x => ndiv (n:=RN) x inner) t t _ OS) as [O6 F6].
  destruct (flat_omega2 RN (nadd (n:=RN)) t t _ _ HO O5) as (S2 & ES2 & OS2 & FS2).
  destruct (flat_omega2 RN (nsub (n:=RN)) t t _ _ OS2 O6) as (S3 & ES3 & OS3 & FS3).
  exists S3. split; [|split; [exact OS3|]].
  - etransitivity; [apply (f_equal (fun z => obind z _)); exact ES2|]. exact ES3.
  - rewrite FS3, FS2, F6, F5, F4, FS, F1, F2, F3. rewrite mat_mv_RN, vdot_RN, <- Fm. reflexivity.
Qed.

Lemma new_rank1 : forall (t d s : tree (list RN)) H (inner : R), block_operator t t H -> alike t d -> alike t s ->
  exists H', tree_bfgs_direct (N:=RN) inner d s H = Ret H' /\ block_operator t t H' /\
    flat_matrix t H' = bfgs_direct (N:=RN) inner (entries (N:=RN) d) (entries (N:=RN) s) (flat_matrix t H).
Proof.
  intros t d s H inner HO Hd Hs. unfold tree_bfgs_direct, bfgs_direct.
  destruct (mv_square t s H d HO Hs Hd) as (m & Em & Am & Fm). rw_ret Em.
  assert (A2 : alike s m) by (eapply alike_trans; [apply alike_sym; exact Hs|exact Am]). pose proof (dot_alike s m A2) as E2. rw_ret E2. cbv zeta.
  destruct (outer_square t d d Hd Hd) as [O1 F1]. destruct (outer_square t m m Am Am) as [O2 F2].
  destruct (flat_map1 RN (fun x => ndiv (n:=RN) x inner) t t _ O1) as [O5 F5].
  destruct (flat_map1 RN (fun x => ndiv (n:=RN) x (Rdot (entries (N:=RN) s) (entries (N:=RN) m))) t t _ O2) as [O6 F6].
  destruct (flat_omega2 RN (nadd (n:=RN)) t t _ _ HO O5) as (S2 & ES2 & OS2 & FS2).
  destruct (flat_omega2 RN (nsub (n:=RN)) t t _ _ OS2 O6) as (S3 & ES3 & OS3 & FS3).
  exists S3. split; [|split; [exact OS3|]].
  - etransitivity; [apply (f_equal (fun z => obind z _)); exact ES2|]. exact ES3.
  - rewrite FS3, FS2, F6, F5, F1, F2. rewrite mat_mv_RN, vdot_RN, <- Fm. reflexivity.
Qed.

(** DFP swaps the roles of the two differences. *)
Lemma dfp_inv_swap : forall d s inner H, structure s = structure d -> tree_dfp_inverse (N:=RN) inner d s H = tree_bfgs_direct (N:=RN) inner s d H.
Proof. intros d s inner H E. unfold tree_dfp_inverse, tree_bfgs_direct. rewrite E. reflexivity. Qed.
Lemma dfp_dir_swap : forall d s inner H, structure s = structure d -> tree_dfp_direct (N:=RN) inner d s H = tree_bfgs_inverse (N:=RN) inner s d H.
Proof. intros d s inner H E. unfold tree_dfp_direct, tree_bfgs_inverse. rewrite E. reflexivity. Qed.

Lemma new_any : forall dfp ui (t d s : tree (list RN)) H (inner : R), block_operator t t H -> alike t d -> alike t s ->
  exists H', tree_new dfp ui inner d s H = Ret H' /\ block_operator t t H' /\
    flat_matrix t H' = flat_new dfp ui inner (entries (N:=RN) d) (entries (N:=RN) s) (flat_matrix t H).
Proof.
  intros [|] [|] t d s H inner HO Hd Hs; unfold tree_new, flat_new.
  - rewrite dfp_inv_swap by (rewrite (structure_alike _ _ _ Hd); apply structure_alike; exact Hs). apply new_rank1; assumption.
  - rewrite dfp_dir_swap by (rewrite (structure_alike _ _ _ Hd); apply structure_alike; exact Hs). apply new_rank2; assumption.
  - apply new_rank2; assumption.
  - apply new_rank1; assumption.
Qed.

Definition flat_upd (eps : R) (dfp ui : bool) (d s : list R) (M : list (list R)) : list (list R) :=
  if Rltb eps (Rdot d s) then flat_new dfp ui (Rdot d s) d s M else M.

Lemma update_flat : forall eps dfp ui (t y y' g g' : tree (list RN)) H, block_operator t t H ->
  alike t y -> alike t y' -> alike t g -> alike t g' ->
  exists H', tree_update (N:=RN) eps dfp ui y y' g g' H = Ret H' /\ block_operator t t H' /\
    flat_matrix t H' = flat_upd eps dfp ui (Rsub_v (entries (N:=RN) g') (entries (N:=RN) g)) (Rsub_v (entries (N:=RN) y') (entries (N:=RN) y)) (flat_matrix t H).
Proof.
  intros eps dfp ui t y y' g g' H HO Hy Hy' Hg Hg'. unfold tree_update.
  destruct (omega2_alike RN (nsub (n:=RN)) y' y) as (s & Es & As & Fs); [eapply alike_trans; [apply alike_sym; exact Hy'|exact Hy]|].
  destruct (omega2_alike RN (nsub (n:=RN)) g' g) as (d & Ed & Ad & Fd); [eapply alike_trans; [apply alike_sym; exact Hg'|exact Hg]|].
  rw_ret Es. rw_ret Ed.
  assert (Hs : alike t s) by (eapply alike_trans; [exact Hy'|exact As]). assert (Hd : alike t d) by (eapply alike_trans; [exact Hg'|exact Ad]).
  assert (A2 : alike d s) by (eapply alike_trans; [apply alike_sym; exact Hd|exact Hs]). pose proof (dot_alike d s A2) as E2. rw_ret E2.
  assert (F1 : Rsub_v (entries (N:=RN) g') (entries (N:=RN) g) = entries (N:=RN) d) by (rewrite Fd; symmetry; apply vsub_RN).
  assert (F2 : Rsub_v (entries (N:=RN) y') (entries (N:=RN) y) = entries (N:=RN) s) by (rewrite Fs; symmetry; apply vsub_RN).
  rewrite F1, F2. unfold flat_upd. cbn [nltb RN].
  destruct (Rltb eps (Rdot (entries (N:=RN) d) (entries (N:=RN) s))).
  - apply (new_any dfp ui t d s H _ HO Hd Hs).
  - exists H. auto.
Qed.

Lemma flat_upd_new : forall eps dfp ui d s M, flat_upd eps dfp ui d s M = if ui then newH dfp eps d s M else newB dfp eps d s M.
Proof. intros eps dfp ui d s M. unfold flat_upd, flat_new, newH, newB. destruct ui, dfp, (Rltb eps (Rdot d s)); reflexivity. Qed.

(** ** Whole runs *)
Lemma like_sized : forall (t : tree (list RN)) p, point_like t p -> sized (length (entries t)) (flat_point p).
Proof. intros t p [H1 H2]. split; [exact (entries_alike RN _ _ H1)|exact (entries_alike RN _ _ H2)]. Qed.

Lemma hd_map : forall A B (f : A -> B) a l, hd (f a) (map f l) = f (hd a l).
Proof. intros A B f a [|b l]; reflexivity. Qed.

Lemma tree_seq : forall eps dfp ui (t : tree (list RN)) p0 l, point_like t p0 -> Forall (point_like t) l ->
  exists H, tree_after eps dfp ui p0 l = Ret H /\ block_operator t t H /\
    qn_after (qn_init_hessian (N:=RN) ui) (upd dfp eps ui) (flat_point p0) (map flat_point l) =
    (qn_holds ui (length (entries t)) (hd (flat_point p0) (map flat_point l)) (flat_matrix t H), tt).
Proof.
  intros eps dfp ui t p0 l H0 HL. induction HL as [|q l Hq HL IH].
  - destruct (C67_identity_pf RN (tp_y p0)) as (P & E & O & F). exists P. split; [exact E|].
    assert (A : alike (A:=RN) (tp_y p0) t) by (apply alike_sym; apply H0). split; [exact (operator_alike _ _ _ _ _ _ A A O)|].
    cbn [qn_after map hd]. unfold qn_init_hessian. rewrite <- (flat_alike _ _ _ P A). rewrite F.
    pose proof (proj1 (like_sized t p0 H0)) as L. change (Datatypes.length (pt_y (flat_point p0))) with (@length R (pt_y (flat_point p0))). rewrite L.
    assert (L' : length (entries (N:=RN) (tp_y p0)) = length (entries t)) by exact L. rewrite L'.
    destruct ui; reflexivity.
  - destruct IH as (H & E & O & F). assert (Hp : point_like t (hd p0 l)) by (destruct HL; [exact H0|assumption]).
    destruct (update_flat eps dfp ui t (tp_y (hd p0 l)) (tp_y q) (tp_g (hd p0 l)) (tp_g q) H O (proj1 Hp) (proj1 Hq) (proj2 Hp) (proj2 Hq)) as (H' & E' & O' & F').
    exists H'. split; [|split; [exact O'|]].
    + cbn [tree_after]. rewrite E. exact E'.
    + cbn [map qn_after hd]. rewrite F. cbn [fst snd]. rewrite hd_map in *.
      pose proof (upd_eval dfp eps ui (length (entries t)) (flat_point (hd p0 l)) (flat_point q) (flat_matrix t H) (flat_matrix t H) (proj1 (like_sized t _ Hp))) as U.
      cbv zeta in U. assert (E2 : forall X : list (list R), (if ui then X else X) = X) by (intro; destruct ui; reflexivity). rewrite E2 in U.
      etransitivity; [exact U|]. f_equal. f_equal. rewrite F'. symmetry. apply flat_upd_new.
Qed.

(** A quasi-Newton method whose unknown is a pytree, exact arithmetic: for every
    sequence of points like [t], the operator it holds is an operator on trees like
    [t]; its matrix is symmetric positive definite, and it is the matrix held by the
    same method run on the lists of entries. *)
Lemma C67_quasi_newton_pf :
  forall (eps : R) (dfp use_inverse : bool) (t : tree (list R)) p0 l, (0 <= eps)%R ->
    point_like t p0 -> Forall (point_like t) l ->
    let n := length (entries (N:=RN) t) in
    let update := if dfp then dfp_update (N:=RN) eps use_inverse else bfgs_update (N:=RN) eps use_inverse in
    exists H, tree_after eps dfp use_inverse p0 l = Ret H /\ block_operator t t H /\ spd n (flat_matrix t H) /\
      fst (qn_after (qn_init_hessian (N:=RN) use_inverse) update (flat_point p0) (map flat_point l)) =
      qn_holds use_inverse n (flat_point (hd p0 l)) (flat_matrix t H).
Proof.
  intros eps dfp ui t p0 l He H0 HL n update. destruct (tree_seq eps dfp ui t p0 l H0 HL) as (H & E & O & F).
  exists H. split; [exact E|]. split; [exact O|].
  assert (SL : Forall (sized n) (map flat_point l)) by (apply Forall_map; eapply Forall_impl; [|exact HL]; intros p Hp; exact (like_sized t p Hp)).
  destruct (seq_pair dfp n eps (flat_point p0) (map flat_point l) He (like_sized t p0 H0) SL) as (A & B & SA & SB & _ & K).
  rewrite hd_map in *. split.
  - pose proof (eq_trans (eq_sym F) (K ui)) as Q. apply (f_equal fst) in Q. cbn [fst] in Q. apply qn_holds_inj in Q.
    assert (Q' : flat_matrix t H = if ui then A else B) by exact Q. rewrite Q'. destruct ui; assumption.
  - exact (f_equal fst F).
Qed.

(** Trees like each other with the same entries are equal. *)
Lemma entries_inj : forall (N : Num) (a b : tree (list N)), alike a b -> entries a = entries b -> a = b.
Proof.
  intro N. apply (same_ind _ _ _ (fun a b : tree (list N) => entries a = entries b -> a = b)).
  - intros x y _ E. unfold entries in E. cbn in E. rewrite !app_nil_r in E. congruence.
  - intros tag ts us HS HF E. f_equal. rewrite !entries_node in E. revert E. induction HF as [|t u ts us H HF IH]; intro E; [reflexivity|].
    inversion HS as [|? ? ? ? HS1 HS2]; subst. cbn in E. pose proof (same_entries N t u HS1) as L.
    assert (K : entries t = entries u /\ concat (map entries ts) = concat (map entries us)).
    { revert E L. generalize (entries t) (entries u) (concat (map entries ts)) (concat (map entries us)). clear.
      induction l as [|x l IH]; intros [|y l'] m m' E L; try discriminate; [auto|]. cbn in E. injection E as -> E.
      destruct (IH l' m m' E ltac:(cbn in L; congruence)) as [-> ->]. auto. }
    destruct K as [K1 K2]. rewrite (H K1), (IH HS2 K2). reflexivity.
Qed.

(** The docstring of `_identity_pytree`: its operator maps every tree like its argument
    to itself. *)
Lemma C67_identity_mv_pf :
  forall (t x : tree (list R)), alike t x ->
    exists P, identity_pytree (N:=RN) t = Ret P /\ tree_mv (N:=RN) (structure t) P x = Ret x.
Proof.
  intros t x Hx. destruct (C67_identity_pf RN t) as (P & E & O & F). exists P. split; [exact E|].
  destruct (mv_square t x P t O Hx (alike_refl _ t)) as (r & Er & Ar & Fr).
  assert (r = x); [|subst r; exact Er]. apply (entries_inj RN).
  - eapply alike_trans; [apply alike_sym; exact Ar|exact Hx].
  - rewrite Fr, F. apply identity_mv. exact (entries_alike RN _ _ Hx).
Qed.

(** The secant equation on pytrees: when the curvature exceeds eps, the updated operator
    maps the difference of the gradients to the difference of the points
    (`use_inverse`), or the other way round. *)
Lemma C67_secant_pf :
  forall (eps : R) (dfp use_inverse : bool) (t : tree (list R)) p0 l q y_diff grad_diff, (0 <= eps)%R ->
    point_like t p0 -> Forall (point_like t) (q :: l) ->
    omega2 (N:=RN) Rminus (tp_y q) (tp_y (hd p0 l)) = Ret y_diff ->
    omega2 (N:=RN) Rminus (tp_g q) (tp_g (hd p0 l)) = Ret grad_diff ->
    (eps < Rdot (entries (N:=RN) grad_diff) (entries (N:=RN) y_diff))%R ->
    exists H, tree_after eps dfp use_inverse p0 (q :: l) = Ret H /\
      tree_mv (N:=RN) (structure t) H (if use_inverse then grad_diff else y_diff) =
      Ret (if use_inverse then y_diff else grad_diff).
Proof.
  intros eps dfp ui t p0 l q s d He H0 HL Es Ed Hc. inversion HL as [|? ? Hq HL']; subst.
  destruct (tree_seq eps dfp ui t p0 l H0 HL') as (M & EM & OM & FM). destruct (tree_seq eps dfp ui t p0 (q :: l) H0 HL) as (H & E & O & F).
  exists H. split; [exact E|].
  assert (Hp : point_like t (hd p0 l)) by (destruct HL'; [exact H0|assumption]).
  destruct (omega2_alike RN (nsub (n:=RN)) (tp_y q) (tp_y (hd p0 l))) as (s' & Es' & As & Fs); [eapply alike_trans; [apply alike_sym; exact (proj1 Hq)|exact (proj1 Hp)]|].
  destruct (omega2_alike RN (nsub (n:=RN)) (tp_g q) (tp_g (hd p0 l))) as (d' & Ed' & Ad & Fd); [eapply alike_trans; [apply alike_sym; exact (proj2 Hq)|exact (proj2 Hp)]|].
  assert (s' = s) by (pose proof (eq_trans (eq_sym Es') Es) as K; injection K; auto). subst s'.
  assert (d' = d) by (pose proof (eq_trans (eq_sym Ed') Ed) as K; injection K; auto). subst d'.
  assert (Hs : alike (A:=RN) t s) by (eapply alike_trans; [exact (proj1 Hq)|exact As]). assert (Hd : alike (A:=RN) t d) by (eapply alike_trans; [exact (proj2 Hq)|exact Ad]).
  set (n := length (entries (N:=RN) t)).
  assert (SL : Forall (sized n) (map flat_point (q :: l))) by (apply Forall_map; eapply Forall_impl; [|exact HL]; intros p Hp'; exact (like_sized t p Hp')).
  pose proof (seq_secant dfp n eps ui (flat_point p0) (map flat_point l) (flat_point q) _ _ He (like_sized t p0 H0) SL (f_equal fst FM) (f_equal fst F)) as [K _].
  rewrite hd_map in K. cbn [pt_y pt_g flat_point] in K.
  assert (F1 : Rsub_v (entries (N:=RN) (tp_g q)) (entries (N:=RN) (tp_g (hd p0 l))) = entries (N:=RN) d) by (rewrite Fd; symmetry; apply vsub_RN).
  assert (F2 : Rsub_v (entries (N:=RN) (tp_y q)) (entries (N:=RN) (tp_y (hd p0 l))) = entries (N:=RN) s) by (rewrite Fs; symmetry; apply vsub_RN).
  rewrite F1, F2 in K. specialize (K Hc).
  destruct ui.
  - destruct (mv_square t d H t O Hd (alike_refl _ t)) as (r & Er & Ar & Fr). assert (r = s); [|subst r; exact Er].
    apply (entries_inj RN); [eapply alike_trans; [apply alike_sym; exact Ar|exact Hs]|]. rewrite Fr. exact K.
  - destruct (mv_square t s H t O Hs (alike_refl _ t)) as (r & Er & Ar & Fr). assert (r = d); [|subst r; exact Er].
    apply (entries_inj RN); [eapply alike_trans; [apply alike_sym; exact Ar|exact Hd]|]. rewrite Fr. exact K.
Qed.

(** ** Examples *)
(** A tree with a leaf and a pair of leaves: the identity is a 3 x 3 tree of blocks. *)
Definition tree3 {A : Type} (a b c : A) : tree (list A) := Node "dict" [Leaf [a]; Node "tuple" [Leaf [b]; Leaf [c]]].
Example C67_identity_ex_pf :
  exists P, identity_pytree (N:=RN) (tree3 2 3 5)%R = Ret P /\
    flat_matrix (tree3 2 3 5)%R P = map (map Q2R) [[1; 0; 0]; [0; 1; 0]; [0; 0; 1]]%Q.
Proof.
  generalize 2%R 3%R 5%R. intros a b c.
  eexists. split; [cbv -[Q2R R]; reflexivity|cbv -[Q2R R]; reflexivity].
Qed.

(** Two points on such a tree, with f = (a^2 + b^2 + c^2)/2 + a^2: the hypotheses of the
    secant theorem hold. *)
Example C67_secant_ex_pf :
  let p := mkTreePoint (tree3 0 0 0)%R 0%R (tree3 0 0 0)%R in
  let q := mkTreePoint (tree3 1 1 0)%R 2%R (tree3 3 1 0)%R in
  point_like (tree3 0 0 0)%R p /\ Forall (point_like (tree3 0 0 0)%R) [q] /\
  exists y_diff grad_diff,
    omega2 (N:=RN) Rminus (tp_y q) (tp_y (hd p [])) = Ret y_diff /\
    omega2 (N:=RN) Rminus (tp_g q) (tp_g (hd p [])) = Ret grad_diff /\
    (1 / 2 < Rdot (entries (N:=RN) grad_diff) (entries (N:=RN) y_diff))%R /\
    exists H, tree_after (1 / 2) false true p [q] = Ret H /\ tree_mv (N:=RN) (structure (tree3 0 0 0)%R) H grad_diff = Ret y_diff.
Proof.
  assert (L : forall a b c : R, alike (tree3 0 0 0)%R (tree3 a b c)) by (intros; repeat constructor).
  intros p q. assert (Hp : point_like (tree3 0 0 0)%R p) by (split; apply L). assert (Hq : Forall (point_like (tree3 0 0 0)%R) [q]) by (constructor; [split; apply L|constructor]).
  split; [exact Hp|]. split; [exact Hq|]. eexists. eexists. split; [reflexivity|]. split; [reflexivity|].
  assert (G : (1 / 2 < Rdot (entries (N:=RN) (tree3 (3 - 0) (1 - 0) (0 - 0))%R) (entries (N:=RN) (tree3 (1 - 0) (1 - 0) (0 - 0))%R))%R) by (cbn; lra).
  split; [exact G|].
  exact (C67_secant_pf (1 / 2) false true _ p [] q _ _ ltac:(lra) Hp Hq eq_refl eq_refl G).
Qed.

(** A matrix-vector product on such trees *)
Example C67_mv_ex_pf :
  block_operator (tree3 1 2 3)%R (tree3 4 5 6)%R (tree_outer (N:=RN) (tree3 1 2 3)%R (tree3 4 5 6)%R) /\
  (exists r, tree_mv (N:=RN) (structure (tree3 1 2 3)%R) (tree_outer (N:=RN) (tree3 1 2 3)%R (tree3 4 5 6)%R) (tree3 1 0 1)%R = Ret r /\
     entries (N:=RN) r = [10; 20; 30]%R).
Proof.
  destruct (C67_outer_pf RN (tree3 1 2 3)%R (tree3 4 5 6)%R) as [O F]. split; [exact O|].
  destruct (C67_mv_pf (tree3 1 2 3)%R (tree3 4 5 6)%R (tree3 1 0 1)%R _ O) as (r & E & _ & Fr); [repeat constructor|right; discriminate|].
  exists r. split; [exact E|]. rewrite Fr. cbn. repeat (f_equal; try lra).
Qed.
