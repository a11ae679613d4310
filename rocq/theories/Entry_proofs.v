(** Proofs about the entry points' checks. *)

From Coq Require Import String List Bool Arith Lia.
From Verif Require Import PyTree Spec_PyTree PyTree_proofs Entry Spec_Entry.
Import ListNotations.
Local Open Scope nat_scope.

Lemma canonical_idem : forall x64 d, canonical x64 (canonical x64 d) = canonical x64 d.
Proof.
  intros [|] d; [reflexivity|]. unfold canonical.
  destruct d as [|s n|n| |n]; try reflexivity; f_equal.
  - destruct (n =? 64) eqn:E; [reflexivity|]. rewrite E. reflexivity.
  - destruct (n =? 64) eqn:E; [reflexivity|]. rewrite E. reflexivity.
  - destruct (n =? 128) eqn:E; [reflexivity|]. rewrite E. reflexivity.
Qed.

Lemma canonical_float : forall x64 n, n <> 64 -> canonical x64 (DFloat n) = DFloat n.
Proof. intros [|] n H; [reflexivity|]. cbn -[Nat.eqb]. apply Nat.eqb_neq in H. rewrite H. reflexivity. Qed.
Lemma canonical_complex : forall x64 n, n <> 128 -> canonical x64 (DComplex n) = DComplex n.
Proof. intros [|] n H; [reflexivity|]. cbn -[Nat.eqb]. apply Nat.eqb_neq in H. rewrite H. reflexivity. Qed.
Lemma canonical_int : forall x64 s n, exists m, canonical x64 (DInt s n) = DInt s m.
Proof. intros [|] s n; eexists; reflexivity. Qed.

Lemma inexact_shape : forall x64 v, has_shape v (sd_shape (inexact_asarray x64 v)).
Proof. intros x64 [| | | |a]; reflexivity. Qed.

Lemma inexact_stored : forall x64 v, stored x64 v (sd_dtype (inexact_asarray x64 v)).
Proof.
  intros x64 [| | | |[sh d]].
  - destruct x64; constructor.
  - destruct x64; constructor.
  - destruct x64; constructor.
  - destruct x64; constructor.
  - cbn [inexact_asarray sd_dtype result_type]. destruct d as [|s n|n| |n].
    + destruct x64; constructor.
    + destruct (canonical_int x64 s n) as [m ->]. cbn. destruct x64; constructor.
    + destruct (Nat.eq_dec n 64) as [->|H].
      * destruct x64; apply st_afloat64.
      * rewrite (canonical_float x64 n H). cbn. constructor. exact H.
    + destruct x64; constructor.
    + destruct (Nat.eq_dec n 128) as [->|H].
      * destruct x64; apply st_acomplex128.
      * rewrite (canonical_complex x64 n H). cbn. constructor. exact H.
Qed.

Lemma stored_fun : forall x64 v d d', stored x64 v d -> stored x64 v d' -> d = d'.
Proof. intros x64 v d d' H H'. inversion H; subst; inversion H'; subst; congruence. Qed.

Lemma shape_fun : forall v sh sh', has_shape v sh -> has_shape v sh' -> sh = sh'.
Proof. intros [| | | |a] sh sh' H H'; cbn in *; congruence. Qed.

Lemma conv_map : forall x64 t, converted x64 t (tree_map1 (inexact_asarray x64) t).
Proof.
  intro x64. induction t as [v|tag ts IH] using tree_ind_nested; cbn.
  - constructor. split; [apply inexact_shape|apply inexact_stored].
  - constructor. induction IH; cbn; constructor; assumption.
Qed.

Lemma conv_fun : forall x64 t u, converted x64 t u -> u = tree_map1 (inexact_asarray x64) t.
Proof.
  intros x64. apply (same_ind _ _ _ (fun t u => u = tree_map1 (inexact_asarray x64) t)).
  - intros v [sh d] [H1 H2]. cbn. f_equal. cbn in H1, H2.
    rewrite (shape_fun _ _ _ H1 (inexact_shape x64 v)), (stored_fun _ _ _ _ H2 (inexact_stored x64 v)).
    destruct (inexact_asarray x64 v); reflexivity.
  - intros tag ts us _ H. cbn. f_equal. induction H; cbn; congruence.
Qed.

Lemma shape_eqb_eq : forall a b, shape_eqb a b = true <-> a = b.
Proof.
  induction a as [|x a IH]; intros [|y b]; cbn; split; intro H; try congruence.
  - apply andb_prop in H. destruct H as [H1 H2]. apply Nat.eqb_eq in H1. apply IH in H2. congruence.
  - inversion H; subst. rewrite Nat.eqb_refl. apply (proj2 (IH b) eq_refl).
Qed.

Lemma dtype_eqb_eq : forall a b, dtype_eqb a b = true <-> a = b.
Proof.
  intros [|s n|n| |n] [|s' n'|n'| |n']; cbn; split; intro H; try congruence; try discriminate.
  - apply andb_prop in H. destruct H as [H1 H2]. apply eqb_prop in H1. apply Nat.eqb_eq in H2. congruence.
  - inversion H. rewrite eqb_reflx, Nat.eqb_refl. reflexivity.
  - apply Nat.eqb_eq in H. congruence.
  - inversion H. apply Nat.eqb_refl.
  - apply Nat.eqb_eq in H. congruence.
  - inversion H. apply Nat.eqb_refl.
Qed.

Lemma struct_eqb_eq : forall t u, struct_eqb t u = true <-> t = u.
Proof.
  induction t as [[sh d]|tag ts IH] using tree_ind_nested; intros [[sh' d']|tag' us]; cbn; split; intro H; try discriminate.
  - apply andb_prop in H. destruct H as [H1 H2]. cbn in H1, H2. apply shape_eqb_eq in H1. apply dtype_eqb_eq in H2. congruence.
  - inversion H; subst. unfold sds_eqb. cbn. rewrite (proj2 (shape_eqb_eq sh' sh') eq_refl). apply (proj2 (dtype_eqb_eq d' d') eq_refl).
  - apply andb_prop in H. destruct H as [H1 H2]. apply String.eqb_eq in H1. subst. f_equal.
    revert us H2. induction IH as [|t ts Ht _ IHts]; intros [|u us] H2; try discriminate; [reflexivity|].
    apply andb_prop in H2. destruct H2 as [H2 H3]. apply Ht in H2. apply IHts in H3. congruence.
  - inversion H; subst. rewrite String.eqb_refl. cbn. clear H.
    induction IH as [|t ts Ht _ IHts]; [reflexivity|]. rewrite (proj2 (Ht t) eq_refl). exact IHts.
Qed.

Lemma inexact_inexact : forall x64 v, inexact (sd_dtype (inexact_asarray x64 v)) = true.
Proof.
  intros x64 v. cbn. destruct (inexact (result_type x64 v)) eqn:E; [exact E|]. destruct x64; reflexivity.
Qed.

Lemma result_canonical : forall x64 v, canonical x64 (result_type x64 v) = result_type x64 v.
Proof. intros x64 [| | | |a]; cbn; try apply canonical_idem. destruct x64; reflexivity. Qed.

Lemma inexact_idem : forall x64 v, inexact_asarray x64 (Arr (inexact_asarray x64 v)) = inexact_asarray x64 v.
Proof.
  intros x64 v. unfold inexact_asarray. cbn [shape_of sd_shape result_type sd_dtype].
  assert (E : canonical x64 (if inexact (result_type x64 v) then result_type x64 v else default_floating_dtype x64)
              = (if inexact (result_type x64 v) then result_type x64 v else default_floating_dtype x64)).
  { destruct (inexact (result_type x64 v)); [apply result_canonical|apply canonical_idem]. }
  rewrite E. f_equal.
  pose proof (inexact_inexact x64 v) as H. cbn in H. rewrite H. reflexivity.
Qed.

Lemma map_map_tree : forall A B C (f : A -> B) (g : B -> C) t, tree_map1 g (tree_map1 f t) = tree_map1 (fun a => g (f a)) t.
Proof.
  intros A B C f g. induction t as [a|tag ts IH] using tree_ind_nested; cbn; [reflexivity|].
  f_equal. rewrite map_map. induction IH; cbn; congruence.
Qed.

Lemma map_ext_tree : forall A B (f g : A -> B) t, (forall a, f a = g a) -> tree_map1 f t = tree_map1 g t.
Proof.
  intros A B f g t H. induction t as [a|tag ts IH] using tree_ind_nested; cbn; [rewrite H; reflexivity|].
  f_equal. induction IH; cbn; congruence.
Qed.

Lemma tree_idem : forall x64 t,
  tree_map1 (inexact_asarray x64) (arrays (tree_map1 (inexact_asarray x64) t)) = tree_map1 (inexact_asarray x64) t.
Proof.
  intros x64 t. unfold arrays. rewrite !map_map_tree. apply map_ext_tree. intro v. apply inexact_idem.
Qed.

Lemma leaves_map : forall A B (f : A -> B) t, leaves (tree_map1 f t) = map f (leaves t).
Proof.
  intros A B f. induction t as [a|tag ts IH] using tree_ind_nested; cbn; [reflexivity|].
  induction IH; cbn; [reflexivity|]. rewrite map_app. congruence.
Qed.

Lemma real_floating : forall x64 v,
  shape_eqb (sd_shape (inexact_asarray x64 v)) [] && floating (sd_dtype (inexact_asarray x64 v)) = true <-> real_scalar v.
Proof.
  intros x64 v. rewrite andb_true_iff, shape_eqb_eq. unfold real_scalar.
  pose proof (inexact_shape x64 v) as HS. pose proof (inexact_stored x64 v) as HD.
  set (s := inexact_asarray x64 v) in *. clearbody s. split; intros [H1 H2].
  - split; [rewrite H1 in HS; exact HS|].
    destruct HD; cbn; try exact I; try congruence; try (destruct x64; discriminate H2).
  - split; [exact (shape_fun _ _ _ HS H1)|].
    destruct HD; try reflexivity; try (destruct x64; reflexivity); exfalso; try exact H2; exact (H2 _ eq_refl).
Qed.

Lemma out_none_aux : forall x64 fn y, exists a,
  out_as_array x64 (none_aux fn) y = Ready (tree_map1 (inexact_asarray x64) (value_of fn y), a).
Proof. intros x64 [f|f] y; cbn; [eexists; reflexivity|]. destruct (f y). eexists; reflexivity. Qed.

Lemma minimise_ready : forall x64 fn y0 out aux,
  fn (tree_map1 (inexact_asarray x64) y0) = Ready (out, aux) ->
  ((exists v, out = Leaf v /\ real_scalar v) ->
   minimise_entry x64 fn y0 = Ready (tree_map1 (inexact_asarray x64) y0, tree_map1 (inexact_asarray x64) out, tree_map1 (asarray x64) aux)) /\
  (~ (exists v, out = Leaf v /\ real_scalar v) -> minimise_entry x64 fn y0 = Raised EValueError).
Proof.
  intros x64 fn y0 out aux E. unfold minimise_entry, out_as_array. rewrite E. cbn [ebind]. split.
  - intros [v [-> Hv]]. cbn [tree_map1]. rewrite (proj2 (real_floating x64 v) Hv). reflexivity.
  - intro H. destruct out as [v|tag ts]; cbn [tree_map1]; [|reflexivity].
    destruct (shape_eqb (sd_shape (inexact_asarray x64 v)) [] && floating (sd_dtype (inexact_asarray x64 v))) eqn:F; [|reflexivity].
    exfalso. apply H. exists v. split; [reflexivity|]. apply (real_floating x64). exact F.
Qed.

(** minimise accepts exactly the functions whose value, at the converted y0, is one real
    scalar; integers and booleans are accepted, and converted.  Otherwise: ValueError. *)
Lemma C78_minimise_pf :
  forall (x64 : bool) (fn : user_fn) (y0 : tree pyval), exists y,
    converted x64 y0 y /\
    ((exists v, value_of fn y = Leaf v /\ real_scalar v) ->
     exists f a, minimise_entry x64 (none_aux fn) y0 = Ready (y, f, a) /\ converted x64 (value_of fn y) f) /\
    (~ (exists v, value_of fn y = Leaf v /\ real_scalar v) ->
     minimise_entry x64 (none_aux fn) y0 = Raised EValueError).
Proof.
  intros x64 fn y0. exists (tree_map1 (inexact_asarray x64) y0). split; [apply conv_map|].
  assert (E : exists aux, none_aux fn (tree_map1 (inexact_asarray x64) y0) = Ready (value_of fn (tree_map1 (inexact_asarray x64) y0), aux)).
  { destruct fn as [f|f]; cbn; [eexists; reflexivity|]. destruct (f _). eexists; reflexivity. }
  destruct E as [aux E]. destruct (minimise_ready _ _ _ _ _ E) as [H1 H2]. split; [|exact H2].
  intro H. eexists _, _. split; [exact (H1 H)|apply conv_map].
Qed.

(** Two minimisations: of an integer-valued function (accepted, as a float32), and of a
    function returning a vector (rejected). *)
Lemma C78_minimise_ex_pf :
  minimise_entry false (none_aux (Plain (fun _ => Leaf PyInt))) (Node "tuple" [Leaf PyFloat; Leaf (Arr (mkSds [3] (DFloat 16)))])
    = Ready (Node "tuple" [Leaf (mkSds [] (DFloat 32)); Leaf (mkSds [3] (DFloat 16))], Leaf (mkSds [] (DFloat 32)), Node "None" []) /\
  minimise_entry false (none_aux (Plain (fun y => arrays y))) (Leaf (Arr (mkSds [3] (DFloat 32)))) = Raised EValueError /\
  minimise_entry true (none_aux (Plain (fun _ => Leaf PyComplex))) (Leaf PyFloat) = Raised EValueError.
Proof. repeat split. Qed.

(** root_find hands every function to its solver; with a minimiser it raises ValueError
    exactly when the solver's norm of the function's value is not a real scalar. *)
Lemma C78_root_find_pf :
  forall (x64 : bool) (norm : tree sds -> pyval) (k : solver_kind) (fn : user_fn) (y0 : tree pyval),
    exists y root, converted x64 y0 y /\ converted x64 (value_of fn y) root /\
    (k <> KMinimiser -> exists a, root_find_entry x64 norm k (none_aux fn) y0 = Ready (y, root, a)) /\
    (k = KMinimiser -> real_scalar (norm root) ->
     exists f a, root_find_entry x64 norm k (none_aux fn) y0 = Ready (y, f, a) /\ converted x64 (Leaf (norm root)) f) /\
    (k = KMinimiser -> ~ real_scalar (norm root) ->
     root_find_entry x64 norm k (none_aux fn) y0 = Raised EValueError).
Proof.
  intros x64 norm k fn y0. set (y := tree_map1 (inexact_asarray x64) y0).
  exists y, (tree_map1 (inexact_asarray x64) (value_of fn y)).
  split; [apply conv_map|]. split; [apply conv_map|].
  destruct (out_none_aux x64 fn y) as [a E].
  split; [|split].
  - intro K. destruct k; cbn [root_find_entry]; try congruence; fold y; rewrite E; eexists; reflexivity.
  - intros -> HR. cbn [root_find_entry].
    edestruct (minimise_ready x64 (fun y => ebind (out_as_array x64 (none_aux fn) y) (fun '(root, aux) =>
             Ready (Leaf (norm root), Node "tuple" [arrays root; arrays aux]))) y0) as [H1 _].
    { fold y. rewrite E. reflexivity. }
    rewrite H1; [|eexists; split; [reflexivity|exact HR]]. eexists _, _. split; [reflexivity|apply conv_map].
  - intros -> HR. cbn [root_find_entry].
    edestruct (minimise_ready x64 (fun y => ebind (out_as_array x64 (none_aux fn) y) (fun '(root, aux) =>
             Ready (Leaf (norm root), Node "tuple" [arrays root; arrays aux]))) y0) as [_ H2].
    { fold y. rewrite E. reflexivity. }
    apply H2. intros [v [Ev Hv]]. inversion Ev; subst. exact (HR Hv).
Qed.

(** A minimiser used for a root-find whose norm is a float, and one whose norm returns a vector *)
Lemma C78_root_find_ex_pf :
  (exists a, root_find_entry false (fun _ => PyFloat) KMinimiser (none_aux (Plain (fun y => arrays y))) (Leaf PyInt)
    = Ready (Leaf (mkSds [] (DFloat 32)), Leaf (mkSds [] (DFloat 32)), a)) /\
  root_find_entry false (fun _ => Arr (mkSds [2] (DFloat 32))) KMinimiser (none_aux (Plain (fun y => arrays y))) (Leaf PyInt)
    = Raised EValueError.
Proof. split; [eexists|]; reflexivity. Qed.

(** The same for least_squares, with half the sum of squares in place of the norm. *)
Lemma C78_least_squares_pf :
  forall (x64 : bool) (hss : tree sds -> pyval) (k : solver_kind) (fn : user_fn) (y0 : tree pyval),
    exists y residual, converted x64 y0 y /\ converted x64 (value_of fn y) residual /\
    (k <> KMinimiser -> exists a, least_squares_entry x64 hss k fn y0 = Ready (y, residual, a)) /\
    (k = KMinimiser -> real_scalar (hss residual) ->
     exists f a, least_squares_entry x64 hss k fn y0 = Ready (y, f, a) /\ converted x64 (Leaf (hss residual)) f).
Proof.
  intros x64 hss k fn y0. set (y := tree_map1 (inexact_asarray x64) y0).
  exists y, (tree_map1 (inexact_asarray x64) (value_of fn y)).
  split; [apply conv_map|]. split; [apply conv_map|].
  destruct (out_none_aux x64 fn y) as [a E].
  split.
  - intro K. destruct k; cbn [least_squares_entry]; try congruence; fold y; rewrite E; eexists; reflexivity.
  - intros -> HR. cbn [least_squares_entry].
    edestruct (minimise_ready x64 (fun y => ebind (out_as_array x64 (none_aux fn) y) (fun '(residual, aux) =>
             Ready (Leaf (hss residual), arrays aux))) y0) as [H1 _].
    { fold y. rewrite E. reflexivity. }
    rewrite H1; [|eexists; split; [reflexivity|exact HR]]. eexists _, _. split; [reflexivity|apply conv_map].
Qed.

(** A least-squares problem with integer residuals, given to a least-squares solver and to a minimiser *)
Lemma C78_least_squares_ex_pf :
  (exists a, least_squares_entry true (fun _ => PyFloat) KLeastSquares (Plain (fun _ => Leaf (Arr (mkSds [5] (DInt true 32))))) (Leaf PyInt)
    = Ready (Leaf (mkSds [] (DFloat 64)), Leaf (mkSds [5] (DFloat 64)), a)) /\
  (exists a, least_squares_entry true (fun _ => PyFloat) KMinimiser (Plain (fun _ => Leaf (Arr (mkSds [5] (DInt true 32))))) (Leaf PyInt)
    = Ready (Leaf (mkSds [] (DFloat 64)), Leaf (mkSds [] (DFloat 64)), a)).
Proof. split; eexists; reflexivity. Qed.

(** fixed_point accepts exactly the functions whose value has the containers, shapes and
    dtypes of the converted y0, whichever of the four kinds of solver is given; otherwise
    it raises ValueError. *)
Lemma C78_fixed_point_pf :
  forall (x64 : bool) (norm : tree sds -> pyval) (k : solver_kind) (fn : user_fn) (y0 : tree pyval),
    (k = KMinimiser -> forall t, real_scalar (norm t)) ->
    exists y, converted x64 y0 y /\
    (converted x64 (value_of fn y) y ->
     exists f a, fixed_point_entry x64 norm k fn y0 = Ready (y, f, a) /\ (k <> KMinimiser -> f = y)) /\
    (~ converted x64 (value_of fn y) y -> fixed_point_entry x64 norm k fn y0 = Raised EValueError).
Proof.
  intros x64 norm k fn y0 HN. set (y := tree_map1 (inexact_asarray x64) y0). exists y. split; [apply conv_map|].
  destruct (out_none_aux x64 fn y) as [a E].
  set (out := tree_map1 (inexact_asarray x64) (value_of fn y)) in *.
  assert (HE : converted x64 (value_of fn y) y <-> struct_eqb y out = true).
  { rewrite struct_eqb_eq. split; intro H; [exact (conv_fun _ _ _ H)|]. rewrite H at 2. apply conv_map. }
  set (F := to_root_fn (out_as_array x64 (none_aux fn))).
  assert (HT : forall b, struct_eqb y out = b ->
     out_as_array x64 F y = if b then Ready (out, tree_map1 (asarray x64) (arrays a)) else Raised EValueError).
  { intros b Hb. unfold out_as_array at 1. unfold F, to_root_fn. rewrite E. cbn [ebind]. rewrite Hb.
    destruct b; [|reflexivity]. cbn [ebind]. unfold out at 1; rewrite (tree_idem x64 (value_of fn y)). reflexivity. }
  assert (HO : struct_eqb y out = true -> out = y) by (intro H; symmetry; apply struct_eqb_eq; exact H).
  split; intro H.
  - apply HE in H. specialize (HT true H). cbv iota in HT. specialize (HO H).
    destruct k; cbn [fixed_point_entry root_find_entry]; fold y F.
    + rewrite E. cbn [ebind]. rewrite H. eexists _, _. split; [reflexivity|]. intros _. exact HO.
    + rewrite HT. eexists _, _. split; [reflexivity|]. intros _. exact HO.
    + rewrite HT. eexists _, _. split; [reflexivity|]. intros _. exact HO.
    + edestruct (minimise_ready x64 (fun y => ebind (out_as_array x64 F y) (fun '(root, aux) =>
             Ready (Leaf (norm root), Node "tuple" [arrays root; arrays aux]))) y0) as [H1 _].
      { fold y. rewrite HT. reflexivity. }
      rewrite H1; [|eexists; split; [reflexivity|apply HN; reflexivity]]. eexists _, _. split; [reflexivity|]. intro K. congruence.
  - assert (Hb : struct_eqb y out = false).
    { destruct (struct_eqb y out) eqn:Q; [|reflexivity]. exfalso. apply H, HE. reflexivity. }
    specialize (HT false Hb). cbv iota in HT.
    destruct k; cbn [fixed_point_entry root_find_entry]; fold y F.
    + rewrite E. cbn [ebind]. rewrite Hb. reflexivity.
    + rewrite HT. reflexivity.
    + rewrite HT. reflexivity.
    + unfold minimise_entry. fold y. unfold out_as_array at 1. rewrite HT. reflexivity.
Qed.

(** The identity is accepted from a tuple of an integer and a float16 vector; a function
    that drops one of the two, or returns float32 for a float16, is rejected by every kind. *)
Lemma C78_fixed_point_ex_pf :
  let y0 := Node "tuple" [Leaf PyInt; Leaf (Arr (mkSds [2] (DFloat 16)))] in
  forall k, (exists y f a, fixed_point_entry false (fun _ => PyFloat) k (Plain (fun y => arrays y)) y0 = Ready (y, f, a)) /\
    fixed_point_entry false (fun _ => PyFloat) k (Plain (fun _ => Node "tuple" [Leaf PyInt])) y0 = Raised EValueError /\
    fixed_point_entry false (fun _ => PyFloat) k (Plain (fun _ => Node "tuple" [Leaf PyInt; Leaf (Arr (mkSds [2] (DFloat 32)))])) y0 = Raised EValueError.
Proof. intros y0 [| | |]; repeat split; try reflexivity; eexists _, _, _; reflexivity. Qed.

Lemma inexact_leaves : forall x64 t s, In s (leaves (tree_map1 (inexact_asarray x64) t)) -> inexact (sd_dtype s) = true.
Proof.
  intros x64 t s H. rewrite leaves_map in H. apply in_map_iff in H. destruct H as [v [<- _]]. apply inexact_inexact.
Qed.

Lemma minimise_form : forall x64 fn y0 y f a, minimise_entry x64 fn y0 = Ready (y, f, a) ->
  y = tree_map1 (inexact_asarray x64) y0 /\ exists v, f = Leaf (inexact_asarray x64 v) /\ real_scalar v.
Proof.
  intros x64 fn y0 y f a H. unfold minimise_entry, out_as_array in H.
  destruct (fn (tree_map1 (inexact_asarray x64) y0)) as [[out aux]|e] eqn:E; [|discriminate]. cbn [ebind] in H.
  destruct out as [v|tag ts]; cbn [tree_map1] in H; [|discriminate].
  destruct (shape_eqb (sd_shape (inexact_asarray x64 v)) [] && floating (sd_dtype (inexact_asarray x64 v))) eqn:F; [|discriminate].
  inversion H; subst. split; [reflexivity|]. exists v. split; [reflexivity|]. apply (real_floating x64). exact F.
Qed.

Lemma root_form : forall x64 norm k fn y0 y f a, root_find_entry x64 norm k fn y0 = Ready (y, f, a) ->
  y = tree_map1 (inexact_asarray x64) y0 /\ exists t, f = tree_map1 (inexact_asarray x64) t.
Proof.
  intros x64 norm k fn y0 y f a H. destruct k; cbn [root_find_entry] in H.
  4: { apply minimise_form in H. destruct H as [-> [v [-> _]]]. split; [reflexivity|]. exists (Leaf v). reflexivity. }
  all: unfold out_as_array in H; destruct (fn (tree_map1 (inexact_asarray x64) y0)) as [[out aux]|e]; [|discriminate];
    inversion H; subst; split; [reflexivity|eexists; reflexivity].
Qed.

Lemma fixed_form : forall x64 norm k fn y0 y f a, fixed_point_entry x64 norm k fn y0 = Ready (y, f, a) ->
  y = tree_map1 (inexact_asarray x64) y0 /\ exists t, f = tree_map1 (inexact_asarray x64) t.
Proof.
  intros x64 norm k fn y0 y f a H. destruct k; cbn [fixed_point_entry] in H; try (apply root_form in H; exact H).
  destruct (out_none_aux x64 fn (tree_map1 (inexact_asarray x64) y0)) as [b E]. rewrite E in H. cbn [ebind] in H.
  match type of H with (if ?c then _ else _) = _ => destruct c; [|discriminate] end.
  inversion H; subst. split; [reflexivity|eexists; reflexivity].
Qed.

Lemma lsq_form : forall x64 hss k fn y0 y f a, least_squares_entry x64 hss k fn y0 = Ready (y, f, a) ->
  y = tree_map1 (inexact_asarray x64) y0 /\ exists t, f = tree_map1 (inexact_asarray x64) t.
Proof.
  intros x64 hss k fn y0 y f a H. destruct (out_none_aux x64 fn (tree_map1 (inexact_asarray x64) y0)) as [b E].
  destruct k; cbn [least_squares_entry] in H.
  4: { apply minimise_form in H. destruct H as [-> [v [-> _]]]. split; [reflexivity|]. exists (Leaf v). reflexivity. }
  all: rewrite E in H; inversion H; subst; split; [reflexivity|eexists; reflexivity].
Qed.

(** Whatever the entry point, the solver only sees floating-point or complex arrays, in y
    and in the value of the function; and y is the converted y0. *)
Lemma C78_inexact_pf :
  forall (x64 : bool) (hss norm : tree sds -> pyval) (k : solver_kind) (fn : user_fn) (y0 : tree pyval) y f a,
    minimise_entry x64 (none_aux fn) y0 = Ready (y, f, a) \/
    least_squares_entry x64 hss k fn y0 = Ready (y, f, a) \/
    root_find_entry x64 norm k (none_aux fn) y0 = Ready (y, f, a) \/
    fixed_point_entry x64 norm k fn y0 = Ready (y, f, a) ->
    converted x64 y0 y /\
    forall s, In s (leaves y) \/ In s (leaves f) ->
      (exists n, sd_dtype s = DFloat n) \/ sd_dtype s = DBFloat16 \/ (exists n, sd_dtype s = DComplex n).
Proof.
  intros x64 hss norm k fn y0 y f a H.
  assert (F : y = tree_map1 (inexact_asarray x64) y0 /\ exists t, f = tree_map1 (inexact_asarray x64) t).
  { destruct H as [H|[H|[H|H]]].
    - apply minimise_form in H. destruct H as [-> [v [-> _]]]. split; [reflexivity|]. exists (Leaf v). reflexivity.
    - exact (lsq_form _ _ _ _ _ _ _ _ H).
    - exact (root_form _ _ _ _ _ _ _ _ H).
    - exact (fixed_form _ _ _ _ _ _ _ _ H). }
  destruct F as [-> [t ->]]. split; [apply conv_map|].
  intros s Hs. assert (G : inexact (sd_dtype s) = true) by (destruct Hs as [Hs|Hs]; exact (inexact_leaves _ _ _ Hs)).
  destruct (sd_dtype s) as [|b n|n| |n]; try discriminate G.
  - left. eexists; reflexivity.
  - right; left; reflexivity.
  - right; right. eexists; reflexivity.
Qed.

(** A fixed-point problem on an integer vector: the solver sees float64 arrays *)
Lemma C78_inexact_ex_pf :
  exists a, fixed_point_entry true (fun _ => PyFloat) KFixedPoint (Plain (fun _ => Leaf (Arr (mkSds [2] DBool)))) (Leaf (Arr (mkSds [2] (DInt false 8))))
    = Ready (Leaf (mkSds [2] (DFloat 64)), Leaf (mkSds [2] (DFloat 64)), a).
Proof. eexists. reflexivity. Qed.

(** Converting what is already converted changes nothing, so nesting the entry points
    (fixed_point inside root_find inside minimise) does not change dtypes. *)
Lemma C78_idempotent_pf :
  forall (x64 : bool) t u u', converted x64 t u -> converted x64 (tree_map1 Arr u) u' -> u' = u.
Proof.
  intros x64 t u u' H H'. apply conv_fun in H, H'. subst. apply (tree_idem x64 t).
Qed.

(** A Python integer becomes a float32, which stays a float32 *)
Lemma C78_idempotent_ex_pf :
  converted false (Leaf PyInt) (Leaf (mkSds [] (DFloat 32))) /\
  converted false (tree_map1 Arr (Leaf (mkSds [] (DFloat 32)))) (Leaf (mkSds [] (DFloat 32))).
Proof. split; apply (conv_map false). Qed.

Lemma existsb_complex : forall l : list sds, existsb (fun s => is_complex (sd_dtype s)) l = true <-> exists s n, In s l /\ sd_dtype s = DComplex n.
Proof.
  intro l. rewrite existsb_exists. split.
  - intros [s [H1 H2]]. exists s. destruct (sd_dtype s) as [|b n|n| |n]; try discriminate H2. exists n. split; [exact H1|reflexivity].
  - intros [s [n [H1 H2]]]. exists s. split; [exact H1|]. rewrite H2. reflexivity.
Qed.

(** The warning about complex numbers: minimise warns exactly when y is complex somewhere;
    so does root_find with a minimiser, whatever the function returns, while with any other
    solver it warns when y or the function's value is complex. *)
Lemma C78_warning_pf :
  forall (x64 : bool) (norm : tree sds -> pyval) (k : solver_kind) (fn : user_fn) (y0 : tree pyval) y f a,
    (minimise_entry x64 (none_aux fn) y0 = Ready (y, f, a) ->
     (complex_warning (y, f, a) = true <-> some_complex y)) /\
    (root_find_entry x64 norm k (none_aux fn) y0 = Ready (y, f, a) ->
     (complex_warning (y, f, a) = true <->
      some_complex y \/ (k <> KMinimiser /\ exists root, converted x64 (value_of fn y) root /\ some_complex root))).
Proof.
  intros x64 norm k fn y0 y f a.
  assert (R : forall v, real_scalar v -> forall n, sd_dtype (inexact_asarray x64 v) <> DComplex n).
  { intros v Hv n En. apply (proj2 (real_floating x64 v)) in Hv. apply andb_prop in Hv. destruct Hv as [_ Hv]. rewrite En in Hv. discriminate. }
  assert (M : forall fn, minimise_entry x64 fn y0 = Ready (y, f, a) -> (complex_warning (y, f, a) = true <-> some_complex y)).
  { intros g H. apply minimise_form in H. destruct H as [_ [v [-> Hv]]]. unfold complex_warning. rewrite existsb_complex.
    unfold some_complex. split; intros [s [n [H1 H2]]]; exists s, n; (split; [|exact H2]).
    - apply in_app_or in H1. destruct H1 as [H1|[H1|[]]]; [exact H1|]. subst. exfalso. exact (R v Hv n H2).
    - apply in_or_app. left. exact H1. }
  split; [apply M|]. intro H.
  assert (KD : k = KMinimiser \/ k <> KMinimiser) by (destruct k; try (left; reflexivity); right; discriminate).
  destruct KD as [->|K].
  - cbn [root_find_entry] in H. apply M in H. rewrite H. split; [left; assumption|]. intros [G|[G _]]; [exact G|congruence].
  - assert (Ef : y = tree_map1 (inexact_asarray x64) y0 /\ f = tree_map1 (inexact_asarray x64) (value_of fn y)).
    { destruct (out_none_aux x64 fn (tree_map1 (inexact_asarray x64) y0)) as [b E].
      destruct k; try congruence; cbn [root_find_entry] in H; rewrite E in H; inversion H; subst; split; reflexivity. }
    destruct Ef as [_ Ef]. unfold complex_warning. rewrite existsb_complex. split.
    + intros [s [n [H1 H2]]]. apply in_app_or in H1. destruct H1 as [H1|H1]; [left; exists s, n; split; assumption|].
      right. split; [exact K|]. exists f. split; [rewrite Ef; apply conv_map|]. exists s, n. split; assumption.
    + intros [[s [n [H1 H2]]]|[_ [root [HR [s [n [H1 H2]]]]]]]; exists s, n; (split; [apply in_or_app|exact H2]).
      * left. exact H1.
      * right. rewrite (conv_fun _ _ _ HR), <- Ef in H1. exact H1.
Qed.

(** A complex-valued function of a real number: Newton warns, a minimiser does not *)
Lemma C78_warning_ex_pf :
  (exists r, root_find_entry false (fun _ => PyFloat) KRootFinder (none_aux (Plain (fun _ => Leaf PyComplex))) (Leaf PyFloat) = Ready r /\
     complex_warning r = true) /\
  (exists r, root_find_entry false (fun _ => PyFloat) KMinimiser (none_aux (Plain (fun _ => Leaf PyComplex))) (Leaf PyFloat) = Ready r /\
     complex_warning r = false).
Proof. split; eexists; split; reflexivity. Qed.

Lemma shape_of_iff : forall v sh, has_shape v sh <-> shape_of v = sh.
Proof. intros [| | | |a] sh; cbn; split; congruence. Qed.

Lemma bracket_leaf : forall lower upper y s,
  (sd_shape y = [] /\ has_shape lower [] /\ has_shape upper [] /\ sd_shape s = [] -> bracket_check lower upper y (Leaf s) = Ready tt) /\
  (~ (sd_shape y = [] /\ has_shape lower [] /\ has_shape upper [] /\ sd_shape s = []) -> bracket_check lower upper y (Leaf s) = Raised EValueError).
Proof.
  intros lower upper y s. rewrite !shape_of_iff. cbn [bracket_check]. split.
  - intros [-> [-> [-> ->]]]. reflexivity.
  - intro H. destruct (sd_shape y) as [|? ?]; [|reflexivity]. destruct (shape_of lower) as [|? ?]; [|reflexivity].
    destruct (shape_of upper) as [|? ?]; [|reflexivity]. destruct (sd_shape s) as [|? ?]; [|reflexivity].
    exfalso. apply H. repeat split.
Qed.

(** After minimise's own check, GoldenSearch accepts exactly the scalar y with scalar bounds;
    its check on the output never fails there. *)
Lemma C79_golden_pf :
  forall (x64 : bool) (fn : user_fn) (y0 : tree pyval) y f a lower upper,
    minimise_entry x64 (none_aux fn) y0 = Ready (Leaf y, f, a) ->
    (sd_shape y = [] /\ has_shape lower [] /\ has_shape upper [] -> bracket_check lower upper y f = Ready tt) /\
    (~ (sd_shape y = [] /\ has_shape lower [] /\ has_shape upper []) -> bracket_check lower upper y f = Raised EValueError).
Proof.
  intros x64 fn y0 y f a lower upper H. apply minimise_form in H. destruct H as [_ [v [-> Hv]]].
  apply (proj2 (real_floating x64 v)) in Hv. apply andb_prop in Hv. destruct Hv as [Hv _]. apply shape_eqb_eq in Hv.
  destruct (bracket_leaf lower upper y (inexact_asarray x64 v)) as [H1 H2]. split; intro H.
  - apply H1. tauto.
  - apply H2. tauto.
Qed.

(** A scalar problem with Python bounds passes; a vector bound is rejected *)
Lemma C79_golden_ex_pf :
  (exists f a, minimise_entry false (none_aux (Plain (fun y => arrays y))) (Leaf PyFloat) = Ready (Leaf (mkSds [] (DFloat 32)), f, a) /\
    bracket_check PyInt PyInt (mkSds [] (DFloat 32)) f = Ready tt /\
    bracket_check PyInt (Arr (mkSds [1] (DFloat 32))) (mkSds [] (DFloat 32)) f = Raised EValueError).
Proof. eexists _, _. repeat split. Qed.

(** Through root_find, a function returning one array is accepted by Bisection exactly when
    that array, y and both bounds are scalars, and otherwise raises ValueError.  Missing from
    the full claim: functions returning a container, see C79_tuple_refuted. *)
Lemma C79_bisection_partial_pf :
  forall (x64 : bool) (norm : tree sds -> pyval) (fn : user_fn) (y0 : tree pyval) y f a lower upper v,
    root_find_entry x64 norm KRootFinder (none_aux fn) y0 = Ready (Leaf y, f, a) ->
    value_of fn (Leaf y) = Leaf v ->
    (sd_shape y = [] /\ has_shape lower [] /\ has_shape upper [] /\ has_shape v [] -> bracket_check lower upper y f = Ready tt) /\
    (~ (sd_shape y = [] /\ has_shape lower [] /\ has_shape upper [] /\ has_shape v []) -> bracket_check lower upper y f = Raised EValueError).
Proof.
  intros x64 norm fn y0 y f a lower upper v H Hv.
  destruct (out_none_aux x64 fn (tree_map1 (inexact_asarray x64) y0)) as [b E].
  cbn [root_find_entry] in H. rewrite E in H. inversion H as [[E1 E2 E3]]. clear H. rewrite E1, Hv. cbn [tree_map1].
  destruct (bracket_leaf lower upper y (inexact_asarray x64 v)) as [H1 H2].
  assert (HS : has_shape v [] <-> sd_shape (inexact_asarray x64 v) = []).
  { split; intro H; [exact (shape_fun _ _ _ (inexact_shape x64 v) H)|]. rewrite <- H. apply inexact_shape. }
  rewrite HS. split; assumption.
Qed.

(** A vector-valued function given to Bisection *)
Lemma C79_bisection_partial_ex_pf :
  exists f a, root_find_entry false (fun _ => PyFloat) KRootFinder (none_aux (Plain (fun _ => Leaf (Arr (mkSds [2] (DFloat 32)))))) (Leaf PyFloat)
      = Ready (Leaf (mkSds [] (DFloat 32)), f, a) /\
    bracket_check PyInt PyInt (mkSds [] (DFloat 32)) f = Raised EValueError.
Proof. eexists _, _. split; reflexivity. Qed.

(** The message "Bisection can only be used to find the roots of a function producing a
    scalar output" is not what a function returning a tuple gets: `f_struct.dtype` is read
    before the check, so an AttributeError is raised instead of that ValueError. *)
Lemma C79_tuple_refuted_pf :
  exists (fn : user_fn) (y0 : tree pyval) y f a,
    root_find_entry false (fun _ => PyFloat) KRootFinder (none_aux fn) y0 = Ready (Leaf y, f, a) /\
    sd_shape y = [] /\ bracket_check PyInt PyInt y f <> Raised EValueError /\
    bracket_check PyInt PyInt y f = Raised EAttributeError.
Proof.
  exists (Plain (fun y => Node "tuple" [arrays y])), (Leaf PyFloat). eexists _, _, _.
  repeat split. discriminate.
Qed.
