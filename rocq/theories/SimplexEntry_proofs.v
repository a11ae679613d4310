(** Proofs about NelderMead's starting simplex under tracing (C97). *)

From Coq Require Import String List Bool Arith Lia.
From Verif Require Import PyTree Spec_PyTree PyTree_proofs Results Entry Spec_Entry Entry_proofs NelderMead SimplexEntry Spec_SimplexEntry.
Import ListNotations.
Local Open Scope nat_scope.

Lemma struct_refl : forall t, struct_eqb t t = true.
Proof. intro t. apply (proj2 (struct_eqb_eq t t) eq_refl). Qed.

Lemma drop_add : forall n t, tree_map1 drop_leading (tree_map1 (add_leading n) t) = t.
Proof.
  intros n t. rewrite map_map_tree. transitivity (tree_map1 (fun s : sds => s) t).
  - apply map_ext_tree. intros [sh d]. reflexivity.
  - induction t as [a|tag ts IH] using tree_ind_nested; cbn; [reflexivity|]. f_equal. induction IH; cbn; congruence.
Qed.

Lemma drop_other : forall t, leaves t <> [] -> Forall (fun s => sd_shape s <> []) (leaves t) -> tree_map1 drop_leading t <> t.
Proof.
  intros t Hne HF E. assert (L : leaves (tree_map1 drop_leading t) = leaves t) by (rewrite E; reflexivity).
  rewrite leaves_map in L. destruct (leaves t) as [|[sh d] l]; [contradiction|]. inversion HF as [|? ? H _]; subst. cbn in L, H.
  apply (f_equal (fun l => match l with s :: _ => length (sd_shape s) | [] => 0 end)) in L.
  destruct sh as [|n sh]; [contradiction|]. cbn in L. lia.
Qed.

Lemma all_leading_inv : forall l ls, all_leading l = Ready ls -> Forall (fun s => sd_shape s <> []) l /\ (l = [] -> ls = []).
Proof.
  induction l as [|s l IH]; intros ls H; cbn in H; [inversion H; auto|].
  destruct (leading s) as [x|e] eqn:E; [|discriminate]. cbn in H. destruct (all_leading l) as [xs|e]; [|discriminate].
  destruct (IH xs eq_refl) as [HF _]. split; [|discriminate]. constructor; [|exact HF].
  unfold leading in E. destruct (sd_shape s); discriminate.
Qed.

Lemma minimise_inv : forall x64 fn y0 y f a,
  minimise_entry x64 (none_aux fn) y0 = Ready (y, f, a) ->
  y = tree_map1 (inexact_asarray x64) y0 /\ exists v, value_of fn y = Leaf v /\ real_scalar v.
Proof.
  intros x64 fn y0 y f a H.
  assert (E : none_aux fn (tree_map1 (inexact_asarray x64) y0) = Ready (value_of fn (tree_map1 (inexact_asarray x64) y0),
            match fn with Plain _ => Node "None" [] | HasAux g => snd (g (tree_map1 (inexact_asarray x64) y0)) end)).
  { destruct fn as [g|g]; cbn; [reflexivity|]. destruct (g _); reflexivity. }
  destruct (minimise_ready x64 (none_aux fn) y0 _ _ E) as [A B].
  destruct (value_of fn (tree_map1 (inexact_asarray x64) y0)) as [v|tag ts] eqn:V.
  - assert (D : real_scalar v \/ ~ real_scalar v).
    { destruct (shape_eqb (sd_shape (inexact_asarray x64 v)) [] && floating (sd_dtype (inexact_asarray x64 v))) eqn:F.
      - left. apply (real_floating x64). exact F.
      - right. intro R. apply (real_floating x64) in R. congruence. }
    destruct D as [D|D].
    + rewrite (A (ex_intro _ v (conj eq_refl D))) in H. inversion H; subst. split; [reflexivity|]. exists v. auto.
    + rewrite B in H; [discriminate|]. intros [w [W R]]. inversion W; subst. contradiction.
  - rewrite B in H; [discriminate|]. intros [w [W R]]. discriminate.
Qed.

Lemma size_zero : forall sh, fold_right Nat.mul 1 sh = 0 <-> In 0 sh.
Proof.
  induction sh as [|n sh IH]; cbn; [split; [lia|tauto]|]. rewrite Nat.eq_mul_0, IH. split; intros [H|H]; auto.
Qed.
Lemma sum_zero : forall l, fold_right Nat.add 0 l = 0 <-> Forall (fun n => n = 0) l.
Proof.
  induction l as [|n l IH]; cbn; [split; auto|]. split; intro H.
  - constructor; [lia|]. apply IH. lia.
  - inversion H; subst. apply IH in H3. lia.
Qed.

Lemma tree_size_pos : forall x64 t,
  (0 < tree_size (tree_map1 (inexact_asarray x64) t)) <-> Exists non_empty (leaves t).
Proof.
  intros x64 t. unfold tree_size. rewrite leaves_map, map_map. induction (leaves t) as [|v l IH]; cbn [map fold_right].
  - split; [lia|intro H; inversion H].
  - rewrite Exists_cons, <- IH.
    assert (E : fold_right Nat.mul 1 (sd_shape (inexact_asarray x64 v)) = 0 <-> ~ non_empty v).
    { rewrite size_zero. destruct v as [| | | |a]; cbn; [split; intro H; [destruct H|exact (H I)]..|].
      destruct (in_dec Nat.eq_dec 0 (sd_shape a)) as [H|H]; (split; [intros Q P; exact (P Q)|intro P]); [exact H|destruct (P H)]. }
    set (z := fold_right Nat.mul 1 (sd_shape (inexact_asarray x64 v))) in *. clearbody z.
    assert (D : non_empty v \/ ~ non_empty v).
    { destruct (Nat.eq_dec z 0) as [Z|Z]; [right; apply E; exact Z|left]. destruct v as [| | | |a]; cbn; try exact I. intro Q. apply Z, E. intro P. exact (P Q). }
    destruct z as [|z]; [|split; [|lia]]; intuition lia.
Qed.

(** A single starting point: tracing goes through exactly when the function's value at the
    converted y0 is one real scalar and y0 holds at least one number.  In particular the
    function, which can only be called at the structure of y0, is never called at another. *)
Lemma C97_single_start_pf :
  forall (x64 : bool) (fn : user_fn) (y0 : tree pyval) (y : tree sds),
    converted x64 y0 y ->
    (nm_trace x64 false fn y0 = Ready tt <->
     (exists v, value_of fn y = Leaf v /\ real_scalar v) /\ Exists non_empty (leaves y0)).
Proof.
  intros x64 fn y0 y Hy. rewrite (conv_fun x64 y0 y Hy). clear y Hy. unfold nm_trace.
  set (y := tree_map1 (inexact_asarray x64) y0).
  rewrite <- (tree_size_pos x64 y0). fold y. split.
  - intro H. destruct (minimise_entry x64 (none_aux fn) y0) as [[[y' f] a]|e] eqn:E; [|discriminate].
    destruct (minimise_inv _ _ _ _ _ _ E) as [-> V]. fold y in V, H. split; [exact V|]. cbn [ebind nm_simplex_struct] in H.
    destruct (leaves y) eqn:L; [discriminate|]. cbn [ebind] in H. rewrite drop_add in H. unfold closure_convert in H.
    rewrite struct_refl in H. destruct (out_as_array x64 (none_aux fn) y); [|discriminate]. cbn [ebind] in H.
    destruct (S (tree_size y) <? 2) eqn:Q; [discriminate|]. apply Nat.ltb_ge in Q. lia.
  - intros [[v [V R]] P].
    assert (E : exists f a, minimise_entry x64 (none_aux fn) y0 = Ready (y, f, a)).
    { assert (E : none_aux fn y = Ready (value_of fn y,
            match fn with Plain _ => Node "None" [] | HasAux g => snd (g y) end)).
      { destruct fn as [g|g]; cbn; [reflexivity|]. destruct (g _); reflexivity. }
      destruct (minimise_ready x64 (none_aux fn) y0 _ _ E) as [A _]. eexists _, _. apply A. exists v. auto. }
    destruct E as (f & a & ->). cbn [ebind nm_simplex_struct].
    destruct (leaves y) eqn:L; [unfold tree_size in P; rewrite L in P; cbn in P; lia|]. cbn [ebind].
    rewrite drop_add. unfold closure_convert. rewrite struct_refl.
    destruct (out_none_aux x64 fn y) as [b ->]. cbn [ebind].
    destruct (S (tree_size y) <? 2) eqn:Q; [apply Nat.ltb_lt in Q; lia|reflexivity].
Qed.
Example C97_single_start_ex_pf :
  converted false (Node "tuple" [Leaf PyInt; Leaf (Arr (mkSds [3] (DFloat 32)))])
    (Node "tuple" [Leaf (mkSds [] (DFloat 32)); Leaf (mkSds [3] (DFloat 32))]) /\
  nm_trace false false (Plain (fun _ => Leaf PyFloat)) (Node "tuple" [Leaf PyInt; Leaf (Arr (mkSds [3] (DFloat 32)))]) = Ready tt.
Proof.
  split; [|reflexivity]. apply (conv_map false (Node "tuple" [Leaf PyInt; Leaf (Arr (mkSds [3] (DFloat 32)))])).
Qed.

(** The full claim, that with options["y0_simplex"]=True a simplex accepted by
    NelderMead.init is searched, is false: whatever the function and y0, minimise raises.
    The function is traced at the structure of y0, a whole simplex, and then called at the
    structure of one vertex. *)
Lemma C97_user_simplex_refuted_pf :
  forall (x64 : bool) (fn : user_fn) (y0 : tree pyval),
    exists e, nm_trace x64 true fn y0 = Raised e.
Proof.
  intros x64 fn y0. unfold nm_trace. destruct (minimise_entry x64 (none_aux fn) y0) as [[[y f] a]|e]; [|eexists; reflexivity].
  cbn [ebind nm_simplex_struct]. destruct (all_leading (leaves y)) as [ls|e] eqn:A; [|eexists; reflexivity]. cbn [ebind].
  destruct (simplex_check ls) as [n| |] eqn:C; [|eexists; reflexivity|eexists; reflexivity]. cbn [ebind].
  destruct (all_leading_inv _ _ A) as [HF HN]. unfold closure_convert.
  destruct (struct_eqb y (tree_map1 drop_leading y)) eqn:S; [|eexists; reflexivity].
  exfalso. apply struct_eqb_eq in S. apply (drop_other y); [|exact HF|symmetry; exact S].
  intro L. rewrite (HN L) in C. cbn in C. discriminate.
Qed.

(** Even for the simplices that NelderMead.init accepts: two points on the real line, given
    to minimise with a function that takes arrays of any shape to a number.  The initial
    check passes and the call still raises ValueError. *)
Lemma C97_accepted_simplex_refuted_pf :
  exists (fn : user_fn) (y0 : tree pyval) y f a,
    Forall (stacked 2) (leaves y0) /\
    minimise_entry false (none_aux fn) y0 = Ready (y, f, a) /\
    nm_simplex_struct true y = Ready (2, y) /\
    nm_trace false true fn y0 = Raised EValueError.
Proof.
  exists (Plain (fun _ => Leaf PyFloat)), (Leaf (Arr (mkSds [2] (DFloat 32)))). eexists _, _, _.
  split; [|split; [reflexivity|split; reflexivity]].
  constructor; [|constructor]. exists []. reflexivity.
Qed.
