(** Property theorems: StaticState.
    Statements only; each is closed by the lemma of the same name (suffix _pf)
    in the proof file.  [Example]s show concrete cases meeting the hypotheses. *)

From Coq Require Import String List Bool Arith ZArith Lia.
From Verif Require Import Results Iterate PyTree StaticState Spec_StaticState.
Import ListNotations.
Local Open Scope string_scope.
From Verif Require Import StaticState_proofs.

(** Splitting the solver's state into arrays and the rest, carrying only the arrays through the compiled
    loop and putting them together with the first state's other parts changes nothing: the solve is the
    one of a loop that carries whole states -- for every solver that can be traced and whose first step
    does not change the non-array part of the state.  Otherwise the solve raises. *)
Theorem C94_split_loop :
  forall (A J O Y Out Aux : Type) (jeq : J -> J -> bool) (oeq : O -> O -> bool) (allfinite : Y -> bool) init step term post
         (fn : Y -> Out * Aux) y0 fs auxs st0,
    exact_eq jeq -> exact_eq oeq -> traceable (step fn) ->
    init fn y0 fs auxs = Ret st0 -> no_wrapper st0 ->
    let new := snd (fst (step fn y0 st0)) in
    (skeleton new = skeleton st0 -> forall fuel ms throw,
       split_solve A J O jeq oeq allfinite init step term post fn fuel ms throw y0 fs auxs =
       iterative_solve allfinite (mkSolver (pytree A J O) init step term post) fn fuel ms throw y0 fs auxs) /\
    (skeleton new <> skeleton st0 -> forall fuel ms throw,
       split_solve A J O jeq oeq allfinite init step term post fn fuel ms throw y0 fs auxs = Raise AssertionError \/
       split_solve A J O jeq oeq allfinite init step term post fn fuel ms throw y0 fs auxs = Raise TypeError).
Proof. exact C94_split_loop_pf. Qed.
Print Assumptions C94_split_loop.

(** `eqx.partition` and `eqx.combine`: the first part has only arrays, the second none, and they combine
    to the whole in either order; arrays from another state of the same skeleton fit in. *)
Theorem C94_partition_combine : forall (A J O : Type) (t u : pytree A J O), skeleton t = skeleton u ->
  (forall x, In x (leaves (fst (partition_tree A J O t))) -> exists a, x = Arr a) /\
  no_array (snd (partition_tree A J O t)) /\
  combine_tree A J O (fst (partition_tree A J O t)) (snd (partition_tree A J O t)) = Ret t /\
  combine_tree A J O (snd (partition_tree A J O t)) (fst (partition_tree A J O t)) = Ret t /\
  combine_tree A J O (snd (partition_tree A J O t)) (fst (partition_tree A J O u)) = Ret u.
Proof. exact C94_partition_combine_pf. Qed.
Print Assumptions C94_partition_combine.

(** wrap_jaxpr and unwrap_jaxpr: unwrapping gives the tree back, and two wrapped static trees compare
    equal exactly when they differ in nothing but the Jaxprs. *)
Theorem C94_wrap_jaxpr : forall (A J O : Type) (jeq : J -> J -> bool) (oeq : O -> O -> bool) (t u : pytree A J O),
  exact_eq oeq -> no_wrapper t -> no_wrapper u -> no_array t -> no_array u ->
  unwrap_jaxpr A J O (wrap_jaxpr A J O t) = t /\
  (tree_equal A J O jeq oeq (wrap_jaxpr A J O t) (wrap_jaxpr A J O u) = true <->
   tree_map1 forget_jaxpr t = tree_map1 forget_jaxpr u).
Proof. exact C94_wrap_jaxpr_pf. Qed.
Print Assumptions C94_wrap_jaxpr.

(** filter_cond applies true_fun if pred, else false_fun, to the operands, whenever both branches return
    and their results agree in everything but the contents of arrays; if they disagree it raises
    TypeError, and an exception raised by either branch is raised, chosen or not. *)
Theorem C94_filter_cond : forall (A J O : Type) (jeq : J -> J -> bool) (oeq : O -> O -> bool) pred tf ff (ops : pytree A J O),
  exact_eq jeq -> exact_eq oeq ->
  (forall t f, tf ops = Ret t -> ff ops = Ret f -> no_wrapper t ->
     (skeleton t = skeleton f -> filter_cond A J O jeq oeq pred tf ff ops = if pred then tf ops else ff ops) /\
     (skeleton t <> skeleton f -> filter_cond A J O jeq oeq pred tf ff ops = Raise TypeError)) /\
  (forall e, tf ops = Raise e -> filter_cond A J O jeq oeq pred tf ff ops = Raise e) /\
  (forall e t, tf ops = Ret t -> ff ops = Raise e -> filter_cond A J O jeq oeq pred tf ff ops = Raise e).
Proof. exact C94_filter_cond_pf. Qed.
Print Assumptions C94_filter_cond.

Example C94_split_loop_ex :
  traceable (count_step "f" (fun y => (y, tt))) /\ no_wrapper (count_state 0 "f") /\
  (exists sol, count_solve (count_step "f") = Ret sol /\ value sol = 43 /\ state sol = count_state 3 "f") /\
  count_solve (count_step "g") = Raise AssertionError /\
  count_solve (fun fn y t => (y, Node "State" [Node "None" []; Node "None" []; Node "tuple" [Leaf (Obj "f"); Leaf (Jax 7)]], tt)) = Raise TypeError.
Proof. exact C94_split_loop_ex_pf. Qed.

(** Parts of a state with a counter, None and a Jaxpr. *)
Example C94_partition_combine_ex :
  partition_tree nat nat string (count_state 5 "f") =
    (Node "State" [Leaf (Arr 5); Node "None" []; Node "tuple" [Node "None" []; Node "None" []]],
     Node "State" [Node "None" []; Node "None" []; Node "tuple" [Leaf (Obj "f"); Leaf (Jax 7)]]) /\
  skeleton (count_state 5 "f") = skeleton (count_state 6 "f").
Proof. exact C94_partition_combine_ex_pf. Qed.

(** Two static trees with different Jaxprs compare equal when wrapped and different when not. *)
Example C94_wrap_jaxpr_ex :
  let t := Node "tuple" [Leaf (Obj "f"); Leaf (Jax 7)] : pytree nat nat string in
  let u := Node "tuple" [Leaf (Obj "f"); Leaf (Jax 8)] : pytree nat nat string in
  tree_equal nat nat string Nat.eqb String.eqb (wrap_jaxpr nat nat string t) (wrap_jaxpr nat nat string u) = true /\
  tree_equal nat nat string Nat.eqb String.eqb t u = false.
Proof. exact C94_wrap_jaxpr_ex_pf. Qed.

(** Branches that return a new counter with the same function, that change the function, and one that raises. *)
Example C94_filter_cond_ex :
  let go pred tf ff := filter_cond nat nat string Nat.eqb String.eqb pred tf ff (count_state 1 "f") in
  let keep (t : pytree nat nat string) := Ret t in
  go true (fun _ => Ret (count_state 2 "f")) keep = Ret (count_state 2 "f") /\
  go false (fun _ => Ret (count_state 2 "f")) keep = Ret (count_state 1 "f") /\
  go false (fun _ => Ret (count_state 2 "g")) keep = Raise TypeError /\
  go true keep (fun _ => Raise ValueError) = Raise ValueError.
Proof. exact C94_filter_cond_ex_pf. Qed.
