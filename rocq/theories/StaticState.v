(** Solver states as pytrees of arrays and other Python objects: how the loop splits them
    (eqx.partition), carries only the arrays and puts them together again (eqx.combine), and
    `filter_cond`.  Models _iterate.py 194-267 and 338-359 and _misc.py 313-365 without the
    simplification of Iterate.v, where the state is carried whole. *)

From Coq Require Import String List Bool Arith ZArith.
From Verif Require Import Results Iterate PyTree.
Import ListNotations.
Local Open Scope string_scope.

Section StaticState.
  (** Contents of arrays, Jaxpr objects, and all other leaves (functions, strings, ...). *)
  Variables Array Jaxpr Object : Type.
  (** Python's `==` on Jaxprs (identity) and on the other objects, used by `eqx.tree_equal`, _iterate.py 240. *)
  Variables (jaxpr_eqb : Jaxpr -> Jaxpr -> bool) (object_eqb : Object -> Object -> bool).

  (** A leaf of a state; [JaxprEqual] is the class _JaxprEqual, _misc.py 313-322. *)
  Inductive pyleaf : Type :=
  | Arr (a : Array)
  | Jax (j : Jaxpr)
  | JaxprEqual (j : Jaxpr)
  | Obj (o : Object).
  Definition pytree : Type := tree pyleaf.

  (** `eqx.is_array`, _iterate.py 220 *)
  Definition is_array (x : pyleaf) : bool := match x with Arr _ => true | _ => false end.

  (** Python's `None`, as a pytree (a container without leaves); [is_none] as in `x is None`
      of `eqx.combine`, _iterate.py 236. *)
  Definition py_none : pytree := Node "None" [].
  Definition is_none (t : pytree) : bool :=
    match t with Node tag [] => String.eqb tag "None" | _ => false end.

  (** `eqx.filter(t, keep)`: the other leaves become None. (part of `eqx.partition`, _iterate.py 220). *)
  Fixpoint eqx_filter (keep : pyleaf -> bool) (t : pytree) : pytree :=
    match t with
    | Leaf x => if keep x then Leaf x else py_none
    | Node tag ts => Node tag (map (eqx_filter keep) ts)
    end.

  (** `eqx.partition(t, eqx.is_array)`, _iterate.py 220 and 239, _misc.py 350 *)
  Definition partition_tree (t : pytree) : pytree * pytree :=
    (eqx_filter is_array t, eqx_filter (fun x => negb (is_array x)) t).

  (** `eqx.combine(t, u)`, _iterate.py 236, 252 and 354: `tree_map` over t, where None counts as
      a leaf, taking the first that is not None. *)
  Fixpoint combine_tree (t u : pytree) : outcome pytree :=
    if is_none t then Ret u else
    match t with
    | Leaf x => Ret (Leaf x)
    | Node tag ts =>
        match u with
        | Leaf _ => Raise ValueError
        | Node tag' us =>
            if String.eqb tag tag' then
              obind ((fix go ts us :=
                        match ts, us with
                        | [], [] => Ret []
                        | t :: ts, u :: us =>
                            obind (combine_tree t u) (fun c => obind (go ts us) (fun cs => Ret (c :: cs)))
                        | _, _ => Raise ValueError
                        end) ts us) (fun cs => Ret (Node tag cs))
            else Raise ValueError
        end
    end.

  (** `==` of two leaves in `eqx.tree_equal`, _iterate.py 240. Two arrays: the comparison is a
      traced array, and that `is True` is false.  JaxprEqual: _misc.py 320-322. *)
  Definition leaf_equal (x y : pyleaf) : bool :=
    match x, y with
    | Jax i, Jax j => jaxpr_eqb i j
    | JaxprEqual _, JaxprEqual _ => true
    | Obj a, Obj b => object_eqb a b
    | _, _ => false
    end.

  (** `eqx.tree_equal(t, u) is True`, _iterate.py 240; also the comparison of two `eqxi.Static` *)
  Fixpoint tree_equal (t u : pytree) : bool :=
    match t, u with
    | Leaf x, Leaf y => leaf_equal x y
    | Node tag ts, Node tag' us =>
        String.eqb tag tag' &&
        (fix go ts us :=
           match ts, us with
           | [], [] => true
           | t :: ts, u :: us => tree_equal t u && go ts us
           | _, _ => false
           end) ts us
    | _, _ => false
    end.

  (** Equality of the tree structures of two trees of arrays, as `lax.while_loop` and `lax.cond`
      demand (_iterate.py 243, _misc.py 364).  Shapes and dtypes of the arrays are not modelled. *)
  Fixpoint same_structure (t u : pytree) : bool :=
    match t, u with
    | Leaf _, Leaf _ => true
    | Node tag ts, Node tag' us =>
        String.eqb tag tag' &&
        (fix go ts us :=
           match ts, us with
           | [], [] => true
           | t :: ts, u :: us => same_structure t u && go ts us
           | _, _ => false
           end) ts us
    | _, _ => false
    end.

  (** _wrap_jaxpr_leaf, _misc.py 325-331, and _unwrap_jaxpr_leaf, 338-342 *)
  Definition wrap_leaf (x : pyleaf) : pyleaf := match x with Jax j => JaxprEqual j | _ => x end.
  Definition unwrap_leaf (x : pyleaf) : pyleaf := match x with JaxprEqual j => Jax j | _ => x end.
  (** wrap_jaxpr, _misc.py 334-335, and unwrap_jaxpr, 345-346 *)
  Definition wrap_jaxpr (t : pytree) : pytree := tree_map1 wrap_leaf t.
  Definition unwrap_jaxpr (t : pytree) : pytree := tree_map1 unwrap_leaf t.

  (** filter_cond, _misc.py 349-365.  [operands] is the tuple of operands.  `lax.cond` runs
      (traces) both branches, so an exception of either is raised; then it compares the structures of the
      arrays and the two `eqxi.Static`s, raising TypeError; and it returns the arrays of the chosen
      branch in the tree of the true one. *)
  Definition filter_cond (pred : bool) (true_fun false_fun : pytree -> outcome pytree)
      (operands : pytree) : outcome pytree :=
    let '(dynamic, static) := partition_tree operands in
    let branch f :=
      obind (combine_tree dynamic static) (fun ops =>
      obind (f ops) (fun out => Ret (partition_tree out))) in
    obind (branch true_fun) (fun '(dynamic_t, static_t) =>
    obind (branch false_fun) (fun '(dynamic_f, static_f) =>
    if same_structure dynamic_t dynamic_f && tree_equal static_t static_f
    then combine_tree (if pred then dynamic_t else dynamic_f) static_t
    else Raise TypeError)).

  Section Loop.
    Context {Y Out Aux : Type}.
    Variable allfinite : Y -> bool.
    (** The four methods of a solver, _iterate.py 24-182, whose state is a pytree. *)
    Variable init : (Y -> Out * Aux) -> Y -> (fillv -> Out) -> (fillv -> Aux) -> outcome pytree.
    Variable step : (Y -> Out * Aux) -> Y -> pytree -> Y * pytree * Aux.
    Variable term : (Y -> Out * Aux) -> Y -> pytree -> bool * results.
    Variable post : (Y -> Out * Aux) -> Y -> Aux -> pytree -> results -> Y * Aux * stats.
    Variable fn : Y -> Out * Aux.

    (** terminate_and_result, _iterate.py 214-217 *)
    Definition tree_terminate (y : Y) (st : pytree) : bool * results :=
      let '(t, r) := term fn y st in (t, if allfinite y then r else nonfinite).

    (** cond_fun, _iterate.py 230-232 *)
    Definition split_cond (c : carry (Y:=Y) (Aux:=Aux) pytree) : bool :=
      negb (c_terminate c) && results_eqb (c_result c) successful.

    (** body_fun, _iterate.py 234-241, as compiled: the carry holds the arrays of the state.
        (The case that `combine` fails would have been raised by [trace_body].) *)
    Definition split_body (static : pytree) (c : carry (Y:=Y) (Aux:=Aux) pytree) :
        carry (Y:=Y) (Aux:=Aux) pytree :=
      match combine_tree static (c_state c) with
      | Ret state =>
          let '(new_y, new_state, a) := step fn (c_y c) state in
          let '(t, r) := tree_terminate (c_y c) new_state in
          mkCarry new_y (S (c_num_steps c)) (fst (partition_tree new_state)) a t r
      | _ => c
      end.

    (** What happens when the loop traces body_fun, _iterate.py 234-243: the assertion of line 240,
        and the requirement of `while_loop` that the carry keeps its structure.  Tracing happens once,
        on abstract arrays; here it is run on the initial ones.  Whether a loop with max_steps = 0 is traced
        at all depends on the loop; here it is. *)
    Definition trace_body (static : pytree) (c : carry (Y:=Y) (Aux:=Aux) pytree) : outcome unit :=
      obind (combine_tree static (c_state c)) (fun state =>
      let '(_, new_state, _) := step fn (c_y c) state in
      let '(new_dynamic, new_static) := partition_tree new_state in
      if tree_equal static new_static
      then if same_structure (c_state c) new_dynamic then Ret tt else Raise TypeError
      else Raise AssertionError).

    (** _iterate, _iterate.py 194-267. Returns (final_y, num_steps, result, dynamic_final_state,
        wrapped static state, final_aux, stats). *)
    Definition split_iterate (fuel : nat) (max_steps : option nat) (y0 : Y)
        (f_struct : fillv -> Out) (aux_struct : fillv -> Aux) :
        outcome (Y * nat * results * pytree * pytree * Aux * stats) :=
      obind (init fn y0 f_struct aux_struct) (fun init_state =>
      let '(t, r) := tree_terminate y0 init_state in
      let '(dynamic_init_state, static_state) := partition_tree init_state in
      let init_carry := mkCarry y0 0 dynamic_init_state (aux_struct fill0) t r in
      obind (trace_body static_state init_carry) (fun _ =>
      obind (while_loop fuel split_cond (split_body static_state) max_steps init_carry) (fun final =>
      obind (combine_tree static_state (c_state final)) (fun final_state =>
      let res :=
        if results_eqb (c_result final) successful && negb (c_terminate final)
        then nonlinear_max_steps_reached else c_result final in
      let '(final_y, final_aux, st) := post fn (c_y final) (c_aux final) final_state res in
      Ret (final_y, c_num_steps final, res, c_state final, wrap_jaxpr static_state, final_aux, st))))).

    (** iterative_solve, _iterate.py 276-359 *)
    Definition split_solve (fuel : nat) (max_steps : option nat) (throw : bool) (y0 : Y)
        (f_struct : fillv -> Out) (aux_struct : fillv -> Aux) : outcome (Solution Y Aux pytree) :=
      obind (split_iterate fuel max_steps y0 f_struct aux_struct)
        (fun '(out, num_steps, res, dynamic_final_state, static_state, a, st) =>
      obind (combine_tree dynamic_final_state (unwrap_jaxpr static_state)) (fun final_state =>
      let all_stats :=
        ("num_steps", Some (Z.of_nat num_steps))
          :: ("max_steps", option_map Z.of_nat max_steps) :: st in
      let sol := mkSolution out res a all_stats final_state in
      if throw && negb (results_eqb res successful)
      then Raise (SolveFailed res) else Ret sol)).
  End Loop.
End StaticState.
Arguments Arr {Array Jaxpr Object}. Arguments Jax {Array Jaxpr Object}.
Arguments JaxprEqual {Array Jaxpr Object}. Arguments Obj {Array Jaxpr Object}.
