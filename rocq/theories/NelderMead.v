(** NelderMead (optimistix/_solver/nelder_mead.py).  A pytree is the list of its
    entries; [shape] lists the sizes of its leaves. A simplex (a pytree whose
    leaves have an additional leading axis) is the list of its vertices. *)

From Coq Require Import String List Bool Arith ZArith QArith.
From Verif Require Import Num Vec Results Iterate.
Import ListNotations.
Local Open Scope nat_scope.

Section NelderMead.
  Context {N : Num} {Aux : Type}.
  Local Open Scope num_scope.
  Notation vec := (list N).
  Variable fn : vec -> N * Aux.

  (** _NMStats, nelder_mead.py 20-25 *)
  Record nm_stats : Type := mkNMStats {
    n_reflect : Z; n_inner_contract : Z; n_outer_contract : Z; n_expand : Z; n_shrink : Z
  }.

  (** _update_stats, nelder_mead.py 75-89 *)
  Definition bump (b : bool) (z : Z) : Z := if b then (z + 1)%Z else z.
  (** _update_stats, nelder_mead.py 74-89. *)
  Definition update_stats (s : nm_stats) (reflect inner outer expand shrink : bool) : nm_stats :=
    mkNMStats (bump reflect (n_reflect s)) (bump inner (n_inner_contract s))
      (bump outer (n_outer_contract s)) (bump expand (n_expand s)) (bump shrink (n_shrink s)).

  (** _NelderMeadState, nelder_mead.py 28-72; `result` is always
      RESULTS.successful and left out *)
  Record nm_state : Type := mkNM {
    nm_simplex : list vec;
    nm_f_simplex : list N;
    nm_f_best : N; nm_best : vec; nm_best_index : nat;
    nm_f_worst : N; nm_worst : vec; nm_worst_index : nat;
    nm_second_worst : N;
    nm_counts : nm_stats;
    nm_first_pass : bool;
    nm_aux : Aux;
    nm_step_count : nat
  }.

  (** ** init, nelder_mead.py 108-204 *)

  (** One leaf of the simplex, nelder_mead.py 152-174: `indices` are the flat positions
      running_size+1 .. running_size+leaf_size of the (size+1) x leaf_size array
      of copies of the leaf; `relative_indices` (positions 1 .. leaf_size of the
      leaf) are clamped by `jnp.unravel_index` to the last entry.  The int16
      overflow beyond 32767 entries is not modelled. *)
  Definition leaf_rows (adelta rdelta : N) (size running : nat) (leaf : vec) : list vec :=
    let L := length leaf in
    map (fun row =>
      map (fun c =>
        let k := (row * L + c)%nat in
        let x := nth c leaf (lit 0) in
        if (running + 1 <=? k)%nat && (k <=? running + L)%nat
        then x + adelta + rdelta * nth (Nat.min (k - running) (L - 1)) leaf (lit 0)
        else x) (seq 0 L)) (seq 0 (S size)).

  (** `for index, leaf in enumerate(leaves)`, nelder_mead.py 149-176; the leaves are put side by
      side *)
  Fixpoint build_rows (adelta rdelta : N) (size running : nat) (leaves : list vec) : list vec :=
    match leaves with
    | [] => repeat [] (S size)
    | leaf :: rest =>
        vmap2 (@app N) (leaf_rows adelta rdelta size running leaf)
          (build_rows adelta rdelta size (running + length leaf) rest)
    end.

  (** `jtu.tree_flatten(y)`: the leaves of a flat list of entries (nelder_mead.py 152) *)
  Fixpoint split_leaves (shape : list nat) (y : vec) : list vec :=
    match shape with
    | [] => []
    | k :: shape' => firstn k y :: split_leaves shape' (skipn k y)
    end.

  (** nelder_mead.py 138-177 *)
  Definition initial_simplex (adelta rdelta : N) (shape : list nat) (y : vec) : list vec :=
    build_rows adelta rdelta (length y) 0 (split_leaves shape y).

  (** nelder_mead.py 179-204 *)
  Definition nm_start (simplex : list vec) (aux0 : Aux) : nm_state :=
    let v0 := nth 0 simplex [] in
    mkNM simplex (repeat ninf (length simplex)) (lit 0) v0 0 (lit 0) v0 0 (lit 0)
      (mkNMStats 0 0 0 0 (-1)) true aux0 0.

  (** ** step, nelder_mead.py 206-411 *)

  (** `lax.top_k` orders NaN above every number; ties go to the lower index (nelder_mead.py 383-385).
      No theorem relies on the place of NaN in this order. *)
  Definition top_gt (a b : N) : bool :=
    if nisnan a then negb (nisnan b) else if nisnan b then false else b <? a.
  (** `lax.top_k`, nelder_mead.py 383-385: the largest entry seen so far and its index. *)
  Fixpoint top_from (best : N) (ibest i : nat) (l : vec) : nat * N :=
    match l with
    | [] => (ibest, best)
    | x :: l' => if top_gt x best then top_from x i (S i) l' else top_from best ibest (S i) l'
    end.
  (** `lax.top_k(l, 1)`, nelder_mead.py 383. *)
  Definition top1 (l : vec) : nat * N :=
    match l with [] => (0%nat, ninf) | x :: l' => top_from x 0 1 l' end.
  (** for the second entry of `lax.top_k(l, 2)`, nelder_mead.py 385. *)
  Fixpoint remove_at {A : Type} (i : nat) (l : list A) : list A :=
    match i, l with
    | _, [] => []
    | O, _ :: l' => l'
    | S j, x :: l' => x :: remove_at j l'
    end.
  (** `a.at[i].set(b)`, nelder_mead.py 364-366. *)
  Fixpoint set_at {A : Type} (i : nat) (a : A) (l : list A) : list A :=
    match i, l with
    | _, [] => []
    | O, _ :: l' => a :: l'
    | S j, x :: l' => x :: set_at j a l'
    end.

  (** nelder_mead.py 242-250 *)
  Definition search_direction (simplex : list vec) (worst : vec) : vec :=
    let scale := nofQ (inject_Z (Z.of_nat (length simplex - 1))) in
    fold_right vadd (vfull (length worst) (lit 0))
      (map (fun a => map (fun x => x / scale) (vsub a worst)) simplex).

  (** `worst + const * search_direction` (nelder_mead.py 251, 277-296) *)
  Definition along (worst dir : vec) (c : N) : vec := vadd worst (vscale c dir).

  (** `init_step`, nelder_mead.py 227-237: (new_vertex, f_new_vertex, stats, aux) *)
  Definition init_step (st : nm_state) : vec * N * nm_stats * Aux :=
    (nth 0 (nm_simplex st) [], ninf, nm_counts st, nm_aux st).

  (** `main_step`, nelder_mead.py 239-331, with `internal_eval` 255-301 *)
  Definition main_step (st : nm_state) : vec * N * nm_stats * Aux :=
    let worst := nm_worst st in
    let dir := search_direction (nm_simplex st) worst in
    let reflection := along worst dir (lit 2) in
    let f := fst (fn reflection) in
    let expand := f <? nm_f_best st in
    let inner_contract := nm_f_worst st <? f in
    let contract := nm_second_worst st <? f in
    let outer_contract := negb (expand || contract) in
    let reflect := (nm_f_best st <? f) && (f <? nm_second_worst st) in
    let contract_const := nwhere inner_contract (lit (1#2)) (lit (3#2)) in
    let v := vwhere expand (along worst dir (lit 3)) reflection in
    let v := vwhere contract (along worst dir contract_const) v in
    let '(f_new, aux) := fn v in
    (v, f_new, update_stats (nm_counts st) reflect inner_contract outer_contract expand false, aux).

  (** `shrink_simplex`, nelder_mead.py 351-365; [vwhere first] picks per entry *)
  Definition shrink_simplex (best : vec) (simplex : list vec) (first : bool) : list N * list vec :=
    let shrunk := map (fun a => vadd best (vscale (lit (1#2)) (vsub a best))) simplex in
    let simplex := if first then simplex else shrunk in
    (map (fun v => fst (fn v)) simplex, simplex).

  (** step, nelder_mead.py 206-411. *)
  Definition nm_step (st : nm_state) : vec * nm_state * Aux :=
    let simplex := nm_simplex st in
    let '(new_vertex, f_new, stats, aux) := if nm_first_pass st then init_step st else main_step st in
    let new_best := f_new <? nm_f_best st in
    let best := vwhere new_best new_vertex (nm_best st) in
    let shrink := if nm_first_pass st then true else nm_f_worst st <? f_new in
    let stats := update_stats stats false false false false shrink in
    let '(f_new_simplex, new_simplex) :=
      if shrink then shrink_simplex best simplex (nm_first_pass st)
      else (* update_simplex, 367-372 *)
        (set_at (nm_worst_index st) f_new (nm_f_simplex st),
         set_at (nm_worst_index st) new_vertex simplex) in
    (* 388-393: the vertices are taken from [simplex], not [new_simplex] *)
    let '(best_index, f_best_neg) := top1 (map nneg f_new_simplex) in
    let '(worst_index, f_worst) := top1 f_new_simplex in
    let f_second_worst := snd (top1 (remove_at worst_index f_new_simplex)) in
    let best := nth best_index simplex [] in
    let worst := nth worst_index simplex [] in
    (best,
     mkNM new_simplex f_new_simplex (- f_best_neg) best best_index f_worst worst worst_index
       f_second_worst stats false aux (S (nm_step_count st)),
     aux).

  (** ** terminate, nelder_mead.py 413-443; the norm sees the entries vertex by
      vertex *)
  Definition nm_converged (rtol atol : N) (norm : vec -> N) (st : nm_state) : bool :=
    let best := nm_best st in
    let f_best := nm_f_best st in
    let x_scale := map (fun b => atol + rtol * nabs b) best in
    let x_ratio := concat (map (fun a => vdiv (vabs (vsub a best)) x_scale) (nm_simplex st)) in
    let f_scale := atol + rtol * nabs f_best in
    let f_ratio := map (fun f => nabs (f - f_best) / f_scale) (nm_f_simplex st) in
    (norm x_ratio <? lit 1) && (norm f_ratio <? lit 1).
  (** terminate, nelder_mead.py 413-444. *)
  Definition nm_terminate (rtol atol : N) (norm : vec -> N) (st : nm_state) : bool * results :=
    let diverged := negb (nisfin (nm_f_best st)) in
    (nm_converged rtol atol norm st || diverged,
     if diverged then nonlinear_divergence else successful).

  (** postprocess, nelder_mead.py 445-465 *)
  Definition nm_post_stats (st : nm_state) : stats :=
    [("num_reflections"%string, Some (n_reflect (nm_counts st)));
     ("num_inner_contractions"%string, Some (n_inner_contract (nm_counts st)));
     ("num_outer_contractions"%string, Some (n_outer_contract (nm_counts st)));
     ("num_expansions"%string, Some (n_expand (nm_counts st)));
     ("num_shrinkages"%string, Some (n_shrink (nm_counts st)))].

  (** ** init with options["y0_simplex"]=True, nelder_mead.py 121-137: each leaf
      has a leading axis; a leaf is given by its leading length and the size of
      one vertex's part. *)
  Definition simplex_check (leaves : list (nat * nat)) : outcome nat :=
    match nodup Nat.eq_dec (map fst leaves) with
    | [n_vertices] =>
        (* `x[1:].size` of each leaf *)
        let size := fold_right Nat.add 0%nat (map (fun l => (fst l - 1) * snd l)%nat leaves) in
        if (n_vertices =? size + 1)%nat then Ret n_vertices else Raise ValueError
    | _ => Raise ValueError
    end.
End NelderMead.
Arguments nm_state : clear implicits.

(** NelderMead as a minimiser, nelder_mead.py 92-465, for a single starting point
    (no `y0_simplex` option); [shape] are the leaf sizes of y0. *)
Definition NelderMead {N : Num} {Aux : Type} (rtol atol : N) (norm : list N -> N) (rdelta adelta : N)
    (shape : list nat) : Solver (list N) N Aux :=
  mkSolver (nm_state N Aux)
    (fun fn y _ aux_struct => Ret (nm_start (initial_simplex adelta rdelta shape y) (aux_struct fill0)))
    (fun fn y st => nm_step fn st)
    (fun fn y st => nm_terminate rtol atol norm st)
    (fun fn y a st res => (y, a, nm_post_stats st)).
