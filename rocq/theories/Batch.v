(** `jax.vmap` of a solve (/repo/docs/examples/optimise_diffeq.ipynb 110 and 196 batch a function that
    contains one).  The loop of /repo/optimistix/_iterate.py 243 is then run by JAX's batching rule for
    loops, which is external and written out here: every part of the carry is an array with one entry per
    lane; the loop goes on while some lane wants to; the body is run on all the lanes, and each part of the
    result is kept in the lanes that wanted to go on and discarded, part by part, in the others. *)

From Coq Require Import List Bool Arith ZArith String.
From Verif Require Import Results Iterate.
Import ListNotations.
Local Open Scope string_scope.

(** `jnp.where(pred, new, old)` on a batch: what the batching rule does to every part of the carry of the loop
    started at _iterate.py 243. *)
Fixpoint select {A : Type} (p : list bool) (new old : list A) : list A :=
  match p, new, old with
  | b :: p', n :: new', o :: old' => (if b then n else o) :: select p' new' old'
  | _, _, _ => []
  end.

(** `vmap` of a function of one and of two arguments (_iterate.py 234-241 under vmap) *)
Fixpoint lanes2 {A B C : Type} (f : A -> B -> C) (a : list A) (b : list B) : list C :=
  match a, b with
  | x :: a', y :: b' => f x y :: lanes2 f a' b'
  | _, _ => []
  end.

(** Running something that may raise in every lane (`solver.init`, _iterate.py 212, whose checks raise whichever
    lane trips them). *)
Fixpoint lanes_outcome {A : Type} (l : list (outcome A)) : outcome (list A) :=
  match l with
  | [] => Ret []
  | o :: l' => obind o (fun a => obind (lanes_outcome l') (fun r => Ret (a :: r)))
  end.

Section Batch.
  Context {Y Out Aux : Type}.
  Variable allfinite : Y -> bool.
  Variable solver : Solver Y Out Aux.

  (** The batched carry, _iterate.py 221-228, and the step counter of the bounded loop. *)
  Record bcarry : Type := mkB {
    b_y : list Y;
    b_num_steps : list nat;
    b_state : list (St solver);
    b_aux : list Aux;
    b_terminate : list bool;
    b_result : list results;
    b_count : list nat
  }.

  (** One lane of the carry, and back (_iterate.py 221-228). *)
  Fixpoint rows (y : list Y) (n : list nat) (s : list (St solver)) (a : list Aux) (t : list bool)
      (r : list results) : list (carry (Y:=Y) (Aux:=Aux) (St solver)) :=
    match y, n, s, a, t, r with
    | y1 :: y', n1 :: n', s1 :: s', a1 :: a', t1 :: t', r1 :: r' =>
        mkCarry y1 n1 s1 a1 t1 r1 :: rows y' n' s' a' t' r'
    | _, _, _, _, _, _ => []
    end.
  Definition rows_of (c : bcarry) := rows (b_y c) (b_num_steps c) (b_state c) (b_aux c) (b_terminate c) (b_result c).
  Definition columns (l : list (carry (St solver))) (count : list nat) : bcarry :=
    mkB (map c_y l) (map c_num_steps l) (map c_state l) (map c_aux l) (map c_terminate l) (map c_result l) count.

  (** The batched condition: cond_fun (_iterate.py 230-232) and the step limit of line 243, in every lane *)
  Definition wants (max_steps : option nat) (c : carry (St solver)) (count : nat) : bool :=
    match max_steps with Some m => Nat.ltb count m | None => true end && cond_fun solver c.

  (** Keep the new values of the lanes that wanted to go on (_iterate.py 243 under vmap). *)
  Definition bselect (p : list bool) (new old : bcarry) : bcarry :=
    mkB (select p (b_y new) (b_y old)) (select p (b_num_steps new) (b_num_steps old))
        (select p (b_state new) (b_state old)) (select p (b_aux new) (b_aux old))
        (select p (b_terminate new) (b_terminate old)) (select p (b_result new) (b_result old))
        (select p (b_count new) (b_count old)).

  (** `while_loop(cond_fun, body_fun, init_carry, max_steps=max_steps)` (_iterate.py 243) on a batch; [fns]
      is `fn` with the arguments of each lane. *)
  Fixpoint batched_while (fuel : nat) (fns : list (Y -> Out * Aux)) (max_steps : option nat) (c : bcarry) : outcome bcarry :=
    match fuel with
    | O => Unfinished
    | S fuel' =>
        let p := lanes2 (wants max_steps) (rows_of c) (b_count c) in
        if existsb (fun b => b) p then
          let new := columns (lanes2 (body_fun allfinite solver) fns (rows_of c)) (map S (b_count c)) in
          batched_while fuel' fns max_steps (bselect p new c)
        else Ret c
    end.

  (** What follows the loop (_iterate.py 244-266 and 345-353), in one lane *)
  Definition finish (max_steps : option nat) (fn : Y -> Out * Aux) (c : carry (St solver)) : Solution Y Aux (St solver) :=
    let res :=
      if results_eqb (c_result c) successful && negb (c_terminate c)
      then nonlinear_max_steps_reached else c_result c in
    let '(y, a, st) := s_post solver fn (c_y c) (c_aux c) (c_state c) res in
    mkSolution y res a
      (("num_steps", Some (Z.of_nat (c_num_steps c))) :: ("max_steps", option_map Z.of_nat max_steps) :: st)
      (c_state c).

  (** The initial carry, _iterate.py 212-228, in one lane *)
  Definition start (fn : Y -> Out * Aux) (y0 : Y) (aux0 : Aux) (st : St solver) : carry (St solver) :=
    let '(t, r) := terminate_and_result allfinite solver fn y0 st in
    mkCarry y0 0 st aux0 t r.

  (** `vmap` of iterative_solve, _iterate.py 276-359.  A lane is a function and a starting point.  The
      solution is given lane by lane.  `error_if` (line 358) raises if its condition holds in any lane; which of the
      messages is shown is decided by Equinox ([pick]). *)
  Definition vmap_solve (pick : list results -> results) (fuel : nat) (max_steps : option nat) (throw : bool)
      (lanes : list ((Y -> Out * Aux) * Y)) (f_struct : fillv -> Out) (aux_struct : fillv -> Aux) :
      outcome (list (Solution Y Aux (St solver))) :=
    obind (lanes_outcome (map (fun l => s_init solver (fst l) (snd l) f_struct aux_struct) lanes)) (fun sts =>
    let init := columns (lanes2 (fun l st => start (fst l) (snd l) (aux_struct fill0) st) lanes sts) (map (fun _ => 0) lanes) in
    obind (batched_while fuel (map fst lanes) max_steps init) (fun final =>
    let sols := lanes2 (finish max_steps) (map fst lanes) (rows_of final) in
    if throw && existsb (fun s => negb (results_eqb (result s) successful)) sols
    then Raise (SolveFailed (pick (map result sols))) else Ret sols)).
End Batch.
