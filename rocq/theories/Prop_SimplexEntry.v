(** Property theorems: SimplexEntry.
    Statements only; each is closed by the lemma of the same name (suffix _pf)
    in the proof file.  [Example]s show concrete cases meeting the hypotheses. *)

From Coq Require Import String List Bool Arith Lia.
From Verif Require Import PyTree Spec_PyTree PyTree_proofs Results Entry Spec_Entry Entry_proofs NelderMead SimplexEntry Spec_SimplexEntry.
Import ListNotations.
Local Open Scope nat_scope.
From Verif Require Import SimplexEntry_proofs.

(** A single starting point: tracing goes through exactly when the function's value at the
    converted y0 is one real scalar and y0 holds at least one number.  In particular the
    function, which can only be called at the structure of y0, is never called at another. *)
Theorem C97_single_start :
  forall (x64 : bool) (fn : user_fn) (y0 : tree pyval) (y : tree sds),
    converted x64 y0 y ->
    (nm_trace x64 false fn y0 = Ready tt <->
     (exists v, value_of fn y = Leaf v /\ real_scalar v) /\ Exists non_empty (leaves y0)).
Proof. exact C97_single_start_pf. Qed.
Print Assumptions C97_single_start.

Example C97_single_start_ex :
  converted false (Node "tuple" [Leaf PyInt; Leaf (Arr (mkSds [3] (DFloat 32)))])
    (Node "tuple" [Leaf (mkSds [] (DFloat 32)); Leaf (mkSds [3] (DFloat 32))]) /\
  nm_trace false false (Plain (fun _ => Leaf PyFloat)) (Node "tuple" [Leaf PyInt; Leaf (Arr (mkSds [3] (DFloat 32)))]) = Ready tt.
Proof. exact C97_single_start_ex_pf. Qed.

(** The full claim, that with options["y0_simplex"]=True a simplex accepted by
    NelderMead.init is searched, is false: whatever the function and y0, minimise raises.
    The function is traced at the structure of y0, a whole simplex, and then called at the
    structure of one vertex. *)
Theorem C97_user_simplex_refuted :
  forall (x64 : bool) (fn : user_fn) (y0 : tree pyval),
    exists e, nm_trace x64 true fn y0 = Raised e.
Proof. exact C97_user_simplex_refuted_pf. Qed.
Print Assumptions C97_user_simplex_refuted.

(** Even for the simplices that NelderMead.init accepts: two points on the real line, given
    to minimise with a function that takes arrays of any shape to a number.  The initial
    check passes and the call still raises ValueError. *)
Theorem C97_accepted_simplex_refuted :
  exists (fn : user_fn) (y0 : tree pyval) y f a,
    Forall (stacked 2) (leaves y0) /\
    minimise_entry false (none_aux fn) y0 = Ready (y, f, a) /\
    nm_simplex_struct true y = Ready (2, y) /\
    nm_trace false true fn y0 = Raised EValueError.
Proof. exact C97_accepted_simplex_refuted_pf. Qed.
Print Assumptions C97_accepted_simplex_refuted.
