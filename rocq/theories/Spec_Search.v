(** Vocabulary for statements about searches and accept/reject solvers. *)

From Coq Require Import List Bool Arith Reals QArith.
From Verif Require Import Num Vec Results Search.
Import ListNotations.

(** Documented contract of searches (_search.py 376): `accept` must be True if
    `first_step=True`. *)
Definition accepts_first {N : Num} (s : Search N) : Prop :=
  forall y y_eval f_info f_eval_info st,
    snd (fst (fst (se_step s true y y_eval f_info f_eval_info st))) = true.

(** Documented contract of `update_hessian` (quasi_newton.py 157-174): the
    returned information carries the new value and gradient. *)
Definition keeps_value_and_grad {N : Num} {HSt : Type}
    (update : list N -> list N -> finfo N -> N -> list N -> HSt -> finfo N * HSt) : Prop :=
  forall y y_eval i f g st,
    as_min (fst (update y y_eval i f g st)) = f /\
    info_grad (fst (update y y_eval i f g st)) = g.

(** One call of a search: the arguments other than the state. *)
Record search_call (N : Num) : Type := mkCall {
  sc_first : bool; sc_y : list N; sc_y_eval : list N;
  sc_info : finfo N; sc_eval_info : finfo N
}.
Arguments mkCall {N}. Arguments sc_first {N}. Arguments sc_y {N}. Arguments sc_y_eval {N}.
Arguments sc_info {N}. Arguments sc_eval_info {N}.

(** The (step_size, accept) pairs produced by a sequence of calls, the state
    being threaded through. *)
Fixpoint search_run {N : Num} (s : Search N) (calls : list (search_call N)) (st : SSt s) :
    list (N * bool) :=
  match calls with
  | [] => []
  | c :: rest =>
      let '(step, accept, _, st') :=
        se_step s (sc_first c) (sc_y c) (sc_y_eval c) (sc_info c) (sc_eval_info c) st in
      (step, accept) :: search_run s rest st'
  end.

(** Number of trailing rejections in a list of (step, accept) pairs *)
Fixpoint trailing_rejections {A : Type} (l : list (A * bool)) : nat :=
  match l with
  | [] => 0
  | (_, a) :: rest =>
      if forallb (fun p => negb (snd p)) l then length l else trailing_rejections rest
  end.

(** y + t d *)
Definition along (y d : list R) (t : R) : list R := vadd (N:=RN) y (vscale (N:=RN) t d).

(** The update returns information of one of the two kinds with a Hessian
    (approximation), carrying the new value and gradient. *)
Definition returns_grad_info {N : Num} {HSt : Type}
    (update : list N -> list N -> finfo N -> N -> list N -> HSt -> finfo N * HSt) : Prop :=
  forall y y_eval i f g st, exists op,
    fst (update y y_eval i f g st) = EvalGradHessian f g op \/
    fst (update y y_eval i f g st) = EvalGradHessianInv f g op.

(** The documented trust-region rule, in terms of ratio = actual change /
    predicted change (for a negative prediction). *)
Definition tr_rule (low_cutoff high_cutoff low_constant high_constant : R)
    (first : bool) (change predicted radius new_radius : R) (accept : bool) : Prop :=
  (first = true -> accept = true /\ new_radius = radius) /\
  (first = false -> (predicted < 0)%R ->
     let ratio := (change / predicted)%R in
     (accept = true <-> (low_cutoff <= ratio)%R) /\
     ((high_cutoff < ratio)%R -> new_radius = (high_constant * radius)%R) /\
     ((low_cutoff <= ratio <= high_cutoff)%R -> new_radius = radius) /\
     ((ratio < low_cutoff)%R -> new_radius = (low_constant * radius)%R)) /\
  (first = false -> (0 <= predicted)%R ->
     (accept = true <-> (change <= low_cutoff * predicted)%R) /\
     new_radius = if accept then radius else (low_constant * radius)%R).

From Verif Require Import Spec_Vec Spec_Lin.

(** The operator is a linear map from R^n to R^m ... *)
Definition linear_op (n m : nat) (A : linop RN) : Prop :=
  (forall x : list R, length x = n -> length (op_mv A x : list R) = m) /\
  (forall x y : list R, length x = n -> length y = n ->
     op_mv A (Radd_v x y) = Radd_v (op_mv A x) (op_mv A y)) /\
  (forall (c : R) (x : list R), length x = n -> op_mv A (Rscal c x) = Rscal c (op_mv A x)).
(** ... and its transpose is right. *)
Definition transpose_op (n : nat) (A : linop RN) : Prop :=
  (forall x : list R, length (op_mvT A x : list R) = n) /\
  (forall x d : list R, length d = n -> Rdot (op_mvT A x) d = Rdot x (op_mv A d)).

(** The linear solver returns least-squares solutions (for unknowns of size
    n). *)
Definition exact_least_squares (n : nat) (lsolve : linop RN -> list R -> list R * results) : Prop :=
  forall m A (b : list R), linear_op n m A -> length b = m ->
    let z : list R := fst (lsolve A b) in
    length z = n /\
    forall w : list R, length w = n ->
      (Rdot (Rsub_v (op_mv A z) b) (Rsub_v (op_mv A z) b) <=
       Rdot (Rsub_v (op_mv A w) b) (Rsub_v (op_mv A w) b))%R.

(** A point visited by a quasi-Newton method: position, value, gradient. *)
Record qn_point : Type := mkPoint { pt_y : list R; pt_f : R; pt_g : list R }.
(** The information held after visiting [p0] and then the points of [l] (latest
    first). *)
Fixpoint qn_after {HSt : Type} (init : list R -> R -> list R -> finfo RN * HSt)
    (update : list R -> list R -> finfo RN -> R -> list R -> HSt -> finfo RN * HSt)
    (p0 : qn_point) (l : list qn_point) : finfo RN * HSt :=
  match l with
  | [] => init (pt_y p0) (pt_f p0) (pt_g p0)
  | p :: rest =>
      let before := qn_after init update p0 rest in
      update (pt_y (hd p0 rest)) (pt_y p) (fst before) (pt_f p) (pt_g p) (snd before)
  end.
Definition sized (n : nat) (p : qn_point) : Prop := length (pt_y p) = n /\ length (pt_g p) = n.

(** The linear solver solves every system with a symmetric positive definite n x n
    matrix. *)
Definition exact_solve (n : nat) (lsolve : linop RN -> list R -> list R * results) : Prop :=
  forall A b, spd n A -> length b = n ->
    snd (lsolve (MatOp n A) b) = successful /\
    length (fst (lsolve (MatOp n A) b) : list R) = n /\ mvec A (fst (lsolve (MatOp n A) b)) = b.

(** Information holding the point [p] and the matrix [M] as approximate inverse
    Hessian or as approximate Hessian. *)
Definition qn_holds (use_inverse : bool) (n : nat) (p : qn_point) (M : list (list R)) : finfo RN :=
  if use_inverse then EvalGradHessianInv (N:=RN) (pt_f p) (pt_g p) (MatOp n M)
  else EvalGradHessian (N:=RN) (pt_f p) (pt_g p) (MatOp n M).
(** The secant condition from [p] to [q], the update being skipped unless the
    curvature exceeds eps. *)
Definition secant_or_skip (use_inverse : bool) (eps : R) (p q : qn_point) (M M' : list (list R)) : Prop :=
  let s := Rsub_v (pt_y q) (pt_y p) in
  let d := Rsub_v (pt_g q) (pt_g p) in
  ((eps < Rdot d s)%R -> if use_inverse then mvec M' d = s else mvec M' s = d) /\
  ((Rdot d s <= eps)%R -> M' = M).
