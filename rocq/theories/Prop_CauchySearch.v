(** Property theorems: CauchySearch.
    Statements only; each is closed by the lemma of the same name (suffix _pf)
    in the proof file.  [Example]s show concrete cases meeting the hypotheses. *)

From Coq Require Import List Bool Lia QArith.
From Verif Require Import Num NumF64 Vec Results Search Bounds Spec_CauchySearch.
Import ListNotations.
Local Open Scope nat_scope.
From Verif Require Import CauchySearch_proofs.

(** Any arithmetic whose infinity is not finite. Whatever the search of cauchy_point returns, it found by
    walking the projected path clip(y - t g) from breakpoint to breakpoint: on the
    segment ending at breakpoint t, with d = clip(y - t g) - y, it takes the slope
    g.d + p.Hd at the current point p and the curvature d.Hd; it stops at once at
    the previous breakpoint if the slope is positive, at - slope / curvature if
    that is no further than t, and goes on to t only if the slope is not positive,
    - slope / curvature exceeds t, and some breakpoint lies beyond t. Missing from
    the full claim, and false of this search (C56_not_minimiser_refuted): that the
    point is a minimiser of the model along the path. *)
Theorem C56_search_partial :
  forall (N : Num) (y lower upper grad : list N) (H : linop N) (fuel : nat) (pt : list N),
    nisfin (ninf (n:=N)) = false ->
    length lower = length y -> length upper = length y -> length grad = length y ->
    existsb (fun t => nltb (lit 0) t && nltb t (lit 1)) (breakpoints y lower upper grad) = true ->
    cauchy_point y lower upper grad H fuel = Ret pt ->
    searched (fun t => vclip (vsub y (vscale t grad)) lower upper)
      (fun p d => nadd (vdot grad d) (vdot p (op_mv H d))) (fun d => vdot d (op_mv H d))
      y (breakpoints y lower upper grad) (lit 0) y pt.
Proof. exact C56_search_partial_pf. Qed.
Print Assumptions C56_search_partial.

(** binary64, the square [0,1] x [0,1] from (1/2, 1/2) with gradient (1, 2) and H =
    I/8: there are breakpoints, and the search returns after two passes and not
    after one. *)
Example C56_search_ex :
  let c := f64_ofQ (1#8) in
  let y := [f64_ofQ (1#2); f64_ofQ (1#2)] in
  let l := [f64_ofZ 0; f64_ofZ 0] in
  let u := [f64_ofZ 1; f64_ofZ 1] in
  let g := [f64_ofZ 1; f64_ofZ 2] in
  let H := MatOp (N:=F64) 2 [[c; f64_ofZ 0]; [f64_ofZ 0; c]] in
  nisfin (ninf (n:=F64)) = false /\
  existsb (fun i => nltb (n:=F64) (lit 0) i && nltb (n:=F64) i (lit 1)) (breakpoints (N:=F64) y l u g) = true /\
  exists pt, cauchy_point (N:=F64) y l u g H 10 = Ret pt.
Proof. exact C56_search_ex_pf. Qed.
