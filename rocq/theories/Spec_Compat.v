(** What compat.minimize accepts. *)

From Coq Require Import List QArith ZArith Ascii String.
From Verif Require Import Num Results Iterate Compat.
Import ListNotations.
Local Open Scope char_scope.

(** "bfgs" in any mixture of upper and lower case *)
Definition names_bfgs (m : string) : Prop :=
  exists c1 c2 c3 c4, m = String c1 (String c2 (String c3 (String c4 EmptyString))) /\
    In c1 ["b"; "B"] /\ In c2 ["f"; "F"] /\ In c3 ["g"; "G"] /\ In c4 ["s"; "S"].

(** Only the keys "maxiter" and "norm" occur. *)
Definition known_options {N : Num} (o : option (min_options N)) : Prop :=
  forall o', o = Some o' -> o_others o' = [].

(** The documented meaning of "maxiter" *)
Definition step_limit {N : Num} (o : option (min_options N)) : option nat :=
  match o with Some (mkOpts (Some m) _ _) => m | _ => None end.

(** The documented default of `tol` *)
Definition tolerance {N : Num} (t : option N) : N :=
  match t with Some t => t | None => nofQ (1 # 100000)%Q end.

(** The step counts reported by a solve and by compat.minimize *)
Definition num_steps_of {A B C : Type} (o : outcome (Solution A B C)) : option Z :=
  match o with
  | Ret s => match sol_stats s with (_, k) :: _ => k | [] => None end
  | _ => None
  end.
Definition nfev_of {N : Num} (o : outcome (optimize_results N)) : option Z :=
  match o with Ret r => match or_nfev r with Some k => k | None => None end | _ => None end.
