(** Vocabulary for statements about what the solvers print. *)

From Coq Require Import List Bool String Ascii.
From Verif Require Import Num Vec Results Search Descent Minimisers.
Import ListNotations.

(** str.format, for format strings whose only braces are the placeholders "{}":
    each placeholder takes the next argument. *)
Fixpoint render (fmt : string) (args : list string) : string :=
  match fmt with
  | EmptyString => EmptyString
  | String "{" (String "}" rest) =>
      match args with
      | a :: args' => String.append a (render rest args')
      | [] => EmptyString
      end
  | String c rest => String c (render rest args)
  end.

(** A text without braces *)
Fixpoint plain (s : string) : Prop :=
  match s with
  | EmptyString => True
  | String c rest => c <> "{"%char /\ c <> "}"%char /\ plain rest
  end.

(** The number of [i < k] with [p i] *)
Fixpoint count (p : nat -> bool) (k : nat) : nat :=
  match k with 0 => 0 | S k => count p k + if p k then 1 else 0 end.

(** [j] is the length of the longest run of [false] that ends just before [k]. *)
Definition trailing_false (p : nat -> bool) (k j : nat) : Prop :=
  j <= k /\ (forall i, k - j <= i < k -> p i = false) /\ (j < k -> p (k - j - 1) = true).

(** The search's answer in a Gauss-Newton step from [y], [st]: the new step size
    and whether the evaluated point is accepted. *)
Definition gn_answer {N : Num} {Aux : Type} (search : Search N) (descent : Descent N)
    (jac_of : (list N -> list N * Aux) -> list N -> linop N) (fn : list N -> list N * Aux)
    (y : list N) (st : gn_state search descent (Aux:=Aux)) : N * bool :=
  fst (fst (se_step search (gn_first_step st) y (gn_y_eval st) (gn_f_info st)
    (ResidualJac (fst (fn (gn_y_eval st))) (jac_of fn (gn_y_eval st))) (gn_search_state st))).

(** The same for a quasi-Newton step *)
Definition qn_answer {N : Num} {Aux HSt : Type} (search : Search N) (descent : Descent N)
    (fn : list N -> N * Aux) (y : list N)
    (st : qn_state search descent (Aux:=Aux) (HSt:=HSt)) : N * bool :=
  fst (fst (se_step search (qn_first_step st) y (qn_y_eval st) (qn_f_info st)
    (Eval (fst (fn (qn_y_eval st)))) (qn_search_state st))).
