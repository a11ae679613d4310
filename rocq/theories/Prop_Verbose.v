(** Property theorems: Verbose.
    Statements only; each is closed by the lemma of the same name (suffix _pf)
    in the proof file.  [Example]s show concrete cases meeting the hypotheses. *)

From Coq Require Import List Bool Arith Lia QArith String Ascii ZArith.
From Verif Require Import Num NumF64 Vec Results Iterate Search Descent Minimisers QuasiNewton Solvers Optax
  Spec_Iterate Iterate_proofs Spec_Search Minimisers_proofs Verbose Spec_Verbose.
Import ListNotations.
Local Open Scope nat_scope.
From Verif Require Import Verbose_proofs.

(** What `verbose` means.  A callable is called as it is; False prints nothing;
    anything other than a callable, True or False is rejected.  True prints one
    line, "name: value" for each reported pair in the order given, separated by
    ", " (names without braces, as all of them are); nothing for an empty report. *)
Theorem C81_default_verbose : forall (N : Num) (show : rvalue N -> string),
  (forall f, default_verbose (N:=N) (VCallable f) = Ret f) /\
  (exists f, default_verbose (N:=N) VFalse = Ret f /\ forall r : report N, f r = []) /\
  default_verbose (N:=N) VOther = Raise ValueError /\
  (exists f, default_verbose (N:=N) VTrue = Ret f /\ f [] = [] /\
     forall r, r <> [] -> Forall (fun p => plain (fst (snd p))) r ->
       exists c, f r = [c] /\
         render (pc_fmt c) (map show (pc_args c)) =
         String.concat ", " (map (fun p => String.append (fst (snd p)) (String.append ": " (show (snd (snd p))))) r)).
Proof. exact C81_default_verbose_pf. Qed.
Print Assumptions C81_default_verbose.

(** The report of a Gauss-Newton step with these numbers prints as expected
    (numbers shown as "n", counters as "i", vectors as "v"). *)
Example C81_default_verbose_ex :
  exists (f : report F64 -> list (print_call F64)) (c : print_call F64),
    default_verbose VTrue = Ret f /\
    f [("num_steps", ("Step", RInt 3)); ("loss_this_step", ("Loss on this step", RNum (N:=F64) (f64_ofQ 2)))]%string = [c] /\
    render (pc_fmt c) (map (fun v => match v with RInt _ => "i" | RNum _ => "n" | RVec _ => "v" end)%string (pc_args c)) =
      "Step: i, Loss on this step: n"%string.
Proof. exact C81_default_verbose_ex_pf. Qed.

(** What a Gauss-Newton, Levenberg-Marquardt or dogleg solver reports in step
    [k] (counted from 0): the step number, the numbers of accepted steps and of
    rejections since the last of them, both before this step; the point this
    step evaluates, and half the sum of squares of the residuals there; the step
    size for the next step; under "y on the last accepted step" the point kept
    after this step; but under "Loss on the last accepted step" the loss of the
    point kept before it (of the zero residuals, in step 0). *)
Theorem C81_gauss_newton : forall (N : Num) (Aux : Type) (P : ar_tols N) search descent jac_of
    (fn : list N -> list N * Aux) y0 fs auxs st0 k,
  accepts_first search ->
  let s := gauss_newton_solver P search descent jac_of in
  s_init s fn y0 fs auxs = Ret st0 ->
  let Y := y_at s fn y0 st0 (auxs fill0) in
  let St := st_at s fn y0 st0 (auxs fill0) in
  let accepted i := snd (gn_answer search descent jac_of fn (Y i) (St i)) in
  let loss r := nmul (nofQ (1#2)) (sum_squares r) in
  exists since,
    trailing_false accepted k since /\
    gn_report search descent jac_of fn (Y k) (St k) =
    [("num_steps", ("Step", RInt k));
     ("accepted_steps", ("Accepted steps", RInt (count accepted k)));
     ("steps_since_acceptance", ("Steps since acceptance", RInt since));
     ("loss_this_step", ("Loss on this step", RNum (loss (fst (fn (gn_y_eval (St k)))))));
     ("loss_last_accepted_step", ("Loss on the last accepted step",
        RNum (loss (match k with 0 => fs fill0 | S _ => fst (fn (Y k)) end))));
     ("step_size", ("Step size", RNum (fst (gn_answer search descent jac_of fn (Y k) (St k)))));
     ("y", ("y", RVec (gn_y_eval (St k))));
     ("y_last_accepted_step", ("y on the last accepted step", RVec (Y (S k))))]%string.
Proof. exact C81_gauss_newton_pf. Qed.
Print Assumptions C81_gauss_newton.

(** What BFGS, DFP and L-BFGS report in step [k]: the point evaluated and its
    loss; the next step size; the point kept after this step; and, as the loss
    of the last accepted step, that of the point kept before it ([k > 0]). *)
Theorem C81_quasi_newton : forall (N : Num) (Aux HSt : Type) (P : ar_tols N) search descent grad_of
    (init_hessian : list N -> N -> list N -> finfo N * HSt) update_hessian
    (fn : list N -> N * Aux) y0 fs auxs st0 k,
  accepts_first search -> keeps_value_and_grad update_hessian ->
  let s := quasi_newton_solver P search descent grad_of init_hessian update_hessian in
  s_init s fn y0 fs auxs = Ret st0 ->
  let Y := y_at s fn y0 st0 (auxs fill0) in
  let St := st_at s fn y0 st0 (auxs fill0) in
  exists loss_before,
    (0 < k -> loss_before = fst (fn (Y k))) /\
    qn_report search descent fn (Y k) (St k) =
    [("loss_this_step", ("Loss on this step", RNum (fst (fn (qn_y_eval (St k))))));
     ("loss_last_accepted_step", ("Loss on the last accepted step", RNum loss_before));
     ("step_size", ("Step size", RNum (fst (qn_answer search descent fn (Y k) (St k)))));
     ("y", ("y", RVec (qn_y_eval (St k))));
     ("y_last_accepted_step", ("y on the last accepted step", RVec (Y (S k))))]%string.
Proof. exact C81_quasi_newton_pf. Qed.
Print Assumptions C81_quasi_newton.

(** What OptaxMinimiser reports in step [k]: the step number, the iterate the
    step starts from and the loss there. *)
Theorem C81_optax : forall (N : Num) (Aux : Type) optim (P : ar_tols N) grad_of fmax
    (fn : list N -> N * Aux) y0 fs auxs st0 k,
  let s := OptaxMinimiser optim P grad_of fmax in
  s_init s fn y0 fs auxs = Ret st0 ->
  let Y := y_at s fn y0 st0 (auxs fill0) in
  optax_report fn (Y k) (st_at s fn y0 st0 (auxs fill0) k) =
  [("num_steps", ("Step", RInt k));
   ("loss_this_step", ("Loss on this step", RNum (fst (fn (Y k)))));
   ("y", ("y", RVec (Y k)))]%string.
Proof. exact C81_optax_pf. Qed.
Print Assumptions C81_optax.

(** So the two quantities "on the last accepted step" do not belong together.
    In a Gauss-Newton solve of residual y/2 from y0 = 4, and in a BFGS solve of
    y^2/2, the report of step 1 names a last accepted point whose loss is smaller
    than the loss named (0 instead of 2, and 0 instead of 8; binary64). *)
Theorem C81_last_accepted_refuted :
  (exists (fn : list f64 -> list f64 * unit) P jac_of lsolve y0 fs st0 loss y,
     let s := GaussNewton (N:=F64) P jac_of lsolve in
     s_init s fn y0 fs (fun _ => tt) = Ret st0 /\
     let rep := gn_report (learning_rate (nofQ 1)) (newton_descent lsolve None) jac_of fn
                  (y_at s fn y0 st0 tt 1) (st_at s fn y0 st0 tt 1) in
     In ("loss_last_accepted_step", ("Loss on the last accepted step", RNum loss))%string rep /\
     In ("y_last_accepted_step", ("y on the last accepted step", RVec y))%string rep /\
     nltb (n:=F64) (nmul (n:=F64) (f64_ofQ (1#2)) (sum_squares (N:=F64) (fst (fn y)))) loss = true) /\
  (exists (fn : list f64 -> f64 * unit) P grad_of lsolve eps y0 fs st0 loss y,
     let s := BFGS (N:=F64) P grad_of lsolve eps true in
     s_init s fn y0 fs (fun _ => tt) = Ret st0 /\
     let rep := qn_report armijo_default (newton_descent lsolve None) fn
                  (y_at s fn y0 st0 tt 1) (st_at s fn y0 st0 tt 1) in
     In ("loss_last_accepted_step", ("Loss on the last accepted step", RNum loss))%string rep /\
     In ("y_last_accepted_step", ("y on the last accepted step", RVec y))%string rep /\
     nltb (n:=F64) (fst (fn y)) loss = true).
Proof. exact C81_last_accepted_refuted_pf. Qed.
Print Assumptions C81_last_accepted_refuted.

(** The hypotheses hold for GaussNewton and BFGS; here the counters of a solve
    with two accepted steps, and an Optax solve (y^2/2 with unit gradient steps). *)
Example C81_runs_ex :
  (exists st0, s_init half_line_gn half_line [f64_ofQ 4] (fun _ => [f64_ofQ 0]) (fun _ => tt) = Ret st0 /\
     match gn_report (learning_rate (nofQ 1)) (newton_descent half_line_solve None) half_line_jac half_line
             (y_at half_line_gn half_line [f64_ofQ 4] st0 tt 2) (st_at half_line_gn half_line [f64_ofQ 4] st0 tt 2) with
     | [(_, (_, RInt a)); (_, (_, RInt b)); (_, (_, RInt c)); _; _; _; _; _] => a = 2 /\ b = 2 /\ c = 0
     | _ => False
     end) /\
  (exists st0, let s := OptaxMinimiser (mkOptax F64 unit (fun _ => tt) (fun g _ _ _ _ => (vneg g, tt)))
                          (mkTols (N:=F64) (f64_ofQ (1#100)) (f64_ofQ (1#100)) max_norm) (fun _ v => v) (f64_ofQ 1000) in
     s_init s half_square [f64_ofQ 4] (fun _ => f64_ofQ 0) (fun _ => tt) = Ret st0 /\
     nltb (n:=F64) (fst (half_square (y_at s half_square [f64_ofQ 4] st0 tt 1))) (f64_ofQ (1#1000)) = true).
Proof. exact C81_runs_ex_pf. Qed.
