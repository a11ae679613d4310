(** Proofs about what the solvers print. *)

From Coq Require Import List Bool Arith Lia QArith String Ascii ZArith.
From Verif Require Import Num NumF64 Vec Results Iterate Search Descent Minimisers QuasiNewton Solvers Optax
  Spec_Iterate Iterate_proofs Spec_Search Minimisers_proofs Verbose Spec_Verbose.
Import ListNotations.
Local Open Scope nat_scope.

Section Proofs.
  Context {N : Num}.

  Lemma pieces_spec : forall (kw : report N) sp ap,
    verbose_pieces kw sp ap =
    (sp ++ map (fun p => String.append (fst (snd p)) ": {}") kw, ap ++ map (fun p => snd (snd p)) kw)%list.
  Proof.
    induction kw as [|[k [n v]] kw IH]; intros sp ap; cbn [verbose_pieces map].
    - rewrite !app_nil_r. reflexivity.
    - rewrite IH, <- !app_assoc. reflexivity.
  Qed.
End Proofs.

Lemma append_assoc : forall a b c, String.append (String.append a b) c = String.append a (String.append b c).
Proof. induction a as [|x a IH]; intros b c; cbn; [reflexivity|]. rewrite IH. reflexivity. Qed.

Lemma render_plain : forall s rest args, plain s ->
  render (String.append s rest) args = String.append s (render rest args).
Proof.
  induction s as [|c s IH]; intros rest args H; [reflexivity|]. destruct H as (H1 & _ & H2).
  cbn [String.append]. rewrite <- IH by assumption.
  destruct c as [[] [] [] [] [] [] [] []]; try reflexivity. exfalso. apply H1. reflexivity.
Qed.

Lemma render_line : forall (names : list string) (vals : list string),
  Forall plain names -> List.length vals = List.length names ->
  render (String.concat ", " (map (fun n => String.append n ": {}") names)) vals =
  String.concat ", " (map (fun p => String.append (fst p) (String.append ": " (snd p))) (combine names vals)).
Proof.
  induction names as [|n names IH]; intros [|v vals] HP HL; try discriminate HL; [reflexivity|].
  inversion HP as [|? ? P1 P2]; subst. injection HL as HL.
  cbn [map combine fst snd].
  destruct names as [|n' names], vals as [|v' vals]; try discriminate HL.
  - cbn [map combine String.concat]. rewrite render_plain by assumption. cbn. f_equal. f_equal. f_equal.
    all: try (induction v; cbn; congruence).
  - specialize (IH (v' :: vals) P2 HL).
    change (String.concat ", " (String.append n ": {}" :: map (fun n => String.append n ": {}") (n' :: names)))
      with (String.append (String.append n ": {}") (String.append ", " (String.concat ", " (map (fun n => String.append n ": {}") (n' :: names))))).
    rewrite append_assoc, render_plain by assumption.
    change (render (String.append ": {}" ?x) ?y) with (String.append ": " (render (String "{" (String "}" x)) y)).
    cbn [combine map fst snd] in IH |- *.
    change (String.concat ", " (?a :: ?b :: ?c)) with (String.append a (String.append ", " (String.concat ", " (b :: c)))).
    rewrite <- IH, append_assoc, append_assoc.
    change (render (String.append ": {}" ?x) ?y) with (String.append ": " (render (String "{" (String "}" x)) y)).
    reflexivity.
Qed.

(** What `verbose` means.  A callable is called as it is; False prints nothing;
    anything other than a callable, True or False is rejected.  True prints one
    line, "name: value" for each reported pair in the order given, separated by
    ", " (names without braces, as all of them are); nothing for an empty report. *)
Lemma C81_default_verbose_pf : forall (N : Num) (show : rvalue N -> string),
  (forall f, default_verbose (N:=N) (VCallable f) = Ret f) /\
  (exists f, default_verbose (N:=N) VFalse = Ret f /\ forall r : report N, f r = []) /\
  default_verbose (N:=N) VOther = Raise ValueError /\
  (exists f, default_verbose (N:=N) VTrue = Ret f /\ f [] = [] /\
     forall r, r <> [] -> Forall (fun p => plain (fst (snd p))) r ->
       exists c, f r = [c] /\
         render (pc_fmt c) (map show (pc_args c)) =
         String.concat ", " (map (fun p => String.append (fst (snd p)) (String.append ": " (show (snd (snd p))))) r)).
Proof.
  intros N show. split; [reflexivity|]. split; [eexists; split; [reflexivity|]; reflexivity|].
  split; [reflexivity|]. eexists. split; [reflexivity|]. split; [reflexivity|].
  intros r Hr HP. unfold default_verbose_true. rewrite pieces_spec. cbn [app].
  rewrite map_length.
  destruct r as [|p r]; [congruence|]. cbn [List.length]. change (0 <? S _) with true. cbv iota.
  eexists. split; [reflexivity|]. cbn [pc_fmt pc_args].
  rewrite <- (map_map (fun p => fst (snd p)) (fun n => String.append n ": {}")).
  rewrite render_line.
  - f_equal. rewrite map_map. generalize (p :: r). intro l. clear. induction l as [|q l IH]; [reflexivity|].
    cbn. f_equal. exact IH.
  - apply Forall_map. exact HP.
  - rewrite !map_length. reflexivity.
Qed.

(** The report of a Gauss-Newton step with these numbers prints as expected
    (numbers shown as "n", counters as "i", vectors as "v"). *)
Example C81_default_verbose_ex_pf :
  exists (f : report F64 -> list (print_call F64)) (c : print_call F64),
    default_verbose VTrue = Ret f /\
    f [("num_steps", ("Step", RInt 3)); ("loss_this_step", ("Loss on this step", RNum (N:=F64) (f64_ofQ 2)))]%string = [c] /\
    render (pc_fmt c) (map (fun v => match v with RInt _ => "i" | RNum _ => "n" | RVec _ => "v" end)%string (pc_args c)) =
      "Step: i, Loss on this step: n"%string.
Proof.
  eexists. eexists. split; [reflexivity|]. split; [reflexivity|]. reflexivity.
Qed.

Section GN.
  Context {N : Num} {Aux : Type}.
  Variables (P : ar_tols N) (search : Search N) (descent : Descent N).
  Variable jac_of : (list N -> list N * Aux) -> list N -> linop N.
  Variable fn : list N -> list N * Aux.
  Notation s := (gauss_newton_solver P search descent jac_of).
  Variables (y0 : list N) (fs : fillv -> list N) (auxs : fillv -> Aux).
  Notation st0 := (gn_st0 search descent y0 fs auxs).
  Notation Yk := (y_at s fn y0 st0 (auxs fill0)).
  Notation Sk := (st_at s fn y0 st0 (auxs fill0)).

  Lemma gn_counters : forall y (st : gn_state search descent) y' st' a',
    gn_step P search descent jac_of fn y st = (y', st', a') ->
    let acc := snd (gn_answer search descent jac_of fn y st) in
    gn_num_steps st' = S (gn_num_steps st) /\
    gn_num_accepted_steps st' = gn_num_accepted_steps st + (if acc then 1 else 0) /\
    gn_num_steps_since_acceptance st' = (if acc then 0 else S (gn_num_steps_since_acceptance st)) /\
    y' = (if acc then gn_y_eval st else y).
  Proof.
    intros y st y' st' a' H acc. subst acc. unfold gn_answer. unfold gn_step in H.
    destruct (fn (gn_y_eval st)) as [fe ae]. cbn [fst snd].
    destruct (se_step search _ _ _ _ _ _) as [[[step ac] sr] sst]. cbn [fst snd].
    destruct ac; cbn in H;
    (match type of H with (let '(_, _) := ?x in _) = _ => destruct x as [u v] end);
    injection H as <- <- _; repeat split; reflexivity.
  Qed.

  Let acc i := snd (gn_answer search descent jac_of fn (Yk i) (Sk i)).

  Lemma gn_counters_at : forall k,
    gn_num_steps (Sk k) = k /\ gn_num_accepted_steps (Sk k) = count acc k /\
    trailing_false acc k (gn_num_steps_since_acceptance (Sk k)).
  Proof.
    induction k as [|k (IH1 & IH2 & IH3 & IH4 & IH5)].
    - repeat split; try reflexivity; cbn; lia.
    - destruct (gn_counters _ _ _ _ _ (gn_trace_S P search descent jac_of fn y0 fs auxs k)) as (E1 & E2 & E3 & _).
      fold (acc k) in E2, E3. rewrite E1, E2, E3, IH1, IH2. split; [reflexivity|]. split; [reflexivity|].
      destruct (acc k) eqn:Ea.
      + repeat split; try lia. intros _. replace (S k - 0 - 1) with k by lia. exact Ea.
      + repeat split; try lia.
        * intros i Hi. destruct (Nat.eq_dec i k) as [->|]; [exact Ea|]. apply IH4. lia.
        * intro Hj. replace (S k - S (gn_num_steps_since_acceptance (Sk k)) - 1) with (k - gn_num_steps_since_acceptance (Sk k) - 1) by lia. apply IH5. lia.
  Qed.
End GN.

(** What a Gauss-Newton, Levenberg-Marquardt or dogleg solver reports in step
    [k] (counted from 0): the step number, the numbers of accepted steps and of
    rejections since the last of them, both before this step; the point this
    step evaluates, and half the sum of squares of the residuals there; the step
    size for the next step; under "y on the last accepted step" the point kept
    after this step; but under "Loss on the last accepted step" the loss of the
    point kept before it (of the zero residuals, in step 0). *)
Lemma C81_gauss_newton_pf : forall (N : Num) (Aux : Type) (P : ar_tols N) search descent jac_of
    (fn : list N -> list N * Aux) y0 fs auxs st0 k,
  accepts_first search ->
  let s := gauss_newton_solver P search descent jac_of in
  s_init s fn y0 fs auxs = Ret st0 ->
  let Y := y_at s fn y0 st0 (auxs fill0) in
  let St := st_at s fn y0 st0 (auxs fill0) in
  let accepted i := snd (gn_answer search descent jac_of fn (Y i) (St i)) in
  let loss r := nmul (nofQ (1#2)) (sum_squares r) in
  exists since,
    trailing_false accepted k since /\
    gn_report search descent jac_of fn (Y k) (St k) =
    [("num_steps", ("Step", RInt k));
     ("accepted_steps", ("Accepted steps", RInt (count accepted k)));
     ("steps_since_acceptance", ("Steps since acceptance", RInt since));
     ("loss_this_step", ("Loss on this step", RNum (loss (fst (fn (gn_y_eval (St k)))))));
     ("loss_last_accepted_step", ("Loss on the last accepted step",
        RNum (loss (match k with 0 => fs fill0 | S _ => fst (fn (Y k)) end))));
     ("step_size", ("Step size", RNum (fst (gn_answer search descent jac_of fn (Y k) (St k)))));
     ("y", ("y", RVec (gn_y_eval (St k))));
     ("y_last_accepted_step", ("y on the last accepted step", RVec (Y (S k))))]%string.
Proof.
  intros N Aux P search descent jac_of fn y0 fs auxs st0 k HA s Hi Y St accepted loss.
  apply gn_init_inv in Hi. subst st0.
  destruct (gn_counters_at P search descent jac_of fn y0 fs auxs k) as (C1 & C2 & C3).
  destruct (gn_counters P search descent jac_of fn _ _ _ _ _ (gn_trace_S P search descent jac_of fn y0 fs auxs k)) as (_ & _ & _ & Ey).
  exists (gn_num_steps_since_acceptance (St k)). split; [exact C3|].
  change (Y (S k) = (if snd (gn_answer search descent jac_of fn (Y k) (St k)) then gn_y_eval (St k) else Y k)) in Ey.
  rewrite Ey. unfold gn_report, gn_answer.
  change (gn_num_steps (St k) = k) in C1. change (gn_num_accepted_steps (St k) = count accepted k) in C2.
  rewrite C1, C2. clear C1 C2 C3 Ey.
  assert (Er : info_residual (gn_f_info (St k)) = match k with 0 => fs fill0 | S _ => fst (fn (Y k)) end).
  { destruct k; [reflexivity|]. destruct (gn_first P search descent jac_of fn y0 fs auxs HA (S k)) as [_ F].
    destruct (F ltac:(lia)) as [F1 _]. exact (f_equal info_residual F1). }
  rewrite Er. clear Er.
  destruct (fn (gn_y_eval (St k))) as [re ae]. cbn [fst snd].
  destruct (se_step search _ _ _ _ _ _) as [[[step ac] sr] sst]. reflexivity.
Qed.

Section QN.
  Context {N : Num} {Aux HSt : Type}.
  Variables (P : ar_tols N) (search : Search N) (descent : Descent N).
  Variable grad_of : (list N -> N * Aux) -> list N -> list N.
  Variable update_hessian : list N -> list N -> finfo N -> N -> list N -> HSt -> finfo N * HSt.
  Variable fn : list N -> N * Aux.

  Lemma qn_kept : forall y (st : qn_state search descent (HSt:=HSt)) y' st' a',
    qn_step P search descent grad_of update_hessian fn y st = (y', st', a') ->
    y' = (if snd (qn_answer search descent fn y st) then qn_y_eval st else y).
  Proof.
    intros y st y' st' a' H. unfold qn_answer. unfold qn_step in H.
    destruct (fn (qn_y_eval st)) as [fe ae]. cbn [fst snd].
    destruct (se_step search _ _ _ _ _ _) as [[[step ac] sr] sst]. cbn [fst snd].
    destruct ac; [destruct (update_hessian _ _ _ _ _ _) as [fi hs]|]; cbn in H;
    (match type of H with (let '(_, _) := ?x in _) = _ => destruct x as [u v] end);
    injection H as <- _ _; reflexivity.
  Qed.
End QN.

(** What BFGS, DFP and L-BFGS report in step [k]: the point evaluated and its
    loss; the next step size; the point kept after this step; and, as the loss
    of the last accepted step, that of the point kept before it ([k > 0]). *)
Lemma C81_quasi_newton_pf : forall (N : Num) (Aux HSt : Type) (P : ar_tols N) search descent grad_of
    (init_hessian : list N -> N -> list N -> finfo N * HSt) update_hessian
    (fn : list N -> N * Aux) y0 fs auxs st0 k,
  accepts_first search -> keeps_value_and_grad update_hessian ->
  let s := quasi_newton_solver P search descent grad_of init_hessian update_hessian in
  s_init s fn y0 fs auxs = Ret st0 ->
  let Y := y_at s fn y0 st0 (auxs fill0) in
  let St := st_at s fn y0 st0 (auxs fill0) in
  exists loss_before,
    (0 < k -> loss_before = fst (fn (Y k))) /\
    qn_report search descent fn (Y k) (St k) =
    [("loss_this_step", ("Loss on this step", RNum (fst (fn (qn_y_eval (St k))))));
     ("loss_last_accepted_step", ("Loss on the last accepted step", RNum loss_before));
     ("step_size", ("Step size", RNum (fst (qn_answer search descent fn (Y k) (St k)))));
     ("y", ("y", RVec (qn_y_eval (St k))));
     ("y_last_accepted_step", ("y on the last accepted step", RVec (Y (S k))))]%string.
Proof.
  intros N Aux HSt P search descent grad_of ih uh fn y0 fs auxs st0 k HA HK s Hi Y St.
  apply qn_init_inv in Hi. subst st0.
  pose proof (qn_kept P search descent grad_of uh fn _ _ _ _ _ (qn_trace_S P search descent grad_of ih uh fn y0 fs auxs k)) as Ey.
  change (Y (S k) = (if snd (qn_answer search descent fn (Y k) (St k)) then qn_y_eval (St k) else Y k)) in Ey.
  exists (as_min (qn_f_info (St k))). split.
  - intro Hk. destruct (qn_first P search descent grad_of ih uh fn y0 fs auxs HA HK k) as [_ F].
    destruct (F Hk) as [F1 _]. exact F1.
  - rewrite Ey. unfold qn_report, qn_answer. clear Ey.
    destruct (fn (qn_y_eval (St k))) as [re ae]. cbn [fst snd].
    destruct (se_step search _ _ _ _ _ _) as [[[step ac] sr] sst]. reflexivity.
Qed.

(** What OptaxMinimiser reports in step [k]: the step number, the iterate the
    step starts from and the loss there. *)
Lemma C81_optax_pf : forall (N : Num) (Aux : Type) optim (P : ar_tols N) grad_of fmax
    (fn : list N -> N * Aux) y0 fs auxs st0 k,
  let s := OptaxMinimiser optim P grad_of fmax in
  s_init s fn y0 fs auxs = Ret st0 ->
  let Y := y_at s fn y0 st0 (auxs fill0) in
  optax_report fn (Y k) (st_at s fn y0 st0 (auxs fill0) k) =
  [("num_steps", ("Step", RInt k));
   ("loss_this_step", ("Loss on this step", RNum (fst (fn (Y k)))));
   ("y", ("y", RVec (Y k)))]%string.
Proof.
  intros N Aux optim P grad_of fmax fn y0 fs auxs st0 k s Hi Y.
  assert (E : ox_step optim (st_at s fn y0 st0 (auxs fill0) k) = k).
  { induction k as [|k IH]; [injection Hi as <-; reflexivity|].
    unfold st_at in *. cbn [trace]. destruct (trace s fn y0 st0 (auxs fill0) k) as [[y st] a]. cbn [fst snd] in *.
    cbn [s_step s OptaxMinimiser]. unfold optax_step.
    destruct (fn y) as [f a']. destruct (ot_update _ _ _ _ _ _) as [u o]. cbn. f_equal. exact IH. }
  unfold optax_report. rewrite E. destruct (fn (Y k)) as [f a]. reflexivity.
Qed.

Definition half_line (v : list f64) : list f64 * unit := (map (fun x => ndiv (n:=F64) x (f64_ofQ 2)) v, tt).
Definition half_line_jac (_ : list f64 -> list f64 * unit) (_ : list f64) : linop F64 :=
  MatOp (N:=F64) 1 [[f64_ofQ (1#2)]].
Definition half_line_solve (_ : linop F64) (b : list f64) : list f64 * results :=
  (map (fun x => nmul (n:=F64) (f64_ofQ 2) x) b, successful).
Definition half_line_gn : Solver (list f64) (list f64) unit :=
  GaussNewton (N:=F64) (mkTols (N:=F64) (f64_ofQ (1#100)) (f64_ofQ (1#100)) max_norm) half_line_jac half_line_solve.
Definition half_square (v : list f64) : f64 * unit := (nmul (n:=F64) (f64_ofQ (1#2)) (sum_squares (N:=F64) v), tt).
Definition half_square_bfgs : Solver (list f64) f64 unit :=
  BFGS (N:=F64) (mkTols (N:=F64) (f64_ofQ (1#100)) (f64_ofQ (1#100)) max_norm) (fun _ v => v) half_line_solve (f64_ofQ (1#1000)) true.

(** So the two quantities "on the last accepted step" do not belong together.
    In a Gauss-Newton solve of residual y/2 from y0 = 4, and in a BFGS solve of
    y^2/2, the report of step 1 names a last accepted point whose loss is smaller
    than the loss named (0 instead of 2, and 0 instead of 8; binary64). *)
Lemma C81_last_accepted_refuted_pf :
  (exists (fn : list f64 -> list f64 * unit) P jac_of lsolve y0 fs st0 loss y,
     let s := GaussNewton (N:=F64) P jac_of lsolve in
     s_init s fn y0 fs (fun _ => tt) = Ret st0 /\
     let rep := gn_report (learning_rate (nofQ 1)) (newton_descent lsolve None) jac_of fn
                  (y_at s fn y0 st0 tt 1) (st_at s fn y0 st0 tt 1) in
     In ("loss_last_accepted_step", ("Loss on the last accepted step", RNum loss))%string rep /\
     In ("y_last_accepted_step", ("y on the last accepted step", RVec y))%string rep /\
     nltb (n:=F64) (nmul (n:=F64) (f64_ofQ (1#2)) (sum_squares (N:=F64) (fst (fn y)))) loss = true) /\
  (exists (fn : list f64 -> f64 * unit) P grad_of lsolve eps y0 fs st0 loss y,
     let s := BFGS (N:=F64) P grad_of lsolve eps true in
     s_init s fn y0 fs (fun _ => tt) = Ret st0 /\
     let rep := qn_report armijo_default (newton_descent lsolve None) fn
                  (y_at s fn y0 st0 tt 1) (st_at s fn y0 st0 tt 1) in
     In ("loss_last_accepted_step", ("Loss on the last accepted step", RNum loss))%string rep /\
     In ("y_last_accepted_step", ("y on the last accepted step", RVec y))%string rep /\
     nltb (n:=F64) (fst (fn y)) loss = true).
Proof.
  set (P := mkTols (N:=F64) (f64_ofQ (1#100)) (f64_ofQ (1#100)) max_norm).
  split.
  - set (s := half_line_gn). set (y0 := [f64_ofQ 4]). set (fs := fun _ : fillv => [f64_ofQ 0]).
    set (st0 := gn_st0 (Aux:=unit) (learning_rate (N:=F64) (nofQ 1)) (newton_descent half_line_solve None) y0 fs (fun _ => tt)).
    assert (Hi : s_init s half_line y0 fs (fun _ => tt) = Ret st0) by reflexivity.
    exists half_line, P, half_line_jac, half_line_solve, y0, fs, st0,
      (nmul (n:=F64) (nofQ (1#2)) (sum_squares (N:=F64) (fst (half_line (y_at s half_line y0 st0 tt 1))))),
      (y_at s half_line y0 st0 tt 2).
    cbv zeta. split; [exact Hi|].
    destruct (C81_gauss_newton_pf F64 unit P (learning_rate (nofQ 1)) (newton_descent half_line_solve None) half_line_jac
      half_line y0 fs (fun _ => tt) st0 1 (fun _ _ _ _ _ => eq_refl) Hi) as (since & _ & E).
    lazymatch type of E with ?L = _ => lazymatch goal with |- In _ ?R /\ _ => change R with L end end. rewrite E. clear E. split; [right; right; right; right; left; reflexivity|].
    split; [right; right; right; right; right; right; right; left; reflexivity|]. vm_compute. reflexivity.
  - set (s := half_square_bfgs). set (y0 := [f64_ofQ 4]). set (fs := fun _ : fillv => f64_ofQ 0).
    set (st0 := qn_st0 (Aux:=unit) (armijo_default (N:=F64)) (newton_descent half_line_solve None) (qn_init_hessian true) y0 fs (fun _ => tt)).
    assert (Hi : s_init s half_square y0 fs (fun _ => tt) = Ret st0) by reflexivity.
    exists half_square, P, (fun _ v => v), half_line_solve, (f64_ofQ (1#1000)), y0, fs, st0,
      (fst (half_square (y_at s half_square y0 st0 tt 1))), (y_at s half_square y0 st0 tt 2).
    cbv zeta. split; [exact Hi|].
    destruct (C81_quasi_newton_pf F64 unit _ P armijo_default (newton_descent half_line_solve None) (fun _ v => v)
      (qn_init_hessian true) (bfgs_update (f64_ofQ (1#1000)) true)
      half_square y0 fs (fun _ => tt) st0 1) as (lb & EL & E).
    + apply accepts_first_builtin.
    + apply keeps_builtin.
    + exact Hi.
    + lazymatch type of E with ?L = _ => lazymatch goal with |- In _ ?R /\ _ => change R with L end end. rewrite E. clear E. rewrite EL by lia. split; [right; left; reflexivity|].
      split; [right; right; right; right; left; reflexivity|]. vm_compute. reflexivity.
Qed.

(** The hypotheses hold for GaussNewton and BFGS; here the counters of a solve
    with two accepted steps, and an Optax solve (y^2/2 with unit gradient steps). *)
Example C81_runs_ex_pf :
  (exists st0, s_init half_line_gn half_line [f64_ofQ 4] (fun _ => [f64_ofQ 0]) (fun _ => tt) = Ret st0 /\
     match gn_report (learning_rate (nofQ 1)) (newton_descent half_line_solve None) half_line_jac half_line
             (y_at half_line_gn half_line [f64_ofQ 4] st0 tt 2) (st_at half_line_gn half_line [f64_ofQ 4] st0 tt 2) with
     | [(_, (_, RInt a)); (_, (_, RInt b)); (_, (_, RInt c)); _; _; _; _; _] => a = 2 /\ b = 2 /\ c = 0
     | _ => False
     end) /\
  (exists st0, let s := OptaxMinimiser (mkOptax F64 unit (fun _ => tt) (fun g _ _ _ _ => (vneg g, tt)))
                          (mkTols (N:=F64) (f64_ofQ (1#100)) (f64_ofQ (1#100)) max_norm) (fun _ v => v) (f64_ofQ 1000) in
     s_init s half_square [f64_ofQ 4] (fun _ => f64_ofQ 0) (fun _ => tt) = Ret st0 /\
     nltb (n:=F64) (fst (half_square (y_at s half_square [f64_ofQ 4] st0 tt 1))) (f64_ofQ (1#1000)) = true).
Proof.
  split.
  - eexists. split; [reflexivity|]. vm_compute. repeat split; reflexivity.
  - eexists. split; [reflexivity|]. vm_compute. reflexivity.
Qed.
