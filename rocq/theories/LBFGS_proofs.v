(** L-BFGS: the history buffer (C40), the two-loop recursion (C41), the compact
    form (C42), the two modes (C39) and progress (C29). *)

From Coq Require Import String List Bool Arith Lia ZArith QArith Qreals Reals Lra Psatz.
From Verif Require Import Num NumFacts Vec Results Iterate Spec_Iterate Iterate_proofs.
From Verif Require Import Spec_Vec VecFacts Spec_Lin LinFacts NumF64.
From Verif Require Import Search Spec_Search Descent Minimisers QuasiNewton Solvers Minimisers_proofs Progress_proofs TrustRegion_proofs LeastSquares_proofs BFGS_proofs.
From Verif Require Import LinAlg LBFGS Spec_LBFGS LBFGSFacts LBFGSCompact LBFGSDirect Cholesky CholeskyFacts.
Import ListNotations.
Local Open Scope nat_scope.

Lemma initial_scale_pos : forall n pairs, Forall (curved n) pairs -> (0 < initial_scale pairs)%R.
Proof.
  intros n pairs HF. destruct HF as [|[s d] pairs (Ls & Ld & Hi) HF]; cbn; [lra|]. cbn [fst snd] in *.
  assert (Hd : (0 < Rdot d d)%R).
  { destruct (Rdot_pos d) as [H|H]; [exact H|]. symmetry in H. apply Rdot_0_inv in H. rewrite H, Rdot_0_l in Hi. lra. }
  rewrite (Rdot_comm s). apply Rdiv_lt_0_compat; assumption.
Qed.

Lemma direct_gamma_ok : forall m n ps st, 0 < m -> dir_ok m n ps st -> Forall (curved n) ps ->
  direct_gamma (N:=RN) m st = (/ initial_scale (firstn m ps))%R.
Proof.
  intros m n ps st Hm (E & [_ By] & _ & [_ Bg] & _) HF.
  unfold direct_gamma. rewrite !vdot_RN, E.
  assert (P0 : slot m (Z.of_nat (length ps) - 1) = pos m (length ps) 0) by (unfold pos; f_equal; lia).
  rewrite P0. change (@nth (list (T RN))) with (@nth (list R)).
  rewrite By, Bg by exact Hm. unfold sof, dof. destruct m as [|m']; [lia|].
  destruct ps as [|[s d] ps]; cbn [map nth firstn initial_scale fst snd nltb RN nofQ ndiv nwhere].
  - rewrite !Rdot_0_l, Q2R_0, Q2R_1. replace (Rltb 0 0) with false by (symmetry; apply Rltb_false; lra). cbn. lra.
  - destruct (Forall_inv HF) as (Ls & Ld & Hi). cbn [fst snd] in *. rewrite Q2R_0, Q2R_1.
    rewrite (Rdot_comm s d). rewrite (proj2 (Rltb_true _ _) Hi). cbn.
    assert (Hd : (0 < Rdot d d)%R).
    { destruct (Rdot_pos d) as [H|H]; [exact H|]. symmetry in H. apply Rdot_0_inv in H. rewrite H, Rdot_0_l in Hi. lra. }
    field. lra.
Qed.

Lemma dir_operator_ok : forall m n ps st x, 0 < m -> dir_ok m n ps st -> Forall (curved n) ps -> length x = n ->
  direct_operator (N:=RN) m st x = hessian_of_pairs (/ initial_scale (firstn m ps)) (firstn m ps) x.
Proof.
  intros m n ps st x Hm Hok HF Hx. apply (direct_operator_ok m n Hm ps st Hok HF); auto.
  - apply Rinv_0_lt_compat. apply (initial_scale_pos n). apply firstn_Forall. exact HF.
  - apply direct_gamma_ok with (n := n); assumption.
Qed.

(** state of either mode holding the pairs [ps] *)
Definition holds_pairs (ui : bool) (m n : nat) (ps : list (list R * list R)) (st : lbfgs_state RN) : Prop :=
  if ui then exists s, st = LInv s /\ inv_ok m n ps s else exists s, st = LDir s /\ dir_ok m n ps s.

Lemma zeros_RN : forall n, vfull (N:=RN) n (nofQ (n:=RN) 0) = zerov n.
Proof. intro n. unfold vfull, zerov. cbn [nofQ RN]. rewrite Q2R_0. reflexivity. Qed.

Lemma lbfgs_init_ok : forall m n ui p, 0 < m -> sized n p -> exists st,
  lbfgs_init (N:=RN) m ui (pt_y p) (pt_f p) (pt_g p) = (holds_op ui p (lbfgs_operator (N:=RN) m st), st) /\
  holds_pairs ui m n [] st.
Proof.
  intros m n ui p Hm [Ly _]. unfold lbfgs_init. rewrite !zeros_RN. change (Datatypes.length (pt_y p)) with (@length R (pt_y p)). rewrite Ly.
  destruct ui; eexists; (split; [reflexivity|]); eexists; (split; [reflexivity|]).
  - apply inv_init_ok. exact Hm.
  - unfold vfull. cbn [nofQ RN]. rewrite Q2R_1. apply dir_init_ok. exact Hm.
Qed.

Lemma lbfgs_update_ok : forall m n eps ui ps st p q, 0 < m -> sized n p -> sized n q -> holds_pairs ui m n ps st ->
  let s := Rsub_v (pt_y q) (pt_y p) in let d := Rsub_v (pt_g q) (pt_g p) in
  exists st',
    lbfgs_update (N:=RN) eps m ui (pt_y p) (pt_y q) (holds_op ui p (lbfgs_operator (N:=RN) m st)) (pt_f q) (pt_g q) st =
      (holds_op ui q (lbfgs_operator (N:=RN) m st'), st') /\
    holds_pairs ui m n (if Rlt_dec eps (Rdot s d) then (s, d) :: ps else ps) st'.
Proof.
  intros m n eps ui ps st p q Hm [Lp Gp] [Lq Gq] HP s d.
  assert (Ls : length s = n) by (apply Rsub_v_length; assumption).
  assert (Ld : length d = n) by (apply Rsub_v_length; assumption).
  unfold lbfgs_update.
  assert (Eg : info_grad (holds_op ui p (lbfgs_operator (N:=RN) m st)) = pt_g p) by (destruct ui; reflexivity).
  rewrite Eg, !vsub_RN. fold s d. rewrite vdot_RN. cbn [nltb RN].
  destruct (Rlt_dec eps (Rdot s d)) as [Hc|Hc].
  - rewrite (proj2 (Rltb_true _ _) Hc). destruct ui; destruct HP as (st1 & -> & Hok); cbn [holds_op].
    + eexists. split; [reflexivity|]. eexists. split; [reflexivity|]. apply inv_update_ok; assumption.
    + eexists. split; [reflexivity|]. eexists. split; [reflexivity|]. apply dir_update_ok; assumption.
  - rewrite (proj2 (Rltb_false _ _)) by lra. exists st. split; [|exact HP]. destruct ui; reflexivity.
Qed.

Lemma lbfgs_seq : forall m n eps ui p0 l, 0 < m -> sized n p0 -> Forall (sized n) l -> exists st,
  qn_after (lbfgs_init (N:=RN) m ui) (lbfgs_update (N:=RN) eps m ui) p0 l =
    (holds_op ui (hd p0 l) (lbfgs_operator (N:=RN) m st), st) /\
  holds_pairs ui m n (curved_pairs eps p0 l) st.
Proof.
  intros m n eps ui p0 l Hm S0 SL. induction SL as [|q l Sq SL (st & IH1 & IH2)].
  - cbn [qn_after hd curved_pairs]. apply lbfgs_init_ok; assumption.
  - assert (Sp : sized n (hd p0 l)) by (destruct SL; [exact S0|assumption]).
    cbn [qn_after curved_pairs]. rewrite IH1. cbn [fst snd].
    exact (lbfgs_update_ok m n eps ui _ st (hd p0 l) q Hm Sp Sq IH2).
Qed.

Lemma curved_pairs_curved : forall n eps p0 l, (0 <= eps)%R -> sized n p0 -> Forall (sized n) l ->
  Forall (curved n) (curved_pairs eps p0 l).
Proof.
  intros n eps p0 l He S0 SL. induction SL as [|q l Sq SL IH]; cbn [curved_pairs]; [constructor|].
  assert (Sp : sized n (hd p0 l)) by (destruct SL; [exact S0|assumption]).
  destruct (Rlt_dec _ _) as [Hc|Hc]; [|exact IH]. constructor; [|exact IH].
  split; [|split]; cbn [fst snd].
  - apply Rsub_v_length; [apply Sq|apply Sp].
  - apply Rsub_v_length; [apply Sq|apply Sp].
  - rewrite Rdot_comm. lra.
Qed.

(** Both modes' operators as matrices, from the pairs *)
Lemma operators : forall m n ps sT sF, 0 < m -> Forall (curved n) ps ->
  holds_pairs true m n ps sT -> holds_pairs false m n ps sF ->
  exists H B, spd n H /\ spd n B /\ inverses n H B /\
    acts_as n (lbfgs_operator (N:=RN) m sT) H /\ acts_as n (lbfgs_operator (N:=RN) m sF) B /\
    match firstn m ps with [] => True | (s, d) :: _ => mvec H d = s /\ mvec B s = d end.
Proof.
  intros m n ps sT sF Hm HF (tT & -> & OT) (tF & -> & OF).
  pose proof (firstn_Forall _ _ _ m HF) as HFm.
  destruct (pairs_matrices n (initial_scale (firstn m ps)) (firstn m ps) (initial_scale_pos n _ HFm) HFm)
    as (H & B & SH & SB & HI & EH & EB & EN).
  exists H, B. repeat (split; [assumption|]). split; [|split; [|exact EN]].
  - intros x Hx. cbn [lbfgs_operator op_mv]. rewrite (inv_operator_ok m n Hm ps) by assumption. apply EH. exact Hx.
  - intros x Hx. cbn [lbfgs_operator op_mv]. rewrite (dir_operator_ok m n ps) by assumption. apply EB. exact Hx.
Qed.
Lemma other_mode : forall m n p0 l, 0 < m -> sized n p0 -> Forall (sized n) l ->
  forall eps ui, exists st, holds_pairs ui m n (curved_pairs eps p0 l) st.
Proof.
  intros m n p0 l Hm S0 SL eps ui. destruct (lbfgs_seq m n eps ui p0 l Hm S0 SL) as (st & _ & K). exists st. exact K.
Qed.

(** L-BFGS history, either mode, exact arithmetic: for every history length and
    every sequence of visited points, the buffers read in circular order from the
    next slot hold exactly the last [m] pairs with curvature above eps, oldest
    first, preceded by neutral entries; use_inverse=True also keeps their
    reciprocal inner products. *)
Lemma C40_history_pf :
  forall (n m : nat) (eps : R) (p0 : qn_point) (l : list qn_point),
    0 < m -> sized n p0 -> Forall (sized n) l ->
    let pairs := firstn m (curved_pairs eps p0 l) in
    let held {A} (neutral : A) entries := repeat neutral (m - length pairs) ++ rev (map entries pairs) in
    (exists st, snd (qn_after (lbfgs_init (N:=RN) m true) (lbfgs_update (N:=RN) eps m true) p0 l) = LInv st /\
       circular [] (li_index st) (li_y_diff st) = held (zerov n) fst /\
       circular [] (li_index st) (li_grad_diff st) = held (zerov n) snd /\
       circular 0%R (li_index st) (li_inner st) = held 0%R (fun p => / Rdot (fst p) (snd p))%R) /\
    (exists st, snd (qn_after (lbfgs_init (N:=RN) m false) (lbfgs_update (N:=RN) eps m false) p0 l) = LDir st /\
       circular [] (ld_index st) (ld_y_diff st) = held (zerov n) fst /\
       circular [] (ld_index st) (ld_grad_diff st) = held (zerov n) snd).
Proof.
  intros n m eps p0 l Hm S0 SL pairs held.
  assert (Q : forall A (neutral : A) (f : list R * list R -> A),
    repeat neutral (m - length (map f (curved_pairs eps p0 l))) ++ rev (firstn m (map f (curved_pairs eps p0 l))) = held A neutral f).
  { intros A neutral f. unfold held, pairs. rewrite firstn_map. f_equal. f_equal. rewrite map_length, firstn_length. lia. }
  split.
  - destruct (lbfgs_seq m n eps true p0 l Hm S0 SL) as (st & E & s & -> & (Ei & B1 & B2 & B3)).
    exists s. split; [exact (f_equal snd E)|]. rewrite Ei, <- !Q.
    split; [|split]; (apply (buffer_circular m Hm); assumption).
  - destruct (lbfgs_seq m n eps false p0 l Hm S0 SL) as (st & E & s & -> & (Ei & B1 & _ & B2 & _)).
    exists s. split; [exact (f_equal snd E)|]. rewrite Ei, <- !Q.
    split; (apply (buffer_circular m Hm); assumption).
Qed.

(** use_inverse=True: the operator (two-loop recursion) is the BFGS
    inverse-Hessian recursion over the last [m] curved pairs started from a
    multiple of the identity; it is a symmetric positive definite matrix mapping
    the newest gradient change to the newest step. *)
Lemma C41_two_loop_pf :
  forall (n m : nat) (eps : R) (p0 : qn_point) (l : list qn_point),
    0 < m -> (0 <= eps)%R -> sized n p0 -> Forall (sized n) l ->
    let pairs := firstn m (curved_pairs eps p0 l) in
    exists op, fst (qn_after (lbfgs_init (N:=RN) m true) (lbfgs_update (N:=RN) eps m true) p0 l) =
                 holds_op true (hd p0 l) op /\
      (forall x : list R, length x = n -> op_mv op x = inverse_of_pairs (initial_scale pairs) pairs x) /\
      (exists H, spd n H /\ acts_as n op H) /\
      (forall s d rest, pairs = (s, d) :: rest -> op_mv op d = s).
Proof.
  intros n m eps p0 l Hm He S0 SL pairs.
  destruct (lbfgs_seq m n eps true p0 l Hm S0 SL) as (st & E & HP).
  destruct (lbfgs_seq m n eps false p0 l Hm S0 SL) as (st' & _ & HP').
  pose proof (curved_pairs_curved n eps p0 l He S0 SL) as HF.
  destruct (operators m n _ st st' Hm HF HP HP') as (H & B & SH & SB & HI & AH & AB & EN).
  exists (lbfgs_operator (N:=RN) m st). split; [exact (f_equal fst E)|]. split; [|split].
  - intros x Hx. destruct HP as (s & -> & Hok). cbn [lbfgs_operator op_mv]. apply (inv_operator_ok m n Hm); assumption.
  - exists H. auto.
  - intros s d rest Ep. unfold pairs in Ep. pose proof (firstn_Forall _ _ _ m HF) as HFm. rewrite Ep in EN, HFm.
    destruct (Forall_inv HFm) as (_ & Ld & _). rewrite AH by exact Ld. apply EN.
Qed.

(** use_inverse=False: the operator (compact representation, through a Cholesky
    factorisation and two triangular solves) is the BFGS Hessian recursion over
    the last [m] curved pairs; it is a symmetric positive definite matrix mapping
    the newest step to the newest gradient change. *)
Lemma C42_compact_pf :
  forall (n m : nat) (eps : R) (p0 : qn_point) (l : list qn_point),
    0 < m -> (0 <= eps)%R -> sized n p0 -> Forall (sized n) l ->
    let pairs := firstn m (curved_pairs eps p0 l) in
    exists op, fst (qn_after (lbfgs_init (N:=RN) m false) (lbfgs_update (N:=RN) eps m false) p0 l) =
                 holds_op false (hd p0 l) op /\
      (forall x : list R, length x = n -> op_mv op x = hessian_of_pairs (/ initial_scale pairs) pairs x) /\
      (exists B, spd n B /\ acts_as n op B) /\
      (forall s d rest, pairs = (s, d) :: rest -> op_mv op s = d).
Proof.
  intros n m eps p0 l Hm He S0 SL pairs.
  destruct (lbfgs_seq m n eps false p0 l Hm S0 SL) as (st & E & HP).
  destruct (lbfgs_seq m n eps true p0 l Hm S0 SL) as (st' & _ & HP').
  pose proof (curved_pairs_curved n eps p0 l He S0 SL) as HF.
  destruct (operators m n _ st' st Hm HF HP' HP) as (H & B & SH & SB & HI & AH & AB & EN).
  exists (lbfgs_operator (N:=RN) m st). split; [exact (f_equal fst E)|]. split; [|split].
  - intros x Hx. destruct HP as (s & -> & Hok). cbn [lbfgs_operator op_mv]. apply (dir_operator_ok m n); assumption.
  - exists B. auto.
  - intros s d rest Ep. unfold pairs in Ep. pose proof (firstn_Forall _ _ _ m HF) as HFm. rewrite Ep in EN, HFm.
    destruct (Forall_inv HFm) as (Ls & _ & _). rewrite AB by exact Ls. apply EN.
Qed.

Lemma newton_op : forall n lsolve H B ui p opT opF, exact_solve_op n lsolve -> mat n n H -> spd n B -> inverses n H B ->
  acts_as n opT H -> acts_as n opF B -> length (pt_g p) = n ->
  newton_step (N:=RN) lsolve (holds_op ui p (if ui then opT else opF)) = (mvec H (pt_g p), successful).
Proof.
  intros n lsolve H B [|] p opT opF HE HH HB HI AT AF Lg; cbn [holds_op newton_step].
  - f_equal. apply AT. exact Lg.
  - destruct (HE opF B (pt_g p) AF HB Lg) as (K1 & K2 & K3).
    destruct (lsolve opF (pt_g p)) as [x r]. cbn [fst snd] in *. subst r. f_equal.
    rewrite <- K3. symmetry. apply (HI x). exact K2.
Qed.

(** L-BFGS, both modes on the same sequence of points: the two operators are
    inverse to each other and, with exact linear solves, give the same Newton
    step. *)
Lemma C39_lbfgs_pf :
  forall (n m : nat) (eps : R) (lsolve : linop RN -> list R -> list R * results) (p0 : qn_point) (l : list qn_point),
    0 < m -> (0 <= eps)%R -> exact_solve_op n lsolve -> sized n p0 -> Forall (sized n) l ->
    let info use_inverse := fst (qn_after (lbfgs_init (N:=RN) m use_inverse) (lbfgs_update (N:=RN) eps m use_inverse) p0 l) in
    (exists opH opB, info true = holds_op true (hd p0 l) opH /\ info false = holds_op false (hd p0 l) opB /\
       forall x : list R, length x = n -> op_mv opH (op_mv opB x) = x /\ op_mv opB (op_mv opH x) = x) /\
    newton_step (N:=RN) lsolve (info true) = newton_step (N:=RN) lsolve (info false).
Proof.
  intros n m eps lsolve p0 l Hm He HE S0 SL info.
  destruct (lbfgs_seq m n eps true p0 l Hm S0 SL) as (st & E & HP).
  destruct (lbfgs_seq m n eps false p0 l Hm S0 SL) as (st' & E' & HP').
  pose proof (curved_pairs_curved n eps p0 l He S0 SL) as HF.
  destruct (operators m n _ st st' Hm HF HP HP') as (H & B & (SH & _) & HSB & HI & AH & AB & EN).
  pose proof (proj1 HSB) as SB.
  assert (Sp : sized n (hd p0 l)) by (destruct SL; [exact S0|assumption]).
  assert (ET : info true = holds_op true (hd p0 l) (lbfgs_operator (N:=RN) m st)) by exact (f_equal fst E).
  assert (EF : info false = holds_op false (hd p0 l) (lbfgs_operator (N:=RN) m st')) by exact (f_equal fst E').
  split.
  - exists (lbfgs_operator (N:=RN) m st), (lbfgs_operator (N:=RN) m st'). split; [exact ET|]. split; [exact EF|].
    intros x Hx. rewrite (AB x Hx), (AH x Hx), AH, AB by (eapply mvec_len; eauto). apply HI. exact Hx.
  - rewrite ET, EF.
    rewrite (newton_op n lsolve H B true (hd p0 l) _ (lbfgs_operator (N:=RN) m st')) by (auto; apply Sp).
    symmetry. apply (newton_op n lsolve H B false (hd p0 l) (lbfgs_operator (N:=RN) m st)); auto. apply Sp.
Qed.

(** ** Runs *)
Section Run.
  Context {Aux : Type}.
  Variables (P : ar_tols RN) (eps : R) (m : nat).
  Variable lsolve : linop RN -> list R -> list R * results.
  Variable grad_of : (list R -> R * Aux) -> list R -> list R.
  Variable fn : list R -> R * Aux.
  Variables (n : nat) (y0 : list R) (fs : fillv -> R) (auxs : fillv -> Aux).
  Hypothesis Hm : 0 < m.
  Hypothesis He : (0 <= eps)%R.
  Hypothesis HE : exact_solve_op n lsolve.
  Hypothesis HG : forall y, length y = n -> length (grad_of fn y) = n.
  Hypothesis L0 : length y0 = n.
  Let search := armijo_default (N:=RN).
  Let descent := newton_descent (N:=RN) lsolve None.
  Let upd ui := lbfgs_update (N:=RN) eps m ui.
  Let step ui := qn_step (N:=RN) P search descent grad_of (upd ui) fn.

  Definition LRel (y : list R) (sT sF : qn_state (N:=RN) (Aux:=Aux) search descent (HSt:=lbfgs_state RN)) : Prop :=
    exists ps f g, Forall (curved n) ps /\ length g = n /\ length y = n /\
      holds_pairs true m n ps (qn_hessian_update_state sT) /\
      holds_pairs false m n ps (qn_hessian_update_state sF) /\
      qn_f_info sT = holds_op true (mkPoint y f g) (lbfgs_operator (N:=RN) m (qn_hessian_update_state sT)) /\
      qn_f_info sF = holds_op false (mkPoint y f g) (lbfgs_operator (N:=RN) m (qn_hessian_update_state sF)) /\
      qn_first_step sT = qn_first_step sF /\
      qn_y_eval sT = qn_y_eval sF /\ length (qn_y_eval sT : list R) = n /\
      qn_search_state sT = qn_search_state sF /\
      qn_aux sT = qn_aux sF /\ qn_descent_state sT = qn_descent_state sF /\
      qn_terminate sT = qn_terminate sF /\ qn_result sT = qn_result sF /\
      qn_num_accepted_steps sT = qn_num_accepted_steps sF /\
      (qn_first_step sT = false -> qn_descent_state sT = (op_mv (lbfgs_operator (N:=RN) m (qn_hessian_update_state sT)) g, successful)).

  Lemma lrel_step : forall y sT sF, LRel y sT sF ->
    fst (fst (step true y sT)) = fst (fst (step false y sF)) /\
    snd (step true y sT) = snd (step false y sF) /\
    LRel (fst (fst (step true y sT))) (snd (fst (step true y sT))) (snd (fst (step false y sF))).
  Proof.
    intros y [ft ye ss fi ax ds te rs na hs] [ft' ye' ss' fi' ax' ds' te' rs' na' hs']
      (ps & f & g & HC & Lg & Ly & HPT & HPF & E1 & E2 & E3 & E4 & Lye & E5 & E6 & E7 & E8 & E9 & E10 & E11).
    cbn [qn_first_step qn_y_eval qn_search_state qn_f_info qn_aux qn_descent_state qn_terminate qn_result
         qn_num_accepted_steps qn_hessian_update_state] in *.
    subst fi fi' ft' ye' ss' ax' ds' te' rs' na'.
    unfold step, qn_step.
    cbn [qn_first_step qn_y_eval qn_search_state qn_f_info qn_aux qn_descent_state qn_terminate qn_result
         qn_num_accepted_steps qn_hessian_update_state].
    destruct (fn ye) as [fe ae] eqn:Efn.
    set (opT := lbfgs_operator (N:=RN) m hs) in *. set (opF := lbfgs_operator (N:=RN) m hs') in *.
    set (sr := se_step search ft y ye (holds_op false (mkPoint y f g) opF) (Eval fe) ss).
    assert (Es : se_step search ft y ye (holds_op true (mkPoint y f g) opT) (Eval fe) ss = sr) by reflexivity.
    rewrite Es.
    assert (Hfirst : ft = true -> snd (fst (fst sr)) = true).
    { intros ->. apply (proj1 (accepts_first_builtin RN)). }
    clearbody sr. destruct sr as [[[stp acc] sres] sst]. cbn [fst snd] in Hfirst.
    destruct acc.
    - set (p := mkPoint y f g). set (q := mkPoint ye fe (grad_of fn ye)).
      assert (Sp : sized n p) by (split; assumption).
      assert (Sq : sized n q) by (split; [exact Lye|apply HG; exact Lye]).
      destruct (lbfgs_update_ok m n eps true ps hs p q Hm Sp Sq HPT) as (tT & UT & OT).
      destruct (lbfgs_update_ok m n eps false ps hs' p q Hm Sp Sq HPF) as (tF & UF & OF).
      change (upd true y ye (holds_op true p opT) fe (grad_of fn ye) hs = (holds_op true q (lbfgs_operator (N:=RN) m tT), tT)) in UT.
      change (upd false y ye (holds_op false p opF) fe (grad_of fn ye) hs' = (holds_op false q (lbfgs_operator (N:=RN) m tF), tF)) in UF.
      rewrite UT, UF.
      set (s := Rsub_v (pt_y q) (pt_y p)) in *. set (d := Rsub_v (pt_g q) (pt_g p)) in *.
      set (ps' := if Rlt_dec eps (Rdot s d) then (s, d) :: ps else ps) in *.
      assert (HC' : Forall (curved n) ps').
      { unfold ps'. destruct (Rlt_dec _ _) as [Hc|Hc]; [|exact HC]. constructor; [|exact HC].
        split; [|split]; cbn [fst snd]; [apply Rsub_v_length; [apply Sq|apply Sp]|apply Rsub_v_length; [apply Sq|apply Sp]|].
        rewrite Rdot_comm. lra. }
      destruct (operators m n ps' tT tF Hm HC' OT OF) as (H & B & (SH & _) & HSB & HI & AH & AB & _).
      pose proof (proj1 HSB) as SB.
      assert (NT : newton_step (N:=RN) lsolve (holds_op true q (lbfgs_operator (N:=RN) m tT)) = (mvec H (grad_of fn ye), successful)).
      { apply (newton_op n lsolve H B true q _ (lbfgs_operator (N:=RN) m tF)); auto. apply Sq. }
      assert (NF : newton_step (N:=RN) lsolve (holds_op false q (lbfgs_operator (N:=RN) m tF)) = (mvec H (grad_of fn ye), successful)).
      { apply (newton_op n lsolve H B false q (lbfgs_operator (N:=RN) m tT)); auto. apply Sq. }
      cbn [descent newton_descent d_query d_step]. rewrite NT, NF. cbn [normalise fst snd].
      split; [reflexivity|]. split; [reflexivity|].
      exists ps', fe, (grad_of fn ye). cbn [qn_first_step qn_y_eval qn_search_state qn_f_info qn_aux qn_descent_state qn_terminate qn_result qn_num_accepted_steps qn_hessian_update_state].
      repeat (split; [first [assumption | reflexivity | apply HG; assumption]|]).
      split; [|repeat (split; [reflexivity|])].
      + rewrite vadd_RN, vscale_RN. apply Radd_v_length; [exact Lye|]. rewrite Rscal_length. eapply mvec_len. exact SH.
      + intros _. f_equal. symmetry. apply AH. apply HG. exact Lye.
    - assert (Hft : ft = false) by (destruct ft; [discriminate (Hfirst eq_refl)|reflexivity]).
      specialize (E11 Hft). subst ft ds.
      cbn [descent newton_descent d_query d_step fst snd].
      split; [reflexivity|]. split; [reflexivity|].
      exists ps, f, g. cbn [qn_first_step qn_y_eval qn_search_state qn_f_info qn_aux qn_descent_state qn_terminate qn_result qn_num_accepted_steps qn_hessian_update_state].
      repeat (split; [first [assumption | reflexivity | apply HG; assumption]|]).
      split; [|repeat (split; [reflexivity|])].
      + rewrite vadd_RN, vscale_RN. apply Radd_v_length; [exact Ly|]. rewrite Rscal_length.
        destruct (operators m n ps hs hs' Hm HC HPT HPF) as (H & B & (SH & _) & _ & _ & AH & _).
        change (length (op_mv opT g : list R) = n). unfold opT. rewrite (AH g Lg). eapply mvec_len. exact SH.
      + intros _. reflexivity.
  Qed.

  Let slv ui := quasi_newton_solver (N:=RN) P search descent grad_of (lbfgs_init (N:=RN) m ui) (upd ui).
  Let st0 ui := qn_st0 (N:=RN) search descent (lbfgs_init (N:=RN) m ui) y0 fs auxs.
  Let Y ui := y_at (slv ui) fn y0 (st0 ui) (auxs fill0).
  Let S' ui := st_at (slv ui) fn y0 (st0 ui) (auxs fill0).
  Let A' ui := aux_at (slv ui) fn y0 (st0 ui) (auxs fill0).

  Lemma lrel_run : forall k, Y true k = Y false k /\ A' true k = A' false k /\ LRel (Y true k) (S' true k) (S' false k).
  Proof.
    induction k as [|k (IH1 & IH2 & IH3)].
    - split; [reflexivity|]. split; [reflexivity|].
      set (z := vfull (N:=RN) n (nofQ (n:=RN) 0)).
      assert (Sz : sized n (mkPoint y0 (fs fill0) z)) by (split; [exact L0|unfold z, vfull; apply repeat_length]).
      destruct (lbfgs_init_ok m n true _ Hm Sz) as (tT & IT & OT).
      destruct (lbfgs_init_ok m n false _ Hm Sz) as (tF & IF & OF). cbn [pt_y pt_f pt_g] in IT, IF.
      exists [], (fs fill0), z. split; [constructor|]. split; [apply Sz|]. split; [exact L0|].
      unfold S', st_at, st0, qn_st0. cbn [trace fst snd].
      change (Datatypes.length y0) with (@length R y0). rewrite L0. fold z. rnl.
      rewrite IT, IF.
      cbn [qn_first_step qn_y_eval qn_search_state qn_f_info qn_aux qn_descent_state qn_terminate qn_result qn_num_accepted_steps qn_hessian_update_state].
      split; [exact OT|]. split; [exact OF|].
      repeat (split; [first [reflexivity | exact L0]|]). discriminate.
    - pose proof (lrel_step _ _ _ IH3) as (R1 & R2 & R3).
      pose proof (qn_trace_S (N:=RN) P search descent grad_of (lbfgs_init (N:=RN) m true) (upd true) fn y0 fs auxs k) as TT.
      pose proof (qn_trace_S (N:=RN) P search descent grad_of (lbfgs_init (N:=RN) m false) (upd false) fn y0 fs auxs k) as TF.
      change (step true (Y true k) (S' true k) = (Y true (S k), S' true (S k), A' true (S k))) in TT.
      change (step false (Y false k) (S' false k) = (Y false (S k), S' false (S k), A' false (S k))) in TF.
      rewrite <- IH1 in TF. rewrite TT, TF in R1, R2, R3. cbn [fst snd] in R1, R2, R3. auto.
  Qed.
End Run.

(** Whole runs: with exact linear solves, LBFGS with use_inverse=True and with
    use_inverse=False visit the same iterates, return the same auxiliary outputs
    and make the same termination decisions. *)
Lemma C39_lbfgs_same_run_pf :
  forall (Aux : Type) (P : ar_tols RN) (eps : R) lsolve grad_of (fn : list R -> R * Aux)
         (n m : nat) (y0 : list R) fs auxs,
    0 < m -> (0 <= eps)%R -> exact_solve_op n lsolve ->
    (forall y, length y = n -> length (grad_of fn y) = n) -> length y0 = n ->
    let solver := LBFGS (N:=RN) P grad_of lsolve eps m in
    forall stT stF,
      s_init (solver true) fn y0 fs auxs = Ret stT ->
      s_init (solver false) fn y0 fs auxs = Ret stF ->
    forall k,
      y_at (solver true) fn y0 stT (auxs fill0) k = y_at (solver false) fn y0 stF (auxs fill0) k /\
      aux_at (solver true) fn y0 stT (auxs fill0) k = aux_at (solver false) fn y0 stF (auxs fill0) k /\
      says_terminate (solver true) fn y0 stT (auxs fill0) k = says_terminate (solver false) fn y0 stF (auxs fill0) k /\
      says_result (solver true) fn y0 stT (auxs fill0) k = says_result (solver false) fn y0 stF (auxs fill0) k.
Proof.
  intros Aux P eps lsolve grad_of fn n m y0 fs auxs Hm He HE HG L0 solver stT stF IT IF k.
  apply qn_init_inv in IT; apply qn_init_inv in IF; subst stT stF.
  destruct (lrel_run P eps m lsolve grad_of fn n y0 fs auxs Hm He HE HG L0 k) as (K1 & K2 & K3).
  split; [exact K1|]. split; [exact K2|].
  destruct K3 as (ps & f & g & _ & _ & _ & _ & _ & _ & _ & _ & _ & _ & _ & _ & _ & T1 & T2 & _).
  exact (conj T1 T2).
Qed.

Lemma lbfgs_keeps : forall eps m ui, keeps_value_and_grad (lbfgs_update (N:=RN) eps m ui).
Proof.
  intros eps m ui y ye i f g st. unfold lbfgs_update.
  match goal with |- context [if ?c then ?a else ?b] => destruct (if c then a else b) as [op st'] end. destruct ui; split; reflexivity.
Qed.
Lemma lbfgs_returns : forall eps m ui, returns_grad_info (N:=RN) (lbfgs_update (N:=RN) eps m ui).
Proof.
  intros eps m ui y ye i f g st. unfold lbfgs_update.
  match goal with |- context [if ?c then ?a else ?b] => destruct (if c then a else b) as [op st'] end. exists op. destruct ui; [right|left]; reflexivity.
Qed.

Lemma lrun_matrix : forall (Aux : Type) (P : ar_tols RN) (eps : R) lsolve grad_of (fn : list R -> R * Aux)
    (n m : nat) (y0 : list R) fs auxs ui,
  0 < m -> (0 <= eps)%R -> exact_solve_op n lsolve ->
  (forall y, length y = n -> length (grad_of fn y) = n) -> length y0 = n ->
  let s := LBFGS (N:=RN) P grad_of lsolve eps m ui in
  let st0 := qn_st0 (N:=RN) (armijo_default (N:=RN)) (newton_descent (N:=RN) lsolve None) (lbfgs_init (N:=RN) m ui) y0 fs auxs in
  let y := y_at s fn y0 st0 (auxs fill0) in
  let st := st_at s fn y0 st0 (auxs fill0) in
  forall k, exists H B op f g, spd n H /\ spd n B /\ inverses n H B /\ length g = n /\ length (y k) = n /\
    acts_as n op (if ui then H else B) /\
    qn_f_info (st k) = holds_op ui (mkPoint (y k) f g) op /\
    (0 < k -> f = fst (fn (y k)) /\ g = grad_of fn (y k) /\ qn_descent_state (st k) = (mvec H g, successful)).
Proof.
  intros Aux P eps lsolve grad_of fn n m y0 fs auxs ui Hm He HE HG L0 s st0 y st k.
  destruct (lrel_run P eps m lsolve grad_of fn n y0 fs auxs Hm He HE HG L0 k) as (K1 & K2 & K3).
  destruct K3 as (ps & f & g & HC & Lg & Ly & HPT & HPF & ET & EF & E1 & E2 & _ & E4 & _ & E5 & _ & _ & _ & E6).
  destruct (operators m n ps _ _ Hm HC HPT HPF) as (H & B & SH & SB & HI & AH & AB & _).
  rewrite (AH g Lg) in E6.
  match type of AH with acts_as _ ?o _ => set (opT := o) in * end.
  match type of AB with acts_as _ ?o _ => set (opF := o) in * end.
  exists H, B, (if ui then opT else opF), f, g.
  split; [exact SH|]. split; [exact SB|]. split; [exact HI|]. split; [exact Lg|].
  pose proof (lbfgs_keeps eps m ui) as KK.
  assert (HA : accepts_first (armijo_default (N:=RN))) by exact (proj1 (accepts_first_builtin RN) _ _ _).
  pose proof (qn_first (N:=RN) P (armijo_default (N:=RN)) (newton_descent (N:=RN) lsolve None) grad_of (lbfgs_init (N:=RN) m ui) (lbfgs_update (N:=RN) eps m ui) fn y0 fs auxs
    HA KK k) as [F1 F2].
  assert (EI : qn_f_info (st k) = holds_op ui (mkPoint (y k) f g) (if ui then opT else opF) /\ length (y k) = n /\
               (qn_first_step (st k) = false -> qn_descent_state (st k) = (mvec H g, successful))).
  { destruct ui.
    - split; [exact ET|]. split; [exact Ly|exact E6].
    - assert (Ey : y k = y_at (LBFGS (N:=RN) P grad_of lsolve eps m true) fn y0
          (qn_st0 (N:=RN) (armijo_default (N:=RN)) (newton_descent (N:=RN) lsolve None) (lbfgs_init (N:=RN) m true) y0 fs auxs) (auxs fill0) k)
        by (symmetry; exact K1).
      rewrite Ey. split; [exact EF|]. split; [exact Ly|].
      intro F. apply (eq_trans (eq_sym E5)). apply E6. exact (eq_trans E1 F). }
  destruct EI as (EI & EL & ED). split; [exact EL|]. split; [destruct ui; assumption|]. split; [exact EI|]. intro Hk.
  destruct (F2 Hk) as (Ff & Fg & _).
  change (as_min (qn_f_info (st k)) = fst (fn (y k))) in Ff.
  change (info_grad (qn_f_info (st k)) = grad_of fn (y k)) in Fg.
  rewrite EI in Ff, Fg.
  split; [|split].
  - destruct ui; exact Ff.
  - destruct ui; exact Fg.
  - apply ED. apply not_true_iff_false. intro F. apply F1 in F. lia.
Qed.

(** Along every run of LBFGS (either mode) the stored information is the value
    and gradient at the current iterate with an operator acting as a symmetric
    positive definite matrix. *)
Lemma C41_lbfgs_run_pf :
  forall (Aux : Type) (P : ar_tols RN) (eps : R) lsolve grad_of (fn : list R -> R * Aux)
         (n m : nat) (y0 : list R) fs auxs (use_inverse : bool) st0,
    0 < m -> (0 <= eps)%R -> exact_solve_op n lsolve ->
    (forall y, length y = n -> length (grad_of fn y) = n) -> length y0 = n ->
    let s := LBFGS (N:=RN) P grad_of lsolve eps m use_inverse in
    s_init s fn y0 fs auxs = Ret st0 ->
    let y := y_at s fn y0 st0 (auxs fill0) in
    let st := st_at s fn y0 st0 (auxs fill0) in
    forall k, 0 < k -> exists op M, spd n M /\ acts_as n op M /\
      qn_f_info (st k) = holds_op use_inverse (mkPoint (y k) (fst (fn (y k))) (grad_of fn (y k))) op.
Proof.
  intros Aux P eps lsolve grad_of fn n m y0 fs auxs ui st0 Hm He HE HG L0 s Hi y st k Hk.
  apply qn_init_inv in Hi. subst st0.
  destruct (lrun_matrix Aux P eps lsolve grad_of fn n m y0 fs auxs ui Hm He HE HG L0 k)
    as (H & B & op & f & g & SH & SB & HI & Lg & Ly & AO & EI & EK).
  destruct (EK Hk) as (-> & -> & _). exists op, (if ui then H else B). split; [destruct ui; assumption|]. split; [exact AO|exact EI].
Qed.

(** Progress of LBFGS, either mode, every history length, exact arithmetic and
    exact linear solves: for a differentiable objective with the gradient
    computed, from every iterate with nonzero gradient finitely many rejections
    are followed by an accepted step that strictly decreases the objective. *)
Lemma C29_lbfgs_pf :
  forall (Aux : Type) (P : ar_tols RN) (eps : R) lsolve grad_of (fn : list R -> R * Aux)
         (n m : nat) (y0 : list R) fs auxs (use_inverse : bool),
    0 < m -> (0 <= eps)%R -> exact_solve_op n lsolve ->
    (forall y, length y = n -> length (grad_of fn y) = n) -> length y0 = n ->
    (forall y d, length y = n -> length d = n ->
       derivable_pt_lim (fun t => fst (fn (along y d t))) 0 (Rdot (grad_of fn y) d)) ->
    let s := LBFGS (N:=RN) P grad_of lsolve eps m use_inverse in
    forall st0, s_init s fn y0 fs auxs = Ret st0 ->
    let y := y_at s fn y0 st0 (auxs fill0) in
    forall k, 0 < k -> grad_of fn (y k) <> zerov n ->
      exists j', k <= j' /\ (forall j, k <= j <= j' -> y j = y k) /\ (fst (fn (y (S j'))) < fst (fn (y k)))%R.
Proof.
  intros Aux P eps lsolve grad_of fn n m y0 fs auxs ui Hm He HE HG L0 HD s st0 Hi y k Hk Hnz.
  assert (V : armijo_valid (N:=RN) (nofQ (1#2)) (nofQ (1#10)) (nofQ 1) = true).
  { unfold armijo_valid. cbn [nofQ RN nleb].
    repeat match goal with |- context [Rleb ?a ?b] =>
      replace (Rleb a b) with false by (symmetry; apply Rleb_false; unfold Q2R; cbn; lra) end. reflexivity. }
  pose proof (C29_quasi_newton_pf Aux _ P _ _ _ (newton_descent (N:=RN) lsolve None) grad_of
    (lbfgs_init (N:=RN) m ui) (lbfgs_update (N:=RN) eps m ui) fn y0 fs auxs st0 V (lbfgs_returns eps m ui) Hi) as C. cbv zeta in C.
  apply qn_init_inv in Hi. subst st0.
  destruct (lrun_matrix Aux P eps lsolve grad_of fn n m y0 fs auxs ui Hm He HE HG L0 k)
    as (H & B & op & f & g & (HM & SH & PH) & SB & HI & Lg & Ly & AO & EI & EK).
  destruct (EK Hk) as (-> & -> & ED). clear EK EI.
  assert (LH : length (mvec H (grad_of fn (y k))) = n) by (eapply mvec_len; eauto).
  apply (C k (Rscal (-1) (mvec H (grad_of fn (y k)))) Hk).
  - intro t. refine (eq_trans (f_equal (fun z => fst (d_step (newton_descent (N:=RN) lsolve None) t z)) ED) _).
    cbn [newton_descent d_step fst]. rewrite vscale_RN. unfold Rscal. rewrite map_map. apply map_ext. intro a. cbn. lra.
  - rewrite Rscal_length, LH. symmetry. exact Ly.
  - apply HD; [exact Ly|]. rewrite Rscal_length. exact LH.
  - change (Rdot (grad_of fn (y k)) (Rscal (-1) (mvec H (grad_of fn (y k)))) < 0)%R.
    rewrite Rdot_scal_r. pose proof (PH (grad_of fn (y k)) Lg Hnz). lra.
Qed.

(** Three updates with curvature 4, -1 and 5 between points of the plane; the
    second is skipped, so that history length 1 has wrapped around once. *)
Definition ex_p0 := mkPoint [0; 0]%R 0%R [1; 0]%R.
Definition ex_points := [mkPoint [0; 3]%R 1%R [0; 6]%R; mkPoint [0; 1]%R 1%R [3; 3]%R; mkPoint [1; 1]%R 1%R [2; 3]%R].
Lemma ex_pairs : curved_pairs (1 / 2) ex_p0 ex_points = [([0; 2]%R, [-3; 3]%R); ([1; 1]%R, [1; 3]%R)].
Proof.
  unfold ex_points, ex_p0. cbn.
  repeat match goal with |- context [Rlt_dec ?a ?b] => destruct (Rlt_dec a b); try (exfalso; lra) end.
  repeat match goal with |- (_ :: _) = (_ :: _) => f_equal | |- (_, _) = (_, _) => f_equal | |- _ = _ :> R => lra end.
Qed.
Example C40_history_ex_pf :
  sized 2 ex_p0 /\ Forall (sized 2) ex_points /\
  curved_pairs (1 / 2) ex_p0 ex_points = [([0; 2]%R, [-3; 3]%R); ([1; 1]%R, [1; 3]%R)] /\
  firstn 1 (curved_pairs (1 / 2) ex_p0 ex_points) = [([0; 2]%R, [-3; 3]%R)].
Proof.
  split; [split; reflexivity|]. split; [repeat constructor|]. split; [exact ex_pairs|]. rewrite ex_pairs. reflexivity.
Qed.
(** The two recursions on those pairs, on one vector. *)
Example C41_two_loop_ex_pf :
  let pairs := firstn 2 (curved_pairs (1 / 2) ex_p0 ex_points) in
  initial_scale pairs = (1 / 3)%R /\
  inverse_of_pairs (initial_scale pairs) pairs [-3; 3]%R = [0; 2]%R /\
  hessian_of_pairs (/ initial_scale pairs) pairs [0; 2]%R = [-3; 3]%R.
Proof.
  rewrite ex_pairs. cbn. unfold Rscal. cbn.
  split; [field|]. split; repeat match goal with |- (_ :: _) = (_ :: _) => f_equal | |- _ = _ :> R => field end.
Qed.
(** The hypothesis on the linear solver is met by Cholesky, in every dimension. *)
Example C39_lbfgs_ex_pf : forall n, exact_solve_op n (cholesky_solve (N:=RN)).
Proof. exact cholesky_exact. Qed.
(** The binary64 operators of a plane history of length 2 that has wrapped
    around once: each maps the newest pair as the secant equation says, up to
    rounding. *)
Example C42_compact_ex_pf :
  let z := f64_ofZ in
  let st := dir_update (N:=F64) 2 (z 0%Z) [z 1; z 3]%Z [z 1; z 1]%Z
           (dir_update (N:=F64) 2 (z 0%Z) [z 2; z 1]%Z [z 1; z 0]%Z
           (dir_update (N:=F64) 2 (z 0%Z) [z 0; z 5]%Z [z 1; z 4]%Z
              (mkDir 0 (repeat [z 0; z 0]%Z 2) (repeat [z 0; z 0]%Z 2) (repeat [z 0; z 0]%Z 2) [z 1; z 1]%Z (identity_mat (N:=F64) 2)))) in
  match direct_operator (N:=F64) 2 st [z 1; z 1]%Z with
  | [a; b] => nleb (nabs (nsub a (z 1%Z))) (nofQ (n:=F64) (1 # 1000000000000)%Q) &&
              nleb (nabs (nsub b (z 3%Z))) (nofQ (n:=F64) (1 # 1000000000000)%Q)
  | _ => false
  end = true.
Proof. vm_compute. reflexivity. Qed.
