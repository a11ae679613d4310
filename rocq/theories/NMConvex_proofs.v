(** Nelder-Mead on strongly convex functions (C108): McKinnon's counterexample. *)

From Coq Require Import String List Bool Arith Lia ZArith QArith Qreals Reals Lra Psatz.
From Verif Require Import Num NumFacts NumDiv NumF64 NumF64_facts Vec Results Iterate Spec_Iterate Iterate_proofs.
From Verif Require Import Spec_Vec VecFacts Spec_Lin LinFacts NelderMead Spec_NelderMead NelderMead_proofs.
From Verif Require Import Spec_BFGSConv Spec_Steps Spec_NMConvex.
Import ListNotations.
Local Open Scope nat_scope.

(** ** The function *)

Definition l1 : R := ((1 + sqrt 33) / 8)%R.
Definition l2 : R := ((1 - sqrt 33) / 8)%R.

Lemma sqrt33 : (sqrt 33 * sqrt 33 = 33 /\ 574 / 100 < sqrt 33 < 575 / 100)%R.
Proof.
  assert (E : (sqrt 33 * sqrt 33 = 33)%R) by (apply sqrt_sqrt; lra). pose proof (sqrt_pos 33).
  split; [exact E|]. split; nra.
Qed.
Lemma l_range : (8425 / 10000 < l1 < 84375 / 100000 /\ - 59375 / 100000 < l2 < - 5925 / 10000)%R.
Proof. destruct sqrt33 as (_ & A). unfold l1, l2. lra. Qed.
Lemma l1_sq : (l1 * l1 = l1 / 4 + / 2)%R.
Proof. destruct sqrt33 as (E & _). unfold l1. nra. Qed.
Lemma l2_sq : (l2 * l2 = l2 / 4 + / 2)%R.
Proof. destruct sqrt33 as (E & _). unfold l2. nra. Qed.

Definition hh (x : R) : R := if Rle_dec x 0 then (360 * x ^ 2)%R else (6 * x ^ 2)%R.
Definition hd (x : R) : R := if Rle_dec x 0 then (720 * x)%R else (12 * x)%R.
Lemma hh_low : forall x d, (hh x + hd x * d + 6 * d ^ 2 <= hh (x + d))%R.
Proof. intros x d. unfold hh, hd. destruct (Rle_dec x 0), (Rle_dec (x + d) 0); nra. Qed.
Lemma hh_up : forall x d, (hh (x + d) <= hh x + hd x * d + 360 * d ^ 2)%R.
Proof. intros x d. unfold hh, hd. destruct (Rle_dec x 0), (Rle_dec (x + d) 0); nra. Qed.

Section McKinnon.
  Variables (a c : R).
  Hypothesis Ha : (0 < a)%R.
  Hypothesis Hc : (0 < c)%R.

  Definition mX (p q : R) : R := ((q + l1 * p) / a)%R.
  Definition mY (p q : R) : R := ((q + l2 * p) / a)%R.
  Definition mck2 (p q : R) : R := (c * (hh (mX p q) + mY p q + mY p q ^ 2))%R.
  Definition mck (v : list R) : R := match v with [p; q] => mck2 p q | _ => 0%R end.
  Definition mck_grad (v : list R) : list R :=
    match v with
    | [p; q] => let s := (c * hd (mX p q) / a)%R in let t := (c * (1 + 2 * mY p q) / a)%R in [s * l1 + t * l2; s + t]%R
    | _ => []
    end.

  Lemma mX_add : forall p q dp dq, mX (p + dp) (q + dq) = (mX p q + mX dp dq)%R.
  Proof. intros. unfold mX. field. lra. Qed.
  Lemma mY_add : forall p q dp dq, mY (p + dp) (q + dq) = (mY p q + mY dp dq)%R.
  Proof. intros. unfold mY. field. lra. Qed.
  Lemma mXY_sq : forall p q, (mX p q ^ 2 + mY p q ^ 2 = (17 / 16 * p ^ 2 + / 2 * p * q + 2 * q ^ 2) / a ^ 2)%R.
  Proof.
    intros p q. unfold mX, mY. apply (Rmult_eq_reg_r (a ^ 2)); [|nra].
    replace (((q + l1 * p) / a) ^ 2 * a ^ 2)%R with ((q + l1 * p) ^ 2)%R by (field; lra).
    replace ((((q + l1 * p) / a) ^ 2 + ((q + l2 * p) / a) ^ 2) * a ^ 2)%R with ((q + l1 * p) ^ 2 + (q + l2 * p) ^ 2)%R by (field; lra).
    replace ((17 / 16 * p ^ 2 + / 2 * p * q + 2 * q ^ 2) / a ^ 2 * a ^ 2)%R with (17 / 16 * p ^ 2 + / 2 * p * q + 2 * q ^ 2)%R by (field; lra).
    replace ((q + l1 * p) ^ 2 + (q + l2 * p) ^ 2)%R with (2 * q ^ 2 + 2 * (l1 + l2) * p * q + (l1 * l1 + l2 * l2) * p ^ 2)%R by ring.
    rewrite l1_sq, l2_sq. assert (E : (l1 + l2 = / 4)%R) by (unfold l1, l2; field).
    replace (l1 / 4 + / 2 + (l2 / 4 + / 2))%R with ((l1 + l2) / 4 + 1)%R by field. rewrite E. field.
  Qed.
  Lemma grad_dot : forall p q dp dq,
    Rdot (mck_grad [p; q]) [dp; dq] = (c * (hd (mX p q) * mX dp dq + (1 + 2 * mY p q) * mY dp dq))%R.
  Proof. intros. unfold mck_grad. cbn [Rdot]. set (h := hd (mX p q)). set (y := mY p q). unfold mX, mY. field. lra. Qed.

  Lemma mck_strong : strongly_convex 2 (13 * c / (8 * a ^ 2)) mck mck_grad.
  Proof.
    intros [|p [|q [|]]] [|dp [|dq [|]]] L1 L2; try discriminate. rewrite grad_dot. cbn [Radd_v mck Rdot]. unfold mck2. rewrite mX_add, mY_add.
    pose proof (hh_low (mX p q) (mX dp dq)) as H. pose proof (mXY_sq dp dq) as Q.
    set (X := mX p q) in *. set (Y := mY p q) in *. set (x := mX dp dq) in *. set (y := mY dp dq) in *.
    assert (G : (13 / 16 * (dp ^ 2 + dq ^ 2) / a ^ 2 <= x ^ 2 + y ^ 2)%R).
    { rewrite Q. unfold Rdiv. apply Rmult_le_compat_r; [left; apply Rinv_0_lt_compat; nra|]. nra. }
    assert (E : (13 * c / (8 * a ^ 2) / 2 * (dp * dp + (dq * dq + 0)) = c * (13 / 16 * (dp ^ 2 + dq ^ 2) / a ^ 2))%R) by (field; lra).
    rewrite E.
    assert (G2 : (hh X + Y + Y ^ 2 + (hd X * x + (1 + 2 * Y) * y) + 13 / 16 * (dp ^ 2 + dq ^ 2) / a ^ 2 <= hh (X + x) + (Y + y) + (Y + y) ^ 2)%R).
    { pose proof (pow2_ge_0 x). nra. }
    apply (Rmult_le_compat_l c) in G2; lra.
  Qed.
  Lemma mck_smooth : smooth 2 (1620 * c / a ^ 2) mck mck_grad.
  Proof.
    split; [intros [|p [|q [|]]] L1; try discriminate; reflexivity|].
    intros [|p [|q [|]]] [|dp [|dq [|]]] L1 L2; try discriminate. rewrite grad_dot. cbn [Radd_v mck Rdot]. unfold mck2. rewrite mX_add, mY_add.
    pose proof (hh_up (mX p q) (mX dp dq)) as H. pose proof (mXY_sq dp dq) as Q.
    set (X := mX p q) in *. set (Y := mY p q) in *. set (x := mX dp dq) in *. set (y := mY dp dq) in *.
    assert (G : (x ^ 2 + y ^ 2 <= 9 / 4 * (dp ^ 2 + dq ^ 2) / a ^ 2)%R).
    { rewrite Q. unfold Rdiv. apply Rmult_le_compat_r; [left; apply Rinv_0_lt_compat; nra|]. nra. }
    assert (E : (1620 * c / a ^ 2 / 2 * (dp * dp + (dq * dq + 0)) = c * (360 * (9 / 4 * (dp ^ 2 + dq ^ 2) / a ^ 2)))%R) by (field; lra).
    rewrite E.
    assert (G2 : (hh (X + x) + (Y + y) + (Y + y) ^ 2 <= hh X + Y + Y ^ 2 + (hd X * x + (1 + 2 * Y) * y) + 360 * (9 / 4 * (dp ^ 2 + dq ^ 2) / a ^ 2))%R).
    { pose proof (pow2_ge_0 y). nra. }
    apply (Rmult_le_compat_l c) in G2; lra.
  Qed.
  Lemma mck_0 : mck2 0 0 = 0%R.
  Proof. unfold mck2, mX, mY, hh. replace ((0 + l1 * 0) / a)%R with 0%R by (field; lra). destruct (Rle_dec 0 0); [|lra]. field. lra. Qed.
  Lemma mck_min : mck2 (2 * a / sqrt 33) (- l1 * (2 * a / sqrt 33)) = (- c / 4)%R.
  Proof.
    destruct sqrt33 as (_ & S1). unfold mck2.
    assert (EX : mX (2 * a / sqrt 33) (- l1 * (2 * a / sqrt 33)) = 0%R) by (unfold mX; field; lra).
    assert (EY : mY (2 * a / sqrt 33) (- l1 * (2 * a / sqrt 33)) = (- / 2)%R) by (unfold mY, l1, l2; field; lra).
    rewrite EX, EY. unfold hh. destruct (Rle_dec 0 0); [|lra]. field.
  Qed.

  (** ** The vertices *)
  Fixpoint up (n : nat) : R * R :=  (* (p_n, p_(n+1)) *)
    match n with 0 => (0, a)%R | S m => (snd (up m), snd (up m) / 4 + fst (up m) / 2)%R end.
  Fixpoint uq (n : nat) : R * R :=
    match n with 0 => (a, 0)%R | S m => (snd (uq m), snd (uq m) / 4 + fst (uq m) / 2)%R end.
  Definition pp n := fst (up n).
  Definition qq n := fst (uq n).
  Lemma pp_SS : forall n, pp (S (S n)) = (pp (S n) / 4 + pp n / 2)%R. Proof. reflexivity. Qed.
  Lemma qq_SS : forall n, qq (S (S n)) = (qq (S n) / 4 + qq n / 2)%R. Proof. reflexivity. Qed.
  Lemma XY_n : forall n, (mX (pp n) (qq n) = l1 ^ n /\ mY (pp n) (qq n) = l2 ^ n)%R.
  Proof.
    assert (G : forall n, ((mX (pp n) (qq n) = l1 ^ n /\ mY (pp n) (qq n) = l2 ^ n) /\
                           (mX (pp (S n)) (qq (S n)) = l1 ^ S n /\ mY (pp (S n)) (qq (S n)) = l2 ^ S n))%R).
    { induction n as [|n ((I1 & I2) & (I3 & I4))].
      - unfold pp, qq, mX, mY. cbn [up uq fst snd pow]. repeat split; field; lra.
      - split; [split; assumption|]. rewrite pp_SS, qq_SS.
        assert (EX : mX (pp (S n) / 4 + pp n / 2) (qq (S n) / 4 + qq n / 2) = (mX (pp (S n)) (qq (S n)) / 4 + mX (pp n) (qq n) / 2)%R) by (unfold mX; field; lra).
        assert (EY : mY (pp (S n) / 4 + pp n / 2) (qq (S n) / 4 + qq n / 2) = (mY (pp (S n)) (qq (S n)) / 4 + mY (pp n) (qq n) / 2)%R) by (unfold mY; field; lra).
        rewrite EX, EY, I1, I2, I3, I4. cbn [pow]. split.
        + replace (l1 * (l1 * l1 ^ n))%R with (l1 * l1 * l1 ^ n)%R by ring. rewrite l1_sq. field.
        + replace (l2 * (l2 * l2 ^ n))%R with (l2 * l2 * l2 ^ n)%R by ring. rewrite l2_sq. field. }
    intro n. apply G.
  Qed.
  Lemma pq_n : forall n, (pp n = a * (l1 ^ n - l2 ^ n) / (l1 - l2) /\ qq n = a * l1 ^ n - l1 * pp n)%R.
  Proof.
    intro n. destruct (XY_n n) as (EX & EY). pose proof l_range. rewrite <- EX, <- EY. unfold mX, mY. split; field; lra.
  Qed.

  Lemma pow_facts : forall n, (0 < l1 ^ n <= 1 /\ Rabs (l2 ^ n) <= (l1 ^ n) ^ 2)%R.
  Proof.
    pose proof l_range as LR. induction n as [|n ((I1 & I2) & I3)].
    - cbn [pow]. rewrite Rabs_R1. lra.
    - cbn [pow]. split; [split; [apply Rmult_lt_0_compat; lra|nra]|].
      rewrite Rabs_mult. rewrite (Rabs_left l2) by lra. replace (l1 * l1 ^ n * (l1 * l1 ^ n * 1))%R with (l1 * l1 * (l1 ^ n) ^ 2)%R by ring.
      apply Rmult_le_compat; [lra|apply Rabs_pos| |exact I3]. rewrite l1_sq. lra.
  Qed.

  Definition FF (n : nat) : R := mck2 (pp n) (qq n).
  Lemma FF_eq : forall n, FF n = (c * (6 * (l1 ^ n) ^ 2 + l2 ^ n + (l2 ^ n) ^ 2))%R.
  Proof.
    intro n. unfold FF, mck2. destruct (XY_n n) as (-> & ->). destruct (pow_facts n) as ((P & _) & _).
    unfold hh. destruct (Rle_dec (l1 ^ n) 0); [lra|]. reflexivity.
  Qed.
  Lemma FF_pos : forall n, (0 < FF n)%R.
  Proof.
    intro n. rewrite FF_eq. destruct (pow_facts n) as ((P & _) & Q). apply Rmult_lt_0_compat; [exact Hc|].
    assert (0 < (l1 ^ n) ^ 2)%R by (apply pow_lt; exact P).
    set (L := ((l1 ^ n) ^ 2)%R) in *. set (s := (l2 ^ n)%R) in *. pose proof (pow2_ge_0 s).
    assert (- L <= s)%R by (unfold Rabs in Q; destruct (Rcase_abs s); lra). lra.
  Qed.
  Lemma FF_dec : forall n, (FF (S n) < FF n)%R.
  Proof.
    intro n. rewrite !FF_eq. destruct (pow_facts n) as ((P & _) & Q). apply Rmult_lt_compat_l; [exact Hc|].
    assert (0 < (l1 ^ n) ^ 2)%R by (apply pow_lt; exact P). pose proof l_range as LR.
    replace ((l1 ^ S n) ^ 2)%R with (l1 * l1 * (l1 ^ n) ^ 2)%R by (cbn [pow]; ring).
    replace (l2 ^ S n)%R with (l2 * l2 ^ n)%R by (cbn [pow]; ring).
    set (L := ((l1 ^ n) ^ 2)%R) in *. set (s := (l2 ^ n)%R) in *. pose proof (pow2_ge_0 s).
    assert (S1 : (- L <= s <= L)%R) by (unfold Rabs in Q; destruct (Rcase_abs s); lra).
    assert (l1 * l1 <= 712 / 1000)%R by nra.
    assert (l1 * l1 * L <= 712 / 1000 * L)%R by (apply Rmult_le_compat_r; lra).
    assert ((l2 * s) ^ 2 <= s ^ 2)%R.
    { replace ((l2 * s) ^ 2)%R with (l2 * l2 * s ^ 2)%R by ring. assert (l2 * l2 <= 1)%R by nra. nra. }
    assert (- (16 / 10 * L) <= s - l2 * s)%R.
    { replace (s - l2 * s)%R with ((1 - l2) * s)%R by ring. nra. }
    lra.
  Qed.
  Lemma FF_refl : forall n, (FF n < mck2 (pp (S n) - pp n) (qq (S n) - qq n))%R.
  Proof.
    intro n. rewrite FF_eq. unfold mck2.
    replace (pp (S n) - pp n)%R with (pp (S n) + - pp n)%R by ring. replace (qq (S n) - qq n)%R with (qq (S n) + - qq n)%R by ring.
    rewrite mX_add, mY_add. destruct (XY_n n) as (EX & EY). destruct (XY_n (S n)) as (EX' & EY'). rewrite EX', EY'.
    assert (NX : mX (- pp n) (- qq n) = (- l1 ^ n)%R) by (rewrite <- EX; unfold mX; field; lra).
    assert (NY : mY (- pp n) (- qq n) = (- l2 ^ n)%R) by (rewrite <- EY; unfold mY; field; lra).
    rewrite NX, NY. destruct (pow_facts n) as ((P & _) & Q). pose proof l_range as LR. apply Rmult_lt_compat_l; [exact Hc|].
    assert (0 < (l1 ^ n) ^ 2)%R by (apply pow_lt; exact P).
    unfold hh. destruct (Rle_dec (l1 ^ S n + - l1 ^ n) 0) as [_|N]; [|exfalso; apply N; cbn [pow]; nra].
    replace ((l1 ^ S n + - l1 ^ n) ^ 2)%R with ((1 - l1) * (1 - l1) * (l1 ^ n) ^ 2)%R by (cbn [pow]; ring).
    replace (l2 ^ S n + - l2 ^ n)%R with (- ((1 - l2) * l2 ^ n))%R by (cbn [pow]; ring).
    set (L := ((l1 ^ n) ^ 2)%R) in *. set (s := (l2 ^ n)%R) in *. pose proof (pow2_ge_0 s).
    assert (S1 : (- L <= s <= L)%R) by (unfold Rabs in Q; destruct (Rcase_abs s); lra).
    assert (244 / 10000 <= (1 - l1) * (1 - l1))%R by nra.
    assert (244 / 10000 * L <= (1 - l1) * (1 - l1) * L)%R by (apply Rmult_le_compat_r; lra).
    assert (s ^ 2 <= (- ((1 - l2) * s)) ^ 2)%R.
    { replace ((- ((1 - l2) * s)) ^ 2)%R with ((1 - l2) * (1 - l2) * s ^ 2)%R by ring. assert (1 <= (1 - l2) * (1 - l2))%R by nra. nra. }
    assert ((2 - l2) * s <= 26 / 10 * L)%R by nra.
    lra.
  Qed.

  (** Sizes *)
  Lemma small : forall n, (Rabs (pp n) <= 2 * a * l1 ^ n /\ Rabs (qq n) <= 3 * a * l1 ^ n /\ FF n <= 8 * c * l1 ^ n)%R.
  Proof.
    intro n. destruct (pq_n n) as (E1 & E2). destruct (pow_facts n) as ((P & P1) & Q). pose proof l_range as LR.
    assert (Q' : (Rabs (l2 ^ n) <= l1 ^ n)%R) by (cbn [pow] in Q; nra).
    assert (B : (- l1 ^ n <= l2 ^ n <= l1 ^ n)%R) by (unfold Rabs in Q'; destruct (Rcase_abs (l2 ^ n)); lra).
    assert (A1 : (0 <= pp n <= 2 * a * l1 ^ n)%R).
    { rewrite E1. set (x := (l1 ^ n)%R) in *. set (y := (l2 ^ n)%R) in *. split.
      - apply Rmult_le_pos; [apply Rmult_le_pos; lra|left; apply Rinv_0_lt_compat; lra].
      - apply (Rmult_le_reg_r (l1 - l2)); [lra|]. unfold Rdiv. rewrite Rmult_assoc, Rinv_l, Rmult_1_r by lra.
        replace (2 * a * x * (l1 - l2))%R with (a * (2 * x * (l1 - l2)))%R by ring. apply Rmult_le_compat_l; [lra|]. nra. }
    split; [rewrite Rabs_pos_eq; lra|]. split.
    - rewrite E2. assert (0 < a * l1 ^ n)%R by (apply Rmult_lt_0_compat; lra). unfold Rabs. destruct (Rcase_abs _); nra.
    - rewrite FF_eq. replace (8 * c * l1 ^ n)%R with (c * (8 * l1 ^ n))%R by ring. apply Rmult_le_compat_l; [lra|].
      set (x := (l1 ^ n)%R) in *. set (y := (l2 ^ n)%R) in *. assert (x ^ 2 <= x)%R by nra. assert (y ^ 2 <= x)%R by nra. lra.
  Qed.
End McKinnon.

(** ** Steps on a triangle *)

Definition rvec (v : list xr) : list R := map (fun x => match x with Fin r => r | _ => 0%R end) v.
Lemma rvec_Fin : forall v, rvec (map Fin v) = v.
Proof. intro v. unfold rvec. rewrite map_map. apply map_id. Qed.
Lemma objective_Fin : forall f v, objective f (map Fin v) = (Fin (f v), tt).
Proof. intros f v. unfold objective. fold (rvec (map Fin v)). rewrite rvec_Fin. reflexivity. Qed.
Lemma nisnan_Fin : forall x, nisnan (N:=XR) (Fin x) = false.
Proof. intro x. unfold nisnan. cbn. unfold Reqb. destruct (Req_EM_T x x); [reflexivity|congruence]. Qed.
Lemma top_gt_Fin : forall x y, top_gt (N:=XR) (Fin x) (Fin y) = Rltb y x.
Proof. intros. unfold top_gt. rewrite !nisnan_Fin. reflexivity. Qed.
Lemma Rltb_t : forall x y, (x < y)%R -> Rltb x y = true.
Proof. intros x y H. unfold Rltb. destruct (Rlt_dec x y); [reflexivity|lra]. Qed.
Lemma Rltb_f : forall x y, (y <= x)%R -> Rltb x y = false.
Proof. intros x y H. unfold Rltb. destruct (Rlt_dec x y); [lra|reflexivity]. Qed.
Lemma top1_3 : forall x y z, top1 (N:=XR) [Fin x; Fin y; Fin z] =
  (if Rltb x y then if Rltb y z then (2, Fin z) else (1, Fin y) else if Rltb x z then (2, Fin z) else (0, Fin x)).
Proof.
  intros. unfold top1. cbn [top_from]. rewrite top_gt_Fin. destruct (Rltb x y); cbn [top_from]; rewrite top_gt_Fin.
  - destruct (Rltb y z); reflexivity.
  - destruct (Rltb x z); reflexivity.
Qed.
Lemma top1_2 : forall x y, top1 (N:=XR) [Fin x; Fin y] = (if Rltb x y then (1, Fin y) else (0, Fin x)).
Proof. intros. unfold top1. cbn [top_from]. rewrite top_gt_Fin. destruct (Rltb x y); reflexivity. Qed.

Definition F2 (p q : R) : list xr := [Fin p; Fin q].
Lemma Q2R_2 : Q2R 2 = 2%R. Proof. unfold Q2R. cbn. field. Qed.
Lemma Q2R_half : Q2R (1#2) = (/ 2)%R. Proof. unfold Q2R. cbn. field. Qed.
Lemma xdiv2 : forall x, xdiv (Fin x) (Fin (Q2R (inject_Z 2))) = Fin (x / 2).
Proof.
  intro x. change (Q2R (inject_Z 2)) with (Q2R 2). rewrite Q2R_2. unfold xdiv. destruct (Req_EM_T 2 0); [lra|reflexivity].
Qed.
Ltac feq := repeat match goal with
  | |- @cons _ _ _ = @cons _ _ _ => f_equal
  | |- Fin _ = Fin _ => f_equal
  end.
(** The mean edge out of the worst vertex of a triangle whose third vertex is 0. *)
Lemma dir_A : forall p1 q1 p2 q2,
  search_direction (N:=XR) [F2 p1 q1; F2 p2 q2; F2 0 0] (F2 p1 q1) = F2 (p2 / 2 - p1) (q2 / 2 - q1).
Proof.
  intros. unfold search_direction, F2. cbn [length Nat.sub Z.of_nat Pos.of_succ_nat Pos.succ map fold_right vsub vadd vmap2 vfull repeat].
  cbn [nofQ nsub ndiv nadd XR xsub xneg xadd]. change (Z.pos 2) with 2%Z. rewrite !xdiv2. cbn [xadd]. rewrite Q2R_0. feq; field.
Qed.
Lemma dir_B : forall p1 q1 p2 q2,
  search_direction (N:=XR) [F2 p2 q2; F2 p1 q1; F2 0 0] (F2 p1 q1) = F2 (p2 / 2 - p1) (q2 / 2 - q1).
Proof.
  intros. unfold search_direction, F2. cbn [length Nat.sub Z.of_nat Pos.of_succ_nat Pos.succ map fold_right vsub vadd vmap2 vfull repeat].
  cbn [nofQ nsub ndiv nadd XR xsub xneg xadd]. change (Z.pos 2) with 2%Z. rewrite !xdiv2. cbn [xadd]. rewrite Q2R_0. feq; field.
Qed.
Lemma along_F2 : forall p q dp dq t, along (N:=XR) (F2 p q) (F2 dp dq) (Fin t) = F2 (p + t * dp) (q + t * dq).
Proof. reflexivity. Qed.

(** The state in which vertex i (0 or 1) is the worst one, u, the other one is w, and the best is 0. *)
Record tri (f : list R -> R) (i : nat) (pu qu pw qw : R) (st : nm_state XR unit) : Prop := mkTri {
  tri_simplex : nm_simplex st = match i with 0 => [F2 pu qu; F2 pw qw; F2 0 0] | _ => [F2 pw qw; F2 pu qu; F2 0 0] end;
  tri_f : nm_f_simplex st = map Fin (match i with 0 => [f [pu; qu]; f [pw; qw]; f [0; 0]] | _ => [f [pw; qw]; f [pu; qu]; f [0; 0]] end)%R;
  tri_fbest : nm_f_best st = Fin (f [0; 0]%R);
  tri_best : nm_best st = F2 0 0;
  tri_fworst : nm_f_worst st = Fin (f [pu; qu]);
  tri_worst : nm_worst st = F2 pu qu;
  tri_wi : nm_worst_index st = i;
  tri_second : nm_second_worst st = Fin (f [pw; qw]);
  tri_first : nm_first_pass st = false
}.

Lemma tri_step : forall f i pu qu pw qw st,
  i = 0 \/ i = 1 ->
  tri f i pu qu pw qw st ->
  (f [0; 0] < f [pw; qw])%R -> (f [pw; qw] < f [pu; qu])%R -> (f [pu; qu] < f [pw - pu; qw - qu])%R ->
  (f [0; 0] < f [pw / 4 + pu / 2; qw / 4 + qu / 2])%R -> (f [pw / 4 + pu / 2; qw / 4 + qu / 2] < f [pw; qw])%R ->
  tri f (1 - i) pw qw (pw / 4 + pu / 2)%R (qw / 4 + qu / 2)%R (snd (fst (nm_step (objective f) st))).
Proof.
  intros f i pu qu pw qw st Hi [T1 T2 T3 T4 T5 T6 T7 T8 T9] H1 H2 H3 H4 H5.
  assert (ED : search_direction (nm_simplex st) (nm_worst st) = F2 (pw / 2 - pu) (qw / 2 - qu)).
  { rewrite T1, T6. destruct Hi as [-> | ->]; [apply dir_A|apply dir_B]. }
  assert (ER : along (nm_worst st) (search_direction (nm_simplex st) (nm_worst st)) (nofQ 2) = map Fin [pw - pu; qw - qu]%R).
  { rewrite ED, T6. change (nofQ (n:=XR) 2) with (Fin (Q2R 2)). rewrite along_F2, Q2R_2. unfold F2. cbn [map]. feq; field. }
  assert (EC : along (nm_worst st) (search_direction (nm_simplex st) (nm_worst st)) (nofQ (1#2)) = map Fin [pw / 4 + pu / 2; qw / 4 + qu / 2]%R).
  { rewrite ED, T6. change (nofQ (n:=XR) (1#2)) with (Fin (Q2R (1#2))). rewrite along_F2, Q2R_half. unfold F2. cbn [map]. feq; field. }
  set (nv := [pw / 4 + pu / 2; qw / 4 + qu / 2]%R) in *.
  assert (EM : main_step (objective f) st =
    (map Fin nv, Fin (f nv), update_stats (nm_counts st) false true false false false, tt)).
  { unfold main_step. cbv zeta. rewrite ER, objective_Fin, T3, T5, T8. cbn [fst nltb XR xltb].
    rewrite (Rltb_f (f [pw - pu; qw - qu]%R) (f [0; 0]%R)) by lra.
    rewrite (Rltb_t (f [pu; qu]) (f [pw - pu; qw - qu]%R)) by lra.
    rewrite (Rltb_t (f [pw; qw]) (f [pw - pu; qw - qu]%R)) by lra.
    rewrite (Rltb_t (f [0; 0]%R) (f [pw - pu; qw - qu]%R)) by lra.
    rewrite (Rltb_f (f [pw - pu; qw - qu]%R) (f [pw; qw])) by lra.
    cbn [nwhere andb orb negb]. rewrite EC.
    assert (EV : forall x, vwhere (N:=XR) true (map Fin nv) (vwhere false x (map Fin [pw - pu; qw - qu]%R)) = map Fin nv \/ length x <> 2).
    { intros x. destruct x as [|x1 [|x2 [|x3 x]]]; auto; left; reflexivity. }
    match goal with |- context [vwhere true _ (vwhere false ?x _)] => destruct (EV x) as [-> | N] end.
    - rewrite objective_Fin. reflexivity.
    - exfalso. apply N. rewrite ED, T6. reflexivity. }
  unfold nm_step. cbv zeta. rewrite T9, EM. cbn [nltb XR xltb]. rewrite T3, T5. cbn [xltb].
  rewrite (Rltb_f (f nv) (f [0; 0]%R)), (Rltb_f (f [pu; qu]) (f nv)) by (unfold nv in *; lra).
  rewrite T7, T2, T1.
  destruct Hi as [-> | ->]; cbn [set_at map Nat.sub nneg XR xneg].
  - rewrite !top1_3.
    rewrite (Rltb_f (- f nv) (- f [pw; qw])), (Rltb_t (- f nv) (- f [0; 0]%R)) by (unfold nv in *; lra).
    rewrite (Rltb_t (f nv) (f [pw; qw])), (Rltb_f (f [pw; qw]) (f [0; 0]%R)) by (unfold nv in *; lra).
    cbn [remove_at]. rewrite top1_2, (Rltb_f (f nv) (f [0; 0]%R)) by (unfold nv in *; lra).
    constructor; cbn; try reflexivity. rewrite Ropp_involutive. reflexivity.
  - rewrite !top1_3.
    rewrite (Rltb_t (- f [pw; qw]) (- f nv)), (Rltb_t (- f nv) (- f [0; 0]%R)) by (unfold nv in *; lra).
    rewrite (Rltb_f (f [pw; qw]) (f nv)), (Rltb_f (f [pw; qw]) (f [0; 0]%R)) by (unfold nv in *; lra).
    cbn [remove_at]. rewrite top1_2, (Rltb_f (f nv) (f [0; 0]%R)) by (unfold nv in *; lra).
    constructor; cbn; try reflexivity. rewrite Ropp_involutive. reflexivity.
Qed.

(** The first step only evaluates the vertices. *)
Lemma tri_init : forall f a rdelta aux0,
  (f [0; 0] < f [a; 0])%R -> (f [a; 0] < f [0; a])%R ->
  tri f 0 0 a a 0 (snd (fst (nm_step (objective f) (nm_start (initial_simplex (N:=XR) (Fin a) (Fin rdelta) [2] [Fin 0; Fin 0]) aux0)))).
Proof.
  intros f a rdelta aux0 H1 H2.
  assert (ES : initial_simplex (N:=XR) (Fin a) (Fin rdelta) [2] [Fin 0; Fin 0] = [F2 0 a; F2 a 0; F2 0 0]).
  { cbn. unfold F2. feq; ring. }
  rewrite ES. unfold nm_step, nm_start, init_step, shrink_simplex. cbn [nm_first_pass nm_simplex nm_counts nm_aux nm_f_best nm_best nth map].
  change (F2 0 a) with (map Fin [0; a]%R). change (F2 a 0) with (map Fin [a; 0]%R). change (F2 0 0) with (map Fin [0; 0]%R).
  rewrite !objective_Fin. cbn [fst nneg XR xneg]. rewrite !top1_3.
  rewrite (Rltb_t (- f [0; a]%R) (- f [a; 0]%R)), (Rltb_t (- f [a; 0]%R) (- f [0; 0]%R)) by lra.
  rewrite (Rltb_f (f [0; a]%R) (f [a; 0]%R)), (Rltb_f (f [0; a]%R) (f [0; 0]%R)) by lra.
  cbn [remove_at]. rewrite top1_2, (Rltb_f (f [a; 0]%R) (f [0; 0]%R)) by lra.
  constructor; cbn; try reflexivity. rewrite Ropp_involutive. reflexivity.
Qed.

(** Convergence test of such a state. *)
Lemma tri_conv : forall f i pu qu pw qw st rtol atol,
  i = 0 \/ i = 1 -> tri f i pu qu pw qw st -> f [0; 0]%R = 0%R -> (0 < atol)%R ->
  (Rabs pu < atol)%R -> (Rabs qu < atol)%R -> (Rabs pw < atol)%R -> (Rabs qw < atol)%R ->
  (Rabs (f [pu; qu]) < atol)%R -> (Rabs (f [pw; qw]) < atol)%R ->
  nm_converged (Fin rtol) (Fin atol) (max_norm (N:=XR)) st = true.
Proof.
  intros f i pu qu pw qw st rtol atol Hi [T1 T2 T3 T4 _ _ _ _ _] F0 Ha A1 A2 A3 A4 B1 B2.
  assert (D : forall x, (Rabs x < atol)%R -> nltb (n:=XR) (nabs (ndiv (nabs (nsub (Fin x) (Fin 0))) (nadd (Fin atol) (nmul (Fin rtol) (nabs (Fin 0)))))) (nofQ 1) = true).
  { intros x Hx. cbn [nltb nabs ndiv nsub nadd nmul nofQ XR xabs xsub xneg xadd xmul].
    rewrite Rabs_R0, Rmult_0_r, Rplus_0_r, Ropp_0, Rplus_0_r, xdiv_fin by lra. cbn [xabs]. apply xltb_fin. rewrite Q2R_1.
    unfold Rdiv. rewrite Rabs_mult, Rabs_Rabsolu, Rabs_inv, (Rabs_pos_eq atol) by lra.
    apply (Rmult_lt_reg_r atol); auto. rewrite Rmult_assoc, Rinv_l by lra. lra. }
  assert (D0 : (Rabs 0 < atol)%R) by (rewrite Rabs_R0; exact Ha).
  unfold nm_converged. cbv zeta. rewrite T1, T2, T3, T4, F0. apply andb_true_iff.
  split; apply (max_norm_lt XR_laws); try apply (dl_01 XR XR_div); destruct Hi as [-> | ->]; cbn [concat map app F2 vdiv vabs vsub vmap2]; rewrite ?F0;
    repeat constructor; apply D; assumption.
Qed.

(** Nelder-Mead is not a convergent method, even on functions that are strongly convex and smooth, the class
    on which gradient descent and BFGS converge globally and linearly (C83, C84).  For every choice of
    tolerances, of the size of the initial simplex and of a bound B there is such a function of two unknowns
    on which the solve started from (0, 0) stops with success and returns (0, 0), although the function has a
    value smaller by B elsewhere. *)
Lemma C108_strongly_convex_refuted_pf :
  forall (rtol atol rdelta adelta B : R) fs auxs,
    (0 <= rtol)%R -> (0 < atol)%R -> (0 < adelta)%R -> (0 < B)%R ->
    let s := NelderMead (Fin rtol) (Fin atol) (max_norm (N:=XR)) (Fin rdelta) (Fin adelta) [2] in
    exists (f : list R -> R) (g : list R -> list R) (mu L : R) (z : list R),
      (0 < mu)%R /\ strongly_convex 2 mu f g /\ smooth 2 L f g /\
      length z = 2 /\ f z = (f [0; 0] - B)%R /\
      exists K, forall fuel ms throw, K < fuel -> (forall m, ms = Some m -> K <= m) ->
        exists sol, iterative_solve vallfinite s (objective f) fuel ms throw [Fin 0; Fin 0] fs auxs = Ret sol /\
          result sol = successful /\ value sol = [Fin 0; Fin 0].
Proof.
  intros rtol atol rdelta a B fs auxs Hr Hat Ha HB s.
  set (c := (4 * B)%R). assert (Hc : (0 < c)%R) by (unfold c; lra).
  set (f := mck a c). exists f, (mck_grad a c), (13 * c / (8 * a ^ 2))%R, (1620 * c / a ^ 2)%R, [2 * a / sqrt 33; - l1 * (2 * a / sqrt 33)]%R.
  assert (F0 : f [0; 0]%R = 0%R) by (apply mck_0; exact Ha).
  split; [apply Rdiv_lt_0_compat; nra|]. split; [apply mck_strong; assumption|]. split; [apply mck_smooth; assumption|].
  split; [reflexivity|]. split.
  { rewrite F0. transitivity (- c / 4)%R; [apply mck_min; exact Ha|]. unfold c. field. }
  set (fn := objective f). set (st0 := nm_start (initial_simplex (N:=XR) (Fin a) (Fin rdelta) [2] [Fin 0; Fin 0]) (auxs fill0)).
  assert (Hi : s_init s fn [Fin 0; Fin 0] fs auxs = Ret st0) by reflexivity.
  set (S_ := st_at s fn [Fin 0; Fin 0] st0 (auxs fill0)).
  assert (FFn : forall n, f [pp a n; qq a n] = FF a c n) by reflexivity.
  assert (T : forall n, tri f (n mod 2) (pp a n) (qq a n) (pp a (S n)) (qq a (S n)) (S_ (S n))).
  { induction n as [|n IH].
    - apply tri_init.
      + rewrite F0. exact (FF_pos a c Ha Hc 1).
      + exact (FF_dec a c Ha Hc 0).
    - assert (M : n mod 2 = 0 \/ n mod 2 = 1) by (pose proof (Nat.mod_upper_bound n 2 ltac:(lia)); lia).
      assert (E : S n mod 2 = 1 - n mod 2).
      { pose proof (Nat.div_mod n 2 ltac:(lia)). destruct M as [M | M]; rewrite M in *; cbn [Nat.sub].
        - replace (S n) with (1 + (n / 2) * 2) by lia. rewrite Nat.mod_add by lia. reflexivity.
        - replace (S n) with (0 + (S (n / 2)) * 2) by lia. rewrite Nat.mod_add by lia. reflexivity. }
      rewrite E.
      apply (tri_step f (n mod 2) (pp a n) (qq a n) (pp a (S n)) (qq a (S n)) (S_ (S n)) M IH).
      + rewrite F0. exact (FF_pos a c Ha Hc (S n)).
      + exact (FF_dec a c Ha Hc n).
      + exact (FF_refl a c Ha Hc n).
      + rewrite F0. exact (FF_pos a c Ha Hc (S (S n))).
      + exact (FF_dec a c Ha Hc (S n)). }
  assert (Y : forall k, y_at s fn [Fin 0; Fin 0] st0 (auxs fill0) k = [Fin 0; Fin 0]).
  { intros [|k]; [reflexivity|]. unfold s. rewrite nm_y_S. exact (tri_best _ _ _ _ _ _ _ (T k)). }
  assert (FB : forall k, nm_f_best (S_ k) = Fin 0).
  { intros [|k]; [unfold S_; cbn; rewrite Q2R_0; reflexivity|]. rewrite <- F0. exact (tri_fbest _ _ _ _ _ _ _ (T k)). }
  assert (SR : forall k, says_result s fn [Fin 0; Fin 0] st0 (auxs fill0) k = successful).
  { intro k. change (snd (nm_terminate (Fin rtol) (Fin atol) (max_norm (N:=XR)) (S_ k)) = successful). unfold nm_terminate. rewrite FB. reflexivity. }
  assert (AF : forall k, vallfinite (N:=XR) (asked s fn [Fin 0; Fin 0] st0 (auxs fill0) k) = true).
  { intro k. unfold asked. rewrite Y. reflexivity. }
  assert (TE : exists k, says_terminate s fn [Fin 0; Fin 0] st0 (auxs fill0) k = true).
  { pose proof l_range as LR.
    destruct (pow_lt_1_zero l1 ltac:(rewrite Rabs_pos_eq; lra) (atol / (3 * a + 8 * c))%R) as [n Hn].
    { apply Rdiv_lt_0_compat; lra. }
    exists (S n). change (fst (nm_terminate (Fin rtol) (Fin atol) (max_norm (N:=XR)) (S_ (S n))) = true). unfold nm_terminate. cbn [fst].
    assert (SM : forall m, n <= m -> (Rabs (pp a m) < atol /\ Rabs (qq a m) < atol /\ Rabs (f [pp a m; qq a m]) < atol)%R).
    { intros m Hm. specialize (Hn m Hm). destruct (pow_facts m) as ((P & _) & _). rewrite Rabs_pos_eq in Hn by lra.
      destruct (small a c Ha Hc m) as (S1 & S2 & S3). rewrite FFn, (Rabs_pos_eq (FF a c m)) by (left; apply FF_pos; assumption).
      apply (Rmult_lt_compat_r (3 * a + 8 * c)) in Hn; [|lra]. unfold Rdiv in Hn. rewrite Rmult_assoc, Rinv_l, Rmult_1_r in Hn by lra.
      set (x := (l1 ^ m)%R) in *. assert (0 < a * x)%R by (apply Rmult_lt_0_compat; lra). assert (0 < c * x)%R by (apply Rmult_lt_0_compat; lra).
      repeat split; nra. }
    destruct (SM n (le_n _)) as (A1 & A2 & A3). destruct (SM (S n) (le_S _ _ (le_n _))) as (A4 & A5 & A6).
    rewrite (tri_conv f (n mod 2) _ _ _ _ _ rtol atol ltac:(pose proof (Nat.mod_upper_bound n 2 ltac:(lia)); lia) (T n) F0 Hat A1 A2 A4 A5 A3 A6). reflexivity. }
  destruct (solve_succeeds vallfinite s fn [Fin 0; Fin 0] st0 _ fs auxs eq_refl Hi SR AF TE) as (k & _ & _ & Sol).
  exists k. intros fuel ms throw Hf Hms. eexists. destruct (Sol fuel ms throw Hf Hms) as [E1 E2]. split; [exact E1|]. split; [exact E2|].
  etransitivity; [|apply (Y k)]. reflexivity.
Qed.

(** The simplex the code uses by default, tolerances of one in a million, and a minimum a million lower. *)
Example C108_strongly_convex_refuted_ex_pf : forall fs auxs,
    let s := NelderMead (Fin (/ 1000000)) (Fin (/ 1000000)) (max_norm (N:=XR)) (Fin (5 / 100)) (Fin (25 / 100000)) [2] in
    exists (f : list R -> R) (g : list R -> list R) (mu L : R) (z : list R),
      (0 < mu)%R /\ strongly_convex 2 mu f g /\ smooth 2 L f g /\ length z = 2 /\ f z = (f [0; 0] - 1000000)%R /\
      exists K sol, iterative_solve vallfinite s (objective f) (S K) (Some K) true [Fin 0; Fin 0] fs auxs = Ret sol /\
        result sol = successful /\ value sol = [Fin 0; Fin 0].
Proof.
  intros fs auxs s.
  destruct (C108_strongly_convex_refuted_pf (/ 1000000) (/ 1000000) (5 / 100) (25 / 100000) 1000000 fs auxs
    ltac:(lra) ltac:(lra) ltac:(lra) ltac:(lra)) as (f & g & mu & L & z & H1 & H2 & H3 & H4 & H5 & K & H6).
  exists f, g, mu, L, z. repeat (split; [assumption|]). exists K.
  apply (H6 (S K) (Some K) true); [lia|]. intros m E. injection E as <-. lia.
Qed.
